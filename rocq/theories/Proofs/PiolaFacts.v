(** The transformations of normal and tangential moments. *)
From mathcomp Require Import all_ssreflect all_algebra ring.
From Verif Require Import Model.Gem Model.Piola Spec.Algebra Proofs.Determinant.
Set Implicit Arguments.
Unset Strict Implicit.
Unset Printing Implicit Defensive.
Import GRing.Theory Num.Theory.
Local Open Scope ring_scope.

Lemma sum2 (R : ringType) (f : 'I_2 -> R) : \sum_i f i = f 0 + f 1.
Proof. rewrite !big_ord_recl big_ord0 addr0; congr (_ + f _); exact/val_inj. Qed.

Lemma sum3 (R : ringType) (f : 'I_3 -> R) : \sum_i f i = f 0 + f 1 + f (1 + 1).
Proof.
rewrite !big_ord_recl big_ord0 addr0 addrA; congr (_ + f _ + f _); exact/val_inj.
Qed.

Lemma det2 (R : comRingType) (A : 'M[R]_2) : \det A = A 0 0 * A 1 1 - A 0 1 * A 1 0.
Proof.
rewrite (expand_det_row _ 0) sum2 /cofactor !det_mx11 !mxE /= expr0 expr1.
set a := lift _ _; have -> : a = 1 by exact/val_inj.
set b := lift _ _; have -> : b = 0 by exact/val_inj.
by rewrite mul1r mulN1r mulrN.
Qed.

Lemma inner2 (R : ringType) (u v : 'cV[R]_2) : inner u v = u 0 0 * v 0 0 + u 1 0 * v 1 0.
Proof. by rewrite /inner mxE sum2 !mxE. Qed.
Lemma mulv2 (R : ringType) (A : 'M[R]_2) (v : 'cV[R]_2) i : (A *m v) i 0 = A i 0 * v 0 0 + A i 1 * v 1 0.
Proof. by rewrite mxE sum2. Qed.
Lemma turned0 (R : ringType) (u : 'cV[R]_2) : turned u 0 0 = u 1 0.
Proof. by rewrite mxE. Qed.
Lemma turned1 (R : ringType) (u : 'cV[R]_2) : turned u 1 0 = - u 0 0.
Proof. by rewrite mxE. Qed.
Lemma scalev (R : ringType) n (c : R) (u : 'cV[R]_n) i : (c *: u) i 0 = c * u i 0.
Proof. by rewrite mxE. Qed.
Lemma piolav (R : comUnitRingType) n (J : 'M[R]_n) (u : 'cV[R]_n) i : piola J u i 0 = (\det J)^-1 * (J *m u) i 0.
Proof. by rewrite mxE. Qed.
Lemma vectorE (R : ringType) n f i : vector_of (R := R) n f i 0 = f i.
Proof. by rewrite mxE. Qed.
Lemma tableE (R : ringType) m n f i j : table_of (R := R) m n f i j = f i j.
Proof. by rewrite mxE. Qed.
Lemma mod2 : (1 %% 2)%N = 1%N. Proof. by []. Qed.
Definition entries := (inner2, mulv2, turned0, turned1, scalev, piolav, vectorE, tableE).

Lemma inner3 (R : ringType) (u v : 'cV[R]_3) :
  inner u v = u 0 0 * v 0 0 + u 1 0 * v 1 0 + u (1 + 1) 0 * v (1 + 1) 0.
Proof. by rewrite /inner mxE sum3 !mxE. Qed.
Lemma mulv3 (R : ringType) (A : 'M[R]_3) (v : 'cV[R]_3) i :
  (A *m v) i 0 = A i 0 * v 0 0 + A i 1 * v 1 0 + A i (1 + 1) * v (1 + 1) 0.
Proof. by rewrite mxE sum3. Qed.
Lemma cross0 (R : ringType) (u v : 'cV[R]_3) :
  cross_product u v 0 0 = u 1 0 * v (1 + 1) 0 - u (1 + 1) 0 * v 1 0.
Proof. by rewrite mxE add0r. Qed.
Lemma cross1 (R : ringType) (u v : 'cV[R]_3) :
  cross_product u v 1 0 = u (1 + 1) 0 * v 0 0 - u 0 0 * v (1 + 1) 0.
Proof. rewrite mxE; have -> : 1 + 1 + 1 = 0 :> 'I_3 by exact/val_inj. by []. Qed.
Lemma cross2 (R : ringType) (u v : 'cV[R]_3) :
  cross_product u v (1 + 1) 0 = u 0 0 * v 1 0 - u 1 0 * v 0 0.
Proof. rewrite mxE; have -> : 1 + 1 + 1 = 0 :> 'I_3 by exact/val_inj. by rewrite add0r. Qed.
Lemma val0 : (0 : 'I_3) = 0%N :> nat. Proof. by []. Qed.
Lemma val1 : (1 : 'I_3) = 1%N :> nat. Proof. by []. Qed.
Lemma val2 : (1 + 1 : 'I_3) = 2%N :> nat. Proof. by []. Qed.
Definition entries3 := (inner3, mulv3, cross0, cross1, cross2, scalev, piolav, vectorE, tableE, val0, val1, val2).

Section Facts.
Variable F : realFieldType.
Local Notation o := (ring_ops F).

Lemma ord2 (i : 'I_2) : i = 0 \/ i = 1.
Proof. case: i => -[|[|//]] h; [left|right]; exact/val_inj. Qed.

Lemma squares2 (x y : F) : x * x + y * y = 0 -> x = 0 /\ y = 0.
Proof.
move/eqP; rewrite paddr_eq0 ?mulf_eq0 ?orbb; last 2 first.
- by rewrite -expr2 sqr_ge0.
- by rewrite -expr2 sqr_ge0.
by case/andP => /eqP -> /eqP ->.
Qed.

Lemma solve2 (B d A X N x y p q : F) : B != 0 -> d != 0 ->
  B * X = - A * N + (x * p + y * q) -> X = - A / B * N + d / B * (x * (d^-1 * p) + y * (d^-1 * q)).
Proof.
move=> hB hd e; apply: (mulfI hB); rewrite e; field; by rewrite hB hd.
Qed.

Lemma edge_transform (J : nat -> nat -> F) (that : nat -> F) (norm : F) (v : 'cV[F]_2) :
  let Jm := table_of 2 2 J in
  let t := norm^-1 *: vector_of 2 that in
  let row := normal_tangential_edge_transform o J (\det Jm) that norm in
  \det Jm != 0 -> vector_of 2 that != 0 -> norm ^+ 2 = inner (vector_of 2 that) (vector_of 2 that) ->
  inner (turned (Jm *m t)) (piola Jm v) = inner (turned t) v /\
  inner t v = row.1 * inner (turned (Jm *m t)) (piola Jm v) + row.2 * inner (Jm *m t) (piola Jm v).
Proof.
move=> Jm t row hdet hthat hnorm.
have hd : \det Jm = J 0%N 0%N * J 1%N 1%N - J 0%N 1%N * J 1%N 0%N by rewrite det2 !mxE.
have hn : norm != 0.
  apply/eqP => h0; move: hnorm; rewrite h0 expr0n /inner !mxE sum2 !mxE /= => e.
  case: (squares2 (esym e)) => e0 e1; move/negP: hthat; apply; apply/eqP/colP => i; rewrite !mxE.
  by case: (ord2 i) => ->.
set a := that 0%N; set b := that 1%N.
have hab : norm * norm = a * a + b * b by rewrite -expr2 hnorm /inner !mxE sum2 !mxE.
set d := \det Jm in hdet hd row *.
have hb : let x := J 0%N 0%N * a + J 0%N 1%N * b in let y := J 1%N 0%N * a + J 1%N 1%N * b in x * x + y * y != 0.
  move=> x y; apply/eqP => /squares2 [hx hy].
  have e0 : d * a = J 1%N 1%N * x - J 0%N 1%N * y by rewrite hd /x /y; ring.
  have e1 : d * b = J 0%N 0%N * y - J 1%N 0%N * x by rewrite hd /x /y; ring.
  move: e0 e1; rewrite hx hy !mulr0 subr0 => /eqP; rewrite mulf_eq0 (negbTE hdet) /= => /eqP ea /eqP.
  rewrite mulf_eq0 (negbTE hdet) /= => /eqP eb; move: hab; rewrite ea eb !mulr0 addr0 => /eqP.
  by rewrite mulf_eq0 orbb (negbTE hn).
have key : inner (turned (Jm *m t)) (piola Jm v) = inner (turned t) v.
  rewrite /t /Jm !entries -/Jm -/d /= !mod2 -/a -/b.
  by rewrite hd; field; rewrite -hd hn hdet.
split=> //; rewrite key.
rewrite /row /normal_tangential_edge_transform /matvec /dot /fsum /rotate /= -/a -/b.
rewrite /t /Jm !entries -/Jm -/d /= !mod2 -/a -/b !addr0 ![norm^-1 * _]mulrC.
have h1 : (a / norm) * (a / norm) + (b / norm) * (b / norm) = 1.
  have -> : (a / norm) * (a / norm) + (b / norm) * (b / norm) = (a * a + b * b) / (norm * norm) by field.
  by rewrite -hab divff // mulf_neq0.
have hb' : let x := J 0%N 0%N * (a / norm) + J 0%N 1%N * (b / norm) in
  let y := J 1%N 0%N * (a / norm) + J 1%N 1%N * (b / norm) in x * x + y * y != 0.
  move=> /=; move: hb => /= hb.
  match goal with |- is_true (?e != _) => have -> : e =
   ((J 0%N 0%N * a + J 0%N 1%N * b) * (J 0%N 0%N * a + J 0%N 1%N * b) +
    (J 1%N 0%N * a + J 1%N 1%N * b) * (J 1%N 0%N * a + J 1%N 1%N * b)) / (norm * norm) by field end.
  by rewrite mulf_neq0 // invr_eq0 mulf_neq0.
move: h1 hb' => /=; clear hb key hab; move: (a / norm) (b / norm) => x y h1 hb.
have hx : x * x = 1 - y * y by rewrite -h1; ring.
by apply: solve2 => //; ring: hx.
Qed.

Lemma squares3 (x y z : F) : x * x + y * y + z * z = 0 -> x = 0 /\ y = 0 /\ z = 0.
Proof.
move/eqP; rewrite paddr_eq0; last 2 first.
- by rewrite addr_ge0 // -expr2 sqr_ge0.
- by rewrite -expr2 sqr_ge0.
by case/andP => /eqP /squares2 [-> ->]; rewrite mulf_eq0 orbb => /eqP ->.
Qed.

Lemma solve3 (D A00 A01 A10 A11 A20 A21 d x y m s0 s1 : F) :
  A10 * A21 - A11 * A20 != 0 ->
  D = A10 * A21 - A11 * A20 ->
  d * s0 = m * A00 - x * A10 - y * A20 -> d * s1 = m * A01 - x * A11 - y * A21 ->
  x = - (A20 * A01 - A21 * A00) / D * m + - (d / D * A21) * s0 + d / D * A20 * s1 /\
  y = - (A00 * A11 - A01 * A10) / D * m + d / D * A11 * s0 + - (d / D * A10) * s1.
Proof.
move=> hD -> e0 e1; split; apply: (mulfI hD).
  transitivity (- (A20 * A01 - A21 * A00) * m - A21 * (d * s0) + A20 * (d * s1)); last by field.
  by rewrite e0 e1; ring.
transitivity (- (A00 * A11 - A01 * A10) * m + A11 * (d * s0) - A10 * (d * s1)); last by field.
by rewrite e0 e1; ring.
Qed.

Lemma ord3 (i : 'I_3) : [\/ i = 0, i = 1 | i = 1 + 1].
Proof. case: i => -[|[|[|//]]] h; [constructor 1|constructor 2|constructor 3]; exact/val_inj. Qed.

Lemma face_transform (J : nat -> nat -> F) (t0 t1 : nat -> F) (v : 'cV[F]_3) :
  let Jm := table_of 3 3 J in
  let s0 := vector_of 3 t0 in
  let s1 := vector_of 3 t1 in
  let rows := normal_tangential_face_transform o J (\det Jm) t0 t1 in
  let u := piola Jm v in
  \det Jm != 0 -> cross_product s0 s1 != 0 ->
  let moment := inner (cross_product (Jm *m s0) (Jm *m s1)) u in
  moment = inner (cross_product s0 s1) v /\
  inner s0 v = rows.1.1.1 * moment + rows.1.1.2 * inner (Jm *m s0) u + rows.1.2 * inner (Jm *m s1) u /\
  inner s1 v = rows.2.1.1 * moment + rows.2.1.2 * inner (Jm *m s0) u + rows.2.2 * inner (Jm *m s1) u.
Proof.
move=> Jm s0 s1 rows u hdet hc moment.
have hd : \det Jm = J 0%N 0%N * (J 1%N 1%N * J 2%N 2%N - J 1%N 2%N * J 2%N 1%N) - J 0%N 1%N * (J 1%N 0%N * J 2%N 2%N - J 1%N 2%N * J 2%N 0%N)
  + J 0%N 2%N * (J 1%N 0%N * J 2%N 1%N - J 1%N 1%N * J 2%N 0%N) :> F.
  have := determinantE (rows_shape 3 J); rewrite rows_matrix -/Jm => <-.
  by rewrite /determinant /entry /alternate /without /=; ring.
have hm : moment = inner (cross_product s0 s1) v.
  rewrite /moment /u /s0 /s1 /Jm !entries3 -/Jm hd; field; by rewrite -hd.
split=> //; rewrite hm.
set d := \det Jm in rows hdet hd *.
set m := inner (cross_product s0 s1) v.
set c0 := t0 1%N * t1 2%N - t0 2%N * t1 1%N.
set c1 := t0 2%N * t1 0%N - t0 0%N * t1 2%N.
set c2 := t0 0%N * t1 1%N - t0 1%N * t1 0%N.
set nn := c0 * c0 + c1 * c1 + c2 * c2.
have hnn : nn != 0.
  apply/eqP => /squares3 [e0 [e1 e2]]; move/negP: hc; apply; apply/eqP/colP => i; rewrite [RHS]mxE.
  by case: (ord3 i) => ->; rewrite !entries3.
pose nh := fun i => cross o t0 t1 i / dot o 3 (cross o t0 t1) (cross o t0 t1).
pose A := fun a b => dot o 3 (matvec o 3 J (match a with 0 => nh | 1 => cross o nh t1 | _ => cross o t0 nh end))
  (matvec o 3 J (match b with 0 => t0 | _ => t1 end)).
have hnh i : nh i = match i with 0 => c0 / nn | 1 => c1 / nn | _ => c2 / nn end.
  rewrite /nh; have -> : dot o 3 (cross o t0 t1) (cross o t0 t1) = nn.
    by rewrite /dot /fsum /cross /= /nn /c0 /c1 /c2 addr0 addrA.
  by case: i => [|[|i]].
have dotE f g : dot o 3 f g = f 0%N * g 0%N + f 1%N * g 1%N + f 2%N * g 2%N :> F by rewrite /dot /fsum /= addr0 addrA.
have matE f i : matvec o 3 J f i = J i 0%N * f 0%N + J i 1%N * f 1%N + J i 2%N * f 2%N :> F by rewrite /matvec /fsum /= addr0 addrA.
pose w i := v (match i with 0%N => 0 | 1%N => 1 | _ => 1 + 1 end) 0.
have w0 : v 0 0 = w 0%N by [].
have w1 : v 1 0 = w 1%N by [].
have w2 : v (1 + 1) 0 = w 2%N by [].
pose p0 := t0 0%N * w 0%N + t0 1%N * w 1%N + t0 2%N * w 2%N.
pose p1 := t1 0%N * w 0%N + t1 1%N * w 1%N + t1 2%N * w 2%N.
pose mm := c0 * w 0%N + c1 * w 1%N + c2 * w 2%N.
have hw0 : w 0%N = mm * (c0 / nn) - p0 * (c1 / nn * t1 2%N - c2 / nn * t1 1%N) - p1 * (t0 1%N * (c2 / nn) - t0 2%N * (c1 / nn)).
  apply: (mulfI hnn); transitivity (mm * c0 - p0 * (c1 * t1 2%N - c2 * t1 1%N) - p1 * (t0 1%N * c2 - t0 2%N * c1)); last by field.
  by rewrite /nn /mm /p0 /p1 /c0 /c1 /c2; ring.
have hw1 : w 1%N = mm * (c1 / nn) - p0 * (c2 / nn * t1 0%N - c0 / nn * t1 2%N) - p1 * (t0 2%N * (c0 / nn) - t0 0%N * (c2 / nn)).
  apply: (mulfI hnn); transitivity (mm * c1 - p0 * (c2 * t1 0%N - c0 * t1 2%N) - p1 * (t0 2%N * c0 - t0 0%N * c2)); last by field.
  by rewrite /nn /mm /p0 /p1 /c0 /c1 /c2; ring.
have hw2 : w 2%N = mm * (c2 / nn) - p0 * (c0 / nn * t1 1%N - c1 / nn * t1 0%N) - p1 * (t0 0%N * (c1 / nn) - t0 1%N * (c0 / nn)).
  apply: (mulfI hnn); transitivity (mm * c2 - p0 * (c0 * t1 1%N - c1 * t1 0%N) - p1 * (t0 0%N * c1 - t0 1%N * c0)); last by field.
  by rewrite /nn /mm /p0 /p1 /c0 /c1 /c2; ring.
have hs0 : inner s0 v = p0 by rewrite /s0 !entries3 w0 w1 w2.
have hs1 : inner s1 v = p1 by rewrite /s1 !entries3 w0 w1 w2.
have hmm : m = mm by rewrite /m /s0 /s1 !entries3 w0 w1 w2.
have hA : forall b, let t := match b with 0 => t0 | _ => t1 end in
  d * inner (Jm *m vector_of 3 t) u = mm * A 0%N b - p0 * A 1%N b - p1 * A 2%N b.
  move=> b t; rewrite /A !dotE !matE /cross !hnh -/t /= /u /Jm !entries3 -/Jm -/d w0 w1 w2.
  move: hw0 hw1 hw2; move: (c0 / nn) (c1 / nn) (c2 / nn) (mm) (p0) (p1) => n0 n1 n2 mm' p0' p1'.
  move: (w 0%N) (w 1%N) (w 2%N) => q0 q1 q2 -> -> ->; field; exact: hdet.
have hD : A 1%N 0%N * A 2%N 1%N - A 1%N 1%N * A 2%N 0%N != 0.
  pose g0 := matvec o 3 J t0; pose g1 := matvec o 3 J t1.
  pose h0 := g0 1%N * g1 2%N - g0 2%N * g1 1%N.
  pose h1 := g0 2%N * g1 0%N - g0 0%N * g1 2%N.
  pose h2 := g0 0%N * g1 1%N - g0 1%N * g1 0%N.
  pose a := matvec o 3 J (cross o nh t1); pose b := matvec o 3 J (cross o t0 nh).
  have lagrange : A 1%N 0%N * A 2%N 1%N - A 1%N 1%N * A 2%N 0%N = (a 1%N * b 2%N - a 2%N * b 1%N) * h0 + (a 2%N * b 0%N - a 0%N * b 2%N) * h1
     + (a 0%N * b 1%N - a 1%N * b 0%N) * h2.
    rewrite /A !dotE -/a -/b -/g0 -/g1 /h0 /h1 /h2; clearbody a b g0 g1; ring.
  have cof (f g : nat -> F) (i k : nat) : matvec o 3 J f i * matvec o 3 J g k - matvec o 3 J f k * matvec o 3 J g i =
    (J i 1%N * J k 2%N - J i 2%N * J k 1%N) * (f 1%N * g 2%N - f 2%N * g 1%N) +
    (J i 2%N * J k 0%N - J i 0%N * J k 2%N) * (f 2%N * g 0%N - f 0%N * g 2%N) +
    (J i 0%N * J k 1%N - J i 1%N * J k 0%N) * (f 0%N * g 1%N - f 1%N * g 0%N).
    by rewrite !matE; ring.
  have hc0 : cross o nh t1 1%N * cross o t0 nh 2%N - cross o nh t1 2%N * cross o t0 nh 1%N = c0 / nn.
    rewrite /cross !hnh /= /nn; move: hnn; rewrite /nn; clear; rewrite /c0 /c1 /c2 => h; by field.
  have hc1 : cross o nh t1 2%N * cross o t0 nh 0%N - cross o nh t1 0%N * cross o t0 nh 2%N = c1 / nn.
    rewrite /cross !hnh /= /nn; move: hnn; rewrite /nn; clear; rewrite /c0 /c1 /c2 => h; by field.
  have hc2 : cross o nh t1 0%N * cross o t0 nh 1%N - cross o nh t1 1%N * cross o t0 nh 0%N = c2 / nn.
    rewrite /cross !hnh /= /nn; move: hnn; rewrite /nn; clear; rewrite /c0 /c1 /c2 => h; by field.
  have e : A 1%N 0%N * A 2%N 1%N - A 1%N 1%N * A 2%N 0%N = (h0 * h0 + h1 * h1 + h2 * h2) / nn.
    rewrite lagrange /a /b !cof hc0 hc1 hc2.
    have -> : h0 = (J 1%N 1%N * J 2%N 2%N - J 1%N 2%N * J 2%N 1%N) * c0 + (J 1%N 2%N * J 2%N 0%N - J 1%N 0%N * J 2%N 2%N) * c1 +
       (J 1%N 0%N * J 2%N 1%N - J 1%N 1%N * J 2%N 0%N) * c2 by rewrite /h0 /g0 /g1 cof.
    have -> : h1 = (J 2%N 1%N * J 0%N 2%N - J 2%N 2%N * J 0%N 1%N) * c0 + (J 2%N 2%N * J 0%N 0%N - J 2%N 0%N * J 0%N 2%N) * c1 +
       (J 2%N 0%N * J 0%N 1%N - J 2%N 1%N * J 0%N 0%N) * c2 by rewrite /h1 /g0 /g1 cof.
    have -> : h2 = (J 0%N 1%N * J 1%N 2%N - J 0%N 2%N * J 1%N 1%N) * c0 + (J 0%N 2%N * J 1%N 0%N - J 0%N 0%N * J 1%N 2%N) * c1 +
       (J 0%N 0%N * J 1%N 1%N - J 0%N 1%N * J 1%N 0%N) * c2 by rewrite /h2 /g0 /g1 cof.
    by move: hnn; move: (nn) (c0) (c1) (c2) => m0 m1 m2 m3 hh; clear -hh; field.
  rewrite e mulf_neq0 // ?invr_eq0 //; apply/eqP => /squares3 [e0 [e1 e2]].
  have q0 : d * c0 = J 0%N 0%N * h0 + J 1%N 0%N * h1 + J 2%N 0%N * h2 by rewrite hd /h0 /h1 /h2 /g0 /g1 !matE /c0; ring.
  have q1 : d * c1 = J 0%N 1%N * h0 + J 1%N 1%N * h1 + J 2%N 1%N * h2 by rewrite hd /h0 /h1 /h2 /g0 /g1 !matE /c1; ring.
  have q2 : d * c2 = J 0%N 2%N * h0 + J 1%N 2%N * h1 + J 2%N 2%N * h2 by rewrite hd /h0 /h1 /h2 /g0 /g1 !matE /c2; ring.
  move: q0 q1 q2; rewrite e0 e1 e2 !mulr0 !addr0.
  move=> /eqP; rewrite mulf_eq0 (negbTE hdet) => /eqP z0.
  move=> /eqP; rewrite mulf_eq0 (negbTE hdet) => /eqP z1.
  move=> /eqP; rewrite mulf_eq0 (negbTE hdet) => /eqP z2.
  by move/eqP: hnn; apply; rewrite /nn z0 z1 z2 !mulr0 !addr0.
rewrite hs0 hs1 hmm.
exact: (solve3 hD (erefl _) (hA 0%N) (hA 1%N)).
Qed.
End Facts.
