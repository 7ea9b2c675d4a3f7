(** Values and derivatives of rational expressions. *)
From Coq Require Import String ZArith.
From mathcomp Require Import all_ssreflect all_algebra.
From mathcomp Require Import ring.
From Verif Require Import Model.Prelude Model.Gem Model.Sympy2Gem Model.Serendipity Model.SerendipityEvaluation.
From Verif Require Import Spec.Partial Spec.Algebra Spec.Sympy Spec.SerendipityEvaluation Proofs.SerendipityRel.
Set Implicit Arguments.
Unset Strict Implicit.
Unset Printing Implicit Defensive.
Import GRing.Theory.
Local Open Scope ring_scope.

Section Deriv.
  Variable F : fieldType.
  Implicit Types (rho : string -> option F) (e : rexpr).

  Ltac gen2 Pa Qa Pb Qb h := move: (Pa.[h]) (Qa.[h]) (Pb.[h]) (Qb.[h]).
  (** Expansions. *)
  Definition expands rho s x e (y d : F) : Prop :=
    exists P Q : {poly F}, Q.[0] != 0 /\
      forall h, Q.[h] != 0 -> rvalue (set_symbol rho s (x + h)) e = Some (y + h * d + h ^+ 2 * (P.[h] / Q.[h])).

  Lemma expands_value rho s x e y d : expands rho s x e y d -> rvalue (set_symbol rho s x) e = Some y.
  Proof. by move=> [P [Q [Q0 /(_ 0 Q0)]]]; rewrite addr0 => ->; rewrite expr0n /= !mul0r !addr0. Qed.

  Lemma expands_const rho s x e y : (forall h, rvalue (set_symbol rho s (x + h)) e = Some y) -> expands rho s x e y 0.
  Proof.
    move=> H; exists 0, 1; split=> [|h _]; first by rewrite hornerC oner_neq0.
    by rewrite H horner0 mul0r !mulr0 !addr0.
  Qed.

  Lemma expands_ok s rho x e y : rho s = Some x -> rvalue rho e = Some y ->
    exists d, rvalue rho (derive s e) = Some d /\ expands rho s x e y d.
  Proof.
    move=> Hs; elim: e y => [n|t|a IHa b IHb|a IHa b IHb|a IHa b IHb|a IHa|a IHa b IHb] y /=.
    - case=> <-; exists 0; split=> //. exact: expands_const.
    - move=> Ht; case: (String.eqb_spec s t) => E.
      + exists 1; split=> //; exists 0, 1; split=> [|h _]; first by rewrite hornerC oner_neq0.
        move: Ht; rewrite -E Hs => -[<-] /=.
        by rewrite /set_symbol E String.eqb_refl horner0 mul0r !mulr0 addr0 mulr1.
      + exists 0; split=> //; apply: expands_const => h /=.
        by rewrite /set_symbol (proj2 (String.eqb_neq s t) E).
    - case Ea: (rvalue rho a) => [ya|] //; case Eb: (rvalue rho b) => [yb|] // -[<-].
      have [da [-> [Pa [Qa [Qa0 Ha]]]]] := IHa _ Ea. have [db [-> [Pb [Qb [Qb0 Hb]]]]] := IHb _ Eb.
      exists (da + db); split=> //; exists (Pa * Qb + Pb * Qa), (Qa * Qb); split=> [|h]; rewrite !hornerE; first exact: mulf_neq0.
      rewrite mulf_eq0 negb_or => /andP [na nb] /=. rewrite Ha // Hb //=. congr Some. move: na nb; gen2 Pa Qa Pb Qb h => pa qa pb qb na nb. by field; rewrite na nb.
    - case Ea: (rvalue rho a) => [ya|] //; case Eb: (rvalue rho b) => [yb|] // -[<-].
      have [da [-> [Pa [Qa [Qa0 Ha]]]]] := IHa _ Ea. have [db [-> [Pb [Qb [Qb0 Hb]]]]] := IHb _ Eb.
      exists (da * yb + ya * db); split=> //.
      exists ((da * db)%:P * (Qa * Qb) + yb%:P * (Pa * Qb) + ya%:P * (Pb * Qa) + 'X * (da%:P * (Pb * Qa) + db%:P * (Pa * Qb)) + 'X * 'X * (Pa * Pb)), (Qa * Qb).
      split=> [|h]; rewrite !hornerE; first exact: mulf_neq0.
      rewrite mulf_eq0 negb_or => /andP [na nb] /=. rewrite Ha // Hb //=. congr Some. move: na nb; gen2 Pa Qa Pb Qb h => pa qa pb qb na nb. by field; rewrite na nb.
    - case Ea: (rvalue rho a) => [ya|] //; case Eb: (rvalue rho b) => [yb|] // -[<-].
      have [da [-> [Pa [Qa [Qa0 Ha]]]]] := IHa _ Ea. have [db [-> [Pb [Qb [Qb0 Hb]]]]] := IHb _ Eb.
      exists (da - db); split=> //; exists (Pa * Qb - Pb * Qa), (Qa * Qb); split=> [|h]; rewrite !hornerE; first exact: mulf_neq0.
      rewrite mulf_eq0 negb_or => /andP [na nb] /=. rewrite Ha // Hb //=. congr Some. move: na nb; gen2 Pa Qa Pb Qb h => pa qa pb qb na nb. by field; rewrite na nb.
    - case Ea: (rvalue rho a) => [ya|] // -[<-].
      have [da [-> [Pa [Qa [Qa0 Ha]]]]] := IHa _ Ea.
      exists (- da); split=> //; exists (- Pa), Qa; split=> // h na; rewrite /= Ha // hornerN /=. congr Some. move: (Pa.[h]) (Qa.[h]) na => pa qa na. by field.
    - case Ea: (rvalue rho a) => [ya|] //; case Eb: (rvalue rho b) => [yb|] //; case: eqP => // /eqP nyb -[<-].
      have [da [-> [Pa [Qa [Qa0 Ha]]]]] := IHa _ Ea. have [db [-> [Pb [Qb [Qb0 Hb]]]]] := IHb _ Eb.
      rewrite /= mulf_eq0 orbb (negbTE nyb). eexists; split; first by [].
      pose B := (yb%:P + 'X * db%:P) * Qb + 'X * 'X * Pb.
      pose N := (yb * yb)%:P * (Pa * Qb) - (ya * yb)%:P * (Pb * Qa) - (da * yb - ya * db)%:P * (db%:P * (Qa * Qb) + 'X * (Pb * Qa)).
      exists (N * Qb), ((yb * yb)%:P * Qa * Qb * B).
      split=> [|h]; rewrite /N /B !hornerE ?mulf_eq0 ?negb_or.
      + by rewrite ?mul0r ?addr0 ?mul0r ?addr0 nyb Qa0 Qb0.
      + move=> /andP [/andP [/andP [_ na] nb] nB] /=. rewrite Ha // Hb //=.
        move: na nb nB; gen2 Pa Qa Pb Qb h => pa qa pb qb na nb nB.
        have E : yb + h * db + h ^+ 2 * (pb / qb) = ((yb + h * db) * qb + h * h * pb) / qb by field.
        have nb' : yb + h * db + h ^+ 2 * (pb / qb) != 0 by rewrite E mulf_neq0 ?invr_neq0.
        rewrite (negbTE nb'). congr Some. rewrite E. field. by rewrite na nb nB nyb.
  Qed.
End Deriv.
