(** Facts about the sample rules. *)
From Coq Require Import String List Arith Lia ZArith QArith Qcanon.
From Verif Require Import Model.Prelude Model.Cell Model.Element Model.Gem Model.PointSet Model.Quadrature.
From Verif Require Import Spec.Rowmajor Spec.Tabulation Spec.Quadrature Spec.QSamples.
Import ListNotations.

Lemma qc_ring : ring_theory (f0 qops) (f1 qops) (fadd qops) (fmul qops) (fsub qops) (fopp qops) eq.
Proof. exact Qcrt. Qed.

Lemma zeros_sum : forall (f : list Qc -> Qc) ps n,
  fold_right (fadd qops) (f0 qops) (map (fun pw => fmul qops (snd pw) (f (fst pw))) (combine ps (repeat 0%Qc n))) = 0%Qc.
Proof.
  intros f ps n. revert ps. induction n as [|n IH]; intros [|p ps]; try reflexivity.
  cbn [repeat combine map fold_right fst snd fadd fmul qops] in *. rewrite (IH ps). ring.
Qed.

Lemma mid_rule_ok : forall m, (1 <= m)%nat -> fiat_rule_ok (Simplex 1) (mid_rule (Simplex 1) m).
Proof.
  intros m Hm. unfold fiat_rule_ok, mid_rule. cbn [fst snd]. split; [destruct m; [lia | discriminate]|].
  split; [cbn [length]; rewrite !repeat_length; lia|]. intros p Hp. apply repeat_spec in Hp as ->. reflexivity.
Qed.

Lemma mid_rule_exact : forall m d, (1 <= m)%nat -> fiat_rule_exact qops affine_poly (Simplex 1) d (mid_rule (Simplex 1) m).
Proof.
  intros m d Hm f I (_ & [(_ & a & b & Hf & ->)|(E & _)]); [|discriminate].
  unfold mid_rule. cbn [fst snd]. destruct m as [|m]; [lia|]. cbn [repeat combine map fold_right fst snd].
  replace (S m - 1)%nat with m by lia. rewrite zeros_sum. rewrite Hf. cbn [nth fadd fmul qops]. ring.
Qed.

Lemma mid_gauss : gauss_legendre_ok qops affine_poly mid_rule.
Proof.
  intros c m Hc Hm. destruct c as [[|[|]]|?|?]; try discriminate.
  split; [apply mid_rule_ok; exact Hm|]. split; [apply repeat_length|]. intros d _. apply mid_rule_exact. exact Hm.
Qed.

Lemma centre_scheme : fiat_scheme_ok qops affine_poly centre_rule.
Proof.
  intros c d s r H. destruct c as [[|[|[|]]]|?|?]; try discriminate.
  - cbn [centre_rule] in H. injection H as <-. split; [apply mid_rule_ok; lia | apply mid_rule_exact; lia].
  - cbn [centre_rule] in H. injection H as <-. split.
    + split; [discriminate|]. split; [reflexivity|]. intros p [<-|[]]. reflexivity.
    + intros f I (_ & [(E & _)|(_ & a & b & b' & Hf & ->)]); [discriminate|].
      cbn [fst snd combine map fold_right]. rewrite Hf. cbn [nth fadd fmul f0 qops]. ring.
Qed.

Lemma grid_ok : rule_ok grid_rule.
Proof.
  apply ro_tensor; [discriminate|]. repeat constructor; try discriminate; cbn; intros p H;
  repeat (destruct H as [<-|H]; [reflexivity|]); destruct H.
Qed.
