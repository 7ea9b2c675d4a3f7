(** The sample rules meet the contract. *)
From Coq Require Import String List Arith Lia ZArith QArith Qcanon Permutation.
From Verif Require Import Model.Prelude Model.Cell Model.Element Model.Gem Model.PointSet Model.Quadrature Model.Orientation.
From Verif Require Import Spec.Rowmajor Spec.Tabulation Spec.Quadrature Spec.QSamples Spec.Orientation Spec.OrientSamples.
Import ListNotations.
Local Open Scope nat_scope.

Lemma odd_flip : forall k m, k < m -> odd_over (m - 1 - k) m = (1 - odd_over k m)%Qc.
Proof.
  intros k m H. unfold odd_over. apply Qc_is_canon. unfold Qcminus, Qcplus, Qcopp, Q2Qc. cbn [this]. rewrite !Qred_correct.
  unfold Qeq, Qplus, Qopp. cbn [Qnum Qden].
  assert (E : Zpos (Pos.of_nat (2 * m)) = (2 * Z.of_nat m)%Z).
  { rewrite <- positive_nat_Z, Nat2Pos.id by lia. lia. }
  rewrite Pos.mul_1_l, E. f_equal. lia.
Qed.

Lemma pieces_nth : forall c m k, k < m -> nth k (fr_points (pieces c m)) [] = [odd_over k m].
Proof.
  intros c m k H. cbn [pieces fr_points]. rewrite (nth_indep _ [] [odd_over (m + 0) m]) by (rewrite map_length, seq_length; exact H).
  rewrite (map_nth (fun k => [odd_over k m]) _ (m + 0)), seq_nth by exact H. reflexivity.
Qed.

Lemma pieces_ok : forall c m, spatial_dimension c = 1 -> 1 <= m -> orientable qops flip c (pieces c m).
Proof.
  intros c m Hc Hm. assert (L : length (fr_points (pieces c m)) = m) by (cbn [pieces fr_points]; rewrite map_length; apply seq_length).
  split.
  - split; [cbn [fst]; intros E; rewrite E in L; cbn in L; lia|]. cbn [fst snd]. split; [rewrite L; apply repeat_length|].
    intros p Hp. cbn [pieces fr_points] in Hp. apply in_map_iff in Hp as (k & <- & _). rewrite Hc. reflexivity.
  - eexists. split; [reflexivity|]. intros rows io row E Hr. injection E as <-. rewrite L.
    assert (Hw : forall k, k < m -> nth k (fr_weights (pieces c m)) (f0 qops) = Q2Qc (1 # Pos.of_nat m)).
    { intros k Hk. cbn [pieces fr_weights]. rewrite (nth_indep _ _ (Q2Qc (1 # Pos.of_nat m))) by (rewrite repeat_length; exact Hk). apply nth_repeat. }
    destruct io as [|[|io]]; cbn [nth_error] in Hr; [| |destruct io; discriminate]; injection Hr as <-.
    + split; [reflexivity|]. intros i Hi. rewrite seq_nth by exact Hi. cbn [plus flip]. split; reflexivity.
    + split; [symmetry; apply Permutation_rev|]. intros i Hi. rewrite rev_nth by (rewrite seq_length; exact Hi). rewrite seq_length, seq_nth by lia.
      replace (0 + (m - S i)) with (m - 1 - i) by lia. rewrite !pieces_nth, !Hw by lia. split; [|reflexivity].
      cbn [flip map]. rewrite odd_flip by exact Hi. reflexivity.
Qed.

Lemma samples_orientable : fiat_orientable qops flip pieces centre.
Proof.
  split.
  - intros c m Hc Hm. split; [apply pieces_ok; [|exact Hm] | cbn [pieces fr_points]; rewrite map_length; apply seq_length].
    destruct c as [[|[|]]|?|?]; try discriminate; reflexivity.
  - intros c d s f H. destruct c as [[|[|[|]]]|?|?]; try discriminate. cbn [centre] in H. injection H as <-. split.
    + split; [discriminate|]. split; [reflexivity|]. intros p [<-|[]]. reflexivity.
    + exists None. split; [reflexivity|]. intros rows io row E. discriminate.
Qed.
