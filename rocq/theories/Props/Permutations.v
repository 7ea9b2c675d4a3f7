(** Dof permutations of element trees under a change of orientation. *)
From Coq Require Import List Arith.
From Verif Require Import Model.Prelude Model.Cell Model.Element Model.EntityMaps Model.Permutations.
From Verif Require Import Spec.Rowmajor Spec.EntityDofs Spec.Layout Spec.Samples Spec.Permutations Spec.PermSamples.
From Verif Require Import Proofs.SampleFacts Proofs.TreePerms3 Proofs.PermSamples.
Import ListNotations.

Section C56.
  Context {F O : Type} (oeqb : O -> O -> bool) (osp : forall a b, Bool.reflect (a = b) (oeqb a b)).
  Local Notation omap := (list (O * list nat)).
  Variables (orientations : cell -> dimkey -> list O) (proper : O -> Prop).
  Variable tp : list cell -> list dimkey -> list omap -> omap.
  Variable flat : dimkey -> O -> O.
  Variable lp : leaf F -> result (edict omap).
  Variable subs : cell -> edict (list (dimkey * nat)).

  (** C56: every element tree either answers with one permutation of the dof
      positions per entity and orientation, exactly when it is built from
      elements that have permutations, or raises NotImplementedError. *)
  Theorem C56_permutations : forall e c,
    (forall l, leaf_of l e -> leaf_ok l) -> sensible e ->
    fiat_contract orientations proper tp flat lp subs e -> cell_of e = Ok c ->
    (exists ep d, entity_permutations oeqb tp flat lp subs e = Ok ep /\ entity_dofs e = Ok d /\
       permutations_fit orientations proper c d ep /\ permutable lp e) \/
    (entity_permutations oeqb tp flat lp subs e = Err NotImplementedError /\ ~ permutable lp e).
  Proof. exact (tree_permutations oeqb osp tp flat lp subs orientations proper). Qed.

  (** C56: on an entity of a product, turning each factor entity by its own
      orientation moves the dof made of factor dofs [vs] to the one made of
      the factor dofs [ws] that the factors' permutations give. *)
  Theorem C56_product_action : forall (fs : list (elt F)) cs (eps : list (edict omap)) ep d join K I l,
    (forall l0, leaf_of l0 (ETensorProduct fs) -> leaf_ok l0) -> sensible (ETensorProduct fs) ->
    fiat_contract orientations proper tp flat lp subs (ETensorProduct fs) ->
    mapM cell_of fs = Ok cs -> join_contract orientations tp join cs ->
    mapM (entity_permutations oeqb tp flat lp subs) fs = Ok eps ->
    entity_permutations oeqb tp flat lp subs (ETensorProduct fs) = Ok ep ->
    entity_dofs (ETensorProduct fs) = Ok d -> has_dofs d K I l ->
    exists ds ents ls, mapM entity_dofs fs = Ok ds /\ factor_entity cs (Some (K, I)) = Ok ents /\
      length ents = length fs /\ length ls = length fs /\
      Forall2 (fun d_f kel => has_dofs d_f (fst (fst kel)) (snd (fst kel)) (snd kel)) ds (combine ents ls) /\
      forall os ps p, length os = length fs -> length ps = length fs -> Forall proper os ->
        Forall2 (fun e_f kop => has_perm e_f (fst (fst kop)) (snd (fst kop)) (fst (snd kop)) (snd (snd kop)))
          eps (combine ents (combine os ps)) ->
        has_perm ep K I (join os) p ->
        forall js vs ws, length js = length fs ->
          Forall2 (fun lj v => nth_error (fst lj) (snd lj) = Some v) (combine ls js) vs ->
          Forall2 (fun lj w => nth_error (fst lj) (snd lj) = Some w)
            (combine ls (map (fun pj => nth (snd pj) (fst pj) 0) (combine ps js))) ws ->
          nth_error l (rowmajor (map (@length nat) ls) js) = Some (rowmajor (map space_dimension fs) vs) /\
          exists j', nth_error p (rowmajor (map (@length nat) ls) js) = Some j' /\
                     nth_error l j' = Some (rowmajor (map space_dimension fs) ws).
  Proof. exact (product_action oeqb osp tp flat lp subs orientations proper). Qed.
End C56.

(** The dictionary printed in finat/tensor_product.py:269-286. *)
Example C56_documented :
  sample_permutations dq1 = Ok
    [(DT [DI 0; DI 0], [(0, [(OT 0 0 0, [])]); (1, [(OT 0 0 0, [])]); (2, [(OT 0 0 0, [])]); (3, [(OT 0 0 0, [])])]);
     (DT [DI 0; DI 1], [(0, [(OT 0 0 0, []); (OT 0 0 1, [])]); (1, [(OT 0 0 0, []); (OT 0 0 1, [])])]);
     (DT [DI 1; DI 0], [(0, [(OT 0 0 0, []); (OT 0 1 0, [])]); (1, [(OT 0 0 0, []); (OT 0 1 0, [])])]);
     (DT [DI 1; DI 1],
      [(0, [(OT 0 0 0, [0; 1; 2; 3]); (OT 0 0 1, [1; 0; 3; 2]); (OT 0 1 0, [2; 3; 0; 1]); (OT 0 1 1, [3; 2; 1; 0]);
            (OT 1 0 0, [0; 2; 1; 3]); (OT 1 0 1, [2; 0; 3; 1]); (OT 1 1 0, [1; 3; 0; 2]); (OT 1 1 1, [3; 1; 2; 0])])])].
Proof. vm_compute. reflexivity. Qed.

(** A flattened H(div) element with broken factors meets the hypotheses, and
    so do trees without permutations. *)
Example C56_rtcf :
  (forall l, leaf_of l rtcf2 -> leaf_ok l) /\ sensible rtcf2 /\ sample_contract rtcf2 /\
  cell_of rtcf2 = Ok (Hypercube 2) /\
  exists ep, sample_permutations rtcf2 = Ok ep /\ has_perm ep (DI 1) 2 (OI 1) [1; 0] /\
             has_perm ep (DI 2) 0 (OI 3) [1; 0; 3; 2].
Proof.
  assert (L : forall l, leaf_of l rtcf2 -> leaf_ok l) by leaves.
  split; [exact L|]. split; [is_sensible|]. split; [apply sample_contract_ok; [exact L | vm_compute; reflexivity]|].
  split; [reflexivity|]. eexists. split; [vm_compute; reflexivity|].
  split; eexists; (split; [eexists; split; [cbn; auto | cbn; auto] | cbn; auto 8]).
Qed.

Example C56_refused :
  let broken := EDiscontinuous (ELeaf (cg1 no_tab)) in
  let vec := ETensor (ELeaf (cg1 no_tab)) [2] false in
  sample_permutations broken = Err NotImplementedError /\ sample_contract broken /\
  sample_permutations vec = Err NotImplementedError /\ sample_contract vec.
Proof.
  cbv zeta. split; [reflexivity|]. split; [apply sample_contract_ok; [leaves | vm_compute; reflexivity]|].
  split; [reflexivity|]. apply sample_contract_ok; [leaves | vm_compute; reflexivity].
Qed.

Example C56_product_hypotheses :
  (forall l, leaf_of l dq1 -> leaf_ok l) /\ sensible dq1 /\ sample_contract dq1 /\
  join_contract oris tp_sample join_sample [I1; I1] /\ join_sample [OI 0; OI 1] = OT 0 0 1 /\
  exists d, entity_dofs dq1 = Ok d /\ has_dofs d (DT [DI 1; DI 1]) 0 [0; 1; 2; 3].
Proof.
  assert (L : forall l, leaf_of l dq1 -> leaf_ok l) by leaves.
  split; [exact L|]. split; [is_sensible|]. split; [apply sample_contract_ok; [exact L | vm_compute; reflexivity]|].
  split; [exact join_sample_ok|]. split; [reflexivity|].
  eexists. split; [vm_compute; reflexivity|]. eexists. split; [right; right; right; left; reflexivity | left; reflexivity].
Qed.

Print Assumptions C56_permutations.
Print Assumptions C56_product_action.
