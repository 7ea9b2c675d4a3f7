(** Physically mapped elements: C33, C34. *)
From Coq Require Import String List Arith Bool ZArith Lia Permutation.
From Verif Require Import Model.Prelude Model.Cell Model.Element Model.Gem Model.PointSet Model.Evaluation Model.Mapped.
From Verif Require Import Spec.Rowmajor Spec.EntityDofs Spec.Layout Spec.Tabulation Spec.Samples Spec.ZSamples.
From Verif Require Import Proofs.MappedTables Proofs.MappedDofs.
Import ListNotations.

(** Tables are the matrix times FIAT's numbers, with the advertised shape; for an
    element with fewer functions than FIAT's, up to the degree. *)
Theorem C33_mapped_tabulation : forall F (o : ops F) (l : leaf F) nd G (T : G -> result (gem F)) geo M,
  fclose0 o (f0 o) = true -> lf_ishape l = [nd] -> Forall (lt 0) (lf_vshape l) -> fiat_polynomial o l ->
  T geo = Ok M -> gshape M = [nd; lf_dim l] ->
  forall vars order ps ent n,
  nd = lf_dim l \/ (exists d, lf_degree l = Dg d /\ order <= d) ->
  ps_ok ps -> (forall i, In i (ps_indices ps) -> ix_id i < n) -> (forall x, In x (gfree M) -> x < n) ->
  entity_of (topology (lf_cell l)) (entity_or_cell (lf_cell l) ent) ->
  psdim ps = dk_total (fst (entity_or_cell (lf_cell l) ent)) ->
  exists ts n', mapped_basis_evaluation o T l order ps ent (Some geo) n = Ok (ts, n') /\ n <= n' /\
    derivative_keys (spatial_dimension (lf_cell l)) order (map fst ts) /\
    forall alpha g, In (alpha, g) ts ->
      gshape g = nd :: lf_vshape l /\ incl (gfree g) (gfree M ++ map ix_id (ps_indices ps)) /\
      forall env i v, env_ok ps env -> i < nd -> in_shape (lf_vshape l) v ->
        eval o vars g env (i :: v) =
        fold_right (fadd o) (f0 o) (map (fun j => fmul o (eval o vars M env [i; j])
          (lf_tab l alpha (entity_or_cell (lf_cell l) ent) (pt_at ps env) j v)) (seq 0 (lf_dim l))).
Proof. exact mapped_tabulation. Qed.
Print Assumptions C33_mapped_tabulation.

(** The same for a matrix returned as ListTensor(V.T): function [k] is the
    combination of FIAT's functions by column [k] of [V]. *)
Theorem C33_mapped_by_entries : forall F (o : ops F) (l : leaf F) nd G (V : G -> nat -> nat -> gem F) geo,
  fclose0 o (f0 o) = true -> lf_ishape l = [nd] -> Forall (lt 0) (lf_vshape l) -> fiat_polynomial o l ->
  0 < nd -> 0 < lf_dim l -> (forall i j, i < lf_dim l -> j < nd -> gshape (V geo i j) = []) ->
  forall vars order ps ent n,
  nd = lf_dim l \/ (exists d, lf_degree l = Dg d /\ order <= d) ->
  ps_ok ps -> (forall i, In i (ps_indices ps) -> ix_id i < n) ->
  (forall i j x, i < lf_dim l -> j < nd -> In x (gfree (V geo i j)) -> x < n) ->
  entity_of (topology (lf_cell l)) (entity_or_cell (lf_cell l) ent) ->
  psdim ps = dk_total (fst (entity_or_cell (lf_cell l) ent)) ->
  exists ts n', mapped_basis_evaluation o (fun g => list_tensor_T (lf_dim l) nd (V g)) l order ps ent (Some geo) n = Ok (ts, n') /\
    derivative_keys (spatial_dimension (lf_cell l)) order (map fst ts) /\
    forall alpha g, In (alpha, g) ts ->
      gshape g = nd :: lf_vshape l /\
      forall env k v, env_ok ps env -> k < nd -> in_shape (lf_vshape l) v ->
        eval o vars g env (k :: v) =
        fold_right (fadd o) (f0 o) (map (fun j => fmul o (eval o vars (V geo j k) env [])
          (lf_tab l alpha (entity_or_cell (lf_cell l) ent) (pt_at ps env) j v)) (seq 0 (lf_dim l))).
Proof. exact mapped_by_entries. Qed.
Print Assumptions C33_mapped_by_entries.

Theorem C33_missing_mapping : forall F (o : ops F) (l : leaf F) G (T : G -> result (gem F)) order ps ent n,
  mapped_basis_evaluation o T l order ps ent None n = Err AssertionError.
Proof. exact mapped_missing. Qed.
Print Assumptions C33_missing_mapping.

(** Above the degree an element with fewer functions than FIAT's cannot be
    tabulated. *)
Theorem C33_above_degree_refuted : exists (l : leaf Z) (T : unit -> result (gem Z)) M ps n,
  fiat_polynomial zops l /\ ps_ok ps /\ lf_ishape l = [1] /\ lf_dim l = 2 /\ T tt = Ok M /\ gshape M = [1; 2] /\
  (exists ts n', mapped_basis_evaluation zops T l 1 ps None (Some tt) n = Ok (ts, n')) /\
  mapped_basis_evaluation zops T l 2 ps None (Some tt) n = Err ValueError.
Proof. exact mapped_above_degree. Qed.
Print Assumptions C33_above_degree_refuted.

Example C33_example :
  fclose0 zops (f0 zops) = true /\ lf_ishape reduced_leaf = [1] /\ lf_dim reduced_leaf = 2 /\ fiat_polynomial zops reduced_leaf /\
  lf_degree reduced_leaf = Dg 1 /\
  match mapped_basis_evaluation zops (fun _ : unit => list_tensor_T 2 1 vz) reduced_leaf 1 (zline 0 [2; 7]%Z) None (Some tt) 1 with
  | Ok (ts, _) => map fst ts = [[0]; [1]] /\
      map (fun at_ => map (fun q => eval zops (fun _ _ => 0%Z) (snd at_) (fun _ => q) [0]) [0; 1]) ts
      = [[3 * (1 - 2) + 5 * 2; 3 * (1 - 7) + 5 * 7]; [-3 + 5; -3 + 5]]%Z
  | Err _ => False
  end.
Proof.
  split; [reflexivity|]. split; [reflexivity|]. split; [reflexivity|]. split; [exact reduced_leaf_poly|].
  split; [reflexivity|]. vm_compute. split; reflexivity.
Qed.

(** FIAT's dofs are a partition and the facet dofs are numbered last: then
    clearing the facets leaves a partition of the rest. *)
Theorem C34_clear_facets : forall sd n m d, m <= n -> edofs_ok (topology (Simplex sd)) n d ->
  (forall k i l x, has_dofs d k i l -> In x l -> (x < m <-> k <> DI (sd - 1))) ->
  exists d', clear_facets sd d = Ok d' /\ edofs_ok (topology (Simplex sd)) m d' /\
    forall k i l, has_dofs d k i l -> (k <> DI (sd - 1) -> has_dofs d' k i l) /\ (k = DI (sd - 1) -> has_dofs d' k i []).
Proof. exact clear_facets_ok. Qed.
Print Assumptions C34_clear_facets.

Theorem C34_bell : forall d n, 18 <= n -> edofs_ok (topology (Simplex 2)) n d ->
  (forall k i l x, has_dofs d k i l -> In x l -> (x < 18 <-> k <> DI 1)) ->
  exists d', bell_entity_dofs 2 d = Ok d' /\ edofs_ok (topology (Simplex 2)) bell_space_dimension d'.
Proof. exact bell_dofs_ok. Qed.
Print Assumptions C34_bell.

Theorem C34_reduced_hct : forall d n, 9 <= n -> edofs_ok (topology (Simplex 2)) n d ->
  (forall k i l x, has_dofs d k i l -> In x l -> (x < 9 <-> k <> DI 1)) ->
  exists d', rhct_entity_dofs 2 d = Ok d' /\ edofs_ok (topology (Simplex 2)) rhct_space_dimension d'.
Proof. exact rhct_dofs_ok. Qed.
Print Assumptions C34_reduced_hct.

Theorem C34_arnold_winther : edofs_ok (topology (Simplex 2)) awnc_space_dimension awnc_entity_dofs /\
  edofs_ok (topology (Simplex 2)) aw_space_dimension aw_entity_dofs.
Proof. exact aw_dofs_ok. Qed.
Print Assumptions C34_arnold_winther.

(** Mardal-Tai-Winther: [sd + 1] dofs per facet are kept. *)
Theorem C34_mardal_tai_winther : forall sd n d, 0 < sd -> edofs_ok (topology (Simplex sd)) n d ->
  let m := (sd + 1) * (sd + 1) in m <= n ->
  (forall k i l x, has_dofs d k i l -> In x l -> k <> DI (sd - 1) -> m <= x) ->
  (forall i l, has_dofs d (DI (sd - 1)) i l -> exists a b, l = a ++ b /\ length a = sd + 1 /\
     (forall x, In x a -> x < m) /\ (forall x, In x b -> m <= x)) ->
  (forall k i l, has_dofs d k i l -> k <> DI (sd - 1) -> k <> DI sd -> l = []) ->
  exists d', mtw_init sd d = Ok (d', m) /\ edofs_ok (topology (Simplex sd)) m d' /\
    forall i l, has_dofs d (DI (sd - 1)) i l -> has_dofs d' (DI (sd - 1)) i (firstn (sd + 1) l).
Proof. exact mtw_ok. Qed.
Print Assumptions C34_mardal_tai_winther.

(** Piola bubble elements: on each facet the normal dof first, the normal dofs
    of the facets numbered consecutively, the others last. *)
Theorem C34_piola_bubble : forall mappings sd n m s d, mappings <> [] -> (forall y, In y mappings -> y = "contravariant piola"%string) ->
  0 < sd -> edofs_ok (topology (Simplex sd)) n d -> m <= n ->
  (forall k i l x, has_dofs d k i l -> In x l -> k <> DI (sd - 1) -> x < m) ->
  (forall i l, has_dofs d (DI (sd - 1)) i l -> exists b, l = (s + i) :: b /\ s + i < m /\ forall x, In x b -> m <= x) ->
  exists d', piola_bubble_init mappings sd n d = Ok (d', m) /\ edofs_ok (topology (Simplex sd)) m d' /\
    forall k i l, has_dofs d k i l -> (k <> DI (sd - 1) -> has_dofs d' k i l) /\ (k = DI (sd - 1) -> has_dofs d' k i [s + i]).
Proof. exact piola_bubble_ok. Qed.
Print Assumptions C34_piola_bubble.

Theorem C34_piola_bubble_mapping : forall mappings sd n d,
  (exists y, In y mappings /\ y <> "contravariant piola"%string) -> piola_bubble_init mappings sd n d = Err ValueError.
Proof. exact piola_bubble_mapping. Qed.
Print Assumptions C34_piola_bubble_mapping.

Definition fiat_bell : edofs :=
  [(DI 0, [(0, seq 0 6); (1, seq 6 6); (2, seq 12 6)]); (DI 1, [(0, [18]); (1, [19]); (2, [20])]); (DI 2, [(0, [])])].
Example C34_example_bell : edofs_ok (topology (Simplex 2)) 21 fiat_bell /\
  (forall k i l x, has_dofs fiat_bell k i l -> In x l -> (x < 18 <-> k <> DI 1)) /\
  bell_entity_dofs 2 fiat_bell =
    Ok [(DI 0, [(0, seq 0 6); (1, seq 6 6); (2, seq 12 6)]); (DI 1, [(0, []); (1, []); (2, [])]); (DI 2, [(0, [])])].
Proof.
  split; [|split; [|reflexivity]].
  - split; [split|].
    + apply Permutation_refl.
    + intros k row H. cbn in H. destruct H as [E|[E|[E|[]]]]; injection E as <- <-; eexists; (split; [cbn; eauto|apply Permutation_refl]).
    + apply Permutation_refl.
  - intros k i l x (row & Hk & Hi) Hx.
    cbn in Hk. destruct Hk as [E|[E|[E|[]]]]; injection E as <- <-; cbn in Hi;
      repeat (destruct Hi as [Hi|Hi]; [injection Hi as <- <-; cbn in Hx|]); try destruct Hi;
      (split; [intros ? ?; try discriminate; lia|intros; try congruence; lia]).
Qed.

(** Bernardi-Raugel on the triangle: two dofs per vertex, a normal and a
    tangential one per edge. *)
Definition fiat_br : edofs :=
  [(DI 0, [(0, [0; 1]); (1, [2; 3]); (2, [4; 5])]); (DI 1, [(0, [6; 9]); (1, [7; 10]); (2, [8; 11])]); (DI 2, [(0, [])])].
Example C34_example_bubble : edofs_ok (topology (Simplex 2)) 12 fiat_br /\
  (forall k i l x, has_dofs fiat_br k i l -> In x l -> k <> DI 1 -> x < 9) /\
  (forall i l, has_dofs fiat_br (DI 1) i l -> exists b, l = (6 + i) :: b /\ 6 + i < 9 /\ forall x, In x b -> 9 <= x) /\
  piola_bubble_init (repeat "contravariant piola"%string 12) 2 12 fiat_br =
    Ok ([(DI 0, [(0, [0; 1]); (1, [2; 3]); (2, [4; 5])]); (DI 1, [(0, [6]); (1, [7]); (2, [8])]); (DI 2, [(0, [])])], 9).
Proof.
  split; [|split; [|split; [|vm_compute; reflexivity]]].
  - split; [split|].
    + apply Permutation_refl.
    + intros k row H. cbn in H. destruct H as [E|[E|[E|[]]]]; injection E as <- <-; eexists; (split; [cbn; eauto|apply Permutation_refl]).
    + cbn. do 7 (constructor; trivial).
      transitivity ([9; 7; 8] ++ [10; 11]).
      * cbn. apply perm_skip. apply perm_skip. apply perm_swap.
      * cbn. apply (Permutation_middle [7; 8] [10; 11] 9).
  - intros k i l x (row & Hk & Hi) Hx Hne.
    cbn in Hk. destruct Hk as [E|[E|[E|[]]]]; injection E as <- <-; cbn in Hi; try congruence;
      repeat (destruct Hi as [Hi|Hi]; [injection Hi as <- <-; cbn in Hx|]); try destruct Hi; lia.
  - intros i l (row & Hk & Hi). cbn in Hk. destruct Hk as [E|[E|[E|[]]]]; try discriminate; injection E as <-. cbn in Hi.
    repeat (destruct Hi as [Hi|Hi]; [injection Hi as <- <-; eexists; split; [reflexivity|]; split; [lia|]; intros x [<-|[]]; lia|]). destruct Hi.
Qed.

Definition fiat_mtw : edofs :=
  [(DI 0, [(0, []); (1, []); (2, [])]); (DI 1, [(0, [0; 1; 2; 9]); (1, [3; 4; 5; 10]); (2, [6; 7; 8; 11])]); (DI 2, [(0, [12; 13])])].
Example C34_example_mtw : mtw_init 2 fiat_mtw =
    Ok ([(DI 0, [(0, []); (1, []); (2, [])]); (DI 1, [(0, [0; 1; 2]); (1, [3; 4; 5]); (2, [6; 7; 8])]); (DI 2, [(0, [])])], 9) /\
  (forall i l, has_dofs fiat_mtw (DI 1) i l -> exists a b, l = a ++ b /\ length a = 2 + 1 /\
     (forall x, In x a -> x < 9) /\ (forall x, In x b -> 9 <= x)).
Proof.
  split; [vm_compute; reflexivity|]. intros i l (row & Hk & Hi). cbn in Hk. destruct Hk as [E|[E|[E|[]]]]; try discriminate; injection E as <-. cbn in Hi.
  repeat (destruct Hi as [Hi|Hi]; [injection Hi as <- <-; eexists (firstn 3 _), (skipn 3 _); rewrite (firstn_skipn 3); split; [reflexivity|];
    split; [reflexivity|]; split; intros x Hx; cbn in Hx; lia|]). destruct Hi.
Qed.
