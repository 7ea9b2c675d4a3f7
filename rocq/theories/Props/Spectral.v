(** Spectral elements at their own nodes. *)
From Coq Require Import String List Arith ZArith Bool.
From Verif Require Import Model.Prelude Model.Cell Model.Element Model.EntityMaps Model.Gem Model.PointSet Model.Evaluation Model.Spectral.
From Verif Require Import Spec.Rowmajor Spec.EntityDofs Spec.Layout Spec.Tabulation Spec.Spectral Spec.Samples Spec.ZSamples.
From Verif Require Import Proofs.SampleFacts Proofs.TabFacts Proofs.Spectral Proofs.SpectralFacts.
Import ListNotations.

(** The tables, the shortcut included, hold the values and derivatives of the
    basis functions at the points. *)
Theorem C51_tabulation : forall F (o : ops F) own (l : leaf F),
  fclose0 o (f0 o) = true -> scalar_leaf l -> fiat_polynomial o l ->
  forall vars order ps ent n,
  ps_ok ps -> (forall i, In i (ps_indices ps) -> ix_id i < n) ->
  entity_of (topology (lf_cell l)) (entity_or_cell (lf_cell l) ent) ->
  psdim ps = dk_total (fst (entity_or_cell (lf_cell l) ent)) ->
  collocated o own l ps ->
  exists ts n', spectral_evaluation o own l order ps ent n = Ok (ts, n') /\ n <= n' /\
    derivative_keys (spatial_dimension (lf_cell l)) order (map fst ts) /\
    forall alpha g, In (alpha, g) ts ->
      gshape g = [lf_dim l] /\ incl (gfree g) (map ix_id (ps_indices ps)) /\
      forall env i, env_ok ps env -> i < lf_dim l ->
        eval o vars g env [i] = lf_tab l alpha (entity_or_cell (lf_cell l) ent) (pt_at ps env) i [].
Proof. exact (fun F => @spectral_tabulation F). Qed.
Print Assumptions C51_tabulation.

(** Only on the cell, for the element's own class of point sets and with as many
    points as basis functions are the values replaced by the identity matrix;
    the derivatives never are. *)
Theorem C51_shortcut : forall F (o : ops F) own (l : leaf F) order ps ent n ts n1,
  lf_ishape l = [lf_dim l] ->
  fiat_basis_evaluation o l order ps ent n = Ok (ts, n1) ->
  derivative_keys (spatial_dimension (lf_cell l)) order (map fst ts) ->
  ((entity_or_cell (lf_cell l) ent = (get_dimension (lf_cell l), 0) /\
    exists D pts ixs, ps = PPoints own D pts ixs /\ length pts = lf_dim l) ->
   forall q, ps_indices ps = [q] ->
     exists ts' n', spectral_evaluation o own l order ps ent n = Ok (ts', n') /\ map fst ts' = map fst ts /\
       forall alpha g, In (alpha, g) ts' <->
         (alpha = repeat 0 (spatial_dimension (lf_cell l)) /\ exists r, ix_id r = n1 /\ ix_extent r = lf_dim l /\
            g = GComponentTensor (GDelta (IFree q) (IFree r)) [r]) \/
         (alpha <> repeat 0 (spatial_dimension (lf_cell l)) /\ In (alpha, g) ts)) /\
  (~ (entity_or_cell (lf_cell l) ent = (get_dimension (lf_cell l), 0) /\
      exists D pts ixs, ps = PPoints own D pts ixs /\ length pts = lf_dim l) ->
   spectral_evaluation o own l order ps ent n = Ok (ts, n1)).
Proof. exact (fun F => @spectral_differs F). Qed.
Print Assumptions C51_shortcut.

(** Trees with spectral leaves, at any point set whose Gauss-Legendre and
    Gauss-Lobatto factors are the nodes of the leaves that look for them. *)
Theorem C51_tree : forall F (o : ops F),
  ring_theory (f0 o) (f1 o) (fadd o) (fmul o) (fsub o) (fopp o) eq ->
  forall G (cls : leaf F -> option pkind) (e : elt F) vars order ps ent (cm : option G) n c vs,
  fclose0 o (f0 o) = true ->
  built e -> shaped e ->
  (forall l, leaf_of l e -> lf_ishape l = [lf_dim l] /\ fiat_polynomial o l /\
     forall own, cls l = Some own -> lf_vshape l = [] /\ own <> PGeneric /\ collocated o own l ps) ->
  cell_of e = Ok c -> value_shape e = Ok vs ->
  ps_ok ps -> (forall i, In i (ps_indices ps) -> ix_id i < n) ->
  entity_of (topology c) (entity_or_cell c ent) -> fits e (entity_or_cell c ent) ps ->
  exists ts n', basis_evaluation o (leaf_basis_evaluation o cls) e order ps ent cm n = Ok (ts, n') /\ n <= n' /\
    derivative_keys (spatial_dimension c) order (map fst ts) /\
    forall alpha g, In (alpha, g) ts ->
      gshape g = index_shape e ++ vs /\ incl (gfree g) (map ix_id (ps_indices ps)) /\
      forall env b v, env_ok ps env -> in_shape (index_shape e) b -> in_shape vs v ->
        forall x, value_of o e alpha (entity_or_cell c ent) (pt_at ps env) (rowmajor (index_shape e) b) v x <->
          eval o vars g env (b ++ v) = x.
Proof. exact (fun F o R => @spectral_tree F o R). Qed.
Print Assumptions C51_tree.

(** The code looks at the class and the number of the points, not at the points:
    at other points of the same class the table of values is wrong. *)
Theorem C51_other_points_refuted : exists (l : leaf Z) ps ts n' g env,
  scalar_leaf l /\ fiat_polynomial zops l /\ ps_ok ps /\
  psdim ps = dk_total (fst (entity_or_cell (lf_cell l) None)) /\ env_ok ps env /\
  spectral_evaluation zops PGaussLobattoLegendre l 0 ps None 1 = Ok (ts, n') /\ In ([0], g) ts /\
  eval zops (fun _ _ => 0%Z) g env [0] <> lf_tab l [0] (entity_or_cell (lf_cell l) None) (pt_at ps env) 0 [].
Proof. exact other_points_refuted. Qed.
Print Assumptions C51_other_points_refuted.

(* -------------------------------------------------------------------- *)
(** Concrete cases that meet the hypotheses. *)

Example C51_line :
  scalar_leaf (cg1 ztab1) /\ fiat_polynomial zops (cg1 ztab1) /\ ps_ok (zgll 0) /\
  collocated zops PGaussLobattoLegendre (cg1 ztab1) (zgll 0) /\
  exists ts n' g d, spectral_evaluation zops PGaussLobattoLegendre (cg1 ztab1) 1 (zgll 0) None 1 = Ok (ts, n') /\
    ts = [([0], g); ([1], d)] /\ g = GComponentTensor (GDelta (IFree (0, 2)) (IFree (2, 2))) [(2, 2)] /\
    eval zops (fun _ _ => 0%Z) d (fun _ => 1) [0] = (-1)%Z.
Proof. exact example_line. Qed.

(** A product of two spectral elements at the 2 x 2 grid of its nodes. *)
Example C51_square :
  built zgllsq /\ shaped zgllsq /\ ps_ok zgllgrid /\
  (forall l, leaf_of l zgllsq -> lf_ishape l = [lf_dim l] /\ fiat_polynomial zops l /\
     forall own, zcls l = Some own -> lf_vshape l = [] /\ own <> PGeneric /\ collocated zops own l zgllgrid) /\
  fits zgllsq (entity_or_cell (TPCell [I1; I1]) None) zgllgrid /\
  exists ts n' g, basis_evaluation zops (leaf_basis_evaluation (G := unit) zops zcls) zgllsq 1 zgllgrid None None 2 = Ok (ts, n') /\
    In ([1; 0], g) ts /\
    eval zops (fun _ _ => 0%Z) g (fun i => match i with 0 => 0 | _ => 1 end) [1; 1] = 1%Z /\
    eval zops (fun _ _ => 0%Z) g (fun i => match i with 0 => 0 | _ => 1 end) [1; 0] = 0%Z.
Proof. exact example_square. Qed.
