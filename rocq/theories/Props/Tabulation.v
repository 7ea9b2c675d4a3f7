(** Symbolic tabulation: C11-C18. *)
From Coq Require Import String List Arith Bool ZArith Lia.
From Verif Require Import Model.Prelude Model.Cell Model.Element Model.EntityMaps Model.Gem Model.PointSet Model.Evaluation.
From Verif Require Import Spec.Rowmajor Spec.EntityDofs Spec.Layout Spec.Tabulation Spec.Samples Spec.ZSamples.
From Verif Require Import Proofs.Tables Proofs.Tables2 Proofs.Tables3 Proofs.Leaf Proofs.TabProps Proofs.TabFacts.
Import ListNotations.

(** Merging the tables of the factors. *)
Theorem C11_merge_evaluations : forall F (o : ops F) vars,
  ring_theory (f0 o) (f1 o) (fadd o) (fmul o) (fsub o) (fopp o) eq ->
  forall (rs : list (part F)) order ids n,
  rs <> [] -> (forall r, In r rs -> part_ok order ids r) -> (forall x, In x ids -> x < n) ->
  exists ts n', merge_evaluations (map p_dim rs) (map p_ish rs) (map p_vsh rs) (map p_tab rs) n = Ok (ts, n') /\
    n <= n' /\ derivative_keys (fold_right Nat.add 0 (map p_dim rs)) order (map fst ts) /\
    forall Delta g, In (Delta, g) ts ->
      gshape g = concat (map p_ish rs) ++ concat (map p_vsh rs) /\ incl (gfree g) ids /\
      forall xs env, Forall2 share_ok rs xs -> concat (map x_alpha xs) = Delta ->
        eval o vars g env (concat (map x_b xs) ++ concat (map x_v xs))
        = fold_right (fmul o) (f1 o) (map (fun x => eval o vars (x_g x) env (x_b x ++ x_v x)) xs).
Proof. exact (fun F => @merge_ok F). Qed.
Print Assumptions C11_merge_evaluations.

(** The whole tabulation of a product, by the values of its factors. *)
Theorem C11_tensor_product_values : forall F (o : ops F) G,
  ring_theory (f0 o) (f1 o) (fadd o) (fmul o) (fsub o) (fopp o) eq ->
  forall (leaf_eval : leaf F -> nat -> pset F -> option (dimkey * nat) -> option G -> fresh (list (list nat * gem F))),
  forall fs vars order ps ks es ns cm n c vs,
  let e := ETensorProduct fs in
  built e -> shaped e ->
  (forall l, leaf_of l e -> fold_right Nat.mul 1 (lf_ishape l) = lf_dim l /\ leaf_tabulates o leaf_eval l) ->
  cell_of e = Ok c -> value_shape e = Ok vs ->
  Forall2 (fun f kn => exists c, cell_of f = Ok c /\ In kn (topology c)) fs (combine ks ns) ->
  length ks = length ns -> in_shape ns es ->
  ps_ok ps -> (forall i, In i (ps_indices ps) -> ix_id i < n) ->
  entity_of (topology c) (DT ks, rowmajor ns es) -> fits e (DT ks, rowmajor ns es) ps ->
  exists ts n', basis_evaluation o leaf_eval e order ps (Some (DT ks, rowmajor ns es)) cm n = Ok (ts, n') /\
    derivative_keys (spatial_dimension c) order (map fst ts) /\
    forall alphas g, In (concat alphas, g) ts ->
      forall env b v is wvs pts xs, env_ok ps env -> in_shape (index_shape e) b -> in_shape vs v ->
        pt_at ps env = concat pts -> rowmajor (index_shape e) b = rowmajor (map space_dimension fs) is -> v = concat wvs ->
        values_of o fs alphas (combine ks es) pts is wvs xs ->
        eval o vars g env (b ++ v) = fold_right (fmul o) (f1 o) xs.
Proof. exact (fun F o G R le => product_tabulation o R le). Qed.
Print Assumptions C11_tensor_product_values.

Theorem C12_tensorise : forall F (o : ops F) vars,
  ring_theory (f0 o) (f1 o) (fadd o) (fmul o) (fsub o) (fopp o) eq ->
  forall ish vsh shape (tr : bool) ts ids n,
  shape <> [] ->
  (forall a g, In (a, g) ts -> gshape g = ish ++ vsh /\ incl (gfree g) ids) ->
  (forall x, In x ids -> x < n) ->
  exists ts' n', tensorise ish vsh shape tr ts n = Ok (ts', n') /\ n <= n' /\ map fst ts' = map fst ts /\
    forall a g', In (a, g') ts' -> exists g, In (a, g) ts /\
      gshape g' = (if tr then shape ++ ish else ish ++ shape) ++ shape ++ vsh /\ incl (gfree g') ids /\
      forall env b s t v, length b = length ish -> length s = length shape -> length t = length shape ->
        length v = length vsh ->
        eval o vars g' env ((if tr then s ++ b else b ++ s) ++ t ++ v)
        = if list_eq_dec Nat.eq_dec s t then eval o vars g env (b ++ v) else f0 o.
Proof. exact (fun F => @tensorise_ok F). Qed.
Print Assumptions C12_tensorise.

(** The shape () is accepted by the constructor, but cannot be tabulated. *)
Theorem C12_scalar_shape_refuted : exists (e : elt Z) ps ts n',
  built e /\ fiat_basis_evaluation zops (cg1 ztab1) 0 ps None 1 = Ok (ts, n') /\
  e = ETensor (ELeaf (cg1 ztab1)) [] false /\
  basis_evaluation zops (zleaf unit) e 0 ps None None 1 = Err TypeError.
Proof. exact scalar_shape_refuted. Qed.
Print Assumptions C12_scalar_shape_refuted.

Theorem C13_compose_evaluations : forall F (o : ops F) vars,
  forall (rs : list (part F)) d order vsh ids N n,
  rs <> [] -> (forall r, In r rs -> part_ok order ids r /\ p_dim r = d /\ p_vsh r = vsh) ->
  N = fold_right Nat.add 0 (map (fun r => fold_right Nat.mul 1 (p_ish r)) rs) -> (forall x, In x ids -> x < n) ->
  exists ts n', compose_evaluations (map p_ish rs) N vsh (map p_tab rs) n = Ok (ts, n') /\ n <= n' /\
    derivative_keys d order (map fst ts) /\
    forall a g, In (a, g) ts ->
      gshape g = [N] ++ vsh /\ incl (gfree g) ids /\
      forall env pre r post b v, rs = pre ++ r :: post -> in_shape (p_ish r) b -> length v = length vsh ->
        exists t, In (a, t) (p_tab r) /\
          eval o vars g env ([fold_right Nat.add 0 (map (fun r => fold_right Nat.mul 1 (p_ish r)) pre) + rowmajor (p_ish r) b] ++ v)
          = eval o vars t env (b ++ v).
Proof. exact compose_rowmajor. Qed.
Print Assumptions C13_compose_evaluations.

(** The parts of a mixed element and the positions of their blocks. *)
Theorem C14_mixed_parts : forall F (es : list (elt F)) e, mk_mixed es = Ok e ->
  exists ss subs, mapM value_shape es = Ok ss /\ (e = EEnriched subs \/ subs = [e]) /\ length subs = length es /\
    let sizes := map (fold_right Nat.mul 1) ss in
    forall k x, nth_error es k = Some x ->
      nth_error subs k = Some (EMixedSub x (fold_right Nat.add 0 sizes) (fold_right Nat.add 0 (firstn k sizes))).
Proof. exact (fun F => @mixed_parts F). Qed.
Print Assumptions C14_mixed_parts.

Theorem C14_mixed_values : forall F (o : ops F) (es : list (elt F)) e k x s, mk_mixed es = Ok e ->
  nth_error es k = Some x -> value_shape x = Ok s ->
  forall ss, mapM value_shape es = Ok ss ->
  let sizes := map (fold_right Nat.mul 1) ss in
  let first := fold_right Nat.add 0 (firstn k (map space_dimension es)) in
  forall alpha ent pt i, i < space_dimension x ->
  (forall v y, in_shape s v -> value_of o x alpha ent pt i v y ->
     value_of o e alpha ent pt (first + i) [fold_right Nat.add 0 (firstn k sizes) + rowmajor s v] y) /\
  (forall c, c < fold_right Nat.add 0 (firstn k sizes) \/ fold_right Nat.add 0 (firstn (S k) sizes) <= c ->
     value_of o e alpha ent pt (first + i) [c] (f0 o)).
Proof. exact (fun F => @mixed_values F). Qed.
Print Assumptions C14_mixed_values.

Theorem C14_blocks_cover : forall (ss : list (list nat)) c,
  let sizes := map (fold_right Nat.mul 1) ss in
  c < fold_right Nat.add 0 sizes ->
  exists k s v, nth_error ss k = Some s /\ in_shape s v /\ c = fold_right Nat.add 0 (firstn k sizes) + rowmajor s v /\
    forall k' s' v', nth_error ss k' = Some s' -> in_shape s' v' ->
      c = fold_right Nat.add 0 (firstn k' sizes) + rowmajor s' v' -> k' = k /\ v' = v.
Proof. exact blocks_cover. Qed.
Print Assumptions C14_blocks_cover.

(** Which products the wrappers accept. *)
Theorem C15_hdiv_accepts : forall F (w e : elt F), mk_hdiv w = Ok e <->
  e = EHDiv w /\ exists a b k0 k1 c cb,
    w = ETensorProduct [a; b] /\ formdegree a = Ok (Some k0) /\ formdegree b = Ok (Some k1) /\
    cell_of w = Ok c /\ k0 + k1 + 1 = spatial_dimension c /\ cell_of b = Ok cb /\ is_line cb = true /\
    ((k0, k1) = (0, 1) \/ (k0, k1) = (1, 0) \/ (k0, k1) = (2, 0) \/
     (k0, k1) = (1, 1) /\ (mapping w = Some "contravariant piola"%string \/ mapping w = Some "covariant piola"%string)).
Proof. exact (fun F => @hdiv_accepts F). Qed.
Print Assumptions C15_hdiv_accepts.

Theorem C15_hcurl_accepts : forall F (w e : elt F), mk_hcurl w = Ok e <->
  e = EHCurl w /\ exists a b k0 k1 c cb,
    w = ETensorProduct [a; b] /\ formdegree a = Ok (Some k0) /\ formdegree b = Ok (Some k1) /\
    cell_of w = Ok c /\ k0 + k1 = 1 /\ cell_of b = Ok cb /\ is_line cb = true /\
    (mapping w = Some "affine"%string \/ mapping w = Some "contravariant piola"%string \/ mapping w = Some "covariant piola"%string).
Proof. exact (fun F => @hcurl_accepts F). Qed.
Print Assumptions C15_hcurl_accepts.

(** The vector has the wrapped components in fixed positions. *)
Theorem C15_wrapped_values : forall F (o : ops F) G,
  ring_theory (f0 o) (f1 o) (fadd o) (fmul o) (fsub o) (fopp o) eq ->
  forall (leaf_eval : leaf F -> nat -> pset F -> option (dimkey * nat) -> option G -> fresh (list (list nat * gem F))),
  forall w vars order ps ent cm n c (curl : bool),
  let e := if curl then EHCurl w else EHDiv w in
  built e -> shaped e ->
  (forall l, leaf_of l e -> fold_right Nat.mul 1 (lf_ishape l) = lf_dim l /\ leaf_tabulates o leaf_eval l) ->
  cell_of w = Ok c -> ps_ok ps -> (forall i, In i (ps_indices ps) -> ix_id i < n) ->
  entity_of (topology c) (entity_or_cell c ent) -> fits w (entity_or_cell c ent) ps ->
  exists slots ts n', embeds (if curl then hcurl_case else hdiv_case) w slots /\ length slots = spatial_dimension c /\
    basis_evaluation o leaf_eval e order ps ent cm n = Ok (ts, n') /\
    derivative_keys (spatial_dimension c) order (map fst ts) /\
    forall alpha g, In (alpha, g) ts ->
      gshape g = index_shape w ++ [length slots] /\
      forall env b x, env_ok ps env -> in_shape (index_shape w) b ->
        (forall v, value_of o w alpha (entity_or_cell c ent) (pt_at ps env) (rowmajor (index_shape w) b) v (x v)) ->
        forall k s, nth_error slots k = Some s -> eval o vars g env (b ++ [k]) = slot_val o x s.
Proof. exact (fun F o G R le => wrapped_values o R le). Qed.
Print Assumptions C15_wrapped_values.

(** The embedding preserves the pairing of components. *)
Theorem C15_hdiv_isometry : forall F (o : ops F),
  ring_theory (f0 o) (f1 o) (fadd o) (fmul o) (fsub o) (fopp o) eq ->
  forall k0 k1 m vs d slots, hdiv_case k0 k1 m vs d slots ->
  length slots = d /\ forall (u w : list nat -> F) L, NoDup L -> (forall i, In i L <-> in_shape vs i) ->
    fold_right (fadd o) (f0 o) (map (fun s => fmul o (slot_val o u s) (slot_val o w s)) slots)
    = fold_right (fadd o) (f0 o) (map (fun i => fmul o (u i) (w i)) L).
Proof. exact (fun F o R => hdiv_isometry o R). Qed.
Print Assumptions C15_hdiv_isometry.

Theorem C15_hcurl_isometry : forall F (o : ops F),
  ring_theory (f0 o) (f1 o) (fadd o) (fmul o) (fsub o) (fopp o) eq ->
  forall k0 k1 m vs d slots, hcurl_case k0 k1 m vs d slots ->
  length slots = d /\ forall (u w : list nat -> F) L, NoDup L -> (forall i, In i L <-> in_shape vs i) ->
    fold_right (fadd o) (f0 o) (map (fun s => fmul o (slot_val o u s) (slot_val o w s)) slots)
    = fold_right (fadd o) (f0 o) (map (fun i => fmul o (u i) (w i)) L).
Proof. exact (fun F o R => hcurl_isometry o R). Qed.
Print Assumptions C15_hcurl_isometry.

(** Tabulation of any tree: keys, shapes, free indices and values. *)
Theorem C16_tabulation : forall F (o : ops F) G,
  ring_theory (f0 o) (f1 o) (fadd o) (fmul o) (fsub o) (fopp o) eq ->
  forall (leaf_eval : leaf F -> nat -> pset F -> option (dimkey * nat) -> option G -> fresh (list (list nat * gem F))),
  forall (e : elt F) vars order ps ent cm n c vs,
  built e -> shaped e ->
  (forall l, leaf_of l e -> fold_right Nat.mul 1 (lf_ishape l) = lf_dim l /\ leaf_tabulates o leaf_eval l) ->
  cell_of e = Ok c -> value_shape e = Ok vs ->
  ps_ok ps -> (forall i, In i (ps_indices ps) -> ix_id i < n) ->
  entity_of (topology c) (entity_or_cell c ent) -> fits e (entity_or_cell c ent) ps ->
  exists ts n', basis_evaluation o leaf_eval e order ps ent cm n = Ok (ts, n') /\ n <= n' /\
    derivative_keys (spatial_dimension c) order (map fst ts) /\
    forall alpha g, In (alpha, g) ts ->
      gshape g = index_shape e ++ vs /\ incl (gfree g) (map ix_id (ps_indices ps)) /\
      forall env b v, env_ok ps env -> in_shape (index_shape e) b -> in_shape vs v ->
        forall x, value_of o e alpha (entity_or_cell c ent) (pt_at ps env) (rowmajor (index_shape e) b) v x <->
          eval o vars g env (b ++ v) = x.
Proof. exact (fun F o G R le => tabulation o R le). Qed.
Print Assumptions C16_tabulation.

(** FIAT leaves return FIAT's numbers. *)
Theorem C17_fiat_tabulation : forall F (o : ops F) (l : leaf F),
  fclose0 o (f0 o) = true -> lf_ishape l = [lf_dim l] -> Forall (lt 0) (lf_vshape l) -> fiat_polynomial o l ->
  forall vars order ps ent n,
  ps_ok ps -> (forall i, In i (ps_indices ps) -> ix_id i < n) ->
  entity_of (topology (lf_cell l)) (entity_or_cell (lf_cell l) ent) ->
  psdim ps = dk_total (fst (entity_or_cell (lf_cell l) ent)) ->
  exists ts n', fiat_basis_evaluation o l order ps ent n = Ok (ts, n') /\ n <= n' /\
    derivative_keys (spatial_dimension (lf_cell l)) order (map fst ts) /\
    forall alpha g, In (alpha, g) ts ->
      gshape g = lf_dim l :: lf_vshape l /\ incl (gfree g) (map ix_id (ps_indices ps)) /\
      forall env i v, env_ok ps env -> i < lf_dim l -> in_shape (lf_vshape l) v ->
        eval o vars g env (i :: v) = lf_tab l alpha (entity_or_cell (lf_cell l) ent) (pt_at ps env) i v.
Proof. exact fiat_tabulation. Qed.
Print Assumptions C17_fiat_tabulation.

(** For elements that advertise fewer basis functions than FIAT tabulates
    (Bell, reduced HCT, ...) the tables of different derivatives disagree in
    shape. *)
Theorem C17_reduced_element_refuted : exists (l : leaf Z) ps n ts n' g0 g2,
  fiat_polynomial zops l /\ ps_ok ps /\
  fiat_basis_evaluation zops l 2 ps None n = Ok (ts, n') /\
  In ([0], g0) ts /\ In ([2], g2) ts /\ gshape g0 = [lf_dim l] /\ gshape g2 <> gshape g0.
Proof. exact reduced_element_refuted. Qed.
Print Assumptions C17_reduced_element_refuted.

(** The array of points is in the order of the indices. *)
Theorem C18_points : forall F (ps : pset F), ps_ok ps ->
  exists pts, ps_points ps = Ok pts /\
    length pts = fold_right Nat.mul 1 (map ix_extent (ps_indices ps)) /\
    (forall p, In p pts -> length p = psdim ps) /\
    forall env, env_ok ps env ->
      nth_error pts (rowmajor (map ix_extent (ps_indices ps)) (map (fun i => env (ix_id i)) (ps_indices ps)))
      = Some (pt_at ps env).
Proof. exact points_rowmajor. Qed.
Print Assumptions C18_points.

Theorem C18_expression : forall F (o : ops F) vars (ps : pset F) n, ps_plain ps ->
  (forall i, In i (ps_indices ps) -> ix_id i < n) ->
  exists g n', ps_expression ps n = Ok (g, n') /\ n <= n' /\ gshape g = [psdim ps] /\
    (forall x, In x (gfree g) <-> In x (map ix_id (ps_indices ps))) /\
    forall env, env_ok ps env -> length (coords vars ps env) = psdim ps /\
      forall k, k < psdim ps -> eval o vars g env [k] = nth k (coords vars ps env) (f0 o).
Proof. exact (fun F o vars ps n H => expression_ok o vars ps H n). Qed.
Print Assumptions C18_expression.

(** Splitting over factors. *)
Theorem C18_factor_point_set : forall F (ps : pset F) dims, ps_ok ps ->
  ((exists pss, factor_point_set dims ps = Ok pss) <->
   match ps with
   | PTensor qs => if Nat.eqb (length qs) (length dims) then map psdim qs = dims
                   else psdim ps = fold_right Nat.add 0 dims
   | _ => psdim ps = fold_right Nat.add 0 dims
   end) /\
  forall pss, factor_point_set dims ps = Ok pss ->
    Forall ps_ok pss /\ map psdim pss = dims /\
    (forall q, In q pss -> incl (ps_indices q) (ps_indices ps)) /\
    forall env, env_ok ps env -> concat (map (fun q => pt_at q env) pss) = pt_at ps env.
Proof. exact (fun F => @factor_points F). Qed.
Print Assumptions C18_factor_point_set.

(** A piece of a TensorPointSet that does not match the factors keeps several
    indices over one axis of points; its [expression] fails. *)
Theorem C18_sliced_expression_refuted : exists (ps q : pset Z) pss,
  ps_plain ps /\ ps_ok ps /\ factor_point_set [2; 1] ps = Ok pss /\ In q pss /\
  forall n, ps_expression q n = Err ValueError.
Proof. exact sliced_expression_refuted. Qed.
Print Assumptions C18_sliced_expression_refuted.

(* -------------------------------------------------------------------- *)
(** Concrete cases that meet the hypotheses. *)

(** A Raviart-Thomas element on the quadrilateral at a 3 x 2 grid: C11-C16. *)
Example C16_raviart_thomas :
  built zrt /\ shaped zrt /\
  (forall l, leaf_of l zrt -> fold_right Nat.mul 1 (lf_ishape l) = lf_dim l /\ leaf_tabulates zops (zleaf unit) l) /\
  cell_of zrt = Ok (TPCell [I1; I1]) /\ value_shape zrt = Ok [2] /\ ps_ok zgrid /\
  entity_of (topology (TPCell [I1; I1])) (entity_or_cell (TPCell [I1; I1]) None) /\
  fits zrt (entity_or_cell (TPCell [I1; I1]) None) zgrid /\
  exists ts n' g, basis_evaluation zops (zleaf unit) zrt 1 zgrid None None 2 = Ok (ts, n') /\ In ([1; 0], g) ts /\
    (* d/dx of function 4 = -(4 - 8x)(1 - y) at x = 2, y = -1 *)
    eval zops (fun _ _ => 0%Z) g (fun i => match i with 0 => 2 | _ => 1 end) [4; 0] = 24%Z.
Proof.
  split; [exact zrt_built|]. split; [exact zrt_shaped|].
  split; [apply zleaves; incl_leaves|]. split; [reflexivity|]. split; [reflexivity|]. split; [exact zgrid_ok|].
  split; [exists 1; split; [cbn; auto | constructor]|]. split; [exact zrt_fits|].
  eexists _, _, _. split; [vm_compute; reflexivity|]. split; [right; left; reflexivity|]. vm_compute. reflexivity.
Qed.

Example C11_parts : exists ts n',
  fiat_basis_evaluation zops (cg2 ztab2) 1 (zline 0 [0; 1; 2]%Z) None 1 = Ok (ts, n') /\
  part_ok 1 [0] (mkPart 1 [3] [] ts) /\ share_ok (mkPart 1 [3] [] ts) (mkShare [1] [2] [] (snd (nth 1 ts ([], GZero [])))).
Proof. exact example_part. Qed.

Example C14_mixed : exists e, mk_mixed [zrt; ETensor (ETensorProduct [zcg1; zcg1]) [2] true] = Ok e /\ e = zmixed /\
  mapM value_shape [zrt; ETensor (ETensorProduct [zcg1; zcg1]) [2] true] = Ok [[2]; [2]].
Proof. eexists. split; [reflexivity|]. split; reflexivity. Qed.

Example C15_cases :
  mk_hdiv (ETensorProduct [zcg2; zdg1]) = Ok (EHDiv (ETensorProduct [zcg2; zdg1])) /\
  mk_hdiv (ETensorProduct [zcg2; zcg2]) = Err ValueError /\
  hdiv_case 1 1 (Some "covariant piola"%string) [2] 3 [SComp false [1]; SComp true [0]; SZero] /\
  mk_hcurl (ETensorProduct [zcg2; zdg1]) = Ok (EHCurl (ETensorProduct [zcg2; zdg1])).
Proof. repeat split. constructor. Qed.

Example C17_leaf : fclose0 zops (f0 zops) = true /\ lf_ishape (cg2 ztab2) = [lf_dim (cg2 ztab2)] /\ fiat_polynomial zops (cg2 ztab2).
Proof. split; [reflexivity|]. split; [reflexivity|]. apply ztab_poly. right; left; reflexivity. Qed.

Example C18_grid : ps_plain zgrid /\ ps_ok zgrid /\ env_ok zgrid (fun i => match i with 0 => 2 | _ => 1 end) /\
  pt_at zgrid (fun i => match i with 0 => 2 | _ => 1 end) = [2; -1]%Z /\
  coords (fun _ _ => 0%Z) (PTensor [zgrid; PUnknown "rt_X"%string 7 2 (2, 7)]) (fun i => match i with 0 => 2 | _ => 1 end) = [2; -1; 0; 0]%Z.
Proof. exact example_grid. Qed.
