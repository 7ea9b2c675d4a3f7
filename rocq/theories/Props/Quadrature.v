(** Quadrature rules and quadrature elements: C19-C21. *)
From Coq Require Import String List Arith Bool ZArith QArith Qcanon Lia.
From Verif Require Import Model.Prelude Model.Cell Model.Element Model.Gem Model.PointSet Model.Evaluation Model.Quadrature.
From Verif Require Import Spec.Rowmajor Spec.EntityDofs Spec.Tabulation Spec.Quadrature Spec.QSamples.
From Verif Require Import Proofs.Quad Proofs.Quad2 Proofs.QuadElt Proofs.QuadFacts.
Import ListNotations.
Local Open Scope nat_scope.

(** A product rule applied to a product of functions is the product of the
    factor rules applied to the factors. *)
Theorem C19_products : forall F (o : ops F) vars,
  ring_theory (f0 o) (f1 o) (fadd o) (fmul o) (fsub o) (fopp o) eq ->
  forall (qs : list (qrule F)) (fs : list (list F -> F)) g,
  qs <> [] -> Forall rule_ok qs -> distinct_indices (q_point_set (QTensor qs)) ->
  separates o (map (fun q => psdim (q_point_set q)) qs) fs g ->
  exists ws w, Forall2 (fun q w => q_weight q = Ok w) qs ws /\ q_weight (QTensor qs) = Ok w /\
    forall env, quad o vars (q_point_set (QTensor qs)) w g env
      = fold_right (fmul o) (f1 o)
          (map (fun x => quad o vars (q_point_set (fst (fst x))) (snd (fst x)) (snd x) env) (combine (combine qs ws) fs)).
Proof. exact (fun F => @tensor_quad F). Qed.
Print Assumptions C19_products.

(** Rules are additive, so the same holds for sums of products. *)
Theorem C19_sums : forall F (o : ops F) vars,
  ring_theory (f0 o) (f1 o) (fadd o) (fmul o) (fsub o) (fopp o) eq ->
  forall ps w (gs : list (list F -> F)) env,
  quad o vars ps w (fun p => fold_right (fadd o) (f0 o) (map (fun g => g p) gs)) env
  = fold_right (fadd o) (f0 o) (map (fun g => quad o vars ps w g env) gs).
Proof. exact (fun F => @quad_sum F). Qed.
Print Assumptions C19_sums.

(** The rules that make_quadrature builds have one fresh index per array of
    points and points of the cell's dimension. *)
Theorem C19_rules_usable : forall F (o : ops F) (vars : string -> list nat -> F) poly gl sch macro,
  gauss_legendre_ok o poly gl -> fiat_scheme_ok o poly sch ->
  forall c deg s n r n', no_empty_product c -> make_quadrature gl sch macro c deg s n = Ok (r, n') ->
  n <= n' /\ rule_ok r /\ psdim (q_point_set r) = spatial_dimension c /\ distinct_indices (q_point_set r) /\
  forall i, In i (ps_indices (q_point_set r)) -> n <= ix_id i < n'.
Proof. exact (fun F => @make_wf F). Qed.
Print Assumptions C19_rules_usable.

(** They integrate exactly what their degree promises. *)
Theorem C19_exact : forall F (o : ops F) vars,
  ring_theory (f0 o) (f1 o) (fadd o) (fmul o) (fsub o) (fopp o) eq ->
  forall poly gl sch macro, gauss_legendre_ok o poly gl -> fiat_scheme_ok o poly sch ->
  forall c deg g I, integrates o poly c deg g I -> no_empty_product c ->
  forall s n r n', make_quadrature gl sch macro c deg s n = Ok (r, n') ->
  exists w, q_weight r = Ok w /\ forall env, quad o vars (q_point_set r) w g env = I.
Proof. exact (fun F => @exactness F). Qed.
Print Assumptions C19_exact.

(** On triangle x interval with degree 1: (1 + x0 + 2 x1)(3 + 4 z) + 6 z. *)
Example C19_prism : exists w, q_weight prism_rule = Ok w /\
  make_quadrature mid_rule centre_rule no_macro (TPCell [Simplex 2; Simplex 1]) (QInt 1) "default" 0 = Ok (prism_rule, 2) /\
  forall vars env, quad qops vars (q_point_set prism_rule) w
    (fun p => (1 + nth 0 p 0 + Q2Qc (inject_Z 2) * nth 1 p 0) * (Q2Qc (inject_Z 3) + Q2Qc (inject_Z 4) * nth 2 p 0)
              + Q2Qc (inject_Z 6) * nth 2 p 0)%Qc env = Q2Qc (13 # 2).
Proof.
  eexists. split; [reflexivity|]. split; [reflexivity|]. intros vars env.
  assert (E := C19_exact Qc qops vars qc_ring affine_poly mid_rule centre_rule no_macro mid_gauss centre_scheme
    (TPCell [Simplex 2; Simplex 1]) (QInt 1)).
  assert (N : no_empty_product (TPCell [Simplex 2; Simplex 1])) by (apply ne_product; [discriminate | repeat constructor]).
  eassert (H : integrates qops affine_poly (TPCell [Simplex 2; Simplex 1]) (QInt 1)
    (fun p => (1 + nth 0 p 0 + Q2Qc (inject_Z 2) * nth 1 p 0) * (Q2Qc (inject_Z 3) + Q2Qc (inject_Z 4) * nth 2 p 0)
              + Q2Qc (inject_Z 6) * nth 2 p 0)%Qc _).
  { eapply in_sum.
    - eapply (in_product qops affine_poly [Simplex 2; Simplex 1] (QInt 1) _
        [(fun p => 1 + nth 0 p 0 + Q2Qc (inject_Z 2) * nth 1 p 0); (fun p => Q2Qc (inject_Z 3) + Q2Qc (inject_Z 4) * nth 0 p 0)]%Qc).
      + right. exists 1%Z. split; reflexivity.
      + constructor; [|constructor; [|constructor]].
        * change (QInt 1) with (QInt (Z.of_nat 1)). apply in_simple; [discriminate | discriminate|]. split; [lia|]. right. split; [reflexivity|].
          exists 1%Qc, 1%Qc, (Q2Qc (inject_Z 2)). split; [intros p; ring | reflexivity].
        * change (QInt 1) with (QInt (Z.of_nat 1)). apply in_simple; [discriminate | discriminate|]. split; [lia|]. left. split; [reflexivity|].
          eexists _, _. split; [intros p; reflexivity | reflexivity].
      + instantiate (1 := (fun p => (1 + nth 0 p 0 + Q2Qc (inject_Z 2) * nth 1 p 0) * (Q2Qc (inject_Z 3) + Q2Qc (inject_Z 4) * nth 2 p 0))%Qc).
        split; [reflexivity|]. intros pts H. inversion H as [|? p ? ? Hp H']; subst. inversion H' as [|? q ? ? Hq H'']; subst. inversion H''; subst.
        destruct p as [|x [|y [|]]]; try discriminate. destruct q as [|z [|]]; try discriminate. cbn [map combine fold_right concat app fst snd nth fmul f1 qops]. ring.
    - eapply (in_product qops affine_poly [Simplex 2; Simplex 1] (QInt 1) _
        [(fun p => 1); (fun p => Q2Qc (inject_Z 6) * nth 0 p 0)]%Qc).
      + right. exists 1%Z. split; reflexivity.
      + constructor; [|constructor; [|constructor]].
        * change (QInt 1) with (QInt (Z.of_nat 1)). apply in_simple; [discriminate | discriminate|]. split; [lia|]. right. split; [reflexivity|].
          exists 1%Qc, 0%Qc, 0%Qc. split; [intros p; ring | reflexivity].
        * change (QInt 1) with (QInt (Z.of_nat 1)). apply in_simple; [discriminate | discriminate|]. split; [lia|]. left. split; [reflexivity|].
          exists 0%Qc, (Q2Qc (inject_Z 6)). split; [intros p; ring | reflexivity].
      + instantiate (1 := (fun p => Q2Qc (inject_Z 6) * nth 2 p 0)%Qc).
        split; [reflexivity|]. intros pts H. inversion H as [|? p ? ? Hp H']; subst. inversion H' as [|? q ? ? Hq H'']; subst. inversion H''; subst.
        destruct p as [|x [|y [|]]]; try discriminate. destruct q as [|z [|]]; try discriminate. cbn [map combine fold_right concat app fst snd nth fmul f1 qops]. ring.
  - intros p _. reflexivity. }
  destruct (E _ _ H N "default"%string 0 prism_rule 2 eq_refl) as (w & Ew & V).
  injection Ew as <-. etransitivity; [apply V | apply Qc_is_canon; vm_compute; reflexivity].
Qed.

(** On an interval: the smallest m with degree <= 2m - 1. *)
Theorem C20_interval_points : forall F (o : ops F) poly gl sch macro,
  gauss_legendre_ok o poly gl ->
  forall c d s n, is_line c = true -> macro c = false -> (0 <= d)%Z ->
  exists m i w, make_quadrature gl sch macro c (QInt d) s n
      = Ok (QRule (PPoints PGaussLegendre (spatial_dimension c) (fst (gl c m)) [i]) w, S n) /\
    w = snd (gl c m) /\ length (fst (gl c m)) = m /\ ix_extent i = m /\
    (d <= 2 * Z.of_nat m - 1)%Z /\ forall k, (d <= 2 * Z.of_nat k - 1)%Z -> m <= k.
Proof. exact (fun F => @line_points F). Qed.
Print Assumptions C20_interval_points.

Theorem C20_negative_degree : forall F gl sch macro c d s n, (d < 0)%Z -> no_empty_product c ->
  make_quadrature (F := F) gl sch macro c (QInt d) s n = Err ValueError.
Proof. exact (fun F => @negative_degree F). Qed.
Print Assumptions C20_negative_degree.

Theorem C20_tuple_degree : forall F gl sch macro ds s n,
  (forall c, (forall cs, c <> TPCell cs) -> c <> Hypercube 2 ->
     make_quadrature (F := F) gl sch macro c (QTuple ds) s n = Err TypeError) /\
  (forall cs, length ds <> length cs ->
     make_quadrature (F := F) gl sch macro (TPCell cs) (QTuple ds) s n = Err AssertionError).
Proof.
  exact (fun F gl sch macro ds s n =>
    conj (fun c H1 H2 => tuple_degree_error gl sch macro c ds s n H1 H2) (fun cs H => tuple_length_error gl sch macro cs ds s n H)).
Qed.
Print Assumptions C20_tuple_degree.

(** On products every factor gets its own degree, or all the same one. *)
Theorem C20_distribution : forall F gl sch macro cs deg s n r n',
  make_quadrature (F := F) gl sch macro (TPCell cs) deg s n = Ok (r, n') ->
  exists ds rs, r = QTensor rs /\ length rs = length cs /\ length ds = length cs /\
    (deg = QTuple ds \/ exists d, deg = QInt d /\ ds = repeat (QInt d) (length cs)) /\
    forall k c d q, nth_error cs k = Some c -> nth_error ds k = Some d -> nth_error rs k = Some q ->
      exists m m', make_quadrature gl sch macro c d s m = Ok (q, m').
Proof. exact (fun F => @distribution F). Qed.
Print Assumptions C20_distribution.

Theorem C20_quadrilateral : forall F gl sch macro deg s,
  make_quadrature (F := F) gl sch macro (Hypercube 2) deg s
  = make_quadrature gl sch macro (TPCell [Simplex 1; Simplex 1]) deg s.
Proof. exact (fun F => @make_quadrilateral F). Qed.
Print Assumptions C20_quadrilateral.

(** Suitable degrees always give a rule. *)
Theorem C20_suitable_degrees : forall F (o : ops F) poly gl sch macro,
  gauss_legendre_ok o poly gl -> fiat_scheme_ok o poly sch ->
  forall s, (forall c d, exists r, sch c d s = Ok r) ->
  forall c deg, degree_fits c deg -> forall n, exists r n', make_quadrature gl sch macro c deg s n = Ok (r, n').
Proof. exact (fun F => @make_total F). Qed.
Print Assumptions C20_suitable_degrees.

Example C20_degrees :
  let points d := match make_quadrature mid_rule centre_rule no_macro (Simplex 1) (QInt d) "default" 0 with
                  | Ok (QRule ps _, _) => map ix_extent (ps_indices ps) | _ => [] end in
  map points [0; 1; 2; 3; 4; 5; 6; 7]%Z = [[1]; [1]; [2]; [2]; [3]; [3]; [4]; [4]] /\
  (exists r, make_quadrature mid_rule centre_rule no_macro (TPCell [Simplex 2; Hypercube 2])
      (QTuple [QInt 3; QTuple [QInt 2; QInt 4]]) "default" 0 = Ok (r, 3) /\
     map ix_extent (ps_indices (q_point_set r)) = [1; 2; 3]) /\
  make_quadrature mid_rule centre_rule no_macro (TPCell [Simplex 1; Simplex 1]) (QInt (-1)) "default" 0 = Err ValueError /\
  make_quadrature mid_rule centre_rule no_macro (TPCell [Simplex 1; Simplex 1]) (QTuple [QInt 1]) "default" 0 = Err AssertionError /\
  make_quadrature mid_rule centre_rule no_macro (Simplex 1) (QTuple [QInt 1]) "default" 0 = Err TypeError.
Proof. split; [reflexivity|]. split; [eexists; split; reflexivity|]. repeat split. Qed.

(** [almost_equal] recognises the point sets of the same make whose coordinates are close. *)
Theorem C21_almost_equal : forall F (close : F -> F -> bool) (a b : pset F), arrays_ok a -> arrays_ok b ->
  exists v, almost_equal close a b = Ok v /\ (v = true <-> near close a b).
Proof. exact (fun F => @almost_equal_near F). Qed.
Print Assumptions C21_almost_equal.

(** The basis functions are the indicators of the points, in row-major order. *)
Theorem C21_basis_values : forall F (o : ops F) vars,
  ring_theory (f0 o) (f1 o) (fadd o) (fmul o) (fsub o) (fopp o) eq ->
  forall close c r e ps n ent,
  mk_quadrature_element c r = Ok e -> rule_ok r -> arrays_ok ps -> near close (q_point_set r) ps ->
  (forall i, In i (ps_indices ps) -> ix_id i < n) ->
  ent = None \/ ent = Some (get_dimension c, 0) ->
  exists T n', qe_basis_evaluation close e 0 ps ent n = Ok ([(repeat 0 (spatial_dimension c), T)], n') /\
    gshape T = qe_index_shape e /\ incl (gfree T) (map ix_id (ps_indices ps)) /\
    map ix_extent (ps_indices ps) = qe_index_shape e /\
    forall env ii, length ii = length (qe_index_shape e) ->
      eval o vars T env ii
      = if list_eq_dec Nat.eq_dec (map (fun i => env (ix_id i)) (ps_indices ps)) ii then f1 o else f0 o.
Proof. exact (fun F => @qe_basis_ok F). Qed.
Print Assumptions C21_basis_values.

Theorem C21_points : forall F (close : F -> F -> bool) (r : qrule F) ps,
  rule_ok r -> arrays_ok ps -> near close (q_point_set r) ps ->
  forall c, exists pts, ps_points ps = Ok pts /\ length pts = qe_space_dimension (mkQelt c r) /\
    forall env, env_ok ps env ->
      nth_error pts (rowmajor (qe_index_shape (mkQelt c r)) (map (fun i => env (ix_id i)) (ps_indices ps)))
      = Some (pt_at ps env).
Proof. exact (fun F => @qe_points F). Qed.
Print Assumptions C21_points.

(** Dual basis after basis is the identity. *)
Theorem C21_dual_basis : forall F (o : ops F) vars,
  ring_theory (f0 o) (f1 o) (fadd o) (fmul o) (fsub o) (fopp o) eq ->
  forall close c r e n,
  (forall x, close x x = true) ->
  mk_quadrature_element c r = Ok e -> rule_ok r -> distinct_indices (q_point_set r) ->
  (forall i, In i (ps_indices (q_point_set r)) -> ix_id i < n) ->
  exists Q n1 T n2, qe_dual_basis e n = Ok ((Q, q_point_set r), n1) /\
    qe_basis_evaluation close e 0 (q_point_set r) None n1 = Ok ([(repeat 0 (spatial_dimension c), T)], n2) /\
    gshape Q = qe_index_shape e /\ gshape T = qe_index_shape e /\
    forall env ii jj, In ii (cart (map (seq 0) (qe_index_shape e))) -> length jj = length (qe_index_shape e) ->
      fold_right (fadd o) (f0 o)
        (map (fun env' => fmul o (eval o vars Q env' ii) (eval o vars T env' jj)) (assignments (q_point_set r) env))
      = if list_eq_dec Nat.eq_dec ii jj then f1 o else f0 o.
Proof. exact (fun F => @qe_dual_ok F). Qed.
Print Assumptions C21_dual_basis.

Theorem C21_rejects : forall F close c r e order (ps : pset F) ent n,
  mk_quadrature_element c r = Ok e -> rule_ok r -> arrays_ok ps ->
  (ent <> None /\ ent <> Some (get_dimension c, 0)) \/ order <> 0 \/ ~ near close (q_point_set r) ps ->
  qe_basis_evaluation close e order ps ent n = Err ValueError.
Proof. exact (fun F => @qe_rejects F). Qed.
Print Assumptions C21_rejects.

Theorem C21_dimension_checked : forall F c (r : qrule F), rule_ok r ->
  (psdim (q_point_set r) = spatial_dimension c -> mk_quadrature_element c r = Ok (mkQelt c r)) /\
  (psdim (q_point_set r) <> spatial_dimension c -> mk_quadrature_element c r = Err ValueError).
Proof. exact (fun F => @qe_build F). Qed.
Print Assumptions C21_dimension_checked.

(** All dofs are on the cell itself, in order; as a leaf of an element tree it
    meets the contract of the other theorems. *)
Theorem C21_entity_dofs : forall F (e : qelt (F := F)) tab, leaf_ok (qe_leaf e tab) /\
  forall k i l, has_dofs (qe_entity_dofs e) k i l ->
    l = if dimkey_eqb k (get_dimension (qe_cell e)) && Nat.eqb i 0 then seq 0 (qe_space_dimension e) else [].
Proof. exact (fun F => @qe_leaf_ok F). Qed.
Print Assumptions C21_entity_dofs.

Theorem C21_made_elements : forall F (o : ops F) (vars : string -> list nat -> F) poly gl sch macro c deg s n e n',
  gauss_legendre_ok o poly gl -> fiat_scheme_ok o poly sch -> no_empty_product c ->
  make_quadrature_element gl sch macro c deg s n = Ok (e, n') ->
  exists r, e = mkQelt c r /\ mk_quadrature_element c r = Ok e /\ rule_ok r /\ distinct_indices (q_point_set r) /\
    forall i, In i (ps_indices (q_point_set r)) -> n <= ix_id i < n'.
Proof. exact (fun F => @make_qe_ok F). Qed.
Print Assumptions C21_made_elements.

Example C21_grid : exists e T n',
  mk_quadrature_element (TPCell [Simplex 1; Simplex 1]) grid_rule = Ok e /\
  rule_ok grid_rule /\
  qe_basis_evaluation qc_close e 0 (q_point_set grid_rule) None 2 = Ok ([([0; 0], T)], n') /\
  (* point (1, 1/2) is number 4 = (1, 1); there basis function (1, 1) is 1 and (0, 1) is 0 *)
  (exists pts, ps_points (q_point_set grid_rule) = Ok pts /\ nth_error pts 4 = Some [1%Qc; half]) /\
  (forall vars, eval qops vars T (fun _ => 1) [1; 1] = 1%Qc /\ eval qops vars T (fun _ => 1) [0; 1] = 0%Qc) /\
  qe_basis_evaluation qc_close e 1 (q_point_set grid_rule) None 2 = Err ValueError /\
  qe_basis_evaluation qc_close e 0 (q_point_set prism_rule) None 2 = Err ValueError /\
  qe_basis_evaluation qc_close e 0 (q_point_set grid_rule) (Some (DT [DI 0; DI 1], 0)) 2 = Err ValueError /\
  mk_quadrature_element (Simplex 1) grid_rule = Err ValueError.
Proof.
  eexists _, _, _. split; [reflexivity|]. split; [exact grid_ok|]. split; [reflexivity|].
  split; [eexists; split; reflexivity|]. split; [intros vars; split; reflexivity|]. repeat split; reflexivity.
Qed.
