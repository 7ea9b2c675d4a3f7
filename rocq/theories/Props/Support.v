(** Entity support dofs: C57. *)
From Coq Require Import String List Arith Bool ZArith QArith Qcanon Sorted Lia.
From Verif Require Import Model.Prelude Model.Cell Model.Element Model.Gem Model.PointSet Model.Evaluation Model.Quadrature Model.Support.
From Verif Require Import Spec.Rowmajor Spec.EntityDofs Spec.Layout Spec.Tabulation Spec.Quadrature Spec.Support
  Spec.Samples Spec.QSamples Spec.SupportSamples.
From Verif Require Import Proofs.QuadFacts Proofs.Support3 Proofs.SupportFacts.
Import ListNotations.
Local Open Scope nat_scope.

(** Elements that compute supports by integration: a function is listed if and
    only if the integral of its square over the entity exceeds the tolerance. *)
Theorem C57_integral : forall F G (o : ops F),
  ring_theory (f0 o) (f1 o) (fadd o) (fmul o) (fsub o) (fopp o) eq ->
  forall gtb eps poly gl sch macro, gauss_legendre_ok o poly gl -> fiat_scheme_ok o poly sch ->
  (forall c d, exists r, sch c d "default"%string = Ok r) ->
  forall (leaf_eval : leaf F -> nat -> pset F -> option (dimkey * nat) -> option G -> fresh (list (list nat * gem F))) sub_cell,
  forall (e b : elt F) c, built e -> shaped e ->
  (forall l, leaf_of l e -> leaf_ok l /\ leaf_tabulates o leaf_eval l) ->
  base_of b e -> integrable sub_cell b -> cell_of b = Ok c ->
  forall n, exists dd n', entity_support_dofs o gtb eps gl sch macro leaf_eval sub_cell b n = Ok (dd, n') /\ n <= n' /\
    keys_match (topology c) dd /\
    forall k i l, has_dofs dd k i l -> StronglySorted lt l /\ (forall m, In m l -> m < space_dimension b) /\
      forall m I, m < space_dimension b -> square_integral o poly sub_cell b (k, i) m I ->
        (In m l <-> gtb I eps = true).
Proof. exact (fun F G => @base_support_ok F G). Qed.
Print Assumptions C57_integral.

(** All trees: if these integrals tell zero from nonzero functions, the functions
    listed are exactly those that have a nonzero value on the entity. *)
Theorem C57_support : forall F G (o : ops F),
  ring_theory (f0 o) (f1 o) (fadd o) (fmul o) (fsub o) (fopp o) eq ->
  forall gtb eps poly gl sch macro, gauss_legendre_ok o poly gl -> fiat_scheme_ok o poly sch ->
  (forall c d, exists r, sch c d "default"%string = Ok r) ->
  forall (leaf_eval : leaf F -> nat -> pset F -> option (dimkey * nat) -> option G -> fresh (list (list nat * gem F))) sub_cell,
  f1 o <> f0 o -> (forall x y, fmul o x y = f0 o -> x = f0 o \/ y = f0 o) ->
  forall (e : elt F) c vs, built e -> shaped e ->
  (forall l, leaf_of l e -> leaf_ok l /\ leaf_tabulates o leaf_eval l) ->
  (forall b, base_of b e -> integrable sub_cell b /\ separated o poly sub_cell gtb eps b) ->
  cell_of e = Ok c -> value_shape e = Ok vs ->
  forall n, exists dd n', entity_support_dofs o gtb eps gl sch macro leaf_eval sub_cell e n = Ok (dd, n') /\ n <= n' /\
    keys_match (topology c) dd /\
    forall k i l, has_dofs dd k i l -> StronglySorted lt l /\
      forall m, In m l <-> m < space_dimension e /\ nonzero_on o e (k, i) m.
Proof. exact (fun F G => @support_ok F G). Qed.
Print Assumptions C57_support.

(** In any case, functions that vanish on the entity are not listed. *)
Theorem C57_sound : forall F G (o : ops F),
  ring_theory (f0 o) (f1 o) (fadd o) (fmul o) (fsub o) (fopp o) eq ->
  forall gtb eps poly gl sch macro, gauss_legendre_ok o poly gl -> fiat_scheme_ok o poly sch ->
  (forall c d, exists r, sch c d "default"%string = Ok r) ->
  forall (leaf_eval : leaf F -> nat -> pset F -> option (dimkey * nat) -> option G -> fresh (list (list nat * gem F))) sub_cell,
  f1 o <> f0 o -> (forall x y, fmul o x y = f0 o -> x = f0 o \/ y = f0 o) ->
  forall (e : elt F) c vs, built e -> shaped e ->
  (forall l, leaf_of l e -> leaf_ok l /\ leaf_tabulates o leaf_eval l) ->
  (forall b, base_of b e -> integrable sub_cell b) ->
  (forall x : F, x = f0 o \/ x <> f0 o) -> gtb (f0 o) eps = false ->
  cell_of e = Ok c -> value_shape e = Ok vs ->
  forall n, exists dd n', entity_support_dofs o gtb eps gl sch macro leaf_eval sub_cell e n = Ok (dd, n') /\ n <= n' /\
    keys_match (topology c) dd /\
    forall k i l, has_dofs dd k i l -> StronglySorted lt l /\
      forall m, (In m l -> m < space_dimension e) /\ (~ nonzero_on o e (k, i) m -> ~ In m l).
Proof. exact (fun F G => @support_sound F G). Qed.
Print Assumptions C57_sound.

(** Without the assumption that the integrals separate, functions are missed:
    the tolerance 1e-8 is absolute.  Here 1e-5 x on the unit interval. *)
Theorem C57_threshold_refuted : exists (e : elt Qc) c vs dd n' l,
  built e /\ shaped e /\ (forall l, leaf_of l e -> leaf_ok l /\ leaf_tabulates qops qleaf l) /\
  (forall b, base_of b e -> integrable sample_sub b) /\
  cell_of e = Ok c /\ value_shape e = Ok vs /\ sample_support e 0 = Ok (dd, n') /\
  has_dofs dd (DI 1) 0 l /\ 1 < space_dimension e /\ nonzero_on qops e (DI 1, 0) 1 /\ ~ In 1 l.
Proof. exact tiny_refuted. Qed.
Print Assumptions C57_threshold_refuted.

(** On a hexahedron built from a quadrilateral and an interval, the rule for
    the facets does not fit the factors. *)
Theorem C57_nested_facets_refuted : exists (e : elt Qc) c vs dd,
  built e /\ shaped e /\ (forall l, leaf_of l e -> leaf_ok l /\ leaf_tabulates qops qleaf l) /\
  cell_of e = Ok c /\ c = Hypercube 3 /\ value_shape e = Ok vs /\ entity_dofs e = Ok dd /\
  sample_support e 0 = Err AssertionError.
Proof. exact nested_refuted. Qed.
Print Assumptions C57_nested_facets_refuted.

(** The quadrilateral with bilinear functions meets the hypotheses of C57_support
    and C57_sound. *)
Example C57_quadrilateral :
  gauss_legendre_ok qops quadratic_poly radau_rule /\ fiat_scheme_ok qops quadratic_poly radau_scheme /\
  (forall c d, exists r, radau_scheme c d "default" = Ok r) /\ f1 qops <> f0 qops /\
  (forall x y, fmul qops x y = f0 qops -> x = f0 qops \/ y = f0 qops) /\
  built qq1 /\ shaped qq1 /\ (forall l, leaf_of l qq1 -> leaf_ok l /\ leaf_tabulates qops qleaf l) /\
  (forall b, base_of b qq1 -> integrable sample_sub b /\ separated qops quadratic_poly sample_sub qgtb q1e8 b) /\
  (forall x : Qc, x = f0 qops \/ x <> f0 qops) /\ qgtb (f0 qops) q1e8 = false /\
  cell_of qq1 = Ok (Hypercube 2) /\ value_shape qq1 = Ok [] /\
  sample_support qq1 0 =
    Ok ([(DI 0, [(0, [0]); (1, [1]); (2, [2]); (3, [3])]);
         (DI 1, [(0, [0; 1]); (1, [2; 3]); (2, [0; 2]); (3, [1; 3])]);
         (DI 2, [(0, [0; 1; 2; 3])])], 14).
Proof.
  split; [exact radau_gauss|]. split; [exact radau_scheme_ok|]. split; [exact radau_total|]. split; [exact qc_nonzero|].
  split; [exact qc_domain|]. split; [exact qq1_built|]. split; [exact qq1_shaped|].
  split; [apply (qleaves _ 1 1); intros l Hl; cbn in Hl; repeat destruct Hl as [<-|Hl]; try (left; reflexivity); destruct Hl|].
  split; [exact qq1_bases|]. split; [intros x; destruct (Qc_eq_dec x 0); auto|]. vm_compute. repeat split; reflexivity.
Qed.

(** Base elements on the interval (C57_integral): the integral of x^2 is 1/3. *)
Example C57_interval : base_of qcg1 qq1 /\ integrable sample_sub qcg1 /\
  (exists I, square_integral qops quadratic_poly sample_sub qcg1 (DI 1, 0) 1 I) /\
  sample_support qcg1 0 = Ok ([(DI 0, [(0, [0]); (1, [1])]); (DI 1, [(0, [0; 1])])], 7).
Proof.
  split; [apply bo_flattened, (bo_tensor_product _ qcg1); [left; reflexivity | apply bo_leaf]|]. split; [apply line_integrable|].
  split; [|vm_compute; reflexivity].
  destruct (line_separated (Simplex 1) (DI 1, 0) 1 eq_refl) as (I & HI & _).
  - exists 1. split; [right; left; reflexivity | cbn; lia].
  - unfold space_dimension. cbn. lia.
  - exists I. exact HI.
Qed.

(** Vectors, H(div) functions on the quadrilateral, a discontinuous element, and a
    hexahedron. *)
Example C57_others :
  sample_support (ETensor qq1 [2] true) 0 =
    Ok ([(DI 0, [(0, [0; 4]); (1, [1; 5]); (2, [2; 6]); (3, [3; 7])]);
         (DI 1, [(0, [0; 1; 4; 5]); (1, [2; 3; 6; 7]); (2, [0; 2; 4; 6]); (3, [1; 3; 5; 7])]);
         (DI 2, [(0, [0; 1; 2; 3; 4; 5; 6; 7])])], 88) /\
  sample_support qrt 0 =
    Ok ([(DI 0, [(0, [0; 2]); (1, [0; 3]); (2, [1; 2]); (3, [1; 3])]);
         (DI 1, [(0, [0; 2; 3]); (1, [1; 2; 3]); (2, [0; 1; 2]); (3, [0; 1; 3])]);
         (DI 2, [(0, [0; 1; 2; 3])])], 22) /\
  sample_support (EDiscontinuous (ETensorProduct [qcg1; qcg1])) 0 =
    Ok ([(DT [DI 0; DI 0], [(0, [0]); (1, [1]); (2, [2]); (3, [3])]);
         (DT [DI 0; DI 1], [(0, [0; 1]); (1, [2; 3])]);
         (DT [DI 1; DI 0], [(0, [0; 2]); (1, [1; 3])]);
         (DT [DI 1; DI 1], [(0, [0; 1; 2; 3])])], 52) /\
  (do r <- sample_support qhex 0 ;; dict_get dimkey_eqb (fst r) (DI 2)) =
    Ok [(0, [0; 1; 2; 3]); (1, [4; 5; 6; 7]); (2, [0; 1; 4; 5]); (3, [2; 3; 6; 7]); (4, [0; 2; 4; 6]); (5, [1; 3; 5; 7])].
Proof. vm_compute. repeat split; reflexivity. Qed.

(** A degree like (1, (1, 1)) cannot be doubled; a dimension the cell does
    not have is reported. *)
Example C57_errors :
  sample_support (EDiscontinuous (ETensorProduct [qcg1; ETensorProduct [qcg1; qcg1]])) 0 = Err ValueError /\
  entity_support_row qops qgtb q1e8 radau_rule radau_scheme no_macro qleaf sample_sub qcg1 (DI 2) 0 = Err KeyError.
Proof. vm_compute. repeat split; reflexivity. Qed.
