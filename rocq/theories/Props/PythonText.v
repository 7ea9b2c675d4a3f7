(** C62: the repr of an element is Python text that makes the element. *)
From Coq Require Import Ascii String List ZArith Bool Lia.
From Verif Require Import Model.Prelude Model.Registry Model.UflElement Spec.UflElement Spec.PythonText
  Proofs.Repr Proofs.Equality Proofs.Rebuild Proofs.PythonText.
Import ListNotations.
Open Scope string_scope.

(** Evaluating the repr gives an element of the same class and data. *)
Theorem C62_eval e : built e -> writable e -> exists e', evaluate (u_repr e) = Some (VElement e') /\ same e e' /\ built e'.
Proof. exact (evaluate_same e). Qed.
(** The strings inside are written with the escapes they need. *)
Theorem C62_string s : evaluate (pyrepr s) = Some (VStr s).
Proof. exact (evaluate_string s). Qed.
Theorem C62_cell c : evaluate (cell_repr c) = Some (VCell c).
Proof. exact (evaluate_cell c). Qed.

(** A mixed element of a symmetric tensor element, a sum on a product cell and a restricted element. *)
Definition cg_2 : uel :=
  UFinite (mkDescription "Lagrange" (Some "CG") (Order 2) [] H1 "identity" (Order 2)) (Some (Named Triangle)) None (Some "spectral").
Example cg_2_made : mk_finite "CG" (Some (Named Triangle)) (Order 2) None None (Some "spectral") = Ok cg_2.
Proof. vm_compute. reflexivity. Qed.
Example cg_2_built : built cg_2.
Proof. exact (mk_finite_built _ _ _ _ _ _ _ cg_2_made). Qed.
Definition example : result uel :=
  do t <- mk_tensor cg_2 None AutoSym ;; do v <- mk_vector cg_2 (Some 3) ;; do r <- mk_restricted v "facet" ;; do w <- mk_with_mapping cg_2 "custom" ;; mk_mixed [t; r; w].
Example C62_example : exists e, example = Ok e /\ built e /\ writable e /\
  u_repr e = "MixedElement(TensorElement(FiniteElement('Lagrange', triangle, 2, variant='spectral'), shape=(2, 2), symmetry={(1, 0): (0, 1)}, variant='spectral'), RestrictedElement(VectorElement(FiniteElement('Lagrange', triangle, 2, variant='spectral'), dim=3, variant='spectral'), 'facet'), WithMapping(FiniteElement('Lagrange', triangle, 2, variant='spectral'), 'custom'))" /\
  evaluate (u_repr e) = Some (VElement e).
Proof.
  unfold example. destruct (mk_tensor cg_2 None AutoSym) as [t|] eqn:T; [|vm_compute in T; discriminate T]. cbn [bind].
  destruct (mk_vector cg_2 (Some 3)) as [v|] eqn:V; [|vm_compute in V; discriminate V]. cbn [bind].
  destruct (mk_restricted v "facet") as [r|] eqn:R; [|discriminate R]. cbn [bind].
  destruct (mk_with_mapping cg_2 "custom") as [w|] eqn:W; [|discriminate W]. cbn [bind].
  destruct (mk_mixed [t; r; w]) as [e|] eqn:M.
  - exists e. split; [reflexivity|]. split.
    + apply (built_mixed [t; r; w]); [|exact M]. repeat constructor.
      * exact (built_tensor _ _ _ _ cg_2_built T).
      * exact (built_restricted _ _ _ (built_vector _ _ _ cg_2_built V) R).
      * exact (built_with_mapping _ _ _ cg_2_built W).
    + assert (U : forall s, s = "spectral" \/ s = "custom" -> unescaped s).
      { assert (F : forall s, forallb (fun c => negb (Ascii.eqb c "'" || Ascii.eqb c "\" || existsb (Nat.eqb (nat_of_ascii c)) [0; 10; 13])) (list_ascii_of_string s) = true -> unescaped s).
        { intros s F c I. rewrite forallb_forall in F. specialize (F c I). apply negb_true_iff, orb_false_iff in F as [F G]. apply orb_false_iff in F as [F1 F2].
          apply Ascii.eqb_neq in F1, F2. split; [exact F1|]. split; [exact F2|]. intros J. enough (existsb (Nat.eqb (nat_of_ascii c)) [0; 10; 13] = true) by congruence.
          apply existsb_exists. exists (nat_of_ascii c). split; [exact J|apply Nat.eqb_refl]. }
        intros s [->| ->]; apply F; reflexivity. }
      vm_compute in T, V. injection T as <-. injection V as <-. vm_compute in R, W. injection R as <-. injection W as <-. vm_compute in M. injection M as <-.
      split; [|split; vm_compute; reflexivity].
      apply wr_mixed. constructor; [|constructor; [|constructor; [|constructor]]].
      * apply wr_tensor; [constructor|]. intros s E. injection E as <-. apply U. now left.
      * apply wr_restricted, wr_vector; [constructor|]. intros s E. injection E as <-. apply U. now left.
      * apply wr_with_mapping; [constructor|]. apply U. now right.
  - vm_compute in T, V. injection T as <-. injection V as <-. vm_compute in R, W. injection R as <-. injection W as <-. vm_compute in M. discriminate M.
Qed.

(** Mappings are written without escapes: the text may be no expression, or make another
    element. *)
Theorem C62_mapping_refuted :
  (exists e, built e /\ evaluate (u_repr e) = None) /\ (exists e e', built e /\ evaluate (u_repr e) = Some (VElement e') /\ ~ same e e').
Proof.
  split.
  - exists (UWithMapping cg_2 "it's"). split; [apply (built_with_mapping cg_2 "it's" _ cg_2_built); reflexivity|]. vm_compute. reflexivity.
  - exists (UWithMapping cg_2 "a\tb"). eexists. split; [apply (built_with_mapping cg_2 "a\tb" _ cg_2_built); reflexivity|]. split; [vm_compute; reflexivity|].
    intros H. inversion H.
Qed.
(** So are the variants in vector elements. *)
Theorem C62_variant_refuted : exists e, built e /\ plain_mappings e /\ evaluate (u_repr e) = None.
Proof.
  set (nl := String (ascii_of_nat 10) "").
  set (c := UFinite (mkDescription "Lagrange" (Some "CG") (Order 2) [] H1 "identity" (Order 2)) (Some (Named Triangle)) None (Some nl)).
  assert (M : mk_finite "CG" (Some (Named Triangle)) (Order 2) None None (Some nl) = Ok c) by (vm_compute; reflexivity).
  destruct (mk_vector c None) as [v|] eqn:V; [|vm_compute in V; discriminate V]. exists v.
  split; [exact (built_vector _ _ _ (mk_finite_built _ _ _ _ _ _ _ M) V)|]. vm_compute in V. injection V as <-. split; [repeat constructor|]. vm_compute. reflexivity.
Qed.

Print Assumptions C62_eval.
Print Assumptions C62_string.
Print Assumptions C62_cell.
Print Assumptions C62_mapping_refuted.
Print Assumptions C62_variant_refuted.
