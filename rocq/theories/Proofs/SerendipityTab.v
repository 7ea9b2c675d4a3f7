(** Tabulation of direct serendipity elements. *)
From Coq Require Import String List Arith Lia Bool ZArith.
From Verif Require Import Model.Prelude Model.Cell Model.Element Model.Gem Model.PointSet Model.Evaluation Model.Sympy2Gem
  Model.PointEvaluation Model.Serendipity Model.SerendipityEvaluation.
From Verif Require Import Spec.Rowmajor Spec.Sympy Spec.Tabulation Spec.PointEvaluation Spec.SerendipityEvaluation.
From Verif Require Import Proofs.Lists Proofs.Sympy Proofs.GemEval Proofs.Tables Proofs.PointLeaf Proofs.SerendipityDofs Proofs.SerendipityRel.
Import ListNotations.
Open Scope fresh_scope.

(** The symbols that occur. *)
Definition named (s : string) : Prop := In s (["x"; "y"]%string ++ x_names ++ y_names).
Lemma basis_named : forall r e, In e (ds_basis r) -> forall s, occurs s e -> named s.
Proof.
  intros r e He. unfold ds_basis in He. apply in_map_iff in He as (phi & <- & Hphi).
  pose (uops := mkOps unit tt tt (fun _ _ => tt) (fun _ _ => tt) (fun _ _ => tt) (fun _ => tt) (fun _ _ => tt) (fun _ => true)).
  pose (T := fun (e : rexpr) (_ : unit) => forall s, occurs s e -> named s).
  assert (H : Forall2 (Tf T) (ds_sym rops vs_symbols r) (ds_sym uops (fun _ => (tt, tt)) r)).
  { apply ds_sym_rel; unfold T; cbn [f0 f1 fadd fmul fsub fopp fdiv rops occurs]; try tauto; try (intros a b _ _ Ha Hb s [H|H]; auto).
    intros i Hi. unfold vs_symbols, Tp. cbn [fst snd occurs].
    assert (Hx : In (nth i x_names ""%string) x_names) by (apply nth_In; exact Hi).
    assert (Hy : In (nth i y_names ""%string) y_names) by (apply nth_In; exact Hi).
    split; intros s ->; unfold named; apply in_or_app; right; apply in_or_app; auto. }
  clear - H Hphi. induction H as [|f g l m Hf H IH]; [destruct Hphi|]. destruct Hphi as [<-|Hphi]; [|auto].
  apply (Hf xx_symbols (tt, tt)). split; intros s; cbn [fst snd xx_symbols occurs]; intros ->; unfold named; cbn; auto.
Qed.

Section Tabulation.
  Context {F : Type} (o : ops F) (xo : xops F) (ofZ : Z -> F) (nan : F) (fn : string -> list F -> F).
  Context (ext : rexpr -> list string -> snode F).
  Local Notation diff := (ds_diff ext).
  Hypothesis R : Ring_theory.ring_theory (f0 o) (f1 o) (fadd o) (fmul o) (fsub o) (fopp o) eq.
  Hypothesis HF : functions_ok o xo fn.
  Hypothesis eq_0 : xeq xo (f0 o) (f0 o) = true.
  Hypothesis neq_1 : xeq xo (f1 o) (f0 o) = false.
  (** The contract of the derivatives. *)
  Context (val : list nat -> rexpr -> (string -> option F) -> option F).
  Hypothesis Htr : forall e alpha (bound : string -> Prop), (forall s, occurs s e -> bound s) -> translatable bound (diff e alpha).
  Hypothesis Hval : forall e alpha rho y, val alpha e rho = Some y -> smean o xo ofZ nan rho (diff e alpha) = Some (VNum y).
  Local Notation gem := (gem F).

  (** The bindings. *)
  Definition pairs : list (string * (nat * nat)) :=
    map (fun ik => (nth (fst ik) (if Nat.eqb (snd ik) 0 then x_names else y_names) ""%string, ik)) (list_prod (seq 0 4) (seq 0 2)).
  Lemma bind_vertices_ok : forall verts : gem, gshape verts = [4; 2] ->
    bind_vertices verts = Ok (map (fun sk => (fst sk, GIndexed verts [IFixed (fst (snd sk)); IFixed (snd (snd sk))])) pairs).
  Proof using. intros verts H. unfold bind_vertices, mk_indexed. rewrite H. reflexivity. Qed.
  Lemma zip_point_ok : forall pt : gem, gshape pt = [2] ->
    zip_point xx_names 0 pt = Ok [("x"%string, GIndexed pt [IFixed 0]); ("y"%string, GIndexed pt [IFixed 1])].
  Proof using. intros pt H. unfold zip_point, xx_names, mk_indexed. rewrite H. reflexivity. Qed.

  Definition repl (verts pt : gem) : list (string * gem) :=
    map (fun sk => (fst sk, GIndexed verts [IFixed (fst (snd sk)); IFixed (snd (snd sk))])) pairs
    ++ [("x"%string, GIndexed pt [IFixed 0]); ("y"%string, GIndexed pt [IFixed 1])].
  Lemma repl_cases : forall verts pt s g, dict_get String.eqb (repl verts pt) s = Ok g ->
    (exists i k, g = GIndexed verts [IFixed i; IFixed k]) \/ exists k, g = GIndexed pt [IFixed k].
  Proof using.
    intros verts pt s g H. apply (dict_get_in String.eqb String.eqb_spec) in H. unfold repl in H. apply in_app_or in H as [H|H].
    - apply in_map_iff in H as (sk & E & _). injection E as _ <-. left. eauto.
    - right. destruct H as [H|[H|[]]]; injection H as _ <-; eauto.
  Qed.
  Lemma repl_named : forall verts pt s, named s -> exists g, dict_get String.eqb (repl verts pt) s = Ok g.
  Proof using.
    intros verts pt s H. unfold named in H. cbn in H.
    repeat (destruct H as [<-|H]; [eexists; reflexivity|]). destruct H.
  Qed.

  (** The cell and the point they stand for. *)
  Definition cell_at vars (verts : gem) env (i : nat) : F * F := (eval o vars verts env [i; 0], eval o vars verts env [i; 1]).
  Lemma repl_value : forall vars verts pt env s x g,
    assign (cell_at vars verts env) (eval o vars pt env [0], eval o vars pt env [1]) s = Some x ->
    dict_get String.eqb (repl verts pt) s = Ok g -> eval o vars g env [] = x.
  Proof using.
    intros vars verts pt env s x g Hx Hg. unfold assign in Hx. cbn -[String.eqb] in Hx.
    repeat match type of Hx with context [String.eqb s ?n] =>
      destruct (String.eqb_spec s n) as [->|_]; [cbn in Hg; injection Hx as <-; injection Hg as <-; reflexivity|] end.
    discriminate Hx.
  Qed.

  Lemma ds_entry : forall verts pt e alpha, (forall s, occurs s e -> named s) ->
    exists g, (do g <- sympy2gem o ofZ nan (repl verts pt) (diff e alpha) ;; Ok (gem_of fn g)) = Ok g /\
      gshape g = [] /\ incl (gfree g) (gfree verts ++ gfree pt) /\
      forall vars env y, val alpha e (assign (cell_at vars verts env) (eval o vars pt env [0], eval o vars pt env [1])) = Some y ->
        eval o vars g env [] = y.
  Proof using R HF eq_0 neq_1 Htr Hval.
    intros verts pt e alpha He.
    assert (Hsc : forall s g, dict_get String.eqb (repl verts pt) s = Ok g -> gshape g = []).
    { intros s g H. apply repl_cases in H as [(i & k & ->)|(k & ->)]; reflexivity. }
    assert (Ht : translatable (fun s => exists g, dict_get String.eqb (repl verts pt) s = Ok g) (diff e alpha)).
    { apply Htr. intros s Hs. apply repl_named. auto. }
    apply (translation_defined o ofZ nan (repl verts pt) Hsc) in Ht as (g & Hg). exists (gem_of fn g). rewrite Hg. cbn [bind].
    split; [reflexivity|]. split; [apply gem_of_shape; exact (all_good o ofZ nan _ Hsc _ g Hg)|]. split.
    - apply gem_of_free. intros h Hh. destruct (translation_inside o ofZ nan _ _ g Hg h Hh) as (s & Hs).
      apply repl_cases in Hs as [(i & k & ->)|(k & ->)]; cbn [gfree mi_ids flat_map]; rewrite ?app_nil_r;
        [apply incl_appl | apply incl_appr]; apply incl_refl.
    - intros vars env y Hy. apply Hval in Hy.
      apply (gem_of_value o xo fn HF eq_0 neq_1 vars env g (VNum y)).
      refine (translation_sound o xo ofZ nan _ _ _ _ eq_0 neq_1 (repl verts pt) vars env _ _ _ _ _ Hg Hy).
      1-4: intros; destruct R; congruence.
      intros s x g' Hx Hs. exact (repl_value vars verts pt env s x g' Hx Hs).
  Qed.

  Lemma ds_alpha_ok : forall r verts pt alpha, 1 <= r ->
    exists g, ds_alpha o ofZ nan fn ext r (repl verts pt) alpha = Ok (alpha, g) /\
      gshape g = [ds_space_dimension r] /\ incl (gfree g) (gfree verts ++ gfree pt) /\
      forall vars env i y, i < ds_space_dimension r ->
        val alpha (nth i (ds_basis r) (RNat 0)) (assign (cell_at vars verts env) (eval o vars pt env [0], eval o vars pt env [1])) = Some y ->
        eval o vars g env [i] = y.
  Proof using R HF eq_0 neq_1 Htr Hval.
    intros r verts pt alpha Hr. unfold ds_alpha.
    assert (Hlen : length (ds_basis r) = ds_space_dimension r) by (unfold ds_basis; rewrite map_length; apply ds_count; exact Hr).
    assert (M : forall l, (forall e, In e l -> forall s, occurs s e -> named s) ->
      exists gs, mapM (fun e => do g <- sympy2gem o ofZ nan (repl verts pt) e ;; Ok (gem_of fn g)) (map (fun phi => diff phi alpha) l) = Ok gs /\
        Forall2 (fun e g => gshape g = [] /\ incl (gfree g) (gfree verts ++ gfree pt) /\
          forall vars env y, val alpha e (assign (cell_at vars verts env) (eval o vars pt env [0], eval o vars pt env [1])) = Some y ->
            eval o vars g env [] = y) l gs).
    { induction l as [|e l IH]; intros Hl; [exists []; split; [reflexivity | constructor]|].
      destruct (ds_entry verts pt e alpha (Hl e (or_introl eq_refl))) as (g & Eg & Hg).
      destruct (IH (fun e' He' => Hl e' (or_intror He'))) as (gs & Egs & Hgs). exists (g :: gs). cbn [map mapM].
      cbv beta in Eg |- *. rewrite Eg. cbn [bind]. rewrite Egs. split; [reflexivity | constructor; assumption]. }
    destruct (M (ds_basis r) (basis_named r)) as (gs & Egs & Hgs). rewrite Egs. cbn [bind]. clear M.
    pose proof (Forall2_length Hgs) as Hl. rewrite Hlen in Hl.
    assert (Hpos : 0 < ds_space_dimension r) by (unfold ds_space_dimension; destruct (r =? 1); lia).
    unfold mk_list_tensor. rewrite <- Hl. cbn [prod fold_right]. rewrite Nat.mul_1_r.
    replace (negb (ds_space_dimension r =? 0)) with true by (symmetry; apply negb_true_iff, Nat.eqb_neq; lia).
    rewrite Nat.eqb_refl. cbn [guard bind].
    replace (forallb scalarb gs) with true.
    2:{ symmetry. apply forallb_forall. intros g Hg. clear - Hg Hgs. induction Hgs as [|e g' l gs [H _] Hgs IH]; [destruct Hg|].
        destruct Hg as [->|Hg]; [unfold scalarb; now rewrite H | auto]. }
    cbn [guard bind]. eexists. split; [reflexivity|]. split; [reflexivity|]. split.
    - cbn [gfree]. intros x Hx. apply in_flat_map in Hx as (g & Hg & Hx). clear - Hg Hx Hgs.
      induction Hgs as [|e g' l gs (_ & H & _) Hgs IH]; [destruct Hg|]. destruct Hg as [->|Hg]; auto.
    - intros vars env i y Hi Hy. cbn [eval].
      assert (E : ravel_strides [ds_space_dimension r] [i] = Ok i).
      { cbn [ravel_strides]. rewrite (proj2 (Nat.ltb_lt _ _) Hi). cbn. f_equal. lia. }
      rewrite E. clear E. rewrite <- Hlen in Hi. clear - Hgs Hi Hy. revert i Hi Hy.
      induction Hgs as [|e g l gs (_ & _ & H) Hgs IH]; intros [|i] Hi Hy; cbn in *; try lia; [apply H; exact Hy | apply IH; [lia | exact Hy]].
  Qed.

  Lemma ds_tabulation : forall r order ps ent cm pts n n1, 1 <= r ->
    gshape (physical_vertices cm) = [4; 2] ->
    physical_points cm ps ent n = Ok (pts, n1) -> n <= n1 -> gshape pts = map ix_extent (ps_indices ps) ++ [2] ->
    (forall x, In x (gfree pts) -> x < n1) -> (forall i, In i (ps_indices ps) -> ix_id i < n1) ->
    exists ts n', ds_basis_evaluation o ofZ nan fn ext r order ps ent (Some cm) n = Ok (ts, n') /\ n <= n' /\
      derivative_keys 2 order (map fst ts) /\
      forall alpha g, In (alpha, g) ts -> gshape g = [ds_space_dimension r] /\
        incl (gfree g) (gfree (physical_vertices cm) ++ gfree pts ++ map ix_id (ps_indices ps)) /\
        forall vars env i y, i < ds_space_dimension r ->
          let at_ k := eval o vars pts env (map (fun j => env (ix_id j)) (ps_indices ps) ++ [k]) in
          val alpha (nth i (ds_basis r) (RNat 0)) (assign (cell_at vars (physical_vertices cm) env) (at_ 0, at_ 1)) = Some y ->
          eval o vars g env [i] = y.
  Proof using R HF eq_0 neq_1 Htr Hval.
    intros r order ps ent cm pts n n1 Hr Hv Hp Hn Hs Hf Hi.
    destruct (partial_indexed_ok F pts (ps_indices ps) [2] n1 Hs Hf Hi) as (pt & n2 & Ept & Hn2 & Hps & Hpf & Hpe).
    unfold ds_basis_evaluation, fbind at 1, flift at 1. cbn [bind]. unfold fbind at 1. rewrite Hp. unfold fbind at 1. rewrite Ept.
    unfold fbind at 1, flift at 1. rewrite (bind_vertices_ok _ Hv). cbn [bind].
    unfold fbind at 1, flift at 1. rewrite (zip_point_ok pt Hps). cbn [bind]. fold (repl (physical_vertices cm) pt).
    set (keys := flat_map (mis 2) (seq 0 (S order))).
    assert (M : forall l, exists ts, mapM (ds_alpha o ofZ nan fn ext r (repl (physical_vertices cm) pt)) l = Ok ts /\ map fst ts = l /\
      forall alpha g, In (alpha, g) ts -> gshape g = [ds_space_dimension r] /\ incl (gfree g) (gfree (physical_vertices cm) ++ gfree pt) /\
        forall vars env i y, i < ds_space_dimension r ->
          val alpha (nth i (ds_basis r) (RNat 0)) (assign (cell_at vars (physical_vertices cm) env) (eval o vars pt env [0], eval o vars pt env [1])) = Some y ->
          eval o vars g env [i] = y).
    { induction l as [|a l (ts & Et & Ht & IH)]; [exists []; split; [reflexivity|split; [reflexivity|intros ? ? []]]|].
      destruct (ds_alpha_ok r (physical_vertices cm) pt a Hr) as (g & Eg & Hg). exists ((a, g) :: ts). cbn [mapM]. rewrite Eg. cbn [bind]. rewrite Et.
      split; [reflexivity|]. split; [cbn; congruence|]. intros alpha g' [H|H]; [injection H as <- <-; exact Hg | exact (IH alpha g' H)]. }
    destruct (M keys) as (ts & Et & Hk & HG). exists ts, n2. unfold flift. rewrite Et. cbn [bind].
    split; [reflexivity|]. split; [lia|]. split; [rewrite Hk; apply mis_keys|].
    intros alpha g Hg. destruct (HG alpha g Hg) as (Sg & Fg & Vg). split; [exact Sg|]. split.
    - intros x Hx. apply Fg in Hx. apply in_app_or in Hx as [Hx|Hx]; apply in_or_app; [left; exact Hx|right]. apply Hpf in Hx.
      apply in_or_app. exact Hx.
    - intros vars env i y Hid. cbv zeta. intros Hy. apply Vg; [exact Hid|]. rewrite !(Hpe o vars env) by reflexivity. exact Hy.
  Qed.
End Tabulation.
