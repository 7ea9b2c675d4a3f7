(** Families that become product elements on product cells. *)
From Coq Require Import Ascii String List ZArith Bool Lia.
From Verif Require Import Model.Prelude Model.Registry Model.UflElement Spec.Registry Spec.UflElement
  Proofs.Lists Proofs.Registry Proofs.Canonical Proofs.Repr Proofs.Equality Proofs.Rebuild Proofs.Symmetry.
Import ListNotations.
Open Scope list_scope.

(** ** Descriptions of the factors *)
Definition cg := mkFamily "Lagrange" (Some "CG"%string) 0 H1 "identity" (Some (Some 1, None)%Z) (Names any_cell).
Definition dg := mkFamily "Discontinuous Lagrange" (Some "DG"%string) 0 L2 "identity" (Some (Some 0, None)%Z) (Names any_cell).
Definition dgl2 := mkFamily "Discontinuous Lagrange L2" (Some "DG L2"%string) 0 L2 "L2 Piola" (Some (Some 0, None)%Z) (Names any_cell).
Definition qq := mkFamily "Q" None 0 H1 "identity" (Some (Some 1, None)%Z) (Names (map Some cubes)).
Definition dq := mkFamily "DQ" None 0 L2 "identity" (Some (Some 0, None)%Z) (Names (map Some cubes)).
Definition dql2 := mkFamily "DQ L2" None 0 L2 "L2 Piola" (Some (Some 0, None)%Z) (Names (map Some cubes)).
Definition rtcf := mkFamily "RTCF" None 1 HDiv "contravariant Piola" (Some (Some 1, None)%Z) (Names [Some "quadrilateral"%string]).
Definition rtce := mkFamily "RTCE" None 1 HCurl "covariant Piola" (Some (Some 1, None)%Z) (Names [Some "quadrilateral"%string]).
Definition ncf := mkFamily "NCF" None 1 HDiv "contravariant Piola" (Some (Some 1, None)%Z) (Names [Some "hexahedron"%string]).
Definition nce := mkFamily "NCE" None 1 HCurl "covariant Piola" (Some (Some 1, None)%Z) (Names [Some "hexahedron"%string]).
Definition names (n : string) (d : family_data) : Prop := registered d /\ (n = fd_family d \/ Some n = fd_short d) /\ n <> "S"%string.
Ltac named := match goal with |- names ?n ?d =>
  let H := fresh in pose proof (entry_known n d ltac:(vm_compute; reflexivity)) as H; destruct H as [? ?]; split; [assumption|]; split; [assumption|discriminate] end.
Lemma n_cg : names "CG" cg. Proof. named. Qed.
Lemma n_dg : names "DG" dg. Proof. named. Qed.
Lemma n_dgl2 : names "DG L2" dgl2. Proof. named. Qed.
Lemma n_qq : names "Q" qq. Proof. named. Qed.
Lemma n_dq : names "DQ" dq. Proof. named. Qed.
Lemma n_dql2 : names "DQ L2" dql2. Proof. named. Qed.
Lemma n_rtcf : names "RTCF" rtcf. Proof. named. Qed.
Lemma n_rtce : names "RTCE" rtce. Proof. named. Qed.
Lemma n_ncf : names "NCF" ncf. Proof. named. Qed.
Lemma n_nce : names "NCE" nce. Proof. named. Qed.

Opaque builtins registered.
Lemma named_describe n d cell ord k : names n d -> describe_name n cell ord k = describe builtins cell n ord.
Proof. intros (R & N & S). unfold describe_name. rewrite (canonical_names 2 d n cell ord k R N (or_intror S)). reflexivity. Qed.
Lemma named_described n d cell ord k e : names n d -> describe_name n cell ord k = Ok e -> described d cell ord e.
Proof.
  intros N H. rewrite (named_describe n d) in H by exact N. destruct N as (R & N & _). pose proof (describe_spec d n cell ord R N) as S. rewrite H in S. apply S.
Qed.
Lemma named_accepted n d cell ord k e : names n d -> described d cell ord e -> is_int ord -> describe_name n cell ord k = Ok e.
Proof. intros N D I. rewrite (named_describe n d) by exact N. destruct N as (R & N & _). apply (describe_accepts d); auto. Qed.

Definition fits (c : ucell) (sh : list nat) (m : string) (s : sobolev) (v : option string) (d : udeg) (e : uel) : Prop :=
  u_cell e = Some c /\ u_shape e = sh /\ u_mapping e = m /\ u_space e = Ok (Predefined s) /\ u_variant e = v /\ u_degree e = d.
Lemma leaf n d c p k v e : names n d -> plain_finite n (Some c) p k None v = Ok e ->
  fits c (repeat (ucell_dim c) (fd_rank d)) (fd_mapping d) (fd_space d) v (deg_of p) e.
Proof.
  intros N H. apply plain_finite_inv in H as (x & -> & H & _). apply (named_described n d) in H as (_ & _ & _ & _ & O & S & Sp & M & _); [|exact N].
  unfold fits, u_cell, u_shape, u_degree. cbn [u_attrs at_cell at_shape at_degree u_mapping u_space u_variant]. rewrite O, M, Sp. repeat split. exact S.
Qed.
Lemma shared_variant v l : l <> [] -> Forall (eq v) l -> common_variant l = v.
Proof.
  destruct l as [|x l]; [now intros []|]. intros _ F. inversion F as [|? ? E1 E2]; subst. unfold common_variant.
  assert (forallb (opt_eqb String.eqb x) l = true) as ->; [|reflexivity]. apply forallb_forall. intros y I. rewrite Forall_forall in E2. rewrite <- (E2 _ I).
  destruct x; [apply String.eqb_refl|reflexivity].
Qed.
Lemma product_fits cs c m s v dgs es e : In m ["identity"; "L2 Piola"]%string -> Forall2 (fun c' x => fits c' [] m s v (dgs c') x) cs es ->
  mk_tensor_product es (Some c) = Ok e -> fits c [] m s v (DTuple (map dgs cs)) e.
Proof.
  intros M F H. apply mk_tensor_product_inv in H as (cell & -> & N & _ & <-).
  assert (Sh : flat_map u_shape es = []). { clear N. induction F as [|c' x cs es (_ & S & _) F IH]; [reflexivity|]. cbn [flat_map]. now rewrite S, IH. }
  assert (Mp : map u_mapping es = repeat m (length es)). { clear N Sh. induction F as [|c' x cs es (_ & _ & S & _) F IH]; [reflexivity|]. cbn [map length repeat]. now rewrite S, IH. }
  assert (Sp : map u_space es = repeat (Ok (Predefined s)) (length es)). { clear N Sh Mp. induction F as [|c' x cs es (_ & _ & _ & S & _) F IH]; [reflexivity|]. cbn [map length repeat]. now rewrite S, IH. }
  assert (Va : Forall (eq v) (map u_variant es)). { clear N Sh Mp Sp. induction F as [|c' x cs es (_ & _ & _ & _ & S & _) F IH]; constructor; auto. }
  assert (Dg : map u_degree es = map dgs cs). { clear N Sh Mp Sp Va. induction F as [|c' x cs es (_ & _ & _ & _ & _ & S) F IH]; [reflexivity|]. cbn [map]. now rewrite S, IH. }
  unfold fits, u_cell, u_shape, u_degree. cbn [u_attrs at_cell at_shape at_degree u_mapping u_space u_variant]. repeat split.
  - exact Sh.
  - assert (X : forall w, forallb (fun s0 => String.eqb (u_mapping s0) w) es = forallb (fun y => String.eqb y w) (map u_mapping es)).
    { intros w. now rewrite forallb_map. }
    rewrite !X, Mp. destruct es as [|e0 es]; [now destruct N|]. cbn [length repeat]. generalize (length es). intros k.
    destruct M as [<-|[<-|[]]]; cbn [forallb String.eqb].
    + assert (forallb (fun y => String.eqb y "identity") (repeat "identity"%string k) = true) as ->; [|reflexivity]. induction k as [|k IH]; [reflexivity|exact IH].
    + cbn [Ascii.eqb Bool.eqb andb]. assert (forallb (fun y => String.eqb y "L2 Piola") (repeat "L2 Piola"%string k) = true) as E.
      { induction k as [|k IH]; [reflexivity|exact IH]. }
      cbn [String.eqb Ascii.eqb Bool.eqb]. rewrite E. reflexivity.
  - rewrite Sp. destruct es as [|e0 es]; [now destruct N|].
    assert (E1 : forall k, sequence (repeat (Ok (Predefined s)) k) = Ok (repeat (Predefined s) k)).
    { unfold sequence. induction k as [|k IH]; [reflexivity|]. cbn [repeat mapM bind]. now rewrite IH. }
    assert (E2 : forall k, mapM predefined (repeat (Predefined s) k) = Ok (repeat s k)).
    { induction k as [|k IH]; [reflexivity|]. cbn [repeat mapM bind predefined]. now rewrite IH. }
    rewrite E1. cbn [bind]. rewrite E2. cbn [bind length repeat].
    assert (E3 : forallb (sobolev_eqb s) (s :: repeat s (length es)) = true).
    { apply forallb_forall. intros y [<-|I]; [|apply repeat_spec in I as ->]; apply String.eqb_refl. }
    now rewrite E3.
  - apply shared_variant; [|exact Va]. destruct es; [now destruct N|discriminate].
  - exact (f_equal DTuple Dg).
Qed.
Lemma sequence_forall2 {A} (f : ucell -> result A) cs es : sequence (map f cs) = Ok es -> Forall2 (fun c e => f c = Ok e) cs es.
Proof.
  unfold sequence. revert es. induction cs as [|c cs IH]; intros es H; cbn [map mapM] in H; [injection H as <-; constructor|].
  binds H. injection H as <-. constructor; [assumption|]. now apply IH.
Qed.

(** The names of the factors. *)
Inductive kind := KH1 | KL2 | KPiola.
Definition kspace k := match k with KH1 => H1 | _ => L2 end.
Definition kmapping k := match k with KPiola => "L2 Piola"%string | _ => "identity"%string end.
Definition kname k (c : ucell) : string :=
  match k with
  | KH1 => "CG"
  | KL2 => if simplex_name c then "DG" else "DQ"
  | KPiola => if simplex_name c then "DG L2" else "DQ L2"
  end%string.
Definition kproduct k : string := match k with KH1 => "Q" | KL2 => "DQ" | KPiola => "DQ L2" end%string.
Lemma kname_ok k c : exists d, names (kname k c) d /\ fd_rank d = 0 /\ fd_space d = kspace k /\ fd_mapping d = kmapping k /\ on_product (fd_family d) = kproduct k.
Proof.
  destruct k; cbn [kname]; [exists cg|destruct (simplex_name c); [exists dg|exists dq]|destruct (simplex_name c); [exists dgl2|exists dql2]];
    (split; [first [exact n_cg|exact n_dg|exact n_dq|exact n_dgl2|exact n_dql2]|repeat split]).
Qed.
Lemma kmapping_in k : In (kmapping k) ["identity"; "L2 Piola"]%string.
Proof. destruct k; cbn; auto. Qed.
Lemma factors_on f c o k s v d cs kd : c = ProductCell cs -> describe_name f (Some c) o k = Ok d -> ds_family d = kproduct kd ->
  finite_on f c o k s v = do es <- sequence (map (fun c' => finite_on (kname kd c') c' (ds_order d) None None v) cs) ;; mk_tensor_product es (Some c).
Proof. intros -> H E. cbn [finite_on]. rewrite H. cbn [bind]. rewrite E. destruct kd; reflexivity. Qed.
Lemma factor_fits kd v c : forall p e, finite_on (kname kd c) c p None None v = Ok e ->
  fits c [] (kmapping kd) (kspace kd) v (spread (deg_of p) c) e.
Proof.
  induction c as [k|cs IH] using ucell_ind'; intros p e H.
  - cbn [finite_on] in H. destruct (kname_ok kd (Named k)) as (d & N & R & S & M & _). apply (leaf _ d) in H; [|exact N]. rewrite R, S, M in H. exact H.
  - destruct (kname_ok kd (ProductCell cs)) as (d & N & R & S & M & P).
    destruct (describe_name (kname kd (ProductCell cs)) (Some (ProductCell cs)) p None) as [x|er] eqn:D; [|cbn [finite_on] in H; rewrite D in H; discriminate H].
    pose proof (named_described _ d _ _ _ _ N D) as (_ & _ & F & _ & O & _). cbn [product_cell] in F. rewrite P in F.
    rewrite (factors_on _ _ _ _ _ _ x cs kd eq_refl D F), O in H. destruct (sequence _) as [es|er] eqn:Q; [|discriminate H]. cbn [bind] in H.
    apply sequence_forall2 in Q. cbn [spread]. apply (product_fits cs _ _ _ _ _ es); [apply kmapping_in| |exact H].
    clear H D N. induction Q as [|c e' cs es E Q IHQ]; [constructor|]. inversion IH as [|? ? I1 I2]; subst. constructor; auto.
Qed.

(** ** The families *)
Lemma top_described f c o k d n fd : describe_name f (Some c) o k = Ok d -> ds_family d = n -> names n fd ->
  ds_shape d = repeat (ucell_dim c) (fd_rank fd) /\ ds_mapping d = fd_mapping fd /\ ds_space d = fd_space fd /\ order_allowed (fd_range fd) (ds_order d).
Proof.
  intros H E N. unfold describe_name in H. destruct (canonical builtins 3 f (Some c) o k) as [r|] eqn:C; [|discriminate H]. subst r.
  apply canonical_again in C as (e' & C & Sm & _). rewrite E in C.
  assert (D : describe_name n (Some c) (ds_order d) None = Ok e').
  { unfold describe_name. now rewrite (canonical_more builtins 1 3 _ _ _ _ _ ltac:(lia) C). }
  apply (named_described n fd) in D as (_ & O & _ & _ & O' & S & Sp & M & _); [|exact N].
  destruct Sm as (_ & S2 & S3 & S4 & S5 & _). cbn [shape_of] in S. repeat split; congruence.
Qed.
Lemma lagrange_product f cs o k s v d kd e : describe_name f (Some (ProductCell cs)) o k = Ok d -> ds_family d = kproduct kd ->
  mk_finite f (Some (ProductCell cs)) o k s v = Ok e ->
  fits (ProductCell cs) (ds_shape d) (ds_mapping d) (ds_space d) v (spread (deg_of (ds_order d)) (ProductCell cs)) e.
Proof.
  intros D F H. cbn [mk_finite] in H. rewrite (factors_on _ _ _ _ _ _ d cs kd eq_refl D F) in H.
  assert (T : ds_shape d = [] /\ ds_mapping d = kmapping kd /\ ds_space d = kspace kd).
  { destruct kd; cbn [kproduct] in F; [destruct (top_described _ _ _ _ _ _ _ D F n_qq) as (A & B & C & _)
      |destruct (top_described _ _ _ _ _ _ _ D F n_dq) as (A & B & C & _)|destruct (top_described _ _ _ _ _ _ _ D F n_dql2) as (A & B & C & _)]; now repeat split. }
  destruct T as (-> & -> & ->). destruct (sequence _) as [es|er] eqn:Q; [|discriminate H]. cbn [bind] in H. apply sequence_forall2 in Q.
  cbn [spread]. apply (product_fits cs _ _ _ _ _ es); [apply kmapping_in| |exact H]. clear H D.
  induction Q as [|c e' cs es E Q IHQ]; constructor; [now apply factor_fits|exact IHQ].
Qed.

Definition shell (c : ucell) (v : option string) (d : udeg) (e : uel) : Prop := u_cell e = Some c /\ u_variant e = v /\ u_degree e = d.
Lemma fits_shell c sh m s v d e : fits c sh m s v d e -> shell c v d e.
Proof. intros (A & _ & _ & _ & B & C). now repeat split. Qed.
Lemma product_shell c v a b da db ca cb e : shell ca v da a -> shell cb v db b -> mk_tensor_product [a; b] (Some c) = Ok e -> shell c v (DTuple [da; db]) e.
Proof.
  intros (_ & Va & Da) (_ & Vb & Db) H. apply mk_tensor_product_inv in H as (cell & -> & _ & _ & <-).
  unfold shell, u_cell. cbn [u_attrs at_cell u_variant]. split; [reflexivity|]. split.
  - apply shared_variant; [discriminate|]. cbn [map]. rewrite Va, Vb. auto.
  - unfold u_degree at 1. cbn [u_attrs at_degree map]. now rewrite Da, Db.
Qed.
Lemma hdiv_fits c v d x e : shell c v d x -> mk_hdiv x = Ok e -> fits c [ucell_dim c] "contravariant Piola" HDiv v d e.
Proof.
  intros (C & V & D) H. apply mk_hdiv_inv in H as (a & -> & W). unfold wrapped_attrs in W. rewrite C in W. injection W as <-.
  unfold fits, u_cell, u_shape. cbn [u_attrs at_cell at_shape u_mapping u_space u_variant]. repeat split; auto.
Qed.
Lemma hcurl_fits c v d x e : shell c v d x -> mk_hcurl x = Ok e -> fits c [ucell_dim c] "covariant Piola" HCurl v d e.
Proof.
  intros (C & V & D) H. apply mk_hcurl_inv in H as (a & -> & W). unfold wrapped_attrs in W. rewrite C in W. injection W as <-.
  unfold fits, u_cell, u_shape. cbn [u_attrs at_cell at_shape u_mapping u_space u_variant]. repeat split; auto.
Qed.
Lemma enriched_fits c sh m s v z a1 a2 b1 b2 a b e : fits c sh m s v (DTuple [DInt a1; DInt a2]) a -> fits c sh m s v (DTuple [DInt b1; DInt b2]) b ->
  Z.max a1 b1 = z -> Z.max a2 b2 = z -> mk_enriched false [a; b] = Ok e -> fits c sh m s v (DTuple [DInt z; DInt z]) e.
Proof.
  intros (Ca & Sa & Ma & Pa & Va & Da) (Cb & Sb & Mb & Pb & Vb & Db) M1 M2 H. unfold mk_enriched in H. binds H. injection H as <-.
  rewrite Da in E0. cbn [mapM bind] in E0. rewrite Da, Db in E0. cbn [bind hd length columns sequence map mapM fst snd py_max fold_left deg_lt] in E0.
  assert (v1 = DTuple [DInt z; DInt z]) as ->.
  { destruct (Z.ltb_spec a1 b1), (Z.ltb_spec a2 b2); cbn [bind] in E0; injection E0 as <-; repeat f_equal; lia. }
  unfold fits, u_cell, u_shape, u_degree. cbn [u_attrs at_cell at_shape at_degree u_mapping u_space u_variant].
  split; [exact Ca|]. split; [exact Sa|]. split; [exact Ma|]. split; [|split; [|reflexivity]].
  - unfold sequence. cbn [map mapM]. rewrite Pa, Pb. cbn [bind mapM predefined]. unfold enriched_space. cbn [forallb]. unfold sobolev_eqb. rewrite String.eqb_refl. reflexivity.
  - apply shared_variant; [discriminate|]. cbn [map]. rewrite Va, Vb. auto.
Qed.


Lemma expect_inv cs h v : expect_cells cs h v = Ok tt -> map cell_name cs = [h; v].
Proof.
  unfold expect_cells, two_cells. destruct cs as [|a [|b [|]]]; try discriminate. cbn [bind]. intros H. binds H.
  apply guard_true in E, H. apply String.eqb_eq in E, H. cbn [map]. congruence.
Qed.
Lemma vector_product f cs o k s v d e : describe_name f (Some (ProductCell cs)) o k = Ok d -> In (ds_family d) vector_families ->
  mk_finite f (Some (ProductCell cs)) o k s v = Ok e ->
  map cell_name cs = vector_cells (ds_family d) /\ exists z, ds_order d = Order z /\
  fits (ProductCell cs) (ds_shape d) (ds_mapping d) (ds_space d) v (DTuple [DInt z; DInt z]) e.
Proof.
  intros D F H. cbn [mk_finite finite_on] in H. rewrite D in H. cbn [bind] in H.
  destruct F as [F|[F|[F|[F|[]]]]]; symmetry in F; rewrite F in *; cbn [String.eqb Ascii.eqb Bool.eqb orb] in H; binds H;
    (match goal with E : expect_cells _ _ _ = Ok _ |- _ => match type of E with _ = Ok ?u => destruct u end; apply expect_inv in E; split; [exact E|] end);
    (match goal with E : minus_one (ds_order d) = Ok _ |- _ => unfold minus_one in E; destruct (ds_order d) as [|z|]; try discriminate E; injection E as <- end);
    exists z; (split; [reflexivity|]); unfold on_kind in *.
  - destruct (top_described _ _ _ _ _ _ _ D F n_rtcf) as (-> & -> & -> & _). cbn [rtcf fd_rank fd_mapping fd_space repeat].
    apply (leaf _ cg) in E0; [|exact n_cg]. apply (leaf _ dg) in E2; [|exact n_dg]. cbn [deg_of] in E0, E2. apply fits_shell in E0, E2.
    apply (product_shell _ v _ _ _ _ _ _ _ E0 E2) in E3. apply (product_shell _ v _ _ _ _ _ _ _ E2 E0) in E4.
    refine (enriched_fits _ _ _ _ _ z _ _ _ _ _ _ _ (hdiv_fits _ _ _ _ _ E3 E5) (hdiv_fits _ _ _ _ _ E4 E6) _ _ H); lia.
  - destruct (top_described _ _ _ _ _ _ _ D F n_rtce) as (-> & -> & -> & _). cbn [rtce fd_rank fd_mapping fd_space repeat].
    apply (leaf _ cg) in E0; [|exact n_cg]. apply (leaf _ dg) in E2; [|exact n_dg]. cbn [deg_of] in E0, E2. apply fits_shell in E0, E2.
    apply (product_shell _ v _ _ _ _ _ _ _ E0 E2) in E3. apply (product_shell _ v _ _ _ _ _ _ _ E2 E0) in E4.
    refine (enriched_fits _ _ _ _ _ z _ _ _ _ _ _ _ (hcurl_fits _ _ _ _ _ E3 E5) (hcurl_fits _ _ _ _ _ E4 E6) _ _ H); lia.
  - destruct (top_described _ _ _ _ _ _ _ D F n_ncf) as (-> & -> & -> & _). cbn [ncf fd_rank fd_mapping fd_space repeat].
    apply (leaf _ rtcf) in E0; [|exact n_rtcf]. apply (leaf _ dq) in E2; [|exact n_dq]. apply (leaf _ dg) in E3; [|exact n_dg]. apply (leaf _ cg) in E4; [|exact n_cg].
    cbn [deg_of] in E0, E2, E3, E4. apply fits_shell in E0, E2, E3, E4.
    apply (product_shell _ v _ _ _ _ _ _ _ E0 E3) in E5. apply (product_shell _ v _ _ _ _ _ _ _ E2 E4) in E7.
    refine (enriched_fits _ _ _ _ _ z _ _ _ _ _ _ _ (hdiv_fits _ _ _ _ _ E5 E6) (hdiv_fits _ _ _ _ _ E7 E8) _ _ H); lia.
  - destruct (top_described _ _ _ _ _ _ _ D F n_nce) as (-> & -> & -> & _). cbn [nce fd_rank fd_mapping fd_space repeat].
    apply (leaf _ qq) in E0; [|exact n_qq]. apply (leaf _ rtce) in E1; [|exact n_rtce]. apply (leaf _ dg) in E3; [|exact n_dg]. apply (leaf _ cg) in E4; [|exact n_cg].
    cbn [deg_of] in E0, E1, E3, E4. apply fits_shell in E0, E1, E3, E4.
    apply (product_shell _ v _ _ _ _ _ _ _ E0 E3) in E5. apply (product_shell _ v _ _ _ _ _ _ _ E1 E4) in E7.
    refine (enriched_fits _ _ _ _ _ z _ _ _ _ _ _ _ (hcurl_fits _ _ _ _ _ E5 E6) (hcurl_fits _ _ _ _ _ E7 E8) _ _ H); lia.
Qed.

(** ** Refusals *)
Lemma vector_refused f cs o k s v d : describe_name f (Some (ProductCell cs)) o k = Ok d -> In (ds_family d) vector_families ->
  map cell_name cs <> vector_cells (ds_family d) -> mk_finite f (Some (ProductCell cs)) o k s v = Err ValueError.
Proof.
  intros D F N. cbn [mk_finite finite_on]. rewrite D. cbn [bind].
  assert (X : forall h w, map cell_name cs <> [h; w] -> expect_cells cs h w = Err ValueError).
  { intros h w M. unfold expect_cells, two_cells. destruct cs as [|a [|b [|]]]; try reflexivity. cbn [bind map] in *.
    destruct (String.eqb_spec (cell_name a) h) as [E|E]; [|reflexivity]. destruct (String.eqb_spec (cell_name b) w) as [E'|E']; [|reflexivity].
    exfalso. apply M. now rewrite E, E'. }
  destruct F as [F|[F|[F|[F|[]]]]]; symmetry in F; rewrite F in *; cbn [String.eqb Ascii.eqb Bool.eqb orb]; rewrite X by exact N; reflexivity.
Qed.
Lemma undescribed f c o k s v x : describe_name f c o k = Err x -> mk_finite f c o k s v = Err x.
Proof.
  intros H. destruct c as [c|]; cbn [mk_finite]; [|unfold plain_finite; rewrite H; reflexivity].
  destruct c; cbn [finite_on]; [unfold plain_finite|]; rewrite H; reflexivity.
Qed.

(** ** Acceptance *)
Lemma escape_quiet c : Ascii.eqb dquote c = false -> has_char dquote (escape squote c) = false.
Proof. destruct c as [[] [] [] [] [] [] [] []]; vm_compute; congruence. Qed.
Lemma has_char_in c s : ~ In c (list_ascii_of_string s) -> has_char c s = false.
Proof.
  intros N. unfold has_char. destruct (existsb _ _) eqn:E; [|reflexivity]. exfalso. apply N. apply existsb_exists in E as (x & I & E).
  apply Ascii.eqb_eq in E. now subst.
Qed.
Lemma escaped_quiet s : has_char dquote s = false -> has_char dquote (escaped squote s) = false.
Proof.
  unfold escaped. induction s as [|c s IH]; intros H; [reflexivity|]. rewrite has_char_cons in H. apply orb_false_iff in H as [H1 H2].
  cbn [list_ascii_of_string map]. specialize (IH H2). destruct (map (escape squote) (list_ascii_of_string s)) as [|x l]; [now apply escape_quiet|].
  change (String.concat "" (escape squote c :: x :: l)) with (String.append (escape squote c) (String.append "" (String.concat "" (x :: l)))).
  rewrite has_char_app, (escape_quiet _ H1). exact IH.
Qed.
Lemma quiet_repr s : quiet (Some s) -> has_char dquote (pyrepr s) = false.
Proof.
  intros [A B]. apply has_char_in in A, B. rewrite pyrepr_plain by exact A. rewrite has_char_cons, has_char_app, escaped_quiet by exact B.
  reflexivity.
Qed.
Lemma signed_quiet s : all_chars signed s = true -> has_char dquote s = false.
Proof.
  induction s as [|c s IH]; intros H; [reflexivity|]. cbn [all_chars] in H. apply andb_true_iff in H as [H1 H2]. rewrite has_char_cons, (IH H2), orb_false_r.
  destruct c as [[] [] [] [] [] [] [] []]; try reflexivity; discriminate H1.
Qed.
Definition good_family (d : family_data) : bool :=
  forallb (fun f => negb (has_char dquote (pyrepr f)) && negb (existsb (String.eqb f) ["Bernardi-Raugel"; "Bernardi-Raugel Bubble"; "Guzman-Neilan 1st kind H1";
             "Guzman-Neilan 2nd kind H1"; "Guzman-Neilan H1(div)"; "Guzman-Neilan Bubble"]%string)) [fd_family d; on_product (fd_family d)].
Lemma described_exists d c ord : good_family d = true -> cell_allowed (fd_cells d) (Some c) -> order_allowed (fd_range d) ord ->
  exists x, described d (Some c) ord x /\ has_char dquote (pyrepr (ds_family x)) = false.
Proof.
  intros G C O. set (fam := if product_cell (Some c) then on_product (fd_family d) else fd_family d).
  assert (F : has_char dquote (pyrepr fam) = false /\ ~ bubble_family fam).
  { unfold good_family in G. rewrite forallb_forall in G. assert (I : In fam [fd_family d; on_product (fd_family d)]) by (unfold fam; destruct (product_cell _); cbn; auto).
    apply G, andb_true_iff in I as [I1 I2]. apply negb_true_iff in I1, I2. split; [exact I1|]. intros B. unfold bubble_family in B.
    assert (existsb (String.eqb fam) ["Bernardi-Raugel"; "Bernardi-Raugel Bubble"; "Guzman-Neilan 1st kind H1";
             "Guzman-Neilan 2nd kind H1"; "Guzman-Neilan H1(div)"; "Guzman-Neilan Bubble"]%string = true); [|congruence].
    apply existsb_exists. exists fam. split; [exact B|apply String.eqb_refl]. }
  destruct F as [F1 F2]. exists (mkDescription fam (fd_short d) ord (repeat (ucell_dim c) (fd_rank d)) (fd_space d) (fd_mapping d) ord).
  cbn [ds_family]. split; [|exact F1]. unfold described. cbn [ds_family ds_short ds_order ds_shape ds_space ds_mapping ds_embedded].
  split; [exact C|]. split; [exact O|]. repeat split; auto. intros B. contradiction.
Qed.
Lemma leaf_accepted n d k z v : names n d -> good_family d = true -> cell_allowed (fd_cells d) (Some (Named k)) -> order_allowed (fd_range d) (Order z) -> quiet v ->
  exists e, plain_finite n (Some (Named k)) (Order z) None None v = Ok e /\ u_scheme e = None.
Proof.
  intros N G C O Q. destruct (described_exists d (Named k) (Order z) G C O) as (x & D & F).
  unfold plain_finite. rewrite (named_accepted n d _ _ _ x N D) by (now exists z). cbn [bind].
  assert (R : has_char dquote (finite_repr x (Some (Named k)) None v) = false).
  { unfold finite_repr. rewrite !has_char_app, F. destruct D as (_ & _ & _ & _ & -> & _). cbn [order_repr ocell_repr cell_repr].
    rewrite (signed_quiet (str_int z)) by apply signed_int.
    assert (V : has_char dquote (match v with None => ""%string | Some v => String.append ", variant=" (pyrepr v) end) = false).
    { destruct v as [v|]; [|reflexivity]. rewrite has_char_app, quiet_repr by exact Q. reflexivity. }
    rewrite V. destruct k; reflexivity. }
  rewrite R. cbn [negb guard bind]. eauto.
Qed.
Definition lowest (kd : kind) : Z := match kd with KH1 => 1%Z | _ => 0%Z end.
Lemma kname_good kd c z : (lowest kd <= z)%Z -> exists d, names (kname kd c) d /\ good_family d = true /\ order_allowed (fd_range d) (Order z) /\
  on_product (fd_family d) = kproduct kd /\ (factor_cell c -> cell_allowed (fd_cells d) (Some c)).
Proof.
  intros L. assert (W : forall lo, (lo <= z)%Z -> order_allowed (Some (Some lo, None)) (Order z)).
  { intros lo H. exists (Some lo), None. split; [reflexivity|]. split; [exact H|exact I]. }
  assert (A : factor_cell c -> cell_allowed (Names any_cell) (Some c)).
  { intros F. destruct F as [k I|]; [|exact I]. cbn in I. destruct I as [<-|[<-|[<-|[<-|[<-|[]]]]]]; cbn; auto 20. }
  assert (B : simplex_name c = false -> factor_cell c -> cell_allowed (Names (map Some cubes)) (Some c)).
  { intros S F. destruct F as [k I|]; [|exact I]. cbn in I. destruct I as [<-|[<-|[<-|[<-|[<-|[]]]]]]; try discriminate S; cbn; auto 20. }
  destruct kd; cbn [kname lowest] in *.
  - exists cg. split; [exact n_cg|]. split; [reflexivity|]. split; [apply W, L|]. split; [reflexivity|exact A].
  - destruct (simplex_name c) eqn:S; [exists dg|exists dq]; (split; [first [exact n_dg|exact n_dq]|]); (split; [reflexivity|]); (split; [apply W, L|]);
      (split; [reflexivity|]); auto.
  - destruct (simplex_name c) eqn:S; [exists dgl2|exists dql2]; (split; [first [exact n_dgl2|exact n_dql2]|]); (split; [reflexivity|]); (split; [apply W, L|]);
      (split; [reflexivity|]); auto.
Qed.
Lemma factors_accepted kd v z cs c : cs <> [] -> Forall (fun c' => exists e, finite_on (kname kd c') c' (Order z) None None v = Ok e) cs ->
  exists e, (do es <- sequence (map (fun c' => finite_on (kname kd c') c' (Order z) None None v) cs) ;; mk_tensor_product es (Some c)) = Ok e.
Proof.
  intros N F. assert (S : exists es, sequence (map (fun c' => finite_on (kname kd c') c' (Order z) None None v) cs) = Ok es).
  { unfold sequence. clear N. induction F as [|c' cs (e & E) F (es & IH)]; [eexists; reflexivity|]. cbn [map mapM]. rewrite E. cbn [bind]. rewrite IH. eexists. reflexivity. }
  destruct S as (es & S). rewrite S. cbn [bind]. apply sequence_forall2 in S.
  assert (Sh : flat_map u_shape es = []).
  { clear N F. induction S as [|c' e cs es E S IH]; [reflexivity|]. apply factor_fits in E as (_ & Sh & _). cbn [flat_map]. now rewrite Sh, IH. }
  unfold mk_tensor_product. destruct es as [|e0 es]; [inversion S; subst; now destruct N|]. cbn [bind]. rewrite Sh. cbn [length Nat.leb guard bind]. eauto.
Qed.
Lemma factor_accepted kd v c z : factor_cell c -> (lowest kd <= z)%Z -> quiet v -> exists e, finite_on (kname kd c) c (Order z) None None v = Ok e.
Proof.
  intros F L Q. revert F. induction c as [k|cs IH] using ucell_ind'; intros F.
  - destruct (kname_good kd (Named k) z L) as (d & N & G & O & _ & A). destruct (leaf_accepted _ d k z v N G (A F) O Q) as (e & E & _). exists e. exact E.
  - destruct (kname_good kd (ProductCell cs) z L) as (d & N & G & O & P & A). destruct (described_exists d (ProductCell cs) (Order z) G (A F) O) as (x & D & _).
    pose proof (named_accepted _ d _ _ None x N D (ex_intro _ z eq_refl)) as Ds. destruct D as (_ & _ & Fm & _ & Or & _). cbn [product_cell] in Fm. rewrite P in Fm.
    rewrite (factors_on _ _ _ _ _ _ x cs kd eq_refl Ds Fm), Or. inversion F as [|? Ne Fc]; subst. apply factors_accepted; [exact Ne|].
    clear -IH Fc. induction IH as [|c cs H IH IHc]; [constructor|]. inversion Fc; subst. constructor; auto.
Qed.
Lemma lagrange_accepted f cs o k s v d kd z : describe_name f (Some (ProductCell cs)) o k = Ok d -> ds_family d = kproduct kd -> ds_order d = Order z ->
  factor_cell (ProductCell cs) -> quiet v -> exists e, mk_finite f (Some (ProductCell cs)) o k s v = Ok e.
Proof.
  intros D F O C Q. cbn [mk_finite]. rewrite (factors_on _ _ _ _ _ _ d cs kd eq_refl D F), O. inversion C as [|? Ne Fc]; subst.
  assert (L : (lowest kd <= z)%Z).
  { destruct kd; cbn [kproduct] in F; [destruct (top_described _ _ _ _ _ _ _ D F n_qq) as (_ & _ & _ & A)
      |destruct (top_described _ _ _ _ _ _ _ D F n_dq) as (_ & _ & _ & A)|destruct (top_described _ _ _ _ _ _ _ D F n_dql2) as (_ & _ & _ & A)];
      rewrite O in A; destruct A as (lo & hi & E & W & _); injection E as <- <-; exact W. }
  apply factors_accepted; [exact Ne|]. rewrite Forall_forall in *. intros c I. apply factor_accepted; auto.
Qed.
Definition ready (c : ucell) (sh : list nat) (d : udeg) (e : uel) : Prop := u_cell e = Some c /\ u_shape e = sh /\ u_degree e = d /\ u_scheme e = None.
Lemma kind_accepted n d k z v : names n d -> good_family d = true -> cell_allowed (fd_cells d) (Some (Named k)) -> order_allowed (fd_range d) (Order z) -> quiet v ->
  exists e, on_kind n k (Order z) v = Ok e /\ ready (Named k) (repeat (ucell_dim (Named k)) (fd_rank d)) (DInt z) e.
Proof.
  intros N G C O Q. destruct (leaf_accepted n d k z v N G C O Q) as (e & E & S). exists e. unfold on_kind. split; [exact E|].
  apply (leaf _ d) in E; [|exact N]. destruct E as (A & B & _ & _ & _ & D). now repeat split.
Qed.
Lemma pair_accepted a b ca cb sa sb da db c : ready ca sa da a -> ready cb sb db b -> (length (sa ++ sb) <= 1)%nat ->
  exists e, mk_tensor_product [a; b] (Some c) = Ok e /\ ready c (sa ++ sb) (DTuple [da; db]) e.
Proof.
  intros (_ & Sa & Da & _) (_ & Sb & Db & _) L. unfold mk_tensor_product. cbn [bind flat_map map]. rewrite Sa, Sb, app_nil_r, Da, Db.
  apply Nat.leb_le in L. rewrite L. cbn [guard bind]. eexists. split; [reflexivity|]. now repeat split.
Qed.
Lemma wrapped_accepted c sh d x : ready c sh d x -> (exists e, mk_hdiv x = Ok e /\ ready c [ucell_dim c] d e) /\ (exists e, mk_hcurl x = Ok e /\ ready c [ucell_dim c] d e).
Proof.
  intros (C & _ & D & S). unfold mk_hdiv, mk_hcurl, wrapped_attrs. rewrite C. cbn [bind].
  split; eexists; (split; [reflexivity|]); unfold ready, u_cell, u_shape, u_degree, u_scheme; cbn [u_attrs at_cell at_shape at_degree at_scheme]; now repeat split.
Qed.
Lemma union_accepted c sh a1 a2 b1 b2 a b : ready c sh (DTuple [DInt a1; DInt a2]) a -> ready c sh (DTuple [DInt b1; DInt b2]) b -> exists e, mk_enriched false [a; b] = Ok e.
Proof.
  intros (Ca & Sa & Da & Qa) (Cb & Sb & Db & Qb). unfold mk_enriched. rewrite Ca, Da. cbn [forallb]. rewrite Cb. cbn [opt_eqb]. rewrite ucell_eqb_refl.
  cbn [andb guard bind mapM]. rewrite Da, Db. cbn [bind hd length columns sequence map mapM fst snd py_max fold_left deg_lt flat_map app].
  rewrite Qa, Qb, Sa, Sb. cbn [app forallb guard bind].
  assert (R : list_eqb Nat.eqb sh sh = true) by (clear; induction sh as [|n l IH]; cbn; [reflexivity|now rewrite Nat.eqb_refl]). rewrite R.
  destruct (a1 <? b1)%Z, (a2 <? b2)%Z; cbn [bind guard andb]; eexists; reflexivity.
Qed.
Lemma vector_accepted f cs o k s v d z : describe_name f (Some (ProductCell cs)) o k = Ok d -> In (ds_family d) vector_families -> ds_order d = Order z ->
  map cell_name cs = vector_cells (ds_family d) -> quiet v -> exists e, mk_finite f (Some (ProductCell cs)) o k s v = Ok e.
Proof.
  intros D F O M Q. assert (X : forall h w, map cell_name cs = [h; w] -> expect_cells cs h w = Ok tt).
  { intros h w E. unfold expect_cells, two_cells. destruct cs as [|a [|b [|]]]; try discriminate E. cbn [bind map] in *. injection E as <- <-.
    now rewrite !String.eqb_refl. }
  assert (W : (1 <= z)%Z).
  { destruct F as [F|[F|[F|[F|[]]]]]; symmetry in F;
      [destruct (top_described _ _ _ _ _ _ _ D F n_rtcf) as (_ & _ & _ & A)|destruct (top_described _ _ _ _ _ _ _ D F n_rtce) as (_ & _ & _ & A)
      |destruct (top_described _ _ _ _ _ _ _ D F n_ncf) as (_ & _ & _ & A)|destruct (top_described _ _ _ _ _ _ _ D F n_nce) as (_ & _ & _ & A)];
      rewrite O in A; destruct A as (lo & hi & E & W & _); injection E as <- <-; exact W. }
  assert (R : forall lo y, (lo <= y)%Z -> order_allowed (Some (Some lo, None)) (Order y)).
  { intros lo y H. exists (Some lo), None. split; [reflexivity|]. split; [exact H|exact I]. }
  destruct (kind_accepted "CG" cg Interval z v n_cg eq_refl ltac:(cbn; auto 20) (R _ _ W) Q) as (ce & Ece & Rce).
  destruct (kind_accepted "DG" dg Interval (z - 1) v n_dg eq_refl ltac:(cbn; auto 20) (R 0%Z (z - 1)%Z ltac:(lia)) Q) as (de & Ede & Rde).
  cbn [mk_finite finite_on]. rewrite D. cbn [bind]. rewrite O. cbn [minus_one].
  destruct F as [F|[F|[F|[F|[]]]]]; symmetry in F; rewrite F in *; cbn [String.eqb Ascii.eqb Bool.eqb orb vector_cells] in *; rewrite X by exact M; cbn [bind].
  - rewrite Ece, Ede. cbn [bind].
    destruct (pair_accepted _ _ _ _ _ _ _ _ (ProductCell cs) Rce Rde ltac:(cbn; lia)) as (x & -> & Rx). destruct (pair_accepted _ _ _ _ _ _ _ _ (ProductCell cs) Rde Rce ltac:(cbn; lia)) as (y & -> & Ry).
    cbn [bind]. destruct (wrapped_accepted _ _ _ _ Rx) as [(a & -> & Ra) _], (wrapped_accepted _ _ _ _ Ry) as [(b & -> & Rb) _]. cbn [bind].
    exact (union_accepted _ _ _ _ _ _ _ _ Ra Rb).
  - rewrite Ece, Ede. cbn [bind].
    destruct (pair_accepted _ _ _ _ _ _ _ _ (ProductCell cs) Rce Rde ltac:(cbn; lia)) as (x & -> & Rx). destruct (pair_accepted _ _ _ _ _ _ _ _ (ProductCell cs) Rde Rce ltac:(cbn; lia)) as (y & -> & Ry).
    cbn [bind]. destruct (wrapped_accepted _ _ _ _ Rx) as [_ (a & -> & Ra)], (wrapped_accepted _ _ _ _ Ry) as [_ (b & -> & Rb)]. cbn [bind].
    exact (union_accepted _ _ _ _ _ _ _ _ Ra Rb).
  - destruct (kind_accepted "RTCF" rtcf Quadrilateral z v n_rtcf eq_refl ltac:(cbn; auto 20) (R _ _ W) Q) as (qc & -> & Rqc).
    destruct (kind_accepted "DQ" dq Quadrilateral (z - 1) v n_dq eq_refl ltac:(cbn; auto 20) (R 0%Z (z - 1)%Z ltac:(lia)) Q) as (qd & -> & Rqd).
    rewrite Ece, Ede. cbn [bind].
    destruct (pair_accepted _ _ _ _ _ _ _ _ (ProductCell cs) Rqc Rde ltac:(cbn; lia)) as (x & -> & Rx). destruct (pair_accepted _ _ _ _ _ _ _ _ (ProductCell cs) Rqd Rce ltac:(cbn; lia)) as (y & -> & Ry).
    cbn [bind]. destruct (wrapped_accepted _ _ _ _ Rx) as [(a & -> & Ra) _], (wrapped_accepted _ _ _ _ Ry) as [(b & -> & Rb) _]. cbn [bind].
    exact (union_accepted _ _ _ _ _ _ _ _ Ra Rb).
  - destruct (kind_accepted "Q" qq Quadrilateral z v n_qq eq_refl ltac:(cbn; auto 20) (R _ _ W) Q) as (qc & -> & Rqc).
    destruct (kind_accepted "RTCE" rtce Quadrilateral z v n_rtce eq_refl ltac:(cbn; auto 20) (R _ _ W) Q) as (qd & -> & Rqd).
    rewrite Ece, Ede. cbn [bind].
    destruct (pair_accepted _ _ _ _ _ _ _ _ (ProductCell cs) Rqc Rde ltac:(cbn; lia)) as (x & -> & Rx). destruct (pair_accepted _ _ _ _ _ _ _ _ (ProductCell cs) Rqd Rce ltac:(cbn; lia)) as (y & -> & Ry).
    cbn [bind]. destruct (wrapped_accepted _ _ _ _ Rx) as [_ (a & -> & Ra)], (wrapped_accepted _ _ _ _ Ry) as [_ (b & -> & Rb)]. cbn [bind].
    exact (union_accepted _ _ _ _ _ _ _ _ Ra Rb).
Qed.
(** The order of the vector families must be one number. *)
Lemma vector_no_order f cs o k s v d : describe_name f (Some (ProductCell cs)) o k = Ok d -> In (ds_family d) vector_families -> (forall z, ds_order d <> Order z) ->
  forall e, mk_finite f (Some (ProductCell cs)) o k s v <> Ok e.
Proof. intros D F N e H. apply (vector_product _ _ _ _ _ _ _ _ D F) in H as (_ & z & E & _). exact (N z E). Qed.

(** ** Statements *)
Lemma product_kind n : In n ["Q"; "DQ"; "DQ L2"]%string -> exists kd, n = kproduct kd.
Proof. intros [<-|[<-|[<-|[]]]]; [exists KH1|exists KL2|exists KPiola]; reflexivity. Qed.
Lemma lagrange_agrees f cs o k s v d e : describe_name f (Some (ProductCell cs)) o k = Ok d -> In (ds_family d) ["Q"; "DQ"; "DQ L2"]%string ->
  mk_finite f (Some (ProductCell cs)) o k s v = Ok e ->
  u_cell e = Some (ProductCell cs) /\ u_degree e = DTuple (map (spread (deg_of (ds_order d))) cs) /\ u_shape e = ds_shape d /\
  u_mapping e = ds_mapping d /\ u_space e = Ok (Predefined (ds_space d)) /\ u_variant e = v.
Proof.
  intros D F H. apply product_kind in F as [kd F]. apply (lagrange_product _ _ _ _ _ _ _ kd _ D F) in H as (A & B & C & E & G & I). auto 10.
Qed.
Lemma lagrange_ok f cs o k s v d z : describe_name f (Some (ProductCell cs)) o k = Ok d -> In (ds_family d) ["Q"; "DQ"; "DQ L2"]%string -> ds_order d = Order z ->
  factor_cell (ProductCell cs) -> quiet v -> exists e, mk_finite f (Some (ProductCell cs)) o k s v = Ok e.
Proof. intros D F. apply product_kind in F as [kd F]. exact (lagrange_accepted f cs o k s v d kd z D F). Qed.
Lemma vector_agrees f cs o k s v d e : describe_name f (Some (ProductCell cs)) o k = Ok d -> In (ds_family d) vector_families ->
  mk_finite f (Some (ProductCell cs)) o k s v = Ok e ->
  exists z, ds_order d = Order z /\ u_cell e = Some (ProductCell cs) /\ u_degree e = DTuple [DInt z; DInt z] /\ u_shape e = ds_shape d /\
  u_mapping e = ds_mapping d /\ u_space e = Ok (Predefined (ds_space d)) /\ u_variant e = v.
Proof.
  intros D F H. apply (vector_product _ _ _ _ _ _ _ _ D F) in H as (_ & z & O & A & B & C & E & G & I). exists z. auto 10.
Qed.
