(** Restriction of products and their H(div)/H(curl) wrappers, and of all
    element trees. *)
From Coq Require Import String List Arith ZArith Lia Bool.
From Verif Require Import Model.Prelude Model.Cell Model.Element Model.Gem Model.PointSet Model.Restricted.
From Verif Require Import Spec.Rowmajor Spec.EntityDofs Spec.Layout Spec.Tabulation Spec.Restricted.
From Verif Require Import Proofs.Lists Proofs.Cells Proofs.EntityDofs Proofs.EntityDofs2 Proofs.Layout Proofs.DofProps Proofs.DualTree
  Proofs.Tree Proofs.Restrict1 Proofs.Restrict2 Proofs.Restrict3 Proofs.Restrict4.
Import ListNotations.
Local Open Scope nat_scope.

Lemma choose_list : forall A B (P : A -> B -> Prop) l, Forall (fun a => exists b, P a b) l ->
  exists xs : list (A * B), map fst xs = l /\ Forall (fun x => P (fst x) (snd x)) xs.
Proof.
  induction 1 as [|a l (b & H) _ (xs & E & HF)]; [exists []; auto|].
  exists ((a, b) :: xs). cbn. split; [now rewrite E | now constructor].
Qed.

Section Trees.
  Context {F : Type} (o : ops F) (fr : leaf F -> string -> bool -> result (leaf F)).
  Local Notation elt := (elt F).
  Local Notation R := (R o).

  Definition same_kind (e r : elt) : Prop :=
    uniform e -> exists k, formdegree e = Ok k /\ formdegree r = Ok k /\ mapping r = mapping e.

  (** [r] can stand for [e] as a factor of a product. *)
  Definition stands_for (e r : elt) : Prop :=
    (exists c, cell_of e = Ok c /\ cell_of r = Ok c) /\
    (exists s, value_shape e = Ok s /\ value_shape r = Ok s) /\ same_kind e r.

  Definition product_sum (c : cell) (S : dimkey -> Prop) (e r : elt) (sigma : nat -> nat) : Prop :=
    forall fs, e = ETensorProduct fs -> exists ts, ts <> [] /\ r = mk_enriched ts /\ R c S e (EEnriched ts) sigma /\
      Forall (fun t => built t /\ (shaped e -> shaped t) /\ exists rs, t = ETensorProduct rs /\ Forall2 stands_for fs rs) ts.

  Definition restricted_to (c : cell) (S : dimkey -> Prop) (e r : elt) : Prop :=
    exists sigma, R c S e r sigma /\ built r /\ (shaped e -> shaped r) /\ same_kind e r /\ product_sum c S e r sigma.

  Definition Q (e : elt) : Prop := forall domain cl c s, good c e -> value_shape e = Ok s ->
    valid domain (spatial_dimension c) -> restrictable fr domain cl e ->
    (exists r, restrict fr e domain cl = Ok (RElt r) /\ restricted_to c (sel domain cl c) e r) \/
    (restrict fr e domain cl = Ok RNull /\ none c (sel domain cl c) e).

  Definition not_product (e : elt) : Prop := match e with ETensorProduct _ => False | _ => True end.

  Lemma not_product_sum : forall c S e r sigma, not_product e -> product_sum c S e r sigma.
  Proof. intros c S e r sigma H fs ->. destruct H. Qed.

  (* -------------------------------------------------------------- *)
  (** ** Leaves and discontinuous elements *)

  Lemma Q_leaf : forall l, Q (ELeaf l).
  Proof.
    intros l domain cl c s G Hs Hv Hr.
    assert (Hl : leaf_ok l) by (apply G; constructor).
    assert (Ec : c = lf_cell l) by (destruct G as (_ & _ & E); cbn in E; congruence). subst c.
    assert (Fin : forall (S' : nat -> Prop) l' sigma, leaf_restricts S' l l' sigma ->
              R (lf_cell l) (sel domain cl (lf_cell l)) (ELeaf l) (ELeaf l') sigma ->
              restricted_to (lf_cell l) (sel domain cl (lf_cell l)) (ELeaf l) (ELeaf l')).
    { intros S' l' sigma (Hc & Hvs & Hf & Hm & _) HR. exists sigma. split; [exact HR|]. split; [constructor|].
      split; [|split].
      - intros Sh. apply shaped_leaf. rewrite Hvs. apply Sh. constructor.
      - intros _. exists (lf_formdegree l). cbn [formdegree]. rewrite Hf. auto.
      - apply not_product_sum. exact I. }
    inversion Hr as [? ? ? Hk Hfr|? ? ? Hk Hfr Htr Hcl|? ? ? Hk Hp Hd Hdom| | | | | | | |]; subst; cbn [restrict]; rewrite Hk.
    - destruct (Hfr domain cl Hv) as [H1 H2].
      destruct (some_dof_dec _ (lf_edofs l) (selects_dec domain cl (spatial_dimension (lf_cell l)))) as [Y|N].
      + destruct (H1 Y) as (l' & sigma & E & Hlr). left. exists (ELeaf l'). rewrite E. split; [reflexivity|].
        eapply Fin; [exact Hlr|]. exact (R_leaf o _ _ _ _ Hl Hlr).
      + right. rewrite (H2 N). split; [reflexivity|]. intros k i Hki HS.
        destruct (dofs (ELeaf l) k i) as [|v vs] eqn:E; [reflexivity|]. exfalso. apply N. exists k, i, v, (v :: vs).
        split; [apply (dofs_has (lf_cell l) (ELeaf l)); auto|]. split; [exact HS | now left].
    - destruct (Hfr domain true Hv) as [H1 H2].
      destruct (some_dof_dec _ (lf_edofs l) (selects_dec domain true (spatial_dimension (lf_cell l)))) as [Y|N].
      + destruct (H1 Y) as (l' & sigma & E & Hlr). left. exists (ELeaf l'). rewrite E. split; [reflexivity|].
        eapply Fin; [exact Hlr|]. apply R_trace; assumption.
      + right. rewrite (H2 N). split; [reflexivity|]. intros k i Hki HS.
        destruct (dofs (ELeaf l) k i) as [|v vs] eqn:E; [reflexivity|]. exfalso. apply N. exists k, i, v, (v :: vs).
        split; [apply (dofs_has (lf_cell l) (ELeaf l)); auto|]. split; [|now left].
        destruct HS as (n & A & B & C). exists n. split; [exact A|]. split; [exact B|].
        destruct C as [C|(_ & C)]; [left | right]; auto.
    - assert (Hne : forall k i, entity_of (topology (lf_cell l)) (k, i) -> dofs (ELeaf l) k i <> [] ->
                dk_total k = spatial_dimension (lf_cell l)).
      { intros k i Hki X. apply (Hd k i (dofs (ELeaf l) k i)); [|exact X].
        apply (dofs_has (lf_cell l) (ELeaf l)); auto. }
      destruct (String.eqb_spec domain "interior") as [->|Hi].
      + left. exists (ELeaf l). split; [reflexivity|]. exists (fun j => j). split; [|split; [constructor|split; [auto|split]]].
        * eapply R_id; [exact G | exact Hs | exact Hp |]. intros k i Hki HS.
          destruct (dofs (ELeaf l) k i) eqn:E; [reflexivity|]. exfalso. apply HS. exists (spatial_dimension (lf_cell l)).
          assert (X : dk_total k = spatial_dimension (lf_cell l)) by (apply (Hne k i Hki); rewrite E; discriminate).
          split; [constructor|]. split; [lia | now left].
        * intros _. exists (lf_formdegree l). auto.
        * apply not_product_sum. exact I.
      + right. split; [reflexivity|]. intros k i Hki HS. destruct (dofs (ELeaf l) k i) eqn:E; [reflexivity|]. exfalso.
        assert (X : dk_total k = spatial_dimension (lf_cell l)) by (apply (Hne k i Hki); rewrite E; discriminate).
        destruct Hdom as [Hdom|Hdom]; [congruence|]. apply Hdom. unfold sel in HS. rewrite X in HS. exact HS.
  Qed.

  Lemma Q_discontinuous : forall e, Q (EDiscontinuous e).
  Proof.
    intros e domain cl c s G Hs Hv Hr.
    inversion Hr as [| | |? ? ? c' Hc Hb Hp Hdom| | | | | | |]; subst.
    assert (c' = c) by (destruct G as (_ & _ & E); cbn in E; congruence). subst c'.
    assert (Hne : forall k i, entity_of (topology c) (k, i) -> dofs (EDiscontinuous e) k i <> [] ->
              dk_total k = spatial_dimension c).
    { intros k i Hki X. rewrite (dofs_discontinuous c e k i G Hki X). apply total_dimension. }
    cbn [restrict]. destruct (String.eqb_spec domain "interior") as [->|Hi].
    - left. exists (EDiscontinuous e). split; [reflexivity|]. exists (fun j => j).
      split; [|split; [constructor; exact Hb|split; [auto|split]]].
      + eapply R_id; [exact G | exact Hs | exact Hp |]. intros k i Hki HS.
        destruct (dofs (EDiscontinuous e) k i) eqn:E; [reflexivity|]. exfalso. apply HS. exists (spatial_dimension c).
        assert (X : dk_total k = spatial_dimension c) by (apply (Hne k i Hki); rewrite E; discriminate).
        split; [constructor|]. split; [lia | now left].
      + intros _. cbn [formdegree]. rewrite Hc. eexists. split; [reflexivity|]. auto.
      + apply not_product_sum. exact I.
    - right. split; [reflexivity|]. intros k i Hki HS. destruct (dofs (EDiscontinuous e) k i) eqn:E; [reflexivity|]. exfalso.
      assert (X : dk_total k = spatial_dimension c) by (apply (Hne k i Hki); rewrite E; discriminate).
      destruct Hdom as [Hdom|Hdom]; [congruence|]. apply Hdom. unfold sel in HS. rewrite X in HS. exact HS.
  Qed.

  (* -------------------------------------------------------------- *)
  (** ** Products *)

  Definition factor_ok (x : elt * (cell * nat)) : Prop :=
    let f := fst x in let c := fst (snd x) in let n := snd (snd x) in
    good c f /\ get_dimension c = DI n /\ n <= 4 /\ (exists s, value_shape f = Ok s) /\
    (forall d m, names d n m -> m <= n -> d = "interior"%string \/ m < n -> restrictable fr d false f) /\ Q f.

  Definition codim_is (nc : nat * nat) : dimkey -> Prop := fun k => dk_total k = fst nc - snd nc.

  Definition at_codims (ns cs : list nat) : dimkey -> Prop :=
    fun k => exists ks, k = DT ks /\ Forall2 (fun (T : dimkey -> Prop) k => T k) (map codim_is (combine ns cs)) ks.

  Lemma factor_step : forall x cd, factor_ok x -> cd <= snd (snd x) ->
    let f := fst x in let c := fst (snd x) in let n := snd (snd x) in
    let call := (do r <- factor_domain (Z.of_nat cd) (DI n) ;; restrict fr f r false) in
    (exists r, call = Ok (RElt r) /\ restricted_to c (codim_is (n, cd)) f r) \/
    (call = Ok RNull /\ none c (codim_is (n, cd)) f).
  Proof.
    intros [f [c n]] cd (G & Hd & Hn & (s & Hs) & Hr & HQ) Hc. cbn [fst snd] in *. cbn zeta.
    destruct (codim_to_r_names cd n Hc Hn) as (name & En & Hname & Hlt).
    cbn [factor_domain]. rewrite En. cbn [bind].
    assert (Hsp : spatial_dimension c = n) by (apply get_dimension_spatial; exact Hd).
    assert (Heq : forall k, sel name false c k <-> codim_is (n, cd) k).
    { intros k. unfold sel, codim_is. cbn [fst snd]. rewrite Hsp. apply selects_only; [exact Hname | lia]. }
    destruct (HQ name false c s G Hs) as [(r & E & sigma & HR & Hb & Hsh & Hk & Hps)|[E HN]].
    - rewrite Hsp. exists (n - cd). split; [exact Hname | lia].
    - apply Hr with (m := n - cd); [exact Hname | lia | exact Hlt].
    - left. exists r. split; [exact E|]. exists sigma. split; [eapply R_ext; [intros; apply Heq | exact HR]|].
      split; [exact Hb|]. split; [exact Hsh|]. split; [exact Hk|].
      intros fs Hfs. destruct (Hps fs Hfs) as (ts & A & B & C & D). exists ts. split; [exact A|]. split; [exact B|].
      split; [eapply R_ext; [intros; apply Heq | exact C] | exact D].
    - right. split; [exact E|]. eapply none_ext; [|exact HN]. intros k i _ H. apply Heq. exact H.
  Qed.

  Lemma product_piece : forall xs cs, Forall factor_ok xs -> Forall2 le cs (map (fun x => snd (snd x)) xs) ->
    let ns := map (fun x => snd (snd x)) xs in
    exists rs, map2M (fun f cd => do r <- factor_domain (fst cd) (snd cd) ;; restrict fr f r false)
                 (map fst xs) (zip (map Z.of_nat cs) (map DI ns)) = Ok rs /\
      ((existsb is_null rs = true /\
        exists f c T, In (f, (c, T)) (combine (map fst xs) (combine (map (fun x => fst (snd x)) xs) (map codim_is (combine ns cs)))) /\
          none c T f) \/
       (existsb is_null rs = false /\
        exists ys : list (@slice F), rs = map (fun y => RElt (sl_r y)) ys /\ map sl_e ys = map fst xs /\
          map sl_c ys = map (fun x => fst (snd x)) xs /\ map sl_S ys = map codim_is (combine ns cs) /\
          Forall (fun y => good (sl_c y) (sl_e y) /\ R (sl_c y) (sl_S y) (sl_e y) (sl_r y) (sl_s y)) ys /\
          Forall (fun y => built (sl_r y) /\ (shaped (sl_e y) -> shaped (sl_r y)) /\ stands_for (sl_e y) (sl_r y)) ys)).
  Proof.
    intros xs cs Hx. revert cs. induction Hx as [|x xs Hf Hx IH]; intros cs Hc; cbn zeta in *.
    - inversion Hc; subst. exists []. split; [reflexivity|]. right. split; [reflexivity|].
      exists []. repeat (split; [reflexivity || constructor|]). constructor.
    - cbn [map] in *. inversion Hc as [|cd n cs' ns' H1 H2]; subst. destruct (IH cs' H2) as (rs & E & HIH). clear IH.
      cbn [map zip map2M fst snd combine]. assert (Hst := factor_step x cd Hf H1). cbn zeta in Hst.
      assert (Gx : good (fst (snd x)) (fst x)) by apply Hf.
      destruct Hst as [(r & Er & sigma & HR & Hb & Hsh & Hk & _)|[Er HN]]; rewrite Er; cbn [bind]; rewrite E; cbn [bind].
      + exists (RElt r :: rs). split; [reflexivity|]. cbn [existsb is_null orb].
        destruct HIH as [(E1 & f & c & T & Hin & HN)|(E1 & ys & -> & Y1 & Y2 & Y3 & Y4 & Y5)].
        * left. split; [exact E1|]. exists f, c, T. split; [now right | exact HN].
        * right. split; [exact E1|]. exists (mkSlice (fst (snd x)) (codim_is (snd (snd x), cd)) (fst x) r sigma :: ys).
          cbn [map sl_r sl_e sl_c sl_S]. rewrite Y1, Y2, Y3. split; [reflexivity|]. split; [reflexivity|].
          split; [reflexivity|]. split; [reflexivity|]. split; constructor; cbn [sl_r sl_e sl_c sl_S sl_s]; try assumption.
          -- split; [exact Gx | exact HR].
          -- split; [exact Hb|]. split; [exact Hsh|]. split; [|split; [apply (R_shape _ _ _ _ _ _ HR) | exact Hk]].
             exists (fst (snd x)). split; [apply Gx | apply (R_good _ _ _ _ _ _ HR)].
      + exists (RNull :: rs). split; [reflexivity|]. left. split; [reflexivity|].
        exists (fst x), (fst (snd x)), (codim_is (snd (snd x), cd)). split; [now left | exact HN].
  Qed.

  Lemma product_shape : forall fs s, value_shape (ETensorProduct fs : elt) = Ok s ->
    exists ss, mapM value_shape fs = Ok ss /\ product_value_shape ss = Ok s.
  Proof. intros fs s H. cbn [value_shape] in H. apply bind_ok in H. exact H. Qed.

  Lemma stands_shapes : forall fs rs ss, Forall2 stands_for fs rs -> mapM value_shape fs = Ok ss ->
    mapM value_shape rs = Ok ss.
  Proof.
    intros fs rs ss H. revert ss. induction H as [|f r fs rs (_ & (s & E1 & E2) & _) H IH]; intros ss Hss; [exact Hss|].
    cbn [mapM] in *. apply bind_ok in Hss as (s' & Es & Hss). apply bind_ok in Hss as (ss' & Ess & Hss).
    rewrite E1 in Es. injection Es as <-. rewrite E2. cbn [bind]. rewrite (IH _ Ess). exact Hss.
  Qed.

  Lemma slice_list : forall ys : list (@slice F),
    Forall (fun y => built (sl_r y) /\ (shaped (sl_e y) -> shaped (sl_r y)) /\ stands_for (sl_e y) (sl_r y)) ys ->
    Forall built (map sl_r ys) /\ (Forall shaped (map sl_e ys) -> Forall shaped (map sl_r ys)) /\
    Forall2 stands_for (map sl_e ys) (map sl_r ys).
  Proof.
    induction 1 as [|y ys (A & B & C) _ (IA & IB & IC)]; cbn [map]; [repeat constructor|].
    split; [now constructor|]. split; [|now constructor]. intros H. inversion H; subst. constructor; auto.
  Qed.

  Lemma need_elts_ok : forall (ys : list elt), need_elts (map RElt ys) = Ok ys.
  Proof. induction ys as [|y ys IH]; [reflexivity|]. cbn [map]. unfold need_elts in *. cbn [mapM bind]. rewrite IH. reflexivity. Qed.

  Lemma stands_kind : forall fs rs, Forall2 stands_for fs rs -> same_kind (ETensorProduct fs) (ETensorProduct rs).
  Proof.
    intros fs rs H U. inversion U as [|? Uf| | | | | |]; subst.
    assert (G : exists ks, mapM formdegree fs = Ok ks /\ mapM formdegree rs = Ok ks /\ map mapping rs = map mapping fs).
    { revert Uf. induction H as [|f r fs rs (_ & _ & Hk) H IH]; intros Uf; [exists []; auto|].
      inversion Uf; subst. destruct Hk as (k & K1 & K2 & K3); [assumption|].
      destruct IH as (ks & I1 & I2 & I3); [constructor; assumption | assumption|].
      exists (k :: ks). cbn [mapM map]. rewrite K1, K2, I1, I2, K3, I3. auto. }
    destruct G as (ks & G1 & G2 & G3). cbn [formdegree mapping]. rewrite G1, G2, G3. cbn [bind]. eexists. split; [reflexivity | auto].
  Qed.

  Lemma Forall2_functional : forall A B (P : A -> B -> Prop) l m m', (forall a b b', P a b -> P a b' -> b = b') ->
    Forall2 P l m -> Forall2 P l m' -> m = m'.
  Proof.
    intros A B P l m m' Hf H. revert m'. induction H as [|a b l m H1 H IH]; intros m' H'; inversion H'; subst; [reflexivity|].
    f_equal; eauto.
  Qed.

  (** The codimensions of an entity of a product cell. *)
  Lemma entity_codims : forall cs ns ks ms, Forall2 (fun c n => get_dimension c = DI n) cs ns ->
    Forall2 (fun c kn => In kn (topology c)) cs (combine ks ms) -> length ks = length ms ->
    let ds := map2 (fun n k => n - dk_total k) ns ks in
    Forall2 le ds ns /\ sum ns - sum ds = sum (map dk_total ks) /\
    forall ds', Forall2 le ds' ns ->
      (Forall2 (fun (T : dimkey -> Prop) k => T k) (map codim_is (combine ns ds')) ks <-> ds' = ds).
  Proof.
    induction cs as [|c cs IH]; intros ns ks ms Hn Hk Hl ds.
    - inversion Hn; subst. destruct ks as [|k ks], ms as [|m ms]; try discriminate; [|inversion Hk].
      cbn in ds. subst ds. split; [constructor|]. split; [reflexivity|]. intros ds' H. inversion H; subst.
      split; [reflexivity | constructor].
    - inversion Hn as [|? n ? ns' Hc Hn']; subst. destruct ks as [|k ks], ms as [|m ms]; try discriminate; [inversion Hk|].
      cbn [combine] in Hk. inversion Hk as [|? ? ? ? Hkm Hk']; subst.
      destruct (IH ns' ks ms Hn' Hk') as (A & B & C); [injection Hl; auto|].
      apply topology_total in Hkm. apply get_dimension_spatial in Hc. rewrite Hc in Hkm.
      unfold ds. cbn [map2]. assert (L := sum_le _ _ A). split; [constructor; [lia | exact A]|].
      split; [cbn [sum map]; lia|]. intros ds' H. inversion H as [|d ? ds0 ? H1 H2]; subst. cbn [combine map]. split.
      + intros X. inversion X as [|? ? ? ? X1 X2]; subst. unfold codim_is in X1. cbn [fst snd] in X1.
        f_equal; [lia | apply C; assumption].
      + intros [= -> ->]. constructor; [unfold codim_is; cbn [fst snd]; lia | apply C; [exact A | reflexivity]].
  Qed.

  Lemma Q_product : forall fs, Forall Q fs -> Q (ETensorProduct fs).
  Proof.
    intros fs HQ domain cl c s G Hs Hv Hr.
    inversion Hr as [| | | |? ? ? Hfs| | | | | |]; subst.
    destruct (product_shape _ _ Hs) as (ss & Hss & Hps).
    assert (Hne : fs <> []) by (apply G; constructor).
    assert (Hc : cell_of (ETensorProduct fs) = Ok c) by apply G.
    cbn [cell_of] in Hc. apply bind_ok in Hc as (cs & Hcs & Hc). injection Hc as <-.
    assert (HF : Forall (fun f => exists cn, factor_ok (f, cn)) fs).
    { apply Forall_forall. intros f Hf. rewrite Forall_forall in Hfs, HQ.
      destruct (Hfs f Hf) as (c & n & A & B & C & D). exists (c, n). unfold factor_ok. cbn [fst snd].
      split; [|split; [exact B|split; [exact C|split; [|split; [exact D | auto]]]]].
      - eapply good_sub; [exact G | intros; eapply se_tensor_product; eassumption | intros; eapply lo_tensor_product; eassumption | exact A].
      - apply mapM_ok in Hss. revert Hf. clear -Hss. induction Hss as [|f' s' fs' ss' H1 _ IH]; intros Hf; [destruct Hf|]. destruct Hf as [<-|Hf]; [eauto | auto]. }
    apply choose_list in HF. destruct HF as (xs & Exs & HF). subst fs.
    assert (HF' : Forall factor_ok xs) by (eapply Forall_impl; [|exact HF]; intros [f cn] H; exact H). clear HF.
    assert (Ecs : cs = map (fun x => fst (snd x)) xs).
    { apply mapM_ok in Hcs. apply Forall2_map_l in Hcs. clear -Hcs HF'. revert HF'.
      induction Hcs as [|x c xs cs H1 _ IH]; intros HF; [reflexivity|]. inversion HF as [|? ? (G & _) HF']; subst.
      destruct G as (_ & _ & E). cbn [map]. rewrite IH by exact HF'. f_equal. congruence. }
    set (ns := map (fun x : elt * (cell * nat) => snd (snd x)) xs).
    assert (Edim : map get_dimension cs = map DI ns).
    { subst cs. unfold ns. rewrite !map_map. apply map_ext_in. intros x Hx. rewrite Forall_forall in HF'. apply (HF' x Hx). }
    assert (Esp : spatial_dimension (TPCell cs) = sum ns).
    { cbn [spatial_dimension]. f_equal. unfold ns. subst cs. rewrite map_map. apply map_ext_in. intros x Hx.
      rewrite Forall_forall in HF'. apply get_dimension_spatial. apply (HF' x Hx). }
    cbn [restrict]. cbn [cell_of]. rewrite Hcs. cbn [bind]. rewrite Esp, Edim. rewrite Esp in Hv.
    destruct (decompositions_ok ns domain cl Hv) as (decs & Edec & Nd & Hdec). rewrite Edec. cbn [bind].
    rewrite mapM_map.
    set (body := fun dec => _ : result (list elt)).
    (* each decomposition gives a piece or nothing *)
    assert (Hp : Forall (fun dec => exists m : option (elt * (nat -> nat)),
               body dec = Ok (match m with Some p => [fst p] | None => [] end) /\
               match m with
               | Some p => R (TPCell cs) (at_codims ns dec) (ETensorProduct (map fst xs)) (fst p) (snd p) /\
                   built (fst p) /\ (shaped (ETensorProduct (map fst xs)) -> shaped (fst p)) /\
                   exists rs, fst p = ETensorProduct rs /\ Forall2 stands_for (map fst xs) rs
               | None => none (TPCell cs) (at_codims ns dec) (ETensorProduct (map fst xs))
               end) decs).
    { apply Forall_forall. intros dec Hin. apply Hdec in Hin. destruct Hin as [Hle _].
      destruct (product_piece xs dec HF' Hle) as (rs & E & Hrs). unfold body. fold ns in E, Hrs. cbv zeta in E. rewrite E. cbn [bind].
      destruct Hrs as [(E1 & f & c & T & Hin & HN)|(E1 & ys & -> & Y1 & Y2 & Y3 & Y4 & Y5)]; rewrite E1.
      - exists None. split; [reflexivity|]. unfold at_codims.
        apply none_product; [exact Hne | | | exists f, c, T; rewrite Ecs; split; assumption].
        + rewrite Ecs. apply Forall2_map_l, Forall2_map_r. clear -HF'. induction HF' as [|x xs (G & _) _ IH]; constructor; assumption.
        + rewrite map_length, combine_length. apply Forall2_length in Hle.
          rewrite Hle. unfold ns. rewrite !map_length. apply Nat.min_id.
      - destruct (slice_list ys Y5) as (B1 & B2 & B3). rewrite Y1 in B2, B3.
        replace (map (fun y => RElt (sl_r y)) ys) with (map RElt (map sl_r ys)) by (rewrite map_map; reflexivity).
        rewrite need_elts_ok. cbn [bind].
        assert (Em : mk_tensor_product (map sl_r ys) = Ok (ETensorProduct (map sl_r ys))).
        { unfold mk_tensor_product. rewrite (stands_shapes _ _ _ B3 Hss). cbn [bind]. rewrite Hps. reflexivity. }
        rewrite Em. cbn [bind]. exists (Some (ETensorProduct (map sl_r ys), product_sigma ys)). split; [reflexivity|].
        assert (Hy : ys <> []).
        { intros ->. destruct xs; [apply Hne; reflexivity | discriminate]. }
        cbn [fst snd]. split; [|split; [|split]].
        + rewrite Ecs, <- Y1, <- Y2. eapply R_ext; [|eapply R_product; [exact Hy | exact Y4 | rewrite Y1; exact Hs]].
          intros k i _. unfold at_codims. rewrite <- Y3. split; intros (ks & -> & H); exists ks; (split; [reflexivity|]).
          * apply Forall2_map_l. exact H.
          * apply Forall2_map_l in H. exact H.
        + eapply built_tensor_product; [exact B1 | exact Em].
        + intros Sh. apply shaped_product; [now destruct ys|]. apply B2. apply Forall_forall. intros f Hf.
          eapply shaped_sub; [exact Sh | intros; eapply se_tensor_product; eassumption | intros; eapply lo_tensor_product; eassumption].
        + exists (map sl_r ys). split; [reflexivity | exact B3]. }
    apply choose_list in Hp. destruct Hp as (ms & Ems & Hp).
    assert (Eb : mapM body decs = Ok (map (fun m : list nat * option (elt * (nat -> nat)) => match snd m with Some p => [fst p] | None => [] end) ms)).
    { rewrite <- Ems, mapM_map. apply mapM_all_ok. intros m Hm. rewrite Forall_forall in Hp. apply (Hp m Hm). }
    rewrite Eb. cbn [bind].
    set (ps := flat_map (fun m : list nat * option (elt * (nat -> nat)) => match snd m with Some p => [p] | None => [] end) ms).
    assert (Ecat : concat (map (fun m : list nat * option (elt * (nat -> nat)) => match snd m with Some p => [fst p] | None => [] end) ms) = map fst ps).
    { unfold ps. rewrite <- flat_map_concat_map, map_flat_map. apply flat_map_ext. intros [d [p|]]; reflexivity. }
    rewrite Ecat.
    assert (Hd := R_disjoint o (list nat) (TPCell cs) (sel domain cl (TPCell cs)) (at_codims ns) (ETensorProduct (map fst xs)) s ms G Hs).
    cbv zeta in Hd. fold ps in Hd. destruct Hd as [Hnone Hsome].
    { eapply Forall_impl; [|exact Hp]. intros m (_ & H). destruct (snd m); [apply H | exact H]. }
    { intros k i Hk. apply product_entity in Hk. destruct Hk as (ks & ms' & is & -> & -> & _ & Hl & Hk).
      assert (Hcn : Forall2 (fun c n => get_dimension c = DI n) cs ns).
      { rewrite Ecs. unfold ns. apply Forall2_map_l, Forall2_map_r. clear -HF'.
        induction HF' as [|x xs (_ & D & _) _ IH]; constructor; assumption. }
      destruct (entity_codims cs ns ks ms' Hcn Hk Hl) as (A & B & C). set (ds := map2 (fun n k => n - dk_total k) ns ks) in *.
      assert (Hat : forall dec, In dec decs -> (at_codims ns dec (DT ks) <-> dec = ds)).
      { intros dec Hin. apply Hdec in Hin. destruct Hin as [Hle _]. rewrite <- (C dec Hle). unfold at_codims. split.
        - intros (ks' & [= <-] & H). exact H.
        - intros H. exists ks. auto. }
      assert (Hsel : sel domain cl (TPCell cs) (DT ks) <-> In ds decs).
      { rewrite Hdec. unfold sel. rewrite Esp, dk_total_DT, B. tauto. }
      assert (Hms : forall m, In m ms -> In (fst m) decs) by (intros m Hm; rewrite <- Ems; apply in_map; exact Hm).
      split.
      - intros HS. apply Hsel in HS. rewrite <- Ems in HS. apply in_map_iff in HS. destruct HS as (m & Em & Hm).
        apply in_split in Hm. destruct Hm as (m1 & m2 & Esplit). exists m1, m, m2. split; [exact Esplit|].
        split; [apply Hat; [apply Hms; rewrite Esplit; apply in_elt | exact Em]|].
        apply Forall_forall. intros x Hx Hx'. assert (Hxm : In x ms).
        { rewrite Esplit. apply in_app_iff in Hx. apply in_app_iff. destruct Hx; [now left | right; now right]. }
        apply Hat in Hx'; [|apply Hms; exact Hxm]. rewrite <- Ems, Esplit, map_app in Nd. cbn [map] in Nd.
        apply NoDup_remove_2 in Nd. apply Nd. rewrite <- map_app. rewrite Em, <- Hx'. apply in_map. exact Hx.
      - intros HS. apply Forall_forall. intros x Hx Hx'. apply Hat in Hx'; [|apply Hms; exact Hx].
        apply HS, Hsel. rewrite <- Hx'. apply Hms. exact Hx. }
    assert (Hps' : Forall (fun p => built (fst p) /\ (shaped (ETensorProduct (map fst xs)) -> shaped (fst p)) /\
                exists rs, fst p = ETensorProduct rs /\ Forall2 stands_for (map fst xs) rs) ps).
    { apply Forall_forall. intros p Hin. unfold ps in Hin. apply in_flat_map in Hin. destruct Hin as (m & Hm & Hin).
      rewrite Forall_forall in Hp. destruct (Hp m Hm) as (_ & X). destruct (snd m) as [q|]; [|destruct Hin].
      destruct Hin as [<-|[]]. apply X. }
    destruct ps as [|p ps'] eqn:Eps.
    { right. cbn [map]. split; [reflexivity | apply Hnone; reflexivity]. }
    left. cbn [map]. eexists. split; [reflexivity|].
    change (fst p :: map fst ps') with (map fst (p :: ps')).
    assert (HR := Hsome ltac:(discriminate)). clear Hsome Hnone.
    eexists. split; [apply R_mk_enriched; exact HR|].
    assert (Hn : map fst (p :: ps') <> []) by discriminate.
    split; [|split; [|split]].
    - apply built_enriched. rewrite Forall_map. eapply Forall_impl; [|exact Hps']. cbn. tauto.
    - intros Sh. apply shaped_mk_enriched. rewrite Forall_map. eapply Forall_impl; [|exact Hps']. cbn. tauto.
    - intros U.
      assert (HK : Forall (fun t => exists k, formdegree (ETensorProduct (map fst xs)) = Ok k /\ formdegree t = Ok k /\
                  mapping t = mapping (ETensorProduct (map fst xs)) /\ flat1 t <> []) (map fst (p :: ps'))).
      { rewrite Forall_map. eapply Forall_impl; [|exact Hps']. cbn beta. intros q (_ & _ & rs & -> & H).
        destruct (stands_kind _ _ H U) as (k & K1 & K2 & K3). exists k. repeat split; auto. discriminate. }
      destruct (formdegree (ETensorProduct (map fst xs))) as [k|] eqn:Ek.
      2:{ inversion HK as [|? ? (k & X & _) _]; discriminate. }
      exists k. split; [reflexivity|]. split.
      + apply mk_enriched_formdegree; [exact Hn|]. eapply Forall_impl; [|exact HK]. cbn beta.
        intros t (k' & [= <-] & K & _). exact K.
      + apply mk_enriched_mapping; [exact Hn | |]; (eapply Forall_impl; [|exact HK]); cbn beta; intros t (k' & _ & _ & K & K'); assumption.
    - intros gs [= <-]. exists (map fst (p :: ps')). split; [exact Hn|]. split; [reflexivity|]. split; [exact HR|].
      rewrite Forall_map. eapply Forall_impl; [|exact Hps']. cbn beta. tauto.
  Qed.
End Trees.
