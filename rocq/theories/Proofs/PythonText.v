(** Reading back the text of elements. *)
From Coq Require Import Ascii String List ZArith Arith Bool Lia DecimalString DecimalNat DecimalZ.
From Verif Require Import Model.Prelude Model.Registry Model.UflElement Spec.UflElement Spec.PythonText Proofs.Repr Proofs.Rebuild.
From Verif Require Model.Runtime.
Import ListNotations.
Open Scope string_scope.

(** ** Pieces of text *)
Lemma emit_app a b r : emit (a ++ b)%list r = emit a (emit b r).
Proof. induction a as [|t a IH]; [reflexivity|]. cbn [emit app]. now rewrite IH. Qed.
Lemma run_app st a b : run st (a ++ b)%list = run (run st a) b.
Proof. unfold run. apply fold_left_app. Qed.

Definition solid (s : string) (st st' : pstate) : Prop :=
  forall rest, exists ts, scan Between (s ++ rest) = emit ts (scan Between rest) /\ run (Some st) ts = Some st'.
Definition goes (s : string) (st st' : pstate) : Prop :=
  forall rest, stops rest = true -> exists ts, scan Between (s ++ rest) = emit ts (scan Between rest) /\ run (Some st) ts = Some st'.
Definition begins (s : string) : bool := match s with "" => false | _ => stops s end.

Lemma literal s ts st st' : (forall rest, scan Between (s ++ rest) = emit ts (scan Between rest)) -> run (Some st) ts = Some st' -> solid s st st'.
Proof. intros S R rest. exists ts. auto. Qed.
Lemma solid_goes s a b : solid s a b -> goes s a b.
Proof. intros H rest _. apply H. Qed.
Lemma solid_app s s' a b c : solid s a b -> solid s' b c -> solid (s ++ s') a c.
Proof.
  intros H H' rest. destruct (H (s' ++ rest)) as (ts & S & R), (H' rest) as (ts' & S' & R'). exists (ts ++ ts')%list.
  rewrite append_assoc, S, S', emit_app, run_app, R. auto.
Qed.
Lemma solid_then s s' a b c : solid s a b -> goes s' b c -> goes (s ++ s') a c.
Proof.
  intros H H' rest D. destruct (H (s' ++ rest)) as (ts & S & R), (H' rest D) as (ts' & S' & R'). exists (ts ++ ts')%list.
  rewrite append_assoc, S, S', emit_app, run_app, R. auto.
Qed.
Lemma begins_app s rest : begins s = true -> stops (s ++ rest) = true.
Proof. destruct s; [discriminate|]. auto. Qed.
Lemma goes_then s s' a b c : begins s' = true -> goes s a b -> goes s' b c -> goes (s ++ s') a c.
Proof.
  intros D H H' rest E. destruct (H (s' ++ rest) (begins_app _ _ D)) as (ts & S & R), (H' rest E) as (ts' & S' & R'). exists (ts ++ ts')%list.
  rewrite append_assoc, S, S', emit_app, run_app, R. auto.
Qed.
Lemma goes_solid s s' a b c : begins s' = true -> goes s a b -> solid s' b c -> solid (s ++ s') a c.
Proof.
  intros D H H' rest. destruct (H (s' ++ rest) (begins_app _ _ D)) as (ts & S & R), (H' rest) as (ts' & S' & R'). exists (ts ++ ts')%list.
  rewrite append_assoc, S, S', emit_app, run_app, R. auto.
Qed.
Lemma goes_nil a : goes "" a a.
Proof. intros rest _. exists []. split; reflexivity. Qed.

(** Items after commas. *)
Lemma items_go {I} (r : I -> string) (A : list I -> pstate) (B : list I -> I -> pstate) :
  (forall l i, pstep (B l i) TComma = Some (A (i :: l))) ->
  forall xs x l, (forall l i, In i (x :: xs) -> goes (r i) (A l) (B l i)) ->
  exists l' y, (y :: l' = rev (x :: xs) ++ l)%list /\ goes (String.concat ", " (map r (x :: xs))) (A l) (B l' y).
Proof.
  intros C. induction xs as [|x' xs IH]; intros x l G.
  - exists l, x. split; [reflexivity|]. apply G. now left.
  - destruct (IH x' (x :: l)) as (l' & y & E & H); [intros; apply G; now right|]. exists l', y. split; [rewrite E; cbn [rev]; now rewrite <- !app_assoc|].
    change (goes (r x ++ ", " ++ String.concat ", " (map r (x' :: xs))) (A l) (B l' y)).
    apply (goes_then _ _ _ (B l x)); [reflexivity|apply G; now left|]. apply (solid_then _ _ _ (A (x :: l))); [|exact H].
    apply (literal _ [TComma]); [reflexivity|]. cbn. apply C.
Qed.

(** ** Numbers *)
Lemma number_stops neg z rest : stops rest = true -> scan (InNumber neg z) rest = emit [number neg z] (scan Between rest).
Proof.
  destruct rest as [|c rest]; [reflexivity|]. cbn [stops existsb]. intros H.
  repeat match type of H with context [Ascii.eqb c ?x] => destruct (Ascii.eqb_spec c x) as [->|_]; [reflexivity|] end.
  discriminate H.
Qed.
Lemma digit_step neg z c k s : decimal c = Some k -> scan (InNumber neg z) (String c s) = scan (InNumber neg (10 * z + k)) s.
Proof. intros D. cbn [scan step]. rewrite D. reflexivity. Qed.
Lemma digits_nat neg d rest : forall acc, scan (InNumber neg (Z.of_nat acc)) (NilEmpty.string_of_uint d ++ rest) =
  scan (InNumber neg (Z.of_nat (Nat.of_uint_acc d acc))) rest.
Proof.
  induction d as [|d IH|d IH|d IH|d IH|d IH|d IH|d IH|d IH|d IH|d IH]; intros acc; [reflexivity|..];
    cbn [NilEmpty.string_of_uint String.append Nat.of_uint_acc]; rewrite <- IH;
    (erewrite digit_step; [|cbv; reflexivity]); rewrite Nat.tail_mul_spec; do 2 f_equal; lia.
Qed.
Lemma digits_pos neg d rest : forall acc, scan (InNumber neg (Z.pos acc)) (NilEmpty.string_of_uint d ++ rest) =
  scan (InNumber neg (Z.pos (Pos.of_uint_acc d acc))) rest.
Proof.
  induction d as [|d IH|d IH|d IH|d IH|d IH|d IH|d IH|d IH|d IH|d IH]; intros acc; [reflexivity|..];
    cbn [NilEmpty.string_of_uint String.append Pos.of_uint_acc]; rewrite <- IH;
    (erewrite digit_step; [|cbv; reflexivity]); do 2 f_equal; lia.
Qed.
Lemma digits_int neg d rest : scan (InNumber neg 0) (NilEmpty.string_of_uint d ++ rest) = scan (InNumber neg (Z.of_uint d)) rest.
Proof.
  induction d as [|d IH|d IH|d IH|d IH|d IH|d IH|d IH|d IH|d IH|d IH]; [reflexivity|..];
    cbn [NilEmpty.string_of_uint String.append]; (erewrite digit_step; [|cbv; reflexivity]); [exact IH|..]; apply digits_pos.
Qed.
Lemma first_digit d rest : d <> Decimal.Nil -> scan Between (NilEmpty.string_of_uint d ++ rest) = scan (InNumber false 0) (NilEmpty.string_of_uint d ++ rest).
Proof. destruct d; [intros N; now destruct N|..]; reflexivity. Qed.
Lemma first_negative d rest : d <> Decimal.Nil -> scan Between (String "-" (NilEmpty.string_of_uint d ++ rest)) = scan (InNumber true 0) (NilEmpty.string_of_uint d ++ rest).
Proof. destruct d; [intros N; now destruct N|..]; reflexivity. Qed.
Lemma nat_uint_nonnil n : Nat.to_uint n <> Decimal.Nil.
Proof.
  intros E. pose proof (f_equal Nat.of_uint E) as Z. rewrite Unsigned.of_to in Z. cbn in Z. rewrite Z in E. discriminate E.
Qed.
Lemma str_nat_goes n fs : goes (str_nat n) (fs, None) (fs, Some (AInt (Z.of_nat n))).
Proof.
  intros rest D. exists [TInt (Z.of_nat n)]. split; [|reflexivity]. unfold str_nat, Runtime.str_nat.
  rewrite first_digit by apply nat_uint_nonnil. change 0%Z with (Z.of_nat 0). rewrite (digits_nat false (Nat.to_uint n) rest 0), number_stops by exact D.
  change (Nat.of_uint_acc (Nat.to_uint n) 0) with (Nat.of_uint (Nat.to_uint n)). now rewrite Unsigned.of_to.
Qed.
Lemma str_int_goes z fs : goes (str_int z) (fs, None) (fs, Some (AInt z)).
Proof.
  intros rest D. exists [TInt z]. split; [|reflexivity]. unfold str_int. destruct z as [|p|p].
  - cbn [Z.to_int NilZero.string_of_int NilZero.string_of_uint]. exact (number_stops false 0 rest D).
  - cbn [Z.to_int NilZero.string_of_int]. rewrite zero_empty by apply to_uint_nonnil.
    rewrite first_digit, digits_int, number_stops by (exact D || apply to_uint_nonnil). unfold number.
    change (Z.of_uint (Pos.to_uint p)) with (Z.of_int (Z.to_int (Z.pos p))). now rewrite DecimalZ.of_to.
  - cbn [Z.to_int NilZero.string_of_int]. rewrite zero_empty by apply to_uint_nonnil. cbn [String.append].
    rewrite first_negative, digits_int, number_stops by (exact D || apply to_uint_nonnil). unfold number.
    change (- Z.of_uint (Pos.to_uint p))%Z with (Z.of_int (Z.to_int (Z.neg p))). now rewrite DecimalZ.of_to.
Qed.

(** ** Strings *)
Lemma escape_back q c l rest : q = squote \/ q = dquote -> scan (InString q l) (escape q c ++ rest) = scan (InString q (c :: l)) rest.
Proof. intros [->| ->]; destruct c as [[] [] [] [] [] [] [] []]; reflexivity. Qed.
Lemma concat_empty l : String.concat "" l = fold_right String.append "" l.
Proof.
  induction l as [|x [|y l] IH]; cbn [String.concat fold_right] in *; [reflexivity|now rewrite append_nil|]. now rewrite IH.
Qed.
Lemma escaped_back q s rest : q = squote \/ q = dquote -> forall l,
  scan (InString q l) (escaped q s ++ rest) = scan (InString q (rev (list_ascii_of_string s) ++ l)%list) rest.
Proof.
  intros Q. unfold escaped. rewrite concat_empty. induction s as [|c s IH]; intros l; [reflexivity|].
  cbn [list_ascii_of_string map fold_right rev]. rewrite append_assoc, escape_back by exact Q. rewrite IH, <- app_assoc. reflexivity.
Qed.
Lemma text_back s : text (rev (list_ascii_of_string s) ++ []) = s.
Proof. unfold text. now rewrite app_nil_r, rev_involutive, string_of_list_ascii_of_string. Qed.
Lemma close_quote q l rest : q = squote \/ q = dquote -> scan (InString q l) (String q rest) = emit [TStr (text l)] (scan Between rest).
Proof. intros [->| ->]; reflexivity. Qed.
Lemma open_quote q rest : q = squote \/ q = dquote -> scan Between (String q rest) = scan (InString q []) rest.
Proof. intros [->| ->]; reflexivity. Qed.
Lemma pyrepr_solid s fs : solid (pyrepr s) (fs, None) (fs, Some (AStr s)).
Proof.
  intros rest. exists [TStr s]. split; [|reflexivity]. unfold pyrepr.
  set (q := if has_char squote s && negb (has_char dquote s) then dquote else squote).
  assert (Q : q = squote \/ q = dquote) by (subst q; destruct (_ && _); auto). cbv zeta. cbn [String.append].
  rewrite open_quote by exact Q. rewrite append_assoc, escaped_back by exact Q. cbn [String.append]. rewrite close_quote by exact Q. now rewrite text_back.
Qed.
Lemma raw_back s rest : unescaped s -> forall l, scan (InString squote l) (s ++ rest) = scan (InString squote (rev (list_ascii_of_string s) ++ l)%list) rest.
Proof.
  induction s as [|c s IH]; intros U l; [reflexivity|]. cbn [String.append list_ascii_of_string rev]. rewrite <- app_assoc. cbn [app].
  rewrite <- IH; [|intros d D; apply U; now right]. destruct (U c) as (A & B & C); [now left|]. cbn [scan step].
  apply Ascii.eqb_neq in A, B. unfold squote at 1. rewrite A, B.
  assert (E : existsb (Nat.eqb (nat_of_ascii c)) [0; 10; 13] = false).
  { destruct (existsb _ _) eqn:E; [|reflexivity]. apply existsb_exists in E as (x & I & E). apply Nat.eqb_eq in E. subst x. now destruct C. }
  rewrite E. reflexivity.
Qed.
Lemma raw_solid s fs : unescaped s -> solid ("'" ++ s ++ "'") (fs, None) (fs, Some (AStr s)).
Proof.
  intros U rest. exists [TStr s]. split; [|reflexivity]. cbn [String.append].
  change (scan Between (String squote ((s ++ "'") ++ rest)) = emit [TStr s] (scan Between rest)).
  rewrite open_quote by now left. rewrite append_assoc, raw_back by exact U. cbn [String.append].
  change "'"%char with squote. rewrite close_quote by now left. now rewrite text_back.
Qed.

(** ** Calls, tuples and dicts *)
Lemma name_stops l rest : stops rest = true -> scan (InName l) rest = emit [TName (text l)] (scan Between rest).
Proof.
  destruct rest as [|c rest]; [reflexivity|]. cbn [stops existsb]. intros H.
  repeat match type of H with context [Ascii.eqb c ?x] => destruct (Ascii.eqb_spec c x) as [->|_]; [reflexivity|] end.
  discriminate H.
Qed.
Lemma args_go {I} f (r : I -> string) (a : I -> ast) xs fs : xs <> [] ->
  (forall x fs, In x xs -> goes (r x) (fs, None) (fs, Some (a x))) ->
  exists args y, (None, y) :: args = rev (map (fun x => (None, a x)) xs) /\
    goes (String.concat ", " (map r xs)) (InCall f [] None :: fs, None) (InCall f args None :: fs, Some y).
Proof.
  destruct xs as [|x xs]; [intros N; now destruct N|]. intros _ G.
  destruct (items_go r (fun l => (InCall f (map (fun i => (None, a i)) l) None :: fs, None))
              (fun l i => (InCall f (map (fun i => (None, a i)) l) None :: fs, Some (a i)))) with (xs := xs) (x := x) (l := @nil I) as (l & y & E & H).
  - reflexivity.
  - intros l i Hi. now apply G.
  - exists (map (fun i => (None, a i)) l), (a y). split; [|exact H]. rewrite app_nil_r in E. rewrite <- map_rev, <- E. reflexivity.
Qed.
Lemma rev_eq {A} (l m : list A) : l = rev m -> rev l = m.
Proof. intros ->. apply rev_involutive. Qed.
Lemma close_go {I} f (r : I -> string) (a : I -> ast) xs fs :
  (forall x fs, In x xs -> goes (r x) (fs, None) (fs, Some (a x))) ->
  solid (String.concat ", " (map r xs) ++ ")") (InCall f [] None :: fs, None) (fs, Some (ACall f (map (fun x => (None, a x)) xs))).
Proof.
  destruct xs as [|x xs]; intros G.
  - apply (literal _ [TClose]); reflexivity.
  - destruct (args_go f r a (x :: xs) fs) as (args & y & E & H); [discriminate|exact G|]. eapply goes_solid; [reflexivity|exact H|].
    apply (literal _ [TClose]); [reflexivity|]. cbn -[rev map]. now rewrite (rev_eq _ _ E).
Qed.
Lemma tuple_go {I} (r : I -> string) (a : I -> ast) xs fs :
  (forall x fs, In x xs -> goes (r x) (fs, None) (fs, Some (a x))) ->
  solid (tuple_repr (map r xs)) (fs, None) (fs, Some (ATuple (map a xs))).
Proof.
  intros G. destruct xs as [|x [|x' xs]].
  - apply (literal _ [TOpen; TClose]); reflexivity.
  - cbn [map tuple_repr]. apply (solid_app _ _ _ (InTuple [] :: fs, None)); [apply (literal _ [TOpen]); reflexivity|].
    eapply goes_solid; [reflexivity|apply G; now left|]. apply (literal _ [TComma; TClose]); reflexivity.
  - cbn [map tuple_repr]. apply (solid_app _ _ _ (InTuple [] :: fs, None)); [apply (literal _ [TOpen]); reflexivity|].
    destruct (items_go r (fun l => (InTuple (map a l) :: fs, None)) (fun l i => (InTuple (map a l) :: fs, Some (a i)))) with (xs := x' :: xs) (x := x) (l := @nil I) as (l & y & E & H).
    + reflexivity.
    + intros l i Hi. now apply G.
    + eapply goes_solid; [reflexivity|exact H|]. rewrite app_nil_r in E. apply (literal _ [TClose]); [reflexivity|].
      destruct l as [|z l]; [apply (f_equal (@List.length I)) in E; rewrite rev_length in E; discriminate E|]. cbn -[rev map].
      apply rev_eq in E. change (a x :: a x' :: map a xs) with (map a (x :: x' :: xs)). rewrite <- E, map_rev. reflexivity.
Qed.
Definition index_ast (i : list nat) : ast := ATuple (map (fun n => AInt (Z.of_nat n)) i).
Lemma index_go i fs : solid (index_repr i) (fs, None) (fs, Some (index_ast i)).
Proof. apply (tuple_go str_nat). intros n gs _. apply str_nat_goes. Qed.
Definition symmetry_ast (sym : symmetry) : ast := ADict (map (fun ij => (index_ast (fst ij), index_ast (snd ij))) sym).
Lemma symmetry_go sym fs : solid (symmetry_repr sym) (fs, None) (fs, Some (symmetry_ast sym)).
Proof.
  unfold symmetry_repr. apply (solid_app _ _ _ (InDict [] None :: fs, None)); [apply (literal _ [TCurly]); reflexivity|].
  destruct sym as [|x xs]; [apply (literal _ [TUncurly]); reflexivity|].
  set (r := fun ij : list nat * list nat => index_repr (fst ij) ++ ": " ++ index_repr (snd ij)).
  set (g := fun ij : list nat * list nat => (index_ast (fst ij), index_ast (snd ij))).
  destruct (items_go r (fun l => (InDict (map g l) None :: fs, None)) (fun l i => (InDict (map g l) (Some (index_ast (fst i))) :: fs, Some (index_ast (snd i)))))
    with (xs := xs) (x := x) (l := @nil (list nat * list nat)) as (l & y & E & H).
  - reflexivity.
  - intros l i _. unfold r. eapply solid_then; [apply index_go|]. eapply solid_then; [|apply solid_goes, index_go]. apply (literal _ [TColon]); reflexivity.
  - eapply goes_solid; [reflexivity|exact H|]. rewrite app_nil_r in E. apply (literal _ [TUncurly]); [reflexivity|].
    cbn -[rev map]. unfold symmetry_ast. fold g. apply rev_eq in E. change (list nat * list nat)%type with (index * index)%type in *. rewrite <- E, map_rev. reflexivity.
Qed.

(** ** Cells and degrees *)
Section CellInd.
  Variable P : ucell -> Prop.
  Hypothesis HN : forall k, P (Named k).
  Hypothesis HP : forall cs, Forall P cs -> P (ProductCell cs).
  Fixpoint cell_ind' (c : ucell) : P c :=
    match c with
    | Named k => HN k
    | ProductCell cs => HP cs ((fix all (l : list ucell) : Forall P l :=
        match l with [] => Forall_nil P | x :: r => Forall_cons x (cell_ind' x) (all r) end) cs)
    end.
End CellInd.
Fixpoint cell_ast (c : ucell) : ast :=
  match c with
  | Named k => AName (kind_name k)
  | ProductCell cs => ACall "TensorProductCell" (map (fun c => (None, cell_ast c)) cs)
  end.
Lemma cell_go c : forall fs, goes (cell_repr c) (fs, None) (fs, Some (cell_ast c)).
Proof.
  induction c as [k|cs IH] using cell_ind'; intros fs.
  - intros rest D. exists [TName (kind_name k)]. split; [|reflexivity]. destruct k; exact (name_stops _ rest D).
  - cbn [cell_repr cell_ast]. apply solid_goes. apply (solid_app _ _ _ (InCall "TensorProductCell" [] None :: fs, None)).
    + apply (literal _ [TName "TensorProductCell"; TOpen]); reflexivity.
    + apply close_go. rewrite Forall_forall in IH. intros x gs I. now apply IH.
Qed.
Definition ocell_ast (c : option ucell) : ast := match c with None => AName "None" | Some c => cell_ast c end.
Lemma ocell_go c fs : goes (ocell_repr c) (fs, None) (fs, Some (ocell_ast c)).
Proof.
  destruct c as [c|]; [apply cell_go|]. intros rest D. exists [TName "None"]. split; [|reflexivity]. exact (name_stops _ rest D).
Qed.
Definition order_ast (o : order) : ast :=
  match o with NoOrder => AName "None" | Order z => AInt z | Orders l => ATuple (map AInt l) end.
Lemma order_go o fs : goes (order_repr o) (fs, None) (fs, Some (order_ast o)).
Proof.
  destruct o as [|z|l].
  - intros rest D. exists [TName "None"]. split; [|reflexivity]. exact (name_stops _ rest D).
  - apply str_int_goes.
  - apply solid_goes, (tuple_go str_int). intros z gs _. apply str_int_goes.
Qed.

(** ** Elements *)
Definition variant_args (v : option string) : list (option string * ast) :=
  match v with None => [] | Some v => [(Some "variant", AStr v)] end.
Definition scheme_args (s : option string) : list (option string * ast) :=
  match s with None => [] | Some s => [(Some "quad_scheme", AStr s)] end.
Fixpoint element_ast (e : uel) : ast :=
  match e with
  | UFinite d c s v => ACall "FiniteElement" ([(None, AStr (ds_family d)); (None, ocell_ast c); (None, order_ast (ds_order d))] ++ scheme_args s ++ variant_args v)
  | UMixed _ l => ACall "MixedElement" (map (fun e => (None, element_ast e)) l)
  | UVector _ e n => ACall "VectorElement" ([(None, element_ast e); (Some "dim", AInt (Z.of_nat n))] ++ variant_args (u_variant e))
  | UTensor _ e sh sy _ _ => ACall "TensorElement" ([(None, element_ast e); (Some "shape", index_ast sh); (Some "symmetry", symmetry_ast sy)] ++ variant_args (u_variant e))
  | UTensorProduct _ l c => ACall "TensorProductElement" (map (fun e => (None, element_ast e)) l ++ [(Some "cell", cell_ast c)])
  | UEnriched nodal _ l => ACall (if nodal then "NodalEnrichedElement" else "EnrichedElement") (map (fun e => (None, element_ast e)) l)
  | UHDiv _ e => ACall "HDivElement" [(None, element_ast e)]
  | UHCurl _ e => ACall "HCurlElement" [(None, element_ast e)]
  | UWithMapping e m => ACall "WithMapping" [(None, element_ast e); (None, AStr m)]
  | UBroken _ e => ACall "BrokenElement" [(None, element_ast e)]
  | URestricted _ e dom => ACall "RestrictedElement" [(None, element_ast e); (None, AStr dom)]
  end.
(** An optional keyword. *)
Lemma keyword_go name (w : string -> string) (o : option string) f args k a fs :
  (forall rest, scan Between (", " ++ name ++ "=" ++ rest) = emit [TComma; TName name; TEqual] (scan Between rest)) ->
  (forall s gs, o = Some s -> solid (w s) (gs, None) (gs, Some (AStr s))) ->
  exists args' k' a', ((k', a') :: args' = rev (match o with None => [] | Some s => [(Some name, AStr s)] end) ++ (k, a) :: args)%list /\
    goes (match o with None => "" | Some s => (", " ++ name ++ "=") ++ w s end) (InCall f args k :: fs, Some a) (InCall f args' k' :: fs, Some a').
Proof.
  intros N W. destruct o as [s|].
  - exists ((k, a) :: args), (Some name), (AStr s). split; [reflexivity|]. apply solid_goes. eapply solid_app; [|apply W; reflexivity].
    apply (literal _ [TComma; TName name; TEqual]); [|reflexivity]. intros rest. rewrite !append_assoc. apply N.
  - exists args, k, a. split; [reflexivity|]. apply goes_nil.
Qed.
Lemma close_paren f args k a fs : solid ")" (InCall f args k :: fs, Some a) (fs, Some (ACall f (rev ((k, a) :: args)))).
Proof. apply (literal _ [TClose]); [reflexivity|]. now destruct k. Qed.
Lemma finite_go d c s v fs : solid (finite_repr d c s v) (fs, None) (fs, Some (element_ast (UFinite d c s v))).
Proof.
  unfold finite_repr. apply (solid_app _ _ _ (InCall "FiniteElement" [] None :: fs, None)); [apply (literal _ [TName "FiniteElement"; TOpen]); reflexivity|].
  eapply solid_app; [apply pyrepr_solid|]. eapply solid_app; [apply (literal _ [TComma]); reflexivity|].
  eapply goes_solid; [reflexivity|apply ocell_go|]. eapply solid_app; [apply (literal _ [TComma]); reflexivity|].
  destruct (keyword_go "quad_scheme" pyrepr s "FiniteElement" [(None, ocell_ast c); (None, AStr (ds_family d))] None (order_ast (ds_order d)) fs) as (args1 & k1 & a1 & E1 & G1);
    [reflexivity|intros; apply pyrepr_solid|].
  destruct (keyword_go "variant" pyrepr v "FiniteElement" args1 k1 a1 fs) as (args2 & k2 & a2 & E2 & G2); [reflexivity|intros; apply pyrepr_solid|].
  assert (R : solid (match v with None => "" | Some v => ", variant=" ++ pyrepr v end ++ ")") (InCall "FiniteElement" args1 k1 :: fs, Some a1)
    (fs, Some (element_ast (UFinite d c s v)))).
  { eapply goes_solid; [reflexivity|exact G2|]. rewrite E1 in E2. cbn [element_ast].
    replace ([(None, AStr (ds_family d)); (None, ocell_ast c); (None, order_ast (ds_order d))] ++ scheme_args s ++ variant_args v)%list with (rev ((k2, a2) :: args2)).
    - apply close_paren.
    - rewrite E2, !rev_app_distr, !rev_involutive. cbn [rev app]. rewrite ?app_assoc. reflexivity. }
  eapply goes_solid; [|apply order_go|].
  - now destruct s, v.
  - eapply goes_solid; [|exact G1|exact R]. now destruct v.
Qed.
Lemma variant_go e f args k a fs : (forall v, u_variant e = Some v -> unescaped v) ->
  solid (var_str (u_variant e) ++ ")") (InCall f args k :: fs, Some a) (fs, Some (ACall f (rev ((k, a) :: args) ++ variant_args (u_variant e)))).
Proof.
  intros U. destruct (keyword_go "variant" (fun s => "'" ++ s ++ "'") (u_variant e) f args k a fs) as (args' & k' & a' & E & G);
    [reflexivity|intros s gs V; apply raw_solid; now apply U|].
  eapply goes_solid; [reflexivity| |].
  - unfold var_str. destruct (u_variant e) as [v|]; exact G.
  - replace (rev ((k, a) :: args) ++ variant_args (u_variant e))%list with (rev ((k', a') :: args')); [apply close_paren|].
    rewrite E, rev_app_distr, rev_involutive. reflexivity.
Qed.
Lemma sequence_in {A B} (f : A -> result B) l r : sequence (map f l) = Ok r -> forall x, In x l -> exists y, f x = Ok y.
Proof.
  unfold sequence. revert r. induction l as [|a l IH]; intros r H x I; [destruct I|]. cbn [map mapM] in H. binds H.
  destruct I as [<-|I]; [eauto|]. exact (IH _ eq_refl x I).
Qed.
Ltac opening f fs := apply (solid_app _ _ _ (InCall f [] None :: fs, None)); [apply (literal _ [TName f; TOpen]); reflexivity|].
Lemma wrapper_go f e a : (forall fs, solid (u_repr e) (fs, None) (fs, Some a)) ->
  forall fs, solid (u_repr e ++ ")") (InCall f [] None :: fs, None) (fs, Some (ACall f [(None, a)])).
Proof. intros H fs. eapply solid_app; [apply H|]. apply close_paren. Qed.
Lemma element_go e : writable e -> forall e', reconstruct no_kwargs e = Ok e' -> forall fs, solid (u_repr e) (fs, None) (fs, Some (element_ast e)).
Proof.
  induction e as [d c s v|a l IH|a e n IH|a e sh sy t n IH|a l c IH|b a l IH|a e IH|a e IH|e m IH|a e IH|a e dom IH] using uel_ind';
    intros W e' R fs; cbn [u_repr element_ast]; cbn [reconstruct no_kwargs kw_family kw_cell kw_degree kw_scheme kw_variant kw_mapping or_else or_opt] in R; fold no_kwargs in R.
  - apply finite_go.
  - opening "MixedElement" fs. binds R. apply close_go. intros x gs I. inversion W as [|? ? WL| | | | | | | | |]; subst. rewrite Forall_forall in IH, WL.
    destruct (sequence_in _ _ _ E x I) as [y Y]. apply solid_goes. exact (IH x I (WL x I) y Y gs).
  - inversion W as [| |? ? ? WE U| | | | | | | |]; subst. binds R. opening "VectorElement" fs. eapply solid_app; [apply (IH WE _ eq_refl)|].
    eapply solid_app; [apply (literal _ [TComma; TName "dim"; TEqual]); reflexivity|]. eapply goes_solid; [now destruct (u_variant e)|apply str_nat_goes|].
    exact (variant_go e "VectorElement" [(None, element_ast e)] (Some "dim") (AInt (Z.of_nat n)) fs U).
  - inversion W as [| | |? ? ? ? ? ? WE U| | | | | | |]; subst. binds R. opening "TensorElement" fs. eapply solid_app; [apply (IH WE _ eq_refl)|].
    eapply solid_app; [apply (literal _ [TComma; TName "shape"; TEqual]); reflexivity|]. eapply solid_app; [apply index_go|].
    eapply solid_app; [apply (literal _ [TComma; TName "symmetry"; TEqual]); reflexivity|]. eapply solid_app; [apply symmetry_go|].
    exact (variant_go e "TensorElement" [(Some "shape", index_ast sh); (None, element_ast e)] (Some "symmetry") (symmetry_ast sy) fs U).
  - inversion W as [| | | |? ? ? WL| | | | | |]; subst. binds R. opening "TensorProductElement" fs. rewrite Forall_forall in IH, WL.
    destruct (args_go "TensorProductElement" u_repr element_ast l fs) as (args & y & A & G).
    + intros ->. cbn in E. injection E as <-. discriminate R.
    + intros x gs I. destruct (sequence_in _ _ _ E x I) as [z Y]. apply solid_goes. exact (IH x I (WL x I) z Y gs).
    + eapply goes_solid; [reflexivity|exact G|]. eapply solid_app; [apply (literal _ [TComma; TName "cell"; TEqual]); reflexivity|].
      eapply goes_solid; [reflexivity|apply cell_go|].
      replace (map (fun e0 => (None, element_ast e0)) l ++ [(Some "cell", cell_ast c)])%list with (rev ((Some "cell", cell_ast c) :: (None, y) :: args)); [apply close_paren|].
      rewrite A. cbn [rev]. now rewrite rev_involutive.
  - inversion W as [| | | | |? ? ? WL| | | | |]; subst. binds R. rewrite Forall_forall in IH, WL.
    assert (G : forall x gs, In x l -> goes (u_repr x) (gs, None) (gs, Some (element_ast x))).
    { intros x gs I. destruct (sequence_in _ _ _ E x I) as [z Y]. apply solid_goes. exact (IH x I (WL x I) z Y gs). }
    destruct b; [opening "NodalEnrichedElement" fs|opening "EnrichedElement" fs]; exact (close_go _ _ _ _ _ G).
  - inversion W; subst. binds R. opening "HDivElement" fs. apply wrapper_go. now apply (IH ltac:(assumption) _ eq_refl).
  - inversion W; subst. binds R. opening "HCurlElement" fs. apply wrapper_go. now apply (IH ltac:(assumption) _ eq_refl).
  - inversion W as [| | | | | | | |? ? WE U| |]; subst. binds R. opening "WithMapping" fs. eapply solid_app; [apply (IH WE _ eq_refl)|].
    change (", '" ++ m ++ "')") with (", " ++ "'" ++ m ++ "')"). eapply solid_app; [apply (literal _ [TComma]); reflexivity|].
    replace ("'" ++ m ++ "')") with (("'" ++ m ++ "'") ++ ")") by now rewrite !append_assoc.
    eapply solid_app; [apply raw_solid; exact U|]. apply close_paren.
  - inversion W; subst. binds R. opening "BrokenElement" fs. apply wrapper_go. now apply (IH ltac:(assumption) _ eq_refl).
  - inversion W; subst. binds R. opening "RestrictedElement" fs. eapply solid_app; [apply (IH ltac:(assumption) _ eq_refl)|].
    eapply solid_app; [apply (literal _ [TComma]); reflexivity|]. eapply solid_app; [apply pyrepr_solid|]. apply close_paren.
Qed.

(** ** Values *)
Lemma all_some_map {A B} (f : A -> option B) (g : A -> B) l : (forall x, In x l -> f x = Some (g x)) -> all_some (map f l) = Some (map g l).
Proof.
  induction l as [|x l IH]; intros H; [reflexivity|]. cbn [map all_some]. rewrite H by now left. rewrite IH; [reflexivity|]. intros y Y. apply H. now right.
Qed.
Lemma name_cell k : name_value (kind_name k) = Some (VCell (Named k)).
Proof. now destruct k. Qed.
Lemma positional_all vs : positional (map (fun v => (None, v)) vs) = (vs, []).
Proof. induction vs as [|v vs IH]; [reflexivity|]. cbn [map positional]. now rewrite IH. Qed.
Lemma only_all vs : only_positional (map (fun v => (None, v)) vs) = Some vs.
Proof. unfold only_positional, split_args. now rewrite positional_all. Qed.
Lemma eval_cell c : eval (cell_ast c) = Some (VCell c).
Proof.
  induction c as [k|cs IH] using cell_ind'; cbn [cell_ast eval]; [apply name_cell|]. rewrite Forall_forall in IH. rewrite map_map.
  rewrite (all_some_map _ (fun c => (None, VCell c))) by (intros x X; cbn [fst snd]; now rewrite IH).
  unfold call. cbn [String.eqb Ascii.eqb Bool.eqb].
  rewrite <- (map_map VCell (fun v => (@None string, v))), only_all, map_map. rewrite (all_some_map _ (fun c => c)) by reflexivity. now rewrite map_id.
Qed.
Lemma eval_ocell c : exists v, eval (ocell_ast c) = Some v /\ optional as_cell (Some v) = Some c.
Proof. destruct c as [c|]; [exists (VCell c)|exists VNone]; (split; [|reflexivity]); [apply eval_cell|reflexivity]. Qed.
Lemma eval_order o : exists v, eval (order_ast o) = Some v /\ as_degree (Some v) = Some o.
Proof.
  destruct o as [|z|l]; [exists VNone|exists (VInt z)|exists (VTuple (map VInt l))]; [now split|now split|]. cbn [order_ast eval as_degree]. rewrite !map_map.
  rewrite (all_some_map _ VInt) by reflexivity. split; [reflexivity|]. rewrite (all_some_map _ (fun z => z)) by reflexivity. now rewrite map_id.
Qed.
Definition index_value (i : list nat) : value := VTuple (map (fun n => VInt (Z.of_nat n)) i).
Lemma eval_index i : eval (index_ast i) = Some (index_value i).
Proof. unfold index_ast. cbn [eval]. rewrite map_map. now rewrite (all_some_map _ (fun n => VInt (Z.of_nat n))) by reflexivity. Qed.
Lemma as_index_value i : as_index (index_value i) = Some i.
Proof.
  unfold index_value. cbn [as_index]. rewrite map_map. rewrite (all_some_map _ (fun n => n)); [now rewrite map_id|].
  intros n _. cbn [as_nat]. destruct (Z.leb_spec 0 (Z.of_nat n)); [now rewrite Nat2Z.id|lia].
Qed.
Lemma eval_symmetry sy : exists v, eval (symmetry_ast sy) = Some v /\ as_symmetry (Some v) = Some (SymDict sy).
Proof.
  exists (VDict (map (fun ij => (index_value (fst ij), index_value (snd ij))) sy)). unfold symmetry_ast. cbn [eval as_symmetry]. rewrite !map_map. split.
  - rewrite (all_some_map _ (fun ij => (index_value (fst ij), index_value (snd ij)))); [reflexivity|]. intros ij _. cbn [fst snd]. now rewrite !eval_index.
  - rewrite (all_some_map _ (fun ij => ij)); [now rewrite map_id|]. intros [i j] _. cbn [fst snd]. now rewrite !as_index_value.
Qed.
Lemma args_split vs kws : split_args (map (fun v => (None, v)) vs ++ map (fun kv => (Some (fst kv), snd kv)) kws)%list = Some (vs, kws).
Proof.
  unfold split_args.
  assert (P : positional (map (fun v => (None, v)) vs ++ map (fun kv => (Some (fst kv), snd kv)) kws)%list = (vs, map (fun kv => (Some (fst kv), snd kv)) kws)).
  { induction vs as [|v vs IH]; cbn [map app positional]; [now destruct kws|]. now rewrite IH. }
  rewrite P. rewrite map_map. rewrite (all_some_map _ (fun kv => kv)); [now rewrite map_id|]. now intros [k v] _.
Qed.
Lemma eval_list l r : Forall (fun e => forall e', reconstruct no_kwargs e = Ok e' -> eval (element_ast e) = Some (VElement e')) l ->
  sequence (map (reconstruct no_kwargs) l) = Ok r ->
  all_some (map (fun kv : option string * ast => let? v := eval (snd kv) in Some (fst kv, v)) (map (fun e => (None, element_ast e)) l)) =
    Some (map (fun e => (None, VElement e)) r).
Proof.
  unfold sequence. intros F. revert r. induction F as [|e l H F IH]; intros r S; cbn [map mapM] in S.
  - injection S as <-. reflexivity.
  - destruct (reconstruct no_kwargs e) as [y|]; [|discriminate S]. cbn [bind] in S. destruct (mapM _ _) as [ys|]; [|discriminate S]. cbn [bind] in S.
    injection S as <-. cbn [map all_some fst snd]. rewrite (H y eq_refl). now rewrite (IH ys eq_refl).
Qed.
Lemma as_elements r : all_some (map as_element (map VElement r)) = Some r.
Proof. rewrite map_map. rewrite (all_some_map _ (fun e => e)); [now rewrite map_id|]. reflexivity. Qed.
Lemma eval_strings name o : exists vs, all_some (map (fun kv : option string * ast => let? v := eval (snd kv) in Some (fst kv, v))
    (match o with None => [] | Some s => [(Some name, AStr s)] end)) = Some vs /\ vs = match o with None => [] | Some s => [(Some name, VStr s)] end.
Proof. destruct o; eexists; (split; [|reflexivity]); reflexivity. Qed.
Lemma all_some_app {A} (l m : list (option A)) a b : all_some l = Some a -> all_some m = Some b -> all_some (l ++ m) = Some (a ++ b)%list.
Proof.
  revert a. induction l as [|x l IH]; intros a L M; cbn [all_some app] in *; [now injection L as <-|].
  destruct x as [x|]; [|discriminate L]. destruct (all_some l) as [r|]; [|discriminate L]. injection L as <-. now rewrite (IH r eq_refl M).
Qed.
Lemma eval_element e : forall e', reconstruct no_kwargs e = Ok e' -> eval (element_ast e) = Some (VElement e').
Proof.
  induction e as [d c s v|a l IH|a e n IH|a e sh sy t n IH|a l c IH|b a l IH|a e IH|a e IH|e m IH|a e IH|a e dom IH] using uel_ind';
    intros e' R; cbn [reconstruct no_kwargs kw_family kw_cell kw_degree kw_scheme kw_variant kw_mapping or_else or_opt] in R; fold no_kwargs in R.
  - cbn [element_ast eval]. destruct (eval_ocell c) as (vc & C & C'), (eval_order (ds_order d)) as (vo & O & O').
    destruct (eval_strings "quad_scheme" s) as (vs & S & Es), (eval_strings "variant" v) as (vv & V & Ev).
    rewrite !map_app. rewrite (all_some_app _ _ [(None, VStr (ds_family d)); (None, vc); (None, vo)] (vs ++ vv)).
    + subst vs vv. clear -R C' O'. unfold call. cbn [String.eqb Ascii.eqb Bool.eqb].
      assert (A : arguments ["family"; "cell"; "degree"; "form_degree"; "quad_scheme"; "variant"]
        ([(None, VStr (ds_family d)); (None, vc); (None, vo)] ++ match s with None => [] | Some s => [(Some "quad_scheme", VStr s)] end
          ++ match v with None => [] | Some s => [(Some "variant", VStr s)] end) =
        Some [Some (VStr (ds_family d)); Some vc; Some vo; None; option_map VStr s; option_map VStr v]) by (destruct s, v; reflexivity).
      rewrite A, C', O'. cbn [optional].
      destruct s as [s|], v as [v|]; cbn [option_map optional as_str]; unfold made; rewrite R; reflexivity.
    + cbn [map all_some fst snd eval]. now rewrite C, O.
    + apply all_some_app; [exact S|exact V].
  - binds R. cbn [element_ast eval]. rewrite (eval_list l v IH E). unfold call. cbn [String.eqb Ascii.eqb Bool.eqb orb].
    rewrite <- (map_map VElement (fun v => (@None string, v))), only_all, as_elements. unfold made. now rewrite R.
  - destruct (reconstruct no_kwargs e) as [s|]; [|discriminate R]. cbn [bind] in R. cbn [element_ast eval map app all_some fst snd]. rewrite (IH s eq_refl).
    destruct (eval_strings "variant" (u_variant e)) as (vv & V & Ev). unfold variant_args. rewrite V. unfold call. cbn [String.eqb Ascii.eqb Bool.eqb].
    assert (A : arguments ["family"; "cell"; "degree"; "dim"; "form_degree"; "quad_scheme"; "variant"]
        ((None, VElement s) :: (Some "dim", VInt (Z.of_nat n)) :: vv) =
        Some [Some (VElement s); None; None; Some (VInt (Z.of_nat n)); None; None; option_map VStr (u_variant e)]) by (subst vv; destruct (u_variant e); reflexivity).
    rewrite A. cbn [optional as_nat]. destruct (Z.leb_spec 0 (Z.of_nat n)); [|lia]. rewrite Nat2Z.id. unfold made. now rewrite R.
  - destruct (reconstruct no_kwargs e) as [s|]; [|discriminate R]. cbn [bind] in R. cbn [element_ast eval map app all_some fst snd]. rewrite (IH s eq_refl).
    rewrite eval_index. destruct (eval_symmetry sy) as (vy & Y & Y'). rewrite Y.
    destruct (eval_strings "variant" (u_variant e)) as (vv & V & Ev). unfold variant_args. rewrite V. unfold call. cbn [String.eqb Ascii.eqb Bool.eqb].
    assert (A : arguments ["family"; "cell"; "degree"; "shape"; "symmetry"; "quad_scheme"; "variant"]
        ((None, VElement s) :: (Some "shape", index_value sh) :: (Some "symmetry", vy) :: vv) =
        Some [Some (VElement s); None; None; Some (index_value sh); Some vy; None; option_map VStr (u_variant e)]) by (subst vv; destruct (u_variant e); reflexivity).
    rewrite A, Y'. assert (I : optional as_index (Some (index_value sh)) = Some (Some sh)) by (unfold optional; pose proof (as_index_value sh) as J; unfold index_value in *; now rewrite J).
    rewrite I. unfold made. now rewrite R.
  - binds R. cbn [element_ast eval]. rewrite map_app. rewrite (all_some_app _ _ (map (fun e => (None, VElement e)) v) [(Some "cell", VCell c)]).
    + unfold call. cbn [String.eqb Ascii.eqb Bool.eqb orb].
      change [(Some "cell", VCell c)] with (map (fun kv : string * value => (Some (fst kv), snd kv)) [("cell", VCell c)]).
      rewrite <- (map_map VElement (fun v => (@None string, v))), args_split, as_elements. cbn [String.eqb Ascii.eqb Bool.eqb optional as_cell]. unfold made. now rewrite R.
    + exact (eval_list l v IH E).
    + cbn [map all_some fst snd]. now rewrite eval_cell.
  - binds R. cbn [element_ast eval]. rewrite (eval_list l v IH E). unfold call. destruct b; cbn [String.eqb Ascii.eqb Bool.eqb orb];
    rewrite <- (map_map VElement (fun v => (@None string, v))), only_all, as_elements; unfold made; now rewrite R.
  - destruct (reconstruct no_kwargs e) as [s|]; [|discriminate R]. cbn [bind] in R. cbn [element_ast eval map app all_some fst snd]. rewrite (IH s eq_refl).
    unfold call. cbn [String.eqb Ascii.eqb Bool.eqb orb]. unfold wrapper. cbn -[mk_hdiv]. unfold made. now rewrite R.
  - destruct (reconstruct no_kwargs e) as [s|]; [|discriminate R]. cbn [bind] in R. cbn [element_ast eval map app all_some fst snd]. rewrite (IH s eq_refl).
    unfold call. cbn [String.eqb Ascii.eqb Bool.eqb orb]. unfold wrapper. cbn -[mk_hcurl]. unfold made. now rewrite R.
  - destruct (reconstruct no_kwargs e) as [s|]; [|discriminate R]. cbn [bind] in R. cbn [element_ast eval map app all_some fst snd]. rewrite (IH s eq_refl).
    unfold call. cbn [String.eqb Ascii.eqb Bool.eqb orb]. cbn -[mk_with_mapping]. unfold made. now rewrite R.
  - destruct (reconstruct no_kwargs e) as [s|]; [|discriminate R]. cbn [bind] in R. cbn [element_ast eval map app all_some fst snd]. rewrite (IH s eq_refl).
    unfold call. cbn [String.eqb Ascii.eqb Bool.eqb orb]. unfold wrapper. cbn -[mk_broken]. unfold made. now rewrite R.
  - destruct (reconstruct no_kwargs e) as [s|]; [|discriminate R]. cbn [bind] in R. cbn [element_ast eval map app all_some fst snd]. rewrite (IH s eq_refl).
    unfold call. cbn [String.eqb Ascii.eqb Bool.eqb orb]. cbn -[mk_restricted]. unfold made. now rewrite R.
Qed.

Lemma goes_parse s a : goes s ([], None) ([], Some a) -> exists ts, scan Between s = Some ts /\ parse ts = Some a.
Proof.
  intros H. destruct (H "" eq_refl) as (ts & S & R). rewrite append_nil in S. exists ts. split; [|unfold parse; unfold pstate in R |- *; now rewrite R].
  rewrite S. cbn [scan]. clear. induction ts as [|t ts IH]; [reflexivity|]. cbn [emit]. now rewrite IH.
Qed.
Lemma goes_evaluate s a : goes s ([], None) ([], Some a) -> evaluate s = eval a.
Proof. intros H. destruct (goes_parse s a H) as (ts & S & P). unfold evaluate. now rewrite S, P. Qed.
Lemma evaluate_element e e' : writable e -> reconstruct no_kwargs e = Ok e' -> evaluate (u_repr e) = Some (VElement e').
Proof. intros W R. rewrite (goes_evaluate _ (element_ast e)); [exact (eval_element e e' R)|]. apply solid_goes. exact (element_go e W e' R []). Qed.
Lemma evaluate_same e : built e -> writable e -> exists e', evaluate (u_repr e) = Some (VElement e') /\ same e e' /\ built e'.
Proof. intros B W. destruct (reconstruct_same e B) as (e' & R & S & B'). exists e'. split; [exact (evaluate_element e e' W R)|auto]. Qed.
Lemma evaluate_string s : evaluate (pyrepr s) = Some (VStr s).
Proof. now rewrite (goes_evaluate _ (AStr s)) by (apply solid_goes, pyrepr_solid). Qed.
Lemma evaluate_cell c : evaluate (cell_repr c) = Some (VCell c).
Proof. rewrite (goes_evaluate _ (cell_ast c)) by apply cell_go. apply eval_cell. Qed.
