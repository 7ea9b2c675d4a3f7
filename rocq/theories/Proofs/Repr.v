(** The text of an element determines it. *)
From Coq Require Import Ascii String List ZArith Arith Bool Lia DecimalString DecimalNat DecimalZ.
From Verif Require Import Model.Prelude Model.Registry Model.UflElement Spec.UflElement.
From Verif Require Model.Runtime Proofs.Runtime.
Import ListNotations.
Open Scope string_scope.

(** ** Induction over elements *)
Section Induction.
  Variable P : uel -> Prop.
  Hypothesis HF : forall d c s v, P (UFinite d c s v).
  Hypothesis HM : forall a l, Forall P l -> P (UMixed a l).
  Hypothesis HV : forall a e n, P e -> P (UVector a e n).
  Hypothesis HT : forall a e sh sy t n, P e -> P (UTensor a e sh sy t n).
  Hypothesis HP : forall a l c, Forall P l -> P (UTensorProduct a l c).
  Hypothesis HE : forall b a l, Forall P l -> P (UEnriched b a l).
  Hypothesis HD : forall a e, P e -> P (UHDiv a e).
  Hypothesis HC : forall a e, P e -> P (UHCurl a e).
  Hypothesis HW : forall e m, P e -> P (UWithMapping e m).
  Hypothesis HB : forall a e, P e -> P (UBroken a e).
  Hypothesis HR : forall a e d, P e -> P (URestricted a e d).
  Fixpoint uel_ind' (e : uel) : P e :=
    let all := fix all (l : list uel) : Forall P l :=
      match l with [] => Forall_nil P | x :: r => Forall_cons x (uel_ind' x) (all r) end in
    match e with
    | UFinite d c s v => HF d c s v
    | UMixed a l => HM a l (all l)
    | UVector a e n => HV a e n (uel_ind' e)
    | UTensor a e sh sy t n => HT a e sh sy t n (uel_ind' e)
    | UTensorProduct a l c => HP a l c (all l)
    | UEnriched b a l => HE b a l (all l)
    | UHDiv a e => HD a e (uel_ind' e)
    | UHCurl a e => HC a e (uel_ind' e)
    | UWithMapping e m => HW e m (uel_ind' e)
    | UBroken a e => HB a e (uel_ind' e)
    | URestricted a e d => HR a e d (uel_ind' e)
    end.
End Induction.

(** ** Strings *)
Lemma append_assoc s t u : (s ++ t) ++ u = s ++ (t ++ u).
Proof. symmetry. apply Runtime.append_assoc. Qed.
Lemma append_nil s : s ++ "" = s.
Proof. induction s as [|c s IH]; cbn; [reflexivity|]. now rewrite IH. Qed.
Lemma cons_inj c d s t : String c s = String d t -> c = d /\ s = t.
Proof. intros H. split; [exact (f_equal (fun x => match x with String c _ => c | _ => c end) H)|
  exact (f_equal (fun x => match x with String _ s => s | _ => s end) H)]. Qed.
Lemma append_head p s t : p ++ s = p ++ t -> s = t.
Proof. induction p as [|c p IH]; cbn; [auto|]. intros H. apply cons_inj in H as [_ H]. auto. Qed.

(** Two strings that differ at a position both have. *)
Fixpoint clash (p q : string) : bool :=
  match p, q with
  | String c p, String d q => if Ascii.eqb c d then clash p q else true
  | _, _ => false
  end.
Lemma clash_neq p q s t : clash p q = true -> p ++ s = q ++ t -> False.
Proof.
  revert q. induction p as [|c p IH]; intros [|d q]; cbn; try discriminate.
  destruct (Ascii.eqb_spec c d) as [->|N]; intros C H; apply cons_inj in H as [E H]; eauto.
Qed.

Fixpoint all_chars (p : ascii -> bool) (s : string) : bool :=
  match s with "" => true | String c s => p c && all_chars p s end.
Definition starts (p : ascii -> bool) (s : string) : bool :=
  match s with "" => false | String c _ => p c end.
Lemma split_first p a b s t : all_chars p a = true -> all_chars p b = true -> starts p s = false -> starts p t = false ->
  a ++ s = b ++ t -> a = b /\ s = t.
Proof.
  revert b. induction a as [|c a IH]; intros [|d b]; cbn.
  - auto.
  - intros _ D S _ ->. cbn in S. apply andb_true_iff in D as [D _]. congruence.
  - intros C _ _ T <-. cbn in T. apply andb_true_iff in C as [C _]. congruence.
  - intros C D S T H. apply cons_inj in H as [<- H]. apply andb_true_iff in C as [_ C], D as [_ D].
    destruct (IH b C D S T H) as [-> ->]. auto.
Qed.

(** What follows a number or a name in the text. *)
Definition stops (s : string) : bool :=
  match s with "" => true | String c _ => existsb (Ascii.eqb c) [","; ")"; "}"; ":"]%char end.

(** ** Numbers *)
Definition digit (c : ascii) : bool := existsb (Ascii.eqb c) (list_ascii_of_string "0123456789").
Lemma digits_uint u : all_chars digit (NilEmpty.string_of_uint u) = true.
Proof. induction u; cbn [NilEmpty.string_of_uint all_chars]; try rewrite IHu; reflexivity. Qed.
Lemma stops_digit s : stops s = true -> starts digit s = false.
Proof.
  destruct s as [|c s]; [reflexivity|]. cbn [stops starts existsb]. intros H.
  repeat match type of H with context [Ascii.eqb c ?x] => destruct (Ascii.eqb_spec c x) as [->|_]; [reflexivity|] end.
  discriminate H.
Qed.
Lemma str_nat_decode m n s t : stops s = true -> stops t = true -> str_nat m ++ s = str_nat n ++ t -> m = n /\ s = t.
Proof.
  intros S T H. apply (split_first digit) in H; [|apply digits_uint|apply digits_uint|now apply stops_digit|now apply stops_digit].
  destruct H as [H ->]. split; [now apply Runtime.str_nat_inj|reflexivity].
Qed.
Lemma str_nat_cons n : exists c r, str_nat n = String c r /\ digit c = true.
Proof.
  unfold str_nat, Runtime.str_nat. pose proof (digits_uint (Nat.to_uint n)) as D.
  destruct (NilEmpty.string_of_uint (Nat.to_uint n)) as [|c r] eqn:E; [|exists c, r; apply andb_true_iff in D as [D _]; auto].
  exfalso. apply (f_equal NilEmpty.uint_of_string) in E. rewrite NilEmpty.usu in E. injection E as E.
  pose proof (f_equal Nat.of_uint E) as Z. rewrite Unsigned.of_to in Z. cbn in Z. rewrite Z in E. discriminate E.
Qed.

Definition signed (c : ascii) : bool := digit c || Ascii.eqb c "-"%char.
Lemma signed_uint u : all_chars signed (NilEmpty.string_of_uint u) = true.
Proof. induction u; cbn [NilEmpty.string_of_uint all_chars]; try rewrite IHu; reflexivity. Qed.
Lemma zero_empty u : u <> Decimal.Nil -> NilZero.string_of_uint u = NilEmpty.string_of_uint u.
Proof. now destruct u. Qed.
Lemma to_uint_nonnil p : Pos.to_uint p <> Decimal.Nil.
Proof. apply DecimalPos.Unsigned.to_uint_nonnil. Qed.
Lemma to_int_good z : Z.to_int z <> Decimal.Pos Decimal.Nil /\ Z.to_int z <> Decimal.Neg Decimal.Nil.
Proof.
  destruct z as [|p|p]; cbn; split; try discriminate; intros H; injection H as H; exact (to_uint_nonnil p H).
Qed.
Lemma str_int_inj z z' : str_int z = str_int z' -> z = z'.
Proof.
  unfold str_int. intros H. apply (f_equal NilZero.int_of_string) in H.
  destruct (to_int_good z), (to_int_good z'). rewrite !NilZero.isi in H by assumption.
  injection H as H. apply (f_equal Z.of_int) in H. now rewrite !DecimalZ.of_to in H.
Qed.
Lemma signed_int z : all_chars signed (str_int z) = true.
Proof.
  unfold str_int. destruct z as [|p|p]; [reflexivity|..]; cbn [Z.to_int NilZero.string_of_int];
    rewrite ?zero_empty by apply to_uint_nonnil; cbn [all_chars]; rewrite signed_uint; reflexivity.
Qed.
Lemma stops_signed s : stops s = true -> starts signed s = false.
Proof.
  destruct s as [|c s]; [reflexivity|]. cbn [stops starts existsb]. intros H.
  repeat match type of H with context [Ascii.eqb c ?x] => destruct (Ascii.eqb_spec c x) as [->|_]; [reflexivity|] end.
  discriminate H.
Qed.
Lemma str_int_decode z z' s t : stops s = true -> stops t = true -> str_int z ++ s = str_int z' ++ t -> z = z' /\ s = t.
Proof.
  intros S T H. apply (split_first signed) in H; [|apply signed_int|apply signed_int|now apply stops_signed|now apply stops_signed].
  destruct H as [H ->]. split; [now apply str_int_inj|reflexivity].
Qed.
Lemma str_int_cons z : exists c r, str_int z = String c r /\ signed c = true.
Proof.
  pose proof (signed_int z) as D. destruct (str_int z) as [|c r] eqn:E.
  - exfalso. unfold str_int in E. destruct z as [|p|p]; cbn [Z.to_int NilZero.string_of_int] in E; try discriminate E.
    rewrite zero_empty in E by apply to_uint_nonnil. apply (f_equal NilEmpty.uint_of_string) in E.
    rewrite NilEmpty.usu in E. injection E as E. exact (to_uint_nonnil p E).
  - exists c, r. apply andb_true_iff in D as [D _]. auto.
Qed.

(** ** Lists *)
Lemma concat_cons x y l : String.concat ", " (x :: y :: l) = x ++ ", " ++ String.concat ", " (y :: l).
Proof. reflexivity. Qed.

Section Join.
  Context {A : Type} (f : A -> string) (Q : A -> Prop) (R : A -> A -> Prop) (e : string).
  Hypothesis e_stops : forall s, stops (e ++ s) = true.
  (** The end of the list cannot be taken for a member. *)
  Hypothesis e_first : forall x s t, f x ++ s <> e ++ t.
  Hypothesis e_next : forall x s t, ", " ++ f x ++ s <> e ++ t.

  Definition decodes (x : A) : Prop :=
    forall y s t, Q y -> stops s = true -> stops t = true -> f x ++ s = f y ++ t -> R x y /\ s = t.

  Fixpoint follow (l : list A) (s : string) : string :=
    match l with [] => e ++ s | x :: l => ", " ++ f x ++ follow l s end.
  Lemma follow_stops l s : stops (follow l s) = true.
  Proof. destruct l; [apply e_stops|reflexivity]. Qed.
  Lemma concat_follow x l s : String.concat ", " (map f (x :: l)) ++ e ++ s = f x ++ follow l s.
  Proof.
    revert x. induction l as [|y l IH]; intros x.
    - reflexivity.
    - cbn [map]. rewrite concat_cons, !append_assoc. f_equal. cbn [follow]. f_equal.
      change (f y :: map f l) with (map f (y :: l)). apply IH.
  Qed.
  Lemma follow_decode l m s t : Forall decodes l -> Forall Q m -> follow l s = follow m t -> Forall2 R l m /\ s = t.
  Proof.
    intros F. revert m. induction F as [|x l D F IH]; intros [|y m] G; cbn [follow].
    - intros H. split; [constructor|exact (append_head _ _ _ H)].
    - intros H. destruct (e_next y (follow m t) s). symmetry. exact H.
    - intros H. destruct (e_next x (follow l s) t). exact H.
    - inversion G as [|? ? q G']; subst. intros H. apply append_head in H. apply D in H as [r H]; [|exact q|apply follow_stops..].
      destruct (IH m G' H) as [r' ->]. split; [constructor; assumption|reflexivity].
  Qed.
  Lemma concat_decode l m s t : Forall decodes l -> Forall Q m ->
    String.concat ", " (map f l) ++ e ++ s = String.concat ", " (map f m) ++ e ++ t -> Forall2 R l m /\ s = t.
  Proof.
    intros F G. destruct l as [|x l], m as [|y m].
    - intros H. split; [constructor|]. exact (append_head e _ _ H).
    - rewrite (concat_follow y m t). cbn [map String.concat append]. intros H. destruct (e_first y (follow m t) s). now symmetry.
    - rewrite (concat_follow x l s). cbn [map String.concat append]. intros H. now destruct (e_first x (follow l s) t).
    - rewrite (concat_follow x l s), (concat_follow y m t). inversion F as [|? ? D F']; subst. inversion G as [|? ? q G']; subst. intros H.
      apply D in H as [r H]; [|exact q|apply follow_stops..]. destruct (follow_decode l m s t F' G' H) as [r' ->].
      split; [constructor; assumption|reflexivity].
  Qed.
End Join.
Lemma Forall2_eq {A} (l m : list A) : Forall2 eq l m -> l = m.
Proof. induction 1; congruence. Qed.

Lemma starts_neq c r s p t : clash (String c "") p = true -> String c r ++ s <> p ++ t.
Proof. intros C H. apply (clash_neq (String c "") p (r ++ s) t C). exact H. Qed.

(** ** Tuples *)
Section Tuples.
  Context {A : Type} (f : A -> string) (p : ascii -> bool).
  Hypothesis f_cons : forall x, exists c r, f x = String c r /\ p c = true.
  Hypothesis p_close : p ")"%char = false.
  Hypothesis f_decode : forall x y s t, stops s = true -> stops t = true -> f x ++ s = f y ++ t -> x = y /\ s = t.

  Lemma f_close x s t : f x ++ s <> ")" ++ t.
  Proof.
    destruct (f_cons x) as (c & r & -> & P). intros H. cbn in H. apply cons_inj in H as [-> _]. congruence.
  Qed.
  Lemma decodes_all l : Forall (decodes f (fun _ => True) eq) l.
  Proof. apply Forall_forall. intros x _ y s t _. apply f_decode. Qed.
  Lemma list_decode l m s t :
    String.concat ", " (map f l) ++ ")" ++ s = String.concat ", " (map f m) ++ ")" ++ t -> l = m /\ s = t.
  Proof.
    intros H. apply (concat_decode f (fun _ => True) eq ")") in H as [F ->].
    - split; [now apply Forall2_eq|reflexivity].
    - reflexivity.
    - apply f_close.
    - intros x s' t' H'. apply (clash_neq ", " ")" _ _ eq_refl H').
    - apply decodes_all.
    - now apply Forall_forall.
  Qed.
  Lemma tuple_decode l m s t : tuple_repr (map f l) ++ s = tuple_repr (map f m) ++ t -> l = m /\ s = t.
  Proof.
    assert (E : forall l s, length l <> 1 -> tuple_repr (map f l) ++ s = "(" ++ String.concat ", " (map f l) ++ ")" ++ s).
    { intros [|x [|y l']] s' N; cbn [length] in N; [reflexivity|lia|]. unfold tuple_repr. cbn [map].
      rewrite !append_assoc. reflexivity. }
    assert (O : forall x s, tuple_repr (map f [x]) ++ s = "(" ++ f x ++ ",)" ++ s).
    { intros x s'. unfold tuple_repr. cbn [map]. now rewrite !append_assoc. }
    assert (X : forall x l s t, length l <> 1 -> "(" ++ f x ++ ",)" ++ s <> "(" ++ String.concat ", " (map f l) ++ ")" ++ t).
    { intros x l' s' t' N H. apply append_head in H. destruct l' as [|y [|z l']]; [|cbn in N; lia|].
      - exact (f_close x _ _ H).
      - rewrite (concat_follow f ")" y (z :: l') t') in H. cbn [follow] in H.
        apply f_decode in H as [_ H]; [|reflexivity..]. exact (clash_neq ",)" ", " _ _ eq_refl H). }
    destruct (Nat.eq_dec (length l) 1) as [L|L], (Nat.eq_dec (length m) 1) as [M|M].
    - destruct l as [|x [|]]; try discriminate L. destruct m as [|y [|]]; try discriminate M. rewrite !O.
      intros H. apply append_head in H. apply f_decode in H as [-> H]; [|reflexivity..]. split; [reflexivity|].
      exact (append_head _ _ _ H).
    - destruct l as [|x [|]]; try discriminate L. rewrite O, E by assumption. intros H. now destruct (X x m s t M).
    - destruct m as [|x [|]]; try discriminate M. rewrite O, E by assumption. intros H. now destruct (X x l t s L).
    - rewrite !E by assumption. intros H. apply append_head in H. now apply list_decode.
  Qed.
End Tuples.

Lemma index_decode l m s t : index_repr l ++ s = index_repr m ++ t -> l = m /\ s = t.
Proof.
  apply (tuple_decode str_nat digit); [apply str_nat_cons|reflexivity|apply str_nat_decode].
Qed.
Lemma ints_decode l m s t : tuple_repr (map str_int l) ++ s = tuple_repr (map str_int m) ++ t -> l = m /\ s = t.
Proof.
  apply (tuple_decode str_int signed); [apply str_int_cons|reflexivity|apply str_int_decode].
Qed.

(** ** Cells and degrees *)
Section CellInduction.
  Variable P : ucell -> Prop.
  Hypothesis HN : forall k, P (Named k).
  Hypothesis HP : forall cs, Forall P cs -> P (ProductCell cs).
  Fixpoint ucell_ind' (c : ucell) : P c :=
    match c with
    | Named k => HN k
    | ProductCell cs => HP cs ((fix all (l : list ucell) : Forall P l :=
        match l with [] => Forall_nil P | x :: r => Forall_cons x (ucell_ind' x) (all r) end) cs)
    end.
End CellInduction.

Lemma kind_clash k k' : k <> k' -> clash (kind_name k) (kind_name k') = true.
Proof. destruct k, k'; intros H; try reflexivity; now destruct H. Qed.
Lemma kind_eq_dec (k k' : cellkind) : {k = k'} + {k <> k'}.
Proof. decide equality. Qed.
Definition cell_head : string := "TensorProductCell(".
Lemma cell_repr_product cs s : cell_repr (ProductCell cs) ++ s = cell_head ++ String.concat ", " (map cell_repr cs) ++ ")" ++ s.
Proof. cbn [cell_repr]. now rewrite !append_assoc. Qed.
Lemma kind_clashes k : clash (kind_name k) cell_head = true /\ clash (kind_name k) ")" = true /\ clash (kind_name k) "None" = true.
Proof. destruct k; repeat split. Qed.
Lemma cell_repr_close c s t : cell_repr c ++ s <> ")" ++ t.
Proof.
  destruct c as [k|cs]; intros H.
  - exact (clash_neq _ _ _ _ (proj1 (proj2 (kind_clashes k))) H).
  - rewrite cell_repr_product in H. exact (clash_neq cell_head ")" _ _ eq_refl H).
Qed.
Lemma cell_decode : forall c c' s t, cell_repr c ++ s = cell_repr c' ++ t -> c = c' /\ s = t.
Proof.
  intros c. induction c as [k|cs IH] using ucell_ind'; intros [k'|cs'] s t H.
  - cbn [cell_repr] in H. destruct (kind_eq_dec k k') as [<-|N].
    + split; [reflexivity|exact (append_head _ _ _ H)].
    + destruct (clash_neq _ _ _ _ (kind_clash k k' N) H).
  - rewrite cell_repr_product in H. destruct (clash_neq _ _ _ _ (proj1 (kind_clashes k)) H).
  - rewrite cell_repr_product in H. symmetry in H. destruct (clash_neq _ _ _ _ (proj1 (kind_clashes k')) H).
  - rewrite !cell_repr_product in H. apply append_head in H.
    apply (concat_decode cell_repr (fun _ => True) eq ")") in H as [F ->].
    + split; [f_equal; now apply Forall2_eq|reflexivity].
    + reflexivity.
    + apply cell_repr_close.
    + intros x s' t' H'. exact (clash_neq ", " ")" _ _ eq_refl H').
    + eapply Forall_impl; [|exact IH]. intros x D y s' t' _ _ _. apply D.
    + now apply Forall_forall.
Qed.
Lemma ocell_decode c c' s t : ocell_repr c ++ s = ocell_repr c' ++ t -> c = c' /\ s = t.
Proof.
  assert (N : forall c s t, cell_repr c ++ s <> "None" ++ t).
  { intros [k|cs] s' t' H.
    - exact (clash_neq _ _ _ _ (proj2 (proj2 (kind_clashes k))) H).
    - rewrite cell_repr_product in H. exact (clash_neq cell_head "None" _ _ eq_refl H). }
  destruct c as [c|], c' as [c'|]; cbn [ocell_repr]; intros H.
  - apply cell_decode in H as [-> ->]. auto.
  - now apply N in H.
  - symmetry in H. now apply N in H.
  - split; [reflexivity|exact (append_head _ _ _ H)].
Qed.

Lemma str_int_neq z p s t : all_chars (fun c => negb (signed c)) p = true -> p <> "" -> str_int z ++ s <> p ++ t.
Proof.
  destruct (str_int_cons z) as (c & r & -> & C). destruct p as [|d p]; [now intros _ []|]. cbn [all_chars].
  intros D _ H. cbn in H. apply cons_inj in H as [-> _]. rewrite C in D. discriminate D.
Qed.
Lemma tuple_repr_open l : exists r, tuple_repr l = "(" ++ r.
Proof. destruct l as [|x [|]]; cbn [tuple_repr]; eauto. Qed.
Lemma order_decode o o' s t : stops s = true -> stops t = true -> order_repr o ++ s = order_repr o' ++ t -> o = o' /\ s = t.
Proof.
  intros S T. destruct o as [|z|l], o' as [|z'|l']; cbn [order_repr]; intros H.
  - split; [reflexivity|exact (append_head _ _ _ H)].
  - symmetry in H. now apply str_int_neq in H.
  - destruct (tuple_repr_open (map str_int l')) as [r E]. rewrite E, append_assoc in H. destruct (clash_neq "None" "(" _ _ eq_refl H).
  - now apply str_int_neq in H.
  - apply str_int_decode in H as [-> ->]; auto.
  - destruct (tuple_repr_open (map str_int l')) as [r E]. rewrite E, append_assoc in H. now apply str_int_neq in H.
  - destruct (tuple_repr_open (map str_int l)) as [r E]. rewrite E, append_assoc in H. destruct (clash_neq "(" "None" _ _ eq_refl H).
  - destruct (tuple_repr_open (map str_int l)) as [r E]. rewrite E, append_assoc in H. symmetry in H. now apply str_int_neq in H.
  - apply ints_decode in H as [-> ->]. auto.
Qed.

(** ** Strings in quotes *)
Definition all_ascii : list ascii := map ascii_of_nat (seq 0 256).
Lemma in_all_ascii c : In c all_ascii.
Proof.
  unfold all_ascii. rewrite <- (ascii_nat_embedding c). apply in_map, in_seq. pose proof (nat_ascii_bounded c). lia.
Qed.
Lemma forall_ascii (p : ascii -> bool) : forallb p all_ascii = true -> forall c, p c = true.
Proof. intros H c. rewrite forallb_forall in H. apply H, in_all_ascii. Qed.

Lemma escape_checked : forallb (fun c => forallb (fun d =>
  Ascii.eqb c d || clash (escape squote c) (escape squote d)) all_ascii) all_ascii = true.
Proof. vm_compute. reflexivity. Qed.
Lemma escape_clash c d : c <> d -> clash (escape squote c) (escape squote d) = true.
Proof.
  intros N. pose proof (forall_ascii _ (forall_ascii _ escape_checked c) d) as H. cbn beta in H.
  apply orb_true_iff in H as [H|H]; [now apply Ascii.eqb_eq in H|exact H].
Qed.
Lemma quote_checked : forallb (fun c => Ascii.eqb c squote || clash (String squote "") (escape squote c)) all_ascii = true.
Proof. vm_compute. reflexivity. Qed.
Lemma quote_clash c : c <> squote -> clash (String squote "") (escape squote c) = true.
Proof.
  intros N. pose proof (forall_ascii _ quote_checked c) as H. cbn beta in H.
  apply orb_true_iff in H as [H|H]; [now apply Ascii.eqb_eq in H|exact H].
Qed.
Lemma escaped_cons q c s : escaped q (String c s) = escape q c ++ escaped q s.
Proof.
  unfold escaped. cbn [list_ascii_of_string map]. destruct (list_ascii_of_string s) as [|d l]; cbn [map String.concat].
  - now rewrite append_nil.
  - reflexivity.
Qed.
Lemma has_char_cons c d s : has_char c (String d s) = Ascii.eqb c d || has_char c s.
Proof. reflexivity. Qed.
Lemma escaped_decode x y s t : has_char squote x = false -> has_char squote y = false ->
  escaped squote x ++ String squote s = escaped squote y ++ String squote t -> x = y /\ s = t.
Proof.
  revert y. induction x as [|c x IH]; intros [|d y] X Y H.
  - cbn in H. apply cons_inj in H as [_ ->]. auto.
  - rewrite escaped_cons, append_assoc in H. rewrite has_char_cons in Y. apply orb_false_iff in Y as [Y _].
    exfalso. apply (clash_neq (String squote "") (escape squote d) s (escaped squote y ++ String squote t)).
    + apply quote_clash. intros ->. rewrite Ascii.eqb_refl in Y. discriminate Y.
    + exact H.
  - rewrite escaped_cons, append_assoc in H. rewrite has_char_cons in X. apply orb_false_iff in X as [X _].
    exfalso. apply (clash_neq (String squote "") (escape squote c) t (escaped squote x ++ String squote s)).
    + apply quote_clash. intros ->. rewrite Ascii.eqb_refl in X. discriminate X.
    + symmetry. exact H.
  - rewrite !escaped_cons, !append_assoc in H. rewrite has_char_cons in X, Y.
    apply orb_false_iff in X as [_ X], Y as [_ Y].
    destruct (Ascii.eqb_spec c d) as [<-|N].
    + apply append_head in H. destruct (IH y X Y H) as [-> ->]. auto.
    + destruct (clash_neq _ _ _ _ (escape_clash c d N) H).
Qed.
Lemma pyrepr_plain s : has_char squote s = false -> pyrepr s = String squote (escaped squote s ++ String squote "").
Proof. intros H. unfold pyrepr. now rewrite H. Qed.
Lemma pyrepr_decode x y s t : has_char squote x = false -> has_char squote y = false ->
  pyrepr x ++ s = pyrepr y ++ t -> x = y /\ s = t.
Proof.
  intros X Y H. rewrite !pyrepr_plain in H by assumption. cbn [append] in H. apply cons_inj in H as [_ H].
  rewrite !append_assoc in H. now apply escaped_decode.
Qed.

(** The assertion of FiniteElement: no quotes inside. *)
Lemma has_char_app c s t : has_char c (s ++ t) = has_char c s || has_char c t.
Proof. unfold has_char. rewrite Runtime.chars_app. apply existsb_app. Qed.
Lemma pyrepr_dquote s : has_char dquote (pyrepr s) = false -> has_char squote s = false /\ has_char dquote s = false.
Proof.
  unfold pyrepr. destruct (has_char squote s && negb (has_char dquote s)) eqn:E; [now rewrite has_char_cons|].
  rewrite has_char_cons, has_char_app. cbn [Ascii.eqb]. intros H. apply orb_false_iff in H as [_ H]. apply orb_false_iff in H as [H _].
  assert (D : has_char dquote s = false).
  { clear E. induction s as [|c s IH]; [reflexivity|]. rewrite escaped_cons, has_char_app in H.
    apply orb_false_iff in H as [H1 H2]. rewrite has_char_cons, (IH H2), orb_false_r.
    destruct (Ascii.eqb_spec dquote c) as [<-|_]; [discriminate H1|reflexivity]. }
  rewrite D in E. cbn in E. rewrite andb_true_r in E. auto.
Qed.

(** ** Built elements *)
Section BuiltInduction.
  Variable P : uel -> Prop.
  Hypothesis HF : forall f c o k s v d c' s' v', mk_finite f c o k s v = Ok (UFinite d c' s' v') -> P (UFinite d c' s' v').
  Hypothesis HM : forall es e, Forall built es -> Forall P es -> mk_mixed es = Ok e -> P e.
  Hypothesis HV : forall sub dim e, built sub -> P sub -> mk_vector sub dim = Ok e -> P e.
  Hypothesis HT : forall sub shape sym e, built sub -> P sub -> mk_tensor sub shape sym = Ok e -> P e.
  Hypothesis HP : forall es c e, Forall built es -> Forall P es -> mk_tensor_product es c = Ok e -> P e.
  Hypothesis HE : forall nodal es e, Forall built es -> Forall P es -> mk_enriched nodal es = Ok e -> P e.
  Hypothesis HD : forall sub e, built sub -> P sub -> mk_hdiv sub = Ok e -> P e.
  Hypothesis HC : forall sub e, built sub -> P sub -> mk_hcurl sub = Ok e -> P e.
  Hypothesis HW : forall sub m e, built sub -> P sub -> mk_with_mapping sub m = Ok e -> P e.
  Hypothesis HB : forall sub e, built sub -> P sub -> mk_broken sub = Ok e -> P e.
  Hypothesis HR : forall sub dom e, built sub -> P sub -> mk_restricted sub dom = Ok e -> P e.
  Fixpoint built_ind' (e : uel) (b : built e) : P e :=
    let all := fix all (l : list uel) (F : Forall built l) : Forall P l :=
      match F with Forall_nil _ => Forall_nil P | Forall_cons x b r => Forall_cons x (built_ind' x b) (all _ r) end in
    match b with
    | built_finite f c o k s v d c' s' v' H => HF f c o k s v d c' s' v' H
    | built_mixed es e F H => HM es e F (all es F) H
    | built_vector sub dim e b H => HV sub dim e b (built_ind' sub b) H
    | built_tensor sub shape sym e b H => HT sub shape sym e b (built_ind' sub b) H
    | built_tensor_product es c e F H => HP es c e F (all es F) H
    | built_enriched nodal es e F H => HE nodal es e F (all es F) H
    | built_hdiv sub e b H => HD sub e b (built_ind' sub b) H
    | built_hcurl sub e b H => HC sub e b (built_ind' sub b) H
    | built_with_mapping sub m e b H => HW sub m e b (built_ind' sub b) H
    | built_broken sub e b H => HB sub e b (built_ind' sub b) H
    | built_restricted sub dom e b H => HR sub dom e b (built_ind' sub b) H
    end.
End BuiltInduction.

Ltac binds H :=
  repeat match type of H with
  | bind ?x _ = Ok _ => let E := fresh "E" in let v := fresh "v" in destruct x as [v|] eqn:E; cbn [bind] in H; [|discriminate H]
  end.

Lemma guard_true b x u : guard b x = Ok u -> b = true.
Proof. now destruct b. Qed.

(** What each constructor returns. *)
Lemma mk_mixed_inv es e : mk_mixed es = Ok e -> exists a, e = UMixed a es /\ mixed_attrs es None = Ok a.
Proof. unfold mk_mixed. intros H. binds H. injection H as <-. eauto. Qed.
Lemma mk_vector_inv sub dim e : mk_vector sub dim = Ok e -> exists n a,
  e = UVector (mkAttrs (at_family (u_attrs sub)) (u_cell sub) (u_degree sub) (u_scheme sub) (n :: u_shape sub)) sub n /\
  mixed_attrs (repeat sub n) (Some (n :: u_shape sub)) = Ok a /\
  match dim with Some m => m = n | None => exists c, u_cell sub = Some c /\ n = ucell_dim c end.
Proof.
  unfold mk_vector. intros H. binds H. injection H as <-. exists v, v0. repeat split; [assumption|].
  destruct dim as [m|]; [now injection E as ->|]. destruct (u_cell sub) as [c|]; [|discriminate E]. injection E as <-. eauto.
Qed.
Lemma mk_tensor_inv sub shape s e : mk_tensor sub shape s = Ok e -> exists a sh sy t n,
  e = UTensor a sub sh sy t n /\ symmetry_of sh s = Ok sy /\ check_symmetry sh sy = Ok tt /\
  n = snd (number_free sy (compute_indices sh)) /\
  number_symmetric sy (compute_indices sh) (fst (number_free sy (compute_indices sh))) = Ok t /\
  match shape with Some x => x = sh | None => exists c, u_cell sub = Some c /\ sh = [ucell_dim c; ucell_dim c] end /\
  exists a', mixed_attrs (repeat sub n) (Some (at_shape a)) = Ok a' /\
  a = mkAttrs (at_family (u_attrs sub)) (at_cell a') (u_degree sub) (at_scheme a')
        (match sy with [] => sh | _ => [prod sh - length sy] end ++ u_shape sub).
Proof.
  unfold mk_tensor. intros H. binds H.
  destruct (number_free v0 (compute_indices v)) as [d n] eqn:N. binds H. injection H as <-.
  eexists _, v, v0, v2, n. split; [reflexivity|]. rewrite N. cbn [fst snd]. destruct v1.
  repeat split; try assumption.
  - destruct shape as [x|]; [now injection E as ->|]. destruct (u_cell sub) as [c|]; [|discriminate E]. injection E as <-. eauto.
  - exists v3. split; [exact E3|reflexivity].
Qed.
Lemma mk_tensor_product_inv es c e : mk_tensor_product es c = Ok e -> exists cell,
  e = UTensorProduct (mkAttrs "TensorProductElement" (Some cell) (DTuple (map u_degree es)) None (flat_map u_shape es)) es cell /\
  es <> [] /\ length (flat_map u_shape es) <= 1 /\
  match c with Some c => c = cell | None => exists cs, cell = ProductCell cs /\ map u_cell es = map Some cs end.
Proof.
  unfold mk_tensor_product. destruct es as [|x es]; [discriminate|]. intros H.
  set (es' := x :: es) in *. binds H. injection H as <-. exists v. split; [reflexivity|]. split; [discriminate|].
  apply guard_true, Nat.leb_le in E0. split; [exact E0|].
  destruct c as [c|]; [now injection E as ->|]. binds E. injection E as <-. exists v1. split; [reflexivity|].
  clear -E1. clearbody es'. revert v1 E1. induction es' as [|y es' IH]; intros l E; cbn [mapM] in E.
  - injection E as <-. reflexivity.
  - destruct (u_cell y) eqn:Y; [|discriminate E]. cbn [bind] in E. binds E. injection E as <-. cbn [map]. rewrite Y. f_equal. now apply IH.
Qed.
Lemma mk_enriched_inv nodal es e : mk_enriched nodal es = Ok e -> exists a e0 rest, es = e0 :: rest /\
  e = UEnriched nodal a es /\ at_cell a = u_cell e0 /\ at_shape a = u_shape e0 /\
  at_family a = (if nodal then "NodalEnrichedElement" else "EnrichedElement").
Proof.
  unfold mk_enriched. destruct es as [|e0 rest]; [discriminate|]. intros H. binds H. injection H as <-.
  eexists _, e0, rest. split; [reflexivity|]. split; [reflexivity|]. repeat split.
Qed.
Lemma mk_hdiv_inv sub e : mk_hdiv sub = Ok e -> exists a, e = UHDiv a sub /\ wrapped_attrs sub = Ok a.
Proof. unfold mk_hdiv. intros H. binds H. injection H as <-. eauto. Qed.
Lemma mk_hcurl_inv sub e : mk_hcurl sub = Ok e -> exists a, e = UHCurl a sub /\ wrapped_attrs sub = Ok a.
Proof. unfold mk_hcurl. intros H. binds H. injection H as <-. eauto. Qed.
Lemma mk_with_mapping_inv sub m e : mk_with_mapping sub m = Ok e -> e = UWithMapping sub m /\ m <> "symmetries".
Proof.
  unfold mk_with_mapping. intros H. binds H. injection H as <-. apply guard_true in E. split; [reflexivity|].
  intros ->. discriminate E.
Qed.
Lemma mk_broken_inv sub e : mk_broken sub = Ok e ->
  e = UBroken (mkAttrs "BrokenElement" (u_cell sub) (u_degree sub) (u_scheme sub) (u_shape sub)) sub.
Proof. unfold mk_broken. intros H. now injection H as <-. Qed.
Lemma mk_restricted_inv sub dom e : mk_restricted sub dom = Ok e ->
  e = URestricted (mkAttrs "RestrictedElement" (u_cell sub) (u_degree sub) (u_scheme sub) (u_shape sub)) sub dom /\
  In dom valid_restriction_domains.
Proof.
  unfold mk_restricted. intros H. binds H. injection H as <-. split; [reflexivity|]. apply guard_true in E.
  apply existsb_exists in E as (x & I & E). apply String.eqb_eq in E. now subst.
Qed.
Lemma plain_finite_inv f c o k s v e : plain_finite f c o k s v = Ok e -> exists d,
  e = UFinite d c s v /\ describe_name f c o k = Ok d /\ has_char dquote (finite_repr d c s v) = false.
Proof.
  unfold plain_finite. intros H. binds H. injection H as <-. exists v0. split; [reflexivity|]. split; [reflexivity|].
  apply guard_true in E0. now apply negb_true_iff in E0.
Qed.
Lemma finite_on_plain f c o k s v d c' s' v' : finite_on f c o k s v = Ok (UFinite d c' s' v') ->
  plain_finite f (Some c) o k s v = Ok (UFinite d c' s' v').
Proof.
  assert (NE : forall es e, mk_enriched false es = Ok e -> forall d c s v, e <> UFinite d c s v).
  { intros es e H. apply mk_enriched_inv in H as (a & e0 & r & _ & -> & _). intros. discriminate. }
  assert (NP : forall es c e, mk_tensor_product es c = Ok e -> forall d c s v, e <> UFinite d c s v).
  { intros es c0 e H. apply mk_tensor_product_inv in H as (a & -> & _). intros. discriminate. }
  destruct c as [n|cs]; [auto|]. cbn [finite_on].
  destruct (describe_name f (Some (ProductCell cs)) o k) as [e|x]; [|discriminate]. cbn [bind].
  destruct (String.eqb (ds_family e) "RTCF" || String.eqb (ds_family e) "RTCE").
  { intros H. binds H. destruct (NE _ _ H _ _ _ _ eq_refl). }
  destruct (String.eqb (ds_family e) "NCF"). { intros H. binds H. destruct (NE _ _ H _ _ _ _ eq_refl). }
  destruct (String.eqb (ds_family e) "NCE"). { intros H. binds H. destruct (NE _ _ H _ _ _ _ eq_refl). }
  destruct (String.eqb (ds_family e) "Q"). { intros H. binds H. destruct (NP _ _ _ H _ _ _ _ eq_refl). }
  destruct (String.eqb (ds_family e) "DQ"). { intros H. binds H. destruct (NP _ _ _ H _ _ _ _ eq_refl). }
  destruct (String.eqb (ds_family e) "DQ L2"). { intros H. binds H. destruct (NP _ _ _ H _ _ _ _ eq_refl). }
  auto.
Qed.
Lemma mk_finite_plain f c o k s v d c' s' v' : mk_finite f c o k s v = Ok (UFinite d c' s' v') ->
  plain_finite f c o k s v = Ok (UFinite d c' s' v').
Proof. destruct c as [c|]; [apply finite_on_plain|auto]. Qed.
