(** What it means to change one argument of an element. *)
From Coq Require Import String List ZArith Bool.
From Verif Require Import Model.Prelude Model.Registry Model.UflElement Spec.UflElement.
Import ListNotations.
Open Scope string_scope.

(** Two trees of the same classes and the same data of their own, with related leaves. *)
Inductive leafwise (R : uel -> uel -> Prop) : uel -> uel -> Prop :=
| lw_finite d c s v e' : R (UFinite d c s v) e' -> leafwise R (UFinite d c s v) e'
| lw_mixed a a' l l' : Forall2 (leafwise R) l l' -> leafwise R (UMixed a l) (UMixed a' l')
| lw_vector a a' e e' n : leafwise R e e' -> leafwise R (UVector a e n) (UVector a' e' n)
| lw_tensor a a' e e' shape sym t t' n n' : leafwise R e e' ->
    leafwise R (UTensor a e shape sym t n) (UTensor a' e' shape sym t' n')
| lw_tensor_product a a' l l' c : Forall2 (leafwise R) l l' -> leafwise R (UTensorProduct a l c) (UTensorProduct a' l' c)
| lw_enriched nodal a a' l l' : Forall2 (leafwise R) l l' -> leafwise R (UEnriched nodal a l) (UEnriched nodal a' l')
| lw_hdiv a a' e e' : leafwise R e e' -> leafwise R (UHDiv a e) (UHDiv a' e')
| lw_hcurl a a' e e' : leafwise R e e' -> leafwise R (UHCurl a e) (UHCurl a' e')
| lw_with_mapping e e' m : leafwise R e e' -> leafwise R (UWithMapping e m) (UWithMapping e' m)
| lw_broken a a' e e' : leafwise R e e' -> leafwise R (UBroken a e) (UBroken a' e')
| lw_restricted a a' e e' dom : leafwise R e e' -> leafwise R (URestricted a e dom) (URestricted a' e' dom).

(** The same leaf but for its variant, its quadrature scheme. *)
Definition with_variant (v : string) (e e' : uel) : Prop :=
  match e, e' with
  | UFinite d c s _, UFinite d' c' s' v' =>
      ds_family d' = ds_family d /\ ds_order d' = ds_order d /\ c' = c /\ s' = s /\ v' = Some v
  | _, _ => False
  end.
Definition with_scheme (q : string) (e e' : uel) : Prop :=
  match e, e' with
  | UFinite d c _ v, UFinite d' c' s' v' =>
      ds_family d' = ds_family d /\ ds_order d' = ds_order d /\ c' = c /\ s' = Some q /\ v' = v
  | _, _ => False
  end.

(** Elements whose mixed parts have components. *)
Inductive inhabited : uel -> Prop :=
| in_finite d c s v : inhabited (UFinite d c s v)
| in_mixed a l : l <> [] -> Forall inhabited l -> inhabited (UMixed a l)
| in_vector a e n : inhabited e -> inhabited (UVector a e n)
| in_tensor a e shape sym t n : 0 < n -> inhabited e -> inhabited (UTensor a e shape sym t n)
| in_tensor_product a l c : Forall inhabited l -> inhabited (UTensorProduct a l c)
| in_enriched nodal a l : Forall inhabited l -> inhabited (UEnriched nodal a l)
| in_hdiv a e : inhabited e -> inhabited (UHDiv a e)
| in_hcurl a e : inhabited e -> inhabited (UHCurl a e)
| in_with_mapping e m : inhabited e -> inhabited (UWithMapping e m)
| in_broken a e : inhabited e -> inhabited (UBroken a e)
| in_restricted a e dom : inhabited e -> inhabited (URestricted a e dom).

(** [p] holds of no node of the tree. *)
Fixpoint nowhere (p : uel -> bool) (e : uel) : bool :=
  negb (p e) &&
  match e with
  | UFinite _ _ _ _ => true
  | UMixed _ l | UTensorProduct _ l _ | UEnriched _ _ l => forallb (nowhere p) l
  | UVector _ e _ | UTensor _ e _ _ _ _ | UHDiv _ e | UHCurl _ e | UWithMapping e _ | UBroken _ e
  | URestricted _ e _ => nowhere p e
  end.
Definition is_product (e : uel) : bool := match e with UTensorProduct _ _ _ => true | _ => false end.
Definition is_broken (e : uel) : bool := match e with UBroken _ _ => true | _ => false end.

(** Attributes that differ in the scheme at most. *)
Definition same_but_scheme (a a' : attrs) : Prop :=
  at_family a = at_family a' /\ at_cell a = at_cell a' /\ at_degree a = at_degree a' /\ at_shape a = at_shape a'.

(** Calls of reconstruct with one keyword. *)
Definition set_variant (v : string) : kwargs := mkKwargs None None None None (Some v) None.
Definition set_scheme (q : string) : kwargs := mkKwargs None None None (Some q) None None.
Definition set_degree (q : Z) : kwargs := mkKwargs None None (Some (Order q)) None None None.
Definition set_cell (c : ucell) : kwargs := mkKwargs None (Some c) None None None None.
Definition set_family (f : string) : kwargs := mkKwargs (Some f) None None None None None.
Definition set_mapping (m : string) : kwargs := mkKwargs None None None None None (Some m).

(** A leaf made again with the arguments that are given, and its own ones otherwise. *)
Definition chosen {A} (given : option A) (own x : A) : Prop := given = Some x \/ given = None /\ x = own.
Definition replaced (kw : kwargs) (e e' : uel) : Prop :=
  match e with
  | UFinite d c s v => exists f o s' v', chosen (kw_family kw) (ds_family d) f /\ chosen (kw_degree kw) (ds_order d) o /\
      (kw_scheme kw <> None /\ s' = kw_scheme kw \/ kw_scheme kw = None /\ s' = s) /\
      (kw_variant kw <> None /\ v' = kw_variant kw \/ kw_variant kw = None /\ v' = v) /\
      mk_finite f c o None s' v' = Ok e'
  | _ => False
  end.

(** The same tree but for the mappings of the outermost changes of mapping, with one of these
    above every leaf. *)
Inductive remapped (m : string) : uel -> uel -> Prop :=
| rm_with_mapping e e' m0 : same e e' -> remapped m (UWithMapping e m0) (UWithMapping e' m)
| rm_mixed a a' l l' : Forall2 (remapped m) l l' -> remapped m (UMixed a l) (UMixed a' l')
| rm_vector a a' e e' n : remapped m e e' -> remapped m (UVector a e n) (UVector a' e' n)
| rm_tensor a a' e e' shape sym t t' n n' : remapped m e e' ->
    remapped m (UTensor a e shape sym t n) (UTensor a' e' shape sym t' n')
| rm_tensor_product a a' l l' c : Forall2 (remapped m) l l' -> remapped m (UTensorProduct a l c) (UTensorProduct a' l' c)
| rm_enriched nodal a a' l l' : Forall2 (remapped m) l l' -> remapped m (UEnriched nodal a l) (UEnriched nodal a' l')
| rm_hdiv a a' e e' : remapped m e e' -> remapped m (UHDiv a e) (UHDiv a' e')
| rm_hcurl a a' e e' : remapped m e e' -> remapped m (UHCurl a e) (UHCurl a' e')
| rm_broken a a' e e' : remapped m e e' -> remapped m (UBroken a e) (UBroken a' e')
| rm_restricted a a' e e' dom : remapped m e e' -> remapped m (URestricted a e dom) (URestricted a' e' dom).
(** There is a change of mapping above every leaf, and [p] holds of the outermost ones. *)
Fixpoint covered (p : string -> bool) (e : uel) : bool :=
  match e with
  | UFinite _ _ _ _ => false
  | UWithMapping _ m => p m
  | UMixed _ l | UTensorProduct _ l _ | UEnriched _ _ l => forallb (covered p) l
  | UVector _ e _ | UTensor _ e _ _ _ _ | UHDiv _ e | UHCurl _ e | UBroken _ e | URestricted _ e _ => covered p e
  end.
(** How many axes a mapping is for; 0: any. *)
Definition mapping_axes (m : string) : nat :=
  if existsb (String.eqb m) ["covariant Piola"; "contravariant Piola"] then 1
  else if existsb (String.eqb m) ["double covariant Piola"; "double contravariant Piola"] then 2 else 0.
Definition alike (m m0 : string) : bool := Nat.eqb (mapping_axes m) (mapping_axes m0).
