(** What the symbolic elements mean, stated without the text the library prints. *)
From Coq Require Import Ascii String List ZArith Bool.
From Verif Require Import Model.Prelude Model.Registry Model.UflElement.
Import ListNotations.
Open Scope string_scope.

(** ** Elements *)

(** The elements that the constructors make. *)
Inductive built : uel -> Prop :=
| built_finite f c o k s v d c' s' v' : mk_finite f c o k s v = Ok (UFinite d c' s' v') -> built (UFinite d c' s' v')
| built_mixed es e : Forall built es -> mk_mixed es = Ok e -> built e
| built_vector sub dim e : built sub -> mk_vector sub dim = Ok e -> built e
| built_tensor sub shape sym e : built sub -> mk_tensor sub shape sym = Ok e -> built e
| built_tensor_product es c e : Forall built es -> mk_tensor_product es c = Ok e -> built e
| built_enriched nodal es e : Forall built es -> mk_enriched nodal es = Ok e -> built e
| built_hdiv sub e : built sub -> mk_hdiv sub = Ok e -> built e
| built_hcurl sub e : built sub -> mk_hcurl sub = Ok e -> built e
| built_with_mapping sub m e : built sub -> mk_with_mapping sub m = Ok e -> built e
| built_broken sub e : built sub -> mk_broken sub = Ok e -> built e
| built_restricted sub dom e : built sub -> mk_restricted sub dom = Ok e -> built e.

(** Elements of the same class made from the same data. *)
Inductive same : uel -> uel -> Prop :=
| same_finite d d' c s v : ds_family d = ds_family d' -> ds_order d = ds_order d' ->
    same (UFinite d c s v) (UFinite d' c s v)
| same_mixed a a' l l' : Forall2 same l l' -> same (UMixed a l) (UMixed a' l')
| same_vector a a' e e' n : same e e' -> same (UVector a e n) (UVector a' e' n)
| same_tensor a a' e e' shape sym t t' n n' : same e e' ->
    same (UTensor a e shape sym t n) (UTensor a' e' shape sym t' n')
| same_tensor_product a a' l l' c : Forall2 same l l' -> same (UTensorProduct a l c) (UTensorProduct a' l' c)
| same_enriched nodal a a' l l' : Forall2 same l l' -> same (UEnriched nodal a l) (UEnriched nodal a' l')
| same_hdiv a a' e e' : same e e' -> same (UHDiv a e) (UHDiv a' e')
| same_hcurl a a' e e' : same e e' -> same (UHCurl a e) (UHCurl a' e')
| same_with_mapping e e' m : same e e' -> same (UWithMapping e m) (UWithMapping e' m)
| same_broken a a' e e' : same e e' -> same (UBroken a e) (UBroken a' e')
| same_restricted a a' e e' dom : same e e' -> same (URestricted a e dom) (URestricted a' e' dom).

(** No mapping given to WithMapping contains an apostrophe. *)
Inductive plain_mappings : uel -> Prop :=
| pm_finite d c s v : plain_mappings (UFinite d c s v)
| pm_mixed a l : Forall plain_mappings l -> plain_mappings (UMixed a l)
| pm_vector a e n : plain_mappings e -> plain_mappings (UVector a e n)
| pm_tensor a e shape sym t n : plain_mappings e -> plain_mappings (UTensor a e shape sym t n)
| pm_tensor_product a l c : Forall plain_mappings l -> plain_mappings (UTensorProduct a l c)
| pm_enriched nodal a l : Forall plain_mappings l -> plain_mappings (UEnriched nodal a l)
| pm_hdiv a e : plain_mappings e -> plain_mappings (UHDiv a e)
| pm_hcurl a e : plain_mappings e -> plain_mappings (UHCurl a e)
| pm_with_mapping e m : plain_mappings e -> ~ In "'"%char (list_ascii_of_string m) ->
    plain_mappings (UWithMapping e m)
| pm_broken a e : plain_mappings e -> plain_mappings (UBroken a e)
| pm_restricted a e dom : plain_mappings e -> plain_mappings (URestricted a e dom).

(** ** Spaces *)

(** Inclusion of the predefined spaces. *)
Inductive included : sobolev -> sobolev -> Prop :=
| inc_refl s : included s s
| inc_trans s t u : included s t -> included t u -> included s u
| inc_hinf : included HInf H2
| inc_h2 : included H2 H1
| inc_h1_hdiv : included H1 HDiv
| inc_h1_hcurl : included H1 HCurl
| inc_hdiv : included HDiv L2
| inc_hcurl : included HCurl L2
| inc_hein : included HEin L2
| inc_hdivdiv : included HDivDiv L2
| inc_hcurldiv : included HCurlDiv L2.

(** The smallest space that includes all the given ones. *)
Definition smallest (spaces : list sobolev) (s : sobolev) : Prop :=
  (forall t, In t spaces -> included t s) /\
  (forall u, (forall t, In t spaces -> included t u) -> included s u).

(** ** Components *)

(** The indices of a tensor of the given shape, the last one fastest. *)
Fixpoint all_indices (shape : list nat) : list (list nat) :=
  match shape with
  | [] => [[]]
  | n :: r => flat_map (fun i => map (cons i) (all_indices r)) (seq 0 n)
  end.

(** The components of an element in their order, each as a component of an element that is
    not mixed. *)
Fixpoint components (e : uel) : list (list nat * uel) :=
  match e with
  | UMixed _ l => flat_map components l
  | UVector _ s n | UTensor _ s _ _ _ n => concat (repeat (components s) n)
  | _ => map (fun i => (i, e)) (all_indices (u_shape e))
  end.

(** Symmetries all of whose keys are indices of the tensor. *)
Definition full_keys (shape : list nat) (sym : symmetry) : Prop :=
  forall i j, In (i, j) sym -> length i = length shape.

(** Mixed elements whose reference value has rank one at every level. *)
Inductive flat : uel -> Prop :=
| flat_simple e : (match e with UMixed _ _ | UVector _ _ _ | UTensor _ _ _ _ _ _ => False | _ => True end) -> flat e
| flat_mixed a l : Forall flat l -> flat (UMixed a l)
| flat_vector a s n : flat s -> u_shape s = [] -> flat (UVector a s n)
| flat_tensor a s shape sym t n : flat s -> u_shape s = [] ->
    (sym = [] /\ length shape = 1) \/ (sym <> [] /\ full_keys shape sym) -> flat (UTensor a s shape sym t n).

(** ** Symmetries *)

(** Lexicographic order. *)
Inductive before : list nat -> list nat -> Prop :=
| before_here x y l m : x < y -> before (x :: l) (y :: m)
| before_there x l m : before l m -> before (x :: l) (x :: m).

(** The sub-element that belongs to an index: those not listed in the symmetry are numbered
    in order, the others share the number of the index they are equal to. *)
Inductive numbered (shape : list nat) (sym : symmetry) : list nat -> nat -> Prop :=
| numbered_free i k : nth_error (filter (fun i => negb (existsb (list_eqb Nat.eqb i) (map fst sym))) (all_indices shape)) k = Some i ->
    numbered shape sym i k
| numbered_equal i j k : In (i, j) sym -> numbered shape sym j k -> numbered shape sym i k.

(** ** Degrees *)

Definition least (l : list Z) (z : Z) : Prop := In z l /\ forall x, In x l -> (z <= x)%Z.
Definition greatest (l : list Z) (z : Z) : Prop := In z l /\ forall x, In x l -> (x <= z)%Z.
Definition total (l : list Z) : Z := fold_right Z.add 0%Z l.

(** The numbers of a description that bound the degree: the order and what the registration
    says about spaces that contain more or less. *)
Definition described_degrees (d : description) : option (list Z) :=
  let more := match ds_embedded d with Order z => [z] | _ => [] end in
  match ds_order d with
  | Order z => Some (z :: more)
  | Orders (z :: l) => Some (z :: l ++ more)%list
  | _ => None
  end.

(** The element without the outer changes of mapping. *)
Fixpoint bare (e : uel) : uel := match e with UWithMapping s _ => bare s | _ => e end.

(** The largest degree all polynomials of which an element contains, and the smallest one
    that contains it.  A restricted element has its degree for both; a change of mapping
    undoes a restriction. *)
Inductive bounds : uel -> Z -> Z -> Prop :=
| bounds_finite d c s v l lo hi : described_degrees d = Some l -> least l lo -> greatest l hi ->
    bounds (UFinite d c s v) lo hi
| bounds_mixed a l bs lo hi : Forall2 (fun e b => bounds e (fst b) (snd b)) l bs ->
    least (map fst bs) lo -> greatest (map snd bs) hi -> bounds (UMixed a l) lo hi
| bounds_enriched nodal a l bs lo hi : Forall2 (fun e b => bounds e (fst b) (snd b)) l bs ->
    least (map fst bs) lo -> greatest (map snd bs) hi -> bounds (UEnriched nodal a l) lo hi
| bounds_vector a e n lo hi : 0 < n -> bounds e lo hi -> bounds (UVector a e n) lo hi
| bounds_tensor a e shape sym t n lo hi : 0 < n -> bounds e lo hi -> bounds (UTensor a e shape sym t n) lo hi
| bounds_product a l c zs lo : map u_degree l = map DInt zs -> least zs lo ->
    bounds (UTensorProduct a l c) lo (total zs)
| bounds_hdiv a e lo hi : bounds e lo hi -> bounds (UHDiv a e) lo hi
| bounds_hcurl a e lo hi : bounds e lo hi -> bounds (UHCurl a e) lo hi
| bounds_broken a e lo hi : bounds e lo hi -> bounds (UBroken a e) lo hi
| bounds_restricted a e dom z : u_degree e = DInt z -> bounds (URestricted a e dom) z z
| bounds_with_mapping e m lo hi : bounds (match bare e with URestricted _ t _ => t | b => b end) lo hi ->
    bounds (UWithMapping e m) lo hi.

(** ** Product elements *)

(** A degree on a product cell: the same on each factor. *)
Fixpoint spread (d : udeg) (c : ucell) : udeg :=
  match c with Named _ => d | ProductCell cs => DTuple (map (spread d) cs) end.

(** Products of the cells that have Lagrange elements. *)
Inductive factor_cell : ucell -> Prop :=
| factor_named k : In k [Interval; Triangle; Tetrahedron; Quadrilateral; Hexahedron] -> factor_cell (Named k)
| factor_product cs : cs <> []%list -> Forall factor_cell cs -> factor_cell (ProductCell cs).

(** A variant without quotation marks. *)
Definition quiet (v : option string) : Prop :=
  match v with
  | None => True
  | Some s => ~ In "'"%char (list_ascii_of_string s) /\ ~ In """"%char (list_ascii_of_string s)
  end.

(** The vector families on product cells and the names of the factors they need. *)
Definition vector_families : list string := ["RTCF"; "RTCE"; "NCF"; "NCE"].
Definition vector_cells (family : string) : list string :=
  if String.eqb family "RTCF" || String.eqb family "RTCE" then ["interval"; "interval"]
  else ["quadrilateral"; "interval"].
