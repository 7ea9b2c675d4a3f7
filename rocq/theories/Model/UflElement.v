(** The symbolic element classes, finat/ufl/*.py.

    An object is a node of [uel]; the attributes set by FiniteElementBase.__init__ are
    stored in the node, the other attributes are functions of it.  The functions [mk_*]
    are the constructors.  Cells, their repr and their comparison are UFL's (external):
    Cell.__repr__ is the name, TensorProductCell.__repr__ is
    "TensorProductCell(" + ", ".join(...) + ")", cells are compared by structure. *)
From Coq Require Import Ascii String List ZArith Bool DecimalString.
From Verif Require Import Model.Prelude Model.Registry.
From Verif Require Model.Runtime.
Import ListNotations.
Open Scope string_scope.

(** ** Degrees *)

(** What [degree()] returns: None, an int, or a tuple. *)
Inductive udeg := DNone | DInt (z : Z) | DTuple (l : list udeg).

Definition deg_of (o : order) : udeg :=
  match o with NoOrder => DNone | Order z => DInt z | Orders l => DTuple (map DInt l) end.

(** [a == b]. *)
Fixpoint deg_eqb (a b : udeg) : bool :=
  match a, b with
  | DNone, DNone => true
  | DInt x, DInt y => Z.eqb x y
  | DTuple l, DTuple m =>
      (fix go (l m : list udeg) : bool :=
         match l, m with
         | [], [] => true
         | x :: l, y :: m => deg_eqb x y && go l m
         | _, _ => false
         end) l m
  | _, _ => false
  end.

(** [a < b]: tuples are compared at the first position where they differ. *)
Fixpoint deg_lt (a b : udeg) : result bool :=
  match a, b with
  | DInt x, DInt y => Ok (Z.ltb x y)
  | DTuple l, DTuple m =>
      (fix go (l m : list udeg) : result bool :=
         match l, m with
         | _, [] => Ok false
         | [], _ :: _ => Ok true
         | x :: l, y :: m => if deg_eqb x y then go l m else deg_lt x y
         end) l m
  | _, _ => Err TypeError
  end.

(** [min(l)], [max(l)], [sum(l)]. *)
Definition py_min (l : list udeg) : result udeg :=
  match l with
  | [] => Err ValueError
  | x :: r => fold_left (fun acc y => do b <- acc ;; do c <- deg_lt y b ;; Ok (if c : bool then y else b)) r (Ok x)
  end.
Definition py_max (l : list udeg) : result udeg :=
  match l with
  | [] => Err ValueError
  | x :: r => fold_left (fun acc y => do b <- acc ;; do c <- deg_lt b y ;; Ok (if c : bool then y else b)) r (Ok x)
  end.
Definition py_sum (l : list udeg) : result udeg :=
  fold_left (fun acc y => do b <- acc ;;
               match b, y with DInt b, DInt y => Ok (DInt (b + y)) | _, _ => Err TypeError end) l (Ok (DInt 0)).

(** ufl.utils.sequences.max_degree (external): the maximum by numpy, where ints and tuples
    of length one are broadcast.  Simplification: a tuple with members that are no ints is a
    TypeError (numpy raises TypeError or ValueError). *)
Definition as_array (d : udeg) : result (Z + list Z) :=
  match d with
  | DNone => Err TypeError
  | DInt z => Ok (inl z)
  | DTuple l => do zs <- mapM (fun x => match x with DInt z => Ok z | _ => Err TypeError end) l ;; Ok (inr zs)
  end.
Definition maximum (a b : Z + list Z) : result (Z + list Z) :=
  match a, b with
  | inl x, inl y => Ok (inl (Z.max x y))
  | inl x, inr l => Ok (inr (map (Z.max x) l))
  | inr l, inl x => Ok (inr (map (fun y => Z.max y x) l))
  | inr l, inr m =>
      if Nat.eqb (length l) (length m) then Ok (inr (map2 Z.max l m))
      else match l, m with
           | [x], _ => Ok (inr (map (Z.max x) m))
           | _, [x] => Ok (inr (map (fun y => Z.max y x) l))
           | _, _ => Err ValueError
           end
  end.
Definition max_degree (l : list udeg) : result udeg :=
  do arrays <- mapM as_array l ;;
  match arrays with
  | [] => Err TypeError
  | x :: r =>
      do m <- fold_left (fun acc y => do a <- acc ;; maximum a y) r (Ok x) ;;
      Ok (match m with inl z => DInt z | inr zs => DTuple (map DInt zs) end)
  end.

(** ** Text *)

(** [str(z)] for an int. *)
Definition str_nat : nat -> string := Runtime.str_nat.
Definition str_int (z : Z) : string := NilZero.string_of_int (Z.to_int z).

(** [repr(s)] for a str.  Simplification: characters are those of Latin-1. *)
Definition dquote : ascii := """".
Definition squote : ascii := "'".
Definition has_char (c : ascii) (s : string) : bool := existsb (Ascii.eqb c) (list_ascii_of_string s).
Definition hex_digit (n : nat) : ascii :=
  nth n (list_ascii_of_string "0123456789abcdef") "0"%char.
Definition escape (quote c : ascii) : string :=
  let n := nat_of_ascii c in
  if Ascii.eqb c quote then String "\" (String c "")
  else if Ascii.eqb c "\" then "\\"
  else if Nat.eqb n 9 then "\t"
  else if Nat.eqb n 10 then "\n"
  else if Nat.eqb n 13 then "\r"
  else if Nat.ltb n 32 || (Nat.leb 127 n && Nat.leb n 160) || Nat.eqb n 173
  then String "\" (String "x" (String (hex_digit (n / 16)) (String (hex_digit (n mod 16)) "")))
  else String c "".
Definition escaped (quote : ascii) (s : string) : string :=
  String.concat "" (map (escape quote) (list_ascii_of_string s)).
Definition pyrepr (s : string) : string :=
  let quote := if has_char squote s && negb (has_char dquote s) then dquote else squote in
  String quote (escaped quote s ++ String quote "").

(** [repr(t)] for a tuple, given the reprs of the members. *)
Definition tuple_repr (l : list string) : string :=
  match l with
  | [x] => "(" ++ x ++ ",)"
  | _ => "(" ++ String.concat ", " l ++ ")"
  end.
Definition index_repr (i : list nat) : string := tuple_repr (map str_nat i).

Definition order_repr (o : order) : string :=
  match o with
  | NoOrder => "None" | Order z => str_int z | Orders l => tuple_repr (map str_int l)
  end.

Fixpoint cell_repr (c : ucell) : string :=
  match c with
  | Named k => kind_name k
  | ProductCell cs => "TensorProductCell(" ++ String.concat ", " (map cell_repr cs) ++ ")"
  end.
Definition ocell_repr (c : option ucell) : string :=
  match c with None => "None" | Some c => cell_repr c end.

(** [cell.cellname()] (external). *)
Fixpoint cell_name (c : ucell) : string :=
  match c with
  | Named k => kind_name k
  | ProductCell cs => String.concat " * " (map cell_name cs)
  end.

(** [a == b] for cells (external). *)
Definition kind_eqb (a b : cellkind) : bool := String.eqb (kind_name a) (kind_name b).
Fixpoint ucell_eqb (a b : ucell) : bool :=
  match a, b with
  | Named k, Named k' => kind_eqb k k'
  | ProductCell l, ProductCell m =>
      (fix go (l m : list ucell) : bool :=
         match l, m with
         | [], [] => true
         | x :: l, y :: m => ucell_eqb x y && go l m
         | _, _ => false
         end) l m
  | _, _ => false
  end.
Definition opt_eqb {A} (eqb : A -> A -> bool) (a b : option A) : bool :=
  match a, b with
  | None, None => true
  | Some x, Some y => eqb x y
  | _, _ => false
  end.

(** ** Elements *)

(** The attributes set by FiniteElementBase.__init__, finat/ufl/finiteelementbase.py:30-49. *)
Record attrs := mkAttrs {
  at_family : string; at_cell : option ucell; at_degree : udeg; at_scheme : option string;
  at_shape : list nat
}.

(** Indices of the components of a tensor, and a symmetry dictionary. *)
Notation index := (list nat) (only parsing).
Definition symmetry := list (index * index).

(** The objects.  [UEnriched nodal]: NodalEnrichedElement when [nodal]. [UTensor] holds also
    _sub_element_mapping and the number of sub-elements. *)
Inductive uel :=
| UFinite (d : description) (cell : option ucell) (scheme variant : option string)
| UMixed (a : attrs) (subs : list uel)
| UVector (a : attrs) (sub : uel) (dim : nat)
| UTensor (a : attrs) (sub : uel) (shape : list nat) (sym : symmetry) (numbers : list (index * nat)) (nsubs : nat)
| UTensorProduct (a : attrs) (subs : list uel) (cell : ucell)
| UEnriched (nodal : bool) (a : attrs) (subs : list uel)
| UHDiv (a : attrs) (sub : uel)
| UHCurl (a : attrs) (sub : uel)
| UWithMapping (sub : uel) (mapping : string)
| UBroken (a : attrs) (sub : uel)
| URestricted (a : attrs) (sub : uel) (domain : string).

(** WithMapping.reference_value_shape, finat/ufl/hdivcurl.py:194-204.  Without a cell the
    property raises AttributeError, so that __getattr__ answers with the wrapee's. *)
Definition mapped_shape (mapping : string) (cell : option ucell) (shape : list nat) : list nat :=
  match cell with
  | None => shape
  | Some c =>
      if String.eqb mapping "covariant Piola" || String.eqb mapping "contravariant Piola" then [ucell_dim c]
      else if String.eqb mapping "double covariant Piola" || String.eqb mapping "double contravariant Piola"
      then [ucell_dim c; ucell_dim c]
      else shape
  end.

(** family(), cell, degree(), quadrature_scheme(), reference_value_shape,
    finat/ufl/finiteelementbase.py:99-127; WithMapping has none of the underlying slots and
    takes the wrapee's, finat/ufl/hdivcurl.py:171-177. *)
Fixpoint u_attrs (e : uel) : attrs :=
  match e with
  | UFinite d cell scheme _ => mkAttrs (ds_family d) cell (deg_of (ds_order d)) scheme (ds_shape d)
  | UMixed a _ | UVector a _ _ | UTensor a _ _ _ _ _ | UTensorProduct a _ _ | UEnriched _ a _
  | UHDiv a _ | UHCurl a _ | UBroken a _ | URestricted a _ _ => a
  | UWithMapping e m =>
      let a := u_attrs e in
      mkAttrs (at_family a) (at_cell a) (at_degree a) (at_scheme a) (mapped_shape m (at_cell a) (at_shape a))
  end.
Definition u_cell e := at_cell (u_attrs e).
Definition u_degree e := at_degree (u_attrs e).
Definition u_scheme e := at_scheme (u_attrs e).
Definition u_shape e := at_shape (u_attrs e).

(** [_sub_elements]; finat/ufl/mixedelement.py:42, 302-304, 415-419,
    finat/ufl/tensorproductelement.py:63. *)
Definition u_subs (e : uel) : list uel :=
  match e with
  | UMixed _ subs | UTensorProduct _ subs _ => subs
  | UVector _ sub n | UTensor _ sub _ _ _ n => repeat sub n
  | _ => []
  end.

(** mapping(): finat/ufl/finiteelement.py:190-192, finat/ufl/mixedelement.py:121-126, 339-341, 485-487,
    finat/ufl/tensorproductelement.py:70-77, finat/ufl/enrichedelement.py:57-59, finat/ufl/hdivcurl.py:60-62, 119-121, 206-208,
    finat/ufl/brokenelement.py:34-36, finat/ufl/restrictedelement.py:63-65. *)
Fixpoint u_mapping (e : uel) : string :=
  match e with
  | UFinite d _ _ _ => ds_mapping d
  | UMixed _ subs =>
      if forallb (fun s => String.eqb (u_mapping s) "identity") subs then "identity" else "undefined"
  | UVector _ sub _ => u_mapping sub
  | UTensor _ sub _ sym _ _ => match sym with [] => u_mapping sub | _ => "symmetries" end
  | UTensorProduct _ subs _ =>
      if forallb (fun s => String.eqb (u_mapping s) "identity") subs then "identity"
      else if forallb (fun s => String.eqb (u_mapping s) "L2 Piola") subs then "L2 Piola"
      else "undefined"
  | UEnriched _ _ subs => match subs with [] => "undefined" | s :: _ => u_mapping s end
  | UHDiv _ _ => "contravariant Piola"
  | UHCurl _ _ => "covariant Piola"
  | UWithMapping _ m => m
  | UBroken _ sub | URestricted _ sub _ => u_mapping sub
  end.

(** [variant, = {...}] or None. *)
Definition common_variant (l : list (option string)) : option string :=
  match l with
  | [] => None
  | v :: r => if forallb (opt_eqb String.eqb v) r then v else None
  end.

(** variant(): finat/ufl/finiteelement.py:199-201, finat/ufl/finiteelementbase.py:103-105,
    finat/ufl/mixedelement.py:250-256, 335-337, 481-483, finat/ufl/tensorproductelement.py:112-118,
    finat/ufl/enrichedelement.py:80-86, finat/ufl/hdivcurl.py:73-75, 132-134, 224-226, finat/ufl/restrictedelement.py:111-113. *)
Fixpoint u_variant (e : uel) : option string :=
  match e with
  | UFinite _ _ _ v => v
  | UMixed _ subs | UTensorProduct _ subs _ | UEnriched _ _ subs => common_variant (map u_variant subs)
  | UVector _ sub _ | UTensor _ sub _ _ _ _ | UHDiv _ sub | UHCurl _ sub | UWithMapping sub _
  | URestricted _ sub _ => u_variant sub
  | UBroken _ _ => None
  end.

(** FiniteElement._repr, finat/ufl/finiteelement.py:163-175. *)
Definition finite_repr (d : description) (cell : option ucell) (scheme variant : option string) : string :=
  "FiniteElement(" ++ pyrepr (ds_family d) ++ ", " ++ ocell_repr cell ++ ", " ++ order_repr (ds_order d)
  ++ (match scheme with None => "" | Some s => ", quad_scheme=" ++ pyrepr s end)
  ++ (match variant with None => "" | Some v => ", variant=" ++ pyrepr v end) ++ ")".

(** [var_str], finat/ufl/mixedelement.py:318-321, 448-451; the variant is that of the
    sub-element, also when the sub-element is built from a family. *)
Definition var_str (v : option string) : string :=
  match v with None => "" | Some v => ", variant='" ++ v ++ "'" end.

(** [f"{symmetry}"]. *)
Definition symmetry_repr (sym : symmetry) : string :=
  "{" ++ String.concat ", " (map (fun ij => index_repr (fst ij) ++ ": " ++ index_repr (snd ij)) sym) ++ "}".

(** __repr__: finat/ufl/finiteelement.py:178-180, finat/ufl/mixedelement.py:76-78, 323-328, 453-455, 477-479,
    finat/ufl/tensorproductelement.py:66-68, finat/ufl/enrichedelement.py:118-120, 144-146, finat/ufl/hdivcurl.py:56-58, 115-117, 179-181,
    finat/ufl/brokenelement.py:30-32, finat/ufl/restrictedelement.py:39-41. *)
Fixpoint u_repr (e : uel) : string :=
  match e with
  | UFinite d cell scheme variant => finite_repr d cell scheme variant
  | UMixed _ subs => "MixedElement(" ++ String.concat ", " (map u_repr subs) ++ ")"
  | UVector _ sub n => "VectorElement(" ++ u_repr sub ++ ", dim=" ++ str_nat n ++ var_str (u_variant sub) ++ ")"
  | UTensor _ sub shape sym _ _ =>
      "TensorElement(" ++ u_repr sub ++ ", shape=" ++ index_repr shape ++ ", symmetry=" ++ symmetry_repr sym
      ++ var_str (u_variant sub) ++ ")"
  | UTensorProduct _ subs cell =>
      "TensorProductElement(" ++ String.concat ", " (map u_repr subs) ++ ", cell=" ++ cell_repr cell ++ ")"
  | UEnriched nodal _ subs =>
      (if nodal then "NodalEnrichedElement(" else "EnrichedElement(") ++ String.concat ", " (map u_repr subs) ++ ")"
  | UHDiv _ sub => "HDivElement(" ++ u_repr sub ++ ")"
  | UHCurl _ sub => "HCurlElement(" ++ u_repr sub ++ ")"
  | UWithMapping sub m => "WithMapping(" ++ u_repr sub ++ ", '" ++ m ++ "')"
  | UBroken _ sub => "BrokenElement(" ++ u_repr sub ++ ")"
  | URestricted _ sub domain => "RestrictedElement(" ++ u_repr sub ++ ", " ++ pyrepr domain ++ ")"
  end.

(** [type(self)]. *)
Definition u_class (e : uel) : string :=
  match e with
  | UFinite _ _ _ _ => "FiniteElement" | UMixed _ _ => "MixedElement" | UVector _ _ _ => "VectorElement"
  | UTensor _ _ _ _ _ _ => "TensorElement" | UTensorProduct _ _ _ => "TensorProductElement"
  | UEnriched nodal _ _ => if nodal then "NodalEnrichedElement" else "EnrichedElement"
  | UHDiv _ _ => "HDivElement" | UHCurl _ _ => "HCurlElement" | UWithMapping _ _ => "WithMapping"
  | UBroken _ _ => "BrokenElement" | URestricted _ _ _ => "RestrictedElement"
  end.

(** FiniteElementBase.__eq__, __hash__, finat/ufl/finiteelementbase.py:75-89; [md5] is the
    digest as an int (external). *)
Definition u_eqb (a b : uel) : bool := String.eqb (u_class a) (u_class b) && String.eqb (u_repr a) (u_repr b).
Definition u_hash (md5 : string -> Z) (e : uel) : Z := md5 (u_repr e).

(** ** Constructors *)

(** FiniteElement.__init__, finat/ufl/finiteelement.py:120-176, for a variant that is a
    string or None.  The fuel suffices for every name (C40_terminates). *)
Definition describe_name (family : string) (cell : option ucell) (degree : order) (form_degree : option Z)
    : result description :=
  match canonical builtins 3 family cell degree form_degree with Some r => r | None => Err ValueError end.
Definition plain_finite (family : string) (cell : option ucell) (degree : order) (form_degree : option Z)
    (scheme variant : option string) : result uel :=
  do d <- describe_name family cell degree form_degree ;;
  do! guard (negb (has_char dquote (finite_repr d cell scheme variant))) AssertionError ;;
  Ok (UFinite d cell scheme variant).

(** TensorProductElement.__init__, finat/ufl/tensorproductelement.py:32-64.  The product of
    cells of which one is None is refused by UFL with a ValueError. *)
Definition mk_tensor_product (elements : list uel) (cell : option ucell) : result uel :=
  match elements with
  | [] => Err ValueError
  | _ =>
      do cell <- match cell with
                 | None =>
                     do cs <- mapM (fun e => match u_cell e with None => Err ValueError | Some c => Ok c end) elements ;;
                     Ok (ProductCell cs)
                 | Some c => Ok c
                 end ;;
      let degree := DTuple (map u_degree elements) in
      let shape := flat_map u_shape elements in
      do! guard (Nat.leb (length shape) 1) ValueError ;;
      Ok (UTensorProduct (mkAttrs "TensorProductElement" (Some cell) degree None shape) elements cell)
  end.

(** [zip( *rows)]: columns up to the shortest row. *)
Fixpoint columns {A} (fuel : nat) (rows : list (list A)) : list (list A) :=
  match fuel with
  | 0 => []
  | S n =>
      match sequence (map (fun r => match r with [] => Err ValueError | x :: r => Ok (x, r) end) rows) with
      | Ok l => map fst l :: columns n (map snd l)
      | Err _ => []
      end
  end.

(** EnrichedElementBase.__init__, finat/ufl/enrichedelement.py:20-55. *)
Definition mk_enriched (nodal : bool) (elements : list uel) : result uel :=
  match elements with
  | [] => Err IndexError
  | e0 :: rest =>
      let cell := u_cell e0 in
      do! guard (forallb (fun e => opt_eqb ucell_eqb (u_cell e) cell) rest) ValueError ;;
      do degree <- match u_degree e0 with
                   | DInt _ => py_max (filter (fun d => negb (deg_eqb d DNone)) (map u_degree elements))
                   | _ =>
                       do rows <- mapM (fun e => match u_degree e with DTuple l => Ok l | _ => Err TypeError end) elements ;;
                       do l <- mapM py_max (columns (length (hd [] rows)) rows) ;;
                       Ok (DTuple l)
                   end ;;
      let schemes := flat_map (fun e => match u_scheme e with None => [] | Some s => [s] end) elements in
      let scheme := match schemes with [] => None | s :: _ => Some s end in
      do! guard (forallb (fun s => opt_eqb String.eqb (Some s) scheme) schemes) ValueError ;;
      let shape := u_shape e0 in
      do! guard (forallb (fun e => list_eqb Nat.eqb (u_shape e) shape) rest) ValueError ;;
      let class := if nodal then "NodalEnrichedElement" else "EnrichedElement" in
      Ok (UEnriched nodal (mkAttrs class cell degree scheme shape) elements)
  end.

(** HDivElement.__init__, HCurlElement.__init__, finat/ufl/hdivcurl.py:42-54, 100-113. *)
Definition wrapped_attrs (e : uel) : result attrs :=
  match u_cell e with
  | None => Err AttributeError
  | Some c => Ok (mkAttrs "TensorProductElement" (u_cell e) (u_degree e) (u_scheme e) [ucell_dim c])
  end.
Definition mk_hdiv (e : uel) : result uel := do a <- wrapped_attrs e ;; Ok (UHDiv a e).
Definition mk_hcurl (e : uel) : result uel := do a <- wrapped_attrs e ;; Ok (UHCurl a e).

(** WithMapping.__init__, finat/ufl/hdivcurl.py:164-169. *)
Definition mk_with_mapping (e : uel) (mapping : string) : result uel :=
  do! guard (negb (String.eqb mapping "symmetries")) ValueError ;; Ok (UWithMapping e mapping).

(** BrokenElement.__init__, finat/ufl/brokenelement.py:18-28. *)
Definition mk_broken (e : uel) : result uel :=
  Ok (UBroken (mkAttrs "BrokenElement" (u_cell e) (u_degree e) (u_scheme e) (u_shape e)) e).

(** RestrictedElement.__init__, finat/ufl/restrictedelement.py:17, 23-37. *)
Definition valid_restriction_domains : list string := ["interior"; "facet"; "face"; "edge"; "vertex"; "reduced"].
Definition mk_restricted (e : uel) (domain : string) : result uel :=
  do! guard (existsb (String.eqb domain) valid_restriction_domains) ValueError ;;
  Ok (URestricted (mkAttrs "RestrictedElement" (u_cell e) (u_degree e) (u_scheme e) (u_shape e)) e domain).

(** FiniteElement.__new__ and __init__ on a cell, finat/ufl/finiteelement.py:26-118. On a
    product cell some families become product elements; __init__ is then not called. *)
Definition two_cells (cs : list ucell) : result (ucell * ucell) :=
  match cs with [h; v] => Ok (h, v) | _ => Err ValueError end.
Definition expect_cells (cs : list ucell) (h v : string) : result unit :=
  do hv <- two_cells cs ;;
  let (ch, cv) := (hv : ucell * ucell) in
  do! guard (String.eqb (cell_name ch) h) ValueError ;;
  guard (String.eqb (cell_name cv) v) ValueError.
Definition simplex_name (c : ucell) : bool := existsb (String.eqb (cell_name c)) simplices.
Definition on_kind (family : string) (k : cellkind) (degree : order) (variant : option string) : result uel :=
  plain_finite family (Some (Named k)) degree None None variant.

Fixpoint finite_on (family : string) (c : ucell) (degree : order) (form_degree : option Z)
    (scheme variant : option string) : result uel :=
  match c with
  | Named _ => plain_finite family (Some c) degree form_degree scheme variant
  | ProductCell cs =>
      do d <- describe_name family (Some c) degree form_degree ;;
      let name := ds_family d in
      let p := ds_order d in
      let factors (f : ucell -> string) :=
        do es <- sequence (map (fun c' => finite_on (f c') c' p None None variant) cs) ;;
        mk_tensor_product es (Some c) in
      if String.eqb name "RTCF" || String.eqb name "RTCE" then
        do! expect_cells cs "interval" "interval" ;;
        do ce <- on_kind "CG" Interval p variant ;;
        do below <- minus_one p ;;
        do de <- on_kind "DG" Interval below variant ;;
        do cxd <- mk_tensor_product [ce; de] (Some c) ;;
        do dxc <- mk_tensor_product [de; ce] (Some c) ;;
        let wrap := if String.eqb name "RTCF" then mk_hdiv else mk_hcurl in
        do a <- wrap cxd ;;
        do b <- wrap dxc ;;
        mk_enriched false [a; b]
      else if String.eqb name "NCF" then
        do! expect_cells cs "quadrilateral" "interval" ;;
        do qc <- on_kind "RTCF" Quadrilateral p variant ;;
        do below <- minus_one p ;;
        do qd <- on_kind "DQ" Quadrilateral below variant ;;
        do id <- on_kind "DG" Interval below variant ;;
        do ic <- on_kind "CG" Interval p variant ;;
        do x <- mk_tensor_product [qc; id] (Some c) ;;
        do a <- mk_hdiv x ;;
        do y <- mk_tensor_product [qd; ic] (Some c) ;;
        do b <- mk_hdiv y ;;
        mk_enriched false [a; b]
      else if String.eqb name "NCE" then
        do! expect_cells cs "quadrilateral" "interval" ;;
        do qc <- on_kind "Q" Quadrilateral p variant ;;
        do qd <- on_kind "RTCE" Quadrilateral p variant ;;
        do below <- minus_one p ;;
        do id <- on_kind "DG" Interval below variant ;;
        do ic <- on_kind "CG" Interval p variant ;;
        do x <- mk_tensor_product [qc; id] (Some c) ;;
        do a <- mk_hcurl x ;;
        do y <- mk_tensor_product [qd; ic] (Some c) ;;
        do b <- mk_hcurl y ;;
        mk_enriched false [a; b]
      else if String.eqb name "Q" then factors (fun _ => "CG")
      else if String.eqb name "DQ" then factors (fun c' => if simplex_name c' then "DG" else "DQ")
      else if String.eqb name "DQ L2" then factors (fun c' => if simplex_name c' then "DG L2" else "DQ L2")
      else plain_finite family (Some c) degree form_degree scheme variant
  end.

Definition mk_finite (family : string) (cell : option ucell) (degree : order) (form_degree : option Z)
    (scheme variant : option string) : result uel :=
  match cell with
  | None => plain_finite family None degree form_degree scheme variant
  | Some c => finite_on family c degree form_degree scheme variant
  end.

(** MixedElement.__init__ from the list of elements on, finat/ufl/mixedelement.py:43-74.
    [shape]: the keyword reference_value_shape. *)
Definition mixed_attrs (elements : list uel) (shape : option (list nat)) : result attrs :=
  let cells := flat_map (fun e => match u_cell e with None => [] | Some c => [c] end) elements in
  do cell <- match cells with
             | [] => Ok None
             | c :: r => do! guard (forallb (ucell_eqb c) r) ValueError ;; Ok (Some c)
             end ;;
  do scheme <- match elements with
               | [] => Ok None
               | e :: _ =>
                   do! guard (forallb (fun e' => opt_eqb String.eqb (u_scheme e') (u_scheme e)) elements) ValueError ;;
                   Ok (u_scheme e)
               end ;;
  let shape := match shape with Some s => s | None => [sum (map (fun e => prod (u_shape e)) elements)] end in
  let degrees := filter (fun d => negb (deg_eqb d DNone)) (map u_degree elements) in
  do degree <- match degrees with [] => Ok DNone | _ => max_degree degrees end ;;
  Ok (mkAttrs "Mixed" cell degree scheme shape).
Definition mk_mixed (elements : list uel) : result uel :=
  do a <- mixed_attrs elements None ;; Ok (UMixed a elements).

(** Arguments of MixedElement: elements or nested lists, finat/ufl/mixedelement.py:36-42. *)
Inductive mixarg := One (e : uel) | Many (l : list mixarg).
Fixpoint mixed_arg (x : mixarg) : result uel :=
  match x with
  | One e => Ok e
  | Many l => do es <- sequence (map mixed_arg l) ;; mk_mixed es
  end.
Definition mk_mixed_args (args : list mixarg) : result uel :=
  match args with [Many l] => mixed_arg (Many l) | _ => mixed_arg (Many args) end.

(** VectorElement.__init__ with an element, finat/ufl/mixedelement.py:279-324.  With a family
    the sub-element is built first, by FiniteElement. *)
Definition mk_vector (sub : uel) (dim : option nat) : result uel :=
  do n <- match dim with
          | Some n => Ok n
          | None => match u_cell sub with None => Err ValueError | Some c => Ok (ucell_dim c) end
          end ;;
  let shape := n :: u_shape sub in
  do _ <- mixed_attrs (repeat sub n) (Some shape) ;;
  Ok (UVector (mkAttrs (at_family (u_attrs sub)) (u_cell sub) (u_degree sub) (u_scheme sub) shape) sub n).

(** ufl.permutation.compute_indices, np.ndindex (external): all indices, the last one fastest. *)
Definition compute_indices (shape : list nat) : list index := cart (map (seq 0) shape).

Definition index_eqb : index -> index -> bool := list_eqb Nat.eqb.

(** The argument [symmetry]: None, True or a dict (given by its assignments in order). *)
Inductive symarg := NoSym | AutoSym | SymDict (l : list (index * index)).

(** finat/ufl/mixedelement.py:388-398. *)
Definition symmetry_of (shape : list nat) (s : symarg) : result symmetry :=
  match s with
  | NoSym => Ok []
  | AutoSym =>
      match shape with
      | [m; n] =>
          do! guard (Nat.eqb m n) ValueError ;;
          Ok (flat_map (fun i => flat_map (fun j => if Nat.ltb j i then [([i; j], [j; i])] else []) (seq 0 n)) (seq 0 m))
      | _ => Err ValueError
      end
  | SymDict l => Ok (fold_left (fun d ij => dict_set index_eqb d (fst ij) (snd ij)) l [])
  end.

(** The validation, finat/ufl/mixedelement.py:400-406.  Simplification: entries are natural
    numbers; negative ones are a ValueError. *)
Fixpoint check_entries (i j shape : list nat) : result unit :=
  match i, j with
  | x :: i, y :: j =>
      match shape with
      | [] => Err IndexError
      | n :: shape => do! guard (Nat.ltb x n && Nat.ltb y n) ValueError ;; check_entries i j shape
      end
  | _, _ => Ok tt
  end.
Definition check_symmetry (shape : list nat) (sym : symmetry) : result unit :=
  do _ <- mapM (fun ij => do! guard (Nat.eqb (length (fst ij)) (length (snd ij))) ValueError ;;
                      check_entries (fst ij) (snd ij) shape) sym ;;
  Ok tt.

(** The numbering of sub-elements, finat/ufl/mixedelement.py:408-426. *)
Definition number_free (sym : symmetry) (indices : list index) : list (index * nat) * nat :=
  fold_left (fun acc i => let (d, n) := (acc : list (index * nat) * nat) in
               if dict_mem index_eqb sym i then (d, n) else (dict_set index_eqb d i n, S n)) indices ([], 0).
Definition number_symmetric (sym : symmetry) (indices : list index) (d : list (index * nat))
    : result (list (index * nat)) :=
  fold_left (fun acc i => do d <- acc ;;
               match dict_get index_eqb sym i with
               | Err _ => Ok d
               | Ok j => do n <- dict_get index_eqb d j ;; Ok (dict_set index_eqb d i n)
               end) indices (Ok d).

(** TensorElement.__init__ with an element, finat/ufl/mixedelement.py:366-455.
    Simplification: product(shape) - len(symmetry) is a natural number. *)
Definition mk_tensor (sub : uel) (shape : option (list nat)) (s : symarg) : result uel :=
  do shape <- match shape with
              | Some sh => Ok sh
              | None => match u_cell sub with
                        | None => Err ValueError
                        | Some c => Ok [ucell_dim c; ucell_dim c]
                        end
              end ;;
  do sym <- symmetry_of shape s ;;
  do! check_symmetry shape sym ;;
  let indices := compute_indices shape in
  let (d, n) := number_free sym indices in
  do numbers <- number_symmetric sym indices d ;;
  let ref := (match sym with [] => shape | _ => [prod shape - length sym] end ++ u_shape sub)%list in
  do a <- mixed_attrs (repeat sub n) (Some ref) ;;
  Ok (UTensor (mkAttrs (at_family (u_attrs sub)) (at_cell a) (u_degree sub) (at_scheme a) ref) sub shape sym numbers n).

(** The numbering used by TensorElement.pullback, finat/ufl/mixedelement.py:457-475. *)
Definition pullback_numbers (shape : list nat) (sym : symmetry) : list (index * nat) :=
  fst (fold_left (fun acc i =>
         let (d, n) := (acc : list (index * nat) * nat) in
         match dict_get index_eqb sym i with
         | Ok j => match dict_get index_eqb d j with
                   | Ok k => (dict_set index_eqb d i k, n)
                   | Err _ => (dict_set index_eqb d i n, S n)
                   end
         | Err _ => (dict_set index_eqb d i n, S n)
         end) (compute_indices shape) ([], 0)).

(** ** Methods *)

(** Keyword arguments of reconstruct. *)
Record kwargs := mkKwargs {
  kw_family : option string; kw_cell : option ucell; kw_degree : option order;
  kw_scheme : option string; kw_variant : option string; kw_mapping : option string
}.
Definition no_kwargs := mkKwargs None None None None None None.
Definition or_else {A} (o : option A) (x : A) : A := match o with Some y => y | None => x end.
Definition or_opt {A} (o o' : option A) : option A := match o with Some y => Some y | None => o' end.

(** reconstruct: finat/ufl/finiteelement.py:203-215, finat/ufl/mixedelement.py:246-248, 330-333, 520-523,
    finat/ufl/tensorproductelement.py:107-110, finat/ufl/enrichedelement.py:88-90, finat/ufl/hdivcurl.py:69-71, 128-130, 218-222,
    finat/ufl/brokenelement.py:43-45, finat/ufl/restrictedelement.py:71-74. *)
Fixpoint reconstruct (kw : kwargs) (e : uel) : result uel :=
  match e with
  | UFinite d cell scheme variant =>
      match kw_mapping kw with
      | Some _ => Err TypeError
      | None =>
          mk_finite (or_else (kw_family kw) (ds_family d)) (or_opt (kw_cell kw) cell)
            (or_else (kw_degree kw) (ds_order d)) None (or_opt (kw_scheme kw) scheme) (or_opt (kw_variant kw) variant)
      end
  | UMixed _ subs => do es <- sequence (map (reconstruct kw) subs) ;; mk_mixed es
  | UVector _ sub n => do s <- reconstruct kw sub ;; mk_vector s (Some n)
  | UTensor _ sub shape sym _ _ => do s <- reconstruct kw sub ;; mk_tensor s (Some shape) (SymDict sym)
  | UTensorProduct _ subs cell =>
      let kw' := mkKwargs (kw_family kw) None (kw_degree kw) (kw_scheme kw) (kw_variant kw) (kw_mapping kw) in
      do es <- sequence (map (reconstruct kw') subs) ;;
      mk_tensor_product es (Some (or_else (kw_cell kw) cell))
  | UEnriched nodal _ subs => do es <- sequence (map (reconstruct kw) subs) ;; mk_enriched nodal es
  | UHDiv _ sub => do s <- reconstruct kw sub ;; mk_hdiv s
  | UHCurl _ sub => do s <- reconstruct kw sub ;; mk_hcurl s
  | UWithMapping sub m =>
      let kw' := mkKwargs (kw_family kw) (kw_cell kw) (kw_degree kw) (kw_scheme kw) (kw_variant kw) None in
      do s <- reconstruct kw' sub ;; mk_with_mapping s (or_else (kw_mapping kw) m)
  | UBroken _ sub => do s <- reconstruct kw sub ;; mk_broken s
  | URestricted _ sub domain => do s <- reconstruct kw sub ;; mk_restricted s domain
  end.

(** MixedElement.reconstruct_from_elements, finat/ufl/mixedelement.py:84-88. *)
Definition reconstruct_from_elements (e : uel) (elements : list uel) : result uel :=
  if forallb (fun ab => u_eqb (fst ab) (snd ab)) (zip elements (u_subs e)) then Ok e
  else mk_mixed elements.

(** ** Sobolev spaces *)

(** The spaces that contain a predefined space of UFL (external). *)
Definition parents (s : sobolev) : list sobolev :=
  match s with
  | L2 => []
  | HDiv | HCurl | HEin | HDivDiv | HCurlDiv => [L2]
  | H1 => [HDiv; HCurl; L2]
  | H2 => [H1; HDiv; HCurl; L2]
  | HInf => [H2; H1; HDiv; HCurl; L2]
  end.
Definition sobolev_name (s : sobolev) : string :=
  match s with
  | L2 => "L2" | HDiv => "HDiv" | HCurl => "HCurl" | H1 => "H1" | H2 => "H2" | HInf => "HInf"
  | HEin => "HEin" | HDivDiv => "HDivDiv" | HCurlDiv => "HCurlDiv"
  end.
Definition sobolev_eqb (a b : sobolev) : bool := String.eqb (sobolev_name a) (sobolev_name b).
(** [_order]; None: infinity. *)
Definition sobolev_order (s : sobolev) : option nat :=
  match s with H1 => Some 1 | H2 => Some 2 | HInf => None | _ => Some 0 end.

(** EnrichedElementBase.sobolev_space, finat/ufl/enrichedelement.py:61-78, given the spaces of
    the summands. *)
Definition enriched_space (spaces : list sobolev) : result sobolev :=
  match spaces with
  | [] => Err IndexError
  | s0 :: rest =>
      if forallb (sobolev_eqb s0) spaces then Ok s0
      else
        let superspaces := map (fun s => s :: parents s) spaces in
        let intersect := filter (fun s => forallb (existsb (sobolev_eqb s)) superspaces) (s0 :: parents s0) in
        match filter (fun s => negb (existsb (fun t => existsb (sobolev_eqb s) (parents t)) intersect)) intersect with
        | [s] => Ok s
        | _ => Err ValueError
        end
  end.

(** A space: predefined, or DirectionalSobolevSpace with its orders. *)
Inductive uspace := Predefined (s : sobolev) | Directional (orders : list (option nat)).
Definition uspace_order (s : uspace) : option nat :=
  match s with Predefined s => sobolev_order s | Directional _ => Some 0 end.
Definition predefined (s : uspace) : result sobolev :=
  match s with Predefined s => Ok s | Directional _ => Err NotImplementedError end.

(** sobolev_space: finat/ufl/finiteelement.py:194-197, finat/ufl/tensorproductelement.py:79-95,
    finat/ufl/enrichedelement.py:61-78, finat/ufl/hdivcurl.py:64-67, 123-126, 210-216, finat/ufl/brokenelement.py:38-41,
    finat/ufl/restrictedelement.py:43-49.  Simplification: NotImplementedError stands for what is not
    modelled: mixed elements, and products or sums of directional spaces. *)
Fixpoint u_space (e : uel) : result uspace :=
  match e with
  | UFinite d _ _ _ => Ok (Predefined (ds_space d))
  | UMixed _ _ | UVector _ _ _ | UTensor _ _ _ _ _ _ => Err NotImplementedError
  | UTensorProduct _ subs _ =>
      do ss <- sequence (map u_space subs) ;;
      do ps <- mapM predefined ss ;;
      match ps with
      | [] => Err IndexError
      | s0 :: _ =>
          if forallb (sobolev_eqb s0) ps then Ok (Predefined s0)
          else
            do orders <- sequence (map2 (fun e s => match u_cell e with
                                                    | None => Err AttributeError
                                                    | Some c => Ok (repeat (sobolev_order s) (ucell_dim c))
                                                    end) subs ps) ;;
            Ok (Directional (concat orders))
      end
  | UEnriched _ _ subs =>
      do ss <- sequence (map u_space subs) ;;
      do ps <- mapM predefined ss ;;
      do s <- enriched_space ps ;; Ok (Predefined s)
  | UHDiv _ _ => Ok (Predefined HDiv)
  | UHCurl _ _ => Ok (Predefined HCurl)
  | UWithMapping sub m => if String.eqb (u_mapping sub) m then u_space sub else Ok (Predefined L2)
  | UBroken _ _ => Ok (Predefined L2)
  | URestricted _ sub domain => if String.eqb domain "interior" then Ok (Predefined L2) else u_space sub
  end.

(** ** Components *)

(** FiniteElementBase._check_reference_component, finat/ufl/finiteelementbase.py:170-177. *)
Definition check_reference_component (shape : list nat) (i : list Z) : result unit :=
  guard (Nat.eqb (length i) (length shape) && forallb (fun jk => Z.ltb (fst jk) (Z.of_nat (snd jk))) (zip i shape))
    ValueError.

(** ufl.utils.indexflattening (external): strides and the index of a flat position. *)
Fixpoint shape_to_strides (shape : list nat) : list nat :=
  match shape with [] => [] | _ :: r => prod r :: shape_to_strides r end.
Fixpoint unflatten_index (i : Z) (strides : list nat) : list Z :=
  match strides with
  | [] => []
  | s :: r => Z.div i (Z.of_nat s) :: unflatten_index (Z.modulo i (Z.of_nat s)) r
  end.

(** The loop over sub-elements, finat/ufl/mixedelement.py:196-203.  Without sub-elements the
    variables of the loop are unbound (AttributeError stands for UnboundLocalError). *)
Fixpoint find_subelement (k : nat) (shapes : list (list nat)) (j : Z) : result (nat * list nat * Z) :=
  match shapes with
  | [] => Err AttributeError
  | sh :: rest =>
      let si := Z.of_nat (prod sh) in
      if Z.ltb j si then Ok (k, sh, j)
      else match rest with
           | [] => Ok (k, sh, j - si)%Z
           | _ => find_subelement (S k) rest (j - si)
           end
  end.

(** MixedElement.extract_subelement_reference_component,
    finat/ufl/mixedelement.py:183-210, for an index given as a tuple. *)
Definition mixed_reference_component (subs : list uel) (shape : list nat) (i : list Z) : result (nat * list Z) :=
  do! check_reference_component shape i ;;
  do! guard (Nat.eqb (length shape) 1) AssertionError ;;
  match i with
  | [j] =>
      do kj <- find_subelement 0 (map u_shape subs) j ;;
      let '(k, sh, j) := (kj : nat * list nat * Z) in
      do! guard (negb (Z.ltb j 0)) ValueError ;;
      Ok (k, unflatten_index j (shape_to_strides sh))
  | _ => Err ValueError
  end.

(** extract_reference_component, finat/ufl/mixedelement.py:212-218,
    finat/ufl/finiteelementbase.py:189-197. *)
Fixpoint extract_reference_component (e : uel) (i : list Z) : result (list Z * uel) :=
  match e with
  | UMixed _ subs =>
      do kc <- mixed_reference_component subs (u_shape e) i ;;
      let (k, c) := (kc : nat * list Z) in
      nth k (map (fun s => extract_reference_component s c) subs) (Err IndexError)
  | UVector _ sub n | UTensor _ sub _ _ _ n =>
      do kc <- mixed_reference_component (repeat sub n) (u_shape e) i ;;
      let (k, c) := (kc : nat * list Z) in
      if Nat.ltb k n then extract_reference_component sub c else Err IndexError
  | _ => do! check_reference_component (u_shape e) i ;; Ok (i, e)
  end.

(** ** Embedded degrees *)

(** FiniteElement.embedded_subdegree, embedded_superdegree,
    finat/ufl/finiteelement.py:239-257. *)
Definition finite_bound (extreme : list udeg -> result udeg) (d : description) : result udeg :=
  do b <- match ds_order d with
          | Order z => Ok (DInt z)
          | Orders l => extreme (map DInt l)
          | NoOrder => Err TypeError
          end ;;
  match ds_embedded d with Order z => extreme [b; DInt z] | _ => Ok b end.

(** [getattr(e, "_element")], through __getattr__ of WithMapping. *)
Fixpoint inner_element (e : uel) : option uel :=
  match e with
  | UHDiv _ s | UHCurl _ s | UBroken _ s | URestricted _ s _ => Some s
  | UWithMapping s _ => inner_element s
  | _ => None
  end.

(** embedded_subdegree: finat/ufl/finiteelementbase.py:241-244, finat/ufl/mixedelement.py:236-239,
    finat/ufl/tensorproductelement.py:135-138, finat/ufl/enrichedelement.py:92-95, finat/ufl/hdivcurl.py:85-88, 144-147, 236-239,
    finat/ufl/brokenelement.py:55-58; RestrictedElement inherits that of the base class.  In WithMapping
    [self._element] is the wrapee's; where the wrapee has none, the AttributeError makes
    __getattr__ answer with the wrapee's embedded_subdegree.  [total] selects
    embedded_superdegree (finat/ufl/finiteelementbase.py:236-239, finat/ufl/mixedelement.py:241-244,
    finat/ufl/tensorproductelement.py:130-133, finat/ufl/enrichedelement.py:97-100, finat/ufl/hdivcurl.py:90-93, 149-152,
    241-244, finat/ufl/brokenelement.py:60-63).  Simplification: of several errors, which one comes
    first. *)
Fixpoint embedded (total : bool) (e : uel) : result udeg :=
  let extreme := if total then py_max else py_min in
  match e with
  | UFinite d _ _ _ => finite_bound extreme d
  | UMixed _ subs | UEnriched _ _ subs => do l <- sequence (map (embedded total) subs) ;; extreme l
  | UVector _ sub n | UTensor _ sub _ _ _ n =>
      match n with
      | 0 => Err ValueError
      | _ => do x <- embedded total sub ;; extreme (repeat x n)
      end
  | UTensorProduct a _ _ =>
      match at_degree a with
      | DTuple l => if total then py_sum l else py_min l
      | _ => Err TypeError
      end
  | UHDiv _ s | UHCurl _ s | UBroken _ s => embedded total s
  | UWithMapping s _ =>
      (fix through (s : uel) : result udeg :=
         match s with
         | UHDiv _ t | UHCurl _ t | UBroken _ t | URestricted _ t _ => embedded total t
         | UWithMapping t _ => match inner_element t with Some _ => through t | None => embedded total s end
         | _ => embedded total s
         end) s
  | URestricted a _ _ => Ok (at_degree a)
  end.
Definition embedded_subdegree := embedded false.
Definition embedded_superdegree := embedded true.
