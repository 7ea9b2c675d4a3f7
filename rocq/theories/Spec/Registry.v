(** What the names of finat/ufl/elementlist.py mean, stated without the module's dictionaries. *)
From Coq Require Import String List ZArith Bool.
From Verif Require Import Model.Prelude Model.Registry.
Import ListNotations.
Open Scope string_scope.

(** The second names of families. *)
Definition other_names : list (string * string) :=
  [("Lobatto", "Gauss-Lobatto-Legendre"); ("Lob", "Gauss-Lobatto-Legendre");
   ("Nedelec 1st kind H(div)", "Raviart-Thomas"); ("N1div", "Raviart-Thomas");
   ("Nedelec 2nd kind H(div)", "Brezzi-Douglas-Marini"); ("N2div", "Brezzi-Douglas-Marini");
   ("Discontinuous Lagrange Trace", "HDiv Trace"); ("DGT", "HDiv Trace");
   ("P", "Lagrange"); ("DP", "Discontinuous Lagrange"); ("DP L2", "Discontinuous Lagrange L2");
   ("RTE", "Nedelec 1st kind H(curl)"); ("N1E", "Nedelec 1st kind H(curl)");
   ("BDME", "Nedelec 2nd kind H(curl)"); ("N2E", "Nedelec 2nd kind H(curl)");
   ("RTF", "Raviart-Thomas"); ("N1F", "Raviart-Thomas");
   ("BDMF", "Brezzi-Douglas-Marini"); ("N2F", "Brezzi-Douglas-Marini")].

(** The four families of differential forms: on simplices and on cubes, trimmed and
    full. *)
Inductive complex := PMinus | PFull | QMinus | SFull.

(** The names of a complex, without the ending " L2". *)
Definition complex_names (c : complex) : list string :=
  match c with
  | PMinus => ["P- Lambda"; "P-"] | PFull => ["P Lambda"; "P"]
  | QMinus => ["Q- Lambda"; "Q-"] | SFull => ["S Lambda"; "S"]
  end.

(** The space of k-forms of degree [r] in dimension [n]: functions, densities (of degree
    one less in a trimmed complex; with the L2 pullback when [l2]), tangentially continuous
    fields for 1-forms, normally continuous fields for 2-forms in space. *)
Definition forms (c : complex) (l2 : bool) (n k : nat) (r : Z) : string * Z :=
  if Nat.eqb k 0 then (match c with PMinus | PFull => "Lagrange" | QMinus => "Q" | SFull => "S" end, r)
  else if Nat.eqb k n then
    ((match c with PMinus | PFull => "Discontinuous Lagrange" | QMinus => "DQ" | SFull => "DPC" end
      ++ (if l2 then " L2" else ""))%string,
     match c with PMinus | QMinus => (r - 1)%Z | _ => r end)
  else if Nat.eqb k 1 then
    (match c with
     | PMinus => "Nedelec 1st kind H(curl)" | PFull => "Nedelec 2nd kind H(curl)"
     | QMinus => if Nat.eqb n 2 then "RTCE" else "NCE"
     | SFull => if Nat.eqb n 2 then "BDMCE" else "AAE"
     end, r)
  else
    (match c with
     | PMinus => "Raviart-Thomas" | PFull => "Brezzi-Douglas-Marini" | QMinus => "NCF" | SFull => "AAF"
     end, r).

(** Every name of a complex. *)
Definition feec_names : list string :=
  flat_map (fun c => (complex_names c ++ map (fun s => String.append s " L2") (complex_names c))%list)
    [PMinus; PFull; QMinus; SFull].

(** An element call of the module. *)
Definition registered (d : family_data) : Prop :=
  In (Element (fd_family d) (fd_short d) (fd_rank d) (fd_space d) (fd_mapping d) (fd_range d) (fd_cells d))
    builtin_calls.

(** An order within a range; a tuple has every member in the range. *)
Definition within (lo hi : option Z) (z : Z) : Prop :=
  match lo with None => True | Some m => (m <= z)%Z end /\ match hi with None => True | Some m => (z <= m)%Z end.
Definition order_allowed (range : option (option Z * option Z)) (ord : order) : Prop :=
  match ord with
  | NoOrder => True
  | Order z => exists lo hi, range = Some (lo, hi) /\ within lo hi z
  | Orders l => exists lo hi, range = Some (lo, hi) /\ Forall (within lo hi) l
  end.

(** The cell is one of those named; no cell and product cells are not checked. *)
Definition cell_allowed (cells : cellnames) (cell : option ucell) : Prop :=
  match cell with
  | Some (Named k) =>
      match cells with Names l => In (Some (kind_name k)) l | Text s => kind_name k = s end
  | _ => True
  end.

(** The reference value shape: rank copies of the dimension of the cell. *)
Definition shape_of (rank : nat) (cell : option ucell) (shape : list nat) : Prop :=
  match cell with
  | Some c => shape = repeat (ucell_dim c) rank
  | None => rank = 0 /\ shape = []
  end.

(** Product cells: cubes other than the interval, and tensor products. *)
Definition product_cell (cell : option ucell) : bool :=
  match cell with
  | Some (ProductCell _) => true
  | Some (Named Quadrilateral) | Some (Named Hexahedron) | Some (Named Tesseract) => true
  | _ => false
  end.

(** The family used in place of a simplex family on product cells. *)
Definition on_product (family : string) : string :=
  if String.eqb family "Lagrange" then "Q"
  else if String.eqb family "Discontinuous Lagrange" then "DQ"
  else if String.eqb family "Discontinuous Lagrange L2" then "DQ L2"
  else family.

(** The degree recorded as embedded: the dimension for the bubble-enriched families. *)
Definition bubble_family (family : string) : Prop :=
  In family ["Bernardi-Raugel"; "Bernardi-Raugel Bubble"; "Guzman-Neilan 1st kind H1";
             "Guzman-Neilan 2nd kind H1"; "Guzman-Neilan H1(div)"; "Guzman-Neilan Bubble"].
Definition embedded_of (family : string) (cell : option ucell) (ord emb : order) : Prop :=
  (bubble_family family -> emb = match cell with Some c => Order (Z.of_nat (ucell_dim c)) | None => NoOrder end) /\
  (~ bubble_family family -> emb = ord).

(** What is returned for the registered family [d]. *)
Definition described (d : family_data) (cell : option ucell) (ord : order) (e : description) : Prop :=
  cell_allowed (fd_cells d) cell /\ order_allowed (fd_range d) ord /\
  ds_family e = (if product_cell cell then on_product (fd_family d) else fd_family d) /\
  ds_short e = fd_short d /\ ds_order e = ord /\ shape_of (fd_rank d) cell (ds_shape e) /\
  ds_space e = fd_space d /\ ds_mapping e = fd_mapping d /\
  embedded_of (ds_family e) cell ord (ds_embedded e).

(** The families whose order is compared with 1 on product cells. *)
Definition compared (d : family_data) (cell : option ucell) : Prop :=
  product_cell cell = true /\
  In (fd_family d) ["Discontinuous Lagrange"; "Discontinuous Lagrange L2"].
Definition is_int (ord : order) : Prop := exists z, ord = Order z.

(** Two descriptions of the same element: everything but the short name. *)
Definition same_element (a b : description) : Prop :=
  ds_family a = ds_family b /\ ds_order a = ds_order b /\ ds_shape a = ds_shape b /\
  ds_space a = ds_space b /\ ds_mapping a = ds_mapping b /\ ds_embedded a = ds_embedded b.

(** The names a call of a registration function writes to. *)
Definition names_of (c : registration) : list string :=
  match c with
  | Element f s _ _ _ _ _ => f :: match s with Some s => [s] | None => [] end
  | Alias a _ => [a]
  end.

(** The short names given in a call. *)
Definition short_names (c : registration) : list string :=
  match c with Element _ (Some s) _ _ _ _ _ => [s] | _ => [] end.
(** The alias given in a call. *)
Definition alias_names (c : registration) : list string :=
  match c with Alias a _ => [a] | _ => [] end.

(** The pullbacks of the mappings used by the registered families. *)
Definition pullback_names : list (string * upullback) :=
  [("identity", PIdentity); ("L2 Piola", PL2); ("covariant Piola", PCovariant);
   ("contravariant Piola", PContravariant); ("double covariant Piola", PDoubleCovariant);
   ("double contravariant Piola", PDoubleContravariant);
   ("covariant contravariant Piola", PCovariantContravariant); ("custom", PCustom); ("physical", PPhysical)].
