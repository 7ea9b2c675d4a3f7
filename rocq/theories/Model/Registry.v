(** The list of element families, finat/ufl/elementlist.py. *)
From Coq Require Import String List ZArith Bool.
From Verif Require Import Model.Prelude.
Import ListNotations.
Open Scope string_scope.

(** The cells of UFL (external): the named cells, and tensor products of cells. *)
Inductive cellkind :=
| Vertex | Interval | Triangle | Quadrilateral | Tetrahedron | Prism | Pyramid | Hexahedron
| Pentatope | Tesseract.
Inductive ucell := Named (k : cellkind) | ProductCell (cs : list ucell).

(** [Cell.cellname()]. *)
Definition kind_name (k : cellkind) : string :=
  match k with
  | Vertex => "vertex" | Interval => "interval" | Triangle => "triangle"
  | Quadrilateral => "quadrilateral" | Tetrahedron => "tetrahedron" | Prism => "prism"
  | Pyramid => "pyramid" | Hexahedron => "hexahedron" | Pentatope => "pentatope"
  | Tesseract => "tesseract"
  end.
Definition kind_dim (k : cellkind) : nat :=
  match k with
  | Vertex => 0 | Interval => 1 | Triangle | Quadrilateral => 2
  | Tetrahedron | Prism | Pyramid | Hexahedron => 3 | Pentatope | Tesseract => 4
  end.

(** [cell.topological_dimension()]. *)
Fixpoint ucell_dim (c : ucell) : nat :=
  match c with
  | Named k => kind_dim k
  | ProductCell cs => fold_right (fun c n => ucell_dim c + n) 0 cs
  end.

(** The predefined Sobolev spaces of UFL (external) that the list uses. *)
Inductive sobolev := L2 | HDiv | HCurl | H1 | H2 | HInf | HEin | HDivDiv | HCurlDiv.

(** The [order] argument: None, an int or a tuple of ints. *)
Inductive order := NoOrder | Order (r : Z) | Orders (rs : list Z).

(** [cellnames]: a tuple whose members are names or None, or a plain string (which
    Python then searches for a substring), as at finat/ufl/elementlist.py:109. *)
Inductive cellnames := Names (l : list (option string)) | Text (s : string).

(** One entry of [ufl_elements], finat/ufl/elementlist.py:41-45. *)
Record family_data := mkFamily {
  fd_family : string; fd_short : option string; fd_rank : nat; fd_space : sobolev; fd_mapping : string;
  fd_range : option (option Z * option Z); fd_cells : cellnames
}.

(** An alias: a function of family, dimension, order and form degree. *)
Definition alias_fn := string -> nat -> order -> option Z -> result (string * order).

(** The module's dictionaries, finat/ufl/elementlist.py:29, 32. *)
Record registry := mkRegistry {
  ufl_elements : list (string * family_data); aliases : list (string * alias_fn)
}.

(** register_element, finat/ufl/elementlist.py:36-45. *)
Definition register_element (r : registry) (family : string) (short : option string) (rank : nat)
    (space : sobolev) (mapping : string) (range : option (option Z * option Z)) (cells : cellnames)
    : result registry :=
  if dict_mem String.eqb (ufl_elements r) family then Err ValueError
  else
    let d := mkFamily family short rank space mapping range cells in
    let e := dict_set String.eqb (ufl_elements r) family d in
    let e := match short with None => e | Some s => dict_set String.eqb e s d end in
    Ok (mkRegistry e (aliases r)).

(** register_alias, finat/ufl/elementlist.py:48-50. *)
Definition register_alias (r : registry) (alias : string) (to : alias_fn) : registry :=
  mkRegistry (ufl_elements r) (dict_set String.eqb (aliases r) alias to).

(** A call of one of the two registration functions, and a sequence of calls. *)
Inductive registration :=
| Element (family : string) (short : option string) (rank : nat) (space : sobolev) (mapping : string)
    (range : option (option Z * option Z)) (cells : cellnames)
| Alias (alias : string) (to : alias_fn).
Definition register (r : registry) (c : registration) : result registry :=
  match c with
  | Element f s v sp m k cs => register_element r f s v sp m k cs
  | Alias a t => Ok (register_alias r a t)
  end.
Fixpoint register_all (r : registry) (cs : list registration) : result registry :=
  match cs with
  | [] => Ok r
  | c :: cs => do r <- register r c ;; register_all r cs
  end.

(** Cell groups, finat/ufl/elementlist.py:78-80. *)
Definition simplices : list string := ["interval"; "triangle"; "tetrahedron"; "pentatope"].
Definition cubes : list string := ["interval"; "quadrilateral"; "hexahedron"; "tesseract"].
Definition any_cell : list (option string) :=
  None :: Some "vertex" :: map Some simplices ++ map Some (tl cubes) ++ [Some "prism"; Some "pyramid"].

(** [r - 1]. *)
Definition minus_one (r : order) : result order :=
  match r with Order z => Ok (Order (z - 1)) | _ => Err TypeError end.

(** [t[i]] for a tuple and an int: negative positions count from the end. *)
Definition py_item {A} (l : list A) (i : Z) : result A :=
  let n := Z.of_nat (length l) in
  let j := (if i <? 0 then i + n else i)%Z in
  if ((0 <=? j) && (j <? n))%Z
  then match nth_error l (Z.to_nat j) with Some x => Ok x | None => Err IndexError end
  else Err IndexError.

(** [table[n - 1][k]] with [n], [k] an int or None. *)
Definition table_item {A} (t : list (list A)) (n : option nat) (k : option Z) : result A :=
  match n with
  | None => Err TypeError
  | Some n =>
      do row <- py_item t (Z.of_nat n - 1) ;;
      match k with None => Err TypeError | Some k => py_item row k end
  end.

(** The dictionary of feec_element, finat/ufl/elementlist.py:280-308; [r] and [p] are
    r and r - 1. *)
Definition feec_table (r p : order) : list (string * list (list (string * order))) :=
  let pm := [[("P", r); ("DP", p)];
             [("P", r); ("RTE", r); ("DP", p)];
             [("P", r); ("N1E", r); ("N1F", r); ("DP", p)]] in
  let pf := [[("P", r); ("DP", r)];
             [("P", r); ("BDME", r); ("DP", r)];
             [("P", r); ("N2E", r); ("N2F", r); ("DP", r)]] in
  let qm := [[("Q", r); ("DQ", p)];
             [("Q", r); ("RTCE", r); ("DQ", p)];
             [("Q", r); ("NCE", r); ("NCF", r); ("DQ", p)]] in
  let s := [[("S", r); ("DPC", r)];
            [("S", r); ("BDMCE", r); ("DPC", r)];
            [("S", r); ("AAE", r); ("AAF", r); ("DPC", r)]] in
  [("P- Lambda", pm); ("P Lambda", pf); ("Q- Lambda", qm); ("S Lambda", s);
   ("P-", pm); ("P", pf); ("Q-", qm); ("S", s)].

(** The dictionary of feec_element_l2, finat/ufl/elementlist.py:327-355. *)
Definition feec_table_l2 (r p : order) : list (string * list (list (string * order))) :=
  let pm := [[("P", r); ("DP L2", p)];
             [("P", r); ("RTE", r); ("DP L2", p)];
             [("P", r); ("N1E", r); ("N1F", r); ("DP L2", p)]] in
  let pf := [[("P", r); ("DP L2", r)];
             [("P", r); ("BDME", r); ("DP L2", r)];
             [("P", r); ("N2E", r); ("N2F", r); ("DP L2", r)]] in
  let qm := [[("Q", r); ("DQ L2", p)];
             [("Q", r); ("RTCE", r); ("DQ L2", p)];
             [("Q", r); ("NCE", r); ("NCF", r); ("DQ L2", p)]] in
  let s := [[("S", r); ("DPC L2", r)];
            [("S", r); ("BDMCE", r); ("DPC L2", r)];
            [("S", r); ("AAE", r); ("AAF", r); ("DPC L2", r)]] in
  [("P- Lambda L2", pm); ("P Lambda L2", pf); ("Q- Lambda L2", qm); ("S Lambda L2", s);
   ("P- L2", pm); ("P L2", pf); ("Q- L2", qm); ("S L2", s)].

(** feec_element, finat/ufl/elementlist.py:268-312, and feec_element_l2, 315-359.  The
    dictionary is built before it is searched, so r - 1 is computed in every case. *)
Definition feec (table : order -> order -> list (string * list (list (string * order))))
    (family : string) (n : option nat) (r : order) (k : option Z) : result (string * order) :=
  do p <- minus_one r ;;
  do t <- dict_get String.eqb (table r p) family ;;
  table_item t n k.
Definition feec_element := feec feec_table.
Definition feec_element_l2 := feec feec_table_l2.

(** The aliases: a constant name with the same order, or one of the two FEEC functions. *)
Definition to_name (name : string) : alias_fn := fun _ _ r _ => Ok (name, r).
Definition to_feec : alias_fn := fun f n r k => feec_element f (Some n) r k.
Definition to_feec_l2 : alias_fn := fun f n r k => feec_element_l2 f (Some n) r k.

(** The registrations of the module, finat/ufl/elementlist.py:84-262, 362-376, in the
    order of the file. *)
Definition builtin_calls : list registration :=
   [Element "Lagrange" (Some "CG") 0 H1 "identity" (Some (Some 1, None)%Z)
      (Names any_cell);
    Element "Brezzi-Douglas-Marini" (Some "BDM") 1 HDiv "contravariant Piola" (Some (Some 1, None)%Z)
      (Names (map Some (tl simplices)));
    Element "Discontinuous Lagrange" (Some "DG") 0 L2 "identity" (Some (Some 0, None)%Z)
      (Names any_cell);
    Element "Discontinuous Taylor" (Some "TDG") 0 L2 "identity" (Some (Some 0, None)%Z)
      (Names (map Some simplices));
    Element "Nedelec 1st kind H(curl)" (Some "N1curl") 1 HCurl "covariant Piola" (Some (Some 1, None)%Z)
      (Names (map Some (tl simplices)));
    Element "Nedelec 2nd kind H(curl)" (Some "N2curl") 1 HCurl "covariant Piola" (Some (Some 1, None)%Z)
      (Names (map Some (tl simplices)));
    Element "Raviart-Thomas" (Some "RT") 1 HDiv "contravariant Piola" (Some (Some 1, None)%Z)
      (Names (map Some (tl simplices)));
    Element "Brezzi-Douglas-Fortin-Marini" (Some "BDFM") 1 HDiv "contravariant Piola" (Some (Some 1, None)%Z)
      (Names (map Some (tl simplices)));
    Element "Crouzeix-Raviart" (Some "CR") 0 L2 "identity" (Some (Some 1, Some 1)%Z)
      (Names (map Some (tl simplices)));
    Element "Discontinuous Raviart-Thomas" (Some "DRT") 1 L2 "contravariant Piola" (Some (Some 1, None)%Z)
      (Names (map Some (tl simplices)));
    Element "Kong-Mulder-Veldhuizen" (Some "KMV") 0 H1 "identity" (Some (Some 1, None)%Z)
      (Names (map Some (tl simplices)));
    Element "Regge" (Some "Regge") 2 HEin "double covariant Piola" (Some (Some 0, None)%Z)
      (Names (map Some simplices));
    Element "Hellan-Herrmann-Johnson" (Some "HHJ") 2 HDivDiv "double contravariant Piola" (Some (Some 0, None)%Z)
      (Names [Some "triangle"; Some "tetrahedron"]);
    Element "Gopalakrishnan-Lederer-Schoberl 1st kind" (Some "GLS") 2 HCurlDiv "covariant contravariant Piola" (Some (Some 1, None)%Z)
      (Names (map Some (tl simplices)));
    Element "Gopalakrishnan-Lederer-Schoberl 2nd kind" (Some "GLS2") 2 HCurlDiv "covariant contravariant Piola" (Some (Some 0, None)%Z)
      (Names (map Some (tl simplices)));
    Element "Nonconforming Arnold-Winther" (Some "AWnc") 2 HDiv "double contravariant Piola" (Some (Some 2, Some 2)%Z)
      (Names [Some "triangle"]);
    Element "Conforming Arnold-Winther" (Some "AWc") 2 HDiv "double contravariant Piola" (Some (Some 3, None)%Z)
      (Names [Some "triangle"]);
    Element "Hu-Zhang" (Some "HZ") 2 HDiv "double contravariant Piola" (Some (Some 3, None)%Z)
      (Text "triangle");
    Element "Bernardi-Raugel" (Some "BR") 1 H1 "contravariant Piola" (Some (Some 1, None)%Z)
      (Names (map Some (tl simplices)));
    Element "Bernardi-Raugel Bubble" (Some "BRB") 1 H1 "contravariant Piola" (Some (None, None)%Z)
      (Names (map Some (tl simplices)));
    Element "Mardal-Tai-Winther" (Some "MTW") 1 H1 "contravariant Piola" (Some (Some 3, Some 3)%Z)
      (Names [Some "triangle"]);
    Element "Hermite" (Some "HER") 0 H1 "custom" (Some (Some 3, Some 3)%Z)
      (Names (map Some simplices));
    Element "Argyris" (Some "ARG") 0 H2 "custom" (Some (Some 5, None)%Z)
      (Names [Some "triangle"]);
    Element "Bell" (Some "BELL") 0 H2 "custom" (Some (Some 5, Some 5)%Z)
      (Names [Some "triangle"]);
    Element "Morley" (Some "MOR") 0 H2 "custom" (Some (Some 2, Some 2)%Z)
      (Names [Some "triangle"]);
    Element "QuadraticPowellSabin6" (Some "PS6") 0 H2 "custom" (Some (Some 2, Some 2)%Z)
      (Names [Some "triangle"]);
    Element "QuadraticPowellSabin12" (Some "PS12") 0 H2 "custom" (Some (Some 2, Some 2)%Z)
      (Names [Some "triangle"]);
    Element "Hsieh-Clough-Tocher" (Some "HCT") 0 H2 "custom" (Some (Some 3, None)%Z)
      (Names [Some "triangle"]);
    Element "Reduced-Hsieh-Clough-Tocher" (Some "HCT-red") 0 H2 "custom" (Some (Some 3, Some 3)%Z)
      (Names [Some "triangle"]);
    Element "Johnson-Mercier" (Some "JM") 2 HDiv "double contravariant Piola" (Some (Some 1, Some 1)%Z)
      (Names (map Some (tl simplices)));
    Element "Arnold-Qin" (Some "AQ") 1 H1 "identity" (Some (Some 2, Some 2)%Z)
      (Names [Some "triangle"]);
    Element "Reduced-Arnold-Qin" (Some "AQ-red") 1 H1 "contravariant Piola" (Some (Some 2, Some 2)%Z)
      (Names [Some "triangle"]);
    Element "Christiansen-Hu" (Some "CH") 1 H1 "contravariant Piola" (Some (Some 1, Some 1)%Z)
      (Names (map Some (tl simplices)));
    Element "Alfeld-Sorokina" (Some "AS") 1 H1 "contravariant Piola" (Some (Some 2, Some 2)%Z)
      (Names (map Some (tl simplices)));
    Element "Guzman-Neilan 1st kind H1" (Some "GN") 1 H1 "contravariant Piola" (Some (Some 1, None)%Z)
      (Names (map Some (tl simplices)));
    Element "Guzman-Neilan 2nd kind H1" (Some "GN2") 1 H1 "contravariant Piola" (Some (Some 1, None)%Z)
      (Names (map Some (tl simplices)));
    Element "Guzman-Neilan H1(div)" (Some "GNH1div") 1 H1 "contravariant Piola" (Some (Some 2, None)%Z)
      (Names (map Some (tl simplices)));
    Element "Guzman-Neilan Bubble" (Some "GNB") 1 H1 "contravariant Piola" (Some (None, None)%Z)
      (Names (map Some (tl simplices)));
    Element "Boundary Quadrature" (Some "BQ") 0 L2 "identity" (Some (Some 0, None)%Z)
      (Names any_cell);
    Element "Bubble" (Some "B") 0 H1 "identity" (Some (Some 2, None)%Z)
      (Names (map Some simplices));
    Element "FacetBubble" (Some "FB") 0 H1 "identity" (Some (Some 2, None)%Z)
      (Names (map Some simplices));
    Element "Quadrature" (Some "Quadrature") 0 L2 "identity" (Some (Some 0, None)%Z)
      (Names any_cell);
    Element "Real" (Some "R") 0 HInf "identity" (Some (Some 0, Some 0)%Z)
      (Names (any_cell ++ [Some "TensorProductCell"]));
    Element "Undefined" (Some "U") 0 L2 "identity" (Some (Some 0, None)%Z)
      (Names any_cell);
    Element "Radau" (Some "Rad") 0 L2 "identity" (Some (Some 0, None)%Z)
      (Names [Some "interval"]);
    Element "HDiv Trace" (Some "HDivT") 0 L2 "identity" (Some (Some 0, None)%Z)
      (Names any_cell);
    Element "Gauss-Legendre" (Some "GL") 0 L2 "identity" (Some (Some 0, None)%Z)
      (Names [Some "interval"]);
    Element "Gauss-Lobatto-Legendre" (Some "GLL") 0 H1 "identity" (Some (Some 1, None)%Z)
      (Names [Some "interval"]);
    Alias "Lobatto" (to_name "Gauss-Lobatto-Legendre");
    Alias "Lob" (to_name "Gauss-Lobatto-Legendre");
    Element "Bernstein" None 0 H1 "identity" (Some (Some 1, None)%Z)
      (Names (map Some simplices));
    Alias "Nedelec 1st kind H(div)" (to_name "Raviart-Thomas");
    Alias "N1div" (to_name "Raviart-Thomas");
    Alias "Nedelec 2nd kind H(div)" (to_name "Brezzi-Douglas-Marini");
    Alias "N2div" (to_name "Brezzi-Douglas-Marini");
    Alias "Discontinuous Lagrange Trace" (to_name "HDiv Trace");
    Alias "DGT" (to_name "HDiv Trace");
    Element "Q" None 0 H1 "identity" (Some (Some 1, None)%Z)
      (Names (map Some cubes));
    Element "DQ" None 0 L2 "identity" (Some (Some 0, None)%Z)
      (Names (map Some cubes));
    Element "RTCE" None 1 HCurl "covariant Piola" (Some (Some 1, None)%Z)
      (Names [Some "quadrilateral"]);
    Element "RTCF" None 1 HDiv "contravariant Piola" (Some (Some 1, None)%Z)
      (Names [Some "quadrilateral"]);
    Element "NCE" None 1 HCurl "covariant Piola" (Some (Some 1, None)%Z)
      (Names [Some "hexahedron"]);
    Element "NCF" None 1 HDiv "contravariant Piola" (Some (Some 1, None)%Z)
      (Names [Some "hexahedron"]);
    Element "S" None 0 H1 "identity" (Some (Some 1, None)%Z)
      (Names (map Some cubes));
    Element "DPC" None 0 L2 "identity" (Some (Some 0, None)%Z)
      (Names (map Some cubes));
    Element "BDMCE" None 1 HCurl "covariant Piola" (Some (Some 1, None)%Z)
      (Names [Some "quadrilateral"]);
    Element "BDMCF" None 1 HDiv "contravariant Piola" (Some (Some 1, None)%Z)
      (Names [Some "quadrilateral"]);
    Element "SminusE" (Some "SminusE") 1 HCurl "covariant Piola" (Some (Some 1, None)%Z)
      (Names (map Some (firstn 2 (tl cubes))));
    Element "SminusF" (Some "SminusF") 1 HDiv "contravariant Piola" (Some (Some 1, None)%Z)
      (Names (map Some (firstn 1 (tl cubes))));
    Element "SminusDiv" (Some "SminusDiv") 1 HDiv "contravariant Piola" (Some (Some 1, None)%Z)
      (Names (map Some (firstn 2 (tl cubes))));
    Element "SminusCurl" (Some "SminusCurl") 1 HCurl "covariant Piola" (Some (Some 1, None)%Z)
      (Names (map Some (firstn 2 (tl cubes))));
    Element "AAE" None 1 HCurl "covariant Piola" (Some (Some 1, None)%Z)
      (Names [Some "hexahedron"]);
    Element "AAF" None 1 HDiv "contravariant Piola" (Some (Some 1, None)%Z)
      (Names [Some "hexahedron"]);
    Alias "P" (to_name "Lagrange");
    Alias "DP" (to_name "Discontinuous Lagrange");
    Alias "RTE" (to_name "Nedelec 1st kind H(curl)");
    Alias "RTF" (to_name "Raviart-Thomas");
    Alias "N1E" (to_name "Nedelec 1st kind H(curl)");
    Alias "N1F" (to_name "Raviart-Thomas");
    Alias "BDME" (to_name "Nedelec 2nd kind H(curl)");
    Alias "BDMF" (to_name "Brezzi-Douglas-Marini");
    Alias "N2E" (to_name "Nedelec 2nd kind H(curl)");
    Alias "N2F" (to_name "Brezzi-Douglas-Marini");
    Element "DPC L2" None 0 L2 "L2 Piola" (Some (Some 1, None)%Z)
      (Names (map Some cubes));
    Element "DQ L2" None 0 L2 "L2 Piola" (Some (Some 0, None)%Z)
      (Names (map Some cubes));
    Element "Gauss-Legendre L2" (Some "GL L2") 0 L2 "L2 Piola" (Some (Some 0, None)%Z)
      (Names [Some "interval"]);
    Element "Discontinuous Lagrange L2" (Some "DG L2") 0 L2 "L2 Piola" (Some (Some 0, None)%Z)
      (Names any_cell);
    Alias "DP L2" (to_name "Discontinuous Lagrange L2");
    Alias "P- Lambda L2" to_feec_l2;
    Alias "P Lambda L2" to_feec_l2;
    Alias "Q- Lambda L2" to_feec_l2;
    Alias "S Lambda L2" to_feec_l2;
    Alias "P- L2" to_feec_l2;
    Alias "Q- L2" to_feec_l2;
    Element "Extended-Gauss-Legendre" (Some "EGL") 0 H1 "identity" (Some (Some 2, None)%Z)
      (Names [Some "interval"]);
    Element "Extended-Gauss-Legendre Edge" (Some "EGL-Edge") 0 L2 "identity" (Some (Some 1, None)%Z)
      (Names [Some "interval"]);
    Element "Extended-Gauss-Legendre Edge L2" (Some "EGL-Edge L2") 0 L2 "L2 Piola" (Some (Some 1, None)%Z)
      (Names [Some "interval"]);
    Element "Gauss-Lobatto-Legendre Edge" (Some "GLL-Edge") 0 L2 "identity" (Some (Some 0, None)%Z)
      (Names [Some "interval"]);
    Element "Gauss-Lobatto-Legendre Edge L2" (Some "GLL-Edge L2") 0 L2 "L2 Piola" (Some (Some 0, None)%Z)
      (Names [Some "interval"]);
    Element "Direct Serendipity" (Some "Sdirect") 0 H1 "physical" (Some (Some 1, None)%Z)
      (Names [Some "quadrilateral"]);
    Element "Direct Serendipity Full H(div)" (Some "Sdirect H(div)") 1 HDiv "physical" (Some (Some 1, None)%Z)
      (Names [Some "quadrilateral"]);
    Element "Direct Serendipity Reduced H(div)" (Some "Sdirect H(div) red") 1 HDiv "physical" (Some (Some 1, None)%Z)
      (Names [Some "quadrilateral"]);
    Alias "P- Lambda" to_feec;
    Alias "P Lambda" to_feec;
    Alias "Q- Lambda" to_feec;
    Alias "S Lambda" to_feec;
    Alias "P-" to_feec;
    Alias "Q-" to_feec].

(** The registry after the module has been imported. *)
Definition builtins : registry :=
  match register_all (mkRegistry [] []) builtin_calls with Ok r => r | Err _ => mkRegistry [] [] end.

(** [sub in s] for strings. *)
Definition substring_of (sub s : string) : bool :=
  match String.index 0 sub s with Some _ => true | None => false end.

(** [cellname in cellnames] for a name that is not None. *)
Definition cell_listed (n : string) (c : cellnames) : bool :=
  match c with
  | Names l => existsb (fun o => match o with Some m => String.eqb n m | None => false end) l
  | Text s => substring_of n s
  end.

(** [(asarray(order) >= k).all()] and [<=]; None has been excluded by the caller. *)
Definition order_all (p : Z -> bool) (r : order) : bool :=
  match r with NoOrder => true | Order z => p z | Orders l => forallb p l end.

(** What canonical_element_description returns. *)
Record description := mkDescription {
  ds_family : string; ds_short : option string; ds_order : order; ds_shape : list nat;
  ds_space : sobolev; ds_mapping : string; ds_embedded : order
}.

(** The loop over the aliases, finat/ufl/elementlist.py:408-411.  [fuel] bounds the
    number of tests of the loop condition; None means that it is not reached. *)
Fixpoint resolve (r : registry) (fuel : nat) (tdim : option nat) (family : string) (ord : order)
    (k : option Z) : option (result (string * order)) :=
  match fuel with
  | 0 => None
  | S fuel =>
      match dict_get String.eqb (aliases r) family with
      | Err _ => Some (Ok (family, ord))
      | Ok to =>
          match tdim with
          | None => Some (Err ValueError)
          | Some n =>
              match to family n ord k with
              | Err e => Some (Err e)
              | Ok (family, ord) => resolve r fuel tdim family ord k
              end
          end
      end
  end.

(** [order >= 1] guarding the warnings, finat/ufl/elementlist.py:426, 430. *)
Definition order_at_least_one (r : order) : result unit :=
  match r with Order _ => Ok tt | _ => Err TypeError end.

(** The name used on product cells, finat/ufl/elementlist.py:421-433. *)
Definition product_name (family : string) (ord : order) : result string :=
  if String.eqb family "Lagrange" then Ok "Q"
  else if String.eqb family "Discontinuous Lagrange" then
    do! order_at_least_one ord ;; Ok "DQ"
  else if String.eqb family "Discontinuous Lagrange L2" then
    do! order_at_least_one ord ;; Ok "DQ L2"
  else Ok family.

(** canonical_element_description from the catalogue look-up on,
    finat/ufl/elementlist.py:413-468. *)
Definition describe (r : registry) (cell : option ucell) (family : string) (ord : order)
    : result description :=
  let tdim := option_map ucell_dim cell in
  let cellname := match cell with Some (Named k) => Some (kind_name k) | _ => None end in
  match dict_get String.eqb (ufl_elements r) family with
  | Err _ => Err ValueError
  | Ok d =>
      let product :=
        match cell with
        | Some (ProductCell _) => true
        | Some (Named k) =>
            existsb (String.eqb (kind_name k)) cubes && negb (existsb (String.eqb (kind_name k)) simplices)
        | None => false
        end in
      do family <- (if product then product_name (fd_family d) ord else Ok (fd_family d)) ;;
      do! guard (match cellname with None => true | Some n => cell_listed n (fd_cells d) end) ValueError ;;
      do! match ord with
          | NoOrder => Ok tt
          | _ =>
              match fd_range d with
              | None => Err ValueError
              | Some (kmin, kmax) =>
                  do! guard (match kmin with None => true | Some m => order_all (Z.leb m) ord end) ValueError ;;
                  guard (match kmax with None => true | Some m => order_all (fun z => Z.leb z m) ord end) ValueError
              end
          end ;;
      do shape <- match fd_rank d with
                  | 2 => match tdim with None => Err ValueError | Some n => Ok [n; n] end
                  | 1 => match tdim with None => Err ValueError | Some n => Ok [n] end
                  | 0 => Ok []
                  | _ => Err ValueError
                  end ;;
      let embedded :=
        if substring_of "Guzman-Neilan" family || substring_of "Bernardi-Raugel" family
        then match tdim with None => NoOrder | Some n => Order (Z.of_nat n) end
        else ord in
      Ok (mkDescription family (fd_short d) ord shape (fd_space d) (fd_mapping d) embedded)
  end.

(** FEEC notation "P", "S", "P L2", "S L2" with a form degree,
    finat/ufl/elementlist.py:400-405. *)
Definition catch_feec (tdim : option nat) (family : string) (ord : order) (k : option Z)
    : result (string * order) :=
  match k with
  | None => Ok (family, ord)
  | Some _ =>
      do fr <- (if String.eqb family "P" || String.eqb family "S"
                then feec_element family tdim ord k else Ok (family, ord)) ;;
      let (family, ord) := (fr : string * order) in
      if String.eqb family "P L2" || String.eqb family "S L2"
      then feec_element_l2 family tdim ord k else Ok (family, ord)
  end.

(** canonical_element_description, finat/ufl/elementlist.py:379-468.  Simplification:
    the warnings are left out. *)
Definition canonical (r : registry) (fuel : nat) (family : string) (cell : option ucell) (ord : order)
    (form_degree : option Z) : option (result description) :=
  let tdim := option_map ucell_dim cell in
  match catch_feec tdim family ord form_degree with
  | Err e => Some (Err e)
  | Ok (family, ord) =>
      match resolve r fuel tdim family ord form_degree with
      | None => None
      | Some (Err e) => Some (Err e)
      | Some (Ok (family, ord)) => Some (describe r cell family ord)
      end
  end.

(** FiniteElementBase.pullback, finat/ufl/finiteelementbase.py:246-268. *)
Inductive upullback :=
| PIdentity | PL2 | PCovariant | PContravariant | PDoubleCovariant | PDoubleContravariant
| PCovariantContravariant | PCustom | PPhysical.
Definition pullback_of (mapping : string) : result upullback :=
  if String.eqb mapping "identity" then Ok PIdentity
  else if String.eqb mapping "L2 Piola" then Ok PL2
  else if String.eqb mapping "covariant Piola" then Ok PCovariant
  else if String.eqb mapping "contravariant Piola" then Ok PContravariant
  else if String.eqb mapping "double covariant Piola" then Ok PDoubleCovariant
  else if String.eqb mapping "double contravariant Piola" then Ok PDoubleContravariant
  else if String.eqb mapping "covariant contravariant Piola" then Ok PCovariantContravariant
  else if String.eqb mapping "custom" then Ok PCustom
  else if String.eqb mapping "physical" then Ok PPhysical
  else Err ValueError.
