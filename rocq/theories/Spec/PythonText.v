(** A reader of Python expressions: names, ints, strings, tuples, dicts and calls with
    keywords.  Independent of how the text was made. *)
From Coq Require Import Ascii String List ZArith Bool.
From Verif Require Import Model.Prelude Model.Registry Model.UflElement.
Import ListNotations.
Open Scope string_scope.

(** ** Tokens *)
Inductive token :=
| TName (s : string) | TInt (z : Z) | TStr (s : string)
| TOpen | TClose | TComma | TEqual | TCurly | TUncurly | TColon.

Definition in_range (lo hi c : ascii) : bool :=
  Nat.leb (nat_of_ascii lo) (nat_of_ascii c) && Nat.leb (nat_of_ascii c) (nat_of_ascii hi).
Definition letter (c : ascii) : bool := in_range "a" "z" c || in_range "A" "Z" c || Ascii.eqb c "_".
Definition decimal (c : ascii) : option Z :=
  if in_range "0" "9" c then Some (Z.of_nat (nat_of_ascii c - 48)) else None.
Definition hexadecimal (c : ascii) : option nat :=
  if in_range "0" "9" c then Some (nat_of_ascii c - 48)
  else if in_range "a" "f" c then Some (nat_of_ascii c - 87)
  else None.
Definition text (l : list ascii) : string := string_of_list_ascii (rev l).

(** What is being read; characters read so far are in reverse. *)
Inductive mode :=
| Between
| InName (l : list ascii)
| AfterMinus
| InNumber (negative : bool) (z : Z)
| InString (quote : ascii) (l : list ascii)
| AfterBackslash (quote : ascii) (l : list ascii)
| AfterX (quote : ascii) (l : list ascii)
| AfterHex (quote : ascii) (l : list ascii) (h : nat).

Definition punctuation (c : ascii) : option token :=
  if Ascii.eqb c "(" then Some TOpen else if Ascii.eqb c ")" then Some TClose
  else if Ascii.eqb c "," then Some TComma else if Ascii.eqb c "=" then Some TEqual
  else if Ascii.eqb c "{" then Some TCurly else if Ascii.eqb c "}" then Some TUncurly
  else if Ascii.eqb c ":" then Some TColon else None.
Definition begin (c : ascii) : option (list token * mode) :=
  match punctuation c with
  | Some t => Some ([t], Between)
  | None =>
      match decimal c with
      | Some z => Some ([], InNumber false z)
      | None =>
          if letter c then Some ([], InName [c])
          else if Ascii.eqb c " " then Some ([], Between)
          else if Ascii.eqb c "-" then Some ([], AfterMinus)
          else if Ascii.eqb c "'" || Ascii.eqb c """" then Some ([], InString c [])
          else None
      end
  end.
Definition number (negative : bool) (z : Z) : token := TInt (if negative then - z else z).
(** [\t], [\n], [\r], the backslash and the quotes after a backslash. *)
Definition escape_of (c : ascii) : option ascii :=
  if Ascii.eqb c "t" then Some (ascii_of_nat 9) else if Ascii.eqb c "n" then Some (ascii_of_nat 10)
  else if Ascii.eqb c "r" then Some (ascii_of_nat 13)
  else if Ascii.eqb c "\" || Ascii.eqb c "'" || Ascii.eqb c """" then Some c else None.
Definition step (m : mode) (c : ascii) : option (list token * mode) :=
  match m with
  | Between => begin c
  | InName l =>
      if letter c || in_range "0" "9" c then Some ([], InName (c :: l))
      else match begin c with None => None | Some (ts, m) => Some (TName (text l) :: ts, m) end
  | AfterMinus => match decimal c with Some z => Some ([], InNumber true z) | None => None end
  | InNumber neg z =>
      match decimal c with
      | Some d => Some ([], InNumber neg (10 * z + d))
      | None =>
          if letter c then None
          else match begin c with None => None | Some (ts, m) => Some (number neg z :: ts, m) end
      end
  | InString q l =>
      if Ascii.eqb c q then Some ([TStr (text l)], Between)
      else if Ascii.eqb c "\" then Some ([], AfterBackslash q l)
      else if existsb (Nat.eqb (nat_of_ascii c)) [0; 10; 13] then None
      else Some ([], InString q (c :: l))
  | AfterBackslash q l =>
      if Ascii.eqb c "x" then Some ([], AfterX q l)
      else match escape_of c with Some d => Some ([], InString q (d :: l)) | None => None end
  | AfterX q l => match hexadecimal c with Some h => Some ([], AfterHex q l h) | None => None end
  | AfterHex q l h =>
      match hexadecimal c with Some k => Some ([], InString q (ascii_of_nat (16 * h + k) :: l)) | None => None end
  end.
Fixpoint emit (ts : list token) (r : option (list token)) : option (list token) :=
  match ts with
  | [] => r
  | t :: ts => match emit ts r with None => None | Some l => Some (t :: l) end
  end.
Fixpoint scan (m : mode) (s : string) : option (list token) :=
  match s with
  | "" =>
      match m with
      | Between => Some []
      | InName l => Some [TName (text l)]
      | InNumber neg z => Some [number neg z]
      | _ => None
      end
  | String c s => match step m c with None => None | Some (ts, m) => emit ts (scan m s) end
  end.

(** ** Expressions *)
Inductive ast :=
| AName (s : string) | AInt (z : Z) | AStr (s : string)
| ATuple (l : list ast) | ADict (l : list (ast * ast))
| ACall (f : string) (args : list (option string * ast)).

(** Open brackets with what has been read inside, in reverse; then the expression after the
    last comma, if any. *)
Inductive frame :=
| InCall (f : string) (args : list (option string * ast)) (keyword : option string)
| InTuple (l : list ast)
| InDict (l : list (ast * ast)) (key : option ast).
Definition pstate := (list frame * option ast)%type.
Definition pstep (st : pstate) (t : token) : option pstate :=
  match t, st with
  | TName n, (fs, None) => Some (fs, Some (AName n))
  | TInt z, (fs, None) => Some (fs, Some (AInt z))
  | TStr s, (fs, None) => Some (fs, Some (AStr s))
  | TOpen, (fs, None) => Some (InTuple [] :: fs, None)
  | TOpen, (fs, Some (AName f)) => Some (InCall f [] None :: fs, None)
  | TClose, (InCall f args k :: fs, Some a) => Some (fs, Some (ACall f (rev ((k, a) :: args))))
  | TClose, (InCall f args None :: fs, None) => Some (fs, Some (ACall f (rev args)))
  | TClose, (InTuple [] :: fs, Some a) => Some (fs, Some a)
  | TClose, (InTuple l :: fs, Some a) => Some (fs, Some (ATuple (rev (a :: l))))
  | TClose, (InTuple l :: fs, None) => Some (fs, Some (ATuple (rev l)))
  | TComma, (InCall f args k :: fs, Some a) => Some (InCall f ((k, a) :: args) None :: fs, None)
  | TComma, (InTuple l :: fs, Some a) => Some (InTuple (a :: l) :: fs, None)
  | TComma, (InDict l (Some k) :: fs, Some a) => Some (InDict ((k, a) :: l) None :: fs, None)
  | TEqual, (InCall f args None :: fs, Some (AName k)) => Some (InCall f args (Some k) :: fs, None)
  | TCurly, (fs, None) => Some (InDict [] None :: fs, None)
  | TUncurly, (InDict l (Some k) :: fs, Some a) => Some (fs, Some (ADict (rev ((k, a) :: l))))
  | TUncurly, (InDict l None :: fs, None) => Some (fs, Some (ADict (rev l)))
  | TColon, (InDict l None :: fs, Some k) => Some (InDict l (Some k) :: fs, None)
  | _, _ => None
  end.
Definition run (st : option pstate) (ts : list token) : option pstate :=
  fold_left (fun st t => match st with None => None | Some st => pstep st t end) ts st.
Definition parse (ts : list token) : option ast :=
  match run (Some ([], None)) ts with Some ([], a) => a | _ => None end.

(** ** Values *)
Inductive value :=
| VNone | VInt (z : Z) | VStr (s : string) | VTuple (l : list value) | VDict (l : list (value * value))
| VCell (c : ucell) | VElement (e : uel).

Notation "'let?' x := e 'in' k" := (match e with Some x => k | None => None end) (at level 200, x pattern, e at level 200, k at level 200).
Fixpoint all_some {A} (l : list (option A)) : option (list A) :=
  match l with
  | [] => Some []
  | x :: l => let? y := x in let? r := all_some l in Some (y :: r)
  end.
Definition made {A} (r : result A) : option A := match r with Ok x => Some x | Err _ => None end.

(** Positional arguments before keywords. *)
Fixpoint positional (args : list (option string * value)) : list value * list (option string * value) :=
  match args with
  | (None, v) :: r => let (p, k) := positional r in (v :: p, k)
  | _ => ([], args)
  end.
Definition keyword (kv : option string * value) : option (string * value) :=
  match kv with (Some k, v) => Some (k, v) | (None, _) => None end.
Definition split_args (args : list (option string * value)) : option (list value * list (string * value)) :=
  let (p, k) := positional args in let? k := all_some (map keyword k) in Some (p, k).

(** The value of each parameter; no argument twice, none that is no parameter. *)
Definition lookup (k : string) (kws : list (string * value)) : option value :=
  match find (fun kv => String.eqb k (fst kv)) kws with Some kv => Some (snd kv) | None => None end.
Fixpoint nodupb (l : list string) : bool :=
  match l with [] => true | x :: l => negb (existsb (String.eqb x) l) && nodupb l end.
Fixpoint bind_args (params : list string) (pos : list value) (kws : list (string * value)) : option (list (option value)) :=
  match params, pos with
  | [], [] => Some []
  | [], _ => None
  | p :: params, v :: pos =>
      match lookup p kws with
      | Some _ => None
      | None => let? r := bind_args params pos kws in Some (Some v :: r)
      end
  | p :: params, [] => let? r := bind_args params [] kws in Some (lookup p kws :: r)
  end.
Definition arguments (params : list string) (args : list (option string * value)) : option (list (option value)) :=
  let? (pos, kws) := split_args args in
  if nodupb (map fst kws) && forallb (fun kv => existsb (String.eqb (fst kv)) params) kws
  then bind_args params pos kws else None.
(** [*args] without keywords. *)
Definition only_positional (args : list (option string * value)) : option (list value) :=
  let? (pos, kws) := split_args args in match kws with [] => Some pos | _ => None end.

(** Conversions; a missing argument is None. *)
Definition as_element (v : value) : option uel := match v with VElement e => Some e | _ => None end.
Definition as_cell (v : value) : option ucell := match v with VCell c => Some c | _ => None end.
Definition as_int (v : value) : option Z := match v with VInt z => Some z | _ => None end.
Definition as_nat (v : value) : option nat :=
  match v with VInt z => if Z.leb 0 z then Some (Z.to_nat z) else None | _ => None end.
Definition as_str (v : value) : option string := match v with VStr s => Some s | _ => None end.
Definition as_index (v : value) : option (list nat) := match v with VTuple l => all_some (map as_nat l) | _ => None end.
Definition as_degree (v : option value) : option order :=
  match v with
  | None | Some VNone => Some NoOrder
  | Some (VInt z) => Some (Order z)
  | Some (VTuple l) => let? zs := all_some (map as_int l) in Some (Orders zs)
  | _ => None
  end.
Definition optional {A} (conv : value -> option A) (v : option value) : option (option A) :=
  match v with
  | None | Some VNone => Some None
  | Some v => let? x := conv v in Some (Some x)
  end.
Definition as_symmetry (v : option value) : option symarg :=
  match v with
  | None | Some VNone => Some NoSym
  | Some (VDict l) =>
      let? d := all_some (map (fun kv => let? i := as_index (fst kv) in let? j := as_index (snd kv) in Some (i, j)) l) in
      Some (SymDict d)
  | _ => None
  end.

(** Names of cells. *)
Definition named_cells : list (string * cellkind) :=
  [("vertex", Vertex); ("interval", Interval); ("triangle", Triangle); ("quadrilateral", Quadrilateral);
   ("tetrahedron", Tetrahedron); ("prism", Prism); ("pyramid", Pyramid); ("hexahedron", Hexahedron);
   ("pentatope", Pentatope); ("tesseract", Tesseract)].
Definition name_value (s : string) : option value :=
  if String.eqb s "None" then Some VNone
  else match find (fun ck => String.eqb s (fst ck)) named_cells with Some ck => Some (VCell (Named (snd ck))) | None => None end.

(** Calls of the classes with their parameters, as in finat/ufl. *)
Definition wrapper (mk : uel -> result uel) (args : list (option string * value)) : option value :=
  match arguments ["element"] args with
  | Some [Some (VElement e)] => let? r := made (mk e) in Some (VElement r)
  | _ => None
  end.
Definition call (f : string) (args : list (option string * value)) : option value :=
  if String.eqb f "TensorProductCell" then
    let? l := only_positional args in let? cs := all_some (map as_cell l) in Some (VCell (ProductCell cs))
  else if String.eqb f "FiniteElement" then
    match arguments ["family"; "cell"; "degree"; "form_degree"; "quad_scheme"; "variant"] args with
    | Some [Some (VStr family); c; d; k; s; v] =>
        let? c := optional as_cell c in let? d := as_degree d in let? k := optional as_int k in
        let? s := optional as_str s in let? v := optional as_str v in
        let? r := made (mk_finite family c d k s v) in Some (VElement r)
    | _ => None
    end
  else if String.eqb f "VectorElement" then
    match arguments ["family"; "cell"; "degree"; "dim"; "form_degree"; "quad_scheme"; "variant"] args with
    | Some [Some (VElement e); _; _; n; _; _; _] =>
        let? n := optional as_nat n in let? r := made (mk_vector e n) in Some (VElement r)
    | _ => None
    end
  else if String.eqb f "TensorElement" then
    match arguments ["family"; "cell"; "degree"; "shape"; "symmetry"; "quad_scheme"; "variant"] args with
    | Some [Some (VElement e); _; _; sh; sy; _; _] =>
        let? sh := optional as_index sh in let? sy := as_symmetry sy in
        let? r := made (mk_tensor e sh sy) in Some (VElement r)
    | _ => None
    end
  else if String.eqb f "MixedElement" then
    let? l := only_positional args in let? es := all_some (map as_element l) in
    let? r := made (mk_mixed es) in Some (VElement r)
  else if String.eqb f "EnrichedElement" || String.eqb f "NodalEnrichedElement" then
    let? l := only_positional args in let? es := all_some (map as_element l) in
    let? r := made (mk_enriched (String.eqb f "NodalEnrichedElement") es) in Some (VElement r)
  else if String.eqb f "TensorProductElement" then
    let? (l, kws) := split_args args in let? es := all_some (map as_element l) in
    let? c := match kws with
              | [] => Some None
              | [(k, v)] => if String.eqb k "cell" then optional as_cell (Some v) else None
              | _ => None
              end in
    let? r := made (mk_tensor_product es c) in Some (VElement r)
  else if String.eqb f "HDivElement" then wrapper mk_hdiv args
  else if String.eqb f "HCurlElement" then wrapper mk_hcurl args
  else if String.eqb f "BrokenElement" then wrapper mk_broken args
  else if String.eqb f "WithMapping" then
    match arguments ["wrapee"; "mapping"] args with
    | Some [Some (VElement e); Some (VStr m)] => let? r := made (mk_with_mapping e m) in Some (VElement r)
    | _ => None
    end
  else if String.eqb f "RestrictedElement" then
    match arguments ["element"; "restriction_domain"] args with
    | Some [Some (VElement e); Some (VStr d)] => let? r := made (mk_restricted e d) in Some (VElement r)
    | _ => None
    end
  else None.
Fixpoint eval (a : ast) : option value :=
  match a with
  | AName s => name_value s
  | AInt z => Some (VInt z)
  | AStr s => Some (VStr s)
  | ATuple l => let? vs := all_some (map eval l) in Some (VTuple vs)
  | ADict l =>
      let? vs := all_some (map (fun kv => let? k := eval (fst kv) in let? v := eval (snd kv) in Some (k, v)) l) in
      Some (VDict vs)
  | ACall f args =>
      let? vs := all_some (map (fun kv => let? v := eval (snd kv) in Some (fst kv, v)) args) in call f vs
  end.

(** eval(s); None if it raises. *)
Definition evaluate (s : string) : option value :=
  let? ts := scan Between s in let? a := parse ts in eval a.

(** Strings that need no escapes between apostrophes. *)
Definition unescaped (s : string) : Prop := forall c, In c (list_ascii_of_string s) ->
  c <> "'"%char /\ c <> "\"%char /\ ~ In (nat_of_ascii c) [0; 10; 13].
(** The mappings of WithMapping and the variants that vector and tensor elements repeat. *)
Inductive writable : uel -> Prop :=
| wr_finite d c s v : writable (UFinite d c s v)
| wr_mixed a l : Forall writable l -> writable (UMixed a l)
| wr_vector a e n : writable e -> (forall v, u_variant e = Some v -> unescaped v) -> writable (UVector a e n)
| wr_tensor a e shape sym t n : writable e -> (forall v, u_variant e = Some v -> unescaped v) -> writable (UTensor a e shape sym t n)
| wr_tensor_product a l c : Forall writable l -> writable (UTensorProduct a l c)
| wr_enriched nodal a l : Forall writable l -> writable (UEnriched nodal a l)
| wr_hdiv a e : writable e -> writable (UHDiv a e)
| wr_hcurl a e : writable e -> writable (UHCurl a e)
| wr_with_mapping e m : writable e -> unescaped m -> writable (UWithMapping e m)
| wr_broken a e : writable e -> writable (UBroken a e)
| wr_restricted a e dom : writable e -> writable (URestricted a e dom).
