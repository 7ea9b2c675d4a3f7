(** Entries of the matrices of property C54 on the triangle and the tetrahedron of
    [Spec/PiolaSamples.v], computed with Coq's rationals. *)
From Coq Require Import String List Arith ZArith QArith Qcanon.
From Verif Require Import Model.Prelude Model.Cell Model.Element Model.Gem Model.Mapped Model.Piola Model.Zany Model.PiolaElements Spec.QSamples.
Import ListNotations.
Local Open Scope nat_scope.

Definition at_q (t : list (list Q)) (i j : nat) : Qc := Q2Qc (nth j (nth i t []) 0%Q).
Definition triangle_q : scell (F := Qc) :=
  mkScell 2 (map (map Q2Qc) [[0; 0]; [3; 0]; [0; 4]]%Q) [[1; 2]; [0; 2]; [0; 1]]
    (fun t => if Qeq_bool (t 0) 0 then t 1 else if Qeq_bool (t 1) 0 then t 0 else Q2Qc 5).
Definition tetrahedron_q : scell (F := Qc) :=
  mkScell 3 (map (map Q2Qc) [[0; 0; 0]; [1; 0; 0]; [0; 1; 0]; [0; 0; 1]]%Q) [[1; 2; 3]; [0; 2; 3]; [0; 1; 3]; [0; 1; 2]] (fun _ => Q2Qc 0).
Definition geometry_q (t : list (list Q)) (d : Q) : geometry (F := Qc) :=
  mkGeometry (fun _ => at_q t) (fun _ => Q2Qc d) (fun v => Q2Qc (inject_Z (Z.of_nat (S v)))) (fun _ _ => Q2Qc 0) (fun _ _ => Q2Qc 0)
    (fun _ _ => Q2Qc 0) (fun _ => Q2Qc 1).
Definition g2q := geometry_q [[2; 1]; [0; 3]]%Q 6.
Definition g3q := geometry_q [[1; 2; 0]; [0; 1; 1]; [1; 0; 2]]%Q 4.
(** Rows [i], columns [l] of the matrix before it is transposed. *)
Definition part (r : result (array (F := Qc))) (l nl i ni : nat) : list (list Q) :=
  match r with
  | Ok M => map (fun i => map (fun l => this (n_at M l i)) (seq l nl)) (seq i ni)
  | Err _ => []
  end.

Example C54_johnson_mercier_entries : let M := jm_transformation qops 42 42 tetrahedron_q g3q in
  part M 0 3 0 3 = [[1; 0; 0]; [- (1); 7 # 2; 5 # 2]; [- (1); 5 # 2; 7 # 2]]%Q /\
  part M 30 3 30 3 = [[1; 0; 0]; [-4 # 3; 10 # 3; -4 # 3]; [1 # 3; -4 # 3; 4 # 3]]%Q /\
  part M 36 3 36 3 = [[1; 0; 0]; [0; 1; 0]; [0; 0; 1]]%Q.
Proof. vm_compute. repeat split; reflexivity. Qed.

Example C54_arnold_winther_nc_entries : let M := awnc_transformation qops 18 15 triangle_q g2q in
  part M 4 4 4 4 = [[1; 0; 0; 0]; [-1 # 5; 3 # 5; 0; 0]; [0; 0; 1; 0]; [0; 0; -1 # 5; 3 # 5]]%Q.
Proof. vm_compute. reflexivity. Qed.

Example C54_arnold_winther_entries : let M := aw_transformation qops 30 24 triangle_q g2q in
  part M 3 3 3 3 = [[9 # 4; -3 # 2; 1 # 4]; [0; 3 # 2; -1 # 2]; [0; 0; 1]]%Q /\
  part M 9 2 9 2 = [[1; 0]; [-43 # 74; 75 # 74]]%Q.
Proof. vm_compute. repeat split; reflexivity. Qed.

Example C54_hu_zhang_entries :
  let M v := hz_transformation qops 30 3 (Some v) triangle_q g2q in
  part (M "point"%string) 27 3 27 3 = [[9; -6 # 1; 1]; [0; 6; -2 # 1]; [0; 0; 4]]%Q /\
  part (M "integral"%string) 27 3 27 3 = [[1; 0; 0]; [0; 1; 0]; [0; 0; 1]]%Q.
Proof. vm_compute. repeat split; reflexivity. Qed.

Example C54_mardal_tai_winther_entries :
  let dofs := [(DI 0, [(0, []); (1, []); (2, [])]); (DI 1, [(0, [0; 1; 2]); (1, [3; 4; 5]); (2, [6; 7; 8])]); (DI 2, [(0, [])])] in
  part (mtw_transformation qops 12 9 dofs triangle_q g2q) 6 3 6 3 = [[1; 0; 0]; [1 # 2; 3 # 2; 0]; [0; 0; 1]]%Q.
Proof. vm_compute. reflexivity. Qed.

Example C54_alfeld_sorokina_entries :
  let dofs := [(DI 0, [(0, [2; 0; 1]); (1, [5; 3; 4]); (2, [6; 7; 8])]); (DI 1, [(0, []); (1, []); (2, [])]); (DI 2, [(0, [9; 10])])] in
  part (as_transformation qops 11 dofs (fun d => existsb (Nat.eqb d) [2; 5; 8]) triangle_q g2q) 3 6 3 6 =
    [[3; -1 # 1; 0; 0; 0; 0]; [0; 2; 0; 0; 0; 0]; [0; 0; 6; 0; 0; 0];
     [0; 0; 0; 3; -1 # 1; 0]; [0; 0; 0; 0; 2; 0]; [0; 0; 0; 0; 0; 6]]%Q.
Proof. vm_compute. reflexivity. Qed.

Example C54_piola_bubble_entries :
  let dofs := [(DI 0, [(0, [0; 1]); (1, [2; 3]); (2, [4; 5])]); (DI 1, [(0, [6; 9]); (1, [7; 10]); (2, [8; 11])]); (DI 2, [(0, [])])] in
  match piola_bubble_init (repeat "contravariant piola"%string 12) 2 12 dofs with
  | Ok (reduced, ndof) => ndof = 9 /\ part (bubble_transformation qops 12 9 dofs reduced (fun _ => false) triangle_q g2q) 0 9 0 12 =
    [[3; -1 # 1; 0; 0; 0; 0; 0; 0; 0]; [0; 2; 0; 0; 0; 0; 0; 0; 0]; [0; 0; 3; -1 # 1; 0; 0; 0; 0; 0]; [0; 0; 0; 2; 0; 0; 0; 0; 0];
     [0; 0; 0; 0; 3; -1 # 1; 0; 0; 0]; [0; 0; 0; 0; 0; 2; 0; 0; 0]; [0; 0; 0; 0; 0; 0; 1; 0; 0]; [0; 0; 0; 0; 0; 0; 0; 1; 0];
     [0; 0; 0; 0; 0; 0; 0; 0; 1]; [0; 0; 0; 0; 0; 0; -43 # 74; 0; 0]; [0; 0; 0; 0; 0; 0; 0; -1 # 5; 0]; [0; 0; 0; 0; 0; 0; 0; 0; 1 # 2]]%Q
  | Err _ => False
  end.
Proof. vm_compute. repeat split; reflexivity. Qed.

Example C54_dimension_example :
  let line := mkScell 1 [[Q2Qc 0]; [Q2Qc 1]] [[0]; [1]] (fun t => t 0) in
  jm_transformation qops 4 4 line g2q = Err NotImplementedError /\
  mtw_transformation qops 16 16 [(DI 2, [(0, [0; 1; 2; 3])])] tetrahedron_q g3q = Err ValueError.
Proof. vm_compute. repeat split; reflexivity. Qed.
