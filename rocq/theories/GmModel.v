(** Which sampling grid belongs to a given [mesh]: class GridMatrix, phono3py/phonon/grid.py 577-855, 1226-1242, as used at
    428-445. Doubles are rationals; warnings are left out. *)
From Coq Require Import ZArith QArith Qabs Qround List Bool.
From Verif Require Import Base Mat3 QMat SnfModel.
Import ListNotations.
Open Scope Z_scope.

Inductive exc := RuntimeErr | AssertionErr | TypeErr.
Inductive res (X : Type) := Ok (x : X) | Err (e : exc).
Arguments Ok {X} x. Arguments Err {X} e.

(** symmetry_dataset: rotations, transformation_matrix, std_lattice (rows are basis vectors), len(std_types) *)
Record dataset := Ds { ds_rots : list M3; ds_tmat : QM; ds_std : QM; ds_ntypes : Z }.
(** the argument mesh by the number of its values (668): one number; three integers; a 3x3 integer matrix; anything else (a
    flat array of nine values, on which np.diagonal fails, is left out) *)
Inductive mesh_arg := One (length : Q) | Three (v : V3) | Nine (m : M3) | Other (n : Z).
(** grid_matrix, D_diag, P, Q *)
Record grid := Grid { g_matrix : option M3; g_D : V3; g_P : M3; g_Q : M3 }.

(** np.rint: ties to even *)
Definition rint (q : Q) : Z :=
  let f := Qfloor q in
  let r := (q - inject_Z f)%Q in
  if qltb r (1 # 2) then f else if qltb (1 # 2) r then f + 1 else if Z.even f then f else f + 1.
Definition mrint (m : QM) : M3 :=
  let '(qm a b c d e f g h i) := m in m3 (rint a) (rint b) (rint c) (rint d) (rint e) (rint f) (rint g) (rint h) (rint i).
Definition qtransp (m : QM) : QM := let '(qm a b c d e f g h i) := m in qm a d g b e h c f i.
Definition qscale (s : Q) (m : QM) : QM :=
  let '(qm a b c d e f g h i) := m in qm (s*a) (s*b) (s*c) (s*d) (s*e) (s*f) (s*g) (s*h) (s*i).
(** (cond(a, b)).all() *)
Definition all2 (c : Q -> Q -> bool) (m n : QM) : bool :=
  let '(qm a b d e f g h i j) := m in let '(qm a' b' d' e' f' g' h' i' j') := n in
  c a a' && c b b' && c d d' && c e e' && c f f' && c g g' && c h h' && c i i' && c j j'.
(** np.allclose(a, b, atol=symprec) *)
Definition allclose (symprec : Q) : QM -> QM -> bool :=
  all2 (fun a b => negb (qltb (symprec + (1 # 100000) * Qabs b) (Qabs (a - b)))%Q).
(** phonopy's similarity_transformation and is_primitive_cell *)
Definition similar (L : QM) (r : M3) : QM := qmulMM L (qmulMM (qm_of r) (qinv L)).
Definition is_primitive_cell (rots : list M3) : bool := negb (1 <? zcount (fun r => meqb r I3) rots).
(** 1226-1242 *)
Definition can_use_std_lattice (conv_lat tmat std : QM) (rots : list M3) : bool :=
  existsb (fun r => let r_s := similar tmat r in
    allclose (1 # 100000) (qscale (qdet r_s) (qmulMM (qtransp conv_lat) r_s)) (qtransp std)) rots.

Section Gm.
(** phonopy's length2mesh(length, lattice, rotations) and estimate_supercell_matrix(sym_dataset, max_num_atoms) *)
Variable length2mesh : Q -> QM -> option (list M3) -> V3.
Variable estimate : dataset -> Z -> V3.
Variable lattice : QM.

(** 741-767 *)
Definition mock_dataset (t : QM) : res dataset :=
  let inv := qinv t in
  let int := mrint inv in
  if all2 (fun a b => qltb (1 # 100000000) (a - b)%Q) inv (qm_of int) then Err RuntimeErr
  else if det int <? 0 then Err RuntimeErr
  else if det int <? 1 then Err RuntimeErr
  else Ok (Ds [I3] t lattice 1).
(** 825-836: the conventional cell, and the matrix to it *)
Definition conventional (s : dataset) : QM * QM :=
  let tmat := ds_tmat s in
  let conv_lat := qmulMM (qtransp (qinv tmat)) lattice in
  if can_use_std_lattice conv_lat tmat (ds_std s) (ds_rots s)
  then (ds_std s, qtransp (qmulMM lattice (qinv (ds_std s)))) else (conv_lat, tmat).
(** 838-847: [direct] is coordinates == "direct", [known] that coordinates is one of the two *)
Definition mesh_numbers (s : dataset) (length : Q) (known direct : bool) (conv_lat : QM) : res V3 :=
  let l := length2mesh length conv_lat None in
  if negb known then Err TypeErr
  else if direct then Ok (estimate s ((vx l * vy l * vz l) * ds_ntypes s)) else Ok l.
(** 852-854: (inv_tmat_int * conv_mesh_numbers).T *)
Definition times_columns (m : M3) (n : V3) : M3 :=
  let '(m3 a b c d e f g h i) := m in let '(v3 x y z) := n in m3 (a*x) (b*y) (c*z) (d*x) (e*y) (f*z) (g*x) (h*y) (i*z).
(** 804-855 *)
Definition get_grid_matrix (s : dataset) (length : Q) (known direct : bool) : res M3 :=
  let '(conv_lat, tmat) := conventional s in
  match mesh_numbers s length known direct conv_lat with
  | Err e => Err e
  | Ok n =>
      let inv := qinv tmat in
      let int := mrint inv in
      if all2 (fun a b => qltb (Qabs (a - b)) (1 # 100000))%Q inv (qm_of int)
      then Ok (transp (times_columns int n)) else Err AssertionErr
  end.
(** 580-582 *)
Definition default : grid := Grid None (v3 1 1 1) I3 I3.
Definition diagonal (m : M3) : V3 := let '(m3 a _ _ _ e _ _ _ i) := m in v3 a e i.
(** 791-802; recgrid.snf3x3 writes D_diag, P and Q *)
Definition set_matrix (force_SNF : bool) (m : M3) : res grid :=
  if meqb (diag3 (diagonal m)) m && negb force_SNF then Ok (Grid None (diagonal m) I3 I3)
  else match get_snf3x3 m with
       | None => Err RuntimeErr
       | Some (d, p, q) => Ok (Grid (Some m) d p q)
       end.
(** 700-731 with 784-789: [None] is the return value False. [l] is a length or a matrix *)
Definition run_grg (sym : option dataset) (t : option QM) (l : Q + M3) (force_SNF known direct : bool) : res (option grid) :=
  let s := match sym, t with
           | Some s, _ => Ok s
           | None, Some t => mock_dataset t
           | None, None => Err RuntimeErr
           end in
  match s with
  | Err e => Err e
  | Ok s =>
      if is_primitive_cell (ds_rots s) then
        match (match l with inl x => get_grid_matrix s x known direct | inr m => Ok m end) with
        | Err e => Err e
        | Ok m => match set_matrix force_SNF m with Ok g => Ok (Some g) | Err e => Err e end
        end
      else Ok None
  end.
(** 577-591, 635-698 *)
Definition grid_matrix (mesh : mesh_arg) (sym : option dataset) (t : option QM) (use_grg force_SNF known direct : bool) : res grid :=
  match mesh with
  | One x =>
      let plain := Ok (Grid None (length2mesh x lattice (match sym with None => None | Some s => Some (ds_rots s) end)) I3 I3) in
      if use_grg then
        match run_grg sym t (inl x) force_SNF known direct with
        | Err e => Err e
        | Ok (Some g) => Ok g
        | Ok None => plain
        end
      else plain
  | Nine m =>
      match run_grg sym t (inr m) force_SNF known direct with
      | Err e => Err e
      | Ok (Some g) => Ok g
      | Ok None => Ok default
      end
  | Three v => Ok (Grid None v I3 I3)
  | Other _ => Ok default
  end.
End Gm.
