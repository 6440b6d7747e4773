(** The Python versions of the steps that complete a collision matrix, phono3py/conductivity/direct_solution.py 605-634 (_expand_reducible_collisions), 696-728
    (_symmetrize_collision_matrix when the C extension cannot be imported) and 1199-1234 (_py_symmetrize_collision_matrix and _py_symmetrize_collision_matrix_no_kappa_stars,
    which nothing calls). The C versions are in ColModel.v. Doubles are rationals. One sigma and one temperature at a time: every statement of these functions acts on all of
    them alike. Arrays are functions of their indices. *)
From Coq Require Import ZArith QArith List Bool.
From Verif Require Import Base QMat ColModel.
Import ListNotations.
Open Scope Z_scope.

(** ** _expand_reducible_collisions, 618-630 *)
Definition mat4 : Type := Z -> Z -> Z -> Z -> Q.   (* grid point, band, grid point, band *)
(** 621-630 for one irreducible grid point: multi (622), the copy of the row divided by it (623-624), the row set to zero (625),
    and for every operation (626) and grid point (628) colmat[gp_r, :, gp_c, :] += colmat_irgp[:, k, :] (630) *)
Definition add_block (gp_r gp_c : Z) (v : Z -> Z -> Q) (m : mat4) : mat4 :=
  fun x j y c => if (x =? gp_r) && (y =? gp_c) then (m x j y c + v j c)%Q else m x j y c.
Definition py_expand_row (rot : Z -> Z) (ng nrot : Z) (m : mat4) (ir : Z) : mat4 :=
  let copy := fun j k c => (m ir j k c / inject_Z (multi rot ng nrot ir))%Q in
  let m0 : mat4 := fun x j y c => if x =? ir then 0%Q else m x j y c in
  fold_left (fun m l => fold_left (fun m k => add_block (rot (l * ng + ir)) (rot (l * ng + k)) (fun j c => copy j k c) m) (zrange ng) m) (zrange nrot) m0.
Definition py_expand (rot : Z -> Z) (ng nrot : Z) (irs : list Z) (m : mat4) : mat4 := fold_left (py_expand_row rot ng nrot) irs m.

(** ** Symmetrization *)
(** 722-724 on the matrix reshaped to (size, size), a view on the array: col_mat += col_mat.T (numpy reads the operands before it writes when they overlap); col_mat /= 2 *)
Definition numpy_symmetrize (m : Z -> Z -> Q) (p q : Z) : Q := ((m p q + m q p) / 2)%Q.
(** 1210-1216 and 1227-1233: one element; [p], [q]: places of (grid point, band, component) or (grid point, band) *)
Definition set_symmetrized (p q : Z) (m : Z -> Z -> Q) : Z -> Z -> Q :=
  let v := ((m p q + m q p) / 2)%Q in
  fun x y => if (x =? q) && (y =? p) then v else if (x =? p) && (y =? q) then v else m x y.
(** 1199-1208 and 1218-1225: all pairs *)
Definition py_symmetrize (size : Z) (m : Z -> Z -> Q) : Z -> Z -> Q :=
  fold_left (fun m p => fold_left (fun m q => set_symmetrized p q m) (zrange size) m) (zrange size) m.
