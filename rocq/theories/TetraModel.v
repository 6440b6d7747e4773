(** Model of the linear tetrahedron method: c/tetrahedron_method.c. *)
From Coq Require Import ZArith QArith Qabs List Bool.
From Verif Require Import Base Mat3 QMat.
Import ListNotations.
Open Scope Q_scope.

(** [double v[4]] *)
Inductive T4 : Type := t4 (a b c d : Q).
Definition t4get (v : T4) (i : nat) : Q :=
  let '(t4 a b c d) := v in match i with 0%nat => a | 1%nat => b | 2%nat => c | _ => d end.

(** ** Table and main diagonal *)
(** c/tetrahedron_method.c:72-75 *)
Definition main_diagonals : list V3 := [v3 1 1 1; v3 (-1) 1 1; v3 1 (-1) 1; v3 1 1 (-1)].

(** c/tetrahedron_method.c:77-662 *)
Definition db_relative_grid_address : list (list (list V3)) :=
  [
   [[v3 0 0 0; v3 1 0 0; v3 1 1 0; v3 1 1 1];
    [v3 0 0 0; v3 1 0 0; v3 1 0 1; v3 1 1 1];
    [v3 0 0 0; v3 0 1 0; v3 1 1 0; v3 1 1 1];
    [v3 0 0 0; v3 0 1 0; v3 0 1 1; v3 1 1 1];
    [v3 0 0 0; v3 0 0 1; v3 1 0 1; v3 1 1 1];
    [v3 0 0 0; v3 0 0 1; v3 0 1 1; v3 1 1 1];
    [v3 0 0 0; v3 0 1 0; v3 0 1 1; v3 (-1) 0 0];
    [v3 0 0 0; v3 0 0 1; v3 0 1 1; v3 (-1) 0 0];
    [v3 0 0 0; v3 1 0 0; v3 1 0 1; v3 0 (-1) 0];
    [v3 0 0 0; v3 0 0 1; v3 1 0 1; v3 0 (-1) 0];
    [v3 0 0 0; v3 0 0 1; v3 (-1) (-1) 0; v3 0 (-1) 0];
    [v3 0 0 0; v3 0 0 1; v3 (-1) (-1) 0; v3 (-1) 0 0];
    [v3 0 0 0; v3 1 0 0; v3 1 1 0; v3 0 0 (-1)];
    [v3 0 0 0; v3 0 1 0; v3 1 1 0; v3 0 0 (-1)];
    [v3 0 0 0; v3 0 1 0; v3 (-1) 0 (-1); v3 0 0 (-1)];
    [v3 0 0 0; v3 0 1 0; v3 (-1) 0 (-1); v3 (-1) 0 0];
    [v3 0 0 0; v3 1 0 0; v3 0 (-1) (-1); v3 0 0 (-1)];
    [v3 0 0 0; v3 1 0 0; v3 0 (-1) (-1); v3 0 (-1) 0];
    [v3 0 0 0; v3 (-1) (-1) (-1); v3 0 (-1) (-1); v3 0 0 (-1)];
    [v3 0 0 0; v3 (-1) (-1) (-1); v3 0 (-1) (-1); v3 0 (-1) 0];
    [v3 0 0 0; v3 (-1) (-1) (-1); v3 (-1) 0 (-1); v3 0 0 (-1)];
    [v3 0 0 0; v3 (-1) (-1) (-1); v3 (-1) 0 (-1); v3 (-1) 0 0];
    [v3 0 0 0; v3 (-1) (-1) (-1); v3 (-1) (-1) 0; v3 0 (-1) 0];
    [v3 0 0 0; v3 (-1) (-1) (-1); v3 (-1) (-1) 0; v3 (-1) 0 0]];
   [[v3 0 0 0; v3 1 0 0; v3 0 1 0; v3 0 1 1];
    [v3 0 0 0; v3 1 0 0; v3 0 0 1; v3 0 1 1];
    [v3 0 0 0; v3 (-1) 1 0; v3 (-1) 1 1; v3 (-1) 0 0];
    [v3 0 0 0; v3 (-1) 0 1; v3 (-1) 1 1; v3 (-1) 0 0];
    [v3 0 0 0; v3 (-1) 1 0; v3 0 1 0; v3 (-1) 1 1];
    [v3 0 0 0; v3 0 1 0; v3 (-1) 1 1; v3 0 1 1];
    [v3 0 0 0; v3 (-1) 0 1; v3 0 0 1; v3 (-1) 1 1];
    [v3 0 0 0; v3 0 0 1; v3 (-1) 1 1; v3 0 1 1];
    [v3 0 0 0; v3 0 0 1; v3 0 (-1) 0; v3 1 (-1) 0];
    [v3 0 0 0; v3 1 0 0; v3 0 0 1; v3 1 (-1) 0];
    [v3 0 0 0; v3 (-1) 0 1; v3 0 (-1) 0; v3 (-1) 0 0];
    [v3 0 0 0; v3 (-1) 0 1; v3 0 0 1; v3 0 (-1) 0];
    [v3 0 0 0; v3 0 1 0; v3 0 0 (-1); v3 1 0 (-1)];
    [v3 0 0 0; v3 1 0 0; v3 0 1 0; v3 1 0 (-1)];
    [v3 0 0 0; v3 (-1) 1 0; v3 0 0 (-1); v3 (-1) 0 0];
    [v3 0 0 0; v3 (-1) 1 0; v3 0 1 0; v3 0 0 (-1)];
    [v3 0 0 0; v3 0 (-1) (-1); v3 1 (-1) (-1); v3 0 0 (-1)];
    [v3 0 0 0; v3 0 (-1) (-1); v3 1 (-1) (-1); v3 0 (-1) 0];
    [v3 0 0 0; v3 1 (-1) (-1); v3 0 0 (-1); v3 1 0 (-1)];
    [v3 0 0 0; v3 1 0 0; v3 1 (-1) (-1); v3 1 0 (-1)];
    [v3 0 0 0; v3 1 (-1) (-1); v3 0 (-1) 0; v3 1 (-1) 0];
    [v3 0 0 0; v3 1 0 0; v3 1 (-1) (-1); v3 1 (-1) 0];
    [v3 0 0 0; v3 0 (-1) (-1); v3 0 0 (-1); v3 (-1) 0 0];
    [v3 0 0 0; v3 0 (-1) (-1); v3 0 (-1) 0; v3 (-1) 0 0]];
   [[v3 0 0 0; v3 1 0 0; v3 0 1 0; v3 1 0 1];
    [v3 0 0 0; v3 0 1 0; v3 0 0 1; v3 1 0 1];
    [v3 0 0 0; v3 (-1) 1 0; v3 0 0 1; v3 (-1) 0 0];
    [v3 0 0 0; v3 (-1) 1 0; v3 0 1 0; v3 0 0 1];
    [v3 0 0 0; v3 1 (-1) 1; v3 0 (-1) 0; v3 1 (-1) 0];
    [v3 0 0 0; v3 0 (-1) 1; v3 1 (-1) 1; v3 0 (-1) 0];
    [v3 0 0 0; v3 1 0 0; v3 1 (-1) 1; v3 1 (-1) 0];
    [v3 0 0 0; v3 1 0 0; v3 1 (-1) 1; v3 1 0 1];
    [v3 0 0 0; v3 0 (-1) 1; v3 1 (-1) 1; v3 0 0 1];
    [v3 0 0 0; v3 1 (-1) 1; v3 0 0 1; v3 1 0 1];
    [v3 0 0 0; v3 0 (-1) 1; v3 0 (-1) 0; v3 (-1) 0 0];
    [v3 0 0 0; v3 0 (-1) 1; v3 0 0 1; v3 (-1) 0 0];
    [v3 0 0 0; v3 1 0 0; v3 0 0 (-1); v3 0 1 (-1)];
    [v3 0 0 0; v3 1 0 0; v3 0 1 0; v3 0 1 (-1)];
    [v3 0 0 0; v3 (-1) 0 (-1); v3 0 0 (-1); v3 (-1) 1 (-1)];
    [v3 0 0 0; v3 (-1) 0 (-1); v3 (-1) 1 (-1); v3 (-1) 0 0];
    [v3 0 0 0; v3 0 0 (-1); v3 (-1) 1 (-1); v3 0 1 (-1)];
    [v3 0 0 0; v3 0 1 0; v3 (-1) 1 (-1); v3 0 1 (-1)];
    [v3 0 0 0; v3 (-1) 1 0; v3 (-1) 1 (-1); v3 (-1) 0 0];
    [v3 0 0 0; v3 (-1) 1 0; v3 0 1 0; v3 (-1) 1 (-1)];
    [v3 0 0 0; v3 0 0 (-1); v3 0 (-1) 0; v3 1 (-1) 0];
    [v3 0 0 0; v3 1 0 0; v3 0 0 (-1); v3 1 (-1) 0];
    [v3 0 0 0; v3 (-1) 0 (-1); v3 0 0 (-1); v3 0 (-1) 0];
    [v3 0 0 0; v3 (-1) 0 (-1); v3 0 (-1) 0; v3 (-1) 0 0]];
   [[v3 0 0 0; v3 1 0 0; v3 1 1 0; v3 0 0 1];
    [v3 0 0 0; v3 0 1 0; v3 1 1 0; v3 0 0 1];
    [v3 0 0 0; v3 0 1 0; v3 (-1) 0 1; v3 (-1) 0 0];
    [v3 0 0 0; v3 0 1 0; v3 (-1) 0 1; v3 0 0 1];
    [v3 0 0 0; v3 1 0 0; v3 0 (-1) 1; v3 0 (-1) 0];
    [v3 0 0 0; v3 1 0 0; v3 0 (-1) 1; v3 0 0 1];
    [v3 0 0 0; v3 (-1) (-1) 1; v3 (-1) (-1) 0; v3 0 (-1) 0];
    [v3 0 0 0; v3 (-1) (-1) 1; v3 (-1) (-1) 0; v3 (-1) 0 0];
    [v3 0 0 0; v3 (-1) (-1) 1; v3 0 (-1) 1; v3 0 (-1) 0];
    [v3 0 0 0; v3 (-1) (-1) 1; v3 (-1) 0 1; v3 (-1) 0 0];
    [v3 0 0 0; v3 (-1) (-1) 1; v3 0 (-1) 1; v3 0 0 1];
    [v3 0 0 0; v3 (-1) (-1) 1; v3 (-1) 0 1; v3 0 0 1];
    [v3 0 0 0; v3 0 0 (-1); v3 1 0 (-1); v3 1 1 (-1)];
    [v3 0 0 0; v3 0 0 (-1); v3 0 1 (-1); v3 1 1 (-1)];
    [v3 0 0 0; v3 1 0 0; v3 1 0 (-1); v3 1 1 (-1)];
    [v3 0 0 0; v3 0 1 0; v3 0 1 (-1); v3 1 1 (-1)];
    [v3 0 0 0; v3 1 0 0; v3 1 1 0; v3 1 1 (-1)];
    [v3 0 0 0; v3 0 1 0; v3 1 1 0; v3 1 1 (-1)];
    [v3 0 0 0; v3 0 0 (-1); v3 0 1 (-1); v3 (-1) 0 0];
    [v3 0 0 0; v3 0 1 0; v3 0 1 (-1); v3 (-1) 0 0];
    [v3 0 0 0; v3 0 0 (-1); v3 1 0 (-1); v3 0 (-1) 0];
    [v3 0 0 0; v3 1 0 0; v3 1 0 (-1); v3 0 (-1) 0];
    [v3 0 0 0; v3 0 0 (-1); v3 (-1) (-1) 0; v3 0 (-1) 0];
    [v3 0 0 0; v3 0 0 (-1); v3 (-1) (-1) 0; v3 (-1) 0 0]]
  ]%Z.

(** c/tetrahedron_method.c:896-913 get_main_diagonal, 915-931 its helpers *)
Definition diag_length (rec_lattice : QM) (i : nat) : Q :=
  qnorm2 (qmulMV rec_lattice (qv_of (nth i main_diagonals vzero))).
Definition get_main_diagonal (rec_lattice : QM) : nat :=
  fst (fold_left (fun s i => let '(shortest, min_length) := s in
                    let length := diag_length rec_lattice i in
                    if qltb length min_length then (i, length) else s)
                 [1; 2; 3]%nat (0%nat, diag_length rec_lattice 0)).
(** c/tetrahedron_method.c:722-737 thm_get_relative_grid_address *)
Definition thm_get_relative_grid_address (rec_lattice : QM) : list (list V3) :=
  nth (get_main_diagonal rec_lattice) db_relative_grid_address [].
(** c/tetrahedron_method.c:739-753 thm_get_all_relative_grid_address *)
Definition thm_get_all_relative_grid_address : list (list (list V3)) := db_relative_grid_address.

(** ** Sorting of the vertex values *)
(** c/tetrahedron_method.c:827-894 sort_omegas; returns v after the call and i *)
Definition sort_omegas (v : T4) : T4 * Z :=
  let '(t4 x0 x1 x2 x3) := v in
  let '(w0, w1, i) := if qltb x1 x0 then (x1, x0, 1%Z) else (x0, x1, 0%Z) in
  let '(w2, w3) := if qltb x3 x2 then (x3, x2) else (x2, x3) in
  let '(x0, x1, i) := if qltb w2 w0 then (w2, w0, if (i =? 0)%Z then 4%Z else i) else (w0, w2, i) in
  let '(x3, x2, i) := if qltb w3 w1 then (w1, w3, if (i =? 1)%Z then 3%Z else i)
                      else (w3, w1, if (i =? 1)%Z then 5%Z else i) in
  if qltb x2 x1 then
    let i := if (i =? 4)%Z then 2%Z else i in
    let i := if (i =? 5)%Z then 1%Z else i in
    (t4 x0 x2 x1 x3, i)
  else
    let i := if (i =? 4)%Z then 1%Z else i in
    let i := if (i =? 5)%Z then 2%Z else i in
    (t4 x0 x1 x2 x3, i).

(** ** Weight formulas *)
Section Formulas.
(** [eps] is THM_EPSILON (CMakeLists.txt defines it as 1e-10 in every build); [eps <= 0] is the code
    without the macro. Doubles are rationals; division by zero does not occur except
    where the code would produce inf or nan (then Q gives 0). *)
Variable eps : Q.
Variable omega : Q.
Variable v : T4.

(** c/tetrahedron_method.c:933-945 _f *)
Definition f_ (n m : nat) : Q :=
  let delta := t4get v n - t4get v m in
  if qltb (Qabs delta) eps then 0 else (omega - t4get v m) / delta.

(** c/tetrahedron_method.c:1091-1121 _n_0 .. _n_4 *)
Definition n_1 : Q := f_ 1 0 * f_ 2 0 * f_ 3 0.
Definition n_2 : Q := f_ 3 1 * f_ 2 1 + f_ 3 0 * f_ 1 3 * f_ 2 1 + f_ 3 0 * f_ 2 0 * f_ 1 2.
Definition n_3 : Q := 1 - f_ 0 3 * f_ 1 3 * f_ 2 3.
(** c/tetrahedron_method.c:1047-1068 _n *)
Definition n_ (i : Z) : Q :=
  match i with 0%Z => 0 | 1%Z => n_1 | 2%Z => n_2 | 3%Z => n_3 | 4%Z => 1 | _ => 0 end.

(** c/tetrahedron_method.c:1123-1149 _g_0 .. _g_4 *)
Definition g_1 : Q := 3 * f_ 1 0 * f_ 2 0 / (t4get v 3 - t4get v 0).
Definition g_2 : Q := 3 / (t4get v 3 - t4get v 0) * (f_ 1 2 * f_ 2 0 + f_ 2 1 * f_ 1 3).
Definition g_3 : Q := 3 * f_ 1 3 * f_ 2 3 / (t4get v 3 - t4get v 0).
(** c/tetrahedron_method.c:1070-1089 _g *)
Definition g_ (i : Z) : Q :=
  match i with 0%Z => 0 | 1%Z => g_1 | 2%Z => g_2 | 3%Z => g_3 | 4%Z => 0 | _ => 0 end.

(** c/tetrahedron_method.c:1153-1342 _J_10 .. _J_33 *)
Definition J_10 : Q := (1 + f_ 0 1 + f_ 0 2 + f_ 0 3) / 4.
Definition J_11 : Q := f_ 1 0 / 4.
Definition J_12 : Q := f_ 2 0 / 4.
Definition J_13 : Q := f_ 3 0 / 4.
Definition J_20 : Q := if qltb n_2 eps then 0 else
  (f_ 3 1 * f_ 2 1 + f_ 3 0 * f_ 1 3 * f_ 2 1 * (1 + f_ 0 3) +
   f_ 3 0 * f_ 2 0 * f_ 1 2 * (1 + f_ 0 3 + f_ 0 2)) / 4 / n_2.
Definition J_21 : Q := if qltb n_2 eps then 0 else
  (f_ 3 1 * f_ 2 1 * (1 + f_ 1 3 + f_ 1 2) + f_ 3 0 * f_ 1 3 * f_ 2 1 * (f_ 1 3 + f_ 1 2) +
   f_ 3 0 * f_ 2 0 * f_ 1 2 * f_ 1 2) / 4 / n_2.
Definition J_22 : Q := if qltb n_2 eps then 0 else
  (f_ 3 1 * f_ 2 1 * f_ 2 1 + f_ 3 0 * f_ 1 3 * f_ 2 1 * f_ 2 1 +
   f_ 3 0 * f_ 2 0 * f_ 1 2 * (f_ 2 1 + f_ 2 0)) / 4 / n_2.
Definition J_23 : Q := if qltb n_2 eps then 0 else
  (f_ 3 1 * f_ 2 1 * f_ 3 1 + f_ 3 0 * f_ 1 3 * f_ 2 1 * (f_ 3 1 + f_ 3 0) +
   f_ 3 0 * f_ 2 0 * f_ 1 2 * f_ 3 0) / 4 / n_2.
Definition J_30 : Q := if qltb n_3 eps then 0 else (1 - f_ 0 3 * f_ 0 3 * f_ 1 3 * f_ 2 3) / 4 / n_3.
Definition J_31 : Q := if qltb n_3 eps then 0 else (1 - f_ 0 3 * f_ 1 3 * f_ 1 3 * f_ 2 3) / 4 / n_3.
Definition J_32 : Q := if qltb n_3 eps then 0 else (1 - f_ 0 3 * f_ 1 3 * f_ 2 3 * f_ 2 3) / 4 / n_3.
Definition J_33 : Q := if qltb n_3 eps then 0 else
  (1 - f_ 0 3 * f_ 1 3 * f_ 2 3 * (1 + f_ 3 0 + f_ 3 1 + f_ 3 2)) / 4 / n_3.
(** c/tetrahedron_method.c:947-995 _J; the inner switch falls through to the next
    region for ci outside 0..3, which sort_omegas never returns (C20); here 0. *)
Definition J_ (i ci : Z) : Q :=
  match i, ci with
  | 0%Z, _ => 0
  | 1%Z, 0%Z => J_10 | 1%Z, 1%Z => J_11 | 1%Z, 2%Z => J_12 | 1%Z, 3%Z => J_13
  | 2%Z, 0%Z => J_20 | 2%Z, 1%Z => J_21 | 2%Z, 2%Z => J_22 | 2%Z, 3%Z => J_23
  | 3%Z, 0%Z => J_30 | 3%Z, 1%Z => J_31 | 3%Z, 2%Z => J_32 | 3%Z, 3%Z => J_33
  | 4%Z, _ => 1 # 4
  | _, _ => 0
  end.

(** c/tetrahedron_method.c:1346-1454 _I_10 .. _I_33 *)
Definition I_10 : Q := (f_ 0 1 + f_ 0 2 + f_ 0 3) / 3.
Definition I_11 : Q := f_ 1 0 / 3.
Definition I_12 : Q := f_ 2 0 / 3.
Definition I_13 : Q := f_ 3 0 / 3.
Definition I_20 : Q :=
  let f12_20 := f_ 1 2 * f_ 2 0 in
  let g := f12_20 + f_ 2 1 * f_ 1 3 in
  if qltb g eps then 0 else (f_ 0 3 + f_ 0 2 * f12_20 / g) / 3.
Definition I_21 : Q :=
  let f13_21 := f_ 1 3 * f_ 2 1 in
  let g := f_ 1 2 * f_ 2 0 + f13_21 in
  if qltb g eps then 0 else (f_ 1 2 + f_ 1 3 * f13_21 / g) / 3.
Definition I_22 : Q :=
  let f12_20 := f_ 1 2 * f_ 2 0 in
  let g := f12_20 + f_ 2 1 * f_ 1 3 in
  if qltb g eps then 0 else (f_ 2 1 + f_ 2 0 * f12_20 / g) / 3.
Definition I_23 : Q :=
  let f13_21 := f_ 1 3 * f_ 2 1 in
  let g := f_ 1 2 * f_ 2 0 + f13_21 in
  if qltb g eps then 0 else (f_ 3 0 + f_ 3 1 * f13_21 / g) / 3.
Definition I_30 : Q := f_ 0 3 / 3.
Definition I_31 : Q := f_ 1 3 / 3.
Definition I_32 : Q := f_ 2 3 / 3.
Definition I_33 : Q := (f_ 3 0 + f_ 3 1 + f_ 3 2) / 3.
(** c/tetrahedron_method.c:997-1045 _I; same remark as for [J_] *)
Definition I_ (i ci : Z) : Q :=
  match i, ci with
  | 0%Z, _ => 0
  | 1%Z, 0%Z => I_10 | 1%Z, 1%Z => I_11 | 1%Z, 2%Z => I_12 | 1%Z, 3%Z => I_13
  | 2%Z, 0%Z => I_20 | 2%Z, 1%Z => I_21 | 2%Z, 2%Z => I_22 | 2%Z, 3%Z => I_23
  | 3%Z, 0%Z => I_30 | 3%Z, 1%Z => I_31 | 3%Z, 2%Z => I_32 | 3%Z, 3%Z => I_33
  | 4%Z, _ => 0
  | _, _ => 0
  end.
End Formulas.

(** ** Integration weight *)
(** c/tetrahedron_method.c:804-821: which case of the if cascade is taken; [None] when
    none is (omega equal to a vertex value). *)
Definition region (omega : Q) (v : T4) : option Z :=
  let '(t4 x0 x1 x2 x3) := v in
  if qltb omega x0 then Some 0%Z
  else if (qltb x0 omega && qltb omega x1)%bool then Some 1%Z
  else if (qltb x1 omega && qltb omega x2)%bool then Some 2%Z
  else if (qltb x2 omega && qltb omega x3)%bool then Some 3%Z
  else if qltb x3 omega then Some 4%Z
  else None.

(** one iteration of the loop c/tetrahedron_method.c:799-823; [fI] is function == 'I' *)
Definition tetra_term (eps : Q) (fI : bool) (omega : Q) (t : T4) : Q :=
  let '(v, ci) := sort_omegas t in
  match region omega v with
  | None => 0
  | Some i => if fI then I_ eps omega v i ci * g_ eps omega v i
              else J_ eps omega v i ci * n_ eps omega v i
  end.

(** c/tetrahedron_method.c:790-825 get_integration_weight, 755-763 thm_get_integration_weight;
    the number of tetrahedra (24 in the code) is the length of the list *)
Definition thm_get_integration_weight (eps : Q) (omega : Q) (tetrahedra_omegas : list T4) (fI : bool) : Q :=
  fold_left (fun sum t => sum + tetra_term eps fI omega t) tetrahedra_omegas 0 / 6.

(** c/tetrahedron_method.c:765-788 thm_in_tetrahedra *)
Definition fold4 {A} (f : A -> Q -> A) (s : A) (t : T4) : A :=
  let '(t4 a b c d) := t in f (f (f (f s a) b) c) d.
Definition thm_in_tetrahedra (f0 : Q) (freq_vertices : list T4) : bool :=
  let first := match freq_vertices with t4 a _ _ _ :: _ => a | [] => 0 end in
  let '(fmin, fmax) :=
    fold_left (fold4 (fun s x => let '(fmin, fmax) := s in
                        (if qltb x fmin then x else fmin, if qltb fmax x then x else fmax)))
              freq_vertices (first, first) in
  negb (qltb f0 fmin || qltb fmax f0).
