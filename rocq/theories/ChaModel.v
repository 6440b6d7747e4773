(** Collective phonons (solve_collective_phonon), mean free paths and f-vectors
    of the direct solution.

    Source: phono3py/conductivity/direct_solution.py.

    Numbers, arrays and the first steps of the solution are those of DirModel. *)
From Coq Require Import ZArith List Bool.
From Verif Require Import Base Par Par2 DirModel.
Import ListNotations.
Open Scope Z_scope.

Section Collective.
Variable K : numbers.
Notation "0" := (n0 K).
Notation "1" := (n1 K).
Infix "+" := (nadd K).
Infix "*" := (nmul K).
Infix "/" := (ndiv K).
Notation "- x" := (nopp K x).
Local Notation Sm := (Sm K).
Variables (g nir nb : Z) (cart : Z -> Z -> Z -> K).

(** direct_solution.py 930-936 (_get_I with plus_transpose, the only way it is
    called): r_sum. *)
Definition r_part (a b i j : Z) : K := Sm g (fun l => cart l a i * cart l b j).
Definition r_sum (a b i j : Z) : K := r_part a b i j + r_part a b j i.
(** 938-948: [small x] is abs(x) < 1e-10. *)
Variable small : K -> bool.
Definition get_I (a b : Z) : option (Z -> Z -> K) :=
  if forallb (fun i => forallb (fun j => small (r_sum a b i j)) (zrange 3)) (zrange 3)
  then None
  else Some (fun p q => if p / 3 =? q / 3 then r_sum a b (p mod 3) (q mod 3) else 0).

(** 1112-1113: v.diag(e).v^T. *)
Definition omega_inv (size : Z) (v : Z -> Z -> K) (e : Z -> K) (p q : Z) : K :=
  Sm size (fun l => v p l * (e l * v q l)).
(** 1114: Y, as an array (mode, Cartesian component); X likewise. *)
Definition cha_Y (size : Z) (oi : Z -> Z -> K) (X : Z -> Z -> K) (p a : Z) : K :=
  Sm size (fun m => oi (p * 3 + a)%Z m * X (m / 3)%Z (m mod 3)).
(** 1121: np.dot(mat, omega_inv); NumPy makes a temporary copy when the output
    overlaps with an input. *)
Definition cha_mat (size : Z) (oi mat : Z -> Z -> K) (p q : Z) : K :=
  Sm size (fun m => mat p m * oi m q).
(** What a LAPACK routine for symmetric matrices reads of an array that need not
    be symmetric: one triangle, in all of the solvers (1841-1960) the lower one
    of the C-ordered array ("U" of the transposed one in 1, 2, 4, 5, "L" in
    numpy.linalg.eigh). *)
Definition triangle (m : Z -> Z -> K) (p q : Z) : K := if q <=? p then m p q else m q p.
(** 1130: spectra, 1131-1134: vals; [v2], [w2] are the eigenvectors and
    eigenvalues of the matrix of 1121. *)
Definition spectrum (size : Z) (v2 : Z -> Z -> K) (w2 : Z -> K) (X : Z -> Z -> K) (l : Z) : K :=
  let d := Sm size (fun m => v2 m l * X (m / 3)%Z (m mod 3)) in d * d * w2 l.
Definition cha_vals (size : Z) (v2 : Z -> Z -> K) (w2 : Z -> K) (X : Z -> Z -> K) (p : Z) : K :=
  fold_left (fun s l => s + spectrum size v2 w2 X l * Sm 3 (fun c => v2 (p * 3 + c)%Z l * v2 (p * 3 + c)%Z l))
            (zrange size) 0.
(** 1094-1137 (_set_mode_kappa_Chaput): element (a, b) of the tensor of mode j at the i-th
    grid point, given what the diagonalization of the matrix of (a, b) gives. *)
Definition cha_mode (factor : K) (X : Z -> Z -> K) (v2 : Z -> Z -> K) (w2 : Z -> K)
  (a b i j : Z) : K :=
  match get_I a b with
  | None => 0
  | Some _ => cha_vals (nir * nb * 3) v2 w2 X (i * nb + j)%Z
  end * factor.
(** 273 *)
Definition cha_kappa (factor N : K) (X : Z -> Z -> K) (v2 : Z -> Z -> K) (w2 : Z -> K) (a b : Z) : K :=
  Sm nir (fun i => Sm nb (fun j => cha_mode factor X v2 w2 a b i j)) / N.

(** ** Mean free paths *)
(** 1154-1164 (_set_mean_free_path); [f] are the f-vectors just set (C117_f_vectors), [root] is
    np.sqrt, [tiny x] is x < 1e-10, [pi] is np.pi; the array is zero before. *)
Variables (root : K -> K) (tiny : K -> bool) (kb pi t conv : K).
Definition cha_mfp (cv : Z -> Z -> K) (f : Z -> Z -> K) (i j a : Z) : K :=
  if tiny (cv i j) then 0
  else (- (1 + 1)) * t * root (kb / cv i j) * f (i * nb + j)%Z a / ((1 + 1) * pi).
(** 1139-1152 (_set_mode_kappa_from_mfp; its call in 268-271 is commented out), for one smearing width
    and temperature. *)
Definition mode_from_mfp (gv mfp : Z -> Z -> Z -> K) (cv : Z -> Z -> K) (w : Z -> K) (i j a b : Z) : K :=
  let s a b := Sm g (fun l => rotv K cart l (gv i j) a * rotv K cart l (mfp i j) b) in
  (s a b + s b a) / (1 + 1) * cv i j * (w i * w i) * (1 + 1) * pi * (- conv).
End Collective.

(** ** f-vectors of several smearing widths and temperatures *)
(** 345-347: one array of f-vectors; 898-908 with 819-896: overwritten by each
    solution; 1350-1393 (_set_kappa_at_sigmas): the loops over smearing widths and temperatures,
    where nothing is solved at 0 K and below.  [solution s t] are the f-vectors of
    a solution, [zero] the initial array, [pos t]: temperature t is above zero. *)
Definition f_vectors_array {A} (solution : Z -> Z -> A) (pos : Z -> bool) (ns nt : Z) (zero : A) : A :=
  fold_left (fun st s => fold_left (fun st t => if pos t then solution s t else st) (zrange nt) st)
            (zrange ns) zero.
(** utils.py 546-633: what is written as "f_vector" in the file of smearing width s. *)
Definition f_vectors_file {A} (solution : Z -> Z -> A) (pos : Z -> bool) (ns nt : Z) (zero : A) (s : Z) : A :=
  f_vectors_array solution pos ns nt zero.
