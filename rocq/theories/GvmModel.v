(** Group velocity matrices.

    Source: phono3py/phonon/group_velocity_matrix.py, _calculate_group_velocity_matrix_at_q and _rot_eigsets. (The
    symmetrization 161-186 is in WigModel.v.)

    Matrices as in VelModel.v. The derivatives of the dynamical matrix (phonopy's _get_dD), the frequencies and the
    degenerate sets (phonopy's degenerate_sets) are arguments. *)
From Coq Require Import ZArith QArith List Bool.
From Verif Require Import Base QMat Cplx VelModel.
Import ListNotations.
Open Scope Z_scope.

Section Gvm.
Variable n : Z.
(** np.linalg.eigh for matrices of the given order; 1 / np.sqrt *)
Variable eigh : Z -> mat -> (Z -> Q) * mat.
Variable rsqrt : Q -> Q.
(** index of a band in a set *)
Fixpoint pos (s : Z) (l : list Z) (k : Z) : option Z :=
  match l with [] => None | x :: l => if x =? s then Some k else pos s l (k + 1) end.
Definition elem (deg : list Z) (k : Z) : Z := nth (Z.to_nat k) deg 0.
(** eigvecs[:, deg] *)
Definition columns (v : mat) (deg : list Z) : mat := fun p k => v p (elem deg k).
(** _rot_eigsets 188-214 *)
Definition block (ddm0 : mat) (eigsets : mat) : mat := matmul n (adj eigsets) (matmul n ddm0 eigsets).
Definition rot_eigsets (m : Z) (ddm0 eigsets : mat) : mat :=
  let E := snd (eigh m (block ddm0 eigsets)) in fun p k => CSum m (fun j => cmul (eigsets p j) (E j k)).
(** 140-143 *)
Definition rot_eigvecs (ddm0 : mat) (deg_sets : list (list Z)) (v : mat) : mat :=
  fold_left (fun r deg => let e := rot_eigsets (Z.of_nat (length deg)) ddm0 (columns v deg) in
    fun p s => match pos s deg 0 with Some k => e p k | None => r p s end) deg_sets (fun _ _ => c0).
(** 144-146 *)
Definition scale (cutoff : Q) (freqs : Z -> Q) (s : Z) : Q :=
  let condition := qltb cutoff (freqs s) in
  let f := if condition then freqs s else 1%Q in
  if condition then rsqrt (2 * f)%Q else 0%Q.
(** 132-151: gvm[i], i = 0, 1, 2; [ddms] has four elements, the first for the perturbation direction. *)
Definition gvm (ddms : list mat) (deg_sets : list (list Z)) (v : mat) (freqs : Z -> Q) (cutoff factor : Q) (i : Z) : mat :=
  let zero := fun _ _ => c0 in
  let rot := rot_eigvecs (nth 0 ddms zero) deg_sets v in
  let rot := fun p s => cscale (scale cutoff freqs s) (rot p s) in
  let ddm := fun p q => cscale (factor * factor) (nth (Z.to_nat (i + 1)) ddms zero p q) in
  matmul n (adj rot) (matmul n ddm rot).
End Gvm.
