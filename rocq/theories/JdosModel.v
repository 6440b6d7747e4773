(** Joint density of states: phono3py/phonon3/joint_dos.py 339-418 (run_jdos and its helpers).
    The integration weights self._g (shape (2 or 3, triplets, frequency points, band, band)) and self._g_zero are arguments; the C routine
    called for a given temperature is imag_self_energy_with_g of [IseModel] with one band0 and an array of ones. [bose f T] stands for
    both funcs_bose_einstein (C) and bose_einstein (Python). *)
From Coq Require Import ZArith QArith List Bool.
From Verif Require Import Base QMat Par Par2 IseModel.
Import ListNotations.
Open Scope Z_scope.

Section Jdos.
Variable bose : Q -> Q -> Q.
(** bands, triplets, frequency points; numbers along the axes of the grid *)
Variable nb ntrip nfp : Z.
Variable D_diag : Z -> Z.
Variable freq : Z -> Q.
Variable triplets : Z -> tp3.
Variable weights : Z -> Z.
Variable g : Z -> Q.
Definition g_at (plane i r k l : Z) : Q := g ((((plane * ntrip + i) * nfp + r) * nb + k) * nb + l).
(** 351-360: no temperature; columns 1 and 0 *)
Definition jdos_none (r col : Z) : Q :=
  if col =? 1 then fold_left (fun s k => fold_left (fun s l => s + fold_left (fun s i => s + g_at 0 i r k l * inject_Z (weights i)) (zrange ntrip) 0) (zrange nb) s)%Q (zrange nb) 0%Q
  else fold_left (fun s k => fold_left (fun s l => s + fold_left (fun s i => s + (g_at 2 i r k l - g_at 0 i r k l) * inject_Z (weights i)) (zrange ntrip) 0) (zrange nb) s)%Q (zrange nb) 0%Q.
(** 364-368: the array of ones *)
Definition ones_pp : Z -> Q := fun _ => 1%Q.
(** 369-372: the copy of g with plane [k] set to zero *)
Definition g_without (k : Z) : Z -> Q := fun x => if x / (ntrip * nfp * nb * nb) =? k then 0%Q else g x.
(** 380-397 (_run_c_with_g_at_temperature): the loops of the C routine for the frequency point [r], column [k] *)
Definition jdos_c_inner (g_zero : Z -> bool) (T cutoff : Q) (r k i : Z) : list (@prog Z Q) :=
  with_g_inner bose 1 nb ntrip nfp r ones_pp freq triplets weights (g_without k) g_zero T cutoff i.
Definition jdos_c_outer (g_zero : Z -> bool) (r : Z) (at_g : Z -> Z -> Q) : list (@prog Z Q) := with_g_outer 1 nb ntrip nfp r g_zero at_g.
Definition jdos_c (ise : Z -> Q) : Q := sum_triplets 1 ntrip ise 0.
(** 399-404 (_run_occupation): the occupation of band [k] of the [which]-th member (1 or 2) of triplet [i] *)
Definition jdos_occ (T cutoff : Q) (i which k : Z) : Q :=
  let f := freq (tp_at (triplets i) which * nb + k) in if qltb cutoff f then bose f T else (-1)%Q.
(** 406-418 (_run_py_with_g_at_temperature) *)
Definition jdos_py (T cutoff : Q) (r col : Z) : Q :=
  fold_left (fun s k => fold_left (fun s l =>
    let w := fun i => if qltb (jdos_occ T cutoff i 1 k) 0 || qltb (jdos_occ T cutoff i 2 l) 0 then 0%Q else inject_Z (weights i) in
    (s + fold_left (fun s i =>
       s + (if (col =? 1)%Z then (jdos_occ T cutoff i 1 k + jdos_occ T cutoff i 2 l + 1) * g_at 0 i r k l
            else (jdos_occ T cutoff i 1 k - jdos_occ T cutoff i 2 l) * g_at 1 i r k l) * w i) (zrange ntrip) 0)%Q) (zrange nb) s) (zrange nb) 0%Q.
(** 378: division by the number of grid points *)
Definition jdos_final (x : Q) : Q := (x / inject_Z (D_diag 0 * D_diag 1 * D_diag 2))%Q.
End Jdos.
