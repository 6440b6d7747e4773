(** Scattering by mass disorder: c/isotope.c and phono3py/other/isotope.py. Doubles are rationals. Phonons are given on
    the whole BZ grid, as set by set_phonons or the phonon solver: [freq] (grid point, band) and [eig]
    (grid point, component, band) are flattened arrays. [gauss x sigma] is funcs_gaussian (c/funcs.c 48-50) and
    gaussian (phono3py/phonon/func.py 41-43), [pi] the constant of both languages. *)
From Coq Require Import ZArith QArith List Bool Permutation.
From Verif Require Import Base QMat Par Par2 Cplx.
Import ListNotations.
Open Scope Z_scope.

(** [#pragma omp parallel for reduction(+ : s)] with s = 0 before the loop: every thread adds its share of the
    iterations to a private sum starting from zero, and the private sums are added in some order *)
Definition omp_sum (vals : list Q) (s : Q) : Prop :=
  exists shares, Permutation (concat shares) vals /\ s = fold_left Qplus (map (fun share => fold_left Qplus share 0%Q) shares) 0%Q.

Section Iso.
Variables (pi : Q) (gauss : Q -> Q -> Q).
Variables (nb : Z) (freq : Z -> Q) (eig : Z -> cplx) (mv : Z -> Q) (cutoff : Q).

(** c/isotope.c 58-68, 145-155: f0[i] and the components of e0 for the i-th of the band indices *)
Definition iso_f0 (gp : Z) (bi : list Z) (i : Z) : Q := freq (gp * nb + nth (Z.to_nat i) bi 0).
Definition iso_e0 (gp : Z) (bi : list Z) (i j : Z) : cplx := eig (gp * nb * nb + j * nb + nth (Z.to_nat i) bi 0).

(** 92-108, 183-199: sum_g_k with the contributions of all atoms to band k of grid point gp added *)
Definition iso_atoms (e0 : Z -> cplx) (gp k : Z) (dist : Q) (sum_g_k : Q) : Q :=
  fold_left (fun s l =>
    let '(a, b) := fold_left (fun ab m => let '(a, b) := ab in
        let e1 := eig (gp * nb * nb + (l * 3 + m) * nb + k) in
        ((a + (re (e0 (l * 3 + m)%Z) * re e1 + im (e0 (l * 3 + m)%Z) * im e1))%Q,
         (b + (im (e0 (l * 3 + m)%Z) * re e1 - re (e0 (l * 3 + m)%Z) * im e1))%Q)) (zrange 3) (0%Q, 0%Q) in
    (s + (a * a + b * b) * mv l * dist)%Q) (zrange (Z.quot nb 3)) sum_g_k.
(** 85-109, 175-200: loop over the bands of one grid point *)
Definition iso_bands (e0 : Z -> cplx) (gp : Z) (dist : Z -> Q) : Q :=
  fold_left (fun s k => if qltb (freq (gp * nb + k)) cutoff then s else iso_atoms e0 gp k (dist k) s) (zrange nb) 0%Q.

(** 115-120, 215-220 *)
Definition iso_factor (f0 : Q) : Q := (2 * pi / 4 * f0 * f0 / 2)%Q.

(** 44-128 (iso_get_isotope_scattering_strength): [gamma] may be in the array afterwards *)
Definition iso_gaussian (gamma : Z -> Q) (gp : Z) (gps : list Z) (weights : Z -> Q) (bi : list Z) (sigma : Q) : Prop :=
  forall i, 0 <= i < Z.of_nat (length bi) ->
    if qltb (iso_f0 gp bi i) cutoff then gamma i = (0 * iso_factor (iso_f0 gp bi i))%Q
    else exists s, omp_sum (map (fun g => (iso_bands (iso_e0 gp bi i) g (fun k => gauss (freq (g * nb + k)%Z - iso_f0 gp bi i) sigma) * weights g)%Q) gps) s
      /\ gamma i = (s * iso_factor (iso_f0 gp bi i))%Q.

(** 157-163: gamma_ij set to zero, and 165-203: the parallel loop over grid points. [iw] is integration_weights *)
Definition iso_zero_iterations (n : Z) : list (list (Z * Q)) := map (fun i => [(i, 0%Q)]) (zrange n).
Definition iso_thm_iteration (gp : Z) (gps : list Z) (weights : Z -> Q) (bi : list Z) (iw : Z -> Q) (i : Z) : list (Z * Q) :=
  let nb0 := Z.of_nat (length bi) in let g := nth (Z.to_nat i) gps 0 in
  flat_map (fun j => if qltb (iso_f0 gp bi j) cutoff then [] else
    [(i * nb0 + j, (iso_bands (iso_e0 gp bi j) g (fun k => iw (g * nb0 * nb + j * nb + k)%Z) * weights g)%Q)]) (zrange nb0).
(** 130-230 (iso_get_thm_isotope_scattering_strength): two parallel loops under any schedule, then the sums over grid points *)
Definition iso_thm (gamma : Z -> Q) (gp : Z) (gps : list Z) (weights : Z -> Q) (bi : list Z) (iw : Z -> Q) : Prop :=
  let nb0 := Z.of_nat (length bi) in let n := Z.of_nat (length gps) in
  exists junk zeroed gamma_ij,
    finishes Z.eq_dec (map wprog (iso_zero_iterations (n * nb0))) junk zeroed /\
    finishes Z.eq_dec (map wprog (map (iso_thm_iteration gp gps weights bi iw) (zrange n))) zeroed gamma_ij /\
    forall j, 0 <= j < nb0 -> gamma j = (fold_left (fun s i => (s + gamma_ij (i * nb0 + j)%Z)%Q) (zrange n) 0%Q * iso_factor (iso_f0 gp bi j))%Q.

(** isotope.py 237-276 (_run_c) after the phonons: [sw] is the smearing width or, for None, the integration weights of
    _set_integration_weights_c (grid point of the BZ grid, position in the band indices, band); weights_in_bzgp is 1 for every point of the BZ grid.
    [gps] is bz_grid.grg2bzg, [N] the product of D_diag *)
Definition iso_run_c (gamma : Z -> Q) (gp : Z) (gps : list Z) (bi : list Z) (N : Z) (sw : Q + (Z -> Q)) : Prop :=
  exists g, match sw with inl sigma => iso_gaussian g gp gps (fun _ => 1%Q) bi sigma | inr iw => iso_thm g gp gps (fun _ => 1%Q) bi iw end
    /\ forall i, 0 <= i < Z.of_nat (length bi) -> gamma i = (g i / inject_Z N)%Q.

(** isotope.py 343-366 (_run_py) after the phonons; _integration_weights has the shape (grid points, len(band_indices), bands) and is
    indexed with the band itself, None is the IndexError. Band indices are not negative. *)
Definition iso_run_py (gp : Z) (gps : list Z) (bi : list Z) (N : Z) (sw : Q + (Z -> Q)) : option (list Q) :=
  let nb0 := Z.of_nat (length bi) in
  fold_right (fun b acc =>
    let f0 := freq (gp * nb + b) in
    let vec0 := fun x => conj (eig (gp * nb * nb + x * nb + b)) in
    let terms := flat_map (fun g => flat_map (fun j =>
        let f := freq (g * nb + j) in
        if qltb f cutoff then [] else
        let band := qsum (map (fun l => (cnorm2 (csum (map (fun m => cmul (eig (g * nb * nb + (l * 3 + m) * nb + j)%Z) (vec0 (l * 3 + m)%Z)) (zrange 3))) * mv l)%Q) (zrange (Z.quot nb 3))) in
        match sw with
        | inl sigma => [Some (band * gauss (f0 - f) sigma)%Q]
        | inr iw => [if b <? nb0 then Some (band * iw (g * nb0 * nb + b * nb + j)%Z)%Q else None]
        end) (zrange nb)) gps in
    match fold_left (fun s t => match s, t with Some s, Some t => Some (s + t)%Q | _, _ => None end) terms (Some 0%Q), acc with
    | Some s, Some r => Some ((pi / 2 / inject_Z N * (f0 * f0) * s / 2)%Q :: r)
    | _, _ => None
    end) (Some []) bi.
End Iso.

