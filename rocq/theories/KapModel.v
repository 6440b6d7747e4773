(** Lattice thermal conductivity in the relaxation time approximation: phono3py/conductivity/base.py (ConductivityMixIn,
    ConductivityBase), conductivity/rta.py (ConductivityRTA) and conductivity/direct_solution.py (kappa_RTA).

    One smearing width and one temperature. Grid points are named by their index on the regular grid, on which phonons and
    velocities depend (BZ-grid indices, where they matter, are in [lbte_mode_red]); all bands are computed. Doubles are rationals;
    phonopy's mode_cv, np.sqrt, np.sinh and phonopy's group velocities are function arguments. Overflow and underflow (which
    np.seterr(all="raise") turns into an exception) do not occur. *)
From Coq Require Import ZArith QArith List Bool.
From Verif Require Import Base Mat3 GridModel Fc3Model QMat.
Import ListNotations.
Open Scope Z_scope.

(** np.dot(r, v) *)
Definition rot3 (R : Z -> Z -> Q) (v : Z -> Q) (i : Z) : Q := qsum (map (fun j => R i j * v j)%Q (zrange 3)).
(** np.dot(v, r) *)
Definition rot3t (R : Z -> Z -> Q) (v : Z -> Q) (i : Z) : Q := qsum (map (fun j => v j * R j i)%Q (zrange 3)).
Definition id3 (i j : Z) : Q := if i =? j then 1%Q else 0%Q.
(** the pairs of Cartesian indices behind the six components of a stored tensor: base.py 237-238 *)
Definition voigt : list (Z * Z) := [(0, 0); (1, 1); (2, 2); (1, 2); (0, 2); (0, 1)].

Section Kap.
(** [ops]: BZGrid.reciprocal_operations, here acting on addresses, with BZGrid.rotations_cartesian; [ev] is THzToEv,
    [conv] the conversion factor, [bfac] Angstrom * 1e6 / (4 pi) *)
Variables (D : V3) (ops : list (M3 * (Z -> Z -> Q))) (init : Z -> Z) (nb : Z).
Variables (freq : Z -> Z -> Q) (vel : Z -> Z -> Z -> Q) (mode_cv : Q -> Q -> Q) (root sinh : Q -> Q) (cutoff ev kb conv T bfac : Q).
Variables (gamma : Z -> Z -> Q) (gamma_iso : option (Z -> Z -> Q)) (boundary_mfp : option Q).

(** base.py 671-695 _get_point_operations *)
Definition kap_ops (star : bool) : list (M3 * (Z -> Z -> Q)) := if star then ops else [(I3, id3)].
(** base.py 697-726 _get_grid_info with grid_points None *)
Definition kap_points (star : bool) : list Z :=
  if star then ir_grid_points (get_ir_grid_map (map fst ops) D vzero init) (num_gp D) else zrange (num_gp D).
(** base.py 805-819 _get_multiplicity_at_q *)
Definition kap_multi (star : bool) (g : Z) : Z :=
  if star then multiplicity_at_q (map fst (kap_ops star)) D (get_grid_address_from_index g D) else 1.
(** base.py 88-113 _set_cv *)
Definition kap_cv (g b : Z) : Q :=
  let f := (freq g b * ev)%Q in
  if qltb (cutoff * ev) f then (if qltb f (100 * T * kb) then mode_cv T f else 0%Q) else 0%Q.
(** base.py 202-225 _get_gv; [average] is average_gv_over_kstar *)
Definition kap_gv (star average : bool) (g b i : Z) : Q :=
  if average && (1 <? length (kap_ops star))%nat
  then (qsum (map (fun o => rot3t (snd o) (vel (rotate_grid_index g (fst o) D vzero) b) i) (kap_ops star))
        / inject_Z (Z.of_nat (length (kap_ops star))))%Q
  else vel g b i.
(** base.py 240-248 _get_gv_by_gv *)
Definition kap_gv2 (star average : bool) (g b : Z) (ij : Z * Z) : Q :=
  (qsum (map (fun o => rot3 (snd o) (kap_gv star average g b) (fst ij) * rot3 (snd o) (kap_gv star average g b) (snd ij)) (kap_ops star))
   / inject_Z (kap_multi star g))%Q.
(** base.py 227-238 _set_gv_by_gv summed over the grid points: number of sampling grid points *)
Definition kap_samples (star : bool) : Z :=
  zsum (map (fun g => kstar_order (map fst (kap_ops star)) (kap_multi star g)) (kap_points star)).
(** base.py 886-910 _get_main_diagonal, _get_boundary_scattering *)
Definition kap_norm (v : Z -> Q) : Q := root (qsum (map (fun i => v i * v i)%Q (zrange 3))).
Definition kap_linewidth (star average : bool) (g b : Z) : Q :=
  let x := gamma g b in
  let x := match gamma_iso with Some gi => (x + gi g b)%Q | None => x end in
  match boundary_mfp with Some l => (x + kap_norm (kap_gv star average g b) * bfac / l)%Q | None => x end.
(** rta.py 583-622 set_kappa_at_sigmas: mode_kappa, allocated with zeros; a division by zero raises FloatingPointError, which
    leaves the zero *)
Definition kap_mode (star average : bool) (g b : Z) (ij : Z * Z) : Q :=
  if qltb (freq g b) cutoff then 0%Q
  else let w := (kap_linewidth star average g b * 2)%Q in
       if Qeq_bool w 0 then 0%Q else (kap_gv2 star average g b ij * kap_cv g b / w * conv)%Q.
(** rta.py 624-625 *)
Definition kap_rta (star average : bool) (ij : Z * Z) : Q :=
  (qsum (map (fun g => qsum (map (fun b => kap_mode star average g b ij) (zrange nb))) (kap_points star)) / inject_Z (kap_samples star))%Q.
(** rta.py 598-602: number of ignored modes of one call *)
Definition kap_ignored (star : bool) : Z :=
  zsum (map (fun g => zcount (fun b => qltb (freq g b) cutoff) (zrange nb)) (kap_points star)).

(** direct_solution.py 800-807 in _get_X: f/(4 kb T^2 sinh(f/(2 kb T))), zero unless the frequency is above the cutoff and the
    hyperbolic sine is positive *)
Definition lbte_sinh (f : Q) : Q :=
  let s := if qltb cutoff f then sinh (f * ev / (2 * kb * T))%Q else (-1)%Q in
  let inv := if qltb 0 s then (1 / s)%Q else 0%Q in
  (f * ev * inv / (4 * kb * (T * T)))%Q.
(** direct_solution.py 791-817 _get_X; [w] is the weight of the grid point *)
Definition lbte_X (fr : Z -> Q) (v : Z -> Z -> Q) (w : Q) (b i : Z) : Q :=
  if qltb 0 T then (v b i * w * lbte_sinh (fr b))%Q else 0%Q.
(** direct_solution.py 657-694 _get_weights: np.sqrt(number of arms) / np.sqrt(number of operations) *)
Definition lbte_weight (g : Z) : Q :=
  let arms := zcount (fun x => existsb (fun o => rotate_grid_index g (fst o) D vzero =? x) ops) (zrange (num_gp D)) in
  (root (inject_Z arms) / root (inject_Z (Z.of_nat (length ops))))%Q.
(** direct_solution.py 1052-1094 _set_mode_kappa; [gamma_point] is the test that bz_grid.addresses[i] is zero *)
Definition lbte_mode_kappa (os : list (M3 * (Z -> Z -> Q))) (gamma_point : bool) (X Y : Z -> Z -> Q) (b : Z) (ij : Z * Z) : Q :=
  if gamma_point && (b <? 3) then 0%Q
  else let s i j := qsum (map (fun o => rot3 (snd o) (X b) i * rot3 (snd o) (Y b) j)%Q os) in
       ((s (fst ij) (snd ij) + s (snd ij) (fst ij)) * (conv * kb * (T * T)))%Q.
(** direct_solution.py 960-1005 _set_kappa_RTA_ir_colmat; a division by zero leaves zeros in Y. The address of position 0 of the
    BZ grid is zero and no other is *)
Definition lbte_Y (average : bool) (g : Z) (X : Z -> Z -> Q) (b i : Z) : Q :=
  if qltb cutoff (freq g b) then (let w := kap_linewidth true average g b in if Qeq_bool w 0 then 0%Q else (X b i / w)%Q) else 0%Q.
Definition lbte_mode_ir (average : bool) (pos g b : Z) (ij : Z * Z) : Q :=
  let X := lbte_X (freq g) (kap_gv true average g) (lbte_weight g) in
  lbte_mode_kappa ops (pos =? 0) X (lbte_Y average g X) b ij.
Definition lbte_rta_ir (average : bool) (ij : Z * Z) : Q :=
  (qsum (map (fun pg => qsum (map (fun b => lbte_mode_ir average (fst pg) (snd pg) b ij) (zrange nb)))
             (combine (zrange (Z.of_nat (length (kap_points true)))) (kap_points true)))
   / inject_Z (kap_samples true))%Q.
(** direct_solution.py 1007-1050 _set_kappa_RTA_reducible_colmat with 562 (weights one): all grid points, after the velocities were
    expanded to them. [bz] is bz_grid.grg2bzg, [bzfreq] the array of frequencies, by BZ-grid index, [diag] the diagonal of the collision
    matrix. The test against the cutoff indexes the array by the index on the regular grid (line 1031); a division by zero, inf or nan
    there, is zero here *)
Variables (bz : Z -> Z) (bzfreq : Z -> Z -> Q) (diag : Z -> Z -> Q).
Definition lbte_mode_red (star : bool) (g b : Z) (ij : Z * Z) : Q :=
  let X := lbte_X (bzfreq (bz g)) (vel g) 1 in
  let Y b i := if qltb cutoff (bzfreq g b) then (X b i / diag g b)%Q else 0%Q in
  (lbte_mode_kappa (kap_ops star) (g =? 0) X Y b ij / inject_Z (Z.of_nat (length (kap_ops star))))%Q.
Definition lbte_rta_red (star : bool) (ij : Z * Z) : Q :=
  (qsum (map (fun g => qsum (map (fun b => lbte_mode_red star g b ij) (zrange nb))) (zrange (num_gp D))) / inject_Z (kap_samples star))%Q.
End Kap.
