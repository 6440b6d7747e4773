(** Averages over degenerate bands, batches of frequency points, mass variances and the bookkeeping of
    self-energy output. *)
From Coq Require Import String ZArith QArith List Bool.
From Verif Require Import Base.
Import ListNotations.
Open Scope Z_scope.

(** [x in l] of Python for lists of integers *)
Definition zin (x : Z) (l : list Z) : bool := existsb (Z.eqb x) l.
(** [a[idx].sum() / len(idx)] *)
Definition mean_of {R} (A : Z -> R -> Q) (idx : list Z) (r : R) : Q := (qsum (map (fun j => A j r) idx) / inject_Z (Z.of_nat (length idx)))%Q.

(** phono3py/phonon3/imag_self_energy.py: average_by_degeneracy 1010-1024. [sets] is what phonopy's
    degenerate_sets returns (outside /repo, an argument). The array has axes (rest, position in
    band_indices); the one-dimensional case has the one-point type as rest. *)
Definition bi_set (bands dset : list Z) : list Z :=
  filter (fun i => zin (nth (Z.to_nat i) bands (-1)) dset) (zrange (Z.of_nat (length bands))).
Definition average_by_degeneracy {R} (sets : list (list Z)) (bands : list Z) (A : Z -> R -> Q) : Z -> R -> Q :=
  fold_left (fun se dset => let idx := bi_set bands dset in fold_left (fun se i => upd se i (mean_of A idx)) idx se) sets (fun _ _ => 0%Q).

(** phono3py/conductivity/direct_solution.py: _average_collision_matrix_by_degeneracy 742-763 (rows) and
    765-785 (columns): averaging in place along one (grid point, band) pair of axes, all other axes in
    [R]. [pts] lists for each visited grid point its position along the axis and its degenerate sets. *)
Definition average_axis {R} (nb : Z) (pts : list (Z * list (list Z))) (A : Z -> Z -> R -> Q) : Z -> Z -> R -> Q :=
  fold_left (fun A p => fold_left (fun A dset =>
      let idx := filter (fun j => zin j dset) (zrange nb) in
      let s := mean_of (A (fst p)) idx in
      upd A (fst p) (fold_left (fun B j => upd B j s) idx (A (fst p)))) (snd p) A) pts A.
(** The whole function: rows, then columns of the result. Symmetry-reduced matrix at one sigma and
    temperature: element (i, j, a, k, l, b), grid points by position in ir_grid_points. *)
Definition average_irreducible (nb : Z) (pts : list (Z * list (list Z))) (m : Z -> Z -> Z -> Z -> Z -> Z -> Q) : Z -> Z -> Z -> Z -> Z -> Z -> Q :=
  let m1 := average_axis nb pts (fun i j (r : Z * Z * Z * Z) => let '(a, k, l, b) := r in m i j a k l b) in
  let m2 := average_axis nb pts (fun k l (r : Z * Z * Z * Z) => let '(i, j, a, b) := r in m1 i j (a, k, l, b)) in
  fun i j a k l b => m2 k l (i, j, a, b).
(** Reducible matrix: element (i, j, k, l), grid points by generalized-regular-grid index; [pts] has
    only the irreducible grid points (i_data = bzg2grg[gp]). *)
Definition average_reducible (nb : Z) (pts : list (Z * list (list Z))) (m : Z -> Z -> Z -> Z -> Q) : Z -> Z -> Z -> Z -> Q :=
  let m1 := average_axis nb pts (fun i j (r : Z * Z) => m i j (fst r) (snd r)) in
  let m2 := average_axis nb pts (fun k l (r : Z * Z) => m1 (fst r) (snd r) (k, l)) in
  fun i j k l => m2 k l (i, j).

(** phono3py/phonon3/imag_self_energy.py: get_freq_points_batches 1074-1084. Python floor division and
    modulo are Z.div and Z.modulo; np.arange(a, b) is zseq a b. A batch size of zero raises
    ZeroDivisionError. *)
Definition get_freq_points_batches (tot : Z) (nelems : option Z) : option (list (list Z)) :=
  let n := match nelems with None => 10 | Some n => n end in
  if n =? 0 then None else
  let nbatch := tot / n in
  Some (map (fun i => zseq (i * n) ((i + 1) * n)) (zrange nbatch) ++ (if 0 <? tot mod n then [zseq (n * nbatch) tot] else [])).
(** run_ise_at_frequency_points_batch 1027-1071, one sigma, temperature and grid point: gamma[:, batch] =
    imag_self_energy, computed from the frequency points of the batch only. [ise fpts] is that array,
    (position in the batch, band); positions are assigned one by one in order. *)
Definition run_batches (nb0 : Z) (ise : list Q -> Z -> Z -> Q) (fpts : Z -> Q) (batches : list (list Z)) (gamma : Z -> Z -> Q) : Z -> Z -> Q :=
  fold_left (fun gamma batch => let v := ise (map fpts batch) in
    fold_left (fun gamma p => fold_left (fun gamma b =>
        upd gamma b (upd (gamma b) (nth (Z.to_nat p) batch 0) (v p b))) (zrange nb0) gamma)
      (zrange (Z.of_nat (length batch))) gamma) batches gamma.

(** phono3py/phonon3/imag_self_energy.py: _get_imag_self_energy_at_sigma 894-901 with
    _get_imag_self_energy_at_gp 796-870, band frequencies as frequency points: detailed_gamma_at_gp has
    axes (sigma, temperature, ...) and [detailed_gamma_at_gp[k] = ...] inside the loop over temperatures k
    assigns along the first axis, broadcast over the second. Assigning outside the first axis raises
    IndexError (None). The rest of the axes is the value type [V]. *)
Definition store_detail_at_bands {V} (nsigma ntemp : Z) (value : Z -> Z -> V) (d : Z -> Z -> V) : option (Z -> Z -> V) :=
  fold_left (fun acc j => fold_left (fun acc k =>
      match acc with
      | None => None
      | Some d => if k <? nsigma then Some (upd d k (fun _ => value j k)) else None
      end) (zrange ntemp) acc) (zrange nsigma) (Some d).
(** The same with frequency points (run_ise_at_frequency_points_batch 1070-1071 receives
    detailed_gamma_at_gp[j], one frequency point per batch element): axes (sigma, temperature, point). *)
Definition store_detail_at_points {V} (nsigma ntemp : Z) (value : Z -> Z -> Z -> V) (batches : list (list Z)) (d : Z -> Z -> Z -> V) : Z -> Z -> Z -> V :=
  fold_left (fun d j => fold_left (fun d batch => fold_left (fun d k => fold_left (fun d p =>
      upd d j (upd (d j) k (upd (d j k) p (value j k p)))) batch d) (zrange ntemp) d) batches d) (zrange nsigma) d.

(** phono3py/phonon3/imag_self_energy.py: write_imag_self_energy 985-1003: the value written for the i-th
    group of bands. [ise] has the values in the order of the concatenated groups. *)
Definition written_average (groups : list (list Z)) (ise : list Q) (i : nat) : Q :=
  let bi := nth i groups [] in
  let pos := fold_left (fun pos j => (pos + length (nth j groups []))%nat) (seq 0 i) 0%nat in
  (qsum (firstn (length bi) (skipn pos ise)) / inject_Z (Z.of_nat (length bi)))%Q.

(** phono3py/other/isotope.py: get_mass_variances 60-88. Isotope tables are lists of (mass number, mass,
    fraction); [default] is phonopy's table, [user] the isotope_data argument. A symbol without data is
    a KeyError (None). *)
Definition isotope := (Z * Q * Q)%type.
Definition lookup (s : string) (t : list (string * list isotope)) : option (list isotope) :=
  option_map snd (find_first (fun p => String.eqb (fst p) s) t).
Definition qdot (a b : list Q) : Q := qsum (map (fun p => fst p * snd p)%Q (combine a b)).
Definition mass_variance (iso : list isotope) : Q :=
  let masses := map (fun x => snd (fst x)) iso in
  let fractions := map snd iso in
  let m_ave := qdot masses fractions in
  qdot fractions (map (fun m => (1 - m / m_ave) * (1 - m / m_ave))%Q masses).
Fixpoint get_mass_variances (user : option (list (string * list isotope))) (default : list (string * list isotope)) (symbols : list string) : option (list Q) :=
  match symbols with
  | [] => Some []
  | s :: rest =>
      match (match match user with Some u => lookup s u | None => None end with Some d => Some d | None => lookup s default end),
            get_mass_variances user default rest with
      | Some d, Some r => Some (mass_variance d :: r)
      | _, _ => None
      end
  end.
