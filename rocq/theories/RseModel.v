(** Real part of the self-energy, Kramers-Kronig transform and spectral function: c/real_self_energy.c,
    phono3py/phonon3/real_self_energy.py, phono3py/phonon3/spectral_function.py.
    Arrays are functions of the index; [phi] is fc3_normal_squared (shape num_triplets, num_band0, num_band, num_band, flattened),
    [freq] the frequencies (grid point * num_band + band), [bose f t] funcs_bose_einstein / bose_einstein, [pi] the number pi. *)
From Coq Require Import String Ascii ZArith QArith Qabs List Bool.
From Verif Require Import Base QMat IseModel AvgModel NameModel.
Import ListNotations.
Open Scope Z_scope.

(** x / (x^2 + epsilon^2); with epsilon = 0 and x = 0 the code divides by zero (here 0) *)
Definition lor (eps x : Q) : Q := (x / (x * x + eps * eps))%Q.

Section Rse.
Variable bose : Q -> Q -> Q.
Variables (nb0 nb nt_trip : Z) (phi freq : Z -> Q) (triplets : Z -> tp3) (weights : Z -> Z) (unit cutoff : Q).

(** c/real_self_energy.c 157-203 sum_real_self_energy_at_band; [p] is the offset of fc3_normal_squared, [g1], [g2] the grid points of freqs1, freqs2 *)
Definition sum_rse (p : Z) (fpoint : Q) (g1 g2 : Z) (eps T : Q) : Q :=
  qsum (map (fun i => let f1 := freq (g1 * nb + i) in
    if qltb cutoff f1 then
      let n1 := bose f1 T in
      qsum (map (fun j => let f2 := freq (g2 * nb + j) in
        if qltb cutoff f2 then
          let n2 := bose f2 T in
          ((- (n1 + n2 + 1) * lor eps (fpoint + f1 + f2) + (n1 + n2 + 1) * lor eps (fpoint - f1 - f2)
            - (n1 - n2) * lor eps (fpoint - f1 + f2) + (n1 - n2) * lor eps (fpoint + f1 - f2)) * phi (p + (i * nb + j)))%Q
        else 0%Q) (zrange nb))
    else 0%Q) (zrange nb)).
(** 206-228 sum_real_self_energy_at_band_0K *)
Definition sum_rse_0K (p : Z) (fpoint : Q) (g1 g2 : Z) (eps : Q) : Q :=
  qsum (map (fun i => let f1 := freq (g1 * nb + i) in
    if qltb cutoff f1 then
      qsum (map (fun j => let f2 := freq (g2 * nb + j) in
        if qltb cutoff f2 then
          ((- (1) * lor eps (fpoint + f1 + f2) + 1 * lor eps (fpoint - f1 - f2)) * phi (p + (i * nb + j)))%Q
        else 0%Q) (zrange nb))
    else 0%Q) (zrange nb)).
(** 112-155 get_real_self_energy_at_band; [reduction(+ : shift)] adds the terms in any order, here from first to last *)
Definition rse_at_band (band : Z) (fpoint eps T : Q) : Q :=
  fold_left (fun shift i => let t := triplets i in let p := i * nb0 * nb * nb + band * nb * nb in
    if qltb 0 T then (shift + sum_rse p fpoint (tp_at t 1) (tp_at t 2) eps T * inject_Z (weights i) * unit)%Q
    else (shift + sum_rse_0K p fpoint (tp_at t 1) (tp_at t 2) eps * inject_Z (weights i) * unit)%Q) (zrange nt_trip) 0%Q.
(** 61-86 rse_get_real_self_energy_at_bands: element i *)
Definition rse_at_bands (band_indices : Z -> Z) (eps T : Q) (i : Z) : Q :=
  let fpoint := freq (tp_at (triplets 0) 0 * nb + band_indices i) in
  if qltb fpoint cutoff then 0%Q else rse_at_band i fpoint eps T.
(** 88-110 rse_get_real_self_energy_at_frequency_point: element i *)
Definition rse_at_frequency_point (fpoint eps T : Q) (i : Z) : Q :=
  if qltb fpoint cutoff then 0%Q else rse_at_band i fpoint eps T.

(** phono3py/phonon3/real_self_energy.py 309-344 _real_self_energies_at_bands; [p] is the offset of interaction[i] *)
Definition py_rse (p : Z) (fpoint : Q) (t : tp3) (w : Z) (eps T : Q) : Q :=
  if qltb fpoint cutoff then 0%Q else
  fold_left (fun s jk => let '(j, k) := jk in
    let f1 := freq (tp_at t 1 * nb + j) in let f2 := freq (tp_at t 2 * nb + k) in
    if qltb fpoint cutoff then s
    else if qltb cutoff f1 && qltb cutoff f2 then
      let n2 := bose f1 T in let n3 := bose f2 T in
      let d := (0 - (n2 + n3 + 1) * lor eps (fpoint + f1 + f2))%Q in
      let d := (d + (n2 + n3 + 1) * lor eps (fpoint - f1 - f2))%Q in
      let d := (d - (n2 - n3) * lor eps (fpoint - f1 + f2))%Q in
      let d := (d + (n2 - n3) * lor eps (fpoint + f1 - f2))%Q in
      (s + d * phi (p + (j * nb + k)) * inject_Z w)%Q
    else s) (flat_map (fun j => map (fun k => (j, k)) (zrange nb)) (zrange nb)) 0%Q.
(** 346-368 _real_self_energies_at_bands_0K *)
Definition py_rse_0K (p : Z) (fpoint : Q) (t : tp3) (w : Z) (eps : Q) : Q :=
  if qltb fpoint cutoff then 0%Q else
  fold_left (fun s jk => let '(j, k) := jk in
    let f1 := freq (tp_at t 1 * nb + j) in let f2 := freq (tp_at t 2 * nb + k) in
    if qltb cutoff f1 && qltb cutoff f2 then
      let d := (0 - 1 * lor eps (fpoint + f1 + f2))%Q in
      let d := (d + 1 * lor eps (fpoint - f1 - f2))%Q in
      (s + d * phi (p + (j * nb + k)) * inject_Z w)%Q
    else s) (flat_map (fun j => map (fun k => (j, k)) (zrange nb)) (zrange nb)) 0%Q.
(** 249-265 _run_py_with_band_indices: the array after the loop, times the unit conversion *)
Definition py_rse_at_bands (band_indices : Z -> Z) (eps T : Q) (j0 : Z) : Q :=
  (fold_left (fun arr (i : Z) => fold_left (fun arr (j : Z) => let t := triplets i in
      let fpoint := freq (tp_at t 0 * nb + band_indices j)%Z in let p := (i * nb0 * nb * nb + j * nb * nb)%Z in
      upd arr j (arr j + (if qltb 0 T then py_rse p fpoint t (weights i) eps T else py_rse_0K p fpoint t (weights i) eps))%Q) (zrange nb0) arr)
    (zrange nt_trip) (fun _ => 0%Q) j0 * unit)%Q.
(** 287-307 _run_py_with_frequency_points: one frequency point *)
Definition py_rse_at_frequency_point (fpoint eps T : Q) (j0 : Z) : Q :=
  (fold_left (fun arr (i : Z) => fold_left (fun arr (j : Z) => let t := triplets i in let p := (i * nb0 * nb * nb + j * nb * nb)%Z in
      upd arr j (arr j + (if qltb 0 T then py_rse p fpoint t (weights i) eps T else py_rse_0K p fpoint t (weights i) eps))%Q) (zrange nb0) arr)
    (zrange nt_trip) (fun _ => 0%Q) j0 * unit)%Q.
End Rse.

(** 144-167 RealSelfEnergy.real_self_energy: the averages over degenerate bands are those of average_by_degeneracy
    (imag_self_energy.py 1010-1024), statement by statement *)
Definition real_self_energy {R} (sets : list (list Z)) (bands : list Z) (A : Z -> R -> Q) : Z -> R -> Q := average_by_degeneracy sets bands A.

(** ** Kramers-Kronig: real_self_energy.py 371-469 *)
(** [n] points [w], values [im]; [np.hstack([-a[::-1], a[1:]])] *)
Definition hstack_neg (n : Z) (a : Z -> Q) (m : Z) : Q := if m <? n then (- a (n - 1 - m)%Z)%Q else a (m - n + 1).
(** 455-469 _expand_bubble_im_part: the checks and df; two points or more (with one point df is nan) *)
Definition kk_df (n : Z) (w : Z -> Q) : Q := (qsum (map (fun k => w (k + 1)%Z - w k)%Q (zrange (n - 1))) / inject_Z (n - 1))%Q.
Definition kk_accepts (n : Z) (w : Z -> Q) : bool :=
  negb (qltb (1 # 100000000) (Qabs (w 0))) &&
  forallb (fun k => negb (qltb (1 # 1000000) (Qabs (w (k + 1)%Z - w k - kk_df n w)%Q))) (zrange (n - 1)).
(** 422-437 _pick_one: values and frequency points for i >= i_zero *)
Definition pick_one (pi : Q) (n : Z) (im w : Z -> Q) : list (Q * Q) :=
  let IM := hstack_neg n im in let W := hstack_neg n w in let N := 2 * n - 1 in
  let coef := (kk_df n w / pi)%Q in let i_zero := (N - 1) / 2 in
  flat_map (fun i => if i <? i_zero then [] else
    let fpoint := W i in
    let freqs := upd (fun m => W m - fpoint)%Q i 1%Q in
    [((qsum (map (fun m => IM m / freqs m)%Q (zrange N)) - IM i) * coef, fpoint)%Q]) (zrange N).
(** 716-720 imag_to_real; [None] is RuntimeError *)
Definition imag_to_real (pi : Q) (n : Z) (im w : Z -> Q) : option (list (Q * Q)) :=
  if kk_accepts n w then Some (pick_one pi n im w) else None.

(** ** Spectral function: spectral_function.py *)
(** 325-336 _run_delta for one temperature and band *)
Definition run_delta (pi : Q) (n : Z) (gammas w : Z -> Q) : option (Z -> Q) :=
  match imag_to_real pi n gammas w with Some r => Some (fun i => (- fst (nth (Z.to_nat i) r (0, 0)))%Q) | None => None end.
(** 365-372 _get_spectral_function *)
Definition spectral_value (pi freq gamma delta fpoint : Q) : Q :=
  let num := (4 * (freq * freq) * gamma / pi)%Q in
  let x := (fpoint * fpoint - freq * freq - 2 * freq * delta)%Q in let y := (2 * freq * gamma)%Q in
  let denom := (x * x + y * y)%Q in
  if qltb 0 denom then (num / denom)%Q else 0%Q.
(** __next__ 226-260 with _run_gamma, _run_delta, _run_spectral_function, one grid point, sigma, temperature and band *)
Definition spectral_function (pi freq : Q) (n : Z) (gammas w : Z -> Q) : option (Z -> Q) :=
  match run_delta pi n gammas w with Some d => Some (fun i => spectral_value pi freq (gammas i) (d i) (w i)) | None => None end.

(** ** Files *)
(** run_spectral_function 128-173, one grid point and sigma, [groups] the lists in band_indices (not empty), [bands] those kept in Interaction:
    the band indices handed over with the arrays of all bands ([bi] of the last turn of the loop), and those in the file name
    (file_IO.py 690-750 write_spectral_function_to_hdf5: none if all bands exist) *)
Definition spectral_hdf5_bands (groups : list (list Z)) : list Z := last groups [].
Definition all_bands_exist (nb : Z) (bands : list Z) : bool :=
  (Z.of_nat (length bands) =? nb) && forallb (fun k => nth (Z.to_nat k) bands (-1) =? k) (zrange nb).
Definition spectral_hdf5_name (nb : Z) (groups : list (list Z)) (mesh : Z * Z * Z) (gp : Z) (sigma : option Q) (filename : option text) : text :=
  (t "spectral" ++ suffix (Params mesh (Some gp) (if all_bands_exist nb (concat groups) then None else Some (spectral_hdf5_bands groups)) sigma None None None)
   ++ (match filename with Some f => "."%char :: f | None => [] end) ++ t ".hdf5")%list.
(** file_IO.py 604-656 write_real_self_energy_to_hdf5: the name; band indices and [filename] are not used. "%.3e" of small numbers is the argument [fmt_e]. *)
Definition deltas_hdf5_name (fmt_e : Q -> text) (mesh : Z * Z * Z) (gp : Z) (bands : list Z) (eps : Q) (filename : option text) : text :=
  (t "deltas" ++ suffix (Params mesh (Some gp) None None None None None)
   ++ (if qltb (1 # 100000) eps then t "-e" ++ del_zeros eps else t "-e" ++ fmt_e eps) ++ t ".hdf5")%list.

(** spectral_function.py 136-147 and real_self_energy.py 693-706 (also imag_self_energy.py): what the text file of group [j] of band_indices holds: [pos] counts the bands of the groups before,
    and the mean over [data[pos:pos + len(bi)]] is taken; [data] has one value per band kept in Interaction *)
Definition group_pos (groups : list (list Z)) (j : nat) : nat := fold_left (fun pos k => (pos + length (nth k groups []))%nat) (seq 0 j) 0%nat.
Definition group_mean (groups : list (list Z)) (data : list Q) (j : nat) : Q :=
  let bi := nth j groups [] in (qsum (firstn (length bi) (skipn (group_pos groups j) data)) / inject_Z (Z.of_nat (length bi)))%Q.
