(** Wigner and Kubo conductivities: phono3py/conductivity/wigner.py, kubo.py, rta.py 654-970 (ConductivityWignerRTA, ConductivityKuboRTA),
    phonon/group_velocity_matrix.py 161-186, phonon/heat_capacity_matrix.py.
    One smearing width and one temperature; all bands are computed. Velocity operators and linewidths are arguments, as are [ex] (np.exp),
    [mode_cv] and np.linalg.eigvalsh. Doubles are rationals; a division by zero gives 0 (inf or nan in Python) unless said otherwise. *)
From Coq Require Import ZArith QArith Qabs List Bool.
From Verif Require Import Base QMat Cplx KapModel GruModel.
Import ListNotations.
Open Scope Z_scope.

(** ** products of velocities over a star *)
(** wigner.py 173-180: the product of the elements with the rotation *)
Definition rot_op (r : Z -> Z -> Q) (v : Z -> Z -> Z -> cplx) (s s' i : Z) : cplx := CSum 3 (fun j => cmul (v s s' j) (C (r i j) 0)).
(** wigner.py 153-213 (_get_gv_by_gv_operator), the outer product 182-190, the division 193-194: [rotation_map] are the rotated grid points *)
Definition gv_by_gv_op (rots : list (Z -> Z -> Q)) (rotation_map : list Z) (v : Z -> Z -> Z -> cplx) (s s' i j : Z) : cplx :=
  cscale (/ inject_Z (Z.of_nat (length rotation_map) / Z.of_nat (length (nodup Z.eq_dec rotation_map))))
    (csum (map (fun r => cmul (rot_op r v s s' i) (conj (rot_op r v s s' j))) rots)).
(** wigner.py 141-151: the six stored components *)
Definition gv_op_sum2 (rots : list (Z -> Z -> Q)) (rotation_map : list Z) (v : Z -> Z -> Z -> cplx) (s s' c : Z) : cplx :=
  let ij := nth (Z.to_nat c) voigt (0, 0) in gv_by_gv_op rots rotation_map v s s' (fst ij) (snd ij).
(** wigner.py 131-151, 192: the number of arms added to num_sampling_grid_points *)
Definition wig_arms (rotation_map : list Z) : Z := Z.of_nat (length (nodup Z.eq_dec rotation_map)).

(** wigner.py 106-129 (_set_gv_operator): group velocities of one direction, in a set of degenerate bands the eigenvalues of the block *)
Definition wig_gv (eigvalsh : list Z -> (Z -> Z -> cplx) -> list Q) (deg_sets : list (list Z)) (v : Z -> Z -> cplx) : list Q :=
  flat_map (fun d => if (1 <? length d)%nat then eigvalsh d v else map (fun s => re (v s s)) d) deg_sets.

Section Wig.
(** [ev] is THzToEv, [conv] self._conversion_factor_WTE; [g] the linewidths, [cv] the heat capacities, [v2 s1 s2 c] gv_operator_sum2 *)
Variable nb : Z.
Variable ev conv cutoff : Q.
Variable freq g cv : Z -> Q.
Variable v2 : Z -> Z -> Z -> cplx.
(** rta.py 752-758 *)
Definition lorentzian (s1 s2 : Z) : Q :=
  let g1 := (2 * g s1 * ev)%Q in let g2 := (2 * g s2 * ev)%Q in let d := (freq s1 * ev - freq s2 * ev)%Q in
  ((1 # 2) * (g1 + g2) / (d * d + (1 # 4) * ((g1 + g2) * (g1 + g2))))%Q.
(** rta.py 760-766 *)
Definition prefactor (s1 s2 : Z) : Q := let w1 := (freq s1 * ev)%Q in let w2 := (freq s2 * ev)%Q in ((1 # 4) * (w1 + w2) * (cv s1 / w1 + cv s2 / w2))%Q.
(** rta.py 771-776, 789-794 *)
Definition contribution_wig (s1 s2 c : Z) : Q := re (cscale (prefactor s1 s2 * lorentzian s1 s2 * conv) (v2 s1 s2 c)).
Record wig_state := WS { ws_P : Z -> Z -> Q; ws_C : Z -> Z -> Z -> Q; ws_ignored : Z }.
Definition add_row (m : Z -> Z -> Q) (s : Z) (f : Z -> Q) : Z -> Z -> Q := fun x c => if x =? s then (m x c + f c)%Q else m x c.
(** rta.py 738-797: the body of the loops over s1 and s2 *)
Definition wig_step (st : wig_state) (s1 s2 : Z) : wig_state :=
  if qltb cutoff (freq s1) && qltb cutoff (freq s2) then
    if qltb (Qabs (freq s1 - freq s2)) (1 # 10000)
    then WS (add_row (add_row (ws_P st) s1 (fun c => (1 # 2) * contribution_wig s1 s2 c)%Q) s2 (fun c => (1 # 2) * contribution_wig s1 s2 c)%Q) (ws_C st) (ws_ignored st)
    else WS (ws_P st) (fun x y c => if (x =? s1) && (y =? s2) then (ws_C st x y c + contribution_wig s1 s2 c)%Q else ws_C st x y c) (ws_ignored st)
  else if s1 =? s2 then WS (ws_P st) (ws_C st) (ws_ignored st + 1) else st.
Definition wig_modes (st : wig_state) : wig_state := fold_left (fun st s1 => fold_left (fun st s2 => wig_step st s1 s2) (zrange nb) st) (zrange nb) st.
(** rta.py 806-855: the arrays are allocated with zeros *)
Definition wig_zero : wig_state := WS (fun _ _ => 0%Q) (fun _ _ _ => 0%Q) 0.
(** rta.py 799-804: contributions of a grid point to the sums, before the division by the number of grid points *)
Definition wig_P (st : wig_state) (c : Z) : Q := QS nb (fun s => ws_P st s c).
Definition wig_C (st : wig_state) (c : Z) : Q := QS nb (fun s => QS nb (fun s' => ws_C st s s' c)).
End Wig.

(** ** Kubo *)
(** heat_capacity_matrix.py 42-81 *)
Definition mode_cv_matrix (ex : Q -> Q) (mode_cv : Q -> Q -> Q) (kb T : Q) (freqs : Z -> Q) (cutoff : Q) (i j : Z) : Q :=
  if qltb (Qabs (freqs i - freqs j)) cutoff then mode_cv T (freqs i)
  else let x := fun i => (freqs i / kb / T)%Q in let sub := (x i - x j)%Q in let add := (x i + x j)%Q in
       (kb * (ex sub - 1) / sub * ((add / 2) * (add / 2)) / (ex (x i) - 1) * (1 / (ex (x j) - 1) + 1))%Q.
(** kubo.py 65-81 (_set_cv): the array is allocated with zeros *)
Definition kubo_cv (ex : Q -> Q) (mode_cv : Q -> Q -> Q) (ev kb T : Q) (nb : Z) (freq : Z -> Q) (cutoff : Q) (i j : Z) : Q :=
  if existsb (fun s => qltb 100 (freq s * ev / (T * kb))%Q) (zrange nb) then 0%Q
  else mode_cv_matrix ex mode_cv kb T (fun s => freq s * ev)%Q (cutoff * ev) i j.
(** group_velocity_matrix.py 161-186 for one pair of bands: [rots] are the Cartesian rotations that keep q *)
Definition gvm_site (rots : list (Z -> Z -> Q)) (v : Z -> Z -> Z -> cplx) (i k l : Z) : cplx :=
  cscale (/ inject_Z (Z.of_nat (length rots))) (csum (map (fun r => CSum 3 (fun j => cmul (C (r i j) 0) (v j k l))) rots)).
Definition gvm_sym (rots : list (Z -> Z -> Q)) (v : Z -> Z -> Z -> cplx) (i k l : Z) : cplx :=
  cscale (1 # 2) (cadd (gvm_site rots v i k l) (conj (gvm_site rots v i l k))).
(** kubo.py 119-155 (_get_gvm_by_gvm): [vs] the velocity matrices at the rotated q-points, [multi] the multiplicity *)
Definition gvm_by_gvm (vs : list (Z -> Z -> Z -> cplx)) (multi : Z) (a b k l : Z) : cplx :=
  cscale (/ inject_Z multi) (csum (map (fun v => cmul (v a k l) (v b l k)) vs)).
Section Kubo.
Variable nb : Z.
Variable cutoff conv : Q.
Variable freq g : Z -> Q.
Variable cvm : Z -> Z -> Q.
Variable v2 : Z -> Z -> Z -> cplx.
(** rta.py 940-948; a division by zero raises FloatingPointError and leaves the zero of the allocated array *)
Definition kubo_pair (i j c : Z) : cplx :=
  let gg := (g i + g j)%Q in let d := ((freq j - freq i) * (freq j - freq i) + gg * gg)%Q in
  if Qeq_bool d 0 then c0 else cscale (cvm i j * gg / d * conv) (v2 i j c).
(** rta.py 927-969 (_set_kappa_at_sigmas): the loop over j_band, left by [return] at a band below the cutoff; [m] is the row of i_band *)
Fixpoint kubo_row (i : Z) (bands : list Z) (m : Z -> Z -> cplx) : Z -> Z -> cplx :=
  match bands with
  | [] => m
  | j :: bands => if qltb (freq j) cutoff then m else kubo_row i bands (fun x c => if x =? j then kubo_pair i j c else m x c)
  end.
(** rta.py 910-923 *)
Definition kubo_modes (i j c : Z) : cplx := if qltb (freq i) cutoff then c0 else kubo_row i (zrange nb) (fun _ _ => c0) j c.
Definition kubo_kappa (c : Z) : Q := re (CSum nb (fun i => CSum nb (fun j => kubo_modes i j c))).
End Kubo.
