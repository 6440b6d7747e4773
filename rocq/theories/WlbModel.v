(** Wigner conductivity in the direct solution: phono3py/conductivity/direct_solution.py 1416-1693 (ConductivityWignerLBTE), with the
    mix-in of wigner.py, and what conductivity/utils.py 489-650 (ConductivityLBTEWriter.write_kappa) and 219-345 (ConductivityRTAWriter)
    write of it; the Wigner RTA calculation (rta.py 721-804) over a whole list of grid points.
    One smearing width and one temperature; all bands. The exact populations' conductivity (C111) is an argument. *)
From Coq Require Import ZArith QArith Qabs List Bool.
From Verif Require Import Base Mat3 GridModel QMat Fc3Model Cplx KapModel GruModel WigModel.
Import ListNotations.
Open Scope Z_scope.

(** ** one grid point *)
Section Point.
(** as in WigModel: [g] are the half widths (_get_main_diagonal), [cv] the heat capacities, [v2] gv_operator_sum2 *)
Variable nb : Z.
Variable ev conv cutoff : Q.
Variable freq g cv : Z -> Q.
Variable v2 : Z -> Z -> Z -> cplx.
(** direct_solution.py 1652, 1669-1676 *)
Definition wlb_lorentzian (s1 s2 : Z) : Q :=
  let g1 := (g s1 * 2 * ev)%Q in let g2 := (g s2 * 2 * ev)%Q in let d := (freq s1 * ev - freq s2 * ev)%Q in
  ((1 # 2) * (g1 + g2) / (d * d + (1 # 4) * ((g1 + g2) * (g1 + g2))))%Q.
(** direct_solution.py 1678-1682 *)
Definition wlb_prefactor (s1 s2 : Z) : Q :=
  let w1 := (freq s1 * ev)%Q in let w2 := (freq s2 * ev)%Q in ((1 # 4) * (w1 + w2) * (cv s1 / w1 + cv s2 / w2))%Q.
(** direct_solution.py 1645-1688: the elements of mode_kappa_C, complex numbers here, allocated with zeros (1539-1550) *)
Definition wlb_mode_C (s1 s2 c : Z) : cplx :=
  if (qltb cutoff (freq s1) && qltb cutoff (freq s2)) && qltb (1 # 10000) (Qabs (freq s1 - freq s2))
  then cscale (wlb_prefactor s1 s2 * wlb_lorentzian s1 s2 * conv) (v2 s1 s2 c) else c0.
Definition wlb_point_C (c : Z) : cplx := CSum nb (fun s1 => CSum nb (fun s2 => wlb_mode_C s1 s2 c)).
End Point.

(** ** whole calculations *)
(** wigner.py 215-222, with base.py 53-55 and 382 for the ordinary conversion factor: [hbar] in eV s *)
Definition conv_WTE (thz angstrom eV hbar volume : Q) : Q := ((thz * angstrom) * (thz * angstrom) * eV * hbar / (volume * (angstrom * angstrom * angstrom)))%Q.
Definition conv_WmK (thz angstrom eV pi volume : Q) : Q := ((thz * angstrom) * (thz * angstrom) / (angstrom * angstrom * angstrom) * eV / thz / (2 * pi) / volume)%Q.

Section Run.
Variables (D : V3) (ops : list (M3 * (Z -> Z -> Q))) (init : Z -> Z) (nb : Z).
Variables (freq : Z -> Z -> Q) (mode_cv : Q -> Q -> Q) (root sinh : Q -> Q) (cutoff ev kb convW T bfac : Q).
Variables (gamma : Z -> Z -> Q) (gamma_iso : option (Z -> Z -> Q)) (boundary_mfp : option Q).
(** velocity operators at the grid points, sets of degenerate bands, np.linalg.eigvalsh *)
Variable vop : Z -> Z -> Z -> Z -> cplx.
Variable deg : Z -> list (list Z).
Variable eigvalsh : list Z -> (Z -> Z -> cplx) -> list Q.
(** wigner.py 113-129: self._gv *)
Definition wig_vel (g b i : Z) : Q := nth (Z.to_nat b) (wig_gv eigvalsh (deg g) (fun s s' => vop g s s' i)) 0%Q.
(** wigner.py 153-163: rotated grid points, one BZ grid point for each point of the regular grid *)
Definition wig_map (g : Z) : list Z := map (fun o => rotate_grid_index g (fst o) D vzero) ops.
Definition wig_v2 (g : Z) : Z -> Z -> Z -> cplx := gv_op_sum2 (map snd ops) (wig_map g) (vop g).
(** base.py 886-910 *)
Definition wig_width (g b : Z) : Q := kap_linewidth D ops wig_vel root bfac gamma gamma_iso boundary_mfp true false g b.
Definition wig_heat (g b : Z) : Q := kap_cv freq mode_cv cutoff ev kb T g b.
(** wigner.py 140, 192: the sum of the numbers of arms *)
Definition wig_samples : Z := zsum (map (fun g => wig_arms (wig_map g)) (kap_points D ops init true)).

(** rta.py 721-804 *)
Definition wig_run (g : Z) : wig_state := wig_modes nb ev convW cutoff (freq g) (wig_width g) (wig_heat g) (wig_v2 g) wig_zero.
Definition rta_P (c : Z) : Q := (qsum (map (fun g => wig_P nb (wig_run g) c) (kap_points D ops init true)) / inject_Z wig_samples)%Q.
Definition rta_C (c : Z) : Q := (qsum (map (fun g => wig_C nb (wig_run g) c) (kap_points D ops init true)) / inject_Z wig_samples)%Q.
Definition rta_TOT (c : Z) : Q := (rta_P c + rta_C c)%Q.

(** direct_solution.py 1552-1576 (only temperatures above zero; the arrays are allocated with zeros), 1630-1643, 1690-1692 *)
Definition wlb_C (reducible : bool) (c : Z) : Q :=
  if qltb 0 T && negb reducible
  then re (cscale (/ inject_Z wig_samples) (csum (map (fun g => wlb_point_C nb ev convW cutoff (freq g) (wig_width g) (wig_heat g) (wig_v2 g) c) (kap_points D ops init true))))
  else 0%Q.
(** direct_solution.py 1640-1642, 960-1005: the populations' part from the group velocities; [conv] is the ordinary conversion factor *)
Definition wlb_P_RTA (conv : Q) (ij : Z * Z) : Q :=
  lbte_rta_ir D ops init nb freq wig_vel root sinh cutoff ev kb conv T bfac gamma gamma_iso boundary_mfp false ij.
(** attributes of ConductivityWignerLBTE after the run. 1508-1513: the arrays behind kappa_TOT_RTA and kappa_TOT_exact are allocated with
    zeros; no other line of the class or of its base classes assigns them *)
Record wlb_attrs := WA { at_P_exact : Z -> Q; at_P_RTA : Z -> Q; at_C : Z -> Q; at_TOT_exact : Z -> Q; at_TOT_RTA : Z -> Q }.
Definition wlb_run (reducible : bool) (P_exact P_RTA : Z -> Q) : wlb_attrs := WA P_exact P_RTA (wlb_C reducible) (fun _ => 0%Q) (fun _ => 0%Q).
(** utils.py 521-534, 579-598, 629-633: the datasets written *)
Definition wlb_file (a : wlb_attrs) : wlb_attrs :=
  WA (at_P_exact a) (at_P_RTA a) (at_C a) (fun c => at_P_exact a c + at_C a c)%Q (fun c => at_P_RTA a c + at_C a c)%Q.
End Run.
