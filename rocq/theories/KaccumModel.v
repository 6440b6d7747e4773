(** Spectra of mode properties: phono3py/other/kaccum.py and phono3py/other/tetrahedron_method.py:91-178.
    Doubles are rationals; arrays are functions of their indices (lists where the length is tested). *)
From Coq Require Import ZArith QArith List Bool.
From Verif Require Import Base Mat3 QMat GridSpec GridModel BzModel BzProps TripletModel TripletProps TetraModel Par IwModel YamlModel RestartModel.
Import ListNotations.
Open Scope Z_scope.

(** min and max of a non-empty list (builtin min/max of .ravel(): kaccum.py:97-98); None is the ValueError *)
Definition qmin (a b : Q) : Q := if qltb b a then b else a.
Definition qmax (a b : Q) : Q := if qltb a b then b else a.
Definition list_min (l : list Q) : option Q := match l with [] => None | x :: r => Some (fold_left qmin r x) end.
Definition list_max (l : list Q) : option Q := match l with [] => None | x :: r => Some (fold_left qmax r x) end.

(** np.linspace(a, b, n): a + i (b - a) / (n - 1), the last one being b itself (n > 1); [a] for n = 1 *)
Definition linspace (a b : Q) (n : Z) : list Q :=
  map (fun i => if (1 <? n) && (i =? n - 1) then b else (a + inject_Z i * (b - a) / inject_Z (n - 1))%Q) (zrange n).

(** what a BZGrid object holds of what is used here: phono3py/phonon/grid.py:433-469 *)
Record bzgrid := { k_B : BzIn; k_ty : Z; k_out : BzOut; k_P : M3; k_micro : QM; k_Q : M3; k_rl : QM }.
Definition size {X} (l : list X) : Z := Z.of_nat (length l).

(** tetrahedron_method.py:91-178 get_integration_weights: the array (grid points, sampling points, bands) flattened;
    [eps] is the guard value of c/tetrahedron_method.c; [junk v] is whatever is in memory at place v beyond the end of the mapping table. [fI] is function == 'I' *)
Definition get_integration_weights (eps : Q) (junk : Z -> Z) (sampling_points : list Q) (grid_values : Z -> Q) (num_values num_band : Z) (g : bzgrid)
    (grid_points : option (list Z)) (bzgp2irgp_map : option (list Z)) (fI : bool) : Z -> Q :=
  let rel := map (map (mulMV (k_P g))) (thm_get_relative_grid_address (k_micro g)) in
  let gps := match grid_points with Some l => l | None => map (grg2bzg (k_out g) (k_ty g)) (zrange (mesh_size (bD (k_B g)))) end in
  let mp := match bzgp2irgp_map with Some l => l | None => zrange num_values end in
  Par.store Z.eq_dec (fun _ => 0%Q)
    (concat (thm_gp_iterations eps (tp_grid (k_B g) (k_out g) (k_ty g) (k_Q g) (k_rl g)) rel (fun i => nth (Z.to_nat i) gps 0) (size gps)
       (size sampling_points) num_band (fun j => nth (Z.to_nat j) sampling_points 0%Q) grid_values (fun v => match nth_error mp (Z.to_nat v) with Some x => x | None => junk v end) fI)).

(** kaccum.py:155-189 _get_bzgp2irgp_map; None is the AssertionError or an IndexError of ir_grid_map[grgp] *)
Fixpoint index_of (x : Z) (l : list Z) : option Z :=
  match l with [] => None | y :: r => if x =? y then Some 0 else option_map Z.succ (index_of x r) end.
Fixpoint all_some {X} (l : list (option X)) : option (list X) :=
  match l with [] => Some [] | x :: r => match x, all_some r with Some y, Some s => Some (y :: s) | _, _ => None end end.
Definition get_bzgp2irgp_map (bzg2grg : list Z) (ir_grid_map ir_grid_points : list Z) : option (list Z) :=
  let unique_gps := unique ir_grid_map in
  if zlist_eqb unique_gps ir_grid_points then
    all_some (map (fun grgp => match nth_error ir_grid_map (Z.to_nat grgp) with Some x => index_of x unique_gps | None => None end) bzg2grg)
  else None.

(** kaccum.py:54-139 KappaDOSTHM.__init__ and get_kdos. [mode_kappa t i b e]; frequencies of shape (n_ir, nb) flattened;
    [epsilon] is the module constant (1.0e-8). The mapping table has an entry for each BZ grid point, nothing beyond it is read. The result is (frequency points, kdos t f j e), j = 0 for "J", 1 for "I". *)
Definition kappa_dos (eps epsilon : Q) (mode_kappa : Z -> Z -> Z -> Z -> Q) (n_ir nb : Z) (frequencies : Z -> Q) (g : bzgrid)
    (ir_grid_points ir_grid_weights ir_grid_map : option (list Z)) (frequency_points : option (list Q)) (num_sampling_points : Z)
  : option (list Q * (Z -> Z -> Z -> Z -> Q)) :=
  let ravel := map frequencies (zrange (n_ir * nb)) in
  match list_min ravel, list_max ravel with
  | Some mn, Some mx =>
    let fps := match frequency_points with Some l => l | None => linspace mn (mx + epsilon)%Q num_sampling_points end in
    let irs := match ir_grid_points with Some l => l | None => zrange n_ir end in
    let irm := match ir_grid_map with Some l => l | None => zrange n_ir end in
    let gps := map (grg2bzg (k_out g) (k_ty g)) irs in
    match get_bzgp2irgp_map (map (o_b2g (k_out g)) (zrange (o_size (k_out g)))) irm irs with
    | Some mp =>
      let wt := match ir_grid_weights with Some l => fun i => nth (Z.to_nat i) l 0 | None => fun _ => 1 end in
      Some (fps, fun t f j e =>
        let iw := get_integration_weights eps (fun _ => 0) fps frequencies n_ir nb g (Some gps) (Some mp) (j =? 1) in
        (fold_left (fun acc i => acc + qsum (map (fun b => iw ((i * size fps + f) * nb + b)%Z * (mode_kappa t i b e * inject_Z (wt i))) (zrange nb)))%Q (zrange (size gps)) 0
         / inject_Z (mesh_size (bD (k_B g))))%Q)
    | None => None
    end
  | _, _ => None
  end.

(** kaccum.py:263-301 run_prop_dos: the properties given already carry the weights (kaccum_script.py:347-348) *)
Definition run_prop_dos (eps epsilon : Q) (frequencies : Z -> Q) (mode_prop : Z -> Z -> Z -> Z -> Q) (n_ir nb : Z) (ir_grid_map ir_grid_points : option (list Z))
    (num_sampling_points : Z) (g : bzgrid) :=
  kappa_dos eps epsilon mode_prop n_ir nb frequencies g ir_grid_points None ir_grid_map None num_sampling_points.

(** kaccum.py:304-336 run_mfp_dos: one spectrum for each temperature, over the mean free paths of that temperature *)
Definition run_mfp_dos (eps epsilon : Q) (mean_freepath : Z -> Z -> Q) (mode_prop : Z -> Z -> Z -> Z -> Q) (n_temp n_ir nb : Z) (ir_grid_map ir_grid_points : option (list Z))
    (num_sampling_points : Z) (g : bzgrid) : option (list (list Q * (Z -> Z -> Z -> Q))) :=
  all_some (map (fun t => option_map (fun r => (fst r, snd r 0))
    (kappa_dos eps epsilon (fun t' => mode_prop (t + t')) n_ir nb (mean_freepath t) g ir_grid_points None ir_grid_map None num_sampling_points)) (zrange n_temp)).

(** kaccum.py:192-260 GammaDOSsmearing: [nd sigma x] is NormalDistribution(sigma).calc(x); gdos t f (slot 1; slot 0 stays 0) *)
Definition gamma_dos_smearing (nd : Q -> Q -> Q) (epsilon : Q) (gamma : Z -> Z -> Z -> Q) (frequencies : Z -> Q) (n_ir nb : Z) (ir_grid_weights : Z -> Z)
    (sigma : option Q) (num_sampling_points : Z) : option (list Q * (Z -> Z -> Q)) :=
  let ravel := map frequencies (zrange (n_ir * nb)) in
  match list_min ravel, list_max ravel with
  | Some mn, Some mx =>
    let fps := linspace mn (mx + epsilon)%Q num_sampling_points in
    match list_min fps, list_max fps with
    | Some a, Some b =>
      let sg := match sigma with None => ((b - a) / 100)%Q | Some _ => (1 # 10)%Q end in
      Some (fps, fun t f =>
        (qsum (map (fun i => qsum (map (fun b => inject_Z (ir_grid_weights i) * (nd sg (frequencies (i * nb + b)%Z - nth (Z.to_nat f) fps 0) * gamma t i b)) (zrange nb))) (zrange n_ir))
         / inject_Z (zsum (map ir_grid_weights (zrange n_ir))))%Q)
    | _, _ => None
    end
  | _, _ => None
  end.

(** kaccum.py:338-343 get_mfp, at one mode; [norm] is the norm of the group velocity (np.sqrt of the sum of squares), [pi2] is 2*pi *)
Definition get_mfp (pi2 : Q) (gamma norm : Q) : Q :=
  let g := if qltb 0 gamma then gamma else (-1 # 1)%Q in
  if qltb 0 g then (norm / (2 * pi2 * g))%Q else 0%Q.
