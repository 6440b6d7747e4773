(** Grid points written for distributed runs (--wgp), numbers of triplets shown (--stp), and the grid points, weights and triplets
    that a run uses.

    Sources: phono3py/cui/triplets_info.py, phono3py/cui/phono3py_script.py, phono3py/file_IO.py, phono3py/conductivity/base.py,
    phono3py/conductivity/direct_solution.py, phono3py/phonon3/interaction.py. [mp] is the third value of get_ir_grid_points
    (phonon/grid.py:911-935) of the grid. Printing of numbers (formats, division by 1e6 and 1e9) is left out: sizes are in bytes. *)
From Coq Require Import ZArith QArith List Bool.
From Verif Require Import Base Mat3 QMat GridSpec GridModel BzModel BzProps TripletModel TripletProps KaccumModel KaccumProps.
Import ListNotations.
Open Scope Z_scope.

(** bz_grid.grg2bzg: the whole array, length np.prod(D_diag) (phonon/grid.py:455-459) *)
Definition grg2bzg_array (g : bzgrid) : list Z := map (grg2bzg (k_out g) (k_ty g)) (zrange (num g)).
Definition bzg (g : bzgrid) (i : Z) : Z := nth (Z.to_nat i) (grg2bzg_array g) 0.

(** triplets_info.py:154-165 (_get_ir_grid_points) *)
Definition listed (g : bzgrid) (mp : Z -> Z) (is_kappa_star : bool) : list Z * list Z :=
  if is_kappa_star then
    let irs := ir_grid_points mp (num g) in (map (bzg g) irs, map (ir_weight mp (num g)) irs)
  else
    let gps := firstn (Z.to_nat (num g)) (grg2bzg_array g) in (gps, map (fun _ => 1) gps).
(** file_IO.py:1510-1534 (write_ir_grid_points) from triplets_info.py:59-65: number of points, and point, weight, address of each entry *)
Definition ir_grid_points_yaml (g : bzgrid) (mp : Z -> Z) (is_kappa_star : bool) : Z * list (Z * Z * V3) :=
  let '(gps, ws) := listed g mp is_kappa_star in
  (Z.of_nat (length gps), map (fun x => (fst x, snd x, addr g (fst x))) (combine gps ws)).

(** conductivity/base.py:773-792 (_get_ir_grid_points) *)
Definition base_ir_grid_points (g : bzgrid) (mp : Z -> Z) (grid_points : option (list Z)) : list Z * list Z :=
  let irs := ir_grid_points mp (num g) in
  (map (bzg g) irs,
   match grid_points with
   | None => map (ir_weight mp (num g)) irs
   | Some gps =>
       let weights := fold_left (fun w gp => fun x => if x =? gp then w x + 1 else w x) (map mp (zrange (num g))) (fun _ => 0) in
       map (fun gp => weights (mp (o_b2g (k_out g) gp))) gps
   end).
(** 697-726 (_get_grid_info): grid points of the run, irreducible grid points, weights of the grid points *)
Definition get_grid_info (g : bzgrid) (mp : Z -> Z) (grid_points : option (list Z)) (is_kappa_star : bool) : list Z * list Z * list Z :=
  let '(irs, ws) := base_ir_grid_points g mp grid_points in
  match grid_points with
  | Some gps => (gps, irs, ws)
  | None => if is_kappa_star then (irs, irs, ws) else (grg2bzg_array g, grg2bzg_array g, map (fun _ => 1) (grg2bzg_array g))
  end.
(** 805-846 (_get_multiplicity_at_q, _get_kstar_order): the order of the star, and whether the warning is given; [rots] are the
    point operations in the basis of the grid (671-695) *)
Definition order_and_warning (g : bzgrid) (rots : list M3) (is_kappa_star : bool) (gp weight : Z) : Z * bool :=
  let order := if is_kappa_star then kstar_order rots (multiplicity_at_q rots (mesh g) (addr g gp)) else 1 / 1 in
  (order, negb (order =? weight)).

(** phono3py_script.py:519-535: a list from --gp, an array of numpy from --ga, or None *)
Inductive given := NotGiven | GivenList (l : list Z) | GivenArray (l : list Z).
(** the truth value of it; None: ValueError of an array with more than one element *)
Definition truth (x : given) : option bool :=
  match x with
  | NotGiven => Some false
  | GivenList l => Some (negb (match l with [] => true | _ => false end))
  | GivenArray [] => Some false
  | GivenArray [a] => Some (negb (a =? 0))
  | GivenArray _ => None
  end.
Definition points_of (x : given) : list Z := match x with NotGiven => [] | GivenList l => l | GivenArray l => l end.
(** triplets_info.py:167-169 (_get_number_of_triplets); [rots]: bz_grid.rotations; None is an exception *)
Definition number_of_triplets (g : bzgrid) (rots : list M3) (gp : Z) : option Z :=
  option_map (fun r => Z.of_nat (length (fst (fst (fst r))))) (get_triplets_at_q (k_B g) (k_out g) (k_ty g) (k_Q g) (k_rl g) gp true rots true).
Fixpoint all_some {X} (l : list (option X)) : option (list X) :=
  match l with [] => Some [] | Some x :: t => option_map (cons x) (all_some t) | None :: _ => None end.
(** triplets_info.py:109-138 (show_num_triplets): lines of grid point, address, number of triplets, bytes *)
Definition show_num_triplets (g : bzgrid) (mp : Z -> Z) (rots : list M3) (num_atom : Z) (band_indices : option (list Z)) (x : given) (is_kappa_star : bool)
  : option (list (Z * V3 * Z * Z)) :=
  let num_band := num_atom * 3 in
  let num_band0 := match band_indices with None => num_band | Some l => Z.of_nat (length l) end in
  match truth x with
  | None => None
  | Some b =>
      let gps := if b then points_of x else fst (listed g mp is_kappa_star) in
      all_some (map (fun gp => option_map (fun n => (gp, addr g gp, n, n * num_band0 * num_band ^ 2 * 8)) (number_of_triplets g rots gp)) gps)
  end.

(** phonon3/interaction.py:580-621 (set_grid_point): number of triplets used. [direction]: the rotations left when nac_q_direction
    is set (594-600; None: it is not set) *)
Definition triplets_used (g : bzgrid) (rots : list M3) (direction : option (list M3)) (is_mesh_symmetry : bool) (gp : Z) : option Z :=
  if negb is_mesh_symmetry then
    option_map (fun r => Z.of_nat (length (fst r))) (get_nosym_triplets_at_q (k_B g) (k_out g) (k_ty g) (k_Q g) (k_rl g) gp)
  else
    let tp tr rots := option_map (fun r => Z.of_nat (length (fst (fst (fst r))))) (get_triplets_at_q (k_B g) (k_out g) (k_ty g) (k_Q g) (k_rl g) gp tr rots true) in
    match direction with
    | Some some_rots => if veqb (addr g gp) vzero then tp false some_rots else tp true rots
    | None => tp true rots
    end.
(** interaction.py:188-193: bytes of the array of interaction strengths, shape (triplets, chosen bands, bands, bands) of doubles *)
Definition product (l : list Z) : Z := fold_right Z.mul 1 l.
Definition strength_bytes (num_triplets num_band0 num_atom : Z) : Z := 8 * product [num_triplets; num_band0; num_atom * 3; num_atom * 3].

(** triplets_info.py:77-105: the memory requirements shown with --lbte, in bytes: piece of the collision matrix, full collision
    matrix, phonons *)
Definition memory_shown (g : bzgrid) (mp : Z -> Z) (is_kappa_star : bool) (num_atom : Z) (band_indices : option (list Z)) : Z * Z * Z :=
  let num_ir_gp := Z.of_nat (length (fst (listed g mp is_kappa_star))) in
  let num_band := num_atom * 3 in
  let num_gp := o_size (k_out g) in
  let num_band0 := match band_indices with None => num_band | Some l => Z.of_nat (length l) end in
  (num_band0 * 3 * num_ir_gp * num_band * 3 * 8, (num_ir_gp * num_band * 3) ^ 2 * 8, num_gp * (num_band ^ 2 * 16 + num_band * 8 + 1)).
(** interaction.py:1028-1042: bytes of the arrays of phonons: flags of one byte, frequencies, complex eigenvectors *)
Definition phonon_bytes (g : bzgrid) (num_atom : Z) : Z :=
  let num_grid := o_size (k_out g) in let num_band := num_atom * 3 in
  1 * product [num_grid] + 8 * product [num_grid; num_band] + 16 * product [num_grid; num_band; num_band].
(** direct_solution.py:385-449: bytes of the array of collision matrices; [stored]: all grid points are run (_all_grid_points) *)
Definition colmat_bytes (g : bzgrid) (mp : Z -> Z) (grid_points : option (list Z)) (reducible is_kappa_star : bool) (num_atom num_band0 num_sigma num_temp : Z) : Z :=
  let '(gps, irs, _) := get_grid_info g mp grid_points is_kappa_star in
  let num_band := num_atom * 3 in
  8 * product (if reducible then [num_sigma; num_temp; match grid_points with None => num g | Some _ => 1 end; num_band0; num g; num_band]
               else [num_sigma; num_temp; match grid_points with None => Z.of_nat (length gps) | Some _ => 1 end; num_band0; 3; Z.of_nat (length irs); num_band; 3]).
