(** Third-order force constants from the forces of a displacement dataset: phono3py/phonon3/fc3.py get_fc3 63-170 (without cutoff_distance, which is in FcoModel.v),
    _get_delta_fc2 385-392, _get_constrained_fc2 395-442, _solve_fc3 445-528, _get_fc3_least_atoms 678-760. The C routine of 521 and the expansion of 104-149
    are in Fc3Dist.v. Doubles are rationals.
    Functions of phonopy are arguments: [solve] solve_force_constants (the row of one atom), [distribute] distribute_force_constants with the permutations of 436-440,
    [site] get_site_symmetry, [rmap] get_positions_sent_by_rot_inv around the first atom (491-500), [pinv] numpy.linalg.pinv or lapacke_pinv; so are
    get_reduced_site_symmetry ([reduce], 726-732), get_bond_symmetry ([bond], 422-424) and the second-order force constants of get_fc2 (87-93). *)
From Coq Require Import ZArith QArith List Bool.
From Verif Require Import Base Fc3Model Fc3Dist.
Import ListNotations.
Open Scope Z_scope.

Definition vec3 : Type := Z -> Q.
Definition forces : Type := Z -> Z -> Q.                  (* atom, component *)
Definition fcs2 : Type := Z -> Z -> Z -> Z -> Q.          (* atom, atom, component, component *)
Record second := { s_num : Z; s_disp : vec3; s_forces : forces }.
Record first := { d_num : Z; d_disp : vec3; d_forces : forces; d_delta : option fcs2; d_seconds : list second }.

Section Fdf.
Variable R : Type.                                        (* rotations *)
Variable cart : R -> Z -> Z -> Q.                         (* similarity_transformation(lattice, .) *)
Variable n : Z.                                           (* atoms of the supercell *)
Variable solve : Z -> list vec3 -> list forces -> list R -> Z -> Z -> Z -> Q.
Variable distribute : fcs2 -> list Z -> list R -> Z -> fcs2.
Variable site : Z -> list R.
Variable reduce : list R -> vec3 -> list R.
Variable bond : list R -> Z -> Z -> list R.
Variable rmap : R -> Z -> Z -> Z.                         (* rotation, centre, atom *)
Variable pinv : list vec3 -> Z -> Z -> Q.                 (* rows: rotated displacements *)

Definition set_row (fc2 : fcs2) (b : Z) (row : Z -> Z -> Z -> Q) : fcs2 := fun x c i j => if x =? b then row c i j else fc2 x c i j.
(** 414-442 *)
Definition constrained_fc2 (f : first) (red : list R) : fcs2 :=
  let atom_list := unique n (map s_num (d_seconds f)) in
  let fc2 := fold_left (fun fc2 b =>
      let mine := filter (fun s => s_num s =? b) (d_seconds f) in
      set_row fc2 b (solve b (map s_disp mine) (map (fun s c i => (s_forces s c i - d_forces f c i)%Q) mine) (bond red (d_num f) b)))
    atom_list (fun _ _ _ _ => 0%Q) in
  distribute fc2 atom_list red (d_num f).
(** 719-743, with 385-392 *)
Definition delta_fc2 (fc2 : fcs2) (f : first) : fcs2 :=
  match d_delta f with
  | Some d => d
  | None => fun x c i j => (constrained_fc2 f (reduce (site (d_num f)) (d_disp f)) x c i j - fc2 x c i j)%Q
  end.
Definition apply (r : Z -> Z -> Q) (u : vec3) : vec3 := fun k => (r k 0%Z * u 0%Z + r k 1%Z * u 1%Z + r k 2%Z * u 2%Z)%Q.
(** 489-528: [rot_disps] displacement by displacement, for each the operations of the site symmetry *)
Definition rot_disps (a : Z) (disps : list vec3) : list vec3 := flat_map (fun u => map (fun r => apply (cart r) u) (site a)) disps.
Definition nth_rot (a : Z) (d : R) (j : Z) : R := nth (Z.to_nat j) (site a) d.
Definition solve_fc3 (d : R) (a : Z) (disps : list vec3) (deltas : list fcs2) (b c i j k : Z) : Q :=
  rotate_delta_fc2 (pinv (rot_disps a disps)) (fun x => nth (Z.to_nat x) deltas (fun _ _ _ _ => 0%Q)) (fun j => cart (nth_rot a d j)) (fun j => rmap (nth_rot a d j) a)
    (Z.of_nat (length (site a))) (Z.of_nat (length disps)) b c i j k.
(** fc3[p] = fc3_first *)
Definition set_block (p : Z) (v : Z -> Z -> Z -> Z -> Z -> Q) (m : Z -> Q) : Z -> Q :=
  fun a => let e := a - p * (n * n * 27) in
    if (0 <=? e) && (e <? n * n * 27) then v (e / 27 / n) (e / 27 mod n) (e mod 27 / 9) (e mod 9 / 3) (e mod 3) else m a.
(** 678-760; None: RuntimeError of 699-702. [s2p], [s2c]: s2p_map and p2p_map[s2p_map[.]]. The argument [d] is never used: positions in the list of operations are in range. *)
Definition least_atoms (d : R) (s2p s2c : Z -> Z) (compact : bool) (firsts : list first) (fc2 : fcs2) : option (Z -> Q) :=
  let nums := unique n (map d_num firsts) in
  if compact && negb (forallb (fun i => i =? s2p i) nums) then None
  else Some (fold_left (fun m a =>
    let mine := filter (fun f => d_num f =? a) firsts in
    set_block (if compact then s2c a else a) (solve_fc3 d a (map d_disp mine) (map (delta_fc2 fc2) mine)) m) nums (fun _ => 0%Q)).
(** 87-170 without cutoff_distance *)
Definition get_fc3 (d : R) (o : Ops) (s2p s2c : Z -> Z) (p2s : list Z) (compact : bool) (firsts : list first) (fc2 : fcs2) : option (fcs2 * (Z -> Q)) :=
  match least_atoms d s2p s2c compact firsts fc2 with
  | None => None
  | Some m => option_map (fun m' => ((if compact then fun i => fc2 (nth (Z.to_nat i) p2s 0) else fc2), m')) (expand_fc3 o s2c n p2s (map d_num firsts) compact m)
  end.
End Fdf.
