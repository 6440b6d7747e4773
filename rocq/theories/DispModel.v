(** Generation of displacement pairs. *)
From Coq Require Import ZArith QArith List Bool.
From Verif Require Import Base QMat DsModel.
Import ListNotations.
Open Scope Z_scope.

(** Return value of get_third_order_displacements (displacement_fc3.py 133-210): integer directions. *)
Definition dir := (Z * Z * Z)%type.
Record dsec := DSec { ds_num : Z; ds_dirs : list dir; ds_dist : Q }.
Record dfir := DFir { df_num : Z; df_dir : dir; df_second : list dsec }.

(** displacement_fc3.py: direction_to_displacement 49-130. [cart] is the direction turned into a Cartesian
    vector of the requested length (np.dot with the lattice, np.linalg.norm). *)
Definition second_entries (cart : dir -> vec) (cutoff : option Q) (count : Z) (s : dsec) : list sec :=
  map (fun p => Sec (ds_num s) (cart (snd p)) (Some (ds_dist s)) (option_map (fun c => qltb (ds_dist s) c) cutoff) (Some (count + fst p)) None None)
      (combine (zrange (Z.of_nat (length (ds_dirs s)))) (ds_dirs s)).
Fixpoint seconds_of (cart : dir -> vec) (cutoff : option Q) (count : Z) (ss : list dsec) : list sec * Z :=
  match ss with
  | [] => ([], count)
  | s :: t => let new := second_entries cart cutoff count s in
      let '(rest, c) := seconds_of cart cutoff (count + Z.of_nat (length new)) t in (new ++ rest, c)
  end.
Fixpoint firsts_of (cart : dir -> vec) (cutoff : option Q) (i count : Z) (fs : list dfir) : list fir :=
  match fs with
  | [] => []
  | f :: t => let '(ss, c) := seconds_of cart cutoff count (df_second f) in
      Fir (df_num f) (cart (df_dir f)) (Some (i + 1)) None None ss :: firsts_of cart cutoff (i + 1) c t
  end.
Definition direction_to_displacement (cart : dir -> vec) (natom : Z) (cutoff : option Q) (dds : list dfir) : dataset :=
  Type1 natom (firsts_of cart cutoff 0 (Z.of_nat (length dds) + 1) dds).

(** Python dict with pairs of atoms as keys *)
Definition key := (Z * Z)%type.
Definition keyb (a b : key) : bool := (fst a =? fst b) && (snd a =? snd b).
Definition dict V := list (key * V).
Fixpoint dget {V} (d : dict V) (k : key) : option V :=
  match d with [] => None | (k', v) :: t => if keyb k' k then Some v else dget t k end.
Fixpoint dset {V} (d : dict V) (k : key) (v : V) : dict V :=
  match d with [] => [(k, v)] | (k', v') :: t => if keyb k' k then (k', v) :: t else (k', v') :: dset t k v end.

(** displacement_fc3.py: _find_duplicates 330-350, the dicts direction_sets and pair_idx (kept together: both
    always have the same keys), and the running index. *)
Definition entry := (dir * dir * Z)%type.
Definition add_rows (n1 : Z) (d1 : dir) (st : dict (list entry) * Z) (s : dsec) : dict (list entry) * Z :=
  let '(ds, idx) := st in
  let k := (n1, ds_num s) in
  let ds1 := match dget ds k with None => dset ds k [] | Some _ => ds end in
  let ds2 := fold_left (fun (ds : dict (list entry)) p => match dget ds k with Some l => dset ds k (l ++ [(d1, snd p, idx + fst p)]) | None => ds end)
               (combine (zrange (Z.of_nat (length (ds_dirs s)))) (ds_dirs s)) ds1 in
  (ds2, idx + Z.of_nat (length (ds_dirs s))).
Definition direction_sets (dds : list dfir) : dict (list entry) :=
  fst (fold_left (fun st f => fold_left (add_rows (df_num f) (df_dir f)) (df_second f) st) dds ([], Z.of_nat (length dds) + 1)).

Definition dirb (a b : dir) : bool := let '(x, y, z) := a in let '(u, v, w) := b in (x =? u) && (y =? v) && (z =? w).
Definition dneg (a : dir) : dir := let '(x, y, z) := a in (- x, - y, - z).
Definition e_d1 (e : entry) : dir := fst (fst e).
Definition e_d2 (e : entry) : dir := snd (fst e).
Definition e_id (e : entry) : Z := snd e.
(** displacement_fc3.py: _compare 382-391. The test on the sum of absolute differences is equality.
    (An empty [dset2], impossible when every second atom has a direction, would raise IndexError.) *)
Definition compare_sets (l1 l2 : list entry) : list (Z * Z) :=
  filter (fun p => snd p <? fst p)
    (flat_map (fun a => map (fun b => (e_id b, e_id a)) (filter (fun b => dirb (e_d2 b) (e_d1 a) && dirb (e_d1 b) (e_d2 a)) l2)) l1).
(** displacement_fc3.py: _compare_opposite 394-402. *)
Definition compare_opposite (l : list entry) : list (Z * Z) :=
  filter (fun p => snd p <? fst p)
    (flat_map (fun a => map (fun b => (e_id b, 0)) (filter (fun b => dirb (e_d2 b) (dneg (e_d1 a)) && dirb (e_d1 b) (dneg (e_d2 a))) l)) l).
(** displacement_fc3.py: _find_duplicates 351-379, the loops with their lists [done]. *)
Definition sets_at (ds : dict (list entry)) (k : key) : list entry := match dget ds k with Some l => l | None => [] end.
Definition dup_step (ds : dict (list entry)) (n1 : Z) (st : list key * list (Z * Z)) (s : dsec) : list key * list (Z * Z) :=
  let '(done, dups) := st in
  let n2 := ds_num s in
  if (n1 <? n2) && negb (existsb (keyb (n2, n1)) done) && (match dget ds (n2, n1) with Some _ => true | None => false end)
  then (done ++ [(n2, n1)], dups ++ compare_sets (sets_at ds (n1, n2)) (sets_at ds (n2, n1)))
  else st.
Definition opp_step (ds : dict (list entry)) (n1 : Z) (st : list Z * list (Z * Z)) (s : dsec) : list Z * list (Z * Z) :=
  let '(done, dups) := st in
  if (n1 =? ds_num s) && negb (existsb (Z.eqb n1) done)
  then (done ++ [n1], dups ++ compare_opposite (sets_at ds (n1, n1)))
  else st.
Definition find_duplicates (dds : list dfir) : list (Z * Z) :=
  let ds := direction_sets dds in
  let d1 := snd (fold_left (fun st f => fold_left (dup_step ds (df_num f)) (df_second f) st) dds ([], [])) in
  snd (fold_left (fun st f => fold_left (opp_step ds (df_num f)) (df_second f) st) dds ([], d1)).

(** ** Second atoms (272-327)
    [close d] is the test on the distance: np.linalg.norm(lattice . (d - rint(d))) < symprec. *)
Definition rot := (dir * dir * dir)%type.
Definition qrot (r : rot) (v : vec) : vec :=
  let '(r0, r1, r2) := r in let '(x, y, z) := v in
  let row (a : dir) := let '(p, q, s) := a in (inject_Z p * x + inject_Z q * y + inject_Z s * z)%Q in
  (row r0, row r1, row r2).
Definition vsub3 (a b : vec) : vec := let '(x, y, z) := a in let '(u, v, w) := b in (x - u, y - v, z - w)%Q.
Definition pos_at (positions : list vec) (i : Z) : vec := nth (Z.to_nat i) positions vec0.
(** The innermost loop: first atom close to the rotated position; the loop variable [pos], which is the
    variable of the outermost loop as well, is left at that atom. *)
Definition first_match (close : vec -> bool) (positions : list vec) (center : vec) (r : rot) (pos : vec) : option Z :=
  let rot_pos := vadd3 (qrot r (vsub3 pos center)) center in
  find_first (fun i => close (vsub3 (pos_at positions i) rot_pos)) (zrange (Z.of_nat (length positions))).
(** One row of _get_orbits (300-327): None for ValueError. When no atom matches, the row is too short and
    ValueError follows, whatever the later rotations do. *)
Fixpoint orbit_row (close : vec -> bool) (positions : list vec) (center : vec) (sym : list rot) (pos : vec) : option (list Z) :=
  match sym with
  | [] => Some []
  | r :: t =>
      match first_match close positions center r pos with
      | None => None
      | Some i => option_map (cons i) (orbit_row close positions center t (pos_at positions i))
      end
  end.
Definition get_orbits (close : vec -> bool) (positions : list vec) (atom_index : Z) (sym : list rot) : option (list (list Z)) :=
  sequence (map (orbit_row close positions (pos_at positions atom_index) sym) positions).
(** get_least_orbits 272-282: the array mapping (np.unique only affects the order of the assignments of one
    row, which write the same value), then np.unique, given as a sorted list without repetitions. *)
Definition least_step (mapping : Z -> Z) (p : Z * list Z) : Z -> Z :=
  fold_left (fun m num => if m (fst p) <? m num then upd m num (m (fst p)) else m) (snd p) mapping.
Definition get_least_orbits (close : vec -> bool) (positions : list vec) (atom_index : Z) (sym : list rot) : option (list Z) :=
  option_map (fun orbits =>
      let n := Z.of_nat (length positions) in
      let mapping := fold_left least_step (combine (zrange n) orbits) (fun i => i) in
      filter (fun v => existsb (fun i => mapping i =? v) (zrange n)) (zrange n))
    (get_orbits close positions atom_index sym).
