(** Model of the generalized-regular-grid functions: c/grgrid.c, the integer part
    of c/lagrid.c, c/recgrid.c and the python callers in phono3py/phonon/grid.py.
    int64_t is modelled by unbounded Z (no overflow). Out-parameters are returned. *)
From Coq Require Import ZArith List Bool.
From Verif Require Import Base Mat3.
Import ListNotations.
Open Scope Z_scope.

(** c/lagrid.c:232-239 lagmat_modulo_l; C's [%] truncates, i.e. [Z.rem]. *)
Definition modulo_l (a b : Z) : Z :=
  let c := Z.rem a b in
  if c <? 0 then c + b else c.

(** c/grgrid.c:297-303 reduce_grid_address *)
Definition reduce_grid_address (a D : V3) : V3 :=
  let '(v3 a0 a1 a2) := a in
  let '(v3 d0 d1 d2) := D in
  v3 (modulo_l a0 d0) (modulo_l a1 d1) (modulo_l a2 d2).

(** c/grgrid.c:319-328 get_grid_index_from_address (GRID_ORDER_XYZ not defined). *)
Definition get_grid_index_from_address (a D : V3) : Z :=
  let '(v3 a0 a1 a2) := a in
  let '(v3 d0 d1 _) := D in
  a2 * d0 * d1 + a1 * d0 + a0.

(** c/grgrid.c:192-198 grg_get_grid_index *)
Definition grid_index (a D : V3) : Z :=
  get_grid_index_from_address (reduce_grid_address a D) D.

(** c/grgrid.c:349-365 get_grid_address_from_index; C's [/] truncates. *)
Definition get_grid_address_from_index (idx : Z) (D : V3) : V3 :=
  let '(v3 d0 d1 _) := D in
  let nn := d0 * d1 in
  let a0 := Z.rem idx d0 in
  let a2 := Z.quot idx nn in
  let a1 := Z.quot (idx - a2 * nn) d0 in
  v3 a0 a1 a2.

(** c/grgrid.c:330-346 get_all_grid_addresses: three nested loops writing into
    [grid_address]. *)
Definition get_all_grid_addresses (D : V3) (init : Z -> V3) : Z -> V3 :=
  let '(v3 d0 d1 d2) := D in
  fold_left (fun m i =>
    fold_left (fun m j =>
      fold_left (fun m k =>
        upd m (get_grid_index_from_address (v3 i j k) D) (v3 i j k))
      (zrange d2) m)
    (zrange d1) m)
  (zrange d0) init.

(** phono3py/phonon/grid.py:858-869 get_grid_point_from_address_py;
    [np.mod] takes the sign of the divisor, i.e. [Z.modulo]. *)
Definition grid_point_from_address_py (a D : V3) : Z :=
  let '(v3 a0 a1 a2) := a in
  let '(v3 d0 d1 d2) := D in
  (a0 mod d0) * 1 + (a1 mod d1) * d0 + (a2 mod d2) * (d0 * d1).

(** c/grgrid.c:369-377 get_grid_address *)
Definition get_grid_address (dad PS : V3) : V3 :=
  let '(v3 a0 a1 a2) := dad in
  let '(v3 s0 s1 s2) := PS in
  v3 (Z.quot (a0 - s0) 2) (Z.quot (a1 - s1) 2) (Z.quot (a2 - s2) 2).

(** c/grgrid.c:381-389 get_double_grid_address *)
Definition get_double_grid_address (a PS : V3) : V3 :=
  let '(v3 a0 a1 a2) := a in
  let '(v3 s0 s1 s2) := PS in
  v3 (a0 * 2 + s0) (a1 * 2 + s1) (a2 * 2 + s2).

(** c/grgrid.c:305-313 get_double_grid_index *)
Definition get_double_grid_index (dad D PS : V3) : Z :=
  get_grid_index_from_address (reduce_grid_address (get_grid_address dad PS) D) D.

(** c/grgrid.c:391-400 rotate_grid_index *)
Definition rotate_grid_index (gp : Z) (R : M3) (D PS : V3) : Z :=
  let adrs := get_grid_address_from_index gp D in
  let dadrs := get_double_grid_address adrs PS in
  get_double_grid_index (mulMV R dadrs) D PS.

Definition num_gp (D : V3) : Z := let '(v3 d0 d1 d2) := D in d0 * d1 * d2.

(** Body of the second loop of c/grgrid.c:405-432 get_ir_grid_map for one [gp]:
    the inner [for] with its [break] is [find_first]. *)
Definition ir_grid_map_step (rots : list M3) (D PS : V3) (m : Z -> Z) (gp : Z) : Z -> Z :=
  let m1 :=
    match find_first (fun R => rotate_grid_index gp R D PS <? gp) rots with
    | Some R => upd m gp (m (rotate_grid_index gp R D PS))
    | None => m
    end in
  if m1 gp =? num_gp D then upd m1 gp gp else m1.

(** c/grgrid.c:405-432 get_ir_grid_map; [init] is the caller's buffer. *)
Definition get_ir_grid_map (rots : list M3) (D PS : V3) (init : Z -> Z) : Z -> Z :=
  let m0 := fold_left (fun m gp => upd m gp (num_gp D)) (zrange (num_gp D)) init in
  fold_left (ir_grid_map_step rots D PS) (zrange (num_gp D)) m0.

(** c/recgrid.c:108-123 recgrid_get_ir_grid_map: returned count of [gp] with
    [ir_grid_map[gp] == gp]. *)
Definition num_ir (rots : list M3) (D PS : V3) (init : Z -> Z) : Z :=
  zcount (fun gp => get_ir_grid_map rots D PS init gp =? gp) (zrange (num_gp D)).

(** phonopy.structure.grid_points.extract_ir_grid_points, called at
    phono3py/phonon/grid.py:932-933 (phonopy itself is not in /repo; modelled from
    its documented behaviour): ir_grid_points = np.unique(table) ascending,
    weights[g] = number of entries equal to g. np.unique of a table with values in
    0..n-1 is modelled as the ascending list of the values that occur. *)
Definition ir_grid_points (table : Z -> Z) (n : Z) : list Z :=
  filter (fun g => existsb (fun x => table x =? g) (zrange n)) (zrange n).
Definition ir_weight (table : Z -> Z) (n g : Z) : Z :=
  zcount (fun x => table x =? g) (zrange n).

(** c/grgrid.c:251-265: unique collection with capacity 48; [None] is [goto err]. *)
Definition unique_rotations (rots : list M3) : option (list M3) :=
  fold_left (fun acc r =>
    match acc with
    | None => None
    | Some l =>
        if existsb (fun s => meqb r s) l then Some l
        else if Z.of_nat (length l) =? 48 then None
        else Some (l ++ [r])
    end) rots (Some []).

Definition inversion : M3 := m3 (-1) 0 0 0 (-1) 0 0 0 (-1).

(** c/grgrid.c:237-295 grg_get_reciprocal_point_group; [None] is return value 0
    through [goto err], [Some l] the filled prefix of rec_rotations. *)
Definition reciprocal_point_group (rots : list M3) (is_time_reversal is_transpose : bool)
  : option (list M3) :=
  match unique_rotations rots with
  | None => None
  | Some l0 =>
      let l := if is_transpose then map transp l0 else l0 in
      if is_time_reversal then
        if existsb (fun r => meqb inversion r) l then Some l
        else if 24 <? Z.of_nat (length l) then None
        else Some (l ++ map (fun r => mulMM inversion r) l)
      else Some l
  end.

(** c/triplet_grid.c:437-485 get_reciprocal_point_group_with_q: the operations
    with index(R * address(gp)) == gp in list order; [ir_rot] is the filter.
    Allocation failure is not modelled. *)
Definition point_group_with_q (rots : list M3) (D : V3) (gp : Z) : list M3 :=
  filter (fun R => grid_index (mulMV R (get_grid_address_from_index gp D)) D =? gp) rots.

(** phono3py/phonon/grid.py:979-983 _get_grid_points_by_rotations before the
    [grg2bzg] lookup: plain address, no half shift. *)
Definition rotate_address_py (adrs : V3) (R : M3) (D : V3) : Z :=
  grid_index (mulMV R adrs) D.

(** phono3py/conductivity/base.py:805-819 _get_multiplicity_at_q (is_kappa_star):
    number of operations with q - r q an integer vector, q = Q D^-1 a the position
    of address [a]. Simplified: the tolerance test on the distance is replaced by
    exact equality and, Q being unimodular, divisibility of (a - R a)_i by D_i with
    R the operation in the grid basis is tested. *)
Definition multiplicity_at_q (rots : list M3) (D : V3) (a : V3) : Z :=
  zcount (fun R =>
    let '(v3 x y z) := vsub a (mulMV R a) in
    let '(v3 d0 d1 d2) := D in
    (x mod d0 =? 0) && (y mod d1 =? 0) && (z mod d2 =? 0)) rots.

(** phono3py/conductivity/base.py:821-846 _get_kstar_order; python [//]. *)
Definition kstar_order (rots : list M3) (multi : Z) : Z :=
  Z.of_nat (length rots) / multi.
