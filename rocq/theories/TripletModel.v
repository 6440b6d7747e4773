(** Model of c/triplet_grid.c and phono3py/phonon3/triplets.py: q-point triplets. *)
From Coq Require Import ZArith QArith List Bool.
From Verif Require Import Base Mat3 QMat GridModel BzModel.
Import ListNotations.
Open Scope Z_scope.

(** c/triplet_grid.c:166-172: index of the third point -q0 - q1 of the second. *)
Definition third_gp (gp0 gp1 : Z) (D : V3) : Z :=
  grid_index (vsub (vneg (get_grid_address_from_index gp0 D)) (get_grid_address_from_index gp1 D)) D.

(** c/triplet_grid.c:163-182, first loop body of get_ir_triplets_at_q_perm_q1q2;
    state (map_triplets, num_ir_triplets). *)
Definition perm_step1 (map_q : Z -> Z) (gp0 : Z) (D : V3) (s : (Z -> Z) * Z) (gp1 : Z) : (Z -> Z) * Z :=
  let '(m, c) := s in
  if map_q gp1 =? gp1 then
    let gp2 := third_gp gp0 gp1 D in
    if map_q gp2 <? gp1 then (upd m gp1 (map_q gp2), c) else (upd m gp1 gp1, c + 1)
  else (m, c).
(** c/triplet_grid.c:188-193, second loop body (an OpenMP loop; run in order here,
    any other order gives the same table: see [C14_fill_order_irrelevant]). *)
Definition perm_step2 (map_q : Z -> Z) (m : Z -> Z) (gp1 : Z) : Z -> Z :=
  if map_q gp1 =? gp1 then m else upd m gp1 (m (map_q gp1)).
(** c/triplet_grid.c:150-195 get_ir_triplets_at_q_perm_q1q2; [order] is the order in
    which the second loop runs. *)
Definition ir_triplets_perm_in (order : list Z) (map_q init : Z -> Z) (gp0 : Z) (D : V3) : (Z -> Z) * Z :=
  let '(m, c) := fold_left (perm_step1 map_q gp0 D) (zrange (num_gp D)) (init, 0) in
  (fold_left (perm_step2 map_q) order m, c).
Definition ir_triplets_perm (map_q init : Z -> Z) (gp0 : Z) (D : V3) : (Z -> Z) * Z :=
  ir_triplets_perm_in (zrange (num_gp D)) map_q init gp0 D.

(** c/triplet_grid.c:197-216 get_ir_triplets_at_q_noperm *)
Definition noperm_step (map_q : Z -> Z) (s : (Z -> Z) * Z) (gp1 : Z) : (Z -> Z) * Z :=
  let '(m, c) := s in
  if map_q gp1 =? gp1 then (upd m gp1 gp1, c + 1) else (upd m gp1 (m (map_q gp1)), c).
Definition ir_triplets_noperm (map_q init : Z -> Z) (gp0 : Z) (D : V3) : (Z -> Z) * Z :=
  fold_left (noperm_step map_q) (zrange (num_gp D)) (init, 0).

(** c/triplet_grid.c:114-148 get_ir_triplets_at_q: (map_triplets, map_q, count);
    [init] are the callers' buffers (zeros in Python). *)
Definition get_ir_triplets_at_q (init_t init_q : Z -> Z) (gp0 : Z) (D : V3) (rots : list M3)
    (swappable : bool) : (Z -> Z) * (Z -> Z) * Z :=
  let rots_q := point_group_with_q rots D gp0 in
  let map_q := get_ir_grid_map rots_q D vzero init_q in
  let '(m, c) := (if swappable then ir_triplets_perm else ir_triplets_noperm) map_q init_t gp0 D in
  (m, map_q, c).

(** c/triplet_grid.c:83-105 tpk_get_ir_triplets_at_q and
    triplets.py:229-282 _get_triplets_reciprocal_mesh_at_q; [None]: the point group
    could not be built (the buffers stay zero and 0 is returned). *)
Definition triplets_reciprocal_mesh_at_q (gp0 : Z) (D : V3) (is_time_reversal : bool)
    (rots : list M3) (swappable : bool) : option ((Z -> Z) * (Z -> Z) * Z) :=
  match reciprocal_point_group rots is_time_reversal false with
  | None => None
  | Some r => Some (get_ir_triplets_at_q (fun _ => 0) (fun _ => 0) gp0 D r swappable)
  end.

(** BZ grid as passed to c/triplet_grid.c (RecgridConstBZGrid). [g_reclat] is the
    [reclat] field; c/phono3py.c:403-436 ph3py_get_BZ_triplets_at_q never assigns it,
    so its value is arbitrary. *)
Record TpGrid := mkTpGrid {
  g_addr : Z -> V3; g_map : Z -> Z; g_D : V3; g_Q : M3; g_reclat : QM; g_type : Z }.

(** c/triplet_grid.c:421-434 get_LQD_inv: the innermost statement assigns (does not
    add), so the value left in [i][k] is that of the last j. *)
Definition get_LQD_inv (T : TpGrid) : QM :=
  let '(qm l00 l01 l02 l10 l11 l12 l20 l21 l22) := g_reclat T in
  let '(m3 q00 q01 q02 q10 q11 q12 q20 q21 q22) := g_Q T in
  let '(v3 d0 d1 d2) := g_D T in
  let e (l : Q) (q d : Z) := (l * qz q / qz d)%Q in
  qm (e l02 q20 d0) (e l02 q21 d1) (e l02 q22 d2)
     (e l12 q20 d0) (e l12 q21 d1) (e l12 q22 d2)
     (e l22 q20 d0) (e l22 q21 d1) (e l22 q22 d2).

(** c/triplet_grid.c:407-419 get_squared_distance *)
Definition get_squared_distance (G : V3) (M : QM) : Q :=
  let '(qv a b c) := qmulMV M (qv_of G) in (0 + a * a + b * b + c * c)%Q.

(** recgrid_get_tolerance_for_BZ_reduction on this grid *)
Definition tp_tolerance (T : TpGrid) : Q :=
  bz_tolerance (mkBzIn (g_D T) (g_Q T) vzero (g_reclat T)).

(** State of the innermost body c/triplet_grid.c:312-331 and 382-399: whether
    [goto found] was taken, min_d2, and the triplet written so far. *)
Record TpSt := mkTpSt { s_found : bool; s_min : Q; s_tp : Z * Z * Z }.
Definition tp_G (T : TpGrid) (b : Z * Z * Z) : V3 :=
  let '(b0, b1, b2) := b in vadd (vadd (g_addr T b0) (g_addr T b1)) (g_addr T b2).
Definition tp_body (T : TpGrid) (M : QM) (tol : Q) (s : TpSt) (b : Z * Z * Z) : TpSt :=
  if s_found s then s
  else
    let G := tp_G T b in
    if veqb G vzero then mkTpSt true (s_min s) b
    else
      let d2 := get_squared_distance G M in
      if (qltb d2 (s_min s - tol) || qltb (s_min s) 0)%bool then mkTpSt false d2 b else s.

(** The three nested loops: bz2 innermost. *)
Definition triples (l0 l1 l2 : list Z) : list (Z * Z * Z) :=
  flat_map (fun b0 => flat_map (fun b1 => map (fun b2 => (b0, b1, b2)) l2) l1) l0.
Definition tp_search (T : TpGrid) (l0 l1 l2 : list Z) (init : Z * Z * Z) : Z * Z * Z :=
  s_tp (fold_left (tp_body T (get_LQD_inv T) (tp_tolerance T)) (triples l0 l1 l2)
                  (mkTpSt false (-1) init)).

(** c/triplet_grid.c:292-311: bzgp of loop index b for grid point gp, type 1 *)
Definition bz_list1 (T : TpGrid) (gp : Z) : list Z :=
  let n := num_gp (g_D T) in
  map (fun b => if b =? 0 then gp else n + g_map T (n * 8 + gp) + b - 1)
      (zrange (g_map T (n * 8 + gp + 1) - g_map T (n * 8 + gp) + 1)).
(** c/triplet_grid.c:378-381, type 2 *)
Definition bz_list2 (T : TpGrid) (gp : Z) : list Z := zseq (g_map T gp) (g_map T (gp + 1)).

(** c/triplet_grid.c:256-340 and 342-405: the row written for one irreducible gp1.
    [init] is the row's previous contents. *)
Definition bz_triplet (T : TpGrid) (grid_point gp1 : Z) (init : Z * Z * Z) : Z * Z * Z :=
  let a0 := g_addr T grid_point in
  if g_type T =? 1 then
    let a2 := vsub (vneg a0) (g_addr T gp1) in
    let gp2 := grid_index a2 (g_D T) in
    tp_search T (bz_list1 T grid_point) (bz_list1 T gp1) (bz_list1 T gp2) init
  else
    let gp0 := grid_index a0 (g_D T) in
    let a2 := vsub (vneg a0) (g_addr T (g_map T gp1)) in
    let gp2 := grid_index a2 (g_D T) in
    tp_search T (bz_list2 T gp0) (bz_list2 T gp1) (bz_list2 T gp2) init.

(** c/triplet_grid.c:218-254 get_BZ_triplets_at_q; rows are preset to (-1,-1,-1) by
    triplets.py:326; [n] is bzgrid->size, the length of map_triplets. *)
Definition ir_q1_gps (map_triplets : Z -> Z) (n : Z) : list Z :=
  filter (fun gp1 => map_triplets gp1 =? gp1) (zrange n).
Definition get_BZ_triplets_at_q (T : TpGrid) (grid_point : Z) (map_triplets : Z -> Z) (n : Z)
  : list (Z * Z * Z) :=
  map (fun gp1 => bz_triplet T grid_point gp1 (-1, -1, -1)) (ir_q1_gps map_triplets n).

(** triplets.py:321-325: weights[map_triplets[gp]] += 1 and np.extract(weights > 0, weights) *)
Definition triplet_weights (map_triplets : Z -> Z) (n : Z) : list Z :=
  let w := fold_left (fun w x => upd w (map_triplets x) (w (map_triplets x) + 1)) (zrange n) (fun _ => 0) in
  filter (fun c => 0 <? c) (map w (zrange n)).

(** triplets.py:285-343 _get_BZ_triplets_at_q; [None] is the AssertionError. *)
Definition get_BZ_triplets_at_q_py (T : TpGrid) (grid_point : Z) (map_triplets : Z -> Z) (n : Z)
  : option (list (Z * Z * Z) * list Z) :=
  let w := triplet_weights map_triplets n in
  let t := get_BZ_triplets_at_q T grid_point map_triplets n in
  if Z.of_nat (length t) =? Z.of_nat (length w) then Some (t, w) else None.

(** triplets.py:52-118 get_triplets_at_q with [o] the BZ grid tables and [bzg2grg],
    [Qg] is BZGrid.Q (the BZ relocation used its product with a basis change);
    the second [None] is the AssertionError on the sum of weights. *)
Definition tp_grid (B : BzIn) (o : BzOut) (ty : Z) (Qg : M3) (reclat : QM) : TpGrid :=
  mkTpGrid (o_addr o) (o_map o) (bD B) Qg reclat ty.
Definition get_triplets_at_q (B : BzIn) (o : BzOut) (ty : Z) (Qg : M3) (reclat : QM) (grid_point : Z)
    (is_time_reversal : bool) (rots : list M3) (swappable : bool)
  : option (list (Z * Z * Z) * list Z * (Z -> Z) * (Z -> Z)) :=
  match triplets_reciprocal_mesh_at_q (o_b2g o grid_point) (bD B) is_time_reversal rots swappable with
  | None => None
  | Some (mt, mq, _) =>
      match get_BZ_triplets_at_q_py (tp_grid B o ty Qg reclat) grid_point mt (num_gp (bD B)) with
      | None => None
      | Some (t, w) => if num_gp (bD B) =? zsum w then Some (t, w, mt, mq) else None
      end
  end.

(** triplets.py:135-145 get_nosym_triplets_at_q *)
Definition get_nosym_triplets_at_q (B : BzIn) (o : BzOut) (ty : Z) (Qg : M3) (reclat : QM) (grid_point : Z)
  : option (list (Z * Z * Z) * list Z) :=
  get_BZ_triplets_at_q_py (tp_grid B o ty Qg reclat) grid_point (fun x => x) (num_gp (bD B)).
