(** BZ grid: c/bzgrid.c, c/recgrid.c:125-222, grid.py:1078-1174. Doubles are exact
    rationals; arrays are total functions, so a write beyond the allocated size is
    visible in [size] instead of corrupting memory. *)
From Coq Require Import ZArith QArith List Bool.
From Verif Require Import Base Mat3 QMat GridModel.
Import ListNotations.
Open Scope Z_scope.

(** c/bzgrid.c:46-71 *)
Definition bz_search_space : list V3 := [
v3 0 0 0; v3 0 0 1; v3 0 0 2; v3 0 0 (-2); v3 0 0 (-1);
   v3 0 1 0; v3 0 1 1; v3 0 1 2; v3 0 1 (-2); v3 0 1 (-1);
   v3 0 2 0; v3 0 2 1; v3 0 2 2; v3 0 2 (-2); v3 0 2 (-1);
   v3 0 (-2) 0; v3 0 (-2) 1; v3 0 (-2) 2; v3 0 (-2) (-2); v3 0 (-2) (-1);
   v3 0 (-1) 0; v3 0 (-1) 1; v3 0 (-1) 2; v3 0 (-1) (-2); v3 0 (-1) (-1);
   v3 1 0 0; v3 1 0 1; v3 1 0 2; v3 1 0 (-2); v3 1 0 (-1);
   v3 1 1 0; v3 1 1 1; v3 1 1 2; v3 1 1 (-2); v3 1 1 (-1);
   v3 1 2 0; v3 1 2 1; v3 1 2 2; v3 1 2 (-2); v3 1 2 (-1);
   v3 1 (-2) 0; v3 1 (-2) 1; v3 1 (-2) 2; v3 1 (-2) (-2); v3 1 (-2) (-1);
   v3 1 (-1) 0; v3 1 (-1) 1; v3 1 (-1) 2; v3 1 (-1) (-2); v3 1 (-1) (-1);
   v3 2 0 0; v3 2 0 1; v3 2 0 2; v3 2 0 (-2); v3 2 0 (-1);
   v3 2 1 0; v3 2 1 1; v3 2 1 2; v3 2 1 (-2); v3 2 1 (-1);
   v3 2 2 0; v3 2 2 1; v3 2 2 2; v3 2 2 (-2); v3 2 2 (-1);
   v3 2 (-2) 0; v3 2 (-2) 1; v3 2 (-2) 2; v3 2 (-2) (-2); v3 2 (-2) (-1);
   v3 2 (-1) 0; v3 2 (-1) 1; v3 2 (-1) 2; v3 2 (-1) (-2); v3 2 (-1) (-1);
   v3 (-2) 0 0; v3 (-2) 0 1; v3 (-2) 0 2; v3 (-2) 0 (-2); v3 (-2) 0 (-1);
   v3 (-2) 1 0; v3 (-2) 1 1; v3 (-2) 1 2; v3 (-2) 1 (-2); v3 (-2) 1 (-1);
   v3 (-2) 2 0; v3 (-2) 2 1; v3 (-2) 2 2; v3 (-2) 2 (-2); v3 (-2) 2 (-1);
   v3 (-2) (-2) 0; v3 (-2) (-2) 1; v3 (-2) (-2) 2; v3 (-2) (-2) (-2); v3 (-2) (-2) (-1);
   v3 (-2) (-1) 0; v3 (-2) (-1) 1; v3 (-2) (-1) 2; v3 (-2) (-1) (-2); v3 (-2) (-1) (-1);
   v3 (-1) 0 0; v3 (-1) 0 1; v3 (-1) 0 2; v3 (-1) 0 (-2); v3 (-1) 0 (-1);
   v3 (-1) 1 0; v3 (-1) 1 1; v3 (-1) 1 2; v3 (-1) 1 (-2); v3 (-1) 1 (-1);
   v3 (-1) 2 0; v3 (-1) 2 1; v3 (-1) 2 2; v3 (-1) 2 (-2); v3 (-1) 2 (-1);
   v3 (-1) (-2) 0; v3 (-1) (-2) 1; v3 (-1) (-2) 2; v3 (-1) (-2) (-2); v3 (-1) (-2) (-1);
   v3 (-1) (-1) 0; v3 (-1) (-1) 1; v3 (-1) (-1) 2; v3 (-1) (-1) (-2); v3 (-1) (-1) (-1)].

(** Input part of RecgridBZGrid (c/recgrid.h): D_diag, Q, PS, reclat. *)
Record BzIn := mkBzIn { bD : V3; bQ : M3; bPS : V3; bL : QM }.

(** c/recgrid.c:46, 192-222 recgrid_get_tolerance_for_BZ_reduction *)
Definition GRID_TOLERANCE_FACTOR : Q := 1 # 100.
Definition bz_tolerance (B : BzIn) : Q :=
  let '(qm a b c d e f g h i) := qmulMM (bL B) (qm_of (bQ B)) in
  let '(v3 x y z) := bD B in
  let l0 := ((a * a + d * d + g * g) / qz (x * x))%Q in
  let l1 := ((b * b + e * e + h * h) / qz (y * y))%Q in
  let l2 := ((c * c + f * f + i * i) / qz (z * z))%Q in
  let t := if qltb l0 l1 then l1 else l0 in
  let t := if qltb t l2 then l2 else t in
  (t * GRID_TOLERANCE_FACTOR)%Q.

(** c/bzgrid.c:271-276 [q_red[i] = dadrs[i] / (2.0 * D_diag[i])] then times Q *)
Definition q_red (B : BzIn) (a : V3) : QV :=
  let '(v3 x y z) := get_double_grid_address a (bPS B) in
  let '(v3 d0 d1 d2) := bD B in
  qmulMV (qm_of (bQ B)) (qv (qz x / (2 * qz d0)) (qz y / (2 * qz d1)) (qz z / (2 * qz d2))).
Definition bz_nint (B : BzIn) (a : V3) : V3 :=
  let '(qv x y z) := q_red B a in v3 (Nint x) (Nint y) (Nint z).
(** c/bzgrid.c:282-288, one search vector *)
Definition bz_distance (B : BzIn) (a : V3) (s : V3) : Q :=
  let r := qvsub (q_red B a) (qv_of (bz_nint B a)) in
  qnorm2 (qmulMV (bL B) (qvadd r (qv_of s))).
Definition bz_distances (B : BzIn) (a : V3) : list Q := map (bz_distance B a) bz_search_space.
(** c/bzgrid.c:294-300 *)
Definition min_distance (dists : list Q) (tol : Q) : Q :=
  match dists with
  | [] => 0%Q
  | d0 :: l => fold_left (fun m d => if qltb d (m - tol) then d else m) l d0
  end.

(** c/bzgrid.c:327-349 get_inverse_unimodular_matrix_l3; [None] is return value 0 *)
Definition inverse_unimodular (a : M3) : option M3 :=
  let d := det a in
  if Z.abs d =? 1 then
    let '(m3 c0 c1 c2 c3 c4 c5 c6 c7 c8) := adj a in
    Some (m3 (Z.quot c0 d) (Z.quot c1 d) (Z.quot c2 d) (Z.quot c3 d) (Z.quot c4 d)
             (Z.quot c5 d) (Z.quot c6 d) (Z.quot c7 d) (Z.quot c8 d))
  else None.

(** c/bzgrid.c:245-259 set_bz_address *)
Definition bz_address (D : V3) (Qinv : M3) (a nint s : V3) : V3 :=
  vadd a (vmul (mulMV Qinv (vsub s nint)) D).

(** Output tables. *)
Record BzOut := mkBzOut {
  o_addr : Z -> V3;  (* addresses *)
  o_map : Z -> Z;    (* gp_map *)
  o_b2g : Z -> Z;    (* bzg2grg *)
  o_size : Z }.

Definition nthQ (l : list Q) (j : Z) : Q := nth (Z.to_nat j) l 0%Q.
Definition nthS (j : Z) : V3 := nth (Z.to_nat j) bz_search_space vzero.

(** c/bzgrid.c:229-240, inner loop of type 2: state (addresses, bzg2grg, num_gp) *)
Definition type2_inner (B : BzIn) (Qinv : M3) (tol : Q) (i : Z)
    (s : (Z -> V3) * (Z -> Z) * Z) : (Z -> V3) * (Z -> Z) * Z :=
  let gr_adrs := get_grid_address_from_index i (bD B) in
  let nint := bz_nint B gr_adrs in
  let dists := bz_distances B gr_adrs in
  let mind := min_distance dists tol in
  fold_left (fun st j =>
    let '(a, b, n) := st in
    if qltb (nthQ dists j) (mind + tol) then
      (upd a n (bz_address (bD B) Qinv gr_adrs nint (nthS j)), upd b n i, n + 1)
    else st) (zrange 125) s.

(** c/bzgrid.c:214-243 get_bz_grid_addresses_type2 *)
Definition type2_step (B : BzIn) (Qinv : M3) (tol : Q) (o : BzOut) (i : Z) : BzOut :=
  let '(a, b, n) := type2_inner B Qinv tol i (o_addr o, o_b2g o, o_size o) in
  mkBzOut a (upd (o_map o) (i + 1) n) b n.
Definition bz_type2 (B : BzIn) (Qinv : M3) (init : BzOut) : BzOut :=
  fold_left (type2_step B Qinv (bz_tolerance B)) (zrange (num_gp (bD B)))
    (mkBzOut (o_addr init) (upd (o_map init) 0 0) (o_b2g init) 0).

(** State of get_bz_grid_addresses_type1. *)
Record T1 := mkT1 {
  t_addr : Z -> V3; t_map : Z -> Z; t_b2g : Z -> Z;
  t_boundary : Z; t_count : Z; t_shift : Z }.

(** [grg_get_double_grid_index(address * 2 + PS, bzmesh, PS)], bzmesh = 2 D *)
Definition bz_double_index (D PS a : V3) : Z :=
  let '(v3 x y z) := a in let '(v3 p q r) := PS in
  get_double_grid_index (v3 (x * 2 + p) (y * 2 + q) (z * 2 + r))
    (let '(v3 d0 d1 d2) := D in v3 (d0 * 2) (d1 * 2) (d2 * 2)) PS.

(** c/bzgrid.c:183-203, loop over j *)
Definition type1_inner (B : BzIn) (Qinv : M3) (tol : Q) (i : Z) (s : T1) : T1 :=
  let gr_adrs := get_grid_address_from_index i (bD B) in
  let nint := bz_nint B gr_adrs in
  let dists := bz_distances B gr_adrs in
  let mind := min_distance dists tol in
  let total := num_gp (bD B) in
  fold_left (fun st j =>
    if qltb (nthQ dists j) (mind + tol) then
      let gp := if t_count st =? 0 then i else t_boundary st + total in
      let bn := if t_count st =? 0 then t_boundary st else t_boundary st + 1 in
      let ad := bz_address (bD B) Qinv gr_adrs nint (nthS j) in
      mkT1 (upd (t_addr st) gp ad) (upd (t_map st) (bz_double_index (bD B) (bPS B) ad) gp)
           (upd (t_b2g st) gp i) bn (t_count st + 1) (t_shift st)
    else st) (zrange 125)
    (mkT1 (t_addr s) (t_map s) (t_b2g s) (t_boundary s) 0 (t_shift s)).
(** c/bzgrid.c:178-209 body for one i; num_bzmesh = 8 * total *)
Definition type1_step (B : BzIn) (Qinv : M3) (tol : Q) (s : T1) (i : Z) : T1 :=
  let s' := type1_inner B Qinv tol i s in
  let sh := t_shift s' + (t_count s' - 1) in
  mkT1 (t_addr s') (upd (t_map s') (8 * num_gp (bD B) + i + 1) sh) (t_b2g s') (t_boundary s')
       (t_count s') sh.
(** c/bzgrid.c:154-212 get_bz_grid_addresses_type1 *)
Definition bz_type1 (B : BzIn) (Qinv : M3) (init : BzOut) : BzOut :=
  let total := num_gp (bD B) in
  let m0 := fold_left (fun m i => upd m i (8 * total)) (zrange (8 * total)) (o_map init) in
  let s := fold_left (type1_step B Qinv (bz_tolerance B)) (zrange total)
             (mkT1 (o_addr init) (upd m0 (8 * total) 0) (o_b2g init) 0 0 0) in
  mkBzOut (t_addr s) (t_map s) (t_b2g s) (t_boundary s + total).

(** c/bzgrid.c:136-152 bzg_get_bz_grid_addresses; [None] is return value 0 *)
Definition get_bz_grid_addresses (B : BzIn) (ty : Z) (init : BzOut) : option BzOut :=
  match inverse_unimodular (bQ B) with
  | None => None
  | Some Qinv => Some (if ty =? 1 then bz_type1 B Qinv init else bz_type2 B Qinv init)
  end.

(** c/bzgrid.c:94-134 bzg_rotate_grid_index; the search loops with [return] are
    [find_first]. *)
Definition bz_rotate_grid_index (B : BzIn) (o : BzOut) (ty : Z) (x : Z) (R : M3) : Z :=
  let dadrs := get_double_grid_address (o_addr o x) (bPS B) in
  let adrs_rot := get_grid_address (mulMV R dadrs) (bPS B) in
  let gp := grid_index adrs_rot (bD B) in
  let total := num_gp (bD B) in
  let hit i := veqb (o_addr o i) adrs_rot in
  if ty =? 1 then
    if hit gp then gp
    else match find_first hit (zseq (o_map o (8 * total + gp) + total)
                                    (o_map o (8 * total + gp + 1) + total)) with
         | Some i => i
         | None => o_map o gp
         end
  else match find_first hit (zseq (o_map o gp) (o_map o (gp + 1))) with
       | Some i => i
       | None => o_map o gp
       end.

(** phono3py/phonon/grid.py:1011-1051 _get_grid_points_by_bz_rotations_py for one
    rotation; [None] is the RuntimeError. *)
Definition bz_rotate_grid_index_py (B : BzIn) (o : BzOut) (dense : bool) (x : Z) (R : M3) : option Z :=
  let adrs := mulMV R (o_addr o x) in
  let gp := grid_index adrs (bD B) in
  let total := num_gp (bD B) in
  let hit i := veqb (o_addr o i) adrs in
  if dense then find_first hit (zseq (o_map o gp) (o_map o (gp + 1)))
  else find_first hit (gp :: map (fun i => i + total)
         (zseq (o_map o (8 * total + gp)) (o_map o (8 * total + gp + 1)))).

(** phono3py/phonon/grid.py:448-462: rows allocated for addresses (prod(D) * 8) *)
Definition bz_rows_allocated (D : V3) : Z := num_gp D * 8.
