(** Niggli reduction of a lattice: c/niggli.c, and its use for BZ grids in c/gridsys.c. Lattices have the basis vectors as columns.
    Doubles are rationals; allocation does not fail. *)
From Coq Require Import ZArith QArith Qabs List Bool.
From Verif Require Import Base Mat3 QMat BzModel.
Import ListNotations.
Open Scope Z_scope.

(** c/niggli.c:44-58 NiggliParams, without tmat, which a step returns, and eps, an argument *)
Record Nig := mkNig { nL : QM; nA : Q; nB : Q; nC : Q; nxi : Q; neta : Q; nzeta : Q; nl : Z; nm : Z; nn : Z }.

(** c/niggli.c:284-306 set_angle_types, one of the three *)
Definition angle_type (eps x : Q) : Z :=
  let t := if qltb x (- eps) then -1 else 0 in if qltb eps x then 1 else t.
(** c/niggli.c:260-282 set_parameters with 513-530 get_metric *)
Definition set_parameters (eps : Q) (L : QM) : Nig :=
  let '(qm a b c d e f g h i) := L in
  let xi := ((b * c + e * f + h * i) * 2)%Q in
  let eta := ((a * c + d * f + g * i) * 2)%Q in
  let zeta := ((a * b + d * e + g * h) * 2)%Q in
  mkNig L (a * a + d * d + g * g) (b * b + e * e + h * h) (c * c + f * f + i * i) xi eta zeta
        (angle_type eps xi) (angle_type eps eta) (angle_type eps zeta).
(** c/niggli.c:245-258 reset *)
Definition nig_reset (eps : Q) (p : Nig) (tmat : M3) : Nig := set_parameters eps (qmulMM (nL p) (qm_of tmat)).

(** the steps return tmat if they return 1 *)
Definition qgt (a b : Q) : bool := qltb b a.
(** c/niggli.c:308-318 *)
Definition step1 (eps : Q) (p : Nig) : option M3 :=
  if qgt (nA p) (nB p + eps) || (negb (qgt (Qabs (nA p - nB p)) eps) && qgt (Qabs (nxi p)) (Qabs (neta p) + eps))
  then Some (m3 0 (-1) 0 (-1) 0 0 0 0 (-1)) else None.
(** c/niggli.c:320-330 *)
Definition step2 (eps : Q) (p : Nig) : option M3 :=
  if qgt (nB p) (nC p + eps) || (negb (qgt (Qabs (nB p - nC p)) eps) && qgt (Qabs (neta p)) (Qabs (nzeta p) + eps))
  then Some (m3 (-1) 0 0 0 0 (-1) 0 (-1) 0) else None.
(** c/niggli.c:334-342 step2_for_layer: a warning only *)
Definition step2_for_layer (eps : Q) (p : Nig) : option M3 := None.
(** c/niggli.c:344-369 *)
Definition step3 (eps : Q) (p : Nig) : option M3 :=
  if nl p * nm p * nn p =? 1 then
    let i := if nl p =? -1 then -1 else 1 in
    let j := if nm p =? -1 then -1 else 1 in
    let k := if nn p =? -1 then -1 else 1 in
    Some (m3 i 0 0 0 j 0 0 0 k)
  else None.
(** c/niggli.c:371-421 *)
Definition step4 (eps : Q) (p : Nig) : option M3 :=
  if (nl p =? -1) && (nm p =? -1) && (nn p =? -1) then None
  else if (nl p * nm p * nn p =? 0) || (nl p * nm p * nn p =? -1) then
    let i := if nl p =? 1 then -1 else 1 in
    let r := if nl p =? 0 then 0 else -1 in
    let j := if nm p =? 1 then -1 else 1 in
    let r := if nm p =? 0 then 1 else r in
    let k := if nn p =? 1 then -1 else 1 in
    let r := if nn p =? 0 then 2 else r in
    let '(i, j, k) := if i * j * k =? -1
                      then (if r =? 0 then -1 else i, if r =? 1 then -1 else j, if r =? 2 then -1 else k) else (i, j, k) in
    Some (m3 i 0 0 0 j 0 0 0 k)
  else None.
(** c/niggli.c:423-440, 442-459, 461-478: the entry put into tmat *)
Definition shear (x : Q) : Z := if qgt x 0 then -1 else if qltb x 0 then 1 else 0.
Definition step5 (eps : Q) (p : Nig) : option M3 :=
  if qgt (Qabs (nxi p)) (nB p + eps) || (negb (qgt (Qabs (nB p - nxi p)) eps) && qltb (2 * neta p) (nzeta p - eps)) ||
     (negb (qgt (Qabs (nB p + nxi p)) eps) && qltb (nzeta p) (- eps))
  then Some (m3 1 0 0 0 1 (shear (nxi p)) 0 0 1) else None.
Definition step6 (eps : Q) (p : Nig) : option M3 :=
  if qgt (Qabs (neta p)) (nA p + eps) || (negb (qgt (Qabs (nA p - neta p)) eps) && qltb (2 * nxi p) (nzeta p - eps)) ||
     (negb (qgt (Qabs (nA p + neta p)) eps) && qltb (nzeta p) (- eps))
  then Some (m3 1 0 (shear (neta p)) 0 1 0 0 0 1) else None.
Definition step7 (eps : Q) (p : Nig) : option M3 :=
  if qgt (Qabs (nzeta p)) (nA p + eps) || (negb (qgt (Qabs (nA p - nzeta p)) eps) && qltb (2 * nxi p) (neta p - eps)) ||
     (negb (qgt (Qabs (nA p + nzeta p)) eps) && qltb (neta p) (- eps))
  then Some (m3 1 (shear (nzeta p)) 0 0 1 0 0 0 1) else None.
(** c/niggli.c:480-491 *)
Definition step8 (eps : Q) (p : Nig) : option M3 :=
  let s := (nxi p + neta p + nzeta p + nA p + nB p)%Q in
  if qltb s (- eps) || (negb (qgt (Qabs s) eps) && qgt (2 * (nA p + neta p) + nzeta p) eps)
  then Some (m3 1 0 1 0 1 1 0 0 1) else None.

(** c/niggli.c:151-161: the inner loop over the steps with the flag of [break]; the boolean result is whether it ran to its end *)
Fixpoint nig_pass (eps : Q) (steps : list ((Q -> Nig -> option M3) * bool)) (p : Nig) : Nig * bool :=
  match steps with
  | [] => (p, true)
  | (st, brk) :: rest =>
      match st eps p with
      | Some t => let p' := nig_reset eps p t in if brk then (p', false) else nig_pass eps rest p'
      | None => nig_pass eps rest p
      end
  end.
(** c/niggli.c:128-133, 157 *)
Definition nig_steps (layer : bool) : list ((Q -> Nig -> option M3) * bool) :=
  [(step1, false); (if layer then step2_for_layer else step2, true); (step3, false); (step4, false);
   (step5, true); (step6, true); (step7, true); (step8, true)].
(** c/niggli.c:150-166: the outer loop *)
Fixpoint nig_loop (eps : Q) (layer : bool) (n : nat) (p : Nig) : Nig * bool :=
  match n with
  | O => (p, false)
  | S n => let '(p, fin) := nig_pass eps (nig_steps layer) p in if fin then (p, true) else nig_loop eps layer n p
  end.
Definition NIGGLI_MAX_NUM_LOOP : nat := 100.
(** c/niggli.c:124-173 niggli_reduce_periodic with 221-233 layer_swap_axis: the lattice left in the argument, and the result *)
Definition niggli_reduce_periodic (L : QM) (eps : Q) (axis : Z) : QM * bool :=
  let layer := negb (axis =? -1) in
  let start :=
    if axis =? 0 then Some (nig_reset eps (set_parameters eps L) (m3 0 0 (-1) 0 (-1) 0 (-1) 0 0))
    else if axis =? 1 then Some (nig_reset eps (set_parameters eps L) (m3 (-1) 0 0 0 0 (-1) 0 (-1) 0))
    else if (axis =? -1) || (axis =? 2) then Some (set_parameters eps L) else None in
  match start with
  | None => (L, false)
  | Some p => let '(p, ok) := nig_loop eps layer NIGGLI_MAX_NUM_LOOP p in (nL p, ok)
  end.
(** c/niggli.c:119-122 *)
Definition niggli_reduce (L : QM) (eps : Q) : QM * bool := niggli_reduce_periodic L eps (-1).

(** c/lagrid.c:63-73 lagmat_cast_matrix_3d_to_3l *)
Definition cast_int (m : QM) : M3 :=
  let '(qm a b c d e f g h i) := m in m3 (Nint a) (Nint b) (Nint c) (Nint d) (Nint e) (Nint f) (Nint g) (Nint h) (Nint i).
Definition GRIDSYS_NIGGLI_TOLERANCE : Q := 1 # 100000.
(** c/gridsys.c:119-170 gridsys_get_bz_grid_addresses, with c/lagrid.c:117-138 lagmat_inverse_matrix_d3: the input of
    bzg_get_bz_grid_addresses, or [None] when it returns 0 before *)
Definition gridsys_input (D : V3) (U : M3) (PS : V3) (L : QM) : option BzIn :=
  let '(N, ok) := niggli_reduce L GRIDSYS_NIGGLI_TOLERANCE in
  if ok then
    if qltb (Qabs (qdet N)) GRIDSYS_NIGGLI_TOLERANCE then None
    else Some (mkBzIn D (mulMM (cast_int (qmulMM (qinv N) L)) U) PS N)
  else None.
Definition gridsys_get_bz_grid_addresses (D : V3) (U : M3) (PS : V3) (L : QM) (ty : Z) (init : BzOut) : option BzOut :=
  match gridsys_input D U PS L with Some B => get_bz_grid_addresses B ty init | None => None end.
