(** Model of c/snf3x3.c and c/grgrid.c:72-96 grg_get_snf3x3.
    In-place updates of A, P, Q are returned as new matrices. The number of steps of
    the bounded loop of extended_gcd is the parameter [F] (1000 in the code); the
    loop returns [None] when it has not finished, a case that cannot occur with
    F = 1000 for values below 2^499 in magnitude ([egcd_terminates] in SnfProofs);
    int64 overflow is not modelled. *)
From Coq Require Import ZArith List Bool.
From Verif Require Import Base Mat3.
Open Scope Z_scope.

(** m[i][j] and m[i][j] = v. *)
Definition mget (m : M3) (i j : Z) : Z :=
  let '(m3 a b c d e f g h k) := m in
  match i, j with
  | 0, 0 => a | 0, 1 => b | 0, 2 => c
  | 1, 0 => d | 1, 1 => e | 1, 2 => f
  | 2, 0 => g | 2, 1 => h | 2, 2 => k
  | _, _ => 0
  end.
Definition mset (m : M3) (i j v : Z) : M3 :=
  let '(m3 a b c d e f g h k) := m in
  match i, j with
  | 0, 0 => m3 v b c d e f g h k | 0, 1 => m3 a v c d e f g h k | 0, 2 => m3 a b v d e f g h k
  | 1, 0 => m3 a b c v e f g h k | 1, 1 => m3 a b c d v f g h k | 1, 2 => m3 a b c d e v g h k
  | 2, 0 => m3 a b c d e f v h k | 2, 1 => m3 a b c d e f g v k | 2, 2 => m3 a b c d e f g h v
  | _, _ => m
  end.

(** c/snf3x3.c:333-347 swap_rows *)
Definition swap_rows (r1 r2 : Z) : M3 :=
  mset (mset (mset (mset I3 r1 r1 0) r2 r2 0) r1 r2 1) r2 r1 1.

(** c/snf3x3.c:349-365 set_zero; [-b / r] is [(-b) / r] truncating. *)
Definition set_zero (i j a b r s t : Z) : M3 :=
  mset (mset (mset (mset I3 i i s) i j t) j i (Z.quot (-b) r)) j j (Z.quot a r).

(** vals[6] = r0 r1 s0 s1 t0 t1 *)
Inductive Vals := vals (r0 r1 s0 s1 t0 t1 : Z).

(** c/snf3x3.c:396-419 extended_gcd_step *)
Definition extended_gcd_step (v : Vals) : Vals :=
  let '(vals w0 w1 w2 w3 w4 w5) := v in
  let q := Z.quot w0 w1 in
  let r2 := Z.rem w0 w1 in
  let '(r2, q) :=
    if r2 <? 0 then
      let '(r2, q) := if 0 <? w1 then (r2 + w1, q - 1) else (r2, q) in
      if w1 <? 0 then (r2 - w1, q + 1) else (r2, q)
    else (r2, q) in
  vals w1 r2 w3 (w2 - q * w3) w5 (w4 - q * w5).

(** c/snf3x3.c:371-394 extended_gcd *)
Fixpoint egcd_loop (fuel : nat) (v : Vals) : option Vals :=
  match fuel with
  | O => None
  | S n =>
      let v' := extended_gcd_step v in
      let '(vals _ r1 _ _ _ _) := v' in
      if r1 =? 0 then Some v' else egcd_loop n v'
  end.
Definition extended_gcd (F : nat) (a b : Z) : option (Z * Z * Z) :=
  match egcd_loop F (vals a b 1 0 0 1) with
  | Some (vals r0 _ s0 _ t0 _) => Some (r0, s0, t0)
  | None => None
  end.

(** c/snf3x3.c:156-165 search_first_pivot *)
Definition search_first_pivot (A : M3) : Z :=
  if negb (mget A 0 0 =? 0) then 0
  else if negb (mget A 1 0 =? 0) then 1
  else if negb (mget A 2 0 =? 0) then 2
  else -1.

(** [matmul(A, L, A); matmul(P, L, P);] *)
Definition app_l (L : M3) (AP : M3 * M3) : M3 * M3 :=
  (mulMM L (fst AP), mulMM L (snd AP)).

(** c/snf3x3.c:148-154 zero_first_column with the guard and multiplications of
    lines 133-142. *)
Definition zero_first (F : nat) (j : Z) (AP : M3 * M3) : option (M3 * M3) :=
  let A := fst AP in
  if negb (mget A j 0 =? 0) then
    match extended_gcd F (mget A 0 0) (mget A j 0) with
    | Some (r, s, t) => Some (app_l (set_zero 0 j (mget A 0 0) (mget A j 0) r s t) AP)
    | None => None
    end
  else Some AP.

(** c/snf3x3.c:120-146 first_column *)
Definition first_column (F : nat) (AP : M3 * M3) : option (M3 * M3) :=
  let i := search_first_pivot (fst AP) in
  let AP1 := if 0 <? i then app_l (swap_rows 0 i) AP else AP in
  if i <? 0 then Some AP1
  else match zero_first F 1 AP1 with
       | Some AP2 => zero_first F 2 AP2
       | None => None
       end.

Inductive St := st (A P Q : M3).

(** c/snf3x3.c:113-118 first_one_loop (and 198-203 second_one_loop), parameterised
    by the column routine. *)
Definition one_loop (col : M3 * M3 -> option (M3 * M3)) (s : St) : option St :=
  let '(st A P Q) := s in
  match col (A, P) with
  | Some (A1, P1) =>
      match col (transp A1, Q) with
      | Some (A2, Q2) => Some (st (transp A2) P1 Q2)
      | None => None
      end
  | None => None
  end.

(** c/snf3x3.c:167-177 first_finalize *)
Definition first_finalize (A : M3) : M3 :=
  m3 1 0 0
     (Z.quot (- mget A 1 0) (mget A 0 0)) 1 0
     (Z.quot (- mget A 2 0) (mget A 0 0)) 0 1.

(** c/snf3x3.c:91-111 first *)
Definition first (F : nat) (s : St) : option (bool * St) :=
  match one_loop (first_column F) s with
  | None => None
  | Some (st A P Q) =>
      if (mget A 1 0 =? 0) && (mget A 2 0 =? 0) then Some (true, st A P Q)
      else if (Z.rem (mget A 1 0) (mget A 0 0) =? 0) && (Z.rem (mget A 2 0) (mget A 0 0) =? 0)
      then let L := first_finalize A in Some (true, st (mulMM L A) (mulMM L P) Q)
      else Some (false, st A P Q)
  end.

(** c/snf3x3.c:205-226 second_column, zero_second_column *)
Definition second_column (F : nat) (AP : M3 * M3) : option (M3 * M3) :=
  let A := fst AP in
  let AP1 :=
    if (mget A 1 1 =? 0) && negb (mget A 2 1 =? 0) then app_l (swap_rows 1 2) AP else AP in
  let A1 := fst AP1 in
  if negb (mget A1 2 1 =? 0) then
    match extended_gcd F (mget A1 1 1) (mget A1 2 1) with
    | Some (r, s, t) => Some (app_l (set_zero 1 2 (mget A1 1 1) (mget A1 2 1) r s t) AP1)
    | None => None
    end
  else Some AP1.

(** c/snf3x3.c:228-238 second_finalize *)
Definition second_finalize (A : M3) : M3 :=
  m3 1 0 0  0 1 0  0 (Z.quot (- mget A 2 1) (mget A 1 1)) 1.

(** c/snf3x3.c:179-196 second *)
Definition second (F : nat) (s : St) : option (bool * St) :=
  match one_loop (second_column F) s with
  | None => None
  | Some (st A P Q) =>
      if mget A 2 1 =? 0 then Some (true, st A P Q)
      else if Z.rem (mget A 2 1) (mget A 1 1) =? 0
      then let L := second_finalize A in Some (true, st (mulMM L A) (mulMM L P) Q)
      else Some (false, st A P Q)
  end.

(** c/snf3x3.c:421-432 flip_sign_row *)
Definition flip_sign_row (i : Z) : M3 := mset I3 i i (-1).

(** c/snf3x3.c:307-318 make_diagA_positive, body for one i *)
Definition flip_if_neg (s : St) (i : Z) : St :=
  let '(st A P Q) := s in
  if mget A i i <? 0 then st (mulMM (flip_sign_row i) A) (mulMM (flip_sign_row i) P) Q else s.
Definition make_diagA_positive (s : St) : St :=
  flip_if_neg (flip_if_neg (flip_if_neg s 0) 1) 2.

(** c/snf3x3.c:293-305 swap_diag_elems *)
Definition swap_diag_elems (s : St) (i j : Z) : St :=
  let '(st A P Q) := s in
  let L := swap_rows i j in
  st (transp (mulMM L (transp (mulMM L A)))) (mulMM L P) (mulMM L Q).

(** c/snf3x3.c:252-262 finalize_sort *)
Definition swap_if_gt (s : St) (i j : Z) : St :=
  let '(st A _ _) := s in
  if mget A j j <? mget A i i then swap_diag_elems s i j else s.
Definition finalize_sort (s : St) : St :=
  swap_if_gt (swap_if_gt (swap_if_gt s 0 1) 1 2) 0 1.

(** c/snf3x3.c:277-291 disturb_rows *)
Definition disturb_rows (i j : Z) : M3 :=
  mset (mset (mset (mset I3 i i 1) i j 1) j i 0) j j 1.

(** c/snf3x3.c:264-275 finalize_disturb *)
Definition finalize_disturb (s : St) (i j : Z) : St :=
  let '(st A P Q) := s in
  if negb (Z.rem (mget A j j) (mget A i i) =? 0) then
    let L := disturb_rows i j in
    st (transp (mulMM L (transp A))) P (mulMM L Q)
  else s.

(** c/snf3x3.c:320-331 flip_PQ *)
Definition flip_PQ (s : St) : St :=
  let '(st A P Q) := s in
  if det P <? 0 then st A (mneg P) (mneg Q) else s.

(** c/snf3x3.c:240-250 finalize; the return values of first and second are
    discarded as in the code. *)
Definition finalize (F : nat) (s : St) : option St :=
  let s1 := finalize_disturb (finalize_sort (make_diagA_positive s)) 0 1 in
  match first F s1 with
  | None => None
  | Some (_, s2) =>
      match second F (finalize_disturb (finalize_sort s2) 1 2) with
      | None => None
      | Some (_, s3) => Some (flip_PQ s3)
      end
  end.

(** c/snf3x3.c:60-69, the loop of snf3x3. *)
Fixpoint snf_loop (F fuel : nat) (s : St) : option St :=
  match fuel with
  | O => None
  | S n =>
      match first F s with
      | None => None
      | Some (false, s1) => snf_loop F n s1
      | Some (true, s1) =>
          match second F s1 with
          | None => None
          | Some (false, s2) => snf_loop F n s2
          | Some (true, s2) =>
              match finalize F s2 with
              | None => None
              | Some (st A P Q) => Some (st A P (transp Q))
              end
          end
      end
  end.

(** c/snf3x3.c:56-73 snf3x3 (initialize_PQ 75-89 sets both to the identity) called
    by c/grgrid.c:72-96 grg_get_snf3x3: [None] is return value 0, otherwise
    (D_diag, P, Q). [F] bounds the steps of extended_gcd, [n] the iterations. *)
Definition get_snf3x3_bounds (F n : nat) (A : M3) : option (V3 * M3 * M3) :=
  if det A =? 0 then None
  else match snf_loop F n (st A I3 I3) with
       | None => None
       | Some (st D P Q) => Some (v3 (mget D 0 0) (mget D 1 1) (mget D 2 2), P, Q)
       end.
Definition get_snf3x3 (A : M3) : option (V3 * M3 * M3) := get_snf3x3_bounds 1000 100 A.
