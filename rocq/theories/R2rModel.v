(** fc3 in reciprocal space: c/real_to_reciprocal.c 77-400, its call in c/interaction.c 116-170 and 200-210, the table all_shortest of
    phono3py/phonon3/interaction.py 1049-1085, and the Python version phono3py/phonon3/real_to_reciprocal.py 64-121.
    Simplifications: arrays of complex numbers are functions from the index to [cplx]; [cis x] stands for (cos(2 PI x), sin(2 PI x)); the local
    arrays of phase factors and the 27 sums of an atom triplet are functions of their indices (each element is computed from its own indices). *)
From Coq Require Import ZArith QArith Qabs List Bool.
From Verif Require Import Base QMat Par Par2 Cplx DynModel.
Import ListNotations.
Open Scope Z_scope.

Section R2r.
Variable cis : Q -> cplx.
(** number of atoms in primitive cell and supercell *)
Variable np ns : Z.
Variable fc3 : Z -> Q.
Variable svecs : Z -> Z -> Q.
Variable multi : Z -> Z * Z.
Variable p2s s2p : Z -> Z.
Variable is_compact : bool.
Variable shortest : Z -> bool.

(** 361-383 (get_phase_factor) *)
Definition phase_factor (q : Z -> Q) (m : Z * Z) : cplx :=
  let s := fold_left (fun s i =>
    let c := cis (sum3 (fun j => (q j * svecs (snd m + i) j)%Q)) in C (re s + re c) (im s + im c)) (zrange (fst m)) c0 in
  C (re s / inject_Z (fst m)) (im s / inject_Z (fst m)).
(** 100-113: phase_factor<a> at (i, j) *)
Definition ph (q : Z -> Z -> Q) (a i j : Z) : cplx := phase_factor (q a) (multi (j * np + i)).
(** 338-359 (get_pre_phase_factor) *)
Definition pre_phase (q : Z -> Z -> Q) (i : Z) : cplx :=
  cis (sum3 (fun j => (svecs (snd (multi (p2s i * np))) j * (q 0%Z j + q 1%Z j + q 2%Z j))%Q)).
(** 265-334 (real_to_reciprocal_elements): element l of the 27 *)
Definition elements (leg : Z) (ph1 ph2 : Z -> cplx) (pi0 pi1 pi2 l : Z) : cplx :=
  let i := if is_compact then pi0 else p2s pi0 in
  fold_left (fun s j =>
    if negb (s2p j =? p2s pi1) then s else
    fold_left (fun s k =>
      if negb (s2p k =? p2s pi2) then s else
      let sh := shortest (pi0 * ns * ns + j * ns + k) in
      if (1 <? leg) && sh then s else
      let adrs_shift := i * 27 * ns * ns + j * 27 * ns + k * 27 in
      let p := cmul (ph1 j) (ph2 k) in
      if (leg =? 1) && sh
      then C (re s + re p * fc3 (adrs_shift + l)%Z * 3) (im s + im p * fc3 (adrs_shift + l)%Z * 3)
      else C (re s + re p * fc3 (adrs_shift + l)%Z) (im s + im p * fc3 (adrs_shift + l)%Z)) (zrange ns) s) (zrange ns) c0.
(** index of fc3_reciprocal: 168-169 and 223-224 *)
Definition rec_adr (i l j m k n : Z) : Z := let nb := np * 3 in (i * 3 + l) * nb * nb + (j * 3 + m) * nb + k * 3 + n.
(** 152-154 and 207-209 *)
Definition atoms_of (ijk : Z) : Z * Z * Z :=
  let i := Z.quot ijk (np * np) in (i, Z.quot (ijk - i * np * np) np, Z.rem ijk np).
(** loops over l, m, n *)
Definition loop27 (f : Z -> Z -> Z -> @prog Z cplx) : prog := pfor (zrange 3) (fun l => pfor (zrange 3) (fun m => pfor (zrange 3) (fun n => f l m n))).
(** 151-177: one iteration of real_to_reciprocal_legacy *)
Definition legacy_iteration (q : Z -> Z -> Q) (ijk : Z) : @prog Z cplx :=
  let '(i, j, k) := atoms_of ijk in
  let e := elements 0 (ph q 1 i) (ph q 2 i) i j k in
  loop27 (fun l m n => Wr (rec_adr i l j m k n) (cmul (e (l * 9 + m * 3 + n)) (pre_phase q i)) Ret).
Definition add_to (a : Z) (v : cplx) : @prog Z cplx := Rd a (fun x => Wr a (cadd x v) Ret).
(** 206-262: one iteration of real_to_reciprocal_r0_average *)
Definition average_iteration (q : Z -> Z -> Q) (ijk : Z) : @prog Z cplx :=
  let '(i, j, k) := atoms_of ijk in
  let e1 := elements 1 (ph q 1 i) (ph q 2 i) i j k in
  let e2 := elements 2 (ph q 0 j) (ph q 2 j) j i k in
  let e3 := elements 3 (ph q 1 k) (ph q 0 k) k j i in
  pseq (loop27 (fun l m n => add_to (rec_adr i l j m k n) (cmul (e1 (l * 9 + m * 3 + n)) (pre_phase q i))))
  (pseq (loop27 (fun l m n => add_to (rec_adr i l j m k n) (cmul (e2 (m * 9 + l * 3 + n)) (pre_phase q j))))
        (loop27 (fun l m n => add_to (rec_adr i l j m k n) (cmul (e3 (n * 9 + m * 3 + l)) (pre_phase q k))))).
(** 77-140 (r2r_real_to_reciprocal) started on the memory zeroed by interaction.c 203-208; [m] is what malloc returned. The loop over atom triplets is parallel
    unless the triplets of q-points are. *)
Definition zeroed (m : Z -> cplx) : Z -> cplx := fold_left (fun m i => upd m i c0) (zrange (np * 3 * (np * 3) * (np * 3))) m.
Definition third (m : Z -> cplx) : Z -> cplx :=
  fold_left (fun m i => upd m i (C (re (m i) / 3) (im (m i) / 3))) (zrange (np * 3 * (np * 3) * (np * 3))) m.
Definition real_to_reciprocal (make_r0_average : bool) (q : Z -> Z -> Q) (m m' : Z -> cplx) : Prop :=
  if make_r0_average then
    exists m1, finishes Z.eq_dec (map (average_iteration q) (zrange (np * np * np))) (zeroed m) m1 /\ m' = third m1
  else finishes Z.eq_dec (map (legacy_iteration q) (zrange (np * np * np))) (zeroed m) m'.
End R2r.

(** c/interaction.c 130-146: q-vectors of a triplet of BZ grid points *)
Definition triplet_q (addresses : Z -> Z -> Z) (D_diag : Z -> Z) (Qm : Z -> Z -> Z) (triplet : Z -> Z) (j k : Z) : Q :=
  let v := fun k => (inject_Z (addresses (triplet j) k) / inject_Z (D_diag k))%Q in
  (inject_Z (Qm k 0%Z) * v 0%Z + inject_Z (Qm k 1%Z) * v 1%Z + inject_Z (Qm k 2%Z) * v 2%Z)%Q.

(** interaction.py 1049-1085 (_get_all_shortest). [len v] is np.linalg.norm(v @ lattice); perms of shape (ntrans, n_satom); p2p is
    primitive.p2p_map as a function. None: AssertionError. The array starts as zeros (176-178). *)
Section AllShortest.
Variable len : (Z -> Q) -> Q.
Variable np ns : Z.
Variable svecs : Z -> Z -> Q.
Variable multi : Z -> Z * Z.
Variable p2s s2p p2p : Z -> Z.
Variable ntrans : Z.
Variable perms : Z -> Z -> Z.
Variable symprec : Q.
Definition mult (s p : Z) : Z := fst (multi (s * np + p)).
Definition first_vec (s p : Z) : Z -> Q := svecs (snd (multi (s * np + p))).
Definition s2pp (s : Z) : Z := p2p (s2p s).
Definition where_home (j : Z) : list Z := filter (fun t => perms t j =? p2s (s2pp j)) (zrange ntrans).
Definition is_shortest (i j k : Z) : bool :=
  if 1 <? mult j i then false else
  if 1 <? mult k i then false else
  let jp := s2pp j in
  let k_mapped := perms (hd 0 (where_home j)) k in
  if 1 <? mult k_mapped jp then false else
  let vec_jk := fun c => (first_vec k i c - first_vec j i c)%Q in
  qltb (Qabs (len (first_vec k_mapped jp) - len vec_jk)) symprec.
Definition get_all_shortest : option (Z -> bool) :=
  if forallb (fun i => forallb (fun j => (1 <? mult j i) || Nat.eqb (length (where_home j)) 1) (zrange ns)) (zrange np)
  then Some (fun a => is_shortest (Z.quot a (ns * ns)) (Z.rem (Z.quot a ns) ns) (Z.rem a ns)) else None.
End AllShortest.

(** ** real_to_reciprocal.py 64-121. [adr] holds the addresses of the triplet (index, component); [pos] is primitive.scaled_positions. fc3 has shape
    (n_satom, n_satom, n_satom, 3, 3, 3). *)
Section Python.
Variable cis : Q -> cplx.
Variable np ns : Z.
Variable fc3 : Z -> Q.
Variable svecs : Z -> Z -> Q.
Variable multi : Z -> Z * Z.
Variable p2s s2p : Z -> Z.
Variable mesh : Z -> Z.
Variable pos : Z -> Z -> Q.
(** 66-69 *)
Definition py_sum_q (adr : Z -> Z -> Z) (c : Z) : Q :=
  let all_nonzero := negb (adr 0 c =? 0) && negb (adr 1 c =? 0) && negb (adr 2 c =? 0) in
  let total := if all_nonzero then adr 0 c + adr 1 c + adr 2 c else 0 in
  (inject_Z total / inject_Z (mesh c))%Q.
(** 101-103 *)
Definition py_prephase (adr : Z -> Z -> Z) (i : Z) : cplx := cis (sum3 (fun c => (py_sum_q adr c * pos i c)%Q)).
(** 105-121: one of the two factors *)
Definition py_factor (adr : Z -> Z -> Z) (a s p : Z) : cplx :=
  let '(mu, a0) := multi (s * np + p) in
  cscale (/ inject_Z mu) (csum (map (fun x => cis (sum3 (fun c => (svecs (a0 + x) c * (inject_Z (adr a c) / inject_Z (mesh c)))%Q))) (zrange mu))).
Definition py_phase (adr : Z -> Z -> Z) (s t p : Z) : cplx := cmul (cmul c1 (py_factor adr 1 s p)) (py_factor adr 2 t p).
(** 83-99 *)
Definition py_elements (adr : Z -> Z -> Z) (i j k l m n : Z) : cplx :=
  fold_left (fun e s => if negb (s2p s =? p2s j) then e else
    fold_left (fun e t => if negb (s2p t =? p2s k) then e else
      cadd e (cscale (fc3 (((((p2s i * ns + s) * ns + t) * 3 + l) * 3 + m) * 3 + n)%Z) (py_phase adr s t i))) (zrange ns) e) (zrange ns) c0.
(** 64-81 *)
Definition py_real_to_reciprocal (adr : Z -> Z -> Z) (i j k l m n : Z) : cplx := cmul (py_elements adr i j k l m n) (py_prephase adr i).
End Python.
