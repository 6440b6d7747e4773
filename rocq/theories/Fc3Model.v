(** Third-order force constants: c/fc3.c and phono3py/phonon3/fc3.py. Doubles are rationals. *)
From Coq Require Import ZArith QArith List Bool Lia.
From Verif Require Import Base Par Par2.
Import ListNotations.
Open Scope Z_scope.

(** (i,j,k) with 0 <= i,j,k < 3, in the order of the nested component loops *)
Definition comps : list (Z * Z * Z) :=
  flat_map (fun i => flat_map (fun j => map (fun k => (i, j, k)) (zrange 3)) (zrange 3)) (zrange 3).

(** An (atom, direction) pair. *)
Definition slot := (Z * Z)%type.
(** fc3[a * num_atom * num_atom * 27 + b * num_atom * 27 + c * 27 + i * 9 + j * 3 + k]: address
    arithmetic used throughout c/fc3.c (e.g. 253-254), array of shape (N,num_atom,num_atom,3,3,3). *)
Definition adr (n : Z) (x y z : slot) : Z :=
  fst x * n * n * 27 + fst y * n * 27 + fst z * 27 + snd x * 9 + snd y * 3 + snd z.

(** the six addresses in the order of c/fc3.c 253-266 and 283-294: abc, acb, bac, bca, cab, cba *)
Definition six_adr (n a b c : Z) (q : Z * Z * Z) : list Z :=
  let '(i, j, k) := q in
  [adr n (a, i) (b, j) (c, k); adr n (a, i) (c, k) (b, j); adr n (b, j) (a, i) (c, k);
   adr n (b, j) (c, k) (a, i); adr n (c, k) (a, i) (b, j); adr n (c, k) (b, j) (a, i)].

(** c/fc3.c 243-297 (set_permutation_symmetry_fc3_elem): the 27 averages from the values read in
    loop order, six per component. *)
Fixpoint averages (vs : list Q) : list Q :=
  match vs with
  | v0 :: v1 :: v2 :: v3 :: v4 :: v5 :: t => ((v0 + v1 + v2 + v3 + v4 + v5) / 6)%Q :: averages t
  | _ => []
  end.
(** One (i,j,k) of fc3_set_permutation_symmetry_fc3 (c/fc3.c 134-139): fc3_elem is private; all
    162 reads of set_permutation_symmetry_fc3_elem come before the 162 writes of
    copy_permutation_symmetry_fc3_elem (243-268). *)
Definition perm_block (n a b c : Z) : @prog Z Q :=
  rds (flat_map (six_adr n a b c) comps)
      (fun vs => wprog (flat_map (fun qv => map (fun ad => (ad, snd qv)) (six_adr n a b c (fst qv)))
                                 (combine comps (averages vs)))).
(** iteration i of the parallel loop, c/fc3.c 132-141 *)
Definition perm_iteration (n i : Z) : @prog Z Q :=
  pfor (zseq i n) (fun j => pfor (zseq j n) (fun k => perm_block n i j k)).
(** c/fc3.c 125-142 (fc3_set_permutation_symmetry_fc3): the iterations shared among threads *)
Definition perm_iterations (n : Z) : list (@prog Z Q) := map (perm_iteration n) (zrange n).

(** ** Compact fc3: shape (n_patom, n_satom, n_satom, 3, 3, 3). *)
(** Tables p2s, s2pp, nsym_list, perms[t][s] as functions. *)
Record Tables := { tb_p2s : Z -> Z; tb_s2pp : Z -> Z; tb_nsym : Z -> Z; tb_perm : Z -> Z -> Z }.

(** c/fc3.c 322-340: the six block addresses for (i_p, j, k) *)
Definition compact_adrs (t : Tables) (n ip j k : Z) : list Z :=
  let i := tb_p2s t ip in
  let jp := tb_s2pp t j in
  let kp := tb_s2pp t k in
  let i_trans_j := tb_perm t (tb_nsym t j) i in
  let k_trans_j := tb_perm t (tb_nsym t j) k in
  let i_trans_k := tb_perm t (tb_nsym t k) i in
  let j_trans_k := tb_perm t (tb_nsym t k) j in
  [ip * n * n + j * n + k; ip * n * n + k * n + j;
   jp * n * n + i_trans_j * n + k_trans_j; jp * n * n + k_trans_j * n + i_trans_j;
   kp * n * n + i_trans_k * n + j_trans_k; kp * n * n + j_trans_k * n + i_trans_k].
(** component offsets matching the six addresses, c/fc3.c 359-372 *)
Definition compact_offs (q : Z * Z * Z) : list Z :=
  let '(l, m, n) := q in
  [l * 9 + m * 3 + n; l * 9 + n * 3 + m; m * 9 + l * 3 + n; m * 9 + n * 3 + l; n * 9 + l * 3 + m; n * 9 + m * 3 + l].
Definition compact_cells (ads : list Z) (q : Z * Z * Z) : list Z :=
  map (fun ao => fst ao * 27 + snd ao) (combine ads (compact_offs q)).
Definition avg6 (f : Z -> Q) (l : list Z) : Q :=
  match l with
  | [a0; a1; a2; a3; a4; a5] => ((f a0 + f a1 + f a2 + f a3 + f a4 + f a5) / 6)%Q
  | _ => 0%Q
  end.
Definition store_upd (m : Z -> Q) (ws : list (Z * Q)) : Z -> Q := fold_left (fun m w => upd m (fst w) (snd w)) ws m.
(** body of the triple loop, c/fc3.c 318-396; state = (done, fc3) *)
Definition compact_step (t : Tables) (n : Z) (s : (Z -> bool) * (Z -> Q)) (x : Z * Z * Z) : (Z -> bool) * (Z -> Q) :=
  let '(done, m) := s in
  let '(ip, j, k) := x in
  let ads := compact_adrs t n ip j k in
  if existsb done ads then s
  else
    let done' := fold_left (fun d a => upd d a true) ads done in
    let elems := map (fun q => (q, avg6 m (compact_cells ads q))) comps in
    (done', store_upd m (flat_map (fun qv => map (fun ad => (ad, snd qv)) (compact_cells ads (fst qv))) elems)).
Definition compact_space (n np : Z) : list (Z * Z * Z) :=
  flat_map (fun ip => flat_map (fun j => map (fun k => (ip, j, k)) (zrange n)) (zrange n)) (zrange np).
(** c/fc3.c 299-402 (set_permutation_symmetry_compact_fc3) *)
Definition perm_compact (t : Tables) (n np : Z) (m : Z -> Q) : Z -> Q :=
  snd (fold_left (compact_step t n) (compact_space n np) (fun _ => false, m)).

(** ** Transposition of compact fc3 *)
(** c/fc3.c 450-479 and 481-512: the block at address A (in units of 27) receives the block at B
    with components rearranged by [p], then B receives the saved block A; the middle copy is
    skipped when A = B. [p (l,m,n)] is the offset of the transposed component. *)
Definition off (q : Z * Z * Z) : Z := let '(l, m, n) := q in l * 9 + m * 3 + n.
Definition swap_blocks (p : Z * Z * Z -> Z * Z * Z) (A B : Z) (m : Z -> Q) : Z -> Q :=
  let elem := map (fun q => (q, m (A * 27 + off q))) comps in
  let m1 := if A =? B then m
            else fold_left (fun m q => upd m (A * 27 + off q) (m (B * 27 + off (p q)))) comps m in
  fold_left (fun m qv => upd m (B * 27 + off (p (fst qv))) (snd qv)) elem m1.
Definition p01 (q : Z * Z * Z) := let '(l, m, n) := q in (m, l, n).
Definition p02 (q : Z * Z * Z) := let '(l, m, n) := q in (n, m, l).
Definition p12 (q : Z * Z * Z) := let '(l, m, n) := q in (l, n, m).

(** one (i_p, j) of transpose_compact_fc3_type01, c/fc3.c 424-517; the loop over k *)
Definition transpose01_k (t : Tables) (n t_type ip j k : Z) (m : Z -> Q) : Z -> Q :=
  let i := tb_p2s t ip in
  let jp := tb_s2pp t j in
  let i_trans := tb_perm t (tb_nsym t j) i in
  let k_trans := tb_perm t (tb_nsym t j) k in
  if t_type =? 0
  then swap_blocks p01 (ip * n * n + j * n + k) (jp * n * n + i_trans * n + k_trans) m
  else swap_blocks p02 (ip * n * n + k * n + j) (jp * n * n + k_trans * n + i_trans) m.
Definition transpose01_step (t : Tables) (n t_type : Z) (s : (Z -> bool) * (Z -> Q)) (x : Z * Z) :=
  let '(done, m) := s in
  let '(ip, j) := x in
  if done (ip * n + j) then s
  else
    let i_trans := tb_perm t (tb_nsym t j) (tb_p2s t ip) in
    (upd (upd done (ip * n + j) true) (tb_s2pp t j * n + i_trans) true,
     fold_left (fun m k => transpose01_k t n t_type ip j k m) (zrange n) m).
Definition pairs (a b : Z) : list (Z * Z) := flat_map (fun i => map (fun j => (i, j)) (zrange b)) (zrange a).
Definition transpose01 (t : Tables) (n np t_type : Z) (m : Z -> Q) : Z -> Q :=
  snd (fold_left (transpose01_step t n t_type) (pairs np n) (fun _ => false, m)).
(** c/fc3.c 521-558 (transpose_compact_fc3_type2): the middle copy is skipped when k = j, that is
    when the two addresses are equal *)
Definition transpose2 (n np : Z) (m : Z -> Q) : Z -> Q :=
  fold_left (fun m ip => fold_left (fun m j => fold_left (fun m k =>
      swap_blocks p12 (ip * n * n + j * n + k) (ip * n * n + k * n + j) m) (zseq j n) m) (zrange n) m) (zrange np) m.
(** c/fc3.c 155-173 (fc3_transpose_compact_fc3) *)
Definition transpose_compact (t : Tables) (n np t_type : Z) (m : Z -> Q) : Z -> Q :=
  if (t_type =? 0) || (t_type =? 1) then transpose01 t n np t_type m
  else if t_type =? 2 then transpose2 n np m else m.

(** ** Translational invariance, phono3py/phonon3/fc3.py 356-371
    (_set_translational_invariance_fc3_per_index) on an array of shape (s0,s1,s2,3,3,3) stored
    row-major with s1 = s2 = n; numpy's [a -= sum(a)/len] on one line of the array: the sum is
    taken before the line is changed. *)
Definition line (index n : Z) (i j : Z) (q : Z * Z * Z) (a : Z) : Z :=
  (if index =? 0 then a * n * n + i * n + j
   else if index =? 1 then j * n * n + a * n + i
   else i * n * n + j * n + a) * 27 + off q.
Definition shape (np n d : Z) : Z := if d =? 0 then np else n.
Definition sub_line (cells : list Z) (m : Z -> Q) : Z -> Q :=
  let d := (qsum (map m cells) / inject_Z (Z.of_nat (length cells)))%Q in
  fold_left (fun m' c => upd m' c (m c - d)%Q) cells m.
Definition trans_inv (index np n : Z) (m : Z -> Q) : Z -> Q :=
  fold_left (fun m i => fold_left (fun m j => fold_left (fun m q =>
      sub_line (map (line index n i j q) (zrange (shape np n index))) m) comps m)
      (zrange (shape np n ((2 + index) mod 3))) m) (zrange (shape np n ((1 + index) mod 3))) m.
(** fc3.py 317-320 (set_translational_invariance_fc3) *)
Definition trans_inv_full (np n : Z) (m : Z -> Q) : Z -> Q := fold_left (fun m i => trans_inv i np n m) (zrange 3) m.
(** fc3.py 323-353 (set_translational_invariance_compact_fc3) *)
Definition trans_inv_compact (t : Tables) (n np : Z) (m : Z -> Q) : Z -> Q :=
  let m := transpose_compact t n np 0 m in
  let m := trans_inv 1 np n m in
  let m := transpose_compact t n np 0 m in
  let m := trans_inv 1 np n m in
  trans_inv 2 np n m.
(** api_phono3py.py 1499-1508 (produce_fc3 with symmetrize_fc3r); the parallel loop run in order *)
Definition perm_full (n : Z) (m : Z -> Q) : Z -> Q := run_seq Z.eq_dec (perm_iterations n) m.
Definition symmetrize_fc3r (compact : bool) (t : Tables) (np n : Z) (m : Z -> Q) : Z -> Q :=
  if compact then perm_compact t n np (trans_inv_compact t n np m)
  else perm_full n (trans_inv_full np n m).
(** api_phono3py.py 1612-1617 (Phono3py.set_permutation_symmetry, fc3 part) with
    _phono3py.cpp 638-646: num_atom is shape[0] whatever the layout. *)
Definition api_set_permutation_symmetry (shape0 : Z) (m : Z -> Q) : Z -> Q := perm_full shape0 m.
