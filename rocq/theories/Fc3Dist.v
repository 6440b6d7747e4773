(** Distribution of fc3 by symmetry operations and cutoff: models of phono3py/phonon3/fc3.py 63-249,
    548-573 and c/fc3.c 76-90, 213-241. *)
From Coq Require Import ZArith QArith List Bool Lia.
From Verif Require Import Base Par Par2 Fc3Model.
Import ListNotations.
Open Scope Z_scope.

(** c/fc3.c 222-241 (tensor3_rotation_elem): pos / 9, (pos % 9) / 3, pos % 3 on non-negative pos;
    the accumulation order is irrelevant for exact numbers. *)
Definition tensor3_elem (tensor : Z -> Q) (r : Z -> Q) (p : Z) : Q :=
  let l := Z.quot p 9 in let m := Z.quot (Z.rem p 9) 3 in let n := Z.rem p 3 in
  qsum (map (fun q => let '(i, j, k) := q in Qmult (Qmult (Qmult (r (l * 3 + i)) (r (m * 3 + j))) (r (n * 3 + k))) (tensor (i * 9 + j * 3 + k))) comps).
(** c/fc3.c 213-220 (tensor3_rotation) on blocks starting at addresses [out] and [inp] *)
Definition tensor3_rotation (out inp : Z) (r : Z -> Q) (m : Z -> Q) : Z -> Q :=
  fold_left (fun m l => upd m (out + l) (tensor3_elem (fun p => m (inp + p)) r l)) (zrange 27) m.
(** c/fc3.c 76-90 (fc3_distribute_fc3), num_atom = len(atom_mapping) (_phono3py.cpp 537) *)
Definition distribute_row (target source : Z) (mapping : Z -> Z) (n : Z) (r : Z -> Q) (m : Z -> Q) : Z -> Q :=
  fold_left (fun m i => fold_left (fun m j =>
    tensor3_rotation ((n * n * target + n * i + j) * 27) ((n * n * source + n * mapping i + mapping j) * 27) r m)
    (zrange n) m) (zrange n) m.

(** Symmetry operations: [op_perm g i] is permutations[g, i]; [op_pure g] tells rotations[g] is the
    identity (fc3.py 207-208); [op_cart g a b] is similarity_transformation(lattice, rotations[g])[a, b]. *)
Record Ops := { op_n : Z; op_perm : Z -> Z -> Z; op_pure : Z -> bool; op_cart : Z -> Z -> Z -> Q }.

(** fc3.py 212-218: np.where(permutations[:, i_target] == i_done)[0] and the choice among them *)
Definition rot_indices (o : Ops) (tg dn : Z) : list Z := filter (fun g => op_perm o g tg =? dn) (zrange (op_n o)).
Definition choose_op (o : Ops) (l : list Z) : option Z :=
  match find_first (op_pure o) l with Some g => Some g | None => hd_error l end.
(** fc3.py 212-225: first i_done with a non-empty list; [None] stands for the RuntimeError of 227-229
    (and the NameError when first_disp_atoms is empty). *)
Fixpoint find_source (o : Ops) (tg : Z) (firsts : list Z) : option (Z * Z) :=
  match firsts with
  | [] => None
  | dn :: t => match choose_op o (rot_indices o tg dn) with
               | Some g => Some (dn, g)
               | None => find_source o tg t
               end
  end.
(** fc3.py 173-240 (distribute_fc3); the array passed to C is .T of the Cartesian matrix (222-224). *)
Fixpoint distribute_fc3 (o : Ops) (s2c : Z -> Z) (n : Z) (firsts targets : list Z) (m : Z -> Q) : option (Z -> Q) :=
  match targets with
  | [] => Some m
  | tg :: t =>
      match find_source o tg firsts with
      | None => None
      | Some (dn, g) =>
          distribute_fc3 o s2c n firsts t
            (distribute_row (s2c tg) (s2c dn) (op_perm o g) n (fun p => op_cart o g (Z.rem p 3) (Z.quot p 3)) m)
      end
  end.
Definition memb (l : list Z) (a : Z) : bool := existsb (Z.eqb a) l.
(** np.unique of atom indices below n: sorted, without repetition *)
Definition unique (n : Z) (l : list Z) : list Z := filter (memb l) (zrange n).
(** fc3.py 104-149: expansion of fc3 rows known for the atoms of the dataset ([numbers]) to the
    rows of a compact ([compact] and no cutoff) or full array; [None] for the failing assert of
    109-111 or a RuntimeError. *)
Definition expand_fc3 (o : Ops) (s2c : Z -> Z) (n : Z) (p2s numbers : list Z) (compact : bool) (m : Z -> Q) : option (Z -> Q) :=
  let firsts := unique n numbers in
  if forallb (memb p2s) firsts then
    let targets := filter (fun i => negb (memb firsts i)) p2s in
    if compact then distribute_fc3 o s2c n firsts targets m
    else
      match distribute_fc3 o (fun i => i) n firsts targets m with
      | None => None
      | Some m1 =>
          let firsts' := unique n (firsts ++ p2s) in
          distribute_fc3 o (fun i => i) n firsts' (filter (fun i => negb (memb firsts' i)) (zrange n)) m1
      end
  else None.

(** fc3.py 548-573 (cutoff_fc3_by_zero): [dist i j] is min_distances[i, j] (549-558, a function
    argument), [shape0] = fc3.shape[0], fc3.shape[1] = num_atom = n; [None] for the RuntimeError.
    Zeroing fc3[i_index, j, k] writes 27 numbers; the generator of pairs stops at the first hit. *)
Definition cutoff_hit (dist : Z -> Z -> Q) (cut : Q) (i j k : Z) : bool :=
  existsb (fun pr => negb (Qle_bool (dist (fst pr) (snd pr)) cut)) [(i, j); (j, k); (k, i)].
Definition zero_block (adr : Z) (m : Z -> Q) : Z -> Q := fold_left (fun m q => upd m (adr * 27 + off q) 0%Q) comps m.
Definition cutoff_loop (dist : Z -> Z -> Q) (cut : Q) (n : Z) (rows : list (Z * Z)) (m : Z -> Q) : Z -> Q :=
  fold_left (fun m ii => fold_left (fun m jk =>
      if cutoff_hit dist cut (snd ii) (fst jk) (snd jk) then zero_block (fst ii * n * n + fst jk * n + snd jk) m else m)
    (pairs n n) m) rows m.
Definition enumerate (l : list Z) : list (Z * Z) := combine (zrange (Z.of_nat (length l))) l.
Definition cutoff_fc3_by_zero (dist : Z -> Z -> Q) (cut : Q) (n shape0 : Z) (p2s : option (list Z)) (m : Z -> Q) : option (Z -> Q) :=
  if shape0 =? n then Some (cutoff_loop dist cut n (enumerate (zrange n)) m)
  else match p2s with
       | None => None
       | Some l => if negb (Z.of_nat (length l) =? shape0) then None else Some (cutoff_loop dist cut n (enumerate l) m)
       end.

(** c/fc3.c 92-123 (fc3_rotate_delta_fc2): [rot n i j l m] is rot_delta_fc2s[n][l][m] for the atom
    pair (i,j), given by [rotate_delta_fc2s] below; num = num_site_sym * num_disp. *)
Definition tensor2_rot (r : Z -> Z -> Q) (tensor : Z -> Z -> Q) (i j : Z) : Q :=
  qsum (map (fun kl => (r i (fst kl) * r j (snd kl) * tensor (fst kl) (snd kl))%Q) (pairs 3 3)).
(** c/fc3.c 173-190 (rotate_delta_fc2s), 192-211 (tensor2_rotation): n = i * num_site_sym + j over displacements i and site
    symmetries j, reading the delta fc2 of displacement i at the atoms rot_map_syms[j] takes (a,b) to *)
Definition rot_delta_fc2 (delta : Z -> Z -> Z -> Z -> Z -> Q) (cart : Z -> Z -> Z -> Q) (rmap : Z -> Z -> Z)
    (nsym a b n l m : Z) : Q :=
  let i := Z.quot n nsym in let j := Z.rem n nsym in
  tensor2_rot (cart j) (delta i (rmap j a) (rmap j b)) l m.
Definition rotate_delta_fc2 (inv_U : Z -> Z -> Q) (delta : Z -> Z -> Z -> Z -> Z -> Q) (cart : Z -> Z -> Z -> Q) (rmap : Z -> Z -> Z)
    (nsym ndisp a b k l m : Z) : Q :=
  qsum (map (fun n => (inv_U k n * rot_delta_fc2 delta cart rmap nsym a b n l m)%Q) (zrange (nsym * ndisp))).
