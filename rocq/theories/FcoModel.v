(** Third-order force constants of a displacement dataset with a cutoff pair distance: phono3py/phonon3/fc3.py
    (_copy_permutation_symmetry_fc3_elem 293-300, _cutoff_fc3_for_cutoff_pairs 531-545,
    _set_permutation_symmetry_fc3_elem_with_cutoff 654-675, _get_fc3_done 781-844, _get_atom_by_symmetry 847-857). *)
From Coq Require Import ZArith QArith Qabs List Bool.
From Verif Require Import Base QMat DsModel DispModel Fc3Model Fc3Trans Fc3Dist.
Import ListNotations.
Open Scope Z_scope.

(** A symmetry operation: rotation (fractional coordinates) and translation. *)
Definition sop := (rot * vec)%type.
(** fc3.py 847-857 (_get_atom_by_symmetry): the first atom whose distance to the moved position is below symprec.
    [close d] is the test of 849-851, norm(lattice . (d - rint(d))) < symprec. None for the ValueError. *)
Definition atom_by_symmetry (close : vec -> bool) (positions : list vec) (g : sop) (i : Z) : option Z :=
  find_first (fun j => close (vsub3 (pos_at positions j) (vadd3 (qrot (fst g) (pos_at positions i)) (snd g)))) (zrange (Z.of_nat (length positions))).
(** fc3.py 792-798 (atom_mapping) *)
Definition atom_mapping (close : vec -> bool) (positions : list vec) (ops : list sop) : option (list (list Z)) :=
  sequence (map (fun g => sequence (map (atom_by_symmetry close positions g) (zrange (Z.of_nat (length positions))))) ops).
(** fc3.py 807-820: does this second atom count ("included" given, or the pair closer than the cutoff)? None for the
    failing assert of 816-817. [dist] is min_distance (813-815, get_smallest_vector_of_atom_pair and a norm). *)
Definition second_counts (dist : Z -> Z -> Q) (cutoff : option Q) (a : Z) (s : sec) : option bool :=
  match s_incl s with
  | Some b => Some b
  | None =>
      match cutoff with
      | None => Some false
      | Some c =>
          let d := dist a (s_num s) in
          let ok := match s_dist s with Some d' => qltb (Qabs (d - d')) (1 # 10000) | None => true end in
          if ok then Some (qltb d c) else None
      end
  end.
(** fc3.py 806-823: least_second_atom_nums; np.unique sorts and removes repetitions *)
Definition least_second_atoms (dist : Z -> Z -> Q) (cutoff : option Q) (n : Z) (f : fir) : option (list Z) :=
  option_map (fun bs => unique n (map fst (filter snd (combine (map s_num (f_second f)) bs))))
    (sequence (map (second_counts dist cutoff (f_num f)) (f_second f))).
(** fc3.py 822-837: second_atom_nums is assigned anew for every rotation, so the last one stays. [None] also for no
    rotation at all (UnboundLocalError, or the value of the previous first atom; the identity is always in the list). *)
Definition second_atom_nums (close : vec -> bool) (positions : list vec) (red : list rot) (f : fir) (least : list Z) : option (list Z) :=
  let shifted := map (fun p => vsub3 p (pos_at positions (f_num f))) positions in
  match sequence (map (fun r => sequence (map (atom_by_symmetry close shifted (r, vec0)) least)) red) with
  | Some (l :: t) => Some (last t l)
  | _ => None
  end.
(** fc3.py 800-844 (_get_fc3_done). [red f] is reduced_site_sym (802-805, get_reduced_site_symmetry, a function argument).
    fc3_done[a, b, :] = 1 for the listed pairs (the third index is never restricted). *)
Definition done_of_first (close : vec -> bool) (positions : list vec) (dist : Z -> Z -> Q) (cutoff : option Q) (red : fir -> list rot)
    (am : list (list Z)) (f : fir) : option (list (Z * Z)) :=
  match least_second_atoms dist cutoff (Z.of_nat (length positions)) f with
  | None => None
  | Some least =>
      option_map (fun seconds => flat_map (fun row => map (fun j => (nth (Z.to_nat (f_num f)) row 0, nth (Z.to_nat j) row 0)) seconds) am)
        (second_atom_nums close positions (red f) f least)
  end.
Definition get_fc3_done (close : vec -> bool) (positions : list vec) (ops : list sop) (dist : Z -> Z -> Q) (cutoff : option Q)
    (red : fir -> list rot) (firsts : list fir) : option (list (Z * Z)) :=
  match atom_mapping close positions ops with
  | None => None
  | Some am => option_map (@concat (Z * Z)) (sequence (map (done_of_first close positions dist cutoff red am) firsts))
  end.

Definition is_done (done : list (Z * Z)) (a b : Z) : bool := existsb (keyb (a, b)) done.
Definition num_done (done : list (Z * Z)) (a b : Z) : Q := if is_done done a b then 1%Q else 0%Q.
(** fc3.py 654-675 (_set_permutation_symmetry_fc3_elem_with_cutoff), one component *)
Definition elem_with_cutoff (n : Z) (done : list (Z * Z)) (m : Z -> Q) (a b c : Z) (q : Z * Z * Z) : Q :=
  let '(i, j, k) := q in
  let sum_done := (num_done done a b + num_done done c a + num_done done b c + num_done done b a + num_done done c b + num_done done a c)%Q in
  if qltb 0 sum_done then
    ((raw n m a b c (i, j, k) * num_done done a b + raw n m c a b (k, i, j) * num_done done c a + raw n m b c a (j, k, i) * num_done done b c
      + raw n m a c b (i, k, j) * num_done done a c + raw n m b a c (j, i, k) * num_done done b a + raw n m c b a (k, j, i) * num_done done c b) / sum_done)%Q
  else 0%Q.
Definition put (n a b c : Z) (q : Z * Z * Z) (v : Q) (m : Z -> Q) : Z -> Q := upd m ((a * n * n + b * n + c) * 27 + off q) v.
(** fc3.py 293-300 (_copy_permutation_symmetry_fc3_elem) *)
Definition copy_elem (n a b c : Z) (m : Z -> Q) (qv : Z * Z * Z * Q) : Z -> Q :=
  let '(i, j, k, v) := qv in
  put n c b a (k, j, i) v (put n b a c (j, i, k) v (put n a c b (i, k, j) v (put n b c a (j, k, i) v (put n c a b (k, i, j) v (put n a b c (i, j, k) v m))))).
Definition cutoff_triple (n : Z) (done : list (Z * Z)) (m : Z -> Q) (t : Z * Z * Z) : Z -> Q :=
  let '(a, b, c) := t in
  let elems := map (fun q => (q, elem_with_cutoff n done m a b c q)) comps in
  fold_left (copy_elem n a b c) elems m.
(** fc3.py 531-545 (_cutoff_fc3_for_cutoff_pairs) on a full array of n atoms *)
Definition triples (n : Z) : list (Z * Z * Z) := flat_map (fun i => flat_map (fun j => map (fun k => (i, j, k)) (zseq j n)) (zseq i n)) (zrange n).
Definition cutoff_pairs (n : Z) (done : list (Z * Z)) (m : Z -> Q) : Z -> Q := fold_left (cutoff_triple n done) (triples n) m.
