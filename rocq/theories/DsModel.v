(** Displacement datasets of the Phono3py class: displaced supercells, displacements, forces and the
    caches kept by the setters. *)
From Coq Require Import ZArith QArith List Bool.
From Verif Require Import Base.
Import ListNotations.
Open Scope Z_scope.

(** Cartesian vectors and one vector per atom of the supercell *)
Definition vec := (Q * Q * Q)%type.
Definition conf := list vec.
Definition vadd3 (a b : vec) : vec := let '(x, y, z) := a in let '(u, v, w) := b in (x + u, y + v, z + w)%Q.
Definition vec0 : vec := (0, 0, 0)%Q.

(** Dataset dictionaries (docstring of Phono3py.dataset, api_phono3py.py 585-626). A missing key is None.
    Keys that no modelled function reads (direction, duplicates, cutoff_distance) are left out. A dict
    has either first_atoms (type 1) or the arrays of type 2. *)
Record sec := Sec { s_num : Z; s_disp : vec; s_dist : option Q; s_incl : option bool; s_id : option Z;
                    s_forces : option conf; s_energy : option Q }.
Record fir := Fir { f_num : Z; f_disp : vec; f_id : option Z; f_forces : option conf; f_energy : option Q; f_second : list sec }.
Inductive dataset :=
  | Type1 (natom : Z) (firsts : list fir)
  | Type2 (disps : option (list conf)) (forces : option (list conf)) (energies : option (list Q)).

(** list element assignment a[i] = v and a[i] += v for 0 <= i < len(a); otherwise IndexError (None).
    (Negative Python indices are not modelled: atom numbers are not negative.) *)
Fixpoint set_nth {X} (l : list X) (i : nat) (f : X -> X) : option (list X) :=
  match l, i with
  | [], _ => None
  | x :: t, O => Some (f x :: t)
  | x :: t, S i => option_map (cons x) (set_nth t i f)
  end.
Definition add_at (c : conf) (n : Z) (d : vec) : option conf := if n <? 0 then None else set_nth c (Z.to_nat n) (fun x => vadd3 x d).
Definition put_at (c : conf) (n : Z) (d : vec) : option conf := if n <? 0 then None else set_nth c (Z.to_nat n) (fun _ => d).
(** collecting results of a loop that stops at the first exception *)
Fixpoint sequence {X} (l : list (option X)) : option (list X) :=
  match l with
  | [] => Some []
  | None :: _ => None
  | Some x :: t => option_map (cons x) (sequence t)
  end.
Definition bind {X Y} (o : option X) (f : X -> option Y) : option Y := match o with Some x => f x | None => None end.
Definition included (s : sec) : bool := match s_incl s with Some b => b | None => true end.

(** api_phono3py.py: _build_phonon_supercells_with_displacements 2422-2460. [ref] is supercell.positions,
    which is a fresh array at each access (PhonopyAtoms of phonopy). A supercell is its positions; masses,
    numbers, cell and moments are copied unchanged from the supercell. *)
Definition build_singles (ref : conf) (d : dataset) : option (list conf) :=
  match d with
  | Type2 (Some disps) _ _ => Some (map (fun disp => map (fun p => vadd3 (fst p) (snd p)) (combine ref disp)) disps)
  | Type2 None _ _ => None (* dataset["first_atoms"]: KeyError *)
  | Type1 _ firsts => sequence (map (fun f => add_at ref (f_num f) (f_disp f)) firsts)
  end.
(** api_phono3py.py: _build_supercells_with_displacements 2462-2496. None in the list is the entry of an
    excluded pair. *)
Definition build_supercells (ref : conf) (d : dataset) : option (list (option conf)) :=
  bind (build_singles ref d) (fun singles =>
    match d with
    | Type1 _ firsts =>
        bind (sequence (flat_map (fun f => map (fun s =>
            if included s then option_map Some (bind (add_at ref (f_num f) (f_disp f)) (fun c => add_at c (s_num s) (s_disp s)))
            else Some None) (f_second f)) firsts))
          (fun pairs => Some (map Some singles ++ pairs))
    | Type2 _ _ _ => Some (map Some singles)
    end).

(** api_phono3py.py: displacements (getter) 822-877. *)
Definition zeros (natom : nat) : conf := repeat vec0 natom.
Definition get_displacements (natom : nat) (d : dataset) : option (list conf) :=
  match d with
  | Type1 _ firsts =>
      bind (sequence (map (fun f => put_at (zeros natom) (f_num f) (f_disp f)) firsts)) (fun a =>
      bind (sequence (flat_map (fun f => map (fun s => put_at (zeros natom) (s_num s) (s_disp s)) (f_second f)) firsts)) (fun b => Some (a ++ b)))
  | Type2 (Some disps) _ _ => Some disps
  | Type2 None _ _ => None (* RuntimeError *)
  end.
(** phono3py/phonon3/dataset.py: get_displacements_and_forces_fc3 41-119, the displacements. Type 1: rows of
    the excluded pairs are left out. *)
Definition solver_displacements (d : dataset) : option (list conf) :=
  match d with
  | Type1 natom firsts =>
      let z := zeros (Z.to_nat natom) in
      bind (sequence (map (fun f => put_at z (f_num f) (f_disp f)) firsts)) (fun a =>
      bind (sequence (flat_map (fun f => map (fun s =>
          option_map (fun c => (included s, c)) (bind (put_at z (f_num f) (f_disp f)) (fun c => put_at c (s_num s) (s_disp s)))) (f_second f)) firsts))
        (fun b => Some (a ++ map snd (filter fst b))))
  | Type2 (Some disps) _ _ => Some disps
  | Type2 None _ _ => None
  end.
(** The same function, the forces: Some None when no force is found; the assertion forces_count == count
    fails (None) when only some have forces. *)
Definition solver_forces (d : dataset) : option (option (list conf)) :=
  match d with
  | Type1 _ firsts =>
      let fs := map (fun f => (true, f_forces f)) firsts ++ flat_map (fun f => map (fun s => (included s, s_forces s)) (f_second f)) firsts in
      let n := zcount (fun x => match snd x with Some _ => true | None => false end) fs in
      if n =? 0 then Some None
      else if n =? Z.of_nat (length fs) then Some (sequence (map snd (filter fst fs))) else None
  | Type2 (Some _) forces _ => Some forces
  | Type2 None _ _ => None
  end.

(** api_phono3py.py: _set_forces_energies 2600-2623, target "forces". Values are consumed in order by the
    first atoms, then by the second atoms; running out of values is IndexError, and what was assigned
    before stays assigned: the result is the dataset afterwards and whether the call returned. *)
Fixpoint set_first (vals : list conf) (fs : list fir) : list fir * option (list conf) :=
  match fs with
  | [] => ([], Some vals)
  | f :: t =>
      match vals with
      | [] => (fs, None)
      | v :: vals' => let '(t', r) := set_first vals' t in
          (Fir (f_num f) (f_disp f) (f_id f) (Some v) (f_energy f) (f_second f) :: t', r)
      end
  end.
Fixpoint set_secs (vals : list conf) (ss : list sec) : list sec * option (list conf) :=
  match ss with
  | [] => ([], Some vals)
  | s :: t =>
      match vals with
      | [] => (ss, None)
      | v :: vals' => let '(t', r) := set_secs vals' t in
          (Sec (s_num s) (s_disp s) (s_dist s) (s_incl s) (s_id s) (Some v) (s_energy s) :: t', r)
      end
  end.
Fixpoint set_second (vals : list conf) (fs : list fir) : list fir * option (list conf) :=
  match fs with
  | [] => ([], Some vals)
  | f :: t =>
      let '(ss, r) := set_secs vals (f_second f) in
      let f' := Fir (f_num f) (f_disp f) (f_id f) (f_forces f) (f_energy f) ss in
      match r with
      | None => (f' :: t, None)
      | Some vals' => let '(t', r') := set_second vals' t in (f' :: t', r')
      end
  end.
Definition set_forces (vals : list conf) (d : dataset) : dataset * bool :=
  match d with
  | Type1 n fs =>
      let '(fs1, r) := set_first vals fs in
      match r with
      | None => (Type1 n fs1, false)
      | Some vals' => let '(fs2, r2) := set_second vals' fs1 in (Type1 n fs2, match r2 with Some _ => true | None => false end)
      end
  | Type2 (Some x) _ e => (Type2 (Some x) (Some vals) e, true)
  | Type2 None (Some _) e => (Type2 None (Some vals) e, true)
  | Type2 None None e => (d, false)
  end.
(** api_phono3py.py: _get_forces_energies 2560-2598, target "forces", with forces_in_dataset (dataset.py
    122-128). The outer None is an exception, Some None the returned None. The rows are assigned to an
    array of zeros of shape (supercells, atoms, 3). *)
Definition get_forces (d : dataset) : option (option (list conf)) :=
  match d with
  | Type2 _ (Some f) _ => Some (Some f)
  | Type2 _ None _ => Some None
  | Type1 _ [] => None
  | Type1 _ ((f0 :: _) as fs) =>
      match f_forces f0 with
      | None => Some None
      | Some _ => option_map Some (sequence (map f_forces fs ++ flat_map (fun f => map s_forces (f_second f)) fs))
      end
  end.

(** ** The object: reference positions, dataset, cache of displaced supercells *)
Record obj := Obj { o_ref : conf; o_data : option dataset; o_cache : option (list (option conf)) }.
(** What the caller passes to [ph3.dataset = ...]. *)
Inductive ds_arg := ANone | AFirst (d : dataset) | ADisp (disps : list conf) (forces : option (list conf)) | AWrong.
Definition shape_ok (natom : nat) (disps : list conf) : bool := forallb (fun c => Nat.eqb (length c) natom) disps.
(** displacements (setter) 879-891. Result: new object, and whether the call returned. *)
Definition set_displacements (o : obj) (disps : list conf) : obj * bool :=
  if negb (shape_ok (length (o_ref o)) disps) then (o, false) else
  match o_data o with
  | None => (Obj (o_ref o) (Some (Type2 (Some disps) None None)) None, true)
  | Some (Type1 _ _) => (o, false)
  | Some (Type2 _ f e) => (Obj (o_ref o) (Some (Type2 (Some disps) f e)) None, true)
  end.
(** forces (setter): AttributeError/TypeError when there is no dataset. The cache is not touched. *)
Definition set_forces_obj (o : obj) (vals : list conf) : obj * bool :=
  match o_data o with
  | None => (o, false)
  | Some d => let '(d', ok) := set_forces vals d in (Obj (o_ref o) (Some d') (o_cache o), ok)
  end.
(** dataset (setter) 628-644: assignments happen in the order of the statements, an exception inside
    leaves the previous ones in force. Supercell energies as forces. *)
Definition set_dataset (o : obj) (a : ds_arg) : obj * bool :=
  match a with
  | ANone => (Obj (o_ref o) None None, true)
  | AFirst d => (Obj (o_ref o) (Some d) None, true)
  | ADisp disps forces =>
      let '(o1, ok1) := set_displacements (Obj (o_ref o) (Some (Type2 None None None)) (o_cache o)) disps in
      if ok1 then
        match forces with
        | None => (Obj (o_ref o1) (o_data o1) None, true)
        | Some f => let '(o2, ok2) := set_forces_obj o1 f in
            if ok2 then (Obj (o_ref o2) (o_data o2) None, true) else (o2, false)
        end
      else (o1, false)
  | AWrong => (o, false)
  end.
(** generate_displacements 1309-1349: [d] is the new dataset, computed from the supercell only. *)
Definition generate_displacements (o : obj) (d : dataset) : obj := Obj (o_ref o) (Some d) None.
(** supercells_with_displacements 774-786: built on demand and kept; exceptions leave the cache unset. *)
Definition supercells_with_displacements (o : obj) : obj * option (list (option conf)) :=
  match o_cache o with
  | Some c => (o, Some c)
  | None =>
      match bind (o_data o) (build_supercells (o_ref o)) with
      | Some c => (Obj (o_ref o) (o_data o) (Some c), Some c)
      | None => (o, None)
      end
  end.
(** A session: calls of the API in any order; each result says whether the call returned normally. *)
Inductive call := CDataset (a : ds_arg) | CDisplacements (x : list conf) | CForces (x : list conf) | CGenerate (d : dataset) | CSupercells.
Definition step (o : obj) (c : call) : obj * bool :=
  match c with
  | CDataset a => set_dataset o a
  | CDisplacements x => set_displacements o x
  | CForces x => set_forces_obj o x
  | CGenerate d => (generate_displacements o d, true)
  | CSupercells => let '(o', r) := supercells_with_displacements o in (o', match r with Some _ => true | None => false end)
  end.
Fixpoint session (o : obj) (cs : list call) : obj * list bool :=
  match cs with
  | [] => (o, [])
  | c :: t => let '(o1, ok) := step o c in let '(o2, r) := session o1 t in (o2, ok :: r)
  end.
