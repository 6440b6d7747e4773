(** Type-1 displacement dataset in phono3py yaml files. *)
From Coq Require Import ZArith QArith List Bool.
From Verif Require Import Base DsModel.
Import ListNotations.
Open Scope Z_scope.

(** The yaml tree of displacement_pairs. A missing key is None. An entry of paired_with either has one
    displacement with its forces, or a list of displacements. *)
Inductive ypair :=
  | YForce (atom : Z) (dist : option Q) (disp : vec) (id : option Z) (forces : conf) (energy : option Q)
  | YDisps (atom : Z) (dist : option Q) (incl : option bool) (disps : list vec) (ids : option (list Z)).
Record yfirst := YFirst { y_atom : Z; y_disp : vec; y_id : option Z; y_forces : option conf; y_energy : option Q; y_paired : list ypair }.

(** np.unique of integers: sorted, without repetitions *)
Fixpoint uinsert (x : Z) (l : list Z) : list Z :=
  match l with
  | [] => [x]
  | y :: t => if x <? y then x :: l else if x =? y then l else y :: uinsert x t
  end.
Definition unique (l : list Z) : list Z := fold_right uinsert [] l.

Section Dump.
(** What printing with %19.16f (vectors), %.8f (distance, energy) and reading the number back do. *)
Variables (rv : vec -> vec) (rd re : Q -> Q).
Variable with_forces : bool.

(** [if "id" in d: assert d["id"] == disp2_id] *)
Definition id_ok (o : option Z) (id : Z) : bool := match o with None => true | Some i => i =? id end.
(** phono3py_yaml.py: _second_displacements_yaml_lines 546-600: one group of second atoms with the same
    number; [id] is disp2_id before. None for KeyError and AssertionError. *)
Fixpoint dump_forces (i : Z) (g : list sec) (id : Z) : option (list ypair) :=
  match g with
  | [] => Some []
  | s :: t =>
      bind (s_dist s) (fun dist =>
      if id_ok (s_id s) (id + 1) then
        bind (s_forces s) (fun forces =>
        bind (dump_forces i t (id + 1)) (fun rest =>
          Some (YForce (i + 1) (Some (rd dist)) (rv (s_disp s)) (Some (id + 1)) (map rv forces) (option_map re (s_energy s)) :: rest)))
      else None)
  end.
Fixpoint ids_from (g : list sec) (id : Z) : option (list Z) :=
  match g with
  | [] => Some []
  | s :: t => if id_ok (s_id s) (id + 1) then option_map (cons (id + 1)) (ids_from t (id + 1)) else None
  end.
Definition dump_group (i : Z) (g : list sec) (id : Z) : option (list ypair) :=
  match g with
  | [] => None
  | s0 :: _ =>
      if with_forces && (match s_forces s0 with Some _ => true | None => false end) then dump_forces i g id
      else bind (s_dist s0) (fun dist => bind (ids_from g id) (fun ids =>
        Some [YDisps (i + 1) (Some (rd dist)) (s_incl s0) (map (fun s => rv (s_disp s)) g) (Some ids)]))
  end.
Fixpoint dump_groups (nums : list Z) (ss : list sec) (id : Z) : option (list ypair * Z) :=
  match nums with
  | [] => Some ([], id)
  | i :: t =>
      let g := filter (fun s => s_num s =? i) ss in
      bind (dump_group i g id) (fun a =>
      bind (dump_groups t ss (id + Z.of_nat (length g))) (fun r => Some (a ++ fst r, snd r)))
  end.
Definition dump_seconds (ss : list sec) (id : Z) : option (list ypair * Z) := dump_groups (unique (map s_num ss)) ss id.
(** phono3py_yaml.py: displacements_yaml_lines_type1 464-505, the list displacement_pairs. An
    empty list of first atoms is IndexError. *)
Fixpoint dump_firsts (fs : list fir) (i id : Z) : option (list yfirst) :=
  match fs with
  | [] => Some []
  | f :: t =>
      if id_ok (f_id f) (i + 1) then
        bind (dump_seconds (f_second f) id) (fun r =>
        bind (dump_firsts t (i + 1) (snd r)) (fun rest =>
          let forces := if with_forces then option_map (map rv) (f_forces f) else None in
          let energy := match forces with Some _ => option_map re (f_energy f) | None => None end in
          Some (YFirst (f_num f + 1) (rv (f_disp f)) (Some (i + 1)) forces energy (fst r) :: rest)))
      else None
  end.
Definition dump (fs : list fir) : option (list yfirst) := match fs with [] => None | _ => dump_firsts fs 0 (Z.of_nat (length fs)) end.
End Dump.

(** phono3py_yaml.py: _parse_fc3_dataset_type1_with_forces 231-254, _without_forces 256-285. The result is the new
    second atoms and disp2_id; None is RuntimeError. *)
Fixpoint zip_ids (ids : list Z) (disps : list sec) (id : Z) : option (list sec * Z) :=
  match ids, disps with
  | i :: ti, s :: ts =>
      if i =? id + 1 then bind (zip_ids ti ts (id + 1)) (fun r =>
        Some (Sec (s_num s) (s_disp s) (s_dist s) (s_incl s) (Some i) (s_forces s) (s_energy s) :: fst r, snd r))
      else None
  | _, _ => Some (disps, id)
  end.
Definition load_pair (p : ypair) (id : Z) : option (list sec * Z) :=
  match p with
  | YForce atom dist disp d2_id forces energy =>
      if match d2_id with Some i => id + 1 =? i | None => true end
      then Some ([Sec (atom - 1) disp dist None d2_id (Some forces) energy], id + 1) else None
  | YDisps atom dist incl disps ids =>
      let new := map (fun d => Sec (atom - 1) d dist incl None None None) disps in
      match ids with
      | Some l => zip_ids l new id
      | None => Some (new, id + Z.of_nat (length new))
      end
  end.
Fixpoint load_pairs (ps : list ypair) (id : Z) : option (list sec * Z) :=
  match ps with
  | [] => Some ([], id)
  | p :: t => bind (load_pair p id) (fun r => bind (load_pairs t (snd r)) (fun r2 => Some (fst r ++ fst r2, snd r2)))
  end.
(** phono3py_yaml.py: _parse_fc3_dataset_type1 196-229. An empty paired_with is None in yaml, and iterating over it
    raises TypeError (None). *)
Fixpoint load_firsts (ys : list yfirst) (i id : Z) : option (list fir) :=
  match ys with
  | [] => Some []
  | y :: t =>
      if match y_id y with Some k => i + 1 =? k | None => true end then
        match y_paired y with
        | [] => None
        | ps =>
            bind (load_pairs ps id) (fun r =>
            bind (load_firsts t (i + 1) (snd r)) (fun rest =>
              Some (Fir (y_atom y - 1) (y_disp y) (y_id y) (y_forces y) (y_energy y) (fst r) :: rest)))
        end
      else None
  end.
Definition load (ys : list yfirst) : option (list fir) := load_firsts ys 0 (Z.of_nat (length ys)).
