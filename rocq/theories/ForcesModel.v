(** FORCES_FC2 and FORCES_FC3 files. *)
From Coq Require Import ZArith QArith List Bool.
From Verif Require Import Base DsModel.
Import ListNotations.
Open Scope Z_scope.

(** A line of the file: blank, starting with #, or three numbers. (Lines with another number of fields are
    not modelled.) *)
Inductive line := LBlank | LComment | LNums (v : vec).

(** The forces of one supercell: those kept in the dataset when no array is given, else the entry of the
    array. None for the exceptions (TypeError, IndexError). *)
Definition force_of (own : option conf) (given : option (list conf)) (i : nat) : option conf :=
  match given, own with
  | None, Some f => Some f
  | None, None => None
  | Some v, _ => nth_error v i
  end.
(** file_IO.py: write_FORCES_FC2 191-225, type-1 branch. [rv] is what %15.10f followed by float() does to the
    three components. Two comment lines per supercell. *)
Fixpoint write_FORCES_FC2 (rv : vec -> vec) (given : option (list conf)) (i : nat) (fs : list fir) : option (list line) :=
  match fs with
  | [] => Some []
  | f :: t =>
      bind (force_of (f_forces f) given i) (fun force_set =>
      bind (write_FORCES_FC2 rv given (S i) t) (fun rest =>
        Some ([LComment; LComment] ++ map (fun x => LNums (rv x)) force_set ++ rest)))
  end.
(** file_IO.py: _write_FORCES_FC3_typeI 254-300, the loops over pairs; [fc] is file_count. *)
Fixpoint write_seconds (rv : vec -> vec) (given : option (list conf)) (natom : nat) (fc : nat) (ss : list sec) : option (list line * nat) :=
  match ss with
  | [] => Some ([], fc)
  | s :: t =>
      if included s then
        bind (force_of (s_forces s) given fc) (fun force_set =>
        bind (write_seconds rv given natom (S fc) t) (fun r =>
          Some ([LComment; LComment; LComment] ++ map (fun x => LNums (rv x)) force_set ++ fst r, snd r)))
      else
        bind (write_seconds rv given natom fc t) (fun r =>
          Some ([LComment; LComment; LComment] ++ repeat (LNums (rv vec0)) natom ++ fst r, snd r))
  end.
Fixpoint write_pairs (rv : vec -> vec) (given : option (list conf)) (natom : nat) (fc : nat) (fs : list fir) : option (list line) :=
  match fs with
  | [] => Some []
  | f :: t =>
      bind (write_seconds rv given natom fc (f_second f)) (fun r =>
      bind (write_pairs rv given natom (snd r) t) (fun rest => Some (fst r ++ rest)))
  end.
Definition write_FORCES_FC3 (rv : vec -> vec) (natom : nat) (fs : list fir) (given : option (list conf)) : option (list line) :=
  bind (write_FORCES_FC2 rv given 0 fs) (fun a =>
  bind (write_pairs rv given natom (length fs) fs) (fun b => Some (a ++ b))).

(** file_IO.py: _parse_force_lines 1763-1777. Result and the lines not yet read. *)
Fixpoint parse_force_lines (natom : nat) (forces : conf) (lines : list line) : option conf * list line :=
  match lines with
  | [] => (if Nat.eqb (length forces) natom then Some forces else None, [])
  | LNums v :: t =>
      let forces' := forces ++ [v] in
      if Nat.eqb (length forces') natom then (Some forces', t) else parse_force_lines natom forces' t
  | _ :: t => parse_force_lines natom forces t
  end.
(** The loops [for i in range(num_disp)] of the two parsers: None when the file ends too early. *)
Fixpoint parse_all (natom num_disp : nat) (lines : list line) : option (list conf) :=
  match num_disp with
  | O => Some []
  | S k =>
      match parse_force_lines natom [] lines with
      | (None, _) => None
      | (Some f, rest) => option_map (cons f) (parse_all natom k rest)
      end
  end.
Definition vscale (c : Q) (v : vec) : vec := let '(x, y, z) := v in (x * c, y * c, z * c)%Q.
Definition convert (factor : option Q) (c : conf) : conf := match factor with None => c | Some u => map (vscale u) c end.
(** file_IO.py: parse_FORCES_FC2 1608-1625. The result is the dataset afterwards: a file that is too short
    leaves it unchanged (the function returns []). *)
Definition parse_FORCES_FC2 (factor : option Q) (lines : list line) (natom : Z) (fs : list fir) : list fir :=
  match parse_all (Z.to_nat natom) (length fs) lines with
  | None => fs
  | Some forces => fst (set_first (map (convert factor) forces) fs)
  end.
(** file_IO.py: parse_FORCES_FC3 1628-1660, use_loadtxt=False. None is RuntimeError. The final loops are
    those of _set_forces_energies: first atoms, then second atoms. *)
Definition parse_FORCES_FC3 (factor : option Q) (lines : list line) (natom : Z) (fs : list fir) : option (list fir) :=
  let num_disp := (length fs + fold_left (fun n f => n + length (f_second f)) fs 0)%nat in
  option_map (fun forces => let '(fs1, r) := set_first (map (convert factor) forces) fs in
      match r with Some rest => fst (set_second rest fs1) | None => fs1 end)
    (parse_all (Z.to_nat natom) num_disp lines).
