(** Files of phonons (--write-phonon, --read-phonon) and the options -i, -o and --io, over a sequence of runs of the command.

    Source: phono3py/cui/phono3py_script.py, phono3py/file_IO.py, phono3py/phonon3/interaction.py. Phonons are values of a type [P]
    (frequencies and eigenvectors at all grid points); what is solved and what the arrays hold before are fields of a run. The
    directory and the text of names are those of NameModel.v. Runs that end before init_phph_interaction do not touch these files
    and are left out, as are the fields of the file that are not read back (version, irreducible points, matrices of the grid). *)
From Coq Require Import ZArith List Bool Ascii String.
From Verif Require Import Base NameModel.
Import ListNotations.
Open Scope Z_scope.
Open Scope list_scope.

Definition addresses := list (Z * Z * Z).
(** [load]: the command is phono3py-load *)
Record command (P : Type) := Command { load : bool; opt_i : option text; opt_o : option text; opt_io : option text; mesh : Z * Z * Z;
  grid : addresses; read_phonon : bool; write_phonon : bool;
  (** phonons of run_phonon_solver, and the arrays after init_phph_interaction (interaction.py 1028-1047: zero, but for Gamma) *)
  solved : P; allocated : P }.
Arguments load {P}. Arguments opt_i {P}. Arguments opt_o {P}. Arguments opt_io {P}. Arguments mesh {P}. Arguments grid {P}.
Arguments read_phonon {P}. Arguments write_phonon {P}. Arguments solved {P}. Arguments allocated {P}. Arguments Command {P}.

(** phono3py_script.py 307-331 and 925-930: names for input and output *)
Definition in_out {P} (c : command P) : option text * option text :=
  if load c then (None, None)
  else
    let i := opt_i c in
    let o := opt_o c in
    match opt_io c with Some x => (Some x, Some x) | None => (i, o) end.

(** file_IO.py 1456-1457, 1484-1485 *)
Definition phonon_file (m : Z * Z * Z) (filename : option text) : text :=
  t "phonon" ++ suffix (Params m None None None None None filename) ++ t ".hdf5".

(** what is read back from a file *)
Record content (P : Type) := Content { in_mesh : Z * Z * Z; in_grid : addresses; in_phonons : P }.
Arguments in_mesh {P}. Arguments in_grid {P}. Arguments in_phonons {P}. Arguments Content {P}.

(** interaction.py 692-702: shapes have to agree, and not all of the differences may be non-zero *)
Definition accepted (own given : addresses) : bool :=
  Nat.eqb (List.length given) (List.length own) &&
  negb (forallb (fun p => let '((a, b, c), (x, y, z)) := p in negb (a - x =? 0) && negb (b - y =? 0) && negb (c - z =? 0)) (combine own given)).

Definition mesh_eqb (m n : Z * Z * Z) : bool := let '(a, b, c) := m in let '(x, y, z) := n in (a =? x) && (b =? y) && (c =? z).

(** phono3py_script.py 860-909 (init_phph_interaction) with file_IO.py 1444-1505: files, and the phonons the run goes on with; None: the
    run ends (no file, other mesh, addresses not accepted). Phonons are written before they are read *)
Definition run {P} (d : dir (content P)) (c : command P) : dir (content P) * option P :=
  let '(i, o) := in_out c in
  let now := if negb (read_phonon c) then solved c else allocated c in
  let d := if write_phonon c then write d (phonon_file (mesh c) o) (Content (mesh c) (grid c) now) else d in
  if read_phonon c then
    match lookup d (phonon_file (mesh c) i) with
    | None => (d, None)
    | Some f => (d, if mesh_eqb (in_mesh f) (mesh c) && accepted (grid c) (in_grid f) then Some (in_phonons f) else None)
    end
  else (d, Some now).

Fixpoint runs {P} (d : dir (content P)) (l : list (command P)) : dir (content P) :=
  match l with [] => d | c :: l' => runs (fst (run d c)) l' end.
