(** Phonons at the Gamma point and the NAC direction: interaction.py, joint_dos.py, api_jointdos.py, isotope.py.
    Only the entry of Gamma is tracked. [solver d] is what the phonon solver gives at Gamma with direction d (None:
    without NAC). Directions are up to a positive factor (set_grid_point normalizes the direction in place). *)
From Coq Require Import List Bool.
Import ListNotations.

Section Gamma.
Context {D V : Type}.
Variable solver : option D -> V.

(** ** interaction.py *)
(** _nac_q_direction, _phonon_done[Gamma], _frequencies/_eigenvectors[Gamma], _done_nac_at_gamma,
    _frequencies_at_gamma/_eigenvectors_at_gamma *)
Record istate := IState { i_dir : option D; i_done : bool; i_val : V; i_nac : bool; i_cache : option V }.
(** run_phonon_solver 711-721 on a list with Gamma, or on all points; also the call in run 185-186 *)
Definition i_solve (s : istate) : istate := if i_done s then s else IState (i_dir s) true (solver (i_dir s)) (i_nac s) (i_cache s).
(** run_phonon_solver_at_gamma 723-752 *)
Definition i_at_gamma (is_nac : bool) (s : istate) : istate :=
  match is_nac, i_cache s with
  | false, Some v => IState (i_dir s) (i_done s) v (i_nac s) (i_cache s)
  | true, _ => i_solve (IState (i_dir s) false (i_val s) true (i_cache s))
  | false, None =>
      let s1 := i_solve (IState None false (i_val s) false (i_cache s)) in
      IState (i_dir s) (i_done s1) (i_val s1) (i_nac s1) (i_cache s1)
  end.
(** _allocate_phonon 1028-1047, called by init_dynamical_matrix with the direction already set
    (api_phono3py.py 1145-1146) *)
Definition i_init (d : option D) (v0 : V) : istate :=
  let s := i_at_gamma false (IState d false v0 false None) in IState d false (i_val s) (i_nac s) (Some (i_val s)).
(** set_grid_point 580-640: Gamma part. [sym] is is_mesh_symmetry; [g] tells whether the grid point is Gamma.
    false: RuntimeError. *)
Definition i_set_grid_point (sym g : bool) (s : istate) : istate * bool :=
  if negb sym then (s, true) else
  if g then (i_at_gamma true s, true)
  else if i_nac s then match i_dir s with None => (i_at_gamma false s, true) | Some _ => (s, false) end
  else (s, true).
Definition i_set_dir (d : option D) (s : istate) : istate := IState d (i_done s) (i_val s) (i_nac s) (i_cache s).
Inductive ievent := ISetDir (d : option D) | ISetGridPoint (g : bool) | IRun | IAtGamma (is_nac : bool).
Definition i_step (sym : bool) (s : istate) (e : ievent) : istate :=
  match e with
  | ISetDir d => i_set_dir d s
  | ISetGridPoint g => fst (i_set_grid_point sym g s)
  | IRun => i_solve s
  | IAtGamma b => i_at_gamma b s
  end.
Definition i_exec (sym : bool) (s : istate) (h : list ievent) : istate := fold_left (i_step sym) h s.

(** ** joint_dos.py *)
Record jstate := JState { j_dir : option D; j_done : bool; j_val : V; j_nac : bool }.
(** run_phonon_solver 270-291 *)
Definition j_solve (s : jstate) : jstate := if j_done s then s else JState (j_dir s) true (solver (j_dir s)) (j_nac s).
(** run_phonon_solver_at_gamma 293-314 *)
Definition j_at_gamma (is_nac : bool) (s : jstate) : jstate :=
  if is_nac then j_solve (JState (j_dir s) false (j_val s) (j_nac s))
  else let s1 := j_solve (JState None false (j_val s) (j_nac s)) in JState (j_dir s) (j_done s1) (j_val s1) (j_nac s1).
(** set_grid_point 241-268. (Gamma is grid point 0 both in the regular and in the BZ grid.) *)
Definition j_set_grid_point (g : bool) (s : jstate) : jstate * bool :=
  if g then
    match j_dir s with
    | Some _ => (j_solve (JState (j_dir s) false (j_val s) true), true)
    | None => (j_solve s, true)
    end
  else if j_nac s then
    match j_dir s with
    | None => (j_solve (JState None false (j_val s) false), true)
    | Some _ => (s, false)
    end
  else (j_solve s, true).
Definition j_set_dir (d : option D) (s : jstate) : jstate := JState d (j_done s) (j_val s) (j_nac s).
Definition j_init (v0 : V) : jstate := JState None false v0 false.
(** api_jointdos.py: run 196-290. [d] is the direction of the api object. Result: final state and, per grid point,
    whether it is Gamma and the phonons at Gamma that JointDos.run uses there. *)
Definition api_gp (d : option D) (st : jstate * list (bool * V)) (g : bool) : jstate * list (bool * V) :=
  let s := fst (j_set_grid_point g (j_set_dir (if g then d else None) (fst st))) in
  let s := j_solve s in (s, snd st ++ [(g, j_val s)]).
Definition api_run (d : option D) (gps : list bool) (s : jstate) : jstate * list (bool * V) :=
  let s := j_at_gamma true (j_at_gamma false (j_solve s)) in fold_left (api_gp d) gps (s, []).

(** ** isotope.py *)
(** set_nac_q_direction 237-240; run 160-165 (the solver on all points) *)
Record ostate := OState { o_dir : option D; o_done : bool; o_val : V }.
Definition o_set_dir (d : option D) (s : ostate) : ostate := match d with Some _ => OState d (o_done s) (o_val s) | None => s end.
Definition o_run (s : ostate) : ostate := if o_done s then s else OState (o_dir s) true (solver (o_dir s)).
End Gamma.
