(** The class Phono3pyJointDos (phono3py/api_jointdos.py 50-298) and the frequency axis of spectra (phonon3/imag_self_energy.py 918-967).
    Doubles are rationals. The spectra themselves are a function [dos] of the grid, the direction for the non-analytical term, the grid point, the width,
    the temperature and the frequency (joint_dos.py is in JdosModel.v and GammaModel.v); names of files are in NameModel.v: here a file is known by grid point
    and index of the width, and only the first temperature is written (write_joint_dos returns after it, C54). *)
From Coq Require Import ZArith QArith Qround List Bool.
From Verif Require Import Base QMat GridModel AvgModel.
Import ListNotations.
Open Scope Z_scope.

(** ** Frequency points *)
(** numpy.linspace(0, f_max, n): ValueError (None) for a negative n; a single point is 0; the last point is f_max itself *)
Definition linspace0 (f_max : Q) (n : Z) : option (list Q) :=
  if n <? 0 then None
  else Some (map (fun i => if (i =? n - 1) && (1 <? n) then f_max else (inject_Z i * (f_max / inject_Z (n - 1)))%Q) (zrange n)).
(** numpy.arange(0, f_max, step): ZeroDivisionError (None) for step zero *)
Definition arange0 (f_max step : Q) : option (list Q) :=
  if Qeq_bool step 0 then None else Some (map (fun i => (inject_Z i * step)%Q) (zrange (Qceiling (f_max / step)))).
(** 954-967 *)
Definition sample_frequency_points (f_max : Q) (frequency_step : option Q) (num_frequency_points : option Z) : option (list Q) :=
  match num_frequency_points with
  | None => match frequency_step with Some s => arange0 f_max s | None => linspace0 f_max 201 end
  | Some n => linspace0 f_max n
  end.
Definition qmax (a b : Q) : Q := if qltb a b then b else a.
(** 931-940: the end of the axis *)
Definition widths (sigmas : option (list (option Q))) : list Q :=
  match sigmas with None => [] | Some l => flat_map (fun s => match s with Some x => [x] | None => [] end) l end.
Definition axis_end (max_phonon_freq : Q) (sigmas : option (list (option Q))) : Q :=
  (match widths sigmas with
   | [] => max_phonon_freq * 2
   | s :: rest => max_phonon_freq * 2 + fold_left qmax rest s * 4
   end * (201 # 200))%Q.
(** 918-951 *)
Definition get_frequency_points (max_phonon_freq : Q) (sigmas : option (list (option Q))) (frequency_points : option (list Q))
    (frequency_step : option Q) (num_frequency_points : option Z) : option (list Q) :=
  match frequency_points with
  | None => sample_frequency_points (axis_end max_phonon_freq sigmas) frequency_step num_frequency_points
  | Some l => Some l
  end.

(** ** Phono3pyJointDos *)
Section Jda.
Variable M D : Type.                       (* mesh numbers, directions *)
Variable max_freq : M -> Q.                (* the highest frequency on the grid, with phonons at Gamma without the correction (206-209) *)
Variable is_gamma : M -> Z -> bool.        (* addresses[gp] == 0 *)
Variable dos : M -> option D -> Z -> option Q -> option Q -> Q -> Q * Q.

(** arguments that do not change *)
Record jargs := { j_dir : option D; j_sigmas : list (option Q); j_temps : option (list Q); j_step : option Q; j_num : option Z; j_batch : option Z }.
(** _bz_grid, _jdos (None: no such attribute) with the grid it was made with, _frequency_points, _joint_dos, files *)
Record jstate := { s_grid : option M; s_jdos : option (option M); s_points : list Q; s_dos : nat -> nat -> Z -> Q * Q; s_files : list ((Z * nat) * list (Q * (Q * Q))) }.
Definition blank : jstate := {| s_grid := None; s_jdos := None; s_points := []; s_dos := fun _ _ _ => (0%Q, 0%Q); s_files := [] |}.
(** 148-159 *)
Definition set_mesh (m : M) (s : jstate) : jstate :=
  {| s_grid := Some m; s_jdos := s_jdos s; s_points := s_points s; s_dos := s_dos s; s_files := s_files s |}.
(** 161-180: the JointDos object gets the grid of before *)
Definition initialize (m : M) (s : jstate) : jstate :=
  set_mesh m {| s_grid := s_grid s; s_jdos := Some (s_grid s); s_points := s_points s; s_dos := s_dos s; s_files := s_files s |}.
(** 54-113 *)
Definition create (mesh : option M) : jstate := match mesh with None => blank | Some m => initialize m (set_mesh m blank) end.

(** _joint_dos[i_s, i_t, freq_indices] = ... (285) *)
Definition assign (arr : nat -> nat -> Z -> Q * Q) (i_s i_t : nat) (p : Z) (v : Q * Q) : nat -> nat -> Z -> Q * Q :=
  fun s t q => if Nat.eqb s i_s && Nat.eqb t i_t && (q =? p) then v else arr s t q.
Fixpoint foldi {X S : Type} (f : nat -> X -> S -> S) (i : nat) (l : list X) (s : S) : S :=
  match l with [] => s | x :: r => foldi f (Datatypes.S i) r (f i x s) end.
(** 261-289 for one grid point; [m]: the grid of the JointDos object; [dir]: its direction *)
Definition at_temperature (m : M) (a : jargs) (pts : list Q) (batches : list (list Z)) (write : bool) (gp : Z) (dir : option D) (i_s : nat) (sigma : option Q)
    (i_t : nat) (T : option Q) (s : jstate) : jstate :=
  let arr := fold_left (fun arr batch => fold_left (fun arr p => assign arr i_s i_t p (dos m dir gp sigma T (nth (Z.to_nat p) pts 0%Q))) batch arr) batches (s_dos s) in
  {| s_grid := s_grid s; s_jdos := s_jdos s; s_points := s_points s; s_dos := arr;
     s_files := if write then ((gp, i_s), map (fun p => (nth (Z.to_nat p) pts 0%Q, arr i_s 0%nat p)) (zrange (Z.of_nat (length pts)))) :: s_files s else s_files s |}.
Definition at_gp (m : M) (a : jargs) (pts : list Q) (batches : list (list Z)) (write : bool) (gp : Z) (s : jstate) : jstate :=
  let dir := match s_grid s with Some g => if is_gamma g gp then j_dir a else None | None => None end in
  foldi (fun i_s sigma s =>
    foldi (fun i_t T s => at_temperature m a pts batches write gp dir i_s sigma i_t T s) 0
          (match j_temps a with None => [None] | Some l => map Some l end) s) 0 (j_sigmas a) s.
(** 196-289; None: an exception *)
Definition run (a : jargs) (gps : list Z) (write : bool) (s : jstate) : option jstate :=
  match s_jdos s with
  | Some (Some m) =>
      match get_frequency_points (max_freq m) (Some (j_sigmas a)) None (j_step a) (j_num a) with
      | None => None
      | Some pts =>
          match get_freq_points_batches (Z.of_nat (length pts)) (j_batch a) with
          | None => None
          | Some batches =>
              match gps, j_sigmas a with
              | _ :: _, [] => None
              | _, _ => Some (fold_left (fun s gp => at_gp m a pts batches write gp s) gps
                         {| s_grid := s_grid s; s_jdos := s_jdos s; s_points := pts; s_dos := fun _ _ _ => (0%Q, 0%Q); s_files := s_files s |})
              end
          end
      end
  | _ => None
  end.
(** the content of a file: the last one written *)
Definition file_of (s : jstate) (gp : Z) (i_s : nat) : option (list (Q * (Q * Q))) :=
  option_map snd (find (fun f => (fst (fst f) =? gp) && Nat.eqb (snd (fst f)) i_s) (s_files s)).
End Jda.
