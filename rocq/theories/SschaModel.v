(** Stochastic self-consistent harmonic approximation: displacement correlation matrices of supercell phonons and
    force constants as ensemble averages.

    Source: phono3py/sscha/sscha.py, phono3py/phonon/func.py.

    Numbers are those of any field in which a sum of squares vanishes only if its terms do ([numbers]); arrays are
    functions of their indices. *)
From Coq Require Import ZArith List Bool.
From Verif Require Import Base DirModel.
Import ListNotations.
Open Scope Z_scope.

Section Sscha.
Variable K : numbers.
Notation "0" := (n0 K).
Notation "1" := (n1 K).
Infix "+" := (nadd K).
Infix "*" := (nmul K).
Infix "-" := (nsub K).
Infix "/" := (ndiv K).
Notation Sm := (Sm K).

(** [sqm i] is np.sqrt(supercell.masses)[i], n = 3 * num_satom. *)
Variables (n : Z) (sqm : Z -> K).
(** sscha.py 121, 209-212: np.repeat(..., 3) *)
Definition sq (p : Z) : K := sqm (p / 3)%Z.
Definition isq (p : Z) : K := 1 / sqm (p / 3)%Z.
(** sscha.py: SupercellPhonon.__init__ 100-131: transposition to (i, a, j, b) and reshaping. *)
Definition flat_fc (fc : Z -> Z -> Z -> Z -> K) (p q : Z) : K := fc (p / 3)%Z (q / 3)%Z (p mod 3) (q mod 3).
(** [s * (s * M).T] of numpy for a vector s: broadcasting along the last axis. *)
Definition scale_t (s : Z -> K) (M : Z -> Z -> K) (p q : Z) : K := s q * (s p * M q p).
Definition dynmat (fc : Z -> Z -> Z -> Z -> K) : Z -> Z -> K := scale_t isq (flat_fc fc).
(** np.linalg.eigh reads the lower triangle. *)
Definition lower (A : Z -> Z -> K) (p q : Z) : K := if q <=? p then A p q else A q p.

(** DispCorrMatrix.run 200-231. [w], [v]: eigenvalues and eigenvectors of the dynamical matrix (component p of the
    l-th is v p l); [freq] is sqrt(abs(x)) * sign(x) * factor (126-127), [sig] is sigma_squared(., T), [ltbn] the
    comparison. *)
Variables (freq sig : K -> K) (ltbn : K -> K -> bool) (cutoff : K).
Definition condition (w : Z -> K) (l : Z) : bool := ltbn cutoff (freq (w l)).
Definition where_ (c : bool) (x y : K) : K := if c then x else y.
Definition mode_a2 (w : Z -> K) (l : Z) : K := where_ (condition w l) (sig (where_ (condition w l) (freq (w l)) 1)) 0.
Definition mode_a2_inv (w : Z -> K) (l : Z) : K := where_ (condition w l) (1 / sig (where_ (condition w l) (freq (w l)) 1)) 0.
(** np.dot(a * eigvecs, eigvecs.T) *)
Definition in_modes (a : Z -> K) (v : Z -> Z -> K) (p q : Z) : K := Sm n (fun l => a l * v p l * v q l).
Definition psi (w : Z -> K) (v : Z -> Z -> K) : Z -> Z -> K := scale_t isq (in_modes (mode_a2 w) v).
Definition upsilon (w : Z -> K) (v : Z -> Z -> K) : Z -> Z -> K := scale_t sq (in_modes (mode_a2_inv w) v).
(** 231: np.sqrt(1 / np.prod(2 * np.pi * np.extract(condition, a2))) *)
Variables (root : K -> K) (twopi : K).
Definition prefactor (w : Z -> K) : K := root (1 / fold_right (nmul K) 1 (map (fun l => twopi * mode_a2 w l) (filter (condition w) (zrange n)))).
(** The use given in the docstring of get_sscha_matrices 51-69: vals of one snapshot d. *)
Definition exponent (ups : Z -> Z -> K) (d : Z -> K) : K := nopp K (Sm n (fun p => d p * Sm n (fun q => d q * ups q p))) / (1 + 1).

(** DispCorrMatrixMesh.run 291-325: [d2f a] stands for create_dynamical_matrices(a, eigenvectors), run() and
    force_constants of phonopy's DynmatToForceConstants, as an array over (i, j, alpha, beta). *)
Variable d2f : (Z -> Z -> K) -> Z -> Z -> Z -> Z -> K.
Definition mesh_a2 (fr : Z -> Z -> K) (g l : Z) : K := where_ (ltbn cutoff (fr g l)) (sig (where_ (ltbn cutoff (fr g l)) (fr g l) 1)) 0.
Definition mesh_a2_inv (fr : Z -> Z -> K) (g l : Z) : K := where_ (ltbn cutoff (fr g l)) (1 / sig (where_ (ltbn cutoff (fr g l)) (fr g l) 1)) 0.
Definition mesh_upsilon (fr : Z -> Z -> K) : Z -> Z -> K := flat_fc (d2f (mesh_a2_inv fr)).
Definition mesh_psi (fr : Z -> Z -> K) : Z -> Z -> K := flat_fc (fun i j a b => d2f (mesh_a2 fr) i j a b / ((sqm i * sqm i) * (sqm j * sqm j))).

(** ** Force constants. [ns]: snapshots; u, f: displacements and forces reshaped to (snapshots, n). [pinv]:
    np.linalg.pinv. *)
Variables (ns : Z) (pinv : (Z -> Z -> K) -> Z -> Z -> K).
Definition count : K := of_nat K (Z.to_nat ns).
Definition flat_u (d : Z -> Z -> Z -> K) (l p : Z) : K := d l (p / 3)%Z (p mod 3).
Definition cov (u : Z -> Z -> K) (p q : Z) : K := Sm ns (fun l => u l p * u l q) / count.
Definition u_inv (u : Z -> Z -> K) (l p : Z) : K := Sm n (fun q => u l q * pinv (cov u) q p).
(** SecondOrderFC.run 407-445 *)
Definition fc2_flat (u f : Z -> Z -> K) (p q : Z) : K := nopp K (Sm ns (fun l => u_inv u l p * f l q)) / count.
Definition second_order (d f : Z -> Z -> Z -> K) (i j a b : Z) : K := fc2_flat (flat_u d) (flat_u f) (3 * i + a)%Z (3 * j + b)%Z.
(** ThirdOrderFC._run_fmat 540-544, _run_fc3_ave 546-564, run 528-538. [fcs] is supercell_phonon.force_constants, the
    flat array. *)
Definition fmat (fcs : Z -> Z -> K) (u f : Z -> Z -> K) (l p : Z) : K :=
  f l p - Sm ns (fun m => f m p) / count + Sm n (fun q => u l q * fcs q p).
Definition fc3_flat (u fm : Z -> Z -> K) (p q r : Z) : K := nopp K (Sm ns (fun l => u_inv u l p * u_inv u l q * fm l r)) / count.
(** The object keeps fmat; the temperature is not used. *)
Definition third_run (fcs : Z -> Z -> K) (u f : Z -> Z -> K) (T : K) (kept : option (Z -> Z -> K)) : (Z -> Z -> K) * (Z -> Z -> Z -> Z -> Z -> Z -> K) :=
  let fm := match kept with Some x => x | None => fmat fcs u f end in
  (fm, fun i j k a b c => fc3_flat u fm (3 * i + a)%Z (3 * j + b)%Z (3 * k + c)%Z).
Definition third_order (fc : Z -> Z -> Z -> Z -> K) (d f : Z -> Z -> Z -> K) (T : K) : Z -> Z -> Z -> Z -> Z -> Z -> K :=
  snd (third_run (flat_fc fc) (flat_u d) (flat_u f) T None).
End Sscha.

(** func.py: sigma_squared 68-105 as seen by numpy's error handling. E: states of np.seterr; [flags]: whether evaluating
    bose_einstein raises a floating-point flag (overflow of exp, division by zero at T = 0). The result is None for
    FloatingPointError. *)
Definition sigma_squared_call {E X} (raise_all : E) (flags : bool) (value : X) (st : E) : option X * E :=
  let old_settings := st in
  let st := raise_all in
  if flags then (None, st) else
  let st := old_settings in
  (Some value, st).
