(** Mode Grueneisen parameters: phono3py/phonon3/gruneisen.py (Gruneisen) and cui/phono3py_script.py 692-737.
    Simplifications: arrays are functions of their indices, force constants with the number of rows kept apart; [cis x] stands for
    np.exp(2j np.pi x) and [sq] for np.sqrt; the results of np.linalg.eigh (the squared frequencies [omega2], [vals] and the
    eigenvectors [w], [vecs]) are arguments; sums are written in the order of the loops. q within 1e-5 of zero is the argument
    [at_gamma]. *)
From Coq Require Import ZArith QArith List Bool.
From Verif Require Import Base QMat Cplx.
Import ListNotations.
Open Scope Z_scope.

Notation QS n f := (qsum (map f (zrange n))).

Section Gru.
Variable cis : Q -> cplx.
Variable sq : Q -> Q.
(** numbers of atoms of the primitive cell and of the supercell *)
Variable np ns : Z.
Variable fc2 : Z -> Z -> Z -> Z -> Q.
Variable fc3 : Z -> Z -> Z -> Z -> Z -> Z -> Q.
Variable svecs : Z -> Z -> Q.
(** [multi N nu] is (multiplicity, address) of self._multi[N, nu] *)
Variable multi : Z -> Z -> Z * Z.
Variable lat : Z -> Z -> Q.
Variable mass : Z -> Q.
Variable p2s s2p p2p : Z -> Z.
Variable vals : Z -> Q.
Variable vecs : Z -> Z -> Q.

(** 464-472 (_get_R) *)
Definition get_R (nu N k : Z) : Q :=
  let '(m, adrs) := multi N nu in
  QS 3 (fun l => QS m (fun v => svecs (adrs + v) l) / inject_Z m * lat l k)%Q.
(** 474-494 (_get_Gamma): the slice 3: of the modes is [3 + s] *)
Definition get_Gamma (pi mu k i : Z) : Q :=
  (1 / sq (mass pi * mass mu) * QS (3 * np - 3) (fun s => vecs (pi * 3 + k)%Z (3 + s)%Z * vecs (mu * 3 + i)%Z (3 + s)%Z / vals (3 + s)%Z))%Q.
(** 442-462 (_get_X) *)
Definition get_X (mu i j k : Z) : Q :=
  fold_left (fun x nu => fold_left (fun x l => x - get_Gamma mu nu i l * QS ns (fun N => fc2 (p2s nu) N l j * get_R nu N k))%Q (zrange 3) x) (zrange np) 0%Q.
(** 157-161 (__init__) *)
Definition the_X (ion_clamped : bool) (mu i j k : Z) : Q := if ion_clamped then 0%Q else get_X mu i j k.
Section Y.
Variable X : Z -> Z -> Z -> Z -> Q.
(** 425-440 (_get_Y) *)
Definition get_Y (nu M i j k : Z) : Q := ((if i =? j then get_R nu M k else 0) + X (p2p (s2p M)) i j k)%Q.
(** 402-423 (_get_dPhidu): the loop over _ assigns the same value three times *)
Definition get_dPhidu (nu pi i j k l : Z) : Q :=
  QS ns (fun M => QS 3 (fun m => fc3 (p2s nu) pi M i j m * get_Y nu M m k l))%Q.
(** 387-396: the phase factor of _get_dDdu *)
Definition gru_phase (q : Z -> Q) (P nu : Z) : cplx :=
  let '(m, adrs) := multi P nu in
  cscale (/ inject_Z m) (CSum m (fun v => cis (QS 3 (fun l => svecs (adrs + v) l * q l)%Q))).
(** 374-400 (_get_dDdu) *)
Definition get_dDdu (q : Z -> Q) (nu pi i j k l : Z) : cplx :=
  cscale (/ sq (mass nu * mass pi))
    (csum (map (fun P => cmul (gru_phase q P nu) (C (get_dPhidu nu P i j k l) 0)) (filter (fun P => s2p P =? p2s pi) (zrange ns)))).
(** 347-372 (_get_gruneisen_tensor) *)
Definition get_gruneisen (q : Z -> Q) (at_gamma : bool) (omega2 : Z -> Q) (w : Z -> Z -> cplx) (s k l : Z) : Q :=
  if at_gamma && (s <? 3) then 0%Q
  else (QS 3 (fun i => QS 3 (fun j => QS np (fun nu => QS np (fun pi =>
          re (cmul (cmul (conj (w (nu * 3 + i)%Z s)) (get_dDdu q nu pi i j k l)) (w (pi * 3 + j)%Z s)))))) * (-1 / 2 / omega2 s))%Q.
End Y.

(** 292-296: the number written as "gruneisen" *)
Definition gru_scalar (g : Z -> Z -> Q) : Q := ((g 0%Z 0%Z + g 1%Z 1%Z + g 2%Z 2%Z) / 3)%Q.
(** the rows of fc2 and fc3 read by _get_X (458) and _get_dPhidu (418): false for a numpy IndexError *)
Definition gru_rows (rows2 rows3 : Z) : bool := forallb (fun nu => (p2s nu <? rows2) && (p2s nu <? rows3)) (zrange np).
End Gru.

(** phono3py_script.py 704-708: the calculation is refused when the numbers of rows differ *)
Definition gru_accepted (rows2 rows3 : Z) : bool := rows2 =? rows3.
