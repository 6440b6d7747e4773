(** The drift of third-order force constants shown to the user: phono3py/phonon3/fc3.py show_drift_fc3 576-651. The result is the three numbers and Cartesian
    indices that are printed and, as the compact branch works in place, the array afterwards. The C routine transpose_compact_fc3 (609-611, 617-619) is in Fc3Model.v.
    Doubles are rationals; the digits printed are left out. *)
From Coq Require Import ZArith QArith Qabs List Bool.
From Verif Require Import Base QMat Fc3Spec Fc3Model.
Import ListNotations.
Open Scope Z_scope.

(** maxval = 0, klm = [0, 0, 0] and the loop over np.ndindex((a, b, 3, 3, 3)) (586-601, 612-616, 620-629) *)
Definition report := (Q * (Z * Z * Z))%type.
Definition places (a b : Z) : list (Z * Z * (Z * Z * Z)) := flat_map (fun i => flat_map (fun j => map (fun q => (i, j, q)) comps) (zrange b)) (zrange a).
Definition update (val : Z -> Z -> Z * Z * Z -> Q) (r : report) (x : Z * Z * (Z * Z * Z)) : report :=
  let '(i, j, q) := x in if qltb (Qabs (fst r)) (Qabs (val i j q)) then (val i j q, q) else r.
Definition scan (val : Z -> Z -> Z * Z * Z -> Q) (a b : Z) : report := fold_left (update val) (places a b) (0%Q, (0, 0, 0)).
(** fc3[a, b, c, k, l, m] of an array of shape (., n, n, 3, 3, 3) *)
Definition at_ (n : Z) (fc3 : Z -> Q) (a b c : Z) (q : Z * Z * Z) : Q := let '(k, l, m) := q in fc3 (pos n a b c k l m).
(** 578-601 *)
Definition show_full (n : Z) (fc3 : Z -> Q) : report * report * report :=
  (scan (fun i j q => qsum (map (fun a => at_ n fc3 a i j q) (zrange n))) n n,
   scan (fun i j q => qsum (map (fun a => at_ n fc3 i a j q) (zrange n))) n n,
   scan (fun i j q => qsum (map (fun a => at_ n fc3 i j a q) (zrange n))) n n).
(** 602-629; the import error of 630-635 is left out *)
Definition show_compact (t : Tables) (n np : Z) (fc3 : Z -> Q) : (report * report * report) * (Z -> Q) :=
  let fc3' := transpose_compact t n np 0 fc3 in
  let r1 := scan (fun i j q => qsum (map (fun a => at_ n fc3' i a j q) (zrange n))) np n in
  let fc3'' := transpose_compact t n np 0 fc3' in
  (r1,
   scan (fun i j q => qsum (map (fun a => at_ n fc3'' i a j q) (zrange n))) np n,
   scan (fun i j q => qsum (map (fun a => at_ n fc3'' i j a q) (zrange n))) np n,
   fc3'').
(** 578: which branch *)
Definition show_drift_fc3 (t : Tables) (n np : Z) (fc3 : Z -> Q) : (report * report * report) * (Z -> Q) :=
  if np =? n then (show_full n fc3, fc3) else show_compact t n np fc3.
