(** Independent statement of the phonon self-energy sum. *)
From Coq Require Import ZArith QArith List Bool.
From Verif Require Import Base QMat IseModel.
Import ListNotations.
Open Scope Z_scope.

(** elements of C-contiguous arrays of shape (_, b, c, d) and (_, a, b, c, d) *)
Definition arr4 {V} (b c d : Z) (x : Z -> V) (i j k l : Z) : V := x (((i * b + j) * c + k) * d + l).
Definition arr5 {V} (a b c d : Z) (x : Z -> V) (p i j k l : Z) : V := x ((((p * a + i) * b + j) * c + k) * d + l).
Definition Sum (n : Z) (f : Z -> Q) : Q := qsum (map f (zrange n)).

(** what one pair of modes (1,k), (2,l) contributes: modes at or below the cutoff do not scatter *)
Definition contribution (bose : Q -> Q -> Q) (T cutoff f1 f2 g1 g23 phi : Q) : Q :=
  if qltb cutoff f1 && qltb cutoff f2 then
    (if qltb 0 T then ((bose f1 T + bose f2 T + 1) * g1 + (bose f1 T - bose f2 T) * g23) * phi else g1 * phi)%Q
  else 0%Q.
(** sum over triplets (those selected by sel), with their weights, and over all pairs of modes, of the
    self-energy of band0 number j at row r of g (r = j for bands, r = the index of a frequency point) *)
Definition self_energy (sel : Z -> bool) (bose : Q -> Q -> Q) (nb0 nb ntrip nrow : Z) (phi freq : Z -> Q) (triplets : Z -> tp3) (weights : Z -> Z)
    (g : Z -> Q) (T cutoff : Q) (j r : Z) : Q :=
  Sum ntrip (fun i => if sel i then inject_Z (weights i) * Sum nb (fun k => Sum nb (fun l =>
    contribution bose T cutoff (freq (tp_at (triplets i) 1 * nb + k)%Z) (freq (tp_at (triplets i) 2 * nb + l)%Z)
      (arr5 ntrip nrow nb nb g 0 i r k l) (arr5 ntrip nrow nb nb g 1 i r k l) (arr4 nb0 nb nb phi i j k l))) else 0)%Q.
(** entries marked zero are zero in both planes *)
Definition zeros_ok (ntrip nrow nb : Z) (g : Z -> Q) (gz : Z -> bool) : Prop :=
  forall i r k l, 0 <= i < ntrip -> 0 <= r < nrow -> 0 <= k < nb -> 0 <= l < nb -> arr4 nrow nb nb gz i r k l = true ->
    Qeq (arr5 ntrip nrow nb nb g 0 i r k l) 0 /\ Qeq (arr5 ntrip nrow nb nb g 1 i r k l) 0.
(** occupation numbers are not negative above the cutoff *)
Definition occ_ok (bose : Q -> Q -> Q) (cutoff : Q) : Prop := forall f T, Qlt cutoff f -> Qle 0 (bose f T).
(** a triplet is a normal process when its three addresses add up to the zero vector *)
Definition normal (addr : Z -> Z -> Z) (t : tp3) : Prop :=
  forall c, 0 <= c < 3 -> addr (tp_at t 0) c + addr (tp_at t 1) c + addr (tp_at t 2) c = 0.
