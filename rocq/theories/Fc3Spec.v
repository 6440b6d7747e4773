(** Vocabulary of the fc3 properties: arrays seen as functions of three (atom, direction) slots. *)
From Coq Require Import ZArith QArith List Bool Lia.
From Verif Require Import Base.
Open Scope Z_scope.

(** a slot with an existing atom and a Cartesian direction *)
Definition slot_ok (n : Z) (x : Z * Z) : Prop := 0 <= fst x < n /\ 0 <= snd x < 3.
(** mean over the six orders of the slots *)
Definition sym_mean (F : Z * Z -> Z * Z -> Z * Z -> Q) (x y z : Z * Z) : Q :=
  ((F x y z + F x z y + F y x z + F y z x + F z x y + F z y x) / 6)%Q.
Definition symmetric3 (n : Z) (F : Z * Z -> Z * Z -> Z * Z -> Q) : Prop :=
  forall x y z, slot_ok n x -> slot_ok n y -> slot_ok n z -> Qeq (F x y z) (F y x z) /\ Qeq (F x y z) (F x z y).
(** row-major position of element [a,b,c,i,j,k] of an array of shape (n',n,n,3,3,3) *)
Definition pos (n a b c i j k : Z) : Z := ((((a * n + b) * n + c) * 3 + i) * 3 + j) * 3 + k.
Definition full (n : Z) (m : Z -> Q) (x y z : Z * Z) : Q :=
  m (pos n (fst x) (fst y) (fst z) (snd x) (snd y) (snd z)).

(** Pure translations of a supercell with n atoms, np of them in the primitive cell: a group of
    ns fixed-point-free permutations with the tables used by compact force constants. *)
Record lattice_tables (p2s s2pp nsym : Z -> Z) (perm : Z -> Z -> Z) (n np ns : Z) : Prop := {
  lt_p2s : forall p, 0 <= p < np -> 0 <= p2s p < n;
  lt_s2pp : forall s, 0 <= s < n -> 0 <= s2pp s < np;
  lt_nsym : forall s, 0 <= s < n -> 0 <= nsym s < ns;
  lt_perm : forall t s, 0 <= t < ns -> 0 <= s < n -> 0 <= perm t s < n;
  lt_comp : forall t t', 0 <= t < ns -> 0 <= t' < ns -> exists u, 0 <= u < ns /\ forall s, 0 <= s < n -> perm u s = perm t' (perm t s);
  lt_inv : forall t, 0 <= t < ns -> exists u, 0 <= u < ns /\ forall s, 0 <= s < n -> perm u (perm t s) = s;
  lt_free : forall t s, 0 <= t < ns -> 0 <= s < n -> perm t s = s -> forall s', 0 <= s' < n -> perm t s' = s';
  lt_home : forall s, 0 <= s < n -> perm (nsym s) s = p2s (s2pp s);
  lt_prim : forall p, 0 <= p < np -> s2pp (p2s p) = p;
  lt_orbit : forall t s, 0 <= t < ns -> 0 <= s < n -> s2pp (perm t s) = s2pp s }.
(** the full array a compact one stands for: element (a,b,c) is the stored one after translating a
    into the primitive cell *)
Definition unfold_compact (s2pp nsym : Z -> Z) (perm : Z -> Z -> Z) (n : Z) (m : Z -> Q) (x y z : Z * Z) : Q :=
  let t := nsym (fst x) in
  m (pos n (s2pp (fst x)) (perm t (fst y)) (perm t (fst z)) (snd x) (snd y) (snd z)).
(** no translation has order two (no even number of primitive cells along any direction) *)
Definition no_order_two (perm : Z -> Z -> Z) (n ns : Z) : Prop :=
  forall t s, 0 <= t < ns -> 0 <= s < n -> perm t (perm t s) = s -> perm t s = s.
Definition zero_sums (n : Z) (F : Z * Z -> Z * Z -> Z * Z -> Q) : Prop :=
  forall i y z, 0 <= i < 3 -> slot_ok n y -> slot_ok n z ->
    Qeq (qsum (List.map (fun a => F (a, i) y z) (zrange n))) 0 /\
    Qeq (qsum (List.map (fun a => F y (a, i) z) (zrange n))) 0 /\
    Qeq (qsum (List.map (fun a => F y z (a, i)) (zrange n))) 0.
