(** Dynamical matrices at q-points related by a symmetry operation of the crystal (C88) *)
From Coq Require Import ZArith QArith List Bool Lia Lqa Setoid Permutation.
From Verif Require Import Base BaseProofs QMat Par Par2 IseSpec IseProofs Cplx DynModel DynProofs DynProps R2nProps Fc3Spec R2rModel R2rProofs R2rShort R2rProps R2rProps2 R2rSym.
Import ListNotations.
Open Scope Z_scope.

(** ** Specification *)
Definition turn2 (R : Z -> Z -> Q) (f : Z -> Z -> cplx) (k l : Z) : cplx := turn1 R (fun k' => turn1 R (fun l' => f k' l') l) k.
Definition Rturn2 (R : Z -> Z -> Q) (f : Z -> Z -> Q) (k l : Z) : Q := Sum 3 (fun k' => R k k' * Sum 3 (fun l' => R l l' * f k' l'))%Q.
(** fc2 as a function of two (supercell atom, direction) slots; it does not change under lattice translations and turns with the crystal *)
Definition represents2 (np ns : Z) (p2s : Z -> Z) (fc : Z -> Q) (F : Z * Z -> Z * Z -> Q) : Prop :=
  forall i s k l, 0 <= i < np -> 0 <= s < ns -> 0 <= k < 3 -> 0 <= l < 3 -> (fc (((p2s i * ns + s) * 3 + k) * 3 + l)%Z == F (p2s i, k) (s, l))%Q.
Definition invariant2 (ns ntrans : Z) (perms : Z -> Z -> Z) (F : Z * Z -> Z * Z -> Q) : Prop :=
  forall u a b k l, 0 <= u < ntrans -> 0 <= a < ns -> 0 <= b < ns -> 0 <= k < 3 -> 0 <= l < 3 -> (F (perms u a, k) (perms u b, l) == F (a, k) (b, l))%Q.
Definition covariant2 (ns : Z) (R : Z -> Z -> Q) (pi : Z -> Z) (F : Z * Z -> Z * Z -> Q) : Prop :=
  forall a b k l, 0 <= a < ns -> 0 <= b < ns -> 0 <= k < 3 -> 0 <= l < 3 -> (F (pi a, k) (pi b, l) == Rturn2 R (fun k' l' => F (a, k') (b, l')) k l)%Q.
(** a wave vector (reduced coordinates) turned by the operation *)
Definition turned_q (W : Z -> Z -> Z) (q q' : Z -> Q) : Prop := forall v, (vdot q' (mapply W v) == vdot q v)%Q.
Definition turned_dir (W : Z -> Z -> Z) (d d' : option (Z -> Q)) : Prop := match d, d' with None, None => True | Some d, Some d' => turned_q W d d' | _, _ => False end.
(** R is the operation in Cartesian coordinates: it turns Cartesian wave vectors *)
Definition cartesian (W : Z -> Z -> Z) (R rl : Z -> Z -> Q) : Prop :=
  forall q q', turned_q W q q' -> forall c, 0 <= c < 3 -> (to_cart rl q' c == R c 0%Z * to_cart rl q 0%Z + R c 1%Z * to_cart rl q 1%Z + R c 2%Z * to_cart rl q 2%Z)%Q.
(** Cartesian vectors, and sets of them, turned by R *)
Definition turned_vec (R : Z -> Z -> Q) (v v' : Z -> Q) : Prop := forall c, 0 <= c < 3 -> (v' c == R c 0%Z * v 0%Z + R c 1%Z * v 1%Z + R c 2%Z * v 2%Z)%Q.
Definition turned_set (R : Z -> Z -> Q) (Gs : list (Z -> Q)) : Prop := exists Gs', Permutation Gs' Gs /\ Forall2 (turned_vec R) Gs Gs'.
(** the operation carries the atom at pos i to the atom at pos (pm i), up to the shift t common to all atoms and a lattice vector L i, whose product with a reciprocal lattice vector is an integer *)
Definition turned_positions (np : Z) (R : Z -> Z -> Q) (pm : Z -> Z) (pos : Z -> Z -> Q) (Gs : list (Z -> Q)) : Prop :=
  exists (t : Z -> Q) (L : Z -> Z -> Q), (forall i, 0 <= i < np -> turned_vec R (pos i) (fun c => pos (pm i) c - t c - L i c)%Q) /\
    forall i G, 0 <= i < np -> In G Gs -> exists n, (vdot (L i) G == inject_Z n)%Q.
(** e is an eigenvector of the n by n matrix M (row, column) *)
Definition eigen (n : Z) (M : Z -> Z -> cplx) (lambda : Q) (e : Z -> cplx) : Prop := forall x, 0 <= x < n -> CSum n (fun y => cmul (M x y) (e y)) =c= cscale lambda (e x).
Definition norm2 (n : Z) (e : Z -> cplx) : cplx := CSum n (fun x => cmul (conj (e x)) (e x)).

(** ** rotations *)
Section Rot.
Variable R : Z -> Z -> Q.
Hypothesis Ho : forall a b, 0 <= a < 3 -> 0 <= b < 3 -> (R 0%Z a * R 0%Z b + R 1%Z a * R 1%Z b + R 2%Z a * R 2%Z b == if (a =? b)%Z then 1 else 0)%Q.
Lemma orth_rows : forall a b, 0 <= a < 3 -> 0 <= b < 3 -> (R a 0%Z * R b 0%Z + R a 1%Z * R b 1%Z + R a 2%Z * R b 2%Z == if (a =? b)%Z then 1 else 0)%Q.
Proof.
  pose proof (Ho 0 0 ltac:(lia) ltac:(lia)) as O00. pose proof (Ho 0 1 ltac:(lia) ltac:(lia)) as O01. pose proof (Ho 0 2 ltac:(lia) ltac:(lia)) as O02. pose proof (Ho 1 1 ltac:(lia) ltac:(lia)) as O11. pose proof (Ho 1 2 ltac:(lia) ltac:(lia)) as O12. pose proof (Ho 2 2 ltac:(lia) ltac:(lia)) as O22. cbn [Z.eqb Pos.eqb] in *.
  remember (R 0 0) as a00. remember (R 0 1) as a01. remember (R 0 2) as a02. remember (R 1 0) as a10. remember (R 1 1) as a11. remember (R 1 2) as a12. remember (R 2 0) as a20. remember (R 2 1) as a21. remember (R 2 2) as a22.
  set (d := (a00 * (a11 * a22 - a12 * a21) - a01 * (a10 * a22 - a12 * a20) + a02 * (a10 * a21 - a11 * a20))%Q).
  assert (Hd : (d * d == 1)%Q).
  { transitivity ((a00 * a00 + a10 * a10 + a20 * a20) * ((a01 * a01 + a11 * a11 + a21 * a21) * (a02 * a02 + a12 * a12 + a22 * a22) - (a01 * a02 + a11 * a12 + a21 * a22) * (a01 * a02 + a11 * a12 + a21 * a22))
      - (a00 * a01 + a10 * a11 + a20 * a21) * ((a00 * a01 + a10 * a11 + a20 * a21) * (a02 * a02 + a12 * a12 + a22 * a22) - (a01 * a02 + a11 * a12 + a21 * a22) * (a00 * a02 + a10 * a12 + a20 * a22))
      + (a00 * a02 + a10 * a12 + a20 * a22) * ((a00 * a01 + a10 * a11 + a20 * a21) * (a01 * a02 + a11 * a12 + a21 * a22) - (a01 * a01 + a11 * a11 + a21 * a21) * (a00 * a02 + a10 * a12 + a20 * a22)))%Q; [unfold d; ring|].
    rewrite O00, O01, O02, O11, O12, O22. ring. }
  (* d times the transposed is the adjugate *)
  assert (A00 : (d * a00 == a11 * a22 - a12 * a21)%Q). { transitivity ((a00 * a00 + a10 * a10 + a20 * a20) * (a11 * a22 - a12 * a21) - (a00 * a01 + a10 * a11 + a20 * a21) * (a10 * a22 - a12 * a20) + (a00 * a02 + a10 * a12 + a20 * a22) * (a10 * a21 - a11 * a20))%Q; [unfold d; ring|rewrite O00, O01, O02; ring]. }
  assert (A10 : (d * a10 == - (a01 * a22 - a02 * a21))%Q). { transitivity (- ((a00 * a00 + a10 * a10 + a20 * a20) * (a01 * a22 - a02 * a21) - (a00 * a01 + a10 * a11 + a20 * a21) * (a00 * a22 - a02 * a20) + (a00 * a02 + a10 * a12 + a20 * a22) * (a00 * a21 - a01 * a20)))%Q; [unfold d; ring|rewrite O00, O01, O02; ring]. }
  assert (A20 : (d * a20 == a01 * a12 - a02 * a11)%Q). { transitivity ((a00 * a00 + a10 * a10 + a20 * a20) * (a01 * a12 - a02 * a11) - (a00 * a01 + a10 * a11 + a20 * a21) * (a00 * a12 - a02 * a10) + (a00 * a02 + a10 * a12 + a20 * a22) * (a00 * a11 - a01 * a10))%Q; [unfold d; ring|rewrite O00, O01, O02; ring]. }
  assert (A01 : (d * a01 == - (a10 * a22 - a12 * a20))%Q). { transitivity ((a00 * a01 + a10 * a11 + a20 * a21) * (a11 * a22 - a12 * a21) - (a01 * a01 + a11 * a11 + a21 * a21) * (a10 * a22 - a12 * a20) + (a01 * a02 + a11 * a12 + a21 * a22) * (a10 * a21 - a11 * a20))%Q; [unfold d; ring|rewrite O01, O11, O12; ring]. }
  assert (A11 : (d * a11 == a00 * a22 - a02 * a20)%Q). { transitivity (- ((a00 * a01 + a10 * a11 + a20 * a21) * (a01 * a22 - a02 * a21) - (a01 * a01 + a11 * a11 + a21 * a21) * (a00 * a22 - a02 * a20) + (a01 * a02 + a11 * a12 + a21 * a22) * (a00 * a21 - a01 * a20)))%Q; [unfold d; ring|rewrite O01, O11, O12; ring]. }
  assert (A21 : (d * a21 == - (a00 * a12 - a02 * a10))%Q). { transitivity ((a00 * a01 + a10 * a11 + a20 * a21) * (a01 * a12 - a02 * a11) - (a01 * a01 + a11 * a11 + a21 * a21) * (a00 * a12 - a02 * a10) + (a01 * a02 + a11 * a12 + a21 * a22) * (a00 * a11 - a01 * a10))%Q; [unfold d; ring|rewrite O01, O11, O12; ring]. }
  assert (A02 : (d * a02 == a10 * a21 - a11 * a20)%Q). { transitivity ((a00 * a02 + a10 * a12 + a20 * a22) * (a11 * a22 - a12 * a21) - (a01 * a02 + a11 * a12 + a21 * a22) * (a10 * a22 - a12 * a20) + (a02 * a02 + a12 * a12 + a22 * a22) * (a10 * a21 - a11 * a20))%Q; [unfold d; ring|rewrite O02, O12, O22; ring]. }
  assert (A12 : (d * a12 == - (a00 * a21 - a01 * a20))%Q). { transitivity (- ((a00 * a02 + a10 * a12 + a20 * a22) * (a01 * a22 - a02 * a21) - (a01 * a02 + a11 * a12 + a21 * a22) * (a00 * a22 - a02 * a20) + (a02 * a02 + a12 * a12 + a22 * a22) * (a00 * a21 - a01 * a20)))%Q; [unfold d; ring|rewrite O02, O12, O22; ring]. }
  assert (A22 : (d * a22 == a00 * a11 - a01 * a10)%Q). { transitivity ((a00 * a02 + a10 * a12 + a20 * a22) * (a01 * a12 - a02 * a11) - (a01 * a02 + a11 * a12 + a21 * a22) * (a00 * a12 - a02 * a10) + (a02 * a02 + a12 * a12 + a22 * a22) * (a00 * a11 - a01 * a10))%Q; [unfold d; ring|rewrite O02, O12, O22; ring]. }
  assert (K : forall p q, (p * q == d * p * (d * q))%Q) by (intros p q; transitivity ((d * d) * (p * q))%Q; [rewrite Hd; ring|ring]).
  assert (Half : forall x r0 r1 r2 s0 s1 s2, (d * r0 == s0)%Q -> (d * r1 == s1)%Q -> (d * r2 == s2)%Q -> forall t0 t1 t2, (t0 * s0 + t1 * s1 + t2 * s2 == d * x)%Q -> (t0 * r0 + t1 * r1 + t2 * r2 == x)%Q).
  { intros x r0 r1 r2 s0 s1 s2 H0 H1 H2 t0 t1 t2 H. transitivity (d * (t0 * (d * r0) + t1 * (d * r1) + t2 * (d * r2)))%Q; [transitivity ((d * d) * (t0 * r0 + t1 * r1 + t2 * r2))%Q; [rewrite Hd; ring|ring]|]. rewrite H0, H1, H2, H. transitivity ((d * d) * x)%Q; [ring|rewrite Hd; ring]. }
  intros a b Ha Hb. assert (Ea : a = 0 \/ a = 1 \/ a = 2) by lia. assert (Eb : b = 0 \/ b = 1 \/ b = 2) by lia.
  destruct Ea as [-> | [-> | ->]], Eb as [-> | [-> | ->]]; cbn [Z.eqb Pos.eqb]; subst;
    first [apply (Half _ _ _ _ _ _ _ A00 A01 A02)|apply (Half _ _ _ _ _ _ _ A10 A11 A12)|apply (Half _ _ _ _ _ _ _ A20 A21 A22)]; unfold d; ring.
Qed.
Lemma turn1_back : forall (e : Z -> cplx) l, 0 <= l < 3 -> turn1 R (fun l' => turn1 (fun a b => R b a) e l') l =c= e l.
Proof.
  intros e l Hl. unfold turn1. rewrite !CSum3. transitivity (cadd (cadd (cscale (R l 0%Z * R 0%Z 0%Z + R l 1%Z * R 0%Z 1%Z + R l 2%Z * R 0%Z 2%Z) (e 0)) (cscale (R l 0%Z * R 1%Z 0%Z + R l 1%Z * R 1%Z 1%Z + R l 2%Z * R 1%Z 2%Z) (e 1))) (cscale (R l 0%Z * R 2%Z 0%Z + R l 1%Z * R 2%Z 1%Z + R l 2%Z * R 2%Z 2%Z) (e 2))).
  - split; cbn [re im cscale cadd]; ring.
  - rewrite !orth_rows by lia. assert (E : l = 0 \/ l = 1 \/ l = 2) by lia. destruct E as [-> | [-> | ->]]; cbn [Z.eqb Pos.eqb]; split; cbn [re im cscale cadd]; ring.
Qed.
Lemma turn1_inj : forall (e e' : Z -> cplx), (forall l, 0 <= l < 3 -> turn1 R e l =c= turn1 R e' l) -> forall l, 0 <= l < 3 -> e l =c= e' l.
Proof.
  intros e e' H l Hl. pose proof (H 0 ltac:(lia)) as H0. pose proof (H 1 ltac:(lia)) as H1. pose proof (H 2 ltac:(lia)) as H2. 
  assert (X : forall e, cadd (cadd (cscale (R 0%Z l) (turn1 R e 0)) (cscale (R 1%Z l) (turn1 R e 1))) (cscale (R 2%Z l) (turn1 R e 2)) =c= e l).
  { intros f. unfold turn1. rewrite !CSum3. transitivity (cadd (cadd (cscale (R 0%Z l * R 0%Z 0%Z + R 1%Z l * R 1%Z 0%Z + R 2%Z l * R 2%Z 0%Z) (f 0)) (cscale (R 0%Z l * R 0%Z 1%Z + R 1%Z l * R 1%Z 1%Z + R 2%Z l * R 2%Z 1%Z) (f 1))) (cscale (R 0%Z l * R 0%Z 2%Z + R 1%Z l * R 1%Z 2%Z + R 2%Z l * R 2%Z 2%Z) (f 2))).
    - split; cbn [re im cscale cadd]; ring.
    - rewrite !Ho by lia. assert (E : l = 0 \/ l = 1 \/ l = 2) by lia. destruct E as [-> | [-> | ->]]; cbn [Z.eqb Pos.eqb]; split; cbn [re im cscale cadd]; ring. }
  rewrite <- (X e), <- (X e'), H0, H1, H2. reflexivity.
Qed.
Lemma turned_dot : forall v w : Z -> Q, ((R 0%Z 0%Z * v 0%Z + R 0%Z 1%Z * v 1%Z + R 0%Z 2%Z * v 2%Z) * (R 0%Z 0%Z * w 0%Z + R 0%Z 1%Z * w 1%Z + R 0%Z 2%Z * w 2%Z) + (R 1%Z 0%Z * v 0%Z + R 1%Z 1%Z * v 1%Z + R 1%Z 2%Z * v 2%Z) * (R 1%Z 0%Z * w 0%Z + R 1%Z 1%Z * w 1%Z + R 1%Z 2%Z * w 2%Z) + (R 2%Z 0%Z * v 0%Z + R 2%Z 1%Z * v 1%Z + R 2%Z 2%Z * v 2%Z) * (R 2%Z 0%Z * w 0%Z + R 2%Z 1%Z * w 1%Z + R 2%Z 2%Z * w 2%Z) == v 0%Z * w 0%Z + v 1%Z * w 1%Z + v 2%Z * w 2%Z)%Q.
Proof.
  intros v w. pose proof (Ho 0 0 ltac:(lia) ltac:(lia)) as O00. pose proof (Ho 0 1 ltac:(lia) ltac:(lia)) as O01. pose proof (Ho 0 2 ltac:(lia) ltac:(lia)) as O02. pose proof (Ho 1 1 ltac:(lia) ltac:(lia)) as O11. pose proof (Ho 1 2 ltac:(lia) ltac:(lia)) as O12. pose proof (Ho 2 2 ltac:(lia) ltac:(lia)) as O22. cbn [Z.eqb Pos.eqb] in *.
  transitivity ((R 0%Z 0%Z * R 0%Z 0%Z + R 1%Z 0%Z * R 1%Z 0%Z + R 2%Z 0%Z * R 2%Z 0%Z) * (v 0%Z * w 0%Z) + (R 0%Z 1%Z * R 0%Z 1%Z + R 1%Z 1%Z * R 1%Z 1%Z + R 2%Z 1%Z * R 2%Z 1%Z) * (v 1%Z * w 1%Z) + (R 0%Z 2%Z * R 0%Z 2%Z + R 1%Z 2%Z * R 1%Z 2%Z + R 2%Z 2%Z * R 2%Z 2%Z) * (v 2%Z * w 2%Z)
    + (R 0%Z 0%Z * R 0%Z 1%Z + R 1%Z 0%Z * R 1%Z 1%Z + R 2%Z 0%Z * R 2%Z 1%Z) * (v 0%Z * w 1%Z + v 1%Z * w 0%Z) + (R 0%Z 0%Z * R 0%Z 2%Z + R 1%Z 0%Z * R 1%Z 2%Z + R 2%Z 0%Z * R 2%Z 2%Z) * (v 0%Z * w 2%Z + v 2%Z * w 0%Z) + (R 0%Z 1%Z * R 0%Z 2%Z + R 1%Z 1%Z * R 1%Z 2%Z + R 2%Z 1%Z * R 2%Z 2%Z) * (v 1%Z * w 2%Z + v 2%Z * w 1%Z))%Q; [ring|].
  rewrite O00, O01, O02, O11, O12, O22. ring.
Qed.
End Rot.

Section D.
Variable cis : Q -> cplx.
Variable sq : Q -> Q.
Variable x : Z -> Z -> Q.
Variable Ms : Z -> Z -> Z.
Variable len : (Z -> Q) -> Q.
Variable tol : Q.
Variable np ns ntrans : Z.
Variable perms : Z -> Z -> Z.
Variable svecs : Z -> Z -> Q.
Variable multi : Z -> Z * Z.
Variable p2s s2p p2p nsym : Z -> Z.
Variable W Wi : Z -> Z -> Z.
Variable R : Z -> Z -> Q.
Variable pi pi' pm pm' : Z -> Z.
Variable fc : Z -> Q.
Variable F : Z * Z -> Z * Z -> Q.
Variable mass : Z -> Q.
Hypothesis Hcis : proper_cis cis.
Hypothesis Hsq : respects sq.
Hypothesis Cr : crystal x Ms len tol np ns ntrans perms svecs multi p2s s2p p2p nsym.
Hypothesis Op : operation x Ms len np ns (fun s => p2p (s2p s)) W Wi R pi pi' pm pm'.
Hypothesis Rep : represents2 np ns p2s fc F.
Hypothesis Inv : invariant2 ns ntrans perms F.
Hypothesis Cov : covariant2 ns R pi F.
Hypothesis Mass : forall i, 0 <= i < np -> (mass (pm i) == mass i)%Q.
Local Notation moved := (moved perms p2s nsym pi).
Local Notation avg := (avg_phase cis np svecs multi).
Local Notation lsum := (lattice_sum cis sq np ns fc svecs multi mass s2p p2s).
Let Hnp : 0 <= np. Proof. pose proof (cr_np _ _ _ _ _ _ _ _ _ _ _ _ _ _ Cr). lia. Qed.
Let Ho := op_orth _ _ _ _ _ _ _ _ _ _ _ _ _ Op.
Let Hpm := op_pm _ _ _ _ _ _ _ _ _ _ _ _ _ Op.
Let LT := cr_lattice _ _ _ _ _ _ _ _ _ _ _ _ _ _ Cr.

Lemma mean_avg : forall q i s, mean_phase cis np svecs multi q i s =c= avg q i s.
Proof. intros q i s. unfold mean_phase, avg_phase, tab_mult, tab_vec. apply cscale_proper; [reflexivity|]. apply CSum_ext. intros a _. apply Hcis. rewrite sum3_eq. reflexivity. Qed.
(** sums over the atoms of a kind *)
Lemma kind_sum : forall (f : Z -> cplx) j, CSum ns (fun s => if s2p s =? p2s j then f s else c0) =c= csum (map f (filter (fun s => s2p s =? p2s j) (zrange ns))).
Proof. intros f j. unfold CSum. induction (zrange ns) as [|s l IH]; [reflexivity|]. cbn [map filter]. rewrite csum_cons, IH. destruct (_ =? _); cbn [map]; rewrite ?csum_cons; ring. Qed.
Lemma moved_kind : forall i j f, 0 <= i < np -> 0 <= j < np ->
  CSum ns (fun s => if s2p s =? p2s (pm j) then f s else c0) =c= CSum ns (fun s => if s2p s =? p2s j then f (moved i s) else c0).
Proof.
  intros i j f Hi Hj. rewrite !kind_sum.
  (* the bijection of pairs, with the second member fixed *)
  destruct (pi_home x Ms len tol np ns ntrans perms svecs multi p2s s2p p2p nsym W Wi R pi pi' pm pm' Cr Op i Hi) as [H1 [H2 H3]]. destruct (lt_inv _ _ _ _ _ _ _ LT _ H1) as [u [Hu Eu]]. destruct (lt_inv _ _ _ _ _ _ _ LT _ Hu) as [u' [Hu' Eu']].
  assert (Inv2 : forall s, 0 <= s < ns -> perms (nsym (pi (p2s i))) (perms u s) = s).
  { intros s Hs. pose proof (lt_perm _ _ _ _ _ _ _ LT u s Hu Hs) as R1. pose proof (lt_perm _ _ _ _ _ _ _ LT _ _ H1 R1) as R2. pose proof (Eu' _ R2) as Z1. rewrite Eu in Z1 by exact R1. rewrite <- Z1. apply Eu'. exact Hs. }
  pose proof (moved_class x Ms len tol np ns ntrans perms svecs multi p2s s2p p2p nsym W Wi R pi pi' pm pm' Cr Op) as MC. pose proof (moved_range x Ms len tol np ns ntrans perms svecs multi p2s s2p p2p nsym W Wi R pi pi' pm pm' Cr Op) as MR.
  apply (csum_bij _ _ _ _ (moved i) (fun s => pi' (perms u s))); try (apply NoDup_filter, NoDup_zrange).
  - intros s Hs. apply filter_In in Hs as [Hs Es]. apply in_zrange in Hs. apply Z.eqb_eq in Es. split.
    + apply filter_In. split; [apply in_zrange; now apply MR|]. apply Z.eqb_eq. apply (MC i s j); assumption.
    + destruct (op_pi _ _ _ _ _ _ _ _ _ _ _ _ _ Op s Hs) as [R1 [_ [R2 _]]]. unfold R2rSym.moved. rewrite Eu by exact R1. exact R2.
  - intros s Hs. apply filter_In in Hs as [Hs Es]. apply in_zrange in Hs. apply Z.eqb_eq in Es. pose proof (lt_perm _ _ _ _ _ _ _ LT u s Hu Hs) as R1. destruct (op_pi _ _ _ _ _ _ _ _ _ _ _ _ _ Op _ R1) as [_ [R2 [_ R3]]].
    assert (E : moved i (pi' (perms u s)) = s) by (unfold R2rSym.moved; rewrite R3; now apply Inv2). split; [|exact E]. apply filter_In. split; [now apply in_zrange|]. apply Z.eqb_eq. apply (MC i _ j); try assumption. now rewrite E.
Qed.
Definition turned_charge (c c' : option (Z -> Z -> Z -> Q)) : Prop :=
  match c, c' with None, None => True
  | Some c, Some c' => forall i j k l, 0 <= i < np -> 0 <= j < np -> 0 <= k < 3 -> 0 <= l < 3 -> (c' (pm i * np + pm j)%Z k l == Rturn2 R (c (i * np + j)%Z) k l)%Q
  | _, _ => False end.
Lemma turn2_real : forall (f : Z -> Z -> Q) z k l, turn2 R (fun k' l' => cscale (f k' l') z) k l =c= cscale (Rturn2 R f k l) z.
Proof. intros. unfold turn2, turn1, Rturn2. rewrite !CSum3. split; cbn [re im cscale cadd]; rewrite !Sum3; ring. Qed.
Lemma turn2_ext : forall f g k l, (forall k' l', 0 <= k' < 3 -> 0 <= l' < 3 -> f k' l' =c= g k' l') -> turn2 R f k l =c= turn2 R g k l.
Proof. intros f g k l H. unfold turn2. apply turn1_ext. intros k' Hk. apply turn1_ext. intros l' Hl. now apply H. Qed.
Lemma turn2_mul : forall c f k l, turn2 R (fun k' l' => cmul c (f k' l')) k l =c= cmul c (turn2 R f k l).
Proof. intros. unfold turn2. rewrite <- turn1_mul. apply turn1_ext. intros. apply turn1_mul. Qed.
Lemma turn2_add : forall f g k l, turn2 R (fun k' l' => cadd (f k' l') (g k' l')) k l =c= cadd (turn2 R f k l) (turn2 R g k l).
Proof. intros. unfold turn2. rewrite <- turn1_add. apply turn1_ext. intros. apply turn1_add. Qed.
Lemma turn2_csum : forall X (f : X -> Z -> Z -> cplx) L k l, turn2 R (fun k' l' => csum (map (fun y => f y k' l') L)) k l =c= csum (map (fun y => turn2 R (f y) k l) L).
Proof.
  intros X f L k l. induction L as [|y L IH]; cbn [map]; [unfold turn2, turn1; rewrite !CSum3; split; cbn [re im cscale cadd c0 csum fold_right]; ring|]. rewrite csum_cons, <- IH, <- turn2_add. apply turn2_ext. intros. reflexivity.
Qed.
Lemma turn2_conj : forall f k l, turn2 R (fun k' l' => conj (f l' k')) k l =c= conj (turn2 R f l k).
Proof. intros. unfold turn2, turn1. rewrite !CSum3. split; cbn [re im cscale cadd conj]; ring. Qed.
Lemma lsum_turn : forall c c' q q' i j k l, turned_q W q q' -> turned_charge c c' -> 0 <= i < np -> 0 <= j < np -> 0 <= k < 3 -> 0 <= l < 3 ->
  lsum c' q' (pm i) k (pm j) l =c= turn2 R (fun k' l' => lsum c q i k' j l') k l.
Proof.
  intros c c' q q' i j k l Hq Hc Hi Hj Hk Hl. unfold lattice_sum. rewrite (moved_kind i j) by assumption.
  transitivity (turn2 R (fun k' l' => cmul (C (/ sq (mass i * mass j)) 0) (csum (map (fun s => cscale (fc_at np ns fc p2s c i j s k' l') (avg q i s)) (filter (fun s => s2p s =? p2s j) (zrange ns))))) k l).
  - rewrite turn2_mul, turn2_csum. rewrite cscale_mul. apply cmul_proper; [split; cbn [re im]; [|reflexivity]; apply Qinv_comp, Hsq; rewrite !Mass by assumption; reflexivity|]. rewrite kind_sum. apply csum_ext. intros s Hs. apply filter_In in Hs as [Hs _]. apply in_zrange in Hs.
    rewrite turn2_real, mean_avg. rewrite (moved_avg cis x Ms len tol np ns ntrans perms svecs multi p2s s2p p2p nsym W Wi R pi pi' pm pm' Hcis Cr Op q q') by assumption. apply cscale_proper; [|reflexivity].
    (* force constants *)
    pose proof Rep as Rp. unfold represents2 in Rp. destruct (Hpm i Hi) as [Hi' _]. pose proof (moved_range x Ms len tol np ns ntrans perms svecs multi p2s s2p p2p nsym W Wi R pi pi' pm pm' Cr Op i s Hi Hs) as Hs'.
    assert (Ad : forall p s k l, p * ns * 9 + s * 9 + k * 3 + l = ((p * ns + s) * 3 + k) * 3 + l) by (intros; ring).
    assert (E : (fc (p2s (pm i) * ns * 9 + moved i s * 9 + k * 3 + l)%Z == Rturn2 R (fun k' l' => fc (p2s i * ns * 9 + s * 9 + k' * 3 + l')%Z) k l)%Q).
    { rewrite Ad, Rp by assumption. destruct (pi_home x Ms len tol np ns ntrans perms svecs multi p2s s2p p2p nsym W Wi R pi pi' pm pm' Cr Op i Hi) as [H1 [H2 H3]]. rewrite <- H3. unfold R2rSym.moved. pose proof Inv as Iv. unfold invariant2 in Iv. rewrite Iv; try assumption; try (apply (op_pi _ _ _ _ _ _ _ _ _ _ _ _ _ Op); assumption).
      pose proof Cov as Cv. unfold covariant2 in Cv. rewrite Cv by (try assumption; apply (lt_p2s _ _ _ _ _ _ _ LT); assumption). unfold Rturn2. rewrite !Sum3. rewrite !Ad, !Rp by (assumption || lia). reflexivity. }
    unfold fc_at. destruct c as [c|], c' as [c'|]; cbn [turned_charge] in Hc; try contradiction; [|exact E]. rewrite E, (Hc i j k l) by assumption. unfold Rturn2. rewrite !Sum3. ring.
  - apply turn2_ext. intros k' l' _ _. rewrite cscale_mul. apply cmul_proper; [reflexivity|]. rewrite kind_sum. apply csum_ext. intros s _. rewrite mean_avg. reflexivity.
Qed.
(** the matrix of the turned q-point is the turned matrix *)
Theorem C88_matrix : forall c c' q q' D D' i j k l, turned_q W q q' -> turned_charge c c' -> 0 <= i < np -> 0 <= j < np -> 0 <= k < 3 -> 0 <= l < 3 ->
  elem (np * 3) (dym_at_q cis sq np ns fc svecs multi mass s2p p2s q' c' D') (ix (pm i) k) (ix (pm j) l) =c=
  turn2 R (fun k' l' => elem (np * 3) (dym_at_q cis sq np ns fc svecs multi mass s2p p2s q c D) (ix i k') (ix j l')) k l.
Proof.
  intros c c' q q' D D' i j k l Hq Hc Hi Hj Hk Hl. destruct (Hpm i Hi) as [Hi' _]. destruct (Hpm j Hj) as [Hj' _].
  rewrite (turn2_ext _ (fun k' l' => cmul (C (1 # 2) 0) (cadd (lsum c q i k' j l') (conj (lsum c q j l' i k'))))) by (intros k' l' Hk' Hl'; rewrite elem_adr, dym_value by (assumption || lia); unfold half; rewrite cscale_mul; reflexivity).
  rewrite turn2_mul, turn2_add, (turn2_conj (fun l' k' => lsum c q j l' i k')). rewrite elem_adr, dym_value by assumption. unfold half. rewrite cscale_mul. rewrite (lsum_turn c c' q q' i j k l), (lsum_turn c c' q q' j i l k) by assumption. reflexivity.
Qed.

(** ** eigenvalues *)
Section E.
Variable M M' : Z -> Z -> cplx.
Hypothesis HM : forall i j k l, 0 <= i < np -> 0 <= j < np -> 0 <= k < 3 -> 0 <= l < 3 -> M' (ix (pm i) k) (ix (pm j) l) =c= turn2 R (fun k' l' => M (ix i k') (ix j l')) k l.
(** an eigenvector carried by the operation *)
Definition carried (e e' : Z -> cplx) : Prop := forall i l, 0 <= i < np -> 0 <= l < 3 -> e' (ix (pm i) l) =c= turn1 R (fun l' => e (ix i l')) l.
Lemma carried_apply : forall e e', carried e e' -> forall i k, 0 <= i < np -> 0 <= k < 3 ->
  CSum (np * 3) (fun y => cmul (M' (ix (pm i) k) y) (e' y)) =c= turn1 R (fun k' => CSum (np * 3) (fun y => cmul (M (ix i k') y) (e y))) k.
Proof.
  intros e e' He i k Hi Hk. rewrite (CSum_ext _ _ (fun y => cmul (e' y) (M' (ix (pm i) k) y))) by (intros; ring).
  rewrite (slot_turn np R pm pm' e e' (fun y => turn1 R (fun k' => M (ix i k') y) k) _ Hnp Hpm Ho He).
  - unfold turn1. rewrite !CSum3. rewrite (CSum_ext _ _ (fun y => cadd (cadd (cmul (C (R k 0) 0) (cmul (M (ix i 0) y) (e y))) (cmul (C (R k 1) 0) (cmul (M (ix i 1) y) (e y)))) (cmul (C (R k 2) 0) (cmul (M (ix i 2) y) (e y))))).
    + rewrite !CSum_add, !CSum_scale, !cscale_mul. reflexivity.
    + intros y _. rewrite !CSum3. split; cbn [re im cscale cmul cadd]; ring.
  - intros j l Hj Hl. rewrite HM by assumption. unfold turn2, turn1. rewrite !CSum3. split; cbn [re im cscale cadd]; ring.
Qed.
Theorem eigen_carried : forall e e' lambda, carried e e' -> (eigen (np * 3) M lambda e <-> eigen (np * 3) M' lambda e').
Proof.
  intros e e' lambda He. unfold eigen. split; intros H z Hz.
  - destruct (split3 np z Hz) as [i' [k [Hi' [Hk ->]]]]. destruct (Hpm i' Hi') as [_ [Hi [_ E]]]. rewrite <- E. rewrite (carried_apply e e' He) by assumption. rewrite (He _ k Hi Hk). rewrite cscale_mul, <- turn1_mul. apply turn1_ext. intros k' Hk'. rewrite H by (unfold ix; lia). apply cscale_mul.
  - destruct (split3 np z Hz) as [i [k [Hi [Hk ->]]]]. apply (turn1_inj R Ho (fun k => CSum (np * 3) (fun y => cmul (M (ix i k) y) (e y))) (fun k => cscale lambda (e (ix i k)))); [|exact Hk]. intros l Hl. rewrite <- (carried_apply e e' He) by assumption.
    destruct (Hpm i Hi) as [Hi' _]. rewrite H by (unfold ix; lia). rewrite (He i l Hi Hl), cscale_mul, <- turn1_mul. apply turn1_ext. intros k' _. symmetry. apply cscale_mul.
Qed.
Lemma carried_norm : forall e e', carried e e' -> norm2 (np * 3) e' =c= norm2 (np * 3) e.
Proof.
  intros e e' He. unfold norm2. apply (slot_turn np R pm pm' (fun z => conj (e z)) (fun z => conj (e' z)) e e' Hnp Hpm Ho); [|exact He].
  intros i l Hi Hl. rewrite (He i l Hi Hl). unfold turn1. rewrite !CSum3. split; cbn [re im cscale cadd conj]; ring.
Qed.
Definition carry (e : Z -> cplx) (z : Z) : cplx := turn1 R (fun l' => e (ix (pm' (z / 3)) l')) (z mod 3).
Definition carry_back (e' : Z -> cplx) (z : Z) : cplx := turn1 (fun a b => R b a) (fun l' => e' (ix (pm (z / 3)) l')) (z mod 3).
Lemma ix_div : forall i l, 0 <= l < 3 -> ix i l / 3 = i. Proof. intros i l Hl. unfold ix. symmetry. apply (Z.div_unique_pos _ _ _ l); lia. Qed.
Lemma ix_mod : forall i l, 0 <= l < 3 -> ix i l mod 3 = l. Proof. intros i l Hl. unfold ix. symmetry. apply (Z.mod_unique_pos _ _ i l); lia. Qed.
Lemma carry_ok : forall e, carried e (carry e).
Proof. intros e i l Hi Hl. unfold carry. rewrite ix_div, ix_mod by exact Hl. destruct (Hpm i Hi) as [_ [_ [-> _]]]. reflexivity. Qed.
Lemma carry_back_ok : forall e', carried (carry_back e') e'.
Proof.
  intros e' i l Hi Hl. rewrite <- (turn1_back R Ho (fun l' => e' (ix (pm i) l')) l Hl). apply turn1_ext. intros l' Hl'. unfold carry_back. rewrite ix_div, ix_mod by exact Hl'. reflexivity.
Qed.
(** both matrices have the same eigenvalues *)
Theorem eigenvalues_same : forall lambda, (exists e, eigen (np * 3) M lambda e /\ norm2 (np * 3) e =c= c1) <-> (exists e', eigen (np * 3) M' lambda e' /\ norm2 (np * 3) e' =c= c1).
Proof.
  intros lambda. split.
  - intros [e [H N]]. exists (carry e). pose proof (carry_ok e) as Ca. split; [now apply (eigen_carried e)|]. rewrite (carried_norm _ _ Ca). exact N.
  - intros [e' [H N]]. exists (carry_back e'). pose proof (carry_back_ok e') as Ca. split; [now apply (eigen_carried _ e')|]. rewrite <- (carried_norm _ _ Ca). exact N.
Qed.
End E.
(** ** C88 *)
(** the non-analytical term of Wang et al. turns with Born charges and dielectric tensor *)
Variable rl : Z -> Z -> Q.
Variable born : Z -> Z -> Z -> Q.
Variable eps : Z -> Z -> Q.
Hypothesis Crt : cartesian W R rl.
Hypothesis Hborn : forall i k l, 0 <= i < np -> 0 <= k < 3 -> 0 <= l < 3 -> (born (pm i) k l == Rturn2 R (born i) k l)%Q.
Hypothesis Heps : forall k l, 0 <= k < 3 -> 0 <= l < 3 -> (eps k l == Rturn2 R eps k l)%Q.
Lemma quad_turn : forall (v v' : Z -> Q) (B B' : Z -> Z -> Q), (forall c, 0 <= c < 3 -> (v' c == R c 0%Z * v 0%Z + R c 1%Z * v 1%Z + R c 2%Z * v 2%Z)%Q) -> (forall k l, 0 <= k < 3 -> 0 <= l < 3 -> (B' k l == Rturn2 R B k l)%Q) ->
  forall l, 0 <= l < 3 -> (v' 0%Z * B' 0%Z l + v' 1%Z * B' 1%Z l + v' 2%Z * B' 2%Z l == R l 0%Z * (v 0%Z * B 0%Z 0%Z + v 1%Z * B 1%Z 0%Z + v 2%Z * B 2%Z 0%Z) + R l 1%Z * (v 0%Z * B 0%Z 1%Z + v 1%Z * B 1%Z 1%Z + v 2%Z * B 2%Z 1%Z) + R l 2%Z * (v 0%Z * B 0%Z 2%Z + v 1%Z * B 1%Z 2%Z + v 2%Z * B 2%Z 2%Z))%Q.
Proof.
  intros v v' B B' Hv HB l Hl. rewrite !Hv, !HB by lia. unfold Rturn2. rewrite !Sum3.
  pose proof (Ho 0 0 ltac:(lia) ltac:(lia)) as O00. pose proof (Ho 0 1 ltac:(lia) ltac:(lia)) as O01. pose proof (Ho 0 2 ltac:(lia) ltac:(lia)) as O02. pose proof (Ho 1 1 ltac:(lia) ltac:(lia)) as O11. pose proof (Ho 1 2 ltac:(lia) ltac:(lia)) as O12. pose proof (Ho 2 2 ltac:(lia) ltac:(lia)) as O22. cbn [Z.eqb Pos.eqb] in *.
  set (b := fun c => (R l 0%Z * B c 0%Z + (R l 1%Z * B c 1%Z) + (R l 2%Z * B c 2%Z))%Q).
  transitivity ((R 0%Z 0%Z * R 0%Z 0%Z + R 1%Z 0%Z * R 1%Z 0%Z + R 2%Z 0%Z * R 2%Z 0%Z) * (v 0%Z * b 0%Z) + (R 0%Z 1%Z * R 0%Z 1%Z + R 1%Z 1%Z * R 1%Z 1%Z + R 2%Z 1%Z * R 2%Z 1%Z) * (v 1%Z * b 1%Z) + (R 0%Z 2%Z * R 0%Z 2%Z + R 1%Z 2%Z * R 1%Z 2%Z + R 2%Z 2%Z * R 2%Z 2%Z) * (v 2%Z * b 2%Z)
    + (R 0%Z 0%Z * R 0%Z 1%Z + R 1%Z 0%Z * R 1%Z 1%Z + R 2%Z 0%Z * R 2%Z 1%Z) * (v 0%Z * b 1%Z + v 1%Z * b 0%Z) + (R 0%Z 0%Z * R 0%Z 2%Z + R 1%Z 0%Z * R 1%Z 2%Z + R 2%Z 0%Z * R 2%Z 2%Z) * (v 0%Z * b 2%Z + v 2%Z * b 0%Z) + (R 0%Z 1%Z * R 0%Z 2%Z + R 1%Z 1%Z * R 1%Z 2%Z + R 2%Z 1%Z * R 2%Z 2%Z) * (v 1%Z * b 2%Z + v 2%Z * b 1%Z))%Q.
  - unfold b. ring.
  - rewrite O00, O01, O02, O11, O12, O22. unfold b. ring.
Qed.
Lemma charge_turn : forall q q' dir dir' nac, turned_q W q q' -> turned_dir W dir dir' -> turned_charge (Some (charge_sum np ns q born eps rl dir nac)) (Some (charge_sum np ns q' born eps rl dir' nac)).
Proof.
  intros q q' dir dir' nac Hq Hd i j k l Hi Hj Hk Hl. unfold charge_sum. cbv zeta.
  set (v := match dir with Some d => to_cart rl d | None => to_cart rl q end). set (v' := match dir' with Some d => to_cart rl d | None => to_cart rl q' end).
  assert (Hv : forall c, 0 <= c < 3 -> (v' c == R c 0%Z * v 0%Z + R c 1%Z * v 1%Z + R c 2%Z * v 2%Z)%Q) by (destruct dir as [d|], dir' as [d'|]; cbn [turned_dir] in Hd; try contradiction; unfold v, v'; now apply Crt).
  unfold dym_charge_sum. cbv zeta. destruct (Hpm i Hi) as [Hi' _]. destruct (Hpm j Hj) as [Hj' _]. rewrite !quot_flat, !rem_flat by lia. rewrite !sum3_eq.
  rewrite (quad_turn v v' (born i) (born (pm i)) Hv) by (try exact Hk; intros; now apply Hborn). rewrite (quad_turn v v' (born j) (born (pm j)) Hv) by (try exact Hl; intros; now apply Hborn).
  assert (E : (eps 0%Z 0%Z * v' 0%Z * v' 0%Z + eps 0%Z 1%Z * v' 1%Z * v' 0%Z + eps 0%Z 2%Z * v' 2%Z * v' 0%Z + (eps 1%Z 0%Z * v' 0%Z * v' 1%Z + eps 1%Z 1%Z * v' 1%Z * v' 1%Z + eps 1%Z 2%Z * v' 2%Z * v' 1%Z) + (eps 2%Z 0%Z * v' 0%Z * v' 2%Z + eps 2%Z 1%Z * v' 1%Z * v' 2%Z + eps 2%Z 2%Z * v' 2%Z * v' 2%Z) ==
     eps 0%Z 0%Z * v 0%Z * v 0%Z + eps 0%Z 1%Z * v 1%Z * v 0%Z + eps 0%Z 2%Z * v 2%Z * v 0%Z + (eps 1%Z 0%Z * v 0%Z * v 1%Z + eps 1%Z 1%Z * v 1%Z * v 1%Z + eps 1%Z 2%Z * v 2%Z * v 1%Z) + (eps 2%Z 0%Z * v 0%Z * v 2%Z + eps 2%Z 1%Z * v 1%Z * v 2%Z + eps 2%Z 2%Z * v 2%Z * v 2%Z))%Q).
  { pose proof (quad_turn v v' eps eps Hv Heps) as Qt. pose proof (Qt 0 ltac:(lia)) as Q0. pose proof (Qt 1 ltac:(lia)) as Q1. pose proof (Qt 2 ltac:(lia)) as Q2. clear Qt.
    transitivity ((v' 0%Z * eps 0%Z 0%Z + v' 1%Z * eps 1%Z 0%Z + v' 2%Z * eps 2%Z 0%Z) * v' 0%Z + (v' 0%Z * eps 0%Z 1%Z + v' 1%Z * eps 1%Z 1%Z + v' 2%Z * eps 2%Z 1%Z) * v' 1%Z + (v' 0%Z * eps 0%Z 2%Z + v' 1%Z * eps 1%Z 2%Z + v' 2%Z * eps 2%Z 2%Z) * v' 2%Z)%Q; [ring|]. rewrite Q0, Q1, Q2. rewrite !Hv by lia.
    set (w0 := (v 0%Z * eps 0%Z 0%Z + v 1%Z * eps 1%Z 0%Z + v 2%Z * eps 2%Z 0%Z)%Q). set (w1 := (v 0%Z * eps 0%Z 1%Z + v 1%Z * eps 1%Z 1%Z + v 2%Z * eps 2%Z 1%Z)%Q). set (w2 := (v 0%Z * eps 0%Z 2%Z + v 1%Z * eps 1%Z 2%Z + v 2%Z * eps 2%Z 2%Z)%Q).
    pose proof (Ho 0 0 ltac:(lia) ltac:(lia)) as O00. pose proof (Ho 0 1 ltac:(lia) ltac:(lia)) as O01. pose proof (Ho 0 2 ltac:(lia) ltac:(lia)) as O02. pose proof (Ho 1 1 ltac:(lia) ltac:(lia)) as O11. pose proof (Ho 1 2 ltac:(lia) ltac:(lia)) as O12. pose proof (Ho 2 2 ltac:(lia) ltac:(lia)) as O22. cbn [Z.eqb Pos.eqb] in *.
    transitivity ((R 0%Z 0%Z * R 0%Z 0%Z + R 1%Z 0%Z * R 1%Z 0%Z + R 2%Z 0%Z * R 2%Z 0%Z) * (v 0%Z * w0) + (R 0%Z 1%Z * R 0%Z 1%Z + R 1%Z 1%Z * R 1%Z 1%Z + R 2%Z 1%Z * R 2%Z 1%Z) * (v 1%Z * w1) + (R 0%Z 2%Z * R 0%Z 2%Z + R 1%Z 2%Z * R 1%Z 2%Z + R 2%Z 2%Z * R 2%Z 2%Z) * (v 2%Z * w2)
    + (R 0%Z 0%Z * R 0%Z 1%Z + R 1%Z 0%Z * R 1%Z 1%Z + R 2%Z 0%Z * R 2%Z 1%Z) * (v 0%Z * w1 + v 1%Z * w0) + (R 0%Z 0%Z * R 0%Z 2%Z + R 1%Z 0%Z * R 1%Z 2%Z + R 2%Z 0%Z * R 2%Z 2%Z) * (v 0%Z * w2 + v 2%Z * w0) + (R 0%Z 1%Z * R 0%Z 2%Z + R 1%Z 1%Z * R 1%Z 2%Z + R 2%Z 1%Z * R 2%Z 2%Z) * (v 1%Z * w2 + v 2%Z * w1))%Q; [ring|].
    rewrite O00, O01, O02, O11, O12, O22. unfold w0, w1, w2. ring. }
  unfold Rturn2. rewrite !Sum3, !sum3_eq.
  set (a := ((eps 0%Z 0%Z * v 0%Z + eps 0%Z 1%Z * v 1%Z + eps 0%Z 2%Z * v 2%Z) * v 0%Z + (eps 1%Z 0%Z * v 0%Z + eps 1%Z 1%Z * v 1%Z + eps 1%Z 2%Z * v 2%Z) * v 1%Z + (eps 2%Z 0%Z * v 0%Z + eps 2%Z 1%Z * v 1%Z + eps 2%Z 2%Z * v 2%Z) * v 2%Z)%Q).
  set (a' := ((eps 0%Z 0%Z * v' 0%Z + eps 0%Z 1%Z * v' 1%Z + eps 0%Z 2%Z * v' 2%Z) * v' 0%Z + (eps 1%Z 0%Z * v' 0%Z + eps 1%Z 1%Z * v' 1%Z + eps 1%Z 2%Z * v' 2%Z) * v' 1%Z + (eps 2%Z 0%Z * v' 0%Z + eps 2%Z 1%Z * v' 1%Z + eps 2%Z 2%Z * v' 2%Z) * v' 2%Z)%Q).
  assert (Ea : (a' == a)%Q) by (unfold a, a'; transitivity (eps 0%Z 0%Z * v' 0%Z * v' 0%Z + eps 0%Z 1%Z * v' 1%Z * v' 0%Z + eps 0%Z 2%Z * v' 2%Z * v' 0%Z + (eps 1%Z 0%Z * v' 0%Z * v' 1%Z + eps 1%Z 1%Z * v' 1%Z * v' 1%Z + eps 1%Z 2%Z * v' 2%Z * v' 1%Z) + (eps 2%Z 0%Z * v' 0%Z * v' 2%Z + eps 2%Z 1%Z * v' 1%Z * v' 2%Z + eps 2%Z 2%Z * v' 2%Z * v' 2%Z))%Q; [ring|rewrite E; ring]).
  rewrite Ea. generalize (nac / a / inject_Z ns * inject_Z np)%Q. intros fct. ring.
Qed.
(** frequencies: the squared frequencies (eigenvalues) at q-points related by a symmetry operation are the same, with or without
    the non-analytical term of Wang et al., and eigenvectors are carried by the operation *)
Theorem C88_frequencies : forall is_nac q q' dir dir' nac D D', turned_q W q q' -> turned_dir W dir dir' ->
  let M := elem (np * 3) (wang_matrix cis sq np ns fc svecs multi mass s2p p2s is_nac q born eps rl dir nac D) in
  let M' := elem (np * 3) (wang_matrix cis sq np ns fc svecs multi mass s2p p2s is_nac q' born eps rl dir' nac D') in
  (forall lambda, (exists e, eigen (np * 3) M lambda e /\ norm2 (np * 3) e =c= c1) <-> (exists e', eigen (np * 3) M' lambda e' /\ norm2 (np * 3) e' =c= c1)) /\
  forall e e' lambda, carried e e' -> (eigen (np * 3) M lambda e <-> eigen (np * 3) M' lambda e').
Proof.
  intros is_nac q q' dir dir' nac D D' Hq Hd M M'.
  assert (HM : forall i j k l, 0 <= i < np -> 0 <= j < np -> 0 <= k < 3 -> 0 <= l < 3 -> M' (ix (pm i) k) (ix (pm j) l) =c= turn2 R (fun k' l' => M (ix i k') (ix j l')) k l).
  { intros. unfold M, M', wang_matrix. apply C88_matrix; try assumption. destruct is_nac; [now apply charge_turn|exact I]. }
  split; [intros lambda; now apply eigenvalues_same|intros e e' lambda Ca; now apply eigen_carried].
Qed.
(** ** with the dipole-dipole interaction of Gonze et al. *)
Variable ex : Q -> Q.
Hypothesis Hex : respects ex.
Hypothesis Period : forall a n, cis (a + inject_Z n)%Q =c= cis a.
Variable pos : Z -> Z -> Q.
Lemma diel_turn : forall v v' : Z -> Q, turned_vec R v v' -> (dielectric_part v' eps == dielectric_part v eps)%Q.
Proof.
  intros v v' Hv. pose proof (quad_turn v v' eps eps Hv Heps) as Qt. pose proof (Qt 0 ltac:(lia)) as Q0. pose proof (Qt 1 ltac:(lia)) as Q1. pose proof (Qt 2 ltac:(lia)) as Q2. clear Qt.
  assert (Ex : forall u : Z -> Q, (dielectric_part u eps == (u 0%Z * eps 0%Z 0%Z + u 1%Z * eps 1%Z 0%Z + u 2%Z * eps 2%Z 0%Z) * u 0%Z + (u 0%Z * eps 0%Z 1%Z + u 1%Z * eps 1%Z 1%Z + u 2%Z * eps 2%Z 1%Z) * u 1%Z + (u 0%Z * eps 0%Z 2%Z + u 1%Z * eps 1%Z 2%Z + u 2%Z * eps 2%Z 2%Z) * u 2%Z)%Q) by (intros u; unfold dielectric_part; change (zrange 3) with [0; 1; 2]; cbn [fold_left]; ring).
  rewrite !Ex, Q0, Q1, Q2. unfold turned_vec in Hv. rewrite !Hv by lia. exact (turned_dot R Ho (fun a => (v 0%Z * eps 0%Z a + v 1%Z * eps 1%Z a + v 2%Z * eps 2%Z a)%Q) v).
Qed.
Definition KK_of (K : Z -> Q) (d : option (Z -> Q)) (lambda tolr : Q) (m n : Z) : Q :=
  if qltb (sq (sum3 (fun i => (K i * K i)%Q))) tolr then match d with None => 0%Q | Some d => (d m * d n / dielectric_part d eps)%Q end
  else (K m * K n / dielectric_part K eps * ex (- dielectric_part K eps / (4 * lambda * lambda)))%Q.
Lemma KK_is : forall G q d lambda tolr m n, get_KK sq ex G q d eps lambda tolr m n = KK_of (fun i => (G i + q i)%Q) d lambda tolr m n.
Proof. reflexivity. Qed.
Definition dir_vec (d d' : option (Z -> Q)) : Prop := match d, d' with None, None => True | Some d, Some d' => turned_vec R d d' | _, _ => False end.
Lemma norm_turn : forall K K', turned_vec R K K' -> (sq (sum3 (fun i => K' i * K' i)) == sq (sum3 (fun i => K i * K i)))%Q.
Proof. intros K K' HK. apply Hsq. rewrite !sum3_eq. rewrite (HK 0 ltac:(lia)), (HK 1 ltac:(lia)), (HK 2 ltac:(lia)). apply (turned_dot R Ho K K). Qed.
Lemma scaled_turn : forall K K' y m n, turned_vec R K K' -> 0 <= m < 3 -> 0 <= n < 3 -> (K' m * K' n * y == Rturn2 R (fun a b => K a * K b * y) m n)%Q.
Proof. intros K K' y m n HK Hm Hn. rewrite (HK m Hm), (HK n Hn). unfold Rturn2. rewrite !Sum3. ring. Qed.
Lemma Rturn2_ext : forall f g m n, (forall a b, 0 <= a < 3 -> 0 <= b < 3 -> (f a b == g a b)%Q) -> (Rturn2 R f m n == Rturn2 R g m n)%Q.
Proof. intros f g m n H. unfold Rturn2. rewrite !Sum3. rewrite !H by lia. reflexivity. Qed.
Lemma KK_of_turn : forall K K' d d' lambda tolr m n, turned_vec R K K' -> dir_vec d d' -> 0 <= m < 3 -> 0 <= n < 3 ->
  (KK_of K' d' lambda tolr m n == Rturn2 R (KK_of K d lambda tolr) m n)%Q.
Proof.
  intros K K' d d' lambda tolr m n HK Hd Hm Hn.
  assert (B : qltb (sq (sum3 (fun i => (K' i * K' i)%Q))) tolr = qltb (sq (sum3 (fun i => (K i * K i)%Q))) tolr) by (unfold qltb; rewrite (norm_turn K K' HK); reflexivity).
  unfold KK_of. rewrite B. destruct (qltb (sq (sum3 (fun i => (K i * K i)%Q))) tolr).
  - destruct d as [d|], d' as [d'|]; cbn [dir_vec] in Hd; try contradiction; [|unfold Rturn2; rewrite !Sum3; ring]. unfold Qdiv. rewrite (diel_turn d d' Hd). now apply scaled_turn.
  - assert (E : (ex (- dielectric_part K' eps / (4 * lambda * lambda)) == ex (- dielectric_part K eps / (4 * lambda * lambda)))%Q) by (apply Hex; rewrite (diel_turn K K' HK); reflexivity).
    rewrite E. rewrite (diel_turn K K' HK). unfold Qdiv at 1. rewrite <- Qmult_assoc. rewrite (scaled_turn K K' _ m n HK Hm Hn). apply Rturn2_ext. intros a b _ _. apply Qmult_assoc.
Qed.
Lemma KK_turn : forall G G' q q' d d' lambda tolr m n, turned_vec R G G' -> turned_vec R q q' -> dir_vec d d' -> 0 <= m < 3 -> 0 <= n < 3 ->
  (get_KK sq ex G' q' d' eps lambda tolr m n == Rturn2 R (get_KK sq ex G q d eps lambda tolr) m n)%Q.
Proof.
  intros G G' q q' d d' lambda tolr m n HG Hq Hd Hm Hn. rewrite KK_is. rewrite (KK_of_turn (fun i => (G i + q i)%Q) _ d d') by (try assumption; intros c Hc; rewrite (HG c Hc), (Hq c Hc); ring).
  unfold Rturn2. rewrite !Sum3. rewrite !KK_is. reflexivity.
Qed.
Lemma Forall2_csum : forall (X : Type) (Rl : X -> X -> Prop) (f g : X -> cplx) l l', Forall2 Rl l l' -> (forall a b, In b l' -> Rl a b -> g b =c= f a) -> csum (map g l') =c= csum (map f l).
Proof. intros X Rl f g l l' Fa. induction Fa as [|a b l l' H Fa IH]; intros Hfg; [reflexivity|]. cbn [map]. rewrite !csum_cons, IH by (intros; apply Hfg; [now right|assumption]). rewrite (Hfg a b (or_introl eq_refl) H). reflexivity. Qed.
Lemma contract : forall (b : Z -> Q) (s : Z -> cplx), CSum 3 (fun n => cscale (R n 0%Z * b 0%Z + R n 1%Z * b 1%Z + R n 2%Z * b 2%Z) (turn1 R s n)) =c= cadd (cadd (cscale (b 0) (s 0)) (cscale (b 1) (s 1))) (cscale (b 2) (s 2)).
Proof.
  intros b s. unfold turn1. rewrite !CSum3. pose proof (turned_dot R Ho b (fun z => re (s z))) as T1. pose proof (turned_dot R Ho b (fun z => im (s z))) as T2.
  split; cbn [re im cscale cadd]; [rewrite <- T1|rewrite <- T2]; ring.
Qed.
Lemma born_turn : forall (B B' : Z -> Z -> Q) (S : Z -> Z -> cplx) k l,
  CSum 3 (fun m => CSum 3 (fun n => cscale (Rturn2 R B m k * Rturn2 R B' n l) (turn2 R S m n))) =c= turn2 R (fun k' l' => CSum 3 (fun m => CSum 3 (fun n => cscale (B m k' * B' n l') (S m n)))) k l.
Proof.
  intros B B' S k l.
  set (b := fun a => (R k 0%Z * B a 0%Z + R k 1%Z * B a 1%Z + R k 2%Z * B a 2%Z)%Q). set (b' := fun a => (R l 0%Z * B' a 0%Z + R l 1%Z * B' a 1%Z + R l 2%Z * B' a 2%Z)%Q).
  assert (Eb : forall m, (Rturn2 R B m k == R m 0%Z * b 0%Z + R m 1%Z * b 1%Z + R m 2%Z * b 2%Z)%Q) by (intros m; unfold Rturn2, b; rewrite !Sum3; ring).
  assert (Eb' : forall m, (Rturn2 R B' m l == R m 0%Z * b' 0%Z + R m 1%Z * b' 1%Z + R m 2%Z * b' 2%Z)%Q) by (intros m; unfold Rturn2, b'; rewrite !Sum3; ring).
  (* contract the first index, then the second *)
  assert (In1 : forall m, CSum 3 (fun n => cscale (Rturn2 R B m k * Rturn2 R B' n l) (turn2 R S m n)) =c= cscale (Rturn2 R B m k) (turn1 R (fun m' => cadd (cadd (cscale (b' 0) (S m' 0)) (cscale (b' 1) (S m' 1))) (cscale (b' 2) (S m' 2))) m)).
  { intros m. rewrite (CSum_ext _ _ (fun n => cmul (C (Rturn2 R B m k) 0) (cscale (R n 0%Z * b' 0%Z + R n 1%Z * b' 1%Z + R n 2%Z * b' 2%Z) (turn2 R S m n)))) by (intros n _; rewrite Eb'; split; cbn [re im cscale cmul]; ring).
    rewrite CSum_scale, cscale_mul. apply cmul_proper; [reflexivity|]. unfold turn2.
    pose proof (contract b' (fun n' => turn1 R (fun m' => S m' n') m)) as Ct. etransitivity; [|etransitivity; [exact Ct|]].
    - apply CSum_ext. intros n _. apply cscale_proper; [reflexivity|]. unfold turn1. rewrite !CSum3. split; cbn [re im cscale cadd]; ring.
    - unfold turn1. rewrite !CSum3. split; cbn [re im cscale cadd]; ring. }
  rewrite (CSum_ext _ _ (fun m => cscale (R m 0%Z * b 0%Z + R m 1%Z * b 1%Z + R m 2%Z * b 2%Z) (turn1 R (fun m' => cadd (cadd (cscale (b' 0) (S m' 0)) (cscale (b' 1) (S m' 1))) (cscale (b' 2) (S m' 2))) m))) by (intros m _; rewrite In1, Eb; reflexivity).
  rewrite contract. clear In1. unfold turn2, turn1. rewrite !CSum3. unfold b, b'. split; cbn [re im cscale cadd]; ring.
Qed.
Lemma dd_turn : forall Gs q q' d d' lambda tolr i j k l, turned_positions np R pm pos Gs -> turned_set R Gs -> turned_vec R q q' -> dir_vec d d' ->
  0 <= i < np -> 0 <= j < np -> 0 <= k < 3 -> 0 <= l < 3 ->
  dd_sum cis sq ex Gs q' d' eps born pos lambda tolr (pm i) k (pm j) l =c= turn2 R (fun k' l' => dd_sum cis sq ex Gs q d eps born pos lambda tolr i k' j l') k l.
Proof.
  intros Gs q q' d d' lambda tolr i j k l [t [L [HP HL]]] [Gs' [P Fa]] Hq Hd Hi Hj Hk Hl. unfold dd_sum.
  set (S := fun m n => csum (map (fun G => cscale (get_KK sq ex G q d eps lambda tolr m n) (cis (sum3 (fun x0 => ((pos i x0 - pos j x0) * G x0)%Q)))) Gs)).
  set (S' := fun m n => csum (map (fun G => cscale (get_KK sq ex G q' d' eps lambda tolr m n) (cis (sum3 (fun x0 => ((pos (pm i) x0 - pos (pm j) x0) * G x0)%Q)))) Gs)).
  assert (HS : forall m n, 0 <= m < 3 -> 0 <= n < 3 -> S' m n =c= turn2 R S m n).
  { intros m n Hm Hn. unfold S, S'. rewrite <- (csum_perm _ _ (Permutation_map _ P)).
    rewrite (turn2_csum _ (fun G m n => cscale (get_KK sq ex G q d eps lambda tolr m n) (cis (sum3 (fun x0 => ((pos i x0 - pos j x0) * G x0)%Q))))).
    apply (Forall2_csum _ (turned_vec R) _ _ _ _ Fa). intros G G' HG' HG. rewrite turn2_real. apply cscale_proper; [now apply KK_turn|].
    pose proof (Permutation_in _ P HG') as Gin. destruct (HL i G' Hi Gin) as [ni Ni]. destruct (HL j G' Hj Gin) as [nj Nj]. rewrite <- (Period (sum3 (fun x0 => ((pos i x0 - pos j x0) * G x0)%Q)) (ni - nj)). apply Hcis. unfold Z.sub. rewrite inject_Z_plus, inject_Z_opp, <- Ni, <- Nj. rewrite !sum3_eq. unfold vdot.
    set (u := fun c => (pos i c - pos j c)%Q).
    assert (Hu : turned_vec R u (fun c => pos (pm i) c - pos (pm j) c - (L i c - L j c))%Q).
    { intros c Hc. pose proof (HP i Hi c Hc) as P1. pose proof (HP j Hj c Hc) as P2. cbn beta in *. unfold u. transitivity ((pos (pm i) c - t c - L i c) - (pos (pm j) c - t c - L j c))%Q; [ring|]. rewrite P1, P2. ring. }
    pose proof (turned_dot R Ho u G) as TD. unfold turned_vec in HG, Hu. rewrite <- !HG, <- !Hu in TD by lia. transitivity ((u 0%Z * G 0%Z + u 1%Z * G 1%Z + u 2%Z * G 2%Z) + ((L i 0%Z - L j 0%Z) * G' 0%Z + (L i 1%Z - L j 1%Z) * G' 1%Z + (L i 2%Z - L j 2%Z) * G' 2%Z))%Q; [rewrite <- TD; ring|unfold u; ring]. }
  rewrite (CSum_ext _ _ (fun m => CSum 3 (fun n => cscale (Rturn2 R (born i) m k * Rturn2 R (born j) n l) (turn2 R S m n)))) by (intros m Hm; apply CSum_ext; intros n Hn; fold (S' m n); rewrite (HS m n Hm Hn); apply cscale_proper; [rewrite (Hborn i m k), (Hborn j n l) by assumption|]; reflexivity).
  change (turn2 R (fun k' l' => CSum 3 (fun m => CSum 3 (fun n => cscale (born i m k' * born j n l') (S m n)))) k l) with (turn2 R (fun k' l' => CSum 3 (fun m => CSum 3 (fun n => cscale (born i m k' * born j n l') (S m n)))) k l).
  apply born_turn.
Qed.
Lemma gonze_turn : forall q q' dir dir' nac Gs0 Gs lambda0 tol0 lambda tolr D D' i j k l, turned_q W q q' -> turned_dir W dir dir' -> turned_positions np R pm pos Gs0 -> turned_set R Gs0 -> turned_positions np R pm pos Gs -> turned_set R Gs ->
  0 <= i < np -> 0 <= j < np -> 0 <= k < 3 -> 0 <= l < 3 ->
  let q0 := recip_dd_q0 cis sq ex np Gs0 born eps pos lambda0 tol0 in
  elem (np * 3) (gonze_matrix cis sq ex np ns fc svecs multi mass s2p p2s q' born eps rl dir' nac q0 Gs pos lambda tolr D') (ix (pm i) k) (ix (pm j) l) =c=
  turn2 R (fun k' l' => elem (np * 3) (gonze_matrix cis sq ex np ns fc svecs multi mass s2p p2s q born eps rl dir nac q0 Gs pos lambda tolr D) (ix i k') (ix j l')) k l.
Proof.
  intros q q' dir dir' nac Gs0 Gs lambda0 tol0 lambda tolr D D' i j k l Hq Hd P0 T0 P1 T1 Hi Hj Hk Hl q0. destruct (Hpm i Hi) as [Hi' [_ [Ii _]]]. destruct (Hpm j Hj) as [Hj' [_ [Ij _]]].
  set (dv := match dir with Some d => Some (to_cart rl d) | None => None end). set (dv' := match dir' with Some d => Some (to_cart rl d) | None => None end).
  assert (HV : dir_vec dv dv') by (unfold dv, dv'; destruct dir, dir'; cbn [turned_dir] in Hd; try contradiction; cbn [dir_vec]; [intros c Hc; now apply Crt|exact I]).
  assert (HQ : turned_vec R (to_cart rl q) (to_cart rl q')) by (intros c Hc; now apply Crt).
  (* the subtracted term *)
  assert (Hsum : forall a b, 0 <= a < 3 -> 0 <= b < 3 -> q0_sum cis sq ex np Gs0 born eps pos lambda0 tol0 (pm i) a b =c= turn2 R (fun a' b' => q0_sum cis sq ex np Gs0 born eps pos lambda0 tol0 i a' b') a b).
  { intros a b Ha Hb. unfold q0_sum. unfold CSum at 2. rewrite (turn2_csum _ (fun y a' b' => dd_sum cis sq ex Gs0 (fun _ => 0%Q) None eps born pos lambda0 tol0 i a' y b')).
    fold (CSum np (fun y => turn2 R (fun a' b' => dd_sum cis sq ex Gs0 (fun _ => 0%Q) None eps born pos lambda0 tol0 i a' y b') a b)).
    rewrite (CSum_bij np pm pm' _ Hpm). apply CSum_ext. intros y Hy. apply dd_turn; try assumption; [|exact I]. intros c Hc. ring. }
  assert (H0 : forall a b, 0 <= a < 3 -> 0 <= b < 3 -> q0 (pm i * 9 + a * 3 + b) =c= turn2 R (fun a' b' => q0 (i * 9 + a' * 3 + b')) a b).
  { intros a b Ha Hb. unfold q0. rewrite q0_value by assumption. rewrite (turn2_ext _ (fun a' b' => cmul (C (1 # 2) 0) (cadd (q0_sum cis sq ex np Gs0 born eps pos lambda0 tol0 i a' b') (conj (q0_sum cis sq ex np Gs0 born eps pos lambda0 tol0 i b' a'))))) by (intros; rewrite q0_value by assumption; unfold half; apply cscale_mul).
    rewrite turn2_mul, turn2_add, (turn2_conj (fun a' b' => q0_sum cis sq ex np Gs0 born eps pos lambda0 tol0 i a' b')). unfold half. rewrite cscale_mul, (Hsum a b Ha Hb), (Hsum b a Hb Ha). reflexivity. }
  rewrite (turn2_ext _ (fun k' l' => cadd (cmul (C (1 # 2) 0) (cadd (lsum None q i k' j l') (conj (lsum None q j l' i k'))))
    (cmul (C (/ sq (mass i * mass j) * nac) 0) (cadd (dd_sum cis sq ex Gs (to_cart rl q) dv eps born pos lambda tolr i k' j l') (cmul (C (if i =? j then -(1) else 0)%Q 0) (q0 (i * 9 + k' * 3 + l')))))))
    by (intros k' l' Hk' Hl'; rewrite elem_adr, gonze_value by (assumption || lia); unfold half; fold dv; destruct (i =? j); split; cbn [re im cadd cmul csub cscale copp conj c0]; ring).
  rewrite turn2_add, !turn2_mul, !turn2_add, turn2_mul, (turn2_conj (fun l' k' => lsum None q j l' i k')).
  rewrite <- (lsum_turn None None q q' i j k l), <- (lsum_turn None None q q' j i l k) by (assumption || exact I).
  rewrite <- (dd_turn Gs (to_cart rl q) (to_cart rl q') dv dv' lambda tolr i j k l) by assumption. rewrite <- (H0 k l Hk Hl).
  rewrite elem_adr, gonze_value by assumption. fold dv'. unfold half.
  assert (EqB : (pm i =? pm j) = (i =? j)) by (destruct (Z.eqb_spec i j) as [->|Hne]; [apply Z.eqb_refl|apply Z.eqb_neq; intros E; apply Hne; rewrite <- Ii, <- Ij; now f_equal]). rewrite EqB.
  assert (Em : (/ sq (mass (pm i) * mass (pm j)) == / sq (mass i * mass j))%Q) by (apply Qinv_comp, Hsq; rewrite !Mass by assumption; reflexivity).
  destruct (i =? j); split; cbn [re im cadd cmul csub cscale copp conj c0]; rewrite ?Em; ring.
Qed.
Theorem C88_gonze : forall q q' dir dir' nac Gs0 Gs lambda0 tol0 lambda tolr D D', turned_q W q q' -> turned_dir W dir dir' -> turned_positions np R pm pos Gs0 -> turned_set R Gs0 -> turned_positions np R pm pos Gs -> turned_set R Gs ->
  let q0 := recip_dd_q0 cis sq ex np Gs0 born eps pos lambda0 tol0 in
  let M := elem (np * 3) (gonze_matrix cis sq ex np ns fc svecs multi mass s2p p2s q born eps rl dir nac q0 Gs pos lambda tolr D) in
  let M' := elem (np * 3) (gonze_matrix cis sq ex np ns fc svecs multi mass s2p p2s q' born eps rl dir' nac q0 Gs pos lambda tolr D') in
  (forall lambda, (exists e, eigen (np * 3) M lambda e /\ norm2 (np * 3) e =c= c1) <-> (exists e', eigen (np * 3) M' lambda e' /\ norm2 (np * 3) e' =c= c1)) /\
  forall e e' lambda, carried e e' -> (eigen (np * 3) M lambda e <-> eigen (np * 3) M' lambda e').
Proof.
  intros q q' dir dir' nac Gs0 Gs lambda0 tol0 lambda tolr D D' Hq Hd P0 T0 P1 T1 q0 M M'.
  assert (HM : forall i j k l, 0 <= i < np -> 0 <= j < np -> 0 <= k < 3 -> 0 <= l < 3 -> M' (ix (pm i) k) (ix (pm j) l) =c= turn2 R (fun k' l' => M (ix i k') (ix j l')) k l) by (intros; unfold M, M', q0; now apply gonze_turn).
  split; [intros mu; now apply eigenvalues_same|intros e e' mu Ca; now apply eigen_carried].
Qed.
End D.
