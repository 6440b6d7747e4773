(** fc3 in reciprocal space: C80-C86 *)
From Coq Require Import ZArith QArith List Bool Lia Lqa Setoid.
From Verif Require Import Base BaseProofs QMat Par Par2 IseSpec IseProofs Cplx DynModel DynProofs DynProps R2nProps Fc3Spec R2rModel R2rProofs R2rShort.
Import ListNotations.
Open Scope Z_scope.

(** ** Specification *)
(** lattice sum seen from the first atom only *)
Definition one3 (_ _ _ : Z) : Q := 1%Q.
Definition from_first (cis : Q -> cplx) (np ns : Z) svecs multi p2s s2p (Phi : Z -> Z -> Z -> Z -> Z -> Z -> Q) (q : Z -> Z -> Q) (i j k l m n : Z) : cplx :=
  cmul (lattice3 cis np ns svecs multi p2s s2p (fun i s t => Phi i s t l m n) one3 (q 1) (q 2) i j k) (origin_phase cis np svecs multi p2s q i).
(** element (i, l), (j, m), (k, n) of an array of shape (np, 3, np, 3, np, 3) *)
Definition rec_at (np : Z) (M : Z -> cplx) (i l j m k n : Z) : cplx := cube_of (np * 3) M (ix i l) (ix j m) (ix k n).
Definition in6 (np i j k l m n : Z) : Prop := 0 <= i < np /\ 0 <= j < np /\ 0 <= k < np /\ 0 <= l < 3 /\ 0 <= m < 3 /\ 0 <= n < 3.
Definition proper_cis (cis : Q -> cplx) : Prop := forall x y, (x == y)%Q -> cis x =c= cis y.

Lemma rec_at_adr : forall np M i l j m k n, rec_at np M i l j m k n = M (rec_adr np i l j m k n).
Proof. intros. unfold rec_at, cube_of, ix. f_equal. rewrite rec_adr_flat. reflexivity. Qed.
Lemma strength_rec : forall isq np cutoff M M' f0 f1 f2 e0 e1 e2 a b c, (forall i j k l m n, in6 np i j k l m n -> rec_at np M i l j m k n =c= rec_at np M' i l j m k n) ->
  (strength isq (np * 3) cutoff (cube_of (np * 3) M) f0 f1 f2 e0 e1 e2 a b c == strength isq (np * 3) cutoff (cube_of (np * 3) M') f0 f1 f2 e0 e1 e2 a b c)%Q.
Proof.
  intros isq np cutoff M M' f0 f1 f2 e0 e1 e2 a b c H. unfold strength. destruct (_ && _); [|reflexivity]. unfold Qdiv. apply Qmult_comp; [|reflexivity]. apply cnorm2_proper. apply amplitude_ext; try reflexivity.
  intros i j k Hi Hj Hk. destruct (split3 np i Hi) as [i' [l [Hi' [Hl ->]]]]. destruct (split3 np j Hj) as [j' [m [Hj' [Hm ->]]]]. destruct (split3 np k Hk) as [k' [n [Hk' [Hn ->]]]]. apply H. repeat split; lia.
Qed.

Section P.
Variable cis : Q -> cplx.
Variable np ns : Z.
Variable svecs : Z -> Z -> Q.
Variable multi : Z -> Z * Z.
Variable p2s s2p : Z -> Z.
Hypothesis Hcis : proper_cis cis.
Local Notation avg := (avg_phase cis np svecs multi).
Local Notation lat := (lattice3 cis np ns svecs multi p2s s2p).
Local Notation pre := (origin_phase cis np svecs multi p2s).
Local Notation run fc3 comp sh := (real_to_reciprocal cis np ns fc3 svecs multi p2s s2p comp sh).
Local Notation first := (from_first cis np ns svecs multi p2s s2p).
Local Notation average := (r0_average cis np ns svecs multi p2s s2p).

(** ** C80 *)
Theorem C80_legacy : forall fc3 comp sh q M M', run fc3 comp sh false q M M' ->
  forall i j k l m n, in6 np i j k l m n -> rec_at np M' i l j m k n =c= first (fc3_at ns p2s comp fc3) q i j k l m n.
Proof. intros fc3 comp sh q M M' R i j k l m n [Hi [Hj [Hk [Hl [Hm Hn]]]]]. rewrite rec_at_adr. exact (legacy_value cis np ns fc3 svecs multi p2s s2p comp sh Hcis ltac:(lia) q M M' R i j k l m n Hi Hj Hk Hl Hm Hn). Qed.
Theorem C80_average : forall fc3 comp q M M', run fc3 comp (fun _ => false) true q M M' ->
  forall i j k l m n, in6 np i j k l m n -> rec_at np M' i l j m k n =c= average (fc3_at ns p2s comp fc3) q i j k l m n.
Proof.
  intros fc3 comp q M M' R i j k l m n [Hi [Hj [Hk [Hl [Hm Hn]]]]]. rewrite rec_at_adr. rewrite (average_value cis np ns fc3 svecs multi p2s s2p comp (fun _ => false) Hcis ltac:(lia) q M M' R i j k l m n Hi Hj Hk Hl Hm Hn).
  unfold r0_average. cbv zeta. apply cscale_proper; [reflexivity|]. unfold leg_weight. cbn [Z.ltb Z.eqb Z.compare andb Pos.eqb Pos.compare Pos.compare_cont]. reflexivity.
Qed.
(** compact force constants hold the rows of the primitive atoms *)
Lemma lat_ext : forall P P' w qa qb i j k, (forall s t, 0 <= s < ns -> 0 <= t < ns -> (P i s t == P' i s t)%Q) -> lat P w qa qb i j k =c= lat P' w qa qb i j k.
Proof. intros P P' w qa qb i j k H. unfold lattice3. apply CSum_ext. intros s Hs. destruct (_ =? _); [|reflexivity]. apply CSum_ext. intros t Ht. destruct (_ =? _); [|reflexivity]. rewrite (H s t Hs Ht). reflexivity. Qed.
Theorem C80_compact : forall full compact sh avg_on q M M' M1 M1',
  (forall i s t r, 0 <= i < np -> 0 <= s < ns -> 0 <= t < ns -> 0 <= r < 27 -> (compact (((i * ns + s) * ns + t) * 27 + r)%Z == full (((p2s i * ns + s) * ns + t) * 27 + r)%Z)%Q) ->
  run full false sh avg_on q M M' -> run compact true sh avg_on q M1 M1' ->
  forall i j k l m n, in6 np i j k l m n -> rec_at np M1' i l j m k n =c= rec_at np M' i l j m k n.
Proof.
  intros full compact sh avg_on q M M' M1 M1' H R R1 i j k l m n [Hi [Hj [Hk [Hl [Hm Hn]]]]]. rewrite !rec_at_adr.
  assert (E : forall i s t l m n, 0 <= i < np -> 0 <= s < ns -> 0 <= t < ns -> 0 <= l < 3 -> 0 <= m < 3 -> 0 <= n < 3 -> (fc3_at ns p2s true compact i s t l m n == fc3_at ns p2s false full i s t l m n)%Q) by (intros; apply H; lia).
  destruct avg_on.
  - rewrite (average_value cis np ns compact svecs multi p2s s2p true sh Hcis ltac:(lia) q M1 M1' R1 i j k l m n), (average_value cis np ns full svecs multi p2s s2p false sh Hcis ltac:(lia) q M M' R i j k l m n) by assumption.
    apply cscale_proper; [reflexivity|]. repeat apply cadd_proper; (apply cmul_proper; [apply lat_ext; intros; apply E; assumption|reflexivity]).
  - rewrite (legacy_value cis np ns compact svecs multi p2s s2p true sh Hcis ltac:(lia) q M1 M1' R1 i j k l m n), (legacy_value cis np ns full svecs multi p2s s2p false sh Hcis ltac:(lia) q M M' R i j k l m n) by assumption.
    apply cmul_proper; [apply lat_ext; intros; apply E; assumption|reflexivity].
Qed.

(** ** C81 *)
(** all phases of a table get the same factor *)
Lemma lat_factor : forall P w qa qb qa' qb' i j k ca cb, (forall s, 0 <= s < ns -> s2p s = p2s j -> avg qa' i s =c= cmul ca (avg qa i s)) -> (forall s, 0 <= s < ns -> s2p s = p2s k -> avg qb' i s =c= cmul cb (avg qb i s)) ->
  lat P w qa' qb' i j k =c= cmul (cmul ca cb) (lat P w qa qb i j k).
Proof.
  intros P w qa qb qa' qb' i j k ca cb H1 H2. unfold lattice3. rewrite <- CSum_scale. apply CSum_ext. intros s Hs. destruct (Z.eqb_spec (s2p s) (p2s j)) as [E|_]; [|ring]. rewrite <- CSum_scale. apply CSum_ext. intros t Ht. destruct (Z.eqb_spec (s2p t) (p2s k)) as [E'|_]; [|ring].
  rewrite (H1 s Hs E), (H2 t Ht E'). split; cbn; ring.
Qed.
Section Shift.
Variable A : Q -> Prop.
Variable q q' : Z -> Z -> Q.
(** reciprocal lattice vectors and positions of the atoms of the primitive cell *)
Variable g : Z -> Z -> Z.
Variable x : Z -> Z -> Q.
Hypothesis T : turns A cis.
Hypothesis Hq : forall a c, 0 <= a < 3 -> 0 <= c < 3 -> (q' a c == q a c + inject_Z (g a c))%Q.
Hypothesis HS : forall a p s j b, 0 <= a < 3 -> 0 <= p < np -> 0 <= s < ns -> 0 <= j < np -> s2p s = p2s j -> 0 <= b < tab_mult np multi p s ->
  A (vdot (q a) (tab_vec np svecs multi p s b)) /\ exists n : Z -> Z, forall c, 0 <= c < 3 -> (tab_vec np svecs multi p s b c == x j c - x p c + inject_Z (n c))%Q.
Definition lift (g : Z -> Z) (c : Z) : Q := inject_Z (g c).
Definition from_to (x : Z -> Z -> Q) (i j c : Z) : Q := (x j c - x i c)%Q.
Hypothesis HA : forall a i j, 0 <= a < 3 -> 0 <= i < np -> 0 <= j < np -> A (vdot (lift (g a)) (from_to x i j)).
Hypothesis Hprim : forall i, 0 <= i < np -> 0 <= p2s i < ns /\ s2p (p2s i) = p2s i /\ 0 < tab_mult np multi 0 (p2s i).
Local Notation E a i j := (cis (vdot (lift (g a)) (from_to x i j))).

Lemma shift_phase : forall a p s j b, 0 <= a < 3 -> 0 <= p < np -> 0 <= s < ns -> 0 <= j < np -> s2p s = p2s j -> 0 <= b < tab_mult np multi p s ->
  A (vdot (q' a) (tab_vec np svecs multi p s b)) /\ cis (vdot (q' a) (tab_vec np svecs multi p s b)) =c= cmul (E a p j) (cis (vdot (q a) (tab_vec np svecs multi p s b))).
Proof.
  intros a p s j b Ha Hp Hs Hj Es Hb. destruct (HS a p s j b Ha Hp Hs Hj Es Hb) as [Aq [n Hn]]. set (v := tab_vec _ _ _ _ _ _) in *. destruct T as [T1 [T2 T3]]. set (N := g a 0 * n 0 + g a 1 * n 1 + g a 2 * n 2). destruct (T3 N) as [AN CN].
  pose proof (HA a p j Ha Hp Hj) as Ath. destruct (T2 _ _ Ath AN) as [A1 C1]. destruct (T2 _ _ A1 Aq) as [A2 C2].
  assert (X : (vdot (lift (g a)) (from_to x p j) + inject_Z N + vdot (q a) v == vdot (q' a) v)%Q).
  { unfold vdot, lift, from_to, N. rewrite (Hq a 0 Ha), (Hq a 1 Ha), (Hq a 2 Ha) by lia. rewrite !inject_Z_plus, !inject_Z_mult, !Hn by lia. ring. }
  destruct (T1 _ _ X A2) as [A3 C3]. split; [exact A3|]. rewrite <- C3, C2, C1, CN. ring.
Qed.
Lemma shift_avg : forall a p s j, 0 <= a < 3 -> 0 <= p < np -> 0 <= s < ns -> 0 <= j < np -> s2p s = p2s j -> avg (q' a) p s =c= cmul (E a p j) (avg (q a) p s).
Proof.
  intros a p s j Ha Hp Hs Hj Es. unfold avg_phase. set (mu := tab_mult np multi p s).
  transitivity (cscale (/ inject_Z mu) (cmul (E a p j) (CSum mu (fun b => cis (vdot (q a) (tab_vec np svecs multi p s b)))))); [|split; cbn; ring]. apply cscale_proper; [reflexivity|]. rewrite <- CSum_scale. apply CSum_ext. intros b Hb. now apply shift_phase.
Qed.
Lemma E_add : forall a i j k, 0 <= a < 3 -> 0 <= i < np -> 0 <= j < np -> 0 <= k < np -> E a i k =c= cmul (E a i j) (E a j k).
Proof.
  intros a i j k Ha Hi Hj Hk. destruct T as [T1 [T2 T3]]. destruct (T2 _ _ (HA a i j Ha Hi Hj) (HA a j k Ha Hj Hk)) as [A1 C1]. rewrite <- C1. apply Hcis. unfold vdot, lift, from_to. ring.
Qed.
Lemma shift_pre : forall i, 0 <= i < np -> pre q' i =c= cmul (cmul (cmul (E 0 0 i) (E 1 0 i)) (E 2 0 i)) (pre q i).
Proof.
  intros i Hi. destruct (Hprim i Hi) as [Hp [Ep Hm]]. unfold origin_phase. set (v := tab_vec np svecs multi 0 (p2s i) 0).
  destruct (shift_phase 0 0 (p2s i) i 0 ltac:(lia) ltac:(lia) Hp Hi Ep ltac:(lia)) as [B0 C0]. destruct (shift_phase 1 0 (p2s i) i 0 ltac:(lia) ltac:(lia) Hp Hi Ep ltac:(lia)) as [B1 C1]. destruct (shift_phase 2 0 (p2s i) i 0 ltac:(lia) ltac:(lia) Hp Hi Ep ltac:(lia)) as [B2 C2]. fold v in B0, C0, B1, C1, B2, C2.
  destruct (HS 0 0 (p2s i) i 0 ltac:(lia) ltac:(lia) Hp Hi Ep ltac:(lia)) as [D0 _]. destruct (HS 1 0 (p2s i) i 0 ltac:(lia) ltac:(lia) Hp Hi Ep ltac:(lia)) as [D1 _]. destruct (HS 2 0 (p2s i) i 0 ltac:(lia) ltac:(lia) Hp Hi Ep ltac:(lia)) as [D2 _]. fold v in D0, D1, D2.
  destruct T as [T1 [T2 T3]]. destruct (T2 _ _ B0 B1) as [B01 C01]. destruct (T2 _ _ B01 B2) as [_ C012]. destruct (T2 _ _ D0 D1) as [D01 F01]. destruct (T2 _ _ D01 D2) as [_ F012].
  transitivity (cis (vdot (q' 0) v + vdot (q' 1) v + vdot (q' 2) v)%Q); [apply Hcis; unfold vdot; ring|]. rewrite C012, C01, C0, C1, C2.
  transitivity (cmul (cmul (cmul (E 0 0 i) (E 1 0 i)) (E 2 0 i)) (cis (vdot (q 0) v + vdot (q 1) v + vdot (q 2) v)%Q)); [rewrite F012, F01; ring|]. apply cmul_proper; [reflexivity|]. apply Hcis. unfold vdot. ring.
Qed.
Theorem C81_shift : forall fc3 comp sh r0 M M' M1 M1', run fc3 comp sh r0 q M M' -> run fc3 comp sh r0 q' M1 M1' ->
  forall i j k l m n, in6 np i j k l m n -> rec_at np M1' i l j m k n =c= cmul (cmul (cmul (E 0 0 i) (E 1 0 j)) (E 2 0 k)) (rec_at np M' i l j m k n).
Proof.
  intros fc3 comp sh r0 M M' M1 M1' R R1 i j k l m n [Hi [Hj [Hk [Hl [Hm Hn]]]]]. rewrite !rec_at_adr.
  assert (L1 : forall P w, cmul (lat P w (q' 1) (q' 2) i j k) (pre q' i) =c= cmul (cmul (cmul (E 0 0 i) (E 1 0 j)) (E 2 0 k)) (cmul (lat P w (q 1) (q 2) i j k) (pre q i))).
  { intros P w. rewrite (lat_factor P w (q 1) (q 2) (q' 1) (q' 2) i j k (E 1 i j) (E 2 i k)) by (intros; apply shift_avg; auto; lia). rewrite shift_pre by assumption. rewrite (E_add 1 0 i j), (E_add 2 0 i k) by lia. ring. }
  assert (L2 : forall P w, cmul (lat P w (q' 0) (q' 2) j i k) (pre q' j) =c= cmul (cmul (cmul (E 0 0 i) (E 1 0 j)) (E 2 0 k)) (cmul (lat P w (q 0) (q 2) j i k) (pre q j))).
  { intros P w. rewrite (lat_factor P w (q 0) (q 2) (q' 0) (q' 2) j i k (E 0 j i) (E 2 j k)) by (intros; apply shift_avg; auto; lia). rewrite shift_pre by assumption. rewrite (E_add 0 0 j i), (E_add 2 0 j k) by lia. ring. }
  assert (L3 : forall P w, cmul (lat P w (q' 1) (q' 0) k j i) (pre q' k) =c= cmul (cmul (cmul (E 0 0 i) (E 1 0 j)) (E 2 0 k)) (cmul (lat P w (q 1) (q 0) k j i) (pre q k))).
  { intros P w. rewrite (lat_factor P w (q 1) (q 0) (q' 1) (q' 0) k j i (E 1 k j) (E 0 k i)) by (intros; apply shift_avg; auto; lia). rewrite shift_pre by assumption. rewrite (E_add 1 0 k j), (E_add 0 0 k i) by lia. ring. }
  destruct r0.
  - rewrite (average_value cis np ns fc3 svecs multi p2s s2p comp sh Hcis ltac:(lia) q' M1 M1' R1 i j k l m n), (average_value cis np ns fc3 svecs multi p2s s2p comp sh Hcis ltac:(lia) q M M' R i j k l m n) by assumption.
    rewrite L1, L2, L3. split; cbn; ring.
  - rewrite (legacy_value cis np ns fc3 svecs multi p2s s2p comp sh Hcis ltac:(lia) q' M1 M1' R1 i j k l m n), (legacy_value cis np ns fc3 svecs multi p2s s2p comp sh Hcis ltac:(lia) q M M' R i j k l m n) by assumption. apply L1.
Qed.
(** with the eigenvectors of the shifted wave vectors the strengths are the same *)
Theorem C81_strength : forall fc3 comp sh r0 M M' M1 M1' isq cutoff f0 f1 f2 e0 e1 e2 e0' e1' e2' a b c, even_odd cis -> run fc3 comp sh r0 q M M' -> run fc3 comp sh r0 q' M1 M1' ->
  (forall i l z, 0 <= i < np -> 0 <= l < 3 -> e0' (ix i l) z =c= cmul (conj (E 0 0 i)) (e0 (ix i l) z)) ->
  (forall i l z, 0 <= i < np -> 0 <= l < 3 -> e1' (ix i l) z =c= cmul (conj (E 1 0 i)) (e1 (ix i l) z)) ->
  (forall i l z, 0 <= i < np -> 0 <= l < 3 -> e2' (ix i l) z =c= cmul (conj (E 2 0 i)) (e2 (ix i l) z)) ->
  (strength isq (np * 3) cutoff (cube_of (np * 3) M1') f0 f1 f2 e0' e1' e2' a b c == strength isq (np * 3) cutoff (cube_of (np * 3) M') f0 f1 f2 e0 e1 e2 a b c)%Q.
Proof.
  intros fc3 comp sh r0 M M' M1 M1' isq cutoff f0 f1 f2 e0 e1 e2 e0' e1' e2' a b c [EO1 EO2] R R1 He0 He1 He2. unfold strength. destruct (_ && _); [|reflexivity]. unfold Qdiv. apply Qmult_comp; [|reflexivity]. apply cnorm2_proper. unfold amplitude.
  assert (U : forall d i, 0 <= d < 3 -> 0 <= i < np -> cmul (conj (E d 0 i)) (E d 0 i) =c= c1).
  { intros d i Hd Hi. destruct T as [T1 [T2 T3]]. rewrite <- EO2. assert (Y : (vdot (lift (g d)) (from_to x i 0) == - vdot (lift (g d)) (from_to x 0 i))%Q) by (unfold vdot, lift, from_to; ring).
    destruct (T1 _ _ Y (HA d i 0 Hd Hi ltac:(lia))) as [A1 _]. destruct (T2 _ _ A1 (HA d 0 i Hd ltac:(lia) Hi)) as [_ C2]. rewrite <- C2. rewrite <- (proj2 (T3 0)). apply Hcis. change (inject_Z 0) with 0%Q. ring. }
  apply CSum_ext. intros i Hi. apply CSum_ext. intros j Hj. apply CSum_ext. intros k Hk. destruct (split3 np i Hi) as [i' [l [Hi' [Hl ->]]]]. destruct (split3 np j Hj) as [j' [m [Hj' [Hm ->]]]]. destruct (split3 np k Hk) as [k' [n [Hk' [Hn ->]]]].
  change (cube_of (np * 3) M1' (ix i' l) (ix j' m) (ix k' n)) with (rec_at np M1' i' l j' m k' n). rewrite (C81_shift fc3 comp sh r0 M M' M1 M1' R R1) by (repeat split; lia). change (rec_at np M' i' l j' m k' n) with (cube_of (np * 3) M' (ix i' l) (ix j' m) (ix k' n)).
  unfold mode. rewrite !cscale_mul, He0, He1, He2 by assumption. pose proof (U 0 i' ltac:(lia) Hi') as U0. pose proof (U 1 j' ltac:(lia) Hj') as U1. pose proof (U 2 k' ltac:(lia) Hk') as U2. revert U0 U1 U2.
  generalize (E 0 0 i') (E 1 0 j') (E 2 0 k'). intros z0 z1 z2 U0 U1 U2. generalize (conj z0) (conj z1) (conj z2) U0 U1 U2. intros y0 y1 y2 V0 V1 V2. clear - V0 V1 V2.
  match goal with |- cmul (cmul (cmul (cmul ?m0 (cmul y0 ?s0)) (cmul ?m1 (cmul y1 ?s1))) (cmul ?m2 (cmul y2 ?s2))) (cmul _ ?p) =c= _ =>
    transitivity (cmul (cmul (cmul (cmul y0 z0) (cmul y1 z1)) (cmul y2 z2)) (cmul (cmul (cmul (cmul m0 s0) (cmul m1 s1)) (cmul m2 s2)) p)); [ring|] end. rewrite V0, V1, V2. ring.
Qed.
End Shift.

(** ** C86 *)
Lemma avg_neg : forall qa qb p s, even_odd cis -> (forall c, 0 <= c < 3 -> (qa c == - qb c)%Q) -> avg qa p s =c= conj (avg qb p s).
Proof.
  intros qa qb p s [E1 E2] H. unfold avg_phase. rewrite conj_cscale. apply cscale_proper; [reflexivity|]. rewrite CSum_conj. apply CSum_ext. intros b _. rewrite <- E2. apply E1. unfold vdot. rewrite (H 0), (H 1), (H 2) by lia. ring.
Qed.
Lemma lat_neg : forall P w qa qb qa' qb' i j k, even_odd cis -> (forall c, 0 <= c < 3 -> (qa' c == - qa c)%Q) -> (forall c, 0 <= c < 3 -> (qb' c == - qb c)%Q) -> lat P w qa' qb' i j k =c= conj (lat P w qa qb i j k).
Proof.
  intros P w qa qb qa' qb' i j k E H1 H2. unfold lattice3. rewrite CSum_conj. apply CSum_ext. intros s Hs. destruct (_ =? _); [|split; cbn; ring]. rewrite CSum_conj. apply CSum_ext. intros t Ht. destruct (_ =? _); [|split; cbn; ring].
  rewrite (avg_neg qa' qa), (avg_neg qb' qb) by assumption. split; cbn; ring.
Qed.
Theorem C86_reverse : forall fc3 comp sh r0 q q' M M' M1 M1', even_odd cis -> (forall a c, 0 <= a < 3 -> 0 <= c < 3 -> (q' a c == - q a c)%Q) -> run fc3 comp sh r0 q M M' -> run fc3 comp sh r0 q' M1 M1' ->
  forall i j k l m n, in6 np i j k l m n -> rec_at np M1' i l j m k n =c= conj (rec_at np M' i l j m k n).
Proof.
  intros fc3 comp sh r0 q q' M M' M1 M1' E Hq R R1 i j k l m n [Hi [Hj [Hk [Hl [Hm Hn]]]]]. rewrite !rec_at_adr.
  assert (Pr : forall i, pre q' i =c= conj (pre q i)). { intros z. unfold origin_phase. rewrite <- (proj2 E). apply (proj1 E). unfold vdot. rewrite !Hq by lia. ring. }
  destruct r0.
  - rewrite (average_value cis np ns fc3 svecs multi p2s s2p comp sh Hcis ltac:(lia) q' M1 M1' R1 i j k l m n), (average_value cis np ns fc3 svecs multi p2s s2p comp sh Hcis ltac:(lia) q M M' R i j k l m n) by assumption.
    rewrite (lat_neg _ _ (q 1) (q 2) (q' 1) (q' 2)), (lat_neg _ _ (q 0) (q 2) (q' 0) (q' 2)), (lat_neg _ _ (q 1) (q 0) (q' 1) (q' 0)) by (auto; intros; apply Hq; lia). rewrite !Pr, conj_cscale. apply cscale_proper; [reflexivity|]. rewrite !conj_add, !conj_mul. reflexivity.
  - rewrite (legacy_value cis np ns fc3 svecs multi p2s s2p comp sh Hcis ltac:(lia) q' M1 M1' R1 i j k l m n), (legacy_value cis np ns fc3 svecs multi p2s s2p comp sh Hcis ltac:(lia) q M M' R i j k l m n) by assumption.
    rewrite (lat_neg _ _ (q 1) (q 2) (q' 1) (q' 2)) by (auto; intros; apply Hq; lia). rewrite Pr, conj_mul. reflexivity.
Qed.
Theorem C86_strength : forall fc3 comp sh r0 q q' M M' M1 M1' isq cutoff f0 f1 f2 e0 e1 e2 e0' e1' e2' a b c, even_odd cis -> (forall a c, 0 <= a < 3 -> 0 <= c < 3 -> (q' a c == - q a c)%Q) -> run fc3 comp sh r0 q M M' -> run fc3 comp sh r0 q' M1 M1' ->
  (forall z y, 0 <= z < np * 3 -> e0' z y =c= conj (e0 z y)) -> (forall z y, 0 <= z < np * 3 -> e1' z y =c= conj (e1 z y)) -> (forall z y, 0 <= z < np * 3 -> e2' z y =c= conj (e2 z y)) ->
  (strength isq (np * 3) cutoff (cube_of (np * 3) M1') f0 f1 f2 e0' e1' e2' a b c == strength isq (np * 3) cutoff (cube_of (np * 3) M') f0 f1 f2 e0 e1 e2 a b c)%Q.
Proof.
  intros fc3 comp sh r0 q q' M M' M1 M1' isq cutoff f0 f1 f2 e0 e1 e2 e0' e1' e2' a b c E Hq R R1 He0 He1 He2. unfold strength. destruct (_ && _); [|reflexivity]. unfold Qdiv. apply Qmult_comp; [|reflexivity].
  match goal with |- (cnorm2 ?X == cnorm2 ?Y)%Q => assert (Z0 : X =c= conj Y); [|rewrite Z0; unfold cnorm2, conj; cbn; ring] end. unfold amplitude.
  rewrite CSum_conj. apply CSum_ext. intros i Hi. rewrite CSum_conj. apply CSum_ext. intros j Hj. rewrite CSum_conj. apply CSum_ext. intros k Hk. unfold mode. rewrite !cscale_mul, He0, He1, He2 by assumption.
  assert (X : cube_of (np * 3) M1' i j k =c= conj (cube_of (np * 3) M' i j k)).
  { destruct (split3 np i Hi) as [i' [l [Hi' [Hl ->]]]]. destruct (split3 np j Hj) as [j' [m [Hj' [Hm ->]]]]. destruct (split3 np k Hk) as [k' [n [Hk' [Hn ->]]]]. apply (C86_reverse fc3 comp sh r0 q q' M M' M1 M1' E Hq R R1). repeat split; lia. }
  rewrite X. split; cbn; ring.
Qed.
End P.

(** Where shifts by reciprocal lattice vectors come from: if the BZ grid points of a triplet are replaced by others of the same regular grid point (addresses
    differing by multiples of the mesh numbers), the q-vectors change by the integer vectors Q.m; addresses of zero sum modulo the mesh numbers give q-vectors
    whose sum is the integer vector Q.m. *)
Theorem C81_addresses : forall addr D Qm trip trip' (m : Z -> Z -> Z),
  (forall c, 0 <= c < 3 -> D c <> 0) -> (forall a c, 0 <= a < 3 -> 0 <= c < 3 -> addr (trip' a) c = addr (trip a) c + D c * m a c) ->
  forall a k, 0 <= a < 3 -> (triplet_q addr D Qm trip' a k == triplet_q addr D Qm trip a k + inject_Z (Qm k 0%Z * m a 0%Z + Qm k 1%Z * m a 1%Z + Qm k 2%Z * m a 2%Z)%Z)%Q.
Proof.
  intros addr D Qm trip trip' m HD H a k Ha. unfold triplet_q. cbv zeta. rewrite !(H a) by lia. rewrite !inject_Z_plus, !inject_Z_mult.
  field. assert (N : forall c, 0 <= c < 3 -> ~ (inject_Z (D c) == 0)%Q) by (intros c Hc F; apply (HD c Hc); unfold Qeq in F; cbn in F; lia).
  repeat split; apply N; lia.
Qed.
Theorem C81_conserved : forall addr D Qm trip (m : Z -> Z),
  (forall c, 0 <= c < 3 -> D c <> 0) -> (forall c, 0 <= c < 3 -> addr (trip 0%Z) c + addr (trip 1%Z) c + addr (trip 2%Z) c = D c * m c) ->
  forall k, (triplet_q addr D Qm trip 0 k + triplet_q addr D Qm trip 1 k + triplet_q addr D Qm trip 2 k == inject_Z (Qm k 0%Z * m 0%Z + Qm k 1%Z * m 1%Z + Qm k 2%Z * m 2%Z)%Z)%Q.
Proof.
  intros addr D Qm trip m HD H k. unfold triplet_q. cbv zeta.
  assert (E : forall c, 0 <= c < 3 -> (inject_Z (addr (trip 0%Z) c) == inject_Z (D c) * inject_Z (m c) - inject_Z (addr (trip 1%Z) c) - inject_Z (addr (trip 2%Z) c))%Q).
  { intros c Hc. replace (addr (trip 0) c) with (D c * m c + (- addr (trip 1) c) + (- addr (trip 2) c)) by (rewrite <- (H c Hc); lia). rewrite !inject_Z_plus, !inject_Z_mult, !inject_Z_opp. ring. }
  rewrite !E by lia. rewrite !inject_Z_plus, !inject_Z_mult.
  assert (N : forall c, 0 <= c < 3 -> ~ (inject_Z (D c) == 0)%Q) by (intros c Hc F; apply (HD c Hc); unfold Qeq in F; cbn in F; lia).
  field. repeat split; apply N; lia.
Qed.
Print Assumptions C81_addresses. Print Assumptions C81_conserved.
Example C81_addresses_example : let Qm r c := if r =? c then 1 else if (r =? 0) && (c =? 1) then 2 else 0 in
  let addr gp c := if c =? 1 then (if gp =? 0 then 1 else if gp =? 1 then -3 else 2) else 0 in
  Qeq (triplet_q addr (fun _ => 4) Qm (fun _ => 1) 0 0) (triplet_q addr (fun _ => 4) Qm (fun _ => 0) 0 0 + inject_Z (-2)) /\
  Qeq (triplet_q addr (fun _ => 4) Qm (fun _ => 0) 0 0) (1 # 2).
Proof. split; reflexivity. Qed.
