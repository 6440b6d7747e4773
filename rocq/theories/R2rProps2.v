(** fc3 in reciprocal space: C82-C85 *)
From Coq Require Import ZArith QArith List Bool Lia Lqa Setoid.
From Verif Require Import Base BaseProofs QMat Par Par2 IseSpec IseProofs Cplx DynModel DynProofs DynProps R2nProps Fc3Spec R2rModel R2rProofs R2rShort R2rProps.
Import ListNotations.
Open Scope Z_scope.

(** ** Specification *)
(** tables of a supercell and its shortest vectors: x and M as in [image] *)
Record crystal (x : Z -> Z -> Q) (M : Z -> Z -> Z) (len : (Z -> Q) -> Q) (tol : Q) (np ns ntrans : Z) (perms : Z -> Z -> Z) svecs multi (p2s s2p p2p nsym : Z -> Z) : Prop := {
  cr_np : 0 < np; cr_tol : (0 < tol)%Q; cr_len : length_like len;
  cr_trans : translations x M ns ntrans perms;
  cr_table : shortest_table len tol x M np ns svecs multi p2s;
  cr_lattice : lattice_tables p2s (fun s => p2p (s2p s)) nsym perms ns np ntrans;
  cr_s2p : forall s, 0 <= s < ns -> s2p s = p2s (p2p (s2p s)) }.
(** the phases of a triplet are turns, its sum a reciprocal lattice vector *)
Definition good_triplet (A : Q -> Prop) (np ns : Z) svecs multi (q : Z -> Z -> Q) : Prop :=
  (forall a p s b, 0 <= a < 3 -> 0 <= p < np -> 0 <= s < ns -> 0 <= b < tab_mult np multi p s -> A (vdot (q a) (tab_vec np svecs multi p s b))) /\
  exists G : Z -> Z, forall c, 0 <= c < 3 -> (q 0%Z c + q 1%Z c + q 2%Z c == inject_Z (G c))%Q.
Definition swap01 {X} (q : Z -> X) (a : Z) : X := match a with 0 => q 1 | 1 => q 0 | _ => q 2 end.
Definition swap12 {X} (q : Z -> X) (a : Z) : X := match a with 0 => q 0 | 1 => q 2 | _ => q 1 end.
(** fc3 does not change when the second and third (atom, direction) are exchanged *)
Definition last_two (np ns : Z) (Phi : Z -> Z -> Z -> Z -> Z -> Z -> Q) : Prop :=
  forall i s t l m n, 0 <= i < np -> 0 <= s < ns -> 0 <= t < ns -> 0 <= l < 3 -> 0 <= m < 3 -> 0 <= n < 3 -> (Phi i s t l m n == Phi i t s l n m)%Q.

Lemma amplitude_swap01 : forall nb u v w phi, amplitude nb u v w phi =c= amplitude nb v u w (fun j i k => phi i j k).
Proof. intros. unfold amplitude. rewrite CSum_swap. apply CSum_ext. intros j _. apply CSum_ext. intros i _. apply CSum_ext. intros k _. ring. Qed.
Lemma amplitude_swap12 : forall nb u v w phi, amplitude nb u v w phi =c= amplitude nb u w v (fun i k j => phi i j k).
Proof. intros. unfold amplitude. apply CSum_ext. intros i _. rewrite CSum_swap. apply CSum_ext. intros j _. apply CSum_ext. intros k _. ring. Qed.
Lemma div_swap : forall a b x y, (a == b -> x == y -> a / x == b / y)%Q. Proof. intros a b x y H1 H2. rewrite H1, H2. reflexivity. Qed.
Lemma strength_swap01 : forall isq np cutoff M M' f0 f1 f2 e0 e1 e2 a b c, (forall i j k l m n, in6 np i j k l m n -> rec_at np M i l j m k n =c= rec_at np M' j m i l k n) ->
  (strength isq (np * 3) cutoff (cube_of (np * 3) M) f0 f1 f2 e0 e1 e2 a b c == strength isq (np * 3) cutoff (cube_of (np * 3) M') f1 f0 f2 e1 e0 e2 b a c)%Q.
Proof.
  intros isq np cutoff M M' f0 f1 f2 e0 e1 e2 a b c H. unfold strength. rewrite (andb_comm (qltb cutoff (f1 b))). destruct (_ && _); [|reflexivity]. apply div_swap; [|ring]. apply cnorm2_proper. rewrite amplitude_swap01. apply amplitude_ext; try reflexivity.
  intros j i k Hj Hi Hk. destruct (split3 np i Hi) as [i' [l [Hi' [Hl ->]]]]. destruct (split3 np j Hj) as [j' [m [Hj' [Hm ->]]]]. destruct (split3 np k Hk) as [k' [n [Hk' [Hn ->]]]]. apply H. repeat split; lia.
Qed.
Lemma strength_swap12 : forall isq np cutoff M M' f0 f1 f2 e0 e1 e2 a b c, (forall i j k l m n, in6 np i j k l m n -> rec_at np M i l j m k n =c= rec_at np M' i l k n j m) ->
  (strength isq (np * 3) cutoff (cube_of (np * 3) M) f0 f1 f2 e0 e1 e2 a b c == strength isq (np * 3) cutoff (cube_of (np * 3) M') f0 f2 f1 e0 e2 e1 a c b)%Q.
Proof.
  intros isq np cutoff M M' f0 f1 f2 e0 e1 e2 a b c H. unfold strength. rewrite <- !andb_assoc, (andb_comm (qltb cutoff (f2 c))). destruct (_ && _); [|reflexivity]. apply div_swap; [|ring]. apply cnorm2_proper. rewrite amplitude_swap12. apply amplitude_ext; try reflexivity.
  intros i k j Hi Hk Hj. destruct (split3 np i Hi) as [i' [l [Hi' [Hl ->]]]]. destruct (split3 np j Hj) as [j' [m [Hj' [Hm ->]]]]. destruct (split3 np k Hk) as [k' [n [Hk' [Hn ->]]]]. apply H. repeat split; lia.
Qed.

Section P.
Variable cis : Q -> cplx.
Variable np ns : Z.
Variable svecs : Z -> Z -> Q.
Variable multi : Z -> Z * Z.
Variable p2s s2p : Z -> Z.
Hypothesis Hcis : proper_cis cis.
Local Notation avg := (avg_phase cis np svecs multi).
Local Notation lat := (lattice3 cis np ns svecs multi p2s s2p).
Local Notation pre := (origin_phase cis np svecs multi p2s).
Local Notation run fc3 comp sh := (real_to_reciprocal cis np ns fc3 svecs multi p2s s2p comp sh).
Local Notation first := (from_first cis np ns svecs multi p2s s2p).
Local Notation average := (r0_average cis np ns svecs multi p2s s2p).

(** ** C82 *)
Theorem C82_shortcut : forall x Ms len tol ntrans perms p2p nsym A F fc3 comp sh q M M', crystal x Ms len tol np ns ntrans perms svecs multi p2s s2p p2p nsym -> turns A cis -> good_triplet A np ns svecs multi q ->
  represents np ns p2s comp fc3 F -> symmetric3 ns F -> invariant3 ns ntrans perms F ->
  get_all_shortest len np ns svecs multi p2s s2p p2p ntrans perms tol = Some sh -> run fc3 comp sh true q M M' ->
  forall i j k l m n, in6 np i j k l m n -> rec_at np M' i l j m k n =c= average (fc3_at ns p2s comp fc3) q i j k l m n.
Proof.
  intros x Ms len tol ntrans perms p2p nsym A F fc3 comp sh q M M' [] T [HA [G HG]] Rep Sym Inv Hsh R i j k l m n [Hi [Hj [Hk [Hl [Hm Hn]]]]]. rewrite rec_at_adr.
  eapply (shortcut x Ms len tol); eauto.
Qed.
(** the assertion of the table cannot fail *)
Theorem C82_assert : forall x Ms len tol ntrans perms p2p nsym, crystal x Ms len tol np ns ntrans perms svecs multi p2s s2p p2p nsym ->
  (forall t t', 0 <= t < ntrans -> 0 <= t' < ntrans -> (forall s, 0 <= s < ns -> perms t s = perms t' s) -> t = t') -> get_all_shortest len np ns svecs multi p2s s2p p2p ntrans perms tol <> None.
Proof.
  intros x Ms len tol ntrans perms p2p nsym [_ _ _ _ _ LT _] D. unfold get_all_shortest. destruct (forallb _ _) eqn:E; [discriminate|]. exfalso. assert (X : forallb (fun i => forallb (fun j => (1 <? mult np multi j i) || Nat.eqb (length (where_home p2s s2p p2p ntrans perms j)) 1) (zrange ns)) (zrange np) = true); [|congruence]. clear E.
  apply forallb_forall. intros i _. apply forallb_forall. intros j Hj. apply in_zrange in Hj. apply orb_true_iff. right. apply Nat.eqb_eq.
  assert (U : forall t t', In t (where_home p2s s2p p2p ntrans perms j) -> In t' (where_home p2s s2p p2p ntrans perms j) -> t = t').
  { intros t t' H H'. unfold where_home in H, H'. apply filter_In in H as [H1 H2], H' as [H1' H2']. apply in_zrange in H1, H1'. apply Z.eqb_eq in H2, H2'. apply D; [exact H1|exact H1'|]. intros s Hs.
    destruct (lt_inv _ _ _ _ _ _ _ LT t' H1') as [u [Hu Eu]]. destruct (lt_comp _ _ _ _ _ _ _ LT t u H1 Hu) as [w [Hw Ew]].
    assert (Id : forall s, 0 <= s < ns -> perms w s = s). { intros s' Hs'. apply (lt_free _ _ _ _ _ _ _ LT w j Hw Hj); [|exact Hs']. rewrite Ew by exact Hj. rewrite H2, <- H2'. now apply Eu. }
    pose proof (lt_perm _ _ _ _ _ _ _ LT t s H1 Hs) as R1. specialize (Id s Hs). rewrite Ew in Id by exact Hs.
    destruct (lt_inv _ _ _ _ _ _ _ LT u Hu) as [z [Hz Ez]]. rewrite <- (Ez (perms t s) R1), Id. rewrite <- (Eu s Hs) at 1. apply Ez. now apply (lt_perm _ _ _ _ _ _ _ LT). }
  assert (I : In (nsym j) (where_home p2s s2p p2p ntrans perms j)). { apply filter_In. split; [apply in_zrange; now apply (lt_nsym _ _ _ _ _ _ _ LT)|]. apply Z.eqb_eq. now apply (lt_home _ _ _ _ _ _ _ LT). }
  assert (N : NoDup (where_home p2s s2p p2p ntrans perms j)) by (apply NoDup_filter, NoDup_zrange).
  destruct (where_home p2s s2p p2p ntrans perms j) as [|t [|t' r]]; [destruct I|reflexivity|]. exfalso. inversion_clear N as [|? ? N1 N2]. apply N1. rewrite (U t t'); cbn; auto.
Qed.

(** ** C83 *)
Lemma lat_sym : forall P P' qa qb i j k, (forall s t, 0 <= s < ns -> 0 <= t < ns -> (P i s t == P' i t s)%Q) -> lat P one3 qa qb i j k =c= lat P' one3 qb qa i k j.
Proof.
  intros P P' qa qb i j k H. unfold lattice3.
  assert (Pull : forall (b : bool) n f, (if b then CSum n f else c0) =c= CSum n (fun t => if b then f t else c0)). { intros [|] n f; [reflexivity|]. unfold CSum. symmetry. apply csum_zero. intros; reflexivity. }
  rewrite (CSum_ext ns _ (fun s => CSum ns (fun t => if s2p s =? p2s j then (if s2p t =? p2s k then cscale (one3 i s t * P i s t) (cmul (avg qa i s) (avg qb i t)) else c0) else c0))) by (intros; apply Pull).
  rewrite CSum_swap. apply CSum_ext. intros t Ht. rewrite Pull. apply CSum_ext. intros s Hs. destruct (s2p s =? p2s j), (s2p t =? p2s k); try reflexivity. rewrite (H s t Hs Ht). unfold one3. split; cbn [re im cscale cmul]; ring.
Qed.
Lemma pre_swap : forall q i, pre (swap01 q) i =c= pre q i /\ pre (swap12 q) i =c= pre q i.
Proof. intros q i. unfold origin_phase. split; apply Hcis; cbn [swap01 swap12]; unfold vdot; ring. Qed.
Lemma average_swap01 : forall Phi q i j k l m n, last_two np ns Phi -> in6 np i j k l m n -> average Phi q i j k l m n =c= average Phi (swap01 q) j i k m l n.
Proof.
  intros Phi q i j k l m n S [Hi [Hj [Hk [Hl [Hm Hn]]]]]. unfold r0_average. cbv zeta. apply cscale_proper; [reflexivity|]. rewrite !(proj1 (pre_swap q _)). cbn [swap01].
  rewrite (lat_sym (fun k s t => Phi k s t n m l) (fun k s t => Phi k s t n l m) (q 1) (q 0) k j i) by (intros; apply S; assumption). unfold one3. ring.
Qed.
Lemma average_swap12 : forall Phi q i j k l m n, last_two np ns Phi -> in6 np i j k l m n -> average Phi q i j k l m n =c= average Phi (swap12 q) i k j l n m.
Proof.
  intros Phi q i j k l m n S [Hi [Hj [Hk [Hl [Hm Hn]]]]]. unfold r0_average. cbv zeta. apply cscale_proper; [reflexivity|]. rewrite !(proj2 (pre_swap q _)). cbn [swap12].
  rewrite (lat_sym (fun i s t => Phi i s t l m n) (fun i s t => Phi i s t l n m) (q 1) (q 2) i j k) by (intros; apply S; assumption).
  rewrite (lat_sym (fun j s t => Phi j s t m l n) (fun j s t => Phi j s t m n l) (q 0) (q 2) j i k) by (intros; apply S; assumption).
  rewrite (lat_sym (fun k s t => Phi k s t n m l) (fun k s t => Phi k s t n l m) (q 1) (q 0) k j i) by (intros; apply S; assumption). unfold one3. ring.
Qed.
(** any exchange of the three phonons, all lattice sums computed *)
Theorem C83_exchange : forall fc3 comp q M M' M1 M1' M2 M2' isq cutoff f0 f1 f2 e0 e1 e2 a b c, last_two np ns (fc3_at ns p2s comp fc3) ->
  run fc3 comp (fun _ => false) true q M M' -> run fc3 comp (fun _ => false) true (swap01 q) M1 M1' -> run fc3 comp (fun _ => false) true (swap12 q) M2 M2' ->
  let V := strength isq (np * 3) cutoff (cube_of (np * 3) M') f0 f1 f2 e0 e1 e2 a b c in
  (V == strength isq (np * 3) cutoff (cube_of (np * 3) M1') f1 f0 f2 e1 e0 e2 b a c /\ V == strength isq (np * 3) cutoff (cube_of (np * 3) M2') f0 f2 f1 e0 e2 e1 a c b)%Q.
Proof.
  intros fc3 comp q M M' M1 M1' M2 M2' isq cutoff f0 f1 f2 e0 e1 e2 a b c S R R1 R2 V. split; [apply strength_swap01|apply strength_swap12]; intros i j k l m n H.
  - rewrite (C80_average cis np ns svecs multi p2s s2p Hcis fc3 comp q M M' R) by exact H. rewrite (C80_average cis np ns svecs multi p2s s2p Hcis fc3 comp _ M1 M1' R1) by (unfold in6 in *; tauto). now apply average_swap01.
  - rewrite (C80_average cis np ns svecs multi p2s s2p Hcis fc3 comp q M M' R) by exact H. rewrite (C80_average cis np ns svecs multi p2s s2p Hcis fc3 comp _ M2 M2' R2) by (unfold in6 in *; tauto). now apply average_swap12.
Qed.
(** the same with the table of closing triplets, as the code is called *)
Theorem C83_shortcut : forall x Ms len tol ntrans perms p2p nsym A F fc3 comp sh q M M' M1 M1' M2 M2' isq cutoff f0 f1 f2 e0 e1 e2 a b c, crystal x Ms len tol np ns ntrans perms svecs multi p2s s2p p2p nsym -> turns A cis -> good_triplet A np ns svecs multi q ->
  represents np ns p2s comp fc3 F -> symmetric3 ns F -> invariant3 ns ntrans perms F -> get_all_shortest len np ns svecs multi p2s s2p p2p ntrans perms tol = Some sh ->
  run fc3 comp sh true q M M' -> run fc3 comp sh true (swap01 q) M1 M1' -> run fc3 comp sh true (swap12 q) M2 M2' ->
  let V := strength isq (np * 3) cutoff (cube_of (np * 3) M') f0 f1 f2 e0 e1 e2 a b c in
  (V == strength isq (np * 3) cutoff (cube_of (np * 3) M1') f1 f0 f2 e1 e0 e2 b a c /\ V == strength isq (np * 3) cutoff (cube_of (np * 3) M2') f0 f2 f1 e0 e2 e1 a c b)%Q.
Proof.
  intros x Ms len tol ntrans perms p2p nsym A F fc3 comp sh q M M' M1 M1' M2 M2' isq cutoff f0 f1 f2 e0 e1 e2 a b c Cr T GT Rep Sym Inv Hsh R R1 R2 V. pose proof GT as [HA [G HG]].
  assert (G1 : good_triplet A np ns svecs multi (swap01 q)). { split; [|exists G; intros z Hz; cbn [swap01]; rewrite <- (HG z Hz); ring]. intros a' p s b' Ha Hp Hs Hb. assert (E : a' = 0 \/ a' = 1 \/ a' = 2) by lia. destruct E as [-> | [-> | ->]]; cbn [swap01]; apply HA; auto; lia. }
  assert (G2 : good_triplet A np ns svecs multi (swap12 q)). { split; [|exists G; intros z Hz; cbn [swap12]; rewrite <- (HG z Hz); ring]. intros a' p s b' Ha Hp Hs Hb. assert (E : a' = 0 \/ a' = 1 \/ a' = 2) by lia. destruct E as [-> | [-> | ->]]; cbn [swap12]; apply HA; auto; lia. }
  assert (S : last_two np ns (fc3_at ns p2s comp fc3)). { intros i s t l m n Hi Hs Ht Hl Hm Hn. pose proof Rep as Rp. unfold represents in Rp. rewrite !Rp by assumption. apply (Sym (p2s i, l) (s, m) (t, n)); split; cbn; try assumption. apply (lt_p2s _ _ _ _ _ _ _ (cr_lattice _ _ _ _ _ _ _ _ _ _ _ _ _ _ Cr)). exact Hi. }
  assert (V0 := C82_shortcut x Ms len tol ntrans perms p2p nsym A F fc3 comp sh q M M' Cr T GT Rep Sym Inv Hsh R).
  assert (V1 := C82_shortcut x Ms len tol ntrans perms p2p nsym A F fc3 comp sh _ M1 M1' Cr T G1 Rep Sym Inv Hsh R1). assert (V2 := C82_shortcut x Ms len tol ntrans perms p2p nsym A F fc3 comp sh _ M2 M2' Cr T G2 Rep Sym Inv Hsh R2).
  split; [apply strength_swap01|apply strength_swap12]; intros i j k l m n H.
  - rewrite V0 by exact H. rewrite V1 by (unfold in6 in *; tauto). now apply average_swap01.
  - rewrite V0 by exact H. rewrite V2 by (unfold in6 in *; tauto). now apply average_swap12.
Qed.
(** seen from the first atom only, the second and third phonon can be exchanged *)
Theorem C83_legacy_partial : forall fc3 comp sh q M M' M2 M2' isq cutoff f0 f1 f2 e0 e1 e2 a b c, last_two np ns (fc3_at ns p2s comp fc3) ->
  run fc3 comp sh false q M M' -> run fc3 comp sh false (swap12 q) M2 M2' ->
  (strength isq (np * 3) cutoff (cube_of (np * 3) M') f0 f1 f2 e0 e1 e2 a b c == strength isq (np * 3) cutoff (cube_of (np * 3) M2') f0 f2 f1 e0 e2 e1 a c b)%Q.
Proof.
  intros fc3 comp sh q M M' M2 M2' isq cutoff f0 f1 f2 e0 e1 e2 a b c S R R2. apply strength_swap12. intros i j k l m n H.
  rewrite (C80_legacy cis np ns svecs multi p2s s2p Hcis fc3 comp sh q M M' R) by exact H. rewrite (C80_legacy cis np ns svecs multi p2s s2p Hcis fc3 comp sh _ M2 M2' R2) by (unfold in6 in *; tauto).
  destruct H as [Hi [Hj [Hk [Hl [Hm Hn]]]]]. unfold from_first. rewrite (proj2 (pre_swap q i)). cbn [swap12]. apply cmul_proper; [|reflexivity]. apply lat_sym. intros; apply S; assumption.
Qed.

(** ** C85 *)
(** forces do not change under a rigid translation: sum over the last atom *)
Definition last_sum_zero (Phi : Z -> Z -> Z -> Z -> Z -> Z -> Q) : Prop :=
  forall i s l m n, 0 <= i < np -> 0 <= s < ns -> 0 <= l < 3 -> 0 <= m < 3 -> 0 <= n < 3 -> (Sum ns (fun t => Phi i s t l m n) == 0)%Q.
Lemma avg_gamma : forall q p s, (forall c, 0 <= c < 3 -> (q c == 0)%Q) -> (forall y, (y == 0)%Q -> cis y =c= c1) -> 0 < tab_mult np multi p s -> avg q p s =c= c1.
Proof.
  intros q p s Hq H0 Hm. unfold avg_phase. set (mu := tab_mult np multi p s) in *. rewrite (CSum_ext mu _ (fun _ => c1)). 2: { intros b _. apply H0. unfold vdot. rewrite (Hq 0), (Hq 1), (Hq 2) by lia. ring. }
  assert (E : CSum mu (fun _ => c1) =c= C (inject_Z mu) 0). { unfold CSum. rewrite <- (Z2Nat.id mu) at 2 by lia. unfold zrange. rewrite map_map. generalize (Z.to_nat mu). clear. intros N. 
    assert (X : forall a, csum (map (fun _ : nat => c1) (seq a N)) =c= C (inject_Z (Z.of_nat N)) 0). { induction N as [|N IH]; intros a; cbn [seq map]; rewrite ?csum_nil, ?csum_cons; [reflexivity|]. rewrite IH, Nat2Z.inj_succ. unfold Z.succ. rewrite inject_Z_plus. split; cbn; ring. } apply X. }
  rewrite E. split; cbn; field; intros X; change 0%Q with (inject_Z 0) in X; rewrite inject_Z_injective in X; lia.
Qed.
Lemma last_sum_lat : forall (Phi : Z -> Z -> Z -> Z -> Z -> Z -> Q) qa qb i j l m n, last_sum_zero Phi -> (forall c, 0 <= c < 3 -> (qb c == 0)%Q) -> (forall y, (y == 0)%Q -> cis y =c= c1) -> (forall p s, 0 <= p < np -> 0 <= s < ns -> 0 < tab_mult np multi p s) ->
  (forall s, 0 <= s < ns -> exists k, 0 <= k < np /\ s2p s = p2s k) -> (forall k k', 0 <= k < np -> 0 <= k' < np -> p2s k = p2s k' -> k = k') -> 0 <= i < np -> 0 <= l < 3 -> 0 <= m < 3 -> 0 <= n < 3 ->
  CSum np (fun k => lat (fun i s t => Phi i s t l m n) one3 qa qb i j k) =c= c0.
Proof.
  intros Phi qa qb i j l m n Z0 Hq H0 Hm Cov Inj Hi Hl Hm' Hn. unfold lattice3. rewrite CSum_swap. unfold CSum at 1. apply csum_zero. intros s Hs. apply in_zrange in Hs.
  destruct (s2p s =? p2s j); [|unfold CSum; apply csum_zero; intros; reflexivity]. rewrite CSum_swap.
  rewrite (CSum_ext ns _ (fun t => cmul (avg qa i s) (C (Phi i s t l m n) 0))).
  - rewrite CSum_scale. assert (E : CSum ns (fun t => C (Phi i s t l m n) 0) =c= c0). { unfold CSum. destruct (csum_parts (map (fun t => C (Phi i s t l m n) 0) (zrange ns))) as [E1 E2]. split; [rewrite E1|rewrite E2]; rewrite map_map; cbn [re im c0].
      - rewrite <- (Z0 i s l m n Hi Hs Hl Hm' Hn). unfold Sum. reflexivity.
      - clear. induction (zrange ns) as [|y l0 IH]; cbn [map]; [reflexivity|]. change (qsum (0%Q :: map (fun _ => 0%Q) l0)) with (0 + qsum (map (fun _ : Z => 0%Q) l0))%Q. rewrite IH. reflexivity. }
    rewrite E. ring.
  - intros t Ht. destruct (Cov t Ht) as [k [Hk Ek]]. rewrite (CSum_ext np _ (fun k' => if k' =? k then cmul (avg qa i s) (C (Phi i s t l m n) 0) else c0)).
    + apply CSum_delta. exact Hk.
    + intros k' Hk'. destruct (Z.eqb_spec (s2p t) (p2s k')) as [E|E].
      * assert (k' = k) as -> by (apply Inj; auto; congruence). rewrite Z.eqb_refl. rewrite (avg_gamma qb i t Hq H0 (Hm i t Hi Ht)). unfold one3. split; cbn [re im cscale cmul c1]; ring.
      * destruct (Z.eqb_spec k' k) as [->|]; [congruence|reflexivity].
Qed.
(** a rigid translation of the crystal as the third phonon does not couple; seen from the first atom *)
Theorem C85_partial : forall fc3 comp sh q M M', last_sum_zero (fc3_at ns p2s comp fc3) -> (forall c, 0 <= c < 3 -> (q 2%Z c == 0)%Q) -> (forall y, (y == 0)%Q -> cis y =c= c1) -> (forall p s, 0 <= p < np -> 0 <= s < ns -> 0 < tab_mult np multi p s) ->
  (forall s, 0 <= s < ns -> exists k, 0 <= k < np /\ s2p s = p2s k) -> (forall k k', 0 <= k < np -> 0 <= k' < np -> p2s k = p2s k' -> k = k') -> run fc3 comp sh false q M M' ->
  forall u v w d, (forall k n, 0 <= k < np -> 0 <= n < 3 -> w (ix k n) =c= d n) -> amplitude (np * 3) u v w (cube_of (np * 3) M') =c= c0.
Proof.
  intros fc3 comp sh q M M' Z0 Hq H0 Hm Cov Inj R u v w d Hw. unfold amplitude. unfold CSum at 1. apply csum_zero. intros x Hx. apply in_zrange in Hx. unfold CSum at 1. apply csum_zero. intros y Hy. apply in_zrange in Hy.
  destruct (split3 np x Hx) as [i [l [Hi [Hl ->]]]]. destruct (split3 np y Hy) as [j [m [Hj [Hm' ->]]]]. rewrite CSum_flat by lia. rewrite CSum_swap. unfold CSum at 1. apply csum_zero. intros n Hn. apply in_zrange in Hn.
  rewrite (CSum_ext np _ (fun k => cmul (cmul (cmul (cmul (u (ix i l)) (v (ix j m))) (d n)) (pre q i)) (lat (fun i s t => fc3_at ns p2s comp fc3 i s t l m n) one3 (q 1) (q 2) i j k))).
  - rewrite CSum_scale, last_sum_lat by assumption. ring.
  - intros k Hk. change (k * 3 + n) with (ix k n). rewrite (Hw k n Hk Hn). change (cube_of (np * 3) M' (ix i l) (ix j m) (ix k n)) with (rec_at np M' i l j m k n).
    rewrite (C80_legacy cis np ns svecs multi p2s s2p Hcis fc3 comp sh q M M' R) by (repeat split; lia). unfold from_first. ring.
Qed.

(** ** C84 *)
Section Py.
Variable mesh : Z -> Z.
Variable pos : Z -> Z -> Q.
(** wave vectors of a triplet of addresses, a regular grid *)
Definition wave (adr : Z -> Z -> Z) (a c : Z) : Q := (inject_Z (adr a c) / inject_Z (mesh c))%Q.
Lemma py_factor_spec : forall adr a s p, py_factor cis np svecs multi mesh adr a s p =c= avg (wave adr a) p s.
Proof.
  intros adr a s p. unfold py_factor, avg_phase, tab_mult, tab_vec. destruct (multi (s * np + p)) as [mu a0]. cbn [fst snd]. apply cscale_proper; [reflexivity|]. unfold CSum. apply csum_ext. intros b _. apply Hcis. rewrite sum3_eq. unfold vdot, wave. ring.
Qed.
Lemma py_elements_spec : forall fc3 adr i j k l m n, py_elements cis np ns fc3 svecs multi p2s s2p mesh adr i j k l m n =c=
  lat (fun i s t => fc3_at ns p2s false fc3 i s t l m n) one3 (wave adr 1) (wave adr 2) i j k.
Proof.
  intros fc3 adr i j k l m n. unfold py_elements, lattice3. unfold CSum at 1. rewrite fold_ceq with (f := fun s => if s2p s =? p2s j then CSum ns (fun t => if s2p t =? p2s k then
    cscale (one3 i s t * fc3_at ns p2s false fc3 i s t l m n) (cmul (avg (wave adr 1) i s) (avg (wave adr 2) i t)) else c0) else c0); [ring|].
  intros acc s _. destruct (s2p s =? p2s j); cbn [negb]; [|ring]. unfold CSum. rewrite fold_ceq with (f := fun t => if s2p t =? p2s k then
    cscale (one3 i s t * fc3_at ns p2s false fc3 i s t l m n) (cmul (avg (wave adr 1) i s) (avg (wave adr 2) i t)) else c0); [reflexivity|].
  intros acc' t _. destruct (s2p t =? p2s k); cbn [negb]; [|ring]. apply cadd_proper; [reflexivity|]. unfold py_phase. rewrite !py_factor_spec. unfold fc3_at, one3.
  replace (((((p2s i * ns + s) * ns + t) * 3 + l) * 3 + m) * 3 + n) with (((p2s i * ns + s) * ns + t) * 27 + (l * 9 + m * 3 + n)) by ring. set (f := fc3 _). split; cbn [re im cscale cmul c1]; ring.
Qed.
(** lang="Python" and lang="C" (seen from the first atom) agree up to one phase common to all elements when no component of the sum of addresses is dropped *)
Theorem C84_partial : forall A fc3 adr sh M M', turns A cis ->
  (forall c, 0 <= c < 3 -> 0 < mesh c) ->
  (forall c, 0 <= c < 3 -> (adr 0 c <> 0 /\ adr 1 c <> 0 /\ adr 2 c <> 0) \/ adr 0 c + adr 1 c + adr 2 c = 0) ->
  let q := wave adr in
  let Gs := fun c => (q 0%Z c + q 1%Z c + q 2%Z c)%Q in
  (forall i, 0 <= i < np -> A (vdot Gs (tab_vec np svecs multi 0 (p2s i) 0)) /\ exists n, (vdot Gs (pos i) == vdot Gs (pos 0) + vdot Gs (tab_vec np svecs multi 0 (p2s i) 0) + inject_Z n)%Q) -> A (vdot Gs (pos 0)) ->
  run fc3 false sh false q M M' ->
  exists z, A z /\ forall i j k l m n, in6 np i j k l m n -> py_real_to_reciprocal cis np ns fc3 svecs multi p2s s2p mesh pos adr i j k l m n =c= cmul (cis z) (rec_at np M' i l j m k n).
Proof.
  intros A fc3 adr sh M M' [T1 [T2 T3]] Hme Hz q Gs HA A0 R. exists (vdot Gs (pos 0)). split; [exact A0|]. intros i j k l m n H. rewrite (C80_legacy cis np ns svecs multi p2s s2p Hcis fc3 false sh q M M' R) by exact H. destruct H as [Hi _].
  unfold py_real_to_reciprocal, from_first. rewrite py_elements_spec. change (wave adr 1) with (q 1). change (wave adr 2) with (q 2). destruct (HA i Hi) as [Ai [N En]].
  assert (P : py_prephase cis mesh pos adr i =c= cmul (cis (vdot Gs (pos 0))) (pre q i)).
  { unfold py_prephase, origin_phase. destruct (T3 N) as [AN CN]. destruct (T2 _ _ A0 Ai) as [A1 C1]. destruct (T2 _ _ A1 AN) as [A2 C2]. fold Gs. transitivity (cmul (cis (vdot Gs (pos 0) + vdot Gs (tab_vec np svecs multi 0 (p2s i) 0))) (cis (inject_Z N))); [|rewrite C1, CN; ring]. rewrite <- C2. apply Hcis. rewrite <- En, sum3_eq.
    assert (S : forall c, 0 <= c < 3 -> (py_sum_q mesh adr c == Gs c)%Q).
    { intros c Hc. unfold py_sum_q, Gs, q, wave. assert (X : (if negb (adr 0 c =? 0) && negb (adr 1 c =? 0) && negb (adr 2 c =? 0) then adr 0 c + adr 1 c + adr 2 c else 0) = adr 0 c + adr 1 c + adr 2 c).
      { destruct (Hz c Hc) as [[H1 [H2 H3]]|H0']; [|destruct (_ && _); lia]. rewrite (proj2 (Z.eqb_neq _ _) H1), (proj2 (Z.eqb_neq _ _) H2), (proj2 (Z.eqb_neq _ _) H3). reflexivity. }
      rewrite X, !inject_Z_plus. field. intros Y. change 0%Q with (inject_Z 0) in Y. rewrite inject_Z_injective in Y. specialize (Hme c Hc). lia. }
    rewrite (S 0), (S 1), (S 2) by lia. reflexivity. }
  rewrite P. ring.
Qed.
End Py.
End P.
