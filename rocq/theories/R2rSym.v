(** fc3 in reciprocal space under symmetry operations of the crystal (C87) *)
From Coq Require Import ZArith QArith List Bool Lia Lqa Setoid Permutation.
From Verif Require Import Base BaseProofs QMat Par Par2 IseSpec IseProofs Cplx DynModel DynProofs DynProps R2nProps Fc3Spec R2rModel R2rProofs R2rShort R2rProps R2rProps2.
Import ListNotations.
Open Scope Z_scope.

(** ** Specification *)
Definition mapply (W : Z -> Z -> Z) (v : Z -> Q) (c : Z) : Q := (inject_Z (W c 0%Z) * v 0%Z + inject_Z (W c 1%Z) * v 1%Z + inject_Z (W c 2%Z) * v 2%Z)%Q.
(** rotation of a Cartesian tensor *)
Definition turn1 (R : Z -> Z -> Q) (f : Z -> cplx) (l : Z) : cplx := CSum 3 (fun l' => cscale (R l l') (f l')).
Definition turn3 (R : Z -> Z -> Q) (f : Z -> Z -> Z -> cplx) (l m n : Z) : cplx := turn1 R (fun l' => turn1 R (fun m' => turn1 R (fun n' => f l' m' n') n) m) l.
Definition Rturn3 (R : Z -> Z -> Q) (f : Z -> Z -> Z -> Q) (l m n : Z) : Q := Sum 3 (fun l' => R l l' * Sum 3 (fun m' => R m m' * Sum 3 (fun n' => R n n' * f l' m' n')))%Q.
(** A symmetry operation: W and its inverse act on vectors, R is the rotation in Cartesian coordinates, pi permutes the atoms of the supercell and pm those of the primitive cell. *)
Record operation (x : Z -> Z -> Q) (M : Z -> Z -> Z) (len : (Z -> Q) -> Q) (np ns : Z) (s2pp : Z -> Z) (W Wi : Z -> Z -> Z) (R : Z -> Z -> Q) (pi pi' pm pm' : Z -> Z) : Prop := {
  op_inv : forall v, veq (mapply Wi (mapply W v)) v /\ veq (mapply W (mapply Wi v)) v;
  op_len : forall v, (len (mapply W v) == len v)%Q;
  op_pi : forall s, 0 <= s < ns -> 0 <= pi s < ns /\ 0 <= pi' s < ns /\ pi' (pi s) = s /\ pi (pi' s) = s;
  op_pm : forall i, 0 <= i < np -> 0 <= pm i < np /\ 0 <= pm' i < np /\ pm' (pm i) = i /\ pm (pm' i) = i;
  op_class : forall s, 0 <= s < ns -> s2pp (pi s) = pm (s2pp s);
  op_image : forall a b v, 0 <= a < ns -> 0 <= b < ns -> image x M a b v <-> image x M (pi a) (pi b) (mapply W v);
  op_orth : forall a b, 0 <= a < 3 -> 0 <= b < 3 -> (R 0%Z a * R 0%Z b + R 1%Z a * R 1%Z b + R 2%Z a * R 2%Z b == if (a =? b)%Z then 1 else 0)%Q }.
(** fc3 is invariant under the operation *)
Definition covariant3 (ns : Z) (R : Z -> Z -> Q) (pi : Z -> Z) (F : Z * Z -> Z * Z -> Z * Z -> Q) : Prop :=
  forall a b c l m n, 0 <= a < ns -> 0 <= b < ns -> 0 <= c < ns -> 0 <= l < 3 -> 0 <= m < 3 -> 0 <= n < 3 ->
    (F (pi a, l) (pi b, m) (pi c, n) == Rturn3 R (fun l' m' n' => F (a, l') (b, m') (c, n')) l m n)%Q.
(** q' is q rotated *)
Definition rotated_q (W : Z -> Z -> Z) (q q' : Z -> Z -> Q) : Prop := forall a v, 0 <= a < 3 -> (vdot (q' a) (mapply W v) == vdot (q a) v)%Q.

(** ** sums over related lists *)
Lemma related : forall X Y (Rl : X -> Y -> Prop) l l', NoDup l -> NoDup l' -> (forall a, In a l -> exists b, In b l' /\ Rl a b) -> (forall b, In b l' -> exists a, In a l /\ Rl a b) ->
  (forall a b b', In a l -> In b l' -> In b' l' -> Rl a b -> Rl a b' -> b = b') -> (forall a a' b, In a l -> In a' l -> In b l' -> Rl a b -> Rl a' b -> a = a') ->
  exists l'', Permutation l'' l' /\ Forall2 Rl l l''.
Proof.
  intros X Y Rl. induction l as [|a l IH]; intros l' N N' H1 H2 F1 F2.
  - destruct l' as [|b l']; [exists []; split; constructor|]. destruct (H2 b (or_introl eq_refl)) as [? [[] _]].
  - inversion_clear N as [|? ? Na Nl]. destruct (H1 a (or_introl eq_refl)) as [b [Hb Rb]]. destruct (in_split b l' Hb) as [l1 [l2 ->]].
    pose proof (NoDup_remove_1 _ _ _ N') as N1. pose proof (NoDup_remove_2 _ _ _ N') as N2.
    assert (Sub : forall y, In y (l1 ++ l2) -> In y (l1 ++ b :: l2)) by (intros y Hy; apply in_app_iff in Hy; apply in_app_iff; cbn; tauto).
    destruct (IH (l1 ++ l2) Nl N1) as [l'' [P Fa]].
    + intros a' Ha'. destruct (H1 a' (or_intror Ha')) as [b' [Hb' Rb']]. exists b'. split; [|exact Rb']. apply in_app_iff in Hb'. apply in_app_iff. destruct Hb' as [Hb'|[<-|Hb']]; auto. exfalso. apply Na. rewrite (F2 a a' b); auto; [now left|now right].
    + intros b' Hb'. destruct (H2 b' (Sub b' Hb')) as [a' [Ha' Ra']]. exists a'. split; [|exact Ra']. destruct Ha' as [<-|Ha']; [|exact Ha']. exfalso. apply N2. rewrite (F1 a b b'); auto. now left.
    + intros a' b1 b2 Ha' Hb1 Hb2 R1 R2. apply (F1 a'); auto. now right.
    + intros a1 a2 b1 Ha1 Ha2 Hb1 R1 R2. apply (F2 a1 a2 b1); auto; now right.
    + exists (b :: l''). split; [now apply Permutation_cons_app|constructor; assumption].
Qed.
Lemma csum_related : forall X Y (Rl : X -> Y -> Prop) l l' (f : X -> cplx) (g : Y -> cplx), (exists l'', Permutation l'' l' /\ Forall2 Rl l l'') -> (forall a b, Rl a b -> f a =c= g b) -> csum (map f l) =c= csum (map g l') /\ length l = length l'.
Proof.
  intros X Y Rl l l' f g [l'' [P Fa]] H. split.
  - rewrite <- (csum_perm' _ _ (Permutation_map g P)). clear P. induction Fa as [|a b l l'' E Fa IH]; [reflexivity|]. cbn [map]. rewrite !csum_cons, IH, (H _ _ E). reflexivity.
  - rewrite <- (Permutation_length P). clear P. induction Fa; cbn; congruence.
Qed.
Lemma CSum3 : forall f, CSum 3 f =c= cadd (cadd (f 0) (f 1)) (f 2).
Proof. intros f. unfold CSum. change (zrange 3) with [0; 1; 2]. cbn [map]. rewrite !csum_cons, csum_nil. ring. Qed.
Lemma Sum3 : forall f, (Sum 3 f == f 0%Z + f 1%Z + f 2%Z)%Q.
Proof. intros f. unfold Sum. change (zrange 3) with [0; 1; 2]. cbn [map]. change (qsum [f 0; f 1; f 2]) with (f 0%Z + (f 1%Z + (f 2%Z + 0)))%Q. ring. Qed.
Lemma turn1_ext : forall R f g l, (forall l', 0 <= l' < 3 -> f l' =c= g l') -> turn1 R f l =c= turn1 R g l.
Proof. intros R f g l H. unfold turn1. apply CSum_ext. intros l' Hl'. rewrite (H l' Hl'). reflexivity. Qed.
Lemma turn3_ext : forall R f g l m n, (forall l' m' n', 0 <= l' < 3 -> 0 <= m' < 3 -> 0 <= n' < 3 -> f l' m' n' =c= g l' m' n') -> turn3 R f l m n =c= turn3 R g l m n.
Proof. intros R f g l m n H. unfold turn3. apply turn1_ext. intros l' Hl. apply turn1_ext. intros m' Hm. apply turn1_ext. intros n' Hn. now apply H. Qed.
Lemma turn1_mul : forall R f l c, turn1 R (fun l' => cmul c (f l')) l =c= cmul c (turn1 R f l).
Proof. intros. unfold turn1. rewrite !CSum3. split; cbn [re im cscale cmul cadd]; ring. Qed.
Lemma turn1_add : forall R f g l, turn1 R (fun l' => cadd (f l') (g l')) l =c= cadd (turn1 R f l) (turn1 R g l).
Proof. intros. unfold turn1. rewrite !CSum3. split; cbn [re im cscale cmul cadd]; ring. Qed.
Lemma turn3_mul : forall R f l m n c, turn3 R (fun l' m' n' => cmul c (f l' m' n')) l m n =c= cmul c (turn3 R f l m n).
Proof. intros. unfold turn3. rewrite <- turn1_mul. apply turn1_ext. intros l' _. rewrite <- turn1_mul. apply turn1_ext. intros m' _. apply turn1_mul. Qed.
Lemma turn3_add : forall R f g l m n, turn3 R (fun l' m' n' => cadd (f l' m' n') (g l' m' n')) l m n =c= cadd (turn3 R f l m n) (turn3 R g l m n).
Proof. intros. unfold turn3. rewrite <- turn1_add. apply turn1_ext. intros l' _. rewrite <- turn1_add. apply turn1_ext. intros m' _. apply turn1_add. Qed.
Lemma turn3_zero : forall R l m n, turn3 R (fun _ _ _ => c0) l m n =c= c0.
Proof. intros. unfold turn3, turn1. rewrite !CSum3. split; cbn [re im cscale cmul cadd c0]; ring. Qed.
Lemma turn3_csum : forall X R (f : X -> Z -> Z -> Z -> cplx) L l m n, turn3 R (fun l' m' n' => csum (map (fun y => f y l' m' n') L)) l m n =c= csum (map (fun y => turn3 R (f y) l m n) L).
Proof.
  intros X R f L l m n. induction L as [|y L IH]; cbn [map]; [apply turn3_zero|]. rewrite csum_cons, <- IH, <- turn3_add. apply turn3_ext. intros. reflexivity.
Qed.
Lemma turn3_real : forall R (f : Z -> Z -> Z -> Q) z l m n, turn3 R (fun l' m' n' => cscale (f l' m' n') z) l m n =c= cscale (Rturn3 R f l m n) z.
Proof. intros. unfold turn3, turn1, Rturn3. rewrite !CSum3. split; cbn [re im cscale cadd]; rewrite !Sum3; ring. Qed.
(** the order of the three directions does not matter *)
Lemma turn3_12 : forall R f l m n, turn3 R f l m n =c= turn3 R (fun m' l' n' => f l' m' n') m l n.
Proof. intros. unfold turn3, turn1. rewrite !CSum3. split; cbn [re im cscale cadd]; ring. Qed.
Lemma turn3_13 : forall R f l m n, turn3 R f l m n =c= turn3 R (fun n' m' l' => f l' m' n') n m l.
Proof. intros. unfold turn3, turn1. rewrite !CSum3. split; cbn [re im cscale cadd]; ring. Qed.
(** contraction of one slot *)
Lemma CSum_bij : forall n (b b' : Z -> Z) f, (forall i, 0 <= i < n -> 0 <= b i < n /\ 0 <= b' i < n /\ b' (b i) = i /\ b (b' i) = i) -> CSum n f =c= CSum n (fun i => f (b i)).
Proof.
  intros n b b' f H. unfold CSum. apply (csum_bij _ _ (zrange n) (zrange n) b b' f (NoDup_zrange n) (NoDup_zrange n)); intros y Hy; apply in_zrange in Hy; destruct (H y Hy) as [H1 [H2 [H3 H4]]]; (split; [now apply in_zrange|assumption]).
Qed.
Lemma slot_turn : forall np R (pm pm' : Z -> Z) e e' Y Y', 0 <= np -> (forall i, 0 <= i < np -> 0 <= pm i < np /\ 0 <= pm' i < np /\ pm' (pm i) = i /\ pm (pm' i) = i) ->
  (forall a b, 0 <= a < 3 -> 0 <= b < 3 -> (R 0%Z a * R 0%Z b + R 1%Z a * R 1%Z b + R 2%Z a * R 2%Z b == if (a =? b)%Z then 1 else 0)%Q) ->
  (forall i l, 0 <= i < np -> 0 <= l < 3 -> e' (ix (pm i) l) =c= turn1 R (fun l' => e (ix i l')) l) -> (forall i l, 0 <= i < np -> 0 <= l < 3 -> Y' (ix (pm i) l) =c= turn1 R (fun l' => Y (ix i l')) l) ->
  CSum (np * 3) (fun z => cmul (e' z) (Y' z)) =c= CSum (np * 3) (fun z => cmul (e z) (Y z)).
Proof.
  intros np R pm pm' e e' Y Y' Hnp Hpm Ho He HY. rewrite !CSum_flat by lia. rewrite (CSum_bij np pm pm' _ Hpm). apply CSum_ext. intros i Hi. rewrite !CSum3.
  change (pm i * 3 + 0) with (ix (pm i) 0). change (pm i * 3 + 1) with (ix (pm i) 1). change (pm i * 3 + 2) with (ix (pm i) 2). change (i * 3 + 0) with (ix i 0). change (i * 3 + 1) with (ix i 1). change (i * 3 + 2) with (ix i 2).
  rewrite !He, !HY by lia. unfold turn1. rewrite !CSum3. generalize (e (ix i 0)) (e (ix i 1)) (e (ix i 2)) (Y (ix i 0)) (Y (ix i 1)) (Y (ix i 2)). intros e0 e1 e2 y0 y1 y2.
  pose proof (Ho 0 0 ltac:(lia) ltac:(lia)) as O00. pose proof (Ho 0 1 ltac:(lia) ltac:(lia)) as O01. pose proof (Ho 0 2 ltac:(lia) ltac:(lia)) as O02. pose proof (Ho 1 1 ltac:(lia) ltac:(lia)) as O11. pose proof (Ho 1 2 ltac:(lia) ltac:(lia)) as O12. pose proof (Ho 2 2 ltac:(lia) ltac:(lia)) as O22.
  cbn [Z.eqb Pos.eqb] in *.
  transitivity (cadd (cadd (cadd (cscale (R 0%Z 0%Z * R 0%Z 0%Z + R 1%Z 0%Z * R 1%Z 0%Z + R 2%Z 0%Z * R 2%Z 0%Z) (cmul e0 y0)) (cscale (R 0%Z 1%Z * R 0%Z 1%Z + R 1%Z 1%Z * R 1%Z 1%Z + R 2%Z 1%Z * R 2%Z 1%Z) (cmul e1 y1))) (cscale (R 0%Z 2%Z * R 0%Z 2%Z + R 1%Z 2%Z * R 1%Z 2%Z + R 2%Z 2%Z * R 2%Z 2%Z) (cmul e2 y2)))
    (cadd (cadd (cscale (R 0%Z 0%Z * R 0%Z 1%Z + R 1%Z 0%Z * R 1%Z 1%Z + R 2%Z 0%Z * R 2%Z 1%Z) (cadd (cmul e0 y1) (cmul e1 y0))) (cscale (R 0%Z 0%Z * R 0%Z 2%Z + R 1%Z 0%Z * R 1%Z 2%Z + R 2%Z 0%Z * R 2%Z 2%Z) (cadd (cmul e0 y2) (cmul e2 y0)))) (cscale (R 0%Z 1%Z * R 0%Z 2%Z + R 1%Z 1%Z * R 1%Z 2%Z + R 2%Z 1%Z * R 2%Z 2%Z) (cadd (cmul e1 y2) (cmul e2 y1))))).
  - split; cbn [re im cscale cmul cadd]; ring.
  - rewrite O00, O01, O02, O11, O12, O22. split; cbn [re im cscale cmul cadd]; ring.
Qed.

Section S.
Variable cis : Q -> cplx.
Variable A : Q -> Prop.
Variable x : Z -> Z -> Q.
Variable Ms : Z -> Z -> Z.
Variable len : (Z -> Q) -> Q.
Variable tol : Q.
Variable np ns ntrans : Z.
Variable perms : Z -> Z -> Z.
Variable svecs : Z -> Z -> Q.
Variable multi : Z -> Z * Z.
Variable p2s s2p p2p nsym : Z -> Z.
Variable W Wi : Z -> Z -> Z.
Variable R : Z -> Z -> Q.
Variable pi pi' pm pm' : Z -> Z.
Hypothesis Hcis : proper_cis cis.
Hypothesis T : turns A cis.
Hypothesis Cr : crystal x Ms len tol np ns ntrans perms svecs multi p2s s2p p2p nsym.
Hypothesis Op : operation x Ms len np ns (fun s => p2p (s2p s)) W Wi R pi pi' pm pm'.
Local Notation image := (image x Ms).
Local Notation nearest := (nearest len tol x Ms).
Local Notation s2pp := (fun s => p2p (s2p s)).
Local Notation avg := (avg_phase cis np svecs multi).
Local Notation lat := (lattice3 cis np ns svecs multi p2s s2p).
Local Notation pre := (origin_phase cis np svecs multi p2s).
Local Notation run fc3 comp sh := (real_to_reciprocal cis np ns fc3 svecs multi p2s s2p comp sh).
Let LT := cr_lattice _ _ _ _ _ _ _ _ _ _ _ _ _ _ Cr.
Let Tab := cr_table _ _ _ _ _ _ _ _ _ _ _ _ _ _ Cr.
Let Len := cr_len _ _ _ _ _ _ _ _ _ _ _ _ _ _ Cr.

Lemma mapply_veq : forall W v w, veq v w -> veq (mapply W v) (mapply W w).
Proof. intros W0 v w H c _. unfold mapply. rewrite (H 0), (H 1), (H 2) by lia. reflexivity. Qed.
(** the operation followed by the translation that brings the image of primitive atom i home *)
Definition moved (i s : Z) : Z := perms (nsym (pi (p2s i))) (pi s).
Lemma pi_home : forall i, 0 <= i < np -> 0 <= nsym (pi (p2s i)) < ntrans /\ 0 <= pi (p2s i) < ns /\ moved i (p2s i) = p2s (pm i).
Proof.
  intros i Hi. pose proof (lt_p2s _ _ _ _ _ _ _ LT i Hi) as Hp. destruct (op_pi _ _ _ _ _ _ _ _ _ _ _ _ _ Op _ Hp) as [H1 _]. split; [now apply (lt_nsym _ _ _ _ _ _ _ LT)|]. split; [exact H1|].
  unfold moved. rewrite (lt_home _ _ _ _ _ _ _ LT _ H1). f_equal. rewrite (op_class _ _ _ _ _ _ _ _ _ _ _ _ _ Op _ Hp). f_equal. apply (lt_prim _ _ _ _ _ _ _ LT i Hi).
Qed.
Lemma moved_range : forall i s, 0 <= i < np -> 0 <= s < ns -> 0 <= moved i s < ns.
Proof. intros i s Hi Hs. destruct (pi_home i Hi) as [H1 _]. unfold moved. apply (lt_perm _ _ _ _ _ _ _ LT); [exact H1|]. now apply (op_pi _ _ _ _ _ _ _ _ _ _ _ _ _ Op). Qed.
Lemma moved_image : forall i s v, 0 <= i < np -> 0 <= s < ns -> image (p2s i) s v <-> image (p2s (pm i)) (moved i s) (mapply W v).
Proof.
  intros i s v Hi Hs. pose proof (lt_p2s _ _ _ _ _ _ _ LT i Hi) as Hp. destruct (pi_home i Hi) as [H1 [H2 H3]]. rewrite (op_image _ _ _ _ _ _ _ _ _ _ _ _ _ Op _ _ v Hp Hs). rewrite <- H3. unfold moved.
  apply (image_perm x Ms ns ntrans perms (cr_trans _ _ _ _ _ _ _ _ _ _ _ _ _ _ Cr)); [exact H1|exact H2|now apply (op_pi _ _ _ _ _ _ _ _ _ _ _ _ _ Op)].
Qed.
Lemma moved_nearest : forall i s v, 0 <= i < np -> 0 <= s < ns -> nearest (p2s i) s v -> nearest (p2s (pm i)) (moved i s) (mapply W v).
Proof.
  intros i s v Hi Hs [H1 [m [H2 [H3 H4]]]]. split; [exact (proj1 (moved_image i s v Hi Hs) H1)|]. exists (mapply W m). split; [exact (proj1 (moved_image i s m Hi Hs) H2)|]. split.
  - intros w Hw. assert (E : veq w (mapply W (mapply Wi w))) by (apply veq_sym, (op_inv _ _ _ _ _ _ _ _ _ _ _ _ _ Op)). rewrite (proj1 Len _ _ E), !(op_len _ _ _ _ _ _ _ _ _ _ _ _ _ Op). apply H3. apply (proj2 (moved_image i s _ Hi Hs)). now apply (image_ext x Ms _ _ w).
  - rewrite !(op_len _ _ _ _ _ _ _ _ _ _ _ _ _ Op). exact H4.
Qed.
Lemma moved_nearest_back : forall i s w, 0 <= i < np -> 0 <= s < ns -> nearest (p2s (pm i)) (moved i s) w -> nearest (p2s i) s (mapply Wi w).
Proof.
  intros i s w Hi Hs H. assert (E : veq w (mapply W (mapply Wi w))) by (apply veq_sym, (op_inv _ _ _ _ _ _ _ _ _ _ _ _ _ Op)). apply (nearest_ext x Ms len tol Len _ _ w _ E) in H. destruct H as [H1 [m [H2 [H3 H4]]]].
  assert (Em : veq m (mapply W (mapply Wi m))) by (apply veq_sym, (op_inv _ _ _ _ _ _ _ _ _ _ _ _ _ Op)). split; [exact (proj2 (moved_image i s _ Hi Hs) H1)|]. exists (mapply Wi m). split; [apply (proj2 (moved_image i s _ Hi Hs)); now apply (image_ext x Ms _ _ m)|]. 
  assert (Lm : (len (mapply Wi m) == len m)%Q) by (rewrite (proj1 Len _ _ Em), (op_len _ _ _ _ _ _ _ _ _ _ _ _ _ Op); reflexivity). split.
  - intros u Hu. rewrite Lm. rewrite <- (op_len _ _ _ _ _ _ _ _ _ _ _ _ _ Op u). apply H3. exact (proj1 (moved_image i s u Hi Hs) Hu).
  - rewrite Lm. rewrite (op_len _ _ _ _ _ _ _ _ _ _ _ _ _ Op) in H4. exact H4.
Qed.
(** phases averaged over shortest vectors are carried over *)
Lemma moved_avg : forall qa qb i s, (forall v, (vdot qb (mapply W v) == vdot qa v)%Q) -> 0 <= i < np -> 0 <= s < ns -> avg qb (pm i) (moved i s) =c= avg qa i s.
Proof.
  intros qa qb i s Hq Hi Hs. pose proof (moved_range i s Hi Hs) as Hs'. destruct (op_pm _ _ _ _ _ _ _ _ _ _ _ _ _ Op i Hi) as [Hi' _]. destruct (Tab i s Hi Hs) as [P1 [P2 [P3 P4]]]. destruct (Tab (pm i) (moved i s) Hi' Hs') as [Q1 [Q2 [Q3 Q4]]].
  set (v := tab_vec np svecs multi i s) in *. set (w := tab_vec np svecs multi (pm i) (moved i s)) in *.
  assert (Rel : exists l'', Permutation l'' (zrange (tab_mult np multi (pm i) (moved i s))) /\ Forall2 (fun a b => veq (mapply W (v a)) (w b)) (zrange (tab_mult np multi i s)) l'').
  { apply related; try apply NoDup_zrange.
    - intros a Ha. apply in_zrange in Ha. destruct (Q3 _ (moved_nearest i s _ Hi Hs (P2 a Ha))) as [b [Hb Eb]]. exists b. split; [now apply in_zrange|exact Eb].
    - intros b Hb. apply in_zrange in Hb. destruct (P3 _ (moved_nearest_back i s _ Hi Hs (Q2 b Hb))) as [a [Ha Ea]]. exists a. split; [now apply in_zrange|]. apply (veq_trans _ (mapply W (mapply Wi (w b)))); [apply mapply_veq, veq_sym, Ea|apply (op_inv _ _ _ _ _ _ _ _ _ _ _ _ _ Op)].
    - intros a b b' _ Hb Hb' E1 E2. apply in_zrange in Hb, Hb'. apply Q4; auto. apply (veq_trans _ (mapply W (v a))); [now apply veq_sym|exact E2].
    - intros a a' b Ha Ha' _ E1 E2. apply in_zrange in Ha, Ha'. apply P4; auto. apply (veq_trans _ (mapply Wi (mapply W (v a)))); [apply veq_sym, (op_inv _ _ _ _ _ _ _ _ _ _ _ _ _ Op)|].
      apply (veq_trans _ (mapply Wi (mapply W (v a')))); [|apply (op_inv _ _ _ _ _ _ _ _ _ _ _ _ _ Op)]. apply mapply_veq. apply (veq_trans _ (w b)); [exact E1|now apply veq_sym]. }
  destruct (csum_related _ _ _ _ _ (fun a => cis (vdot qa (v a))) (fun b => cis (vdot qb (w b))) Rel) as [Sm Ln].
  { intros a b E. apply Hcis. rewrite <- (Hq (v a)). now apply vdot_veq. }
  rewrite !length_zrange in Ln by lia. assert (Mu : tab_mult np multi (pm i) (moved i s) = tab_mult np multi i s) by lia. unfold avg_phase. fold v w. unfold CSum. rewrite <- Sm, Mu. reflexivity.
Qed.

(** ** the sums *)
Lemma class_of : forall s j, 0 <= s < ns -> 0 <= j < np -> s2p s = p2s j <-> p2p (s2p s) = j.
Proof. intros s j. apply (class_iff np ns ntrans perms p2s s2p p2p nsym LT). apply (cr_s2p _ _ _ _ _ _ _ _ _ _ _ _ _ _ Cr). Qed.
Lemma moved_class : forall i s j, 0 <= i < np -> 0 <= s < ns -> 0 <= j < np -> s2p s = p2s j <-> s2p (moved i s) = p2s (pm j).
Proof.
  intros i s j Hi Hs Hj. pose proof (moved_range i s Hi Hs) as Hs'. destruct (op_pm _ _ _ _ _ _ _ _ _ _ _ _ _ Op j Hj) as [Hj' [_ [Ej _]]]. rewrite !class_of by assumption. unfold moved.
  destruct (pi_home i Hi) as [H1 _]. destruct (op_pi _ _ _ _ _ _ _ _ _ _ _ _ _ Op s Hs) as [H2 _].
  pose proof (lt_orbit _ _ _ _ _ _ _ LT _ _ H1 H2) as O. cbn beta in O. rewrite O. pose proof (op_class _ _ _ _ _ _ _ _ _ _ _ _ _ Op s Hs) as O2. cbn beta in O2. rewrite O2. split; [congruence|]. intros E.
  pose proof (lt_s2pp _ _ _ _ _ _ _ LT s Hs) as Hc. cbn beta in Hc. destruct (op_pm _ _ _ _ _ _ _ _ _ _ _ _ _ Op _ Hc) as [_ [_ [E2 _]]]. rewrite <- E2, E. exact Ej.
Qed.
Lemma moved_sum : forall i j k f, 0 <= i < np -> 0 <= j < np -> 0 <= k < np ->
  csum (map f (atom_pairs ns p2s s2p (pm j) (pm k))) =c= csum (map (fun y => f (moved i (fst y), moved i (snd y))) (atom_pairs ns p2s s2p j k)).
Proof.
  intros i j k f Hi Hj Hk. destruct (pi_home i Hi) as [H1 [H2 H3]]. destruct (lt_inv _ _ _ _ _ _ _ LT _ H1) as [u [Hu Eu]]. destruct (lt_inv _ _ _ _ _ _ _ LT _ Hu) as [u' [Hu' Eu']].
  assert (Inv2 : forall s, 0 <= s < ns -> perms (nsym (pi (p2s i))) (perms u s) = s).
  { intros s Hs. pose proof (lt_perm _ _ _ _ _ _ _ LT u s Hu Hs) as R1. pose proof (lt_perm _ _ _ _ _ _ _ LT _ _ H1 R1) as R2. pose proof (Eu' _ R2) as Z1. rewrite Eu in Z1 by exact R1. rewrite <- Z1. apply Eu'. exact Hs. }
  set (back := fun s => pi' (perms u s)).
  assert (Bk : forall s, 0 <= s < ns -> 0 <= back s < ns /\ moved i (back s) = s).
  { intros s Hs. pose proof (lt_perm _ _ _ _ _ _ _ LT u s Hu Hs) as R1. destruct (op_pi _ _ _ _ _ _ _ _ _ _ _ _ _ Op _ R1) as [_ [R2 [_ R3]]]. split; [exact R2|]. unfold moved, back. rewrite R3. now apply Inv2. }
  assert (Fw : forall s, 0 <= s < ns -> back (moved i s) = s).
  { intros s Hs. unfold back, moved. destruct (op_pi _ _ _ _ _ _ _ _ _ _ _ _ _ Op s Hs) as [R1 [_ [R2 _]]]. rewrite Eu by exact R1. exact R2. }
  apply (csum_bij _ _ _ _ (fun y => (moved i (fst y), moved i (snd y))) (fun y => (back (fst y), back (snd y)))); try apply atom_pairs_nodup.
  - intros [s t] H. apply atom_pairs_in in H as [Hs [Ht [Es Et]]]. cbn [fst snd]. split; [|rewrite !Fw by assumption; reflexivity]. apply atom_pairs_in. split; [now apply moved_range|]. split; [now apply moved_range|]. split; apply moved_class; assumption.
  - intros [s t] H. apply atom_pairs_in in H as [Hs [Ht [Es Et]]]. cbn [fst snd]. destruct (Bk s Hs) as [B1 B2]. destruct (Bk t Ht) as [B3 B4]. split; [|rewrite B2, B4; reflexivity]. apply atom_pairs_in. split; [exact B1|]. split; [exact B3|]. split; apply (moved_class i); try assumption; [now rewrite B2|now rewrite B4].
Qed.
Variable F : Z * Z -> Z * Z -> Z * Z -> Q.
Variable fc3 : Z -> Q.
Variable comp : bool.
Hypothesis Rep : represents np ns p2s comp fc3 F.
Hypothesis Inv : invariant3 ns ntrans perms F.
Hypothesis Cov : covariant3 ns R pi F.
Local Notation Phi := (fc3_at ns p2s comp fc3).
Lemma moved_Phi : forall i s t l m n, 0 <= i < np -> 0 <= s < ns -> 0 <= t < ns -> 0 <= l < 3 -> 0 <= m < 3 -> 0 <= n < 3 ->
  (Phi (pm i) (moved i s) (moved i t) l m n == Rturn3 R (fun l' m' n' => Phi i s t l' m' n') l m n)%Q.
Proof.
  intros i s t l m n Hi Hs Ht Hl Hm Hn. pose proof Rep as Rp. unfold represents in Rp. destruct (op_pm _ _ _ _ _ _ _ _ _ _ _ _ _ Op i Hi) as [Hi' _]. rewrite Rp by (try apply moved_range; assumption).
  destruct (pi_home i Hi) as [H1 [H2 H3]]. rewrite <- H3. unfold moved. pose proof Inv as Iv. unfold invariant3 in Iv. rewrite Iv; try assumption; try (apply (op_pi _ _ _ _ _ _ _ _ _ _ _ _ _ Op); assumption).
  pose proof Cov as Cv. unfold covariant3 in Cv. pose proof (lt_p2s _ _ _ _ _ _ _ LT i Hi) as Hp. rewrite Cv by assumption. unfold Rturn3. rewrite !Sum3. rewrite !Rp by (assumption || lia). reflexivity.
Qed.
Lemma moved_lat : forall qa qb qa' qb' i j k l m n, (forall v, (vdot qa' (mapply W v) == vdot qa v)%Q) -> (forall v, (vdot qb' (mapply W v) == vdot qb v)%Q) -> in6 np i j k l m n ->
  lat (fun i s t => Phi i s t l m n) one3 qa' qb' (pm i) (pm j) (pm k) =c= turn3 R (fun l' m' n' => lat (fun i s t => Phi i s t l' m' n') one3 qa qb i j k) l m n.
Proof.
  intros qa qb qa' qb' i j k l m n Ha Hb [Hi [Hj [Hk [Hl [Hm Hn]]]]]. unfold lattice3 at 1. rewrite pairs_sum, (moved_sum i) by assumption.
  rewrite (turn3_ext R _ (fun l' m' n' => csum (map (fun y => cscale (Phi i (fst y) (snd y) l' m' n') (cmul (avg qa i (fst y)) (avg qb i (snd y)))) (atom_pairs ns p2s s2p j k)))).
  - rewrite turn3_csum. apply csum_ext. intros [s t] H. apply atom_pairs_in in H as [Hs [Ht _]]. cbn [fst snd]. rewrite turn3_real. rewrite (moved_avg qa qa'), (moved_avg qb qb') by assumption. apply cscale_proper; [|reflexivity]. unfold one3. rewrite moved_Phi by assumption. apply Qmult_1_l.
  - intros l' m' n' _ _ _. unfold lattice3. rewrite pairs_sum. apply csum_ext. intros y _. unfold one3. apply cscale_proper; [ring|reflexivity].
Qed.

(** ** the phase of the origin *)
Variable q q' : Z -> Z -> Q.
Hypothesis Hq : rotated_q W q q'.
Hypothesis GT : good_triplet A np ns svecs multi q.
Hypothesis GT' : good_triplet A np ns svecs multi q'.
Let tot (q : Z -> Z -> Q) (v : Z -> Q) : Q := (vdot (q 0%Z) v + vdot (q 1%Z) v + vdot (q 2%Z) v)%Q.
Lemma pre_tot : forall q i, good_triplet A np ns svecs multi q -> 0 <= i < np -> A (tot q (tab_vec np svecs multi 0 (p2s i) 0)) /\ pre q i =c= cis (tot q (tab_vec np svecs multi 0 (p2s i) 0)).
Proof.
  intros q0 i [HA _] Hi. pose proof (cr_np _ _ _ _ _ _ _ _ _ _ _ _ _ _ Cr) as Hnp. pose proof (lt_p2s _ _ _ _ _ _ _ LT i Hi) as Hpi. destruct (Tab 0 (p2s i) ltac:(lia) Hpi) as [P1 _]. destruct T as [T1 [T2 T3]].
  assert (A0 := HA 0 0 (p2s i) 0 ltac:(lia) ltac:(lia) Hpi ltac:(lia)). assert (A1 := HA 1 0 (p2s i) 0 ltac:(lia) ltac:(lia) Hpi ltac:(lia)). assert (A2 := HA 2 0 (p2s i) 0 ltac:(lia) ltac:(lia) Hpi ltac:(lia)).
  destruct (T2 _ _ A0 A1) as [A01 _]. destruct (T2 _ _ A01 A2) as [A012 _]. split; [exact A012|]. unfold origin_phase. apply Hcis. unfold tot, vdot. ring.
Qed.
Lemma tot_int : forall q v n, good_triplet A np ns svecs multi q -> (forall c, 0 <= c < 3 -> (v c == inject_Z (n c))%Q) -> exists N, (tot q v == inject_Z N)%Q.
Proof. intros q0 v n [_ [G HG]] H. eexists. unfold tot. apply (G_int q0 G HG v n H). Qed.
Lemma pre_moved : forall i, 0 <= i < np -> pre q' (pm i) =c= cmul (pre q' (pm 0)) (pre q i).
Proof.
  intros i Hi. pose proof (cr_np _ _ _ _ _ _ _ _ _ _ _ _ _ _ Cr) as Hnp. destruct (op_pm _ _ _ _ _ _ _ _ _ _ _ _ _ Op i Hi) as [Hi' _]. destruct (op_pm _ _ _ _ _ _ _ _ _ _ _ _ _ Op 0 ltac:(lia)) as [H0' _].
  destruct (pre_tot q' (pm i) GT' Hi') as [B1 ->]. destruct (pre_tot q' (pm 0) GT' H0') as [B2 ->]. destruct (pre_tot q i GT Hi) as [B3 ->].
  pose proof (lt_p2s _ _ _ _ _ _ _ LT i Hi) as Hpi. pose proof (lt_p2s _ _ _ _ _ _ _ LT _ Hi') as Hpi'. pose proof (lt_p2s _ _ _ _ _ _ _ LT _ H0') as Hp0'. pose proof (lt_p2s _ _ _ _ _ _ _ LT 0 ltac:(lia)) as Hp0.
  destruct (Tab 0 (p2s i) ltac:(lia) Hpi) as [P1 [P2 _]]. destruct (Tab 0 (p2s (pm i)) ltac:(lia) Hpi') as [P1' [P2' _]]. destruct (Tab 0 (p2s (pm 0)) ltac:(lia) Hp0') as [P1'' [P2'' _]].
  specialize (P2 0 ltac:(lia)). specialize (P2' 0 ltac:(lia)). specialize (P2'' 0 ltac:(lia)). set (r := tab_vec np svecs multi 0 (p2s i) 0) in *. set (r' := tab_vec np svecs multi 0 (p2s (pm i)) 0) in *. set (r0 := tab_vec np svecs multi 0 (p2s (pm 0)) 0) in *.
  destruct T as [T1 [T2 T3]]. destruct (T2 _ _ B2 B3) as [B23 C23]. rewrite <- C23. apply (sum_phase cis A T); [exact B1|exact B23|].
  (* from p2s 0 to p2s (pm 0), back to pi (p2s 0), on to pi (p2s i), and home *)
  destruct (pi_home 0 ltac:(lia)) as [N1 [N2 N3]]. destruct (pi_home i Hi) as [M1 [M2 M3]]. destruct (cr_trans _ _ _ _ _ _ _ _ _ _ _ _ _ _ Cr _ N1) as [tau0 Ht0]. specialize (Ht0 _ N2). fold (moved 0 (p2s 0)) in Ht0. rewrite N3 in Ht0.
  destruct (cr_trans _ _ _ _ _ _ _ _ _ _ _ _ _ _ Cr _ M1) as [tau Ht]. specialize (Ht _ M2). fold (moved i (p2s i)) in Ht. rewrite M3 in Ht.
  assert (Im : image (pi (p2s 0)) (pi (p2s i)) (mapply W r)) by (apply (proj1 (op_image _ _ _ _ _ _ _ _ _ _ _ _ _ Op _ _ r Hp0 Hpi)); apply P2).
  assert (I2 := image_add x Ms _ _ _ _ _ (image_add x Ms _ _ _ _ _ (image_add x Ms _ _ _ _ _ (proj1 P2'') (image_neg x Ms _ _ _ Ht0)) Im) Ht).
  destruct (image_int x Ms _ _ _ _ (proj1 P2') I2) as [n Hn].
  destruct (tot_int q' (fun c => inject_Z (n c + (tau c - tau0 c))) (fun c => n c + (tau c - tau0 c)) GT' ltac:(intros; reflexivity)) as [N HN]. exists N.
  assert (E : veq r' (vadd (vadd r0 (mapply W r)) (fun c => inject_Z (n c + (tau c - tau0 c))))).
  { intros c Hc. specialize (Hn c Hc). unfold vadd, vneg in *. unfold Zminus. rewrite !inject_Z_plus, !inject_Z_opp. rewrite <- Hn. ring. }
  rewrite <- HN. assert (L : forall q v w, (tot q (vadd v w) == tot q v + tot q w)%Q) by (intros; unfold tot, vdot, vadd; ring).
  transitivity (tot q' (vadd (vadd r0 (mapply W r)) (fun c => inject_Z (n c + (tau c - tau0 c))))); [unfold tot; rewrite !(vdot_veq _ _ _ E); reflexivity|]. rewrite !L. apply Qplus_comp; [|reflexivity]. apply Qplus_comp; [reflexivity|]. unfold tot. rewrite (Hq 0 r), (Hq 1 r), (Hq 2 r) by lia. reflexivity.
Qed.

(** ** C87 *)
(** the reciprocal-space fc3 of a rotated triplet is the rotated one, up to a phase common to all elements *)
Theorem C87_legacy : forall sh M M' M1 M1', run fc3 comp sh false q M M' -> run fc3 comp sh false q' M1 M1' ->
  forall i j k l m n, in6 np i j k l m n -> rec_at np M1' (pm i) l (pm j) m (pm k) n =c= cmul (pre q' (pm 0)) (turn3 R (fun l' m' n' => rec_at np M' i l' j m' k n') l m n).
Proof.
  intros sh M M' M1 M1' R0 R1 i j k l m n H. pose proof H as [Hi [Hj [Hk [Hl [Hm Hn]]]]]. destruct (op_pm _ _ _ _ _ _ _ _ _ _ _ _ _ Op i Hi) as [Hi' _]. destruct (op_pm _ _ _ _ _ _ _ _ _ _ _ _ _ Op j Hj) as [Hj' _]. destruct (op_pm _ _ _ _ _ _ _ _ _ _ _ _ _ Op k Hk) as [Hk' _].
  rewrite (C80_legacy cis np ns svecs multi p2s s2p Hcis fc3 comp sh q' M1 M1' R1) by (repeat split; lia). unfold from_first. rewrite (moved_lat (q 1) (q 2)) by (try exact H; intros; apply Hq; lia). rewrite pre_moved by exact Hi.
  rewrite (turn3_ext R (fun l' m' n' => rec_at np M' i l' j m' k n') (fun l' m' n' => cmul (pre q i) (lat (fun i s t => Phi i s t l' m' n') one3 (q 1) (q 2) i j k))).
  - rewrite turn3_mul. ring.
  - intros l' m' n' Hl' Hm' Hn'. rewrite (C80_legacy cis np ns svecs multi p2s s2p Hcis fc3 comp sh q M M' R0) by (repeat split; lia). unfold from_first. ring.
Qed.
Lemma average_moved : forall i j k l m n, in6 np i j k l m n -> r0_average cis np ns svecs multi p2s s2p Phi q' (pm i) (pm j) (pm k) l m n =c= cmul (pre q' (pm 0)) (turn3 R (fun l' m' n' => r0_average cis np ns svecs multi p2s s2p Phi q i j k l' m' n') l m n).
Proof.
  intros i j k l m n H. pose proof H as [Hi [Hj [Hk [Hl [Hm Hn]]]]]. unfold r0_average. cbv zeta. change (fun _ _ _ : Z => 1%Q) with one3.
  rewrite (moved_lat (q 1) (q 2) (q' 1) (q' 2) i j k l m n) by (try exact H; intros; apply Hq; lia). rewrite (moved_lat (q 0) (q 2) (q' 0) (q' 2) j i k m l n) by (try (repeat split; lia); intros; apply Hq; lia). rewrite (moved_lat (q 1) (q 0) (q' 1) (q' 0) k j i n m l) by (try (repeat split; lia); intros; apply Hq; lia).
  rewrite (pre_moved i Hi), (pre_moved j Hj), (pre_moved k Hk).
  rewrite (turn3_12 R _ m l n). rewrite (turn3_13 R _ n m l). rewrite (turn3_ext R (fun l' m' n' => cscale (1 # 3) _) (fun l' m' n' => cmul (C (1 # 3) 0) (cadd (cadd (cmul (pre q i) (lat (fun i s t => Phi i s t l' m' n') one3 (q 1) (q 2) i j k)) (cmul (pre q j) (lat (fun i s t => Phi i s t m' l' n') one3 (q 0) (q 2) j i k))) (cmul (pre q k) (lat (fun i s t => Phi i s t n' m' l') one3 (q 1) (q 0) k j i))))).
  - rewrite turn3_mul, !turn3_add, !turn3_mul. rewrite cscale_mul. ring.
  - intros l' m' n' _ _ _. rewrite cscale_mul. apply cmul_proper; [reflexivity|]. ring.
Qed.
Theorem C87_average : forall M M' M1 M1', run fc3 comp (fun _ => false) true q M M' -> run fc3 comp (fun _ => false) true q' M1 M1' ->
  forall i j k l m n, in6 np i j k l m n -> rec_at np M1' (pm i) l (pm j) m (pm k) n =c= cmul (pre q' (pm 0)) (turn3 R (fun l' m' n' => rec_at np M' i l' j m' k n') l m n).
Proof.
  intros M M' M1 M1' R0 R1 i j k l m n H. pose proof H as [Hi [Hj [Hk [Hl [Hm Hn]]]]]. destruct (op_pm _ _ _ _ _ _ _ _ _ _ _ _ _ Op i Hi) as [Hi' _]. destruct (op_pm _ _ _ _ _ _ _ _ _ _ _ _ _ Op j Hj) as [Hj' _]. destruct (op_pm _ _ _ _ _ _ _ _ _ _ _ _ _ Op k Hk) as [Hk' _].
  rewrite (C80_average cis np ns svecs multi p2s s2p Hcis fc3 comp q' M1 M1' R1) by (repeat split; lia). rewrite average_moved by exact H. apply cmul_proper; [reflexivity|]. apply turn3_ext. intros l' m' n' Hl' Hm' Hn'. symmetry. apply (C80_average cis np ns svecs multi p2s s2p Hcis fc3 comp q M M' R0). repeat split; lia.
Qed.
(** the same through the table of closing triplets, as the code is called *)
Theorem C87_shortcut : forall sh M M' M1 M1', symmetric3 ns F -> get_all_shortest len np ns svecs multi p2s s2p p2p ntrans perms tol = Some sh -> run fc3 comp sh true q M M' -> run fc3 comp sh true q' M1 M1' ->
  forall i j k l m n, in6 np i j k l m n -> rec_at np M1' (pm i) l (pm j) m (pm k) n =c= cmul (pre q' (pm 0)) (turn3 R (fun l' m' n' => rec_at np M' i l' j m' k n') l m n).
Proof.
  intros sh M M' M1 M1' Sym Hsh R0 R1 i j k l m n H. pose proof H as [Hi [Hj [Hk [Hl [Hm Hn]]]]]. destruct (op_pm _ _ _ _ _ _ _ _ _ _ _ _ _ Op i Hi) as [Hi' _]. destruct (op_pm _ _ _ _ _ _ _ _ _ _ _ _ _ Op j Hj) as [Hj' _]. destruct (op_pm _ _ _ _ _ _ _ _ _ _ _ _ _ Op k Hk) as [Hk' _].
  rewrite (C82_shortcut cis np ns svecs multi p2s s2p Hcis x Ms len tol ntrans perms p2p nsym A F fc3 comp sh q' M1 M1' Cr T GT' Rep Sym Inv Hsh R1) by (repeat split; lia). rewrite average_moved by exact H. apply cmul_proper; [reflexivity|]. apply turn3_ext. intros l' m' n' Hl' Hm' Hn'. symmetry.
  apply (C82_shortcut cis np ns svecs multi p2s s2p Hcis x Ms len tol ntrans perms p2p nsym A F fc3 comp sh q M M' Cr T GT Rep Sym Inv Hsh R0). repeat split; lia.
Qed.
(** and therefore equivalent triplets have equal strengths *)
Theorem C87_strength : forall M' M1' isq cutoff f0 f1 f2 e0 e1 e2 e0' e1' e2' a b c, (forall z, A z -> (cnorm2 (cis z) == 1)%Q) ->
  (forall i j k l m n, in6 np i j k l m n -> rec_at np M1' (pm i) l (pm j) m (pm k) n =c= cmul (pre q' (pm 0)) (turn3 R (fun l' m' n' => rec_at np M' i l' j m' k n') l m n)) ->
  (forall i, 0 <= i < np -> (isq (pm i) == isq i)%Q) ->
  (forall i l z, 0 <= i < np -> 0 <= l < 3 -> e0' (ix (pm i) l) z =c= turn1 R (fun l' => e0 (ix i l') z) l) ->
  (forall i l z, 0 <= i < np -> 0 <= l < 3 -> e1' (ix (pm i) l) z =c= turn1 R (fun l' => e1 (ix i l') z) l) ->
  (forall i l z, 0 <= i < np -> 0 <= l < 3 -> e2' (ix (pm i) l) z =c= turn1 R (fun l' => e2 (ix i l') z) l) ->
  (strength isq (np * 3) cutoff (cube_of (np * 3) M1') f0 f1 f2 e0' e1' e2' a b c == strength isq (np * 3) cutoff (cube_of (np * 3) M') f0 f1 f2 e0 e1 e2 a b c)%Q.
Proof.
  intros M' M1' isq cutoff f0 f1 f2 e0 e1 e2 e0' e1' e2' a b c Un HM Hisq He0 He1 He2. unfold strength. destruct (_ && _); [|reflexivity]. unfold Qdiv. apply Qmult_comp; [|reflexivity].
  pose proof (cr_np _ _ _ _ _ _ _ _ _ _ _ _ _ _ Cr) as Hnp. assert (Md : forall e e' z, (forall i l, 0 <= i < np -> 0 <= l < 3 -> e' (ix (pm i) l) z =c= turn1 R (fun l' => e (ix i l') z) l) -> forall i l, 0 <= i < np -> 0 <= l < 3 -> mode isq e' z (ix (pm i) l) =c= turn1 R (fun l' => mode isq e z (ix i l')) l).
  { intros e e' z He i l Hi Hl. unfold mode. assert (D : forall i l, 0 <= l < 3 -> ix i l / 3 = i) by (intros i0 l0 Hl0; unfold ix; symmetry; apply (Z.div_unique_pos _ _ _ l0); lia). rewrite D by exact Hl. rewrite (He i l Hi Hl), (Hisq i Hi). unfold turn1. rewrite !CSum3, !D by lia. split; cbn [re im cscale cadd]; ring. }
  pose proof (Md e0 e0' a (fun i l => He0 i l a)) as M0. pose proof (Md e1 e1' b (fun i l => He1 i l b)) as M1. pose proof (Md e2 e2' c (fun i l => He2 i l c)) as M2. clear He0 He1 He2 Md.
  set (ph := pre q' (pm 0)). assert (Nm : (cnorm2 ph == 1)%Q). { destruct (op_pm _ _ _ _ _ _ _ _ _ _ _ _ _ Op 0 ltac:(lia)) as [H0' _]. destruct (pre_tot q' (pm 0) GT' H0') as [B E]. unfold ph. rewrite E. now apply Un. }
  assert (Am : amplitude (np * 3) (mode isq e0' a) (mode isq e1' b) (mode isq e2' c) (cube_of (np * 3) M1') =c= cmul ph (amplitude (np * 3) (mode isq e0 a) (mode isq e1 b) (mode isq e2 c) (cube_of (np * 3) M'))).
  2: { rewrite Am, cnorm2_mul, Nm. ring. }
  set (u := mode isq e0 a) in *. set (v := mode isq e1 b) in *. set (w := mode isq e2 c) in *. set (u' := mode isq e0' a) in *. set (v' := mode isq e1' b) in *. set (w' := mode isq e2' c) in *.
  unfold amplitude. pose proof (op_pm _ _ _ _ _ _ _ _ _ _ _ _ _ Op) as Hpm. pose proof (op_orth _ _ _ _ _ _ _ _ _ _ _ _ _ Op) as Ho.
  transitivity (CSum (np * 3) (fun z => cmul (u' z) (CSum (np * 3) (fun y => cmul (v' y) (CSum (np * 3) (fun k => cmul (w' k) (cube_of (np * 3) M1' z y k))))))).
  { apply CSum_ext. intros z _. rewrite <- CSum_scale. apply CSum_ext. intros y _. rewrite <- !CSum_scale. apply CSum_ext. intros k _. ring. }
  set (P1 := fun z y k => cube_of (np * 3) M' z y k).
  (* third slot *)
  assert (S3 : forall i l j m, 0 <= i < np -> 0 <= j < np -> 0 <= l < 3 -> 0 <= m < 3 -> CSum (np * 3) (fun k => cmul (w' k) (cube_of (np * 3) M1' (ix (pm i) l) (ix (pm j) m) k)) =c=
    cmul ph (turn1 R (fun l' => turn1 R (fun m' => CSum (np * 3) (fun k => cmul (w k) (P1 (ix i l') (ix j m') k))) m) l)).
  { intros i l j m Hi Hj Hl Hm. rewrite (slot_turn np R pm pm' w w' (fun k => cmul ph (turn1 R (fun l' => turn1 R (fun m' => P1 (ix i l') (ix j m') k) m) l)) _ ltac:(lia) Hpm Ho M2).
    - unfold turn1. rewrite !CSum3. rewrite (CSum_ext (np * 3) _ (fun k => cadd (cadd (cmul (cmul ph (C (R l 0 * R m 0) 0)) (cmul (w k) (P1 (ix i 0) (ix j 0) k))) (cadd (cmul (cmul ph (C (R l 0 * R m 1) 0)) (cmul (w k) (P1 (ix i 0) (ix j 1) k))) (cmul (cmul ph (C (R l 0 * R m 2) 0)) (cmul (w k) (P1 (ix i 0) (ix j 2) k)))))
        (cadd (cadd (cmul (cmul ph (C (R l 1 * R m 0) 0)) (cmul (w k) (P1 (ix i 1) (ix j 0) k))) (cadd (cmul (cmul ph (C (R l 1 * R m 1) 0)) (cmul (w k) (P1 (ix i 1) (ix j 1) k))) (cmul (cmul ph (C (R l 1 * R m 2) 0)) (cmul (w k) (P1 (ix i 1) (ix j 2) k)))))
        (cadd (cmul (cmul ph (C (R l 2 * R m 0) 0)) (cmul (w k) (P1 (ix i 2) (ix j 0) k))) (cadd (cmul (cmul ph (C (R l 2 * R m 1) 0)) (cmul (w k) (P1 (ix i 2) (ix j 1) k))) (cmul (cmul ph (C (R l 2 * R m 2) 0)) (cmul (w k) (P1 (ix i 2) (ix j 2) k)))))))).
      + rewrite !CSum_add, !CSum_scale. split; cbn [re im cscale cmul cadd]; ring.
      + intros k _. rewrite !CSum3. split; cbn [re im cscale cmul cadd]; ring.
    - intros k n Hk Hn. change (cube_of (np * 3) M1' (ix (pm i) l) (ix (pm j) m) (ix (pm k) n)) with (rec_at np M1' (pm i) l (pm j) m (pm k) n). rewrite HM by (repeat split; lia). unfold turn3, turn1. fold ph. rewrite !CSum3. unfold rec_at, P1. split; cbn [re im cscale cmul cadd]; ring. }
  (* second slot *)
  assert (S2 : forall i l, 0 <= i < np -> 0 <= l < 3 -> CSum (np * 3) (fun y => cmul (v' y) (CSum (np * 3) (fun k => cmul (w' k) (cube_of (np * 3) M1' (ix (pm i) l) y k)))) =c=
    cmul ph (turn1 R (fun l' => CSum (np * 3) (fun y => cmul (v y) (CSum (np * 3) (fun k => cmul (w k) (P1 (ix i l') y k))))) l)).
  { intros i l Hi Hl. rewrite (slot_turn np R pm pm' v v' (fun y => cmul ph (turn1 R (fun l' => CSum (np * 3) (fun k => cmul (w k) (P1 (ix i l') y k))) l)) _ ltac:(lia) Hpm Ho M1).
    - unfold turn1. rewrite !CSum3. set (X := fun l' y => CSum (np * 3) (fun k => cmul (w k) (P1 (ix i l') y k))). rewrite (CSum_ext (np * 3) _ (fun y => cadd (cmul (cmul ph (C (R l 0) 0)) (cmul (v y) (X 0 y))) (cadd (cmul (cmul ph (C (R l 1) 0)) (cmul (v y) (X 1 y))) (cmul (cmul ph (C (R l 2) 0)) (cmul (v y) (X 2 y)))))).
      + rewrite !CSum_add, !CSum_scale. unfold X. split; cbn [re im cscale cmul cadd]; ring.
      + intros y _. rewrite !CSum3. unfold X. split; cbn [re im cscale cmul cadd]; ring.
    - intros j m Hj Hm. rewrite S3 by assumption. rewrite turn1_mul. apply cmul_proper; [reflexivity|]. unfold turn1. rewrite !CSum3. split; cbn [re im cscale cmul cadd]; ring. }
  rewrite (slot_turn np R pm pm' u u' (fun z => cmul ph (CSum (np * 3) (fun y => cmul (v y) (CSum (np * 3) (fun k => cmul (w k) (P1 z y k)))))) _ ltac:(lia) Hpm Ho M0).
  - rewrite <- CSum_scale. apply CSum_ext. intros z _. transitivity (cmul (cmul (u z) ph) (CSum (np * 3) (fun y => cmul (v y) (CSum (np * 3) (fun k => cmul (w k) (P1 z y k)))))); [ring|]. transitivity (cmul ph (cmul (u z) (CSum (np * 3) (fun y => cmul (v y) (CSum (np * 3) (fun k => cmul (w k) (P1 z y k))))))); [ring|].
    apply cmul_proper; [reflexivity|]. rewrite <- CSum_scale. apply CSum_ext. intros y _. rewrite <- !CSum_scale. apply CSum_ext. intros k _. unfold P1. ring.
  - intros i l Hi Hl. rewrite S2 by assumption. rewrite turn1_mul. reflexivity.
Qed.
End S.
