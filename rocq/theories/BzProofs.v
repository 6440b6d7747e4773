From Coq Require Import ZArith QArith Qabs List Lia Lqa Bool.
From Verif Require Import Base BaseProofs Mat3 QMat GridSpec GridModel GridProofs SnfModel SnfProofs
  RotModel RotProps BzSpec BzModel.
Import ListNotations.
Open Scope Z_scope.

(** ** Search table *)
Lemma search_len : length bz_search_space = 125%nat. Proof. reflexivity. Qed.
Lemma search_nodup : NoDup bz_search_space.
Proof.
  assert (forall l, (fix nd (l : list V3) := match l with [] => true | x :: t => negb (existsb (veqb x) t) && nd t end) l = true -> NoDup l) as K.
  { induction l as [|x t IH]; intros H; constructor.
    - apply andb_prop in H. destruct H as [H _]. apply negb_true_iff in H.
      intros Hin. assert (existsb (veqb x) t = true) as E; [|congruence].
      apply existsb_exists. exists x. split; auto. now apply veqb_eq.
    - apply IH. apply andb_prop in H. tauto. }
  apply K. vm_compute. reflexivity.
Qed.
Lemma search_box : forall s, In s bz_search_space <-> box s.
Proof.
  intros s. split.
  - assert (forallb (fun s => let '(v3 x y z) := s in
       (-2 <=? x) && (x <=? 2) && (-2 <=? y) && (y <=? 2) && (-2 <=? z) && (z <=? 2)) bz_search_space = true) as H
      by (vm_compute; reflexivity).
    rewrite forallb_forall in H. intros Hs. specialize (H s Hs). destruct s as [x y z].
    rewrite !andb_true_iff, !Z.leb_le in H. cbn. lia.
  - destruct s as [x y z]. intros [Hx [Hy Hz]].
    assert (x = -2 \/ x = -1 \/ x = 0 \/ x = 1 \/ x = 2) as Ex by lia.
    assert (y = -2 \/ y = -1 \/ y = 0 \/ y = 1 \/ y = 2) as Ey by lia.
    assert (z = -2 \/ z = -1 \/ z = 0 \/ z = 1 \/ z = 2) as Ez by lia.
    assert (existsb (veqb (v3 x y z)) bz_search_space = true) as E.
    { clear Hx Hy Hz. destruct Ex as [->|[->|[->|[->| ->]]]], Ey as [->|[->|[->|[->| ->]]]],
        Ez as [->|[->|[->|[->| ->]]]]; vm_compute; reflexivity. }
    apply existsb_exists in E. destruct E as [s' [H1 H2]]. apply veqb_eq in H2. now subst.
Qed.
Lemma map_nthS : map nthS (zrange 125) = bz_search_space.
Proof. vm_compute. reflexivity. Qed.

Lemma nthQ_dists : forall B a j, 0 <= j < 125 ->
  nthQ (bz_distances B a) j = bz_distance B a (nthS j).
Proof.
  intros B a j Hj. unfold nthQ, bz_distances, nthS.
  rewrite nth_indep with (d' := bz_distance B a vzero).
  - apply map_nth.
  - rewrite map_length, search_len. lia.
Qed.

Lemma search_ne : bz_search_space <> []. Proof. discriminate. Qed.
Lemma dists_ne : forall B a, bz_distances B a <> [].
Proof. intros B a H. apply map_eq_nil in H. exact (search_ne H). Qed.
Global Opaque bz_search_space.

(** ** Minimum with tolerance *)
Local Open Scope Q_scope.
Lemma min_fold : forall l m tol, 0 <= tol ->
  let m' := fold_left (fun m d => if qltb d (m - tol) then d else m) l m in
  (m' = m \/ In m' l) /\ m' <= m /\ (forall d, In d l -> m' - tol <= d).
Proof.
  induction l as [|d l IH]; intros m tol Ht; cbn [fold_left].
  - split; [left; reflexivity|]. split; [lra|]. intros d [].
  - destruct (qltb d (m - tol)) eqn:E.
    + apply qltb_lt in E. destruct (IH d tol Ht) as [H1 [H2 H3]]. cbv zeta.
      split; [right; destruct H1 as [->|H1]; [left; reflexivity|right; exact H1]|].
      split; [lra|]. intros d' [<-|Hd]; [lra|auto].
    + apply qltb_ge in E. destruct (IH m tol Ht) as [H1 [H2 H3]]. cbv zeta.
      split; [destruct H1; [left; assumption|right; right; assumption]|].
      split; [lra|]. intros d' [<-|Hd]; [lra|auto].
Qed.
Lemma min_distance_spec : forall l tol, l <> [] -> 0 <= tol ->
  In (min_distance l tol) l /\ forall d, In d l -> min_distance l tol - tol <= d.
Proof.
  intros [|d l] tol Hne Ht; [contradiction|]. cbn [min_distance].
  destruct (min_fold l d tol Ht) as [H1 [H2 H3]]. cbv zeta in *. split.
  - destruct H1 as [->|H1]; [left; reflexivity|right; exact H1].
  - intros d' [<-|Hd]; [lra|auto].
Qed.

(** The true minimum of a non-empty list. *)
Lemma list_min : forall A (f : A -> Q) (l : list A), l <> [] ->
  exists x, In x l /\ forall y, In y l -> f x <= f y.
Proof.
  induction l as [|a l IH]; [contradiction|]. intros _. destruct l as [|b l].
  - exists a. split; [left; reflexivity|]. intros y [<-|[]]. lra.
  - destruct (IH ltac:(discriminate)) as [x [Hx Hm]].
    destruct (Qlt_le_dec (f a) (f x)) as [H|H].
    + exists a. split; [left; reflexivity|]. intros y [<-|Hy]; [lra|]. specialize (Hm y Hy). lra.
    + exists x. split; [right; exact Hx|]. intros y [<-|Hy]; [lra|auto].
Qed.
Local Close Scope Q_scope.

(** ** Addresses and lengths *)
Lemma inverse_unimodular_spec : forall Q Qi, inverse_unimodular Q = Some Qi ->
  unimod Q /\ mulMM Qi Q = I3 /\ mulMM Q Qi = I3.
Proof.
  intros Q Qi H. unfold inverse_unimodular in H.
  destruct (Z.eqb_spec (Z.abs (det Q)) 1) as [E|]; [|discriminate].
  assert (unimod Q) as HQ by (unfold unimod; lia).
  assert (Qi = minv Q) as ->.
  { unfold minv. destruct (adj Q) as [c0 c1 c2 c3 c4 c5 c6 c7 c8].
    injection H as <-. destruct HQ as [-> | ->].
    - rewrite !Z.quot_1_r. reflexivity.
    - cbn [Z.eqb mneg]. change (-1) with (Z.opp 1). rewrite !Z.quot_opp_r by lia. now rewrite !Z.quot_1_r. }
  auto using minv_l, minv_r.
Qed.

Lemma q_red_position : forall B a, pos_mesh (bD B) ->
  qveq (q_red B a) (qmulMV (qm_of (bQ B)) (position (bD B) (bPS B) a)).
Proof.
  intros [D Q PS L] a HD. unfold q_red, position. cbn [bD bQ bPS].
  rewrite double_dbl. destruct (dbl a PS) as [x y z], D as [d0 d1 d2].
  apply qmulMV_m; [reflexivity|]. cbn [qveq]. rewrite !qz_mul. change (qz 2) with 2%Q.
  repeat split; reflexivity.
Qed.

Lemma bz_nint_nearest : forall B a, pos_mesh (bD B) ->
  nearest (qmulMV (qm_of (bQ B)) (position (bD B) (bPS B) a)) (bz_nint B a).
Proof.
  intros B a HD. pose proof (q_red_position B a HD) as E. unfold bz_nint.
  destruct (q_red B a) as [x y z].
  destruct (qmulMV (qm_of (bQ B)) (position (bD B) (bPS B) a)) as [x' y' z'].
  destruct E as [E1 [E2 E3]]. cbn [nearest]. rewrite <- E1, <- E2, <- E3.
  repeat split; apply Nint_near.
Qed.

Lemma position_add : forall D PS a k, pos_mesh D ->
  qveq (position D PS (vadd a (vmul D k))) (qvadd (position D PS a) (qv_of k)).
Proof.
  intros [d0 d1 d2] [p q r] [a0 a1 a2] [k0 k1 k2] [H0 [H1 H2]].
  unfold position, dbl. cbn -[qz Z.add Z.mul].
  assert (forall a p k d : Z, 0 < d -> Qeq (Qdiv (qz (a + d * k + (a + d * k) + p)) (qz (2 * d))) (Qplus (Qdiv (qz (a + a + p)) (qz (2 * d))) (qz k))) as K.
  { intros a p' k d Hd. rewrite !qz_add, !qz_mul. change (qz 2) with 2%Q. 
    assert (~ qz d == 0)%Q. { intros E. apply (qz_inj d 0) in E. lia. } field. auto. }
  repeat split; apply K; auto.
Qed.

Lemma qvadd_of : forall u v, qveq (qvadd (qv_of u) (qv_of v)) (qv_of (vadd u v)).
Proof. intros [] []; cbn -[qz Z.add]. rewrite !qz_add. repeat split; reflexivity. Qed.
Lemma qvsub_of : forall u v, qveq (qvsub (qv_of u) (qv_of v)) (qv_of (vsub u v)).
Proof. intros [] []; cbn -[qz Z.sub]. rewrite !qz_sub. repeat split; reflexivity. Qed.

Lemma qv_regroup : forall p s n, qveq (qvadd p (qvsub s n)) (qvadd (qvsub p n) s).
Proof. intros [] [] []; cbn. repeat split; ring. Qed.

Lemma len2_distance : forall B Qi a s, pos_mesh (bD B) -> mulMM (bQ B) Qi = I3 ->
  (len2 (bL B) (bQ B) (bD B) (bPS B) (bz_address (bD B) Qi a (bz_nint B a) s)
   == bz_distance B a s)%Q.
Proof.
  intros B Qi a s HD HQ. unfold len2, bz_distance, bz_address.
  apply qnorm2_m. apply qmulMV_m; [reflexivity|].
  set (n := bz_nint B a).
  assert (vmul (mulMV Qi (vsub s n)) (bD B) = vmul (bD B) (mulMV Qi (vsub s n))) as ->.
  { destruct (mulMV Qi (vsub s n)), (bD B). cbn. f_equal; ring. }
  rewrite position_add by auto. rewrite qmulMV_add, qmulMV_of, <- mulMV_mulMM, HQ, mulMV_1.
  rewrite <- qvsub_of, q_red_position by auto. apply qv_regroup.
Qed.

Lemma vsub_add : forall a b, vadd (vsub a b) b = a.
Proof. intros [] []; cbn. f_equal; ring. Qed.

Lemma candidate_iff : forall B Qi a b, mulMM (bQ B) Qi = I3 -> mulMM Qi (bQ B) = I3 ->
  (candidate (bD B) (bQ B) (bz_nint B a) a b <->
   exists s, box s /\ b = bz_address (bD B) Qi a (bz_nint B a) s).
Proof.
  intros B Qi a b HQ HQ'. set (n := bz_nint B a). split.
  - intros [k [-> Hb]]. exists (vadd (mulMV (bQ B) k) n). split; auto.
    unfold bz_address. f_equal.
    assert (vsub (vadd (mulMV (bQ B) k) n) n = mulMV (bQ B) k) as ->.
    { destruct (mulMV (bQ B) k), n. cbn. f_equal; ring. }
    rewrite <- mulMV_mulMM, HQ', mulMV_1. destruct (bD B), k. cbn. f_equal; ring.
  - intros [s [Hs ->]]. exists (mulMV Qi (vsub s n)). split.
    + unfold bz_address. f_equal. destruct (mulMV Qi (vsub s n)), (bD B). cbn. f_equal; ring.
    + rewrite <- mulMV_mulMM, HQ, mulMV_1, vsub_add. exact Hs.
Qed.

Lemma bz_address_inj : forall D Q Qi a n s s', pos_mesh D -> mulMM Q Qi = I3 ->
  bz_address D Qi a n s = bz_address D Qi a n s' -> s = s'.
Proof.
  intros D Q Qi a n s s' HD HQ H. unfold bz_address in H.
  assert (mulMV Qi (vsub s n) = mulMV Qi (vsub s' n)) as E.
  { destruct (mulMV Qi (vsub s n)), (mulMV Qi (vsub s' n)), D as [d0 d1 d2], a.
    cbn -[Z.mul Z.add] in H. injection H as H0 H1 H2. cbn in HD. destruct HD as [X [Y Z0]].
    f_equal; [eapply (Z.mul_reg_r _ _ d0)|eapply (Z.mul_reg_r _ _ d1)|eapply (Z.mul_reg_r _ _ d2)]; lia. }
  assert (vsub s n = vsub s' n) as E2.
  { rewrite <- (mulMV_1 (vsub s n)), <- (mulMV_1 (vsub s' n)), <- HQ, !mulMV_mulMM, E. reflexivity. }
  destruct s, s', n. cbn in E2. injection E2 as ? ? ?. f_equal; lia.
Qed.

(** ** Representatives of one grid point *)
Definition kept (B : BzIn) (tol : Q) (a : V3) (s : V3) : bool :=
  qltb (bz_distance B a s) (min_distance (bz_distances B a) tol + tol).
Definition reps (B : BzIn) (Qi : M3) (tol : Q) (i : Z) : list V3 :=
  let a := get_grid_address_from_index i (bD B) in
  map (bz_address (bD B) Qi a (bz_nint B a)) (filter (kept B tol a) bz_search_space).

Lemma reps_spec : forall B Qi tol i, pos_mesh (bD B) -> (0 < tol)%Q ->
  mulMM (bQ B) Qi = I3 -> mulMM Qi (bQ B) = I3 ->
  bz_representatives (bL B) (bQ B) (bD B) (bPS B) tol
    (get_grid_address_from_index i (bD B)) (reps B Qi tol i).
Proof.
  intros B Qi tol i HD Ht HQ HQ'. unfold reps.
  set (a := get_grid_address_from_index i (bD B)).
  set (ad := bz_address (bD B) Qi a (bz_nint B a)).
  assert (bz_distances B a <> []) as Hne by (apply dists_ne).
  destruct (min_distance_spec (bz_distances B a) tol Hne ltac:(lra)) as [Hin Hmin].
  set (m := min_distance (bz_distances B a) tol) in *.
  assert (forall s, In s bz_search_space -> (m - tol <= bz_distance B a s)%Q) as Hm.
  { intros s Hs. apply Hmin. apply in_map. exact Hs. }
  assert (forall s, (len2 (bL B) (bQ B) (bD B) (bPS B) (ad s) == bz_distance B a s)%Q) as HL
    by (intros s; apply len2_distance; auto).
  split.
  { assert (forall l : list V3, NoDup l -> NoDup (map ad l)) as K.
    { intros l Hl. apply FinFun.Injective_map_NoDup; [|exact Hl]. intros s s' E.
      exact (bz_address_inj (bD B) (bQ B) Qi a (bz_nint B a) s s' HD HQ E). }
    apply K. apply NoDup_filter, search_nodup. }
  exists (bz_nint B a). split; [apply bz_nint_nearest; auto|].
  destruct (list_min V3 (bz_distance B a) bz_search_space search_ne) as [s0 [Hs0 Hmin0]].
  assert (bz_distance B a s0 <= m)%Q as Hs0m.
  { apply in_map_iff in Hin. destruct Hin as [s1 [E1 H1]]. specialize (Hmin0 s1 H1). rewrite E1 in Hmin0. exact Hmin0. }
  exists (ad s0).
  assert (forall b, In b (map ad (filter (kept B tol a) bz_search_space)) <->
     exists s, b = ad s /\ box s /\ (bz_distance B a s < m + tol)%Q) as HI.
  { intros b. rewrite in_map_iff. split.
    - intros [s [E Hs]]. apply filter_In in Hs. destruct Hs as [Hs Hk]. exists s.
      split; [symmetry; exact E|]. split; [apply search_box; exact Hs|].
      unfold kept in Hk. apply qltb_lt in Hk. exact Hk.
    - intros [s [E [Hs Hk]]]. exists s. split; [symmetry; exact E|]. apply filter_In.
      split; [apply search_box; exact Hs|]. unfold kept. apply qltb_lt. exact Hk. }
  split. { apply HI. exists s0. split; auto. split; [now apply search_box|lra]. }
  split. { apply (candidate_iff B Qi); auto. exists s0. split; [now apply search_box|reflexivity]. }
  split; [|split].
  - intros b Hb. apply (candidate_iff B Qi) in Hb; auto. destruct Hb as [s [Hs ->]].
    fold ad. rewrite !HL. apply Hmin0. now apply search_box.
  - intros b Hb. apply HI in Hb. destruct Hb as [s [-> [Hs Hk]]]. split.
    + apply (candidate_iff B Qi); auto. exists s. split; auto.
    + rewrite !HL. pose proof (Hm s0 Hs0). lra.
  - intros b Hb Hl. apply (candidate_iff B Qi) in Hb; auto. destruct Hb as [s [Hs ->]].
    apply HI. exists s. split; auto. split; auto. fold ad in Hl. rewrite !HL in Hl. lra.
Qed.

(** ** Loops writing tables *)
Lemma fold_if_filter : forall A B (p : B -> bool) (g : A -> B -> A) l s,
  fold_left (fun st x => if p x then g st x else st) l s = fold_left g (filter p l) s.
Proof.
  induction l as [|x l IH]; intros s; cbn; auto. destruct (p x); cbn; apply IH.
Qed.
Lemma fold_left_map : forall A B C (f : A -> B -> A) (h : C -> B) l s,
  fold_left f (map h l) s = fold_left (fun st x => f st (h x)) l s.
Proof. induction l as [|x l IH]; intros s; cbn; auto. Qed.
Lemma fold_left_ext_in : forall A B (f g : A -> B -> A) l s,
  (forall st x, In x l -> f st x = g st x) -> fold_left f l s = fold_left g l s.
Proof.
  induction l as [|x l IH]; intros s H; cbn; auto. rewrite H by (left; auto).
  apply IH. intros st y Hy. apply H. right; auto.
Qed.

Definition push2 (i : Z) (st : (Z -> V3) * (Z -> Z) * Z) (ad : V3) :=
  let '(a, b, n) := st in (upd a n ad, upd b n i, n + 1).
Lemma type2_inner_push : forall B Qi tol i s,
  type2_inner B Qi tol i s = fold_left (push2 i) (reps B Qi tol i) s.
Proof.
  intros B Qi tol i s. unfold type2_inner, reps. rewrite fold_left_map.
  rewrite <- fold_if_filter, <- map_nthS, fold_left_map.
  apply fold_left_ext_in. intros [[a b] n] j Hj. apply in_zrange in Hj.
  rewrite nthQ_dists by auto. reflexivity.
Qed.

Definition nthV (l : list V3) (t : Z) : V3 := nth (Z.to_nat t) l vzero.
Definition len (l : list V3) : Z := Z.of_nat (length l).

Lemma push2_spec : forall i l a b n a' b' n',
  fold_left (push2 i) l (a, b, n) = (a', b', n') ->
  n' = n + len l /\
  (forall t, 0 <= t < len l -> a' (n + t) = nthV l t /\ b' (n + t) = i) /\
  (forall p, p < n \/ n' <= p -> a' p = a p /\ b' p = b p).
Proof.
  induction l as [|x l IH]; intros a b n a' b' n' H.
  - cbn in H. injection H as <- <- <-. unfold len. cbn. split; [lia|]. split; [lia|auto].
  - cbn [fold_left push2] in H. apply IH in H. destruct H as [H1 [H2 H3]].
    assert (len (x :: l) = len l + 1) as El by (unfold len; cbn [length]; lia).
    split; [lia|]. split.
    + intros t Ht. destruct (Z.eq_dec t 0) as [->|Hn].
      * destruct (H3 (n + 0) ltac:(lia)) as [-> ->]. rewrite Z.add_0_r, !upd_same. auto.
      * destruct (H2 (t - 1) ltac:(lia)) as [K1 K2].
        replace (n + 1 + (t - 1)) with (n + t) in * by lia. rewrite K1, K2. split; auto.
        unfold nthV. replace (Z.to_nat t) with (S (Z.to_nat (t - 1))) by lia. reflexivity.
    + intros p Hp. unfold len in *. destruct (H3 p ltac:(lia)) as [-> ->].
      rewrite !upd_other by lia. auto.
Qed.

Definition off (f : Z -> Z) (k : Z) : Z := zsum (map f (zrange k)).
Lemma off_0 : forall f, off f 0 = 0. Proof. reflexivity. Qed.
Lemma off_succ : forall f k, 0 <= k -> off f (k + 1) = off f k + f k.
Proof.
  intros f k H. unfold off. rewrite zrange_succ, map_app, zsum_app by auto. cbn. lia.
Qed.
Lemma off_mono : forall f k m, (forall i, 0 <= i < m -> 0 <= f i) -> 0 <= k <= m -> off f k <= off f m.
Proof.
  intros f k m Hf Hk. destruct Hk as [H0 Hm]. revert Hf.
  replace m with (k + Z.of_nat (Z.to_nat (m - k))) by lia.
  induction (Z.to_nat (m - k)) as [|n IH]; intros Hf; [rewrite Z.add_0_r; lia|].
  replace (k + Z.of_nat (S n)) with ((k + Z.of_nat n) + 1) by lia.
  rewrite off_succ by lia. specialize (IH ltac:(intros; apply Hf; lia)).
  specialize (Hf (k + Z.of_nat n) ltac:(lia)). lia.
Qed.
(** Every position below the total lies in exactly one block. *)
Lemma off_block : forall f m x, 0 <= m -> (forall i, 0 <= i < m -> 0 <= f i) -> 0 <= x < off f m ->
  exists k t, 0 <= k < m /\ 0 <= t < f k /\ x = off f k + t.
Proof.
  intros f m x Hm. pattern m, (zrange m). apply zrange_ind; auto.
  - intros _ H. unfold off in H. cbn in H. lia.
  - intros n Hn IH Hf Hx. rewrite off_succ in Hx by auto.
    destruct (Z_lt_le_dec x (off f n)) as [H|H].
    + destruct (IH ltac:(intros; apply Hf; lia) ltac:(lia)) as [k [t [Hk Ht]]]. exists k, t. split; [lia|exact Ht].
    + exists n, (x - off f n). repeat split; lia.
Qed.

Section Type2.
Variables (B : BzIn) (Qi : M3) (tol : Q) (init : BzOut).
Let R i := reps B Qi tol i.
Let f i := len (R i).

Lemma type2_inv : forall m, 0 <= m ->
  let o := fold_left (type2_step B Qi tol) (zrange m)
             (mkBzOut (o_addr init) (upd (o_map init) 0 0) (o_b2g init) 0) in
  o_size o = off f m /\
  (forall k, 0 <= k <= m -> o_map o k = off f k) /\
  (forall k t, 0 <= k < m -> 0 <= t < f k ->
     o_addr o (off f k + t) = nthV (R k) t /\ o_b2g o (off f k + t) = k).
Proof.
  intros m Hm. pattern m, (zrange m). apply zrange_ind; auto; clear m Hm.
  - cbn. split; [reflexivity|]. split; [|lia]. intros k Hk. assert (k = 0) as -> by lia. reflexivity.
  - intros n Hn [I1 [I2 I3']]. cbv zeta. rewrite fold_left_app_one.
    set (o := fold_left _ (zrange n) _) in *. unfold type2_step. rewrite type2_inner_push.
    destruct (fold_left (push2 n) (reps B Qi tol n) (o_addr o, o_b2g o, o_size o)) as [[a b] n'] eqn:E.
    apply push2_spec in E. destruct E as [E1 [E2 E3]]. cbn [o_size o_map o_addr o_b2g].
    assert (off f (n + 1) = off f n + f n) as Eo by (apply off_succ; auto).
    assert (n' = off f (n + 1)) as -> by (rewrite Eo, E1, I1; reflexivity).
    assert (forall i, 0 <= f i) as Hf by (intros; unfold f, len; lia).
    split; [reflexivity|]. split.
    + intros k Hk. unfold upd. destruct (Z.eqb_spec k (n + 1)) as [->|]; [reflexivity|].
      apply I2; lia.
    + intros k t Hk Ht. destruct (Z.eq_dec k n) as [->|Hkn].
      * rewrite <- I1. apply E2. exact Ht.
      * assert (off f k + t < off f n) as Hlt.
        { pose proof (off_succ f k ltac:(lia)). pose proof (off_mono f (k + 1) n ltac:(intros; apply Hf) ltac:(lia)). lia. }
        destruct (E3 (off f k + t)) as [-> ->]; [lia|]. apply I3'; auto; lia.
Qed.
End Type2.

(** ** Type 1 *)
Definition push1 (D PS : V3) (total i : Z) (st : T1) (ad : V3) : T1 :=
  let gp := if t_count st =? 0 then i else t_boundary st + total in
  let bn := if t_count st =? 0 then t_boundary st else t_boundary st + 1 in
  mkT1 (upd (t_addr st) gp ad) (upd (t_map st) (bz_double_index D PS ad) gp)
       (upd (t_b2g st) gp i) bn (t_count st + 1) (t_shift st).
Lemma type1_inner_push : forall B Qi tol i s,
  type1_inner B Qi tol i s =
  fold_left (push1 (bD B) (bPS B) (num_gp (bD B)) i) (reps B Qi tol i)
    (mkT1 (t_addr s) (t_map s) (t_b2g s) (t_boundary s) 0 (t_shift s)).
Proof.
  intros B Qi tol i s. unfold type1_inner, reps. rewrite fold_left_map.
  rewrite <- fold_if_filter, <- map_nthS, fold_left_map.
  apply fold_left_ext_in. intros st j Hj. apply in_zrange in Hj.
  rewrite nthQ_dists by auto. reflexivity.
Qed.

(** After the first representative: consecutive writes at total + boundary. *)
Lemma push1_rest : forall D PS total i l st, 0 < t_count st ->
  let st' := fold_left (push1 D PS total i) l st in
  t_boundary st' = t_boundary st + len l /\
  t_count st' = t_count st + len l /\ t_shift st' = t_shift st /\
  (forall t, 0 <= t < len l -> t_addr st' (total + t_boundary st + t) = nthV l t /\
                               t_b2g st' (total + t_boundary st + t) = i) /\
  (forall p, p < total + t_boundary st \/ total + t_boundary st + len l <= p ->
             t_addr st' p = t_addr st p /\ t_b2g st' p = t_b2g st p) /\
  (forall p, (forall ad, In ad l -> bz_double_index D PS ad <> p) -> t_map st' p = t_map st p) /\
  (forall t, 0 <= t < len l ->
     (forall t', 0 <= t' < len l -> t' <> t ->
        bz_double_index D PS (nthV l t') <> bz_double_index D PS (nthV l t)) ->
     t_map st' (bz_double_index D PS (nthV l t)) = total + t_boundary st + t).
Proof.
  induction l as [|x l IH]; intros st Hc; cbv zeta.
  - cbn. unfold len. cbn. repeat split; auto; lia.
  - cbn [fold_left]. set (st1 := push1 D PS total i st x).
    assert (t_count st1 = t_count st + 1) as C1 by reflexivity.
    assert (t_boundary st1 = t_boundary st + 1) as B1.
    { unfold st1, push1. cbn. destruct (Z.eqb_spec (t_count st) 0); lia. }
    assert (t_addr st1 = upd (t_addr st) (total + t_boundary st) x) as A1.
    { unfold st1, push1. cbn. destruct (Z.eqb_spec (t_count st) 0); [lia|]. now rewrite Z.add_comm. }
    assert (t_b2g st1 = upd (t_b2g st) (total + t_boundary st) i) as G1.
    { unfold st1, push1. cbn. destruct (Z.eqb_spec (t_count st) 0); [lia|]. now rewrite Z.add_comm. }
    assert (t_map st1 = upd (t_map st) (bz_double_index D PS x) (total + t_boundary st)) as M1.
    { unfold st1, push1. cbn. destruct (Z.eqb_spec (t_count st) 0); [lia|]. now rewrite Z.add_comm. }
    assert (t_shift st1 = t_shift st) as S1 by reflexivity.
    specialize (IH st1 ltac:(lia)). cbv zeta in IH.
    set (st' := fold_left (push1 D PS total i) l st1) in *. clearbody st' st1.
    destruct IH as [H1 [H2 [H3 [H4 [H5 [H6 H7]]]]]].
    assert (len (x :: l) = len l + 1) as El by (unfold len; cbn [length]; lia).
    assert (0 <= len l) as Hl by (unfold len; lia).
    assert (nthV (x :: l) 0 = x) as N0 by reflexivity.
    assert (forall t, 0 < t -> nthV (x :: l) t = nthV l (t - 1)) as NS.
    { intros t Ht. unfold nthV. replace (Z.to_nat t) with (S (Z.to_nat (t - 1))) by lia. reflexivity. }
    split; [lia|]. split; [lia|]. split; [congruence|]. split; [|split; [|split]].
    + intros t Ht. destruct (Z.eq_dec t 0) as [->|Hn].
      * destruct (H5 (total + t_boundary st + 0) ltac:(lia)) as [-> ->].
        rewrite A1, G1, Z.add_0_r, !upd_same. auto.
      * destruct (H4 (t - 1) ltac:(lia)) as [K1 K2].
        replace (total + t_boundary st1 + (t - 1)) with (total + t_boundary st + t) in * by lia.
        rewrite K1, K2, NS by lia. auto.
    + intros p Hp. destruct (H5 p ltac:(lia)) as [-> ->]. rewrite A1, G1, !upd_other by lia. auto.
    + intros p Hp. rewrite H6 by (intros ad Ha; apply Hp; right; exact Ha).
      rewrite M1. apply upd_other. intros E. apply (Hp x); [left; reflexivity|auto].
    + intros t Ht Hd. destruct (Z.eq_dec t 0) as [->|Hn].
      * rewrite N0. rewrite H6.
        -- rewrite M1, upd_same. lia.
        -- intros ad Ha. destruct (In_nth l ad vzero Ha) as [k [Hk Ek]].
           intros E. apply (Hd (Z.of_nat k + 1)); [unfold len in *; lia|lia|].
           rewrite NS by lia. unfold nthV at 1. replace (Z.to_nat (Z.of_nat k + 1 - 1)) with k by lia.
           rewrite Ek, E. reflexivity.
      * rewrite NS by lia. rewrite H7; [lia|lia|].
        intros t' Ht' Hne. specialize (Hd (t' + 1) ltac:(lia) ltac:(lia)).
        rewrite !NS in Hd by lia. replace (t' + 1 - 1) with t' in Hd by lia. exact Hd.
Qed.

Definition mesh2 (D : V3) : V3 := let '(v3 d0 d1 d2) := D in v3 (d0 * 2) (d1 * 2) (d2 * 2).
Lemma pos_mesh2 : forall D, pos_mesh D -> pos_mesh (mesh2 D).
Proof. intros [] ; cbn. lia. Qed.
Lemma mesh_size2 : forall D, mesh_size (mesh2 D) = 8 * num_gp D.
Proof. intros []. cbn -[Z.mul]. ring. Qed.
Lemma double_index_grid_index : forall D PS a, bz_double_index D PS a = grid_index a (mesh2 D).
Proof.
  intros [d0 d1 d2] [p q r] [x y z]. unfold bz_double_index.
  replace (v3 (x * 2 + p) (y * 2 + q) (z * 2 + r)) with (dbl (v3 x y z) (v3 p q r)).
  - apply double_grid_index_dbl.
  - unfold dbl. cbn -[Z.add Z.mul]. f_equal; ring.
Qed.
Lemma double_index_range : forall D PS a, pos_mesh D -> 0 <= bz_double_index D PS a < 8 * num_gp D.
Proof.
  intros D PS a HD. rewrite double_index_grid_index, <- mesh_size2.
  apply grid_index_range, pos_mesh2, HD.
Qed.
Lemma double_index_eq : forall D PS a b, pos_mesh D ->
  (bz_double_index D PS a = bz_double_index D PS b <-> vcong (mesh2 D) a b).
Proof.
  intros D PS a b HD. rewrite !double_index_grid_index. apply grid_index_eq_iff, pos_mesh2, HD.
Qed.
Lemma vcong2_vcong : forall D a b, vcong (mesh2 D) a b -> vcong D a b.
Proof.
  intros [] a b [[k0 k1 k2] ->]. exists (v3 (2 * k0) (2 * k1) (2 * k2)).
  destruct b. cbn -[Z.mul Z.add]. f_equal; ring.
Qed.
Lemma reps_cong : forall B Qi tol i a, In a (reps B Qi tol i) ->
  vcong (bD B) a (get_grid_address_from_index i (bD B)).
Proof.
  intros B Qi tol i a H. unfold reps in H. apply in_map_iff in H. destruct H as [s [<- _]].
  unfold bz_address. eexists. f_equal.
  instantiate (1 := mulMV Qi (vsub s (bz_nint B (get_grid_address_from_index i (bD B))))).
  destruct (mulMV Qi _), (bD B). cbn. f_equal; ring.
Qed.
Lemma nthV_in : forall l t, 0 <= t < len l -> In (nthV l t) l.
Proof. intros l t H. unfold nthV. apply nth_In. unfold len in H. lia. Qed.
Lemma in_nthV : forall l a, In a l -> exists t, 0 <= t < len l /\ nthV l t = a.
Proof.
  intros l a H. destruct (In_nth l a vzero H) as [k [Hk Ek]]. exists (Z.of_nat k).
  unfold len, nthV. rewrite Nat2Z.id. split; [lia|exact Ek].
Qed.

Section Type1.
Variables (B : BzIn) (Qi : M3) (tol : Q) (addr0 : Z -> V3) (map0 b2g0 : Z -> Z).
Let D := bD B.
Let PS := bPS B.
Let N := num_gp D.
Let R i := reps B Qi tol i.
Let g i := len (R i) - 1.
(** Position in [addresses] of representative t of grid point k. *)
Definition slot1 (k t : Z) : Z := if t =? 0 then k else N + off g k + (t - 1).
Hypothesis HD : pos_mesh D.
Hypothesis Hne : forall i, 0 <= i < N -> 0 <= g i.
Let dd ad := bz_double_index D PS ad.

Lemma dd_other : forall k k' ad ad', 0 <= k < N -> 0 <= k' < N -> k <> k' ->
  In ad (R k) -> In ad' (R k') -> dd ad <> dd ad'.
Proof.
  intros k k' ad ad' Hk Hk' Hkk H H' E. apply double_index_eq in E; auto.
  apply vcong2_vcong in E.
  assert (vcong D (get_grid_address_from_index k D) (get_grid_address_from_index k' D)) as C.
  { eapply vcong_trans; [apply vcong_sym; eapply reps_cong; exact H|].
    eapply vcong_trans; [exact E|]. eapply reps_cong; exact H'. }
  apply grid_index_eq_iff in C; auto. unfold N in *. rewrite num_gp_mesh_size in *.
  rewrite !index_of_address in C by auto. contradiction.
Qed.

Definition run1 (m : Z) : T1 :=
  fold_left (type1_step B Qi tol) (zrange m) (mkT1 addr0 (upd map0 (8 * N) 0) b2g0 0 0 0).

Lemma type1_inv : forall m, 0 <= m <= N ->
  let s := run1 m in
  t_boundary s = off g m /\ t_shift s = off g m /\
  (forall k, 0 <= k <= m -> t_map s (8 * N + k) = off g k) /\
  (forall k t, 0 <= k < m -> 0 <= t <= g k ->
     t_addr s (slot1 k t) = nthV (R k) t /\ t_b2g s (slot1 k t) = k) /\
  (forall p, 0 <= p < 8 * N -> (forall k ad, 0 <= k < m -> In ad (R k) -> dd ad <> p) ->
     t_map s p = map0 p) /\
  ((forall k t t', 0 <= k < m -> 0 <= t <= g k -> 0 <= t' <= g k -> t <> t' ->
      dd (nthV (R k) t) <> dd (nthV (R k) t')) ->
   forall k t, 0 <= k < m -> 0 <= t <= g k -> t_map s (dd (nthV (R k) t)) = slot1 k t).
Proof.
  intros m [Hm HN]. revert HN. unfold run1.
  pattern m, (zrange m). apply zrange_ind; auto; clear m Hm.
  - intros _. cbn -[Z.mul Z.add off]. split; [reflexivity|]. split; [reflexivity|].
    split. { intros k Hk. assert (k = 0) as -> by lia. rewrite Z.add_0_r, upd_same. reflexivity. }
    split; [lia|]. split; [|lia]. intros p Hp _. apply upd_other. lia.
  - intros n Hn IH HN. specialize (IH ltac:(lia)). cbv zeta in IH |- *.
    rewrite fold_left_app_one.
    set (s := fold_left _ (zrange n) _) in *. clearbody s.
    destruct IH as [I1 [I2 [I3' [I4 [I5 I6]]]]].
    unfold type1_step. rewrite type1_inner_push. fold D PS N.
    assert (0 <= g n) as Hgn by (apply Hne; lia).
    destruct (R n) as [|x l] eqn:ER. { exfalso. unfold g in Hgn. rewrite ER in Hgn. cbn in Hgn. lia. }
    unfold R in ER. rewrite ER. fold (R n) in ER. cbn [fold_left].
    set (s1 := push1 D PS N n _ x).
    assert (t_count s1 = 1) as C1 by reflexivity.
    assert (t_boundary s1 = t_boundary s) as B1 by reflexivity.
    assert (t_addr s1 = upd (t_addr s) n x) as A1 by reflexivity.
    assert (t_b2g s1 = upd (t_b2g s) n n) as G1 by reflexivity.
    assert (t_map s1 = upd (t_map s) (dd x) n) as M1 by reflexivity.
    assert (t_shift s1 = t_shift s) as S1 by reflexivity.
    pose proof (push1_rest D PS N n l s1 ltac:(lia)) as H. cbv zeta in H.
    set (s2 := fold_left (push1 D PS N n) l s1) in *. clearbody s2 s1.
    destruct H as [P1 [P2 [P3 [P4 [P5 [P6 P7]]]]]].
    assert (g n = len l) as Eg.
    { unfold g. fold (R n). rewrite ER. unfold len. cbn [length]. lia. }
    assert (off g (n + 1) = off g n + g n) as Eo by (apply off_succ; auto).
    assert (0 <= len l) as Hl by (unfold len; lia).
    assert (forall t, 0 < t -> nthV (x :: l) t = nthV l (t - 1)) as NS.
    { intros t Ht. unfold nthV. replace (Z.to_nat t) with (S (Z.to_nat (t - 1))) by lia. reflexivity. }
    assert (nthV (x :: l) 0 = x) as N0 by reflexivity.
    cbn [t_boundary t_shift t_map t_addr t_b2g].
    assert (t_shift s2 + (t_count s2 - 1) = off g (n + 1)) as Esh by lia.
    rewrite Esh.
    assert (off g n >= 0) as Hoff.
    { pose proof (off_mono g 0 n ltac:(intros; apply Hne; lia) ltac:(lia)). rewrite off_0 in H. lia. }
    assert (forall ad, dd ad < 8 * N) as Hdr by (intros; apply double_index_range; auto).
    assert (forall ad, 0 <= dd ad) as Hdr0 by (intros; apply double_index_range; auto).
    assert (forall k t, 0 <= k < n -> 0 <= t <= g k -> slot1 k t < N + off g n /\ slot1 k t <> n) as Hslot.
    { intros k t Hk Ht. unfold slot1. destruct (Z.eqb_spec t 0); [lia|].
      pose proof (off_succ g k ltac:(lia)).
      pose proof (off_mono g (k + 1) n ltac:(intros; apply Hne; lia) ltac:(lia)).
      pose proof (off_mono g 0 k ltac:(intros; apply Hne; lia) ltac:(lia)). rewrite off_0 in *. lia. }
    split; [lia|]. split; [reflexivity|].
    split; [|split; [|split]].
    + intros k Hk. unfold upd. destruct (Z.eqb_spec (8 * N + k) (8 * N + n + 1)) as [E|E].
      * replace (n + 1) with k by lia. reflexivity.
      * rewrite P6.
        -- rewrite M1, upd_other; [apply I3'; lia|]. specialize (Hdr x). unfold dd in *. lia.
        -- intros ad _. specialize (Hdr ad). unfold dd in *. lia.
    + intros k t Hk Ht. destruct (Z.eq_dec k n) as [->|Hkn].
      * rewrite ER. unfold slot1. destruct (Z.eqb_spec t 0) as [->|Ht0].
        -- destruct (P5 n) as [-> ->]; [lia|]. rewrite A1, G1, !upd_same. auto.
        -- destruct (P4 (t - 1)) as [K1 K2]; [lia|]. rewrite B1, I1 in K1, K2.
           rewrite K1, K2, NS by lia. auto.
      * destruct (Hslot k t ltac:(lia) Ht) as [Hs1 Hs2].
        destruct (P5 (slot1 k t)) as [-> ->]; [lia|]. rewrite A1, G1, !upd_other by auto. apply I4; lia.
    + intros p Hp Hfree. rewrite upd_other by lia. rewrite P6.
      * rewrite M1, upd_other; [apply I5; auto; intros k' ad' Hk' Ha'; apply (Hfree k'); [lia|exact Ha']|].
        apply not_eq_sym. apply (Hfree n); [lia|]. rewrite ER. left; reflexivity.
      * intros ad Ha. apply (Hfree n); [lia|]. rewrite ER. right; exact Ha.
    + intros Hd k t Hk Ht.
      assert (8 * N + n + 1 <> dd (nthV (R k) t)) as Hx by (specialize (Hdr (nthV (R k) t)); lia).
      rewrite upd_other by auto.
      destruct (Z.eq_dec k n) as [->|Hkn].
      * rewrite ER. unfold slot1. destruct (Z.eqb_spec t 0) as [->|Ht0].
        -- rewrite N0. rewrite P6; [rewrite M1, upd_same; reflexivity|].
           intros ad Ha. destruct (in_nthV l ad Ha) as [t' [Ht' <-]].
           intros E. apply (Hd n (t' + 1) 0); try lia. rewrite ER, NS, N0 by lia.
           replace (t' + 1 - 1) with t' by lia. exact E.
        -- rewrite NS by lia. rewrite B1, I1 in P7. apply P7; [lia|].
           intros t' Ht' Hne'. intros E. apply (Hd n (t' + 1) t); try lia.
           rewrite ER, !NS by lia. replace (t' + 1 - 1) with t' by lia. exact E.
      * assert (In (nthV (R k) t) (R k)) as Hin by (apply nthV_in; unfold g in Ht; lia).
        rewrite P6.
        -- rewrite M1, upd_other.
           ++ apply I6; auto; [|lia]. intros; apply Hd; auto; lia.
           ++ apply (dd_other k n); auto; try lia. rewrite ER. left; reflexivity.
        -- intros ad Ha E. apply (dd_other n k ad (nthV (R k) t)); auto; try lia.
           rewrite ER. right; exact Ha.
Qed.
End Type1.

(** ** No short reciprocal lattice vector: representatives differ modulo the doubled mesh *)
Definition no_short_G (L : QM) (U : M3) (tol : Q) : Prop :=
  forall k, k <> vzero -> (2 * tol <= G_len2 L U k)%Q.

Lemma parallelogram : forall L r s g,
  (qnorm2 (qmulMV L (qvadd r (qvsub s g))) + qnorm2 (qmulMV L (qvadd r (qvadd s g))) ==
   2 * qnorm2 (qmulMV L (qvadd r s)) + 2 * qnorm2 (qmulMV L g))%Q.
Proof. intros [] [] [] []. cbn. ring. Qed.

Lemma vcong2_half : forall D Qi a n s1 s2, pos_mesh D ->
  vcong (mesh2 D) (bz_address D Qi a n s2) (bz_address D Qi a n s1) ->
  exists k, mulMV Qi (vsub s2 s1) = vadd k k.
Proof.
  intros D Qi a n s1 s2 HD [k H]. exists k. unfold bz_address in H.
  assert (mulMV Qi (vsub s2 s1) = vsub (mulMV Qi (vsub s2 n)) (mulMV Qi (vsub s1 n))) as ->.
  { destruct Qi, s1, s2, n. cbn -[Z.mul Z.add Z.sub]. f_equal; ring. }
  destruct (mulMV Qi (vsub s2 n)), (mulMV Qi (vsub s1 n)), a, k, D as [d0 d1 d2].
  cbn -[Z.mul Z.add Z.sub] in H |- *. injection H as H0 H1 H2. cbn in HD. destruct HD as [X [Y W]].
  f_equal; [apply (Z.mul_reg_r _ _ d0)|apply (Z.mul_reg_r _ _ d1)|apply (Z.mul_reg_r _ _ d2)]; nia.
Qed.

Lemma reps_distinct2 : forall B Qi tol i a b, pos_mesh (bD B) -> (0 < tol)%Q ->
  mulMM (bQ B) Qi = I3 -> mulMM Qi (bQ B) = I3 -> no_short_G (bL B) (bQ B) tol ->
  In a (reps B Qi tol i) -> In b (reps B Qi tol i) -> vcong (mesh2 (bD B)) a b -> a = b.
Proof.
  intros B Qi tol i a b HD Ht HQ HQ' HG Ha Hb Hc. unfold reps in Ha, Hb.
  set (a0 := get_grid_address_from_index i (bD B)) in *.
  set (n := bz_nint B a0) in *.
  apply in_map_iff in Ha. destruct Ha as [s2 [<- H2]]. apply in_map_iff in Hb. destruct Hb as [s1 [<- H1]].
  apply filter_In in H1. destruct H1 as [H1 K1]. apply filter_In in H2. destruct H2 as [H2 K2].
  destruct (vcong2_half _ _ _ _ _ _ HD Hc) as [k Hk].
  destruct (V3_eq_dec k vzero) as [->|Hkn].
  - f_equal. assert (vsub s2 s1 = vzero) as E.
    { rewrite <- (mulMV_1 (vsub s2 s1)), <- HQ, mulMV_mulMM, Hk. destruct (bQ B). cbn -[Z.mul Z.add].
      unfold vzero. f_equal; ring. }
    destruct s1, s2. cbn in E. injection E as ? ? ?. f_equal; lia.
  - exfalso.
    set (g := mulMV (bQ B) k).
    assert (vsub s2 s1 = vadd g g) as Eg.
    { rewrite <- (mulMV_1 (vsub s2 s1)), <- HQ, mulMV_mulMM, Hk. apply mulMV_add. }
    set (sm := vadd s1 g).
    assert (box sm) as Hbox.
    { apply search_box in H1, H2. unfold sm. destruct s1, s2, g. cbn in *. injection Eg as ? ? ?. lia. }
    assert (Hmind : (min_distance (bz_distances B a0) tol - tol <= bz_distance B a0 sm)%Q).
    { apply (min_distance_spec (bz_distances B a0) tol (dists_ne B a0) ltac:(lra)).
      apply in_map. now apply search_box. }
    unfold kept in K1, K2. apply qltb_lt in K1, K2.
    set (m := min_distance (bz_distances B a0) tol) in *. clearbody m.
    assert (s1 = vsub sm g) as E1 by (unfold sm; destruct s1, g; cbn; f_equal; ring).
    assert (s2 = vadd sm g) as E2.
    { unfold sm. destruct s1, s2, g. cbn in Eg |- *. injection Eg as ? ? ?. f_equal; lia. }
    pose proof (HG k Hkn) as Hshort. unfold G_len2 in Hshort. fold g in Hshort.
    unfold bz_distance in K1, K2, Hmind.
    set (r := qvsub (q_red B a0) (qv_of (bz_nint B a0))) in *.
    pose proof (parallelogram (bL B) r (qv_of sm) (qv_of g)) as Par.
    rewrite qvsub_of, qvadd_of, <- E1, <- E2 in Par. lra.
Qed.

Definition parity3 (v : V3) : V3 := let '(v3 x y z) := v in v3 (x mod 2) (y mod 2) (z mod 2).
Definition parities : list V3 :=
  [v3 0 0 0; v3 0 0 1; v3 0 1 0; v3 0 1 1; v3 1 0 0; v3 1 0 1; v3 1 1 0; v3 1 1 1].
Lemma parity_in : forall v, In (parity3 v) parities.
Proof.
  intros [x y z]. cbn [parity3].
  pose proof (Z.mod_pos_bound x 2 ltac:(lia)). pose proof (Z.mod_pos_bound y 2 ltac:(lia)).
  pose proof (Z.mod_pos_bound z 2 ltac:(lia)).
  assert (x mod 2 = 0 \/ x mod 2 = 1) as [-> | ->] by lia;
  assert (y mod 2 = 0 \/ y mod 2 = 1) as [-> | ->] by lia;
  assert (z mod 2 = 0 \/ z mod 2 = 1) as [-> | ->] by lia; cbn; tauto.
Qed.
Lemma parity_eq : forall D a k k', parity3 k = parity3 k' ->
  vcong (mesh2 D) (vadd a (vmul D k)) (vadd a (vmul D k')).
Proof.
  intros [d0 d1 d2] [a0 a1 a2] [k0 k1 k2] [l0 l1 l2] H. cbn in H. injection H as H0 H1 H2.
  exists (v3 ((k0 - l0) / 2) ((k1 - l1) / 2) ((k2 - l2) / 2)). cbn -[Z.mul Z.add Z.div].
  assert (forall k l, k mod 2 = l mod 2 -> k = l + 2 * ((k - l) / 2)) as K.
  { intros k l E. pose proof (Z.div_mod (k - l) 2 ltac:(lia)).
    rewrite Zminus_mod, E, Z.sub_diag in H. cbn [Z.modulo] in H. rewrite Zmod_0_l in H. lia. }
  apply K in H0, H1, H2. f_equal; nia.
Qed.

Lemma vmul_comm : forall u v, vmul u v = vmul v u.
Proof. intros [] []. cbn. f_equal; ring. Qed.

Lemma reps_le_8 : forall B Qi tol i, pos_mesh (bD B) -> (0 < tol)%Q ->
  mulMM (bQ B) Qi = I3 -> mulMM Qi (bQ B) = I3 -> no_short_G (bL B) (bQ B) tol ->
  len (reps B Qi tol i) <= 8.
Proof.
  intros B Qi tol i HD Ht HQ HQ' HG.
  pose proof (reps_distinct2 B Qi tol i) as Hd.
  unfold reps in *. set (a0 := get_grid_address_from_index i (bD B)) in *.
  set (n := bz_nint B a0) in *. set (l := filter (kept B tol a0) bz_search_space) in *.
  unfold len. rewrite map_length.
  set (p := fun s => parity3 (mulMV Qi (vsub s n))).
  rewrite <- (map_length p). assert (NoDup (map p l)) as Hn.
  { assert (NoDup l) as Hl by (apply NoDup_filter, search_nodup).
    assert (forall s s', In s l -> In s' l -> p s = p s' -> s = s') as Hinj.
    { intros s s' Hs Hs' E. apply (bz_address_inj (bD B) (bQ B) Qi a0 n); auto.
      apply Hd; auto using in_map. unfold bz_address.
      rewrite (vmul_comm (mulMV Qi (vsub s n))), (vmul_comm (mulMV Qi (vsub s' n))).
      apply parity_eq. exact E. }
    clear -Hl Hinj. induction l as [|s l IH]; cbn; constructor.
    - intros H. apply in_map_iff in H. destruct H as [s' [E Hs']].
      inversion Hl; subst. assert (s' = s) by (apply Hinj; auto; [right; auto|left; auto]). subst. contradiction.
    - inversion Hl; subst. apply IH; auto. intros; apply Hinj; auto; right; auto. }
  assert (length (map p l) <= length parities)%nat as K.
  { apply NoDup_incl_length; auto. intros x Hx. apply in_map_iff in Hx. destruct Hx as [s [<- _]]. apply parity_in. }
  cbn [length parities] in K. lia.
Qed.

Lemma off_le : forall f c m, 0 <= m -> (forall i, 0 <= i < m -> f i <= c) -> off f m <= c * m.
Proof.
  intros f c m Hm. pattern m, (zrange m). apply zrange_ind; auto.
  - intros _. cbn. lia.
  - intros n Hn IH H. rewrite off_succ by auto. specialize (IH ltac:(intros; apply H; lia)).
    specialize (H n ltac:(lia)). lia.
Qed.
Lemma off_minus_one : forall f m, 0 <= m -> off (fun i => f i - 1) m = off f m - m.
Proof.
  intros f m Hm. pattern m, (zrange m). apply zrange_ind; auto.
  intros n Hn IH. rewrite !off_succ by auto. lia.
Qed.

(** ** The tolerance is positive for a non-degenerate lattice *)
Local Open Scope Q_scope.
Lemma tolerance_pos : forall B, pos_mesh (bD B) -> unimod (bQ B) -> ~ qdet (bL B) == 0 ->
  0 < bz_tolerance B.
Proof.
  intros [[d0 d1 d2] Q PS L] HD HQ HL. unfold bz_tolerance. cbn [bD bQ bL] in *.
  assert (~ qdet (qmulMM L (qm_of Q)) == 0) as Hd.
  { assert (qdet (qmulMM L (qm_of Q)) == qdet L * qz (det Q)) as ->.
    { destruct L, Q. cbn -[qz Z.mul Z.add Z.sub]. rewrite !qz_add, !qz_mul, !qz_sub, !qz_mul. ring. }
    destruct HQ as [-> | ->]; intros E; apply HL.
    - change (qz 1) with 1 in E. lra.
    - change (qz (-1)) with (-(1)) in E. lra. }
  destruct (qmulMM L (qm_of Q)) as [a b c d e f g h i]. cbv zeta.
  assert (0 < (a * a + d * d + g * g) / qz (d0 * d0)) as H0.
  { cbn in HD. assert (0 < qz (d0 * d0)) as Hp. { apply (proj1 (qz_lt 0 (d0 * d0))). nia. }
    assert (0 < a * a + d * d + g * g) as Hs.
    { destruct (Qlt_le_dec 0 (a * a + d * d + g * g)) as [|Hle]; auto. exfalso. apply Hd.
      assert (a == 0) as Ea by nra. assert (d == 0) as Ed by nra. assert (g == 0) as Eg by nra.
      cbn. rewrite Ea, Ed, Eg. ring. }
    apply Qlt_shift_div_l; [exact Hp|lra]. }
  set (l0 := (a * a + d * d + g * g) / qz (d0 * d0)) in *. clearbody l0.
  set (l1 := (b * b + e * e + h * h) / qz (d1 * d1)). clearbody l1.
  set (l2 := (c * c + f * f + i * i) / qz (d2 * d2)). clearbody l2.
  assert (0 < (if qltb l0 l1 then l1 else l0)) as H1.
  { destruct (qltb l0 l1) eqn:E; [apply qltb_lt in E|]; lra. }
  set (t1 := if qltb l0 l1 then l1 else l0) in *. clearbody t1.
  assert (0 < (if qltb t1 l2 then l2 else t1)) as H2.
  { destruct (qltb t1 l2) eqn:E; [apply qltb_lt in E|]; lra. }
  unfold GRID_TOLERANCE_FACTOR. lra.
Qed.
