(** Lemmas about the triplet loops. *)
From Coq Require Import ZArith QArith List Lia Lqa Bool Permutation.
From Verif Require Import Base BaseProofs Mat3 QMat GridSpec GridModel Orbit GridProofs BzModel TripletSpec TripletModel.
Import ListNotations.
Open Scope Z_scope.

(** ** Second loop, any order *)
Lemma fill_spec : forall mq order m, (forall x, In x order -> mq (mq x) = mq x) ->
  let m' := fold_left (perm_step2 mq) order m in
  (forall x, mq x = x \/ ~ In x order -> m' x = m x) /\
  (forall x, mq x <> x -> In x order -> m' x = m (mq x)).
Proof.
  intros mq order. induction order as [|y l IH] using rev_ind; intros m Hid; cbv zeta.
  - split; [reflexivity|]. intros x _ [].
  - destruct (IH m) as [I1 I2]. { intros x Hx. apply Hid. apply in_or_app. auto. }
    cbv zeta in I1, I2. rewrite fold_left_app_one. set (m' := fold_left _ l m) in *.
    assert (mq (mq y) = mq y) as Hy by (apply Hid; apply in_or_app; cbn; auto).
    unfold perm_step2. destruct (Z.eqb_spec (mq y) y) as [E|E].
    + split.
      * intros x [Hx|Hx]; apply I1; auto. right. intros K. apply Hx. apply in_or_app. auto.
      * intros x Hx Hin. apply in_app_or in Hin. destruct Hin as [Hin|[<-|[]]]; [|contradiction]. apply I2; auto.
    + split.
      * intros x Hx. assert (x <> y). { intros ->. destruct Hx as [Hx|Hx]; [contradiction|]. apply Hx. apply in_or_app. cbn. auto. }
        rewrite upd_other by auto. apply I1. destruct Hx as [Hx|Hx]; auto. right. intros K. apply Hx. apply in_or_app. auto.
      * intros x Hx Hin. destruct (Z.eq_dec x y) as [->|Hne].
        -- rewrite upd_same. apply I1. auto.
        -- rewrite upd_other by auto. apply I2; auto. apply in_app_or in Hin. destruct Hin as [Hin|[<-|[]]]; auto. congruence.
Qed.

Section Perm.
  Variables (D : V3) (gp0 : Z) (mq init : Z -> Z).
  Let n := num_gp D.
  Let s x := third_gp gp0 x D.
  Hypothesis Hr : forall x, 0 <= x < n -> 0 <= mq x < n.
  Hypothesis Hle : forall x, 0 <= x < n -> mq x <= x.
  Hypothesis Hid : forall x, 0 <= x < n -> mq (mq x) = mq x.

  Lemma loop1_spec : forall k, 0 <= k <= n ->
    let '(m, c) := fold_left (perm_step1 mq gp0 D) (zrange k) (init, 0) in
    (forall x, 0 <= x < k -> mq x = x -> m x = Z.min x (mq (s x))) /\
    c = zcount (fun x => (mq x =? x) && (x <=? mq (s x))) (zrange k).
  Proof.
    intros k [Hk Hkn]. revert Hkn. pattern k, (zrange k). apply zrange_ind; auto.
    - intros _. cbn. split; [lia|reflexivity].
    - intros j Hj IH Hjn. specialize (IH ltac:(lia)). rewrite fold_left_app_one.
      destruct (fold_left _ (zrange j) _) as [m c]. destruct IH as [I1 I2].
      rewrite zcount_app, zcount_cons. unfold perm_step1. fold (s j).
      change (zcount _ []) with 0.
      destruct (Z.eqb_spec (mq j) j) as [E|E]; cbn [andb].
      + destruct (Z.ltb_spec (mq (s j)) j) as [L|L].
        * destruct (Z.leb_spec j (mq (s j))); [lia|]. split; [|lia].
          intros x Hx Ex. destruct (Z.eq_dec x j) as [->|]; [rewrite upd_same; lia|].
          rewrite upd_other by auto. apply I1; auto. lia.
        * destruct (Z.leb_spec j (mq (s j))); [|lia]. split; [|lia].
          intros x Hx Ex. destruct (Z.eq_dec x j) as [->|]; [rewrite upd_same; lia|].
          rewrite upd_other by auto. apply I1; auto. lia.
      + split; [|lia]. intros x Hx Ex. apply I1; auto. destruct (Z.eq_dec x j) as [->|]; [contradiction|lia].
  Qed.

  Lemma perm_spec : forall order m c, (forall x, In x order <-> 0 <= x < n) ->
    ir_triplets_perm_in order mq init gp0 D = (m, c) ->
    (forall x, 0 <= x < n -> m x = Z.min (mq x) (mq (s (mq x)))) /\
    c = zcount (fun x => m x =? x) (zrange n).
  Proof.
    intros order m c Hord H. unfold ir_triplets_perm_in in H.
    pose proof (loop1_spec n) as L. fold n in H.
    assert (0 <= n <= n \/ n < 0) as [Hn|Hn] by lia.
    2:{ assert (zrange n = []) as Ez by (apply zrange_nonpos; lia). rewrite Ez in *. cbn in H.
        split; [lia|]. cbn. injection H. auto. }
    specialize (L Hn). destruct (fold_left _ (zrange n) _) as [m1 c1]. destruct L as [L1 L2].
    injection H as Hm Hc. subst c.
    destruct (fill_spec mq order m1) as [F1 F2]. { intros x Hx. apply Hid. now apply Hord. }
    cbv zeta in F1, F2. rewrite Hm in F1, F2.
    assert (forall x, 0 <= x < n -> m x = Z.min (mq x) (mq (s (mq x)))) as M.
    { intros x Hx. destruct (Z.eq_dec (mq x) x) as [E|E].
      - rewrite F1 by auto. rewrite E. apply L1; auto.
      - rewrite F2 by (auto; now apply Hord). apply L1; auto. }
    split; auto. rewrite L2. apply zcount_ext_in. intros x Hx. apply in_zrange in Hx.
    rewrite M by auto. specialize (Hle x Hx).
    destruct (Z.eqb_spec (mq x) x) as [E|E]; cbn [andb].
    - rewrite E. destruct (Z.leb_spec x (mq (s x))), (Z.eqb_spec (Z.min x (mq (s x))) x); auto; lia.
    - destruct (Z.eqb_spec (Z.min (mq x) (mq (s (mq x)))) x); auto; lia.
  Qed.

  Lemma noperm_spec : forall m c, ir_triplets_noperm mq init gp0 D = (m, c) ->
    (forall x, 0 <= x < n -> m x = mq x) /\ c = zcount (fun x => mq x =? x) (zrange n).
  Proof.
    intros m c H. unfold ir_triplets_noperm in H. fold n in H.
    assert (forall k, 0 <= k -> k <= n -> let '(m, c) := fold_left (noperm_step mq) (zrange k) (init, 0) in
      (forall x, 0 <= x < k -> m x = mq x) /\ c = zcount (fun x => mq x =? x) (zrange k)) as K.
    { intros k Hk. pattern k, (zrange k). apply zrange_ind; auto.
      - intros _. cbn. split; [lia|reflexivity].
      - intros j Hj IH Hjn. specialize (IH ltac:(lia)). rewrite fold_left_app_one.
        destruct (fold_left _ (zrange j) _) as [m' c']. destruct IH as [I1 I2].
        rewrite zcount_app, zcount_cons. change (zcount _ []) with 0. unfold noperm_step.
        destruct (Z.eqb_spec (mq j) j) as [E|E]; (split; [|lia]); intros x Hx;
          (destruct (Z.eq_dec x j) as [->|]; [rewrite upd_same|rewrite upd_other by auto; apply I1; lia]).
        + auto.
        + pose proof (Hle j ltac:(lia)). pose proof (Hr j ltac:(lia)). rewrite I1 by lia. apply Hid. lia. }
    assert (0 <= n <= n \/ n < 0) as [Hn|Hn] by lia.
    - specialize (K n ltac:(lia) ltac:(lia)). destruct (fold_left _ _ _) as [m' c'].
      injection H as -> ->. exact K.
    - assert (zrange n = []) as Ez by (apply zrange_nonpos; lia). rewrite Ez in *. cbn in H.
      injection H as <- <-. split; [lia|reflexivity].
  Qed.
End Perm.

(** ** The exchange of second and third point *)
Lemma act_addr : forall x R D, rotate_grid_index x R D vzero =
  grid_index (mulMV R (get_grid_address_from_index x D)) D.
Proof.
  intros x R D. rewrite (rotate_affine x R D vzero vzero) by (destruct R; reflexivity || (cbn; f_equal; lia)).
  f_equal. destruct (mulMV R _). cbn. f_equal; lia.
Qed.
Lemma vcong_neg_sub : forall D a b c, vcong D b c -> vcong D (vsub a b) (vsub a c).
Proof.
  intros [] [] [] [] [[k0 k1 k2] H]. exists (v3 (- k0) (- k1) (- k2)). cbn -[Z.mul Z.add Z.sub] in *.
  inversion H; subst. f_equal; ring.
Qed.
Lemma vcong_sub_l : forall D a b c, vcong D a b -> vcong D (vsub a c) (vsub b c).
Proof.
  intros [] [] [] [] [[k0 k1 k2] H]. exists (v3 k0 k1 k2). cbn -[Z.mul Z.add Z.sub] in *.
  inversion H; subst. f_equal; ring.
Qed.
Lemma vcong_neg : forall D a b, vcong D a b -> vcong D (vneg a) (vneg b).
Proof.
  intros [] [] [] [[k0 k1 k2] H]. exists (v3 (- k0) (- k1) (- k2)). cbn -[Z.mul Z.add Z.sub] in *.
  inversion H; subst. f_equal; ring.
Qed.
Lemma sub_sub : forall a b, vsub (vneg a) (vsub (vneg a) b) = b.
Proof. intros [] []. cbn. f_equal; ring. Qed.

Section Exchange.
  Variables (D : V3) (gp0 : Z) (rots : list M3).
  Hypothesis HD : pos_mesh D.
  Hypothesis Hgp0 : 0 <= gp0 < mesh_size D.
  Hypothesis HG : is_group rots.
  Hypothesis HC : forall R, In R rots -> compat D R.
  Let n := mesh_size D.
  Let S := point_group_with_q rots D gp0.
  Let a0 := get_grid_address_from_index gp0 D.
  Let adr x := get_grid_address_from_index x D.
  Let act R x := rotate_grid_index x R D vzero.
  Let s x := third_gp gp0 x D.

  Lemma stab_good : good_group D vzero S.
  Proof.
    split; [apply little_group_group; auto|]. intros R HR. apply little_group_spec in HR; auto.
    split; [apply HC, HR|apply shift_ok_zero].
  Qed.
  Lemma s_range : forall x, 0 <= s x < n.
  Proof. intros x. apply grid_index_range; auto. Qed.
  Lemma s_addr : forall x, vcong D (adr (s x)) (vsub (vneg a0) (adr x)).
  Proof. intros x. apply address_of_index_cong; auto. Qed.
  Lemma act_adr : forall R x, vcong D (adr (act R x)) (mulMV R (adr x)).
  Proof. intros R x. unfold act. rewrite act_addr. apply address_of_index_cong; auto. Qed.
  Lemma adr_inj : forall x y, 0 <= x < n -> 0 <= y < n -> vcong D (adr x) (adr y) -> x = y.
  Proof.
    intros x y Hx Hy H. apply grid_index_eq_iff in H; auto. unfold adr in H.
    rewrite !index_of_address in H; auto.
  Qed.
  Lemma s_invol : forall x, 0 <= x < n -> s (s x) = x.
  Proof.
    intros x Hx. apply adr_inj; auto using s_range. eapply vcong_trans; [apply s_addr|].
    eapply vcong_trans; [apply vcong_neg_sub, s_addr|]. rewrite sub_sub. apply vcong_refl.
  Qed.
  Lemma act_range : forall R x, 0 <= act R x < n.
  Proof. intros. apply rotate_range; auto. Qed.
  Lemma s_act : forall R x, In R S -> s (act R x) = act R (s x).
  Proof.
    intros R x HR. apply little_group_spec in HR; auto. destruct HR as [HR E].
    apply adr_inj; auto using s_range, act_range.
    eapply vcong_trans; [apply s_addr|]. eapply vcong_trans; [apply vcong_neg_sub, act_adr|].
    apply vcong_sym. eapply vcong_trans; [apply act_adr|].
    eapply vcong_trans; [apply compat_cong; [now apply HC|apply s_addr]|].
    assert (mulMV R (vsub (vneg a0) (adr x)) = vsub (vneg (mulMV R a0)) (mulMV R (adr x))) as ->.
    { destruct R, a0, (adr x). cbn. f_equal; ring. }
    apply vcong_sub_l, vcong_neg. exact E.
  Qed.

  (** The group generated by the operations and the exchange. *)
  Definition xact (g : M3 * bool) (x : Z) : Z := if snd g then s (act (fst g) x) else act (fst g) x.
  Definition xmul (g h : M3 * bool) : M3 * bool := (mulMM (fst g) (fst h), xorb (snd g) (snd h)).
  Definition xgrp (sw : bool) : list (M3 * bool) :=
    list_prod S (if sw then [false; true] else [false]).

  Lemma xgrp_in : forall sw R b, In (R, b) (xgrp sw) <-> In R S /\ (b = true -> sw = true).
  Proof.
    intros sw R b. unfold xgrp. rewrite in_prod_iff. destruct sw, b; cbn; intuition congruence.
  Qed.
  Lemma xe : forall sw, In (I3, false) (xgrp sw).
  Proof. intros sw. apply xgrp_in. split; [apply stab_good|discriminate]. Qed.
  Lemma xrange : forall sw g x, In g (xgrp sw) -> 0 <= x < n -> 0 <= xact g x < n.
  Proof. intros sw [R b] x _ _. unfold xact. destruct b; cbn; [apply s_range|apply act_range]. Qed.
  Lemma xact_e : forall x, 0 <= x < n -> xact (I3, false) x = x.
  Proof. intros x Hx. apply rotate_I3; auto. Qed.
  Lemma xclosed : forall sw a b, In a (xgrp sw) -> In b (xgrp sw) -> In (xmul a b) (xgrp sw).
  Proof.
    intros sw [R b] [R' b'] H1 H2. apply xgrp_in in H1, H2. apply xgrp_in. cbn. split.
    - destruct stab_good as [[_ [Hc _]] _]. apply Hc; tauto.
    - destruct b, b'; cbn; intuition.
  Qed.
  Lemma xact_mul : forall sw a b x, In a (xgrp sw) -> In b (xgrp sw) -> 0 <= x < n ->
    xact (xmul a b) x = xact a (xact b x).
  Proof.
    intros sw [R b] [R' b'] x H1 H2 Hx. apply xgrp_in in H1, H2. destruct H1 as [H1 _], H2 as [H2 _].
    assert (act (mulMM R R') x = act R (act R' x)) as E by (apply (gr_act D vzero S HD stab_good); auto).
    unfold xact, xmul. cbn [fst snd]. destruct b, b'; cbn [xorb]; rewrite E; auto.
    - rewrite <- s_act by auto. rewrite s_invol; auto using act_range.
    - rewrite s_act by auto. auto.
  Qed.
  Lemma xinv : forall sw a, In a (xgrp sw) -> exists b, In b (xgrp sw) /\
    (forall c, xmul b (xmul a c) = c) /\ (forall c, xmul a (xmul b c) = c) /\
    xmul a b = (I3, false) /\ xmul b a = (I3, false).
  Proof.
    intros sw [R b] H. apply xgrp_in in H. destruct H as [H1 H2].
    destruct (gr_inv D vzero S stab_good R H1) as [R' [K1 [K2 [K3 [K4 K5]]]]].
    exists (R', b). split; [apply xgrp_in; auto|]. unfold xmul; cbn.
    repeat split; try (intros [c bc]; cbn; rewrite ?K2, ?K3); destruct b; try destruct bc; cbn; rewrite ?K4, ?K5; auto.
  Qed.

  Variable init_q : Z -> Z.
  Let mq := get_ir_grid_map S D vzero init_q.
  Lemma mq_least : forall x, 0 <= x < n -> is_least_image S act x (mq x).
  Proof. intros x Hx. apply ir_grid_map_least; auto. apply stab_good. Qed.
  Lemma mq_range : forall x, 0 <= x < n -> 0 <= mq x < n.
  Proof. intros x Hx. destruct (mq_least x Hx) as [[R [HR <-]] _]. apply act_range. Qed.
  Lemma mq_le : forall x, 0 <= x < n -> mq x <= x.
  Proof.
    intros x Hx. destruct (mq_least x Hx) as [_ H]. specialize (H I3 (proj1 (proj1 stab_good))).
    unfold act in H. rewrite rotate_I3 in H; auto.
  Qed.
  Lemma mq_orbit : forall R x, In R S -> 0 <= x < n -> mq (act R x) = mq x.
  Proof.
    intros R x HR Hx.
    apply (least_image_unique M3 S act x).
    - apply (least_image_related M3 mulMM I3 S act n) with (y := act R x); auto.
      + intros; apply act_range.
      + intros; apply rotate_I3; auto.
      + apply (gr_closed D vzero S stab_good).
      + apply (gr_act D vzero S HD stab_good).
      + apply (gr_inv D vzero S stab_good).
      + exists R; auto.
      + apply mq_least, act_range.
    - apply mq_least; auto.
  Qed.
  Lemma mq_idem : forall x, 0 <= x < n -> mq (mq x) = mq x.
  Proof.
    intros x Hx. destruct (mq_least x Hx) as [[R [HR E]] _]. rewrite <- E at 1. apply mq_orbit; auto.
  Qed.

  Lemma table_least : forall sw order init m c,
    (forall x, In x order <-> 0 <= x < n) ->
    (if sw : bool then ir_triplets_perm_in order mq init gp0 D else ir_triplets_noperm mq init gp0 D) = (m, c) ->
    (forall x, 0 <= x < n -> is_least_image (xgrp sw) xact x (m x)) /\
    c = zcount (fun x => m x =? x) (zrange n).
  Proof.
    intros sw order init m c Hord H. destruct sw.
    - destruct (perm_spec D gp0 mq init mq_range mq_le mq_idem order m c Hord H) as [P1 P2].
      split; auto. intros x Hx. rewrite P1 by auto.
      assert (mq (third_gp gp0 (mq x) D) = mq (s x)) as ->.
      { destruct (mq_least x Hx) as [[R [HR E]] _]. rewrite <- E at 1. fold (s (act R x)).
        rewrite s_act by auto. apply mq_orbit; auto using s_range. }
      pose proof (mq_least x Hx) as [[R [HR E]] L].
      pose proof (mq_least (s x) (s_range x)) as [[R' [HR' E']] L'].
      split.
      + destruct (Z.min_spec (mq x) (mq (s x))) as [[_ ->]|[_ ->]].
        * exists (R, false). split; [apply xgrp_in; split; [auto|discriminate]|exact E].
        * exists (R', true). split; [apply xgrp_in; auto|]. unfold xact. cbn [fst snd].
          rewrite s_act by auto. exact E'.
      + intros [R1 b] H1. apply xgrp_in in H1. destruct H1 as [H1 _]. unfold xact. cbn [fst snd].
        destruct b; [rewrite s_act by auto; specialize (L' R1 H1); lia|specialize (L R1 H1); lia].
    - destruct (noperm_spec D gp0 mq init mq_range mq_le mq_idem m c H) as [P1 P2]. split.
      + intros x Hx. rewrite P1 by auto. destruct (mq_least x Hx) as [[R [HR E]] L]. split.
        * exists (R, false). split; [apply xgrp_in; split; [auto|discriminate]|exact E].
        * intros [R1 b] H1. apply xgrp_in in H1. destruct H1 as [H1 H2].
          destruct b; [discriminate (H2 eq_refl)|]. apply L; auto.
      + rewrite P2. apply zcount_ext_in. intros x Hx. apply in_zrange in Hx. rewrite P1; auto.
  Qed.

  (** Address-level meaning of the group. *)
  Lemma xrel_equiv : forall sw x y, 0 <= x < n -> 0 <= y < n ->
    ((exists g, In g (xgrp sw) /\ xact g x = y) <-> tp_equiv D rots a0 sw (adr x) (adr y)).
  Proof.
    intros sw x y Hx Hy. split.
    - intros [[R b] [Hg <-]]. apply xgrp_in in Hg. destruct Hg as [HR Hb].
      pose proof HR as HR'. apply little_group_spec in HR'; auto. destruct HR' as [HR1 HR2].
      exists R. split; auto. split; auto. unfold xact. cbn [fst snd]. destruct b.
      + right. split; auto. eapply vcong_trans; [apply s_addr|]. apply vcong_neg_sub, act_adr.
      + left. apply act_adr.
    - intros [R [HR [E H]]]. assert (In R S) as HS by (apply little_group_spec; auto).
      destruct H as [H|[-> H]].
      + exists (R, false). split; [apply xgrp_in; split; [auto|discriminate]|].
        apply adr_inj; auto; [apply act_range|]. eapply vcong_trans; [apply act_adr|]. now apply vcong_sym.
      + exists (R, true). split; [apply xgrp_in; auto|].
        apply adr_inj; auto; [apply s_range|]. eapply vcong_trans; [apply s_addr|].
        eapply vcong_trans; [apply vcong_neg_sub, act_adr|]. now apply vcong_sym.
  Qed.
End Exchange.

(** ** Weights of an idempotent table *)
Lemma weights_fold : forall m (l : list Z) w0 g,
  fold_left (fun w x => upd w (m x) (w (m x) + 1)) l w0 g = w0 g + zcount (fun x => m x =? g) l.
Proof.
  intros m l. induction l as [|x l IH]; intros w0 g; cbn [fold_left].
  - change (zcount _ []) with 0. lia.
  - rewrite IH, zcount_cons. unfold upd. destruct (Z.eqb_spec g (m x)), (Z.eqb_spec (m x) g); subst; try lia.
Qed.
Lemma filter_map_pos : forall (f : Z -> Z) (p : Z -> bool) l, (forall x, In x l -> (0 <? f x) = p x) ->
  filter (fun c => 0 <? c) (map f l) = map f (filter p l).
Proof.
  intros f p l. induction l as [|x l IH]; intros H; cbn; auto.
  rewrite (H x) by (cbn; auto). destruct (p x); cbn; rewrite IH; auto; intros; apply H; cbn; auto.
Qed.
Lemma weights_spec : forall m n, (forall x, 0 <= x < n -> 0 <= m x < n /\ m (m x) = m x) ->
  triplet_weights m n = map (fun g => zcount (fun x => m x =? g) (zrange n)) (ir_q1_gps m n).
Proof.
  intros m n H. unfold triplet_weights. cbv zeta. unfold ir_q1_gps.
  rewrite (map_ext _ (fun g => zcount (fun x => m x =? g) (zrange n))).
  2:{ intros g. rewrite weights_fold. lia. }
  apply filter_map_pos. intros g Hg. apply in_zrange in Hg. apply eq_true_iff_eq.
  rewrite Z.ltb_lt, Z.eqb_eq, zcount_pos. split.
  - intros [x [Hx E]]. apply in_zrange in Hx. apply Z.eqb_eq in E. subst g. apply H; auto.
  - intros E. exists g. rewrite in_zrange, Z.eqb_eq. auto.
Qed.
Lemma weights_total : forall m n, 0 <= n -> (forall x, 0 <= x < n -> 0 <= m x < n /\ m (m x) = m x) ->
  zsum (triplet_weights m n) = n.
Proof.
  intros m n Hn H. rewrite weights_spec by auto.
  rewrite (map_ext _ (fun g => zsum (map (fun x => if m x =? g then 1 else 0) (zrange n)))).
  2:{ intros g. apply zcount_sum. }
  rewrite zsum_swap. rewrite (zsum_map_ext_in _ _ (fun _ => 1)).
  - rewrite zsum_map_const, length_zrange. lia.
  - intros x Hx. apply in_zrange in Hx. rewrite <- (zcount_sum Z (fun g => m x =? g)).
    rewrite (zcount_ext_in _ _ (fun g => g =? m x)) by (intros; apply Z.eqb_sym).
    apply zcount_eq_NoDup; [apply NoDup_filter, NoDup_zrange|].
    apply filter_In. rewrite in_zrange, Z.eqb_eq. apply H; auto.
Qed.

(** ** The search over representatives *)
Lemma in_triples : forall l0 l1 l2 a b c, In (a, b, c) (triples l0 l1 l2) <-> In a l0 /\ In b l1 /\ In c l2.
Proof.
  intros. unfold triples. rewrite in_flat_map. split.
  - intros [x [Hx H]]. apply in_flat_map in H. destruct H as [y [Hy H]]. apply in_map_iff in H.
    destruct H as [z [E Hz]]. injection E as <- <- <-. auto.
  - intros [H0 [H1 H2]]. exists a. split; auto. apply in_flat_map. exists b. split; auto.
    apply in_map_iff. exists c. auto.
Qed.

Lemma sq_dist_nonneg : forall G M, (0 <= get_squared_distance G M)%Q.
Proof.
  intros G M. unfold get_squared_distance. destruct (qmulMV M (qv_of G)) as [a b c].
  assert (forall q : Q, 0 <= q * q)%Q as K by (intros; nra).
  pose proof (K a). pose proof (K b). pose proof (K c). lra.
Qed.

Lemma tp_found_stays : forall T M tol l s, s_found s = true -> fold_left (tp_body T M tol) l s = s.
Proof.
  intros T M tol l. induction l as [|b l IH]; intros s H; cbn [fold_left]; auto.
  unfold tp_body at 2. rewrite H. apply IH; auto.
Qed.

Lemma tp_started : forall T M tol l, (0 <= tol)%Q -> forall s,
  s_found s = false -> (s_min s == get_squared_distance (tp_G T (s_tp s)) M)%Q ->
  let s' := fold_left (tp_body T M tol) l s in
  (s_found s' = true /\ In (s_tp s') l /\ tp_G T (s_tp s') = vzero) \/
  (s_found s' = false /\ (s_min s' == get_squared_distance (tp_G T (s_tp s')) M)%Q /\
   (s_tp s' = s_tp s \/ In (s_tp s') l) /\ (s_min s' <= s_min s)%Q /\
   forall b, In b l -> tp_G T b <> vzero /\ (s_min s' <= get_squared_distance (tp_G T b) M + tol)%Q).
Proof.
  intros T M tol l Ht. induction l as [|b l IH]; intros s Hf Hd; cbn [fold_left].
  - right. split; auto. split; auto. split; auto. split; [lra|]. intros b [].
  - destruct (veqb (tp_G T b) vzero) eqn:EG.
    + left. assert (tp_body T M tol s b = mkTpSt true (s_min s) b) as E.
      { unfold tp_body. rewrite Hf, EG. reflexivity. }
      cbv zeta. rewrite E, tp_found_stays by reflexivity. cbn. apply veqb_eq in EG. auto.
    + assert (tp_G T b <> vzero) as Hb. { intros E. apply veqb_eq in E. congruence. }
      pose proof (sq_dist_nonneg (tp_G T (s_tp s)) M) as Hn.
      assert (s_found (tp_body T M tol s b) = false /\
              (s_min (tp_body T M tol s b) == get_squared_distance (tp_G T (s_tp (tp_body T M tol s b))) M)%Q /\
              (s_tp (tp_body T M tol s b) = s_tp s \/ s_tp (tp_body T M tol s b) = b) /\
              (s_min (tp_body T M tol s b) <= s_min s)%Q /\
              (s_min (tp_body T M tol s b) <= get_squared_distance (tp_G T b) M + tol)%Q) as [K1 [K2 [K3 [K4 K5]]]].
      { unfold tp_body. rewrite Hf, EG.
        destruct (qltb (get_squared_distance (tp_G T b) M) (s_min s - tol)) eqn:E1; cbn [orb].
        - apply qltb_lt in E1. cbn. repeat split; auto; lra.
        - apply qltb_ge in E1. destruct (qltb (s_min s) 0) eqn:E2.
          + apply qltb_lt in E2. lra.
          + repeat split; auto; lra. }
      cbv zeta. destruct (IH _ K1 K2) as [[J1 [J2 J3]] | [J1 [J2 [J3 [J4 J5]]]]].
      * left. repeat split; auto. now right.
      * right. split; auto. split; auto. split.
        { destruct J3 as [->|J3]; [|right; now right]. destruct K3 as [-> | ->]; [auto|right; now left]. }
        split; [lra|]. intros b' [<-|Hb']; [split; auto; lra|apply J5; auto].
Qed.

Lemma tp_search_spec : forall T l0 l1 l2 init, (0 <= tp_tolerance T)%Q ->
  l0 <> [] -> l1 <> [] -> l2 <> [] ->
  let tp := tp_search T l0 l1 l2 init in
  In tp (triples l0 l1 l2) /\
  (tp_G T tp = vzero \/
   forall b, In b (triples l0 l1 l2) -> tp_G T b <> vzero /\
     (get_squared_distance (tp_G T tp) (get_LQD_inv T) <=
      get_squared_distance (tp_G T b) (get_LQD_inv T) + tp_tolerance T)%Q).
Proof.
  intros T l0 l1 l2 init Ht H0 H1 H2. cbv zeta. unfold tp_search.
  destruct (triples l0 l1 l2) as [|b l] eqn:E.
  { exfalso. destruct l0 as [|a l0]; [auto|]. destruct l1 as [|c l1]; [auto|]. destruct l2 as [|d l2]; [auto|].
    cbn in E. discriminate. }
  cbn [fold_left]. set (M := get_LQD_inv T). set (tol := tp_tolerance T) in *.
  unfold tp_body at 2 4 6. cbn [s_found s_min].
  destruct (veqb (tp_G T b) vzero) eqn:EG.
  - rewrite !tp_found_stays by reflexivity. cbn. apply veqb_eq in EG. auto.
  - assert (qltb (-1) 0 = true) as -> by reflexivity. rewrite orb_true_r.
    assert (tp_G T b <> vzero) as Hb. { intros K. apply veqb_eq in K. congruence. }
    destruct (tp_started T M tol l Ht (mkTpSt false (get_squared_distance (tp_G T b) M) b) eq_refl ltac:(reflexivity))
      as [[J1 [J2 J3]] | [J1 [J2 [J3 [J4 J5]]]]].
    + split; [now right|]. now left.
    + split; [cbn in J3; destruct J3 as [->|J3]; [now left|now right]|]. right.
      intros b' [<-|Hb'].
      * split; auto. rewrite <- J2. cbn in J4. lra.
      * rewrite <- J2. apply J5; auto.
Qed.
