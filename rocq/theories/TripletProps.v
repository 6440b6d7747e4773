(** Theorems C14, C15, C16: triplets. *)
From Coq Require Import ZArith QArith List Lia Lqa Bool Permutation.
From Verif Require Import Base BaseProofs Mat3 QMat GridSpec GridModel Orbit GridProofs GridProps
  BzSpec BzModel BzProofs BzProps TripletSpec TripletModel TripletProofs.
Import ListNotations.
Open Scope Z_scope.

(* ------------------------------------------------------------------ C14 *)
Lemma ir_triplets_table : forall it iq gp0 D rots sw m q c,
  get_ir_triplets_at_q it iq gp0 D rots sw = (m, q, c) ->
  q = get_ir_grid_map (point_group_with_q rots D gp0) D vzero iq /\
  (if sw : bool then ir_triplets_perm_in (zrange (num_gp D)) q it gp0 D else ir_triplets_noperm q it gp0 D) = (m, c).
Proof.
  intros it iq gp0 D rots sw m q c H. unfold get_ir_triplets_at_q in H.
  set (q' := get_ir_grid_map _ D vzero iq) in *.
  destruct sw.
  - change (ir_triplets_perm q' it gp0 D) with (ir_triplets_perm_in (zrange (num_gp D)) q' it gp0 D) in H.
    destruct (ir_triplets_perm_in _ q' it gp0 D) as [m' c'] eqn:E.
    assert (m' = m /\ q' = q /\ c' = c) as [-> [<- ->]] by (repeat split; congruence). auto.
  - destruct (ir_triplets_noperm q' it gp0 D) as [m' c'] eqn:E.
    assert (m' = m /\ q' = q /\ c' = c) as [-> [<- ->]] by (repeat split; congruence). auto.
Qed.

Definition tp_hyp (D : V3) (gp0 : Z) (rots : list M3) : Prop :=
  pos_mesh D /\ 0 <= gp0 < mesh_size D /\ is_group rots /\ forall R, In R rots -> compat D R.

Lemma ir_least : forall it iq gp0 D rots sw m q c, tp_hyp D gp0 rots ->
  get_ir_triplets_at_q it iq gp0 D rots sw = (m, q, c) ->
  (forall x, 0 <= x < mesh_size D -> is_least_image (xgrp D gp0 rots sw) (xact D gp0) x (m x)) /\
  c = zcount (fun x => m x =? x) (zrange (mesh_size D)).
Proof.
  intros it iq gp0 D rots sw m q c [HD [Hg [HG HC]]] H. apply ir_triplets_table in H. destruct H as [-> H].
  apply (table_least D gp0 rots HD Hg HG HC iq sw (zrange (num_gp D)) it m c); auto.
  intros x. apply in_zrange.
Qed.

(** Every second point is mapped to the smallest equivalent one. *)
Theorem C14_map_is_smallest_equivalent : forall it iq gp0 D rots sw m q c, tp_hyp D gp0 rots ->
  get_ir_triplets_at_q it iq gp0 D rots sw = (m, q, c) ->
  let adr x := get_grid_address_from_index x D in
  forall x, 0 <= x < mesh_size D ->
    0 <= m x < mesh_size D /\ tp_equiv D rots (adr gp0) sw (adr x) (adr (m x)) /\
    forall y, 0 <= y < mesh_size D -> tp_equiv D rots (adr gp0) sw (adr x) (adr y) -> m x <= y.
Proof.
  intros it iq gp0 D rots sw m q c Hyp H adr x Hx.
  destruct (ir_least _ _ _ _ _ _ _ _ _ Hyp H) as [L _]. destruct Hyp as [HD [Hg [HG HC]]].
  destruct (L x Hx) as [[g [Hgin E]] Hl].
  assert (0 <= m x < mesh_size D) as Hr.
  { rewrite <- E. apply (xrange D gp0 rots HD sw); auto. }
  split; auto. split.
  - apply (xrel_equiv D gp0 rots HD Hg sw x (m x)); auto. exists g. auto.
  - intros y Hy K. apply (xrel_equiv D gp0 rots HD Hg sw x y) in K; auto.
    destruct K as [g' [Hg' <-]]. apply Hl; auto.
Qed.
Print Assumptions C14_map_is_smallest_equivalent.

(** The map is a partition into equivalence classes; the returned count is the
    number of distinct values. *)
Theorem C14_map_partitions : forall it iq gp0 D rots sw m q c, tp_hyp D gp0 rots ->
  get_ir_triplets_at_q it iq gp0 D rots sw = (m, q, c) ->
  let adr x := get_grid_address_from_index x D in
  let n := mesh_size D in
  (forall x y, 0 <= x < n -> 0 <= y < n ->
     (m x = m y <-> tp_equiv D rots (adr gp0) sw (adr x) (adr y))) /\
  (forall x, 0 <= x < n -> m (m x) = m x) /\
  c = Z.of_nat (length (nodup Z.eq_dec (map m (zrange n)))) /\
  zsum (triplet_weights m n) = n.
Proof.
  intros it iq gp0 D rots sw m q c Hyp H adr n.
  destruct (ir_least _ _ _ _ _ _ _ _ _ Hyp H) as [L Hc]. pose proof Hyp as [HD [Hg [HG HC]]].
  pose proof (mesh_size_pos D HD) as HN.
  assert (A1 := xrange D gp0 rots HD sw).
  assert (A2 := xe D gp0 rots HD Hg HG HC sw).
  assert (A3 := xact_e D gp0 HD).
  assert (A4 := xclosed D gp0 rots HD Hg HG HC sw).
  assert (A5 := xact_mul D gp0 rots HD Hg HG HC sw).
  assert (A6 := xinv D gp0 rots HD Hg HG HC sw).
  assert (Hrange : forall x, 0 <= x < n -> 0 <= m x < n).
  { intros x Hx. apply (C14_map_is_smallest_equivalent _ _ _ _ _ _ _ _ _ Hyp H); auto. }
  assert (Hidem : forall x, 0 <= x < n -> m (m x) = m x).
  { intros x Hx. apply (mp_idem _ _ _ _ _ _ A1 A3 A4 A5 A6 m L); auto. }
  split; [|split; [|split]].
  - intros x y Hx Hy.
    pose proof (xrel_equiv D gp0 rots HD Hg sw x y Hx Hy) as K. cbv beta in K. unfold adr. rewrite <- K.
    apply (mp_eq_iff _ _ _ _ _ _ A1 A3 A4 A5 A6 m L); auto.
  - exact Hidem.
  - rewrite Hc. unfold zcount. f_equal. apply Permutation_length.
    apply NoDup_Permutation; [apply NoDup_filter, NoDup_zrange|apply NoDup_nodup|].
    intros y. rewrite filter_In, nodup_In, in_map_iff, in_zrange, Z.eqb_eq. fold n. split.
    + intros [Hy E]. exists y. rewrite in_zrange. auto.
    + intros [x [E Hx]]. apply in_zrange in Hx. subst y. split; auto.
  - apply weights_total; [lia|]. auto.
Qed.
Print Assumptions C14_map_partitions.

(** The parallel second loop: any execution order of its iterations gives the same
    table. *)
Theorem C14_fill_order_irrelevant : forall it iq gp0 D rots order m c m' c' x, tp_hyp D gp0 rots ->
  Permutation order (zrange (mesh_size D)) ->
  let q := get_ir_grid_map (point_group_with_q rots D gp0) D vzero iq in
  ir_triplets_perm q it gp0 D = (m, c) ->
  ir_triplets_perm_in order q it gp0 D = (m', c') ->
  c' = c /\ (0 <= x < mesh_size D -> m' x = m x).
Proof.
  intros it iq gp0 D rots order m c m' c' x [HD [Hg [HG HC]]] Hp q H H'.
  assert (R1 := mq_range D gp0 rots HD Hg HG HC iq).
  assert (R2 := mq_le D gp0 rots HD Hg HG HC iq).
  assert (R3 := mq_idem D gp0 rots HD Hg HG HC iq).
  fold q in R1, R2, R3.
  destruct (perm_spec D gp0 q it R1 R2 R3 (zrange (num_gp D)) m c) as [P1 P2]; auto.
  { intros y. apply in_zrange. }
  destruct (perm_spec D gp0 q it R1 R2 R3 order m' c') as [P1' P2']; auto.
  { intros y. rewrite <- (in_zrange (num_gp D)). split; intros K; [|apply Permutation_sym in Hp]; eapply Permutation_in; eauto. }
  split.
  - rewrite P2, P2'. apply zcount_ext_in. intros y Hy. apply in_zrange in Hy. rewrite P1, P1'; auto.
  - intros Hx. rewrite P1, P1'; auto.
Qed.
Print Assumptions C14_fill_order_irrelevant.

(** Python level: with time reversal the operations are completed by inversion. *)
Theorem C14_time_reversal : forall gp0 D tr rots sw m q c, tp_hyp D gp0 rots ->
  triplets_reciprocal_mesh_at_q gp0 D tr rots sw = Some (m, q, c) ->
  exists l, tp_hyp D gp0 l /\
    (forall R, In R l <-> In R rots \/ (tr = true /\ In (mneg R) rots)) /\
    get_ir_triplets_at_q (fun _ => 0) (fun _ => 0) gp0 D l sw = (m, q, c).
Proof.
  intros gp0 D tr rots sw m q c [HD [Hg [HG HC]]] H. unfold triplets_reciprocal_mesh_at_q in H.
  destruct (reciprocal_point_group rots tr false) as [l|] eqn:E; [|discriminate].
  pose proof (C07_point_group_contents rots tr false l E) as [_ [Hin Hl]].
  destruct (Hl HG) as [_ [Hgl _]]. exists l.
  assert (forall R, In R l <-> In R rots \/ (tr = true /\ In (mneg R) rots)) as Hin'.
  { intros R. rewrite Hin. cbn [rpg_input]. split; [tauto|]. intros [K|[-> K]]; auto.
    destruct (in_dec M3_eq_dec (mneg I3) rots) as [Hi|Hi]; [|auto]. left.
    destruct HG as [_ [Hc _]]. specialize (Hc _ _ Hi K). rewrite mneg_mul_l, mulMM_1_l, mneg_mneg in Hc. auto. }
  split; [|split; [auto|congruence]].
  split; [auto|]. split; [auto|]. split; [auto|]. intros R HR. apply Hin' in HR. destruct HR as [HR|[_ HR]]; auto.
  intros k. destruct (HC _ HR k) as [k' Hk']. exists (vneg k').
  destruct R, k, k', D. cbn -[Z.mul Z.add] in Hk' |- *. injection Hk' as E0 E1 E2. f_equal; lia.
Qed.
Print Assumptions C14_time_reversal.

Definition t_D := v3 4 4 2.
Definition t_rots : list M3 := [I3; m3 0 (-1) 0 1 0 0 0 0 1; m3 (-1) 0 0 0 (-1) 0 0 0 1; m3 0 1 0 (-1) 0 0 0 0 1].
Example C14_ex_hyp : tp_hyp t_D 16 t_rots.
Proof.
  split; [cbn; lia|]. split; [vm_compute; split; congruence|]. split; [apply is_groupb_sound; vm_compute; reflexivity|].
  intros R HR. apply compatb_sound; [cbn; lia|]. revert R HR. apply forallb_forall. vm_compute. reflexivity.
Qed.
Example C14_ex : let '(m, q, c) := get_ir_triplets_at_q (fun _ => 7) (fun _ => 9) 16 t_D t_rots true in
  (c, map m (zrange 32)) =
  (6, [0; 1; 2; 1; 1; 5; 6; 5; 2; 6; 10; 6; 1; 5; 6; 5; 0; 1; 2; 1; 1; 5; 6; 5; 2; 6; 10; 6; 1; 5; 6; 5]).
Proof. vm_compute. reflexivity. Qed.

(* ------------------------------------------------------------------ C15, C16 *)
Lemma qsq : forall t : Q, (0 <= t * t)%Q.
Proof. intros [p q]. unfold Qle. cbn -[Z.mul]. nia. Qed.
Lemma tp_tolerance_nonneg : forall T, (0 <= tp_tolerance T)%Q.
Proof.
  intros T. unfold tp_tolerance, bz_tolerance. cbn [bD bQ bL].
  destruct (qmulMM (g_reclat T) (qm_of (g_Q T))) as [a b c d e f g h i], (g_D T) as [x y z].
  assert (forall u v w (n : Z), 0 <= (u * u + v * v + w * w) / qz (n * n))%Q as K.
  { intros u v w n. pose proof qsq as S.
    apply Qmult_le_0_compat; [pose proof (S u); pose proof (S v); pose proof (S w); lra|]. apply Qinv_le_0_compat.
    change 0%Q with (qz 0). apply (proj1 (qz_le 0 (n * n)%Z)). nia. }
  unfold GRID_TOLERANCE_FACTOR. cbv zeta.
  apply Qmult_le_0_compat; [|discriminate].
  destruct (qltb _ ((c * c + f * f + i * i) / qz (z * z))); [apply K|].
  destruct (qltb _ _); apply K.
Qed.

Lemma bz_list_block : forall B ty init o Qg rl gp x, good_in B -> ty = 1 \/ ty = 2 ->
  get_bz_grid_addresses B ty init = Some o -> 0 <= gp < mesh_size (bD B) ->
  let T := tp_grid B o ty Qg rl in
  In x (if ty =? 1 then bz_list1 T gp else bz_list2 T gp) <->
  0 <= x < o_size o /\ o_b2g o x = gp.
Proof.
  intros B ty init o Qg rl gp x HB Hty H Hgp T.
  assert (In x (if ty =? 1 then bz_list1 T gp else bz_list2 T gp) <->
    let N := mesh_size (bD B) in
    if ty =? 1 then x = gp \/ o_map o (8 * N + gp) + N <= x < o_map o (8 * N + gp + 1) + N
    else o_map o gp <= x < o_map o (gp + 1)) as E.
  { destruct Hty as [-> | ->]; cbn [Z.eqb Pos.eqb]; cbv zeta.
    - unfold bz_list1, T, tp_grid. cbn [g_D g_map].
      change (num_gp (bD B)) with (mesh_size (bD B)). set (N := mesh_size (bD B)) in *.
      replace (N * 8 + gp) with (8 * N + gp) by lia.
      destruct (C11_default_layout B init o HB H) as [_ [_ [L _]]]. destruct (L gp Hgp) as [L1 _]. fold N in L1.
      rewrite in_map_iff. split.
      + intros [b [Eb Hb]]. apply in_zrange in Hb. destruct (Z.eqb_spec b 0); [left; congruence|right; lia].
      + intros [-> | Hx].
        * exists 0. split; [reflexivity|]. apply in_zrange. lia.
        * exists (x - N - o_map o (8 * N + gp) + 1). split; [|apply in_zrange; lia].
          destruct (Z.eqb_spec (x - N - o_map o (8 * N + gp) + 1) 0); lia.
    - unfold bz_list2, T, tp_grid. cbn [g_map]. apply in_zseq. }
  rewrite E. split.
  - intros K. destruct (block_in_range B ty init o gp x HB Hty H Hgp K) as [R G]. split; auto.
    rewrite <- G. symmetry. apply (stored_block B ty init o x HB Hty H R).
  - intros [R G]. destruct (stored_block B ty init o x HB Hty H R) as [S1 S2]. cbv zeta in *. rewrite S1, G in S2. exact S2.
Qed.

(** Rows that belong to grid points [gp0], [gp1] and close the triangle modulo the mesh. *)
Definition tp_rows (B : BzIn) (o : BzOut) (gp0 gp1 : Z) (b : Z * Z * Z) : Prop :=
  let '(b0, b1, b2) := b in
  (0 <= b0 < o_size o /\ o_b2g o b0 = gp0) /\ (0 <= b1 < o_size o /\ o_b2g o b1 = gp1) /\
  0 <= b2 < o_size o /\ vcong (bD B) (vadd (vadd (o_addr o b0) (o_addr o b1)) (o_addr o b2)) vzero.

Lemma stored_cong : forall B ty init o x, good_in B -> ty = 1 \/ ty = 2 ->
  get_bz_grid_addresses B ty init = Some o -> 0 <= x < o_size o ->
  0 <= o_b2g o x < mesh_size (bD B) /\
  vcong (bD B) (o_addr o x) (get_grid_address_from_index (o_b2g o x) (bD B)).
Proof.
  intros B ty init o x HB [-> | ->] H Hx.
  - destruct (C11_default_layout B init o HB H) as [_ [_ [_ L]]]. destruct (L x Hx) as [? [? ?]]. auto.
  - destruct (C11_dense_layout B init o HB H) as [_ [_ [_ L]]]. destruct (L x Hx) as [? [? ?]]. auto.
Qed.

Lemma vcong_third : forall D a0 a1 a2 b0 b1, vcong D a0 b0 -> vcong D a1 b1 ->
  (vcong D a2 (vsub (vneg b0) b1) <-> vcong D (vadd (vadd a0 a1) a2) vzero).
Proof.
  intros [d0 d1 d2] [x0 y0 z0] [x1 y1 z1] [x2 y2 z2] [u0 v0 w0] [u1 v1 w1] [k Hk] [l Hl].
  destruct k as [k0 k1 k2], l as [l0 l1 l2]. cbn [vadd vmul] in Hk, Hl. apply v3_inj in Hk, Hl.
  split; intros [[m0 m1 m2] Hm]; cbn [vadd vmul vneg vsub vzero] in Hm; apply v3_inj in Hm.
  - exists (v3 (k0 + l0 + m0) (k1 + l1 + m1) (k2 + l2 + m2)). cbn [vadd vmul vzero]. f_equal; lia.
  - exists (v3 (m0 - k0 - l0) (m1 - k1 - l1) (m2 - k2 - l2)). cbn [vadd vmul vneg vsub]. f_equal; lia.
Qed.

Lemma bz_triplet_spec : forall B ty init o Qg rl gp gp1 row, good_in B -> ty = 1 \/ ty = 2 ->
  get_bz_grid_addresses B ty init = Some o -> 0 <= gp < o_size o -> (ty = 1 -> gp < mesh_size (bD B)) ->
  0 <= gp1 < mesh_size (bD B) ->
  let T := tp_grid B o ty Qg rl in
  let tp := bz_triplet T gp gp1 row in
  tp_rows B o (o_b2g o gp) gp1 tp /\
  (tp_G T tp = vzero \/
   forall b, tp_rows B o (o_b2g o gp) gp1 b -> tp_G T b <> vzero /\
     (get_squared_distance (tp_G T tp) (get_LQD_inv T) <=
      get_squared_distance (tp_G T b) (get_LQD_inv T) + tp_tolerance T)%Q).
Proof.
  intros B ty init o Qg rl gp gp1 row HB Hty H Hgp Hgt Hgp1 T tp. assert (HD := proj1 HB).
  assert (LB := fun g x => bz_list_block B ty init o Qg rl g x HB Hty H).
  destruct (stored_cong B ty init o gp HB Hty H Hgp) as [Hr0 Hc0].
  set (gp0 := o_b2g o gp) in *.
  assert (exists a1, vcong (bD B) a1 (get_grid_address_from_index gp1 (bD B)) /\
    let gp2 := grid_index (vsub (vneg (o_addr o gp)) a1) (bD B) in
    tp = if ty =? 1 then tp_search T (bz_list1 T gp0) (bz_list1 T gp1) (bz_list1 T gp2) row
         else tp_search T (bz_list2 T gp0) (bz_list2 T gp1) (bz_list2 T gp2) row) as [a1 [Hc1 Htp]].
  { unfold tp, bz_triplet. destruct Hty as [-> | ->]; cbn [T tp_grid g_type g_addr g_D g_map Z.eqb Pos.eqb].
    - exists (o_addr o gp1). split.
      + assert (0 <= gp1 < o_size o /\ o_b2g o gp1 = gp1) as [Hs1 E1].
        { apply (LB gp1 gp1 Hgp1). cbn [Z.eqb Pos.eqb]. unfold bz_list1. rewrite in_map_iff. exists 0. split; [reflexivity|].
          apply in_zrange. cbn [tp_grid g_D g_map]. change (num_gp (bD B)) with (mesh_size (bD B)).
          destruct (C11_default_layout B init o HB H) as [_ [_ [L _]]]. destruct (L gp1 Hgp1) as [L1 _].
          replace (mesh_size (bD B) * 8) with (8 * mesh_size (bD B)) by lia. lia. }
        destruct (stored_cong B 1 init o gp1 HB ltac:(auto) H Hs1) as [_ K]. rewrite E1 in K. exact K.
      + cbv zeta. f_equal. f_equal. unfold gp0.
        destruct (C11_default_layout B init o HB H) as [_ [_ [L _]]]. destruct (L gp) as [_ [_ [L1 _]]]; [lia|]. auto.
    - exists (o_addr o (o_map o gp1)). split.
      + assert (0 <= o_map o gp1 < o_size o /\ o_b2g o (o_map o gp1) = gp1) as [Hs1 E1].
        { apply (LB gp1 (o_map o gp1) Hgp1). cbn [Z.eqb Pos.eqb]. unfold bz_list2. apply in_zseq. cbn [tp_grid g_map].
          destruct (C11_dense_layout B init o HB H) as [_ [_ [L _]]]. destruct (L gp1 Hgp1) as [L1 _]. lia. }
        destruct (stored_cong B 2 init o _ HB ltac:(auto) H Hs1) as [_ K]. rewrite E1 in K. exact K.
      + cbv zeta. destruct (stored_block B 2 init o gp HB ltac:(auto) H Hgp) as [K _]. cbv zeta in K. rewrite K. reflexivity. }
  cbv zeta in Htp. set (gp2 := grid_index _ (bD B)) in Htp.
  assert (0 <= gp2 < mesh_size (bD B)) as Hgp2 by (apply grid_index_range; auto).
  set (l0 := if ty =? 1 then bz_list1 T gp0 else bz_list2 T gp0).
  set (l1 := if ty =? 1 then bz_list1 T gp1 else bz_list2 T gp1).
  set (l2 := if ty =? 1 then bz_list1 T gp2 else bz_list2 T gp2).
  assert (tp = tp_search T l0 l1 l2 row) as Htp'.
  { rewrite Htp. unfold l0, l1, l2. destruct (ty =? 1); reflexivity. }
  assert (forall b, In b (triples l0 l1 l2) <-> tp_rows B o gp0 gp1 b) as HT.
  { intros [[b0 b1] b2]. rewrite in_triples. unfold l0, l1, l2, T.
    rewrite (LB gp0 b0 Hr0), (LB gp1 b1 Hgp1), (LB gp2 b2 Hgp2). unfold tp_rows.
    split; intros [K0 [K1 [K2 K3]]]; repeat (split; [tauto|]).
    - destruct (stored_cong B ty init o b0 HB Hty H (proj1 K0)) as [_ C0]. rewrite (proj2 K0) in C0.
      destruct (stored_cong B ty init o b1 HB Hty H (proj1 K1)) as [_ C1]. rewrite (proj2 K1) in C1.
      apply (vcong_third (bD B) _ _ _ (o_addr o gp) a1).
      + eapply vcong_trans; [exact C0|]. apply vcong_sym. exact Hc0.
      + eapply vcong_trans; [exact C1|]. apply vcong_sym. exact Hc1.
      + apply grid_index_eq_iff; auto. rewrite <- (proj1 (stored_block B ty init o b2 HB Hty H K2)) in K3. exact K3.
    - destruct (stored_cong B ty init o b0 HB Hty H (proj1 K0)) as [_ C0]. rewrite (proj2 K0) in C0.
      destruct (stored_cong B ty init o b1 HB Hty H (proj1 K1)) as [_ C1]. rewrite (proj2 K1) in C1.
      apply (vcong_third (bD B) _ _ _ (o_addr o gp) a1) in K3.
      + rewrite <- (proj1 (stored_block B ty init o b2 HB Hty H K2)). apply grid_index_eq_iff; auto.
      + eapply vcong_trans; [exact C0|]. apply vcong_sym. exact Hc0.
      + eapply vcong_trans; [exact C1|]. apply vcong_sym. exact Hc1. }
  assert (forall g, 0 <= g < mesh_size (bD B) -> (if ty =? 1 then bz_list1 T g else bz_list2 T g) <> []) as Hne.
  { intros g Hg. destruct Hty as [-> | ->]; cbn [Z.eqb Pos.eqb]; intros K.
    - assert (In g (bz_list1 T g)) as K1; [|rewrite K in K1; contradiction].
      unfold bz_list1. rewrite in_map_iff. exists 0. split; [reflexivity|].
      apply in_zrange. unfold T. cbn [tp_grid g_D g_map]. change (num_gp (bD B)) with (mesh_size (bD B)).
      destruct (C11_default_layout B init o HB H) as [_ [_ [L _]]]. destruct (L g Hg) as [L1 _].
      replace (mesh_size (bD B) * 8) with (8 * mesh_size (bD B)) by lia. lia.
    - assert (In (o_map o g) (bz_list2 T g)) as K1; [|rewrite K in K1; contradiction].
      apply in_zseq. unfold T. cbn [tp_grid g_map].
      destruct (C11_dense_layout B init o HB H) as [_ [_ [L _]]]. destruct (L g Hg) as [L1 _]. lia. }
  pose proof (tp_search_spec T l0 l1 l2 row (tp_tolerance_nonneg T) (Hne gp0 Hr0) (Hne gp1 Hgp1) (Hne gp2 Hgp2)) as S.
  cbv zeta in S. rewrite <- Htp' in S. destruct S as [S1 S2]. split; [apply HT; exact S1|].
  destruct S2 as [S2|S2]; [now left|right]. intros b Hb. apply S2. apply HT. exact Hb.
Qed.

Definition bz_hyp (B : BzIn) (ty : Z) (init o : BzOut) (gp : Z) : Prop :=
  good_in B /\ (ty = 1 \/ ty = 2) /\ get_bz_grid_addresses B ty init = Some o /\
  0 <= gp < o_size o /\ (ty = 1 -> gp < mesh_size (bD B)).

Lemma Forall2_map_self : forall A C (P : A -> C -> Prop) f l, (forall x, In x l -> P x (f x)) -> Forall2 P l (map f l).
Proof.
  intros A C P f l. induction l as [|x l IH]; intros H; cbn; constructor.
  - apply H. now left.
  - apply IH. intros y Hy. apply H. now right.
Qed.

Lemma F2_length : forall A C (P : A -> C -> Prop) l l', Forall2 P l l' -> length l = length l'.
Proof. intros A C P l l' H. induction H; cbn; congruence. Qed.

Lemma py_rows : forall B ty init o Qg rl gp m, bz_hyp B ty init o gp ->
  (forall x, 0 <= x < mesh_size (bD B) -> 0 <= m x < mesh_size (bD B) /\ m (m x) = m x) ->
  let n := mesh_size (bD B) in
  exists t w, get_BZ_triplets_at_q_py (tp_grid B o ty Qg rl) gp m n = Some (t, w) /\
    w = triplet_weights m n /\ zsum w = n /\
    Forall2 (tp_rows B o (o_b2g o gp)) (ir_q1_gps m n) t /\
    Forall2 (fun g c => c = zcount (fun x => m x =? g) (zrange n)) (ir_q1_gps m n) w.
Proof.
  intros B ty init o Qg rl gp m [HB [Hty [H [Hgp Hgt]]]] Hm n.
  exists (get_BZ_triplets_at_q (tp_grid B o ty Qg rl) gp m n), (triplet_weights m n).
  assert (0 < n) as Hn by (apply mesh_size_pos, HB).
  unfold get_BZ_triplets_at_q_py. cbv zeta. rewrite weights_spec by auto. unfold get_BZ_triplets_at_q.
  rewrite !map_length, Z.eqb_refl. split; [reflexivity|]. split; [reflexivity|]. split.
  { rewrite <- weights_spec by auto. apply weights_total; [lia|auto]. }
  split.
  - apply Forall2_map_self. intros x Hx. unfold ir_q1_gps in Hx. apply filter_In in Hx. destruct Hx as [Hx _].
    apply in_zrange in Hx. apply (bz_triplet_spec B ty init o Qg rl gp x); auto.
  - apply Forall2_map_self. auto.
Qed.

(** get_triplets_at_q never fails its own assertions; its rows are stored points that
    belong to the requested grid point and to the irreducible second points, and whose
    addresses sum to a multiple of the mesh; weights count the classes. *)
Theorem C15_triplets_conserve_momentum : forall B ty init o Qg rl gp tr rots sw,
  bz_hyp B ty init o gp -> is_group rots -> (forall R, In R rots -> compat (bD B) R) ->
  let n := mesh_size (bD B) in
  match get_triplets_at_q B o ty Qg rl gp tr rots sw with
  | None => reciprocal_point_group rots tr false = None
  | Some (t, w, mt, mq) =>
      exists c irs, triplets_reciprocal_mesh_at_q (o_b2g o gp) (bD B) tr rots sw = Some (mt, mq, c) /\
        irs = filter (fun x => mt x =? x) (zrange n) /\
        Z.of_nat (length t) = c /\ zsum w = n /\
        Forall2 (tp_rows B o (o_b2g o gp)) irs t /\
        Forall2 (fun g k => k = zcount (fun x => mt x =? g) (zrange n)) irs w
  end.
Proof.
  intros B ty init o Qg rl gp tr rots sw HH HG HC n.
  pose proof HH as [HB [Hty [H [Hgp Hgt]]]]. assert (HD := proj1 HB).
  destruct (stored_cong B ty init o gp HB Hty H Hgp) as [Hr0 _].
  unfold get_triplets_at_q.
  destruct (triplets_reciprocal_mesh_at_q (o_b2g o gp) (bD B) tr rots sw) as [[[mt mq] c]|] eqn:E.
  - destruct (C14_time_reversal _ _ _ _ _ _ _ _ (conj HD (conj Hr0 (conj HG HC))) E) as [l [Hl [_ El]]].
    destruct (C14_map_partitions _ _ _ _ _ _ _ _ _ Hl El) as [_ [Hi [Hc _]]].
    assert (forall x, 0 <= x < n -> 0 <= mt x < n /\ mt (mt x) = mt x) as Hm.
    { intros x Hx. split; [|apply Hi; auto].
      apply (C14_map_is_smallest_equivalent _ _ _ _ _ _ _ _ _ Hl El x Hx). }
    destruct (py_rows B ty init o Qg rl gp mt HH Hm) as [t [w [E1 [E2 [E3 [E4 E5]]]]]].
    change (num_gp (bD B)) with (mesh_size (bD B)). rewrite E1, E3, Z.eqb_refl.
    exists c, (ir_q1_gps mt n). split; [reflexivity|]. split; [reflexivity|]. split.
    + destruct (ir_least _ _ _ _ _ _ _ _ _ Hl El) as [_ Hc']. rewrite Hc'.
      apply F2_length in E4. rewrite <- E4. reflexivity.
    + auto.
  - unfold triplets_reciprocal_mesh_at_q in E. destruct (reciprocal_point_group rots tr false); [discriminate|reflexivity].
Qed.
Print Assumptions C15_triplets_conserve_momentum.

(** Without symmetry there is one row for every grid point, in order. *)
Theorem C15_nosym_triplets : forall B ty init o Qg rl gp, bz_hyp B ty init o gp ->
  let n := mesh_size (bD B) in
  exists t w, get_nosym_triplets_at_q B o ty Qg rl gp = Some (t, w) /\
    Forall2 (tp_rows B o (o_b2g o gp)) (zrange n) t /\ Forall2 (fun _ k => k = 1) (zrange n) w.
Proof.
  intros B ty init o Qg rl gp HH n.
  destruct (py_rows B ty init o Qg rl gp (fun x => x) HH) as [t [w [E1 [E2 [E3 [E4 E5]]]]]]; [auto|].
  assert (ir_q1_gps (fun x => x) n = zrange n) as En.
  { unfold ir_q1_gps. rewrite (filter_ext _ (fun _ => true)) by (intros; apply Z.eqb_refl).
    induction (zrange n) as [|x l IH]; cbn; congruence. }
  fold n in E1, E4, E5. rewrite En in E4, E5.
  exists t, w. split; [exact E1|]. split; [exact E4|].
  assert (forall x, In x (zrange n) -> zcount (fun y => y =? x) (zrange n) = 1) as K.
  { intros x Hx. apply zcount_eq_NoDup; auto. apply NoDup_zrange. }
  clear - E5 K. set (l := zrange n) in K at 1, E5 at 2 |- *. clearbody l.
  revert K. induction E5 as [|x k l w Hk F IH]; intros K; constructor.
  - subst. apply K. now left.
  - apply IH. intros z Hz. apply K. now right.
Qed.
Print Assumptions C15_nosym_triplets.

(** In the default layout a surface copy (index >= number of grid points) as first
    point makes the loop bound an out-of-range read of gp_map; with the memory there
    equal to zero no row is found and (-1,-1,-1) is returned. *)
Theorem C15_default_layout_surface_point_refuted :
  ~ (forall B init o Qg rl gp rots, good_in B -> get_bz_grid_addresses B 1 init = Some o ->
       0 <= gp < o_size o -> is_group rots -> (forall R, In R rots -> compat (bD B) R) ->
       match get_triplets_at_q B o 1 Qg rl gp true rots true with
       | None => True
       | Some (t, _, _, _) => Forall (fun b => exists gp1, tp_rows B o (o_b2g o gp) gp1 b) t
       end).
Proof.
  intros K.
  destruct (get_bz_grid_addresses rod 1 zero_out) as [o|] eqn:E; [|vm_compute in E; discriminate].
  assert (option_map (fun o => (o_size o, option_map (fun r => fst (fst (fst r))) (get_triplets_at_q rod o 1 I3 (bL rod) 2 true [I3] true)))
    (get_bz_grid_addresses rod 1 zero_out) = Some (3, Some [(-1, -1, -1)])) as Ev by (vm_compute; reflexivity).
  rewrite E in Ev. cbn [option_map] in Ev.
  assert (o_size o = 3) as Es by congruence.
  assert (option_map (fun r => fst (fst (fst r))) (get_triplets_at_q rod o 1 I3 (bL rod) 2 true [I3] true) = Some [(-1, -1, -1)]) as Et by congruence.
  clear Ev. specialize (K rod zero_out o I3 (bL rod) 2 [I3] C11_ex_rod E ltac:(lia)).
  assert (is_group [I3]) as HG by (apply is_groupb_sound; vm_compute; reflexivity).
  assert (forall R, In R [I3] -> compat (bD rod) R) as HC.
  { intros R [<-|[]]. apply compatb_sound; [cbn; lia|vm_compute; reflexivity]. }
  specialize (K HG HC).
  destruct (get_triplets_at_q rod o 1 I3 (bL rod) 2 true [I3] true) as [[[[t w] mt] mq]|]; [|discriminate].
  cbn in Et. injection Et as ->. inversion_clear K as [|? ? K1 K2]. destruct K1 as [g [[K1 _] _]]. lia.
Qed.
Print Assumptions C15_default_layout_surface_point_refuted.

(** A triplet whose addresses sum to zero exactly is returned whenever there is one
    among the stored copies, whatever the (uninitialised) reciprocal lattice holds. *)
Theorem C16_zero_G_found_partial : forall B ty init o Qg rl gp gp1 row, bz_hyp B ty init o gp ->
  0 <= gp1 < mesh_size (bD B) ->
  let sum b := let '(b0, b1, b2) := b in vadd (vadd (o_addr o b0) (o_addr o b1)) (o_addr o b2) in
  (exists b, tp_rows B o (o_b2g o gp) gp1 b /\ sum b = vzero) ->
  sum (bz_triplet (tp_grid B o ty Qg rl) gp gp1 row) = vzero.
Proof.
  intros B ty init o Qg rl gp gp1 row [HB [Hty [H [Hgp Hgt]]]] Hg1 sum [b [Hb Es]].
  destruct (bz_triplet_spec B ty init o Qg rl gp gp1 row HB Hty H Hgp Hgt Hg1) as [_ [K|K]].
  - exact K.
  - exfalso. destruct (K b Hb) as [K1 _]. apply K1. exact Es.
Qed.
Print Assumptions C16_zero_G_found_partial.

(** The chosen G is not the shortest: the metric uses only one column of the lattice,
    even when the reciprocal lattice is the right one. *)
Definition slab : BzIn := mkBzIn (v3 3 2 1) I3 vzero (qm 1 0 0 0 1 0 0 0 1).
Theorem C16_smallest_G_refuted :
  ~ (forall B init o gp gp1 row b, bz_hyp B 2 init o gp -> 0 <= gp1 < mesh_size (bD B) ->
       tp_rows B o (o_b2g o gp) gp1 b ->
       let sum b := let '(b0, b1, b2) := b in vadd (vadd (o_addr o b0) (o_addr o b1)) (o_addr o b2) in
       let tp := bz_triplet (tp_grid B o 2 (bQ B) (bL B)) gp gp1 row in
       (G2 (bL B) (bQ B) (bD B) (sum tp) <= G2 (bL B) (bQ B) (bD B) (sum b) + bz_tolerance B)%Q).
Proof.
  intros K.
  destruct (get_bz_grid_addresses slab 2 zero_out) as [o|] eqn:E; [|vm_compute in E; discriminate].
  assert (option_map (fun o => (o_size o, map (fun x => (o_addr o x, o_b2g o x)) [1; 5; 6],
     bz_triplet (tp_grid slab o 2 I3 (bL slab)) 5 4 (-1,-1,-1)))
    (get_bz_grid_addresses slab 2 zero_out)
    = Some (9, [(v3 1 0 0, 1); (v3 1 (-1) 0, 4); (v3 1 1 0, 4)], (5, 5, 1))) as Ev by (vm_compute; reflexivity).
  rewrite E in Ev. cbn [option_map] in Ev.
  assert (forall A (x y : A), Some x = Some y -> x = y) as SI by (intros; congruence).
  apply SI in Ev. cbn [map] in Ev.
  assert (o_size o = 9) as E9 by congruence.
  assert (o_addr o 1 = v3 1 0 0) as A1 by congruence. assert (o_addr o 5 = v3 1 (-1) 0) as A5 by congruence.
  assert (o_addr o 6 = v3 1 1 0) as A6 by congruence.
  assert (o_b2g o 5 = 4) as B5 by congruence. assert (o_b2g o 6 = 4) as B6 by congruence.
  assert (bz_triplet (tp_grid slab o 2 I3 (bL slab)) 5 4 (-1,-1,-1) = (5, 5, 1)) as Et by congruence.
  clear Ev. specialize (K slab zero_out o 5 4 (-1,-1,-1) (5, 6, 1)).
  assert (bz_hyp slab 2 zero_out o 5) as HH.
  { split; [split; [cbn; lia|vm_compute; discriminate]|]. split; [auto|]. split; [exact E|]. lia. }
  specialize (K HH ltac:(vm_compute; split; congruence)).
  assert (tp_rows slab o (o_b2g o 5) 4 (5, 6, 1)) as HR.
  { unfold tp_rows. rewrite E9, B5, B6, A1, A5, A6. repeat (split; [lia|]). exists (v3 1 0 0). reflexivity. }
  specialize (K HR). cbv zeta in K. cbn [bQ slab] in K. change (bQ slab) with I3 in K. rewrite Et, A1, A5, A6 in K.
  vm_compute in K. apply K. reflexivity.
Qed.
Print Assumptions C16_smallest_G_refuted.

Definition rods : list M3 := [I3; mneg I3].
Example C15_ex_hyp : match get_bz_grid_addresses rod 2 zero_out with
  | Some o => bz_hyp rod 2 zero_out o 2
  | None => False end.
Proof.
  destruct (get_bz_grid_addresses rod 2 zero_out) as [o|] eqn:E; [|vm_compute in E; discriminate].
  assert (option_map o_size (get_bz_grid_addresses rod 2 zero_out) = Some 3) as Ev by (vm_compute; reflexivity).
  rewrite E in Ev. assert (o_size o = 3) by (cbn in Ev; congruence).
  split; [apply C11_ex_rod|]. split; [auto|]. split; [exact E|]. lia.
Qed.
(** Dense layout, first point (1,0,0) stored as row 2: the row found is (1,0,2) = (-1,0,0),(0,0,0),(1,0,0). *)
Example C15_ex : option_map (fun o => option_map (fun r => fst (fst r)) (get_triplets_at_q rod o 2 I3 (bL rod) 2 true rods true))
  (get_bz_grid_addresses rod 2 zero_out) = Some (Some ([(1, 0, 2)], [2])).
Proof. vm_compute. reflexivity. Qed.
Example C15_ex_nosym : option_map (fun o => get_nosym_triplets_at_q rod o 2 I3 (bL rod) 2)
  (get_bz_grid_addresses rod 2 zero_out) = Some (Some ([(1, 0, 2); (1, 2, 0)], [1; 1])).
Proof. vm_compute. reflexivity. Qed.
(** Here a zero sum exists and is found, with a wrong reciprocal lattice. *)
Example C16_ex : option_map (fun o => bz_triplet (tp_grid rod o 2 I3 (qm 0 7 0 0 0 0 5 0 0)) 2 1 (-1, -1, -1))
  (get_bz_grid_addresses rod 2 zero_out) = Some (1, 2, 0).
Proof. vm_compute. reflexivity. Qed.
