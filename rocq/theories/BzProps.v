(** Theorems C11, C12, C13: Brillouin-zone grid. *)
From Coq Require Import ZArith QArith Qabs List Lia Lqa Bool.
From Verif Require Import Base BaseProofs Mat3 QMat GridSpec GridModel GridProofs SnfModel SnfProofs
  RotModel RotProps BzSpec BzModel BzProofs.
Import ListNotations.
Open Scope Z_scope.

(** A proper grid: positive mesh, non-degenerate lattice. *)
Definition good_in (B : BzIn) : Prop := pos_mesh (bD B) /\ ~ (qdet (bL B) == 0)%Q.

(** Addresses stored for grid point [i]: dense layout (type 2), default layout (type 1). *)
Definition stored2 (o : BzOut) (i : Z) : list V3 :=
  map (o_addr o) (zseq (o_map o i) (o_map o (i + 1))).
Definition stored1 (N : Z) (o : BzOut) (i : Z) : list V3 :=
  o_addr o i :: map (o_addr o) (zseq (N + o_map o (8 * N + i)) (N + o_map o (8 * N + i + 1))).

Lemma map_zseq_nthV : forall (a : Z -> V3) l n m, m = n + len l ->
  (forall t, 0 <= t < len l -> a (n + t) = nthV l t) -> map a (zseq n m) = l.
Proof.
  intros a l n m -> H. unfold zseq. rewrite map_map. replace (n + len l - n) with (len l) by lia.
  revert n H. induction l as [|x l IH]; intros n H; [reflexivity|].
  assert (len (x :: l) = len l + 1) as El by (unfold len; cbn [length]; lia).
  assert (0 <= len l) as Hl by (unfold len; lia).
  assert (zrange (len (x :: l)) = 0 :: map (fun k => k + 1) (zrange (len l))) as ->.
  { unfold zrange, len. rewrite !Nat2Z.id. cbn [length seq map]. f_equal.
    rewrite <- seq_shift, !map_map. apply map_ext. intros k. lia. }
  cbn [map]. rewrite (H 0 ltac:(lia)). f_equal. rewrite map_map.
  rewrite <- (IH (n + 1)) at 2.
  - apply map_ext. intros k. f_equal. lia.
  - intros t Ht. replace (n + 1 + t) with (n + (t + 1)) by lia. rewrite H by lia.
    unfold nthV. replace (Z.to_nat (t + 1)) with (S (Z.to_nat t)) by lia. reflexivity.
Qed.

Lemma good_facts : forall B Qi, good_in B -> inverse_unimodular (bQ B) = Some Qi ->
  pos_mesh (bD B) /\ mulMM (bQ B) Qi = I3 /\ mulMM Qi (bQ B) = I3 /\ (0 < bz_tolerance B)%Q.
Proof.
  intros B Qi [HD HL] H. apply inverse_unimodular_spec in H. destruct H as [HQ [H1 H2]].
  repeat split; auto. apply tolerance_pos; auto.
Qed.

Lemma reps_ne : forall B Qi tol i, pos_mesh (bD B) -> (0 < tol)%Q ->
  mulMM (bQ B) Qi = I3 -> mulMM Qi (bQ B) = I3 -> 1 <= len (reps B Qi tol i).
Proof.
  intros B Qi tol i HD Ht H1 H2. destruct (reps_spec B Qi tol i HD Ht H1 H2) as [_ [n [_ [a [Ha _]]]]].
  unfold len. destruct (reps B Qi tol i); [contradiction|cbn; lia].
Qed.

(** Relation between tables and representatives, dense layout. *)
Lemma type2_tables : forall B Qi init, good_in B -> inverse_unimodular (bQ B) = Some Qi ->
  let o := bz_type2 B Qi init in
  let N := mesh_size (bD B) in
  let R := reps B Qi (bz_tolerance B) in
  let f := fun i => len (R i) in
  o_size o = off f N /\ (forall k, 0 <= k <= N -> o_map o k = off f k) /\
  (forall k, 0 <= k < N -> stored2 o k = R k) /\
  (forall k x, 0 <= k < N -> o_map o k <= x < o_map o (k + 1) -> o_b2g o x = k).
Proof.
  intros B Qi init HB HQ. destruct (good_facts B Qi HB HQ) as [HD [E1 [E2 Ht]]].
  cbv zeta. unfold bz_type2. rewrite num_gp_mesh_size.
  pose proof (mesh_size_pos (bD B) HD) as HN.
  destruct (type2_inv B Qi (bz_tolerance B) init (mesh_size (bD B)) ltac:(lia)) as [I1 [I2 I3']].
  set (o := fold_left _ _ _) in *. clearbody o.
  split; [exact I1|]. split; [exact I2|]. split.
  - intros k Hk. unfold stored2. rewrite !I2 by lia. apply map_zseq_nthV.
    + apply off_succ. lia.
    + intros t Hlt. apply I3'; auto; lia.
  - intros k x Hk Hx. rewrite !I2 in Hx by lia. rewrite off_succ in Hx by lia.
    destruct (I3' k (x - off (fun i => len (reps B Qi (bz_tolerance B) i)) k) Hk ltac:(lia)) as [_ K].
    replace (off (fun i => len (reps B Qi (bz_tolerance B) i)) k +
      (x - off (fun i => len (reps B Qi (bz_tolerance B) i)) k)) with x in K by lia. exact K.
Qed.

(* ------------------------------------------------------------------ C11 *)
(** Dense layout. The blocks [gp_map[i] .. gp_map[i+1]) tile 0 .. size-1, are not
    empty, and hold exactly a correct set of representatives of grid point i. *)
Theorem C11_dense_layout : forall B init o, good_in B ->
  get_bz_grid_addresses B 2 init = Some o ->
  let N := mesh_size (bD B) in
  o_map o 0 = 0 /\ o_map o N = o_size o /\
  (forall i, 0 <= i < N ->
     o_map o i < o_map o (i + 1) /\
     bz_representatives (bL B) (bQ B) (bD B) (bPS B) (bz_tolerance B)
       (get_grid_address_from_index i (bD B)) (stored2 o i) /\
     (forall x, o_map o i <= x < o_map o (i + 1) -> o_b2g o x = i)) /\
  (forall x, 0 <= x < o_size o ->
     0 <= o_b2g o x < N /\ o_map o (o_b2g o x) <= x < o_map o (o_b2g o x + 1) /\
     vcong (bD B) (o_addr o x) (get_grid_address_from_index (o_b2g o x) (bD B))).
Proof.
  intros B init o HB H. unfold get_bz_grid_addresses in H.
  destruct (inverse_unimodular (bQ B)) as [Qi|] eqn:HQ; [|discriminate].
  change (2 =? 1) with false in H. cbv iota in H.
  assert (bz_type2 B Qi init = o) as <- by congruence. clear H.
  destruct (good_facts B Qi HB HQ) as [HD [E1 [E2 Ht]]].
  pose proof (mesh_size_pos (bD B) HD) as HN.
  destruct (type2_tables B Qi init HB HQ) as [T1' [T2 [T3 T4]]]. cbv zeta in *.
  set (o := bz_type2 B Qi init) in *. clearbody o.
  set (f := fun i => len (reps B Qi (bz_tolerance B) i)) in *.
  assert (forall i, 1 <= f i) as Hf by (intros i; apply reps_ne; auto).
  split; [rewrite T2 by lia; reflexivity|]. split; [rewrite T2 by lia; auto|]. split.
  - intros i Hi. split; [|split].
    + rewrite !T2 by lia. rewrite off_succ by lia. specialize (Hf i). lia.
    + rewrite T3 by auto. apply reps_spec; auto.
    + intros x Hx. apply T4; auto.
  - intros x Hx. rewrite T1' in Hx.
    destruct (off_block f (mesh_size (bD B)) x ltac:(lia) ltac:(intros i _; specialize (Hf i); lia) Hx)
      as [k [t [Hk [Hlt ->]]]].
    assert (o_map o k <= off f k + t < o_map o (k + 1)) as Hr.
    { rewrite !T2, off_succ by lia. lia. }
    rewrite (T4 k _ Hk Hr). split; [auto|]. split; [auto|].
    apply (reps_cong B Qi (bz_tolerance B)). rewrite <- (T3 k Hk). unfold stored2.
    apply in_map, in_zseq. exact Hr.
Qed.
Print Assumptions C11_dense_layout.

Lemma type1_tables : forall B Qi init, good_in B -> inverse_unimodular (bQ B) = Some Qi ->
  let o := bz_type1 B Qi init in
  let N := mesh_size (bD B) in
  let R := reps B Qi (bz_tolerance B) in
  let g := fun i => len (R i) - 1 in
  o_size o = N + off g N /\ (forall k, 0 <= k <= N -> o_map o (8 * N + k) = off g k) /\
  (forall k, 0 <= k < N -> stored1 N o k = R k) /\
  (forall k x, 0 <= k < N ->
     x = k \/ N + o_map o (8 * N + k) <= x < N + o_map o (8 * N + k + 1) -> o_b2g o x = k) /\
  (forall p, 0 <= p < 8 * N ->
     (forall k ad, 0 <= k < N -> In ad (R k) -> grid_index ad (mesh2 (bD B)) <> p) -> o_map o p = 8 * N) /\
  (no_short_G (bL B) (bQ B) (bz_tolerance B) ->
   forall k t, 0 <= k < N -> 0 <= t <= g k ->
     o_map o (grid_index (nthV (R k) t) (mesh2 (bD B))) = (if t =? 0 then k else N + off g k + (t - 1))).
Proof.
  intros B Qi init HB HQ. destruct (good_facts B Qi HB HQ) as [HD [E1 [E2 Ht]]].
  cbv zeta. unfold bz_type1. cbv zeta.
  pose proof (mesh_size_pos (bD B) HD) as HN.
  set (m0 := fold_left _ (zrange (8 * num_gp (bD B))) _).
  pose proof (type1_inv B Qi (bz_tolerance B) (o_addr init) m0 (o_b2g init) HD) as H.
  rewrite num_gp_mesh_size in *.
  assert (forall i, 0 <= i < mesh_size (bD B) -> 0 <= len (reps B Qi (bz_tolerance B) i) - 1) as Hne.
  { intros i _. pose proof (reps_ne B Qi (bz_tolerance B) i HD Ht E1 E2). lia. }
  specialize (H Hne (mesh_size (bD B)) ltac:(lia)). cbv zeta in H. unfold run1 in H.
  rewrite ?num_gp_mesh_size in H.
  set (s := fold_left _ (zrange (mesh_size (bD B))) _) in *. clearbody s.
  unfold slot1 in H. change (num_gp (bD B)) with (mesh_size (bD B)) in H.
  set (g := fun i => len (reps B Qi (bz_tolerance B) i) - 1) in *.
  set (N := mesh_size (bD B)) in *.
  destruct H as [I1 [I2 [I3' [I4 [I5 I6]]]]]. cbn [o_size o_map o_addr o_b2g].
  assert (forall k, 0 <= k < N -> t_map s (8 * N + k + 1) = off g k + g k) as I3s.
  { intros k Hk. replace (8 * N + k + 1) with (8 * N + (k + 1)) by lia. rewrite I3', off_succ by lia. reflexivity. }
  split; [lia|]. split; [exact I3'|]. split; [|split; [|split]].
  - intros k Hk. unfold stored1. cbn [o_map o_addr]. rewrite I3', I3s by lia.
    pose proof (Hne k Hk) as Hl.
    destruct (reps B Qi (bz_tolerance B) k) as [|x l] eqn:ER; [cbn in Hl; lia|].
    assert (g k = len l) as Eg by (unfold g; rewrite ER; unfold len; cbn [length]; lia).
    destruct (I4 k 0 Hk ltac:(change (0 <= 0 <= g k); pose proof (Zle_0_nat (length l)); unfold len in Eg; lia)) as [K _]. rewrite ER in K. cbn in K.
    assert (t_addr s k = x) as -> by exact K. f_equal.
    apply map_zseq_nthV; [lia|]. intros t Hlt.
    destruct (I4 k (t + 1) Hk ltac:(change (0 <= t + 1 <= g k); lia)) as [K' _].
    destruct (Z.eqb_spec (t + 1) 0) in K'; [lia|].
    replace (N + off g k + (t + 1 - 1)) with (N + off g k + t) in K' by lia. rewrite K', ER.
    unfold nthV. replace (Z.to_nat (t + 1)) with (S (Z.to_nat t)) by lia. reflexivity.
  - intros k x Hk Hx. rewrite I3', I3s in Hx by lia. destruct Hx as [->|Hx].
    + destruct (I4 k 0 Hk) as [_ K]; [specialize (Hne k Hk); change (0 <= 0 <= g k); change (0 <= g k) in Hne; lia|]. exact K.
    + destruct (I4 k (x - N - off g k + 1) Hk ltac:(change (0 <= x - N - off g k + 1 <= g k); lia)) as [_ K].
      destruct (Z.eqb_spec (x - N - off g k + 1) 0) in K; [lia|].
      replace (N + off g k + (x - N - off g k + 1 - 1)) with x in K by lia. exact K.
  - intros p Hp Hfree. rewrite I5; auto.
    + unfold m0. assert (forall n, 0 <= n -> forall q, 0 <= q < n ->
        fold_left (fun m i => upd m i (8 * N)) (zrange n) (o_map init) q = 8 * N) as K.
      { intros n Hn. pattern n, (zrange n). apply zrange_ind; auto; [intros; lia|].
        intros m Hm IH q Hq. rewrite fold_left_app_one. unfold upd at 1.
        destruct (Z.eqb_spec q m); auto. apply IH. lia. }
      apply (K (8 * N)); lia.
    + intros k ad Hk Ha. rewrite double_index_grid_index. eapply Hfree; eauto.
  - intros HG k t Hk Hlt. rewrite <- (double_index_grid_index (bD B) (bPS B)). apply I6; auto.
    intros k' u u' Hk' Hu Hu' Hne' E. apply double_index_eq in E; auto.
    apply (reps_distinct2 B Qi (bz_tolerance B) k') in E; auto; try (apply nthV_in; unfold g in *; lia).
    pose proof (proj1 (reps_spec B Qi (bz_tolerance B) k' HD Ht E1 E2)) as Hnd.
    unfold nthV in E. apply (proj1 (NoDup_nth (reps B Qi (bz_tolerance B) k') vzero)) in E; auto;
      unfold g, len in *; lia.
Qed.

(** Default layout: entry i holds the first representative of grid point i, the
    further ones are at N + gp_map[8N+i] .. N + gp_map[8N+i+1]. *)
Theorem C11_default_layout : forall B init o, good_in B ->
  get_bz_grid_addresses B 1 init = Some o ->
  let N := mesh_size (bD B) in
  o_map o (8 * N) = 0 /\ N + o_map o (9 * N) = o_size o /\
  (forall i, 0 <= i < N ->
     o_map o (8 * N + i) <= o_map o (8 * N + i + 1) /\
     bz_representatives (bL B) (bQ B) (bD B) (bPS B) (bz_tolerance B)
       (get_grid_address_from_index i (bD B)) (stored1 N o i) /\
     o_b2g o i = i /\
     (forall x, N + o_map o (8 * N + i) <= x < N + o_map o (8 * N + i + 1) -> o_b2g o x = i)) /\
  (forall x, 0 <= x < o_size o ->
     0 <= o_b2g o x < N /\
     (x = o_b2g o x \/ N + o_map o (8 * N + o_b2g o x) <= x < N + o_map o (8 * N + o_b2g o x + 1)) /\
     vcong (bD B) (o_addr o x) (get_grid_address_from_index (o_b2g o x) (bD B))).
Proof.
  intros B init o HB H. unfold get_bz_grid_addresses in H.
  destruct (inverse_unimodular (bQ B)) as [Qi|] eqn:HQ; [|discriminate].
  change (1 =? 1) with true in H. cbv iota in H.
  assert (bz_type1 B Qi init = o) as <- by congruence. clear H.
  destruct (good_facts B Qi HB HQ) as [HD [E1 [E2 Ht]]].
  pose proof (mesh_size_pos (bD B) HD) as HN.
  destruct (type1_tables B Qi init HB HQ) as [T1' [T2 [T3 [T4 _]]]]. cbv zeta in *.
  set (o := bz_type1 B Qi init) in *. clearbody o.
  set (g := fun i => len (reps B Qi (bz_tolerance B) i) - 1) in *.
  set (N := mesh_size (bD B)) in *.
  assert (forall i, 0 <= g i) as Hg.
  { intros i. unfold g. pose proof (reps_ne B Qi (bz_tolerance B) i HD Ht E1 E2). lia. }
  assert (forall k, 0 <= k < N -> o_map o (8 * N + k + 1) = off g k + g k) as T2s.
  { intros k Hk. replace (8 * N + k + 1) with (8 * N + (k + 1)) by lia. rewrite T2, off_succ by lia. reflexivity. }
  split. { replace (8 * N) with (8 * N + 0) by lia. rewrite T2 by lia. reflexivity. }
  split. { replace (9 * N) with (8 * N + N) by lia. rewrite T2 by lia. lia. }
  split.
  - intros i Hi. split; [|split; [|split]].
    + rewrite T2s, T2 by lia. specialize (Hg i). lia.
    + rewrite T3 by auto. apply reps_spec; auto.
    + apply T4; auto.
    + intros x Hx. apply T4; auto.
  - intros x Hx. rewrite T1' in Hx.
    assert (exists k, 0 <= k < N /\ (x = k \/ N + o_map o (8 * N + k) <= x < N + o_map o (8 * N + k + 1))) as [k [Hk Hkx]].
    { destruct (Z_lt_le_dec x N) as [Hlt|Hge]; [exists x; lia|].
      destruct (off_block g N (x - N) ltac:(lia) ltac:(intros i _; apply Hg) ltac:(lia)) as [k [t [Hk [Hlt E]]]].
      exists k. split; auto. right. rewrite T2s, T2 by lia. lia. }
    rewrite (T4 k x Hk Hkx). split; [auto|]. split; [auto|].
    apply (reps_cong B Qi (bz_tolerance B)). rewrite <- (T3 k Hk). unfold stored1.
    destruct Hkx as [->|Hkx]; [left; reflexivity|right]. apply in_map, in_zseq. exact Hkx.
Qed.
Print Assumptions C11_default_layout.

(** Doubled-mesh table of the default layout: provided no reciprocal lattice vector
    is shorter than the tolerance allows to merge, looking up the stored address of
    point x gives x back, and unused entries hold 8N. *)
Theorem C11_doubled_mesh_table : forall B init o, good_in B ->
  no_short_G (bL B) (bQ B) (bz_tolerance B) ->
  get_bz_grid_addresses B 1 init = Some o ->
  (forall x, 0 <= x < o_size o -> o_map o (grid_index (o_addr o x) (mesh2 (bD B))) = x) /\
  (forall p, 0 <= p < 8 * mesh_size (bD B) ->
     (forall x, 0 <= x < o_size o -> grid_index (o_addr o x) (mesh2 (bD B)) <> p) ->
     o_map o p = 8 * mesh_size (bD B)).
Proof.
  intros B init o HB HG H.
  pose proof (C11_default_layout B init o HB H) as [L1 [L2 [L3 L4]]].
  unfold get_bz_grid_addresses in H.
  destruct (inverse_unimodular (bQ B)) as [Qi|] eqn:HQ; [|discriminate].
  change (1 =? 1) with true in H. cbv iota in H.
  assert (bz_type1 B Qi init = o) as Eo by congruence. clear H.
  destruct (good_facts B Qi HB HQ) as [HD [E1 [E2 Ht]]].
  pose proof (mesh_size_pos (bD B) HD) as HN.
  destruct (type1_tables B Qi init HB HQ) as [T1' [T2 [T3 [T4 [T5 T6]]]]]. cbv zeta in *.
  rewrite Eo in *. clear Eo.
  set (g := fun i => len (reps B Qi (bz_tolerance B) i) - 1) in *.
  set (N := mesh_size (bD B)) in *.
  assert (forall i, 0 <= g i) as Hg.
  { intros i. unfold g. pose proof (reps_ne B Qi (bz_tolerance B) i HD Ht E1 E2). lia. }
  specialize (T6 HG).
  assert (forall k, 0 <= k < N -> o_map o (8 * N + k + 1) = off g k + g k) as T2s.
  { intros k Hk. replace (8 * N + k + 1) with (8 * N + (k + 1)) by lia. rewrite T2, off_succ by lia. reflexivity. }
  assert (forall k, 0 <= k < N -> o_addr o k = nthV (reps B Qi (bz_tolerance B) k) 0 /\
     forall t, 0 < t <= g k -> o_addr o (N + off g k + (t - 1)) = nthV (reps B Qi (bz_tolerance B) k) t) as HA.
  { intros k Hk. rewrite <- (T3 k Hk). split; [reflexivity|]. intros t Hlt.
    unfold stored1, nthV. replace (Z.to_nat t) with (S (Z.to_nat (t - 1))) by lia. cbn [nth].
    rewrite nth_indep with (d' := o_addr o 0).
    2:{ rewrite map_length, length_zseq, T2s, T2 by lia. lia. }
    rewrite map_nth. f_equal. unfold zseq.
    rewrite nth_indep with (d' := (fun k0 => N + o_map o (8 * N + k) + k0) 0).
    2:{ rewrite map_length, length_zrange, T2s, T2 by lia. lia. }
    rewrite (map_nth (fun k0 => N + o_map o (8 * N + k) + k0)). rewrite T2 by lia. f_equal.
    unfold zrange. rewrite nth_indep with (d' := Z.of_nat 0).
    2:{ rewrite map_length, seq_length, T2s by lia. lia. }
    rewrite map_nth, seq_nth by (rewrite T2s by lia; lia). lia. }
  split.
  - intros x Hx. destruct (L4 x Hx) as [Hk [Hkx _]]. set (k := o_b2g o x) in *. clearbody k.
    destruct (HA k Hk) as [A0 A1]. specialize (Hg k).
    destruct Hkx as [->|Hkx].
    + rewrite A0. apply (T6 k 0 Hk). change (0 <= 0 <= g k). lia.
    + rewrite T2s, T2 in Hkx by lia.
      replace x with (N + off g k + ((x - N - off g k + 1) - 1)) at 1 by lia.
      rewrite A1 by lia. rewrite T6 by (try (change (0 <= x - N - off g k + 1 <= g k)); lia).
      destruct (Z.eqb_spec (x - N - off g k + 1) 0); lia.
  - intros p Hp Hfree. apply T5; auto. intros k ad Hk Ha.
    rewrite <- (T3 k Hk) in Ha. destruct (L3 k Hk) as [_ [_ [Hbk _]]].
    assert (o_size o >= N) as Hsz.
    { rewrite T1'. pose proof (off_mono g 0 N ltac:(intros; apply Hg) ltac:(lia)). rewrite off_0 in H. lia. }
    destruct Ha as [<-|Ha]; [apply Hfree; lia|].
    apply in_map_iff in Ha. destruct Ha as [x [<- Hx]]. apply in_zseq in Hx. apply Hfree.
    rewrite T2s, T2 in Hx by lia.
    pose proof (off_mono g 0 k ltac:(intros; apply Hg) ltac:(lia)). rewrite off_0 in H.
    pose proof (off_mono g (k + 1) N ltac:(intros; apply Hg) ltac:(lia)). rewrite off_succ in H0 by lia. lia.
Qed.
Print Assumptions C11_doubled_mesh_table.

(** grid.py:456-459 [grg2bzg] and 399-426 get_indices_from_addresses *)
Definition grg2bzg (o : BzOut) (ty : Z) (gp : Z) : Z := if ty =? 1 then gp else o_map o gp.
Definition get_index_from_address (B : BzIn) (o : BzOut) (ty : Z) (a : V3) : Z :=
  grg2bzg o ty (grid_point_from_address_py a (bD B)).

(** The index returned for an address is a BZ grid point equivalent to it. *)
Theorem C11_index_from_address : forall B ty init o a, good_in B -> ty = 1 \/ ty = 2 ->
  get_bz_grid_addresses B ty init = Some o ->
  let x := get_index_from_address B o ty a in
  0 <= x < o_size o /\ vcong (bD B) (o_addr o x) a.
Proof.
  intros B ty init o a HB Hty H. unfold get_index_from_address.
  pose proof (proj1 HB) as HD. rewrite grid_index_py_eq by auto.
  pose proof (grid_index_range (bD B) a HD) as Hr.
  pose proof (address_of_index_cong (bD B) a HD) as Hc.
  set (i := grid_index a (bD B)) in *. clearbody i. cbv zeta.
  destruct Hty as [-> | ->].
  - change (grg2bzg o 1 i) with i.
    destruct (C11_default_layout B init o HB H) as [L1 [L2 [L3 L4]]].
    assert (0 <= i < o_size o) as Hi.
    { rewrite <- L2. assert (0 <= o_map o (9 * mesh_size (bD B))); [|lia].
      rewrite <- L1.
      assert (forall n, 0 <= n -> n <= mesh_size (bD B) -> o_map o (8 * mesh_size (bD B)) <= o_map o (8 * mesh_size (bD B) + n)) as K.
      { intros n Hn. pattern n, (zrange n). apply zrange_ind; auto.
        - intros _. rewrite Z.add_0_r. lia.
        - intros m Hm IH Hle. specialize (IH ltac:(lia)). destruct (L3 m ltac:(lia)) as [L3' _].
          rewrite Z.add_assoc. lia. }
      replace (9 * mesh_size (bD B)) with (8 * mesh_size (bD B) + mesh_size (bD B)) by lia. apply K; lia. }
    split; auto. destruct (L3 i Hr) as [_ [_ [Hb _]]]. destruct (L4 i Hi) as [_ [_ Hv]].
    rewrite Hb in Hv. eapply vcong_trans; eauto.
  - change (grg2bzg o 2 i) with (o_map o i).
    destruct (C11_dense_layout B init o HB H) as [L1 [L2 [L3 L4]]].
    assert (forall n m, 0 <= n -> 0 <= m -> n + m <= mesh_size (bD B) -> o_map o n <= o_map o (n + m)) as K.
    { intros n m Hn Hm. pattern m, (zrange m). apply zrange_ind; auto.
      - intros _. rewrite Z.add_0_r. lia.
      - intros k Hk IH Hle. specialize (IH ltac:(lia)). destruct (L3 (n + k) ltac:(lia)) as [L3' _].
        rewrite Z.add_assoc. lia. }
    destruct (L3 i Hr) as [Hlt [_ Hb]].
    assert (0 <= o_map o i < o_size o) as Hi.
    { split; [rewrite <- L1; apply (K 0 i); lia|]. rewrite <- L2.
      pose proof (K (i + 1) (mesh_size (bD B) - (i + 1)) ltac:(lia) ltac:(lia) ltac:(lia)).
      replace (i + 1 + (mesh_size (bD B) - (i + 1))) with (mesh_size (bD B)) in H0 by lia. lia. }
    split; auto. destruct (L4 _ Hi) as [_ [_ Hv]]. rewrite (Hb (o_map o i)) in Hv by lia.
    eapply vcong_trans; eauto.
Qed.
Print Assumptions C11_index_from_address.

(** The function reports failure exactly when the transformation matrix is not unimodular. *)
Theorem C11_failure_iff_not_unimodular : forall B ty init,
  get_bz_grid_addresses B ty init = None <-> det (bQ B) <> 1 /\ det (bQ B) <> -1.
Proof.
  intros B ty init. unfold get_bz_grid_addresses, inverse_unimodular.
  cbv zeta. destruct (adj (bQ B)); destruct (Z.eqb_spec (Z.abs (det (bQ B))) 1); split; intros H; try discriminate; try reflexivity; lia.
Qed.
Print Assumptions C11_failure_iff_not_unimodular.

(** No two BZ grid points carry the same address. *)
Theorem C11_addresses_distinct : forall B ty init o, good_in B -> ty = 1 \/ ty = 2 ->
  get_bz_grid_addresses B ty init = Some o ->
  forall x y, 0 <= x < o_size o -> 0 <= y < o_size o -> o_addr o x = o_addr o y -> x = y.
Proof.
  intros B ty init o HB Hty H x y Hx Hy E.
  assert (HD := proj1 HB).
  assert (Hk : forall k k', 0 <= k < mesh_size (bD B) -> 0 <= k' < mesh_size (bD B) ->
     vcong (bD B) (get_grid_address_from_index k (bD B)) (get_grid_address_from_index k' (bD B)) -> k = k').
  { intros k k' A1 A2 C. apply grid_index_eq_iff in C; auto. rewrite !index_of_address in C; auto. }
  assert (Hmap : forall (f : Z -> V3) l x y, NoDup (map f l) -> In x l -> In y l -> f x = f y -> x = y).
  { clear. intros f l x y. induction l as [|z l IH]; intros Hnd Hx Hy E; [contradiction|].
    cbn in Hnd. apply NoDup_cons_iff in Hnd. destruct Hnd as [Hn Hnd].
    destruct Hx as [<-|Hx], Hy as [<-|Hy]; auto.
    - exfalso. apply Hn. rewrite E. apply in_map. auto.
    - exfalso. apply Hn. rewrite <- E. apply in_map. auto. }
  destruct Hty as [-> | ->].
  - destruct (C11_default_layout B init o HB H) as [L1 [L2 [L3 L4]]]. cbv zeta in *.
    destruct (L4 x Hx) as [K1 [K2 K3]], (L4 y Hy) as [M1 [M2 M3]].
    assert (o_b2g o x = o_b2g o y) as Eb.
    { apply Hk; auto. rewrite E in K3. eapply vcong_trans; [apply vcong_sym; exact K3|exact M3]. }
    rewrite <- Eb in *. clear Eb M3. set (k := o_b2g o x) in *.
    destruct (L3 k K1) as [_ [[Hnd _] _]]. 
    apply (Hmap (o_addr o) (k :: zseq (mesh_size (bD B) + o_map o (8 * mesh_size (bD B) + k))
      (mesh_size (bD B) + o_map o (8 * mesh_size (bD B) + k + 1)))); auto.
    + destruct K2 as [K2|K2]; [left; auto|right; apply in_zseq; auto].
    + destruct M2 as [M2|M2]; [left; auto|right; apply in_zseq; auto].
  - destruct (C11_dense_layout B init o HB H) as [L1 [L2 [L3 L4]]]. cbv zeta in *.
    destruct (L4 x Hx) as [K1 [K2 K3]], (L4 y Hy) as [M1 [M2 M3]].
    assert (o_b2g o x = o_b2g o y) as Eb.
    { apply Hk; auto. rewrite E in K3. eapply vcong_trans; [apply vcong_sym; exact K3|exact M3]. }
    rewrite <- Eb in *. set (k := o_b2g o x) in *.
    destruct (L3 k K1) as [_ [[Hnd _] _]].
    apply (Hmap (o_addr o) (zseq (o_map o k) (o_map o (k + 1)))); auto; apply in_zseq; auto.
Qed.
Print Assumptions C11_addresses_distinct.

(* ------------------------------------------------------------------ C12 *)
(** The number of stored addresses fits in the allocated rows when every
    reciprocal lattice vector is long against the tolerance. *)
Theorem C12_buffer_suffices_partial : forall B ty init o, good_in B -> ty = 1 \/ ty = 2 ->
  no_short_G (bL B) (bQ B) (bz_tolerance B) ->
  get_bz_grid_addresses B ty init = Some o ->
  mesh_size (bD B) <= o_size o <= bz_rows_allocated (bD B).
Proof.
  intros B ty init o HB Hty HG H. unfold get_bz_grid_addresses in H.
  destruct (inverse_unimodular (bQ B)) as [Qi|] eqn:HQ; [|discriminate].
  destruct (good_facts B Qi HB HQ) as [HD [E1 [E2 Ht]]].
  pose proof (mesh_size_pos (bD B) HD) as HN. unfold bz_rows_allocated.
  change (num_gp (bD B)) with (mesh_size (bD B)).
  assert (off (fun i => len (reps B Qi (bz_tolerance B) i)) (mesh_size (bD B)) <= 8 * mesh_size (bD B)) as Hoff.
  { apply off_le; [lia|]. intros i Hi. apply reps_le_8; auto. }
  assert (mesh_size (bD B) <= off (fun i => len (reps B Qi (bz_tolerance B) i)) (mesh_size (bD B))) as Hoff2.
  { pose proof (off_mono (fun i => len (reps B Qi (bz_tolerance B) i) - 1) 0 (mesh_size (bD B))) as K.
    rewrite off_0, off_minus_one in K by lia. 
    assert (0 <= off (fun i => len (reps B Qi (bz_tolerance B) i)) (mesh_size (bD B)) - mesh_size (bD B)); [|lia].
    apply K; [|lia]. intros i _. pose proof (reps_ne B Qi (bz_tolerance B) i HD Ht E1 E2). lia. }
  destruct Hty as [-> | ->].
  - change (1 =? 1) with true in H. cbv iota in H.
    assert (bz_type1 B Qi init = o) as <- by congruence.
    destruct (type1_tables B Qi init HB HQ) as [T _]. cbv zeta in T. rewrite T.
    rewrite off_minus_one by lia. lia.
  - change (2 =? 1) with false in H. cbv iota in H.
    assert (bz_type2 B Qi init = o) as <- by congruence.
    destruct (type2_tables B Qi init HB HQ) as [T _]. cbv zeta in T. rewrite T. lia.
Qed.
Print Assumptions C12_buffer_suffices_partial.

Definition zero_out : BzOut := mkBzOut (fun _ => vzero) (fun _ => 0) (fun _ => 0) 0.
Definition flat_lattice : BzIn :=
  mkBzIn (v3 1 1 1) I3 vzero (qm 1 0 0 0 (1 # 20) 0 0 0 (1 # 20)).

(** An anisotropic lattice on a single grid point needs more rows than allocated. *)
Theorem C12_buffer_size_refuted :
  ~ (forall B init o, good_in B -> get_bz_grid_addresses B 2 init = Some o ->
       o_size o <= bz_rows_allocated (bD B)).
Proof.
  intros H. assert (good_in flat_lattice) as HB.
  { split; [cbn; lia|]. vm_compute. discriminate. }
  destruct (get_bz_grid_addresses flat_lattice 2 zero_out) as [o|] eqn:E; [|vm_compute in E; discriminate].
  specialize (H flat_lattice zero_out o HB E).
  assert (o_size o = 9) as Es.
  { assert (option_map o_size (get_bz_grid_addresses flat_lattice 2 zero_out) = Some 9) as K by (vm_compute; reflexivity).
    rewrite E in K. cbn in K. congruence. }
  rewrite Es in H. vm_compute in H. apply H. reflexivity.
Qed.
Print Assumptions C12_buffer_size_refuted.

(* ------------------------------------------------------------------ C13 *)
Lemma rot_address : forall R PS a a', dbl a' PS = mulMV R (dbl a PS) ->
  get_grid_address (mulMV R (get_double_grid_address a PS)) PS = a'.
Proof. intros R PS a a' H. rewrite double_dbl, <- H. apply get_grid_address_dbl. Qed.

(** Where a stored address can be found. *)
Lemma stored_block : forall B ty init o x, good_in B -> ty = 1 \/ ty = 2 ->
  get_bz_grid_addresses B ty init = Some o -> 0 <= x < o_size o ->
  let N := mesh_size (bD B) in
  let gp := grid_index (o_addr o x) (bD B) in
  gp = o_b2g o x /\
  if ty =? 1 then x = gp \/ o_map o (8 * N + gp) + N <= x < o_map o (8 * N + gp + 1) + N
  else o_map o gp <= x < o_map o (gp + 1).
Proof.
  intros B ty init o x HB Hty H Hx. assert (HD := proj1 HB). cbv zeta.
  destruct Hty as [-> | ->]; cbn [Z.eqb Pos.eqb].
  - destruct (C11_default_layout B init o HB H) as [_ [_ [_ L4]]]. cbv zeta in L4.
    destruct (L4 x Hx) as [K1 [K2 K3]]. apply grid_index_eq_iff in K3; auto.
    rewrite index_of_address in K3 by auto. rewrite K3. split; auto. intuition lia.
  - destruct (C11_dense_layout B init o HB H) as [_ [_ [_ L4]]]. cbv zeta in L4.
    destruct (L4 x Hx) as [K1 [K2 K3]]. apply grid_index_eq_iff in K3; auto.
    rewrite index_of_address in K3 by auto. rewrite K3. split; auto.
Qed.

Lemma block_in_range : forall B ty init o gp x, good_in B -> ty = 1 \/ ty = 2 ->
  get_bz_grid_addresses B ty init = Some o -> 0 <= gp < mesh_size (bD B) ->
  (let N := mesh_size (bD B) in
   if ty =? 1 then x = gp \/ o_map o (8 * N + gp) + N <= x < o_map o (8 * N + gp + 1) + N
   else o_map o gp <= x < o_map o (gp + 1)) ->
  0 <= x < o_size o /\ grid_index (o_addr o x) (bD B) = gp.
Proof.
  intros B ty init o gp x HB Hty H Hgp Hx. assert (HD := proj1 HB). cbv zeta in Hx.
  assert (0 <= x < o_size o /\ o_b2g o x = gp) as [Hr Hb].
  { unfold get_bz_grid_addresses in H.
    destruct (inverse_unimodular (bQ B)) as [Qi|] eqn:HQ; [|discriminate].
    destruct (good_facts B Qi HB HQ) as [_ [E1 [E2 Ht]]].
    set (f := fun i => len (reps B Qi (bz_tolerance B) i)).
    set (g := fun i => len (reps B Qi (bz_tolerance B) i) - 1).
    assert (forall i, 0 <= g i /\ 0 <= f i) as Hg.
    { intros i. unfold g, f. pose proof (reps_ne B Qi (bz_tolerance B) i HD Ht E1 E2). lia. }
    destruct Hty as [-> | ->]; cbn [Z.eqb Pos.eqb] in H, Hx.
    - assert (bz_type1 B Qi init = o) as Eo by congruence. 
      destruct (type1_tables B Qi init HB HQ) as [T1' [T2 [T3 [T4 _]]]]. cbv zeta in *.
      rewrite Eo in *. clear Eo. fold g in T1', T2. set (N := mesh_size (bD B)) in *.
      split; [|apply T4; auto; intuition lia]. rewrite T1'.
      pose proof (off_mono g 0 gp ltac:(intros; apply Hg) ltac:(lia)) as M1. rewrite off_0 in M1.
      pose proof (off_mono g (gp + 1) N ltac:(intros; apply Hg) ltac:(lia)) as M2. rewrite off_succ in M2 by lia.
      pose proof (proj1 (Hg gp)).
      destruct Hx as [->|Hx]; [lia|].
      rewrite T2 in Hx by lia. replace (8 * N + gp + 1) with (8 * N + (gp + 1)) in Hx by lia.
      rewrite T2, off_succ in Hx by lia. lia.
    - assert (bz_type2 B Qi init = o) as Eo by congruence. 
      destruct (type2_tables B Qi init HB HQ) as [T1' [T2 [T3 T4]]]. cbv zeta in *.
      rewrite Eo in *. clear Eo. fold f in T1', T2. set (N := mesh_size (bD B)) in *.
      split; [|apply T4; auto]. rewrite T1'.
      pose proof (off_mono f 0 gp ltac:(intros; apply Hg) ltac:(lia)) as M1. rewrite off_0 in M1.
      pose proof (off_mono f (gp + 1) N ltac:(intros; apply Hg) ltac:(lia)) as M2.
      rewrite !T2 in Hx by lia. lia. }
  split; auto. destruct (stored_block B ty init o x HB Hty H Hr) as [E _]. congruence.
Qed.

(** If the rotated point is stored, the function returns the one index storing it. *)
Theorem C13_rotation_finds_stored_point : forall B ty init o x y R, good_in B -> ty = 1 \/ ty = 2 ->
  get_bz_grid_addresses B ty init = Some o ->
  0 <= x < o_size o -> 0 <= y < o_size o ->
  dbl (o_addr o y) (bPS B) = mulMV R (dbl (o_addr o x) (bPS B)) ->
  bz_rotate_grid_index B o ty x R = y.
Proof.
  intros B ty init o x y R HB Hty H Hx Hy E. unfold bz_rotate_grid_index.
  rewrite (rot_address R (bPS B) _ _ E).
  destruct (stored_block B ty init o y HB Hty H Hy) as [Eg Hblk]. cbv zeta in *.
  change (num_gp (bD B)) with (mesh_size (bD B)).
  set (gp := grid_index (o_addr o y) (bD B)) in *.
  set (N := mesh_size (bD B)) in *.
  assert (Hgp : 0 <= gp < N) by (apply grid_index_range, HB).
  assert (Hu : forall z, (if ty =? 1 then z = gp \/ o_map o (8 * N + gp) + N <= z < o_map o (8 * N + gp + 1) + N
     else o_map o gp <= z < o_map o (gp + 1)) -> veqb (o_addr o z) (o_addr o y) = true -> z = y).
  { intros z Hz Ez. apply veqb_eq in Ez.
    destruct (block_in_range B ty init o gp z HB Hty H Hgp Hz) as [Hr _].
    apply (C11_addresses_distinct B ty init o HB Hty H); auto. }
  assert (veqb (o_addr o y) (o_addr o y) = true) as Hyy by now apply veqb_eq.
  destruct (ty =? 1) eqn:Et.
  - destruct (veqb (o_addr o gp) (o_addr o y)) eqn:Eh; [apply Hu; auto|].
    destruct Hblk as [Ey|Hblk]; [rewrite <- Ey in Eh; congruence|].
    destruct (find_first _ _) as [i|] eqn:Ef.
    + apply find_first_some in Ef. destruct Ef as [Hi Ei]. apply in_zseq in Hi. apply Hu; auto.
    + exfalso. pose proof (find_first_none _ _ _ Ef) as Ef'. specialize (Ef' y). cbv beta in Ef'. rewrite Ef' in Hyy; [discriminate|]. apply in_zseq. lia.
  - destruct (find_first _ _) as [i|] eqn:Ef.
    + apply find_first_some in Ef. destruct Ef as [Hi Ei]. apply in_zseq in Hi. apply Hu; auto.
    + exfalso. pose proof (find_first_none _ _ _ Ef) as Ef'. specialize (Ef' y). cbv beta in Ef'. rewrite Ef' in Hyy; [discriminate|]. apply in_zseq. lia.
Qed.
Print Assumptions C13_rotation_finds_stored_point.

(** Dense layout: the result is always a BZ grid point at an equivalent position. *)
Theorem C13_dense_rotation_equivalent : forall B init o x R, good_in B ->
  shift_ok (bPS B) R ->
  get_bz_grid_addresses B 2 init = Some o -> 0 <= x < o_size o ->
  let y := bz_rotate_grid_index B o 2 x R in
  0 <= y < o_size o /\
  vcong (twice (bD B)) (dbl (o_addr o y) (bPS B)) (mulMV R (dbl (o_addr o x) (bPS B))).
Proof.
  intros B init o x R HB [t HR] H Hx. assert (HD := proj1 HB).
  pose proof (rot_dbl R (o_addr o x) (bPS B) t HR) as E.
  set (a' := vadd (mulMV R (o_addr o x)) t) in *. cbv zeta.
  unfold bz_rotate_grid_index. rewrite (rot_address R (bPS B) _ a' (eq_sym E)).
  cbn [Z.eqb Pos.eqb]. rewrite E.
  set (gp := grid_index a' (bD B)).
  assert (Hgp : 0 <= gp < mesh_size (bD B)) by (apply grid_index_range, HB).
  assert (forall z, o_map o gp <= z < o_map o (gp + 1) ->
     0 <= z < o_size o /\ vcong (twice (bD B)) (dbl (o_addr o z) (bPS B)) (dbl a' (bPS B))) as K.
  { intros z Hz. destruct (block_in_range B 2 init o gp z HB (or_intror eq_refl) H Hgp Hz) as [Hr Eg].
    split; auto. apply vcong_twice. apply grid_index_eq_iff; auto. }
  destruct (C11_dense_layout B init o HB H) as [_ [_ [L3 _]]]. cbv zeta in L3.
  destruct (L3 gp Hgp) as [Hlt _].
  destruct (find_first _ _) as [i|] eqn:Ef.
  - apply find_first_some in Ef. destruct Ef as [Hi _]. apply in_zseq in Hi. apply K; auto.
  - apply K. lia.
Qed.
Print Assumptions C13_dense_rotation_equivalent.

(** The Python version (unshifted grid) returns an index exactly when the rotated
    address is stored, and then it is the C version's. *)
Theorem C13_python_agrees : forall B ty init o x R, good_in B -> ty = 1 \/ ty = 2 ->
  bPS B = vzero -> get_bz_grid_addresses B ty init = Some o -> 0 <= x < o_size o ->
  (forall y, bz_rotate_grid_index_py B o (ty =? 2) x R = Some y ->
     0 <= y < o_size o /\ o_addr o y = mulMV R (o_addr o x) /\ bz_rotate_grid_index B o ty x R = y) /\
  (bz_rotate_grid_index_py B o (ty =? 2) x R = None ->
     forall y, 0 <= y < o_size o -> o_addr o y <> mulMV R (o_addr o x)).
Proof.
  intros B ty init o x R HB Hty HPS H Hx. assert (HD := proj1 HB).
  unfold bz_rotate_grid_index_py. change (num_gp (bD B)) with (mesh_size (bD B)).
  set (a' := mulMV R (o_addr o x)). set (gp := grid_index a' (bD B)). set (N := mesh_size (bD B)).
  assert (Hgp : 0 <= gp < N) by (apply grid_index_range, HB).
  assert (exists l, (forall z, In z l <-> if ty =? 1 then z = gp \/ o_map o (8 * N + gp) + N <= z < o_map o (8 * N + gp + 1) + N
     else o_map o gp <= z < o_map o (gp + 1)) /\
     (if ty =? 2 then find_first (fun i => veqb (o_addr o i) a') (zseq (o_map o gp) (o_map o (gp + 1)))
      else find_first (fun i => veqb (o_addr o i) a') (gp :: map (fun i => i + N)
         (zseq (o_map o (8 * N + gp)) (o_map o (8 * N + gp + 1))))) = find_first (fun i => veqb (o_addr o i) a') l) as [l [Hl ->]].
  { destruct Hty as [-> | ->]; cbn [Z.eqb Pos.eqb]; eexists; (split; [|reflexivity]); intros z.
    - cbn [In]. rewrite in_map_iff. split.
      + intros [<-|[w [<- Hw]]]; auto. apply in_zseq in Hw. lia.
      + intros [->|Hz]; auto. right. exists (z - N). rewrite in_zseq. lia.
    - apply in_zseq. }
  split.
  - intros y Hf. apply find_first_some in Hf. destruct Hf as [Hi Ei]. apply veqb_eq in Ei. apply Hl in Hi.
    destruct (block_in_range B ty init o gp y HB Hty H Hgp Hi) as [Hr _].
    split; auto. split; auto. apply (C13_rotation_finds_stored_point B ty init o x y R HB Hty H); auto.
    rewrite HPS, Ei. unfold a'. unfold dbl. rewrite !mulMV_add.
    assert (mulMV R vzero = vzero) as -> by (destruct R; cbn; unfold vzero; f_equal; ring). reflexivity.
  - intros Hf y Hy E. pose proof (find_first_none _ _ _ Hf) as Ef.
    destruct (stored_block B ty init o y HB Hty H Hy) as [_ Hblk]. cbv zeta in Hblk.
    rewrite E in Hblk. fold a' gp N in Hblk. apply Hl in Hblk. specialize (Ef y Hblk).
    assert (veqb (o_addr o y) a' = true) by (apply veqb_eq; exact E). congruence.
Qed.
Print Assumptions C13_python_agrees.

(** When no translate's length falls in the tolerance band, the 125-cell search
    misses nothing and R preserves lengths, the stored points are closed under R. *)
Definition no_band (B : BzIn) (tol : Q) : Prop :=
  let ln := len2 (bL B) (bQ B) (bD B) (bPS B) in
  forall a b, vcong (bD B) a b -> (forall c, vcong (bD B) a c -> ln a <= ln c)%Q ->
    (ln b < ln a + 2 * tol)%Q -> (ln b < ln a + tol)%Q.
Definition search_complete (B : BzIn) (tol : Q) : Prop :=
  let ln := len2 (bL B) (bQ B) (bD B) (bPS B) in
  forall n a0 a b, nearest (qmulMV (qm_of (bQ B)) (position (bD B) (bPS B) a0)) n ->
    candidate (bD B) (bQ B) n a0 a -> (forall c, candidate (bD B) (bQ B) n a0 c -> ln a <= ln c)%Q ->
    vcong (bD B) a0 b -> (ln b < ln a + tol)%Q -> candidate (bD B) (bQ B) n a0 b.
Definition isometry (B : BzIn) (R : M3) : Prop :=
  forall a a', dbl a' (bPS B) = mulMV R (dbl a (bPS B)) ->
    len2 (bL B) (bQ B) (bD B) (bPS B) a' == len2 (bL B) (bQ B) (bD B) (bPS B) a.

Lemma candidate_vcong : forall D U n a0 a, candidate D U n a0 a -> vcong D a a0.
Proof. intros D U n a0 a [k [E _]]. exists k. exact E. Qed.

Lemma stored_reps : forall B ty init o, good_in B -> ty = 1 \/ ty = 2 ->
  get_bz_grid_addresses B ty init = Some o -> forall i, 0 <= i < mesh_size (bD B) ->
  exists l, bz_representatives (bL B) (bQ B) (bD B) (bPS B) (bz_tolerance B)
       (get_grid_address_from_index i (bD B)) l /\
   (forall a, In a l <-> exists x, 0 <= x < o_size o /\ o_addr o x = a /\ grid_index a (bD B) = i).
Proof.
  intros B ty init o HB Hty H i Hi.
  assert (exists l, bz_representatives (bL B) (bQ B) (bD B) (bPS B) (bz_tolerance B)
       (get_grid_address_from_index i (bD B)) (map (o_addr o) l) /\ (forall z, In z l <->
     let N := mesh_size (bD B) in
     if ty =? 1 then z = i \/ o_map o (8 * N + i) + N <= z < o_map o (8 * N + i + 1) + N
     else o_map o i <= z < o_map o (i + 1))) as [l [Hl1 Hl2]].
  { destruct Hty as [-> | ->]; cbn [Z.eqb Pos.eqb]; cbv zeta.
    - destruct (C11_default_layout B init o HB H) as [_ [_ [L3 _]]]. cbv zeta in L3.
      destruct (L3 i Hi) as [_ [K _]]. exists (i :: zseq (mesh_size (bD B) + o_map o (8 * mesh_size (bD B) + i))
        (mesh_size (bD B) + o_map o (8 * mesh_size (bD B) + i + 1))). split; [exact K|].
      intros z. cbn [In]. rewrite in_zseq. intuition lia.
    - destruct (C11_dense_layout B init o HB H) as [_ [_ [L3 _]]]. cbv zeta in L3.
      destruct (L3 i Hi) as [_ [K _]]. eexists. split; [exact K|]. intros z. apply in_zseq. }
  exists (map (o_addr o) l). split; auto. intros a. rewrite in_map_iff. split.
  - intros [x [<- Hx]]. exists x. apply Hl2 in Hx.
    destruct (block_in_range B ty init o i x HB Hty H Hi Hx) as [K1 K2]. auto.
  - intros [x [Hx [<- Eg]]]. exists x. split; auto. apply Hl2.
    destruct (stored_block B ty init o x HB Hty H Hx) as [_ K]. cbv zeta in *. rewrite Eg in K. exact K.
Qed.

Lemma mulMM_inv_comm : forall R S, mulMM R S = I3 -> mulMM S R = I3.
Proof.
  intros R S H. assert (unimod R) as HR.
  { assert (det R * det S = 1) as Hd by (rewrite <- det_mulMM, H; reflexivity).
    unfold unimod. apply Z.mul_eq_1 in Hd. exact Hd. }
  rewrite <- (mulMM_1_l (mulMM S R)), <- (minv_l R HR).
  rewrite <- (mulMM_assoc (minv R)), (mulMM_assoc R S R), H, mulMM_1_l. reflexivity.
Qed.

Theorem C13_stored_points_closed_under_symmetry : forall B ty init o R S, good_in B -> ty = 1 \/ ty = 2 ->
  get_bz_grid_addresses B ty init = Some o ->
  no_band B (bz_tolerance B) -> search_complete B (bz_tolerance B) ->
  mulMM R S = I3 -> compat (bD B) R -> compat (bD B) S ->
  shift_ok (bPS B) R -> shift_ok (bPS B) S -> isometry B R -> isometry B S ->
  forall x, 0 <= x < o_size o ->
  let y := bz_rotate_grid_index B o ty x R in
  0 <= y < o_size o /\ dbl (o_addr o y) (bPS B) = mulMV R (dbl (o_addr o x) (bPS B)).
Proof.
  intros B ty init o R S HB Hty H Hband Hcomp HRS CR CS SR SS IR IS x Hx.
  assert (HD := proj1 HB). cbv zeta.
  set (ln := len2 (bL B) (bQ B) (bD B) (bPS B)) in *.
  assert (0 < bz_tolerance B)%Q as Ht.
  { unfold get_bz_grid_addresses in H. destruct (inverse_unimodular (bQ B)) as [Qi|] eqn:HQ; [|discriminate].
    apply (good_facts B Qi HB HQ). }
  pose proof (stored_reps B ty init o HB Hty H) as Hstored.
  pose proof (fun y => C13_rotation_finds_stored_point B ty init o x y R HB Hty H Hx) as Hfind.
  set (tol := bz_tolerance B) in *. clearbody tol.
  assert (exists y, 0 <= y < o_size o /\ dbl (o_addr o y) (bPS B) = mulMV R (dbl (o_addr o x) (bPS B))) as [y [Hy E]].
  2:{ rewrite (Hfind y Hy E). auto. }
  set (a := o_addr o x). set (i := grid_index a (bD B)).
  assert (0 <= i < mesh_size (bD B)) as Hi by now apply grid_index_range.
  destruct (Hstored i Hi) as [l [[_ [n [Hn [c [Hc1 [Hc2 [Hc3 [Hc4 Hc5]]]]]]]] Hl]].
  fold ln in Hc3, Hc4, Hc5.
  assert (In a l) as Ha. { apply Hl. exists x. auto. }
  destruct (Hc4 a Ha) as [Ha1 Ha2].
  set (a0 := get_grid_address_from_index i (bD B)) in *.
  assert (forall d, vcong (bD B) a0 d -> (ln c <= ln d)%Q) as Hmin.
  { intros d Hd. destruct (Qlt_le_dec (ln d) (ln c)) as [Hlt|]; auto. apply Hc3.
    apply (Hcomp n a0 c d); auto. fold ln. lra. }
  assert (ln a < ln c + tol)%Q as Ha3.
  { apply (Hband c a); auto.
    - eapply vcong_trans; [eapply candidate_vcong; eauto|]. apply vcong_sym. eapply candidate_vcong; eauto.
    - intros d Hd. apply Hmin. eapply vcong_trans; [|exact Hd]. apply vcong_sym. eapply candidate_vcong; eauto.
    }
  destruct SR as [t HR]. pose proof (rot_dbl R a (bPS B) t HR) as E.
  set (a' := vadd (mulMV R a) t) in *. set (i' := grid_index a' (bD B)).
  assert (0 <= i' < mesh_size (bD B)) as Hi' by now apply grid_index_range.
  destruct (Hstored i' Hi') as [l' [[_ [n' [Hn' [c' [Hd1 [Hd2 [Hd3 [Hd4 Hd5]]]]]]]] Hl']].
  fold ln in Hd3, Hd4, Hd5.
  set (a0' := get_grid_address_from_index i' (bD B)) in *.
  assert (vcong (bD B) a0' a') as Hcong by (apply address_of_index_cong; auto).
  assert (ln c <= ln c')%Q as Hcc.
  { destruct SS as [s HS]. pose proof (rot_dbl S c' (bPS B) s HS) as E'.
    assert (Qeq (ln (vadd (mulMV S c') s)) (ln c')) as K by exact (IS _ _ (eq_sym E')).
    rewrite <- K. apply Hmin. clear K.
    (* a = S a' + s *)
    assert (a = vadd (mulMV S a') s) as Ea.
    { pose proof (rot_dbl S a' (bPS B) s HS) as E2. rewrite <- E in E2. rewrite <- mulMV_mulMM in E2.
      assert (mulMM S R = I3) as HSR by (apply mulMM_inv_comm; exact HRS).
      rewrite HSR, mulMV_1 in E2. apply (f_equal (fun v => get_grid_address v (bPS B))) in E2.
      rewrite !get_grid_address_dbl in E2. exact E2. }
    eapply vcong_trans; [apply address_of_index_cong; auto|]. rewrite Ea.
    apply vcong_add_r. apply compat_cong; auto. eapply vcong_trans; [apply vcong_sym; exact Hcong|].
    apply vcong_sym. eapply candidate_vcong; eauto. }
  assert (ln a' < ln c' + tol)%Q as Ha'.
  { assert (Qeq (ln a') (ln a)) as K by exact (IR a a' (eq_sym E)). rewrite K. lra. }
  assert (In a' l') as Hin.
  { apply Hd5; auto. apply (Hcomp n' a0' c' a'); auto. }
  apply Hl' in Hin. destruct Hin as [y [Hy [Ey _]]]. exists y. split; auto. rewrite Ey. fold a. rewrite E. reflexivity.
Qed.
Print Assumptions C13_stored_points_closed_under_symmetry.

(** Default layout, rotated address not stored: the fallback reads the doubled-mesh
    table with a single-mesh index and returns an inequivalent point. Witness: a
    slightly distorted lattice with inversion. *)
Lemma v3_inj : forall a b c d e f, v3 a b c = v3 d e f -> a = d /\ b = e /\ c = f.
Proof. intros a b c d e f H. injection H. auto. Qed.
Definition tilted : BzIn :=
  mkBzIn (v3 3 2 2) I3 vzero (qm 200 (-2) (-1) 0 200 1 0 0 200).
Theorem C13_default_fallback_refuted :
  ~ (forall B init o x R, good_in B -> compat (bD B) R -> shift_ok (bPS B) R -> isometry B R ->
       get_bz_grid_addresses B 1 init = Some o -> 0 <= x < o_size o ->
       let y := bz_rotate_grid_index B o 1 x R in
       0 <= y < o_size o /\
       vcong (twice (bD B)) (dbl (o_addr o y) (bPS B)) (mulMV R (dbl (o_addr o x) (bPS B)))).
Proof.
  intros H.
  assert (good_in tilted) as HB. { split; [cbn; lia|]. vm_compute. discriminate. }
  destruct (get_bz_grid_addresses tilted 1 zero_out) as [o|] eqn:E.
  2:{ apply C11_failure_iff_not_unimodular in E. cbn in E. lia. }
  assert (match get_bz_grid_addresses tilted 1 zero_out with
          | None => false
          | Some o => existsb (fun x => negb (grid_index (o_addr o (bz_rotate_grid_index tilted o 1 x (mneg I3))) (bD tilted)
                                =? grid_index (vneg (o_addr o x)) (bD tilted))) (zrange (o_size o))
          end = true) as W by (vm_compute; reflexivity).
  rewrite E in W. apply existsb_exists in W. destruct W as [x [Hx W]]. apply in_zrange in Hx.
  apply negb_true_iff, Z.eqb_neq in W. apply W.
  assert (compat (bD tilted) (mneg I3)) as CR by (apply compatb_sound; [apply HB|reflexivity]).
  assert (shift_ok (bPS tilted) (mneg I3)) as SR by (apply shift_okb_sound; reflexivity).
  assert (isometry tilted (mneg I3)) as IR.
  { intros [x0 y0 z0] [x1 y1 z1] Ed. unfold dbl in Ed. cbn [tilted bPS mneg I3 vzero vadd mulMV] in Ed.
    apply v3_inj in Ed. destruct Ed as [E1 [E2 E3]].
    assert (x1 = - x0 /\ y1 = - y0 /\ z1 = - z0) as [-> [-> ->]] by lia.
    unfold len2, position, dbl. cbn -[Z.mul Z.add Qmult Qplus Qdiv qz Qeq Z.opp].
    replace (- x0 + - x0 + 0) with (- (x0 + x0 + 0)) by ring.
    replace (- y0 + - y0 + 0) with (- (y0 + y0 + 0)) by ring.
    replace (- z0 + - z0 + 0) with (- (z0 + z0 + 0)) by ring.
    rewrite !qz_opp. unfold Qdiv. ring. }
  destruct (H tilted zero_out o x (mneg I3) HB CR SR IR E Hx) as [_ K].
  set (y := bz_rotate_grid_index tilted o 1 x (mneg I3)) in *. clearbody y.
  apply grid_index_eq_iff; [apply HB|].
  destruct K as [k K]. exists k. destruct (o_addr o y), (o_addr o x), k. cbn -[Z.mul] in K |- *.
  apply v3_inj in K. destruct K as [K0 [K1 K2]]. f_equal; lia.
Qed.
Print Assumptions C13_default_fallback_refuted.

(* ------------------------------------------------------------- examples *)
(** Simple cubic 2x2x2: 27 BZ points; the hypotheses of the theorems hold. *)
Definition cubic : BzIn := mkBzIn (v3 2 2 2) I3 vzero (qm 1 0 0 0 1 0 0 0 1).
Example C11_ex_good : good_in cubic.
Proof. split; [cbn; lia|]. vm_compute. discriminate. Qed.
Example C11_ex_no_short : no_short_G (bL cubic) (bQ cubic) (bz_tolerance cubic).
Proof.
  intros [x y z] Hk. assert (Qle (2 * bz_tolerance cubic) 1) as Ht by (vm_compute; discriminate).
  assert (Qle 1 (G_len2 (bL cubic) (bQ cubic) (v3 x y z))) as HG.
  { unfold G_len2. cbn -[Z.mul Z.add Qmult Qplus qz].
    assert (Qeq (1 * qz (1 * x + 0 * y + 0 * z) + 0 * qz (0 * x + 1 * y + 0 * z) + 0 * qz (0 * x + 0 * y + 1 * z)) (qz x)) as E0.
    { replace (1 * x + 0 * y + 0 * z) with x by ring. ring. }
    assert (Qeq (0 * qz (1 * x + 0 * y + 0 * z) + 1 * qz (0 * x + 1 * y + 0 * z) + 0 * qz (0 * x + 0 * y + 1 * z)) (qz y)) as E1.
    { replace (0 * x + 1 * y + 0 * z) with y by ring. ring. }
    assert (Qeq (0 * qz (1 * x + 0 * y + 0 * z) + 0 * qz (0 * x + 1 * y + 0 * z) + 1 * qz (0 * x + 0 * y + 1 * z)) (qz z)) as E2.
    { replace (0 * x + 0 * y + 1 * z) with z by ring. ring. }
    rewrite E0, E1, E2. rewrite <- !qz_mul, <- !qz_add. change 1%Q with (qz 1). apply (proj1 (qz_le 1 (x * x + y * y + z * z))).
    assert (x <> 0 \/ y <> 0 \/ z <> 0) as Hn.
    { destruct (Z.eq_dec x 0) as [->|]; auto. destruct (Z.eq_dec y 0) as [->|]; auto.
      destruct (Z.eq_dec z 0) as [->|]; auto. }
    nia. }
  eapply Qle_trans; [exact Ht|exact HG].
Qed.
(** Two points along x: 3 BZ points, point 1 is kept on both faces. *)
Definition rod : BzIn := mkBzIn (v3 2 1 1) I3 vzero (qm 1 0 0 0 1 0 0 0 1).
Example C11_ex_rod : good_in rod.
Proof. split; [cbn; lia|]. vm_compute. discriminate. Qed.
Example C11_ex_dense : option_map (fun o => (o_size o, stored2 o 1, stored2 o 0))
  (get_bz_grid_addresses rod 2 zero_out) = Some (3, [v3 (-1) 0 0; v3 1 0 0], [v3 0 0 0]).
Proof. vm_compute. reflexivity. Qed.
(** Inversion takes 2 = (1,0,0) to 1 = (-1,0,0). *)
Example C11_ex_default : option_map (fun o => (o_size o, stored1 2 o 1, o_map o 1, (o_addr o 2,
    bz_rotate_grid_index rod o 1 2 (mneg I3), bz_rotate_grid_index_py rod o false 2 (mneg I3))))
  (get_bz_grid_addresses rod 1 zero_out) =
  Some (3, [v3 (-1) 0 0; v3 1 0 0], 2, (v3 1 0 0, 1, Some 1)).
Proof. vm_compute. reflexivity. Qed.
(** A shifted grid in dense layout: inversion is compatible with the half shift. *)
Definition shifted : BzIn := mkBzIn (v3 2 1 1) I3 (v3 1 0 0) (qm 1 0 0 0 1 0 0 0 1).
Example C13_ex_shift : good_in shifted /\ shift_ok (bPS shifted) (mneg I3) /\
  option_map (fun o => (o_size o, map (fun x => bz_rotate_grid_index shifted o 2 x (mneg I3)) (zrange (o_size o))))
    (get_bz_grid_addresses shifted 2 zero_out) = Some (2, [1; 0]).
Proof.
  split; [split; [cbn; lia|vm_compute; discriminate]|]. split; [apply shift_okb_sound; reflexivity|].
  vm_compute. reflexivity.
Qed.

(** The hypotheses of [C13_stored_points_closed_under_symmetry] hold for the cubic grid. *)
Definition sq (a : V3) : Z := let '(v3 x y z) := a in x * x + y * y + z * z.
Lemma cubic_len : forall a, Qeq (len2 (bL cubic) (bQ cubic) (bD cubic) (bPS cubic) a) (qz (sq a) / 4)%Q.
Proof.
  intros [x y z]. unfold len2, position, dbl, sq. cbn -[Z.mul Z.add Qmult Qplus Qdiv qz Qeq].
  rewrite !Z.add_0_r. change (2 * 2) with 4. replace (x + x) with (2 * x) by ring.
  replace (y + y) with (2 * y) by ring. replace (z + z) with (2 * z) by ring.
  rewrite !qz_add, !qz_mul. change (qz 4) with 4%Q. change (qz 2) with 2%Q.
  change (qz 1) with 1%Q. change (qz 0) with 0%Q. field.
Qed.
Lemma cubic_close : forall a b t, Qle t (1 # 4) ->
  Qlt (len2 (bL cubic) (bQ cubic) (bD cubic) (bPS cubic) b) (len2 (bL cubic) (bQ cubic) (bD cubic) (bPS cubic) a + t) ->
  sq b <= sq a.
Proof.
  intros a b t Ht H. rewrite !cubic_len in H.
  assert (Qlt (qz (sq b)) (qz (sq a + 1))) as K.
  { rewrite qz_add. change (qz 1) with 1%Q. 
    assert (Qlt (qz (sq b) / 4 * 4) ((qz (sq a) / 4 + (1 # 4)) * 4)) as K by lra.
    assert (Qeq (qz (sq b) / 4 * 4) (qz (sq b))) as E1 by field.
    assert (Qeq ((qz (sq a) / 4 + (1 # 4)) * 4) (qz (sq a) + 1)) as E2 by field.
    lra. }
  apply qz_lt in K. lia.
Qed.
Lemma cubic_le : forall a b,
  Qle (len2 (bL cubic) (bQ cubic) (bD cubic) (bPS cubic) a) (len2 (bL cubic) (bQ cubic) (bD cubic) (bPS cubic) b) <->
  sq a <= sq b.
Proof.
  intros a b. rewrite !cubic_len, (qz_le (sq a) (sq b)). split; intros H.
  - assert (Qeq (qz (sq a)) (qz (sq a) / 4 * 4)) as -> by field.
    assert (Qeq (qz (sq b)) (qz (sq b) / 4 * 4)) as -> by field. lra.
  - apply Qmult_le_compat_r; auto. discriminate.
Qed.
Example C13_ex_no_band : no_band cubic (bz_tolerance cubic).
Proof.
  intros a b _ _ H.
  assert (Qle (2 * bz_tolerance cubic) (1 # 4)) as Ht by (vm_compute; discriminate).
  assert (Qlt 0 (bz_tolerance cubic)) as Hp by (vm_compute; reflexivity).
  apply cubic_close in H; auto. apply cubic_le in H. lra.
Qed.
Example C13_ex_complete : search_complete cubic (bz_tolerance cubic).
Proof.
  intros n a0 a b Hn Ha Hmin [k E] Hlt.
  assert (Qle (bz_tolerance cubic) (1 # 4)) as Ht by (vm_compute; discriminate).
  apply cubic_close in Hlt; auto.
  assert (candidate (bD cubic) (bQ cubic) n a0 (vadd a0 (vmul (bD cubic) (vneg n)))) as Hc.
  { exists (vneg n). split; auto. destruct n. cbn [cubic bQ I3 mulMV vneg vadd]. unfold box. lia. }
  pose proof (Hmin _ Hc) as Hle. apply cubic_le in Hle.
  exists (vneg k).
  destruct a0 as [x y z], n as [n0 n1 n2], k as [k0 k1 k2], b as [b0 b1 b2].
  unfold nearest, position, dbl in Hn. cbn -[Z.mul Z.add Qmult Qplus Qdiv qz Qeq Qle Qabs Qminus] in Hn.
  destruct Hn as [N0 [N1 N2]].
  assert (forall u v, (Qabs (qz v - (qz 1 * (qz (u + u + 0) / qz (2 * 2)))) <= 1 # 2)%Q -> -1 <= 2 * v - u <= 1) as KN.
  { intros u v K. apply Qabs_Qle_condition in K. destruct K as [Ka Kb].
    replace (u + u + 0) with (2 * u) in Ka, Kb by ring. rewrite qz_mul in Ka, Kb.
    change (qz 1) with 1%Q in *. change (qz (2 * 2)) with 4%Q in *. change (qz 2) with 2%Q in *.
    assert (Qeq (1 * (2 * qz u / 4)) (qz u / 2)) as E2 by field. rewrite E2 in Ka, Kb.
    assert (Qle (qz (-1)) (qz (2 * v - u))) as Ka'.
    { rewrite qz_sub, qz_mul. change (qz 2) with 2%Q. change (qz (-1)) with (-1)%Q.
      assert (Qeq (2 * qz v - qz u) (2 * (qz v - qz u / 2))) as -> by field. lra. }
    assert (Qle (qz (2 * v - u)) (qz 1)) as Kb'.
    { rewrite qz_sub, qz_mul. change (qz 2) with 2%Q. change (qz 1) with 1%Q.
      assert (Qeq (2 * qz v - qz u) (2 * (qz v - qz u / 2))) as -> by field. lra. }
    apply qz_le in Ka', Kb'. lia. }
  assert (-1 <= 2 * n0 - x <= 1) as M0.
  { apply KN. eapply Qle_trans; [|exact N0]. apply Qle_lteq. right. apply Qabs_wd.
    change (qz 0) with 0%Q. change (qz 1) with 1%Q. ring. }
  assert (-1 <= 2 * n1 - y <= 1) as M1.
  { apply KN. eapply Qle_trans; [|exact N1]. apply Qle_lteq. right. apply Qabs_wd.
    change (qz 0) with 0%Q. change (qz 1) with 1%Q. ring. }
  assert (-1 <= 2 * n2 - z <= 1) as M2.
  { apply KN. eapply Qle_trans; [|exact N2]. apply Qle_lteq. right. apply Qabs_wd.
    change (qz 0) with 0%Q. change (qz 1) with 1%Q. ring. }
  cbn [cubic bD vadd vmul] in E. apply v3_inj in E. destruct E as [E0 [E1 E2]].
  cbn [cubic bD vadd vmul vneg sq] in Hle.
  destruct a as [a0 a1 a2]. cbn [sq] in Hle, Hlt.
  set (c0 := x + 2 * - n0) in *. set (c1 := y + 2 * - n1) in *. set (c2 := z + 2 * - n2) in *.
  assert (c0 * c0 <= 1 /\ c1 * c1 <= 1 /\ c2 * c2 <= 1) as Hc3 by (repeat split; nia).
  assert (b0 * b0 + b1 * b1 + b2 * b2 <= 3) as Hb by lia.
  assert (-1 <= b0 <= 1 /\ -1 <= b1 <= 1 /\ -1 <= b2 <= 1) as Hb' by (repeat split; nia).
  split.
  - cbn [cubic bD vadd vmul vneg]. f_equal; lia.
  - cbn [cubic bQ I3 mulMV vneg vadd]. unfold box. lia.
Qed.
Example C13_ex_isometry : isometry cubic (mneg I3).
Proof.
  intros [x0 y0 z0] [x1 y1 z1] Ed. unfold dbl in Ed. cbn [cubic bPS mneg I3 vzero vadd mulMV] in Ed.
  apply v3_inj in Ed. destruct Ed as [E1 [E2 E3]].
  assert (x1 = - x0 /\ y1 = - y0 /\ z1 = - z0) as [-> [-> ->]] by lia.
  rewrite !cubic_len. unfold sq. replace (- x0 * - x0 + - y0 * - y0 + - z0 * - z0) with (x0 * x0 + y0 * y0 + z0 * z0) by ring.
  reflexivity.
Qed.
