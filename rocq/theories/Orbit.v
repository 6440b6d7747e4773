(** Finite group acting on 0..n-1: smallest-image map and orbit counting. *)
From Coq Require Import ZArith List Lia Bool Permutation.
From Verif Require Import Base BaseProofs GridSpec.
Import ListNotations.
Open Scope Z_scope.

Section Orbit.
  Variable G : Type.
  Variable mul : G -> G -> G.
  Variable e : G.
  Variable rots : list G.
  Variable act : G -> Z -> Z.
  Variable n : Z.
  Hypothesis Hrange : forall a x, In a rots -> 0 <= x < n -> 0 <= act a x < n.
  Hypothesis He : In e rots.
  Hypothesis Hact_e : forall x, 0 <= x < n -> act e x = x.
  Hypothesis Hclosed : forall a b, In a rots -> In b rots -> In (mul a b) rots.
  Hypothesis Hact : forall a b x, In a rots -> In b rots -> 0 <= x < n ->
    act (mul a b) x = act a (act b x).
  Hypothesis Hinv : forall a, In a rots -> exists b, In b rots /\
    (forall c, mul b (mul a c) = c) /\ (forall c, mul a (mul b c) = c) /\
    mul a b = e /\ mul b a = e.

  Definition related (x y : Z) : Prop := exists a, In a rots /\ act a x = y.

  Lemma related_refl : forall x, 0 <= x < n -> related x x.
  Proof. intros x Hx. exists e. auto. Qed.

  Lemma related_sym : forall x y, 0 <= x < n -> related x y -> related y x.
  Proof.
    intros x y Hx [a [Ha Hy]]. destruct (Hinv a Ha) as [b [Hb [_ [_ [_ Hba]]]]].
    exists b. split; auto. subst y. rewrite <- Hact by auto. rewrite Hba. auto.
  Qed.

  Lemma related_trans : forall x y z, 0 <= x < n -> related x y -> related y z -> related x z.
  Proof.
    intros x y z Hx [a [Ha Hy]] [b [Hb Hz]]. exists (mul b a). split; auto.
    rewrite Hact by auto. now subst.
  Qed.

  Lemma related_range : forall x y, 0 <= x < n -> related x y -> 0 <= y < n.
  Proof. intros x y Hx [a [Ha Hy]]. subst. auto. Qed.

  Lemma least_image_unique : forall x m m',
    is_least_image rots act x m -> is_least_image rots act x m' -> m = m'.
  Proof.
    intros x m m' [[r [Hr Hm]] Hl] [[r' [Hr' Hm']] Hl'].
    specialize (Hl _ Hr'). specialize (Hl' _ Hr). lia.
  Qed.

  Lemma least_image_related : forall x y m, 0 <= x < n -> related x y ->
    is_least_image rots act y m -> is_least_image rots act x m.
  Proof.
    intros x y m Hx Hxy [[r [Hr Hm]] Hl]. split.
    - apply (related_trans x y m); auto. exists r; auto.
    - intros s Hs. destruct (related_sym _ _ Hx Hxy) as [b [Hb Hbx]].
      assert (related y (act s x)) as [c [Hc Hcx]].
      { exists (mul s b). split; auto. rewrite Hact; auto.
        - now rewrite Hbx.
        - eapply related_range; eauto. }
      rewrite <- Hcx. auto.
  Qed.

  (** Generic form of the smallest-image loop of get_ir_grid_map. *)
  Definition gstep (sent : Z) (m : Z -> Z) (gp : Z) : Z -> Z :=
    let m1 := match find_first (fun r => act r gp <? gp) rots with
              | Some r => upd m gp (m (act r gp))
              | None => m
              end in
    if m1 gp =? sent then upd m1 gp gp else m1.

  Lemma gstep_fold : forall k m0, 0 <= k <= n ->
    (forall x, 0 <= x < n -> m0 x = n) ->
    let m := fold_left (gstep n) (zrange k) m0 in
    (forall x, 0 <= x < k -> is_least_image rots act x (m x)) /\
    (forall x, k <= x < n -> m x = n) /\
    (forall x, x < 0 \/ n <= x -> m x = m0 x).
  Proof.
    intros k m0 Hk Hm0. destruct Hk as [Hk0 Hkn]. revert Hkn.
    pattern k, (zrange k). apply zrange_ind; auto.
    - intros Hkn. cbn. repeat split; intros; try lia; auto.
    - intros j Hj IH Hjn. specialize (IH ltac:(lia)). cbv zeta in *.
      rewrite fold_left_app_one. set (m := fold_left (gstep n) (zrange j) m0) in *.
      destruct IH as [IH1 [IH2 IH3]].
      assert (Hstep : gstep n m j =
              upd m j (match find_first (fun r => act r j <? j) rots with
                       | Some r => m (act r j) | None => j end)
              \/ (forall x, gstep n m j x = upd m j (match find_first (fun r => act r j <? j) rots with
                       | Some r => m (act r j) | None => j end) x)).
      { right. intros x. unfold gstep.
        destruct (find_first _ rots) as [r|] eqn:E.
        - apply find_first_some in E. destruct E as [Hr Hlt]. apply Z.ltb_lt in Hlt.
          rewrite upd_same. destruct (Z.eqb_spec (m (act r j)) n) as [Hn|]; [|reflexivity].
          exfalso. assert (0 <= act r j < n) by (apply Hrange; auto; lia).
          destruct (IH1 (act r j)) as [[s [Hs Hsm]] _]; [lia|].
          assert (0 <= act s (act r j) < n) by (apply Hrange; auto). lia.
        - rewrite IH2 by lia. rewrite Z.eqb_refl. reflexivity. }
      assert (Hs : forall x, gstep n m j x = upd m j (match find_first (fun r => act r j <? j) rots with
                       | Some r => m (act r j) | None => j end) x).
      { destruct Hstep as [Hs|Hs]; auto. intros x. now rewrite Hs. }
      clear Hstep. repeat split.
      + rewrite Hs. destruct (Z.eq_dec x j) as [->|Hne].
        * rewrite upd_same. destruct (find_first _ rots) as [r|] eqn:E.
          { apply find_first_some in E. destruct E as [Hr Hlt]. apply Z.ltb_lt in Hlt.
            assert (0 <= act r j < n) by (apply Hrange; auto; lia).
            destruct (least_image_related j (act r j) (m (act r j))) as [Hex _]; try lia; auto.
            { exists r; auto. } { apply IH1; lia. } }
          { exists e. split; auto. apply Hact_e; lia. }
        * rewrite upd_other by auto. apply IH1. lia.
      + intros r Hr. rewrite Hs. destruct (Z.eq_dec x j) as [->|Hne].
        * rewrite upd_same. destruct (find_first _ rots) as [s|] eqn:E.
          { apply find_first_some in E. destruct E as [Hsr Hlt]. apply Z.ltb_lt in Hlt.
            assert (0 <= act s j < n) by (apply Hrange; auto; lia).
            destruct (least_image_related j (act s j) (m (act s j))) as [_ Hall]; try lia; auto.
            { exists s; auto. } { apply IH1; lia. } }
          { pose proof (find_first_none _ _ _ E r Hr) as Hf. cbn in Hf.
            apply Z.ltb_ge in Hf. lia. }
        * rewrite upd_other by auto. apply IH1; [lia|auto].
      + intros x Hx. rewrite Hs, upd_other by lia. apply IH2. lia.
      + intros x Hx. rewrite Hs, upd_other by lia. apply IH3. lia.
  Qed.

  Lemma init_fold : forall (c : Z) k m0, 0 <= k ->
    let m := fold_left (fun (m : Z -> Z) gp => upd m gp c) (zrange k) m0 in
    (forall x, 0 <= x < k -> m x = c) /\ (forall x, x < 0 \/ k <= x -> m x = m0 x).
  Proof.
    intros c k m0 Hk. pattern k, (zrange k). apply zrange_ind; auto.
    - cbn. split; intros; [lia|reflexivity].
    - intros j Hj [IH1 IH2]. cbv zeta in *. rewrite fold_left_app_one. split; intros x Hx.
      + destruct (Z.eq_dec x j) as [->|]; [apply upd_same|].
        rewrite upd_other by auto. apply IH1. lia.
      + rewrite upd_other by lia. apply IH2. lia.
  Qed.

  Definition gmap (m0 : Z -> Z) : Z -> Z :=
    fold_left (gstep n) (zrange n) (fold_left (fun m gp => upd m gp n) (zrange n) m0).

  Lemma gmap_least : forall m0 x, 0 <= x < n -> is_least_image rots act x (gmap m0 x).
  Proof.
    intros m0 x Hx. unfold gmap.
    destruct (gstep_fold n (fold_left (fun m gp => upd m gp n) (zrange n) m0)) as [H _]; try lia.
    - intros y Hy. apply init_fold; lia.
    - apply H; auto.
  Qed.

  Lemma gmap_outside : forall m0 x, 0 <= n -> x < 0 \/ n <= x -> gmap m0 x = m0 x.
  Proof.
    intros m0 x Hn Hx. unfold gmap.
    destruct (gstep_fold n (fold_left (fun m gp => upd m gp n) (zrange n) m0)) as [_ [_ H]]; try lia.
    - intros y Hy. apply init_fold; lia.
    - rewrite H by auto. apply init_fold; auto.
  Qed.

  (** Consequences for any map that sends each point to its least image. *)
  Variable mp : Z -> Z.
  Hypothesis Hmp : forall x, 0 <= x < n -> is_least_image rots act x (mp x).

  Lemma mp_related : forall x, 0 <= x < n -> related x (mp x).
  Proof. intros x Hx. apply Hmp; auto. Qed.

  Lemma mp_range : forall x, 0 <= x < n -> 0 <= mp x < n.
  Proof. intros x Hx. eapply related_range; eauto. apply mp_related; auto. Qed.

  Lemma mp_le : forall x, 0 <= x < n -> mp x <= x.
  Proof. intros x Hx. destruct (Hmp x Hx) as [_ H]. specialize (H e He).
    rewrite Hact_e in H; auto. Qed.

  Lemma mp_eq_iff : forall x y, 0 <= x < n -> 0 <= y < n -> (mp x = mp y <-> related x y).
  Proof.
    intros x y Hx Hy. split.
    - intros H. apply (related_trans x (mp x) y); auto.
      + apply mp_related; auto.
      + rewrite H. apply related_sym; auto. apply mp_related; auto.
    - intros H. apply (least_image_unique x); auto.
      apply (least_image_related x y); auto.
  Qed.

  Lemma mp_idem : forall x, 0 <= x < n -> mp (mp x) = mp x.
  Proof.
    intros x Hx. apply mp_eq_iff; auto. { apply mp_range; auto. }
    apply related_sym; auto. apply mp_related; auto.
  Qed.

  (** Orbit-stabilizer. *)
  Hypothesis Hnd : NoDup rots.

  Lemma coset_count : forall x y, 0 <= x < n -> related x y ->
    zcount (fun r => act r x =? y) rots = zcount (fun r => act r x =? x) rots.
  Proof.
    intros x y Hx [a [Ha Hy]]. destruct (Hinv a Ha) as [b [Hb [H1 [H2 [Hab Hba]]]]].
    unfold zcount. f_equal. apply Nat.le_antisymm.
    - (* r |-> b r *)
      rewrite <- (map_length (mul b)). apply NoDup_incl_length.
      + apply FinFun.Injective_map_NoDup.
        * intros u v Huv. apply (f_equal (mul a)) in Huv. now rewrite !H2 in Huv.
        * now apply NoDup_filter.
      + intros z Hz. apply in_map_iff in Hz. destruct Hz as [r [<- Hr]].
        apply filter_In in Hr. destruct Hr as [Hr Hry]. apply Z.eqb_eq in Hry.
        apply filter_In. split; auto. apply Z.eqb_eq.
        rewrite Hact, Hry, <- Hy by auto. rewrite <- Hact by auto. rewrite Hba. auto.
    - rewrite <- (map_length (mul a)). apply NoDup_incl_length.
      + apply FinFun.Injective_map_NoDup.
        * intros u v Huv. apply (f_equal (mul b)) in Huv. now rewrite !H1 in Huv.
        * now apply NoDup_filter.
      + intros z Hz. apply in_map_iff in Hz. destruct Hz as [r [<- Hr]].
        apply filter_In in Hr. destruct Hr as [Hr Hry]. apply Z.eqb_eq in Hry.
        apply filter_In. split; auto. apply Z.eqb_eq.
        rewrite Hact, Hry by auto. auto.
  Qed.

  Lemma orbit_stabilizer : forall x, 0 <= x < n ->
    zcount (fun y => mp y =? mp x) (zrange n) * zcount (fun r => act r x =? x) rots
    = Z.of_nat (length rots).
  Proof.
    intros x Hx.
    transitivity (zsum (map (fun y => zcount (fun r => act r x =? y) rots) (zrange n))).
    - rewrite zcount_sum, Z.mul_comm, <- zsum_map_mul. apply zsum_map_ext_in.
      intros y Hy. apply in_zrange in Hy. destruct (Z.eqb_spec (mp y) (mp x)) as [E|E].
      + rewrite (coset_count x y); auto; [lia|]. apply mp_eq_iff; auto.
      + rewrite Z.mul_0_r. symmetry.
        destruct (Z.eq_dec (zcount (fun r => act r x =? y) rots) 0) as [|Hne]; auto.
        exfalso. assert (0 < zcount (fun r => act r x =? y) rots) as Hp.
        { pose proof (zcount_nonneg _ (fun r => act r x =? y) rots). lia. }
        apply zcount_pos in Hp. destruct Hp as [r [Hr Hry]]. apply Z.eqb_eq in Hry.
        apply E. symmetry. apply mp_eq_iff; auto. exists r; auto.
    - rewrite (zsum_map_ext_in _ _ (fun y => zsum (map (fun r => if act r x =? y then 1 else 0) rots)));
        [|intros; apply zcount_sum].
      rewrite zsum_swap.
      rewrite (zsum_map_ext_in _ _ (fun _ => 1)).
      + rewrite zsum_map_const. lia.
      + intros r Hr. rewrite <- (zcount_sum Z (fun y => act r x =? y)).
        rewrite (zcount_ext_in _ _ (fun y => y =? act r x)).
        * apply zcount_eq_NoDup; [apply NoDup_zrange|]. apply in_zrange. auto.
        * intros y _. apply Z.eqb_sym.
  Qed.
End Orbit.
