(** Lemmas for the collision matrix. *)
From Coq Require Import ZArith QArith List Lia Lqa Bool Permutation.
From Verif Require Import Base BaseProofs Mat3 QMat GridSpec GridModel Orbit GridProofs GridProps
  BzModel BzSpec BzProofs BzProps TripletSpec TripletModel TripletProofs TripletProps Par Par2 Fc3Trans IseModel IseSpec IseProofs ColSpec ColModel.
Import ListNotations.
Open Scope Z_scope.

(** ** Lookup *)
Lemma zrange_cut : forall n x, 0 <= x < n -> exists t, zrange n = zrange x ++ x :: t.
Proof.
  intros n x Hx. assert (H : forall d, 0 <= d -> exists t, zrange (x + 1 + d) = zrange x ++ x :: t).
  { apply natlike_ind.
    - exists []. rewrite Z.add_0_r. apply zrange_succ; lia.
    - intros d Hd [t Ht]. exists (t ++ [x + 1 + d]). replace (x + 1 + Z.succ d) with (x + 1 + d + 1) by lia.
      rewrite zrange_succ, Ht by lia. rewrite <- app_assoc. reflexivity. }
  destruct (H (n - x - 1)) as [t Ht]; [lia|]. exists t. rewrite <- Ht. f_equal. lia.
Qed.
Lemma nth_count : forall p n x d, 0 <= x < n -> p x = true ->
  nth (Z.to_nat (zcount p (zrange x))) (filter p (zrange n)) d = x.
Proof.
  intros p n x d Hx Hp. destruct (zrange_cut n x Hx) as [t ->]. rewrite filter_app. cbn [filter]. rewrite Hp.
  unfold zcount. rewrite Nat2Z.id, app_nth2, Nat.sub_diag by lia. reflexivity.
Qed.
Lemma count_lt : forall p n x, 0 <= x < n -> p x = true -> 0 <= zcount p (zrange x) < zcount p (zrange n).
Proof.
  intros p n x Hx Hp. split; [apply zcount_nonneg|]. destruct (zrange_cut n x Hx) as [t ->].
  rewrite zcount_app, zcount_cons, Hp. pose proof (zcount_nonneg _ p t). lia.
Qed.
Definition fixp (tm : Z -> Z) (x : Z) : bool := tm x =? x.
Lemma gp2tp_fold : forall tm init k, 0 <= k ->
  let s := fold_left (gp2tp_step tm) (zrange k) (init, 0) in
  (forall x, 0 <= x < k -> fst s x = if fixp tm x then zcount (fixp tm) (zrange x) else -1) /\ snd s = zcount (fixp tm) (zrange k).
Proof.
  intros tm init. apply (natlike_ind (fun k => let s := fold_left (gp2tp_step tm) (zrange k) (init, 0) in
    (forall x, 0 <= x < k -> fst s x = if fixp tm x then zcount (fixp tm) (zrange x) else -1) /\ snd s = zcount (fixp tm) (zrange k))).
  - cbn. split; [lia|reflexivity].
  - intros k Hk IH. unfold Z.succ. rewrite zrange_succ, fold_left_app_one by lia. cbv zeta in IH |- *.
    destruct (fold_left (gp2tp_step tm) (zrange k) (init, 0)) as [m c]. cbn [fst snd] in IH. destruct IH as [I1 I2].
    rewrite zcount_app, zcount_cons. change (zcount (fixp tm) []) with 0. unfold gp2tp_step. fold (fixp tm k).
    destruct (fixp tm k) eqn:E; cbn [fst snd].
    + split; [|lia]. intros x Hx. destruct (Z.eq_dec x k) as [->|Hn]; [rewrite upd_same, E; exact I2|rewrite upd_other by lia; apply I1; lia].
    + split; [|lia]. intros x Hx. destruct (Z.eq_dec x k) as [->|Hn]; [rewrite upd_same, E; reflexivity|rewrite upd_other by lia; apply I1; lia].
Qed.
Lemma gp2tp_spec : forall tm n init x, 0 <= x < n -> tm x = x -> create_gp2tp_map tm n init x = zcount (fixp tm) (zrange x).
Proof.
  intros tm n init x Hx E. unfold create_gp2tp_map. destruct (gp2tp_fold tm init n) as [H _]; [lia|]. rewrite H by exact Hx.
  unfold fixp at 1. rewrite E, Z.eqb_refl. reflexivity.
Qed.

(** ** Representatives of triplets *)
Section Rep.
  Variables (it iq : Z -> Z) (gp0 : Z) (D : V3) (rots : list M3) (sw : bool) (m q : Z -> Z) (c : Z).
  Hypothesis Hyp : tp_hyp D gp0 rots.
  Hypothesis H : get_ir_triplets_at_q it iq gp0 D rots sw = (m, q, c).
  Let n := mesh_size D.
  Let s x := third_gp gp0 x D.
  Let act R x := rotate_grid_index x R D vzero.
  Let lg := point_group_with_q rots D gp0.

  Lemma q_least : forall x, 0 <= x < n -> is_least_image lg act x (q x).
  Proof.
    destruct Hyp as [HD [Hg [HG HC]]]. destruct (ir_triplets_table _ _ _ _ _ _ _ _ _ H) as [-> _].
    intros x Hx. apply (mq_least D gp0 rots HD Hg HG HC iq x Hx).
  Qed.
  Lemma q_facts : forall x, 0 <= x < n -> 0 <= q x < n /\ q x <= x /\ q (q x) = q x /\ forall R, In R lg -> q (act R x) = q x.
  Proof.
    destruct Hyp as [HD [Hg [HG HC]]]. destruct (ir_triplets_table _ _ _ _ _ _ _ _ _ H) as [-> _].
    intros x Hx. split; [apply (mq_range D gp0 rots HD Hg HG HC iq x Hx)|]. split; [apply (mq_le D gp0 rots HD Hg HG HC iq x Hx)|].
    split; [apply (mq_idem D gp0 rots HD Hg HG HC iq x Hx)|]. intros R HR. apply (mq_orbit D gp0 rots HD Hg HG HC iq R x HR Hx).
  Qed.
  Lemma s_range' : forall x, 0 <= s x < n.
  Proof. destruct Hyp as [HD [Hg [HG HC]]]. intros x. apply s_range; auto. Qed.
  Lemma s_invol' : forall x, 0 <= x < n -> s (s x) = x.
  Proof. destruct Hyp as [HD [Hg [HG HC]]]. intros x Hx. apply s_invol; auto. Qed.
  Lemma s_act' : forall R x, In R lg -> s (act R x) = act R (s x).
  Proof. destruct Hyp as [HD [Hg [HG HC]]]. intros R x HR. eapply s_act; eauto. Qed.
  Lemma qs_q : forall x, 0 <= x < n -> q (s (q x)) = q (s x).
  Proof.
    intros x Hx. destruct (q_least x Hx) as [[R [HR E]] _]. rewrite <- E, s_act' by exact HR.
    apply q_facts; [apply s_range'|exact HR].
  Qed.
  Lemma m_formula : forall x, 0 <= x < n -> m x = if sw then Z.min (q x) (q (s x)) else q x.
  Proof.
    intros x Hx. rewrite <- (qs_q x Hx). destruct Hyp as [HD [Hg [HG HC]]]. destruct (ir_triplets_table _ _ _ _ _ _ _ _ _ H) as [_ T].
    assert (Q1 : forall x, 0 <= x < num_gp D -> 0 <= q x < num_gp D) by (intros y Hy; apply (q_facts y Hy)).
    assert (Q2 : forall x, 0 <= x < num_gp D -> q x <= x) by (intros y Hy; apply (q_facts y Hy)).
    assert (Q3 : forall x, 0 <= x < num_gp D -> q (q x) = q x) by (intros y Hy; apply (q_facts y Hy)).
    destruct sw.
    - destruct (perm_spec D gp0 q it Q1 Q2 Q3 (zrange (num_gp D)) m c) as [P _]; [intros y; apply in_zrange|exact T|apply (P x Hx)].
    - destruct (noperm_spec D gp0 q it Q1 Q2 Q3 m c) as [P _]; [exact T|apply (P x Hx)].
  Qed.
  Lemma m_cases : (sw = true /\ forall x, 0 <= x < n -> m x = Z.min (q x) (q (s x))) \/
    (sw = false /\ forall x, 0 <= x < n -> m x = q x).
  Proof. pose proof m_formula as F. destruct sw; [left|right]; auto. Qed.
  (** the two cases of the flag *)
  Lemma rep_cases : forall x, 0 <= x < n -> 0 <= m x < n /\ m (m x) = m x /\ m x <= x /\
    (swapped m q x = false -> m x = q x /\ exists R, In R lg /\ act R x = m x /\ act R (s x) = s (m x)) /\
    (swapped m q x = true -> sw = true /\ m x = q (s x) /\ m x < q x /\ exists R, In R lg /\ act R (s x) = m x /\ act R x = s (m x)).
  Proof.
    intros x Hx. destruct (q_facts x Hx) as [F1 [F2 [F3 F4]]]. destruct (q_facts (s x) (s_range' x)) as [G1 [G2 [G3 G4]]].
    assert (Mr : 0 <= m x < n) by (destruct m_cases as [[_ M]|[_ M]]; rewrite (M x Hx); lia).
    split; [exact Mr|]. split.
    { destruct m_cases as [[_ M]|[_ M]]; rewrite (M (m x) Mr), (M x Hx); [|exact F3].
      destruct (Z.min_spec (q x) (q (s x))) as [[L ->]|[L ->]].
      - rewrite F3, qs_q by exact Hx. lia.
      - rewrite G3. rewrite (qs_q (s x)) by apply s_range'. rewrite s_invol' by exact Hx. lia. }
    split. { destruct m_cases as [[_ M]|[_ M]]; rewrite (M x Hx); lia. }
    unfold swapped. split; intros E.
    - apply negb_false_iff, Z.eqb_eq in E. split; [exact E|]. destruct (q_least x Hx) as [[R [HR K]] _].
      change (act R x = q x) in K. exists R. split; [exact HR|]. split; [congruence|]. rewrite <- s_act' by exact HR. congruence.
    - apply negb_true_iff, Z.eqb_neq in E. destruct m_cases as [[Esw M]|[_ M]]; [|rewrite (M x Hx) in E; congruence].
      split; [exact Esw|]. specialize (M x Hx).
      assert (m x = q (s x)) as E' by lia. split; [exact E'|]. split; [lia|].
      destruct (q_least (s x) (s_range' x)) as [[R [HR K]] _]. change (act R (s x) = q (s x)) in K. exists R. split; [exact HR|]. split; [congruence|].
      assert (act R x = s (act R (s x))) as ->; [|congruence]. rewrite s_act' by exact HR. rewrite s_invol' by exact Hx. reflexivity.
  Qed.
End Rep.

(** ** The tables made by get_triplets_at_q *)
Section Tables.
  Variables (B : BzIn) (ty : Z) (init o : BzOut) (Qg : M3) (rl : QM) (gp : Z) (tr : bool) (rots : list M3) (sw : bool).
  Variables (t : list (Z * Z * Z)) (w : list Z) (mt mq : Z -> Z).
  Hypothesis Hbz : bz_hyp B ty init o gp.
  Hypothesis HG : is_group rots.
  Hypothesis HC : forall R, In R rots -> compat (bD B) R.
  Hypothesis Hget : get_triplets_at_q B o ty Qg rl gp tr rots sw = Some (t, w, mt, mq).
  Let D := bD B.
  Let n := mesh_size D.
  Let gp0 := o_b2g o gp.
  Let adr x := get_grid_address_from_index x D.
  Let irs := filter (fixp mt) (zrange n).
  Let row i := nth (Z.to_nat i) t (0, 0, 0).
  Let cnt x := zcount (fixp mt) (zrange x).

  Lemma tab_ops : exists l c, tp_hyp D gp0 l /\ (forall R, In R l <-> In R rots \/ (tr = true /\ In (mneg R) rots)) /\
    get_ir_triplets_at_q (fun _ => 0) (fun _ => 0) gp0 D l sw = (mt, mq, c) /\
    Z.of_nat (length t) = c /\ Forall2 (tp_rows B o gp0) irs t.
  Proof.
    pose proof (C15_triplets_conserve_momentum B ty init o Qg rl gp tr rots sw Hbz HG HC) as K. cbv zeta in K. rewrite Hget in K.
    destruct K as [c [irs' [E [E1 [E2 [_ [E4 _]]]]]]]. subst irs'.
    pose proof Hbz as [HB [Hty [H [Hgp _]]]]. destruct (stored_cong B ty init o gp HB Hty H Hgp) as [Hr0 _].
    destruct (C14_time_reversal _ _ _ _ _ _ _ _ (conj (proj1 HB) (conj Hr0 (conj HG HC))) E) as [l [Hl [Hin El]]].
    exists l, c. split; [exact Hl|]. split; [exact Hin|]. split; [exact El|]. split; [exact E2|exact E4].
  Qed.
  Lemma tab_D : pos_mesh D. Proof. apply Hbz. Qed.
  Lemma tab_gp0 : 0 <= gp0 < n.
  Proof. pose proof Hbz as [HB [Hty [H [Hgp _]]]]. apply (stored_cong B ty init o gp HB Hty H Hgp). Qed.
  Lemma tab_m : forall x, 0 <= x < n -> 0 <= mt x < n /\ mt (mt x) = mt x /\ mt x <= mq x /\ mq x <= x /\ 0 <= mq x /\
    mq (mq x) = mq x /\ mt (mq x) = mt x.
  Proof.
    intros x Hx. destruct tab_ops as [l [c [Hl [_ [El _]]]]].
    destruct (rep_cases _ _ _ _ _ _ _ _ _ Hl El x Hx) as [R1 [R2 [R3 _]]].
    destruct (q_facts _ _ _ _ _ _ _ _ _ Hl El x Hx) as [F1 [F2 [F3 F4]]].
    split; [exact R1|]. split; [exact R2|].
    assert (mt x <= mq x /\ mt (mq x) = mt x) as [A1 A2].
    { destruct (m_cases _ _ _ _ _ _ _ _ _ Hl El) as [[_ M]|[_ M]]; rewrite (M x Hx), (M (mq x) F1), F3.
      - rewrite (qs_q _ _ _ _ _ _ _ _ _ Hl El x Hx). lia.
      - lia. }
    repeat split; auto; lia.
  Qed.
  Lemma tab_row : forall x, 0 <= x < n -> 0 <= cnt (mt x) < Z.of_nat (length t) /\
    nth (Z.to_nat (cnt (mt x))) irs 0 = mt x /\ tp_rows B o gp0 (mt x) (row (cnt (mt x))).
  Proof.
    intros x Hx. destruct (tab_m x Hx) as [M1 [M2 _]]. destruct tab_ops as [l [c [_ [_ [_ [_ E4]]]]]].
    assert (F : fixp mt (mt x) = true) by (unfold fixp; rewrite M2; apply Z.eqb_refl).
    pose proof (F2_length _ _ _ _ _ E4) as L. pose proof (count_lt _ _ _ M1 F) as C.
    assert (Lz : Z.of_nat (length t) = zcount (fixp mt) (zrange n)) by (rewrite <- L; reflexivity).
    split; [fold (cnt (mt x)) in C; lia|]. pose proof (nth_count _ _ _ 0 M1 F) as N. split; [exact N|].
    fold irs in N. unfold row. unfold cnt. rewrite <- N at 1.
    revert E4 C Lz L. fold irs. generalize (zcount (fixp mt) (zrange (mt x))) as i. intros i E4 C Lz L.
    assert (Hi : (Z.to_nat i < length t)%nat) by lia. clear -E4 Hi. revert Hi. generalize (Z.to_nat i) as j.
    induction E4 as [|a b la lb Hab E4 IH]; intros j Hj; [cbn in Hj; lia|]. destruct j as [|j]; [exact Hab|]. apply IH. cbn in Hj. lia.
  Qed.
  (** the lookup returns a symmetry image *)
  Lemma tab_rep : forall x x3, 0 <= x < n -> 0 <= x3 < n -> vcong D (adr x3) (vsub (vneg (adr gp0)) (adr x)) ->
    exists R, keeps D rots tr (adr gp0) R /\
      let y3 := o_b2g o (third_of (row (cnt (mt x))) (swapped mt mq x)) in
      0 <= third_of (row (cnt (mt x))) (swapped mt mq x) < o_size o /\ 0 <= y3 < n /\ vcong D (adr y3) (mulMV R (adr x3)) /\
      (if swapped mt mq x then sw = true /\ y3 = mt x /\ mq (o_b2g o (tp_at (row (cnt (mt x))) 2)) = mq x /\
         vcong D (adr (o_b2g o (tp_at (row (cnt (mt x))) 2))) (mulMV R (adr x))
       else vcong D (adr (mt x)) (mulMV R (adr x))).
  Proof.
    intros x x3 Hx Hx3 Hc. destruct tab_ops as [l [c [Hl [Hin [El _]]]]].
    destruct (rep_cases _ _ _ _ _ _ _ _ _ Hl El x Hx) as [R1 [R2 [_ [R3 R4]]]].
    destruct (tab_row x Hx) as [_ [_ TR]]. pose proof Hl as [HD [Hg [HGl HCl]]].
    assert (S3 : x3 = third_gp gp0 x D).
    { apply (adr_inj D HD); auto; [apply (s_range D gp0 HD)|].
      eapply vcong_trans; [exact Hc|]. apply vcong_sym. apply (s_addr D gp0 HD). }
    destruct (row (cnt (mt x))) as [[b0 b1] b2]. cbn [tp_rows] in TR. destruct TR as [T0 [T1 [T2 T3]]].
    pose proof Hbz as [HB [Hty [H _]]].
    destruct (stored_cong B ty init o b0 HB Hty H (proj1 T0)) as [_ C0]. rewrite (proj2 T0) in C0.
    destruct (stored_cong B ty init o b1 HB Hty H (proj1 T1)) as [_ C1]. rewrite (proj2 T1) in C1.
    destruct (stored_cong B ty init o b2 HB Hty H T2) as [Rg2 C2].
    assert (E2 : o_b2g o b2 = third_gp gp0 (mt x) D).
    { apply (adr_inj D HD); auto; [apply (s_range D gp0 HD)|].
      eapply vcong_trans; [apply vcong_sym; exact C2|]. apply vcong_sym. eapply vcong_trans; [apply (s_addr D gp0 HD)|]. apply vcong_sym.
      apply (vcong_third D _ _ _ _ _ C0 C1). exact T3. }
    assert (keep : forall R, In R (point_group_with_q l D gp0) -> keeps D rots tr (adr gp0) R).
    { intros R HR. apply little_group_spec in HR; auto. destruct HR as [HR E]. split; [now apply Hin|exact E]. }
    destruct (swapped mt mq x) eqn:Es.
    - destruct (R4 eq_refl) as [Esw [E [_ [R [HR [K1 K2]]]]]]. exists R. split; [now apply keep|].
      cbn [third_of tp_at Z.eqb Pos.eqb]. cbv zeta. split; [tauto|]. rewrite (proj2 T1). split; [exact R1|]. split.
      + rewrite <- K1, <- S3. apply (act_adr D HD).
      + split; [exact Esw|]. split; [reflexivity|]. rewrite E2, <- K2.
        split; [apply (q_facts _ _ _ _ _ _ _ _ _ Hl El x Hx); exact HR|apply (act_adr D HD)].
    - destruct (R3 eq_refl) as [E [R [HR [K1 K2]]]]. exists R. split; [now apply keep|].
      cbn [third_of tp_at Z.eqb Pos.eqb]. cbv zeta. split; [exact T2|]. split; [exact Rg2|]. split.
      + rewrite E2, <- K2, <- S3. apply (act_adr D HD).
      + rewrite <- K1. apply (act_adr D HD).
  Qed.

  (** the Python loop *)
  Lemma py_inv : forall k, 0 <= k -> k <= n -> exists g2 t2 s2,
    fold_left (py_step mt mq (o_b2g o) row) (zrange k) (Some (fun _ => -1, fun _ => -1, fun _ => false, 0)) =
      Some (g2, t2, s2, zcount (fixp mt) (zrange k)) /\
    (forall x, 0 <= x < k -> g2 x = cnt (mt x) /\ t2 x = third_of (row (cnt (mt x))) (swapped mt mq x) /\ s2 x = swapped mt mq x) /\
    (forall x, k <= x -> s2 x = false).
  Proof.
    apply (natlike_ind (fun k => k <= n -> exists g2 t2 s2,
      fold_left (py_step mt mq (o_b2g o) row) (zrange k) (Some (fun _ => -1, fun _ => -1, fun _ => false, 0)) =
        Some (g2, t2, s2, zcount (fixp mt) (zrange k)) /\
      (forall x, 0 <= x < k -> g2 x = cnt (mt x) /\ t2 x = third_of (row (cnt (mt x))) (swapped mt mq x) /\ s2 x = swapped mt mq x) /\
      (forall x, k <= x -> s2 x = false))).
    - intros _. exists (fun _ => -1), (fun _ => -1), (fun _ => false). split; [reflexivity|]. split; [lia|reflexivity].
    - intros k Hk IH Hn. destruct IH as [g2 [t2 [s2 [E [I1 I2]]]]]; [lia|]. unfold Z.succ.
      rewrite zrange_succ, fold_left_app_one, E by lia.
      assert (Hx : 0 <= k < n) by lia. destruct (tab_m k Hx) as [M1 [M2 [M3 [M4 [M5 [M6 M7]]]]]].
      destruct (tab_row k Hx) as [_ [_ TR]].
      assert (Hs := s_range D gp0 tab_D k). destruct (tab_rep k (third_gp gp0 k D) Hx Hs (s_addr D gp0 tab_D k)) as [R [_ TT]].
      cbv zeta in TT. destruct TT as [_ [_ [_ TT]]].
      assert (Cn : zcount (fixp mt) (zrange k ++ [k]) = zcount (fixp mt) (zrange k) + (if fixp mt k then 1 else 0)).
      { rewrite zcount_app, zcount_cons. change (zcount (fixp mt) []) with 0. destruct (fixp mt k); lia. }
      rewrite Cn. unfold py_step. destruct (Z.eqb_spec (mq k) k) as [Eq|Nq].
      + destruct (Z.eqb_spec k (mt k)) as [Em|Nm].
        * assert (Fk : fixp mt k = true) by (unfold fixp; rewrite <- Em; apply Z.eqb_refl). rewrite Fk.
          assert (Sk : swapped mt mq k = false) by (unfold swapped; rewrite <- Em, Eq, Z.eqb_refl; reflexivity).
          assert (Ck : cnt (mt k) = zcount (fixp mt) (zrange k)) by (rewrite <- Em; reflexivity). rewrite Ck in TR.
          assert (b1 : o_b2g o (tp_at (row (zcount (fixp mt) (zrange k))) 1) = k).
          { destruct (row (zcount (fixp mt) (zrange k))) as [[c0 c1] c2]. cbn [tp_rows] in TR. cbn [tp_at Z.eqb Pos.eqb].
            destruct TR as [_ [[_ TR] _]]. congruence. }
          rewrite b1, Z.eqb_refl. eexists _, _, _. split; [reflexivity|]. split.
          -- intros x Hx'. destruct (Z.eq_dec x k) as [->|Hne].
             ++ rewrite !upd_same, Sk, Ck. split; [reflexivity|]. split; [reflexivity|]. apply I2. lia.
             ++ rewrite !upd_other by exact Hne. apply I1. lia.
          -- intros x Hx'. apply I2. lia.
        * assert (Fk : fixp mt k = false) by (unfold fixp; apply Z.eqb_neq; congruence). rewrite Fk, Z.add_0_r.
          assert (Sk : swapped mt mq k = true) by (unfold swapped; apply negb_true_iff, Z.eqb_neq; congruence).
          rewrite Sk in TT. destruct TT as [_ [_ [TT _]]]. destruct (I1 (mt k)) as [G1 _]; [lia|]. rewrite G1, M2, TT, Eq, Z.eqb_refl.
          eexists _, _, _. split; [reflexivity|]. split.
          -- intros x Hx'. destruct (Z.eq_dec x k) as [->|Hne].
             ++ rewrite !upd_same, Sk. repeat split; reflexivity.
             ++ rewrite !upd_other by exact Hne. apply I1. lia.
          -- intros x Hx'. rewrite upd_other by lia. apply I2. lia.
      + assert (Fk : fixp mt k = false) by (unfold fixp; apply Z.eqb_neq; lia). rewrite Fk, Z.add_0_r.
        assert (Sk : swapped mt mq (mq k) = swapped mt mq k) by (unfold swapped; rewrite M7, M6; reflexivity).
        destruct (I1 (mq k)) as [G1 [G2 G3]]; [lia|]. rewrite M7 in G1, G2. rewrite Sk in G2, G3.
        eexists _, _, _. split; [reflexivity|]. split.
        -- intros x Hx'. destruct (Z.eq_dec x k) as [->|Hne].
           ++ rewrite !upd_same. auto.
           ++ rewrite !upd_other by exact Hne. apply I1. lia.
        -- intros x Hx'. rewrite upd_other by lia. apply I2. lia.
  Qed.
End Tables.

(** ** Programs that only add to memory *)
Definition adds (p : @prog Z Q) (d : Z -> Q) : Prop := forall m a, Qeq (run Z.eq_dec p m a) (m a + d a)%Q.
Lemma adds_one : forall a v, adds (add_to a v) (fun b => if a =? b then v else 0%Q).
Proof.
  intros a v m b. unfold add_to. cbn [run]. unfold wr. destruct (Z.eq_dec b a), (Z.eqb_spec a b); try congruence; subst; lra.
Qed.
Lemma adds_for : forall X (l : list X) f d, (forall x, In x l -> adds (f x) (d x)) -> adds (pfor l f) (fun b => qsum (map (fun x => d x b) l)).
Proof.
  intros X. induction l as [|x l IH]; intros f d H m a; cbn [pfor fold_right map].
  - cbn [run]. rewrite qs_nil. lra.
  - rewrite run_pseq, qs_cons. change (fold_right (fun x p => pseq (f x) p) Ret l) with (pfor l f).
    etransitivity; [apply (IH f d); intros y Hy; apply H; now right|].
    pose proof (H x (or_introl eq_refl) m a) as E. cbv beta in E. lra.
Qed.
Lemma adds_ext : forall p d d', (forall a, Qeq (d a) (d' a)) -> adds p d -> adds p d'.
Proof. intros p d d' H A m a. etransitivity; [apply A|]. rewrite H. reflexivity. Qed.
Lemma Sum_only : forall n b f, 0 <= b < n -> (forall i, 0 <= i < n -> i <> b -> Qeq (f i) 0) -> Qeq (Sum n f) (f b).
Proof.
  intros n b f Hb H. rewrite <- (Sum_delta n b f Hb). apply Sum_ext. intros i Hi. destruct (Z.eqb_spec i b); [reflexivity|auto].
Qed.
(** the same over Python loops *)
Definition addsf (f : (Z -> Q) -> Z -> Q) (d : Z -> Q) : Prop := forall m a, Qeq (f m a) (m a + d a)%Q.
Lemma addsf_one : forall a v, addsf (fun m => upd m a (m a + v)%Q) (fun b => if a =? b then v else 0%Q).
Proof. intros a v m b. unfold upd. destruct (Z.eqb_spec b a), (Z.eqb_spec a b); try congruence; subst; lra. Qed.
Lemma addsf_for : forall X (l : list X) (f : (Z -> Q) -> X -> Z -> Q) d, (forall x, In x l -> addsf (fun m => f m x) (d x)) ->
  addsf (fun m => fold_left f l m) (fun b => qsum (map (fun x => d x b) l)).
Proof.
  intros X. induction l as [|x l IH]; intros f d H m a; cbn [fold_left map].
  - rewrite qs_nil. lra.
  - rewrite qs_cons. etransitivity; [apply (IH f d); intros y Hy; apply H; now right|].
    pose proof (H x (or_introl eq_refl) m a) as E. cbv beta in E |- *. lra.
Qed.

Lemma qltb_cong : forall a b b', Qeq b b' -> qltb a b = qltb a b'.
Proof.
  intros a b b' E. destruct (qltb a b) eqn:E1; destruct (qltb a b') eqn:E2; auto.
  - apply qltb_lt in E1. apply qltb_ge in E2. lra.
  - apply qltb_ge in E1. apply qltb_lt in E2. lra.
Qed.

(** ** Addresses *)
Lemma inj3 : forall n nb j i k j' i' k', 0 <= i < n -> 0 <= i' < n -> 0 <= k < nb -> 0 <= k' < nb ->
  (j * n + i) * nb + k = (j' * n + i') * nb + k' -> j = j' /\ i = i' /\ k = k'.
Proof.
  intros n nb j i k j' i' k' H1 H2 H3 H4 E. apply flat_inj in E; auto. destruct E as [E ->]. apply flat_inj in E; auto. intuition.
Qed.
Lemma inj5 : forall n nb j m i l c j' m' i' l' c', 0 <= m < 3 -> 0 <= m' < 3 -> 0 <= i < n -> 0 <= i' < n -> 0 <= l < nb -> 0 <= l' < nb ->
  0 <= c < 3 -> 0 <= c' < 3 ->
  (((j * 3 + m) * n + i) * nb + l) * 3 + c = (((j' * 3 + m') * n + i') * nb + l') * 3 + c' ->
  j = j' /\ m = m' /\ i = i' /\ l = l' /\ c = c'.
Proof.
  intros n nb j m i l c j' m' i' l' c' A1 A2 B1 B2 C1 C2 D1 D2 E.
  apply flat_inj in E; auto. destruct E as [E ->]. apply inj3 in E; auto. destruct E as [E [-> ->]].
  apply flat_inj in E; auto. intuition.
Qed.

(** ** What the loops add *)
Section Loops.
  Variables (ish : Q -> Q -> Q) (nb0 nb ntrip : Z) (pp freq g : Z -> Q) (triplets : Z -> tp3) (tm map_q : Z -> Z) (T unit cutoff : Q).
  Let col := collision ish nb0 nb ntrip pp freq g T unit cutoff.
  Definition elem (gp2tp : Z -> Z) (x j k : Z) : Q :=
    col (gp2tp (tm x)) (swapped tm map_q x) (third_of (triplets (gp2tp (tm x))) (swapped tm map_q x)) j k.

  Lemma reducible_result : forall n gp2tp m m',
    finishes Z.eq_dec (reducible_iterations ish nb0 nb ntrip pp freq g triplets tm map_q T unit cutoff n gp2tp) m m' ->
    (forall j x k, 0 <= j < nb0 -> 0 <= x < n -> 0 <= k < nb ->
      Qeq (m' ((j * n + x) * nb + k)) (m ((j * n + x) * nb + k)%Z + elem gp2tp x j k)) /\
    (forall a, (forall j x k, 0 <= j < nb0 -> 0 <= x < n -> 0 <= k < nb -> a <> (j * n + x) * nb + k) -> m' a = m a).
  Proof.
    intros n gp2tp m m' Fin. unfold reducible_iterations in Fin.
    set (S := fun x a => exists j k, 0 <= j < nb0 /\ 0 <= k < nb /\ a = (j * n + x) * nb + k).
    assert (Ad : forall j x k, j * n * nb + x * nb + k = (j * n + x) * nb + k) by (intros; ring).
    match type of Fin with finishes _ (map ?f _) _ _ => destruct (par_key Z.eq_dec S (zrange n) f m m' (NoDup_zrange n)) as [P1 P2]; [| |exact Fin|] end.
    - intros x Hx. unfold reducible_at_gp. apply fp_pfor. intros j Hj. apply in_zrange in Hj. apply fp_pfor. intros k Hk. apply in_zrange in Hk.
      unfold add_to. assert (S x (j * n * nb + x * nb + k)) by (exists j, k; rewrite Ad; auto). constructor; auto. intros v. constructor; auto. constructor.
    - intros x y a Hx Hy [j [k [Hj [Hk ->]]]] [j' [k' [Hj' [Hk' E]]]]. apply in_zrange in Hx, Hy. apply inj3 in E; auto. tauto.
    - split.
      + intros j x k Hj Hx Hk. assert (Hin : In x (zrange n)) by now apply in_zrange.
        rewrite (P1 x _ Hin) by (exists j, k; auto). unfold reducible_at_gp.
        set (c := elem gp2tp x).
        assert (A : adds (pfor (zrange nb0) (fun j => pfor (zrange nb) (fun k => add_to (j * n * nb + x * nb + k) (c j k))))
          (fun b => Sum nb0 (fun j => Sum nb (fun k => if (j * n * nb + x * nb + k =? b) then c j k else 0%Q)))).
        { apply (adds_for _ _ _ (fun j b => Sum nb (fun k => if (j * n * nb + x * nb + k =? b) then c j k else 0%Q))). intros j' _.
          apply (adds_for _ _ _ (fun k b => if (j' * n * nb + x * nb + k =? b) then c j' k else 0%Q)). intros k' _. apply adds_one. }
        etransitivity; [apply A|]. apply Qplus_comp; [reflexivity|].
        rewrite (Sum_only nb0 j), (Sum_only nb k); auto.
        * rewrite Ad, Z.eqb_refl. reflexivity.
        * intros k' Hk' Hn. destruct (Z.eqb_spec (j * n * nb + x * nb + k') ((j * n + x) * nb + k)); [lia|reflexivity].
        * intros j' Hj' Hn. apply Sum_zero. intros k' Hk'. rewrite Ad.
          destruct (Z.eqb_spec ((j' * n + x) * nb + k') ((j * n + x) * nb + k)) as [E|]; [|reflexivity].
          apply inj3 in E; auto. tauto.
      + intros a Ha. apply P2. intros x Hx [j [k [Hj [Hk ->]]]]. apply in_zrange in Hx. apply (Ha j x k); auto.
  Qed.

  Lemma irreducible_result : forall nir nrot rot cart gp2tp m m',
    finishes Z.eq_dec (irreducible_iterations ish nb0 nb ntrip pp freq g triplets tm map_q T unit cutoff nir nrot rot cart gp2tp) m m' ->
    (forall j a i k b, 0 <= j < nb0 -> 0 <= a < 3 -> 0 <= i < nir -> 0 <= k < nb -> 0 <= b < 3 ->
      Qeq (m' ((((j * 3 + a) * nir + i) * nb + k) * 3 + b))
          (m ((((j * 3 + a) * nir + i) * nb + k) * 3 + b)%Z +
           Sum nrot (fun r => elem gp2tp (rot (i * nrot + r)%Z) j k * cart (r * 9 + a * 3 + b)%Z)%Q)) /\
    (forall ad, (forall j a i k b, 0 <= j < nb0 -> 0 <= a < 3 -> 0 <= i < nir -> 0 <= k < nb -> 0 <= b < 3 ->
       ad <> (((j * 3 + a) * nir + i) * nb + k) * 3 + b) -> m' ad = m ad).
  Proof.
    intros nir nrot rot cart gp2tp m m' Fin. unfold irreducible_iterations in Fin.
    set (S := fun i ad => exists j a k b, 0 <= j < nb0 /\ 0 <= a < 3 /\ 0 <= k < nb /\ 0 <= b < 3 /\ ad = (((j * 3 + a) * nir + i) * nb + k) * 3 + b).
    assert (Ad : forall j a i k b, j * 3 * nir * nb * 3 + a * nir * nb * 3 + i * nb * 3 + k * 3 + b = (((j * 3 + a) * nir + i) * nb + k) * 3 + b) by (intros; ring).
    match type of Fin with finishes _ (map ?f _) _ _ => destruct (par_key Z.eq_dec S (zrange nir) f m m' (NoDup_zrange nir)) as [P1 P2]; [| |exact Fin|] end.
    - intros i Hi. unfold irreducible_at_gp. apply fp_pfor. intros r _. apply fp_pfor. intros j Hj. apply in_zrange in Hj.
      apply fp_pfor. intros k Hk. apply in_zrange in Hk. apply fp_pfor. intros a Ha. apply in_zrange in Ha.
      apply fp_pfor. intros b Hb. apply in_zrange in Hb. unfold add_to. rewrite Ad.
      assert (S i ((((j * 3 + a) * nir + i) * nb + k) * 3 + b)) by (exists j, a, k, b; tauto). constructor; auto. intros v. constructor; auto. constructor.
    - intros x y ad Hx Hy [j [a [k [b [Hj [Ha [Hk [Hb ->]]]]]]]] [j' [a' [k' [b' [Hj' [Ha' [Hk' [Hb' E]]]]]]]]. apply in_zrange in Hx, Hy.
      apply inj5 in E; auto. tauto.
    - split.
      + intros j a i k b Hj Ha Hi Hk Hb. assert (Hin : In i (zrange nir)) by now apply in_zrange.
        rewrite (P1 i _ Hin) by (exists j, a, k, b; tauto). unfold irreducible_at_gp.
        set (c := fun r j k => elem gp2tp (rot (i * nrot + r)) j k).
        set (ad := fun j a k b => j * 3 * nir * nb * 3 + a * nir * nb * 3 + i * nb * 3 + k * 3 + b).
        set (v := fun r j k a b => (c r j k * cart (r * 9 + a * 3 + b)%Z)%Q).
        set (d := fun r z => Sum nb0 (fun j => Sum nb (fun k => Sum 3 (fun a => Sum 3 (fun b => if (ad j a k b =? z) then v r j k a b else 0%Q))))).
        assert (A : adds (pfor (zrange nrot) (fun r => pfor (zrange nb0) (fun j => pfor (zrange nb) (fun k => pfor (zrange 3) (fun a =>
            pfor (zrange 3) (fun b => add_to (ad j a k b) (v r j k a b))))))) (fun z => Sum nrot (fun r => d r z))).
        { apply (adds_for _ _ _ d). intros r _. unfold d.
          apply (adds_for _ _ _ (fun j z => Sum nb (fun k => Sum 3 (fun a => Sum 3 (fun b => if (ad j a k b =? z) then v r j k a b else 0%Q))))). intros j' _.
          apply (adds_for _ _ _ (fun k z => Sum 3 (fun a => Sum 3 (fun b => if (ad j' a k b =? z) then v r j' k a b else 0%Q)))). intros k' _.
          apply (adds_for _ _ _ (fun a z => Sum 3 (fun b => if (ad j' a k' b =? z) then v r j' k' a b else 0%Q))). intros a' _.
          apply (adds_for _ _ _ (fun b z => if (ad j' a' k' b =? z) then v r j' k' a' b else 0%Q)). intros b' _. apply adds_one. }
        etransitivity; [apply A|]. apply Qplus_comp; [reflexivity|]. apply Sum_ext. intros r _. unfold d.
        assert (Z0 : forall j' k' a' b', 0 <= j' < nb0 -> 0 <= k' < nb -> 0 <= a' < 3 -> 0 <= b' < 3 -> ~ (j' = j /\ a' = a /\ k' = k /\ b' = b) ->
          (if ad j' a' k' b' =? (((j * 3 + a) * nir + i) * nb + k) * 3 + b then v r j' k' a' b' else 0)%Q = 0%Q).
        { intros j' k' a' b' A1 A2 A3 A4 Hn. unfold ad. rewrite Ad.
          destruct (Z.eqb_spec ((((j' * 3 + a') * nir + i) * nb + k') * 3 + b') ((((j * 3 + a) * nir + i) * nb + k) * 3 + b)) as [E|]; [|reflexivity].
          apply inj5 in E; auto. tauto. }
        rewrite (Sum_only nb0 j), (Sum_only nb k), (Sum_only 3 a), (Sum_only 3 b); auto.
        * unfold ad. rewrite Ad, Z.eqb_refl. reflexivity.
        * intros b' Hb' Hn. rewrite Z0; [reflexivity|auto..]. tauto.
        * intros a' Ha' Hn. apply Sum_zero. intros b' Hb'. rewrite Z0; [reflexivity|auto..]. tauto.
        * intros k' Hk' Hn. apply Sum_zero. intros a' Ha'. apply Sum_zero. intros b' Hb'. rewrite Z0; [reflexivity|auto..]. tauto.
        * intros j' Hj' Hn. apply Sum_zero. intros k' Hk'. apply Sum_zero. intros a' Ha'. apply Sum_zero. intros b' Hb'. rewrite Z0; [reflexivity|auto..]. tauto.
      + intros ad Ha. apply P2. intros x Hx [j [a [k [b [H1 [H2 [H3 [H4 ->]]]]]]]]. apply in_zrange in Hx. apply (Ha j a x k b); auto.
  Qed.

  Lemma collision_sum : forall ti sw gp2 k l, Qeq (col ti sw gp2 k l)
    (Sum nb (fun m => pp (((ti * nb0 + k) * nb + (if sw : bool then m else l)) * nb + (if sw then l else m))%Z *
                      g ((((2 * ntrip + ti) * nb0 + k) * nb + (if sw then m else l)) * nb + (if sw then l else m))%Z *
                      inv_sinh ish nb freq T cutoff gp2 m * unit)%Q).
  Proof.
    intros ti sw gp2 k l. unfold col, collision. rewrite fold_qsum, Qplus_0_l. apply Sum_ext. intros m _. cbv zeta. destruct sw.
    - replace (ti * nb0 * nb * nb + k * nb * nb + m * nb + l) with (((ti * nb0 + k) * nb + m) * nb + l) by ring.
      replace (2 * ntrip * nb0 * nb * nb + (((ti * nb0 + k) * nb + m) * nb + l)) with ((((2 * ntrip + ti) * nb0 + k) * nb + m) * nb + l) by ring. reflexivity.
    - replace (ti * nb0 * nb * nb + k * nb * nb + l * nb + m) with (((ti * nb0 + k) * nb + l) * nb + m) by ring.
      replace (2 * ntrip * nb0 * nb * nb + (((ti * nb0 + k) * nb + l) * nb + m)) with ((((2 * ntrip + ti) * nb0 + k) * nb + l) * nb + m) by ring. reflexivity.
  Qed.
End Loops.
