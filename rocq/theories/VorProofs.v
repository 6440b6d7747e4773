(** Forms p_ij (t_i - t_j)^2 over four numbers (Selling's parameters of a lattice): short translates are near, short vectors are few *)
From Coq Require Import ZArith QArith Qabs Qfield List Bool Lia Lqa Wf_Z.
From Verif Require Import Base Mat3 QMat.
Import ListNotations.
Open Scope Z_scope.

Definition sq (x : Z) : Q := qz (x * x).
Section Sell.
  Variables p01 p02 p03 p12 p13 p23 : Q.
  Hypothesis P01 : (0 <= p01)%Q. Hypothesis P02 : (0 <= p02)%Q. Hypothesis P03 : (0 <= p03)%Q.
  Hypothesis P12 : (0 <= p12)%Q. Hypothesis P13 : (0 <= p13)%Q. Hypothesis P23 : (0 <= p23)%Q.
  Definition Sp (a b c e : Z) : Q :=
    (p01 * sq (a - b) + p02 * sq (a - c) + p03 * sq (a - e) + p12 * sq (b - c) + p13 * sq (b - e) + p23 * sq (c - e))%Q.
  Definition spread (a b c e w : Z) : Prop :=
    Z.abs (a - b) <= w /\ Z.abs (a - c) <= w /\ Z.abs (a - e) <= w /\ Z.abs (b - c) <= w /\ Z.abs (b - e) <= w /\ Z.abs (c - e) <= w.
  Definition bit (x : Z) : Prop := x = 0 \/ x = 1.
  (** numbers marked 1 exceed those marked 0 by more than [g] *)
  Definition above (g n s n' s' : Z) : Prop := (s = 1 -> s' = 0 -> g < n - n') /\ (s' = 1 -> s = 0 -> g < n' - n).
  Definition gap (g a b c e s0 s1 s2 s3 : Z) : Prop :=
    bit s0 /\ bit s1 /\ bit s2 /\ bit s3 /\ 0 < s0 + s1 + s2 + s3 < 4 /\
    above g a s0 b s1 /\ above g a s0 c s2 /\ above g a s0 e s3 /\ above g b s1 c s2 /\ above g b s1 e s3 /\ above g c s2 e s3.
  Ltac srt x y z w := exists x, y, z, w; split; [lia|]; split; [lia|]; split; [lia|]; split; [lia|]; split; [tauto|]; repeat split; auto 6.
  Lemma gap4 : forall a b c e g, 0 <= g -> ~ spread a b c e (3 * g) -> exists s0 s1 s2 s3, gap g a b c e s0 s1 s2 s3.
  Proof.
    intros a b c e g Hg H.
    assert (K : forall m, (exists x, (x = a \/ x = b \/ x = c \/ x = e) /\ x <= m) -> (exists y, (y = a \/ y = b \/ y = c \/ y = e) /\ m < y) ->
       (forall x y, (x = a \/ x = b \/ x = c \/ x = e) -> (y = a \/ y = b \/ y = c \/ y = e) -> m < x -> y <= m -> g < x - y) ->
       exists s0 s1 s2 s3, gap g a b c e s0 s1 s2 s3).
    { intros m [x [Hx Lx]] [y [Hy Ly]] HC.
      assert (D : forall v, exists s, (s = 1 /\ m < v) \/ (s = 0 /\ v <= m)).
      { intros v. destruct (Z_lt_ge_dec m v); [exists 1|exists 0]; lia. }
      destruct (D a) as [s0 D0], (D b) as [s1 D1], (D c) as [s2 D2], (D e) as [s3 D3]. exists s0, s1, s2, s3.
      clear H. unfold gap.
      split; [clear - D0; unfold bit; lia|]. split; [clear - D1; unfold bit; lia|]. split; [clear - D2; unfold bit; lia|]. split; [clear - D3; unfold bit; lia|].
      split; [clear HC; destruct Hx as [->|[->|[->| ->]]], Hy as [->|[->|[->| ->]]]; lia|].
      assert (AB : forall u v s s', (u = a \/ u = b \/ u = c \/ u = e) -> (v = a \/ v = b \/ v = c \/ v = e) ->
        (s = 1 /\ m < u) \/ (s = 0 /\ u <= m) -> (s' = 1 /\ m < v) \/ (s' = 0 /\ v <= m) -> above g u s v s').
      { intros u v s s' Hu Hv Du Dv. split; intros E1 E2; apply HC; try assumption; clear - Du Dv E1 E2; lia. }
      repeat (split; [apply AB; auto|]). apply AB; auto. }
    (* sort *)
    assert (S : exists x y z w, x <= y /\ y <= z /\ z <= w /\ 3 * g < w - x /\
      (forall v, (v = a \/ v = b \/ v = c \/ v = e) -> v = x \/ v = y \/ v = z \/ v = w) /\
      (x = a \/ x = b \/ x = c \/ x = e) /\ (y = a \/ y = b \/ y = c \/ y = e) /\ (z = a \/ z = b \/ z = c \/ z = e) /\ (w = a \/ w = b \/ w = c \/ w = e)).
    { unfold spread in H. destruct (Z_le_gt_dec a b) as [L1|L1], (Z_le_gt_dec c e) as [L2|L2].
      - destruct (Z_le_gt_dec a c), (Z_le_gt_dec b e), (Z_le_gt_dec b c), (Z_le_gt_dec a e); first [srt a b c e|srt a c b e|srt a c e b|srt c a b e|srt c a e b|srt c e a b|lia].
      - destruct (Z_le_gt_dec a c), (Z_le_gt_dec b e), (Z_le_gt_dec b c), (Z_le_gt_dec a e); first [srt a b e c|srt a e b c|srt a e c b|srt e a b c|srt e a c b|srt e c a b|lia].
      - destruct (Z_le_gt_dec a c), (Z_le_gt_dec b e), (Z_le_gt_dec b c), (Z_le_gt_dec a e); first [srt b a c e|srt b c a e|srt b c e a|srt c b a e|srt c b e a|srt c e b a|lia].
      - destruct (Z_le_gt_dec a c), (Z_le_gt_dec b e), (Z_le_gt_dec b c), (Z_le_gt_dec a e); first [srt b a e c|srt b e a c|srt b e c a|srt e b a c|srt e b c a|srt e c b a|lia]. }
    destruct S as [x [y [z [w [L1 [L2 [L3 [L4 [C [M1 [M2 [M3 M4]]]]]]]]]]]].
    assert (G : g < y - x \/ g < z - y \/ g < w - z) by lia. destruct G as [G|[G|G]].
    - apply (K x); [exists x; split; [exact M1|lia]|exists w; split; [exact M4|lia]|]. intros u v Hu Hv U V. apply C in Hu, Hv. lia.
    - apply (K y); [exists x; split; [exact M1|lia]|exists w; split; [exact M4|lia]|]. intros u v Hu Hv U V. apply C in Hu, Hv. lia.
    - apply (K z); [exists x; split; [exact M1|lia]|exists w; split; [exact M4|lia]|]. intros u v Hu Hv U V. apply C in Hu, Hv. lia.
  Qed.

  Lemma pterm : forall p x y, (0 <= p)%Q -> x * x <= y * y -> (p * sq x <= p * sq y)%Q.
  Proof. intros p x y Hp H. unfold sq. assert (qz (x * x) <= qz (y * y))%Q by (unfold qz; rewrite <- Zle_Qle; exact H). nra. Qed.
  (** moving the upper group down by [d] *)
  Lemma cross_le : forall d x y s s', 0 < d -> bit s -> bit s' -> above d (2 * x) s (2 * y) s' ->
    (x - d * s - (y - d * s')) * (x - d * s - (y - d * s')) <= (x - y) * (x - y) /\
    Z.abs (x - d * s - (y - d * s')) <= Z.abs (x - y) /\ (s <> s' -> Z.abs (x - d * s - (y - d * s')) < Z.abs (x - y)).
  Proof.
    intros d x y s s' Hd [->| ->] [->| ->] [H1 H2]; [| | |].
    - replace (x - d * 0 - (y - d * 0)) with (x - y) by ring. lia.
    - specialize (H2 eq_refl eq_refl). replace (x - d * 0 - (y - d * 1)) with (x - y + d) by ring. split; [nia|lia].
    - specialize (H1 eq_refl eq_refl). replace (x - d * 1 - (y - d * 0)) with (x - y - d) by ring. split; [nia|lia].
    - replace (x - d * 1 - (y - d * 1)) with (x - y) by ring. lia.
  Qed.
  Lemma sell_down : forall d a b c e s0 s1 s2 s3, 0 < d -> gap d (2 * a) (2 * b) (2 * c) (2 * e) s0 s1 s2 s3 ->
    (Sp (a - d * s0) (b - d * s1) (c - d * s2) (e - d * s3) <= Sp a b c e)%Q.
  Proof.
    intros d a b c e s0 s1 s2 s3 Hd [B0 [B1 [B2 [B3 [_ [G1 [G2 [G3 [G4 [G5 G6]]]]]]]]]].
    pose proof (pterm _ _ _ P01 (proj1 (cross_le d a b s0 s1 Hd B0 B1 G1))). pose proof (pterm _ _ _ P02 (proj1 (cross_le d a c s0 s2 Hd B0 B2 G2))).
    pose proof (pterm _ _ _ P03 (proj1 (cross_le d a e s0 s3 Hd B0 B3 G3))). pose proof (pterm _ _ _ P12 (proj1 (cross_le d b c s1 s2 Hd B1 B2 G4))).
    pose proof (pterm _ _ _ P13 (proj1 (cross_le d b e s1 s3 Hd B1 B3 G5))). pose proof (pterm _ _ _ P23 (proj1 (cross_le d c e s2 s3 Hd B2 B3 G6))).
    unfold Sp. lra.
  Qed.
  Definition mu (a b c e : Z) : Z := Z.abs (a - b) + Z.abs (a - c) + Z.abs (a - e) + Z.abs (b - c) + Z.abs (b - e) + Z.abs (c - e).
  Lemma six_lt : forall p1 p2 p3 p4 p5 p6 q1 q2 q3 q4 q5 q6, p1 <= q1 -> p2 <= q2 -> p3 <= q3 -> p4 <= q4 -> p5 <= q5 -> p6 <= q6 ->
    (p1 < q1 \/ p2 < q2 \/ p3 < q3) -> p1 + p2 + p3 + p4 + p5 + p6 < q1 + q2 + q3 + q4 + q5 + q6.
  Proof. intros. lia. Qed.
  Lemma mu_nonneg : forall a b c e, 0 <= mu a b c e.
  Proof. intros. unfold mu. lia. Qed.
  Lemma mu_down : forall d a b c e s0 s1 s2 s3, 0 < d -> gap d (2 * a) (2 * b) (2 * c) (2 * e) s0 s1 s2 s3 ->
    mu (a - d * s0) (b - d * s1) (c - d * s2) (e - d * s3) < mu a b c e.
  Proof.
    intros d a b c e s0 s1 s2 s3 Hd [B0 [B1 [B2 [B3 [NC [G1 [G2 [G3 [G4 [G5 G6]]]]]]]]]].
    pose proof (proj2 (cross_le d a b s0 s1 Hd B0 B1 G1)) as [X1 Y1]. pose proof (proj2 (cross_le d a c s0 s2 Hd B0 B2 G2)) as [X2 Y2].
    pose proof (proj2 (cross_le d a e s0 s3 Hd B0 B3 G3)) as [X3 Y3]. pose proof (proj2 (cross_le d b c s1 s2 Hd B1 B2 G4)) as [X4 Y4].
    pose proof (proj2 (cross_le d b e s1 s3 Hd B1 B3 G5)) as [X5 Y5]. pose proof (proj2 (cross_le d c e s2 s3 Hd B2 B3 G6)) as [X6 Y6].
    unfold mu. assert (D : s0 <> s1 \/ s0 <> s2 \/ s0 <> s3) by (clear - B0 B1 B2 B3 NC; unfold bit in *; lia).
    apply six_lt; try assumption. destruct D as [D|[D|D]]; [left; exact (Y1 D)|right; left; exact (Y2 D)|right; right; exact (Y3 D)].
  Qed.
  Lemma spread_dec : forall a b c e w, spread a b c e w \/ ~ spread a b c e w.
  Proof. intros. unfold spread. lia. Qed.
  Theorem sell_reduce : forall d a b c e, 0 < d -> exists k0 k1 k2 k3,
    (Sp (a - d * k0) (b - d * k1) (c - d * k2) (e - d * k3) <= Sp a b c e)%Q /\
    spread (2 * (a - d * k0)) (2 * (b - d * k1)) (2 * (c - d * k2)) (2 * (e - d * k3)) (3 * d).
  Proof.
    intros d a b c e Hd.
    assert (M : forall n, 0 <= n -> forall a b c e, mu a b c e = n -> exists k0 k1 k2 k3,
      (Sp (a - d * k0) (b - d * k1) (c - d * k2) (e - d * k3) <= Sp a b c e)%Q /\
      spread (2 * (a - d * k0)) (2 * (b - d * k1)) (2 * (c - d * k2)) (2 * (e - d * k3)) (3 * d)).
    { clear a b c e. intros n Hn. pattern n. apply Zlt_0_ind; [|exact Hn]. clear n Hn. intros n IH _ a b c e E.
      destruct (spread_dec (2 * a) (2 * b) (2 * c) (2 * e) (3 * d)) as [S|S].
      - exists 0, 0, 0, 0. replace (a - d * 0) with a by ring. replace (b - d * 0) with b by ring. replace (c - d * 0) with c by ring. replace (e - d * 0) with e by ring.
        split; [apply Qle_refl|exact S].
      - destruct (gap4 _ _ _ _ _ (Z.lt_le_incl _ _ Hd) S) as [s0 [s1 [s2 [s3 G]]]].
        pose proof (mu_down _ _ _ _ _ _ _ _ _ Hd G) as L1. pose proof (sell_down _ _ _ _ _ _ _ _ _ Hd G) as L2. rewrite E in L1.
        destruct (IH _ (conj (mu_nonneg _ _ _ _) L1) _ _ _ _ eq_refl) as [k0 [k1 [k2 [k3 [I1 I2]]]]].
        exists (s0 + k0), (s1 + k1), (s2 + k2), (s3 + k3).
        replace (a - d * (s0 + k0)) with (a - d * s0 - d * k0) by ring. replace (b - d * (s1 + k1)) with (b - d * s1 - d * k1) by ring.
        replace (c - d * (s2 + k2)) with (c - d * s2 - d * k2) by ring. replace (e - d * (s3 + k3)) with (e - d * s3 - d * k3) by ring.
        split; [eapply Qle_trans; [exact I1|exact L2]|exact I2]. }
    exact (M _ (mu_nonneg _ _ _ _) a b c e eq_refl).
  Qed.

  (** a large difference allows a shift that lowers the form by 2/3 of the form of the shift *)
  Lemma cross_drop : forall d x y s s', 0 < d -> bit s -> bit s' -> above (5 * d - 1) (6 * x) s (6 * y) s' ->
    3 * ((x - d * s - (y - d * s')) * (x - d * s - (y - d * s'))) + 2 * (d * d) * ((s - s') * (s - s')) <= 3 * ((x - y) * (x - y)).
  Proof.
    intros d x y s s' Hd [->| ->] [->| ->] [H1 H2].
    - replace (x - d * 0 - (y - d * 0)) with (x - y) by ring. lia.
    - specialize (H2 eq_refl eq_refl). replace (x - d * 0 - (y - d * 1)) with (x - y + d) by ring. nia.
    - specialize (H1 eq_refl eq_refl). replace (x - d * 1 - (y - d * 0)) with (x - y - d) by ring. nia.
    - replace (x - d * 1 - (y - d * 1)) with (x - y) by ring. lia.
  Qed.
  Lemma pterm3 : forall p x y z d, (0 <= p)%Q -> 3 * (x * x) + 2 * (d * d) * (z * z) <= 3 * (y * y) ->
    (3 * (p * sq x) + 2 * sq d * (p * sq z) <= 3 * (p * sq y))%Q.
  Proof.
    intros p x y z d Hp H. unfold sq. rewrite Zle_Qle in H. rewrite ?inject_Z_plus, ?inject_Z_mult in H. unfold qz. rewrite ?inject_Z_mult.
    change (inject_Z 3) with 3%Q in H. change (inject_Z 2) with 2%Q in H.
    set (X := inject_Z x) in *. set (Y := inject_Z y) in *. set (Z0 := inject_Z z) in *. set (D := inject_Z d) in *.
    assert (K : (0 <= p * (3 * (Y * Y) - (3 * (X * X) + 2 * (D * D) * (Z0 * Z0))))%Q) by (apply Qmult_le_0_compat; [exact Hp|lra]).
    setoid_replace (3 * (p * (X * X)) + 2 * (D * D) * (p * (Z0 * Z0)))%Q with (p * (3 * (X * X) + 2 * (D * D) * (Z0 * Z0)))%Q by ring.
    setoid_replace (3 * (p * (Y * Y)))%Q with (p * (3 * (Y * Y)))%Q by ring.
    setoid_replace (p * (3 * (Y * Y) - (3 * (X * X) + 2 * (D * D) * (Z0 * Z0))))%Q with (p * (3 * (Y * Y)) - p * (3 * (X * X) + 2 * (D * D) * (Z0 * Z0)))%Q in K by ring.
    lra.
  Qed.
  Theorem sell_drop : forall d a b c e, 0 < d -> ~ spread (2 * a) (2 * b) (2 * c) (2 * e) (5 * d - 1) -> exists s0 s1 s2 s3,
    bit s0 /\ bit s1 /\ bit s2 /\ bit s3 /\ 0 < s0 + s1 + s2 + s3 < 4 /\
    (3 * Sp (a - d * s0) (b - d * s1) (c - d * s2) (e - d * s3) + 2 * sq d * Sp s0 s1 s2 s3 <= 3 * Sp a b c e)%Q.
  Proof.
    intros d a b c e Hd NS.
    assert (NS' : ~ spread (6 * a) (6 * b) (6 * c) (6 * e) (3 * (5 * d - 1))) by (intros S; apply NS; clear - S; unfold spread in *; destruct S as [S1 [S2 [S3 [S4 [S5 S6]]]]]; split; [clear - S1; lia|]; split; [clear - S2; lia|]; split; [clear - S3; lia|]; split; [clear - S4; lia|]; split; [clear - S5; lia|clear - S6; lia]).
    assert (H5 : 0 <= 5 * d - 1) by (clear - Hd; lia). destruct (gap4 _ _ _ _ _ H5 NS') as [s0 [s1 [s2 [s3 G]]]]. exists s0, s1, s2, s3.
    destruct G as [B0 [B1 [B2 [B3 [NC [G1 [G2 [G3 [G4 [G5 G6]]]]]]]]]].
    do 4 (split; [assumption|]). split; [exact NC|].
    pose proof (pterm3 _ _ _ _ _ P01 (cross_drop d a b s0 s1 Hd B0 B1 G1)). pose proof (pterm3 _ _ _ _ _ P02 (cross_drop d a c s0 s2 Hd B0 B2 G2)).
    pose proof (pterm3 _ _ _ _ _ P03 (cross_drop d a e s0 s3 Hd B0 B3 G3)). pose proof (pterm3 _ _ _ _ _ P12 (cross_drop d b c s1 s2 Hd B1 B2 G4)).
    pose proof (pterm3 _ _ _ _ _ P13 (cross_drop d b e s1 s3 Hd B1 B3 G5)). pose proof (pterm3 _ _ _ _ _ P23 (cross_drop d c e s2 s3 Hd B2 B3 G6)).
    unfold Sp. lra.
  Qed.

  (** the form at four integers, at least one different from another, is at least the form at a cut between the two *)
  Theorem sell_cut : forall a b c e m, exists s0 s1 s2 s3,
    (s0 = 1 /\ m < a \/ s0 = 0 /\ a <= m) /\ (s1 = 1 /\ m < b \/ s1 = 0 /\ b <= m) /\ (s2 = 1 /\ m < c \/ s2 = 0 /\ c <= m) /\ (s3 = 1 /\ m < e \/ s3 = 0 /\ e <= m) /\
    (Sp s0 s1 s2 s3 <= Sp a b c e)%Q.
  Proof.
    intros a b c e m. assert (D : forall v, exists s, (s = 1 /\ m < v) \/ (s = 0 /\ v <= m)).
    { intros v. destruct (Z_lt_ge_dec m v); [exists 1|exists 0]; lia. }
    destruct (D a) as [s0 D0], (D b) as [s1 D1], (D c) as [s2 D2], (D e) as [s3 D3]. exists s0, s1, s2, s3.
    do 4 (split; [assumption|]).
    assert (K : forall s v s' v', (s = 1 /\ m < v) \/ (s = 0 /\ v <= m) -> (s' = 1 /\ m < v') \/ (s' = 0 /\ v' <= m) -> (s - s') * (s - s') <= (v - v') * (v - v')).
    { clear. intros s v s' v' [[-> H]|[-> H]] [[-> H']|[-> H']]; pose proof (Z.square_nonneg (v - v')); nia. }
    pose proof (pterm _ _ _ P01 (K _ _ _ _ D0 D1)). pose proof (pterm _ _ _ P02 (K _ _ _ _ D0 D2)). pose proof (pterm _ _ _ P03 (K _ _ _ _ D0 D3)).
    pose proof (pterm _ _ _ P12 (K _ _ _ _ D1 D2)). pose proof (pterm _ _ _ P13 (K _ _ _ _ D1 D3)). pose proof (pterm _ _ _ P23 (K _ _ _ _ D2 D3)).
    unfold Sp. lra.
  Qed.
End Sell.
