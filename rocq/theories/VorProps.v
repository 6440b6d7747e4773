(** Shortest lattice vectors of a reduced basis (C95) and the first Brillouin zone (C96) *)
From Coq Require Import ZArith QArith Qabs Qfield List Bool Lia Lqa.
From Verif Require Import Base BaseProofs Mat3 QMat GridSpec GridModel GridProofs SnfModel SnfProofs RotModel RotProps BzSpec BzModel BzProofs BzProps
  NigModel NigProps VorProofs VorForm.
Import ListNotations.
Open Scope Z_scope.

(** ** Lengths *)
Lemma qmeq_sym : forall a b, qmeq a b -> qmeq b a.
Proof. intros [] []. cbn. intuition (symmetry; assumption). Qed.
Lemma qz_nz : forall d, 0 < d -> ~ (qz d == 0)%Q.
Proof. intros d H K. unfold qz, Qeq, inject_Z in K. cbn in K. lia. Qed.
Lemma norm_qf : forall L d x y z, 0 < d -> (qnorm2 (qmulMV L (qv (qz x / qz d) (qz y / qz d) (qz z / qz d))) * sq d == qf L x y z)%Q.
Proof.
  intros [a b c d e f g h i] t x y z Ht. pose proof (qz_nz t Ht) as Hn. unfold qf, sA, sB, sC, sxi, seta, szeta, sq. rewrite !qz_mul.
  cbn [qnorm2 qmulMV dot3 col Z.eqb Pos.eqb]. field. exact Hn.
Qed.
Lemma norm_int : forall L v, (qnorm2 (qmulMV L (qv_of v)) == let '(v3 x y z) := v in qf L x y z)%Q.
Proof.
  intros [a b c d e f g h i] [x y z]. unfold qf, sA, sB, sC, sxi, seta, szeta, sq. rewrite !qz_mul.
  cbn [qnorm2 qmulMV dot3 col Z.eqb Pos.eqb qv_of]. ring.
Qed.
Lemma qnorm2_eq : forall u v, qveq u v -> (qnorm2 u == qnorm2 v)%Q.
Proof. intros [] []; cbn. intros [-> [-> ->]]. reflexivity. Qed.

(** numbers of a common denominator *)
Lemma common : forall q, exists d x y z, 0 < d /\ qveq q (qv (qz x / qz d) (qz y / qz d) (qz z / qz d)).
Proof.
  intros [[n1 d1] [n2 d2] [n3 d3]].
  exists (Zpos (d1 * d2 * d3)), (n1 * Zpos (d2 * d3)), (n2 * Zpos (d1 * d3)), (n3 * Zpos (d1 * d2)). split; [lia|].
  cbn [qveq]. unfold Qeq, Qdiv, Qmult, Qinv, qz, inject_Z. cbn [Qnum Qden]. repeat split; rewrite ?Pos2Z.inj_mul; ring.
Qed.

Section Core.
  Variable L : QM.
  Hypothesis SL : selling (qf L).
  Definition at_ (q : QV) (s : V3) : Q := qnorm2 (qmulMV L (qvadd q (qv_of s))).
  Lemma at_form : forall q d x y z s0 s1 s2, 0 < d -> qveq q (qv (qz x / qz d) (qz y / qz d) (qz z / qz d)) ->
    (at_ q (v3 s0 s1 s2) * sq d == qf L (x + d * s0) (y + d * s1) (z + d * s2))%Q.
  Proof.
    intros q d x y z s0 s1 s2 Hd E. rewrite <- (norm_qf L d) by exact Hd. unfold at_.
    rewrite (qnorm2_eq _ (qmulMV L (qv (qz (x + d * s0) / qz d) (qz (y + d * s1) / qz d) (qz (z + d * s2) / qz d)))); [reflexivity|].
    pose proof (qz_nz d Hd) as Hn. destruct q as [q0 q1 q2], L as [l0 l1 l2 l3 l4 l5 l6 l7 l8]. destruct E as [E0 [E1 E2]].
    cbn [qveq qmulMV qvadd qv_of]. rewrite E0, E1, E2, !qz_add, !qz_mul. repeat split; field; exact Hn.
  Qed.
  Lemma sq_pos : forall d, 0 < d -> (0 < sq d)%Q.
  Proof. intros d Hd. unfold sq, qz. change 0%Q with (inject_Z 0). rewrite <- Zlt_Qlt. nia. Qed.
  Lemma near_num : forall x d n, 0 < d -> (Qabs (qz n - qz x / qz d) <= 1 # 2)%Q -> 2 * Z.abs (x - d * n) <= d.
  Proof.
    intros x d n Hd H. apply Qabs_Qle_condition in H. destruct H as [H1 H2]. pose proof (qz_nz d Hd) as Hn.
    assert (Pd : (0 < qz d)%Q) by (unfold qz; change 0%Q with (inject_Z 0); rewrite <- Zlt_Qlt; exact Hd).
    assert (E : (qz x == (qz x / qz d) * qz d)%Q) by (field; exact Hn). set (r := (qz x / qz d)%Q) in *.
    assert (A1 : (2 * (qz n * qz d) - qz d <= 2 * qz x)%Q) by (rewrite E; nra).
    assert (A2 : (2 * qz x <= 2 * (qz n * qz d) + qz d)%Q) by (rewrite E; nra).
    change 2%Q with (qz 2) in A1, A2. rewrite <- !qz_mul in A1, A2. rewrite <- qz_add in A2.
    assert (A1' : (qz (2 * (n * d)) <= qz (2 * x + d))%Q) by (rewrite qz_add; lra).
    unfold qz in A1', A2. rewrite <- Zle_Qle in A1', A2. lia.
  Qed.
  Theorem shortest_in_box : forall q n s, nearest q n -> exists s', box (vadd s' n) /\ (at_ q s' <= at_ q s)%Q.
  Proof.
    intros q n [s0 s1 s2] HN. destruct (common q) as [d [x [y [z [Hd E]]]]].
    destruct (near_translate _ SL d (x + d * s0) (y + d * s1) (z + d * s2) Hd) as [i [j [k [H [B0 [B1 B2]]]]]].
    assert (X : forall u v w, u + d * v - d * w = u + d * (v - w)) by (intros; ring). rewrite !X in *. clear X.
    destruct n as [n0 n1 n2]. exists (v3 (s0 - i) (s1 - j) (s2 - k)). split.
    - destruct q as [q0 q1 q2]. destruct E as [E0 [E1 E2]]. destruct HN as [N0 [N1 N2]]. rewrite E0 in N0. rewrite E1 in N1. rewrite E2 in N2.
      apply near_num in N0, N1, N2; try exact Hd. cbn [vadd box]. clear - Hd B0 B1 B2 N0 N1 N2.
      assert (K : forall u v w, 2 * Z.abs (u + d * v) <= 3 * d -> 2 * Z.abs (u - d * w) <= d -> -2 <= v + w <= 2).
      { clear - Hd. intros u v w H1 H2. assert (Z.abs (d * (v + w)) <= 2 * d) by lia. nia. }
      split; [eapply K; eassumption|]. split; eapply K; eassumption.
    - pose proof (sq_pos d Hd) as Ps. rewrite <- !(at_form q d) in H by assumption. apply Qmult_le_r in H; assumption.
  Qed.
  Theorem outside_box : forall q n s, nearest q n -> ~ box (vadd s n) -> exists w, w <> vzero /\
    (3 * at_ q (vsub s w) + 2 * qnorm2 (qmulMV L (qv_of w)) <= 3 * at_ q s)%Q.
  Proof.
    intros q n [s0 s1 s2] HN HB. destruct (common q) as [d [x [y [z [Hd E]]]]]. destruct n as [n0 n1 n2].
    assert (F : 5 * d <= 2 * Z.abs (x + d * s0) \/ 5 * d <= 2 * Z.abs (y + d * s1) \/ 5 * d <= 2 * Z.abs (z + d * s2)).
    { destruct q as [q0 q1 q2]. destruct E as [E0 [E1 E2]]. destruct HN as [N0 [N1 N2]]. rewrite E0 in N0. rewrite E1 in N1. rewrite E2 in N2.
      apply near_num in N0, N1, N2; try exact Hd. cbn [vadd box] in HB. clear - Hd HB N0 N1 N2.
      assert (K : forall u v w, 2 * Z.abs (u - d * w) <= d -> 3 <= v + w \/ v + w <= -3 -> 5 * d <= 2 * Z.abs (u + d * v)).
      { clear - Hd. intros u v w H1 [H2|H2].
        - assert (3 * d <= d * (v + w)) by nia. lia.
        - assert (d * (v + w) <= -3 * d) by nia. lia. }
      assert (C : (3 <= s0 + n0 \/ s0 + n0 <= -3) \/ (3 <= s1 + n1 \/ s1 + n1 <= -3) \/ (3 <= s2 + n2 \/ s2 + n2 <= -3)) by (clear - HB; lia).
      destruct C as [C|[C|C]]; [left|right; left|right; right]; eapply K; eassumption. }
    destruct (far_drop _ SL d _ _ _ Hd F) as [i [j [k [NZ H]]]]. exists (v3 i j k). split.
    - intros E'. apply NZ. unfold vzero in E'. injection E' as -> -> ->. auto.
    - assert (X : forall u v w, u + d * v - d * w = u + d * (v - w)) by (intros; ring). rewrite !X in H. clear X.
      pose proof (sq_pos d Hd) as Ps. rewrite <- !(at_form q d) in H by assumption.
      rewrite norm_int. cbn [vsub]. apply (Qmult_le_r _ _ (sq d)); [exact Ps|].
      setoid_replace ((3 * at_ q (v3 (s0 - i) (s1 - j) (s2 - k)) + 2 * qf L i j k) * sq d)%Q with (3 * (at_ q (v3 (s0 - i) (s1 - j) (s2 - k)) * sq d) + 2 * sq d * qf L i j k)%Q by ring.
      setoid_replace (3 * at_ q (v3 s0 s1 s2) * sq d)%Q with (3 * (at_ q (v3 s0 s1 s2) * sq d))%Q by ring. exact H.
  Qed.
End Core.

(** ** C96: the first Brillouin zone *)
(** [reps] represents grid address [a0] in the first Brillouin zone: translates of [a0] by reciprocal lattice vectors, without repetition, one of them a shortest
    of all translates, the others less than [2 tol] longer *)
Definition first_zone (L : QM) (U : M3) (D PS : V3) (tol : Q) (a0 : V3) (reps : list V3) : Prop :=
  NoDup reps /\ exists a, In a reps /\
    (forall k, (len2 L U D PS a <= len2 L U D PS (vadd a0 (vmul D k)))%Q) /\
    (forall b, In b reps -> (exists k, b = vadd a0 (vmul D k)) /\ (len2 L U D PS b < len2 L U D PS a + 2 * tol)%Q).
(** ... and every translate less than [tol] longer than the shortest is in the list *)
Definition complete_zone (L : QM) (U : M3) (D PS : V3) (tol : Q) (a0 : V3) (reps : list V3) : Prop :=
  forall k, (forall k', (len2 L U D PS (vadd a0 (vmul D k)) < len2 L U D PS (vadd a0 (vmul D k')) + tol)%Q) -> In (vadd a0 (vmul D k)) reps.

Lemma mulMV_sub' : forall m u v, mulMV m (vsub u v) = vsub (mulMV m u) (mulMV m v).
Proof. intros [] [] []. cbn. f_equal; ring. Qed.
Lemma len2_at : forall L U D PS a0 k, pos_mesh D ->
  (len2 L U D PS (vadd a0 (vmul D k)) == at_ L (qmulMV (qm_of U) (position D PS a0)) (mulMV U k))%Q.
Proof.
  intros L U D PS a0 k HD. unfold len2, at_. apply qnorm2_eq. rewrite position_add by exact HD. rewrite qmulMV_add, qmulMV_of. reflexivity.
Qed.
Theorem first_zone_of_reps : forall L U D PS tol a0 reps, selling (qf L) -> unimod U -> pos_mesh D -> (0 <= tol)%Q ->
  bz_representatives L U D PS tol a0 reps ->
  first_zone L U D PS tol a0 reps /\ (no_short_G L U tol -> (0 < tol)%Q -> complete_zone L U D PS tol a0 reps).
Proof.
  intros L U D PS tol a0 reps SL HU HD Ht [ND [n [HN [a [Ia [Ca [Hmin [Hin Hall]]]]]]]].
  assert (HI : forall s, mulMV U (mulMV (minv U) s) = s) by (intros s; rewrite <- mulMV_mulMM, minv_r by exact HU; apply mulMV_1).
  assert (Glob : forall k, (len2 L U D PS a <= len2 L U D PS (vadd a0 (vmul D k)))%Q).
  { intros k. destruct (shortest_in_box L SL _ n (mulMV U k) HN) as [s' [Bs Ls]].
    specialize (Hmin (vadd a0 (vmul D (mulMV (minv U) s')))). eapply Qle_trans; [apply Hmin|].
    - exists (mulMV (minv U) s'). split; [reflexivity|]. rewrite HI. exact Bs.
    - rewrite !len2_at by exact HD. rewrite HI. exact Ls. }
  split; [split; [exact ND|]|].
  - exists a. split; [exact Ia|]. split; [exact Glob|]. intros b Ib. destruct (Hin b Ib) as [[k [E _]] Hlt]. split; [exists k; exact E|exact Hlt].
  - intros HG Ht' k Hk. destruct Ca as [ka [Ea _]].
    assert (Hka := Hk ka). rewrite <- Ea in Hka.
    apply Hall; [|exact Hka]. exists k. split; [reflexivity|].
    assert (BD : forall v, box v \/ ~ box v) by (intros [v0 v1 v2]; cbn; lia).
    destruct (BD (vadd (mulMV U k) n)) as [B|NB]; [exact B|exfalso].
    destruct (outside_box L SL _ n (mulMV U k) HN NB) as [w [Hw H]].
    set (k' := vsub k (mulMV (minv U) w)).
    assert (EK : vsub (mulMV U k) w = mulMV U k') by (unfold k'; rewrite mulMV_sub', HI; reflexivity).
    rewrite EK in H. rewrite <- !len2_at in H by exact HD.
    assert (HW : (2 * tol <= qnorm2 (qmulMV L (qv_of w)))%Q).
    { specialize (HG (mulMV (minv U) w)). unfold G_len2 in HG. rewrite HI in HG. apply HG. intros E0. apply Hw. rewrite <- (HI w), E0. destruct U; unfold vzero; cbn. f_equal; ring. }
    specialize (Hk k'). lra.
Qed.

(** Near ties are exact: no two of the numbers that the reduction compares differ by [eps] or less unless they are equal. *)
Definition compared (L : QM) : list (Q * Q) :=
  [(sA L, sB L); (sB L, sC L); (sxi L, 0%Q); (seta L, 0%Q); (szeta L, 0%Q); (Qabs (sxi L), sB L); (Qabs (seta L), sA L); (Qabs (szeta L), sA L); (0%Q, (sxi L + seta L + szeta L + sA L + sB L)%Q)].
Definition ties_exact (eps : Q) (L : QM) : Prop := forall x y, In (x, y) (compared L) -> tied eps x y -> (x == y)%Q.

Lemma tie_le : forall eps x y, (0 <= eps)%Q -> (tied eps x y -> (x == y)%Q) -> (x <= y + eps)%Q -> (x <= y)%Q.
Proof.
  intros eps x y He H1 H2. destruct (Qlt_le_dec y x) as [K|K]; [|exact K]. rewrite (H1 ltac:(unfold tied; rewrite Qabs_pos; lra)). apply Qle_refl.
Qed.
Lemma reduced_exact : forall eps L, (0 <= eps)%Q -> niggli_reduced eps true L -> ties_exact eps L ->
  (acute_reduced L \/ obtuse_superbase L /\ (Qabs (sxi L) <= sB L)%Q /\ (Qabs (seta L) <= sA L)%Q /\ (Qabs (szeta L) <= sA L)%Q /\ (0 <= sxi L + seta L + szeta L + sA L + sB L)%Q)
  /\ (sA L <= sB L)%Q /\ (sB L <= sC L)%Q.
Proof.
  intros eps L He R T.
  assert (S : (0 <= sxi L + seta L + szeta L + sA L + sB L)%Q) by (apply (tie_le eps); [exact He|apply T; cbn; auto 12|pose proof (nr_sum _ _ _ R); lra]).
  assert (AB : (sA L <= sB L)%Q) by (apply (tie_le eps); [exact He|apply T; cbn; auto|exact (nr_AB _ _ _ R)]).
  assert (BC : (sB L <= sC L)%Q) by (apply (tie_le eps); [exact He|apply T; cbn; auto|exact (nr_BC _ _ _ R eq_refl)]).
  assert (X : (Qabs (sxi L) <= sB L)%Q) by (apply (tie_le eps); [exact He|apply T; cbn; auto 10|exact (nr_xi _ _ _ R)]).
  assert (Y : (Qabs (seta L) <= sA L)%Q) by (apply (tie_le eps); [exact He|apply T; cbn; auto 10|exact (nr_eta _ _ _ R)]).
  assert (Z : (Qabs (szeta L) <= sA L)%Q) by (apply (tie_le eps); [exact He|apply T; cbn; auto 10|exact (nr_zeta _ _ _ R)]).
  split; [|split; assumption]. pose proof X as X'. pose proof Y as Y'. pose proof Z as Z'. apply Qabs_Qle_condition in X, Y, Z.
  destruct (nr_type _ _ _ R) as [[H1 [H2 H3]]|[H1 [H2 H3]]].
  - left. unfold acute_reduced. repeat split; lra.
  - right. assert (X0 : (sxi L <= 0)%Q) by (apply (tie_le eps); [exact He|apply T; cbn; auto 10|lra]).
    assert (Y0 : (seta L <= 0)%Q) by (apply (tie_le eps); [exact He|apply T; cbn; auto 10|lra]).
    assert (Z0 : (szeta L <= 0)%Q) by (apply (tie_le eps); [exact He|apply T; cbn; auto 10|lra]).
    split; [unfold obtuse_superbase; repeat split; lra|]. repeat split; assumption.
Qed.
Lemma ties_exact_0 : forall L, ties_exact 0 L.
Proof. intros L x y _ H. unfold tied in H. apply Qabs_Qle_condition in H. lra. Qed.
Lemma good_selling : forall L, acute_reduced L \/ obtuse_superbase L -> inhabited (selling (qf L)).
Proof. intros L [H|H]; constructor; [apply acute_selling|apply obtuse_selling]; exact H. Qed.

(** ** C95: the three successive minima *)
Lemma qf_trit : forall L i j k, (acute_reduced L \/ obtuse_superbase L /\ (Qabs (sxi L) <= sB L)%Q /\ (Qabs (seta L) <= sA L)%Q /\ (Qabs (szeta L) <= sA L)%Q /\ (0 <= sxi L + seta L + szeta L + sA L + sB L)%Q) ->
  (sA L <= sB L)%Q -> (sB L <= sC L)%Q -> trit i -> trit j -> trit k ->
  (k <> 0 -> (sC L <= qf L i j k)%Q) /\ (j <> 0 -> (sB L <= qf L i j k)%Q) /\ (i <> 0 -> (sA L <= qf L i j k)%Q).
Proof.
  intros L i j k HR AB BC Ti Tj Tk. unfold qf, sq.
  set (A := sA L) in *. set (B := sB L) in *. set (C := sC L) in *. set (xi := sxi L) in *. set (eta := seta L) in *. set (zeta := szeta L) in *.
  assert (P : (0 <= A)%Q). { subst A. unfold sA. destruct (col L 0) as [u v w]. cbn [dot3]. nra. }
  assert (HB : ((0 <= xi <= B) /\ xi <= C /\ (0 <= eta <= A) /\ eta <= C /\ (0 <= zeta <= A) /\ zeta <= B \/ (-B <= xi <= 0) /\ (-A <= eta <= 0) /\ (-A <= zeta <= 0) /\ 0 <= 2 * A + eta + zeta /\ 0 <= 2 * B + xi + zeta /\ 0 <= 2 * C + xi + eta /\ 0 <= xi + eta + zeta + A + B)%Q).
  { destruct HR as [H|[H [X [Y [Z S]]]]]; [left; exact H|right]. apply Qabs_Qle_condition in X, Y, Z. destruct H as [H1 [H2 [H3 H4]]]. repeat split; try tauto; lra. }
  clear HR. clearbody A B C xi eta zeta.
  destruct Ti as [->|[->| ->]], Tj as [->|[->| ->]], Tk as [->|[->| ->]];
    cbn -[Qmult Qplus Qle]; unfold qz; cbn -[Qmult Qplus Qle];
    change (inject_Z 1) with 1%Q; change (inject_Z 0) with 0%Q; change (inject_Z (-1)) with (- (1))%Q; (split; [|split]); intros N; try (exfalso; apply N; reflexivity); destruct HB as [HB|HB]; decompose [and] HB; lra.
Qed.

(** The reduced basis of a successful reduction has no near ties that are not exact (always so for tolerance 0): then its first vector is a shortest vector of the
    given lattice, its second a shortest one outside the line of the first, its third a shortest one outside the plane of the first two. *)
Theorem C95_successive_minima : forall L eps N, (0 <= eps)%Q -> niggli_reduce L eps = (N, true) -> ties_exact eps N ->
  (forall v, v <> vzero -> (sA N <= qnorm2 (qmulMV L (qv_of v)))%Q) /\
  (forall x y z, ~ (y = 0 /\ z = 0) -> (sB N <= qnorm2 (qmulMV N (qv_of (v3 x y z))))%Q) /\
  (forall x y z, z <> 0 -> (sC N <= qnorm2 (qmulMV N (qv_of (v3 x y z))))%Q).
Proof.
  intros L eps N He H T. pose proof (C95_reduced L eps (-1) N He H) as R. change (-1 =? -1) with true in R.
  destruct (reduced_exact _ _ He R T) as [G [AB BC]].
  assert (SN : inhabited (selling (qf N))) by (apply good_selling; destruct G as [G|[G _]]; [left|right]; exact G). destruct SN as [SN].
  assert (Z3 : forall x y z, z <> 0 -> (sC N <= qf N x y z)%Q).
  { intros x y z Hz. destruct (short_z _ SN x y z Hz) as [i [j [k [Ti [Tj [Tk [Nk Le]]]]]]]. eapply Qle_trans; [|exact Le]. exact (proj1 (qf_trit N i j k G AB BC Ti Tj Tk) Nk). }
  assert (Y3 : forall x y z, ~ (y = 0 /\ z = 0) -> (sB N <= qf N x y z)%Q).
  { intros x y z Hyz. destruct (Z.eq_dec z 0) as [Ez|Nz]; [|eapply Qle_trans; [exact BC|apply Z3; exact Nz]].
    destruct (short_y _ SN x y z ltac:(intros E; apply Hyz; auto)) as [i [j [k [Ti [Tj [Tk [Nj Le]]]]]]]. eapply Qle_trans; [|exact Le].
    exact (proj1 (proj2 (qf_trit N i j k G AB BC Ti Tj Tk)) Nj). }
  assert (X3 : forall x y z, v3 x y z <> vzero -> (sA N <= qf N x y z)%Q).
  { intros x y z Hv. destruct (Z.eq_dec y 0) as [Ey|Ny]; [destruct (Z.eq_dec z 0) as [Ez|Nz]|].
    - destruct (short_x _ SN x y z ltac:(intros E; apply Hv; subst; reflexivity)) as [i [j [k [Ti [Tj [Tk [Ni Le]]]]]]]. eapply Qle_trans; [|exact Le].
      exact (proj2 (proj2 (qf_trit N i j k G AB BC Ti Tj Tk)) Ni).
    - eapply Qle_trans; [exact AB|]. apply Y3. intros [_ E]. exact (Nz E).
    - eapply Qle_trans; [exact AB|]. apply Y3. intros [E _]. exact (Ny E). }
  split; [|split].
  - intros v Hv. pose proof (C95_same_lattice L eps (-1)) as [U [DU E]]. change (niggli_reduce_periodic L eps (-1)) with (niggli_reduce L eps) in E. rewrite H in E. cbn [fst] in E.
    assert (HU : unimod U) by (left; exact DU).
    assert (EV : mulMV U (mulMV (minv U) v) = v) by (rewrite <- mulMV_mulMM, minv_r by exact HU; apply mulMV_1).
    set (w := mulMV (minv U) v) in *.
    assert (EN : (qnorm2 (qmulMV L (qv_of v)) == qnorm2 (qmulMV N (qv_of w)))%Q).
    { apply qnorm2_eq. rewrite <- EV. clear - E. destruct L as [], U as [], N as [], w as []. cbn -[qz Z.add Z.mul] in *. destruct E as [-> [-> [-> [-> [-> [-> [-> [-> ->]]]]]]]].
      rewrite !qz_add, !qz_mul. repeat split; ring. }
    rewrite EN, norm_int. destruct w as [x y z] eqn:Ew. apply X3. intros E0. apply Hv. rewrite <- EV, E0. unfold vzero. destruct U. cbn. f_equal; ring.
  - intros x y z Hyz. rewrite norm_int. apply Y3, Hyz.
  - intros x y z Hz. rewrite norm_int. apply Z3, Hz.
Qed.
Print Assumptions C95_successive_minima.

(** ** gridsys_get_bz_grid_addresses *)
Definition qmax (x y : Q) : Q := if qltb x y then y else x.
Lemma qmax_eq : forall x y x' y', (x == x')%Q -> (y == y')%Q -> (qmax x y == qmax x' y')%Q.
Proof.
  intros x y x' y' E1 E2. unfold qmax. destruct (qltb x y) eqn:A, (qltb x' y') eqn:B; try assumption;
    rewrite ?qltb_lt, ?qltb_ge in *; lra.
Qed.
Lemma tolerance_eq : forall D U PS L U' L', qmeq (qmulMM L (qm_of U)) (qmulMM L' (qm_of U')) -> (bz_tolerance (mkBzIn D U PS L) == bz_tolerance (mkBzIn D U' PS L'))%Q.
Proof.
  intros D U PS L U' L' E. unfold bz_tolerance. cbn [bL bQ bD]. destruct (qmulMM L (qm_of U)) as [], (qmulMM L' (qm_of U')) as [], D as []. cbn [qmeq] in E.
  destruct E as [E1 [E2 [E3 [E4 [E5 [E6 [E7 [E8 E9]]]]]]]].
  apply Qmult_comp; [|reflexivity].
  apply (qmax_eq (qmax _ _) _ (qmax _ _) _); [apply qmax_eq|]; rewrite ?E1, ?E2, ?E3, ?E4, ?E5, ?E6, ?E7, ?E8, ?E9; reflexivity.
Qed.
Lemma len2_eq : forall D U PS L U' L' a, qmeq (qmulMM L (qm_of U)) (qmulMM L' (qm_of U')) -> (len2 L U D PS a == len2 L' U' D PS a)%Q.
Proof.
  intros D U PS L U' L' a E. unfold len2. apply qnorm2_eq. generalize (position D PS a) as p. intros [p0 p1 p2].
  assert (A : forall M V, qveq (qmulMV M (qmulMV (qm_of V) (qv p0 p1 p2))) (qmulMV (qmulMM M (qm_of V)) (qv p0 p1 p2))).
  { intros [] []. cbn. repeat split; ring. }
  rewrite !A. destruct (qmulMM L (qm_of U)) as [], (qmulMM L' (qm_of U')) as []. cbn [qmeq] in E. destruct E as [E1 [E2 [E3 [E4 [E5 [E6 [E7 [E8 E9]]]]]]]].
  cbn [qmulMV qveq]. rewrite E1, E2, E3, E4, E5, E6, E7, E8, E9. repeat split; reflexivity.
Qed.
Lemma gridsys_facts : forall D U PS L B, gridsys_input D U PS L = Some B -> unimod U ->
  exists N, niggli_reduce L GRIDSYS_NIGGLI_TOLERANCE = (N, true) /\ bD B = D /\ bPS B = PS /\ bL B = N /\ unimod (bQ B) /\
    qmeq (qmulMM N (qm_of (bQ B))) (qmulMM L (qm_of U)) /\ ~ (qdet N == 0)%Q.
Proof.
  intros D U PS L B H HU. unfold gridsys_input in H. destruct (niggli_reduce L _) as [N ok] eqn:EN. destruct ok; [|discriminate].
  destruct (qltb _ _) eqn:ED; [discriminate|]. exists N. split; [reflexivity|]. injection H as <-. cbn [bD bPS bL bQ]. do 3 (split; [reflexivity|]).
  pose proof (C95_same_lattice L GRIDSYS_NIGGLI_TOLERANCE (-1)) as [T [DT E]]. change (niggli_reduce_periodic L GRIDSYS_NIGGLI_TOLERANCE (-1)) with (niggli_reduce L GRIDSYS_NIGGLI_TOLERANCE) in E.
  rewrite EN in E. cbn [fst] in E.
  assert (DN : ~ (qdet N == 0)%Q).
  { intros K. apply qltb_ge in ED. unfold GRIDSYS_NIGGLI_TOLERANCE in ED. rewrite K in ED. cbn in ED. unfold Qle in ED. cbn in ED. lia. }
  assert (EC : cast_int (qmulMM (qinv N) L) = adj T).
  { assert (X : qmeq (qmulMM (qinv N) L) (qm_of (adj T))).
    { assert (Y : qmeq L (qmulMM N (qm_of (adj T)))).
      { eapply qmeq_trans; [|apply qmeq_sym, (qmulMM_eq_l _ _ (qm_of (adj T)) E)]. eapply qmeq_trans; [|apply qmeq_sym, qm_of_mul].
        rewrite adj_r, DT. change (diag3 (v3 1 1 1)) with I3. apply qm_of_1. }
      clear - Y DN. destruct N as [a b c d e f g h i], L as [], (adj T) as []. cbn [qmulMM qm_of qmeq] in Y. cbn [qmulMM qm_of qmeq qinv]. cbn [qdet] in *.
      destruct Y as [-> [-> [-> [-> [-> [-> [-> [-> ->]]]]]]]]. repeat split; field; exact DN. }
    destruct (qmulMM (qinv N) L) as [], (adj T) as []. cbn [qmeq qm_of cast_int] in *. destruct X as [X1 [X2 [X3 [X4 [X5 [X6 [X7 [X8 X9]]]]]]]].
    f_equal; apply Nint_int; assumption. }
  rewrite EC. split; [|split; [|exact DN]].
  - assert (DA : det (adj T) = 1). { pose proof (f_equal det (adj_l T)) as K. rewrite det_mulMM, DT in K. cbn in K. lia. }
    unfold unimod in *. rewrite det_mulMM, DA. lia.
  - eapply qmeq_trans; [apply qmeq_sym, qm_of_mul|]. apply qmulMM_eq_l.
    eapply qmeq_trans; [apply (qmulMM_eq_l _ _ (qm_of (adj T)) E)|]. eapply qmeq_trans; [apply qm_of_mul|].
    rewrite adj_r, DT. change (diag3 (v3 1 1 1)) with I3. apply qmeq_sym, qm_of_1.
Qed.
Lemma first_zone_ext : forall L U L' U' D PS tol tol' a0 reps, qmeq (qmulMM L (qm_of U)) (qmulMM L' (qm_of U')) -> (tol == tol')%Q ->
  first_zone L U D PS tol a0 reps -> first_zone L' U' D PS tol' a0 reps.
Proof.
  intros L U L' U' D PS tol tol' a0 reps E Et [ND [a [Ia [H1 H2]]]]. split; [exact ND|]. exists a. split; [exact Ia|].
  assert (EL := fun b => len2_eq D U PS L U' L' b E). split.
  - intros k. rewrite <- !EL. apply H1.
  - intros b Ib. destruct (H2 b Ib) as [X Y]. split; [exact X|]. rewrite <- !EL, <- Et. exact Y.
Qed.
Lemma complete_zone_ext : forall L U L' U' D PS tol tol' a0 reps, qmeq (qmulMM L (qm_of U)) (qmulMM L' (qm_of U')) -> (tol == tol')%Q ->
  complete_zone L U D PS tol a0 reps -> complete_zone L' U' D PS tol' a0 reps.
Proof.
  intros L U L' U' D PS tol tol' a0 reps E Et H k Hk. assert (EL := fun b => len2_eq D U PS L U' L' b E). apply H. intros k'. rewrite !EL, Et. apply Hk.
Qed.
Lemma no_short_ext : forall L U L' U' tol tol', qmeq (qmulMM L (qm_of U)) (qmulMM L' (qm_of U')) -> (tol == tol')%Q -> no_short_G L U tol -> no_short_G L' U' tol'.
Proof.
  intros L U L' U' tol tol' E Et H k Hk. specialize (H k Hk). unfold G_len2 in *. rewrite <- Et.
  assert (A : forall M V, qveq (qmulMV M (qv_of (mulMV V k))) (qmulMV (qmulMM M (qm_of V)) (qv_of k))).
  { intros [] []. destruct k. cbn -[qz Z.add Z.mul]. rewrite !qz_add, !qz_mul. repeat split; ring. }
  rewrite (qnorm2_eq _ _ (A L U)) in H. rewrite (qnorm2_eq _ _ (A L' U')). eapply Qle_trans; [exact H|]. apply Qle_lteq. right. apply qnorm2_eq.
  destruct (qmulMM L (qm_of U)) as [], (qmulMM L' (qm_of U')) as [], k. cbn [qmeq] in E. destruct E as [E1 [E2 [E3 [E4 [E5 [E6 [E7 [E8 E9]]]]]]]].
  cbn [qmulMV qveq qv_of]. rewrite E1, E2, E3, E4, E5, E6, E7, E8, E9. repeat split; reflexivity.
Qed.

(** Every grid point of the grid made by the C function is stored with representatives in the first Brillouin zone of the given lattice: among all reciprocal lattice
    translates, not only among those that the function searches. *)
Theorem C96_first_brillouin_zone : forall D U PS L ty init o, pos_mesh D -> unimod U -> ty = 1 \/ ty = 2 ->
  ties_exact GRIDSYS_NIGGLI_TOLERANCE (fst (niggli_reduce L GRIDSYS_NIGGLI_TOLERANCE)) ->
  gridsys_get_bz_grid_addresses D U PS L ty init = Some o ->
  let tol := bz_tolerance (mkBzIn D U PS L) in
  forall i, 0 <= i < mesh_size D ->
  let stored := if ty =? 1 then stored1 (mesh_size D) o i else stored2 o i in
  first_zone L U D PS tol (get_grid_address_from_index i D) stored /\
  (no_short_G L U tol -> complete_zone L U D PS tol (get_grid_address_from_index i D) stored).
Proof.
  intros D U PS L ty init o HD HU Hty HT H tol i Hi stored. unfold gridsys_get_bz_grid_addresses in H.
  destruct (gridsys_input D U PS L) as [B|] eqn:EB; [|discriminate].
  destruct (gridsys_facts _ _ _ _ _ EB HU) as [N [EN [ED [EP [EL [HQ [EM DN]]]]]]].
  rewrite EN in HT. cbn [fst] in HT.
  assert (He : (0 <= GRIDSYS_NIGGLI_TOLERANCE)%Q) by (unfold GRIDSYS_NIGGLI_TOLERANCE; lra). pose proof (C95_reduced L _ (-1) N He EN) as R. change (-1 =? -1) with true in R.
  destruct (reduced_exact _ _ He R HT) as [G _].
  assert (SN : inhabited (selling (qf N))) by (apply good_selling; destruct G as [G|[G _]]; [left|right]; exact G). destruct SN as [SN].
  assert (GB : good_in B) by (split; [rewrite ED; exact HD|rewrite EL; exact DN]).
  assert (TP : (0 < bz_tolerance B)%Q) by (apply tolerance_pos; [rewrite ED; exact HD|exact HQ|rewrite EL; exact DN]).
  assert (TE : (bz_tolerance B == tol)%Q).
  { destruct B as [D' Q' PS' L']. cbn [bD bPS bL bQ] in *. subst. apply tolerance_eq. exact EM. }
  assert (REPS : bz_representatives (bL B) (bQ B) (bD B) (bPS B) (bz_tolerance B) (get_grid_address_from_index i (bD B)) stored).
  { unfold stored. destruct Hty as [-> | ->].
    - change (1 =? 1) with true. cbv iota. rewrite <- ED. rewrite <- ED in Hi. exact (proj1 (proj2 (proj1 (proj2 (proj2 (C11_default_layout B init o GB H))) i Hi))).
    - change (2 =? 1) with false. cbv iota. rewrite <- ED in Hi. exact (proj1 (proj2 (proj1 (proj2 (proj2 (C11_dense_layout B init o GB H))) i Hi))). }
  rewrite EL, ED, EP in REPS.
  destruct (first_zone_of_reps N (bQ B) D PS _ _ _ SN HQ HD (Qlt_le_weak _ _ TP) REPS) as [F C]. split.
  - exact (first_zone_ext _ _ _ _ _ _ _ _ _ _ EM TE F).
  - intros HG. apply (complete_zone_ext _ _ _ _ _ _ _ _ _ _ EM TE). apply C; [|exact TP].
    apply (no_short_ext L U _ _ tol); [apply qmeq_sym; exact EM|symmetry; exact TE|exact HG].
Qed.
Print Assumptions C96_first_brillouin_zone.

(** The function gives a grid exactly when the reduction ended within its 100 passes and the volume is not below the absolute tolerance. *)
Theorem C96_success_iff : forall D U PS L ty init, unimod U ->
  (gridsys_get_bz_grid_addresses D U PS L ty init <> None <->
   snd (niggli_reduce L GRIDSYS_NIGGLI_TOLERANCE) = true /\ (1 # 100000 <= Qabs (qdet L))%Q).
Proof.
  intros D U PS L ty init HU.
  assert (DE : (qdet (fst (niggli_reduce L GRIDSYS_NIGGLI_TOLERANCE)) == qdet L)%Q).
  { pose proof (C95_same_lattice L GRIDSYS_NIGGLI_TOLERANCE (-1)) as [T [DT E]]. change (niggli_reduce_periodic L GRIDSYS_NIGGLI_TOLERANCE (-1)) with (niggli_reduce L GRIDSYS_NIGGLI_TOLERANCE) in E.
    destruct (fst (niggli_reduce L GRIDSYS_NIGGLI_TOLERANCE)) as [a b c d e f g h i], L as [l0 l1 l2 l3 l4 l5 l6 l7 l8], T as [t0 t1 t2 t3 t4 t5 t6 t7 t8].
    cbn [qmulMM qm_of qmeq] in E. destruct E as [E1 [E2 [E3 [E4 [E5 [E6 [E7 [E8 E9]]]]]]]]. cbn [qdet]. rewrite E1, E2, E3, E4, E5, E6, E7, E8, E9.
    assert (DQ : (qz t0 * (qz t4 * qz t8 - qz t5 * qz t7) + qz t1 * (qz t5 * qz t6 - qz t3 * qz t8) + qz t2 * (qz t3 * qz t7 - qz t4 * qz t6) == 1)%Q).
    { change 1%Q with (qz 1). rewrite <- DT. unfold det, qz, Z.sub. rewrite ?inject_Z_plus, ?inject_Z_opp, ?inject_Z_mult, ?inject_Z_plus, ?inject_Z_opp, ?inject_Z_mult. ring. }
    etransitivity; [|exact (Qmult_1_r _)]. rewrite <- DQ. ring. }
  unfold gridsys_get_bz_grid_addresses. destruct (gridsys_input D U PS L) as [B|] eqn:EB.
  - destruct (gridsys_facts _ _ _ _ _ EB HU) as [N [EN [_ [_ [_ [HQ _]]]]]]. unfold gridsys_input in EB. rewrite EN in *. cbn [fst snd] in *.
    destruct (qltb _ _) eqn:Q; [discriminate|]. apply qltb_ge in Q. rewrite DE in Q. split; [intros _; split; [reflexivity|exact Q]|].
    intros _ K. apply C11_failure_iff_not_unimodular in K. destruct HQ as [HQ|HQ]; rewrite HQ in K; lia.
  - split; [intros K; congruence|]. intros [K1 K2]. unfold gridsys_input in EB. destruct (niggli_reduce L _) as [N ok]. cbn [fst snd] in *. subst ok.
    destruct (qltb _ _) eqn:Q; [|discriminate]. apply qltb_lt in Q. rewrite DE in Q. unfold GRIDSYS_NIGGLI_TOLERANCE in Q. lra.
Qed.
Print Assumptions C96_success_iff.

(** Not every lattice gets a grid: for a cubic cell of 50 Angstrom the determinant of the reciprocal lattice is below the absolute tolerance. *)
Definition large_cell : QM := qm (1 # 50) 0 0 0 (1 # 50) 0 0 0 (1 # 50).
Definition no_out : BzOut := mkBzOut (fun _ => vzero) (fun _ => 0) (fun _ => 0) 0.
Theorem C96_every_lattice_refuted : ~ (forall D U PS L ty init, pos_mesh D -> unimod U -> ~ (qdet L == 0)%Q ->
  snd (niggli_reduce L GRIDSYS_NIGGLI_TOLERANCE) = true -> gridsys_get_bz_grid_addresses D U PS L ty init <> None).
Proof.
  intros H. apply (H (v3 2 2 2) I3 (v3 0 0 0) large_cell 1 no_out); [cbn; lia|left; reflexivity|vm_compute; discriminate|vm_compute; reflexivity|vm_compute; reflexivity].
Qed.
Print Assumptions C96_every_lattice_refuted.

(** the skewed lattice of [C95_ex], a 2x2x1 mesh *)
Lemma skew_ties : ties_exact GRIDSYS_NIGGLI_TOLERANCE (fst (niggli_reduce skew_lattice GRIDSYS_NIGGLI_TOLERANCE)).
Proof.
  assert (K : forallb (fun p => Qeq_bool (fst p) (snd p) || negb (Qle_bool (Qabs (fst p - snd p)) GRIDSYS_NIGGLI_TOLERANCE))
    (compared (fst (niggli_reduce skew_lattice GRIDSYS_NIGGLI_TOLERANCE))) = true) by (vm_compute; reflexivity).
  intros x y I Ht. rewrite forallb_forall in K. specialize (K _ I). cbn [fst snd] in K. apply orb_true_iff in K. destruct K as [K|K]; [apply Qeq_bool_eq; exact K|].
  apply negb_true_iff in K. apply not_true_iff_false in K. exfalso. apply K. apply Qle_bool_iff. exact Ht.
Qed.
Example C95_minima_ex : forall v, v <> vzero -> (2 <= qnorm2 (qmulMV skew_lattice (qv_of v)))%Q.
Proof.
  intros v Hv. pose proof (C95_successive_minima skew_lattice GRIDSYS_NIGGLI_TOLERANCE (qm 0 1 (-2) 1 (-1) (-1) (-1) (-1) 0) ltac:(unfold GRIDSYS_NIGGLI_TOLERANCE; lra) ltac:(vm_compute; reflexivity)
    skew_ties) as [H _]. exact (H v Hv).
Qed.
Example C96_ex : exists o, gridsys_get_bz_grid_addresses (v3 2 2 1) I3 (v3 0 0 0) skew_lattice 2 no_out = Some o /\ o_size o = 7 /\
  stored2 o 3 = [v3 1 (-1) 0; v3 (-1) 1 0] /\
  first_zone skew_lattice I3 (v3 2 2 1) (v3 0 0 0) (bz_tolerance (mkBzIn (v3 2 2 1) I3 (v3 0 0 0) skew_lattice)) (v3 1 1 0) [v3 1 (-1) 0; v3 (-1) 1 0].
Proof.
  destruct (gridsys_get_bz_grid_addresses (v3 2 2 1) I3 (v3 0 0 0) skew_lattice 2 no_out) as [o|] eqn:E; [|vm_compute in E; discriminate].
  assert (K : option_map (fun o => (o_size o, stored2 o 3)) (gridsys_get_bz_grid_addresses (v3 2 2 1) I3 (v3 0 0 0) skew_lattice 2 no_out) = Some (7, [v3 1 (-1) 0; v3 (-1) 1 0])) by (vm_compute; reflexivity).
  rewrite E in K. cbn [option_map] in K. assert (K1 : o_size o = 7) by congruence. assert (K2 : stored2 o 3 = [v3 1 (-1) 0; v3 (-1) 1 0]) by congruence.
  exists o. split; [reflexivity|]. split; [exact K1|]. split; [exact K2|].
  assert (PM : pos_mesh (v3 2 2 1)) by (cbn; lia). assert (U1 : unimod I3) by (left; reflexivity).
  assert (I3' : 0 <= 3 < mesh_size (v3 2 2 1)) by (change (mesh_size (v3 2 2 1)) with 4; lia).
  pose proof (proj1 (C96_first_brillouin_zone _ _ _ _ 2 _ _ PM U1 (or_intror eq_refl) skew_ties E 3 I3')) as F. change (2 =? 1) with false in F. cbv iota in F. rewrite K2 in F. exact F.
Qed.
