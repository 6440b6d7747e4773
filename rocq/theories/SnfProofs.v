(** Proofs about the Smith-normal-form model. *)
From Coq Require Import ZArith Znumtheory List Lia Bool.
From Verif Require Import Base BaseProofs Mat3 SnfModel.
Open Scope Z_scope.

Ltac mat := cbn -[Z.mul Z.add Z.sub Z.opp Z.quot Z.rem].

Lemma some_pair_inj : forall A B (a c : A) (b d : B), Some (a, b) = Some (c, d) -> a = c /\ b = d.
Proof. intros A B a c b d H. inversion H. auto. Qed.

(** ** Extended Euclid *)
Lemma step_spec : forall r0 r1 s0 s1 t0 t1, r1 <> 0 ->
  exists q r2, extended_gcd_step (vals r0 r1 s0 s1 t0 t1)
               = vals r1 r2 s1 (s0 - q * s1) t1 (t0 - q * t1) /\
    r0 = q * r1 + r2 /\ 0 <= r2 < Z.abs r1.
Proof.
  intros r0 r1 s0 s1 t0 t1 H. unfold extended_gcd_step.
  pose proof (Z.quot_rem' r0 r1) as E. pose proof (Z.rem_bound_abs r0 r1 H) as B.
  destruct (Z.ltb_spec (Z.rem r0 r1) 0) as [Hn|Hp].
  - destruct (Z.ltb_spec 0 r1), (Z.ltb_spec r1 0); try lia.
    + exists (Z.quot r0 r1 - 1), (Z.rem r0 r1 + r1). repeat split; lia.
    + exists (Z.quot r0 r1 + 1), (Z.rem r0 r1 - r1). repeat split; lia.
  - exists (Z.quot r0 r1), (Z.rem r0 r1). repeat split; lia.
Qed.

Definition einv (a b : Z) (v : Vals) : Prop :=
  let '(vals r0 r1 s0 s1 t0 t1) := v in
  r0 = s0 * a + t0 * b /\ r1 = s1 * a + t1 * b /\
  (s0 * t1 - s1 * t0 = 1 \/ s0 * t1 - s1 * t0 = -1).

Lemma step_inv : forall a b v, (let '(vals _ r1 _ _ _ _) := v in r1 <> 0) ->
  einv a b v -> einv a b (extended_gcd_step v).
Proof.
  intros a b [r0 r1 s0 s1 t0 t1] Hr [H0 [H1 H2]].
  destruct (step_spec r0 r1 s0 s1 t0 t1 Hr) as [q [r2 [-> [E B]]]]. cbn.
  split; [auto|]. split.
  - replace r2 with (r0 - q * r1) by lia. rewrite H0, H1. ring.
  - replace (s1 * (t0 - q * t1) - (s0 - q * s1) * t1) with (- (s0 * t1 - s1 * t0)) by ring. lia.
Qed.

Lemma egcd_loop_inv : forall F a b v v', (let '(vals _ r1 _ _ _ _) := v in r1 <> 0) ->
  einv a b v -> egcd_loop F v = Some v' ->
  einv a b v' /\ (let '(vals _ r1 _ _ _ _) := v' in r1 = 0).
Proof.
  induction F as [|F IH]; intros a b v v' Hr Hi H; [discriminate|]. cbn [egcd_loop] in H.
  pose proof (step_inv a b v Hr Hi) as Hi'.
  destruct (extended_gcd_step v) as [r0 r1 s0 s1 t0 t1] eqn:E.
  destruct (Z.eqb_spec r1 0) as [Hz|Hnz].
  - inversion H; subst v'. auto.
  - eapply IH; [|exact Hi'|exact H]. auto.
Qed.

Lemma egcd_loop_pos : forall F r0 r1 s0 s1 t0 t1 v', 0 < r1 ->
  egcd_loop F (vals r0 r1 s0 s1 t0 t1) = Some v' ->
  let '(vals r0' _ _ _ _ _) := v' in 0 < r0'.
Proof.
  induction F as [|F IH]; intros r0 r1 s0 s1 t0 t1 v' Hr H; [discriminate|]. cbn [egcd_loop] in H.
  destruct (step_spec r0 r1 s0 s1 t0 t1 ltac:(lia)) as [q [r2 [E [E2 B]]]]. rewrite E in H.
  destruct (Z.eqb_spec r2 0).
  - inversion H; subst v'. auto.
  - eapply IH; [|exact H]. lia.
Qed.

Lemma egcd_spec : forall F a b r s t, b <> 0 -> extended_gcd F a b = Some (r, s, t) ->
  r = s * a + t * b /\ (r | a) /\ (r | b) /\ r <> 0 /\ (0 < b -> 0 < r).
Proof.
  intros F a b r s t Hb H. unfold extended_gcd in H.
  destruct (egcd_loop F (vals a b 1 0 0 1)) as [[r0 r1 s0 s1 t0 t1]|] eqn:E; [|discriminate].
  inversion H; subst r0 s0 t0; clear H.
  pose proof (egcd_loop_inv F a b (vals a b 1 0 0 1) _ Hb ltac:(unfold einv; repeat split; lia) E) as [K0 K1].
  cbn in K0, K1. subst r1. destruct K0 as [K0 [K1 K2]].
  assert (exists e, (e = 1 \/ e = -1) /\ s * t1 - s1 * t = e) as [e [He Ke]] by (destruct K2; eauto).
  assert (a = r * (e * t1)) as Ea.
  { transitivity (e * e * a); [destruct He as [He|He]; rewrite He; ring|].
    rewrite <- Ke at 2. rewrite K0.
    replace (e * (s * t1 - s1 * t) * a) with (e * (t1 * (s * a) - t * (s1 * a))) by ring.
    replace (s1 * a) with (- (t1 * b)) by lia. ring. }
  assert (b = r * (- e * s1)) as Eb.
  { transitivity (e * e * b); [destruct He as [He|He]; rewrite He; ring|].
    rewrite <- Ke at 2. rewrite K0.
    replace (e * (s * t1 - s1 * t) * b) with (e * (s * (t1 * b) - s1 * (t * b))) by ring.
    replace (t1 * b) with (- (s1 * a)) by lia. ring. }
  repeat split; auto.
  - exists (e * t1). lia.
  - exists (- e * s1). lia.
  - intros ->. lia.
  - intros Hp. pose proof (egcd_loop_pos F a b 1 0 0 1 _ Hp E) as Hr. exact Hr.
Qed.

(** Number of steps: 2 n + 1 suffice when |b| < 2^n. *)
Lemma egcd_loop_terminates : forall n r0 r1 s0 s1 t0 t1 F, 0 < r1 < 2 ^ Z.of_nat n ->
  (2 * n <= F)%nat -> egcd_loop F (vals r0 r1 s0 s1 t0 t1) <> None.
Proof.
  induction n as [|n IH]; intros r0 r1 s0 s1 t0 t1 F Hr HF.
  - cbn in Hr. lia.
  - destruct F as [|[|F]]; try lia. cbn [egcd_loop].
    destruct (step_spec r0 r1 s0 s1 t0 t1 ltac:(lia)) as [q [r2 [E [E2 B]]]]. rewrite E.
    destruct (Z.eqb_spec r2 0) as [|Hr2]; [discriminate|].
    destruct (step_spec r1 r2 s1 (s0 - q * s1) t1 (t0 - q * t1) Hr2) as [q' [r3 [E' [E2' B']]]].
    rewrite E'. destruct (Z.eqb_spec r3 0) as [|Hr3]; [discriminate|].
    apply IH; [|lia]. replace (Z.of_nat (S n)) with (Z.of_nat n + 1) in Hr by lia.
    rewrite Z.pow_add_r in Hr by lia.
    assert (0 < q') by nia. assert (r2 + r3 <= r1) by nia. lia.
Qed.

Lemma egcd_terminates : forall F n a b, b <> 0 -> Z.abs b < 2 ^ Z.of_nat n -> (2 * n + 1 <= F)%nat ->
  exists r s t, extended_gcd F a b = Some (r, s, t).
Proof.
  intros F n a b Hb Hn HF. unfold extended_gcd.
  assert (egcd_loop F (vals a b 1 0 0 1) <> None) as H.
  { destruct F as [|F]; [lia|]. cbn [egcd_loop].
    destruct (step_spec a b 1 0 0 1 Hb) as [q [r2 [E [E2 B]]]]. rewrite E.
    destruct (Z.eqb_spec r2 0) as [|Hr2]; [discriminate|].
    apply (egcd_loop_terminates n); lia. }
  destruct (egcd_loop F (vals a b 1 0 0 1)) as [[]|]; [|congruence]. eauto.
Qed.

Lemma egcd_loop_mono : forall F F' v v', egcd_loop F v = Some v' -> (F <= F')%nat ->
  egcd_loop F' v = Some v'.
Proof.
  induction F as [|F IH]; intros F' v v' H HF; [discriminate|].
  destruct F' as [|F']; [lia|]. cbn [egcd_loop] in *.
  destruct (extended_gcd_step v) as [r0 r1 s0 s1 t0 t1]. destruct (r1 =? 0); auto.
  apply IH; auto; lia.
Qed.

Lemma egcd_mono : forall F F' a b x, extended_gcd F a b = Some x -> (F <= F')%nat ->
  extended_gcd F' a b = Some x.
Proof.
  intros F F' a b x H HF. unfold extended_gcd in *.
  destruct (egcd_loop F (vals a b 1 0 0 1)) as [v|] eqn:E; [|discriminate].
  now rewrite (egcd_loop_mono _ _ _ _ E HF).
Qed.

(** The special call of the finalization: g | x, |x| > g > 0. *)
Lemma egcd_multiple : forall F g x r s t, 0 < g -> (g | x) -> g < Z.abs x ->
  extended_gcd F g x = Some (r, s, t) -> r = g /\ s = 1 /\ t = 0.
Proof.
  intros F g x r s t Hg [k Hk] Hx H. unfold extended_gcd in H.
  destruct F as [|F]; [discriminate|]. cbn [egcd_loop] in H.
  assert (extended_gcd_step (vals g x 1 0 0 1) = vals x g 0 1 1 0) as E.
  { unfold extended_gcd_step.
    assert (Z.quot g x = 0) as Eq. { apply Z.quot_small_iff; lia. }
    assert (Z.rem g x = g) as Er. { apply Z.rem_small_iff; lia. }
    rewrite Eq, Er. destruct (Z.ltb_spec g 0); [lia|]. f_equal; ring. }
  rewrite E in H. destruct (Z.eqb_spec g 0); [lia|].
  destruct F as [|F]; [discriminate|]. cbn [egcd_loop] in H.
  assert (extended_gcd_step (vals x g 0 1 1 0) = vals g 0 1 (0 - k * 1) 0 (1 - k * 0)) as E2.
  { unfold extended_gcd_step.
    assert (Z.quot x g = k) as Eq. { subst x. apply Z.quot_mul. lia. }
    assert (Z.rem x g = 0) as Er. { subst x. apply Z.rem_mul. lia. }
    rewrite Eq, Er. reflexivity. }
  rewrite E2 in H. cbn [Z.eqb] in H. inversion H. auto.
Qed.

(** ** Unimodular matrices *)
Definition unimod (U : M3) : Prop := det U = 1 \/ det U = -1.

Lemma unimod_I3 : unimod I3. Proof. left. reflexivity. Qed.
Lemma unimod_mul : forall U V, unimod U -> unimod V -> unimod (mulMM U V).
Proof. intros U V [H|H] [K|K]; unfold unimod; rewrite det_mulMM, H, K; lia. Qed.
Lemma unimod_transp : forall U, unimod U -> unimod (transp U).
Proof. intros U H. unfold unimod. now rewrite det_transp. Qed.
Lemma unimod_mneg : forall U, unimod U -> unimod (mneg U).
Proof.
  intros U H. assert (det (mneg U) = - det U) as E. { destruct U. mat. ring. }
  unfold unimod in *. lia.
Qed.

Definition minv (U : M3) : M3 := if det U =? 1 then adj U else mneg (adj U).
Lemma minv_l : forall U, unimod U -> mulMM (minv U) U = I3.
Proof.
  intros U H. unfold minv. destruct (Z.eqb_spec (det U) 1) as [E|E].
  - rewrite adj_l, E. reflexivity.
  - assert (det U = -1) by (destruct H; auto; contradiction).
    replace (mulMM (mneg (adj U)) U) with (mneg (mulMM (adj U) U)).
    + rewrite adj_l, H0. reflexivity.
    + destruct (adj U), U. mat. f_equal; ring.
Qed.
Lemma minv_r : forall U, unimod U -> mulMM U (minv U) = I3.
Proof.
  intros U H. unfold minv. destruct (Z.eqb_spec (det U) 1) as [E|E].
  - rewrite adj_r, E. reflexivity.
  - assert (det U = -1) by (destruct H; auto; contradiction).
    replace (mulMM U (mneg (adj U))) with (mneg (mulMM U (adj U))).
    + rewrite adj_r, H0. reflexivity.
    + destruct (adj U), U. mat. f_equal; ring.
Qed.

Lemma quot_exact : forall r x, r <> 0 -> Z.quot (x * r) r = x.
Proof. intros. apply Z.quot_mul. auto. Qed.
Lemma quot_exact_neg : forall r x, r <> 0 -> Z.quot (- (x * r)) r = - x.
Proof. intros. replace (- (x * r)) with ((- x) * r) by ring. apply Z.quot_mul. auto. Qed.

(** ** Column routines *)
(** [colrel AP AP'] : both components multiplied by one unimodular matrix. *)
Definition colrel (AP AP' : M3 * M3) : Prop :=
  exists U, unimod U /\ fst AP' = mulMM U (fst AP) /\ snd AP' = mulMM U (snd AP).

Lemma colrel_refl : forall AP, colrel AP AP.
Proof. intros AP. exists I3. rewrite !mulMM_1_l. auto using unimod_I3. Qed.
Lemma colrel_trans : forall a b c, colrel a b -> colrel b c -> colrel a c.
Proof.
  intros a b c [U [HU [E1 E2]]] [V [HV [K1 K2]]]. exists (mulMM V U).
  rewrite <- !mulMM_assoc, <- E1, <- E2. auto using unimod_mul.
Qed.
Lemma colrel_app : forall L AP, unimod L -> colrel AP (app_l L AP).
Proof. intros L AP H. exists L. auto. Qed.

Lemma det_colrel : forall AP AP', colrel AP AP' -> det (fst AP) <> 0 -> det (fst AP') <> 0.
Proof. intros AP AP' [U [HU [E _]]] H. rewrite E, det_mulMM. destruct HU as [->| ->]; lia. Qed.

Lemma zero_first_spec : forall F j A P AP', (j = 1 \/ j = 2) -> mget A 0 0 <> 0 ->
  zero_first F j (A, P) = Some AP' ->
  colrel (A, P) AP' /\ mget (fst AP') j 0 = 0 /\ mget (fst AP') 0 0 <> 0 /\
  (j = 2 -> mget (fst AP') 1 0 = mget A 1 0) /\
  (0 < mget A 0 0 -> 0 < mget A j 0 -> 0 < mget (fst AP') 0 0).
Proof.
  intros F j A P AP' Hj H0 H. unfold zero_first in H. cbn [fst] in H.
  destruct (Z.eqb_spec (mget A j 0) 0) as [E|E]; cbn [negb] in H.
  - inversion H; subst AP'. split; [apply colrel_refl|]. repeat split; auto.
  - destruct (extended_gcd F (mget A 0 0) (mget A j 0)) as [[[r s] t]|] eqn:EG; [|discriminate].
    apply egcd_spec in EG; auto. destruct EG as [Er [[a' Ha] [[b' Hb] [Hr Hpos]]]].
    inversion H; subst AP'; clear H. cbn [fst].
    destruct A as [a b c d e f g h k].
    destruct Hj as [-> | ->]; cbn [mget] in *.
    + assert (s * a' + t * b' = 1) as Hst by (apply (Z.mul_reg_r _ _ r); auto; lia).
      unfold app_l, set_zero. cbn [fst snd mset I3]. rewrite Ha, Hb.
      rewrite quot_exact, quot_exact_neg by auto.
      split; [apply colrel_app; left; mat; lia|]. mat. repeat split; try lia.
    + assert (s * a' + t * b' = 1) as Hst by (apply (Z.mul_reg_r _ _ r); auto; lia).
      unfold app_l, set_zero. cbn [fst snd mset I3]. rewrite Ha, Hb.
      rewrite quot_exact, quot_exact_neg by auto.
      split; [apply colrel_app; left; mat; lia|]. mat. repeat split; try lia.
Qed.

Lemma first_column_spec : forall F A P AP', det A <> 0 ->
  first_column F (A, P) = Some AP' ->
  colrel (A, P) AP' /\ mget (fst AP') 0 0 <> 0 /\ mget (fst AP') 1 0 = 0 /\ mget (fst AP') 2 0 = 0.
Proof.
  intros F A P AP' Hd H. unfold first_column in H. cbn [fst] in H.
  set (i := search_first_pivot A) in *.
  assert (exists AP1, (if 0 <? i then app_l (swap_rows 0 i) (A, P) else (A, P)) = AP1 /\
          colrel (A, P) AP1 /\ mget (fst AP1) 0 0 <> 0 /\ 0 <= i) as [AP1 [E1 [C1 [N1 Hi]]]].
  { unfold i, search_first_pivot. destruct A as [a b c d e f g h k]. cbn [mget].
    destruct (Z.eqb_spec a 0) as [Ea|Ea]; cbn [negb].
    - destruct (Z.eqb_spec d 0) as [Ed|Ed]; cbn [negb].
      + destruct (Z.eqb_spec g 0) as [Eg|Eg]; cbn [negb].
        * exfalso. subst. apply Hd. mat. ring.
        * eexists. split; [reflexivity|]. cbn [Z.ltb Z.compare]. split.
          { apply colrel_app. right. reflexivity. }
          { split; [|lia]. mat. lia. }
      + eexists. split; [reflexivity|]. cbn [Z.ltb Z.compare]. split.
        { apply colrel_app. right. reflexivity. }
        { split; [|lia]. mat. lia. }
    - eexists. split; [reflexivity|]. cbn [Z.ltb Z.compare]. split; [apply colrel_refl|].
      split; [|lia]. mat. auto. }
  rewrite E1 in H. destruct (Z.ltb_spec i 0); [lia|].
  destruct (zero_first F 1 AP1) as [AP2|] eqn:Z1; [|discriminate].
  destruct AP1 as [A1 P1]. apply zero_first_spec in Z1; auto. destruct Z1 as [C2 [Z2 [N2 _]]].
  destruct AP2 as [A2 P2]. apply zero_first_spec in H; auto.
  destruct H as [C3 [Z3 [N3 [Z4 _]]]]. specialize (Z4 eq_refl). cbn [fst] in *.
  split; [eapply colrel_trans; [eapply colrel_trans|]; eassumption|].
  repeat split; auto. now rewrite Z4.
Qed.

(** Relation between SNF states. *)
Definition strel (s s' : St) : Prop :=
  let '(st A P Q) := s in let '(st A' P' Q') := s' in
  exists U V, unimod U /\ unimod V /\ A' = mulMM (mulMM U A) (transp V) /\
              P' = mulMM U P /\ Q' = mulMM V Q.

Lemma strel_refl : forall s, strel s s.
Proof. intros [A P Q]. exists I3, I3. change (transp I3) with I3.
  rewrite !mulMM_1_l, mulMM_1_r. auto using unimod_I3. Qed.
Lemma strel_trans : forall a b c, strel a b -> strel b c -> strel a c.
Proof.
  intros [A P Q] [A' P' Q'] [A'' P'' Q''] [U [V [HU [HV [E1 [E2 E3]]]]]] [U' [V' [HU' [HV' [K1 [K2 K3]]]]]].
  exists (mulMM U' U), (mulMM V' V). repeat split; auto using unimod_mul.
  - rewrite K1, E1, transp_mulMM, !mulMM_assoc. reflexivity.
  - now rewrite K2, E2, mulMM_assoc.
  - now rewrite K3, E3, mulMM_assoc.
Qed.

Lemma strel_det : forall A P Q A' P' Q', strel (st A P Q) (st A' P' Q') -> Z.abs (det A') = Z.abs (det A).
Proof.
  intros A P Q A' P' Q' [U [V [HU [HV [E _]]]]]. rewrite E, !det_mulMM, det_transp.
  destruct HU as [->| ->], HV as [->| ->]; lia.
Qed.

Lemma one_loop_rel : forall col s s',
  (forall A P AP', det A <> 0 -> col (A, P) = Some AP' -> colrel (A, P) AP') ->
  (let '(st A _ _) := s in det A <> 0) ->
  one_loop col s = Some s' -> strel s s'.
Proof.
  intros col [A P Q] s' Hcol Hd H. unfold one_loop in H.
  destruct (col (A, P)) as [[A1 P1]|] eqn:E1; [|discriminate].
  destruct (col (transp A1, Q)) as [[A2 Q2]|] eqn:E2; [|discriminate].
  inversion H; subst s'; clear H.
  apply Hcol in E1; auto. pose proof (det_colrel _ _ E1 Hd) as Hd1. cbn [fst] in Hd1.
  apply Hcol in E2; [|rewrite det_transp; auto].
  destruct E1 as [U [HU [EA EP]]], E2 as [V [HV [EA2 EQ]]]. cbn [fst snd] in *.
  exists U, V. repeat split; auto.
  rewrite EA2, transp_mulMM, transp_transp, EA. reflexivity.
Qed.

Lemma first_one_loop_shape : forall F A P Q A' P' Q', det A <> 0 ->
  one_loop (first_column F) (st A P Q) = Some (st A' P' Q') ->
  mget A' 0 0 <> 0 /\ mget A' 0 1 = 0 /\ mget A' 0 2 = 0.
Proof.
  intros F A P Q A' P' Q' Hd H. unfold one_loop in H.
  destruct (first_column F (A, P)) as [[A1 P1]|] eqn:E1; [|discriminate].
  destruct (first_column F (transp A1, Q)) as [[A2 Q2]|] eqn:E2; [|discriminate].
  inversion H; subst A' P' Q'; clear H.
  apply first_column_spec in E1; auto. destruct E1 as [C1 _].
  pose proof (det_colrel _ _ C1 Hd) as Hd1. cbn [fst] in Hd1.
  apply first_column_spec in E2; [|rewrite det_transp; auto].
  destruct E2 as [_ [N [Z1 Z2]]]. cbn [fst] in *. destruct A2. mat. auto.
Qed.

(** Block form A00 (+) 2x2. *)
Definition blk (A : M3) : Prop :=
  mget A 0 0 <> 0 /\ mget A 0 1 = 0 /\ mget A 0 2 = 0 /\ mget A 1 0 = 0 /\ mget A 2 0 = 0.

Lemma strel_l : forall L A P Q, unimod L -> strel (st A P Q) (st (mulMM L A) (mulMM L P) Q).
Proof. intros L A P Q H. exists L, I3. change (transp I3) with I3.
  rewrite mulMM_1_r, mulMM_1_l. auto using unimod_I3. Qed.

Lemma first_spec : forall F s b s', (let '(st A _ _) := s in det A <> 0) ->
  first F s = Some (b, s') -> strel s s' /\ (b = true -> let '(st A' _ _) := s' in blk A').
Proof.
  intros F [A P Q] b s' Hd H. unfold first in H.
  destruct (one_loop (first_column F) (st A P Q)) as [[A1 P1 Q1]|] eqn:E; [|discriminate].
  pose proof (first_one_loop_shape _ _ _ _ _ _ _ Hd E) as [N [Z1 Z2]].
  assert (strel (st A P Q) (st A1 P1 Q1)) as R1.
  { eapply one_loop_rel; [|exact Hd|exact E].
    intros A0 P0 AP' Hd0 H0. apply first_column_spec in H0; tauto. }
  destruct ((mget A1 1 0 =? 0) && (mget A1 2 0 =? 0)) eqn:E0.
  { inversion H; subst. split; auto. intros _. apply andb_true_iff in E0.
    rewrite !Z.eqb_eq in E0. repeat split; tauto. }
  destruct ((Z.rem (mget A1 1 0) (mget A1 0 0) =? 0) && (Z.rem (mget A1 2 0) (mget A1 0 0) =? 0)) eqn:E1.
  - assert (unimod (first_finalize A1)) as HL by (left; unfold first_finalize; mat; ring).
    cbv zeta in H. apply some_pair_inj in H; destruct H as [<- <-]. split.
    + eapply strel_trans; [exact R1|]. exact (strel_l _ A1 P1 Q1 HL).
    + intros _. apply andb_true_iff in E1. rewrite !Z.eqb_eq in E1. destruct E1 as [D1 D2].
      apply Z.rem_divide in D1, D2; auto. destruct D1 as [u D1], D2 as [v D2].
      destruct A1 as [a b0 c d e f g h k]. cbn [mget] in *. subst b0 c d g.
      unfold first_finalize. cbn [mget]. rewrite !quot_exact_neg by auto.
      unfold blk. mat. repeat split; lia.
  - inversion H; subst. split; auto. discriminate.
Qed.

(** ** Second step *)
Lemma set_zero12 : forall a b r s t A a' b', r <> 0 -> a = a' * r -> b = b' * r ->
  mulMM (set_zero 1 2 a b r s t) A =
  mulMM (m3 1 0 0 0 s t 0 (- b') a') A.
Proof.
  intros. unfold set_zero. cbn [mset I3]. subst. now rewrite quot_exact, quot_exact_neg.
Qed.

Lemma second_column_spec : forall F A P AP', blk A -> det A <> 0 ->
  second_column F (A, P) = Some AP' ->
  colrel (A, P) AP' /\ blk (fst AP') /\ mget (fst AP') 2 1 = 0 /\ mget (fst AP') 1 1 <> 0 /\
  mget (fst AP') 0 0 = mget A 0 0.
Proof.
  intros F A P AP' HB Hd H. unfold second_column in H. cbn [fst] in H.
  set (AP1 := if (mget A 1 1 =? 0) && negb (mget A 2 1 =? 0)
              then app_l (swap_rows 1 2) (A, P) else (A, P)) in *.
  assert (colrel (A, P) AP1 /\ blk (fst AP1) /\ mget (fst AP1) 1 1 <> 0 /\
          mget (fst AP1) 0 0 = mget A 0 0) as [C1 [B1 [N1 K1]]].
  { unfold AP1. destruct A as [a b c d e f g h k]. destruct HB as [H1 [H2 [H3 [H4 H5]]]].
    cbn [mget] in *. subst b c d g.
    destruct (Z.eqb_spec e 0) as [Ee|Ee]; cbn [andb].
    - destruct (Z.eqb_spec h 0) as [Eh|Eh]; cbn [negb].
      + exfalso. subst. apply Hd. mat. ring.
      + split; [apply colrel_app; right; reflexivity|].
        unfold blk. mat. repeat split; lia.
    - split; [apply colrel_refl|]. unfold blk. cbn. repeat split; auto. }
  destruct AP1 as [A1 P1]. cbn [fst] in *.
  destruct (Z.eqb_spec (mget A1 2 1) 0) as [E|E]; cbn [negb] in H.
  - inversion H; subst. cbn [fst]. auto.
  - destruct (extended_gcd F (mget A1 1 1) (mget A1 2 1)) as [[[r s] t]|] eqn:EG; [|discriminate].
    apply egcd_spec in EG; auto. destruct EG as [Er [[a' Ha] [[b' Hb] [Hr Hpos]]]].
    inversion H; subst AP'; clear H.
    assert (s * a' + t * b' = 1) as Hst by (apply (Z.mul_reg_r _ _ r); auto; lia).
    unfold app_l. cbn [fst snd].
    rewrite !(set_zero12 _ _ r s t _ a' b' Hr Ha Hb).
    split.
    + eapply colrel_trans; [exact C1|]. exists (m3 1 0 0 0 s t 0 (- b') a').
      repeat split; auto. left. mat. lia.
    + destruct A1 as [a b c d e f g h k]. destruct B1 as [H1 [H2 [H3 [H4 H5]]]].
      cbn [mget fst] in *. subst b c d g. unfold blk. mat. repeat split; try lia.
Qed.

Lemma blk_transp : forall A, blk A -> blk (transp A).
Proof. intros [] [H1 [H2 [H3 [H4 H5]]]]. cbn in *. unfold blk. cbn. auto. Qed.

Lemma second_one_loop_spec : forall F A P Q A' P' Q', blk A -> det A <> 0 ->
  one_loop (second_column F) (st A P Q) = Some (st A' P' Q') ->
  strel (st A P Q) (st A' P' Q') /\ blk A' /\ mget A' 1 2 = 0 /\ mget A' 1 1 <> 0.
Proof.
  intros F A P Q A' P' Q' HB Hd H. unfold one_loop in H.
  destruct (second_column F (A, P)) as [[A1 P1]|] eqn:E1; [|discriminate].
  destruct (second_column F (transp A1, Q)) as [[A2 Q2]|] eqn:E2; [|discriminate].
  inversion H; subst A' P' Q'; clear H.
  apply second_column_spec in E1; auto. destruct E1 as [C1 [B1 [Z1 N1]]]. cbn [fst] in *.
  pose proof (det_colrel _ _ C1 Hd) as Hd1. cbn [fst] in Hd1.
  apply second_column_spec in E2; [|now apply blk_transp|rewrite det_transp; auto].
  destruct E2 as [C2 [B2 [Z2 [N2 _]]]]. cbn [fst] in *. split.
  - destruct C1 as [U [HU [EA EP]]], C2 as [V [HV [EA2 EQ]]]. cbn [fst snd] in *.
    exists U, V. repeat split; auto. rewrite EA2, transp_mulMM, transp_transp, EA. reflexivity.
  - split; [now apply blk_transp|]. destruct A2. cbn in *. auto.
Qed.

Definition is_diag (A : M3) : Prop :=
  mget A 0 1 = 0 /\ mget A 0 2 = 0 /\ mget A 1 0 = 0 /\ mget A 1 2 = 0 /\
  mget A 2 0 = 0 /\ mget A 2 1 = 0.

Lemma second_spec : forall F s b s', (let '(st A _ _) := s in blk A /\ det A <> 0) ->
  second F s = Some (b, s') ->
  strel s s' /\ (let '(st A' _ _) := s' in blk A' /\ (b = true -> is_diag A')).
Proof.
  intros F [A P Q] b s' [HB Hd] H. unfold second in H.
  destruct (one_loop (second_column F) (st A P Q)) as [[A1 P1 Q1]|] eqn:E; [|discriminate].
  apply second_one_loop_spec in E; auto. destruct E as [R1 [B1 [Z1 N1]]].
  destruct (Z.eqb_spec (mget A1 2 1) 0) as [E0|E0].
  { inversion H; subst. split; auto. split; auto. intros _. unfold blk, is_diag in *. tauto. }
  destruct (Z.eqb_spec (Z.rem (mget A1 2 1) (mget A1 1 1)) 0) as [E1|E1].
  - assert (unimod (second_finalize A1)) as HL by (left; unfold second_finalize; mat; ring).
    cbv zeta in H. apply some_pair_inj in H; destruct H as [<- <-]. apply Z.rem_divide in E1; auto. destruct E1 as [u D1]. split.
    + eapply strel_trans; [exact R1|]. exact (strel_l _ A1 P1 Q1 HL).
    + destruct A1 as [a b0 c d e f g h k]. destruct B1 as [H1 [H2 [H3 [H4 H5]]]].
      cbn [mget] in *. subst b0 c d g f h. unfold second_finalize. cbn [mget].
      rewrite !quot_exact_neg by auto. unfold blk, is_diag. mat. repeat split; lia.
  - inversion H; subst. split; auto. split; auto. discriminate.
Qed.

(** ** Finalization *)
Definition dg (a b c : Z) : M3 := m3 a 0 0 0 b 0 0 0 c.
Lemma is_diag_dg : forall A, is_diag A -> A = dg (mget A 0 0) (mget A 1 1) (mget A 2 2).
Proof. intros [] [H1 [H2 [H3 [H4 [H5 H6]]]]]. cbn in *. subst. reflexivity. Qed.

Lemma flip_rel : forall A P Q i, (i = 0 \/ i = 1 \/ i = 2) -> strel (st A P Q) (flip_if_neg (st A P Q) i).
Proof.
  intros A P Q i Hi. unfold flip_if_neg. destruct (mget A i i <? 0); [|apply strel_refl].
  apply strel_l. right. destruct Hi as [->|[->| ->]]; reflexivity.
Qed.

Lemma make_positive_spec : forall a b c P Q, a <> 0 -> b <> 0 -> c <> 0 ->
  exists a' b' c' P' Q', make_diagA_positive (st (dg a b c) P Q) = st (dg a' b' c') P' Q' /\
    strel (st (dg a b c) P Q) (st (dg a' b' c') P' Q') /\ 0 < a' /\ 0 < b' /\ 0 < c'.
Proof.
  intros a b c P Q Ha Hb Hc. unfold make_diagA_positive.
  pose proof (flip_rel (dg a b c) P Q 0 ltac:(auto)) as R0.
  assert (exists P0, flip_if_neg (st (dg a b c) P Q) 0 = st (dg (Z.abs a) b c) P0 Q) as [P0 E0].
  { unfold flip_if_neg. cbn [mget dg]. destruct (Z.ltb_spec a 0).
    - eexists. f_equal. mat. unfold dg. f_equal; lia.
    - eexists. f_equal. unfold dg. f_equal; lia. }
  rewrite E0 in *.
  pose proof (flip_rel (dg (Z.abs a) b c) P0 Q 1 ltac:(auto)) as R1.
  assert (exists P1, flip_if_neg (st (dg (Z.abs a) b c) P0 Q) 1 = st (dg (Z.abs a) (Z.abs b) c) P1 Q) as [P1 E1].
  { unfold flip_if_neg. cbn [mget dg]. destruct (Z.ltb_spec b 0).
    - eexists. f_equal. mat. unfold dg. f_equal; lia.
    - eexists. f_equal. unfold dg. f_equal; lia. }
  rewrite E1 in *.
  pose proof (flip_rel (dg (Z.abs a) (Z.abs b) c) P1 Q 2 ltac:(auto)) as R2.
  assert (exists P2, flip_if_neg (st (dg (Z.abs a) (Z.abs b) c) P1 Q) 2 = st (dg (Z.abs a) (Z.abs b) (Z.abs c)) P2 Q) as [P2 E2].
  { unfold flip_if_neg. cbn [mget dg]. destruct (Z.ltb_spec c 0).
    - eexists. f_equal. mat. unfold dg. f_equal; lia.
    - eexists. f_equal. unfold dg. f_equal; lia. }
  rewrite E2 in *. do 5 eexists. split; [reflexivity|]. split.
  - eapply strel_trans; [eapply strel_trans|]; eassumption.
  - lia.
Qed.

Lemma swap_rel : forall A P Q i j, (i, j) = (0, 1) \/ (i, j) = (1, 2) ->
  strel (st A P Q) (swap_diag_elems (st A P Q) i j).
Proof.
  intros A P Q i j Hij. unfold swap_diag_elems. exists (swap_rows i j), (swap_rows i j).
  assert (unimod (swap_rows i j)) by (destruct Hij as [H|H]; inversion H; subst; right; reflexivity).
  repeat split; auto. rewrite transp_mulMM, transp_transp. reflexivity.
Qed.

Lemma sort_spec : forall a b c P Q,
  exists a' b' c' P' Q', finalize_sort (st (dg a b c) P Q) = st (dg a' b' c') P' Q' /\
    strel (st (dg a b c) P Q) (st (dg a' b' c') P' Q') /\ a' <= b' <= c' /\
    a' = Z.min a (Z.min b c) /\ c' = Z.max a (Z.max b c) /\ a' + b' + c' = a + b + c.
Proof.
  intros a b c P Q. unfold finalize_sort.
  assert (S01 : forall a b c P Q, exists P' Q',
    swap_if_gt (st (dg a b c) P Q) 0 1 = st (dg (Z.min a b) (Z.max a b) c) P' Q' /\
    strel (st (dg a b c) P Q) (st (dg (Z.min a b) (Z.max a b) c) P' Q')).
  { clear. intros a b c P Q. unfold swap_if_gt. cbn [mget dg].
    destruct (Z.ltb_spec b a).
    - pose proof (swap_rel (dg a b c) P Q 0 1 ltac:(auto)) as R.
      exists (mulMM (swap_rows 0 1) P), (mulMM (swap_rows 0 1) Q).
      assert (swap_diag_elems (st (dg a b c) P Q) 0 1 =
        st (dg (Z.min a b) (Z.max a b) c) (mulMM (swap_rows 0 1) P) (mulMM (swap_rows 0 1) Q)) as E.
      { unfold swap_diag_elems. f_equal. mat. unfold dg. f_equal; lia. }
      unfold dg in *. rewrite E in R. auto.
    - exists P, Q. assert (dg a b c = dg (Z.min a b) (Z.max a b) c) as <- by (unfold dg; f_equal; lia).
      split; [reflexivity|apply strel_refl]. }
  assert (S12 : forall a b c P Q, exists P' Q',
    swap_if_gt (st (dg a b c) P Q) 1 2 = st (dg a (Z.min b c) (Z.max b c)) P' Q' /\
    strel (st (dg a b c) P Q) (st (dg a (Z.min b c) (Z.max b c)) P' Q')).
  { clear. intros a b c P Q. unfold swap_if_gt. cbn [mget dg].
    destruct (Z.ltb_spec c b).
    - pose proof (swap_rel (dg a b c) P Q 1 2 ltac:(auto)) as R.
      exists (mulMM (swap_rows 1 2) P), (mulMM (swap_rows 1 2) Q).
      assert (swap_diag_elems (st (dg a b c) P Q) 1 2 =
        st (dg a (Z.min b c) (Z.max b c)) (mulMM (swap_rows 1 2) P) (mulMM (swap_rows 1 2) Q)) as E.
      { unfold swap_diag_elems. f_equal. mat. unfold dg. f_equal; lia. }
      unfold dg in *. rewrite E in R. auto.
    - exists P, Q. assert (dg a b c = dg a (Z.min b c) (Z.max b c)) as <- by (unfold dg; f_equal; lia).
      split; [reflexivity|apply strel_refl]. }
  destruct (S01 a b c P Q) as [P1 [Q1 [E1 R1]]]. rewrite E1.
  destruct (S12 (Z.min a b) (Z.max a b) c P1 Q1) as [P2 [Q2 [E2 R2]]]. rewrite E2.
  destruct (S01 (Z.min a b) (Z.min (Z.max a b) c) (Z.max (Z.max a b) c) P2 Q2) as [P3 [Q3 [E3 R3]]].
  rewrite E3. do 5 eexists. split; [reflexivity|]. split.
  - eapply strel_trans; [eapply strel_trans|]; eassumption.
  - lia.
Qed.

Lemma gcd_from_bezout : forall a b r s t, 0 < r -> r = s * a + t * b -> (r | a) -> (r | b) ->
  r = Z.gcd a b.
Proof.
  intros a b r s t Hr E Ha Hb. symmetry. apply Z.gcd_unique; try lia; auto.
  intros q Hqa Hqb. rewrite E. apply Z.divide_add_r; now apply Z.divide_mul_r.
Qed.

Lemma second_gcd_not_trivial : forall a b g s t, 0 < a -> a <= b -> 0 < g -> g = s * a + t * b ->
  (g | a) -> (g | b) -> ~ (a | b) -> t * b <> 0 -> g < Z.abs (t * b) /\ (g | t * b).
Proof.
  intros a b g s t Ha Hab Hg E Hga Hgb Hn Ht. split.
  - destruct (Z_lt_le_dec g (Z.abs (t * b))) as [|Hle]; auto. exfalso.
    assert (g <= b) by (apply Z.divide_pos_le; auto; lia).
    assert (Z.abs t >= 1) by nia.
    assert (b = g).
    { assert (Z.abs (t * b) = Z.abs t * b) as Eab by (rewrite Z.abs_mul; f_equal; lia). nia. }
    subst g. apply Z.divide_pos_le in Hga as Hle2; [|lia].
    assert (a = b) by lia. subst. apply Hn. apply Z.divide_refl.
  - now apply Z.divide_mul_r.
Qed.

(** The diagonal after disturb + first: (gcd, lcm). *)
Lemma disturb_first_spec : forall F a b c P Q o s', 0 < a -> a <= b -> 0 < c ->
  first F (finalize_disturb (st (dg a b c) P Q) 0 1) = Some (o, s') ->
  exists P' Q', s' = st (dg (Z.gcd a b) (a * b / Z.gcd a b) c) P' Q' /\
    strel (st (dg a b c) P Q) s'.
Proof.
  intros F a b c P Q o s' Ha Hab Hc H.
  assert (strel (st (dg a b c) P Q) (finalize_disturb (st (dg a b c) P Q) 0 1)) as R0.
  { unfold finalize_disturb. destruct (negb _); [|apply strel_refl].
    exists I3, (disturb_rows 0 1). split; [apply unimod_I3|]. split; [left; reflexivity|].
    split; [|split; [now rewrite mulMM_1_l|reflexivity]].
    rewrite transp_mulMM, transp_transp. now rewrite mulMM_1_l. }
  assert (det (dg a b c) <> 0) as Hd.
  { assert (det (dg a b c) = a * b * c) as -> by (mat; ring). assert (0 < a * b) by nia. nia. }
  assert (strel (st (dg a b c) P Q) s') as R.
  { eapply strel_trans; [exact R0|].
    destruct (finalize_disturb (st (dg a b c) P Q) 0 1) as [A1 P1 Q1] eqn:E.
    apply strel_det in R0. apply first_spec in H; [tauto|]. lia. }
  unfold finalize_disturb in H. cbn [mget dg] in H.
  destruct (Z.eqb_spec (Z.rem b a) 0) as [Er|Er]; cbn [negb] in H.
  - (* undisturbed: first does nothing *)
    unfold first, one_loop, first_column, search_first_pivot, zero_first in H.
    cbn [mget dg fst snd transp] in H.
    destruct (Z.eqb_spec a 0); [lia|]. cbn in H. 
    destruct (Z.eqb_spec a 0); [lia|]. cbn in H.
    inversion H; subst s'; clear H.
    apply Z.rem_divide in Er; [|lia]. destruct Er as [k Ek].
    assert (Z.gcd a b = a) as Eg.
    { apply Z.gcd_unique; try lia; auto using Z.divide_refl. exists k; lia. }
    exists P, Q. split; auto. rewrite Eg.
    assert (a * b / a = b) as -> by (rewrite Z.mul_comm; apply Z.div_mul; lia). reflexivity.
  - assert (~ (a | b)) as Hnd. { intros Hx. apply Er. apply Z.rem_divide; [lia|auto]. }
    change (transp (dg a b c)) with (dg a b c) in H.
    assert (transp (mulMM (disturb_rows 0 1) (dg a b c)) = m3 a 0 0 b b 0 0 0 c) as EA.
    { mat. f_equal; ring. }
    change (m3 a 0 0 0 b 0 0 0 c) with (dg a b c) in H. 
    change (transp (dg a b c)) with (dg a b c) in H.
    rewrite EA in H. clear EA.
    unfold first, one_loop in H.
    (* first column pass *)
    unfold first_column at 1 in H. unfold search_first_pivot in H. cbn [mget fst] in H.
    destruct (Z.eqb_spec a 0); [lia|]. cbn [negb Z.ltb Z.compare] in H.
    unfold zero_first at 1 in H. cbn [mget fst] in H.
    destruct (Z.eqb_spec b 0); [lia|]. cbn [negb] in H.
    destruct (extended_gcd F a b) as [[[g s] t]|] eqn:EG; [|discriminate].
    apply egcd_spec in EG; [|lia]. destruct EG as [Eg [Hga [Hgb [Hg0 Hgp]]]].
    assert (0 < g) as Hg by (apply Hgp; lia).
    pose proof (gcd_from_bezout a b g s t Hg Eg Hga Hgb) as Egcd.
    pose proof Hga as [a' Ha']. pose proof Hgb as [b' Hb'].
    assert (app_l (set_zero 0 1 a b g s t) (m3 a 0 0 b b 0 0 0 c, P) =
            (m3 g (t * b) 0 0 (a' * b) 0 0 0 c, mulMM (set_zero 0 1 a b g s t) P)) as EA.
    { unfold app_l, set_zero. cbn [fst snd mset I3]. f_equal.
      assert (Z.quot a g = a') as -> by (rewrite Ha'; apply quot_exact; auto).
      assert (Z.quot (- b) g = - b') as -> by (rewrite Hb'; apply quot_exact_neg; auto).
      mat. f_equal; try ring; try lia. }
    rewrite EA in H. clear EA.
    unfold zero_first at 1 in H. cbn [mget fst Z.eqb negb] in H.
    cbn [transp] in H.
    (* second pass, on the transpose *)
    unfold first_column in H. unfold search_first_pivot in H. cbn [mget fst] in H.
    destruct (Z.eqb_spec g 0); [lia|]. cbn [negb Z.ltb Z.compare] in H.
    unfold zero_first at 1 in H. cbn [mget fst] in H.
    assert (a' * b = a * b / Z.gcd a b) as Elcm.
    { rewrite <- Egcd. replace (a * b) with (a' * b * g) by (rewrite Ha'; ring).
      now rewrite Z.div_mul. }
    destruct (Z.eqb_spec (t * b) 0) as [Et|Et]; cbn [negb] in H.
    + unfold zero_first in H. cbn [mget fst Z.eqb negb transp] in H. rewrite Et in H.
      cbn [transp mget Z.eqb andb] in H. apply some_pair_inj in H. destruct H as [_ <-].
      rewrite <- Elcm, <- Egcd. do 2 eexists. split; [reflexivity|exact R].
    + destruct (second_gcd_not_trivial a b g s t Ha Hab Hg Eg Hga Hgb Hnd Et) as [Hlt Hdv].
      destruct (extended_gcd F g (t * b)) as [[[r2 s2] t2]|] eqn:EG2; [|discriminate].
      apply egcd_multiple in EG2; auto. destruct EG2 as [-> [-> ->]].
      destruct Hdv as [k Hk].
      unfold app_l, set_zero in H. cbn [fst snd mset I3] in H.
      rewrite Hk in H. rewrite quot_exact_neg, Z.quot_same in H by auto.
      cbn -[Z.mul Z.add Z.opp Z.eqb Z.quot Z.rem mulMM andb zero_first] in H.
      match type of H with context [zero_first F 2 (mulMM ?L ?X, ?Y)] =>
        assert (mulMM L X = m3 g 0 0 0 (a' * b) 0 0 0 c) as EL
      end.
      { mat. f_equal; ring. }
      rewrite EL in H. clear EL.
      unfold zero_first in H. cbn [mget fst Z.eqb negb transp andb] in H.
      apply some_pair_inj in H. destruct H as [_ <-].
      rewrite <- Elcm, <- Egcd. do 2 eexists. split; [reflexivity|exact R].
Qed.

Lemma disturb_second_spec : forall F a b c P Q o s', 0 < a -> a <= b -> 0 < c ->
  second F (finalize_disturb (st (dg c a b) P Q) 1 2) = Some (o, s') ->
  exists P' Q', s' = st (dg c (Z.gcd a b) (a * b / Z.gcd a b)) P' Q' /\
    strel (st (dg c a b) P Q) s'.
Proof.
  intros F a b c P Q o s' Ha Hab Hc H.
  assert (strel (st (dg c a b) P Q) (finalize_disturb (st (dg c a b) P Q) 1 2)) as R0.
  { unfold finalize_disturb. destruct (negb _); [|apply strel_refl].
    exists I3, (disturb_rows 1 2). split; [apply unimod_I3|]. split; [left; reflexivity|].
    split; [|split; [now rewrite mulMM_1_l|reflexivity]].
    rewrite transp_mulMM, transp_transp. now rewrite mulMM_1_l. }
  assert (det (dg c a b) <> 0) as Hd.
  { assert (det (dg c a b) = a * b * c) as -> by (mat; ring). assert (0 < a * b) by nia. nia. }
  assert (strel (st (dg c a b) P Q) s') as R.
  { eapply strel_trans; [exact R0|].
    pose proof R0 as R0'.
    unfold finalize_disturb in R0, R0', H |- *. cbn [mget dg] in R0, R0', H |- *.
    destruct (negb (Z.rem b a =? 0)).
    - apply strel_det in R0. apply second_spec in H; [tauto|]. split; [|lia].
      unfold blk. mat. repeat split; lia.
    - apply second_spec in H; [tauto|]. split; [|auto]. unfold blk. cbn. repeat split; lia. }
  unfold finalize_disturb in H. cbn [mget dg] in H.
  destruct (Z.eqb_spec (Z.rem b a) 0) as [Er|Er]; cbn [negb] in H.
  - unfold second, one_loop, second_column in H.
    cbn [mget dg fst snd transp] in H.
    destruct (Z.eqb_spec a 0); [lia|]. cbn in H.
    destruct (Z.eqb_spec a 0); [lia|]. cbn in H.
    inversion H; subst s'; clear H.
    apply Z.rem_divide in Er; [|lia]. destruct Er as [k Ek].
    assert (Z.gcd a b = a) as Eg.
    { apply Z.gcd_unique; try lia; auto using Z.divide_refl. exists k; lia. }
    exists P, Q. split; auto. rewrite Eg.
    assert (a * b / a = b) as -> by (rewrite Z.mul_comm; apply Z.div_mul; lia). reflexivity.
  - assert (~ (a | b)) as Hnd. { intros Hx. apply Er. apply Z.rem_divide; [lia|auto]. }
    change (m3 c 0 0 0 a 0 0 0 b) with (dg c a b) in H.
    change (transp (dg c a b)) with (dg c a b) in H.
    assert (transp (mulMM (disturb_rows 1 2) (dg c a b)) = m3 c 0 0 0 a 0 0 b b) as EA.
    { mat. f_equal; ring. }
    rewrite EA in H. clear EA.
    unfold second, one_loop in H.
    unfold second_column at 1 in H. cbn [mget fst] in H.
    destruct (Z.eqb_spec a 0); [lia|]. cbn [negb andb fst mget] in H.
    destruct (Z.eqb_spec b 0); [lia|]. cbn [negb] in H.
    destruct (extended_gcd F a b) as [[[g s] t]|] eqn:EG; [|discriminate].
    apply egcd_spec in EG; [|lia]. destruct EG as [Eg [Hga [Hgb [Hg0 Hgp]]]].
    assert (0 < g) as Hg by (apply Hgp; lia).
    pose proof (gcd_from_bezout a b g s t Hg Eg Hga Hgb) as Egcd.
    pose proof Hga as [a' Ha']. pose proof Hgb as [b' Hb'].
    assert (app_l (set_zero 1 2 a b g s t) (m3 c 0 0 0 a 0 0 b b, P) =
            (m3 c 0 0 0 g (t * b) 0 0 (a' * b), mulMM (set_zero 1 2 a b g s t) P)) as EA.
    { unfold app_l, set_zero. cbn [fst snd mset I3]. f_equal.
      assert (Z.quot a g = a') as -> by (rewrite Ha'; apply quot_exact; auto).
      assert (Z.quot (- b) g = - b') as -> by (rewrite Hb'; apply quot_exact_neg; auto).
      mat. f_equal; try ring; try lia. }
    rewrite EA in H. clear EA. cbn [transp] in H.
    unfold second_column in H. cbn [mget fst] in H.
    destruct (Z.eqb_spec g 0); [lia|]. cbn [negb andb fst mget] in H.
    assert (a' * b = a * b / Z.gcd a b) as Elcm.
    { rewrite <- Egcd. replace (a * b) with (a' * b * g) by (rewrite Ha'; ring).
      now rewrite Z.div_mul. }
    destruct (Z.eqb_spec (t * b) 0) as [Et|Et]; cbn [negb] in H.
    + rewrite Et in H. cbn [transp mget Z.eqb andb] in H.
      apply some_pair_inj in H. destruct H as [_ <-].
      rewrite <- Elcm, <- Egcd. do 2 eexists. split; [reflexivity|exact R].
    + destruct (second_gcd_not_trivial a b g s t Ha Hab Hg Eg Hga Hgb Hnd Et) as [Hlt Hdv].
      destruct (extended_gcd F g (t * b)) as [[[r2 s2] t2]|] eqn:EG2; [|discriminate].
      apply egcd_multiple in EG2; auto. destruct EG2 as [-> [-> ->]].
      destruct Hdv as [k Hk].
      assert (app_l (set_zero 1 2 g (t * b) g 1 0) (m3 c 0 0 0 g 0 0 (t * b) (a' * b), mulMM (disturb_rows 1 2) Q) =
              (m3 c 0 0 0 g 0 0 0 (a' * b), mulMM (set_zero 1 2 g (t * b) g 1 0) (mulMM (disturb_rows 1 2) Q))) as EA.
      { unfold app_l, set_zero. cbn [fst snd mset I3]. f_equal.
        rewrite Hk, quot_exact_neg, Z.quot_same by auto. mat. f_equal; ring. }
      rewrite EA in H. clear EA. cbn [transp mget Z.eqb] in H.
      apply some_pair_inj in H. destruct H as [_ <-].
      rewrite <- Elcm, <- Egcd. do 2 eexists. split; [reflexivity|exact R].
Qed.

Definition lcm' (a b : Z) : Z := a * b / Z.gcd a b.
Lemma lcm'_facts : forall a b, 0 < a -> 0 < b ->
  0 < Z.gcd a b /\ Z.gcd a b <= a /\ Z.gcd a b <= b /\
  0 < lcm' a b /\ a <= lcm' a b /\ b <= lcm' a b /\ (a | lcm' a b) /\ (b | lcm' a b) /\
  Z.gcd a b * lcm' a b = a * b.
Proof.
  intros a b Ha Hb. unfold lcm'.
  assert (0 < Z.gcd a b) as Hg.
  { pose proof (Z.gcd_nonneg a b). assert (Z.gcd a b <> 0); [|lia].
    intros E. apply Z.gcd_eq_0_l in E. lia. }
  destruct (Z.gcd_divide_l a b) as [a' Ea]. destruct (Z.gcd_divide_r a b) as [b' Eb].
  set (g := Z.gcd a b) in *.
  assert (a * b / g = a' * b) as E1.
  { replace (a * b) with (a' * b * g) by (rewrite Ea; ring). apply Z.div_mul; lia. }
  assert (a' * b = a * b') as E2 by (rewrite Ea, Eb; ring).
  rewrite E1.
  assert (0 < a') by nia. assert (0 < b') by nia.
  repeat split; try nia.
  - rewrite E2. exists b'. ring.
  - exists a'. ring.
Qed.

Lemma finalize_spec : forall F A P Q s', is_diag A ->
  mget A 0 0 <> 0 -> mget A 1 1 <> 0 -> mget A 2 2 <> 0 ->
  finalize F (st A P Q) = Some s' ->
  exists a b c P' Q', 0 < a /\ a <= b /\ b <= c /\
    let g := Z.gcd a b in
    let l := Z.min (lcm' a b) c in
    let m := Z.max (lcm' a b) c in
    s' = st (dg g (Z.gcd l m) (lcm' l m)) P' Q' /\ strel (st A P Q) s' /\ 0 <= det P'.
Proof.
  intros F A P Q s' HD N0 N1 N2 H. unfold finalize in H. cbv zeta in H.
  rewrite (is_diag_dg A HD) in *.
  set (a0 := mget A 0 0) in *. set (b0 := mget A 1 1) in *. set (c0 := mget A 2 2) in *. clearbody a0 b0 c0.
  destruct (make_positive_spec a0 b0 c0 P Q N0 N1 N2) as [a1 [b1 [c1 [P1 [Q1 [E1 [R1 [Hp1 [Hp2 Hp3]]]]]]]]].
  rewrite E1 in H.
  destruct (sort_spec a1 b1 c1 P1 Q1) as [a [b [c [P2 [Q2 [E2 [R2 [Hs [Hmin [Hmax Hsum]]]]]]]]]].
  rewrite E2 in H.
  destruct (first F (finalize_disturb (st (dg a b c) P2 Q2) 0 1)) as [[o s2]|] eqn:E3; [|discriminate].
  apply disturb_first_spec in E3; try lia. destruct E3 as [P3 [Q3 [-> R3]]].
  fold (lcm' a b) in *.
  destruct (lcm'_facts a b ltac:(lia) ltac:(lia)) as [G1 [G2 [G3 [G4 [G5 [G6 [G7 [G8 G9]]]]]]]].
  destruct (sort_spec (Z.gcd a b) (lcm' a b) c P3 Q3) as [x [y [z [P4 [Q4 [E4 [R4 [Hs4 [Hmin4 [Hmax4 Hsum4]]]]]]]]]].
  assert (x = Z.gcd a b) as Ex by lia.
  assert (z = Z.max (lcm' a b) c) as Ez by lia.
  assert (y = Z.min (lcm' a b) c) as Ey by lia.
  clear Hs4 Hmin4 Hmax4 Hsum4. subst x y z.
  rewrite E4 in H.
  destruct (second F (finalize_disturb (st (dg (Z.gcd a b) (Z.min (lcm' a b) c) (Z.max (lcm' a b) c)) P4 Q4) 1 2))
    as [[o2 s3]|] eqn:E5; [|discriminate].
  apply disturb_second_spec in E5; try lia. destruct E5 as [P5 [Q5 [-> R5]]].
  fold (lcm' (Z.min (lcm' a b) c) (Z.max (lcm' a b) c)) in *.
  assert (Hrel : strel (st (dg a0 b0 c0) P Q)
    (st (dg (Z.gcd a b) (Z.gcd (Z.min (lcm' a b) c) (Z.max (lcm' a b) c))
            (lcm' (Z.min (lcm' a b) c) (Z.max (lcm' a b) c))) P5 Q5)).
  { eapply strel_trans; [exact R1|]. eapply strel_trans; [exact R2|].
    eapply strel_trans; [exact R3|]. eapply strel_trans; [exact R4|]. exact R5. }
  exists a, b, c. unfold flip_PQ in H. destruct (Z.ltb_spec (det P5) 0) as [Hdp|Hdp]; inversion H; subst s'; clear H.
  - exists (mneg P5), (mneg Q5). split; [lia|]. split; [lia|]. split; [lia|].
    split; [reflexivity|].
    assert (det (mneg P5) = - det P5) as Edp by (destruct P5; mat; ring).
    split; [|lia].
    destruct Hrel as [U [V [HU [HV [K1 [K2 K3]]]]]]. exists (mneg U), (mneg V).
    repeat split; auto using unimod_mneg.
    + rewrite K1. destruct U, V. mat. f_equal; ring.
    + rewrite K2. destruct U, P. mat. f_equal; ring.
    + rewrite K3. destruct V, Q. mat. f_equal; ring.
  - exists P5, Q5. split; [lia|]. split; [lia|]. split; [lia|]. split; [reflexivity|].
    split; [exact Hrel|lia].
Qed.

Definition nonsing (s : St) : Prop := let '(st A _ _) := s in det A <> 0.

Lemma strel_nonsing : forall s s', strel s s' -> nonsing s -> nonsing s'.
Proof. intros [A P Q] [A' P' Q'] R H. apply strel_det in R. cbn in *. lia. Qed.

(** Final diagonal of a successful run, in terms of some sorted positive triple. *)
Definition final_diag (a b c : Z) : M3 :=
  let l := Z.min (lcm' a b) c in
  let m := Z.max (lcm' a b) c in
  dg (Z.gcd a b) (Z.gcd l m) (lcm' l m).

Lemma snf_loop_spec : forall F n s D P Q, nonsing s ->
  snf_loop F n s = Some (st D P Q) ->
  exists a b c, 0 < a /\ a <= b /\ b <= c /\ D = final_diag a b c /\
    strel s (st D P (transp Q)) /\ 0 <= det P.
Proof.
  induction n as [|n IH]; intros s D P Q Hns H; [discriminate|]. cbn [snf_loop] in H.
  destruct (first F s) as [[o1 s1]|] eqn:E1; [|discriminate].
  apply first_spec in E1; [|destruct s; exact Hns]. destruct E1 as [R1 B1].
  pose proof (strel_nonsing _ _ R1 Hns) as N1.
  destruct o1.
  2:{ apply IH in H; auto. destruct H as [a [b [c [H1 [H2 [H3 [H4 [H5 H6]]]]]]]].
      exists a, b, c. repeat split; auto. eapply strel_trans; eassumption. }
  specialize (B1 eq_refl).
  destruct (second F s1) as [[o2 s2]|] eqn:E2; [|discriminate].
  apply second_spec in E2; [|destruct s1; split; auto]. destruct E2 as [R2 B2].
  pose proof (strel_nonsing _ _ R2 N1) as N2.
  pose proof (strel_trans _ _ _ R1 R2) as R12.
  destruct o2.
  2:{ apply IH in H; auto. destruct H as [a [b [c [H1 [H2 [H3 [H4 [H5 H6]]]]]]]].
      exists a, b, c. repeat split; auto. eapply strel_trans; eassumption. }
  destruct (finalize F s2) as [[A3 P3 Q3]|] eqn:E3; [|discriminate].
  destruct s2 as [A2 P2 Q2]. destruct B2 as [B2 Hdg]. specialize (Hdg eq_refl).
  assert (mget A2 0 0 * mget A2 1 1 * mget A2 2 2 <> 0) as Hprod.
  { cbn in N2. rewrite (is_diag_dg A2 Hdg) in N2. 
    replace (mget A2 0 0 * mget A2 1 1 * mget A2 2 2)
      with (det (dg (mget A2 0 0) (mget A2 1 1) (mget A2 2 2))); auto. mat. ring. }
  apply finalize_spec in E3; auto; try (intros E0; apply Hprod; rewrite E0; ring).
  destruct E3 as [a [b [c [P' [Q' [H1 [H2 [H3 [H4 [H5 H6]]]]]]]]]].
  inversion H4; subst A3 P3 Q3; clear H4. inversion H; subst D P Q; clear H.
  exists a, b, c. repeat split; auto. rewrite transp_transp.
  eapply strel_trans; eassumption.
Qed.
