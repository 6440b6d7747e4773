(** C95: the Niggli steps do not make the basis longer. *)
From Coq Require Import ZArith QArith Qabs Qfield List Bool Lia Lqa.
From Verif Require Import Base Mat3 QMat NigModel NigProps.
Import ListNotations.
Open Scope Z_scope.

(** sum of the squared lengths of the basis vectors *)
Definition squares (L : QM) : Q := (sA L + sB L + sC L)%Q.

Lemma qgt_iff : forall a b, qgt a b = true <-> (b < a)%Q.
Proof. intros a b. unfold qgt, qltb. rewrite negb_true_iff. split; intros H; [apply Qnot_le_lt; intros G; apply Qle_bool_iff in G; congruence|]. destruct (Qle_bool a b) eqn:E; [|reflexivity]. apply Qle_bool_iff in E. lra. Qed.
Lemma qltb_iff' : forall a b, qltb a b = true <-> (a < b)%Q.
Proof. intros a b. apply (qgt_iff b a). Qed.
Lemma qgt_no : forall a b, qgt a b = false -> (a <= b)%Q.
Proof. intros a b H. apply Qnot_lt_le. intros G. apply qgt_iff in G. congruence. Qed.
Lemma params : forall eps L, let p := set_parameters eps L in
  (nA p == sA L)%Q /\ (nB p == sB L)%Q /\ (nC p == sC L)%Q /\ (nxi p == sxi L)%Q /\ (neta p == seta L)%Q /\ (nzeta p == szeta L)%Q.
Proof. intros eps []. cbn. unfold sA, sB, sC, sxi, seta, szeta. cbn. repeat split; ring. Qed.
(** a step of shear: minus the sign *)
Lemma shear_cases : forall x, (shear x = -1 /\ (0 < x)%Q) \/ (shear x = 1 /\ (x < 0)%Q) \/ (shear x = 0 /\ (x == 0)%Q).
Proof.
  intros x. unfold shear. destruct (qgt x 0) eqn:E; [left; split; [reflexivity|apply qgt_iff; exact E]|]. apply qgt_no in E. destruct (qltb x 0) eqn:G; [right; left; split; [reflexivity|apply qltb_iff'; exact G]|].
  right; right. split; [reflexivity|]. assert (~ (x < 0)%Q) by (intros H; apply qltb_iff' in H; congruence). lra.
Qed.
Lemma squares_shear : forall L (s : Z),
  (squares (qmulMM L (qm_of (m3 1 0 0 0 1 s 0 0 1))) == squares L + inject_Z s * sxi L + inject_Z s * inject_Z s * sB L)%Q /\
  (squares (qmulMM L (qm_of (m3 1 0 s 0 1 0 0 0 1))) == squares L + inject_Z s * seta L + inject_Z s * inject_Z s * sA L)%Q /\
  (squares (qmulMM L (qm_of (m3 1 s 0 0 1 0 0 0 1))) == squares L + inject_Z s * szeta L + inject_Z s * inject_Z s * sA L)%Q /\
  (squares (qmulMM L (qm_of (m3 1 0 1 0 1 1 0 0 1))) == squares L + (sxi L + seta L + szeta L + sA L + sB L))%Q.
Proof. intros [] s. unfold squares, sA, sB, sC, sxi, seta, szeta. cbn. unfold qz. repeat split; ring. Qed.
(** each of the steps 5 to 7 and 8 adds at most the tolerance *)
Definition short_step (c : Q) (st : Q -> Nig -> option M3) : Prop :=
  forall eps L t, (0 <= eps)%Q -> st eps (set_parameters eps L) = Some t -> (squares (qmulMM L (qm_of t)) <= squares L + c * eps)%Q.
Lemma shear_short : forall (x b e : Q), (0 <= e)%Q -> (b < Qabs x \/ Qabs (b - x) <= e \/ Qabs (b + x) <= e)%Q ->
  (inject_Z (shear x) * x + inject_Z (shear x) * inject_Z (shear x) * b <= e)%Q.
Proof.
  intros x b e He H. destruct (shear_cases x) as [[-> S]|[[-> S]|[-> S]]]; cbn [inject_Z].
  - change (inject_Z (-1)) with (-1)%Q. assert (b - x <= e)%Q; [|lra]. destruct H as [H|[H|H]]; [rewrite Qabs_pos in H; lra|apply Qabs_Qle_condition in H; lra|apply Qabs_Qle_condition in H; lra].
  - change (inject_Z 1) with 1%Q. assert (b + x <= e)%Q; [|lra]. destruct H as [H|[H|H]]; [rewrite Qabs_neg in H; lra|apply Qabs_Qle_condition in H; lra|apply Qabs_Qle_condition in H; lra].
  - change (inject_Z 0) with 0%Q. lra.
Qed.
Lemma shear_cond : forall x b e (r r' : bool), (0 <= e)%Q ->
  qgt (Qabs x) (b + e) || (negb (qgt (Qabs (b - x)) e) && r) || (negb (qgt (Qabs (b + x)) e) && r') = true ->
  (b < Qabs x \/ Qabs (b - x) <= e \/ Qabs (b + x) <= e)%Q.
Proof.
  intros x b e r r' He H. rewrite !orb_true_iff, !andb_true_iff, !negb_true_iff in H. destruct H as [[H|[H _]]|[H _]].
  - apply qgt_iff in H. left. lra.
  - right; left. apply qgt_no. exact H.
  - right; right. apply qgt_no. exact H.
Qed.
Lemma signs_short : forall L i j k, (i = 1 \/ i = -1) -> (j = 1 \/ j = -1) -> (k = 1 \/ k = -1) -> (squares (qmulMM L (qm_of (m3 i 0 0 0 j 0 0 0 k))) == squares L)%Q.
Proof. intros [] i j k [-> | ->] [-> | ->] [-> | ->]; unfold squares, sA, sB, sC; cbn; unfold qz; ring. Qed.
Lemma steps_short : forall layer st b, In (st, b) (nig_steps layer) -> short_step (if b then 1 else 0)%Q st.
Proof.
  intros layer st b H eps L t He E. destruct (params eps L) as (PA & PB & PC & Px & Pe & Pz). destruct (set_types eps L) as [E1 [E2 E3]].
  pose proof (at3 eps (nxi (set_parameters eps L))) as A1. pose proof (at3 eps (neta (set_parameters eps L))) as A2. pose proof (at3 eps (nzeta (set_parameters eps L))) as A3. rewrite <- E1 in A1. rewrite <- E2 in A2. rewrite <- E3 in A3. clear E1 E2 E3.
  set (p := set_parameters eps L) in *. clearbody p.
  unfold nig_steps in H. cbn [In] in H. repeat (destruct H as [H|H]; [injection H as <- <-|]); try contradiction.
  - unfold step1 in E. destruct (_ || _); [injection E as <-|discriminate]. apply Qle_trans with (squares L); [|lra]. apply Qle_lteq. right. destruct L; unfold squares, sA, sB, sC; cbn; unfold qz; ring.
  - destruct layer; [discriminate|]. unfold step2 in E. destruct (_ || _); [injection E as <-|discriminate]. apply Qle_trans with (squares L); [|lra]. apply Qle_lteq. right. destruct L; unfold squares, sA, sB, sC; cbn; unfold qz; ring.
  - apply Qle_trans with (squares L); [|lra]. apply Qle_lteq. right. unfold step3 in E. destruct A1 as [A1|[A1|A1]], A2 as [A2|[A2|A2]], A3 as [A3|[A3|A3]]; rewrite A1, A2, A3 in E; cbn in E; try discriminate; injection E as <-; apply signs_short; auto.
  - apply Qle_trans with (squares L); [|lra]. apply Qle_lteq. right. unfold step4 in E. destruct A1 as [A1|[A1|A1]], A2 as [A2|[A2|A2]], A3 as [A3|[A3|A3]]; rewrite A1, A2, A3 in E; cbn in E; try discriminate; injection E as <-; apply signs_short; auto.
  - unfold step5 in E. destruct (_ || _) eqn:C; [|discriminate]. injection E as <-. apply shear_cond in C; [|exact He].
    rewrite (proj1 (squares_shear L _)), <- Px, <- PB. pose proof (shear_short _ _ _ He C). lra.
  - unfold step6 in E. destruct (_ || _) eqn:C; [|discriminate]. injection E as <-. apply shear_cond in C; [|exact He].
    rewrite (proj1 (proj2 (squares_shear L _))), <- Pe, <- PA. pose proof (shear_short _ _ _ He C). lra.
  - unfold step7 in E. destruct (_ || _) eqn:C; [|discriminate]. injection E as <-. apply shear_cond in C; [|exact He].
    rewrite (proj1 (proj2 (proj2 (squares_shear L _)))), <- Pz, <- PA. pose proof (shear_short _ _ _ He C). lra.
  - unfold step8 in E. cbv zeta in E. destruct (_ || _) eqn:C; [|discriminate]. injection E as <-.
    rewrite (proj2 (proj2 (proj2 (squares_shear L 0)))), <- Px, <- Pe, <- Pz, <- PA, <- PB.
    apply orb_true_iff in C. rewrite andb_true_iff, negb_true_iff in C. destruct C as [C|[C _]]; [apply qltb_iff' in C; lra|apply qgt_no, Qabs_Qle_condition in C; lra].
Qed.
Lemma pass_short : forall eps steps, (0 <= eps)%Q -> (forall st (b : bool), In (st, b) steps -> short_step (if b then 1 else 0)%Q st) -> forall M,
  exists M', fst (nig_pass eps steps (set_parameters eps M)) = set_parameters eps M' /\ (squares M' <= squares M + eps)%Q /\
             (snd (nig_pass eps steps (set_parameters eps M)) = true -> (squares M' <= squares M)%Q).
Proof.
  intros eps steps He. induction steps as [|[st b] rest IH]; intros Hg M; [exists M; split; [reflexivity|]; split; [lra|intros _; lra]|]. cbn [nig_pass].
  assert (Hr : forall st (b : bool), In (st, b) rest -> short_step (if b then 1 else 0)%Q st) by (intros st' b' H; apply (Hg st' b'); right; exact H).
  destruct (st eps (set_parameters eps M)) as [t|] eqn:E; [|apply (IH Hr)].
  pose proof (Hg st b (or_introl eq_refl) eps M t He E) as S. unfold nig_reset. rewrite nL_set. destruct b.
  - exists (qmulMM M (qm_of t)). split; [reflexivity|]. split; [lra|discriminate].
  - destruct (IH Hr (qmulMM M (qm_of t))) as (M' & E' & S' & K). exists M'. split; [exact E'|]. split; [lra|intros H; specialize (K H); lra].
Qed.
Lemma loop_short : forall eps layer n M, (0 <= eps)%Q ->
  exists M', fst (nig_loop eps layer n (set_parameters eps M)) = set_parameters eps M' /\ (squares M' <= squares M + inject_Z (Z.of_nat n) * eps)%Q.
Proof.
  intros eps layer n M He. revert M. induction n as [|n IH]; intros M; [exists M; split; [reflexivity|change (inject_Z (Z.of_nat 0)) with 0%Q; lra]|]. cbn [nig_loop].
  assert (N : (inject_Z (Z.of_nat (S n)) == inject_Z (Z.of_nat n) + 1)%Q) by (rewrite Nat2Z.inj_succ; unfold Z.succ; rewrite inject_Z_plus; reflexivity).
  assert (P : (0 <= inject_Z (Z.of_nat n))%Q) by (change 0%Q with (inject_Z 0); rewrite <- Zle_Qle; lia).
  destruct (pass_short eps (nig_steps layer) He (steps_short layer) M) as [M1 [E1 [H1 _]]].
  destruct (nig_pass eps (nig_steps layer) (set_parameters eps M)) as [p fin]. cbn [fst] in E1. subst p. destruct fin.
  - exists M1. split; [reflexivity|]. rewrite N. nra.
  - destruct (IH M1) as (M2 & E2 & H2). exists M2. split; [exact E2|]. rewrite N. lra.
Qed.
(** ** C95: whether or not it succeeds, the sum of the squared lengths of the basis vectors does not grow by more than the tolerance in each
    of at most 100 rounds; with tolerance 0 it does not grow *)
Theorem C95_not_longer : forall L eps axis, (0 <= eps)%Q -> (squares (fst (niggli_reduce_periodic L eps axis)) <= squares L + 100 * eps)%Q.
Proof.
  intros L eps axis He. unfold niggli_reduce_periodic.
  assert (K : forall M, (squares M == squares L)%Q -> forall layer, (squares (fst (let '(p, ok) := nig_loop eps layer NIGGLI_MAX_NUM_LOOP (set_parameters eps M) in (nL p, ok))) <= squares L + 100 * eps)%Q).
  { intros M HM layer. destruct (loop_short eps layer NIGGLI_MAX_NUM_LOOP M He) as [M' [E H]]. destruct (nig_loop _ _ _ _) as [p ok]. cbn [fst] in *. subst p. rewrite nL_set. rewrite HM in H. exact H. }
  unfold nig_reset. rewrite nL_set.
  destruct (axis =? 0); [apply K; destruct L; unfold squares, sA, sB, sC; cbn; unfold qz; ring|].
  destruct (axis =? 1); [apply K; destruct L; unfold squares, sA, sB, sC; cbn; unfold qz; ring|].
  destruct (_ || _); [apply K; reflexivity|cbn [fst]; nra].
Qed.
Print Assumptions C95_not_longer.
(** a long cell is made shorter: the rows are x, y, z of the three vectors *)
Example C95_ex_shorter : squares (qm 1 3 0 0 1 0 0 0 1) = 12%Q /\ (squares (fst (niggli_reduce (qm 1 3 0 0 1 0 0 0 1) 0)) == 3)%Q /\ snd (niggli_reduce (qm 1 3 0 0 1 0 0 0 1) 0) = true.
Proof. split; [vm_compute; reflexivity|split; vm_compute; reflexivity]. Qed.
