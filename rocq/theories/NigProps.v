(** Niggli reduction keeps the lattice and, if it reports success, gives a reduced basis (C95) *)
From Coq Require Import ZArith QArith Qabs Qfield List Bool Lia Lqa.
From Verif Require Import Base Mat3 QMat NigModel.
Import ListNotations.
Open Scope Z_scope.

(** ** What a reduced basis is *)
(** squared lengths and doubled scalar products of the basis vectors *)
Definition dot3 (u v : QV) : Q := let '(qv a b c) := u in let '(qv x y z) := v in (a * x + b * y + c * z)%Q.
Definition col (L : QM) (k : Z) : QV :=
  let '(qm a b c d e f g h i) := L in if k =? 0 then qv a d g else if k =? 1 then qv b e h else qv c f i.
Definition sA (L : QM) : Q := dot3 (col L 0) (col L 0).
Definition sB (L : QM) : Q := dot3 (col L 1) (col L 1).
Definition sC (L : QM) : Q := dot3 (col L 2) (col L 2).
Definition sxi (L : QM) : Q := (2 * dot3 (col L 1) (col L 2))%Q.
Definition seta (L : QM) : Q := (2 * dot3 (col L 0) (col L 2))%Q.
Definition szeta (L : QM) : Q := (2 * dot3 (col L 0) (col L 1))%Q.
(** the conditions of International Tables A, 9.2.2, within a tolerance: numbers closer than [eps] count as equal *)
Definition tied (eps x y : Q) : Prop := (Qabs (x - y) <= eps)%Q.
Record niggli_reduced (eps : Q) (ordered : bool) (L : QM) : Prop := {
  nr_AB : (sA L <= sB L + eps)%Q;
  nr_BC : ordered = true -> (sB L <= sC L + eps)%Q;
  nr_tieAB : tied eps (sA L) (sB L) -> (Qabs (sxi L) <= Qabs (seta L) + eps)%Q;
  nr_tieBC : ordered = true -> tied eps (sB L) (sC L) -> (Qabs (seta L) <= Qabs (szeta L) + eps)%Q;
  nr_type : ((eps < sxi L)%Q /\ (eps < seta L)%Q /\ (eps < szeta L)%Q) \/ ((sxi L <= eps)%Q /\ (seta L <= eps)%Q /\ (szeta L <= eps)%Q);
  nr_xi : (Qabs (sxi L) <= sB L + eps)%Q;
  nr_eta : (Qabs (seta L) <= sA L + eps)%Q;
  nr_zeta : (Qabs (szeta L) <= sA L + eps)%Q;
  nr_sum : (- eps <= sxi L + seta L + szeta L + sA L + sB L)%Q;
  nr_xi_B : tied eps (sxi L) (sB L) -> (szeta L <= 2 * seta L + eps)%Q;
  nr_eta_A : tied eps (seta L) (sA L) -> (szeta L <= 2 * sxi L + eps)%Q;
  nr_zeta_A : tied eps (szeta L) (sA L) -> (seta L <= 2 * sxi L + eps)%Q;
  nr_xi_mB : tied eps (sxi L) (- sB L) -> (- eps <= szeta L)%Q;
  nr_eta_mA : tied eps (seta L) (- sA L) -> (- eps <= szeta L)%Q;
  nr_zeta_mA : tied eps (szeta L) (- sA L) -> (- eps <= seta L)%Q;
  nr_sum0 : tied eps (sxi L + seta L + szeta L + sA L + sB L) 0 -> (2 * (sA L + seta L) + szeta L <= eps)%Q }.
(** a basis of the same lattice with the same handedness *)
Definition same_lattice (L L' : QM) : Prop := exists U, det U = 1 /\ qmeq L' (qmulMM L (qm_of U)).

(** ** Same lattice *)
Lemma qmeq_refl : forall m, qmeq m m. Proof. intros []; cbn; repeat split; reflexivity. Qed.
Lemma qmeq_trans : forall a b c, qmeq a b -> qmeq b c -> qmeq a c.
Proof. intros [] [] []; cbn. intuition (etransitivity; eassumption). Qed.
Lemma qmulMM_eq_l : forall a b c, qmeq a b -> qmeq (qmulMM a c) (qmulMM b c).
Proof. intros [] [] []; cbn. intros [E1 [E2 [E3 [E4 [E5 [E6 [E7 [E8 E9]]]]]]]]. rewrite E1, E2, E3, E4, E5, E6, E7, E8, E9. repeat split; reflexivity. Qed.
Lemma qm_of_mul : forall L U V, qmeq (qmulMM (qmulMM L (qm_of U)) (qm_of V)) (qmulMM L (qm_of (mulMM U V))).
Proof. intros [] [] []; cbn -[qz Z.add Z.mul]. rewrite !qz_add, !qz_mul. repeat split; ring. Qed.
Lemma qm_of_1 : forall L, qmeq L (qmulMM L (qm_of I3)).
Proof. intros []; cbn. unfold qz. repeat split; ring. Qed.
Lemma same_refl : forall L, same_lattice L L.
Proof. intros L. exists I3. split; [reflexivity|apply qm_of_1]. Qed.
Lemma same_step : forall L L' t, same_lattice L L' -> det t = 1 -> same_lattice L (qmulMM L' (qm_of t)).
Proof.
  intros L L' t [U [D E]] Dt. exists (mulMM U t). split; [rewrite det_mulMM; lia|].
  eapply qmeq_trans; [apply qmulMM_eq_l, E|apply qm_of_mul].
Qed.

Definition good_step (st : Q -> Nig -> option M3) : Prop :=
  forall eps L t, st eps (set_parameters eps L) = Some t -> det t = 1.
Lemma at3 : forall eps x, angle_type eps x = -1 \/ angle_type eps x = 0 \/ angle_type eps x = 1.
Proof. intros eps x. unfold angle_type. destruct (qltb eps x), (qltb x (- eps)); auto. Qed.
Lemma set_types : forall eps L, let p := set_parameters eps L in
  nl p = angle_type eps (nxi p) /\ nm p = angle_type eps (neta p) /\ nn p = angle_type eps (nzeta p).
Proof. intros eps []. cbn. auto. Qed.
Lemma steps_good : forall layer st b, In (st, b) (nig_steps layer) -> good_step st.
Proof.
  intros layer st b H eps L t E. destruct (set_types eps L) as [E1 [E2 E3]]. set (p := set_parameters eps L) in *.
  pose proof (at3 eps (nxi p)) as A1. pose proof (at3 eps (neta p)) as A2. pose proof (at3 eps (nzeta p)) as A3. rewrite <- E1 in A1. rewrite <- E2 in A2. rewrite <- E3 in A3. clear E1 E2 E3. clearbody p.
  unfold nig_steps in H. cbn in H.
  repeat (destruct H as [H|H]; [injection H as <- <-|]); try contradiction.
  - unfold step1 in E. destruct (_ || _); [injection E as <-; reflexivity|discriminate].
  - destruct layer; [discriminate|]. unfold step2 in E. destruct (_ || _); [injection E as <-; reflexivity|discriminate].
  - unfold step3 in E. destruct A1 as [A1|[A1|A1]], A2 as [A2|[A2|A2]], A3 as [A3|[A3|A3]]; rewrite A1, A2, A3 in E; cbn in E; try discriminate; injection E as <-; reflexivity.
  - unfold step4 in E. destruct A1 as [A1|[A1|A1]], A2 as [A2|[A2|A2]], A3 as [A3|[A3|A3]]; rewrite A1, A2, A3 in E; cbn in E; try discriminate; injection E as <-; reflexivity.
  - unfold step5 in E. destruct (_ || _); [|discriminate]. injection E as <-. unfold det. ring.
  - unfold step6 in E. destruct (_ || _); [|discriminate]. injection E as <-. unfold det. ring.
  - unfold step7 in E. destruct (_ || _); [|discriminate]. injection E as <-. unfold det. ring.
  - unfold step8 in E. cbv zeta in E. destruct (_ || _); [|discriminate]. injection E as <-. reflexivity.
Qed.
Lemma pass_same : forall eps L steps, (forall st b, In (st, b) steps -> good_step st) -> forall M, same_lattice L M ->
  exists M', fst (nig_pass eps steps (set_parameters eps M)) = set_parameters eps M' /\ same_lattice L M'.
Proof.
  intros eps L. induction steps as [|[st b] rest IH]; intros Hg M HM; [exists M; split; [reflexivity|exact HM]|]. cbn [nig_pass].
  destruct (st eps (set_parameters eps M)) as [t|] eqn:E.
  - assert (HM' : same_lattice L (qmulMM M (qm_of t))) by (apply same_step; [exact HM|exact (Hg st b (or_introl eq_refl) eps M t E)]).
    unfold nig_reset. assert (EL : nL (set_parameters eps M) = M) by (destruct M; reflexivity). rewrite EL.
    destruct b; [exists (qmulMM M (qm_of t)); split; [reflexivity|exact HM']|]. apply IH; [|exact HM']. intros st' b' H. apply (Hg st' b'). right. exact H.
  - apply IH; [|exact HM]. intros st' b' H. apply (Hg st' b'). right. exact H.
Qed.
Lemma loop_same : forall eps L layer n M, same_lattice L M ->
  exists M', fst (nig_loop eps layer n (set_parameters eps M)) = set_parameters eps M' /\ same_lattice L M'.
Proof.
  intros eps L layer. induction n as [|n IH]; intros M HM; [exists M; split; [reflexivity|exact HM]|]. cbn [nig_loop].
  destruct (pass_same eps L (nig_steps layer) (steps_good layer) M HM) as [M1 [E1 H1]].
  destruct (nig_pass eps (nig_steps layer) (set_parameters eps M)) as [p fin]. cbn [fst] in E1. subst p. destruct fin; [exists M1; split; [reflexivity|exact H1]|].
  apply IH, H1.
Qed.
Lemma nL_set : forall eps M, nL (set_parameters eps M) = M. Proof. intros eps []; reflexivity. Qed.

(** the lattice is kept, whether or not the reduction succeeds, for every tolerance and aperiodic axis *)
Theorem C95_same_lattice : forall L eps axis, same_lattice L (fst (niggli_reduce_periodic L eps axis)).
Proof.
  intros L eps axis. unfold niggli_reduce_periodic.
  assert (K : forall M, same_lattice L M -> forall layer, same_lattice L (fst (let '(p, ok) := nig_loop eps layer NIGGLI_MAX_NUM_LOOP (set_parameters eps M) in (nL p, ok)))).
  { intros M HM layer. destruct (loop_same eps L layer NIGGLI_MAX_NUM_LOOP M HM) as [M' [E H]]. destruct (nig_loop _ _ _ _) as [p ok]. cbn [fst] in *. subst p. rewrite nL_set. exact H. }
  unfold nig_reset. rewrite nL_set.
  destruct (axis =? 0); [apply K, same_step; [apply same_refl|reflexivity]|].
  destruct (axis =? 1); [apply K, same_step; [apply same_refl|reflexivity]|].
  destruct (_ || _); [apply K, same_refl|apply same_refl].
Qed.
Print Assumptions C95_same_lattice.

(** ** Success means reduced *)
Lemma or_none : forall (b : bool) (t : M3), (if b then Some t else None) = None -> b = false.
Proof. intros [] t H; [discriminate|reflexivity]. Qed.
Ltac qb := repeat match goal with
  | H : _ || _ = false |- _ => apply orb_false_iff in H; destruct H
  | H : qgt _ _ = false |- _ => unfold qgt in H; apply qltb_ge in H
  | H : qltb _ _ = false |- _ => apply qltb_ge in H end.
Lemma tie_false : forall x eps b, negb (qgt x eps) && b = false -> (x <= eps)%Q -> b = false.
Proof. intros x eps b H Hx. unfold qgt in H. replace (qltb eps x) with false in H by (symmetry; apply qltb_ge; exact Hx). exact H. Qed.
Definition ord1 (eps A B xi eta : Q) : Prop := (A <= B + eps)%Q /\ (tied eps A B -> (Qabs xi <= Qabs eta + eps)%Q).
Lemma step1_none : forall eps p, step1 eps p = None -> ord1 eps (nA p) (nB p) (nxi p) (neta p).
Proof.
  intros eps p H. apply or_none in H. apply orb_false_iff in H. destruct H as [H1 H2]. split; [qb; assumption|].
  intros T. apply (tie_false _ _ _ H2) in T. qb. assumption.
Qed.
Lemma step1_some : forall eps p t, step1 eps p = Some t -> t = m3 0 (-1) 0 (-1) 0 0 0 0 (-1) /\
  ((nB p + eps < nA p)%Q \/ (tied eps (nA p) (nB p) /\ (Qabs (neta p) + eps < Qabs (nxi p))%Q)).
Proof.
  intros eps p t H. unfold step1 in H. destruct (_ || _) eqn:E; [|discriminate]. injection H as <-. split; [reflexivity|].
  apply orb_true_iff in E. destruct E as [E|E]; [left; apply qltb_lt; exact E|right]. apply andb_true_iff in E. destruct E as [E1 E2].
  split; [|apply qltb_lt; exact E2]. unfold tied. apply negb_true_iff in E1. apply qltb_ge. exact E1.
Qed.
Lemma step2_none : forall eps p, step2 eps p = None -> ord1 eps (nB p) (nC p) (neta p) (nzeta p).
Proof.
  intros eps p H. apply or_none in H. apply orb_false_iff in H. destruct H as [H1 H2]. split; [qb; assumption|].
  intros T. apply (tie_false _ _ _ H2) in T. qb. assumption.
Qed.
Lemma ord1_ext : forall eps A B x y A' B' x' y', (A == A')%Q -> (B == B')%Q -> (Qabs x == Qabs x')%Q -> (Qabs y == Qabs y')%Q -> ord1 eps A B x y -> ord1 eps A' B' x' y'.
Proof. intros eps A B x y A' B' x' y' E1 E2 E3 E4 [H1 H2]. split; [lra|]. intros T. rewrite <- E3, <- E4. apply H2. unfold tied. rewrite E1, E2. exact T. Qed.
Lemma params : forall eps L, let p := set_parameters eps L in
  nA p = sA L /\ nB p = sB L /\ nC p = sC L /\ (nxi p == sxi L)%Q /\ (neta p == seta L)%Q /\ (nzeta p == szeta L)%Q.
Proof. intros eps []. cbv zeta. split; [reflexivity|]. split; [reflexivity|]. split; [reflexivity|]. unfold sxi, seta, szeta. cbn -[Qeq Qmult Qplus]. repeat split; ring. Qed.
Lemma swap_params : forall M, let M' := qmulMM M (qm_of (m3 0 (-1) 0 (-1) 0 0 0 0 (-1))) in
  (sA M' == sB M /\ sB M' == sA M /\ sxi M' == seta M /\ seta M' == sxi M)%Q.
Proof. intros []. cbn -[Qeq Qmult Qplus]. unfold sA, sB, sxi, seta. cbn -[Qeq Qmult Qplus]. unfold qz, inject_Z. repeat split; ring. Qed.
Definition sgn (i : Z) : Prop := i = 1 \/ i = -1.
Lemma diag_params : forall M i j k, sgn i -> sgn j -> sgn k -> let M' := qmulMM M (qm_of (m3 i 0 0 0 j 0 0 0 k)) in
  (sA M' == sA M /\ sB M' == sB M /\ sC M' == sC M /\ sxi M' == qz (j * k) * sxi M /\ seta M' == qz (i * k) * seta M /\ szeta M' == qz (i * j) * szeta M)%Q.
Proof.
  intros [] i j k [-> | ->] [-> | ->] [-> | ->]; unfold sA, sB, sC, sxi, seta, szeta; cbn -[Qeq Qmult Qplus]; unfold qz, inject_Z; repeat split; ring.
Qed.
Lemma abs_sgn : forall i x, sgn i -> (Qabs (qz i * x) == Qabs x)%Q.
Proof. intros i x [-> | ->]; rewrite Qabs_Qmult; unfold qz, inject_Z; cbn [Qabs Z.abs]; ring. Qed.
Lemma sgn_mul : forall i j, sgn i -> sgn j -> sgn (i * j). Proof. intros i j [-> | ->] [-> | ->]; cbn; unfold sgn; auto. Qed.
Lemma angle_ext : forall eps x y, (x == y)%Q -> angle_type eps x = angle_type eps y.
Proof.
  intros eps x y E. unfold angle_type. replace (qltb x (- eps)) with (qltb y (- eps)); [replace (qltb eps x) with (qltb eps y); [reflexivity|]|];
  apply eq_true_iff_eq; rewrite !qltb_lt, E; tauto.
Qed.
Lemma angle_sgn : forall eps i x, (0 <= eps)%Q -> sgn i -> angle_type eps (qz i * x) = i * angle_type eps x.
Proof.
  intros eps i x He Hi. unfold angle_type. destruct Hi as [-> | ->].
  - change (qz 1) with 1%Q. replace (qltb (1 * x) (- eps)) with (qltb x (- eps)) by (apply eq_true_iff_eq; rewrite !qltb_lt; split; intros; lra).
    replace (qltb eps (1 * x)) with (qltb eps x) by (apply eq_true_iff_eq; rewrite !qltb_lt; split; intros; lra). destruct (qltb eps x), (qltb x (- eps)); reflexivity.
  - change (qz (-1)) with (- (1))%Q. replace (qltb (- (1) * x) (- eps)) with (qltb eps x) by (apply eq_true_iff_eq; rewrite !qltb_lt; split; intros; lra).
    replace (qltb eps (- (1) * x)) with (qltb x (- eps)) by (apply eq_true_iff_eq; rewrite !qltb_lt; split; intros; lra).
    destruct (qltb eps x) eqn:E1, (qltb x (- eps)) eqn:E2; try reflexivity. apply qltb_lt in E1, E2. lra.
Qed.
Definition types (eps : Q) (M : QM) : Z * Z * Z := (angle_type eps (sxi M), angle_type eps (seta M), angle_type eps (szeta M)).
Lemma types_set : forall eps M, (nl (set_parameters eps M), nm (set_parameters eps M), nn (set_parameters eps M)) = types eps M.
Proof.
  intros eps M. destruct (set_types eps M) as [E1 [E2 E3]]. destruct (params eps M) as [_ [_ [_ [P1 [P2 P3]]]]]. cbv zeta in *.
  rewrite E1, E2, E3. unfold types. rewrite (angle_ext eps _ _ P1), (angle_ext eps _ _ P2), (angle_ext eps _ _ P3). reflexivity.
Qed.
Lemma types_diag : forall eps M i j k, (0 <= eps)%Q -> sgn i -> sgn j -> sgn k ->
  types eps (qmulMM M (qm_of (m3 i 0 0 0 j 0 0 0 k))) = let '(l, m, n) := types eps M in (j * k * l, i * k * m, i * j * n).
Proof.
  intros eps M i j k He Hi Hj Hk. destruct (diag_params M i j k Hi Hj Hk) as [_ [_ [_ [P1 [P2 P3]]]]]. cbv zeta in *. unfold types.
  rewrite (angle_ext eps _ _ P1), (angle_ext eps _ _ P2), (angle_ext eps _ _ P3). rewrite !angle_sgn by (auto using sgn_mul). reflexivity.
Qed.
(** what the two steps on angles leave *)
Lemma angles : forall eps M, (0 <= eps)%Q ->
  let q := snd (nig_pass eps [(step3, false); (step4, false)] (set_parameters eps M)) in
  exists M' i j k, fst (nig_pass eps [(step3, false); (step4, false)] (set_parameters eps M)) = set_parameters eps M' /\
    sgn i /\ sgn j /\ sgn k /\
    (sA M' == sA M /\ sB M' == sB M /\ sC M' == sC M /\ sxi M' == qz i * sxi M /\ seta M' == qz j * seta M /\ szeta M' == qz k * szeta M)%Q /\
    (types eps M' = (1, 1, 1) \/ exists l m n, types eps M' = (l, m, n) /\ l <= 0 /\ m <= 0 /\ n <= 0).
Proof.
  intros eps M He. cbv zeta. cbn [nig_pass].
  assert (TS := types_set eps M). destruct (types eps M) as [[l m] n] eqn:ET. injection TS as E1 E2 E3.
  assert (A1 : l = -1 \/ l = 0 \/ l = 1) by (unfold types in ET; injection ET as <- _ _; apply at3).
  assert (A2 : m = -1 \/ m = 0 \/ m = 1) by (unfold types in ET; injection ET as _ <- _; apply at3).
  assert (A3 : n = -1 \/ n = 0 \/ n = 1) by (unfold types in ET; injection ET as _ _ <-; apply at3).
  assert (S3 : forall i j k, sgn i -> sgn j -> sgn k -> forall l' m' n', (j * k * l, i * k * m, i * j * n) = (l', m', n') ->
    ((l', m', n') = (1, 1, 1) \/ (l' <= 0 /\ m' <= 0 /\ n' <= 0)) ->
    exists M' i0 j0 k0, set_parameters eps (qmulMM M (qm_of (m3 i 0 0 0 j 0 0 0 k))) = set_parameters eps M' /\ sgn i0 /\ sgn j0 /\ sgn k0 /\
      (sA M' == sA M /\ sB M' == sB M /\ sC M' == sC M /\ sxi M' == qz i0 * sxi M /\ seta M' == qz j0 * seta M /\ szeta M' == qz k0 * szeta M)%Q /\
      (types eps M' = (1, 1, 1) \/ exists l m n, types eps M' = (l, m, n) /\ l <= 0 /\ m <= 0 /\ n <= 0)).
  { intros i j k Hi Hj Hk l' m' n' E H. exists (qmulMM M (qm_of (m3 i 0 0 0 j 0 0 0 k))), (j * k), (i * k), (i * j).
    split; [reflexivity|]. split; [auto using sgn_mul|]. split; [auto using sgn_mul|]. split; [auto using sgn_mul|]. split; [apply diag_params; assumption|].
    pose proof (types_diag eps M i j k He Hi Hj Hk) as TD. rewrite ET in TD. rewrite E in TD. destruct H as [H|H]; [left; rewrite TD; exact H|right; exists l', m', n'; tauto]. }
  assert (NO4 : forall X, types eps X = (1, 1, 1) -> step4 eps (set_parameters eps X) = None).
  { intros X EX. pose proof (types_set eps X) as TX. rewrite EX in TX. injection TX as X1 X2 X3. unfold step4. rewrite X1, X2, X3. reflexivity. }
  assert (NO : l <= 0 /\ m <= 0 /\ n <= 0 -> exists M' i0 j0 k0, set_parameters eps M = set_parameters eps M' /\ sgn i0 /\ sgn j0 /\ sgn k0 /\
      (sA M' == sA M /\ sB M' == sB M /\ sC M' == sC M /\ sxi M' == qz i0 * sxi M /\ seta M' == qz j0 * seta M /\ szeta M' == qz k0 * szeta M)%Q /\
      (types eps M' = (1, 1, 1) \/ exists l m n, types eps M' = (l, m, n) /\ l <= 0 /\ m <= 0 /\ n <= 0)).
  { intros H. exists M, 1, 1, 1. unfold qz, inject_Z. repeat split; try (left; reflexivity); try ring. right. exists l, m, n. tauto. }
  assert (G3 : forall i j k, sgn i -> sgn j -> sgn k -> step3 eps (set_parameters eps M) = Some (m3 i 0 0 0 j 0 0 0 k) -> (j * k * l, i * k * m, i * j * n) = (1, 1, 1) ->
    exists M' i0 j0 k0, fst (match step3 eps (set_parameters eps M) with
      | Some t => match step4 eps (nig_reset eps (set_parameters eps M) t) with Some t0 => (nig_reset eps (nig_reset eps (set_parameters eps M) t) t0, true) | None => (nig_reset eps (set_parameters eps M) t, true) end
      | None => match step4 eps (set_parameters eps M) with Some t => (nig_reset eps (set_parameters eps M) t, true) | None => (set_parameters eps M, true) end end) = set_parameters eps M' /\ sgn i0 /\ sgn j0 /\ sgn k0 /\
      (sA M' == sA M /\ sB M' == sB M /\ sC M' == sC M /\ sxi M' == qz i0 * sxi M /\ seta M' == qz j0 * seta M /\ szeta M' == qz k0 * szeta M)%Q /\
      (types eps M' = (1, 1, 1) \/ exists l m n, types eps M' = (l, m, n) /\ l <= 0 /\ m <= 0 /\ n <= 0)).
  { intros i j k Hi Hj Hk ES ET3. rewrite ES. unfold nig_reset at 1 2. rewrite nL_set.
    pose proof (types_diag eps M i j k He Hi Hj Hk) as TD. rewrite ET in TD. rewrite ET3 in TD. rewrite (NO4 _ TD). cbn [fst]. unfold nig_reset. rewrite nL_set.
    apply (S3 i j k Hi Hj Hk 1 1 1 ET3). left. reflexivity. }
  destruct (step3 eps (set_parameters eps M)) as [t3|] eqn:ES3.
  - pose proof ES3 as K. unfold step3 in K. rewrite E1, E2, E3 in K.
    destruct A1 as [-> | [-> | ->]], A2 as [-> | [-> | ->]], A3 as [-> | [-> | ->]]; cbn in K; try discriminate; injection K as <-.
    all: (eapply G3; [| | |reflexivity|reflexivity]; unfold sgn; auto).
  - pose proof ES3 as K. unfold step3 in K. rewrite E1, E2, E3 in K. unfold step4. rewrite E1, E2, E3. unfold nig_reset. rewrite nL_set.
    destruct A1 as [-> | [-> | ->]], A2 as [-> | [-> | ->]], A3 as [-> | [-> | ->]]; cbn in K; try discriminate; cbn -[set_parameters qmulMM qm_of].
    all: try (apply NO; lia).
    all: (eapply S3; [| | |reflexivity|right; cbn; lia]; unfold sgn; auto).
Qed.
Lemma pass34 : forall eps rest p, nig_pass eps ((step3, false) :: (step4, false) :: rest) p = nig_pass eps rest (fst (nig_pass eps [(step3, false); (step4, false)] p)).
Proof. intros eps rest p. cbn [nig_pass]. destruct (step3 eps p); destruct (step4 eps _); reflexivity. Qed.
Lemma first_step : forall eps M, (0 <= eps)%Q -> exists M1, (match step1 eps (set_parameters eps M) with Some t => nig_reset eps (set_parameters eps M) t | None => set_parameters eps M end) = set_parameters eps M1 /\
  ord1 eps (sA M1) (sB M1) (sxi M1) (seta M1).
Proof.
  intros eps M He. destruct (params eps M) as [P1 [P2 [P3 [P4 [P5 P6]]]]]. cbv zeta in *. destruct (step1 eps (set_parameters eps M)) as [t|] eqn:E.
  - apply step1_some in E. destruct E as [-> H]. rewrite P1, P2 in H. rewrite P4, P5 in H. exists (qmulMM M (qm_of (m3 0 (-1) 0 (-1) 0 0 0 0 (-1)))). split; [unfold nig_reset; rewrite nL_set; reflexivity|].
    destruct (swap_params M) as [S1 [S2 [S3 S4]]]. cbv zeta in *. apply (ord1_ext eps (sB M) (sA M) (seta M) (sxi M)); [rewrite S1; reflexivity|rewrite S2; reflexivity|rewrite S3; reflexivity|rewrite S4; reflexivity|]. unfold ord1. destruct H as [H|[H1 H2]].
    + split; [lra|]. intros T. exfalso. unfold tied in T. apply Qabs_Qle_condition in T. lra.
    + unfold tied in H1. apply Qabs_Qle_condition in H1. split; [lra|]. intros _. lra.
  - apply step1_none in E. exists M. split; [reflexivity|]. eapply ord1_ext; [| | | |exact E]; rewrite ?P1, ?P2, ?P4, ?P5; reflexivity.
Qed.
Lemma step5_none : forall eps p, step5 eps p = None -> (Qabs (nxi p) <= nB p + eps)%Q /\ (tied eps (nB p) (nxi p) -> (nzeta p - eps <= 2 * neta p)%Q) /\ ((Qabs (nB p + nxi p) <= eps)%Q -> (- eps <= nzeta p)%Q).
Proof.
  intros eps p H. apply or_none in H. apply orb_false_iff in H. destruct H as [H H3]. apply orb_false_iff in H. destruct H as [H1 H2].
  split; [qb; assumption|]. split; intros T; [apply (tie_false _ _ _ H2) in T|apply (tie_false _ _ _ H3) in T]; qb; assumption.
Qed.
Lemma step6_none : forall eps p, step6 eps p = None -> (Qabs (neta p) <= nA p + eps)%Q /\ (tied eps (nA p) (neta p) -> (nzeta p - eps <= 2 * nxi p)%Q) /\ ((Qabs (nA p + neta p) <= eps)%Q -> (- eps <= nzeta p)%Q).
Proof.
  intros eps p H. apply or_none in H. apply orb_false_iff in H. destruct H as [H H3]. apply orb_false_iff in H. destruct H as [H1 H2].
  split; [qb; assumption|]. split; intros T; [apply (tie_false _ _ _ H2) in T|apply (tie_false _ _ _ H3) in T]; qb; assumption.
Qed.
Lemma step7_none : forall eps p, step7 eps p = None -> (Qabs (nzeta p) <= nA p + eps)%Q /\ (tied eps (nA p) (nzeta p) -> (neta p - eps <= 2 * nxi p)%Q) /\ ((Qabs (nA p + nzeta p) <= eps)%Q -> (- eps <= neta p)%Q).
Proof.
  intros eps p H. apply or_none in H. apply orb_false_iff in H. destruct H as [H H3]. apply orb_false_iff in H. destruct H as [H1 H2].
  split; [qb; assumption|]. split; intros T; [apply (tie_false _ _ _ H2) in T|apply (tie_false _ _ _ H3) in T]; qb; assumption.
Qed.
Lemma step8_none : forall eps p, step8 eps p = None -> (- eps <= nxi p + neta p + nzeta p + nA p + nB p)%Q /\
  ((Qabs (nxi p + neta p + nzeta p + nA p + nB p) <= eps)%Q -> (2 * (nA p + neta p) + nzeta p <= eps)%Q).
Proof.
  intros eps p H. unfold step8 in H. cbv zeta in H. apply or_none in H. apply orb_false_iff in H. destruct H as [H1 H2].
  split; [qb; assumption|]. intros T. apply (tie_false _ _ _ H2) in T. qb; assumption.
Qed.
Lemma abs_flip : forall a b eps, (Qabs (a - b) <= eps)%Q -> (Qabs (b - a) <= eps)%Q.
Proof. intros a b eps H. rewrite <- Qabs_opp. setoid_replace (- (b - a))%Q with (a - b)%Q by ring. exact H. Qed.
Lemma type_pos : forall eps x, angle_type eps x = 1 -> (eps < x)%Q.
Proof. intros eps x H. unfold angle_type in H. destruct (qltb eps x) eqn:E; [apply qltb_lt; exact E|destruct (qltb x (- eps)); discriminate]. Qed.
Lemma type_npos : forall eps x, angle_type eps x <= 0 -> (x <= eps)%Q.
Proof. intros eps x H. unfold angle_type in H. destruct (qltb eps x) eqn:E; [lia|]. apply qltb_ge. exact E. Qed.
Lemma pass_reduced : forall eps layer M p, (0 <= eps)%Q -> nig_pass eps (nig_steps layer) (set_parameters eps M) = (p, true) ->
  exists N, p = set_parameters eps N /\ niggli_reduced eps (negb layer) N.
Proof.
  intros eps layer M p He H. unfold nig_steps in H.
  destruct (first_step eps M He) as [M1 [E1 O1]].
  assert (H' : nig_pass eps [(if layer then step2_for_layer else step2, true); (step3, false); (step4, false); (step5, true); (step6, true); (step7, true); (step8, true)]
    (set_parameters eps M1) = (p, true)).
  { rewrite <- E1, <- H. change (nig_pass eps ((step1, false) :: ?x) ?y) with (match step1 eps y with Some t => nig_pass eps x (nig_reset eps y t) | None => nig_pass eps x y end).
    destruct (step1 eps (set_parameters eps M)); reflexivity. }
  clear H. change (nig_pass eps ((?s, true) :: ?x) ?y) with (match s eps y with Some t => (nig_reset eps y t, false) | None => nig_pass eps x y end) in H'.
  destruct ((if layer then step2_for_layer else step2) eps (set_parameters eps M1)) eqn:E2; [discriminate|].
  assert (O2 : negb layer = true -> ord1 eps (sB M1) (sC M1) (seta M1) (szeta M1)).
  { destruct layer; [discriminate|]. intros _. apply step2_none in E2. destruct (params eps M1) as [P1 [P2 [P3 [P4 [P5 P6]]]]]. cbv zeta in *.
    eapply ord1_ext; [| | | |exact E2]; rewrite ?P2, ?P3, ?P5, ?P6; reflexivity. }
  rewrite pass34 in H'. destruct (angles eps M1 He) as [N [i [j [k [EN [Hi [Hj [Hk [[Q1 [Q2 [Q3 [Q4 [Q5 Q6]]]]] HT]]]]]]]]]. cbv zeta in *. rewrite EN in H'.
  cbn [nig_pass] in H'.
  destruct (step5 eps (set_parameters eps N)) eqn:E5; [discriminate|]. destruct (step6 eps (set_parameters eps N)) eqn:E6; [discriminate|].
  destruct (step7 eps (set_parameters eps N)) eqn:E7; [discriminate|]. destruct (step8 eps (set_parameters eps N)) eqn:E8; [discriminate|].
  injection H' as <-. exists N. split; [reflexivity|].
  destruct (params eps N) as [P1 [P2 [P3 [P4 [P5 P6]]]]]. cbv zeta in *.
  apply step5_none in E5. apply step6_none in E6. apply step7_none in E7. apply step8_none in E8. unfold tied in *. rewrite P1, P2, P4, P5, P6 in *.
  destruct E5 as [A1 [A2 A3]], E6 as [B1 [B2 B3]], E7 as [C1 [C2 C3]], E8 as [D1 D2].
  assert (O1' : ord1 eps (sA N) (sB N) (sxi N) (seta N)).
  { eapply ord1_ext; [| | | |exact O1]; rewrite ?Q1, ?Q2, ?Q4, ?Q5, ?abs_sgn by assumption; reflexivity. }
  assert (O2' : negb layer = true -> ord1 eps (sB N) (sC N) (seta N) (szeta N)).
  { intros L. eapply ord1_ext; [| | | |exact (O2 L)]; rewrite ?Q2, ?Q3, ?Q5, ?Q6, ?abs_sgn by assumption; reflexivity. }
  constructor; unfold tied.
  - apply O1'.
  - intros L. apply (O2' L).
  - apply O1'.
  - intros L. apply (O2' L).
  - destruct HT as [HT|[l [m [n [HT [T1 [T2 T3]]]]]]]; unfold types in HT; injection HT as F1 F2 F3.
    + left. auto using type_pos.
    + right. rewrite <- F1 in T1. rewrite <- F2 in T2. rewrite <- F3 in T3. auto using type_npos.
  - exact A1.
  - exact B1.
  - exact C1.
  - exact D1.
  - intros T. apply abs_flip in T. specialize (A2 T). lra.
  - intros T. apply abs_flip in T. specialize (B2 T). lra.
  - intros T. apply abs_flip in T. specialize (C2 T). lra.
  - intros T. apply A3. setoid_replace (sB N + sxi N)%Q with (sxi N - - sB N)%Q by ring. exact T.
  - intros T. apply B3. setoid_replace (sA N + seta N)%Q with (seta N - - sA N)%Q by ring. exact T.
  - intros T. apply C3. setoid_replace (sA N + szeta N)%Q with (szeta N - - sA N)%Q by ring. exact T.
  - intros T. apply D2. setoid_replace (sxi N + seta N + szeta N + sA N + sB N)%Q with (sxi N + seta N + szeta N + sA N + sB N - 0)%Q by ring. exact T.
Qed.
Lemma loop_reduced : forall eps layer n M p, (0 <= eps)%Q -> nig_loop eps layer n (set_parameters eps M) = (p, true) -> exists N, p = set_parameters eps N /\ niggli_reduced eps (negb layer) N.
Proof.
  intros eps layer. induction n as [|n IH]; intros M p He H; [discriminate|]. cbn [nig_loop] in H.
  destruct (pass_same eps M (nig_steps layer) (steps_good layer) M (same_refl M)) as [M1 [E1 _]].
  destruct (nig_pass eps (nig_steps layer) (set_parameters eps M)) as [q fin] eqn:E. cbn [fst] in E1. destruct fin.
  - injection H as <-. apply (pass_reduced eps layer M q He E).
  - subst q. apply (IH M1 p He H).
Qed.
Theorem C95_reduced : forall L eps axis N, (0 <= eps)%Q -> niggli_reduce_periodic L eps axis = (N, true) -> niggli_reduced eps (axis =? -1) N.
Proof.
  intros L eps axis N He H. unfold niggli_reduce_periodic in H.
  assert (K : forall M, (let '(p, ok) := nig_loop eps (negb (axis =? -1)) NIGGLI_MAX_NUM_LOOP (set_parameters eps M) in (nL p, ok)) = (N, true) -> niggli_reduced eps (axis =? -1) N).
  { intros M E. destruct (nig_loop _ _ _ _) as [p ok] eqn:EL. injection E as <- ->. destruct (loop_reduced _ _ _ _ _ He EL) as [N [-> R]].
    rewrite nL_set. rewrite negb_involutive in R. exact R. }
  unfold nig_reset in H. rewrite nL_set in H.
  destruct (axis =? 0); [apply (K _ H)|]. destruct (axis =? 1); [apply (K _ H)|]. destruct ((axis =? -1) || (axis =? 2)); [apply (K _ H)|discriminate].
Qed.
Print Assumptions C95_reduced.

(** columns (2,1,0), (1,2,1), (3,5,4) become (0,1,-1), (1,-1,-1), (-2,-1,0) *)
Definition skew_lattice : QM := qm 2 1 3 1 2 5 0 1 4.
Example C95_ex :
  niggli_reduce skew_lattice (1 # 100000) = (qm 0 1 (-2) 1 (-1) (-1) (-1) (-1) 0, true) /\
  same_lattice skew_lattice (qm 0 1 (-2) 1 (-1) (-1) (-1) (-1) 0) /\
  niggli_reduced (1 # 100000) true (qm 0 1 (-2) 1 (-1) (-1) (-1) (-1) 0).
Proof.
  assert (E : niggli_reduce skew_lattice (1 # 100000) = (qm 0 1 (-2) 1 (-1) (-1) (-1) (-1) 0, true)) by (vm_compute; reflexivity).
  split; [exact E|]. split.
  - pose proof (C95_same_lattice skew_lattice (1 # 100000) (-1)) as H. fold (niggli_reduce skew_lattice (1 # 100000)) in H. rewrite E in H. exact H.
  - apply (C95_reduced skew_lattice (1 # 100000) (-1)); [lra|exact E].
Qed.
(** along a layer: the second axis stays last in the layer *)
Example C95_layer_ex : exists N, niggli_reduce_periodic skew_lattice (1 # 100000) 2 = (N, true) /\ niggli_reduced (1 # 100000) false N.
Proof.
  eexists. assert (E : niggli_reduce_periodic skew_lattice (1 # 100000) 2 = (fst (niggli_reduce_periodic skew_lattice (1 # 100000) 2), true)) by (vm_compute; reflexivity).
  split; [exact E|]. apply (C95_reduced skew_lattice (1 # 100000) 2); [lra|exact E].
Qed.
