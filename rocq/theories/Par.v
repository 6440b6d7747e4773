(** Loops marked [#pragma omp parallel for]: every iteration is a program of single reads and
    writes of shared memory; a schedule interleaves the iterations' operations arbitrarily.
    Memory is sequentially consistent; addresses are shared array elements, private
    variables are the Gallina variables of the continuation. Nothing here models a
    particular function of /repo. *)
From Coq Require Import ZArith List Bool Lia Permutation.
From Verif Require Import Base BaseProofs.
Import ListNotations.
Open Scope Z_scope.

Section Par.
Context {A V : Type}.
Variable A_dec : forall a b : A, {a = b} + {a <> b}.

Definition mem := A -> V.
Definition wr (m : mem) (a : A) (v : V) : mem := fun b => if A_dec b a then v else m b.

(** one iteration *)
Inductive prog : Type :=
| Ret : prog
| Rd (a : A) (k : V -> prog) : prog
| Wr (a : A) (v : V) (k : prog) : prog.

Fixpoint run (p : prog) (m : mem) : mem :=
  match p with
  | Ret => m
  | Rd a k => run (k (m a)) m
  | Wr a v k => run k (wr m a v)
  end.

(** the loop run in order by one thread *)
Definition run_seq (ps : list prog) (m : mem) : mem := fold_left (fun m p => run p m) ps m.

(** one operation of one iteration *)
Inductive step1 : prog -> mem -> prog -> mem -> Prop :=
| S_rd : forall a k m, step1 (Rd a k) m (k (m a)) m
| S_wr : forall a v k m, step1 (Wr a v k) m k (wr m a v).
Inductive step : list prog -> mem -> list prog -> mem -> Prop :=
| S_at : forall l p r m p' m', step1 p m p' m' -> step (l ++ p :: r) m (l ++ p' :: r) m'.
Inductive steps : list prog -> mem -> list prog -> mem -> Prop :=
| S_done : forall ps m, steps ps m ps m
| S_more : forall ps m ps' m' ps'' m'', step ps m ps' m' -> steps ps' m' ps'' m'' -> steps ps m ps'' m''.
(** the loop has finished with memory m' under some schedule *)
Definition finishes (ps : list prog) (m m' : mem) : Prop :=
  exists ps', steps ps m ps' m' /\ Forall (fun p => p = Ret) ps'.

(** writes only in W, reads only in R, on every path *)
Inductive fp (W R : A -> Prop) : prog -> Prop :=
| F_ret : fp W R Ret
| F_rd : forall a k, R a -> (forall v, fp W R (k v)) -> fp W R (Rd a k)
| F_wr : forall a v k, W a -> fp W R k -> fp W R (Wr a v k).

Lemma fp_step1 : forall W R p m p' m', fp W R p -> step1 p m p' m' ->
  fp W R p' /\ (forall a, m' a <> m a -> W a) /\ (forall a, run p m a = run p' m' a).
Proof.
  intros W R p m p' m' F S. destruct S; inversion F; subst.
  - split; [auto|]. split; [intros b H; contradiction|reflexivity].
  - split; [assumption|]. split; [|reflexivity].
    intros b H. unfold wr in H. destruct (A_dec b a); [subst; assumption|contradiction].
Qed.

(** the result at the addresses an iteration writes depends only on its footprint *)
Lemma run_agree : forall W R p, fp W R p -> forall m m', (forall a, R a \/ W a -> m a = m' a) ->
  forall a, R a \/ W a -> run p m a = run p m' a.
Proof.
  intros W R p F. induction F as [|a k Ra Fk IH|a v k Wa Fk IH]; intros m m' E b Hb; cbn.
  - auto.
  - rewrite <- (E a) by auto. apply IH; auto.
  - apply IH; auto. intros c Hc. unfold wr. destruct (A_dec c a); auto.
Qed.
Lemma run_outside : forall W R p, fp W R p -> forall m a, ~ W a -> run p m a = m a.
Proof.
  intros W R p F. induction F as [|a k Ra Fk IH|a v k Wa Fk IH]; intros m b Hb; cbn; auto.
  rewrite IH by auto. unfold wr. destruct (A_dec b a); [subst; contradiction|reflexivity].
Qed.

(** footprints of the iterations, by position *)
Variable W R : nat -> A -> Prop.
Definition disjoint : Prop := forall i j a, i <> j -> W i a -> ~ W j a /\ ~ R j a.
Definition fps (ps : list prog) : Prop := forall i p, nth_error ps i = Some p -> fp (W i) (R i) p.

Lemma step_inv : forall ps m ps' m', disjoint -> fps ps -> step ps m ps' m' ->
  fps ps' /\ length ps' = length ps /\
  (forall a, (forall i, (i < length ps)%nat -> ~ W i a) -> m' a = m a) /\
  (forall i p p', nth_error ps i = Some p -> nth_error ps' i = Some p' ->
     forall a, W i a -> run p' m' a = run p m a).
Proof.
  intros ps m ps' m' D F S. destruct S as [l p r m p' m' S].
  assert (Fp : fp (W (length l)) (R (length l)) p).
  { apply F. rewrite nth_error_app2, Nat.sub_diag by lia. reflexivity. }
  destruct (fp_step1 _ _ _ _ _ _ Fp S) as [Fp' [Hm Hr]].
  assert (Nth : forall q i, i <> length l -> nth_error (l ++ q :: r) i = nth_error (l ++ p :: r) i).
  { intros q i Hi. destruct (Nat.lt_ge_cases i (length l)).
    - rewrite !nth_error_app1 by lia. reflexivity.
    - rewrite !nth_error_app2 by lia. destruct (i - length l)%nat eqn:E; [lia|reflexivity]. }
  assert (At : forall q, nth_error (l ++ q :: r) (length l) = Some q).
  { intros q. rewrite nth_error_app2, Nat.sub_diag by lia. reflexivity. }
  split.
  { intros i q Hq. destruct (Nat.eq_dec i (length l)) as [->|Hi].
    - rewrite At in Hq. injection Hq as <-. exact Fp'.
    - rewrite Nth in Hq by exact Hi. now apply F. }
  split. { rewrite !app_length. reflexivity. }
  assert (Dec : forall a, ~ W (length l) a -> m' a = m a).
  { intros a Ha. destruct S as [b k m|b v k m]; [reflexivity|]. unfold wr. destruct (A_dec a b); [|reflexivity].
    subst. inversion Fp; subst. contradiction. }
  split.
  { intros a Ha. apply Dec. apply Ha. rewrite app_length. cbn. lia. }
  intros i q q' Hq Hq' a Wa. destruct (Nat.eq_dec i (length l)) as [->|Hi].
  - rewrite At in Hq, Hq'. injection Hq as <-. injection Hq' as <-. symmetry. apply Hr.
  - rewrite Nth in Hq' by exact Hi. assert (q' = q) as -> by congruence.
    apply (run_agree (W i) (R i)); auto. intros b Hb. apply Dec. intros Wb.
    destruct (D (length l) i b ltac:(auto) Wb) as [H1 H2]. tauto.
Qed.

Lemma steps_inv : forall ps m ps' m', disjoint -> steps ps m ps' m' -> fps ps ->
  length ps' = length ps /\
  (forall a, (forall i, (i < length ps)%nat -> ~ W i a) -> m' a = m a) /\
  (forall i p p', nth_error ps i = Some p -> nth_error ps' i = Some p' ->
     forall a, W i a -> run p' m' a = run p m a).
Proof.
  intros ps m ps' m' D S. induction S as [ps m|ps m ps' m' ps'' m'' S1 S2 IH]; intros F.
  - split; [reflexivity|]. split; [reflexivity|]. intros i p p' H1 H2. assert (p' = p) as -> by congruence. reflexivity.
  - destruct (step_inv _ _ _ _ D F S1) as [F' [L [O T]]]. destruct (IH F') as [L' [O' T']].
    split; [congruence|]. split.
    + intros a Ha. rewrite O' by (rewrite L; exact Ha). auto.
    + intros i p p'' H1 H3 a Wa. destruct (nth_error ps' i) as [p'|] eqn:H2.
      * rewrite (T' i p' p'' H2 H3 a Wa). eapply T; eauto.
      * exfalso. apply nth_error_None in H2. assert (i < length ps)%nat by (apply nth_error_Some; congruence). lia.
Qed.

(** Any schedule: each address written by an iteration ends up as if that iteration had
    run alone from the initial memory; all other addresses are untouched. *)
Theorem par_result : forall ps m m', disjoint -> fps ps -> finishes ps m m' ->
  (forall i p a, nth_error ps i = Some p -> W i a -> m' a = run p m a) /\
  (forall a, (forall i, (i < length ps)%nat -> ~ W i a) -> m' a = m a).
Proof.
  intros ps m m' D F [ps' [S Fin]]. destruct (steps_inv _ _ _ _ D S F) as [L [O T]]. split; [|exact O].
  intros i p a Hp Wa. destruct (nth_error ps' i) as [p'|] eqn:E.
  - rewrite <- (T i p p' Hp E a Wa). rewrite Forall_forall in Fin.
    assert (p' = Ret) as -> by (apply Fin; eapply nth_error_In; eauto). reflexivity.
  - exfalso. apply nth_error_None in E. assert (i < length ps)%nat by (apply nth_error_Some; congruence). lia.
Qed.

(** the sequential loop is one of the schedules *)
Lemma steps_trans : forall ps m ps' m' ps'' m'', steps ps m ps' m' -> steps ps' m' ps'' m'' -> steps ps m ps'' m''.
Proof. intros ps m ps' m' ps'' m'' S. induction S; intros T; auto. eapply S_more; eauto. Qed.
Lemma run_steps : forall p l r m, steps (l ++ p :: r) m (l ++ Ret :: r) (run p m).
Proof.
  induction p as [|a k IH|a v k IH]; intros l r m; cbn.
  - apply S_done.
  - eapply S_more; [apply S_at, S_rd|]. apply IH.
  - eapply S_more; [apply S_at, S_wr|]. apply IH.
Qed.
Lemma seq_finishes : forall ps m, finishes ps m (run_seq ps m).
Proof.
  intros ps m. exists (map (fun _ => Ret) ps). split.
  - change (map (fun _ => Ret) ps) with (map (fun _ : prog => Ret) [] ++ map (fun _ => Ret) ps).
    change ps with (@nil prog ++ ps) at 1.
    assert (G : forall ps l m, steps (map (fun _ : prog => Ret) l ++ ps) m (map (fun _ : prog => Ret) l ++ map (fun _ : prog => Ret) ps) (run_seq ps m)).
    { induction ps0 as [|p ps0 IH]; intros l m0; cbn.
      - apply S_done.
      - eapply steps_trans; [apply run_steps|].
        specialize (IH (l ++ [p]) (run p m0)). rewrite map_app in IH. cbn [map] in IH.
        rewrite <- !app_assoc in IH. exact IH. }
    apply (G ps [] m).
  - apply Forall_forall. intros p Hp. apply in_map_iff in Hp. destruct Hp as [_ [<- _]]. reflexivity.
Qed.

(** Disjoint footprints: every schedule gives the result of the sequential loop. *)
Theorem par_deterministic : forall ps m m', disjoint -> fps ps ->
  (forall a, (exists i, (i < length ps)%nat /\ W i a) \/ (forall i, (i < length ps)%nat -> ~ W i a)) ->
  finishes ps m m' -> forall a, m' a = run_seq ps m a.
Proof.
  intros ps m m' D F Dec Fin a. destruct (par_result _ _ _ D F Fin) as [H1 H2].
  destruct (par_result _ _ _ D F (seq_finishes ps m)) as [S1 S2].
  destruct (Dec a) as [[i [Hi Wa]]|N].
  - destruct (nth_error ps i) as [p|] eqn:E; [|apply nth_error_None in E; lia].
    rewrite (H1 i p a E Wa). symmetry. eapply S1; eauto.
  - rewrite H2 by exact N. symmetry. now apply S2.
Qed.

(** an iteration that only writes, as its list of writes *)
Fixpoint wprog (ws : list (A * V)) : prog :=
  match ws with [] => Ret | (a, v) :: t => Wr a v (wprog t) end.
Definition store (m : mem) (ws : list (A * V)) : mem := fold_left (fun m av => wr m (fst av) (snd av)) ws m.
Lemma run_wprog : forall ws m, run (wprog ws) m = store m ws.
Proof. induction ws as [|[a v] ws IH]; intros m; cbn; [reflexivity|]. apply IH. Qed.
Lemma store_app : forall ws ws' m, store m (ws ++ ws') = store (store m ws) ws'.
Proof. intros. unfold store. apply fold_left_app. Qed.
Lemma store_other : forall ws m a, ~ In a (map fst ws) -> store m ws a = m a.
Proof.
  induction ws as [|[b v] ws IH]; intros m a H; [reflexivity|]. cbn [store fold_left] in *.
  change (store (wr m b v) ws a = m a). rewrite IH by (cbn in H; tauto).
  unfold wr. destruct (A_dec a b); [|reflexivity]. subst. cbn in H. tauto.
Qed.
Lemma store_in : forall ws m a v, NoDup (map fst ws) -> In (a, v) ws -> store m ws a = v.
Proof.
  induction ws as [|[b u] ws IH]; intros m a v N H; [contradiction|]. cbn [map fst] in N. inversion_clear N as [|? ? N1 N2].
  change (store (wr m b u) ws a = v). destruct H as [H|H].
  - injection H as -> ->. rewrite store_other by exact N1. unfold wr. destruct (A_dec a a); congruence.
  - apply IH; auto.
Qed.
Lemma store_perm : forall ws ws' m a, NoDup (map fst ws) -> Permutation ws ws' -> store m ws a = store m ws' a.
Proof.
  intros ws ws' m a N P. destruct (in_dec A_dec a (map fst ws)) as [H|H].
  - apply in_map_iff in H. destruct H as [[b v] [E H]]. cbn in E. subst b.
    rewrite (store_in ws m a v N H). symmetry. apply store_in; [|eapply Permutation_in; eauto].
    eapply Permutation_NoDup; [|exact N]. now apply Permutation_map.
  - rewrite !store_other; auto. intros K. apply H. eapply Permutation_in; [|exact K].
    apply Permutation_sym. now apply Permutation_map.
Qed.
Lemma run_seq_wprog : forall (l : list (list (A * V))) m, run_seq (map wprog l) m = store m (concat l).
Proof.
  induction l as [|ws l IH]; intros m; [reflexivity|]. cbn [map concat]. rewrite store_app.
  unfold run_seq in *. cbn [fold_left]. rewrite run_wprog. apply IH.
Qed.
Lemma fp_wprog : forall (W0 R0 : A -> Prop) ws, (forall a, In a (map fst ws) -> W0 a) -> fp W0 R0 (wprog ws).
Proof.
  intros W0 R0. induction ws as [|[a v] ws IH]; intros H; cbn; constructor; [apply H; cbn; auto|apply IH; intros b Hb; apply H; cbn; auto].
Qed.
End Par.
Arguments Ret {A V}.
Arguments Rd {A V} a k.
Arguments Wr {A V} a v k.

(** Loops whose iterations only write: if all written addresses differ, every schedule gives the
    result of the sequential loop. *)
Section WriteLoops.
Context {A V : Type}.
Variable A_dec : forall a b : A, {a = b} + {a <> b}.
Lemma nodup_concat : forall (l : list (list (A * V))) i j ws ws' a, NoDup (map fst (concat l)) ->
  nth_error l i = Some ws -> nth_error l j = Some ws' -> In a (map fst ws) -> In a (map fst ws') -> i = j.
Proof.
  induction l as [|x l IH]; intros i j ws ws' a N Hi Hj Ha Ha'; [destruct i; discriminate|].
  cbn [concat] in N. rewrite map_app in N.
  assert (Out : forall k ys, nth_error l k = Some ys -> In a (map fst ys) -> In a (map fst (concat l))).
  { intros k ys Hk H. apply in_map_iff in H. destruct H as [av [E H]]. apply in_map_iff. exists av. split; [exact E|].
    apply in_concat. exists ys. split; [eapply nth_error_In; eauto|exact H]. }
  assert (Dis : In a (map fst x) -> In a (map fst (concat l)) -> False).
  { clear - N. revert N. generalize (map fst (concat l)). induction (map fst x) as [|y t IHt]; intros z N H1 H2; [contradiction|].
    cbn in N. inversion_clear N as [|? ? N1 N2]. destruct H1 as [->|H1]; [apply N1, in_or_app; auto|eapply IHt; eauto]. }
  destruct i as [|i], j as [|j]; cbn in Hi, Hj.
  - reflexivity.
  - exfalso. inversion Hi; subst. apply Dis; eauto.
  - exfalso. inversion Hj; subst. apply Dis; eauto.
  - f_equal. eapply IH; eauto. clear - N. induction (map fst x) as [|y t IHt]; [exact N|]. apply IHt. inversion N; auto.
Qed.
Theorem par_writes : forall (l : list (list (A * V))) m m', NoDup (map fst (concat l)) ->
  finishes A_dec (map wprog l) m m' -> forall a, m' a = store A_dec m (concat l) a.
Proof.
  intros l m m' N F a. rewrite <- run_seq_wprog.
  set (W := fun i (b : A) => exists ws, nth_error l i = Some ws /\ In b (map fst ws)).
  apply (par_deterministic A_dec W (fun _ _ => False) (map wprog l) m m'); auto.
  - intros i j b Hij [ws [H1 H2]]. split; [|tauto]. intros [ws' [H3 H4]]. apply Hij. eapply nodup_concat; eauto.
  - intros i p Hp. rewrite nth_error_map in Hp. destruct (nth_error l i) as [ws|] eqn:E; [|discriminate].
    injection Hp as <-. apply fp_wprog. intros b Hb. exists ws. auto.
  - intros b. clear - A_dec. rewrite map_length. unfold W. clear W.
    induction l as [|ws l IH].
    + right. intros i Hi. cbn in Hi. lia.
    + destruct (in_dec A_dec b (map fst ws)) as [H|H].
      * left. exists 0%nat. split; [cbn; lia|]. exists ws. auto.
      * destruct IH as [[i [Hi [ws' [H1 H2]]]]|IH].
        -- left. exists (S i). split; [cbn; lia|]. exists ws'. auto.
        -- right. intros [|i] Hi [ws' [H1 H2]]; cbn in H1; [congruence|]. apply (IH i); [cbn in Hi; lia|]. exists ws'. auto.
Qed.
End WriteLoops.

(** [store] on integer addresses is repeated [upd] *)
Lemma wr_upd : forall V (m : Z -> V) a v b, wr Z.eq_dec m a v b = upd m a v b.
Proof. intros V m a v b. unfold wr, upd. destruct (Z.eq_dec b a), (Z.eqb_spec b a); congruence. Qed.

(** ** index arithmetic of row-major arrays *)
Lemma flat_inj : forall n a b a' b', 0 <= b < n -> 0 <= b' < n -> a * n + b = a' * n + b' -> a = a' /\ b = b'.
Proof. intros. assert (a = a') by nia. subst. split; [reflexivity|lia]. Qed.
Lemma flat_range : forall n k a b, 0 <= a < k -> 0 <= b < n -> 0 <= a * n + b < k * n.
Proof. intros. nia. Qed.
Lemma flat_split : forall n k x, 0 <= x < k * n -> 0 < n -> exists a b, 0 <= a < k /\ 0 <= b < n /\ x = a * n + b.
Proof.
  intros n k x Hx Hn. exists (x / n), (x mod n). pose proof (Z.mod_pos_bound x n Hn). pose proof (Z.div_mod x n ltac:(lia)).
  assert (0 <= x / n) by (apply Z.div_pos; lia). assert (x / n < k) by (apply Z.div_lt_upper_bound; lia). lia.
Qed.
Lemma NoDup_flat_map : forall A B (f : A -> list B) l, NoDup l -> (forall x, In x l -> NoDup (f x)) ->
  (forall x y b, In x l -> In y l -> In b (f x) -> In b (f y) -> x = y) -> NoDup (flat_map f l).
Proof.
  intros A B f l N. induction N as [|x l Hx N IH]; intros H1 H2; cbn; [constructor|].
  apply NoDup_app.
  - apply H1. left; auto.
  - apply IH; [intros y Hy; apply H1; right; auto|]. intros y z b Hy Hz. apply H2; right; auto.
  - intros b Hb Hb'. apply in_flat_map in Hb'. destruct Hb' as [y [Hy Hb']].
    assert (x = y) by (eapply H2; eauto; cbn; auto). subst. contradiction.
Qed.
