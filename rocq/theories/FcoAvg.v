(** The averaging step of the cutoff treatment: which values the array holds afterwards. *)
From Coq Require Import ZArith QArith List Bool Lia Lqa Setoid Permutation.
From Verif Require Import Base BaseProofs Par QMat DsModel DispModel Fc3Model Fc3Spec Fc3Proofs Fc3Trans Fc3Dist Fc3DistProps FcoModel.
Import ListNotations.
Open Scope Z_scope.

(** ** spec *)
(** The six ways to name the element of atoms a, b, c and directions i, j, k. *)
Definition names (a b c : Z) (q : Z * Z * Z) : list (Z * Z * Z * (Z * Z * Z)) :=
  let '(i, j, k) := q in
  [(a, b, c, (i, j, k)); (a, c, b, (i, k, j)); (b, a, c, (j, i, k)); (b, c, a, (j, k, i)); (c, a, b, (k, i, j)); (c, b, a, (k, j, i))].
(** Mean of the values under those names whose first two atoms form a computed pair; zero if there is none. *)
Definition mean_of_done (done : list (Z * Z)) (v : Z -> Z -> Z -> Z * Z * Z -> Q) (a b c : Z) (q : Z * Z * Z) : Q :=
  let l := filter (fun t => let '(x, y, _, _) := t in is_done done x y) (names a b c q) in
  match l with
  | [] => 0%Q
  | _ => (qsum (map (fun t => let '(x, y, z, p) := t in v x y z p) l) / inject_Z (Z.of_nat (length l)))%Q
  end.

(** ** proofs *)
Lemma radix : forall n u u' c c', 0 <= c < n -> 0 <= c' < n -> u * n + c = u' * n + c' -> u = u' /\ c = c'.
Proof. intros n u u' c c' H H' E. apply (Z.div_mod_unique n); auto; lia. Qed.
Lemma raw_put : forall n m a b c q a' b' c' q' v, 0 <= b < n -> 0 <= c < n -> 0 <= b' < n -> 0 <= c' < n -> In q comps -> In q' comps ->
  raw n (put n a b c q v m) a' b' c' q' = if (a =? a') && (b =? b') && (c =? c') && (off q =? off q') then v else raw n m a' b' c' q'.
Proof.
  intros n m a b c q a' b' c' q' v Hb Hc Hb' Hc' Hq Hq'. unfold raw, put, upd. pose proof (off_range q Hq) as O. pose proof (off_range q' Hq') as O'.
  destruct ((a' * n * n + b' * n + c') * 27 + off q' =? (a * n * n + b * n + c) * 27 + off q) eqn:E.
  - apply Z.eqb_eq in E.
    assert (E1 : a' * n * n + b' * n + c' = a * n * n + b * n + c /\ off q' = off q) by (split; lia). destruct E1 as [E1 E2].
    destruct (radix n (a' * n + b') (a * n + b) c' c) as [E3 E4]; auto; [lia|]. destruct (radix n a' a b' b) as [-> ->]; auto. subst. rewrite E2, !Z.eqb_refl. reflexivity.
  - destruct ((a =? a') && (b =? b') && (c =? c') && (off q =? off q')) eqn:F; [|reflexivity]. exfalso.
    apply andb_true_iff in F. destruct F as [F F4]. apply andb_true_iff in F. destruct F as [F F3]. apply andb_true_iff in F. destruct F as [F1 F2].
    apply Z.eqb_eq in F1, F2, F3, F4. subst. apply Z.eqb_neq in E. apply E. now rewrite F4.
Qed.
Lemma off_inj : forall q q', In q comps -> In q' comps -> off q = off q' -> q = q'.
Proof.
  intros [[i j] k] [[i' j'] k'] H H' E. destruct (off_digits _ _ _ H) as [A1 [A2 A3]]. destruct (off_digits _ _ _ H') as [B1 [B2 B3]]. rewrite E in *. congruence.
Qed.
Lemma in_comps_perm : forall i j k, In (i, j, k) comps -> In (i, k, j) comps /\ In (j, i, k) comps /\ In (j, k, i) comps /\ In (k, i, j) comps /\ In (k, j, i) comps.
Proof. intros i j k H. apply in_comps in H. repeat split; apply in_comps; tauto. Qed.

(** Writes of one component: the six names get v, the rest is kept. *)
Definition same_elem (a b c : Z) (q : Z * Z * Z) (x y z : Z) (p : Z * Z * Z) : Prop := In (x, y, z, p) (names a b c q).
Lemma copy_elem_spec : forall n a b c q v m x y z p, 0 <= a < n -> 0 <= b < n -> 0 <= c < n -> In q comps -> 0 <= x < n -> 0 <= y < n -> 0 <= z < n -> In p comps ->
  (same_elem a b c q x y z p -> raw n (copy_elem n a b c m (q, v)) x y z p = v) /\
  (~ same_elem a b c q x y z p -> raw n (copy_elem n a b c m (q, v)) x y z p = raw n m x y z p).
Proof.
  intros n a b c [[i j] k] v m x y z p Ha Hb Hc Hq Hx Hy Hz Hp. destruct (in_comps_perm _ _ _ Hq) as [P1 [P2 [P3 [P4 P5]]]].
  unfold copy_elem. rewrite !raw_put by auto. unfold same_elem, names.
  assert (K : forall a b c q, In q comps -> (a =? x) && (b =? y) && (c =? z) && (off q =? off p) = true <-> (a, b, c, q) = (x, y, z, p)).
  { intros a0 b0 c0 q0 Hq0. rewrite !andb_true_iff, !Z.eqb_eq. split; [intros [[[-> ->] ->] E]; f_equal; now apply off_inj|intros E; injection E as -> -> -> ->; auto]. }
  repeat match goal with |- context [if ?t then _ else _] => let E := fresh "E" in destruct t eqn:E end;
    rewrite ?K in * by auto; (split; [intros H; auto|intros H; auto]);
    try (exfalso; apply H; cbn; tauto).
  exfalso. cbn in H. rewrite <- not_true_iff_false in *. rewrite K in * by auto. tauto.
Qed.

Lemma filter_perm : forall A (f : A -> bool) l l', Permutation l l' -> Permutation (filter f l) (filter f l').
Proof.
  intros A f l l' H. induction H; cbn; [constructor|destruct (f x); auto|destruct (f x), (f y); auto; apply perm_swap|eapply perm_trans; eauto].
Qed.

Lemma six_perm : forall A (t : nat -> A) l, NoDup l -> (forall x, In x l <-> In x [0; 1; 2; 3; 4; 5]%nat) -> Permutation (map t l) (map t [0; 1; 2; 3; 4; 5]%nat).
Proof. intros A t l N H. apply Permutation_map. apply NoDup_Permutation; [exact N| |exact H]. repeat constructor; cbn; intuition lia. Qed.
Lemma names_perm : forall a b c q x y z p, In (x, y, z, p) (names a b c q) -> Permutation (names x y z p) (names a b c q).
Proof.
  intros a b c [[i j] k] x y z [[i' j'] k'] H. cbn [names In] in H.
  set (t := fun s : nat => nth s [(a, b, c, (i, j, k)); (a, c, b, (i, k, j)); (b, a, c, (j, i, k)); (b, c, a, (j, k, i)); (c, a, b, (k, i, j)); (c, b, a, (k, j, i))] (a, b, c, (i, j, k))).
  destruct H as [E|[E|[E|[E|[E|[E|[]]]]]]]; injection E as <- <- <- <- <- <-; cbn [names].
  - apply Permutation_refl.
  - apply (six_perm _ t [1; 0; 4; 5; 2; 3]%nat); [repeat constructor; cbn; intuition lia|cbn; intuition lia].
  - apply (six_perm _ t [2; 3; 0; 1; 5; 4]%nat); [repeat constructor; cbn; intuition lia|cbn; intuition lia].
  - apply (six_perm _ t [3; 2; 5; 4; 0; 1]%nat); [repeat constructor; cbn; intuition lia|cbn; intuition lia].
  - apply (six_perm _ t [4; 5; 1; 0; 3; 2]%nat); [repeat constructor; cbn; intuition lia|cbn; intuition lia].
  - apply (six_perm _ t [5; 4; 3; 2; 1; 0]%nat); [repeat constructor; cbn; intuition lia|cbn; intuition lia].
Qed.
Lemma mean_perm : forall done v a b c q x y z p, In (x, y, z, p) (names a b c q) -> Qeq (mean_of_done done v x y z p) (mean_of_done done v a b c q).
Proof.
  intros done v a b c q x y z p H. apply names_perm in H. apply (filter_perm _ (fun t => let '(x, y, _, _) := t in is_done done x y)) in H. unfold mean_of_done.
  set (l := filter _ (names x y z p)) in *. set (l' := filter _ (names a b c q)) in *.
  destruct l as [|t l]; destruct l' as [|t' l']; [reflexivity|apply Permutation_nil in H; discriminate|apply Permutation_sym, Permutation_nil in H; discriminate|].
  rewrite (qs_perm _ _ (Permutation_map _ H)). rewrite (Permutation_length H). reflexivity.
Qed.
Lemma mean_ext : forall done v w a b c q, (forall x y z p, In (x, y, z, p) (names a b c q) -> is_done done x y = true -> Qeq (v x y z p) (w x y z p)) ->
  Qeq (mean_of_done done v a b c q) (mean_of_done done w a b c q).
Proof.
  intros done v w a b c q H. unfold mean_of_done. set (l := filter _ (names a b c q)).
  assert (L : forall x y z p, In (x, y, z, p) l -> Qeq (v x y z p) (w x y z p)).
  { intros x y z p K. apply filter_In in K. destruct K as [K1 K2]. now apply H. }
  destruct l as [|t l]; [reflexivity|]. apply Qmult_comp; [|reflexivity]. apply qs_ext. intros [[[x y] z] p] K. now apply L.
Qed.
(** The code's element is the mean. *)
Lemma elem_mean : forall n done m a b c q, Qeq (elem_with_cutoff n done m a b c q) (mean_of_done done (raw n m) a b c q).
Proof.
  intros n done m a b c [[i j] k]. unfold elem_with_cutoff, mean_of_done, num_done, names. cbn [filter].
  destruct (is_done done a b), (is_done done a c), (is_done done b a), (is_done done b c), (is_done done c a), (is_done done c b);
    cbn [filter map qsum fold_right length Z.of_nat Pos.of_succ_nat Pos.succ];
    match goal with |- context [qltb 0 ?s] => let t := eval vm_compute in (qltb 0 s) in change (qltb 0 s) with t; cbv iota end; try reflexivity; field.
Qed.

(** ** one triple of atoms *)
Section Triple.
Variables (n : Z) (a b c : Z) (e : Z * Z * Z -> Q).
Hypotheses (Ha : 0 <= a < n) (Hb : 0 <= b < n) (Hc : 0 <= c < n).
Lemma copy_all : forall x y z p (M : Q), 0 <= x < n -> 0 <= y < n -> 0 <= z < n -> In p comps ->
  (forall q, In q comps -> same_elem a b c q x y z p -> Qeq (e q) M) -> forall l m, incl l comps ->
  Qeq (raw n (fold_left (copy_elem n a b c) (map (fun q => (q, e q)) l) m) x y z p)
      (if existsb (fun q => existsb (fun t => let '(x', y', z', p') := t in (x' =? x) && (y' =? y) && (z' =? z) && (off p' =? off p)) (names a b c q)) l then M else raw n m x y z p).
Proof.
  intros x y z p M Hx Hy Hz Hp HM. induction l as [|q l IH]; intros m Hl; [reflexivity|]. cbn [map fold_left existsb].
  rewrite IH by (intros u Hu; apply Hl; right; exact Hu). assert (Hq : In q comps) by (apply Hl; left; reflexivity).
  destruct (existsb _ l); [rewrite orb_true_r; reflexivity|]. rewrite orb_false_r.
  destruct (copy_elem_spec n a b c q (e q) m x y z p Ha Hb Hc Hq Hx Hy Hz Hp) as [S1 S2].
  assert (K : existsb (fun t => let '(x', y', z', p') := t in (x' =? x) && (y' =? y) && (z' =? z) && (off p' =? off p)) (names a b c q) = true <-> same_elem a b c q x y z p).
  { rewrite existsb_exists. unfold same_elem. split.
    - intros [[[[x' y'] z'] p'] [Hin E]]. rewrite !andb_true_iff, !Z.eqb_eq in E. destruct E as [[[-> ->] ->] E].
      assert (p' = p) as <-; [|exact Hin]. apply off_inj; auto. destruct q as [[i j] k]. destruct (in_comps_perm _ _ _ Hq) as [P1 [P2 [P3 [P4 P5]]]].
      cbn [names In] in Hin. destruct Hin as [H|[H|[H|[H|[H|[H|[]]]]]]]; injection H as _ _ _ <-; auto.
    - intros H. exists (x, y, z, p). split; [exact H|]. now rewrite !Z.eqb_refl. }
  destruct (existsb _ (names a b c q)) eqn:E.
  - rewrite S1 by (now apply K). apply HM; [exact Hq|now apply K].
  - rewrite S2; [reflexivity|]. rewrite <- K. discriminate.
Qed.
End Triple.

(** the atoms x, y, z are a, b, c in some order *)
Definition perm3 (t : Z * Z * Z) (x y z : Z) : bool :=
  let '(a, b, c) := t in
  existsb (fun u => let '(x', y', z') := u in (x' =? x) && (y' =? y) && (z' =? z)) [(a, b, c); (a, c, b); (b, a, c); (b, c, a); (c, a, b); (c, b, a)].
Lemma perm3_iff : forall a b c x y z, perm3 (a, b, c) x y z = true <->
  ((a, b, c) = (x, y, z) \/ (a, c, b) = (x, y, z) \/ (b, a, c) = (x, y, z) \/ (b, c, a) = (x, y, z) \/ (c, a, b) = (x, y, z) \/ (c, b, a) = (x, y, z)).
Proof.
  intros a b c x y z. unfold perm3. cbn [existsb]. rewrite !orb_true_iff, !andb_true_iff, !Z.eqb_eq.
  assert (K : forall u v w, ((u = x /\ v = y) /\ w = z) <-> (u, v, w) = (x, y, z)) by (intros; split; [intros [[-> ->] ->]; auto|intros E; injection E as -> -> ->; auto]).
  rewrite !K. intuition discriminate.
Qed.
Lemma names_perm3 : forall a b c q x y z p, In (x, y, z, p) (names a b c q) -> perm3 (a, b, c) x y z = true.
Proof. intros a b c [[i j] k] x y z p H. apply perm3_iff. cbn [names In] in H. destruct H as [E|[E|[E|[E|[E|[E|[]]]]]]]; injection E as <- <- <- _; tauto. Qed.
Lemma perm3_name : forall a b c x y z p, perm3 (a, b, c) x y z = true -> In p comps -> exists q, In q comps /\ same_elem a b c q x y z p.
Proof.
  intros a b c x y z [[i j] k] H Hp. apply perm3_iff in H. destruct (in_comps_perm _ _ _ Hp) as [P1 [P2 [P3 [P4 P5]]]]. unfold same_elem.
  destruct H as [E|[E|[E|[E|[E|E]]]]]; injection E as <- <- <-.
  - exists (i, j, k). split; [auto|cbn; auto].
  - exists (i, k, j). split; [auto|cbn; auto].
  - exists (j, i, k). split; [auto|cbn; auto].
  - exists (k, i, j). split; [auto|cbn; auto].
  - exists (j, k, i). split; [auto|cbn; auto 6].
  - exists (k, j, i). split; [auto|cbn; auto 7].
Qed.
Lemma triple_spec : forall n done m a b c x y z p, 0 <= a < n -> 0 <= b < n -> 0 <= c < n -> 0 <= x < n -> 0 <= y < n -> 0 <= z < n -> In p comps ->
  Qeq (raw n (cutoff_triple n done m (a, b, c)) x y z p) (if perm3 (a, b, c) x y z then mean_of_done done (raw n m) x y z p else raw n m x y z p).
Proof.
  intros n done m a b c x y z p Ha Hb Hc Hx Hy Hz Hp. unfold cutoff_triple.
  rewrite (copy_all n a b c (elem_with_cutoff n done m a b c) Ha Hb Hc x y z p (mean_of_done done (raw n m) x y z p) Hx Hy Hz Hp).
  - destruct (perm3 (a, b, c) x y z) eqn:P.
    + destruct (perm3_name _ _ _ _ _ _ _ P Hp) as [q [Hq H]].
      match goal with |- context [if ?t then _ else _] => assert (t = true) as -> end; [|reflexivity].
      apply existsb_exists. exists q. split; [exact Hq|]. apply existsb_exists. exists (x, y, z, p). split; [exact H|]. now rewrite !Z.eqb_refl.
    + match goal with |- context [if ?t then _ else _] => assert (t = false) as -> end; [|reflexivity].
      apply not_true_iff_false. intros K. apply existsb_exists in K. destruct K as [q [Hq K]]. apply existsb_exists in K. destruct K as [[[[x' y'] z'] p'] [Hin K]].
      rewrite !andb_true_iff, !Z.eqb_eq in K. destruct K as [[[-> ->] ->] _]. apply names_perm3 in Hin. congruence.
  - intros q Hq S. rewrite elem_mean. symmetry. apply mean_perm. exact S.
  - apply incl_refl.
Qed.
Lemma perm3_sym_trans : forall t t' x y z x' y' z', perm3 t x y z = true -> perm3 (x, y, z) x' y' z' = true -> t' = (x', y', z') -> perm3 t x' y' z' = true.
Proof.
  intros [[a b] c] t' x y z x' y' z' H1 H2 _. apply perm3_iff in H1, H2. apply perm3_iff.
  destruct H1 as [E|[E|[E|[E|[E|E]]]]]; injection E as <- <- <-; destruct H2 as [E|[E|[E|[E|[E|E]]]]]; injection E as <- <- <-; tauto.
Qed.
Lemma perm3_back : forall a b c x y z, perm3 (a, b, c) x y z = true -> perm3 (x, y, z) a b c = true.
Proof. intros a b c x y z H. apply perm3_iff in H. apply perm3_iff. destruct H as [E|[E|[E|[E|[E|E]]]]]; injection E as <- <- <-; tauto. Qed.
Lemma fold_triples : forall n done l m x y z p, (forall a b c, In (a, b, c) l -> 0 <= a < n /\ 0 <= b < n /\ 0 <= c < n) -> NoDup l ->
  (forall a b c a' b' c', In (a, b, c) l -> In (a', b', c') l -> perm3 (a, b, c) a' b' c' = true -> (a, b, c) = (a', b', c')) ->
  0 <= x < n -> 0 <= y < n -> 0 <= z < n -> In p comps ->
  Qeq (raw n (fold_left (cutoff_triple n done) l m) x y z p) (if existsb (fun t => perm3 t x y z) l then mean_of_done done (raw n m) x y z p else raw n m x y z p).
Proof.
  intros n done. induction l as [|[[a b] c] l IH]; intros m x y z p R N D Hx Hy Hz Hp; [reflexivity|]. cbn [fold_left existsb].
  assert (R0 : 0 <= a < n /\ 0 <= b < n /\ 0 <= c < n) by (apply R; left; reflexivity). destruct R0 as [Ha [Hb Hc]].
  rewrite IH; auto; [|intros a' b' c' H; apply R; right; exact H|inversion N; assumption|intros a' b' c' a'' b'' c'' H H'; apply D; right; assumption].
  destruct (existsb (fun t => perm3 t x y z) l) eqn:E.
  - rewrite orb_true_r. apply existsb_exists in E. destruct E as [[[a' b'] c'] [Hin P]]. apply mean_ext. intros x' y' z' p' Hn _.
    pose proof (names_perm3 _ _ _ _ _ _ _ _ Hn) as Q.
    assert (V : (0 <= x' < n /\ 0 <= y' < n /\ 0 <= z' < n) /\ In p' comps).
    { destruct p as [[i j] k]. destruct (in_comps_perm _ _ _ Hp) as [P1 [P2 [P3 [P4 P5]]]].
      cbn [names In] in Hn. destruct Hn as [F|[F|[F|[F|[F|[F|[]]]]]]]; injection F as <- <- <- <-; auto. }
    destruct V as [[V1 [V2 V3]] V4]. rewrite triple_spec by auto.
    destruct (perm3 (a, b, c) x' y' z') eqn:F; [|reflexivity]. exfalso. inversion N as [|? ? N1 N2]. apply N1.
    assert (G : perm3 (a, b, c) a' b' c' = true).
    { apply (perm3_sym_trans _ (a', b', c') x' y' z'); auto. apply perm3_back. apply (perm3_sym_trans _ (x', y', z') x y z); auto. }
    rewrite (D a b c a' b' c' (or_introl eq_refl) (or_intror Hin) G). exact Hin.
  - rewrite orb_false_r. apply triple_spec; auto.
Qed.
Lemma in_triples : forall n a b c, In (a, b, c) (triples n) <-> 0 <= a <= b /\ b <= c < n.
Proof.
  intros n a b c. unfold triples. rewrite in_flat_map. split.
  - intros [i [Hi H]]. apply in_zrange in Hi. apply in_flat_map in H. destruct H as [j [Hj H]]. apply in_zseq in Hj. apply in_map_iff in H. destruct H as [k [E Hk]]. apply in_zseq in Hk.
    injection E as <- <- <-. lia.
  - intros H. exists a. rewrite in_zrange. split; [lia|]. apply in_flat_map. exists b. rewrite in_zseq. split; [lia|]. apply in_map_iff. exists c. rewrite in_zseq. split; [reflexivity|lia].
Qed.
Lemma nodup_triples : forall n, NoDup (triples n).
Proof.
  intros n. apply NoDup_flat_map; [apply NoDup_zrange| |].
  - intros i _. apply NoDup_flat_map; [apply NoDup_zseq| |].
    + intros j _. apply FinFun.Injective_map_NoDup; [intros u v E; now injection E|apply NoDup_zseq].
    + intros j j' u _ _ H H'. apply in_map_iff in H, H'. destruct H as [k [<- _]], H' as [k' [E _]]. now injection E.
  - intros i i' u _ _ H H'. apply in_flat_map in H, H'. destruct H as [j [_ H]], H' as [j' [_ H']]. apply in_map_iff in H, H'. destruct H as [k [<- _]], H' as [k' [E _]]. now injection E.
Qed.
Lemma sorted_name : forall n x y z, 0 <= x < n -> 0 <= y < n -> 0 <= z < n -> exists t, In t (triples n) /\ perm3 t x y z = true.
Proof.
  intros n x y z Hx Hy Hz.
  assert (S : forall a b c, In (a, b, c) [(x, y, z); (x, z, y); (y, x, z); (z, x, y); (y, z, x); (z, y, x)] -> 0 <= a <= b /\ b <= c < n -> exists t, In t (triples n) /\ perm3 t x y z = true).
  { intros a b c Hin H. exists (a, b, c). split; [now apply in_triples|]. apply perm3_iff. cbn [In] in Hin. destruct Hin as [E|[E|[E|[E|[E|[E|[]]]]]]]; injection E as <- <- <-; tauto. }
  destruct (Z_le_gt_dec x y), (Z_le_gt_dec y z), (Z_le_gt_dec x z); try lia.
  - apply (S x y z); [cbn; tauto|lia].
  - apply (S x z y); [cbn; tauto|lia].
  - apply (S z x y); [cbn; tauto|lia].
  - apply (S y x z); [cbn; tauto|lia].
  - apply (S y z x); [cbn; tauto|lia].
  - apply (S z y x); [cbn; tauto|lia].
Qed.
Lemma cutoff_pairs_mean : forall n done m x y z p, 0 <= x < n -> 0 <= y < n -> 0 <= z < n -> In p comps ->
  Qeq (raw n (cutoff_pairs n done m) x y z p) (mean_of_done done (raw n m) x y z p).
Proof.
  intros n done m x y z p Hx Hy Hz Hp. unfold cutoff_pairs. rewrite fold_triples; auto.
  - destruct (sorted_name n x y z Hx Hy Hz) as [t [H1 H2]]. assert (existsb (fun t => perm3 t x y z) (triples n) = true) as -> by (apply existsb_exists; eauto). reflexivity.
  - intros a b c H. apply in_triples in H. lia.
  - apply nodup_triples.
  - intros a b c a' b' c' H H' P. apply in_triples in H, H'. apply perm3_iff in P. destruct P as [E|[E|[E|[E|[E|E]]]]]; injection E as <- <- <-; f_equal; try f_equal; lia.
Qed.
