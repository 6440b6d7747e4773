From Coq Require Import ZArith QArith List Bool Lia Permutation Lqa.
From Verif Require Import Base BaseProofs Par Par2 Fc3Model Fc3Spec.
Import ListNotations.
Open Scope Z_scope.

Lemma adr_pos : forall n x y z, adr n x y z = pos n (fst x) (fst y) (fst z) (snd x) (snd y) (snd z).
Proof. intros. unfold adr, pos. ring. Qed.
Lemma in_comps : forall i j k, In (i, j, k) comps <-> 0 <= i < 3 /\ 0 <= j < 3 /\ 0 <= k < 3.
Proof.
  intros i j k. unfold comps. split.
  - intros H. apply in_flat_map in H. destruct H as [a [Ha H]]. apply in_flat_map in H. destruct H as [b [Hb H]].
    apply in_map_iff in H. destruct H as [c [E Hc]]. apply in_zrange in Ha, Hb, Hc. injection E as -> -> ->. lia.
  - intros [Hi [Hj Hk]]. apply in_flat_map. exists i. split; [now apply in_zrange|].
    apply in_flat_map. exists j. split; [now apply in_zrange|]. apply in_map_iff. exists k. split; [reflexivity|now apply in_zrange].
Qed.
Lemma pos_inj : forall n a b c i j k a' b' c' i' j' k',
  0 <= b < n -> 0 <= c < n -> 0 <= i < 3 -> 0 <= j < 3 -> 0 <= k < 3 ->
  0 <= b' < n -> 0 <= c' < n -> 0 <= i' < 3 -> 0 <= j' < 3 -> 0 <= k' < 3 ->
  pos n a b c i j k = pos n a' b' c' i' j' k' -> a = a' /\ b = b' /\ c = c' /\ i = i' /\ j = j' /\ k = k'.
Proof.
  intros n a b c i j k a' b' c' i' j' k' Hb Hc Hi Hj Hk Hb' Hc' Hi' Hj' Hk' E. unfold pos in E.
  apply flat_inj in E; auto. destruct E as [E ->]. apply flat_inj in E; auto. destruct E as [E ->].
  apply flat_inj in E; auto. destruct E as [E ->]. apply flat_inj in E; auto. destruct E as [E ->].
  apply flat_inj in E; auto. destruct E as [-> ->]. repeat split; reflexivity.
Qed.
Lemma adr_inj : forall n x y z x' y' z', slot_ok n x -> slot_ok n y -> slot_ok n z -> slot_ok n x' -> slot_ok n y' -> slot_ok n z' ->
  adr n x y z = adr n x' y' z' -> x = x' /\ y = y' /\ z = z'.
Proof.
  intros n [a i] [b j] [c k] [a' i'] [b' j'] [c' k'] [? ?] [? ?] [? ?] [? ?] [? ?] [? ?] E. rewrite !adr_pos in E. cbn [fst snd] in *.
  apply pos_inj in E; auto. destruct E as [-> [-> [-> [-> [-> ->]]]]]. repeat split; reflexivity.
Qed.

(** ** the block program *)
Definition block_writes (six : Z * Z * Z -> list Z) (m : Z -> Q) : list (Z * Q) :=
  flat_map (fun q => map (fun ad => (ad, avg6 m (six q))) (six q)) comps.
Lemma averages_six : forall n a b c (m : Z -> Q) l,
  averages (map m (flat_map (six_adr n a b c) l)) = map (fun q => avg6 m (six_adr n a b c q)) l.
Proof. intros n a b c m. induction l as [|[[i j] k] l IH]; [reflexivity|]. cbn [flat_map map app six_adr averages avg6]. f_equal. exact IH. Qed.
Lemma combine_map_self : forall X Y (f : X -> Y) l, combine l (map f l) = map (fun x => (x, f x)) l.
Proof. intros X Y f. induction l as [|x l IH]; cbn; [reflexivity|]. now f_equal. Qed.
Lemma flat_map_map : forall X Y C (f : Y -> list C) (g : X -> Y) l, flat_map f (map g l) = flat_map (fun x => f (g x)) l.
Proof. intros X Y C f g. induction l as [|x l IH]; cbn; [reflexivity|]. now f_equal. Qed.
Lemma run_block : forall n a b c m, run Z.eq_dec (perm_block n a b c) m = store Z.eq_dec m (block_writes (six_adr n a b c) m).
Proof.
  intros. unfold perm_block. rewrite run_rds, run_wprog, averages_six, combine_map_self, flat_map_map. reflexivity.
Qed.
Definition block_cells (n : Z) (x : Z * Z * Z) (a : Z) : Prop :=
  let '(i, j, k) := x in exists q, In q comps /\ In a (six_adr n i j k q).
Lemma length_averages : forall vs k, length vs = (6 * k)%nat -> length (averages vs) = k.
Proof.
  intros vs k. revert vs. induction k as [|k IH]; intros vs H.
  - destruct vs; [reflexivity|cbn in H; lia].
  - do 6 (destruct vs as [|? vs]; [cbn in H; lia|]). cbn [averages length]. f_equal. apply IH. cbn in H. lia.
Qed.
Lemma fp_block : forall n i j k, fp (block_cells n (i, j, k)) (block_cells n (i, j, k)) (perm_block n i j k).
Proof.
  intros. unfold perm_block. apply fp_rds.
  - intros a Ha. apply in_flat_map in Ha. destruct Ha as [q [Hq Ha]]. exists q. auto.
  - intros vs _. apply fp_wprog. intros a Ha. apply in_map_iff in Ha. destruct Ha as [[a' v] [E Ha]]. cbn in E. subst a'.
    apply in_flat_map in Ha. destruct Ha as [[q u] [Hq Ha]]. cbn [fst snd] in Ha. apply in_combine_l in Hq.
    apply in_map_iff in Ha. destruct Ha as [ad [E Ha]]. injection E as -> _. exists q. auto.
Qed.
(** a cell belongs to the block of its sorted atoms, and only to it *)
Definition sorted3 (x : Z * Z * Z) := let '(i, j, k) := x in i <= j <= k.
Definition atoms_ok (n : Z) (x : Z * Z * Z) := let '(i, j, k) := x in 0 <= i /\ sorted3 x /\ k < n.
Lemma in_six : forall n a b c i j k ad, In ad (six_adr n a b c (i, j, k)) <->
  exists x y z, ad = adr n x y z /\
   ((x = (a,i) /\ y = (b,j) /\ z = (c,k)) \/ (x = (a,i) /\ y = (c,k) /\ z = (b,j)) \/ (x = (b,j) /\ y = (a,i) /\ z = (c,k)) \/
    (x = (b,j) /\ y = (c,k) /\ z = (a,i)) \/ (x = (c,k) /\ y = (a,i) /\ z = (b,j)) \/ (x = (c,k) /\ y = (b,j) /\ z = (a,i))).
Proof.
  intros. cbn [six_adr In]. split.
  - intros H. repeat (destruct H as [H|H]; [eexists _, _, _; split; [symmetry; exact H|tauto]|]). contradiction.
  - intros [x [y [z [-> H]]]]. repeat (destruct H as [H|H]; [destruct H as [-> [-> ->]]; tauto|]). destruct H as [-> [-> ->]]; tauto.
Qed.
Lemma six_six : forall n x y z q a b c, slot_ok n x -> slot_ok n y -> slot_ok n z ->
  0 <= a < n -> 0 <= b < n -> 0 <= c < n -> In q comps ->
  In (adr n x y z) (six_adr n a b c q) ->
  forall m, Qeq (avg6 m (six_adr n a b c q)) (sym_mean (full n m) x y z).
Proof.
  intros n x y z [[i j] k] a b c Hx Hy Hz Ha Hb Hc Hq H m. apply in_comps in Hq. destruct Hq as [Hi [Hj Hk]].
  apply in_six in H. destruct H as [x' [y' [z' [E H]]]].
  assert (O1 : slot_ok n (a, i)) by (split; auto). assert (O2 : slot_ok n (b, j)) by (split; auto). assert (O3 : slot_ok n (c, k)) by (split; auto).
  assert (K : slot_ok n x' /\ slot_ok n y' /\ slot_ok n z').
  { clear E. repeat (destruct H as [H|H]; [destruct H as [-> [-> ->]]; auto|]). destruct H as [-> [-> ->]]; auto. }
  destruct K as [K1 [K2 K3]]. apply adr_inj in E; auto. destruct E as [-> [-> ->]].
  unfold sym_mean, full. rewrite <- !adr_pos. cbn [six_adr avg6].
  repeat (destruct H as [H|H]; [destruct H as [-> [-> ->]]; field|]). destruct H as [-> [-> ->]]; field.
Qed.
Lemma block_cells_inj : forall n x y a, atoms_ok n x -> atoms_ok n y -> block_cells n x a -> block_cells n y a -> x = y.
Proof.
  intros n [[i j] k] [[i' j'] k'] a [Hi [[Hij Hjk] Hk]] [Hi' [[Hij' Hjk'] Hk']] [[[q1 q2] q3] [Hq Ha]] [[[r1 r2] r3] [Hr Ha']].
  apply in_comps in Hq, Hr. destruct Hq as [Q1 [Q2 Q3]], Hr as [R1 [R2 R3]].
  apply in_six in Ha. apply in_six in Ha'. destruct Ha as [x [y [z [-> H1]]]], Ha' as [x' [y' [z' [E H2]]]].
  assert (K : slot_ok n x /\ slot_ok n y /\ slot_ok n z).
  { clear E H2. assert (slot_ok n (i, q1)) by (split; cbn; lia). assert (slot_ok n (j, q2)) by (split; cbn; lia).
    assert (slot_ok n (k, q3)) by (split; cbn; lia).
    repeat (destruct H1 as [H1|H1]; [destruct H1 as [-> [-> ->]]; auto|]). destruct H1 as [-> [-> ->]]; auto. }
  assert (K' : slot_ok n x' /\ slot_ok n y' /\ slot_ok n z').
  { clear E H1. assert (slot_ok n (i', r1)) by (split; cbn; lia). assert (slot_ok n (j', r2)) by (split; cbn; lia).
    assert (slot_ok n (k', r3)) by (split; cbn; lia).
    repeat (destruct H2 as [H2|H2]; [destruct H2 as [-> [-> ->]]; auto|]). destruct H2 as [-> [-> ->]]; auto. }
  destruct K as [K1 [K2 K3]], K' as [K1' [K2' K3']]. apply adr_inj in E; auto. destruct E as [E1 [E2 E3]].
  clear K1 K2 K3 K1' K2' K3'.
  assert (P1 : Permutation [i; j; k] [fst x; fst y; fst z]).
  { clear H2. repeat (destruct H1 as [H1|H1]; [destruct H1 as [-> [-> ->]]; cbn|]); [| | | | |destruct H1 as [-> [-> ->]]; cbn].
    - reflexivity.
    - apply perm_skip, perm_swap.
    - apply perm_swap.
    - apply (Permutation_cons_append [j; k] i).
    - apply Permutation_sym, (Permutation_cons_append [i; j] k).
    - apply (Permutation_rev [i; j; k]). }
  assert (P2 : Permutation [i'; j'; k'] [fst x; fst y; fst z]).
  { subst x' y' z'. clear H1 P1. repeat (destruct H2 as [H2|H2]; [destruct H2 as [-> [-> ->]]; cbn|]); [| | | | |destruct H2 as [-> [-> ->]]; cbn].
    - reflexivity.
    - apply perm_skip, perm_swap.
    - apply perm_swap.
    - apply (Permutation_cons_append [j'; k'] i').
    - apply Permutation_sym, (Permutation_cons_append [i'; j'] k').
    - apply (Permutation_rev [i'; j'; k']). }
  assert (P : Permutation [i; j; k] [i'; j'; k']) by (eapply perm_trans; [exact P1|apply Permutation_sym; exact P2]).
  assert (M : forall w, In w [i; j; k] <-> In w [i'; j'; k']) by (intros w; split; apply Permutation_in; auto using Permutation_sym).
  assert (i = i').
  { pose proof (proj1 (M i) ltac:(cbn; auto)) as A1. pose proof (proj2 (M i') ltac:(cbn; auto)) as A2. cbn in A1, A2. lia. }
  subst i'. apply Permutation_cons_inv in P.
  assert (M' : forall w, In w [j; k] <-> In w [j'; k']) by (intros w; split; apply Permutation_in; auto using Permutation_sym).
  assert (j = j').
  { pose proof (proj1 (M' j) ltac:(cbn; auto)) as A1. pose proof (proj2 (M' j') ltac:(cbn; auto)) as A2. cbn in A1, A2. lia. }
  subst j'. apply Permutation_cons_inv in P. apply Permutation_length_1 in P. subst. reflexivity.
Qed.
Lemma cell_block : forall n x y z, slot_ok n x -> slot_ok n y -> slot_ok n z ->
  exists w, atoms_ok n w /\ block_cells n w (adr n x y z).
Proof.
  intros n [a i] [b j] [c k] [Ha Hi] [Hb Hj] [Hc Hk]. cbn [fst snd] in *.
  assert (D : forall (p q r : slot), slot_ok n p -> slot_ok n q -> slot_ok n r -> fst p <= fst q <= fst r ->
     In (adr n (a, i) (b, j) (c, k)) (six_adr n (fst p) (fst q) (fst r) (snd p, snd q, snd r)) ->
     exists w, atoms_ok n w /\ block_cells n w (adr n (a, i) (b, j) (c, k))).
  { intros [p0 p1] [q0 q1] [r0 r1] [? ?] [? ?] [? ?] L HH. cbn [fst snd] in *. exists (p0, q0, r0). split; [cbn; lia|].
    exists (p1, q1, r1). split; [apply in_comps; lia|exact HH]. }
  assert (slot_ok n (a, i)) by (split; auto). assert (slot_ok n (b, j)) by (split; auto). assert (slot_ok n (c, k)) by (split; auto).
  destruct (Z.le_ge_cases a b), (Z.le_ge_cases b c), (Z.le_ge_cases a c); try lia;
  first [ apply (D (a,i) (b,j) (c,k)); cbn [fst snd six_adr In]; solve [auto 10 | lia]
        | apply (D (a,i) (c,k) (b,j)); cbn [fst snd six_adr In]; solve [auto 10 | lia]
        | apply (D (b,j) (a,i) (c,k)); cbn [fst snd six_adr In]; solve [auto 10 | lia]
        | apply (D (b,j) (c,k) (a,i)); cbn [fst snd six_adr In]; solve [auto 10 | lia]
        | apply (D (c,k) (a,i) (b,j)); cbn [fst snd six_adr In]; solve [auto 10 | lia]
        | apply (D (c,k) (b,j) (a,i)); cbn [fst snd six_adr In]; solve [auto 10 | lia] ].
Qed.

(** one iteration of the parallel loop *)
Definition inner_blocks (n i : Z) : list (Z * Z * Z) := flat_map (fun j => map (fun k => (i, j, k)) (zseq j n)) (zseq i n).
Definition block3 (n : Z) (x : Z * Z * Z) := let '(i, j, k) := x in perm_block n i j k.
Lemma run_iteration : forall n i m, run Z.eq_dec (perm_iteration n i) m = run_seq Z.eq_dec (map (block3 n) (inner_blocks n i)) m.
Proof.
  intros. unfold perm_iteration, run_seq, inner_blocks. rewrite run_pfor, fold_map, fold_flat_map.
  revert m. induction (zseq i n) as [|j l IH]; intros m; cbn [fold_left]; [reflexivity|]. rewrite IH. f_equal.
  rewrite run_pfor, fold_map. reflexivity.
Qed.
Lemma in_inner : forall n i x, 0 <= i -> In x (inner_blocks n i) -> atoms_ok n x /\ fst (fst x) = i.
Proof.
  intros n i x Hi H. unfold inner_blocks in H. apply in_flat_map in H. destruct H as [j [Hj H]]. apply in_map_iff in H. destruct H as [k [<- Hk]].
  apply in_zseq in Hj, Hk. cbn. lia.
Qed.
Lemma nodup_inner : forall n i, NoDup (inner_blocks n i).
Proof.
  intros. apply NoDup_flat_map; [apply NoDup_zseq| |].
  - intros j _. apply FinFun.Injective_map_NoDup; [|apply NoDup_zseq]. intros k k' E. congruence.
  - intros j j' b _ _ H H'. apply in_map_iff in H, H'. destruct H as [k [<- _]], H' as [k' [E _]]. congruence.
Qed.
Definition iter_cells (n i a : Z) : Prop := exists x, In x (inner_blocks n i) /\ block_cells n x a.
Lemma fp_iteration : forall n i, fp (iter_cells n i) (iter_cells n i) (perm_iteration n i).
Proof.
  intros. unfold perm_iteration. apply fp_pfor. intros j Hj. apply fp_pfor. intros k Hk.
  assert (In (i, j, k) (inner_blocks n i)).
  { apply in_flat_map. exists j. split; [exact Hj|]. apply in_map_iff. exists k. auto. }
  eapply fp_mono; [| |apply fp_block]; intros a Ha; exists (i, j, k); auto.
Qed.

Lemma perm_any_schedule : forall n m m', finishes Z.eq_dec (perm_iterations n) m m' ->
  (forall x y z, slot_ok n x -> slot_ok n y -> slot_ok n z -> Qeq (full n m' x y z) (sym_mean (full n m) x y z)) /\
  (forall a, (forall x y z, slot_ok n x -> slot_ok n y -> slot_ok n z -> a <> adr n x y z) -> m' a = m a).
Proof.
  intros n m m' F. unfold perm_iterations in F.
  destruct (par_key Z.eq_dec (iter_cells n) (zrange n) (perm_iteration n) m m') as [P1 P2]; auto.
  { apply NoDup_zrange. } { intros; apply fp_iteration. }
  { intros i i' a Hi Hi' [x [Hx Ax]] [y [Hy Ay]]. apply in_zrange in Hi, Hi'.
    destruct (in_inner n i x ltac:(lia) Hx) as [O1 <-]. destruct (in_inner n i' y ltac:(lia) Hy) as [O2 <-].
    rewrite (block_cells_inj n x y a); auto. }
  split.
  - intros x y z Hx Hy Hz. destruct (cell_block n x y z Hx Hy Hz) as [[[i j] k] [[O1 [[O2 O3] O4]] C]].
    assert (I1 : In (i, j, k) (inner_blocks n i)).
    { apply in_flat_map. exists j. split; [apply in_zseq; lia|]. apply in_map_iff. exists k. split; [reflexivity|apply in_zseq; lia]. }
    assert (I2 : In i (zrange n)) by (apply in_zrange; lia).
    unfold full at 1. rewrite <- adr_pos. rewrite (P1 i (adr n x y z)); [|auto|exists (i, j, k); auto].
    rewrite run_iteration.
    destruct (par_key Z.eq_dec (block_cells n) (inner_blocks n i) (block3 n) m (run_seq Z.eq_dec (map (block3 n) (inner_blocks n i)) m)) as [B1 B2].
    { apply nodup_inner. } { intros [[i' j'] k'] _. apply fp_block. }
    { intros u v a Hu Hv. destruct (in_inner n i u ltac:(lia) Hu), (in_inner n i v ltac:(lia) Hv). apply block_cells_inj; auto. }
    { apply seq_finishes. }
    rewrite (B1 (i, j, k) (adr n x y z)) by auto. cbn [block3]. rewrite run_block.
    destruct C as [q [Hq C]].
    apply store_all.
    + apply in_map_iff. exists (adr n x y z, avg6 m (six_adr n i j k q)). split; [reflexivity|]. apply in_flat_map. exists q. split; [auto|].
      apply in_map_iff. exists (adr n x y z). auto.
    + intros v Hv. apply in_flat_map in Hv. destruct Hv as [q' [Hq' Hv]]. apply in_map_iff in Hv. destruct Hv as [ad [E Hv]].
      injection E as -> <-. apply six_six; auto; lia.
  - intros a Ha. apply P2. intros i Hi [[[i' j] k] [Hx [[[q1 q2] q3] [Hq Ax]]]]. apply in_zrange in Hi.
    destruct (in_inner n i (i', j, k) ltac:(lia) Hx) as [[O1 [[O2 O3] O4]] E]. cbn in E. subst i'. apply in_comps in Hq. destruct Hq as [Q1 [Q2 Q3]].
    apply in_six in Ax. destruct Ax as [x [y [z [-> H1]]]].
    assert (slot_ok n (i, q1)) by (split; cbn; lia). assert (slot_ok n (j, q2)) by (split; cbn; lia).
    assert (slot_ok n (k, q3)) by (split; cbn; lia).
    eapply Ha; [| | |reflexivity];
    repeat (destruct H1 as [H1|H1]; [destruct H1 as [-> [-> ->]]; auto|]); destruct H1 as [-> [-> ->]]; auto.
Qed.
