From Coq Require Import ZArith QArith List Bool Lia Permutation Lqa.
From Verif Require Import Base BaseProofs Par Par2 Fc3Model Fc3Spec Fc3Proofs Fc3Compact Fc3Transpose.
Import ListNotations.
Open Scope Z_scope.

(** ** sums of rationals *)
Lemma qs_nil : qsum [] = 0%Q. Proof. reflexivity. Qed.
Lemma qs_cons : forall x l, qsum (x :: l) = (x + qsum l)%Q. Proof. reflexivity. Qed.
Lemma qs_app : forall a b, Qeq (qsum (a ++ b)) (qsum a + qsum b).
Proof. induction a as [|x a IH]; intros b; cbn [map app]; rewrite ?qs_cons, ?qs_nil; [lra|]. rewrite IH. lra. Qed.
Lemma qs_ext : forall X (f g : X -> Q) l, (forall x, In x l -> Qeq (f x) (g x)) -> Qeq (qsum (map f l)) (qsum (map g l)).
Proof. intros X f g. induction l as [|x l IH]; intros H; cbn [map app]; rewrite ?qs_cons, ?qs_nil; [lra|]. rewrite H by (left; auto). rewrite IH by (intros; apply H; right; auto). lra. Qed.
Lemma qs_add : forall X (f g : X -> Q) l, Qeq (qsum (map (fun x => f x + g x)%Q l)) (qsum (map f l) + qsum (map g l)).
Proof. intros X f g. induction l as [|x l IH]; cbn [map app]; rewrite ?qs_cons, ?qs_nil; [lra|]. rewrite IH. lra. Qed.
Lemma qs_scale : forall X (c : Q) (f : X -> Q) l, Qeq (qsum (map (fun x => c * f x)%Q l)) (c * qsum (map f l)).
Proof. intros X c f. induction l as [|x l IH]; cbn [map app]; rewrite ?qs_cons, ?qs_nil; [lra|]. rewrite IH. lra. Qed.
Lemma qs_const : forall X (c : Q) (l : list X), Qeq (qsum (map (fun _ => c) l)) (inject_Z (Z.of_nat (length l)) * c).
Proof.
  intros X c. induction l as [|x l IH]; [cbn [map length]; rewrite qs_nil; change (inject_Z (Z.of_nat 0)) with 0%Q; lra|]. cbn [map length]. rewrite qs_cons, IH.
  rewrite Nat2Z.inj_succ, <- Z.add_1_r, inject_Z_plus. change (inject_Z 1) with 1%Q. lra.
Qed.
Lemma qs_zero : forall X (f : X -> Q) l, (forall x, In x l -> Qeq (f x) 0) -> Qeq (qsum (map f l)) 0.
Proof. intros X f. induction l as [|x l IH]; intros H; cbn [map app]; rewrite ?qs_cons, ?qs_nil; [lra|]. rewrite H by (left; auto). rewrite IH by (intros; apply H; right; auto). lra. Qed.
Lemma qs_swap : forall X Y (f : X -> Y -> Q) lx ly,
  Qeq (qsum (map (fun x => qsum (map (fun y => f x y) ly)) lx)) (qsum (map (fun y => qsum (map (fun x => f x y) lx)) ly)).
Proof.
  intros X Y f lx ly. induction lx as [|x lx IH]; cbn [map].
  - rewrite qs_nil. symmetry. apply qs_zero. intros. reflexivity.
  - rewrite qs_cons, IH. symmetry.
    rewrite (qs_ext _ (fun y => qsum (f x y :: map (fun x0 => f x0 y) lx)) (fun y => f x y + qsum (map (fun x0 => f x0 y) lx))%Q) by (intros; reflexivity).
    apply qs_add.
Qed.
Lemma qs_perm : forall l l', Permutation l l' -> Qeq (qsum l) (qsum l').
Proof. intros l l' P. induction P; rewrite ?qs_cons; lra. Qed.
Lemma zrange_bij : forall n (f : Z -> Z), (forall a, 0 <= a < n -> 0 <= f a < n) ->
  (forall a b, 0 <= a < n -> 0 <= b < n -> f a = f b -> a = b) -> Permutation (map f (zrange n)) (zrange n).
Proof.
  intros n f R I. apply NoDup_Permutation_bis.
  - assert (H : forall l, NoDup l -> (forall x, In x l -> 0 <= x < n) -> NoDup (map f l)).
    { induction l as [|x l IH]; intros N H; cbn; constructor; inversion_clear N as [|? ? N1 N2].
      - intros K. apply in_map_iff in K. destruct K as [y [E Hy]]. apply I in E; [subst; contradiction|apply H; right; auto|apply H; left; auto].
      - apply IH; auto. intros y Hy. apply H. right; auto. }
    apply H; [apply NoDup_zrange|]. intros x. apply in_zrange.
  - rewrite map_length. lia.
  - intros x Hx. apply in_map_iff in Hx. destruct Hx as [y [<- Hy]]. apply in_zrange in Hy. apply in_zrange. auto.
Qed.
Lemma qs_reindex : forall n (f : Z -> Z) (g : Z -> Q), (forall a, 0 <= a < n -> 0 <= f a < n) ->
  (forall a b, 0 <= a < n -> 0 <= b < n -> f a = f b -> a = b) -> Qeq (qsum (map (fun a => g (f a)) (zrange n))) (qsum (map g (zrange n))).
Proof. intros n f g R I. rewrite <- map_map. apply qs_perm. apply Permutation_map. apply zrange_bij; auto. Qed.

(** ** raw access *)
Definition raw (n : Z) (m : Z -> Q) (p b c : Z) (q : Z * Z * Z) : Q := m ((p * n * n + b * n + c) * 27 + off q).
Lemma raw_inj : forall n p b c q p' b' c' q', 0 <= b < n -> 0 <= c < n -> 0 <= b' < n -> 0 <= c' < n -> In q comps -> In q' comps ->
  (p * n * n + b * n + c) * 27 + off q = (p' * n * n + b' * n + c') * 27 + off q' -> p = p' /\ b = b' /\ c = c' /\ q = q'.
Proof.
  intros n p b c q p' b' c' q' Hb Hc Hb' Hc' Hq Hq' E. apply off_inj in E; auto. destruct E as [E ->].
  replace (p * n * n + b * n + c) with ((p * n + b) * n + c) in E by ring. replace (p' * n * n + b' * n + c') with ((p' * n + b') * n + c') in E by ring.
  apply flat_inj in E; auto. destruct E as [E ->]. apply flat_inj in E; auto. destruct E as [-> ->]. auto.
Qed.
Lemma raw_full : forall n m x y z, full n m x y z = raw n m (fst x) (fst y) (fst z) (snd x, snd y, snd z).
Proof. intros. unfold full, raw, pos, off. f_equal. ring. Qed.
Lemma raw_compact : forall t n m x y z, unfold_compact (tb_s2pp t) (tb_nsym t) (tb_perm t) n m x y z =
  raw n m (tb_s2pp t (fst x)) (T t (fst x) (fst y)) (T t (fst x) (fst z)) (snd x, snd y, snd z).
Proof. intros. unfold unfold_compact, raw, pos, off, T. f_equal. ring. Qed.

(** ** transposition of the last two indices *)
Lemma addr_split : forall a, exists C q, In q comps /\ a = C * 27 + off q.
Proof.
  intros a. exists (a / 27), ((a mod 27) / 9, ((a mod 27) mod 9) / 3, (a mod 27) mod 3).
  pose proof (Z.div_mod a 27 ltac:(lia)). pose proof (Z.mod_pos_bound a 27 ltac:(lia)). set (r := a mod 27) in *. clearbody r.
  pose proof (Z.div_mod r 9 ltac:(lia)). pose proof (Z.mod_pos_bound r 9 ltac:(lia)).
  assert (0 <= r / 9 < 3) by (split; [apply Z.div_pos|apply Z.div_lt_upper_bound]; lia).
  pose proof (Z.div_mod (r mod 9) 3 ltac:(lia)). pose proof (Z.mod_pos_bound (r mod 9) 3 ltac:(lia)).
  assert (0 <= (r mod 9) / 3 < 3) by (split; [apply Z.div_pos|apply Z.div_lt_upper_bound]; lia).
  assert (E : r mod 3 = (r mod 9) mod 3).
  { symmetry. apply (Z.mod_unique r 3 (3 * (r / 9) + (r mod 9) / 3)); [left; lia|lia]. }
  split; [apply in_comps; rewrite E; auto|]. cbn [off]. rewrite E. lia.
Qed.
Definition swap3 (n : Z) (x : Z * Z * Z) (m : Z -> Q) : Z -> Q :=
  let '(p, j, k) := x in swap_blocks p12 (p * n * n + j * n + k) (p * n * n + k * n + j) m.
Definition swap3_cells (n : Z) (x : Z * Z * Z) (a : Z) : Prop :=
  let '(p, j, k) := x in exists q, In q comps /\ (a = (p * n * n + j * n + k) * 27 + off q \/ a = (p * n * n + k * n + j) * 27 + off q).
Lemma swap3_local : forall n l, local (swap3_cells n) l (swap3 n).
Proof.
  intros n l [[p j] k] _. cbn [swap3 swap3_cells]. set (A := p * n * n + j * n + k). set (B := p * n * n + k * n + j). split.
  - intros m a H. destruct (addr_split a) as [C [q [Hq ->]]]. rewrite (swap_blocks_spec p12 p12_in p12_inv) by auto.
    destruct (Z.eqb_spec C A) as [->|_]; [exfalso; apply H; exists q; auto|].
    destruct (Z.eqb_spec C B) as [->|_]; [exfalso; apply H; exists q; auto|]. reflexivity.
  - intros m m' H a [q [Hq Ha]]. 
    assert (E : forall C q, In q comps -> C = A \/ C = B -> m (C * 27 + off q) = m' (C * 27 + off q)).
    { intros C q' Hq' HC. apply H. exists q'. destruct HC as [-> | ->]; auto. }
    pose proof (p12_in q Hq).
    destruct Ha as [-> | ->]; rewrite !(swap_blocks_spec p12 p12_in p12_inv) by auto.
    + rewrite Z.eqb_refl. apply E; auto.
    + rewrite Z.eqb_refl. destruct (B =? A); apply E; auto.
Qed.
Definition space2 (np n : Z) : list (Z * Z * Z) :=
  flat_map (fun p => flat_map (fun j => map (fun k => (p, j, k)) (zseq j n)) (zrange n)) (zrange np).
Lemma transpose2_fold : forall np n m, transpose2 n np m = fold_left (fun m x => swap3 n x m) (space2 np n) m.
Proof.
  intros. unfold transpose2, space2. rewrite fold_flat_map. apply fold_ext. intros m1 p _. rewrite fold_flat_map. apply fold_ext. intros m2 j _.
  rewrite fold_map. reflexivity.
Qed.
Lemma in_space2 : forall np n p j k, In (p, j, k) (space2 np n) <-> 0 <= p < np /\ 0 <= j /\ j <= k < n.
Proof.
  intros. unfold space2. rewrite in_flat_map. split.
  - intros [a [Ha H]]. apply in_flat_map in H. destruct H as [b [Hb H]]. apply in_map_iff in H. destruct H as [c [E Hc]].
    apply in_zrange in Ha, Hb. apply in_zseq in Hc. injection E as -> -> ->. lia.
  - intros [Hp [Hj Hk]]. exists p. split; [now apply in_zrange|]. apply in_flat_map. exists j. split; [apply in_zrange; lia|].
    apply in_map_iff. exists k. split; [reflexivity|now apply in_zseq].
Qed.
Lemma nodup_space2 : forall np n, NoDup (space2 np n).
Proof.
  intros. apply NoDup_flat_map; [apply NoDup_zrange| |].
  - intros p _. apply NoDup_flat_map; [apply NoDup_zrange| |].
    + intros j _. apply FinFun.Injective_map_NoDup; [|apply NoDup_zseq]. intros k k' E. congruence.
    + intros j j' b _ _ H H'. apply in_map_iff in H, H'. destruct H as [k [<- _]], H' as [k' [E _]]. congruence.
  - intros i i' b _ _ H H'. apply in_flat_map in H, H'. destruct H as [j [_ H]], H' as [j' [_ H']].
    apply in_map_iff in H, H'. destruct H as [k [<- _]], H' as [k' [E _]]. congruence.
Qed.
Lemma transpose2_raw : forall np n m p b c q, 0 <= p < np -> 0 <= b < n -> 0 <= c < n -> In q comps ->
  raw n (transpose2 n np m) p b c q = raw n m p c b (p12 q).
Proof.
  intros np n m p b c q Hp Hb Hc Hq. rewrite transpose2_fold.
  destruct (fold_indep (swap3_cells n) (swap3 n) (space2 np n) m (swap3_local n _) (nodup_space2 np n)) as [F _].
  { intros [[p1 j1] k1] [[p2 j2] k2] a H1 H2 [q1 [Hq1 A1]] [q2 [Hq2 A2]]. apply in_space2 in H1, H2.
    destruct A1 as [-> | ->], A2 as [A2|A2]; apply raw_inj in A2; try lia; auto; destruct A2 as [-> [E1 [E2 _]]]; subst;
      [reflexivity| | |reflexivity]; assert (j2 = k2) by lia; subst; reflexivity. }
  unfold raw. destruct (Z.le_ge_cases b c) as [L|L].
  - rewrite (F (p, b, c)); [|apply in_space2; lia|exists q; auto]. cbn [swap3]. rewrite (swap_blocks_spec p12 p12_in p12_inv) by auto.
    rewrite Z.eqb_refl. reflexivity.
  - rewrite (F (p, c, b)); [|apply in_space2; lia|exists q; auto]. cbn [swap3]. rewrite (swap_blocks_spec p12 p12_in p12_inv) by auto.
    rewrite Z.eqb_refl. destruct (Z.eqb_spec (p * n * n + b * n + c) (p * n * n + c * n + b)) as [E|_]; [|reflexivity]. now rewrite E.
Qed.

(** ** translational invariance, one index *)
Lemma sub_line_in : forall cells m c, NoDup cells -> In c cells ->
  sub_line cells m c = (m c - qsum (map m cells) / inject_Z (Z.of_nat (length cells)))%Q.
Proof. intros cells m c N H. unfold sub_line. apply (fold_upd_in Z (fun c => c) (fun c => (m c - _)%Q) cells m c N); auto. Qed.
Lemma sub_line_other : forall cells m c, ~ In c cells -> sub_line cells m c = m c.
Proof. intros cells m c H. unfold sub_line. apply (fold_upd_other Z (fun c => c) (fun c => (m c - _)%Q)). now rewrite map_id. Qed.
Definition line_space (idx np n : Z) : list (Z * Z * (Z * Z * Z)) :=
  flat_map (fun i => flat_map (fun j => map (fun q => (i, j, q)) comps) (zrange (shape np n ((2 + idx) mod 3)))) (zrange (shape np n ((1 + idx) mod 3))).
Definition line_cells (idx np n : Z) (x : Z * Z * (Z * Z * Z)) : list Z := let '(i, j, q) := x in map (line idx n i j q) (zrange (shape np n idx)).
Lemma trans_inv_fold : forall idx np n m, trans_inv idx np n m = fold_left (fun m x => sub_line (line_cells idx np n x) m) (line_space idx np n) m.
Proof.
  intros. unfold trans_inv, line_space. rewrite fold_flat_map. apply fold_ext. intros m1 i _. rewrite fold_flat_map. apply fold_ext. intros m2 j _.
  rewrite fold_map. reflexivity.
Qed.
Lemma in_line_space : forall idx np n i j q, In (i, j, q) (line_space idx np n) <->
  0 <= i < shape np n ((1 + idx) mod 3) /\ 0 <= j < shape np n ((2 + idx) mod 3) /\ In q comps.
Proof.
  intros. unfold line_space. rewrite in_flat_map. split.
  - intros [a [Ha H]]. apply in_flat_map in H. destruct H as [b [Hb H]]. apply in_map_iff in H. destruct H as [c [E Hc]].
    apply in_zrange in Ha, Hb. injection E as -> -> ->. auto.
  - intros [Hp [Hj Hk]]. exists i. split; [now apply in_zrange|]. apply in_flat_map. exists j. split; [now apply in_zrange|].
    apply in_map_iff. exists q. auto.
Qed.
Lemma nodup_line_space : forall idx np n, NoDup (line_space idx np n).
Proof.
  intros. apply NoDup_flat_map; [apply NoDup_zrange| |].
  - intros p _. apply NoDup_flat_map; [apply NoDup_zrange| |].
    + intros j _. apply FinFun.Injective_map_NoDup; [|apply NoDup_comps]. intros k k' E. congruence.
    + intros j j' b _ _ H H'. apply in_map_iff in H, H'. destruct H as [k [<- _]], H' as [k' [E _]]. congruence.
  - intros i i' b _ _ H H'. apply in_flat_map in H, H'. destruct H as [j [_ H]], H' as [j' [_ H']].
    apply in_map_iff in H, H'. destruct H as [k [<- _]], H' as [k' [E _]]. congruence.
Qed.
Lemma line_inj : forall idx np n i j q a i' j' q' a', idx = 0 \/ idx = 1 \/ idx = 2 ->
  In (i, j, q) (line_space idx np n) -> In (i', j', q') (line_space idx np n) -> 0 <= a < shape np n idx -> 0 <= a' < shape np n idx ->
  line idx n i j q a = line idx n i' j' q' a' -> i = i' /\ j = j' /\ q = q' /\ a = a'.
Proof.
  intros idx np n i j q a i' j' q' a' Hx H H' Ha Ha' E. apply in_line_space in H, H'. unfold line in E.
  destruct Hx as [-> | [-> | ->]]; cbn in *; apply raw_inj in E; try tauto.
Qed.
Lemma trans_inv_value : forall idx np n m i j q a, idx = 0 \/ idx = 1 \/ idx = 2 -> In (i, j, q) (line_space idx np n) -> 0 <= a < shape np n idx ->
  trans_inv idx np n m (line idx n i j q a) =
  (m (line idx n i j q a) - qsum (map (fun a => m (line idx n i j q a)) (zrange (shape np n idx))) / inject_Z (shape np n idx))%Q.
Proof.
  intros idx np n m i j q a Hx H Ha. rewrite trans_inv_fold.
  assert (ND : forall x, In x (line_space idx np n) -> NoDup (line_cells idx np n x)).
  { intros [[i1 j1] q1] H1. cbn [line_cells]. 
    assert (G : forall l, NoDup l -> (forall b, In b l -> 0 <= b < shape np n idx) -> NoDup (map (line idx n i1 j1 q1) l)).
    { induction l as [|x l IH]; intros N Hl; cbn [map]; constructor; inversion_clear N as [|? ? N1 N2].
      - intros K. apply in_map_iff in K. destruct K as [y [E Hy]]. apply (line_inj idx np) in E; auto; [|apply Hl; right; auto|apply Hl; left; auto].
        destruct E as [_ [_ [_ ->]]]. contradiction.
      - apply IH; auto. intros y Hy. apply Hl. right; auto. }
    apply G; [apply NoDup_zrange|]. intros b. apply in_zrange. }
  set (Sx := fun x b => In b (line_cells idx np n x)).
  destruct (fold_indep Sx (fun x m => sub_line (line_cells idx np n x) m)
              (line_space idx np n) m) as [F _].
  - intros x I. split.
    + intros m1 b Hb. apply sub_line_other. exact Hb.
    + intros m1 m2 E b Hb. unfold Sx in *. rewrite !sub_line_in by auto. rewrite E by auto. rewrite (map_ext_in m1 m2) by auto. reflexivity.
  - apply nodup_line_space.
  - intros [[i1 j1] q1] [[i2 j2] q2] b H1 H2 B1 B2. unfold Sx in *. cbn [line_cells] in *. apply in_map_iff in B1, B2.
    destruct B1 as [a1 [<- A1]], B2 as [a2 [E A2]]. apply in_zrange in A1, A2. apply (line_inj idx np) in E; auto. destruct E as [-> [-> [-> _]]]. reflexivity.
  - assert (C : In (line idx n i j q a) (line_cells idx np n (i, j, q))) by (apply in_map; apply in_zrange; auto).
    specialize (F (i, j, q) (line idx n i j q a) H C).
    rewrite F.
    rewrite sub_line_in by auto. cbn [line_cells]. rewrite map_map, map_length, length_zrange, Z2Nat.id by lia. reflexivity.
Qed.
