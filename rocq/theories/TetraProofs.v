(** Lemmas about the tetrahedron formulas. *)
From Coq Require Import ZArith QArith Qabs List Bool Lia Lqa Setoid Morphisms Permutation.
From Verif Require Import Base Mat3 QMat TetraModel TetraSpec.
Import ListNotations.
Open Scope Q_scope.

(** ** sort_omegas *)
Definition perm3 (b c d x y z : Q) : Prop :=
  (x = b /\ y = c /\ z = d) \/ (x = b /\ y = d /\ z = c) \/ (x = c /\ y = b /\ z = d) \/
  (x = c /\ y = d /\ z = b) \/ (x = d /\ y = b /\ z = c) \/ (x = d /\ y = c /\ z = b).

Lemma sort_spec : forall a b c d,
  let '(t4 x0 x1 x2 x3, ci) := sort_omegas (t4 a b c d) in
  (x0 <= x1 /\ x1 <= x2 /\ x2 <= x3) /\
  ((ci = 0%Z /\ x0 = a /\ perm3 b c d x1 x2 x3) \/ (ci = 1%Z /\ x1 = a /\ perm3 b c d x0 x2 x3) \/
   (ci = 2%Z /\ x2 = a /\ perm3 b c d x0 x1 x3) \/ (ci = 3%Z /\ x3 = a /\ perm3 b c d x0 x1 x2)).
Proof.
  intros a b c d. unfold sort_omegas.
  repeat match goal with
    | |- context [qltb ?x ?y] => let E := fresh "E" in destruct (qltb x y) eqn:E;
        [apply qltb_lt in E | apply qltb_ge in E]; cbn -[Qle Qlt qltb] end;
  (split; [repeat split; lra|]); unfold perm3; 
  first [left; split; [reflexivity|]; tauto | right; left; split; [reflexivity|]; tauto
        | right; right; left; split; [reflexivity|]; tauto | right; right; right; split; [reflexivity|]; tauto].
Qed.

Definition cnt (q : Q) (l : list Q) : Z := zcount (fun z => qltb z q) l.
Lemma cnt_perm : forall q l l', Permutation l l' -> cnt q l = cnt q l'.
Proof.
  intros q l l' H. unfold cnt, zcount. f_equal. apply Permutation_length.
  induction H; cbn; auto.
  - destruct (qltb x q); auto.
  - destruct (qltb y q), (qltb x q); auto using perm_swap.
  - eapply perm_trans; eauto.
Qed.

Ltac qcase := match goal with
  | |- context [qltb ?x ?y] => let E := fresh "E" in destruct (qltb x y) eqn:E;
        [apply qltb_lt in E | apply qltb_ge in E] end.
Ltac qcase_in H := match type of H with
  | context [qltb ?x ?y] => let E := fresh "E" in destruct (qltb x y) eqn:E;
        [apply qltb_lt in E | apply qltb_ge in E] end.

Lemma sorted_unique_le : forall x0 x1 x2 x3 y0 y1 y2 y3,
  x0 <= x1 /\ x1 <= x2 /\ x2 <= x3 -> y0 <= y1 /\ y1 <= y2 /\ y2 <= y3 ->
  Permutation [x0; x1; x2; x3] [y0; y1; y2; y3] -> y0 <= x0 /\ y1 <= x1 /\ y2 <= x2 /\ y3 <= x3.
Proof.
  intros x0 x1 x2 x3 y0 y1 y2 y3 [X1 [X2 X3]] [Y1 [Y2 Y3]] H.
  repeat split; apply Qnot_lt_le; intros K;
  match type of K with _ < ?y => pose proof (cnt_perm y _ _ H) as C end;
  unfold cnt, zcount in C; cbn [filter] in C;
  repeat (qcase_in C; try lra); cbn in C; lia.
Qed.
Lemma sorted_unique : forall x0 x1 x2 x3 y0 y1 y2 y3,
  x0 <= x1 /\ x1 <= x2 /\ x2 <= x3 -> y0 <= y1 /\ y1 <= y2 /\ y2 <= y3 ->
  Permutation [x0; x1; x2; x3] [y0; y1; y2; y3] -> x0 == y0 /\ x1 == y1 /\ x2 == y2 /\ x3 == y3.
Proof.
  intros. destruct (sorted_unique_le x0 x1 x2 x3 y0 y1 y2 y3) as [? [? [? ?]]]; auto.
  destruct (sorted_unique_le y0 y1 y2 y3 x0 x1 x2 x3) as [? [? [? ?]]]; auto using Permutation_sym.
  repeat split; lra.
Qed.

Ltac perm_tac := match goal with
  | |- Permutation ?l ?l => apply Permutation_refl
  | |- Permutation (?x :: _) (?x :: _) => apply perm_skip; perm_tac
  | |- Permutation (?x :: _) (?y :: ?x :: ?l) =>
      change (y :: x :: l) with ([y] ++ x :: l); apply Permutation_cons_app; cbn [app]; perm_tac
  | |- Permutation (?x :: _) (?y :: ?z :: ?x :: ?l) =>
      change (y :: z :: x :: l) with ([y; z] ++ x :: l); apply Permutation_cons_app; cbn [app]; perm_tac
  | |- Permutation (?x :: _) (?y :: ?z :: ?u :: ?x :: ?l) =>
      change (y :: z :: u :: x :: l) with ([y; z; u] ++ x :: l); apply Permutation_cons_app; cbn [app]; perm_tac
  end.
Lemma sort_perm : forall a b c d,
  let '(t4 x0 x1 x2 x3, ci) := sort_omegas (t4 a b c d) in
  Permutation [a; b; c; d] [x0; x1; x2; x3].
Proof.
  intros a b c d. pose proof (sort_spec a b c d) as H.
  destruct (sort_omegas (t4 a b c d)) as [[x0 x1 x2 x3] ci]. destruct H as [_ H]. unfold perm3 in H.
  repeat match type of H with _ \/ _ => destruct H as [H|H] end;
  repeat match goal with H : _ /\ _ |- _ => destruct H end;
  repeat match goal with H : _ \/ _ |- _ => destruct H end;
  repeat match goal with H : _ /\ _ |- _ => destruct H end; subst; perm_tac.
Qed.

(** ** Monotone polynomials on the unit box *)
Definition inbox (t t' : Q) : Prop := 0 <= t /\ t <= t' /\ t' <= 1.
Definition p10 (x y z : Q) : Q := x * y * z * (4 - x - y - z).
Definition p20 (t s r x : Q) : Q := t * (s + (1 - s) * (r * (2 - r))) + (1 - t) * (x * r * (3 - r - x)).
Definition p21 (t s r x : Q) : Q := t * s * (3 - s - t) + t * (1 - s) * r * (2 - s - t) + (1 - t) * (1 - t) * x * r.
Definition p22 (t s r x : Q) : Q := t * t * (s + r * (1 - s)) + r * x * (1 - t) * (t + x).
Definition p23 (t s r x : Q) : Q := t * s * s + r * (1 - s) * t * (s + r) + r * r * x * (1 - t).

Lemma mul_nn : forall a b, 0 <= a -> 0 <= b -> 0 <= a * b.
Proof. intros. apply Qmult_le_0_compat; auto. Qed.
Lemma le_diff : forall a b k e, 0 <= k -> 0 <= e -> b - a == k * e -> a <= b.
Proof. intros a b k e Hk He E. pose proof (mul_nn k e Hk He). lra. Qed.

(** [p] is non-decreasing in each variable on the box: the four partial differences *)
Ltac box := unfold inbox in *; repeat match goal with H : _ /\ _ |- _ => destruct H end.

Lemma p10_mono : forall x x' y y' z z', inbox x x' -> inbox y y' -> inbox z z' -> p10 x y z <= p10 x' y' z'.
Proof.
  assert (S : forall x x' y z, inbox x x' -> 0 <= y <= 1 -> 0 <= z <= 1 -> p10 x y z <= p10 x' y z).
  { intros. box. apply (le_diff _ _ ((x' - x) * (y * z)) (4 - x - x' - y - z)).
    - apply mul_nn; [lra|]. apply mul_nn; lra.
    - lra.
    - unfold p10. ring. }
  intros x x' y y' z z' Hx Hy Hz.
  apply Qle_trans with (p10 x' y z); [apply S; box; lra|].
  apply Qle_trans with (p10 x' y' z).
  - assert (forall a b c, p10 a b c == p10 b a c) as C by (intros; unfold p10; ring).
    rewrite (C x' y), (C x' y'). apply S; box; lra.
  - assert (forall a b c, p10 a b c == p10 c b a) as C by (intros; unfold p10; ring).
    rewrite (C x' y' z), (C x' y' z'). apply S; box; lra.
Qed.

Ltac nn := repeat first [lra | apply mul_nn | nra].

Lemma p20_mono : forall t t' s s' r r' x x', inbox t t' -> inbox s s' -> inbox r r' -> inbox x x' ->
  p20 t s r x <= p20 t' s' r' x'.
Proof.
  intros t t' s s' r r' x x' Ht Hs Hr Hx. box.
  apply Qle_trans with (p20 t s r x').
  { apply (le_diff _ _ ((x' - x) * ((1 - t) * r)) (3 - r - x - x')); [nn|lra|unfold p20; ring]. }
  apply Qle_trans with (p20 t s r' x').
  { apply (le_diff _ _ (r' - r) (t * ((1 - s) * (2 - r - r')) + (1 - t) * (x' * (3 - r - r' - x')))); [lra| |unfold p20; ring].
    assert (0 <= t * ((1 - s) * (2 - r - r'))) by nn. assert (0 <= (1 - t) * (x' * (3 - r - r' - x'))) by nn. lra. }
  apply Qle_trans with (p20 t s' r' x').
  { apply (le_diff _ _ (s' - s) (t * (1 - r' * (2 - r')))); [lra| |unfold p20; ring].
    assert (0 <= (1 - r') * (1 - r')) by nn. apply mul_nn; [lra|]. lra. }
  apply (le_diff _ _ (t' - t) (s' + (1 - s') * (r' * (2 - r')) - x' * r' * (3 - r' - x'))); [lra| |unfold p20; ring].
  assert (0 <= r' * ((1 - x') * (2 - r' - x'))) by nn.
  assert (0 <= s' * ((1 - r') * (1 - r'))) by nn. lra.
Qed.

Lemma p21_mono : forall t t' s s' r r' x x', inbox t t' -> inbox s s' -> inbox r r' -> inbox x x' ->
  p21 t s r x <= p21 t' s' r' x'.
Proof.
  intros t t' s s' r r' x x' Ht Hs Hr Hx. box.
  apply Qle_trans with (p21 t s r x').
  { apply (le_diff _ _ (x' - x) ((1 - t) * ((1 - t) * r))); [lra|nn|unfold p21; ring]. }
  apply Qle_trans with (p21 t s r' x').
  { apply (le_diff _ _ (r' - r) (t * ((1 - s) * (2 - s - t)) + (1 - t) * ((1 - t) * x'))); [lra| |unfold p21; ring].
    assert (0 <= t * ((1 - s) * (2 - s - t))) by nn. assert (0 <= (1 - t) * ((1 - t) * x')) by nn. lra. }
  apply Qle_trans with (p21 t s' r' x').
  { apply (le_diff _ _ ((s' - s) * t) ((3 - s - s' - t) * (1 - r'))); [nn|nn|unfold p21; ring]. }
  (* in t: the difference quotient at t, t' is the average of the endpoint derivatives *)
  apply (le_diff _ _ (t' - t)
    (s' * (3 - s' - t - t') + (1 - s') * r' * (2 - s' - t - t') - (2 - t - t') * x' * r')); [lra| |unfold p21; ring].
  set (u := (t + t') * (1 # 2)). assert (0 <= u <= 1) as Hu by (unfold u; lra).
  assert (t + t' == 2 * u) as Eu by (unfold u; ring).
  assert (0 <= (1 - u) * (s' * ((3 - s') * (1 - r')))) by nn.
  assert (0 <= (1 - u) * ((2 * r') * (1 - x'))) by nn.
  assert (0 <= u * (s' * ((1 - s') * (1 - r')))) by nn.
  assert (s' * (3 - s' - t - t') + (1 - s') * r' * (2 - s' - t - t') - (2 - t - t') * x' * r' ==
    (1 - u) * (s' * ((3 - s') * (1 - r'))) + (1 - u) * ((2 * r') * (1 - x')) + u * (s' * ((1 - s') * (1 - r')))) as E.
  { setoid_replace (3 - s' - t - t') with (3 - s' - 2 * u) by (rewrite <- Eu; ring).
    setoid_replace (2 - s' - t - t') with (2 - s' - 2 * u) by (rewrite <- Eu; ring).
    setoid_replace (2 - t - t') with (2 - 2 * u) by (rewrite <- Eu; ring). ring. }
  rewrite E. lra.
Qed.

Lemma p22_mono : forall t t' s s' r r' x x', inbox t t' -> inbox s s' -> inbox r r' -> inbox x x' ->
  p22 t s r x <= p22 t' s' r' x'.
Proof.
  intros t t' s s' r r' x x' Ht Hs Hr Hx. box.
  apply Qle_trans with (p22 t s r x').
  { apply (le_diff _ _ (x' - x) (r * ((1 - t) * (t + x + x')))); [lra|nn|unfold p22; ring]. }
  apply Qle_trans with (p22 t s r' x').
  { apply (le_diff _ _ (r' - r) (t * (t * (1 - s)) + x' * ((1 - t) * (t + x')))); [lra| |unfold p22; ring].
    assert (0 <= t * (t * (1 - s))) by nn. assert (0 <= x' * ((1 - t) * (t + x'))) by nn. lra. }
  apply Qle_trans with (p22 t s' r' x').
  { apply (le_diff _ _ ((s' - s) * (t * t)) (1 - r')); [nn|lra|unfold p22; ring]. }
  apply (le_diff _ _ (t' - t) ((t + t') * (s' + r' * (1 - s')) + r' * x' * (1 - t - t' - x'))); [lra| |unfold p22; ring].
  set (u := (t + t') * (1 # 2)). assert (0 <= u <= 1) as Hu by (unfold u; lra).
  assert (t + t' == 2 * u) as Eu by (unfold u; ring).
  assert (0 <= (1 - u) * (r' * (x' * (1 - x')))) by nn.
  assert (0 <= u * (2 * (s' * (1 - r')) + r' * ((1 - x') * (2 + x')))).
  { assert (0 <= s' * (1 - r')) by nn. assert (0 <= r' * ((1 - x') * (2 + x'))) by nn. apply mul_nn; lra. }
  setoid_replace (1 - t - t' - x') with (1 - 2 * u - x') by (rewrite <- Eu; ring). rewrite Eu.
  assert (2 * u * (s' + r' * (1 - s')) + r' * x' * (1 - 2 * u - x') ==
    (1 - u) * (r' * (x' * (1 - x'))) + u * (2 * (s' * (1 - r')) + r' * ((1 - x') * (2 + x')))) as E by ring.
  rewrite E. lra.
Qed.

Lemma p23_mono : forall t t' s s' r r' x x', inbox t t' -> inbox s s' -> inbox r r' -> inbox x x' ->
  p23 t s r x <= p23 t' s' r' x'.
Proof.
  intros t t' s s' r r' x x' Ht Hs Hr Hx. box.
  apply Qle_trans with (p23 t s r x').
  { apply (le_diff _ _ (x' - x) (r * (r * (1 - t)))); [lra|nn|unfold p23; ring]. }
  apply Qle_trans with (p23 t s r' x').
  { apply (le_diff _ _ (r' - r) (t * ((1 - s) * (s + r + r')) + (r + r') * (x' * (1 - t)))); [lra| |unfold p23; ring].
    assert (0 <= t * ((1 - s) * (s + r + r'))) by nn. assert (0 <= (r + r') * (x' * (1 - t))) by nn. lra. }
  apply Qle_trans with (p23 t s' r' x').
  { apply (le_diff _ _ ((s' - s) * t) ((s + s' + r') * (1 - r'))); [nn|nn|unfold p23; ring]. }
  apply (le_diff _ _ (t' - t) (s' * s' + r' * (1 - s') * (s' + r') - r' * r' * x')); [lra| |unfold p23; ring].
  assert (0 <= r' * (r' * (1 - x'))) by nn. assert (0 <= (s' * (s' + r')) * (1 - r')) by nn. lra.
Qed.

(** ** Ideal weights on sorted vertices *)
Definition phi (w lo hi : Q) : Q := (w - lo) / (hi - lo).

Lemma phi_inbox : forall w w' lo hi, lo < hi -> lo <= w -> w <= w' -> w' <= hi ->
  inbox (phi w lo hi) (phi w' lo hi).
Proof.
  intros w w' lo hi H H1 H2 H3. unfold inbox, phi.
  split; [apply Qle_shift_div_l; lra|]. split; [|apply Qle_shift_div_r; lra].
  unfold Qdiv. apply Qmult_le_compat_r; [lra|]. apply Qinv_le_0_compat. lra.
Qed.
Lemma phi_01 : forall w lo hi, lo < hi -> lo <= w -> w <= hi -> 0 <= phi w lo hi <= 1.
Proof. intros. destruct (phi_inbox w w lo hi) as [? [? ?]]; auto; lra. Qed.
Lemma phi_lo : forall w lo hi, w == lo -> phi w lo hi == 0.
Proof. intros w lo hi H. unfold phi. setoid_replace (w - lo) with 0 by lra. unfold Qdiv. ring. Qed.
Lemma phi_hi : forall w lo hi, lo < hi -> w == hi -> phi w lo hi == 1.
Proof. intros w lo hi H E. unfold phi. setoid_replace (w - lo) with (hi - lo) by lra. field. lra. Qed.
#[global] Instance phi_proper : Proper (Qeq ==> Qeq ==> Qeq ==> Qeq) phi.
Proof. intros a b H c d H' e f H''. unfold phi. rewrite H, H', H''. reflexivity. Qed.

Definition PJ (w : Q) (x : T4) (i k : Z) : Q :=
  let '(t4 x0 x1 x2 x3) := x in
  let f10 := phi w x0 x1 in let f20 := phi w x0 x2 in let f30 := phi w x0 x3 in
  let f21 := phi w x1 x2 in let f31 := phi w x1 x3 in let f32 := phi w x2 x3 in
  let a := 1 - f30 in let b := 1 - f31 in let c := 1 - f32 in
  match i, k with
  | 1%Z, 0%Z => p10 f10 f20 f30 / 4
  | 1%Z, 1%Z => f10 * f20 * f30 * f10 / 4
  | 1%Z, 2%Z => f10 * f20 * f30 * f20 / 4
  | 1%Z, 3%Z => f10 * f20 * f30 * f30 / 4
  | 2%Z, 0%Z => p20 f21 f31 f30 f20 / 4
  | 2%Z, 1%Z => p21 f21 f31 f30 f20 / 4
  | 2%Z, 2%Z => p22 f21 f31 f30 f20 / 4
  | 2%Z, 3%Z => p23 f21 f31 f30 f20 / 4
  | 3%Z, 0%Z => (1 - a * b * c * a) / 4
  | 3%Z, 1%Z => (1 - a * b * c * b) / 4
  | 3%Z, 2%Z => (1 - a * b * c * c) / 4
  | 3%Z, 3%Z => (1 - p10 a b c) / 4
  | 4%Z, _ => 1 # 4
  | _, _ => 0
  end.
Definition PN (w : Q) (x : T4) (i : Z) : Q :=
  let '(t4 x0 x1 x2 x3) := x in
  let f10 := phi w x0 x1 in let f20 := phi w x0 x2 in let f30 := phi w x0 x3 in
  let f21 := phi w x1 x2 in let f31 := phi w x1 x3 in let f32 := phi w x2 x3 in
  match i with
  | 1%Z => f10 * f20 * f30
  | 2%Z => f21 * (f31 + (1 - f31) * f30) + (1 - f21) * (f20 * f30)
  | 3%Z => 1 - (1 - f30) * (1 - f31) * (1 - f32)
  | 4%Z => 1
  | _ => 0
  end.

Lemma PJ_sum : forall w x i, In i [0; 1; 2; 3; 4]%Z -> PJ w x i 0 + PJ w x i 1 + PJ w x i 2 + PJ w x i 3 == PN w x i.
Proof.
  intros w [x0 x1 x2 x3] i H. cbn [In] in H.
  repeat match type of H with _ \/ _ => destruct H as [H|H] end; try contradiction; subst i;
  cbn [PJ PN]; unfold p10, p20, p21, p22, p23;
  generalize (phi w x0 x1) (phi w x0 x2) (phi w x0 x3) (phi w x1 x2) (phi w x1 x3) (phi w x2 x3); intros; try reflexivity; field.
Qed.

(** region of [w] among sorted values *)
Definition in_region (w : Q) (x : T4) (i : Z) : Prop :=
  let '(t4 x0 x1 x2 x3) := x in
  match i with
  | 0%Z => w < x0 | 1%Z => x0 < w < x1 | 2%Z => x1 < w < x2 | 3%Z => x2 < w < x3 | 4%Z => x3 < w | _ => False
  end.
Definition sorted4 (x : T4) : Prop := let '(t4 x0 x1 x2 x3) := x in x0 <= x1 /\ x1 <= x2 /\ x2 <= x3.

Lemma region_spec : forall w x, sorted4 x ->
  match region w x with
  | Some i => In i [0; 1; 2; 3; 4]%Z /\ in_region w x i
  | None => let '(t4 x0 x1 x2 x3) := x in w == x0 \/ w == x1 \/ w == x2 \/ w == x3
  end.
Proof.
  intros w [x0 x1 x2 x3] [H1 [H2 H3]]. unfold region.
  repeat (qcase; cbn [andb]); cbn [in_region In]; try (split; [tauto|lra]);
  (assert (w <= x0 \/ x0 < w) as [?|?] by lra; [left; lra|];
   assert (w <= x1 \/ x1 < w) as [?|?] by lra; [right; left; lra|];
   assert (w <= x2 \/ x2 < w) as [?|?] by lra; [right; right; left; lra|];
   right; right; right; lra).
Qed.
Lemma in_region_unique : forall w x i j, sorted4 x -> In i [0; 1; 2; 3; 4]%Z -> In j [0; 1; 2; 3; 4]%Z ->
  in_region w x i -> in_region w x j -> i = j.
Proof.
  intros w [x0 x1 x2 x3] i j [H1 [H2 H3]] Hi Hj. cbn [In] in Hi, Hj.
  repeat match type of Hi with _ \/ _ => destruct Hi as [Hi|Hi] end; try contradiction; subst i;
  repeat match type of Hj with _ \/ _ => destruct Hj as [Hj|Hj] end; try contradiction; subst j;
  cbn [in_region]; intros A B; try reflexivity; exfalso; lra.
Qed.

(** bounds of region i = 1,2,3 *)
Definition rlo (x : T4) (i : Z) : Q := let '(t4 x0 x1 x2 x3) := x in match i with 1%Z => x0 | 2%Z => x1 | _ => x2 end.
Definition rhi (x : T4) (i : Z) : Q := let '(t4 x0 x1 x2 x3) := x in match i with 1%Z => x1 | 2%Z => x2 | _ => x3 end.

Lemma inbox_1 : forall t t', inbox t t' -> inbox (1 - t') (1 - t).
Proof. intros t t' [? [? ?]]. unfold inbox. lra. Qed.
Lemma prod_mono : forall a a' b b', 0 <= a <= a' -> 0 <= b <= b' -> 0 <= a * b <= a' * b'.
Proof.
  intros a a' b b' [A1 A2] [B1 B2]. split; [now apply mul_nn|].
  assert (0 <= (a' - a) * b) by (apply mul_nn; lra). assert (0 <= a' * (b' - b)) by (apply mul_nn; lra). lra.
Qed.
Lemma div4_le : forall a b, a <= b -> a / 4 <= b / 4.
Proof. intros. unfold Qdiv. apply Qmult_le_compat_r; [auto|discriminate]. Qed.
Lemma prod4 : forall a a' b b' c c' d d', inbox a a' -> inbox b b' -> inbox c c' -> inbox d d' ->
  a * b * c * d <= a' * b' * c' * d'.
Proof.
  intros. box. apply prod_mono; [|lra]. apply prod_mono; [|lra]. apply prod_mono; lra.
Qed.

Lemma PJ_mono_in : forall w w' x i k, sorted4 x -> In i [1; 2; 3]%Z -> In k [0; 1; 2; 3]%Z ->
  rlo x i < rhi x i -> rlo x i <= w -> w <= w' -> w' <= rhi x i -> PJ w x i k <= PJ w' x i k.
Proof.
  intros w w' [x0 x1 x2 x3] i k [S1 [S2 S3]] Hi Hk H Hw Hww Hw'. cbn [In] in Hi, Hk.
  repeat match type of Hi with _ \/ _ => destruct Hi as [Hi|Hi] end; try contradiction; subst i; cbn [rlo rhi] in *.
  - assert (B1 : inbox (phi w x0 x1) (phi w' x0 x1)) by (apply phi_inbox; lra).
    assert (B2 : inbox (phi w x0 x2) (phi w' x0 x2)) by (apply phi_inbox; lra).
    assert (B3 : inbox (phi w x0 x3) (phi w' x0 x3)) by (apply phi_inbox; lra).
    repeat match type of Hk with _ \/ _ => destruct Hk as [Hk|Hk] end; try contradiction; subst k; cbn [PJ]; apply div4_le.
    + now apply p10_mono. + now apply prod4. + now apply prod4. + now apply prod4.
  - assert (B1 : inbox (phi w x1 x2) (phi w' x1 x2)) by (apply phi_inbox; lra).
    assert (B2 : inbox (phi w x1 x3) (phi w' x1 x3)) by (apply phi_inbox; lra).
    assert (B3 : inbox (phi w x0 x3) (phi w' x0 x3)) by (apply phi_inbox; lra).
    assert (B4 : inbox (phi w x0 x2) (phi w' x0 x2)) by (apply phi_inbox; lra).
    repeat match type of Hk with _ \/ _ => destruct Hk as [Hk|Hk] end; try contradiction; subst k; cbn [PJ]; apply div4_le.
    + now apply p20_mono. + now apply p21_mono. + now apply p22_mono. + now apply p23_mono.
  - assert (B1 : inbox (phi w x0 x3) (phi w' x0 x3)) by (apply phi_inbox; lra).
    assert (B2 : inbox (phi w x1 x3) (phi w' x1 x3)) by (apply phi_inbox; lra).
    assert (B3 : inbox (phi w x2 x3) (phi w' x2 x3)) by (apply phi_inbox; lra).
    apply inbox_1 in B1, B2, B3.
    repeat match type of Hk with _ \/ _ => destruct Hk as [Hk|Hk] end; try contradiction; subst k; cbn [PJ]; apply div4_le.
    + pose proof (prod4 _ _ _ _ _ _ _ _ B1 B2 B3 B1). lra.
    + pose proof (prod4 _ _ _ _ _ _ _ _ B1 B2 B3 B2). lra.
    + pose proof (prod4 _ _ _ _ _ _ _ _ B1 B2 B3 B3). lra.
    + pose proof (p10_mono _ _ _ _ _ _ B1 B2 B3). lra.
Qed.

(** ** Values at the region ends *)
#[global] Instance p10_proper : Proper (Qeq ==> Qeq ==> Qeq ==> Qeq) p10.
Proof. intros a b H c d H' e f H''. unfold p10. rewrite H, H', H''. reflexivity. Qed.
#[global] Instance p20_proper : Proper (Qeq ==> Qeq ==> Qeq ==> Qeq ==> Qeq) p20.
Proof. intros a b H c d H' e f H'' g h H3. unfold p20. rewrite H, H', H'', H3. reflexivity. Qed.
#[global] Instance p21_proper : Proper (Qeq ==> Qeq ==> Qeq ==> Qeq ==> Qeq) p21.
Proof. intros a b H c d H' e f H'' g h H3. unfold p21. rewrite H, H', H'', H3. reflexivity. Qed.
#[global] Instance p22_proper : Proper (Qeq ==> Qeq ==> Qeq ==> Qeq ==> Qeq) p22.
Proof. intros a b H c d H' e f H'' g h H3. unfold p22. rewrite H, H', H'', H3. reflexivity. Qed.
#[global] Instance p23_proper : Proper (Qeq ==> Qeq ==> Qeq ==> Qeq ==> Qeq) p23.
Proof. intros a b H c d H' e f H'' g h H3. unfold p23. rewrite H, H', H'', H3. reflexivity. Qed.

Ltac each_k Hk := cbn [In] in Hk; repeat match type of Hk with _ \/ _ => destruct Hk as [Hk|Hk] end; try contradiction; subst.

Lemma PJ_1_2 : forall x0 x1 x2 x3 k, x0 < x1 -> x1 < x2 -> x2 <= x3 -> In k [0; 1; 2; 3]%Z ->
  PJ x1 (t4 x0 x1 x2 x3) 1 k == PJ x1 (t4 x0 x1 x2 x3) 2 k.
Proof.
  intros x0 x1 x2 x3 k H1 H2 H3 Hk. each_k Hk; cbn [PJ];
  rewrite (phi_hi x1 x0 x1), (phi_lo x1 x1 x2), (phi_lo x1 x1 x3) by lra;
  unfold p10, p20, p21, p22, p23; field.
Qed.
Lemma PJ_2_3 : forall x0 x1 x2 x3 k, x0 <= x1 -> x1 < x2 -> x2 < x3 -> In k [0; 1; 2; 3]%Z ->
  PJ x2 (t4 x0 x1 x2 x3) 2 k == PJ x2 (t4 x0 x1 x2 x3) 3 k.
Proof.
  intros x0 x1 x2 x3 k H1 H2 H3 Hk. each_k Hk; cbn [PJ];
  rewrite (phi_hi x2 x1 x2), (phi_hi x2 x0 x2), (phi_lo x2 x2 x3) by lra;
  unfold p10, p20, p21, p22, p23; field.
Qed.
Lemma PJ_1_3 : forall x0 x1 x2 x3 k, x0 < x1 -> x1 == x2 -> x2 < x3 -> In k [0; 1; 2; 3]%Z ->
  PJ x1 (t4 x0 x1 x2 x3) 1 k == PJ x2 (t4 x0 x1 x2 x3) 3 k.
Proof.
  intros x0 x1 x2 x3 k H1 H2 H3 Hk. each_k Hk; cbn [PJ];
  rewrite (phi_hi x1 x0 x1), (phi_hi x1 x0 x2), (phi_lo x2 x2 x3), (phi_lo x2 x1 x3) by lra;
  rewrite H2; unfold p10, p20, p21, p22, p23; field.
Qed.
(** lower end: 0 *)
Lemma PJ_low : forall w x i k, sorted4 x -> In i [1; 2; 3]%Z -> In k [0; 1; 2; 3]%Z ->
  rlo x i < rhi x i -> rlo x i <= w -> w <= rhi x i -> 0 <= PJ w x i k <= (1 # 4).
Proof.
  intros w [x0 x1 x2 x3] i k [S1 [S2 S3]] Hi Hk H Hw Hw'.
  assert (I0 : forall t, 0 <= t <= 1 -> inbox 0 t) by (intros; unfold inbox; lra).
  assert (I1 : forall t, 0 <= t <= 1 -> inbox t 1) by (intros; unfold inbox; lra).
  assert (D : forall a, 0 <= a <= 1 -> 0 <= a / 4 <= (1 # 4)).
  { intros a [A1 A2]. split; [apply Qle_shift_div_l; lra|]. apply Qle_shift_div_r; lra. }
  each_k Hi; cbn [rlo rhi] in *.
  - assert (B1 := phi_01 w x0 x1 ltac:(lra) ltac:(lra) ltac:(lra)).
    assert (B2 := phi_01 w x0 x2 ltac:(lra) ltac:(lra) ltac:(lra)).
    assert (B3 := phi_01 w x0 x3 ltac:(lra) ltac:(lra) ltac:(lra)).
    each_k Hk; cbn [PJ]; apply D.
    { pose proof (p10_mono _ _ _ _ _ _ (I0 _ B1) (I0 _ B2) (I0 _ B3)) as L.
      pose proof (p10_mono _ _ _ _ _ _ (I1 _ B1) (I1 _ B2) (I1 _ B3)) as U.
      setoid_replace (p10 0 0 0) with 0 in L by (unfold p10; ring). setoid_replace (p10 1 1 1) with 1 in U by (unfold p10; ring). lra. }
    all: match goal with |- 0 <= ?a * ?b * ?c * ?d <= 1 =>
        pose proof (prod4 0 a 0 b 0 c 0 d) as L; pose proof (prod4 a 1 b 1 c 1 d 1) as U end;
      setoid_replace (0 * 0 * 0 * 0) with 0 in L by ring; setoid_replace (1 * 1 * 1 * 1) with 1 in U by ring; auto.
  - assert (B1 := phi_01 w x1 x2 ltac:(lra) ltac:(lra) ltac:(lra)).
    assert (B2 := phi_01 w x1 x3 ltac:(lra) ltac:(lra) ltac:(lra)).
    assert (B3 := phi_01 w x0 x3 ltac:(lra) ltac:(lra) ltac:(lra)).
    assert (B4 := phi_01 w x0 x2 ltac:(lra) ltac:(lra) ltac:(lra)).
    each_k Hk; cbn [PJ]; apply D.
    + pose proof (p20_mono _ _ _ _ _ _ _ _ (I0 _ B1) (I0 _ B2) (I0 _ B3) (I0 _ B4)) as L.
      pose proof (p20_mono _ _ _ _ _ _ _ _ (I1 _ B1) (I1 _ B2) (I1 _ B3) (I1 _ B4)) as U.
      setoid_replace (p20 0 0 0 0) with 0 in L by (unfold p20; ring). setoid_replace (p20 1 1 1 1) with 1 in U by (unfold p20; ring). lra.
    + pose proof (p21_mono _ _ _ _ _ _ _ _ (I0 _ B1) (I0 _ B2) (I0 _ B3) (I0 _ B4)) as L.
      pose proof (p21_mono _ _ _ _ _ _ _ _ (I1 _ B1) (I1 _ B2) (I1 _ B3) (I1 _ B4)) as U.
      setoid_replace (p21 0 0 0 0) with 0 in L by (unfold p21; ring). setoid_replace (p21 1 1 1 1) with 1 in U by (unfold p21; ring). lra.
    + pose proof (p22_mono _ _ _ _ _ _ _ _ (I0 _ B1) (I0 _ B2) (I0 _ B3) (I0 _ B4)) as L.
      pose proof (p22_mono _ _ _ _ _ _ _ _ (I1 _ B1) (I1 _ B2) (I1 _ B3) (I1 _ B4)) as U.
      setoid_replace (p22 0 0 0 0) with 0 in L by (unfold p22; ring). setoid_replace (p22 1 1 1 1) with 1 in U by (unfold p22; ring). lra.
    + pose proof (p23_mono _ _ _ _ _ _ _ _ (I0 _ B1) (I0 _ B2) (I0 _ B3) (I0 _ B4)) as L.
      pose proof (p23_mono _ _ _ _ _ _ _ _ (I1 _ B1) (I1 _ B2) (I1 _ B3) (I1 _ B4)) as U.
      setoid_replace (p23 0 0 0 0) with 0 in L by (unfold p23; ring). setoid_replace (p23 1 1 1 1) with 1 in U by (unfold p23; ring). lra.
  - assert (B1 := phi_01 w x0 x3 ltac:(lra) ltac:(lra) ltac:(lra)).
    assert (B2 := phi_01 w x1 x3 ltac:(lra) ltac:(lra) ltac:(lra)).
    assert (B3 := phi_01 w x2 x3 ltac:(lra) ltac:(lra) ltac:(lra)).
    set (a := phi w x0 x3) in *. set (b := phi w x1 x3) in *. set (c := phi w x2 x3) in *.
    assert (C1 : 0 <= 1 - a <= 1) by lra. assert (C2 : 0 <= 1 - b <= 1) by lra. assert (C3 : 0 <= 1 - c <= 1) by lra.
    each_k Hk; cbn [PJ]; fold a b c; apply D.
    4:{ pose proof (p10_mono _ _ _ _ _ _ (I0 _ C1) (I0 _ C2) (I0 _ C3)) as L.
      pose proof (p10_mono _ _ _ _ _ _ (I1 _ C1) (I1 _ C2) (I1 _ C3)) as U.
      setoid_replace (p10 0 0 0) with 0 in L by (unfold p10; ring). setoid_replace (p10 1 1 1) with 1 in U by (unfold p10; ring). lra. }
    all: match goal with |- 0 <= 1 - ?a * ?b * ?c * ?d <= 1 =>
        pose proof (prod4 0 a 0 b 0 c 0 d) as L; pose proof (prod4 a 1 b 1 c 1 d 1) as U end;
      setoid_replace (0 * 0 * 0 * 0) with 0 in L by ring; setoid_replace (1 * 1 * 1 * 1) with 1 in U by ring;
      specialize (L ltac:(apply I0; assumption) ltac:(apply I0; assumption) ltac:(apply I0; assumption) ltac:(apply I0; assumption));
      specialize (U ltac:(apply I1; assumption) ltac:(apply I1; assumption) ltac:(apply I1; assumption) ltac:(apply I1; assumption)); lra.
Qed.

Lemma PJ_bounds : forall w x i k, sorted4 x -> In i [0; 1; 2; 3; 4]%Z -> In k [0; 1; 2; 3]%Z -> in_region w x i ->
  0 <= PJ w x i k <= (1 # 4).
Proof.
  intros w [x0 x1 x2 x3] i k S Hi Hk H.
  each_k Hi; cbn [in_region] in H.
  - each_k Hk; cbn [PJ]; lra.
  - apply PJ_low; cbn [In rlo rhi]; auto; lra.
  - apply PJ_low; cbn [In rlo rhi]; auto; lra.
  - apply PJ_low; cbn [In rlo rhi]; auto; lra.
  - each_k Hk; cbn [PJ]; lra.
Qed.

Lemma PJ_mono : forall w w' x i j k, sorted4 x -> In i [0; 1; 2; 3; 4]%Z -> In j [0; 1; 2; 3; 4]%Z -> In k [0; 1; 2; 3]%Z ->
  in_region w x i -> in_region w' x j -> w <= w' -> PJ w x i k <= PJ w' x j k.
Proof.
  intros w w' x i j k S Hi Hj Hk Ri Rj Hw.
  assert (B := PJ_bounds w x i k S Hi Hk Ri). assert (B' := PJ_bounds w' x j k S Hj Hk Rj).
  assert (M := fun w w' i => PJ_mono_in w w' x i k S).
  destruct x as [x0 x1 x2 x3]. pose proof S as [S1 [S2 S3]].
  assert (C0 : forall w, PJ w (t4 x0 x1 x2 x3) 0 k == 0) by (intros; each_k Hk; reflexivity).
  assert (C4 : forall w, PJ w (t4 x0 x1 x2 x3) 4 k == (1 # 4)) by (intros; each_k Hk; reflexivity).
  each_k Hi; cbn [in_region] in Ri.
  - rewrite C0. lra.
  - each_k Hj; cbn [in_region] in Rj; try (exfalso; lra).
    + apply M; cbn [In rlo rhi]; auto; lra.
    + apply Qle_trans with (PJ x1 (t4 x0 x1 x2 x3) 1 k); [apply M; cbn [In rlo rhi]; auto; lra|].
      rewrite PJ_1_2 by (auto; lra). apply M; cbn [In rlo rhi]; auto; lra.
    + apply Qle_trans with (PJ x1 (t4 x0 x1 x2 x3) 1 k); [apply M; cbn [In rlo rhi]; auto; lra|].
      apply Qle_trans with (PJ x2 (t4 x0 x1 x2 x3) 3 k); [|apply M; cbn [In rlo rhi]; auto; lra].
      assert (x1 == x2 \/ x1 < x2) as [E|L] by lra.
      * rewrite PJ_1_3 by (auto; lra). lra.
      * rewrite PJ_1_2 by (auto; lra). rewrite <- PJ_2_3 by (auto; lra). apply M; cbn [In rlo rhi]; auto; lra.
    + rewrite C4. lra.
  - each_k Hj; cbn [in_region] in Rj; try (exfalso; lra).
    + apply M; cbn [In rlo rhi]; auto; lra.
    + apply Qle_trans with (PJ x2 (t4 x0 x1 x2 x3) 2 k); [apply M; cbn [In rlo rhi]; auto; lra|].
      rewrite PJ_2_3 by (auto; lra). apply M; cbn [In rlo rhi]; auto; lra.
    + rewrite C4. lra.
  - each_k Hj; cbn [in_region] in Rj; try (exfalso; lra).
    + apply M; cbn [In rlo rhi]; auto; lra.
    + rewrite C4. lra.
  - each_k Hj; cbn [in_region] in Rj; try (exfalso; lra). rewrite !C4. lra.
Qed.

(** Equal vertices have equal weights. *)
Lemma phi_eq : forall w a b c d, a == c -> b == d -> phi w a b == phi w c d.
Proof. intros w a b c d H H'. rewrite H, H'. reflexivity. Qed.

Definition t4z (x : T4) (k : Z) : Q :=
  let '(t4 x0 x1 x2 x3) := x in match k with 0%Z => x0 | 1%Z => x1 | 2%Z => x2 | _ => x3 end.
Lemma PJ_tie : forall w x i j k, sorted4 x -> In i [0; 1; 2; 3; 4]%Z -> In j [0; 1; 2; 3]%Z -> In k [0; 1; 2; 3]%Z ->
  in_region w x i -> t4z x j == t4z x k -> PJ w x i j == PJ w x i k.
Proof.
  intros w [x0 x1 x2 x3] i j k [S1 [S2 S3]] Hi Hj Hk H E.
  each_k Hi; cbn [in_region] in H; each_k Hj; each_k Hk; cbn [t4z] in E; cbn [PJ];
  try reflexivity; try (exfalso; lra).
  all: try (rewrite (phi_eq w x0 x1 x0 x2) by lra; field).
  all: try (rewrite (phi_eq w x0 x2 x0 x3) by lra; field).
  all: try (rewrite (phi_eq w x0 x1 x0 x3) by lra; field).
  all: try (rewrite (phi_eq w x0 x3 x1 x3) by lra; field).
  all: try (rewrite (phi_eq w x1 x3 x2 x3) by lra; field).
  all: try (rewrite (phi_eq w x0 x3 x2 x3) by lra; field).
  all: try (rewrite (phi_eq w x0 x3 x1 x3), (phi_eq w x0 x2 x1 x2) by lra; unfold p20, p21; field).
  all: try (rewrite (phi_eq w x1 x3 x1 x2), (phi_eq w x0 x3 x0 x2) by lra; unfold p22, p23; field).
Qed.

(** ** The formulas of the code against the ideal weights *)
#[global] Instance qltb_proper : Proper (Qeq ==> Qeq ==> eq) qltb.
Proof.
  intros a b H c d H'. destruct (qltb b d) eqn:E.
  - apply qltb_lt in E. apply qltb_lt. rewrite H, H'. exact E.
  - apply qltb_ge in E. apply qltb_ge. rewrite H, H'. exact E.
Qed.

Lemma f_up : forall eps w v n m, t4get v m < t4get v n -> eps <= t4get v n - t4get v m ->
  f_ eps w v n m == phi w (t4get v m) (t4get v n).
Proof.
  intros eps w v n m H G. unfold f_. assert (Qabs (t4get v n - t4get v m) == t4get v n - t4get v m) as E by (apply Qabs_pos; lra).
  rewrite E. qcase; [exfalso; lra|]. reflexivity.
Qed.
Lemma f_down : forall eps w v n m, t4get v n < t4get v m -> eps <= t4get v m - t4get v n ->
  f_ eps w v n m == 1 - phi w (t4get v n) (t4get v m).
Proof.
  intros eps w v n m H G. unfold f_.
  assert (Qabs (t4get v n - t4get v m) == t4get v m - t4get v n) as E.
  { rewrite Qabs_neg by lra. ring. }
  rewrite E. qcase; [exfalso; lra|]. unfold phi. field. lra.
Qed.

Definition gapx (eps : Q) (x : T4) (i : Z) : Prop :=
  match i with 1%Z | 2%Z | 3%Z => eps <= rhi x i - rlo x i | _ => True end.

Definition JT (eps w : Q) (x : T4) (i k : Z) : Q :=
  if (((i =? 2) || (i =? 3))%Z && qltb (PN w x i) eps)%bool then 0 else PJ w x i k.

Lemma cancel4 : forall a n, (n == 0 -> a == 0) -> a / 4 / n * n == a / 4.
Proof.
  intros a n H. destruct (Qeq_dec n 0) as [E|E].
  - rewrite (H E). unfold Qdiv. ring.
  - field. exact E.
Qed.

Lemma div4_zero : forall a b, a / 4 == 0 -> b == a -> b == 0.
Proof. intros a b H E. rewrite E. setoid_replace a with (a / 4 * 4) by field. rewrite H. ring. Qed.

(** closed regions *)
Definition closed_region (w : Q) (x : T4) (i : Z) : Prop :=
  match i with 1%Z | 2%Z | 3%Z => rlo x i < rhi x i /\ rlo x i <= w <= rhi x i | _ => True end.
Lemma in_closed : forall w x i, in_region w x i -> closed_region w x i.
Proof.
  intros w [x0 x1 x2 x3] i H. unfold closed_region. destruct i as [|p|p]; auto.
  destruct p as [[p|p|]|[p|p|]|]; auto; cbn [in_region rlo rhi] in *; lra.
Qed.

Lemma J_ideal : forall eps w x i k, 0 <= eps -> sorted4 x -> In i [0; 1; 2; 3; 4]%Z -> In k [0; 1; 2; 3]%Z ->
  closed_region w x i -> gapx eps x i -> J_ eps w x i k * n_ eps w x i == JT eps w x i k /\ n_ eps w x i == PN w x i.
Proof.
  intros eps w x i k He S Hi Hk H G.
  assert (B : In i [1; 2; 3]%Z -> forall k, In k [0; 1; 2; 3]%Z -> 0 <= PJ w x i k <= (1 # 4)).
  { intros Hi' k' Hk'. apply PJ_low; auto; each_k Hi'; cbn [closed_region] in H; tauto. }
  assert (Hsum := PJ_sum w x i Hi).
  destruct x as [x0 x1 x2 x3]. pose proof S as [S1 [S2 S3]]. unfold JT.
  each_k Hi; cbn [closed_region gapx rlo rhi Z.eqb Pos.eqb orb andb] in *; try specialize (B ltac:(cbn; auto)).
  - split; [|reflexivity]. each_k Hk; cbn [J_ n_ PJ]; ring.
  - assert (F10 := f_up eps w (t4 x0 x1 x2 x3) 1 0 ltac:(cbn; lra) ltac:(cbn; lra)). assert (F01 := f_down eps w (t4 x0 x1 x2 x3) 0 1 ltac:(cbn; lra) ltac:(cbn; lra)).
    assert (F20 := f_up eps w (t4 x0 x1 x2 x3) 2 0 ltac:(cbn; lra) ltac:(cbn; lra)). assert (F02 := f_down eps w (t4 x0 x1 x2 x3) 0 2 ltac:(cbn; lra) ltac:(cbn; lra)).
    assert (F30 := f_up eps w (t4 x0 x1 x2 x3) 3 0 ltac:(cbn; lra) ltac:(cbn; lra)). assert (F03 := f_down eps w (t4 x0 x1 x2 x3) 0 3 ltac:(cbn; lra) ltac:(cbn; lra)).
    cbn [t4get] in *.
    split; [|cbn [n_ PN]; unfold n_1; rewrite F10, F20, F30; reflexivity].
    each_k Hk; cbn [J_ n_ PJ]; unfold J_10, J_11, J_12, J_13, n_1; rewrite ?F10, ?F20, ?F30, ?F01, ?F02, ?F03; unfold p10; field.
  - assert (F21 := f_up eps w (t4 x0 x1 x2 x3) 2 1 ltac:(cbn; lra) ltac:(cbn; lra)). assert (F12 := f_down eps w (t4 x0 x1 x2 x3) 1 2 ltac:(cbn; lra) ltac:(cbn; lra)).
    assert (F31 := f_up eps w (t4 x0 x1 x2 x3) 3 1 ltac:(cbn; lra) ltac:(cbn; lra)). assert (F13 := f_down eps w (t4 x0 x1 x2 x3) 1 3 ltac:(cbn; lra) ltac:(cbn; lra)).
    assert (F20 := f_up eps w (t4 x0 x1 x2 x3) 2 0 ltac:(cbn; lra) ltac:(cbn; lra)). assert (F02 := f_down eps w (t4 x0 x1 x2 x3) 0 2 ltac:(cbn; lra) ltac:(cbn; lra)).
    assert (F30 := f_up eps w (t4 x0 x1 x2 x3) 3 0 ltac:(cbn; lra) ltac:(cbn; lra)). assert (F03 := f_down eps w (t4 x0 x1 x2 x3) 0 3 ltac:(cbn; lra) ltac:(cbn; lra)).
    cbn [t4get] in *.
    assert (n_2 eps w (t4 x0 x1 x2 x3) == PN w (t4 x0 x1 x2 x3) 2) as En.
    { unfold n_2. cbn [PN]. rewrite F31, F21, F30, F13, F20, F12. ring. }
    split; [|exact En].
    assert (PZ : n_2 eps w (t4 x0 x1 x2 x3) == 0 -> forall k, In k [0; 1; 2; 3]%Z -> PJ w (t4 x0 x1 x2 x3) 2 k == 0).
    { intros Z k' Hk'. rewrite En in Z. pose proof (B 0%Z ltac:(cbn; auto)). pose proof (B 1%Z ltac:(cbn; auto)).
      pose proof (B 2%Z ltac:(cbn; auto)). pose proof (B 3%Z ltac:(cbn; auto)). each_k Hk'; lra. }
    rewrite <- En.
    each_k Hk; cbn [J_ n_]; unfold J_20, J_21, J_22, J_23; (qcase; [ring|]).
    all: match goal with |- ?a / 4 / ?n * ?n == _ => rewrite (cancel4 a n) end.
    all: try (rewrite ?F21, ?F31, ?F30, ?F13, ?F20, ?F12, ?F02, ?F03; cbn [PJ]; unfold p20, p21, p22, p23; field).
    + intros Z. specialize (PZ Z 0%Z ltac:(cbn; auto)). cbn [PJ] in PZ.
      apply (div4_zero _ _ PZ). rewrite ?F21, ?F31, ?F30, ?F13, ?F20, ?F12, ?F02, ?F03. unfold p10, p20, p21, p22, p23. ring.
    + intros Z. specialize (PZ Z 1%Z ltac:(cbn; auto)). cbn [PJ] in PZ.
      apply (div4_zero _ _ PZ). rewrite ?F21, ?F31, ?F30, ?F13, ?F20, ?F12, ?F02, ?F03. unfold p10, p20, p21, p22, p23. ring.
    + intros Z. specialize (PZ Z 2%Z ltac:(cbn; auto)). cbn [PJ] in PZ.
      apply (div4_zero _ _ PZ). rewrite ?F21, ?F31, ?F30, ?F13, ?F20, ?F12, ?F02, ?F03. unfold p10, p20, p21, p22, p23. ring.
    + intros Z. specialize (PZ Z 3%Z ltac:(cbn; auto)). cbn [PJ] in PZ.
      apply (div4_zero _ _ PZ). rewrite ?F21, ?F31, ?F30, ?F13, ?F20, ?F12, ?F02, ?F03. unfold p10, p20, p21, p22, p23. ring.
  - assert (F30 := f_up eps w (t4 x0 x1 x2 x3) 3 0 ltac:(cbn; lra) ltac:(cbn; lra)). assert (F03 := f_down eps w (t4 x0 x1 x2 x3) 0 3 ltac:(cbn; lra) ltac:(cbn; lra)).
    assert (F31 := f_up eps w (t4 x0 x1 x2 x3) 3 1 ltac:(cbn; lra) ltac:(cbn; lra)). assert (F13 := f_down eps w (t4 x0 x1 x2 x3) 1 3 ltac:(cbn; lra) ltac:(cbn; lra)).
    assert (F32 := f_up eps w (t4 x0 x1 x2 x3) 3 2 ltac:(cbn; lra) ltac:(cbn; lra)). assert (F23 := f_down eps w (t4 x0 x1 x2 x3) 2 3 ltac:(cbn; lra) ltac:(cbn; lra)).
    cbn [t4get] in *.
    assert (n_3 eps w (t4 x0 x1 x2 x3) == PN w (t4 x0 x1 x2 x3) 3) as En.
    { unfold n_3. cbn [PN]. rewrite F03, F13, F23. ring. }
    split; [|exact En].
    assert (PZ : n_3 eps w (t4 x0 x1 x2 x3) == 0 -> forall k, In k [0; 1; 2; 3]%Z -> PJ w (t4 x0 x1 x2 x3) 3 k == 0).
    { intros Z k' Hk'. rewrite En in Z. pose proof (B 0%Z ltac:(cbn; auto)). pose proof (B 1%Z ltac:(cbn; auto)).
      pose proof (B 2%Z ltac:(cbn; auto)). pose proof (B 3%Z ltac:(cbn; auto)). each_k Hk'; lra. }
    rewrite <- En.
    each_k Hk; cbn [J_ n_]; unfold J_30, J_31, J_32, J_33; (qcase; [ring|]).
    all: match goal with |- ?a / 4 / ?n * ?n == _ => rewrite (cancel4 a n) end.
    all: try (rewrite ?F30, ?F31, ?F32, ?F03, ?F13, ?F23; cbn [PJ]; unfold p10; field).
    + intros Z. specialize (PZ Z 0%Z ltac:(cbn; auto)). cbn [PJ] in PZ.
      apply (div4_zero _ _ PZ). rewrite ?F30, ?F31, ?F32, ?F03, ?F13, ?F23. unfold p10, p20, p21, p22, p23. ring.
    + intros Z. specialize (PZ Z 1%Z ltac:(cbn; auto)). cbn [PJ] in PZ.
      apply (div4_zero _ _ PZ). rewrite ?F30, ?F31, ?F32, ?F03, ?F13, ?F23. unfold p10, p20, p21, p22, p23. ring.
    + intros Z. specialize (PZ Z 2%Z ltac:(cbn; auto)). cbn [PJ] in PZ.
      apply (div4_zero _ _ PZ). rewrite ?F30, ?F31, ?F32, ?F03, ?F13, ?F23. unfold p10, p20, p21, p22, p23. ring.
    + intros Z. specialize (PZ Z 3%Z ltac:(cbn; auto)). cbn [PJ] in PZ.
      apply (div4_zero _ _ PZ). rewrite ?F30, ?F31, ?F32, ?F03, ?F13, ?F23. unfold p10, p20, p21, p22, p23. ring.
  - split; [|reflexivity]. each_k Hk; cbn [J_ n_ PJ]; ring.
Qed.

(** ** Differential weights *)
Definition PD (w : Q) (x : T4) : Q :=
  let '(t4 x0 x1 x2 x3) := x in
  let t := phi w x1 x2 in (1 - t) * phi w x0 x2 + t * (1 - phi w x1 x3).
Definition PI (w : Q) (x : T4) (i k : Z) : Q :=
  let '(t4 x0 x1 x2 x3) := x in
  let f10 := phi w x0 x1 in let f20 := phi w x0 x2 in let f30 := phi w x0 x3 in
  let f21 := phi w x1 x2 in let f31 := phi w x1 x3 in let f32 := phi w x2 x3 in
  let a := 1 - f30 in let b := 1 - f31 in let c := 1 - f32 in
  let g' := PD w x in
  match i, k with
  | 1%Z, 0%Z => f10 * f20 * (3 - f10 - f20 - f30) / (x3 - x0)
  | 1%Z, 1%Z => f10 * f20 * f10 / (x3 - x0)
  | 1%Z, 2%Z => f10 * f20 * f20 / (x3 - x0)
  | 1%Z, 3%Z => f10 * f20 * f30 / (x3 - x0)
  | 2%Z, 0%Z => ((1 - f30) * g' + (1 - f20) * (1 - f21) * f20) / (x3 - x0)
  | 2%Z, 1%Z => ((1 - f21) * g' + (1 - f31) * (1 - f31) * f21) / (x3 - x0)
  | 2%Z, 2%Z => (f21 * g' + f20 * (1 - f21) * f20) / (x3 - x0)
  | 2%Z, 3%Z => (f30 * g' + f31 * (1 - f31) * f21) / (x3 - x0)
  | 3%Z, 0%Z => b * c * a / (x3 - x0)
  | 3%Z, 1%Z => b * c * b / (x3 - x0)
  | 3%Z, 2%Z => b * c * c / (x3 - x0)
  | 3%Z, 3%Z => b * c * (3 - a - b - c) / (x3 - x0)
  | _, _ => 0
  end.
Definition PG (w : Q) (x : T4) (i : Z) : Q :=
  let '(t4 x0 x1 x2 x3) := x in
  match i with
  | 1%Z => 3 * phi w x0 x1 * phi w x0 x2 / (x3 - x0)
  | 2%Z => 3 * PD w x / (x3 - x0)
  | 3%Z => 3 * (1 - phi w x1 x3) * (1 - phi w x2 x3) / (x3 - x0)
  | _ => 0
  end.
Definition IT (eps w : Q) (x : T4) (i k : Z) : Q :=
  if ((i =? 2)%Z && qltb (PD w x) eps)%bool then 0 else PI w x i k.

Lemma PI_sum : forall w x i, In i [0; 1; 2; 3; 4]%Z -> PI w x i 0 + PI w x i 1 + PI w x i 2 + PI w x i 3 == PG w x i.
Proof.
  intros w [x0 x1 x2 x3] i H. each_k H; cbn [PI PG PD]; unfold Qdiv; try ring.
Qed.

Lemma div_nn : forall a b, 0 <= a -> 0 < b -> 0 <= a / b.
Proof. intros. apply Qle_shift_div_l; lra. Qed.

Lemma PI_bounds : forall w x i k, sorted4 x -> In i [0; 1; 2; 3; 4]%Z -> In k [0; 1; 2; 3]%Z -> in_region w x i ->
  0 <= PI w x i k /\ (i = 2%Z -> 0 <= PD w x).
Proof.
  intros w [x0 x1 x2 x3] i k [S1 [S2 S3]] Hi Hk H.
  each_k Hi; cbn [in_region] in H; (split; [|try discriminate]).
  - each_k Hk; cbn [PI]; lra.
  - assert (B1 := phi_01 w x0 x1 ltac:(lra) ltac:(lra) ltac:(lra)).
    assert (B2 := phi_01 w x0 x2 ltac:(lra) ltac:(lra) ltac:(lra)).
    assert (B3 := phi_01 w x0 x3 ltac:(lra) ltac:(lra) ltac:(lra)).
    each_k Hk; cbn [PI]; (apply div_nn; [nn|lra]).
  - assert (B1 := phi_01 w x1 x2 ltac:(lra) ltac:(lra) ltac:(lra)).
    assert (B2 := phi_01 w x1 x3 ltac:(lra) ltac:(lra) ltac:(lra)).
    assert (B3 := phi_01 w x0 x3 ltac:(lra) ltac:(lra) ltac:(lra)).
    assert (B4 := phi_01 w x0 x2 ltac:(lra) ltac:(lra) ltac:(lra)).
    assert (0 <= PD w (t4 x0 x1 x2 x3)) as D.
    { cbn [PD]. assert (0 <= (1 - phi w x1 x2) * phi w x0 x2) by (apply mul_nn; lra).
      assert (0 <= phi w x1 x2 * (1 - phi w x1 x3)) by (apply mul_nn; lra). lra. }
    each_k Hk; cbn [PI]; (apply div_nn; [|lra]); 
    match goal with |- 0 <= ?a * ?g + ?b * ?c * ?d =>
      assert (0 <= a * g) by (apply mul_nn; lra); assert (0 <= b * c * d) by (apply mul_nn; [apply mul_nn; lra|lra]); lra end.
  - intros _. assert (B1 := phi_01 w x1 x2 ltac:(lra) ltac:(lra) ltac:(lra)).
    assert (B2 := phi_01 w x1 x3 ltac:(lra) ltac:(lra) ltac:(lra)).
    assert (B4 := phi_01 w x0 x2 ltac:(lra) ltac:(lra) ltac:(lra)).
    cbn [PD]. assert (0 <= (1 - phi w x1 x2) * phi w x0 x2) by (apply mul_nn; lra).
    assert (0 <= phi w x1 x2 * (1 - phi w x1 x3)) by (apply mul_nn; lra). lra.
  - assert (B1 := phi_01 w x0 x3 ltac:(lra) ltac:(lra) ltac:(lra)).
    assert (B2 := phi_01 w x1 x3 ltac:(lra) ltac:(lra) ltac:(lra)).
    assert (B3 := phi_01 w x2 x3 ltac:(lra) ltac:(lra) ltac:(lra)).
    each_k Hk; cbn [PI]; (apply div_nn; [nn|lra]).
  - each_k Hk; cbn [PI]; lra.
Qed.

Lemma PI_tie : forall w x i j k, sorted4 x -> In i [0; 1; 2; 3; 4]%Z -> In j [0; 1; 2; 3]%Z -> In k [0; 1; 2; 3]%Z ->
  in_region w x i -> t4z x j == t4z x k -> PI w x i j == PI w x i k.
Proof.
  intros w [x0 x1 x2 x3] i j k [S1 [S2 S3]] Hi Hj Hk H E.
  each_k Hi; cbn [in_region] in H; each_k Hj; each_k Hk; cbn [t4z] in E; cbn [PI PD];
  try reflexivity; try (exfalso; lra); unfold Qdiv; apply Qmult_comp; try reflexivity.
  all: try (rewrite (phi_eq w x0 x1 x0 x2) by lra; ring).
  all: try (rewrite (phi_eq w x0 x2 x0 x3) by lra; ring).
  all: try (rewrite (phi_eq w x0 x1 x0 x3) by lra; ring).
  all: try (rewrite (phi_eq w x0 x3 x1 x3) by lra; ring).
  all: try (rewrite (phi_eq w x1 x3 x2 x3) by lra; ring).
  all: try (rewrite (phi_eq w x0 x3 x2 x3) by lra; ring).
  all: try (rewrite (phi_eq w x0 x3 x1 x3), (phi_eq w x0 x2 x1 x2) by lra; ring).
  all: try (rewrite (phi_eq w x1 x3 x1 x2), (phi_eq w x0 x3 x0 x2) by lra; ring).
Qed.

Lemma cancel_g : forall a b c g d, ~ d == 0 -> (g == 0 -> b == 0 /\ c == 0) ->
  (a + b * c / g) / 3 * (3 / d * g) == (a * g + b * c) / d.
Proof.
  intros a b c g d Hd H. destruct (Qeq_dec g 0) as [E|E].
  - destruct (H E) as [H1 H2]. rewrite H1, E. unfold Qdiv. ring.
  - field. auto.
Qed.
Lemma cancel_g' : forall a b c g d, ~ d == 0 -> (g == 0 -> c == 0) ->
  (a + b * c / g) / 3 * (3 / d * g) == (a * g + b * c) / d.
Proof.
  intros a b c g d Hd H. destruct (Qeq_dec g 0) as [E|E].
  - rewrite (H E), E. unfold Qdiv. ring.
  - field. auto.
Qed.

Lemma I_ideal : forall eps w x i k, 0 <= eps -> sorted4 x -> In i [0; 1; 2; 3; 4]%Z -> In k [0; 1; 2; 3]%Z ->
  closed_region w x i -> gapx eps x i -> I_ eps w x i k * g_ eps w x i == IT eps w x i k /\ g_ eps w x i == PG w x i.
Proof.
  intros eps w x i k He S Hi Hk H G.
  destruct x as [x0 x1 x2 x3]. pose proof S as [S1 [S2 S3]]. unfold IT.
  each_k Hi; cbn [closed_region gapx rlo rhi Z.eqb Pos.eqb andb] in *.
  - split; [|reflexivity]. each_k Hk; cbn [I_ g_ PI]; ring.
  - assert (F10 := f_up eps w (t4 x0 x1 x2 x3) 1 0 ltac:(cbn; lra) ltac:(cbn; lra)). assert (F01 := f_down eps w (t4 x0 x1 x2 x3) 0 1 ltac:(cbn; lra) ltac:(cbn; lra)).
    assert (F20 := f_up eps w (t4 x0 x1 x2 x3) 2 0 ltac:(cbn; lra) ltac:(cbn; lra)). assert (F02 := f_down eps w (t4 x0 x1 x2 x3) 0 2 ltac:(cbn; lra) ltac:(cbn; lra)).
    assert (F30 := f_up eps w (t4 x0 x1 x2 x3) 3 0 ltac:(cbn; lra) ltac:(cbn; lra)). assert (F03 := f_down eps w (t4 x0 x1 x2 x3) 0 3 ltac:(cbn; lra) ltac:(cbn; lra)).
    cbn [t4get] in *.
    split; [|cbn [g_ PG]; unfold g_1; rewrite F10, F20; reflexivity].
    each_k Hk; cbn [I_ g_ PI]; unfold I_10, I_11, I_12, I_13, g_1; rewrite ?F10, ?F20, ?F30, ?F01, ?F02, ?F03; cbn [t4get]; field; lra.
  - assert (F21 := f_up eps w (t4 x0 x1 x2 x3) 2 1 ltac:(cbn; lra) ltac:(cbn; lra)). assert (F12 := f_down eps w (t4 x0 x1 x2 x3) 1 2 ltac:(cbn; lra) ltac:(cbn; lra)).
    assert (F31 := f_up eps w (t4 x0 x1 x2 x3) 3 1 ltac:(cbn; lra) ltac:(cbn; lra)). assert (F13 := f_down eps w (t4 x0 x1 x2 x3) 1 3 ltac:(cbn; lra) ltac:(cbn; lra)).
    assert (F20 := f_up eps w (t4 x0 x1 x2 x3) 2 0 ltac:(cbn; lra) ltac:(cbn; lra)). assert (F02 := f_down eps w (t4 x0 x1 x2 x3) 0 2 ltac:(cbn; lra) ltac:(cbn; lra)).
    assert (F30 := f_up eps w (t4 x0 x1 x2 x3) 3 0 ltac:(cbn; lra) ltac:(cbn; lra)). assert (F03 := f_down eps w (t4 x0 x1 x2 x3) 0 3 ltac:(cbn; lra) ltac:(cbn; lra)).
    cbn [t4get] in *.
    assert (B1 := phi_01 w x1 x2 ltac:(lra) ltac:(lra) ltac:(lra)).
    assert (B2 := phi_01 w x1 x3 ltac:(lra) ltac:(lra) ltac:(lra)).
    assert (B4 := phi_01 w x0 x2 ltac:(lra) ltac:(lra) ltac:(lra)).
    assert (N1 : 0 <= (1 - phi w x1 x2) * phi w x0 x2) by (apply mul_nn; lra).
    assert (N2 : 0 <= (1 - phi w x1 x3) * phi w x1 x2) by (apply mul_nn; lra).
    set (v := t4 x0 x1 x2 x3) in *.
    assert (E1 : f_ eps w v 1 2 * f_ eps w v 2 0 + f_ eps w v 2 1 * f_ eps w v 1 3 == PD w v).
    { rewrite F12, F20, F21, F13. unfold v. cbn [PD]. ring. }
    assert (E2 : f_ eps w v 1 2 * f_ eps w v 2 0 + f_ eps w v 1 3 * f_ eps w v 2 1 == PD w v).
    { rewrite F12, F20, F21, F13. unfold v. cbn [PD]. ring. }
    assert (Eg : PD w v == (1 - phi w x1 x2) * phi w x0 x2 + (1 - phi w x1 x3) * phi w x1 x2).
    { unfold v. cbn [PD]. ring. }
    split.
    2:{ cbn [g_]. unfold g_2. rewrite E1. change (PG w v 2) with (3 * PD w v / (x3 - x0)).
        change (t4get v 3 - t4get v 0) with (x3 - x0). field. lra. }
    assert (Gz : g_ eps w v 2 == 3 / (x3 - x0) * PD w v).
    { cbn [g_]. unfold g_2. rewrite E1. reflexivity. }
    rewrite Gz.
    each_k Hk; cbn [I_]; unfold I_20, I_21, I_22, I_23; cbv zeta; rewrite ?E1, ?E2; (qcase; [ring|]);
    rewrite ?F21, ?F31, ?F30, ?F13, ?F20, ?F12, ?F02, ?F03;
    match goal with |- (?a + ?b * ?c / ?h) / 3 * (3 / ?d * ?g) == _ =>
      let Eh := fresh in assert (Eh : h == g) by (rewrite Eg; ring); rewrite Eh; clear Eh;
      transitivity ((a * g + b * c) / d); [apply cancel_g'; [lra|intros Z; rewrite Eg in Z; lra]|] end;
    subst v; cbn [PI]; apply Qmult_comp; try reflexivity; ring.
  - assert (F30 := f_up eps w (t4 x0 x1 x2 x3) 3 0 ltac:(cbn; lra) ltac:(cbn; lra)). assert (F03 := f_down eps w (t4 x0 x1 x2 x3) 0 3 ltac:(cbn; lra) ltac:(cbn; lra)).
    assert (F31 := f_up eps w (t4 x0 x1 x2 x3) 3 1 ltac:(cbn; lra) ltac:(cbn; lra)). assert (F13 := f_down eps w (t4 x0 x1 x2 x3) 1 3 ltac:(cbn; lra) ltac:(cbn; lra)).
    assert (F32 := f_up eps w (t4 x0 x1 x2 x3) 3 2 ltac:(cbn; lra) ltac:(cbn; lra)). assert (F23 := f_down eps w (t4 x0 x1 x2 x3) 2 3 ltac:(cbn; lra) ltac:(cbn; lra)).
    cbn [t4get] in *.
    split; [|cbn [g_ PG]; unfold g_3; rewrite F13, F23; reflexivity].
    each_k Hk; cbn [I_ g_ PI]; unfold I_30, I_31, I_32, I_33, g_3; rewrite ?F30, ?F31, ?F32, ?F03, ?F13, ?F23; cbn [t4get]; field; lra.
  - split; [|reflexivity]. each_k Hk; cbn [I_ g_ PI]; ring.
Qed.

(** ** Truncated powers *)
Lemma tpow_neg : forall n x, x < 0 -> tpow n x = 0.
Proof.
  intros n x H. unfold tpow. destruct (Qle_bool x 0) eqn:E; auto. exfalso.
  assert (x <= 0) as K by lra. apply Qle_bool_iff in K. congruence.
Qed.
Lemma tpow_pos : forall n x, 0 < x -> tpow n x = Qpower_positive x n.
Proof.
  intros n x H. unfold tpow. destruct (Qle_bool x 0) eqn:E; auto. apply Qle_bool_iff in E. exfalso. lra.
Qed.
Lemma pow2 : forall x, Qpower_positive x 2 == x * x. Proof. intros. cbn. ring. Qed.
Lemma pow3 : forall x, Qpower_positive x 3 == x * x * x. Proof. intros. cbn. ring. Qed.
Lemma pow4 : forall x, Qpower_positive x 4 == x * x * x * x. Proof. intros. cbn. ring. Qed.

(** the vertices other than k, in order *)
Definition others (x : T4) (k : Z) : Q * Q * Q :=
  let '(t4 x0 x1 x2 x3) := x in
  match k with 0%Z => (x1, x2, x3) | 1%Z => (x0, x2, x3) | 2%Z => (x0, x1, x3) | _ => (x0, x1, x2) end.

Ltac tp_sign := repeat match goal with
  | |- context [tpow ?n ?e] => first [rewrite (tpow_neg n e) by lra | rewrite (tpow_pos n e) by lra] end.

Lemma PJ_exact : forall w x0 x1 x2 x3 i k, x0 < x1 -> x1 < x2 -> x2 < x3 -> In i [0; 1; 2; 3; 4]%Z -> In k [0; 1; 2; 3]%Z ->
  in_region w (t4 x0 x1 x2 x3) i ->
  let '(b, c, d) := others (t4 x0 x1 x2 x3) k in
  PJ w (t4 x0 x1 x2 x3) i k == vertex_below w (t4z (t4 x0 x1 x2 x3) k) b c d /\
  PI w (t4 x0 x1 x2 x3) i k == vertex_at w (t4z (t4 x0 x1 x2 x3) k) b c d.
Proof.
  intros w x0 x1 x2 x3 i k H1 H2 H3 Hi Hk H.
  each_k Hi; cbn [in_region] in H; each_k Hk; cbn [others t4z PJ PI PD]; unfold vertex_below, vertex_at; tp_sign;
  rewrite ?pow2, ?pow3, ?pow4; unfold dd, p10, p20, p21, p22, p23, phi; (split; field; repeat split; lra).
Qed.
Lemma PN_exact : forall w x0 x1 x2 x3 i, x0 < x1 -> x1 < x2 -> x2 < x3 -> In i [0; 1; 2; 3; 4]%Z ->
  in_region w (t4 x0 x1 x2 x3) i ->
  PN w (t4 x0 x1 x2 x3) i == states_below w x0 x1 x2 x3 /\ PG w (t4 x0 x1 x2 x3) i == states_at w x0 x1 x2 x3.
Proof.
  intros w x0 x1 x2 x3 i H1 H2 H3 Hi H.
  each_k Hi; cbn [in_region] in H; cbn [PN PG PD]; unfold states_below, states_at; tp_sign;
  rewrite ?pow2, ?pow3, ?pow4; unfold dd, phi; (split; field; repeat split; lra).
Qed.
