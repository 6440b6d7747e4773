From Coq Require Import ZArith List Bool Lia Setoid Morphisms Ring_theory Field_theory Ring Field Permutation.
From Verif Require Import Base BaseProofs Par Par2 DirModel DirSpec.
Import ListNotations.
Open Scope Z_scope.

Section Sums.
Variable K : numbers.
Declare Scope K_scope.
Delimit Scope K_scope with K.
Bind Scope K_scope with num.
Notation "0" := (n0 K) : K_scope.
Notation "1" := (n1 K) : K_scope.
Infix "+" := (nadd K) : K_scope.
Infix "*" := (nmul K) : K_scope.
Infix "-" := (nsub K) : K_scope.
Infix "/" := (ndiv K) : K_scope.
Notation "- x" := (nopp K x) : K_scope.
Infix "==" := (neq K) (at level 70, no associativity) : K_scope.

Global Instance K_equiv : Equivalence (neq K) := n_equiv K.
Global Instance K_add : Proper (neq K ==> neq K ==> neq K) (nadd K).
Proof. exact (Radd_ext (n_ext K)). Qed.
Global Instance K_mul : Proper (neq K ==> neq K ==> neq K) (nmul K).
Proof. exact (Rmul_ext (n_ext K)). Qed.
Global Instance K_opp : Proper (neq K ==> neq K) (nopp K).
Proof. exact (Ropp_ext (n_ext K)). Qed.
Global Instance K_inv : Proper (neq K ==> neq K) (ninv K).
Proof. intros x y E. now apply n_inv_ext. Qed.
Add Field Kfield : (n_field K) (setoid (n_equiv K) (n_ext K)).
Global Instance K_sub : Proper (neq K ==> neq K ==> neq K) (nsub K).
Proof. intros x y E x' y' E'. transitivity (x + - x')%K; [ring|]. rewrite E, E'. ring. Qed.
Global Instance K_div : Proper (neq K ==> neq K ==> neq K) (ndiv K).
Proof.
  intros x y E x' y' E'. rewrite (Fdiv_def (n_field K)), (Fdiv_def (n_field K) y).
  now rewrite E, E'.
Qed.
Lemma one_neq0 : ~ (1 == 0)%K. Proof. exact (F_1_neq_0 (n_field K)). Qed.

Section L.
Context {X : Type}.
Implicit Types (l : list X) (f h : X -> K).
Local Notation ks := (ks K).
Lemma ks_nil : forall f, ks nil f = n0 K. Proof. reflexivity. Qed.
Lemma ks_cons : forall x l f, ks (x :: l) f = (f x + ks l f)%K. Proof. reflexivity. Qed.
Lemma ks_ext : forall l f h, (forall x, In x l -> f x == h x)%K -> (ks l f == ks l h)%K.
Proof.
  induction l as [|x l IH]; intros f h H; [reflexivity|]. rewrite !ks_cons.
  rewrite (H x (or_introl eq_refl)). rewrite (IH f h); [reflexivity|]. intros; apply H; now right.
Qed.
Lemma ks_0 : forall l f, (forall x, In x l -> f x == 0)%K -> (ks l f == 0)%K.
Proof.
  induction l as [|x l IH]; intros f H; [reflexivity|]. rewrite !ks_cons.
  rewrite (H x (or_introl eq_refl)), IH; [ring|]. intros; apply H; now right.
Qed.
Lemma ks_add : forall l f h, (ks l (fun x => f x + h x) == ks l f + ks l h)%K.
Proof. induction l as [|x l IH]; intros f h; [rewrite !ks_nil; ring|]. rewrite !ks_cons, IH. ring. Qed.
Lemma ks_mul_l : forall l c f, (ks l (fun x => c * f x) == c * ks l f)%K.
Proof. induction l as [|x l IH]; intros c f; [rewrite !ks_nil; ring|]. rewrite !ks_cons, IH. ring. Qed.
Lemma ks_mul_r : forall l c f, (ks l (fun x => f x * c) == ks l f * c)%K.
Proof. induction l as [|x l IH]; intros c f; [rewrite !ks_nil; ring|]. rewrite !ks_cons, IH. ring. Qed.
Lemma ks_sub : forall l f h, (ks l (fun x => f x - h x) == ks l f - ks l h)%K.
Proof. induction l as [|x l IH]; intros f h; [rewrite !ks_nil; ring|]. rewrite !ks_cons, IH. ring. Qed.
Lemma ks_app : forall l l' f, (ks (l ++ l') f == ks l f + ks l' f)%K.
Proof.
  induction l as [|x l IH]; intros l' f; [rewrite !ks_nil; change ([] ++ l') with l'; ring|].
  change ((x :: l) ++ l') with (x :: l ++ l'). rewrite !ks_cons, IH. ring.
Qed.
Lemma ks_perm : forall l l' f, Permutation l l' -> (ks l f == ks l' f)%K.
Proof.
  intros l l' f P. induction P; rewrite ?ks_cons; [reflexivity| |ring|now transitivity (ks l' f)].
  now rewrite IHP.
Qed.
Lemma ks_filter : forall p l f, (ks (filter p l) f == ks l (fun x => if p x then f x else 0))%K.
Proof.
  intros p. induction l as [|x l IH]; intros f; [reflexivity|]. cbn [filter]. rewrite ks_cons.
  destruct (p x); rewrite ?ks_cons, IH; [reflexivity|ring].
Qed.
Lemma fold_ks : forall l f s, (fold_left (fun s x => s + f x) l s == s + ks l f)%K.
Proof. induction l as [|x l IH]; intros f s; cbn [fold_left]; [rewrite ks_nil; ring|]. rewrite IH, ks_cons. ring. Qed.
End L.
Local Notation ks := (ks K).
Local Notation Sm := (Sm K).
Lemma ks_map : forall X Y (h : X -> Y) l f, ks (map h l) f = ks l (fun x => f (h x)).
Proof. intros X Y h. induction l as [|x l IH]; intros f; [reflexivity|]. cbn [map]. rewrite !ks_cons, IH. reflexivity. Qed.
Lemma ks_swap : forall X Y (l : list X) (l' : list Y) f,
  (ks l (fun x => ks l' (fun y => f x y)) == ks l' (fun y => ks l (fun x => f x y)))%K.
Proof.
  intros X Y. induction l as [|x l IH]; intros l' f.
  - rewrite ks_nil. symmetry. apply ks_0. reflexivity.
  - rewrite ks_cons, IH. rewrite <- ks_add. apply ks_ext. reflexivity.
Qed.
Lemma ks_flat_map : forall X Y (h : X -> list Y) l f, (ks (flat_map h l) f == ks l (fun x => ks (h x) f))%K.
Proof.
  intros X Y h. induction l as [|x l IH]; intros f; [reflexivity|].
  cbn [flat_map]. rewrite ks_app, IH. reflexivity.
Qed.

Lemma Sm_ext : forall n f h, (forall i, 0 <= i < n -> f i == h i)%K -> (Sm n f == Sm n h)%K.
Proof. intros n f h H. apply ks_ext. intros x Hx. apply H. now apply in_zrange. Qed.
Lemma Sm_0 : forall n f, (forall i, 0 <= i < n -> f i == 0)%K -> (Sm n f == 0)%K.
Proof. intros n f H. apply ks_0. intros x Hx. apply H. now apply in_zrange. Qed.
Lemma Sm_add : forall n f h, (Sm n (fun i => f i + h i) == Sm n f + Sm n h)%K.
Proof. intros. apply ks_add. Qed.
Lemma Sm_sub : forall n f h, (Sm n (fun i => f i - h i) == Sm n f - Sm n h)%K.
Proof. intros. apply ks_sub. Qed.
Lemma Sm_mul_l : forall n c f, (Sm n (fun i => c * f i) == c * Sm n f)%K.
Proof. intros. apply ks_mul_l. Qed.
Lemma Sm_mul_r : forall n c f, (Sm n (fun i => f i * c) == Sm n f * c)%K.
Proof. intros. apply ks_mul_r. Qed.
Lemma Sm_div : forall n c f, (Sm n (fun i => f i / c) == Sm n f / c)%K.
Proof.
  intros n c f. rewrite (Fdiv_def (n_field K)), <- Sm_mul_r. apply Sm_ext. intros i _. apply (Fdiv_def (n_field K)).
Qed.
Lemma Sm_swap : forall n m f, (Sm n (fun i => Sm m (fun j => f i j)) == Sm m (fun j => Sm n (fun i => f i j)))%K.
Proof. intros. apply ks_swap. Qed.
Lemma Sm_single : forall n k f, 0 <= k < n -> (Sm n (fun i => if i =? k then f i else 0) == f k)%K.
Proof.
  intros n k f H.
  assert (G : forall l, NoDup l -> (ks l (fun i => if i =? k then f i else 0) == if in_dec Z.eq_dec k l then f k else 0)%K).
  { induction l as [|x l IH]; intros N; [reflexivity|].
    change ((if x =? k then f x else 0) + ks l (fun i => if i =? k then f i else 0) == if in_dec Z.eq_dec k (x :: l) then f k else 0)%K.
    inversion_clear N as [|? ? N1 N2]. rewrite (IH N2).
    destruct (Z.eqb_spec x k) as [->|E].
    - destruct (in_dec Z.eq_dec k l) as [I|_]; [contradiction|]. destruct (in_dec Z.eq_dec k (k :: l)) as [_|J]; [ring|exfalso; apply J; now left].
    - destruct (in_dec Z.eq_dec k l) as [I|I]; destruct (in_dec Z.eq_dec k (x :: l)) as [J|J]; try ring.
      + exfalso. apply J. now right.
      + exfalso. destruct J as [J|J]; auto. }
  unfold Sm. rewrite (G _ (NoDup_zrange n)). destruct (in_dec Z.eq_dec k (zrange n)) as [_|J]; [reflexivity|].
  exfalso. apply J. now apply in_zrange.
Qed.
Lemma Sm_one : forall n k f, 0 <= k < n -> (forall i, 0 <= i < n -> i <> k -> f i == 0)%K -> (Sm n f == f k)%K.
Proof.
  intros n k f H G. rewrite <- (Sm_single n k f H). apply Sm_ext. intros i Hi.
  destruct (Z.eqb_spec i k); [reflexivity|]. now apply G.
Qed.
(** sums over flattened pairs *)
Lemma Sm_flat : forall n m f, 0 <= m ->
  (Sm (n * m) f == Sm n (fun i => Sm m (fun j => f (i * m + j)%Z)))%K.
Proof.
  intros n m f Hm. destruct (Z.le_gt_cases n 0) as [Hn|Hn].
  { unfold Sm. rewrite (zrange_nonpos n Hn), (zrange_nonpos (n * m)) by (apply Z.mul_nonpos_nonneg; lia). reflexivity. }
  unfold Sm. transitivity (ks (flat_map (fun i => map (fun j => (i * m + j)%Z) (zrange m)) (zrange n)) f).
  - apply ks_perm. apply NoDup_Permutation.
    + apply NoDup_zrange.
    + apply NoDup_flat_map.
      * apply NoDup_zrange.
      * intros i Hi. apply FinFun.Injective_map_NoDup; [intros x y E; now apply Z.add_reg_l in E|apply NoDup_zrange].
      * intros i i' x Hi Hi' H H'. apply in_map_iff in H. apply in_map_iff in H'.
        destruct H as [j [<- Hj]]. destruct H' as [j' [E Hj']]. rewrite in_zrange in *. apply (flat_inj m i j i' j' Hj Hj' (eq_sym E)).
    + intros x. rewrite in_flat_map, in_zrange. split.
      * intros Hx. assert (0 < m) by (destruct (Z.eq_dec m 0) as [E|E]; [rewrite E, Z.mul_0_r in Hx; lia|lia]). exists (x / m)%Z. rewrite in_zrange, in_map_iff. split.
        -- split; [apply Z.div_pos; lia|apply Z.div_lt_upper_bound; nia].
        -- exists (x mod m). rewrite in_zrange. pose proof (Z.mod_pos_bound x m). pose proof (Z.div_mod x m). split; lia.
      * intros [i [Hi H]]. apply in_map_iff in H. destruct H as [j [<- Hj]]. rewrite in_zrange in *. nia.
  - rewrite ks_flat_map. apply ks_ext. intros i _. rewrite ks_map. reflexivity.
Qed.

(** sums of squares *)
Lemma fold_squares : forall (l : list K), (fold_right (fun x s => x * x + s) 0 l == ks l (fun x => x * x))%K.
Proof. reflexivity. Qed.
Lemma Sm_squares : forall n f, (Sm n (fun i => f i * f i) == 0)%K -> forall i, 0 <= i < n -> (f i == 0)%K.
Proof.
  intros n f H i Hi. apply (n_squares K (map f (zrange n))).
  - rewrite fold_squares, ks_map. exact H.
  - apply in_map. now apply in_zrange.
Qed.
Lemma of_nat_S : forall k, (of_nat K (S k) == 1 + of_nat K k)%K.
Proof. intros k. reflexivity. Qed.
Lemma of_nat_neq0 : forall k, (0 < k)%nat -> ~ (of_nat K k == 0)%K.
Proof.
  intros k Hk E. apply one_neq0. apply (n_squares K (repeat (n1 K) k)).
  - rewrite fold_squares. rewrite <- E. unfold of_nat. clear. induction k as [|k IH]; cbn [repeat]; [reflexivity|].
    rewrite !ks_cons, IH. ring.
  - destruct k; [lia|]. now left.
Qed.
Lemma of_nat_length : forall X (l : list X), (ks l (fun _ => 1) == of_nat K (length l))%K.
Proof. intros X. induction l as [|x l IH]; [reflexivity|]. cbn [length]. rewrite ks_cons, IH. reflexivity. Qed.
Lemma of_nat_mul : forall a b, (of_nat K (a * b) == of_nat K a * of_nat K b)%K.
Proof.
  induction a as [|a IH]; intros b; cbn [Nat.mul]; [unfold of_nat; cbn [repeat]; rewrite ks_nil; ring|].
  rewrite of_nat_S. transitivity (of_nat K b + of_nat K (a * b))%K.
  - unfold of_nat. rewrite repeat_app, ks_app. reflexivity.
  - rewrite IH. ring.
Qed.
Lemma two_neq0 : ~ (1 + 1 == 0)%K.
Proof. intros E. apply (of_nat_neq0 2); [lia|]. rewrite <- E. rewrite !of_nat_S. unfold of_nat. cbn [repeat]. rewrite ks_nil. ring. Qed.
Lemma Sm_const : forall n c, (Sm n (fun _ => c) == of_nat K (Z.to_nat n) * c)%K.
Proof.
  intros n c. transitivity (Sm n (fun _ => c * 1)%K); [apply Sm_ext; intros; ring|]. rewrite Sm_mul_l.
  unfold Sm. rewrite of_nat_length, length_zrange. ring.
Qed.
Lemma mul_neq0 : forall x y, ~ (x == 0)%K -> (x * y == 0)%K -> (y == 0)%K.
Proof. intros x y N E. transitivity (x * y / x)%K; [field; auto|]. rewrite E. field. auto. Qed.
End Sums.
