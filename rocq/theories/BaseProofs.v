(** Lemmas about the vocabulary of [Base]. *)
From Coq Require Import ZArith QArith List Lia Bool Permutation.
From Verif Require Import Base.
Import ListNotations.
Open Scope Z_scope.

Lemma in_zrange : forall n x, In x (zrange n) <-> 0 <= x < n.
Proof.
  intros n x. unfold zrange. rewrite in_map_iff. split.
  - intros [k [Hk Hin]]. apply in_seq in Hin. lia.
  - intros H. exists (Z.to_nat x). split; [lia|]. apply in_seq. lia.
Qed.

Lemma NoDup_zrange : forall n, NoDup (zrange n).
Proof.
  intros n. unfold zrange. apply FinFun.Injective_map_NoDup.
  - intros a b H. lia.
  - apply seq_NoDup.
Qed.

Lemma length_zrange : forall n, length (zrange n) = Z.to_nat n.
Proof. intros n. unfold zrange. now rewrite map_length, seq_length. Qed.

Lemma zrange_nonpos : forall n, n <= 0 -> zrange n = [].
Proof. intros n H. unfold zrange. replace (Z.to_nat n) with 0%nat by lia. reflexivity. Qed.

Lemma zrange_succ : forall n, 0 <= n -> zrange (n + 1) = zrange n ++ [n].
Proof.
  intros n H. unfold zrange.
  replace (Z.to_nat (n + 1)) with (S (Z.to_nat n)) by lia.
  rewrite seq_S, map_app. cbn. repeat f_equal. lia.
Qed.

Lemma zrange_ind (P : Z -> list Z -> Prop) :
  P 0 [] ->
  (forall n, 0 <= n -> P n (zrange n) -> P (n + 1) (zrange n ++ [n])) ->
  forall n, 0 <= n -> P n (zrange n).
Proof.
  intros H0 HS n Hn.
  pattern n. apply natlike_ind; [exact H0| |exact Hn].
  intros x Hx IH. unfold Z.succ. rewrite zrange_succ by lia. auto.
Qed.

Lemma in_zseq : forall a b x, In x (zseq a b) <-> a <= x < b.
Proof.
  intros a b x. unfold zseq. rewrite in_map_iff. split.
  - intros [k [Hk Hin]]. apply in_zrange in Hin. lia.
  - intros H. exists (x - a). rewrite in_zrange. lia.
Qed.

Lemma NoDup_zseq : forall a b, NoDup (zseq a b).
Proof.
  intros. unfold zseq. apply FinFun.Injective_map_NoDup; [intros x y H; lia|].
  apply NoDup_zrange.
Qed.

Lemma length_zseq : forall a b, length (zseq a b) = Z.to_nat (b - a).
Proof. intros. unfold zseq. now rewrite map_length, length_zrange. Qed.

Lemma upd_same : forall V (m : Z -> V) i v, upd m i v i = v.
Proof. intros. unfold upd. now rewrite Z.eqb_refl. Qed.

Lemma upd_other : forall V (m : Z -> V) i j v, j <> i -> upd m i v j = m j.
Proof. intros. unfold upd. destruct (Z.eqb_spec j i); congruence. Qed.

Lemma find_first_some : forall A f (l : list A) x,
  find_first f l = Some x -> In x l /\ f x = true.
Proof.
  induction l as [|a l IH]; cbn; intros x H; [discriminate|].
  destruct (f a) eqn:E.
  - inversion H; subst; auto.
  - destruct (IH _ H); auto.
Qed.

Lemma find_first_none : forall A f (l : list A),
  find_first f l = None -> forall x, In x l -> f x = false.
Proof.
  induction l as [|a l IH]; cbn; intros H x Hx; [tauto|].
  destruct (f a) eqn:E; [discriminate|].
  destruct Hx as [->|Hx]; auto.
Qed.

Lemma zsum_cons : forall x l, zsum (x :: l) = x + zsum l.
Proof. reflexivity. Qed.
Lemma zsum_nil : zsum [] = 0.
Proof. reflexivity. Qed.

Lemma zsum_app : forall a b, zsum (a ++ b) = zsum a + zsum b.
Proof.
  induction a as [|x a IH]; intros b; [reflexivity|].
  cbn [app]. rewrite !zsum_cons, IH. lia.
Qed.

Lemma zsum_map_add : forall A (f g : A -> Z) l,
  zsum (map (fun x => f x + g x) l) = zsum (map f l) + zsum (map g l).
Proof.
  induction l as [|x l IH]; [reflexivity|].
  cbn [map]. rewrite !zsum_cons, IH. lia.
Qed.

Lemma zsum_map_const : forall A (c : Z) (l : list A),
  zsum (map (fun _ => c) l) = c * Z.of_nat (length l).
Proof.
  induction l as [|x l IH]; [cbn; lia|].
  cbn [map length]. rewrite zsum_cons, IH. lia.
Qed.

Lemma zsum_map_mul : forall A (c : Z) (f : A -> Z) (l : list A),
  zsum (map (fun x => c * f x) l) = c * zsum (map f l).
Proof.
  induction l as [|x l IH]; [cbn; lia|].
  cbn [map]. rewrite !zsum_cons, IH. lia.
Qed.

Lemma zsum_map_ext_in : forall A (f g : A -> Z) l,
  (forall x, In x l -> f x = g x) -> zsum (map f l) = zsum (map g l).
Proof. intros A f g l H. f_equal. now apply map_ext_in. Qed.

Lemma zcount_cons : forall A (f : A -> bool) x l,
  zcount f (x :: l) = (if f x then 1 else 0) + zcount f l.
Proof. intros. unfold zcount. cbn. destruct (f x); cbn [length]; lia. Qed.

Lemma zcount_app : forall A (f : A -> bool) a b,
  zcount f (a ++ b) = zcount f a + zcount f b.
Proof. intros. unfold zcount. rewrite filter_app, app_length. lia. Qed.

Lemma zcount_sum : forall A (f : A -> bool) l,
  zcount f l = zsum (map (fun x => if f x then 1 else 0) l).
Proof. induction l as [|x l IH]; [reflexivity|]. rewrite zcount_cons, IH. reflexivity. Qed.

Lemma zcount_ext_in : forall A (f g : A -> bool) l,
  (forall x, In x l -> f x = g x) -> zcount f l = zcount g l.
Proof.
  intros A f g l H. induction l as [|x l IH]; [reflexivity|].
  rewrite !zcount_cons. rewrite (H x) by (left; auto).
  rewrite IH; auto. intros y Hy. apply H. now right.
Qed.

Lemma zcount_nonneg : forall A (f : A -> bool) l, 0 <= zcount f l.
Proof. intros. unfold zcount. lia. Qed.

Lemma zcount_pos : forall A (f : A -> bool) l,
  0 < zcount f l <-> exists x, In x l /\ f x = true.
Proof.
  intros A f l. unfold zcount. split.
  - intros H. destruct (filter f l) as [|x t] eqn:E; [cbn in H; lia|].
    exists x. apply filter_In. rewrite E. now left.
  - intros [x Hx]. apply filter_In in Hx. destruct (filter f l); [contradiction|].
    cbn [length]. lia.
Qed.

(** Exchange of two finite sums. *)
Lemma zsum_swap : forall A B (f : A -> B -> Z) (la : list A) (lb : list B),
  zsum (map (fun a => zsum (map (fun b => f a b) lb)) la) =
  zsum (map (fun b => zsum (map (fun a => f a b) la)) lb).
Proof.
  induction la as [|a la IH]; intros lb.
  - cbn [map]. rewrite zsum_nil.
    induction lb as [|b lb IHb]; [reflexivity|].
    cbn [map]. rewrite zsum_cons, <- IHb. reflexivity.
  - cbn [map]. rewrite zsum_cons, IH, <- zsum_map_add. reflexivity.
Qed.

(** In a duplicate-free list exactly one element equals a given member. *)
Lemma zcount_eq_NoDup : forall (l : list Z) y, NoDup l -> In y l ->
  zcount (fun x => x =? y) l = 1.
Proof.
  induction l as [|x l IH]; intros y Hnd Hin; [contradiction|].
  inversion Hnd as [|? ? Hx Hl]; subst. rewrite zcount_cons.
  destruct (Z.eqb_spec x y) as [->|Hne].
  - assert (zcount (fun z => z =? y) l = 0); [|lia].
    destruct (Z.eq_dec (zcount (fun z => z =? y) l) 0); auto.
    assert (0 < zcount (fun z => z =? y) l) as Hp
      by (pose proof (zcount_nonneg _ (fun z => z =? y) l); lia).
    apply zcount_pos in Hp. destruct Hp as [z [Hz Hzy]].
    apply Z.eqb_eq in Hzy. subst. contradiction.
  - destruct Hin as [->|Hin]; [congruence|]. rewrite IH; auto.
Qed.

Lemma fold_left_app_one : forall A B (f : A -> B -> A) l x a,
  fold_left f (l ++ [x]) a = f (fold_left f l a) x.
Proof. intros. now rewrite fold_left_app. Qed.

Lemma filter_map_comm : forall A B (f : A -> B) (p : B -> bool) l,
  filter p (map f l) = map f (filter (fun x => p (f x)) l).
Proof. induction l as [|x l IH]; cbn; [reflexivity|]. destruct (p (f x)); cbn; now rewrite IH. Qed.

Lemma zcount_map : forall A B (f : A -> B) (p : B -> bool) l,
  zcount p (map f l) = zcount (fun x => p (f x)) l.
Proof. intros. unfold zcount. now rewrite filter_map_comm, map_length. Qed.

Lemma NoDup_app : forall A (l1 l2 : list A), NoDup l1 -> NoDup l2 ->
  (forall x, In x l1 -> ~ In x l2) -> NoDup (l1 ++ l2).
Proof.
  induction l1 as [|a l1 IH]; intros l2 H1 H2 H; cbn; auto.
  inversion H1 as [|? ? Ha Hl]; subst. constructor.
  - rewrite in_app_iff. intros [Hx|Hx]; [auto|]. apply (H a); cbn; auto.
  - apply IH; auto. intros x Hx. apply H. now right.
Qed.
