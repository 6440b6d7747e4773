(** Programs of loop iterations built from statements (continues Par.v). Nothing here models
    a particular function of /repo. *)
From Coq Require Import ZArith QArith List Bool Lia.
From Verif Require Import Base BaseProofs Par.
Import ListNotations.
Open Scope Z_scope.

Section Par2.
Context {A V : Type}.
Variable A_dec : forall a b : A, {a = b} + {a <> b}.
Notation prog := (@prog A V).

(** p; q *)
Fixpoint pseq (p q : prog) : prog :=
  match p with
  | Ret => q
  | Rd a k => Rd a (fun v => pseq (k v) q)
  | Wr a v k => Wr a v (pseq k q)
  end.
(** read a list of addresses, in order *)
Fixpoint rds (l : list A) (k : list V -> prog) : prog :=
  match l with
  | [] => k []
  | a :: t => Rd a (fun v => rds t (fun vs => k (v :: vs)))
  end.
(** for x in l: f x *)
Definition pfor {X : Type} (l : list X) (f : X -> prog) : prog := fold_right (fun x p => pseq (f x) p) Ret l.

Lemma run_pseq : forall p q m, run A_dec (pseq p q) m = run A_dec q (run A_dec p m).
Proof. induction p as [|a k IH|a v k IH]; intros q m; cbn; auto. Qed.
Lemma run_rds : forall l k m, run A_dec (rds l k) m = run A_dec (k (map m l)) m.
Proof. induction l as [|a l IH]; intros k m; cbn; [reflexivity|]. now rewrite IH. Qed.
Lemma run_pfor : forall X (l : list X) f m, run A_dec (pfor l f) m = fold_left (fun m x => run A_dec (f x) m) l m.
Proof. intros X. induction l as [|x l IH]; intros f m; cbn; [reflexivity|]. rewrite run_pseq. apply IH. Qed.

Lemma fp_pseq : forall (W R : A -> Prop) p q, fp W R p -> fp W R q -> fp W R (pseq p q).
Proof. intros W R p q F G. induction F; cbn; [exact G|constructor; auto|constructor; auto]. Qed.
Lemma fp_rds : forall (W R : A -> Prop) l k, (forall a, In a l -> R a) -> (forall vs, length vs = length l -> fp W R (k vs)) -> fp W R (rds l k).
Proof.
  intros W R. induction l as [|a l IH]; intros k H G; cbn; [apply G; reflexivity|].
  constructor; [apply H; left; auto|]. intros v. apply IH; [intros b Hb; apply H; right; auto|].
  intros vs Hl. apply G. cbn. lia.
Qed.
Lemma fp_pfor : forall (W R : A -> Prop) X (l : list X) f, (forall x, In x l -> fp W R (f x)) -> fp W R (pfor l f).
Proof.
  intros W R X. induction l as [|x l IH]; intros f H; cbn; [constructor|].
  apply fp_pseq; [apply H; left; auto|]. apply IH. intros y Hy. apply H. right; auto.
Qed.
Lemma fp_mono : forall (W R W' R' : A -> Prop) (p : prog), (forall a, W a -> W' a) -> (forall a, R a -> R' a) -> fp W R p -> fp W' R' p.
Proof. intros W R W' R' p H1 H2 F. induction F; constructor; auto. Qed.

(** several writes of equivalent values *)
Lemma store_all : forall (E : V -> V -> Prop) ws m a w, In a (map fst ws) -> (forall v, In (a, v) ws -> E v w) ->
  E (store A_dec m ws a) w.
Proof.
  intros E. induction ws as [|[b u] ws IH]; intros m a w H G; [contradiction|].
  change (E (store A_dec (wr A_dec m b u) ws a) w).
  destruct (in_dec A_dec a (map fst ws)) as [H1|H1].
  - apply IH; auto. intros v Hv. apply G. right; auto.
  - rewrite store_other by exact H1. destruct H as [H|H]; [|contradiction]. cbn in H. subst b.
    unfold wr. destruct (A_dec a a); [|congruence]. apply G. left; auto.
Qed.
End Par2.

(** ** Loops with independent bodies *)
Section Keys.
Context {A V X : Type}.
Variable A_dec : forall a b : A, {a = b} + {a <> b}.
Variable S : X -> A -> Prop.

Lemma nth_error_nodup : forall (l : list X) i j x, NoDup l -> nth_error l i = Some x -> nth_error l j = Some x -> i = j.
Proof.
  intros l i j x N Hi Hj. apply (proj1 (NoDup_nth_error l) N); [apply nth_error_Some; congruence|congruence].
Qed.
(** any schedule of the iterations f x, x in l *)
Lemma par_key : forall (l : list X) (f : X -> @prog A V) m m', NoDup l ->
  (forall x, In x l -> fp (S x) (S x) (f x)) ->
  (forall x y a, In x l -> In y l -> S x a -> S y a -> x = y) ->
  finishes A_dec (map f l) m m' ->
  (forall x a, In x l -> S x a -> m' a = run A_dec (f x) m a) /\
  (forall a, (forall x, In x l -> ~ S x a) -> m' a = m a).
Proof.
  intros l f m m' N F D Fin.
  set (W := fun i (a : A) => exists x, nth_error l i = Some x /\ S x a).
  assert (Dis : disjoint W W).
  { intros i j a Hij [x [H1 H2]]. assert (~ W j a) by (intros [y [H3 H4]]; apply Hij;
      assert (x = y) by (eapply D; eauto using nth_error_In); subst y; eapply nth_error_nodup; eauto). tauto. }
  assert (Fp : fps W W (map f l)).
  { intros i p Hp. rewrite nth_error_map in Hp. destruct (nth_error l i) as [x|] eqn:E; [|discriminate].
    injection Hp as <-. eapply fp_mono; [| |apply F; eapply nth_error_In; eauto]; intros a Ha; exists x; auto. }
  destruct (par_result A_dec W W (map f l) m m' Dis Fp Fin) as [R1 R2]. split.
  - intros x a Hx Ha. destruct (In_nth_error _ _ Hx) as [i Hi]. eapply R1.
    + rewrite nth_error_map, Hi. reflexivity.
    + exists x. auto.
  - intros a Ha. apply R2. intros i Hi [x [H1 H2]]. eapply Ha; eauto using nth_error_In.
Qed.

(** sequential loops of state transformers *)
Definition local (l : list X) (f : X -> (A -> V) -> (A -> V)) : Prop := forall x, In x l ->
  (forall m a, ~ S x a -> f x m a = m a) /\
  (forall m m', (forall a, S x a -> m a = m' a) -> forall a, S x a -> f x m a = f x m' a).
Lemma fold_indep : forall (f : X -> (A -> V) -> (A -> V)) (l : list X) m, local l f -> NoDup l ->
  (forall x y a, In x l -> In y l -> S x a -> S y a -> x = y) ->
  (forall x a, In x l -> S x a -> fold_left (fun m x => f x m) l m a = f x m a) /\
  (forall a, (forall x, In x l -> ~ S x a) -> fold_left (fun m x => f x m) l m a = m a).
Proof.
  intros f l m L. revert m L. induction l as [|x l IH]; intros m L N D; cbn; [split; [intros ? ? []|reflexivity]|].
  inversion_clear N as [|? ? N1 N2].
  assert (L' : local l f) by (intros z Hz; apply L; right; auto).
  destruct (IH (f x m) L' N2 ltac:(intros; eapply D; eauto; right; auto)) as [I1 I2]. assert (Lx := L x (or_introl eq_refl)). split.
  - intros y a [<-|Hy] Ha.
    + apply I2. intros z Hz Sz. apply N1. rewrite (D x z a); cbn; auto.
    + rewrite (I1 y a) by auto. apply (proj2 (L' y Hy)); auto. intros b Sb. apply (proj1 Lx). intros Sx. apply N1.
      rewrite (D x y b); cbn; auto.
  - intros a Ha. rewrite I2 by (intros z Hz; apply Ha; right; auto). apply (proj1 Lx). apply Ha. left; auto.
Qed.
End Keys.

Lemma fold_flat_map : forall M X Y (f : M -> Y -> M) (g : X -> list Y) l m,
  fold_left f (flat_map g l) m = fold_left (fun m x => fold_left f (g x) m) l m.
Proof. intros M X Y f g. induction l as [|x l IH]; intros m; cbn; [reflexivity|]. rewrite fold_left_app. apply IH. Qed.
Lemma fold_map : forall M X Y (f : M -> Y -> M) (g : X -> Y) l m,
  fold_left f (map g l) m = fold_left (fun m x => f m (g x)) l m.
Proof. intros M X Y f g. induction l as [|x l IH]; intros m; cbn; auto. Qed.
