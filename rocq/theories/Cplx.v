(** Complex numbers with rational parts: lapack_complex_double. Nothing here models code of /repo except [cmul], which is
    c/lapack_wrapper.c 61-70 (phonoc_complex_prod). *)
From Coq Require Import ZArith QArith List Setoid Morphisms Ring Lia Lqa.
From Verif Require Import Base BaseProofs IseSpec IseProofs.
Import ListNotations.
Open Scope Q_scope.

Record cplx := C { re : Q; im : Q }.
Definition cmul (a b : cplx) : cplx := C (re a * re b - im a * im b) (im a * re b + re a * im b).
Definition cadd (a b : cplx) : cplx := C (re a + re b) (im a + im b).
Definition csub (a b : cplx) : cplx := C (re a - re b) (im a - im b).
Definition copp (a : cplx) : cplx := C (- re a) (- im a).
Definition conj (a : cplx) : cplx := C (re a) (- im a).
Definition cscale (x : Q) (a : cplx) : cplx := C (x * re a) (x * im a).
Definition c0 : cplx := C 0 0.
Definition c1 : cplx := C 1 0.
Definition cnorm2 (a : cplx) : Q := re a * re a + im a * im a.
Definition ceq (a b : cplx) : Prop := re a == re b /\ im a == im b.
Infix "=c=" := ceq (at level 70).

#[global] Instance ceq_equiv : Equivalence ceq.
Proof. split; [intros a; split; reflexivity|intros a b [H1 H2]; split; symmetry; assumption|intros a b c [H1 H2] [H3 H4]; split; etransitivity; eassumption]. Qed.
#[global] Instance cadd_proper : Proper (ceq ==> ceq ==> ceq) cadd.
Proof. intros a a' [H1 H2] b b' [H3 H4]. split; cbn; rewrite ?H1, ?H2, ?H3, ?H4; reflexivity. Qed.
#[global] Instance csub_proper : Proper (ceq ==> ceq ==> ceq) csub.
Proof. intros a a' [H1 H2] b b' [H3 H4]. split; cbn; rewrite ?H1, ?H2, ?H3, ?H4; reflexivity. Qed.
#[global] Instance cmul_proper : Proper (ceq ==> ceq ==> ceq) cmul.
Proof. intros a a' [H1 H2] b b' [H3 H4]. split; cbn; rewrite ?H1, ?H2, ?H3, ?H4; reflexivity. Qed.
#[global] Instance copp_proper : Proper (ceq ==> ceq) copp.
Proof. intros a a' [H1 H2]. split; cbn; rewrite ?H1, ?H2; reflexivity. Qed.
#[global] Instance conj_proper : Proper (ceq ==> ceq) conj.
Proof. intros a a' [H1 H2]. split; cbn; rewrite ?H1, ?H2; reflexivity. Qed.
#[global] Instance cscale_proper : Proper (Qeq ==> ceq ==> ceq) cscale.
Proof. intros x y H a a' [H1 H2]. split; cbn; rewrite H, ?H1, ?H2; reflexivity. Qed.
#[global] Instance cnorm2_proper : Proper (ceq ==> Qeq) cnorm2.
Proof. intros a a' [H1 H2]. unfold cnorm2. rewrite H1, H2. reflexivity. Qed.
#[global] Instance re_proper : Proper (ceq ==> Qeq) re. Proof. intros a b [H _]. exact H. Qed.
#[global] Instance im_proper : Proper (ceq ==> Qeq) im. Proof. intros a b [_ H]. exact H. Qed.
Lemma c_ring : ring_theory c0 c1 cadd cmul csub copp ceq.
Proof. split; intros; split; cbn; ring. Qed.
Add Ring c_ring_dec : c_ring.
Lemma cnorm2_mul : forall a b, cnorm2 (cmul a b) == cnorm2 a * cnorm2 b.
Proof. intros. unfold cnorm2. cbn. ring. Qed.
Lemma cnorm2_nonneg : forall a, 0 <= cnorm2 a.
Proof. intros a. unfold cnorm2. nra. Qed.
Lemma cnorm2_scale : forall x a, cnorm2 (cscale x a) == x * x * cnorm2 a.
Proof. intros. unfold cnorm2. cbn. ring. Qed.
Lemma cscale_mul : forall x a, cscale x a =c= cmul (C x 0) a.
Proof. intros. split; cbn; ring. Qed.
Lemma conj_mul : forall a b, conj (cmul a b) =c= cmul (conj a) (conj b).
Proof. intros. split; cbn; ring. Qed.
Lemma conj_add : forall a b, conj (cadd a b) =c= cadd (conj a) (conj b).
Proof. intros. split; cbn; ring. Qed.

(** sums *)
Definition csum (l : list cplx) : cplx := fold_right cadd c0 l.
Definition CSum (n : Z) (f : Z -> cplx) : cplx := csum (map f (zrange n)).
Lemma csum_nil : csum [] = c0. Proof. reflexivity. Qed.
Lemma csum_cons : forall x l, csum (x :: l) = cadd x (csum l). Proof. reflexivity. Qed.
Lemma csum_parts : forall l, re (csum l) = qsum (map re l) /\ im (csum l) = qsum (map im l).
Proof. induction l as [|x l [H1 H2]]; [split; reflexivity|]. split; [change (re (csum (x :: l))) with (re x + re (csum l)); rewrite H1|change (im (csum (x :: l))) with (im x + im (csum l)); rewrite H2]; reflexivity. Qed.
Lemma csum_app : forall l l', csum (l ++ l') =c= cadd (csum l) (csum l').
Proof. induction l as [|x l IH]; intros l'; cbn [app]; rewrite ?csum_nil, ?csum_cons; [ring|]. rewrite IH. ring. Qed.
Lemma csum_ext : forall X (f g : X -> cplx) l, (forall x, In x l -> f x =c= g x) -> csum (map f l) =c= csum (map g l).
Proof. intros X f g. induction l as [|x l IH]; intros H; [reflexivity|]. cbn [map]. rewrite !csum_cons. rewrite (H x (or_introl eq_refl)), IH; [reflexivity|]. intros; apply H; now right. Qed.
Lemma csum_scale : forall X c (f : X -> cplx) l, csum (map (fun x => cmul c (f x)) l) =c= cmul c (csum (map f l)).
Proof. intros X c f. induction l as [|x l IH]; cbn [map]; rewrite ?csum_nil, ?csum_cons; [ring|]. rewrite IH. ring. Qed.
Lemma csum_add : forall X (f g : X -> cplx) l, csum (map (fun x => cadd (f x) (g x)) l) =c= cadd (csum (map f l)) (csum (map g l)).
Proof. intros X f g. induction l as [|x l IH]; cbn [map]; rewrite ?csum_nil, ?csum_cons; [ring|]. rewrite IH. ring. Qed.
Lemma csum_zero : forall X (f : X -> cplx) l, (forall x, In x l -> f x =c= c0) -> csum (map f l) =c= c0.
Proof. intros X f. induction l as [|x l IH]; intros H; [reflexivity|]. cbn [map]. rewrite !csum_cons. rewrite (H x (or_introl eq_refl)), IH; [ring|]. intros; apply H; now right. Qed.
Lemma csum_conj : forall X (f : X -> cplx) l, conj (csum (map f l)) =c= csum (map (fun x => conj (f x)) l).
Proof. intros X f. induction l as [|x l IH]; cbn [map]; [split; reflexivity|]. rewrite !csum_cons. rewrite conj_add, IH. reflexivity. Qed.
Lemma csum_flat_map : forall X Y (f : Y -> cplx) (g : X -> list Y) l, csum (map f (flat_map g l)) =c= csum (map (fun x => csum (map f (g x))) l).
Proof. intros X Y f g. induction l as [|x l IH]; [reflexivity|]. cbn [flat_map map]. rewrite map_app, csum_app, IH. reflexivity. Qed.
Lemma csum_swap : forall X Y (f : X -> Y -> cplx) l l', csum (map (fun x => csum (map (f x) l')) l) =c= csum (map (fun y => csum (map (fun x => f x y) l)) l').
Proof.
  intros X Y f l l'. induction l as [|x l IH].
  - cbn [map]. symmetry. apply csum_zero. reflexivity.
  - cbn [map]. rewrite !csum_cons. rewrite IH, <- csum_add. apply csum_ext. intros y _. reflexivity.
Qed.
Lemma fold_csum : forall X (f : X -> cplx) l a, fold_left (fun s x => cadd s (f x)) l a =c= cadd a (csum (map f l)).
Proof. intros X f. induction l as [|x l IH]; intros a; cbn [fold_left map]; rewrite ?csum_nil, ?csum_cons; [ring|]. rewrite IH. ring. Qed.
Lemma CSum_ext : forall n f g, (forall i, (0 <= i < n)%Z -> f i =c= g i) -> CSum n f =c= CSum n g.
Proof. intros n f g H. apply csum_ext. intros x Hx. apply H. now apply in_zrange. Qed.
Lemma CSum_scale : forall n c f, CSum n (fun i => cmul c (f i)) =c= cmul c (CSum n f).
Proof. intros. apply csum_scale. Qed.
Lemma CSum_swap : forall n m f, CSum n (fun i => CSum m (f i)) =c= CSum m (fun j => CSum n (fun i => f i j)).
Proof. intros. apply csum_swap. Qed.
Lemma CSum_flat : forall n m (f : Z -> cplx), (0 <= n)%Z -> (0 <= m)%Z -> CSum (n * m) f =c= CSum n (fun k => CSum m (fun l => f (k * m + l)%Z)).
Proof.
  intros n m f Hn Hm. pattern n. apply natlike_ind; [reflexivity| |exact Hn].
  intros x Hx IH. unfold Z.succ. replace ((x + 1) * m)%Z with (x * m + m)%Z by ring.
  assert (G : forall y, (0 <= y)%Z -> CSum (x * m + y) f =c= cadd (CSum (x * m) f) (CSum y (fun l => f (x * m + l)%Z))).
  { intros y Hy. pattern y. apply natlike_ind; [rewrite Z.add_0_r; unfold CSum at 3; cbn [zrange Z.to_nat seq map]; rewrite csum_nil; ring| |exact Hy].
    intros w Hw IHw. unfold Z.succ. unfold CSum in *. rewrite Z.add_assoc, !zrange_succ by nia. rewrite !map_app, !csum_app, IHw. cbn [map]. rewrite !csum_cons, !csum_nil. ring. }
  rewrite G by exact Hm. rewrite IH. unfold CSum at 4. rewrite zrange_succ, map_app, csum_app by lia. cbn [map]. rewrite csum_cons, csum_nil. unfold CSum. ring.
Qed.
