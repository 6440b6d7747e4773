(** The Python and the C versions of the expansion and the symmetrization of a collision matrix agree (C125). *)
From Coq Require Import ZArith QArith List Lia Lqa Bool.
From Verif Require Import Base BaseProofs QMat Par Fc3Trans IseSpec IseProofs ColSpec ColModel ColProofs ColExpand ColExpandProps ColpyModel.
Import ListNotations.
Open Scope Z_scope.

(** ** Expansion *)
Section E.
Variables (rot : Z -> Z) (ng nrot : Z).
Let r l x := rot (l * ng + x).
Lemma cols : forall ir l (copy : Z -> Z -> Z -> Q) ks m x j y c,
  Qeq (fold_left (fun m k => add_block (r l ir) (r l k) (fun j c => copy j k c) m) ks m x j y c)
      (m x j y c + (if r l ir =? x then qsum (map (fun n => if r l n =? y then copy j n c else 0%Q) ks) else 0%Q)).
Proof.
  intros ir l copy. induction ks as [|k ks IH]; intros m x j y c; cbn [fold_left map qsum fold_right].
  - destruct (r l ir =? x); ring.
  - rewrite IH. unfold add_block. rewrite (Z.eqb_sym x), (Z.eqb_sym y). fold (qsum (map (fun n => if r l n =? y then copy j n c else 0%Q) ks)).
    destruct (r l ir =? x); cbn [andb]; [|ring]. destruct (r l k =? y); ring.
Qed.
Lemma ops : forall ir (copy : Z -> Z -> Z -> Q) ls m x j y c,
  Qeq (fold_left (fun m l => fold_left (fun m k => add_block (r l ir) (r l k) (fun j c => copy j k c) m) (zrange ng) m) ls m x j y c)
      (m x j y c + qsum (map (fun l => if r l ir =? x then Sum ng (fun n => if r l n =? y then copy j n c else 0%Q) else 0%Q) ls)).
Proof.
  intros ir copy. induction ls as [|l ls IH]; intros m x j y c; cbn [fold_left map qsum fold_right]; [ring|].
  rewrite IH, cols. unfold Sum at 2. fold (qsum (map (fun l => if r l ir =? x then Sum ng (fun n => if r l n =? y then copy j n c else 0%Q) else 0%Q) ls)). unfold Sum. ring.
Qed.
Lemma row_result : forall m ir x j y c, Qeq (py_expand_row rot ng nrot m ir x j y c)
  ((if x =? ir then 0%Q else m x j y c) + Sum nrot (fun l => if r l ir =? x then Sum ng (fun n => if r l n =? y then (m ir j n c / inject_Z (multi rot ng nrot ir))%Q else 0%Q) else 0%Q)).
Proof. intros. unfold py_expand_row. apply (ops ir (fun j k c => (m ir j k c / inject_Z (multi rot ng nrot ir))%Q)). Qed.
Lemma row_outside : forall m ir x j y c, (exists e, 0 <= e < nrot /\ r e ir = ir) -> (forall l, 0 <= l < nrot -> r l ir <> x) -> Qeq (py_expand_row rot ng nrot m ir x j y c) (m x j y c).
Proof.
  intros m ir x j y c [e [He Ee]] H. rewrite row_result. destruct (Z.eqb_spec x ir) as [->|]; [destruct (H e He Ee)|].
  rewrite Sum_zero; [ring|]. intros l Hl. destruct (Z.eqb_spec (r l ir) x) as [K|]; [destruct (H l Hl K)|reflexivity].
Qed.
Hypothesis HA : is_action nrot ng r.
Variables (nir : Z) (irs : Z -> Z).
Hypothesis HR : representatives nrot ng r nir irs.
Lemma fixes : forall k, 0 <= k < nir -> exists e, 0 <= e < nrot /\ r e (irs k) = irs k.
Proof. intros k Hk. destruct (act_id _ _ _ HA) as [e [He Hid]]. exists e. split; [exact He|]. apply Hid. apply HR, Hk. Qed.
Lemma rows_outside : forall ks m x j y c, (forall k, In k ks -> 0 <= k < nir) -> (forall k l, In k ks -> 0 <= l < nrot -> r l (irs k) <> x) ->
  Qeq (py_expand rot ng nrot (map irs ks) m x j y c) (m x j y c).
Proof.
  unfold py_expand. induction ks as [|k ks IH]; intros m x j y c Hk H; cbn [map fold_left]; [reflexivity|].
  etransitivity; [apply IH; [intros k' Hk'; apply Hk; now right|intros k' l' Hk' Hl'; apply H; [now right|exact Hl']]|]. apply row_outside; [apply fixes, Hk; now left|]. intros l Hl. apply H; [now left|exact Hl].
Qed.
Lemma rows_result : forall ks m k x j y c, (forall k, In k ks -> 0 <= k < nir) -> NoDup ks -> In k ks -> (exists l, 0 <= l < nrot /\ r l (irs k) = x) ->
  Qeq (py_expand rot ng nrot (map irs ks) m x j y c)
  ((if x =? irs k then 0%Q else m x j y c) + Sum nrot (fun l => if r l (irs k) =? x then Sum ng (fun n => if r l n =? y then (m (irs k) j n c / inject_Z (multi rot ng nrot (irs k)))%Q else 0%Q) else 0%Q)).
Proof.
  induction ks as [|k0 ks IH]; intros m k x j y c Hks N Hin [l [Hl Hx]]; [destruct Hin|]. unfold py_expand. cbn [map fold_left]. inversion_clear N as [|? ? N1 N2].
  assert (Hk : 0 <= k < nir) by (apply Hks; exact Hin). destruct HR as [R1 R2].
  destruct Hin as [-> | Hin].
  - etransitivity; [apply (rows_outside ks); [intros; apply Hks; now right|]|apply row_result].
    intros k' l' Hk' Hl' E. apply N1. rewrite (R2 k k' l l'); auto; [apply Hks; now right|congruence].
  - assert (Hk0 : 0 <= k0 < nir) by (apply Hks; now left). fold (py_expand rot ng nrot (map irs ks) (py_expand_row rot ng nrot m (irs k0))).
    etransitivity; [apply (IH _ k x j y c (fun k' H => Hks k' (or_intror H)) N2 Hin (ex_intro _ l (conj Hl Hx)))|].
    assert (O : forall x j y c, (exists l, 0 <= l < nrot /\ r l (irs k) = x) -> Qeq (py_expand_row rot ng nrot m (irs k0) x j y c) (m x j y c)).
    { intros x' j' y' c' [l' [Hl' <-]]. apply row_outside; [apply fixes, Hk0|]. intros l2 Hl2 E. apply N1. rewrite (R2 k0 k l2 l'); auto. }
    apply Qplus_comp.
    + destruct (x =? irs k); [reflexivity|]. apply O. eauto.
    + apply Sum_ext. intros l' Hl'. destruct (r l' (irs k) =? x); [|reflexivity]. apply Sum_ext. intros n Hn. destruct (r l' n =? y); [|reflexivity].
      apply Qmult_comp; [|reflexivity]. apply O. destruct (fixes k Hk) as [e [He Ee]]. eauto.
Qed.
End E.

(** For every schedule of the C loops the Python branch gives the same matrix, element by element. *)
Theorem C125_expansion : forall rot irs nir ng nrot ns nt nb m m', let r l x := rot (l * ng + x) in
  is_action nrot ng r -> representatives nrot ng r nir irs -> 0 <= nb ->
  phases (expand_loops rot irs nir ng nrot ns nt nb) m m' ->
  forall s t x j y c, 0 <= s < ns -> 0 <= t < nt -> 0 <= x < ng -> 0 <= j < nb -> 0 <= y < ng -> 0 <= c < nb ->
  Qeq (py_expand rot ng nrot (map irs (zrange nir)) (cm nt ng nb m s t) x j y c) (cm nt ng nb m' s t x j y c).
Proof.
  intros rot irs nir ng nrot ns nt nb m m' r HA HR Hnb P s t x j y c Hs Ht Hx Hj Hy Hc.
  destruct (expand_result rot irs nir ng nrot ns nt nb m m' HA HR Hnb P) as [F _].
  destruct (C32_other_rows_kept rot irs nir ng nrot ns nt nb m m' HA HR Hnb P) as [K _].
  destruct (find (fun k => existsb (fun l => r l (irs k) =? x) (zrange nrot)) (zrange nir)) as [k|] eqn:E.
  - apply find_some in E. destruct E as [Hk E]. apply existsb_exists in E. destruct E as [l [Hl E]]. apply in_zrange in Hl. apply Z.eqb_eq in E.
    etransitivity; [apply (rows_result rot ng nrot HA nir irs HR (zrange nir) (cm nt ng nb m s t) k x j y c (fun k => proj1 (in_zrange nir k)) (NoDup_zrange nir) Hk (ex_intro _ l (conj Hl E)))|].
    apply in_zrange in Hk. symmetry. apply (F s t k x j y c); eauto.
  - assert (N : forall k l, In k (zrange nir) -> 0 <= l < nrot -> r l (irs k) <> x).
    { intros k l Hk Hl E'. pose proof (find_none _ _ E k Hk) as X. cbv beta in X. apply Bool.not_true_iff_false in X. apply X. apply existsb_exists.
      exists l. split; [now apply in_zrange|now apply Z.eqb_eq]. }
    etransitivity; [apply (rows_outside rot ng nrot HA nir irs HR (zrange nir) (cm nt ng nb m s t) x j y c (fun k => proj1 (in_zrange nir k)) N)|].
    rewrite (K s t x j y c); auto; [reflexivity|]. intros k l Hk Hl. apply N; [now apply in_zrange|exact Hl].
Qed.
Print Assumptions C125_expansion.

(** ** Symmetrization *)
Definition visited (l : list (Z * Z)) (x y : Z) : bool := existsb (fun p => ((fst p =? x) && (snd p =? y)) || ((fst p =? y) && (snd p =? x))) l.
Lemma visited_sym : forall l x y, visited l x y = visited l y x.
Proof. intros l x y. unfold visited. induction l as [|a l IH]; cbn [existsb]; [reflexivity|]. rewrite IH. f_equal. apply orb_comm. Qed.
Lemma visits : forall l seen m0 m x y, (forall x y, Qeq (m x y) (if visited seen x y then ((m0 x y + m0 y x) / 2)%Q else m0 x y)) ->
  Qeq (fold_left (fun m p => set_symmetrized (fst p) (snd p) m) l m x y) (if visited (l ++ seen) x y then ((m0 x y + m0 y x) / 2)%Q else m0 x y).
Proof.
  induction l as [|[p q] l IH]; intros seen m0 m x y H; cbn [fold_left app fst snd]; [apply H|].
  rewrite (IH ((p, q) :: seen) m0).
  - replace (visited (l ++ (p, q) :: seen) x y) with (visited (((p, q) :: l) ++ seen) x y); [reflexivity|].
    unfold visited. rewrite !existsb_app. cbn [existsb]. destruct (existsb _ l), (existsb _ seen); rewrite ?orb_true_r, ?orb_false_r; reflexivity.
  - intros x' y'. unfold set_symmetrized, visited. cbn [existsb fst snd]. fold (visited seen x' y').
    assert (V : Qeq ((m p q + m q p) / 2) ((m0 p q + m0 q p) / 2)).
    { rewrite (H p q), (H q p). pose proof (visited_sym seen q p) as S.
      rewrite S. destruct (visited seen p q); field. }
    rewrite (Z.eqb_sym p x'), (Z.eqb_sym q y'), (Z.eqb_sym p y'), (Z.eqb_sym q x').
    destruct (Z.eqb_spec x' q) as [E1|N1], (Z.eqb_spec y' p) as [E2|N2], (Z.eqb_spec x' p) as [E3|N3], (Z.eqb_spec y' q) as [E4|N4]; cbn [andb orb]; try apply H;
      subst; try congruence; rewrite V; field.
Qed.

Lemma row_fold : forall p lq m, fold_left (fun m q => set_symmetrized p q m) lq m = fold_left (fun m p => set_symmetrized (fst p) (snd p) m) (map (fun q => (p, q)) lq) m.
Proof. intros p. induction lq as [|q lq IH]; intros m; cbn [fold_left map fst snd]; [reflexivity|]. apply IH. Qed.
Lemma pairs_fold : forall lq lp m, fold_left (fun m p => fold_left (fun m q => set_symmetrized p q m) lq m) lp m
  = fold_left (fun m p => set_symmetrized (fst p) (snd p) m) (flat_map (fun p => map (fun q => (p, q)) lq) lp) m.
Proof. intros lq. induction lp as [|p lp IH]; intros m; cbn [fold_left flat_map]; [reflexivity|]. rewrite IH, fold_left_app, row_fold. reflexivity. Qed.
(** The three versions of the symmetrization agree: the C loops for every schedule, numpy, and the loops over elements; all are the mean of the matrix and its transpose. *)
Theorem C125_symmetrization : forall nc nt ns m m', 0 <= nc -> phases (symmetrize_loops nc nt ns) m m' ->
  forall i j, 0 <= i < ns -> 0 <= j < nt -> let el (m : Z -> Q) k l := m (((i * nt + j) * nc + k) * nc + l) in
  forall k l, 0 <= k < nc -> 0 <= l < nc ->
  Qeq (el m' k l) (numpy_symmetrize (el m) k l) /\ Qeq (el m' k l) (py_symmetrize nc (el m) k l).
Proof.
  intros nc nt ns m m' Hn P i j Hi Hj el k l Hk Hl. destruct (C31_symmetrized nc nt ns m m' Hn P) as [F _]. cbv zeta in F.
  destruct (F i j k l Hi Hj Hk Hl) as [F1 _]. split; [exact F1|]. etransitivity; [exact F1|]. symmetry. unfold py_symmetrize. rewrite pairs_fold.
  etransitivity; [apply (visits _ [] (el m) (el m) k l); intros; reflexivity|]. rewrite app_nil_r.
  assert (V : visited (flat_map (fun p => map (fun q => (p, q)) (zrange nc)) (zrange nc)) k l = true).
  { unfold visited. apply existsb_exists. exists (k, l). split; [|cbn [fst snd]; now rewrite !Z.eqb_refl]. apply in_flat_map. exists k. split; [now apply in_zrange|].
    apply in_map_iff. exists l. split; [reflexivity|now apply in_zrange]. }
  rewrite V. reflexivity.
Qed.
Print Assumptions C125_symmetrization.

(** the action of C32_ex: four grid points in a row, inversion, three irreducible points; and a matrix of size 3 *)
Example C125_ex : let m := py_expand x_rot 4 2 (map x_irs (zrange 3)) (cm 1 4 1 x_m 0 0) in
  map (fun x => map (fun y => Qred (m x 0 y 0)) (zrange 4)) (zrange 4) = map (map inject_Z) [[1; 2; 3; 2]; [5; 6; 7; 8]; [4; 3; 9; 3]; [5; 8; 7; 6]].
Proof. vm_compute. reflexivity. Qed.
Example C125_ex_sym : map (fun x => map (fun y => Qred (py_symmetrize 3 (fun p q => inject_Z (10 * p + q)) x y)) (zrange 3)) (zrange 3)
  = [[0; 11#2; 11]; [11#2; 11; 33#2]; [11; 33#2; 22]]%Q.
Proof. vm_compute. reflexivity. Qed.
