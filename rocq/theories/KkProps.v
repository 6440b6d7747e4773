(** Kramers-Kronig relation and spectral function (C98) *)
From Coq Require Import ZArith QArith Qabs Qfield List Bool Lia Lqa.
From Verif Require Import Base BaseProofs QMat Fc3Trans IseModel IseSpec IseProofs KapProofs KapTensor RseModel RseProps.
Import ListNotations.
Open Scope Z_scope.

(** ** Specification *)
(** frequency points: strictly increasing from 0 *)
Definition from_zero (n : Z) (w : Z -> Q) : Prop := (w 0%Z == 0)%Q /\ forall i j, 0 <= i -> i < j -> j < n -> (w i < w j)%Q.
(** sum over the other positive points of [2 x y(x) / (x^2 - w_i^2)], the discrete principal value integral of an odd function *)
Definition principal (n : Z) (w y : Z -> Q) (i : Z) : Q :=
  qsum (map (fun j => if ((j =? 0) || (j =? i))%Z then 0%Q else (2 * w j * y j / (w j * w j - w i * w i))%Q) (zrange n)).
(** a complex number times another *)
Definition cprod (a b : Q * Q) : Q * Q := (fst a * fst b - snd a * snd b, fst a * snd b + snd a * fst b)%Q.

(** ** Kramers-Kronig *)
Ltac nz := first [assumption | intros ?K; lra | split; nz].
Lemma pick_map : forall X (g : Z -> X) m n, 0 <= m -> 0 <= n ->
  flat_map (fun i => if i <? m then [] else [g i]) (zrange (m + n)) = map (fun r => g (m + r)) (zrange n).
Proof.
  intros X g m n Hm Hn. revert n Hn. apply (Zlt_0_ind (fun n => _)). intros n IH Hn. destruct (Z.eq_dec n 0) as [->|N].
  - rewrite Z.add_0_r. change (zrange 0) with (@nil Z). cbn [map].
    assert (A : forall l, (forall x, In x l -> x < m) -> flat_map (fun i => if i <? m then [] else [g i]) l = []).
    { induction l as [|x l IHl]; intros H; [reflexivity|]. cbn. rewrite (proj2 (Z.ltb_lt x m)) by (apply H; now left). apply IHl. intros; apply H; now right. }
    apply A. intros x Hx. apply in_zrange in Hx. lia.
  - replace (m + n) with (m + (n - 1) + 1) by ring. replace n with (n - 1 + 1) at 2 by ring. rewrite !zrange_succ by lia. rewrite flat_map_app, map_app, IH by lia.
    cbn [flat_map map]. rewrite (proj2 (Z.ltb_ge (m + (n - 1)) m)) by lia. rewrite app_nil_r. reflexivity.
Qed.
Lemma qs_shift : forall (h : Z -> Q) a b, 0 <= a -> 0 <= b -> (qsum (map h (zrange (a + b)%Z)) == qsum (map h (zrange a)) + qsum (map (fun j => h (a + j)%Z) (zrange b)))%Q.
Proof.
  intros h a b Ha Hb. revert b Hb. apply (Zlt_0_ind (fun n => _)). intros b IH Hb. destruct (Z.eq_dec b 0) as [->|N].
  - rewrite Z.add_0_r. change (zrange 0) with (@nil Z). cbn [map]. rewrite qs_nil. ring.
  - replace (a + b) with (a + (b - 1) + 1) by ring. replace b with (b - 1 + 1) at 2 by ring. rewrite !zrange_succ by lia. rewrite !map_app, !qs_app, IH by lia. cbn [map]. rewrite !qs_cons, !qs_nil. ring.
Qed.
Lemma qs_single : forall n i (v : Q), 0 <= i < n -> (qsum (map (fun j => if (j =? i)%Z then v else 0) (zrange n)) == v)%Q.
Proof.
  intros n i v Hi. replace n with (i + (1 + (n - i - 1))) by ring. rewrite qs_shift, (qs_shift _ 1 (n - i - 1)) by lia. change (zrange 1) with [0]. cbn [map]. rewrite qs_cons, qs_nil.
  rewrite !qs_zero.
  - rewrite Z.add_0_r, Z.eqb_refl. ring.
  - intros x Hx. apply in_zrange in Hx. rewrite (proj2 (Z.eqb_neq _ _)) by lia. reflexivity.
  - intros x Hx. apply in_zrange in Hx. rewrite (proj2 (Z.eqb_neq _ _)) by lia. reflexivity.
Qed.
Lemma pick_list : forall pi n im w, 1 <= n -> pick_one pi n im w =
  map (fun r => let W := hstack_neg n w in let IM := hstack_neg n im in let i := n - 1 + r in
    ((qsum (map (fun m => IM m / upd (fun m => W m - W i) i 1 m) (zrange (2 * n - 1)%Z)) - IM i) * (kk_df n w / pi), W i)%Q) (zrange n).
Proof.
  intros pi n im w Hn. unfold pick_one. cbv zeta. replace ((2 * n - 1 - 1) / 2) with (n - 1) by (replace (2 * n - 1 - 1) with ((n - 1) * 2) by ring; rewrite Z.div_mul; lia).
  replace (2 * n - 1) with (n - 1 + n) at 1 by ring.
  rewrite (pick_map _ (fun i => ((qsum (map (fun m => hstack_neg n im m / upd (fun m0 => hstack_neg n w m0 - hstack_neg n w i) i 1 m) (zrange (2 * n - 1)%Z)) - hstack_neg n im i) * (kk_df n w / pi), hstack_neg n w i)%Q)) by lia.
  reflexivity.
Qed.
Lemma hs_left : forall n (a : Z -> Q) j, 0 <= j < n -> hstack_neg n a (n - 1 - j) = (- a j)%Q.
Proof. intros n a j H. unfold hstack_neg. rewrite (proj2 (Z.ltb_lt _ _)) by lia. f_equal. f_equal. lia. Qed.
Lemma hs_right : forall n (a : Z -> Q) j, 1 <= j -> hstack_neg n a (n - 1 + j) = a j.
Proof. intros n a j H. unfold hstack_neg. rewrite (proj2 (Z.ltb_ge _ _)) by lia. f_equal. lia. Qed.
(** split the sum over all points into the negative half (with zero) and the positive half *)
Lemma halves : forall n (h : Z -> Q), 1 <= n ->
  (qsum (map h (zrange (2 * n - 1)%Z)) == qsum (map (fun j => h (n - 1 - j)%Z) (zrange n)) + qsum (map (fun j => if (j =? 0)%Z then 0 else h (n - 1 + j)%Z) (zrange n)))%Q.
Proof.
  intros n h Hn. replace (2 * n - 1) with (n + (n - 1)) by ring. rewrite qs_shift by lia. apply Qplus_comp.
  - symmetry. apply (qs_reindex n (fun j => n - 1 - j) h); intros; lia.
  - assert (E : zrange n = zrange (1 + (n - 1))) by (f_equal; lia). rewrite E. rewrite (qs_shift _ 1 (n - 1)) by lia. change (zrange 1) with [0]. cbn [map]. rewrite qs_cons, qs_nil. change (0 =? 0) with true. cbv iota.
    rewrite !Qplus_0_l. apply qs_ext. intros j Hj. apply in_zrange in Hj. rewrite (proj2 (Z.eqb_neq (1 + j) 0)) by lia. replace (n - 1 + (1 + j)) with (n + j) by ring. reflexivity.
Qed.

Lemma kk_value : forall n im w i, 1 <= n -> from_zero n w -> 0 <= i < n ->
  let W := hstack_neg n w in let IM := hstack_neg n im in let c := n - 1 + i in
  (qsum (map (fun m => IM m / upd (fun m => W m - W c) c 1 m) (zrange (2 * n - 1)%Z)) - IM c ==
   principal n w im i + (if (i =? 0)%Z then 0 else im i / (2 * w i) + im 0%Z / w i))%Q /\ (W c == w i)%Q.
Proof.
  intros n im w i Hn [W0 WI] Hi W IM c.
  assert (WC : (W c == w i)%Q).
  { unfold W, c. destruct (Z.eq_dec i 0) as [->|N]; [replace (n - 1 + 0) with (n - 1 - 0) by ring; rewrite hs_left by lia; rewrite W0; reflexivity|rewrite hs_right by lia; reflexivity]. }
  split; [|exact WC]. rewrite halves by exact Hn.
  assert (POS : forall j, 1 <= j < n -> (0 < w j)%Q) by (intros j Hj; rewrite <- W0; apply WI; lia).
  assert (DIF : forall j, 0 <= j < n -> j <> i -> ~ (w j - w i == 0)%Q).
  { intros j Hj N E. destruct (Z.lt_trichotomy j i) as [L|[L|L]]; [assert (A := WI j i); assert (w j < w i)%Q by (apply A; lia); lra|contradiction|assert (w i < w j)%Q by (apply WI; lia); lra]. }
  (* the left half *)
  assert (L : (qsum (map (fun j => IM (n - 1 - j)%Z / upd (fun m => W m - W c) c 1 (n - 1 - j)%Z) (zrange n)) ==
    qsum (map (fun j => if ((j =? 0) || (j =? i))%Z then 0 else im j / (w j + w i)) (zrange n)) + (if (i =? 0)%Z then IM c else im i / (2 * w i) + im 0%Z / w i))%Q).
  { destruct (Z.eq_dec i 0) as [I0|NI].
    - rewrite (proj2 (Z.eqb_eq i 0) I0).
      etransitivity; [apply (qs_ext _ _ (fun j => (if ((j =? 0) || (j =? i))%Z then 0 else im j / (w j + w i)) + (if (j =? 0)%Z then IM c else 0))%Q)|].
      + intros j Hj. apply in_zrange in Hj. destruct (Z.eqb_spec j 0) as [J0|NJ].
        * subst j. replace (n - 1 - 0) with c by (unfold c; lia). rewrite upd_same. cbn [orb]. field.
        * rewrite upd_other by (unfold c; lia). rewrite (proj2 (Z.eqb_neq j i)) by lia. cbn [orb]. unfold IM, W. rewrite !hs_left by lia. fold W. rewrite WC.
          assert (P := POS j). assert (P' : (0 < w j)%Q) by (apply P; lia). rewrite I0, W0. field; nz.
      + rewrite qs_add. apply Qplus_comp; [reflexivity|]. apply qs_single; lia.
    - rewrite (proj2 (Z.eqb_neq i 0) NI). assert (PI : (0 < w i)%Q) by (apply POS; lia).
      etransitivity; [apply (qs_ext _ _ (fun j => (if ((j =? 0) || (j =? i))%Z then 0 else im j / (w j + w i)) + ((if (j =? i)%Z then im i / (2 * w i) else 0) + (if (j =? 0)%Z then im 0%Z / w i else 0)))%Q)|].
      + intros j Hj. apply in_zrange in Hj. rewrite upd_other by (unfold c; lia). unfold IM, W. rewrite !hs_left by lia. fold W. rewrite WC.
        destruct (Z.eqb_spec j 0) as [J0|NJ].
        * subst j. rewrite (proj2 (Z.eqb_neq 0 i)) by lia. cbn [orb]. rewrite W0. field; nz.
        * assert (PJ : (0 < w j)%Q) by (apply POS; lia). cbn [orb]. destruct (Z.eqb_spec j i) as [->|NE]; field; nz.
      + rewrite !qs_add. apply Qplus_comp; [reflexivity|]. apply Qplus_comp.
        * apply qs_single; lia.
        * apply qs_single; lia. }
  assert (R : (qsum (map (fun j => if (j =? 0)%Z then 0 else IM (n - 1 + j)%Z / upd (fun m => W m - W c) c 1 (n - 1 + j)%Z) (zrange n)) ==
    qsum (map (fun j => if ((j =? 0) || (j =? i))%Z then 0 else im j / (w j - w i)) (zrange n)) + (if (i =? 0)%Z then 0 else IM c))%Q).
  { etransitivity; [apply (qs_ext _ _ (fun j => (if ((j =? 0) || (j =? i))%Z then 0 else im j / (w j - w i)) + (if (j =? i)%Z then (if (i =? 0)%Z then 0 else IM c) else 0))%Q)|].
    - intros j Hj. apply in_zrange in Hj. destruct (Z.eqb_spec j 0) as [J0|NJ].
      + cbn [orb]. destruct (Z.eqb_spec j i); [rewrite (proj2 (Z.eqb_eq i 0)) by lia|]; ring.
      + cbn [orb]. destruct (Z.eqb_spec j i) as [->|NE].
        * rewrite (proj2 (Z.eqb_neq i 0)) by lia. unfold c. rewrite upd_same. field.
        * rewrite upd_other by (unfold c; lia). unfold IM, W. rewrite !hs_right by lia. fold W. rewrite WC. field. apply DIF; lia.
    - rewrite qs_add. apply Qplus_comp; [reflexivity|]. apply qs_single; lia. }
  rewrite L, R. clear L R.
  assert (P : (principal n w im i == qsum (map (fun j => if ((j =? 0) || (j =? i))%Z then 0 else im j / (w j + w i)) (zrange n)) + qsum (map (fun j => if ((j =? 0) || (j =? i))%Z then 0 else im j / (w j - w i)) (zrange n)))%Q).
  { unfold principal. rewrite <- qs_add. apply qs_ext. intros j Hj. apply in_zrange in Hj. destruct (Z.eqb_spec j 0) as [J0|NJ]; cbn [orb]; [ring|]. destruct (Z.eqb_spec j i) as [->|NE]; [ring|].
    assert (PJ : (0 < w j)%Q) by (apply POS; lia). assert (D := DIF j Hj NE).
    assert (PI : (0 <= w i)%Q) by (destruct (Z.eq_dec i 0) as [->|NI]; [rewrite W0; apply Qle_refl|apply Qlt_le_weak; apply POS; lia]).
    field. repeat split; [exact D|intros K; lra|]. intros K. apply D. assert (F : ((w j - w i) * (w j + w i) == 0)%Q) by (rewrite <- K; ring). apply Qmult_integral in F. destruct F as [F|F]; [exact F|lra]. }
  rewrite P. destruct (i =? 0); ring.
Qed.

Lemma nth_zmap : forall X (g : Z -> X) n i d, 0 <= i < n -> nth (Z.to_nat i) (map g (zrange n)) d = g i.
Proof.
  intros X g n i d Hi. rewrite (nth_indep _ d (g 0)) by (rewrite map_length, length_zrange; lia). rewrite map_nth.
  f_equal. unfold zrange. rewrite (nth_indep _ 0 (Z.of_nat 0)) by (rewrite map_length, seq_length; lia). rewrite map_nth, seq_nth by lia. lia.
Qed.

(** When the points are accepted the real part is the discrete Kramers-Kronig integral of the odd continuation, on the points given. *)
Theorem C98_kramers_kronig : forall pi n im w l, 1 <= n -> from_zero n w -> imag_to_real pi n im w = Some l ->
  Z.of_nat (length l) = n /\
  forall i, 0 <= i < n ->
    (fst (nth (Z.to_nat i) l (0, 0)) == kk_df n w / pi * (principal n w im i + (if (i =? 0)%Z then 0 else im i / (2 * w i) + im 0%Z / w i)))%Q /\
    (snd (nth (Z.to_nat i) l (0, 0)) == w i)%Q.
Proof.
  intros pi n im w l Hn HW H. unfold imag_to_real in H. destruct (kk_accepts n w); [|discriminate]. injection H as <-. rewrite pick_list by exact Hn. split.
  - rewrite map_length, length_zrange. lia.
  - intros i Hi. rewrite nth_zmap by exact Hi. cbv zeta. cbn [fst snd]. destruct (kk_value n im w i Hn HW Hi) as [V P]. split; [|exact P]. rewrite V. ring.
Qed.
Print Assumptions C98_kramers_kronig.
(** Points are refused exactly when the first is not zero (1e-8) or a step differs from the mean step by more than 1e-6. *)
Theorem C98_refused : forall pi n im w, 2 <= n ->
  (imag_to_real pi n im w = None <->
   ((1 # 100000000) < Qabs (w 0%Z))%Q \/ exists k, 0 <= k < n - 1 /\ ((1 # 1000000) < Qabs (w (k + 1)%Z - w k - (w (n - 1)%Z - w 0%Z) / inject_Z (n - 1)%Z))%Q).
Proof.
  intros pi n im w Hn.
  assert (D : (kk_df n w == (w (n - 1)%Z - w 0%Z) / inject_Z (n - 1)%Z)%Q).
  { unfold kk_df. apply Qmult_comp; [|reflexivity]. assert (T : forall m, 0 <= m -> (qsum (map (fun k => w (k + 1)%Z - w k) (zrange m)) == w m - w 0%Z)%Q).
    { apply (Zlt_0_ind (fun m => _)). intros m IH Hm. destruct (Z.eq_dec m 0) as [->|N]; [change (zrange 0) with (@nil Z); cbn [map]; rewrite qs_nil; ring|].
      replace m with (m - 1 + 1) at 1 by ring. rewrite zrange_succ by lia. rewrite map_app, qs_app, IH by lia. cbn [map]. rewrite qs_cons, qs_nil. replace (m - 1 + 1) with m by ring. ring. }
    apply T. lia. }
  assert (Q : forall k, (Qabs (w (k + 1)%Z - w k - kk_df n w) == Qabs (w (k + 1)%Z - w k - (w (n - 1)%Z - w 0%Z) / inject_Z (n - 1)%Z))%Q) by (intros k; rewrite D; reflexivity).
  unfold imag_to_real, kk_accepts. destruct (qltb (1 # 100000000) (Qabs (w 0))) eqn:E0; cbn [negb andb].
  - split; [intros _; left; apply qltb_lt; exact E0|reflexivity].
  - destruct (forallb _ _) eqn:F.
    + split; [discriminate|]. intros [A|(k & Hk & A)]; exfalso.
      * apply qltb_lt in A. congruence.
      * rewrite forallb_forall in F. specialize (F k (proj2 (in_zrange _ _) Hk)). apply negb_true_iff in F. apply qltb_ge in F. rewrite Q in F. lra.
    + split; [|reflexivity]. intros _. right.
      assert (G : exists k, In k (zrange (n - 1)) /\ negb (qltb (1 # 1000000) (Qabs (w (k + 1)%Z - w k - kk_df n w))) = false).
      { clear - F. induction (zrange (n - 1)) as [|x l IH]; [discriminate|]. cbn in F. apply andb_false_iff in F. destruct F as [F|F]; [exists x; split; [now left|exact F]|destruct (IH F) as (k & Hk & E); exists k; split; [now right|exact E]]. }
      destruct G as (k & Hk & E). exists k. split; [apply in_zrange; exact Hk|]. apply negb_false_iff in E. apply qltb_lt in E. rewrite Q in E. exact E.
Qed.
Print Assumptions C98_refused.

(** ** Linewidths and shifts belong together *)
Definition kk_coef (w : Z -> Q) (i j : Z) : Q :=
  if (j =? 0)%Z then (if (i =? 0)%Z then 0%Q else (1 / w i)%Q) else if (j =? i)%Z then (1 / (2 * w i))%Q else (2 * w j / (w j * w j - w i * w i))%Q.
Definition KK (n : Z) (w y : Z -> Q) (i : Z) : Q := qsum (map (fun j => kk_coef w i j * y j)%Q (zrange n)).
Lemma KK_spec : forall n w y i, 0 <= i < n -> (KK n w y i == principal n w y i + (if (i =? 0)%Z then 0 else y i / (2 * w i) + y 0%Z / w i))%Q.
Proof.
  intros n w y i Hi. unfold KK, principal.
  assert (S : (qsum (map (fun j => (if (j =? i)%Z then (if (i =? 0)%Z then 0 else y i / (2 * w i)) else 0) + (if (j =? 0)%Z then (if (i =? 0)%Z then 0 else y 0%Z / w i) else 0)) (zrange n)) ==
    (if (i =? 0)%Z then 0 else y i / (2 * w i) + y 0%Z / w i))%Q).
  { rewrite qs_add, !qs_single by lia. destruct (i =? 0); [ring|reflexivity]. }
  rewrite <- S, <- qs_add. apply qs_ext. intros j Hj. unfold kk_coef. destruct (Z.eqb_spec j 0) as [->|NJ].
  - cbn [orb]. destruct (Z.eqb_spec i 0) as [->|NI]; [cbn; ring|]. rewrite (proj2 (Z.eqb_neq 0 i)) by lia. unfold Qdiv. ring.
  - cbn [orb]. destruct (Z.eqb_spec j i) as [->|NE]; [rewrite (proj2 (Z.eqb_neq i 0)) by exact NJ|]; unfold Qdiv; ring.
Qed.
Lemma KK_ext : forall n w y y' i, (forall j, 0 <= j < n -> (y j == y' j)%Q) -> (KK n w y i == KK n w y' i)%Q.
Proof. intros n w y y' i H. unfold KK. apply qs_ext. intros j Hj. apply in_zrange in Hj. rewrite H by exact Hj. reflexivity. Qed.
Lemma KK_scale : forall n w c y i, (KK n w (fun j => c * y j) i == c * KK n w y i)%Q.
Proof. intros. unfold KK. rewrite <- qs_scale. apply qs_ext. intros. ring. Qed.
Lemma KK_sum : forall X n w (F : X -> Z -> Q) l i, (KK n w (fun j => qsum (map (fun x => F x j) l)) i == qsum (map (fun x => KK n w (F x) i) l))%Q.
Proof. intros. unfold KK. rewrite qs_swap. apply qs_ext. intros j _. rewrite qs_scale. reflexivity. Qed.
Lemma KK_add : forall n w y y' i, (KK n w (fun j => y j + y' j) i == KK n w y i + KK n w y' i)%Q.
Proof. intros. unfold KK. rewrite <- qs_add. apply qs_ext. intros. ring. Qed.
Lemma KK_zero : forall n w y i, (forall j, 0 <= j < n -> (y j == 0)%Q) -> (KK n w y i == 0)%Q.
Proof. intros n w y i H. unfold KK. apply qs_zero. intros j Hj. apply in_zrange in Hj. rewrite H by exact Hj. ring. Qed.

(** delta function on the points: one over the step at the point, zero elsewhere *)
Definition hit (df x a : Q) : Q := if Qeq_bool x a then (1 / df)%Q else 0%Q.

Section Lines.
  Variables (n : Z) (w : Z -> Q) (df : Q).
  Hypothesis HW : from_zero n w.
  Hypothesis Hdf : ~ (df == 0)%Q.
  Lemma w_inj : forall p q, 0 <= p < n -> 0 <= q < n -> (w p == w q)%Q -> p = q.
  Proof. destruct HW as [_ I]. intros p q Hp Hq E. destruct (Z.lt_trichotomy p q) as [L|[L|L]]; [|exact L|]; exfalso; [assert (w p < w q)%Q by (apply I; lia)|assert (w q < w p)%Q by (apply I; lia)]; lra. Qed.
  Lemma w_pos : forall p, 1 <= p < n -> (0 < w p)%Q.
  Proof. destruct HW as [Z I]. intros p Hp. rewrite <- Z. apply I; lia. Qed.
  Lemma w_nn : forall p, 0 <= p < n -> (0 <= w p)%Q.
  Proof. intros p Hp. destruct (Z.eq_dec p 0) as [->|N]; [destruct HW as [E _]; rewrite E; apply Qle_refl|apply Qlt_le_weak, w_pos; lia]. Qed.
  Lemma KK_hit : forall a p i, 1 <= p < n -> 0 <= i < n -> (w p == a)%Q ->
    (df * KK n w (fun j => hit df (w j) a) i == - (lor 0 (w i - a) - lor 0 (w i + a)))%Q.
  Proof.
    intros a p i Hp Hi Ha. assert (PP := w_pos p Hp). assert (NI := w_nn i Hi).
    assert (E : (KK n w (fun j => hit df (w j) a) i == kk_coef w i p * (1 / df))%Q).
    { unfold KK. rewrite <- (qs_single n p (kk_coef w i p * (1 / df))%Q) by lia. apply qs_ext. intros j Hj. apply in_zrange in Hj. unfold hit. destruct (Z.eqb_spec j p) as [->|N].
      - rewrite (proj2 (Qeq_bool_iff _ _)) by exact Ha. reflexivity.
      - destruct (Qeq_bool (w j) a) eqn:B; [|ring]. apply Qeq_bool_iff in B. exfalso. apply N. apply w_inj; [lia|lia|rewrite B, Ha; reflexivity]. }
    rewrite E. unfold kk_coef. rewrite (proj2 (Z.eqb_neq p 0)) by lia. rewrite <- (lor_eq 0 (w i - w p) (w i - a)), <- (lor_eq 0 (w i + w p) (w i + a)) by (rewrite Ha; reflexivity).
    unfold lor. destruct (Z.eqb_spec p i) as [->|N].
    - setoid_replace ((w i - w i) / ((w i - w i) * (w i - w i) + 0 * 0))%Q with 0%Q by (setoid_replace (w i - w i)%Q with 0%Q by ring; reflexivity).
      assert (P2 : ~ ((w i + w i) * (w i + w i) + 0 * 0 == 0)%Q) by (intros K; nra). field. nz.
    - assert (D : ~ (w i - w p == 0)%Q) by (intros K; apply N; symmetry; apply w_inj; [lia|lia|lra]).
      assert (S : ~ (w p * w p - w i * w i == 0)%Q).
      { intros K. assert (F : ((w i - w p) * (w i + w p) == 0)%Q) by (setoid_replace ((w i - w p) * (w i + w p))%Q with (- (w p * w p - w i * w i))%Q by ring; rewrite K; ring). apply Qmult_integral in F. destruct F as [F|F]; [exact (D F)|lra]. }
      assert (D2 : ~ ((w i - w p) * (w i - w p) + 0 * 0 == 0)%Q) by (intros K; apply D; assert (F : ((w i - w p) * (w i - w p) == 0)%Q) by (rewrite <- K; ring); apply Qmult_integral in F; tauto).
      assert (P2 : ~ ((w i + w p) * (w i + w p) + 0 * 0 == 0)%Q) by (intros K; nra).
      field. nz.
  Qed.
  (** a pair of opposite lines at [a] and [-a], [a] of either sign *)
  Lemma KK_hits : forall a q i, 0 <= q < n -> 0 <= i < n -> (w q == Qabs a)%Q ->
    (df * KK n w (fun j => hit df (w j) a - hit df (w j) (- a)) i == - (lor 0 (w i - a) - lor 0 (w i + a)))%Q.
  Proof.
    intros a q i Hq Hi Ha. destruct (Z.eq_dec q 0) as [->|N].
    - assert (A : (a == 0)%Q) by (destruct HW as [W0 _]; rewrite W0 in Ha; destruct (Qlt_le_dec a 0); [rewrite Qabs_neg in Ha by lra|rewrite Qabs_pos in Ha by lra]; lra).
      rewrite KK_zero.
      + rewrite (lor_eq 0 (w i - a) (w i + a)) by (rewrite A; ring). ring.
      + intros j _. unfold hit. assert (B : Qeq_bool (w j) a = Qeq_bool (w j) (- a)) by (apply eq_true_iff_eq; rewrite !Qeq_bool_iff; split; intros; lra). rewrite B. ring.
    - destruct (Qlt_le_dec a 0) as [L|L].
      + rewrite Qabs_neg in Ha by lra. assert (B := KK_hit (- a) q i). assert (Hq' : 1 <= q < n) by lia. specialize (B Hq' Hi Ha).
        rewrite (lor_eq 0 (w i - - a) (w i + a)), (lor_eq 0 (w i + - a) (w i - a)) in B by ring.
        rewrite (KK_ext n w _ (fun j => (- (1)) * hit df (w j) (- a))%Q).
        * rewrite KK_scale. lra.
        * intros j Hj. unfold hit at 1. destruct (Qeq_bool (w j) a) eqn:E; [|ring]. apply Qeq_bool_iff in E. assert (K := w_nn j Hj). exfalso. lra.
      + rewrite Qabs_pos in Ha by lra. assert (Hq' : 1 <= q < n) by lia. rewrite (KK_ext n w _ (fun j => hit df (w j) a)).
        * apply (KK_hit a q i Hq' Hi Ha).
        * intros j Hj. unfold hit at 2. destruct (Qeq_bool (w j) (- a)) eqn:E; [|ring]. apply Qeq_bool_iff in E. assert (K := w_nn j Hj). assert (K' := w_pos q Hq'). exfalso. lra.
  Qed.
End Lines.

Section Together.
  Variable bose : Q -> Q -> Q.
  Variables (nb0 nb nt n : Z) (phi freq w g : Z -> Q) (triplets : Z -> tp3) (weights : Z -> Z) (pi unit cutoff : Q).
  Local Notation f1 i j := (freq (tp_at (triplets i) 1 * nb + j)).
  Local Notation f2 i k := (freq (tp_at (triplets i) 2 * nb + k)).
  Hypothesis HW : from_zero n w.
  Hypothesis Hn : 2 <= n.
  Hypothesis Hpi : ~ (pi == 0)%Q.
  Hypothesis Hc : (0 <= cutoff)%Q.
  (** sums and differences of frequencies are on frequency points *)
  Hypothesis Hgrid : forall i j k, 0 <= i < nt -> 0 <= j < nb -> 0 <= k < nb -> (cutoff < f1 i j)%Q -> (cutoff < f2 i k)%Q ->
    (exists p, 0 <= p < n /\ (w p == f1 i j + f2 i k)%Q) /\ (exists q, 0 <= q < n /\ (w q == Qabs (f2 i k - f1 i j))%Q).
  (** the integration weights are delta functions on the points *)
  Hypothesis Hg : forall i r j k, 0 <= i < nt -> 0 <= r < n -> 0 <= j < nb -> 0 <= k < nb -> (cutoff < f1 i j)%Q -> (cutoff < f2 i k)%Q ->
    (arr5 nt n nb nb g 0 i r j k == hit (kk_df n w) (w r) (f1 i j + f2 i k))%Q /\
    (arr5 nt n nb nb g 1 i r j k == hit (kk_df n w) (w r + f1 i j) (f2 i k) - hit (kk_df n w) (w r + f2 i k) (f1 i j))%Q.

  Lemma df_pos : (0 < kk_df n w)%Q.
  Proof.
    unfold kk_df. assert (T : forall m, 0 <= m -> (qsum (map (fun k => w (k + 1)%Z - w k) (zrange m)) == w m - w 0%Z)%Q).
    { apply (Zlt_0_ind (fun m => _)). intros m IH Hm. destruct (Z.eq_dec m 0) as [->|N]; [change (zrange 0) with (@nil Z); cbn [map]; rewrite qs_nil; ring|].
      replace m with (m - 1 + 1) at 1 by ring. rewrite zrange_succ by lia. rewrite map_app, qs_app, IH by lia. cbn [map]. rewrite qs_cons, qs_nil. replace (m - 1 + 1) with m by ring. ring. }
    rewrite T by lia. destruct HW as [W0 WI]. assert (A : (w 0%Z < w (n - 1)%Z)%Q) by (apply WI; lia).
    assert (B : (0 < inject_Z (n - 1))%Q) by (change 0%Q with (inject_Z 0); rewrite <- Zlt_Qlt; lia).
    apply Qlt_shift_div_l; [exact B|]. lra.
  Qed.
  Lemma hit_shift : forall df x a b, hit df (x + a) b = hit df x (b - a).
  Proof. intros df x a b. unfold hit. replace (Qeq_bool (x + a) b) with (Qeq_bool x (b - a)); [reflexivity|]. apply eq_true_iff_eq. rewrite !Qeq_bool_iff. split; intros; lra. Qed.
  Lemma hit_eq : forall df x a b, (a == b)%Q -> hit df x a = hit df x b.
  Proof. intros df x a b H. unfold hit. replace (Qeq_bool x a) with (Qeq_bool x b); [reflexivity|]. apply eq_true_iff_eq. rewrite !Qeq_bool_iff. rewrite H. reflexivity. Qed.

  (** Linewidths from those weights (with the unit conversion factor of linewidths, [pi] times that of shifts), transformed, are the shifts with [eps = 0] (a line exactly at the point, where the
      C code would divide by zero, left out). *)
  Theorem C98_consistent : forall band T d, run_delta pi n (fun r => pi * unit * self_energy (fun _ => true) bose nb0 nb nt n phi freq triplets weights g T cutoff band r)%Q w = Some d ->
    forall r, 0 <= r < n -> (cutoff <= w r)%Q -> (d r == rse_at_frequency_point bose nb0 nb nt phi freq triplets weights unit cutoff (w r) 0 T band)%Q.
  Proof.
    intros band T d Hd r Hr Hcr. unfold run_delta in Hd. destruct (imag_to_real _ _ _ _) as [l|] eqn:E; [|discriminate]. injection Hd as <-.
    assert (Hn1 : 1 <= n) by lia. destruct (C98_kramers_kronig _ _ _ _ _ Hn1 HW E) as [_ K]. destruct (K r Hr) as [V _]. rewrite V, <- KK_spec by exact Hr. clear V K E l.
    destruct (C97_value bose nb0 nb nt phi freq triplets weights unit cutoff (fun _ => 0) 0 T band) as [_ V]. rewrite V, (proj2 (qltb_ge (w r) cutoff) Hcr). clear V.
    assert (DF := df_pos). rewrite KK_scale.
    setoid_replace (- (kk_df n w / pi * (pi * unit * KK n w (self_energy (fun _ : Z => true) bose nb0 nb nt n phi freq triplets weights g T cutoff band) r)))%Q
      with (unit * (- (kk_df n w) * KK n w (self_energy (fun _ : Z => true) bose nb0 nb nt n phi freq triplets weights g T cutoff band) r))%Q by (field; exact Hpi).
    apply Qmult_comp; [reflexivity|]. unfold self_energy, Sum. rewrite (KK_sum Z n w). rewrite <- qs_scale. unfold spectrum. rewrite shift_flat. apply qs_ext. intros i Hi. apply in_zrange in Hi.
    rewrite KK_scale. rewrite (KK_sum Z n w).
    setoid_replace (- kk_df n w * (inject_Z (weights i) * qsum (map (fun x => KK n w (fun j => qsum (map (fun l => contribution bose T cutoff (f1 i x) (f2 i l) (arr5 nt n nb nb g 0 i j x l) (arr5 nt n nb nb g 1 i j x l) (arr4 nb0 nb nb phi i band x l)) (zrange nb))) r) (zrange nb))))%Q
      with (- kk_df n w * inject_Z (weights i) * qsum (map (fun x => KK n w (fun j => qsum (map (fun l => contribution bose T cutoff (f1 i x) (f2 i l) (arr5 nt n nb nb g 0 i j x l) (arr5 nt n nb nb g 1 i j x l) (arr4 nb0 nb nb phi i band x l)) (zrange nb))) r) (zrange nb)))%Q by ring.
    rewrite <- qs_scale. unfold triplet_lines. rewrite shift_flat. apply qs_ext. intros j Hj. apply in_zrange in Hj. rewrite (KK_sum Z n w), <- qs_scale, shift_flat. apply qs_ext. intros k Hk. apply in_zrange in Hk.
    cbv zeta. unfold contribution. destruct (qltb cutoff (f1 i j)) eqn:E1; [destruct (qltb cutoff (f2 i k)) eqn:E2|]; cbn [andb]; [|rewrite KK_zero; [unfold shift; cbn [map]; rewrite qs_nil; ring|reflexivity]..].
    apply qltb_lt in E1. apply qltb_lt in E2. rewrite shift_pair. set (x := f1 i j) in *. set (y := f2 i k) in *. set (P := arr4 nb0 nb nb phi i band j k).
    destruct (Hgrid i j k Hi Hj Hk E1 E2) as ((p & Hp & Wp) & (q & Hq & Wq)). fold x y in Wp, Wq.
    assert (Hp1 : 1 <= p < n). { destruct (Z.eq_dec p 0) as [->|]; [|lia]. destruct HW as [W0 _]. rewrite W0 in Wp. exfalso. lra. }
    assert (A := KK_hit n w (kk_df n w) HW (Qnot_eq_sym _ _ (Qlt_not_eq _ _ DF)) (x + y) p r Hp1 Hr Wp).
    assert (B := KK_hits n w (kk_df n w) HW (Qnot_eq_sym _ _ (Qlt_not_eq _ _ DF)) (y - x) q r Hq Hr Wq).
    rewrite (lor_eq 0 (w r - (x + y)) (w r - x - y)), (lor_eq 0 (w r + (x + y)) (w r + x + y)) in A by ring.
    rewrite (lor_eq 0 (w r - (y - x)) (w r + x - y)), (lor_eq 0 (w r + (y - x)) (w r - x + y)) in B by ring.
    assert (G : (KK n w (fun j0 => if qltb 0 T then ((bose x T + bose y T + 1) * arr5 nt n nb nb g 0 i j0 j k + (bose x T - bose y T) * arr5 nt n nb nb g 1 i j0 j k) * P else arr5 nt n nb nb g 0 i j0 j k * P) r ==
      P * ((occ bose T x + occ bose T y + 1) * KK n w (fun j0 => hit (kk_df n w) (w j0) (x + y)) r + (occ bose T x - occ bose T y) * KK n w (fun j0 => hit (kk_df n w) (w j0) (y - x) - hit (kk_df n w) (w j0) (- (y - x))) r))%Q).
    { rewrite <- !KK_scale, <- KK_add, <- KK_scale. apply KK_ext. intros j0 Hj0. destruct (Hg i j0 j k Hi Hj0 Hj Hk E1 E2) as [G0 G1]. fold x y in G0, G1. rewrite !hit_shift in G1.
      rewrite (hit_eq _ (w j0) (- (y - x)) (x - y)) by ring. unfold occ. destruct (qltb 0 T); rewrite G0, ?G1; ring. }
    rewrite G. clear G. set (a := KK n w (fun j0 => hit (kk_df n w) (w j0) (x + y)) r) in *. set (b := KK n w (fun j0 => hit (kk_df n w) (w j0) (y - x) - hit (kk_df n w) (w j0) (- (y - x)))%Q r) in *.
    set (c := inject_Z (weights i)). set (N := (occ bose T x + occ bose T y + 1)%Q). set (D := (occ bose T x - occ bose T y)%Q).
    setoid_replace (- kk_df n w * c * (P * (N * a + D * b)))%Q with (c * P * (- (N * (kk_df n w * a) + D * (kk_df n w * b))))%Q by ring. rewrite A, B. ring.
  Qed.
End Together.
Print Assumptions C98_consistent.

(** ** Spectral function *)
(** The value stored is minus the imaginary part, over pi, of the solution [G] of Dyson's equation [(f^2 - w^2) G = 2 w (1 + P G)] with the self-energy [P = delta - i gamma]. *)
Theorem C98_spectral : forall pi w gamma delta f G, ~ (pi == 0)%Q ->
  (let rhs := cprod (delta, - gamma)%Q G in ((f * f - w * w) * fst G == 2 * w * (1 + fst rhs))%Q /\ ((f * f - w * w) * snd G == 2 * w * snd rhs)%Q) ->
  (~ (f * f - w * w - 2 * w * delta == 0)%Q \/ ~ (w * gamma == 0)%Q) ->
  (spectral_value pi w gamma delta f == - snd G / pi)%Q.
Proof.
  intros pi w gamma delta f [gr gi] Hpi [D1 D2] Hne. unfold cprod in D1, D2. cbn [fst snd] in *. unfold spectral_value.
  set (x := (f * f - w * w - 2 * w * delta)%Q) in *. set (y := (2 * w * gamma)%Q).
  assert (P : (0 < x * x + y * y)%Q).
  { assert (X := sq_nn x). assert (Y := sq_nn y). assert (N : ~ (x * x + y * y == 0)%Q); [|apply Qnot_le_lt; intros L; apply N; apply Qle_antisym; [exact L|lra]].
    intros K. assert (x * x == 0)%Q by lra. assert (y * y == 0)%Q by lra. apply Qmult_integral in H. apply Qmult_integral in H0. destruct Hne as [N|N].
    - apply N. tauto.
    - apply N. assert (Y0 : (y == 0)%Q) by tauto. unfold y in Y0. assert (E : (2 * (w * gamma) == 0)%Q) by (rewrite <- Y0; ring). lra. }
  rewrite (proj2 (qltb_lt 0 _) P).
  assert (E : (gi * (x * x + y * y) == - (2 * w * y))%Q).
  { assert (A : (x * gr == 2 * w + y * gi)%Q) by (unfold x, y; lra). assert (B : (x * gi == - (y * gr))%Q) by (unfold x, y; lra).
    setoid_replace (gi * (x * x + y * y))%Q with (x * (x * gi) + y * y * gi)%Q by ring. rewrite B. setoid_replace (x * - (y * gr) + y * y * gi)%Q with (- (y * (x * gr)) + y * y * gi)%Q by ring. rewrite A. ring. }
  assert (N : ~ (x * x + y * y == 0)%Q) by (intros K; lra).
  assert (F : (gi == - (2 * w * y) / (x * x + y * y))%Q) by (rewrite <- E; field; exact N). rewrite F. setoid_replace (4 * (w * w) * gamma)%Q with (2 * w * y)%Q by (unfold y; ring). field. split; assumption.
Qed.
Print Assumptions C98_spectral.
(** It is never negative, and at most [1 / (pi gamma)]. *)
Theorem C98_spectral_bounds : forall pi w gamma delta f, (0 < pi)%Q -> (0 <= gamma)%Q ->
  (0 <= spectral_value pi w gamma delta f)%Q /\ ((0 < gamma)%Q -> (spectral_value pi w gamma delta f <= 1 / (pi * gamma))%Q).
Proof.
  intros pi w gamma delta f Hpi Hg. unfold spectral_value. set (x := (f * f - w * w - 2 * w * delta)%Q). destruct (qltb 0 _) eqn:E.
  - apply qltb_lt in E. assert (W := sq_nn w). assert (X := sq_nn x).
    assert (N : (4 * (w * w) * gamma / pi == 4 * (w * w) * (gamma / pi))%Q) by (unfold Qdiv; ring). assert (GP : (0 <= gamma / pi)%Q) by (apply Qle_shift_div_l; [exact Hpi|lra]).
    split.
    + apply Qle_shift_div_l; [exact E|]. rewrite N. nra.
    + intros G. apply Qle_shift_div_r; [exact E|]. assert (Q1 : (1 / (pi * gamma) * (x * x + 2 * w * gamma * (2 * w * gamma)) == x * x * (1 / (pi * gamma)) + 4 * (w * w) * gamma / pi)%Q) by (field; split; intros K; lra).
      rewrite Q1. assert (PG : (0 <= 1 / (pi * gamma))%Q) by (apply Qle_shift_div_l; [nra|lra]). assert (XX : (0 <= x * x * (1 / (pi * gamma)))%Q) by (apply Qmult_le_0_compat; assumption). lra.
  - split; [apply Qle_refl|]. intros G. apply Qle_shift_div_l; [nra|lra].
Qed.
Print Assumptions C98_spectral_bounds.

(** ** Files (C99) *)
(** The text file of every group of bands holds the mean over the bands of that group. *)
Theorem C99_group_mean : forall (groups : list (list Z)) (value : Z -> Q) j, (j < length groups)%nat ->
  group_mean groups (map value (concat groups)) j = (qsum (map value (nth j groups [])) / inject_Z (Z.of_nat (length (nth j groups []))))%Q.
Proof.
  intros groups value j Hj. unfold group_mean.
  assert (P : group_pos groups j = length (concat (firstn j groups))).
  { unfold group_pos. clear value. revert Hj. induction j as [|j IH]; intros Hj; [reflexivity|]. rewrite seq_S, fold_left_app, IH by lia. cbn [fold_left plus].
    assert (F : firstn (S j) groups = firstn j groups ++ [nth j groups []]).
    { clear IH. revert j Hj. induction groups as [|g gs IHg]; intros j Hj; [cbn in Hj; lia|]. destruct j as [|j]; [reflexivity|]. cbn [firstn nth app]. f_equal. apply IHg. cbn in Hj. lia. }
    rewrite F, concat_app, app_length. cbn [concat]. rewrite app_nil_r. reflexivity. }
  rewrite P. assert (C : concat groups = concat (firstn j groups) ++ nth j groups [] ++ concat (skipn (S j) groups)).
  { clear P value. revert j Hj. induction groups as [|g gs IHg]; intros j Hj; [cbn in Hj; lia|]. destruct j as [|j]; [reflexivity|]. cbn [firstn nth concat]. rewrite <- app_assoc. f_equal. change (skipn (S (S j)) (g :: gs)) with (skipn (S j) gs). apply IHg. cbn in Hj. lia. }
  rewrite C at 1. rewrite map_app, map_app. replace (length (concat (firstn j groups))) with (length (map value (concat (firstn j groups)))) by apply map_length.
  rewrite skipn_app, skipn_all, Nat.sub_diag. cbn [app skipn]. rewrite <- (map_length value (nth j groups [])) at 1. rewrite firstn_app, firstn_all, Nat.sub_diag. cbn [firstn]. rewrite app_nil_r. reflexivity.
Qed.
Print Assumptions C99_group_mean.
(** spectral-*.hdf5: with one group of bands the band indices stored are the bands of the arrays. *)
Theorem C99_spectral_bands_partial : forall g, spectral_hdf5_bands [g] = concat [g].
Proof. intros g. unfold spectral_hdf5_bands. cbn. rewrite app_nil_r. reflexivity. Qed.
Print Assumptions C99_spectral_bands_partial.
(** With several groups they are not (bands 1 and 3 computed separately: the arrays hold both, the band indices only the last), and two runs on different bands write the same file. *)
Theorem C99_spectral_bands_refuted :
  (exists groups, spectral_hdf5_bands groups <> concat groups /\ length (spectral_hdf5_bands groups) <> length (concat groups)) /\
  exists a b, concat a <> concat b /\ spectral_hdf5_name 6 a (11, 11, 11) 5 None None = spectral_hdf5_name 6 b (11, 11, 11) 5 None None.
Proof.
  split.
  - exists [[0]; [2]]. vm_compute. split; discriminate.
  - exists [[0]; [2]], [[1]; [2]]. split; [discriminate|]. vm_compute. reflexivity.
Qed.
Print Assumptions C99_spectral_bands_refuted.
(** deltas-*.hdf5: runs on different bands, and runs with different output file names, write the same file. *)
Theorem C99_deltas_name_refuted : forall fmt_e mesh gp eps,
  exists bands bands' filename filename', bands <> bands' /\ filename <> filename' /\ deltas_hdf5_name fmt_e mesh gp bands eps filename = deltas_hdf5_name fmt_e mesh gp bands' eps filename'.
Proof.
  intros. exists [0], [1], None, (Some [Ascii.Ascii true false true false false true true false]). split; [discriminate|]. split; [discriminate|]. reflexivity.
Qed.
Print Assumptions C99_deltas_name_refuted.

(** ** Examples *)
(** points 0, 1, ..., 14; the modes of the example of C97: sums 7, 9, 10, 12, differences 1, 2, 4; weights of the deltas *)
Definition ex_w (r : Z) : Q := inject_Z r.
Definition ex_g (x : Z) : Q :=
  let l := x mod 2 in let k := x / 2 mod 2 in let r := x / 4 mod 15 in let a := ex_freq (2 + k) in let b := ex_freq (4 + l) in
  if x / 60 =? 0 then hit 1 (ex_w r) (a + b) else (hit 1 (ex_w r + a) b - hit 1 (ex_w r + b) a)%Q.
Example C98_consistent_ex :
  forallb (fun jk => let a := ex_freq (2 + fst jk) in let b := ex_freq (4 + snd jk) in
     existsb (fun p => Qeq_bool (ex_w p) (a + b)) (zrange 15) && existsb (fun p => Qeq_bool (ex_w p) (Qabs (b - a))) (zrange 15) &&
     forallb (fun r => Qeq_bool (arr5 1 15 2 2 ex_g 0 0 r (fst jk) (snd jk)) (hit (kk_df 15 ex_w) (ex_w r) (a + b)) &&
                       Qeq_bool (arr5 1 15 2 2 ex_g 1 0 r (fst jk) (snd jk)) (hit (kk_df 15 ex_w) (ex_w r + a) b - hit (kk_df 15 ex_w) (ex_w r + b) a)) (zrange 15)) [(0, 0); (0, 1); (1, 0); (1, 1)] = true /\
  match run_delta (22 # 7) 15 (fun r => (22 # 7) * 1 * self_energy (fun _ => true) (fun f _ => 1 / f) 2 2 1 15 ex_phi ex_freq (fun _ => (0, 1, 2)%Z) (fun _ => 2%Z) ex_g 300 (1 # 2) 1 r)%Q ex_w with
  | Some d => forallb (fun r => Qeq_bool (d r) (rse_at_frequency_point (fun f _ => (1 / f)%Q) 2 2 1 ex_phi ex_freq (fun _ => (0, 1, 2)) (fun _ => 2) 1 (1 # 2) (ex_w r) 0 300 1) && negb (Qeq_bool (d r) 0)) [1; 6; 8]
  | None => false
  end = true.
Proof. split; vm_compute; reflexivity. Qed.
Example C98_refused_ex : imag_to_real (22 # 7) 3 (fun r => inject_Z r) (fun r => inject_Z (r * r)) = None /\ (exists l, imag_to_real (22 # 7) 3 (fun r => inject_Z r) ex_w = Some l).
Proof. split; [vm_compute; reflexivity|]. unfold imag_to_real. replace (kk_accepts 3 ex_w) with true by (vm_compute; reflexivity). eexists. reflexivity. Qed.
(** mode at 2 with width 1 and shift -1 seen at 3: (9 - 4 + 4) G = 4 (1 - ...) *)
Example C98_spectral_ex : let G := ((36 # 97), - (16 # 97))%Q in
  let rhs := cprod (- (1), - (1))%Q G in Qeq_bool ((3 * 3 - 2 * 2) * fst G) (2 * 2 * (1 + fst rhs)) = true /\ Qeq_bool ((3 * 3 - 2 * 2) * snd G) (2 * 2 * snd rhs) = true /\
  Qeq_bool (spectral_value (22 # 7) 2 1 (- (1)) 3) ((16 # 97) / (22 # 7)) = true.
Proof. vm_compute. auto. Qed.
Example C99_group_mean_ex : group_mean [[0; 1]; [2]; [4; 5]] (map (fun b => inject_Z (b * b)) [0; 1; 2; 4; 5]) 2 = ((16 + (25 + 0)) / 2)%Q.
Proof. vm_compute. reflexivity. Qed.
