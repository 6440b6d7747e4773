(** C127: the drift of third-order force constants shown *)
From Coq Require Import ZArith QArith Qabs List Bool Lia Lqa.
From Verif Require Import Base BaseProofs QMat Fc3Spec Fc3Model Fc3Proofs Fc3Compact Fc3Transpose Fc3Trans Fc3Props DrfModel.
Import ListNotations.
Open Scope Z_scope.

(** ** What is meant: the drift along an index of F is the sum over the atoms of that index, for given direction and given other (atom, direction) pairs *)
Definition drift1 (n : Z) (F : slot -> slot -> slot -> Q) (i : Z) (y z : slot) : Q := qsum (map (fun a => F (a, i) y z) (zrange n)).
Definition drift2 (n : Z) (F : slot -> slot -> slot -> Q) (i : Z) (x z : slot) : Q := qsum (map (fun a => F x (a, i) z) (zrange n)).
Definition drift3 (n : Z) (F : slot -> slot -> slot -> Q) (i : Z) (x y : slot) : Q := qsum (map (fun a => F x y (a, i)) (zrange n)).
(** the number v is the largest in absolute value: no drift exceeds it, and it is one of them, with Cartesian indices q (of the first, second and third slot)
    as [at_q] tells, or all are zero *)
Definition largest (n : Z) (D : Z -> slot -> slot -> Q) (at_q : Z -> Z -> Z -> Z * Z * Z) (r : Q * (Z * Z * Z)) : Prop :=
  (forall i y z, 0 <= i < 3 -> slot_ok n y -> slot_ok n z -> (Qabs (D i y z) <= Qabs (fst r))%Q) /\
  (Qeq (fst r) 0 \/ exists i y z, 0 <= i < 3 /\ slot_ok n y /\ slot_ok n z /\ Qeq (fst r) (D i y z) /\ snd r = at_q i (snd y) (snd z)).

(** ** the loop *)
Lemma in_places : forall a b i j q, In (i, j, q) (places a b) <-> 0 <= i < a /\ 0 <= j < b /\ In q comps.
Proof.
  intros. unfold places. rewrite in_flat_map. split.
  - intros [x [Hx H]]. apply in_flat_map in H. destruct H as [y [Hy H]]. apply in_map_iff in H. destruct H as [q' [E Hq]]. injection E as <- <- <-. apply in_zrange in Hx, Hy. auto.
  - intros [Hi [Hj Hq]]. exists i. split; [now apply in_zrange|]. apply in_flat_map. exists j. split; [now apply in_zrange|]. apply in_map_iff. exists q. auto.
Qed.
Lemma scan_fold : forall val l r, let r' := fold_left (update val) l r in
  (Qabs (fst r) <= Qabs (fst r'))%Q /\ (forall i j q, In (i, j, q) l -> (Qabs (val i j q) <= Qabs (fst r'))%Q) /\
  (r' = r \/ exists i j q, In (i, j, q) l /\ r' = (val i j q, q)).
Proof.
  intros val. induction l as [|[[i j] q] l IH]; intros r; cbn zeta; cbn [fold_left].
  - split; [apply Qle_refl|]. split; [intros i j q []|now left].
  - destruct (IH (update val r (i, j, q))) as [A [B C]]. cbn zeta in *.
    assert (U : (Qabs (fst r) <= Qabs (fst (update val r (i, j, q))))%Q /\ (Qabs (val i j q) <= Qabs (fst (update val r (i, j, q))))%Q /\ (update val r (i, j, q) = r \/ update val r (i, j, q) = (val i j q, q))).
    { cbn [update]. unfold qltb. destruct (Qle_bool (Qabs (val i j q)) (Qabs (fst r))) eqn:E; cbn [negb].
      - apply Qle_bool_iff in E. split; [apply Qle_refl|]. split; [exact E|now left].
      - cbn [fst]. assert (N : ~ (Qabs (val i j q) <= Qabs (fst r))%Q) by (intros H; apply Qle_bool_iff in H; congruence). apply Qnot_le_lt in N. split; [now apply Qlt_le_weak|]. split; [apply Qle_refl|now right]. }
    destruct U as [U1 [U2 U3]]. split; [eapply Qle_trans; eauto|]. split.
    + intros i' j' q' [E|H]; [injection E as <- <- <-; eapply Qle_trans; eauto|now apply B].
    + destruct C as [C|[i' [j' [q' [H C]]]]]; [|right; exists i', j', q'; split; [now right|exact C]]. rewrite C. destruct U3 as [U3|U3]; [now left|]. right. exists i, j, q. split; [now left|exact U3].
Qed.
Lemma scan_spec : forall val a b, let r := scan val a b in
  (forall i j q, 0 <= i < a -> 0 <= j < b -> In q comps -> (Qabs (val i j q) <= Qabs (fst r))%Q) /\
  (r = (0%Q, (0, 0, 0)) \/ exists i j q, 0 <= i < a /\ 0 <= j < b /\ In q comps /\ r = (val i j q, q)).
Proof.
  intros val a b. unfold scan. destruct (scan_fold val (places a b) (0%Q, (0, 0, 0))) as [_ [B C]]. cbn zeta in *. split.
  - intros i j q Hi Hj Hq. apply B. now apply in_places.
  - destruct C as [C|[i [j [q [H C]]]]]; [now left|]. right. exists i, j, q. apply in_places in H. destruct H as [Hi [Hj Hq]]. repeat (split; [assumption|]). exact C.
Qed.
Lemma comps_elim : forall q, In q comps -> exists k l m, q = (k, l, m) /\ 0 <= k < 3 /\ 0 <= l < 3 /\ 0 <= m < 3.
Proof. intros [[k l] m] H. apply in_comps in H. exists k, l, m. auto. Qed.
(** a loop that meets every drift, in the sense of [cover], and only drifts gives the largest *)
Lemma scan_largest : forall val a b n D at_q,
  (forall i y z, 0 <= i < 3 -> slot_ok n y -> slot_ok n z -> exists p j q, 0 <= p < a /\ 0 <= j < b /\ In q comps /\ Qeq (D i y z) (val p j q)) ->
  (forall p j q, 0 <= p < a -> 0 <= j < b -> In q comps -> exists i y z, 0 <= i < 3 /\ slot_ok n y /\ slot_ok n z /\ Qeq (val p j q) (D i y z) /\ q = at_q i (snd y) (snd z)) ->
  largest n D at_q (scan val a b).
Proof.
  intros val a b n D at_q H1 H2. destruct (scan_spec val a b) as [B C]. cbn zeta in *. split.
  - intros i y z Hi Hy Hz. destruct (H1 i y z Hi Hy Hz) as [p [j [q [Hp [Hj [Hq E]]]]]]. rewrite E. now apply B.
  - destruct C as [C|[p [j [q [Hp [Hj [Hq C]]]]]]]; rewrite C; cbn [fst snd]; [left; reflexivity|]. right. destruct (H2 p j q Hp Hj Hq) as [i [y [z [Hi [Hy [Hz [E Eq]]]]]]]. exists i, y, z. auto.
Qed.

(** ** C127: full force constants *)
Theorem C127_full : forall n m, let F := full n m in let '(r1, r2, r3) := show_full n m in
  largest n (drift1 n F) (fun i k l => (i, k, l)) r1 /\ largest n (drift2 n F) (fun i k l => (k, i, l)) r2 /\ largest n (drift3 n F) (fun i k l => (k, l, i)) r3.
Proof.
  intros n m F. unfold show_full. split; [|split]; apply scan_largest.
  - intros i [b k] [c l] Hi [Hb Hk] [Hc Hl]. cbn [fst snd] in *. exists b, c, (i, k, l). repeat (split; [assumption||(apply in_comps; auto)|]). reflexivity.
  - intros p j q Hp Hj Hq. destruct (comps_elim q Hq) as [k [l [o [-> [Hk [Hl Ho]]]]]]. exists k, (p, l), (j, o). repeat (split; [assumption||(split; assumption)|]). split; reflexivity.
  - intros i [b k] [c l] Hi [Hb Hk] [Hc Hl]. cbn [fst snd] in *. exists b, c, (k, i, l). repeat (split; [assumption||(apply in_comps; auto)|]). reflexivity.
  - intros p j q Hp Hj Hq. destruct (comps_elim q Hq) as [k [l [o [-> [Hk [Hl Ho]]]]]]. exists l, (p, k), (j, o). repeat (split; [assumption||(split; assumption)|]). split; reflexivity.
  - intros i [b k] [c l] Hi [Hb Hk] [Hc Hl]. cbn [fst snd] in *. exists b, c, (k, l, i). repeat (split; [assumption||(apply in_comps; auto)|]). reflexivity.
  - intros p j q Hp Hj Hq. destruct (comps_elim q Hq) as [k [l [o [-> [Hk [Hl Ho]]]]]]. exists o, (p, k), (j, l). repeat (split; [assumption||(split; assumption)|]). split; reflexivity.
Qed.
Print Assumptions C127_full.

(** ** C127: compact force constants *)
Section Compact.
Variable t : Tables.
Variables n np ns : Z.
Hypothesis LT : lattice_tables (tb_p2s t) (tb_s2pp t) (tb_nsym t) (tb_perm t) n np ns.
Notation G := (unfold_compact (tb_s2pp t) (tb_nsym t) (tb_perm t) n).
Lemma stored : forall m p b c k l o, 0 <= p < np -> 0 <= b < n -> 0 <= c < n -> at_ n m p b c (k, l, o) = G m (tb_p2s t p, k) (b, l) (c, o).
Proof.
  intros m p b c k l o Hp Hb Hc. unfold unfold_compact. cbn [fst snd]. change (tb_perm t (tb_nsym t (tb_p2s t p)) b) with (T t (tb_p2s t p) b). change (tb_perm t (tb_nsym t (tb_p2s t p)) c) with (T t (tb_p2s t p) c).
  rewrite !(T_prim t n np ns LT) by auto. rewrite (lt_prim _ _ _ _ _ _ _ LT) by auto. reflexivity.
Qed.
Lemma shift_G : forall m u x y z, 0 <= u < ns -> slot_ok n x -> slot_ok n y -> slot_ok n z ->
  G m (tb_perm t u (fst x), snd x) (tb_perm t u (fst y), snd y) (tb_perm t u (fst z), snd z) = G m x y z.
Proof.
  intros m u x y z Hu [Hx _] [Hy _] [Hz _]. rewrite !G_cadr. unfold cadr. cbn [fst snd]. rewrite (badr_inv t n np ns LT) by auto. reflexivity.
Qed.
Lemma sum_shift : forall f u, 0 <= u < ns -> Qeq (qsum (map (fun a => f (tb_perm t u a)) (zrange n))) (qsum (map f (zrange n))).
Proof.
  intros f u Hu. apply (qs_reindex n (tb_perm t u) f); [intros a Ha; now apply (lt_perm _ _ _ _ _ _ _ LT)|]. intros a a' Ha Ha'. now apply (perm_inj t n np ns LT).
Qed.
Lemma slot_shift : forall u b k, 0 <= u < ns -> slot_ok n (b, k) -> slot_ok n (tb_perm t u b, k).
Proof. intros u b k Hu [Hb Hk]. split; [apply (lt_perm _ _ _ _ _ _ _ LT); auto|exact Hk]. Qed.
Lemma home : forall b, 0 <= b < n -> 0 <= tb_s2pp t b < np /\ 0 <= tb_nsym t b < ns /\ tb_perm t (tb_nsym t b) b = tb_p2s t (tb_s2pp t b).
Proof. intros b Hb. split; [now apply (lt_s2pp _ _ _ _ _ _ _ LT)|]. split; [now apply (lt_nsym _ _ _ _ _ _ _ LT)|now apply (lt_home _ _ _ _ _ _ _ LT)]. Qed.

(** the array is as it was *)
Theorem C127_unchanged : forall m p b c k l o, 0 <= p < np -> 0 <= b < n -> 0 <= c < n -> 0 <= k < 3 -> 0 <= l < 3 -> 0 <= o < 3 ->
  snd (show_drift_fc3 t n np m) (pos n p b c k l o) = m (pos n p b c k l o).
Proof.
  intros m p b c k l o Hp Hb Hc Hk Hl Ho. unfold show_drift_fc3. destruct (np =? n); [reflexivity|]. unfold show_compact. cbn [snd].
  change (at_ n (transpose_compact t n np 0 (transpose_compact t n np 0 m)) p b c (k, l, o) = at_ n m p b c (k, l, o)). rewrite !stored by auto.
  pose proof (lt_p2s _ _ _ _ _ _ _ LT p Hp). apply (C28_involution t n np ns 0 m LT); [now left| | |]; split; cbn [fst snd]; auto.
Qed.
Lemma restored : forall m x y z, slot_ok n x -> slot_ok n y -> slot_ok n z -> G (transpose_compact t n np 0 (transpose_compact t n np 0 m)) x y z = G m x y z.
Proof. intros m x y z Hx Hy Hz. apply (C28_involution t n np ns 0 m LT); auto. Qed.

(** along the second and third index: as for the full force constants that the compact ones stand for *)
Theorem C127_compact : forall m, let '(r1, r2, r3, _) := show_compact t n np m in
  largest n (drift2 n (G m)) (fun i k l => (k, i, l)) r2 /\ largest n (drift3 n (G m)) (fun i k l => (k, l, i)) r3.
Proof.
  intros m. unfold show_compact. split; apply scan_largest.
  - intros i [a k] [c l] Hi [Ha Hk] [Hc Hl]. cbn [fst snd] in *. destruct (home a Ha) as [Hp [Hu E]]. set (u := tb_nsym t a) in *. exists (tb_s2pp t a), (tb_perm t u c), (k, i, l).
    pose proof (lt_perm _ _ _ _ _ _ _ LT u c Hu Hc) as Hc'. repeat (split; [assumption||(apply in_comps; auto)|]). unfold drift2.
    rewrite <- (sum_shift (fun b => at_ n (transpose_compact t n np 0 (transpose_compact t n np 0 m)) (tb_s2pp t a) b (tb_perm t u c) (k, i, l)) u Hu). apply qs_ext. intros b Hb. apply in_zrange in Hb.
    pose proof (lt_perm _ _ _ _ _ _ _ LT u b Hu Hb). pose proof (lt_perm _ _ _ _ _ _ _ LT u a Hu Ha). rewrite stored by auto. rewrite restored by (split; cbn [fst snd]; auto; rewrite <- E; auto). rewrite <- E.
    rewrite <- (shift_G m u (a, k) (b, i) (c, l)) by (auto; split; auto). reflexivity.
  - intros p j q Hp Hj Hq. destruct (comps_elim q Hq) as [k [l [o [-> [Hk [Hl Ho]]]]]]. pose proof (lt_p2s _ _ _ _ _ _ _ LT p Hp) as Hp'. exists l, (tb_p2s t p, k), (j, o). repeat (split; [assumption||(split; assumption)|]). split; [|reflexivity].
    unfold drift2. apply qs_ext. intros b Hb. apply in_zrange in Hb. rewrite stored by auto. rewrite restored by (split; auto). reflexivity.
  - intros i [a k] [c l] Hi [Ha Hk] [Hc Hl]. cbn [fst snd] in *. destruct (home a Ha) as [Hp [Hu E]]. set (u := tb_nsym t a) in *. exists (tb_s2pp t a), (tb_perm t u c), (k, l, i).
    pose proof (lt_perm _ _ _ _ _ _ _ LT u c Hu Hc) as Hc'. repeat (split; [assumption||(apply in_comps; auto)|]). unfold drift3.
    rewrite <- (sum_shift (fun b => at_ n (transpose_compact t n np 0 (transpose_compact t n np 0 m)) (tb_s2pp t a) (tb_perm t u c) b (k, l, i)) u Hu). apply qs_ext. intros b Hb. apply in_zrange in Hb.
    pose proof (lt_perm _ _ _ _ _ _ _ LT u b Hu Hb). pose proof (lt_perm _ _ _ _ _ _ _ LT u a Hu Ha). rewrite stored by auto. rewrite restored by (split; cbn [fst snd]; auto; rewrite <- E; auto). rewrite <- E.
    rewrite <- (shift_G m u (a, k) (c, l) (b, i)) by (auto; split; auto). reflexivity.
  - intros p j q Hp Hj Hq. destruct (comps_elim q Hq) as [k [l [o [-> [Hk [Hl Ho]]]]]]. pose proof (lt_p2s _ _ _ _ _ _ _ LT p Hp) as Hp'. exists o, (tb_p2s t p, k), (j, l). repeat (split; [assumption||(split; assumption)|]). split; [|reflexivity].
    unfold drift3. apply qs_ext. intros b Hb. apply in_zrange in Hb. rewrite stored by auto. rewrite restored by (split; auto). reflexivity.
Qed.
(** along the first index: the largest of all drifts, but with the Cartesian indices of the first and second slot exchanged *)
Theorem C127_compact_first : forall m, no_order_two (tb_perm t) n ns -> let '(r1, _, _, _) := show_compact t n np m in
  largest n (drift1 n (G m)) (fun i k l => (k, i, l)) r1.
Proof.
  intros m N2. unfold show_compact. 
  assert (X : forall x y z, slot_ok n x -> slot_ok n y -> slot_ok n z -> G (transpose_compact t n np 0 m) x y z = G m y x z) by (intros x y z Hx Hy Hz; exact (proj1 (C28_transpose_exact t n np ns m LT N2 x y z Hx Hy Hz))).
  apply scan_largest.
  - intros i [b k] [c l] Hi [Hb Hk] [Hc Hl]. cbn [fst snd] in *. destruct (home b Hb) as [Hp [Hu E]]. set (u := tb_nsym t b) in *. exists (tb_s2pp t b), (tb_perm t u c), (k, i, l).
    pose proof (lt_perm _ _ _ _ _ _ _ LT u c Hu Hc) as Hc'. repeat (split; [assumption||(apply in_comps; auto)|]). unfold drift1.
    rewrite <- (sum_shift (fun a => at_ n (transpose_compact t n np 0 m) (tb_s2pp t b) a (tb_perm t u c) (k, i, l)) u Hu). apply qs_ext. intros a Ha. apply in_zrange in Ha.
    pose proof (lt_perm _ _ _ _ _ _ _ LT u a Hu Ha). pose proof (lt_perm _ _ _ _ _ _ _ LT u b Hu Hb). rewrite stored by auto. rewrite X by (split; cbn [fst snd]; auto; rewrite <- E; auto). rewrite <- E.
    rewrite <- (shift_G m u (a, i) (b, k) (c, l)) by (auto; split; auto). reflexivity.
  - intros p j q Hp Hj Hq. destruct (comps_elim q Hq) as [k [l [o [-> [Hk [Hl Ho]]]]]]. pose proof (lt_p2s _ _ _ _ _ _ _ LT p Hp) as Hp'. exists l, (tb_p2s t p, k), (j, o). repeat (split; [assumption||(split; assumption)|]). split; [|reflexivity].
    unfold drift1. apply qs_ext. intros b Hb. apply in_zrange in Hb. rewrite stored by auto. rewrite X by (split; auto). reflexivity.
Qed.
Lemma largest_abs : forall D D' q q' r r', (forall i y z, 0 <= i < 3 -> slot_ok n y -> slot_ok n z -> Qeq (D i y z) (D' i y z)) -> largest n D q r -> largest n D' q' r' -> Qeq (Qabs (fst r)) (Qabs (fst r')).
Proof.
  intros D D' q q' r r' E [A B] [A' B']. apply Qle_antisym.
  - destruct B as [B|[i [y [z [Hi [Hy [Hz [B _]]]]]]]]; [rewrite B; apply Qabs_nonneg|]. rewrite B, (E i y z) by auto. now apply A'.
  - destruct B' as [B'|[i [y [z [Hi [Hy [Hz [B' _]]]]]]]]; [rewrite B'; apply Qabs_nonneg|]. rewrite B', <- (E i y z) by auto. now apply A.
Qed.
(** so full and compact arrays of the same force constants show the same numbers up to sign *)
Theorem C127_same : forall m mf, no_order_two (tb_perm t) n ns -> (forall x y z, slot_ok n x -> slot_ok n y -> slot_ok n z -> Qeq (full n mf x y z) (G m x y z)) ->
  let '(r1, r2, r3, _) := show_compact t n np m in let '(f1, f2, f3) := show_full n mf in
  Qeq (Qabs (fst r1)) (Qabs (fst f1)) /\ Qeq (Qabs (fst r2)) (Qabs (fst f2)) /\ Qeq (Qabs (fst r3)) (Qabs (fst f3)).
Proof.
  intros m mf N2 E. pose proof (C127_full n mf) as F. pose proof (C127_compact m) as C. pose proof (C127_compact_first m N2) as C1. destruct (show_compact t n np m) as [[[r1 r2] r3] m']. destruct (show_full n mf) as [[f1 f2] f3]. cbn zeta in F. destruct F as [F1 [F2 F3]]. destruct C as [C2 C3].
  assert (S : forall i a, 0 <= i < 3 -> In a (zrange n) -> slot_ok n (a, i)) by (intros i a Hi Ha; apply in_zrange in Ha; now split).
  split; [|split].
  - apply (largest_abs _ _ _ _ _ _ (fun i y z Hi Hy Hz => Qeq_sym _ _ (qs_ext _ _ _ _ (fun a Ha => E (a, i) y z (S i a Hi Ha) Hy Hz))) C1 F1).
  - apply (largest_abs _ _ _ _ _ _ (fun i y z Hi Hy Hz => Qeq_sym _ _ (qs_ext _ _ _ _ (fun a Ha => E y (a, i) z Hy (S i a Hi Ha) Hz))) C2 F2).
  - apply (largest_abs _ _ _ _ _ _ (fun i y z Hi Hy Hz => Qeq_sym _ _ (qs_ext _ _ _ _ (fun a Ha => E y z (a, i) Hy Hz (S i a Hi Ha)))) C3 F3).
Qed.
End Compact.
Print Assumptions C127_unchanged.
Print Assumptions C127_compact.
Print Assumptions C127_compact_first.
Print Assumptions C127_same.

(** ** Refuted *)
(** the full array of a compact one *)
Definition full_of (t : Tables) (n : Z) (m : Z -> Q) (a : Z) : Q :=
  unfold_compact (tb_s2pp t) (tb_nsym t) (tb_perm t) n m (a / 27 / n / n, a mod 27 / 9) (a / 27 / n mod n, a mod 9 / 3) (a / 27 mod n, a mod 3).
Lemma full_of_ok : forall t n m x y z, 0 < n -> slot_ok n x -> slot_ok n y -> slot_ok n z -> full n (full_of t n m) x y z = unfold_compact (tb_s2pp t) (tb_nsym t) (tb_perm t) n m x y z.
Proof.
  intros t n m [a i] [b j] [c k] Hn [Ha Hi] [Hb Hj] [Hc Hk]. cbn [fst snd] in *. unfold full, full_of. cbn [fst snd]. set (P := pos n a b c i j k).
  assert (EP : P = ((a * n + b) * n + c) * 27 + (i * 9 + j * 3 + k)) by (unfold P, pos; ring).
  assert (E1 : P / 27 = (a * n + b) * n + c) by (symmetry; apply (Z.div_unique _ _ _ (i * 9 + j * 3 + k)); lia).
  assert (E2 : P mod 27 = i * 9 + j * 3 + k) by (symmetry; apply (Z.mod_unique _ _ ((a * n + b) * n + c)); lia).
  assert (E3 : P mod 9 = j * 3 + k) by (symmetry; apply (Z.mod_unique _ _ (((a * n + b) * n + c) * 3 + i)); lia).
  assert (E4 : P mod 3 = k) by (symmetry; apply (Z.mod_unique _ _ ((((a * n + b) * n + c) * 3 + i) * 3 + j)); lia).
  assert (F1 : ((a * n + b) * n + c) / n = a * n + b) by (symmetry; apply (Z.div_unique _ _ _ c); lia).
  assert (F2 : ((a * n + b) * n + c) mod n = c) by (symmetry; apply (Z.mod_unique _ _ (a * n + b)); lia).
  assert (F3 : (a * n + b) / n = a) by (symmetry; apply (Z.div_unique _ _ _ b); lia).
  assert (F4 : (a * n + b) mod n = b) by (symmetry; apply (Z.mod_unique _ _ a); lia).
  rewrite E1, E2, E3, E4, F1, F2, F3, F4.
  replace ((i * 9 + j * 3 + k) / 9) with i by (apply (Z.div_unique _ _ _ (j * 3 + k)); lia). replace ((j * 3 + k) / 3) with j by (apply (Z.div_unique _ _ _ k); lia). reflexivity.
Qed.
(** The same force constants, full and compact, three cells of one atom: the Cartesian indices shown for the first drift are xyx for the full array and yxx for the compact one *)
Theorem C127_label_refuted : exists m, let t := chain 3 in
  lattice_tables (tb_p2s t) (tb_s2pp t) (tb_nsym t) (tb_perm t) 3 1 3 /\ no_order_two (tb_perm t) 3 3 /\
  snd (fst (fst (show_full 3 (full_of t 3 m)))) = (0, 1, 0) /\ snd (fst (fst (fst (show_compact t 3 1 m)))) = (1, 0, 0).
Proof.
  exists (fun a => if a mod 27 =? 3 then 1%Q else 0%Q). intros t. set (m := fun a => if a mod 27 =? 3 then 1%Q else 0%Q).
  assert (LT : lattice_tables (tb_p2s t) (tb_s2pp t) (tb_nsym t) (tb_perm t) 3 1 3) by (apply (chain_tables 3 1); lia).
  assert (N2 : no_order_two (tb_perm t) 3 3) by (intros u s Hu Hs; apply chain3_no_order_two; lia).
  split; [exact LT|]. split; [exact N2|].
  assert (V : forall x y z, slot_ok 3 x -> slot_ok 3 y -> slot_ok 3 z -> unfold_compact (tb_s2pp t) (tb_nsym t) (tb_perm t) 3 m x y z = if (snd x =? 0) && (snd y =? 1) && (snd z =? 0) then 1%Q else 0%Q).
  { intros [a i] [b j] [c k] [_ Hi] [_ Hj] [_ Hk]. cbn [fst snd] in *. unfold unfold_compact, m. cbn [fst snd].
    set (X := tb_s2pp t a). set (Y := tb_perm t (tb_nsym t a) b). set (W := tb_perm t (tb_nsym t a) c).
    replace (pos 3 X Y W i j k mod 27) with (i * 9 + j * 3 + k) by (apply (Z.mod_unique _ _ ((X * 3 + Y) * 3 + W)); unfold pos; lia).
    destruct (Z.eqb_spec (i * 9 + j * 3 + k) 3); destruct (Z.eqb_spec i 0), (Z.eqb_spec j 1), (Z.eqb_spec k 0); cbn [andb]; try reflexivity; lia. }
  assert (D : forall i y z, 0 <= i < 3 -> slot_ok 3 y -> slot_ok 3 z -> Qeq (drift1 3 (unfold_compact (tb_s2pp t) (tb_nsym t) (tb_perm t) 3 m) i y z) (if (i =? 0) && (snd y =? 1) && (snd z =? 0) then 3%Q else 0%Q)).
  { intros i y z Hi Hy Hz. unfold drift1. change (zrange 3) with [0; 1; 2]. cbn [map]. rewrite !V by (assumption || (split; cbn [fst snd]; lia)). cbn [snd]. destruct ((i =? 0) && (snd y =? 1) && (snd z =? 0)); reflexivity. }
  assert (L : forall D' q r, (forall i y z, 0 <= i < 3 -> slot_ok 3 y -> slot_ok 3 z -> Qeq (D' i y z) (if (i =? 0) && (snd y =? 1) && (snd z =? 0) then 3%Q else 0%Q)) -> largest 3 D' q r -> snd r = q 0 1 0).
  { intros D' q r E [A B]. destruct B as [B|[i [y [z [Hi [Hy [Hz [B C]]]]]]]].
    - exfalso. pose proof (A 0 (0, 1) (0, 0) ltac:(lia) ltac:(split; cbn; lia) ltac:(split; cbn; lia)) as K. rewrite (E 0 (0, 1) (0, 0)) in K by (lia || (split; cbn; lia)). rewrite B in K. cbn in K. unfold Qle in K. cbn in K. lia.
    - destruct ((i =? 0) && (snd y =? 1) && (snd z =? 0)) eqn:F.
      + apply andb_prop in F. destruct F as [F F3]. apply andb_prop in F. destruct F as [F1 F2]. apply Z.eqb_eq in F1, F2, F3. rewrite C, F1, F2, F3. reflexivity.
      + exfalso. rewrite (E i y z Hi Hy Hz), F in B. pose proof (A 0 (0, 1) (0, 0) ltac:(lia) ltac:(split; cbn; lia) ltac:(split; cbn; lia)) as K. rewrite (E 0 (0, 1) (0, 0)) in K by (lia || (split; cbn; lia)). rewrite B in K. cbn in K. unfold Qle in K. cbn in K. lia. }
  split.
  - pose proof (C127_full 3 (full_of t 3 m)) as F. destruct (show_full 3 (full_of t 3 m)) as [[f1 f2] f3]. cbn zeta in F. destruct F as [F _]. cbn [fst]. refine (L _ _ _ _ F). intros i y z Hi Hy Hz. etransitivity; [|exact (D i y z Hi Hy Hz)]. apply qs_ext. intros a Ha.
    rewrite full_of_ok; [reflexivity|lia| |exact Hy|exact Hz]. apply in_zrange in Ha. split; assumption.
  - pose proof (C127_compact_first t 3 1 3 LT m N2) as F. destruct (show_compact t 3 1 m) as [[[f1 f2] f3] m']. cbn [fst]. exact (L _ _ _ D F).
Qed.
Print Assumptions C127_label_refuted.
(** A chain of two cells of one atom: there is no drift along the first index, but the compact array shows one *)
Theorem C127_order_two_refuted : let t := chain 2 in lattice_tables (tb_p2s t) (tb_s2pp t) (tb_nsym t) (tb_perm t) 2 1 2 /\
  exists m, fst (fst (fst (show_full 2 (full_of t 2 m)))) = 0%Q /\ fst (fst (fst (fst (show_compact t 2 1 m)))) = 1%Q.
Proof.
  split; [apply (chain_tables 2 1); lia|]. exists (fun a => if a =? 57 then 1%Q else if a =? 30 then (-1)%Q else 0%Q). split; vm_compute; reflexivity.
Qed.
Print Assumptions C127_order_two_refuted.
(** a chain of three cells *)
Example C127_ex : let t := chain 3 in let m := fun a => if a =? 33 then 2%Q else 0%Q in
  lattice_tables (tb_p2s t) (tb_s2pp t) (tb_nsym t) (tb_perm t) 3 1 3 /\ no_order_two (tb_perm t) 3 3 /\
  fst (show_compact t 3 1 m) = ((2%Q, (2, 0, 0)), (2%Q, (0, 2, 0)), (2%Q, (0, 2, 0))).
Proof. split; [apply (chain_tables 3 1); lia|]. split; [intros u s Hu Hs; apply chain3_no_order_two; lia|]. vm_compute. reflexivity. Qed.
