(** Properties C25-C28: permutation symmetry, compact layout, translational invariance. *)
From Coq Require Import ZArith QArith List Bool Lia Permutation Lqa.
From Verif Require Import Base BaseProofs Par Par2 Fc3Model Fc3Spec Fc3Proofs Fc3Compact Fc3Transpose Fc3Trans.
Import ListNotations.
Open Scope Z_scope.

Lemma sym_mean_symmetric : forall F x y z, Qeq (sym_mean F x y z) (sym_mean F y x z) /\ Qeq (sym_mean F x y z) (sym_mean F x z y).
Proof. intros. unfold sym_mean. split; field. Qed.
Lemma symmetric_mean : forall n F x y z, symmetric3 n F -> slot_ok n x -> slot_ok n y -> slot_ok n z -> Qeq (sym_mean F x y z) (F x y z).
Proof.
  intros n F x y z S Hx Hy Hz. unfold sym_mean.
  assert (Qeq (F x z y) (F x y z)) as E1 by (symmetry; apply S; auto).
  assert (Qeq (F y x z) (F x y z)) as E2 by (symmetry; apply S; auto).
  assert (Qeq (F y z x) (F x y z)) as E3 by (rewrite <- E2; symmetry; apply S; auto).
  assert (Qeq (F z x y) (F x y z)) as E4 by (rewrite <- E1; symmetry; apply S; auto).
  assert (Qeq (F z y x) (F x y z)) as E5 by (rewrite <- E3; symmetry; apply S; auto).
  rewrite E1, E2, E3, E4, E5. field.
Qed.

(** C25: for every number of atoms, every array and every thread schedule, each element becomes
    the mean of its six permuted elements and nothing outside the array is touched. *)
Theorem C25_mean_any_schedule : forall n m m', finishes Z.eq_dec (perm_iterations n) m m' ->
  (forall x y z, slot_ok n x -> slot_ok n y -> slot_ok n z -> Qeq (full n m' x y z) (sym_mean (full n m) x y z)) /\
  symmetric3 n (full n m') /\
  (forall a, ~ 0 <= a < n * n * n * 27 -> m' a = m a).
Proof.
  intros n m m' F. destruct (perm_any_schedule n m m' F) as [H1 H2]. split; [exact H1|]. split.
  - intros x y z Hx Hy Hz. rewrite !H1 by auto. apply sym_mean_symmetric.
  - intros a Ha. apply H2. intros [x0 x1] [y0 y1] [z0 z1] [? ?] [? ?] [? ?] E. cbn [fst snd] in *. apply Ha. rewrite E, adr_pos. unfold pos. cbn [fst snd].
    replace (n * n * n * 27) with (((((n * n) * n) * 3) * 3) * 3) by ring.
    repeat (apply flat_range; auto).
Qed.
Print Assumptions C25_mean_any_schedule.

(** already symmetric input is unchanged; symmetrizing again changes nothing; any two schedules agree *)
Theorem C25_projection : forall n m m', finishes Z.eq_dec (perm_iterations n) m m' ->
  (symmetric3 n (full n m) -> forall x y z, slot_ok n x -> slot_ok n y -> slot_ok n z -> Qeq (full n m' x y z) (full n m x y z)) /\
  (forall m'', finishes Z.eq_dec (perm_iterations n) m' m'' ->
     forall x y z, slot_ok n x -> slot_ok n y -> slot_ok n z -> Qeq (full n m'' x y z) (full n m' x y z)) /\
  (forall m2, finishes Z.eq_dec (perm_iterations n) m m2 ->
     forall x y z, slot_ok n x -> slot_ok n y -> slot_ok n z -> Qeq (full n m2 x y z) (full n m' x y z)).
Proof.
  intros n m m' F. destruct (C25_mean_any_schedule n m m' F) as [H1 [H2 _]]. split; [|split].
  - intros S x y z Hx Hy Hz. rewrite H1 by auto. now apply (symmetric_mean n).
  - intros m'' F' x y z Hx Hy Hz. destruct (C25_mean_any_schedule n m' m'' F') as [H3 _]. rewrite H3 by auto. now apply (symmetric_mean n).
  - intros m2 F2 x y z Hx Hy Hz. destruct (C25_mean_any_schedule n m m2 F2) as [H3 _]. rewrite H3, H1 by auto. reflexivity.
Qed.
Print Assumptions C25_projection.

(** two atoms: the loop really runs and mixes the six elements *)
Example C25_ex :
  let m := fun a => if a =? 27 then 6%Q else 0%Q in
  let m' := run_seq Z.eq_dec (perm_iterations 2) m in
  finishes Z.eq_dec (perm_iterations 2) m m' /\
  slot_ok 2 (0, 0) /\ slot_ok 2 (1, 0) /\ Qeq (full 2 m (0, 0) (0, 0) (1, 0)) 6 /\ Qeq (full 2 m' (1, 0) (0, 0) (0, 0)) 2.
Proof. split; [apply seq_finishes|]. split; [split; cbn; lia|]. split; [split; cbn; lia|]. split; vm_compute; reflexivity. Qed.

(** C26: compact symmetrization = symmetrization of the full array it stands for. *)
Theorem C26_compact_agrees : forall t n np ns m, lattice_tables (tb_p2s t) (tb_s2pp t) (tb_nsym t) (tb_perm t) n np ns ->
  let G := unfold_compact (tb_s2pp t) (tb_nsym t) (tb_perm t) n in
  let m' := perm_compact t n np m in
  (forall x y z, slot_ok n x -> slot_ok n y -> slot_ok n z -> Qeq (G m' x y z) (sym_mean (G m) x y z)) /\
  symmetric3 n (G m') /\
  (symmetric3 n (G m) -> forall x y z, slot_ok n x -> slot_ok n y -> slot_ok n z -> Qeq (G m' x y z) (G m x y z)).
Proof.
  intros t n np ns m LT G m'. pose proof (perm_compact_mean t n np ns LT m) as H. split; [exact H|]. split.
  - intros x y z Hx Hy Hz. unfold G, m'. rewrite !H by auto. apply sym_mean_symmetric.
  - intros S x y z Hx Hy Hz. unfold G, m'. rewrite H by auto. now apply (symmetric_mean n).
Qed.
Print Assumptions C26_compact_agrees.

(** ** chains: np atoms per cell, N cells; translation t moves every atom t cells *)
Definition chain (N : Z) : Tables := {| tb_p2s := fun p => p * N; tb_s2pp := fun s => s / N;
  tb_nsym := fun s => (- (s mod N)) mod N; tb_perm := fun t s => (s / N) * N + (s mod N + t) mod N |}.
Lemma chain_perm : forall N s t, 0 < N -> (s / N * N + (s mod N + t) mod N) / N = s / N /\ (s / N * N + (s mod N + t) mod N) mod N = (s mod N + t) mod N.
Proof.
  intros N s t HN. pose proof (Z.mod_pos_bound (s mod N + t) N HN). split.
  - symmetry. apply (Z.div_unique _ _ _ ((s mod N + t) mod N)); lia.
  - symmetry. apply (Z.mod_unique _ _ (s / N)); lia.
Qed.
Lemma chain_tables : forall N np, 0 < N -> let t := chain N in
  lattice_tables (tb_p2s t) (tb_s2pp t) (tb_nsym t) (tb_perm t) (np * N) np N.
Proof.
  intros N np HN t. cbn.
  assert (DM : forall s, s = s / N * N + s mod N /\ 0 <= s mod N < N) by (intros s; pose proof (Z.div_mod s N ltac:(lia)); pose proof (Z.mod_pos_bound s N HN); lia).
  assert (DR : forall s, 0 <= s < np * N -> 0 <= s / N < np) by (intros s Hs; split; [apply Z.div_pos; lia|apply Z.div_lt_upper_bound; [lia|rewrite (Z.mul_comm N); lia]]).
  assert (MM : forall x y, (x mod N + y) mod N = (x + y) mod N) by (intros; rewrite Z.add_mod_idemp_l by lia; reflexivity).
  constructor; cbn [tb_p2s tb_s2pp tb_nsym tb_perm chain t].
  - intros p Hp. nia.
  - auto.
  - intros s _. apply Z.mod_pos_bound. lia.
  - intros u s Hu Hs. apply (flat_range N np); [auto|apply Z.mod_pos_bound; lia].
  - intros u u' Hu Hu'. exists ((u + u') mod N). split; [apply Z.mod_pos_bound; lia|]. intros s Hs.
    destruct (chain_perm N s u HN) as [-> ->]. f_equal. rewrite (Z.add_mod_idemp_l (s mod N + u)), Z.add_mod_idemp_r by lia. f_equal. lia.
  - intros u Hu. exists ((- u) mod N). split; [apply Z.mod_pos_bound; lia|]. intros s Hs.
    destruct (chain_perm N s u HN) as [-> ->]. rewrite MM. rewrite Z.add_mod_idemp_r by lia.
    replace (s mod N + u + - u) with (s mod N) by lia. rewrite Z.mod_mod by lia. symmetry. apply DM.
  - intros u s Hu Hs E s' Hs'.
    assert (U : u mod N = 0).
    { rewrite MM in E. destruct (DM s) as [D1 D2]. assert (E' : (s + u) mod N = s mod N) by lia.
      replace u with (s + u - s) by lia. rewrite Zminus_mod, E'. replace (s mod N - s mod N) with 0 by lia. apply Z.mod_0_l. lia. }
    assert (U0 : u = 0) by (rewrite Z.mod_small in U by lia; exact U). subst u.
    rewrite Z.add_0_r, Z.mod_mod by lia. symmetry. apply DM.
  - intros s Hs. rewrite Z.add_mod_idemp_r by lia. replace (s mod N + - (s mod N)) with 0 by lia. rewrite Z.mod_0_l by lia. lia.
  - intros p Hp. apply Z.div_mul. lia.
  - intros u s Hu Hs. apply chain_perm. lia.
Qed.
Example C26_ex :
  let t := chain 2 in
  lattice_tables (tb_p2s t) (tb_s2pp t) (tb_nsym t) (tb_perm t) 4 2 2 /\
  let m := fun a => if a =? 28 then 6%Q else 0%Q in
  let m' := perm_compact t 4 2 m in
  Qeq (unfold_compact (tb_s2pp t) (tb_nsym t) (tb_perm t) 4 m (0, 0) (0, 0) (1, 1)) 6 /\
  Qeq (unfold_compact (tb_s2pp t) (tb_nsym t) (tb_perm t) 4 m' (0, 0) (1, 1) (0, 0)) 2 /\
  Qeq (unfold_compact (tb_s2pp t) (tb_nsym t) (tb_perm t) 4 m' (1, 0) (0, 1) (1, 0)) 2.
Proof. split; [apply (chain_tables 2 2); lia|]. vm_compute. repeat split; reflexivity. Qed.

(** ** C28 *)
Lemma selfb_no_order_two : forall t n np ns a b, lattice_tables (tb_p2s t) (tb_s2pp t) (tb_nsym t) (tb_perm t) n np ns ->
  no_order_two (tb_perm t) n ns -> 0 <= a < n -> 0 <= b < n -> selfb t n a b = false.
Proof.
  intros t n np ns a b LT N Ha Hb. unfold selfb. destruct (Z.eqb_spec (padr t n a b) (padr t n b a)) as [E|E]; [|reflexivity]. cbn.
  apply (padr_eq t n np ns LT) in E; auto. destruct E as [u [Hu [E1 E2]]]. apply negb_false_iff, Z.eqb_eq.
  rewrite E1. symmetry. apply N; auto. rewrite <- E1. symmetry. exact E2.
Qed.
(** Without translations of order two, transposition moves every element to the transposed position. *)
Theorem C28_transpose_exact : forall t n np ns m, lattice_tables (tb_p2s t) (tb_s2pp t) (tb_nsym t) (tb_perm t) n np ns ->
  no_order_two (tb_perm t) n ns ->
  let G := unfold_compact (tb_s2pp t) (tb_nsym t) (tb_perm t) n in
  forall x y z, slot_ok n x -> slot_ok n y -> slot_ok n z ->
  G (transpose_compact t n np 0 m) x y z = G m y x z /\
  G (transpose_compact t n np 1 m) x y z = G m z y x.
Proof.
  intros t n np ns m LT N2 G x y z Hx Hy Hz. pose proof (proj1 Hx). pose proof (proj1 Hy). pose proof (proj1 Hz). split.
  - unfold G. rewrite !G_cadr. change (cadr t n x y z) with (hadr t n 0 x y z). cbn [transpose_compact Z.eqb orb].
    rewrite (transpose01_target t n np ns LT 0) by auto. unfold target. rewrite (selfb_no_order_two t n np ns) by auto.
    reflexivity.
  - unfold G. rewrite !G_cadr. change (cadr t n x y z) with (hadr t n 1 x z y).
    change (transpose_compact t n np 1 m) with (transpose01 t n np 1 m).
    rewrite (transpose01_target t n np ns LT 1) by auto. unfold target. rewrite (selfb_no_order_two t n np ns) by auto.
    reflexivity.
Qed.
Print Assumptions C28_transpose_exact.
(** The last two indices: always exact. *)
Theorem C28_transpose_last : forall t n np ns m, lattice_tables (tb_p2s t) (tb_s2pp t) (tb_nsym t) (tb_perm t) n np ns ->
  let G := unfold_compact (tb_s2pp t) (tb_nsym t) (tb_perm t) n in
  forall x y z, slot_ok n x -> slot_ok n y -> slot_ok n z -> G (transpose_compact t n np 2 m) x y z = G m x z y.
Proof.
  intros t n np ns m LT G x y z Hx Hy Hz. unfold G. rewrite !raw_compact. destruct Hx as [Hx Hx1], Hy as [Hy Hy1], Hz as [Hz Hz1].
  change (transpose_compact t n np 2 m) with (transpose2 n np m).
  rewrite transpose2_raw; [reflexivity|apply (lt_s2pp _ _ _ _ _ _ _ LT); auto|apply (T_range t n np ns LT); auto|apply (T_range t n np ns LT); auto|].
  apply in_comps. auto.
Qed.
Print Assumptions C28_transpose_last.
(** All three are involutions on every supercell. *)
Theorem C28_involution : forall t n np ns ty m, lattice_tables (tb_p2s t) (tb_s2pp t) (tb_nsym t) (tb_perm t) n np ns ->
  ty = 0 \/ ty = 1 \/ ty = 2 ->
  let G := unfold_compact (tb_s2pp t) (tb_nsym t) (tb_perm t) n in
  forall x y z, slot_ok n x -> slot_ok n y -> slot_ok n z ->
  G (transpose_compact t n np ty (transpose_compact t n np ty m)) x y z = G m x y z.
Proof.
  intros t n np ns ty m LT Hty G x y z Hx Hy Hz. unfold G. destruct Hty as [-> | [-> | ->]].
  - rewrite !G_cadr. change (cadr t n x y z) with (hadr t n 0 x y z).
    change (transpose_compact t n np 0) with (transpose01 t n np 0).
    rewrite (transpose01_target t n np ns LT 0) by auto. unfold target at 1.
    destruct (selfb t n (fst x) (fst y)) eqn:S; rewrite (transpose01_target t n np ns LT 0) by auto; unfold target.
    + rewrite S. reflexivity.
    + rewrite selfb_sym, S. reflexivity.
  - rewrite !G_cadr. change (cadr t n x y z) with (hadr t n 1 x z y).
    change (transpose_compact t n np 1) with (transpose01 t n np 1).
    rewrite (transpose01_target t n np ns LT 1) by auto. unfold target at 1.
    destruct (selfb t n (fst x) (fst z)) eqn:S; rewrite (transpose01_target t n np ns LT 1) by auto; unfold target.
    + rewrite S. reflexivity.
    + rewrite selfb_sym, S. reflexivity.
  - rewrite (C28_transpose_last t n np ns _ LT) by auto. rewrite (C28_transpose_last t n np ns _ LT) by auto. reflexivity.
Qed.
Print Assumptions C28_involution.
(** A chain of two cells: element (0,1,0) should be exchanged with (1,0,0) and is not. *)
Theorem C28_order_two_refuted :
  let t := chain 2 in
  lattice_tables (tb_p2s t) (tb_s2pp t) (tb_nsym t) (tb_perm t) 2 1 2 /\
  exists m x y z, slot_ok 2 x /\ slot_ok 2 y /\ slot_ok 2 z /\
  let G := unfold_compact (tb_s2pp t) (tb_nsym t) (tb_perm t) 2 in
  ~ Qeq (G (transpose_compact t 2 1 0 m) x y z) (G m y x z).
Proof.
  split; [apply (chain_tables 2 1); lia|].
  exists (fun a => if a =? 54 then 1%Q else 0%Q), (0, 0), (1, 0), (0, 0). repeat (split; [split; cbn; lia|]).
  vm_compute. discriminate.
Qed.
Print Assumptions C28_order_two_refuted.
Lemma chain3_no_order_two : no_order_two (tb_perm (chain 3)) 6 3.
Proof.
  intros u s Hu Hs. cbn [tb_perm chain]. destruct (chain_perm 3 s u ltac:(lia)) as [E1 E2]. rewrite E1, E2. intros E.
  pose proof (Z.div_mod s 3 ltac:(lia)) as D. pose proof (Z.mod_pos_bound s 3 ltac:(lia)) as R.
  clear E1 E2. remember (s mod 3) as r. remember (s / 3) as k. clear Heqr Heqk. rewrite D in E. rewrite D.
  assert (r = 0 \/ r = 1 \/ r = 2) as [-> | [-> | ->]] by lia;
  assert (u = 0 \/ u = 1 \/ u = 2) as [-> | [-> | ->]] by lia; Z.to_euclidean_division_equations; lia.
Qed.
Example C28_ex :
  let t := chain 3 in let G := unfold_compact (tb_s2pp t) (tb_nsym t) (tb_perm t) 6 in
  lattice_tables (tb_p2s t) (tb_s2pp t) (tb_nsym t) (tb_perm t) 6 2 3 /\ no_order_two (tb_perm t) 6 3 /\
  let m := fun a => if a =? 27 * 9 + 1 then 1%Q else 0%Q in
  G m (0, 0) (1, 0) (3, 1) = 1%Q /\ G (transpose_compact t 6 2 0 m) (1, 0) (0, 0) (3, 1) = 1%Q /\
  G (transpose_compact t 6 2 1 m) (3, 1) (1, 0) (0, 0) = 1%Q.
Proof. split; [apply (chain_tables 3 2); lia|]. split; [apply chain3_no_order_two|]. vm_compute. repeat split; reflexivity. Qed.

(** ** C27: translational invariance *)
Definition s0 (n : Z) (F : slot -> slot -> slot -> Q) (x y z : slot) : Q := qsum (map (fun a => F (a, snd x) y z) (zrange n)).
Definition s1 (n : Z) (F : slot -> slot -> slot -> Q) (x y z : slot) : Q := qsum (map (fun a => F x (a, snd y) z) (zrange n)).
Definition s2 (n : Z) (F : slot -> slot -> slot -> Q) (x y z : slot) : Q := qsum (map (fun a => F x y (a, snd z)) (zrange n)).
Definition corrected (n : Z) (s : Z -> (slot -> slot -> slot -> Q) -> slot -> slot -> slot -> Q) (F F' : slot -> slot -> slot -> Q) : Prop :=
  forall x y z, slot_ok n x -> slot_ok n y -> slot_ok n z -> Qeq (F' x y z) (F x y z - s n F x y z / inject_Z n).
Definition vanish (n : Z) (s : Z -> (slot -> slot -> slot -> Q) -> slot -> slot -> slot -> Q) (F : slot -> slot -> slot -> Q) : Prop :=
  forall x y z, slot_ok n x -> slot_ok n y -> slot_ok n z -> Qeq (s n F x y z) 0.
Lemma inject_nz : forall n, 0 < n -> ~ Qeq (inject_Z n) 0.
Proof. intros n H. unfold Qeq. cbn. lia. Qed.
Lemma mean_drop : forall n (f : Z -> Q), 0 < n ->
  Qeq (qsum (map (fun a => f a - qsum (map f (zrange n)) / inject_Z n)%Q (zrange n))) 0.
Proof.
  intros n f H. set (s := qsum (map f (zrange n))).
  rewrite (qs_ext _ _ (fun a => f a + (fun _ => - s / inject_Z n) a)%Q) by (intros; field; apply inject_nz; auto).
  rewrite qs_add, qs_const, length_zrange, Z2Nat.id by lia. fold s. field. apply inject_nz. auto.
Qed.
Lemma mean_keep : forall n (g : Z -> Q) (f : Z -> Z -> Q), 0 < n -> Qeq (qsum (map g (zrange n))) 0 ->
  (forall a, In a (zrange n) -> Qeq (qsum (map (fun b => f a b) (zrange n))) 0) ->
  Qeq (qsum (map (fun b => g b - qsum (map (fun a => f a b) (zrange n)) / inject_Z n)%Q (zrange n))) 0.
Proof.
  intros n g f H Hg Hf.
  rewrite (qs_ext _ _ (fun b => g b + (fun b => (- (1) / inject_Z n) * qsum (map (fun a => f a b) (zrange n))) b)%Q) by (intros; field; apply inject_nz; auto).
  rewrite qs_add, qs_scale, Hg, <- qs_swap, (qs_zero _ (fun x => qsum (map (fun y => f x y) (zrange n)))) by auto. ring.
Qed.
Lemma ok_pos : forall n x, slot_ok n x -> 0 < n. Proof. intros n x [? _]. lia. Qed.
Lemma ok_at : forall n a x, In a (zrange n) -> slot_ok n x -> slot_ok n (a, snd x).
Proof. intros n a x Ha [_ H]. apply in_zrange in Ha. split; auto. Qed.
Ltac oks := first [assumption | apply ok_at; assumption].
Lemma c0_zero : forall n F F', corrected n s0 F F' -> vanish n s0 F'.
Proof. unfold corrected, vanish.
  intros n F F' C x y z Hx Hy Hz. unfold s0 at 1.
  rewrite (qs_ext _ _ (fun a => F (a, snd x) y z - qsum (map (fun a => F (a, snd x) y z) (zrange n)) / inject_Z n)%Q).
  - apply (mean_drop n (fun a => F (a, snd x) y z)). eapply ok_pos; eauto.
  - intros a Ha. rewrite C by oks. reflexivity.
Qed.
Lemma c1_zero : forall n F F', corrected n s1 F F' -> vanish n s1 F'.
Proof. unfold corrected, vanish.
  intros n F F' C x y z Hx Hy Hz. unfold s1 at 1.
  rewrite (qs_ext _ _ (fun a => F x (a, snd y) z - qsum (map (fun a => F x (a, snd y) z) (zrange n)) / inject_Z n)%Q).
  - apply (mean_drop n (fun a => F x (a, snd y) z)). eapply ok_pos; eauto.
  - intros a Ha. rewrite C by oks. reflexivity.
Qed.
Lemma c2_zero : forall n F F', corrected n s2 F F' -> vanish n s2 F'.
Proof. unfold corrected, vanish.
  intros n F F' C x y z Hx Hy Hz. unfold s2 at 1.
  rewrite (qs_ext _ _ (fun a => F x y (a, snd z) - qsum (map (fun a => F x y (a, snd z)) (zrange n)) / inject_Z n)%Q).
  - apply (mean_drop n (fun a => F x y (a, snd z))). eapply ok_pos; eauto.
  - intros a Ha. rewrite C by oks. reflexivity.
Qed.
Lemma c1_keep0 : forall n F F', corrected n s1 F F' -> vanish n s0 F -> vanish n s0 F'.
Proof. unfold corrected, vanish.
  intros n F F' C V x y z Hx Hy Hz. unfold s0 at 1.
  rewrite (qs_ext _ _ (fun b => F (b, snd x) y z - qsum (map (fun a => F (b, snd x) (a, snd y) z) (zrange n)) / inject_Z n)%Q).
  - apply (mean_keep n (fun b => F (b, snd x) y z) (fun a b => F (b, snd x) (a, snd y) z)); [eapply ok_pos; eauto|apply V; auto|].
    intros a Ha. apply (V x (a, snd y) z); oks.
  - intros a Ha. rewrite C by oks. reflexivity.
Qed.
Lemma c2_keep0 : forall n F F', corrected n s2 F F' -> vanish n s0 F -> vanish n s0 F'.
Proof. unfold corrected, vanish.
  intros n F F' C V x y z Hx Hy Hz. unfold s0 at 1.
  rewrite (qs_ext _ _ (fun b => F (b, snd x) y z - qsum (map (fun a => F (b, snd x) y (a, snd z)) (zrange n)) / inject_Z n)%Q).
  - apply (mean_keep n (fun b => F (b, snd x) y z) (fun a b => F (b, snd x) y (a, snd z))); [eapply ok_pos; eauto|apply V; auto|].
    intros a Ha. apply (V x y (a, snd z)); oks.
  - intros a Ha. rewrite C by oks. reflexivity.
Qed.
Lemma c2_keep1 : forall n F F', corrected n s2 F F' -> vanish n s1 F -> vanish n s1 F'.
Proof. unfold corrected, vanish.
  intros n F F' C V x y z Hx Hy Hz. unfold s1 at 1.
  rewrite (qs_ext _ _ (fun b => F x (b, snd y) z - qsum (map (fun a => F x (b, snd y) (a, snd z)) (zrange n)) / inject_Z n)%Q).
  - apply (mean_keep n (fun b => F x (b, snd y) z) (fun a b => F x (b, snd y) (a, snd z))); [eapply ok_pos; eauto|apply V; auto|].
    intros a Ha. apply (V x y (a, snd z)); oks.
  - intros a Ha. rewrite C by oks. reflexivity.
Qed.
Lemma vanish_zero_sums : forall n F, vanish n s0 F -> vanish n s1 F -> vanish n s2 F -> zero_sums n F.
Proof.
  intros n F V0 V1 V2 i y z Hi Hy Hz. pose proof (proj1 Hy) as P.
  assert (slot_ok n (0, i)) as O by (split; cbn [fst snd]; lia).
  split; [apply (V0 (0, i) y z); auto|split; [apply (V1 y (0, i) z); auto|apply (V2 y z (0, i)); auto]].
Qed.
Lemma zero_sums_vanish : forall n F, zero_sums n F -> vanish n s0 F /\ vanish n s1 F /\ vanish n s2 F.
Proof.
  intros n F Z0. repeat split; intros x y z Hx Hy Hz.
  - apply (Z0 (snd x) y z); auto. apply Hx.
  - apply (Z0 (snd y) x z); auto. apply Hy.
  - apply (Z0 (snd z) x y); auto. apply Hz.
Qed.
Lemma three_corrections : forall n F F1 F2 F3, corrected n s0 F F1 -> corrected n s1 F1 F2 -> corrected n s2 F2 F3 -> zero_sums n F3.
Proof.
  intros n F F1 F2 F3 C0 C1 C2. pose proof (c0_zero _ _ _ C0). pose proof (c1_zero _ _ _ C1). pose proof (c2_zero _ _ _ C2).
  apply vanish_zero_sums; [|eapply c2_keep1; eauto|auto]. eapply c2_keep0; eauto. eapply c1_keep0; eauto.
Qed.
Lemma corrected_id : forall n s F F', corrected n s F F' -> vanish n s F ->
  forall x y z, slot_ok n x -> slot_ok n y -> slot_ok n z -> Qeq (F' x y z) (F x y z).
Proof. unfold corrected, vanish. intros n s F F' C V x y z Hx Hy Hz. rewrite C by auto. rewrite V by auto. field. apply inject_nz. eapply ok_pos; eauto. Qed.
Lemma vanish_ext : forall n s F F', s = s0 \/ s = s1 \/ s = s2 -> vanish n s F ->
  (forall x y z, slot_ok n x -> slot_ok n y -> slot_ok n z -> Qeq (F' x y z) (F x y z)) -> vanish n s F'.
Proof. unfold corrected, vanish.
  intros n s F F' Hs V E x y z Hx Hy Hz. rewrite <- (V x y z) by auto.
  destruct Hs as [-> | [-> | ->]]; [unfold s0|unfold s1|unfold s2]; apply qs_ext; intros a Ha; apply E; oks.
Qed.
Lemma three_corrections_id : forall n F F1 F2 F3, corrected n s0 F F1 -> corrected n s1 F1 F2 -> corrected n s2 F2 F3 -> zero_sums n F ->
  forall x y z, slot_ok n x -> slot_ok n y -> slot_ok n z -> Qeq (F3 x y z) (F x y z).
Proof.
  intros n F F1 F2 F3 C0 C1 C2 Z0 x y z Hx Hy Hz. destruct (zero_sums_vanish n F Z0) as [V0 [V1 V2]].
  pose proof (corrected_id n s0 F F1 C0 V0) as E1.
  pose proof (corrected_id n s1 F1 F2 C1 (vanish_ext n s1 F F1 ltac:(auto) V1 E1)) as E2.
  assert (V2' : vanish n s2 F2).
  { apply (vanish_ext n s2 F F2); auto. intros. rewrite E2, E1 by auto. reflexivity. }
  rewrite (corrected_id n s2 F2 F3 C2 V2'), E2, E1 by auto. reflexivity.
Qed.
Lemma comps_ok : forall n x y z, slot_ok n x -> slot_ok n y -> slot_ok n z -> In (snd x, snd y, snd z) comps.
Proof. intros n x y z [_ ?] [_ ?] [_ ?]. apply in_comps. auto. Qed.
Lemma full_corrected : forall n m, corrected n s0 (full n m) (full n (trans_inv 0 n n m)) /\
  corrected n s1 (full n m) (full n (trans_inv 1 n n m)) /\ corrected n s2 (full n m) (full n (trans_inv 2 n n m)).
Proof.
  intros n m. repeat split; intros x y z Hx Hy Hz; pose proof (comps_ok n x y z Hx Hy Hz) as Hq; destruct x as [xa xi], y as [ya yi], z as [za zi];
    pose proof (proj1 Hx) as Ha; pose proof (proj1 Hy) as Hb; pose proof (proj1 Hz) as Hc; cbn [fst snd] in *; rewrite !raw_full; cbn [fst snd].
  - change (raw n (trans_inv 0 n n m) xa ya za (xi, yi, zi)) with (trans_inv 0 n n m (line 0 n ya za (xi, yi, zi) xa)).
    rewrite trans_inv_value; [|auto|apply in_line_space; cbn; auto|cbn; auto].
    change (shape n n 0) with n. unfold s0. cbn [snd].
    rewrite (qs_ext _ (fun a => full n m (a, xi) (ya, yi) (za, zi)) (fun a => m (line 0 n ya za (xi, yi, zi) a))); [reflexivity|].
    intros a _. rewrite raw_full. reflexivity.
  - change (raw n (trans_inv 1 n n m) xa ya za (xi, yi, zi)) with (trans_inv 1 n n m (line 1 n za xa (xi, yi, zi) ya)).
    rewrite trans_inv_value; [|auto|apply in_line_space; cbn; auto|cbn; auto].
    change (shape n n 1) with n. unfold s1. cbn [snd].
    rewrite (qs_ext _ (fun a => full n m (xa, xi) (a, yi) (za, zi)) (fun a => m (line 1 n za xa (xi, yi, zi) a))); [reflexivity|].
    intros a _. rewrite raw_full. reflexivity.
  - change (raw n (trans_inv 2 n n m) xa ya za (xi, yi, zi)) with (trans_inv 2 n n m (line 2 n xa ya (xi, yi, zi) za)).
    rewrite trans_inv_value; [|auto|apply in_line_space; cbn; auto|cbn; auto].
    change (shape n n 2) with n. unfold s2. cbn [snd].
    rewrite (qs_ext _ (fun a => full n m (xa, xi) (ya, yi) (a, zi)) (fun a => m (line 2 n xa ya (xi, yi, zi) a))); [reflexivity|].
    intros a _. rewrite raw_full. reflexivity.
Qed.
(** full arrays: every sum over any one atom index vanishes, and invariant arrays are unchanged *)
Theorem C27_full : forall n m,
  zero_sums n (full n (trans_inv_full n n m)) /\
  (zero_sums n (full n m) -> forall x y z, slot_ok n x -> slot_ok n y -> slot_ok n z -> Qeq (full n (trans_inv_full n n m) x y z) (full n m x y z)).
Proof.
  intros n m. change (trans_inv_full n n m) with (trans_inv 2 n n (trans_inv 1 n n (trans_inv 0 n n m))).
  pose proof (proj1 (full_corrected n m)) as C0. pose proof (proj1 (proj2 (full_corrected n (trans_inv 0 n n m)))) as C1.
  pose proof (proj2 (proj2 (full_corrected n (trans_inv 1 n n (trans_inv 0 n n m))))) as C2.
  split; [eapply three_corrections; eauto|]. intros Z0. eapply three_corrections_id; eauto.
Qed.
Print Assumptions C27_full.

Lemma compact_corrected : forall t n np ns m, lattice_tables (tb_p2s t) (tb_s2pp t) (tb_nsym t) (tb_perm t) n np ns ->
  let G := unfold_compact (tb_s2pp t) (tb_nsym t) (tb_perm t) n in
  corrected n s1 (G m) (G (trans_inv 1 np n m)) /\ corrected n s2 (G m) (G (trans_inv 2 np n m)).
Proof.
  intros t n np ns m LT G. unfold G.
  split; intros x y z Hx Hy Hz; pose proof (comps_ok n x y z Hx Hy Hz) as Hq; destruct x as [xa xi], y as [ya yi], z as [za zi];
    pose proof (proj1 Hx) as Ha; pose proof (proj1 Hy) as Hb; pose proof (proj1 Hz) as Hc; cbn [fst snd] in *; rewrite !raw_compact; cbn [fst snd];
    pose proof (lt_s2pp _ _ _ _ _ _ _ LT xa Ha) as Hp; pose proof (T_range t n np ns LT xa ya Ha Hb) as Hb'; pose proof (T_range t n np ns LT xa za Ha Hc) as Hc';
    set (p := tb_s2pp t xa) in *; set (b := T t xa ya) in *; set (c := T t xa za) in *; unfold rng in *.
  - change (raw n (trans_inv 1 np n m) p b c (xi, yi, zi)) with (trans_inv 1 np n m (line 1 n c p (xi, yi, zi) b)).
    rewrite trans_inv_value; [|auto|apply in_line_space; cbn; auto|cbn; auto].
    change (shape np n 1) with n. unfold s1. cbn [snd].
    rewrite <- (qs_reindex n (T t xa) (fun a => m (line 1 n c p (xi, yi, zi) a))).
    + rewrite (qs_ext _ (fun a => unfold_compact _ _ _ n m (xa, xi) (a, yi) (za, zi)) (fun a => m (line 1 n c p (xi, yi, zi) (T t xa a)))); [reflexivity|].
      intros a _. rewrite raw_compact. reflexivity.
    + intros a Ha'. apply (T_range t n np ns LT); auto.
    + intros a a' Ha1 Ha2. apply (perm_inj t n np ns LT); auto. apply (lt_nsym _ _ _ _ _ _ _ LT); auto.
  - change (raw n (trans_inv 2 np n m) p b c (xi, yi, zi)) with (trans_inv 2 np n m (line 2 n p b (xi, yi, zi) c)).
    rewrite trans_inv_value; [|auto|apply in_line_space; cbn; auto|cbn; auto].
    change (shape np n 2) with n. unfold s2. cbn [snd].
    rewrite <- (qs_reindex n (T t xa) (fun a => m (line 2 n p b (xi, yi, zi) a))).
    + rewrite (qs_ext _ (fun a => unfold_compact _ _ _ n m (xa, xi) (ya, yi) (a, zi)) (fun a => m (line 2 n p b (xi, yi, zi) (T t xa a)))); [reflexivity|].
      intros a _. rewrite raw_compact. reflexivity.
    + intros a Ha'. apply (T_range t n np ns LT); auto.
    + intros a a' Ha1 Ha2. apply (perm_inj t n np ns LT); auto. apply (lt_nsym _ _ _ _ _ _ _ LT); auto.
Qed.
(** compact arrays on supercells without translations of order two: the same, for the full array
    the compact one stands for *)
Theorem C27_compact : forall t n np ns m, lattice_tables (tb_p2s t) (tb_s2pp t) (tb_nsym t) (tb_perm t) n np ns ->
  no_order_two (tb_perm t) n ns ->
  let G := unfold_compact (tb_s2pp t) (tb_nsym t) (tb_perm t) n in
  zero_sums n (G (trans_inv_compact t n np m)) /\
  (zero_sums n (G m) -> forall x y z, slot_ok n x -> slot_ok n y -> slot_ok n z -> Qeq (G (trans_inv_compact t n np m) x y z) (G m x y z)).
Proof.
  intros t n np ns m LT N2 G. unfold trans_inv_compact. set (m1 := transpose_compact t n np 0 m). set (m2 := trans_inv 1 np n m1).
  set (m3 := transpose_compact t n np 0 m2). set (m4 := trans_inv 1 np n m3).
  pose proof (fun m => proj1 (compact_corrected t n np ns m LT)) as K1. pose proof (fun m => proj2 (compact_corrected t n np ns m LT)) as K2.
  fold G in K1, K2. unfold corrected in K1, K2.
  assert (X : forall m x y z, slot_ok n x -> slot_ok n y -> slot_ok n z -> G (transpose_compact t n np 0 m) x y z = G m y x z).
  { intros m' x y z Hx Hy Hz. exact (proj1 (C28_transpose_exact t n np ns m' LT N2 x y z Hx Hy Hz)). }
  assert (C0 : corrected n s0 (G m) (G m3)).
  { intros x y z Hx Hy Hz. unfold m3. rewrite X by auto. unfold m2. rewrite (K1 m1) by auto. unfold m1 at 1. rewrite X by auto.
    unfold s0, s1. rewrite (qs_ext _ (fun a => G m1 y (a, snd x) z) (fun a => G m (a, snd x) y z)); [reflexivity|].
    intros a Ha. unfold m1. rewrite X by oks. reflexivity. }
  split; [eapply three_corrections; [exact C0|exact (K1 m3)|exact (K2 m4)]|].
  intros Z0. eapply three_corrections_id; [exact C0|exact (K1 m3)|exact (K2 m4)|exact Z0].
Qed.
Print Assumptions C27_compact.
(** a chain of two cells: a drift along the first index survives *)
Theorem C27_compact_order_two_refuted :
  let t := chain 2 in let G := unfold_compact (tb_s2pp t) (tb_nsym t) (tb_perm t) 2 in
  lattice_tables (tb_p2s t) (tb_s2pp t) (tb_nsym t) (tb_perm t) 2 1 2 /\
  exists m, ~ zero_sums 2 (G (trans_inv_compact t 2 1 m)).
Proof.
  split; [apply (chain_tables 2 1); lia|].
  exists (fun a => if a =? 54 then 1%Q else 0%Q). intros H.
  destruct (H 0 (0, 0) (0, 0) ltac:(lia) ltac:(split; cbn; lia) ltac:(split; cbn; lia)) as [K _]. vm_compute in K. discriminate.
Qed.
Print Assumptions C27_compact_order_two_refuted.
Example C27_ex :
  let m := fun a => inject_Z (a mod 5) in
  let t := chain 3 in
  lattice_tables (tb_p2s t) (tb_s2pp t) (tb_nsym t) (tb_perm t) 3 1 3 /\ no_order_two (tb_perm t) 3 3 /\
  ~ zero_sums 3 (unfold_compact (tb_s2pp t) (tb_nsym t) (tb_perm t) 3 m) /\ ~ zero_sums 2 (full 2 m).
Proof.
  intros m t. split; [apply (chain_tables 3 1); lia|]. split; [intros u s Hu Hs; apply chain3_no_order_two; lia|].
  split; intros H.
  - destruct (H 0 (0, 0) (0, 0) ltac:(lia) ltac:(split; cbn; lia) ltac:(split; cbn; lia)) as [_ [K _]]. vm_compute in K. discriminate.
  - destruct (H 0 (0, 0) (0, 0) ltac:(lia) ltac:(split; cbn; lia) ltac:(split; cbn; lia)) as [K _]. vm_compute in K. discriminate.
Qed.

(** ** C58: produce_fc3 with symmetrize_fc3r gives both symmetries at once *)
Lemma mean_zero_sums : forall n F, zero_sums n F -> zero_sums n (sym_mean F).
Proof.
  intros n F Z0 i y z Hi Hy Hz. destruct (Z0 i y z Hi Hy Hz) as [A1 [A2 A3]]. destruct (Z0 i z y Hi Hz Hy) as [B1 [B2 B3]].
  assert (K : forall f1 f2 f3 f4 f5 f6 : Z -> Q, Qeq (qsum (map f1 (zrange n))) 0 -> Qeq (qsum (map f2 (zrange n))) 0 -> Qeq (qsum (map f3 (zrange n))) 0 ->
    Qeq (qsum (map f4 (zrange n))) 0 -> Qeq (qsum (map f5 (zrange n))) 0 -> Qeq (qsum (map f6 (zrange n))) 0 ->
    Qeq (qsum (map (fun a => (f1 a + f2 a + f3 a + f4 a + f5 a + f6 a) / 6)%Q (zrange n))) 0).
  { intros f1 f2 f3 f4 f5 f6 E1 E2 E3 E4 E5 E6.
    rewrite (qs_ext _ _ (fun a => (1 # 6) * (f1 a + (f2 a + (f3 a + (f4 a + (f5 a + f6 a))))))%Q) by (intros; field).
    rewrite (qs_scale _ (1 # 6) (fun a => (f1 a + (f2 a + (f3 a + (f4 a + (f5 a + f6 a)))))%Q)).
    rewrite (qs_add _ f1 (fun a => (f2 a + (f3 a + (f4 a + (f5 a + f6 a))))%Q)), (qs_add _ f2 (fun a => (f3 a + (f4 a + (f5 a + f6 a)))%Q)),
      (qs_add _ f3 (fun a => (f4 a + (f5 a + f6 a))%Q)), (qs_add _ f4 (fun a => (f5 a + f6 a)%Q)), qs_add, E1, E2, E3, E4, E5, E6. ring. }
  unfold sym_mean. split; [|split].
  - apply (K (fun a => F (a, i) y z) (fun a => F (a, i) z y) (fun a => F y (a, i) z) (fun a => F y z (a, i)) (fun a => F z (a, i) y) (fun a => F z y (a, i))); auto.
  - apply (K (fun a => F y (a, i) z) (fun a => F y z (a, i)) (fun a => F (a, i) y z) (fun a => F (a, i) z y) (fun a => F z y (a, i)) (fun a => F z (a, i) y)); auto.
  - apply (K (fun a => F y z (a, i)) (fun a => F y (a, i) z) (fun a => F z y (a, i)) (fun a => F z (a, i) y) (fun a => F (a, i) y z) (fun a => F (a, i) z y)); auto.
Qed.
Lemma zero_sums_ext : forall n F F', zero_sums n F -> (forall x y z, slot_ok n x -> slot_ok n y -> slot_ok n z -> Qeq (F' x y z) (F x y z)) -> zero_sums n F'.
Proof.
  intros n F F' H E i y z Hi Hy Hz. destruct (H i y z Hi Hy Hz) as [A [B C]].
  assert (O : forall a, In a (zrange n) -> slot_ok n (a, i)) by (intros a Ha; apply in_zrange in Ha; split; auto).
  split; [rewrite <- A|split; [rewrite <- B|rewrite <- C]]; apply qs_ext; intros a Ha; apply E; auto.
Qed.
Theorem C58_symmetrize_full : forall t n m, let F := full n (symmetrize_fc3r false t n n m) in symmetric3 n F /\ zero_sums n F.
Proof.
  intros t n m F. unfold F, symmetrize_fc3r, perm_full. set (m1 := trans_inv_full n n m).
  destruct (C25_mean_any_schedule n m1 _ (seq_finishes Z.eq_dec (perm_iterations n) m1)) as [H1 [H2 _]]. split; [exact H2|].
  eapply zero_sums_ext; [|exact H1]. apply mean_zero_sums. apply C27_full.
Qed.
Print Assumptions C58_symmetrize_full.
Theorem C58_symmetrize_compact : forall t n np ns m, lattice_tables (tb_p2s t) (tb_s2pp t) (tb_nsym t) (tb_perm t) n np ns ->
  no_order_two (tb_perm t) n ns ->
  let F := unfold_compact (tb_s2pp t) (tb_nsym t) (tb_perm t) n (symmetrize_fc3r true t np n m) in symmetric3 n F /\ zero_sums n F.
Proof.
  intros t n np ns m LT N2 F. unfold F, symmetrize_fc3r. set (m1 := trans_inv_compact t n np m).
  destruct (C26_compact_agrees t n np ns m1 LT) as [H1 [H2 _]]. split; [exact H2|].
  eapply zero_sums_ext; [|exact H1]. apply mean_zero_sums. now apply (C27_compact t n np ns).
Qed.
Print Assumptions C58_symmetrize_compact.
Theorem C58_symmetrize_compact_order_two_refuted :
  let t := chain 2 in
  lattice_tables (tb_p2s t) (tb_s2pp t) (tb_nsym t) (tb_perm t) 2 1 2 /\
  exists m, ~ zero_sums 2 (unfold_compact (tb_s2pp t) (tb_nsym t) (tb_perm t) 2 (symmetrize_fc3r true t 1 2 m)).
Proof.
  split; [apply (chain_tables 2 1); lia|].
  exists (fun a => if a =? 54 then 1%Q else 0%Q). intros H.
  destruct (H 0 (0, 0) (0, 0) ltac:(lia) ltac:(split; cbn; lia) ltac:(split; cbn; lia)) as [K _]. vm_compute in K. discriminate.
Qed.
Print Assumptions C58_symmetrize_compact_order_two_refuted.

(** ** C59: the Phono3py methods applied to a compact array *)
(** One atom per primitive cell: set_translational_invariance erases every force constant. *)
Lemma trans_inv0_single : forall n m b c q, 0 <= b < n -> 0 <= c < n -> In q comps -> Qeq (raw n (trans_inv 0 1 n m) 0 b c q) 0.
Proof.
  intros n m b c q Hb Hc Hq. change (raw n (trans_inv 0 1 n m) 0 b c q) with (trans_inv 0 1 n m (line 0 n b c q 0)).
  rewrite trans_inv_value; [|auto|apply in_line_space; cbn; auto|cbn; lia]. change (shape 1 n 0) with 1. cbn [zrange]. change (zrange 1) with [0]. cbn [map].
  rewrite qs_cons, qs_nil. field.
Qed.
Lemma raw_zero_kept1 : forall n m, (forall b c q, 0 <= b < n -> 0 <= c < n -> In q comps -> Qeq (raw n m 0 b c q) 0) ->
  forall b c q, 0 <= b < n -> 0 <= c < n -> In q comps -> Qeq (raw n (trans_inv 1 1 n m) 0 b c q) 0.
Proof.
  intros n m H b c q Hb Hc Hq. change (raw n (trans_inv 1 1 n m) 0 b c q) with (trans_inv 1 1 n m (line 1 n c 0 q b)).
  rewrite trans_inv_value; [|auto|apply in_line_space; split; [cbn; lia|split; [cbn; lia|auto]]|cbn; lia]. change (shape 1 n 1) with n.
  rewrite (qs_zero _ (fun a => m (line 1 n c 0 q a))); [|intros a Ha; apply in_zrange in Ha; apply (H a c q); auto].
  change (m (line 1 n c 0 q b)) with (raw n m 0 b c q). rewrite H by auto. field. apply inject_nz. lia.
Qed.
Lemma raw_zero_kept2 : forall n m, (forall b c q, 0 <= b < n -> 0 <= c < n -> In q comps -> Qeq (raw n m 0 b c q) 0) ->
  forall b c q, 0 <= b < n -> 0 <= c < n -> In q comps -> Qeq (raw n (trans_inv 2 1 n m) 0 b c q) 0.
Proof.
  intros n m H b c q Hb Hc Hq. change (raw n (trans_inv 2 1 n m) 0 b c q) with (trans_inv 2 1 n m (line 2 n 0 b q c)).
  rewrite trans_inv_value; [|auto|apply in_line_space; split; [cbn; lia|split; [cbn; lia|auto]]|cbn; lia]. change (shape 1 n 2) with n.
  rewrite (qs_zero _ (fun a => m (line 2 n 0 b q a))); [|intros a Ha; apply in_zrange in Ha; apply (H b a q); auto].
  change (m (line 2 n 0 b q c)) with (raw n m 0 b c q). rewrite H by auto. field. apply inject_nz. lia.
Qed.
Theorem C59_translational_invariance_erases : forall t n ns m, lattice_tables (tb_p2s t) (tb_s2pp t) (tb_nsym t) (tb_perm t) n 1 ns ->
  forall x y z, slot_ok n x -> slot_ok n y -> slot_ok n z ->
  Qeq (unfold_compact (tb_s2pp t) (tb_nsym t) (tb_perm t) n (trans_inv_full 1 n m) x y z) 0.
Proof.
  intros t n ns m LT x y z Hx Hy Hz. rewrite raw_compact. pose proof (lt_s2pp _ _ _ _ _ _ _ LT (fst x) (proj1 Hx)).
  replace (tb_s2pp t (fst x)) with 0 by lia.
  change (trans_inv_full 1 n m) with (trans_inv 2 1 n (trans_inv 1 1 n (trans_inv 0 1 n m))).
  apply raw_zero_kept2; [apply raw_zero_kept1; intros; apply trans_inv0_single; auto| | |now apply (comps_ok n)];
    apply (T_range t n 1 ns LT); first [apply Hx|apply Hy|apply Hz].
Qed.
Print Assumptions C59_translational_invariance_erases.
(** Two cells of one atom: invariant force constants that the method destroys, and an array that
    set_permutation_symmetry leaves asymmetric. *)
Theorem C59_api_on_compact_refuted :
  let t := chain 3 in let G := unfold_compact (tb_s2pp t) (tb_nsym t) (tb_perm t) 3 in
  lattice_tables (tb_p2s t) (tb_s2pp t) (tb_nsym t) (tb_perm t) 3 1 3 /\
  (exists m, zero_sums 3 (G m) /\ ~ Qeq (G (trans_inv_full 1 3 m) (0, 0) (0, 0) (0, 0)) (G m (0, 0) (0, 0) (0, 0))) /\
  (exists m, ~ symmetric3 3 (G (api_set_permutation_symmetry 1 m))).
Proof.
  intros t G. pose proof (chain_tables 3 1 ltac:(lia)) as LT. split; [exact LT|]. split.
  - exists (trans_inv_compact t 3 1 (fun a => if a =? 0 then 27%Q else 0%Q)). split.
    + apply (C27_compact t 3 1 3 _ LT). intros u s Hu Hs. apply chain3_no_order_two; lia.
    + unfold G. rewrite (C59_translational_invariance_erases t 3 3 _ LT) by (split; cbn; lia). vm_compute. discriminate.
  - exists (fun a => if a =? 27 then 1%Q else 0%Q). intros S.
    destruct (S (0, 0) (0, 0) (1, 0) ltac:(split; cbn; lia) ltac:(split; cbn; lia) ltac:(split; cbn; lia)) as [_ K]. vm_compute in K. discriminate.
Qed.
Print Assumptions C59_api_on_compact_refuted.
