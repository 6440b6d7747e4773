From Coq Require Import ZArith QArith List Bool Lia Permutation Lqa.
From Verif Require Import Base BaseProofs Par Par2 Fc3Model Fc3Spec Fc3Proofs Fc3Compact.
Import ListNotations.
Open Scope Z_scope.

Lemma fold_upd_other : forall X (key : X -> Z) (val : X -> Q) l m a, ~ In a (map key l) ->
  fold_left (fun m x => upd m (key x) (val x)) l m a = m a.
Proof.
  intros X key val. induction l as [|x l IH]; intros m a H; cbn; [reflexivity|]. cbn in H. rewrite IH by tauto. apply upd_other. intros ->. tauto.
Qed.
Lemma fold_upd_in : forall X (key : X -> Z) (val : X -> Q) l m x, NoDup l -> (forall x y, In x l -> In y l -> key x = key y -> x = y) -> In x l ->
  fold_left (fun m x => upd m (key x) (val x)) l m (key x) = val x.
Proof.
  intros X key val. induction l as [|y l IH]; intros m x N I H; [contradiction|]. cbn. inversion_clear N as [|? ? N1 N2].
  destruct H as [->|H].
  - rewrite fold_upd_other; [apply upd_same|]. intros K. apply in_map_iff in K. destruct K as [z [E Hz]].
    apply I in E; [subst; contradiction|right; auto|left; auto].
  - apply IH; auto. intros u v Hu Hv. apply I; right; auto.
Qed.
Lemma fold_upd_rd : forall X (key src : X -> Z) l (m0 m : Z -> Q), (forall x, In x l -> ~ In (src x) (map key l)) ->
  (forall x, In x l -> m (src x) = m0 (src x)) ->
  forall a, fold_left (fun m x => upd m (key x) (m (src x))) l m a = fold_left (fun m x => upd m (key x) (m0 (src x))) l m a.
Proof.
  intros X key src. induction l as [|y l IH]; intros m0 m D E a; cbn; [reflexivity|].
  rewrite (E y) by (left; auto). apply IH.
  - intros x Hx K. apply (D x); [right; auto|]. cbn. auto.
  - intros x Hx. rewrite upd_other; [apply E; right; auto|]. intros K. apply (D x); [right; auto|]. cbn. auto.
Qed.

Lemma NoDup_comps : NoDup comps.
Proof.
  apply NoDup_flat_map; [apply NoDup_zrange| |].
  - intros i _. apply NoDup_flat_map; [apply NoDup_zrange| |].
    + intros j _. apply FinFun.Injective_map_NoDup; [|apply NoDup_zrange]. intros k k' E. congruence.
    + intros j j' b _ _ H H'. apply in_map_iff in H, H'. destruct H as [k [<- _]], H' as [k' [E _]]. congruence.
  - intros i i' b _ _ H H'. apply in_flat_map in H, H'. destruct H as [j [_ H]], H' as [j' [_ H']].
    apply in_map_iff in H, H'. destruct H as [k [<- _]], H' as [k' [E _]]. congruence.
Qed.
Lemma off_inj : forall C C' q q', In q comps -> In q' comps -> C * 27 + off q = C' * 27 + off q' -> C = C' /\ q = q'.
Proof.
  intros C C' [[l m] n] [[l' m'] n'] H H' E. apply in_comps in H, H'. cbn [off] in E.
  assert (C = C') by lia. assert (l = l') by lia. assert (m = m') by lia. assert (n = n') by lia. subst. auto.
Qed.

Section Swap.
Variable p : Z * Z * Z -> Z * Z * Z.
Hypothesis P_in : forall q, In q comps -> In (p q) comps.
Hypothesis P_inv : forall q, p (p q) = q.
Lemma swap_blocks_spec : forall A B m C q, In q comps ->
  swap_blocks p A B m (C * 27 + off q) =
  if C =? A then m (B * 27 + off (p q)) else if C =? B then m (A * 27 + off (p q)) else m (C * 27 + off q).
Proof.
  intros A B m C q Hq. unfold swap_blocks. rewrite fold_map. cbn [fst snd].
  set (m1 := if A =? B then m else _).
  assert (KI : forall D (x y : Z * Z * Z), In x comps -> In y comps -> D * 27 + off (p x) = D * 27 + off (p y) -> x = y).
  { intros D x y Hx Hy E. apply off_inj in E; auto. destruct E as [_ E]. rewrite <- (P_inv x), <- (P_inv y), E. reflexivity. }
  assert (BIN : forall D q', In q' comps -> In (D * 27 + off q') (map (fun q => B * 27 + off (p q)) comps) <-> D = B).
  { intros D q' Hq'. rewrite in_map_iff. split.
    - intros [x [E Hx]]. apply off_inj in E; auto. symmetry. tauto.
    - intros ->. exists (p q'). split; [now rewrite P_inv|auto]. }
  destruct (Z.eqb_spec C B) as [->|NB].
  - assert (X : B * 27 + off q = B * 27 + off (p (p q))) by (now rewrite P_inv). rewrite X.
    rewrite (fold_upd_in _ (fun q => B * 27 + off (p q)) (fun q => m (A * 27 + off q)) comps m1 (p q) NoDup_comps (KI B)) by auto.
    destruct (Z.eqb_spec B A) as [->|NA]; reflexivity.
  - rewrite fold_upd_other by (rewrite BIN by auto; exact NB). unfold m1.
    destruct (Z.eqb_spec A B) as [->|NAB].
    + destruct (Z.eqb_spec C B); [contradiction|reflexivity].
    + rewrite fold_upd_rd with (m0 := m); [| |reflexivity].
      * destruct (Z.eqb_spec C A) as [->|NA].
        -- apply (fold_upd_in _ (fun q => A * 27 + off q) (fun q => m (B * 27 + off (p q))) comps m q NoDup_comps); auto.
           intros x y Hx Hy E. apply off_inj in E; auto. tauto.
        -- apply fold_upd_other. intros K. apply in_map_iff in K. destruct K as [x [E Hx]]. apply off_inj in E; auto. destruct E; congruence.
      * intros x Hx K. apply in_map_iff in K. destruct K as [y [E Hy]]. apply off_inj in E; auto. destruct E; congruence.
Qed.
End Swap.
Lemma p01_in : forall q, In q comps -> In (p01 q) comps.
Proof. intros [[a b] c] H. apply in_comps in H. apply in_comps. tauto. Qed.
Lemma p02_in : forall q, In q comps -> In (p02 q) comps.
Proof. intros [[a b] c] H. apply in_comps in H. apply in_comps. tauto. Qed.
Lemma p12_in : forall q, In q comps -> In (p12 q) comps.
Proof. intros [[a b] c] H. apply in_comps in H. apply in_comps. tauto. Qed.
Lemma p01_inv : forall q, p01 (p01 q) = q. Proof. intros [[a b] c]. reflexivity. Qed.
Lemma p02_inv : forall q, p02 (p02 q) = q. Proof. intros [[a b] c]. reflexivity. Qed.
Lemma p12_inv : forall q, p12 (p12 q) = q. Proof. intros [[a b] c]. reflexivity. Qed.

(** a loop of block swaps over k: disjoint pairs, equal pairs, or an involution of one row *)
Section SwapLoop.
Variable p : Z * Z * Z -> Z * Z * Z.
Hypothesis P_in : forall q, In q comps -> In (p q) comps.
Hypothesis P_inv : forall q, p (p q) = q.
Variable A B : Z -> Z.
Variable n : Z.
Hypothesis A_inj : forall k k', 0 <= k < n -> 0 <= k' < n -> A k = A k' -> k = k'.
Hypothesis B_inj : forall k k', 0 <= k < n -> 0 <= k' < n -> B k = B k' -> k = k'.
Notation loop N m := (fold_left (fun m k => swap_blocks p (A k) (B k) m) (zrange N) m).

Lemma loop_other : forall m C q, In q comps -> (forall k, 0 <= k < n -> C <> A k /\ C <> B k) ->
  loop n m (C * 27 + off q) = m (C * 27 + off q).
Proof.
  intros m C q Hq H. assert (G : forall l m, (forall k, In k l -> 0 <= k < n) -> fold_left (fun m k => swap_blocks p (A k) (B k) m) l m (C * 27 + off q) = m (C * 27 + off q)).
  { induction l as [|k l IH]; intros m' Hl; cbn [fold_left]; [reflexivity|]. rewrite IH by (intros; apply Hl; right; auto).
    rewrite swap_blocks_spec by auto. destruct (H k ltac:(apply Hl; left; auto)).
    destruct (Z.eqb_spec C (A k)), (Z.eqb_spec C (B k)); tauto. }
  apply G. intros k. apply in_zrange.
Qed.
(** (1) A and B rows disjoint, or A = B pointwise *)
Lemma loop_pairs : forall m, (forall k k', 0 <= k < n -> 0 <= k' < n -> A k = B k' -> k = k') ->
  forall k q, 0 <= k < n -> In q comps ->
  loop n m (A k * 27 + off q) = m (B k * 27 + off (p q)) /\ loop n m (B k * 27 + off q) = m (A k * 27 + off (p q)).
Proof.
  intros m D k q Hk Hq.
  assert (G : forall l m, NoDup l -> (forall k, In k l -> 0 <= k < n) -> 
     (forall q, In q comps -> In k l -> fold_left (fun m k => swap_blocks p (A k) (B k) m) l m (A k * 27 + off q) = m (B k * 27 + off (p q)) /\
                 fold_left (fun m k => swap_blocks p (A k) (B k) m) l m (B k * 27 + off q) = m (A k * 27 + off (p q))) /\
     (forall q, In q comps -> ~ In k l -> fold_left (fun m k => swap_blocks p (A k) (B k) m) l m (A k * 27 + off q) = m (A k * 27 + off q) /\
                 fold_left (fun m k => swap_blocks p (A k) (B k) m) l m (B k * 27 + off q) = m (B k * 27 + off q))).
  { induction l as [|j l IH]; intros m' N Hl; cbn [fold_left]; [split; [intros ? ? []|auto]|]. inversion_clear N as [|? ? N1 N2].
    destruct (IH (swap_blocks p (A j) (B j) m') N2 ltac:(intros; apply Hl; right; auto)) as [I1 I2].
    assert (Hj : 0 <= j < n) by (apply Hl; left; auto).
    assert (SW : forall q, In q comps -> j <> k -> swap_blocks p (A j) (B j) m' (A k * 27 + off q) = m' (A k * 27 + off q) /\
                                                   swap_blocks p (A j) (B j) m' (B k * 27 + off q) = m' (B k * 27 + off q)).
    { intros q' Hq' Njk. rewrite !swap_blocks_spec by auto. split.
      - destruct (Z.eqb_spec (A k) (A j)) as [E|_]; [apply A_inj in E; auto; congruence|].
        destruct (Z.eqb_spec (A k) (B j)) as [E|_]; [apply D in E; auto; congruence|reflexivity].
      - destruct (Z.eqb_spec (B k) (A j)) as [E|_]; [symmetry in E; apply D in E; auto; congruence|].
        destruct (Z.eqb_spec (B k) (B j)) as [E|_]; [apply B_inj in E; auto; congruence|reflexivity]. }
    split.
    - intros q' Hq' Hin. destruct (Z.eq_dec j k) as [->|Njk].
      + destruct (I2 q' Hq' N1) as [-> ->]. rewrite !swap_blocks_spec by auto. rewrite !Z.eqb_refl. split; [reflexivity|].
        destruct (Z.eqb_spec (B k) (A k)) as [E|_]; [rewrite E|]; reflexivity.
      + destruct Hin as [->|Hin]; [contradiction|]. destruct (I1 q' Hq' Hin) as [-> ->].
        destruct (SW (p q') (P_in _ Hq') Njk) as [-> ->]. auto.
    - intros q' Hq' Hin. cbn in Hin. destruct (I2 q' Hq' ltac:(tauto)) as [-> ->]. apply SW; auto. }
  destruct (G (zrange n) m (NoDup_zrange n) (fun k => proj1 (in_zrange n k))) as [G1 _]. apply G1; auto. now apply in_zrange.
Qed.
(** (2) B k = A (s k) with s a fixed-point-free involution: every swap is done twice *)
Lemma loop_double : forall m (s : Z -> Z), 0 <= n -> (forall k, 0 <= k < n -> 0 <= s k < n /\ s (s k) = k /\ s k <> k /\ B k = A (s k)) ->
  forall k q, 0 <= k < n -> In q comps -> loop n m (A k * 27 + off q) = m (A k * 27 + off q).
Proof.
  intros m s Hn Hs.
  assert (G : forall N, 0 <= N -> N <= n -> forall k q, 0 <= k < n -> In q comps ->
     loop N m (A k * 27 + off q) = if xorb (k <? N) (s k <? N) then m (A (s k) * 27 + off (p q)) else m (A k * 27 + off q)).
  { intros N HN. pattern N, (zrange N). apply zrange_ind; [|intros N0 HN0 IH|exact HN].
    - intros _ k q Hk Hq. cbn. destruct (Hs k Hk) as [S1 _]. destruct (Z.ltb_spec k 0); [lia|]. destruct (Z.ltb_spec (s k) 0); [lia|]. reflexivity.
    - intros HN1 k q Hk Hq. rewrite fold_left_app_one. specialize (IH ltac:(lia)).
      destruct (Hs k Hk) as [S1 [S2 [S3 S4]]]. assert (H0 : 0 <= N0 < n) by lia. destruct (Hs N0 H0) as [T1 [T2 [T3 T4]]].
      rewrite swap_blocks_spec by auto. rewrite T4.
      destruct (Z.eqb_spec (A k) (A N0)) as [E|E].
      + apply A_inj in E; auto. subst k. rewrite IH by auto. rewrite T2.
        destruct (Z.ltb_spec (s N0) N0), (Z.ltb_spec N0 N0), (Z.ltb_spec N0 (N0 + 1)), (Z.ltb_spec (s N0) (N0 + 1)); try lia; cbn; rewrite ?P_inv; reflexivity.
      + destruct (Z.eqb_spec (A k) (A (s N0))) as [E'|E'].
        * apply A_inj in E'; auto. subst k. rewrite IH by auto. rewrite T2.
          destruct (Z.ltb_spec (s N0) N0), (Z.ltb_spec N0 N0), (Z.ltb_spec N0 (N0 + 1)), (Z.ltb_spec (s N0) (N0 + 1)); try lia; cbn; rewrite ?P_inv; reflexivity.
        * rewrite IH by auto. assert (k <> N0) by congruence. assert (s k <> N0) by (intros K; apply E'; rewrite <- K, S2; reflexivity).
          destruct (Z.ltb_spec k N0), (Z.ltb_spec (s k) N0), (Z.ltb_spec k (N0 + 1)), (Z.ltb_spec (s k) (N0 + 1)); try lia; reflexivity. }
  intros k q Hk Hq. rewrite (G n Hn ltac:(lia) k q Hk Hq). destruct (Hs k Hk) as [S1 _].
  destruct (Z.ltb_spec k n), (Z.ltb_spec (s k) n); try lia. reflexivity.
Qed.
End SwapLoop.

Section Trans.
Variable t : Tables.
Variable n np ns : Z.
Hypothesis LT : lattice_tables (tb_p2s t) (tb_s2pp t) (tb_nsym t) (tb_perm t) n np ns.
Notation p2s := (tb_p2s t).
Notation s2pp := (tb_s2pp t).
Notation perm := (tb_perm t).
Notation T := (T t).
Notation rng := (rng n).
Notation badr := (badr t n).
Notation cadr := (cadr t n).
Notation G := (unfold_compact (tb_s2pp t) (tb_nsym t) (tb_perm t) n).

Definition padr (a b : Z) : Z := s2pp a * n + T a b.
Lemma padr_inv : forall u a b, 0 <= u < ns -> rng a -> rng b -> padr (perm u a) (perm u b) = padr a b.
Proof. intros. unfold padr. rewrite (T_equi t n np ns LT) by auto. rewrite (lt_orbit _ _ _ _ _ _ _ LT) by auto. reflexivity. Qed.
Lemma padr_eq : forall a b a' b', rng a -> rng b -> rng a' -> rng b' -> padr a b = padr a' b' ->
  exists u, 0 <= u < ns /\ a' = perm u a /\ b' = perm u b.
Proof.
  intros a b a' b' Ha Hb Ha' Hb' E. destruct (badr_eq t n np ns LT a b b a' b' b') as [u [Hu [E1 [E2 _]]]]; auto.
  - unfold Fc3Compact.badr. unfold padr in E. pose proof (T_range t n np ns LT a b Ha Hb). pose proof (T_range t n np ns LT a' b' Ha' Hb').
    apply flat_inj in E; auto. destruct E as [-> ->]. reflexivity.
  - exists u. auto.
Qed.
Lemma perm_rng : forall u s, 0 <= u < ns -> rng s -> rng (perm u s).
Proof. intros. apply (lt_perm _ _ _ _ _ _ _ LT); auto. Qed.
Lemma perm_surj : forall u s, 0 <= u < ns -> rng s -> exists s', rng s' /\ s = perm u s'.
Proof.
  intros u s Hu Hs. destruct (lt_inv _ _ _ _ _ _ _ LT u Hu) as [w [Hw Iw]]. exists (perm w s). split; [apply perm_rng; auto|].
  destruct (lt_inv _ _ _ _ _ _ _ LT w Hw) as [v [Hv Iv]].
  apply (perm_inj t n np ns LT w); auto using perm_rng. symmetry. apply Iw. apply perm_rng; auto.
Qed.

Variable ty : Z.
Hypothesis Hty : ty = 0 \/ ty = 1.
Definition bl (a b c : Z) : Z := if ty =? 0 then badr a b c else badr a c b.
Definition pp : Z * Z * Z -> Z * Z * Z := if ty =? 0 then p01 else p02.
Definition offq (q : Z * Z * Z) : Z * Z * Z := if ty =? 0 then q else let '(i, j, k) := q in (i, k, j).
Definition hadr (x y z : slot) : Z := bl (fst x) (fst y) (fst z) * 27 + off (offq (snd x, snd y, snd z)).
Lemma hadr_cadr : forall x y z, hadr x y z = if ty =? 0 then cadr x y z else cadr x z y.
Proof. intros. unfold hadr, bl, offq, Fc3Compact.cadr. destruct (ty =? 0); reflexivity. Qed.
Lemma pp_in : forall q, In q comps -> In (pp q) comps.
Proof. unfold pp. destruct (ty =? 0); [apply p01_in|apply p02_in]. Qed.
Lemma pp_inv : forall q, pp (pp q) = q.
Proof. unfold pp. destruct (ty =? 0); [apply p01_inv|apply p02_inv]. Qed.
Lemma offq_in : forall i j k, 0 <= i < 3 -> 0 <= j < 3 -> 0 <= k < 3 -> In (offq (i, j, k)) comps.
Proof. intros. unfold offq. destruct (ty =? 0); apply in_comps; auto. Qed.
Lemma pp_offq : forall i j k, pp (offq (i, j, k)) = offq (j, i, k).
Proof. intros. unfold pp, offq. destruct (ty =? 0); reflexivity. Qed.
Lemma bl_inv : forall u a b c, 0 <= u < ns -> rng a -> rng b -> rng c -> bl (perm u a) (perm u b) (perm u c) = bl a b c.
Proof. intros. unfold bl. destruct (ty =? 0); apply (badr_inv t n np ns LT); auto. Qed.
Lemma bl_eq : forall a b c a' b' c', rng a -> rng b -> rng c -> rng a' -> rng b' -> rng c' ->
  bl a b c = bl a' b' c' -> exists u, 0 <= u < ns /\ a' = perm u a /\ b' = perm u b /\ c' = perm u c.
Proof.
  intros a b c a' b' c' Ha Hb Hc Ha' Hb' Hc' E. unfold bl in E. destruct (ty =? 0).
  - apply (badr_eq t n np ns LT) in E; auto.
  - apply (badr_eq t n np ns LT) in E; auto. destruct E as [u E]. exists u. tauto.
Qed.
Lemma bl_padr : forall a b c a' b' c', rng a -> rng b -> rng c -> rng a' -> rng b' -> rng c' ->
  bl a b c = bl a' b' c' -> padr a b = padr a' b'.
Proof.
  intros a b c a' b' c' Ha Hb Hc Ha' Hb' Hc' E. apply bl_eq in E; auto. destruct E as [u [Hu [-> [-> _]]]]. symmetry. apply padr_inv; auto.
Qed.
Lemma bl_third : forall a b c c', rng a -> rng b -> rng c -> rng c' -> bl a b c = bl a b c' -> c = c'.
Proof.
  intros a b c c' Ha Hb Hc Hc' E. apply bl_eq in E; auto. destruct E as [u [Hu [E1 [_ ->]]]].
  symmetry. apply (lt_free _ _ _ _ _ _ _ LT) with (s := a); auto.
Qed.

Definition selfb (a b : Z) : bool := (padr a b =? padr b a) && negb (a =? b).
Lemma selfb_inv : forall u a b, 0 <= u < ns -> rng a -> rng b -> selfb (perm u a) (perm u b) = selfb a b.
Proof.
  intros u a b Hu Ha Hb. unfold selfb. rewrite !padr_inv by auto. f_equal. f_equal. apply eq_iff_eq_true. rewrite !Z.eqb_eq.
  split; [apply (perm_inj t n np ns LT); auto|intros ->; reflexivity].
Qed.
Lemma selfb_sym : forall a b, selfb a b = selfb b a.
Proof. intros. unfold selfb. rewrite (Z.eqb_sym (padr a b)), (Z.eqb_sym a b). reflexivity. Qed.

Lemma transpose_k : forall p j k m, 0 <= p < np -> rng j -> rng k ->
  transpose01_k t n ty p j k m = swap_blocks pp (bl (p2s p) j k) (bl j (p2s p) k) m.
Proof.
  intros p j k m Hp Hj Hk. unfold transpose01_k, pp, bl, Fc3Compact.badr.
  rewrite !(T_prim t n np ns LT), !(lt_prim _ _ _ _ _ _ _ LT) by auto. unfold Fc3Compact.T. destruct (ty =? 0); reflexivity.
Qed.

Section Run.
Variable m0 : Z -> Q.
Definition target (x y z : slot) : Q := if selfb (fst x) (fst y) then m0 (hadr x y z) else m0 (hadr y x z).
Record TInv (s : (Z -> bool) * (Z -> Q)) : Prop := {
  ti_sym : forall a b, rng a -> rng b -> fst s (padr a b) = fst s (padr b a);
  ti_v : forall x y z, slot_ok n x -> slot_ok n y -> slot_ok n z ->
    snd s (hadr x y z) = if fst s (padr (fst x) (fst y)) then target x y z else m0 (hadr x y z) }.

Lemma fold_ext : forall X (f g : (Z -> Q) -> X -> (Z -> Q)) l m, (forall m x, In x l -> f m x = g m x) -> fold_left f l m = fold_left g l m.
Proof.
  intros X f g. induction l as [|x l IH]; intros m H; cbn; [reflexivity|]. rewrite H by (left; auto). apply IH. intros; apply H; right; auto.
Qed.
(** the loop over k for one pair (i, j) *)
Lemma inner_loop : forall p j m x y z, 0 <= p < np -> rng j -> slot_ok n x -> slot_ok n y -> slot_ok n z ->
  let i := p2s p in
  let m' := fold_left (fun m k => transpose01_k t n ty p j k m) (zrange n) m in
  m' (hadr x y z) = if ((padr (fst x) (fst y) =? padr i j) || (padr (fst x) (fst y) =? padr j i)) && negb (selfb i j)
                    then m (hadr y x z) else m (hadr x y z).
Proof.
  intros p j m [a x1] [b y1] [c z1] Hp Hj [Ha Hx1] [Hb Hy1] [Hc Hz1] i m'. cbn [fst snd] in *.
  assert (Hi : rng i) by (apply (lt_p2s _ _ _ _ _ _ _ LT); auto).
  unfold m'. rewrite (fold_ext _ _ (fun m k => swap_blocks pp (bl i j k) (bl j i k) m))
    by (intros m1 k Hk; apply in_zrange in Hk; apply transpose_k; auto).
  assert (AI : forall k k', 0 <= k < n -> 0 <= k' < n -> bl i j k = bl i j k' -> k = k') by (intros; apply (bl_third i j); assumption).
  assert (BI : forall k k', 0 <= k < n -> 0 <= k' < n -> bl j i k = bl j i k' -> k = k') by (intros; apply (bl_third j i); assumption).
  assert (Q1 : In (offq (x1, y1, z1)) comps) by (apply offq_in; auto).
  unfold hadr. cbn [fst snd].
  destruct ((padr a b =? padr i j) || (padr a b =? padr j i)) eqn:E; cbn [andb].
  2:{ apply orb_false_iff in E. destruct E as [E1 E2]. apply Z.eqb_neq in E1, E2.
      apply (loop_other pp pp_in pp_inv (bl i j) (bl j i) n); auto. intros k Hk. split; intros K; apply bl_padr in K; auto. }
  destruct (selfb i j) eqn:Sf; cbn [negb].
  - (* self-paired *)
    unfold selfb in Sf. apply andb_true_iff in Sf. destruct Sf as [S1 S2]. apply Z.eqb_eq in S1. apply negb_true_iff, Z.eqb_neq in S2.
    assert (E' : padr a b = padr i j) by (apply orb_true_iff in E; destruct E as [E|E]; apply Z.eqb_eq in E; congruence).
    apply padr_eq in S1; auto. destruct S1 as [u [Hu [U1 U2]]].
    destruct (lt_comp _ _ _ _ _ _ _ LT u u Hu Hu) as [w [Hw Iw]].
    assert (UU : forall s, rng s -> perm u (perm u s) = s).
    { intros s Hs. rewrite <- Iw by auto. apply (lt_free _ _ _ _ _ _ _ LT) with (s := i); auto. rewrite Iw by auto. rewrite <- U1. symmetry. exact U2. }
    symmetry in E'. apply padr_eq in E'; auto. destruct E' as [v [Hv [-> ->]]].
    destruct (perm_surj v c Hv Hc) as [c' [Hc' ->]]. rewrite bl_inv by auto.
    apply (loop_double pp pp_in pp_inv (bl i j) (bl j i) n AI) with (s := perm u); auto; [unfold Fc3Compact.rng in Hi; lia|].
    intros k Hk. split; [apply perm_rng; auto|]. split; [apply UU; auto|]. split.
    + intros K. apply S2. rewrite U1. symmetry. apply (lt_free _ _ _ _ _ _ _ LT) with (s := k); auto.
    + rewrite <- (bl_inv u i j (perm u k)) by auto using perm_rng. rewrite UU by auto. rewrite <- U1, <- U2. reflexivity.
  - assert (D : forall k k', 0 <= k < n -> 0 <= k' < n -> bl i j k = bl j i k' -> k = k').
    { intros k k' Hk Hk' K. pose proof (bl_padr _ _ _ _ _ _ Hi Hj Hk Hj Hi Hk' K) as P. unfold selfb in Sf. apply Z.eqb_eq in P. rewrite P in Sf. cbn in Sf.
      apply negb_false_iff, Z.eqb_eq in Sf. rewrite <- Sf in K. apply (bl_third i i); assumption. }
    apply orb_true_iff in E. destruct E as [E|E]; apply Z.eqb_eq in E; symmetry in E; apply padr_eq in E; auto; destruct E as [v [Hv [-> ->]]];
      destruct (perm_surj v c Hv Hc) as [c' [Hc' ->]]; rewrite !bl_inv by auto;
      destruct (loop_pairs pp pp_in pp_inv (bl i j) (bl j i) n AI BI m D c' (offq (x1, y1, z1)) Hc' Q1) as [L1 L2].
    + rewrite L1, pp_offq. reflexivity.
    + rewrite L2, pp_offq. reflexivity.
Qed.

Lemma trans_step_inv : forall s p j, TInv s -> 0 <= p < np -> rng j ->
  TInv (transpose01_step t n ty s (p, j)) /\ (forall b, fst s b = true -> fst (transpose01_step t n ty s (p, j)) b = true) /\
  fst (transpose01_step t n ty s (p, j)) (padr (p2s p) j) = true.
Proof.
  intros [d m] p j [Is Iv] Hp Hj. cbn [fst snd] in *. assert (Hi : rng (p2s p)) by (apply (lt_p2s _ _ _ _ _ _ _ LT); auto). set (i := p2s p) in *.
  assert (E1 : p * n + j = padr i j) by (unfold padr, i; rewrite (T_prim t n np ns LT), (lt_prim _ _ _ _ _ _ _ LT) by auto; reflexivity).
  assert (E2 : s2pp j * n + perm (tb_nsym t j) i = padr j i) by reflexivity.
  unfold transpose01_step. fold i. rewrite E1, E2.
  destruct (d (padr i j)) eqn:Dn; [split; [constructor; auto|split; [auto|exact Dn]]|].
  assert (Dn' : d (padr j i) = false) by (rewrite <- Is; auto).
  assert (UP : forall b, upd (upd d (padr i j) true) (padr j i) true b = (d b || ((b =? padr i j) || (b =? padr j i)))%bool).
  { intros b. unfold upd. destruct (b =? padr j i), (b =? padr i j); cbn; rewrite ?orb_true_r, ?orb_false_r; reflexivity. }
  split; [constructor; cbn [fst snd]|split; cbn [fst]].
  - intros a b Ha Hb. rewrite !UP. rewrite (Is a b) by auto. f_equal.
    assert (X : forall a b a' b', rng a -> rng b -> rng a' -> rng b' -> padr a b = padr a' b' -> padr b a = padr b' a').
    { intros a1 b1 a2 b2 R1 R2 R3 R4 K. apply padr_eq in K; auto. destruct K as [u [Hu [-> ->]]]. symmetry. apply padr_inv; auto. }
    apply eq_iff_eq_true. rewrite !orb_true_iff, !Z.eqb_eq. split; intros [K|K]; apply X in K; auto.
  - intros x y z Hx Hy Hz. rewrite inner_loop by auto. fold i. rewrite UP.
    destruct ((padr (fst x) (fst y) =? padr i j) || (padr (fst x) (fst y) =? padr j i)) eqn:E; cbn [andb].
    + rewrite orb_true_r.
      assert (Hx0 : rng (fst x)) by apply Hx. assert (Hy0 : rng (fst y)) by apply Hy.
      assert (N : d (padr (fst x) (fst y)) = false) by (apply orb_true_iff in E; destruct E as [E|E]; apply Z.eqb_eq in E; rewrite E; auto).
      assert (Sf : selfb (fst x) (fst y) = selfb i j).
      { apply orb_true_iff in E. destruct E as [E|E]; apply Z.eqb_eq in E; symmetry in E; apply padr_eq in E; auto; destruct E as [u [Hu [-> ->]]];
        rewrite selfb_inv by auto; [reflexivity|apply selfb_sym]. }
      unfold target. rewrite Sf. rewrite (Iv y x z), (Iv x y z) by auto. rewrite (Is (fst y) (fst x)), N by auto.
      destruct (selfb i j); reflexivity.
    + rewrite orb_false_r. apply Iv; auto.
  - intros b Hb. rewrite UP, Hb. reflexivity.
  - rewrite UP. rewrite Z.eqb_refl. cbn. apply orb_true_r.
Qed.
End Run.
Lemma in_pairs : forall a b p j, In (p, j) (pairs a b) <-> 0 <= p < a /\ 0 <= j < b.
Proof.
  intros. unfold pairs. rewrite in_flat_map. split.
  - intros [x [Hx H]]. apply in_map_iff in H. destruct H as [y [E Hy]]. apply in_zrange in Hx, Hy. injection E as -> ->. auto.
  - intros [Hp Hj]. exists p. split; [now apply in_zrange|]. apply in_map_iff. exists j. split; [reflexivity|now apply in_zrange].
Qed.
Theorem transpose01_target : forall m x y z, slot_ok n x -> slot_ok n y -> slot_ok n z ->
  transpose01 t n np ty m (hadr x y z) = target m x y z.
Proof.
  intros m. assert (FI : forall l s, TInv m s -> (forall q, In q l -> In q (pairs np n)) ->
    TInv m (fold_left (transpose01_step t n ty) l s) /\ (forall b, fst s b = true -> fst (fold_left (transpose01_step t n ty) l s) b = true) /\
    (forall p j, In (p, j) l -> fst (fold_left (transpose01_step t n ty) l s) (padr (p2s p) j) = true)).
  { induction l as [|[p j] l IH]; intros s I H; cbn [fold_left]; [split; [auto|split; [auto|intros ? ? []]]|].
    pose proof (H (p, j) ltac:(left; auto)) as Hq. apply in_pairs in Hq. destruct Hq as [Hp Hj].
    destruct (trans_step_inv m s p j I Hp Hj) as [I' [M' D']].
    destruct (IH _ I' ltac:(intros; apply H; right; auto)) as [I'' [M'' D'']].
    split; [auto|]. split; [auto|]. intros p' j' [E|E]; [|auto]. injection E as <- <-. auto. }
  destruct (FI (pairs np n) (fun _ => false, m)) as [I [_ D]].
  { constructor; cbn; auto. } { auto. }
  intros x y z Hx Hy Hz. unfold transpose01. rewrite (ti_v _ _ I x y z Hx Hy Hz).
  replace (fst _ (padr (fst x) (fst y))) with true; [reflexivity|]. symmetry.
  destruct Hx as [Hx _], Hy as [Hy _].
  assert (Hp : 0 <= s2pp (fst x) < np) by (apply (lt_s2pp _ _ _ _ _ _ _ LT); auto).
  rewrite <- (D (s2pp (fst x)) (T (fst x) (fst y))).
  - f_equal. rewrite <- (T_home t n np ns LT) by auto. symmetry. apply padr_inv; auto. apply (nsym_range t n np ns LT); auto.
  - apply in_pairs. split; [auto|]. apply (T_range t n np ns LT); auto.
Qed.
End Trans.
