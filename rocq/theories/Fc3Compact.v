From Coq Require Import ZArith QArith List Bool Lia Permutation Lqa.
From Verif Require Import Base BaseProofs Par Par2 Fc3Model Fc3Spec Fc3Proofs.
Import ListNotations.
Open Scope Z_scope.

Section Compact.
Variable t : Tables.
Variable n np ns : Z.
Hypothesis LT : lattice_tables (tb_p2s t) (tb_s2pp t) (tb_nsym t) (tb_perm t) n np ns.
Notation p2s := (tb_p2s t).
Notation s2pp := (tb_s2pp t).
Notation perm := (tb_perm t).
Definition T (a b : Z) : Z := tb_perm t (tb_nsym t a) b.
Definition rng (a : Z) : Prop := 0 <= a < n.

Lemma T_range : forall a b, rng a -> rng b -> rng (T a b).
Proof. intros a b Ha Hb. apply (lt_perm _ _ _ _ _ _ _ LT); auto. apply (lt_nsym _ _ _ _ _ _ _ LT); auto. Qed.
Lemma T_home : forall a, rng a -> T a a = p2s (s2pp a).
Proof. intros. apply (lt_home _ _ _ _ _ _ _ LT); auto. Qed.
Lemma T_prim : forall p b, 0 <= p < np -> rng b -> T (p2s p) b = b.
Proof.
  intros p b Hp Hb. pose proof (lt_p2s _ _ _ _ _ _ _ LT p Hp) as R.
  apply (lt_free _ _ _ _ _ _ _ LT) with (s := p2s p); auto. { apply (lt_nsym _ _ _ _ _ _ _ LT); auto. }
  rewrite (lt_home _ _ _ _ _ _ _ LT) by auto. rewrite (lt_prim _ _ _ _ _ _ _ LT) by auto. reflexivity.
Qed.
(** two translations agreeing at one atom agree everywhere *)
Lemma perm_agree : forall u v s, 0 <= u < ns -> 0 <= v < ns -> rng s -> perm u s = perm v s -> forall s', rng s' -> perm u s' = perm v s'.
Proof.
  intros u v s Hu Hv Hs E s' Hs'. destruct (lt_inv _ _ _ _ _ _ _ LT v Hv) as [w [Hw Iw]].
  destruct (lt_comp _ _ _ _ _ _ _ LT u w Hu Hw) as [x [Hx Ix]].
  assert (F : perm x s' = s').
  { apply (lt_free _ _ _ _ _ _ _ LT) with (s := s); auto. rewrite Ix by auto. rewrite E. apply Iw; auto. }
  rewrite Ix in F by auto.
  destruct (lt_inv _ _ _ _ _ _ _ LT w Hw) as [z [Hz Iz]].
  assert (R1 : rng (perm u s')) by (apply (lt_perm _ _ _ _ _ _ _ LT); auto).
  assert (R2 : rng (perm v s')) by (apply (lt_perm _ _ _ _ _ _ _ LT); auto).
  rewrite <- (Iz (perm u s')) by auto. rewrite F. rewrite <- (Iz (perm v s')) by auto. rewrite Iw by auto. reflexivity.
Qed.
Lemma perm_inj : forall u s s', 0 <= u < ns -> rng s -> rng s' -> perm u s = perm u s' -> s = s'.
Proof.
  intros u s s' Hu Hs Hs' E. destruct (lt_inv _ _ _ _ _ _ _ LT u Hu) as [w [Hw Iw]].
  rewrite <- (Iw s), <- (Iw s'), E by auto. reflexivity.
Qed.
Lemma nsym_range : forall a, rng a -> 0 <= tb_nsym t a < ns.
Proof. intros. apply (lt_nsym _ _ _ _ _ _ _ LT); auto. Qed.
Lemma T_equi : forall u a b, 0 <= u < ns -> rng a -> rng b -> T (perm u a) (perm u b) = T a b.
Proof.
  intros u a b Hu Ha Hb. pose proof (lt_perm _ _ _ _ _ _ _ LT u a Hu Ha) as Ra.
  destruct (lt_comp _ _ _ _ _ _ _ LT u (tb_nsym t (perm u a)) Hu (nsym_range _ Ra)) as [x [Hx Ix]].
  unfold T. rewrite <- Ix by auto. apply perm_agree with (s := a); auto using nsym_range.
  rewrite Ix by auto. rewrite !(lt_home _ _ _ _ _ _ _ LT) by auto. f_equal. apply (lt_orbit _ _ _ _ _ _ _ LT); auto.
Qed.

(** ** block addresses *)
Definition badr (a b c : Z) : Z := s2pp a * n * n + T a b * n + T a c.
Lemma badr_inv : forall u a b c, 0 <= u < ns -> rng a -> rng b -> rng c -> badr (perm u a) (perm u b) (perm u c) = badr a b c.
Proof. intros. unfold badr. rewrite !T_equi by auto. rewrite (lt_orbit _ _ _ _ _ _ _ LT) by auto. reflexivity. Qed.
Definition shifted (a b c a' b' c' : Z) : Prop := exists u, 0 <= u < ns /\ a' = perm u a /\ b' = perm u b /\ c' = perm u c.
Lemma badr_eq : forall a b c a' b' c', rng a -> rng b -> rng c -> rng a' -> rng b' -> rng c' ->
  badr a b c = badr a' b' c' -> shifted a b c a' b' c'.
Proof.
  intros a b c a' b' c' Ha Hb Hc Ha' Hb' Hc' E. unfold badr in E.
  replace (s2pp a * n * n + T a b * n + T a c) with ((s2pp a * n + T a b) * n + T a c) in E by ring.
  replace (s2pp a' * n * n + T a' b' * n + T a' c') with ((s2pp a' * n + T a' b') * n + T a' c') in E by ring.
  pose proof (T_range a b Ha Hb). pose proof (T_range a c Ha Hc). pose proof (T_range a' b' Ha' Hb'). pose proof (T_range a' c' Ha' Hc').
  apply flat_inj in E; auto. destruct E as [E E3]. apply flat_inj in E; auto. destruct E as [E1 E2].
  assert (E0 : T a a = T a' a') by (rewrite !T_home, E1 by auto; reflexivity).
  destruct (lt_inv _ _ _ _ _ _ _ LT (tb_nsym t a') (nsym_range _ Ha')) as [w [Hw Iw]].
  destruct (lt_comp _ _ _ _ _ _ _ LT (tb_nsym t a) w (nsym_range _ Ha) Hw) as [x [Hx Ix]].
  exists x. split; [auto|]. rewrite !Ix by auto. unfold T in *. rewrite E0, E2, E3, !Iw by auto. auto.
Qed.
Lemma compact_adrs_badr : forall p j k, 0 <= p < np -> rng j -> rng k -> let i := p2s p in
  compact_adrs t n p j k = [badr i j k; badr i k j; badr j i k; badr j k i; badr k i j; badr k j i].
Proof.
  intros p j k Hp Hj Hk i. pose proof (lt_p2s _ _ _ _ _ _ _ LT p Hp). unfold compact_adrs, badr. fold i.
  unfold i. rewrite !T_prim, !(lt_prim _ _ _ _ _ _ _ LT) by auto. unfold T. reflexivity.
Qed.

(** the full array *)
Notation G := (unfold_compact (tb_s2pp t) (tb_nsym t) (tb_perm t) n).
Definition cadr (x y z : slot) : Z := badr (fst x) (fst y) (fst z) * 27 + off (snd x, snd y, snd z).
Lemma G_cadr : forall m x y z, G m x y z = m (cadr x y z).
Proof. intros. unfold unfold_compact, cadr, badr, pos, off, T. f_equal. ring. Qed.
Lemma cadr_eq : forall x y z x' y' z', slot_ok n x -> slot_ok n y -> slot_ok n z -> slot_ok n x' -> slot_ok n y' -> slot_ok n z' ->
  cadr x y z = cadr x' y' z' ->
  badr (fst x) (fst y) (fst z) = badr (fst x') (fst y') (fst z') /\ snd x = snd x' /\ snd y = snd y' /\ snd z = snd z'.
Proof.
  intros x y z x' y' z' [A1 A2] [B1 B2] [C1 C2] [D1 D2] [E1 E2] [F1 F2] E. unfold cadr, off in E.
  assert (badr (fst x) (fst y) (fst z) = badr (fst x') (fst y') (fst z')) by lia. split; [auto|]. lia.
Qed.
Lemma cadr_badr : forall x y z B l m' n', slot_ok n x -> slot_ok n y -> slot_ok n z -> 0 <= l < 3 -> 0 <= m' < 3 -> 0 <= n' < 3 ->
  cadr x y z = B * 27 + off (l, m', n') -> badr (fst x) (fst y) (fst z) = B /\ snd x = l /\ snd y = m' /\ snd z = n'.
Proof. intros x y z B l m' n' [A1 A2] [B1 B2] [C1 C2] Hl Hm Hn E. unfold cadr, off in E. lia. Qed.

(** ** symmetrization *)
Section Sym.
Variable m0 : Z -> Q.
Definition mean (x y z : slot) : Q := sym_mean (G m0) x y z.
Lemma mean_shift : forall a b c a' b' c' i j k, rng a -> rng b -> rng c -> shifted a b c a' b' c' ->
  Qeq (mean (a, i) (b, j) (c, k)) (mean (a', i) (b', j) (c', k)).
Proof.
  intros a b c a' b' c' i j k Ha Hb Hc [u [Hu [-> [-> ->]]]]. unfold mean, sym_mean. rewrite !G_cadr. unfold cadr. cbn [fst snd].
  rewrite !badr_inv by auto. reflexivity.
Qed.
Lemma mean_perms : forall x y z,
  Qeq (mean x z y) (mean x y z) /\ Qeq (mean y x z) (mean x y z) /\ Qeq (mean y z x) (mean x y z) /\
  Qeq (mean z x y) (mean x y z) /\ Qeq (mean z y x) (mean x y z).
Proof. intros. unfold mean, sym_mean. repeat split; field. Qed.

Record Inv (s : (Z -> bool) * (Z -> Q)) : Prop := {
  inv_12 : forall a b c, rng a -> rng b -> rng c -> fst s (badr a b c) = fst s (badr b a c);
  inv_23 : forall a b c, rng a -> rng b -> rng c -> fst s (badr a b c) = fst s (badr a c b);
  inv_v : forall x y z, slot_ok n x -> slot_ok n y -> slot_ok n z ->
    if fst s (badr (fst x) (fst y) (fst z)) then Qeq (snd s (cadr x y z)) (mean x y z) else snd s (cadr x y z) = m0 (cadr x y z) }.

Definition six (i j k : Z) := [badr i j k; badr i k j; badr j i k; badr j k i; badr k i j; badr k j i].
Lemma six_closed : forall i j k a b c, rng i -> rng j -> rng k -> rng a -> rng b -> rng c -> In (badr a b c) (six i j k) ->
  In (badr b a c) (six i j k) /\ In (badr a c b) (six i j k).
Proof.
  intros i j k a b c Hi Hj Hk Ha Hb Hc H. unfold six in *. cbn [In] in *.
  repeat (destruct H as [H|H]; [apply badr_eq in H; auto; destruct H as [u [Hu [-> [-> ->]]]]; rewrite !badr_inv by auto; tauto|]).
  contradiction.
Qed.
Lemma fold_done : forall l (d : Z -> bool) a, fold_left (fun d a => upd d a true) l d a = (d a || existsb (Z.eqb a) l)%bool.
Proof.
  induction l as [|b l IH]; intros d a; cbn [fold_left existsb]; [now rewrite orb_false_r|]. rewrite IH. unfold upd.
  destruct (a =? b); cbn; [now rewrite orb_true_r|reflexivity].
Qed.
Lemma store_upd_store : forall ws m a, store_upd m ws a = store Z.eq_dec m ws a.
Proof.
  intros ws. unfold store_upd, store. 
  assert (forall ws (m m' : Z -> Q), (forall a, m a = m' a) -> forall a, fold_left (fun m w => upd m (fst w) (snd w)) ws m a =
     fold_left (fun m av => wr Z.eq_dec m (fst av) (snd av)) ws m' a).
  { induction ws0 as [|w ws0 IH]; intros m m' E a; cbn; [apply E|]. apply IH. intros b. rewrite wr_upd. unfold upd. destruct (b =? fst w); auto. }
  intros m a. apply H. auto.
Qed.
Lemma existsb_eqb : forall a l, existsb (Z.eqb a) l = true <-> In a l.
Proof.
  intros a l. rewrite existsb_exists. split; [intros [x [H E]]; apply Z.eqb_eq in E; subst; auto|].
  intros H. exists a. split; [auto|apply Z.eqb_refl].
Qed.
(** the cells of the six blocks, by component *)
Lemma cells_six : forall i j k l m' n',
  compact_cells (six i j k) (l, m', n') =
  [cadr (i,l) (j,m') (k,n'); cadr (i,l) (k,n') (j,m'); cadr (j,m') (i,l) (k,n'); cadr (j,m') (k,n') (i,l); cadr (k,n') (i,l) (j,m'); cadr (k,n') (j,m') (i,l)].
Proof. intros. reflexivity. Qed.

Lemma step_inv : forall s p j k, Inv s -> 0 <= p < np -> rng j -> rng k -> Inv (compact_step t n s (p, j, k)) /\
  (forall b, fst s b = true -> fst (compact_step t n s (p, j, k)) b = true) /\ fst (compact_step t n s (p, j, k)) (badr (p2s p) j k) = true.
Proof.
  intros [d m] p j k I Hp Hj Hk. assert (Hi : rng (p2s p)) by (apply (lt_p2s _ _ _ _ _ _ _ LT); auto). set (i := p2s p) in *.
  unfold compact_step. rewrite compact_adrs_badr by auto. fold i. change [badr i j k; _; _; _; _; _] with (six i j k).
  destruct (existsb d (six i j k)) eqn:X.
  - split; [exact I|]. split; [auto|]. cbn [fst]. apply existsb_exists in X. destruct X as [b [Hb Db]].
    destruct I as [I12 I23 _]. cbn [fst] in *.
    assert (A : forall a b c, rng a -> rng b -> rng c -> d (badr a b c) = d (badr b a c) /\ d (badr a b c) = d (badr a c b)) by auto.
    unfold six in Hb. cbn [In] in Hb.
    destruct Hb as [<-|[<-|[<-|[<-|[<-|[<-|[]]]]]]].
    + exact Db.
    + rewrite I23; auto.
    + rewrite I12; auto.
    + rewrite I12, I23; auto.
    + rewrite I23, I12; auto.
    + rewrite I12, I23, I12; auto.
  - assert (ND : forall b, In b (six i j k) -> d b = false).
    { intros b Hb. destruct (d b) eqn:E; [|reflexivity]. assert (existsb d (six i j k) = true) by (apply existsb_exists; exists b; auto). congruence. }
    destruct I as [I12 I23 IV]. cbn [fst snd] in *.
    assert (DN : forall b, fold_left (fun d a => upd d a true) (six i j k) d b = (d b || existsb (Z.eqb b) (six i j k))%bool) by (intros; apply fold_done).
    assert (AV : forall l m' n', 0 <= l < 3 -> 0 <= m' < 3 -> 0 <= n' < 3 ->
       Qeq (avg6 m (compact_cells (six i j k) (l, m', n'))) (mean (i, l) (j, m') (k, n'))).
    { intros l m' n' Hl Hm Hn. rewrite cells_six. cbn [avg6].
      assert (V : forall x y z, slot_ok n x -> slot_ok n y -> slot_ok n z -> In (badr (fst x) (fst y) (fst z)) (six i j k) -> m (cadr x y z) = m0 (cadr x y z)).
      { intros x y z Hx Hy Hz Hb. specialize (IV x y z Hx Hy Hz). rewrite (ND _ Hb) in IV. exact IV. }
      assert (slot_ok n (i, l)) by (split; auto). assert (slot_ok n (j, m')) by (split; auto). assert (slot_ok n (k, n')) by (split; auto).
      rewrite !V by (auto; unfold six; cbn; tauto).
      unfold mean, sym_mean. rewrite !G_cadr. reflexivity. }
    split; [|split].
    + constructor; cbn [fst snd].
      * intros a b c Ha Hb Hc. rewrite !DN. rewrite (I12 a b c) by auto. f_equal.
        apply eq_iff_eq_true. rewrite !existsb_eqb. split; intros H; apply six_closed in H; tauto.
      * intros a b c Ha Hb Hc. rewrite !DN. rewrite (I23 a b c) by auto. f_equal.
        apply eq_iff_eq_true. rewrite !existsb_eqb. split; intros H; apply six_closed in H; tauto.
      * intros x y z Hx Hy Hz. rewrite DN. rewrite store_upd_store. rewrite flat_map_map. cbn [fst snd].
        set (ws := flat_map _ comps).
        assert (WS : forall ad v, In (ad, v) ws <-> exists l m' n', (0 <= l < 3 /\ 0 <= m' < 3 /\ 0 <= n' < 3) /\
           In ad (compact_cells (six i j k) (l, m', n')) /\ v = avg6 m (compact_cells (six i j k) (l, m', n'))).
        { intros ad v. unfold ws. rewrite in_flat_map. split.
          - intros [[[l m'] n'] [Hq H]]. apply in_map_iff in H. destruct H as [a' [E H]]. injection E as -> <-. apply in_comps in Hq.
            exists l, m', n'. auto.
          - intros [l [m' [n' [Hq [H ->]]]]]. exists (l, m', n'). split; [now apply in_comps|]. apply in_map_iff. exists ad. auto. }
        assert (CELL : forall l m' n', 0 <= l < 3 -> 0 <= m' < 3 -> 0 <= n' < 3 -> In (cadr x y z) (compact_cells (six i j k) (l, m', n')) ->
           In (badr (fst x) (fst y) (fst z)) (six i j k) /\ Qeq (mean (i, l) (j, m') (k, n')) (mean x y z)).
        { intros l m' n' Hl Hm Hn H. rewrite cells_six in H. 
          assert (O1 : slot_ok n (i, l)) by (split; auto). assert (O2 : slot_ok n (j, m')) by (split; auto). assert (O3 : slot_ok n (k, n')) by (split; auto).
          destruct (mean_perms (i, l) (j, m') (k, n')) as [M1 [M2 [M3 [M4 M5]]]].
          destruct x as [x0 x1], y as [y0 y1], z as [z0 z1]. destruct Hx as [X0 X1], Hy as [Y0 Y1], Hz as [Z0 Z1]. cbn [fst snd] in *.
          assert (Ox : slot_ok n (x0, x1)) by (split; auto). assert (Oy : slot_ok n (y0, y1)) by (split; auto). assert (Oz : slot_ok n (z0, z1)) by (split; auto).
          unfold six. cbn [In] in H |- *.
          destruct H as [H|[H|[H|[H|[H|[H|[]]]]]]]; apply cadr_eq in H; auto; cbn [fst snd] in H; destruct H as [HB [E1 [E2 E3]]]; subst x1 y1 z1;
            (split; [tauto|]);
            (apply badr_eq in HB; auto); (eapply Qeq_trans; [|apply mean_shift; [| | |exact HB]; auto]); [reflexivity| | | | |]; symmetry; assumption. }
        destruct (existsb (Z.eqb (badr (fst x) (fst y) (fst z))) (six i j k)) eqn:B.
        -- rewrite orb_true_r. apply existsb_eqb in B. apply store_all.
           ++ assert (exists l m' n', (0 <= l < 3 /\ 0 <= m' < 3 /\ 0 <= n' < 3) /\ In (cadr x y z) (compact_cells (six i j k) (l, m', n'))) as [l [m' [n' [Hq H]]]].
              { destruct Hx as [X0 X1], Hy as [Y0 Y1], Hz as [Z0 Z1]. unfold six in B. cbn [In] in B.
                destruct B as [B|[B|[B|[B|[B|[B|[]]]]]]].
                - exists (snd x), (snd y), (snd z). split; [auto|]. rewrite cells_six. unfold cadr; cbn [fst snd]; rewrite <- B; cbn; auto 10.
                - exists (snd x), (snd z), (snd y). split; [auto|]. rewrite cells_six. unfold cadr; cbn [fst snd]; rewrite <- B; cbn; auto 10.
                - exists (snd y), (snd x), (snd z). split; [auto|]. rewrite cells_six. unfold cadr; cbn [fst snd]; rewrite <- B; cbn; auto 10.
                - exists (snd z), (snd x), (snd y). split; [auto|]. rewrite cells_six. unfold cadr; cbn [fst snd]; rewrite <- B; cbn; auto 10.
                - exists (snd y), (snd z), (snd x). split; [auto|]. rewrite cells_six. unfold cadr; cbn [fst snd]; rewrite <- B; cbn; auto 10.
                - exists (snd z), (snd y), (snd x). split; [auto|]. rewrite cells_six. unfold cadr; cbn [fst snd]; rewrite <- B; cbn; auto 10. }
              apply in_map_iff. exists (cadr x y z, avg6 m (compact_cells (six i j k) (l, m', n'))). split; [reflexivity|]. apply WS. exists l, m', n'. auto.
           ++ intros v Hv. apply WS in Hv. destruct Hv as [l [m' [n' [[H1 [H2 H3]] [H ->]]]]].
              rewrite AV by auto. apply (CELL l m' n'); auto.
        -- rewrite orb_false_r. rewrite store_other; [apply IV; auto|].
           intros H. apply in_map_iff in H. destruct H as [[ad v] [E H]]. cbn in E. subst ad. apply WS in H.
           destruct H as [l [m' [n' [[H1 [H2 H3]] [H _]]]]]. apply CELL in H; auto. destruct H as [H _]. apply existsb_eqb in H. congruence.
    + intros b Hb. cbn [fst]. rewrite DN, Hb. reflexivity.
    + cbn [fst]. rewrite DN. replace (existsb _ _) with true; [apply orb_true_r|]. symmetry. apply existsb_eqb. unfold six. cbn; auto.
Qed.
End Sym.

Lemma in_space3 : forall p j k, In (p, j, k) (compact_space n np) <-> 0 <= p < np /\ rng j /\ rng k.
Proof.
  intros. unfold compact_space. rewrite in_flat_map. split.
  - intros [a [Ha H]]. apply in_flat_map in H. destruct H as [b [Hb H]]. apply in_map_iff in H. destruct H as [c [E Hc]].
    apply in_zrange in Ha, Hb, Hc. injection E as -> -> ->. unfold rng. auto.
  - intros [Hp [Hj Hk]]. exists p. split; [now apply in_zrange|]. apply in_flat_map. exists j. split; [now apply in_zrange|].
    apply in_map_iff. exists k. split; [reflexivity|now apply in_zrange].
Qed.
Theorem perm_compact_mean : forall m x y z, slot_ok n x -> slot_ok n y -> slot_ok n z ->
  Qeq (G (perm_compact t n np m) x y z) (sym_mean (G m) x y z).
Proof.
  intros m. assert (FI : forall l s, Inv m s -> (forall q, In q l -> In q (compact_space n np)) ->
    Inv m (fold_left (compact_step t n) l s) /\ (forall b, fst s b = true -> fst (fold_left (compact_step t n) l s) b = true) /\
    (forall p j k, In (p, j, k) l -> fst (fold_left (compact_step t n) l s) (badr (p2s p) j k) = true)).
  { induction l as [|[[p j] k] l IH]; intros s I H; cbn [fold_left]; [split; [auto|split; [auto|intros ? ? ? []]]|].
    pose proof (H (p, j, k) ltac:(left; auto)) as Hq. apply in_space3 in Hq. destruct Hq as [Hp [Hj Hk]].
    destruct (step_inv m s p j k I Hp Hj Hk) as [I' [M' D']].
    destruct (IH _ I' ltac:(intros; apply H; right; auto)) as [I'' [M'' D'']].
    split; [auto|]. split; [auto|]. intros p' j' k' [E|E]; [|auto]. injection E as <- <- <-. auto. }
  destruct (FI (compact_space n np) (fun _ => false, m)) as [I [_ D]].
  { constructor; cbn; auto. } { auto. }
  intros x y z Hx Hy Hz. rewrite G_cadr. pose proof (inv_v _ _ I x y z Hx Hy Hz) as V.
  replace (fst _ (badr (fst x) (fst y) (fst z))) with true in V; [exact V|]. symmetry.
  destruct Hx as [Hx _], Hy as [Hy _], Hz as [Hz _].
  assert (Hp : 0 <= s2pp (fst x) < np) by (apply (lt_s2pp _ _ _ _ _ _ _ LT); auto).
  rewrite <- (D (s2pp (fst x)) (T (fst x) (fst y)) (T (fst x) (fst z))).
  - f_equal. rewrite <- T_home by auto. symmetry. apply badr_inv; auto using nsym_range.
  - apply in_space3. split; [auto|]. split; apply T_range; auto.
Qed.
End Compact.
