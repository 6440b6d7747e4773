(** Lemmas for symmetrization and expansion of the collision matrix. *)
From Coq Require Import ZArith QArith List Lia Lqa Bool Permutation.
From Verif Require Import Base BaseProofs Mat3 QMat GridSpec GridModel GridProofs GridProps
  Par Par2 Fc3Trans Fc3Props IseModel IseSpec IseProofs ColSpec ColModel ColProofs.
Import ListNotations.
Open Scope Z_scope.

(** ** Consecutive parallel loops on separate regions *)
Lemma phases_local : forall X (S : X -> Z -> Prop) (f : X -> list (@prog Z Q)) l m m', NoDup l ->
  (forall x y a, In x l -> In y l -> S x a -> S y a -> x = y) ->
  (forall x m m', In x l -> finishes Z.eq_dec (f x) m m' -> forall a, ~ S x a -> m' a = m a) ->
  phases (map f l) m m' ->
  (forall x, In x l -> exists m1 m2, finishes Z.eq_dec (f x) m1 m2 /\ forall a, S x a -> m1 a = m a /\ m' a = m2 a) /\
  (forall a, (forall x, In x l -> ~ S x a) -> m' a = m a).
Proof.
  intros X S f. induction l as [|x l IH]; intros m m' N Dj Out P; cbn [map] in P.
  - inversion P; subst. split; [intros x []|reflexivity].
  - inversion P as [|ps l' m0 m1 m2 Fin P' E1 E2 E3]; subst. inversion_clear N as [|? ? N1 N2].
    destruct (IH m1 m') as [I1 I2]; auto.
    + intros y z a Hy Hz. apply Dj; now right.
    + intros y u u' Hy. apply Out. now right.
    + split.
      * intros y [->|Hy].
        -- exists m, m1. split; [exact Fin|]. intros a Ha. split; [reflexivity|]. apply I2. intros z Hz Hs.
           apply N1. rewrite (Dj y z a); auto; [now left|now right].
        -- destruct (I1 y Hy) as [u1 [u2 [F1 F2]]]. exists u1, u2. split; [exact F1|]. intros a Ha. destruct (F2 a Ha) as [F3 F4].
           split; [|exact F4]. rewrite F3. apply (Out x m m1); auto; [now left|]. intros Hs.
           apply N1. rewrite (Dj x y a); auto; [now left|now right].
      * intros a Ha. rewrite I2 by (intros y Hy; apply Ha; now right). apply (Out x m m1 (or_introl eq_refl) Fin). apply Ha. now left.
Qed.
Lemma in_sigma_temps : forall ns nt i j, In (i, j) (sigma_temps ns nt) <-> 0 <= i < ns /\ 0 <= j < nt.
Proof.
  intros ns nt i j. unfold sigma_temps. rewrite in_flat_map. split.
  - intros [x [Hx H]]. apply in_map_iff in H. destruct H as [y [E H]]. injection E as -> ->. apply in_zrange in Hx, H. auto.
  - intros [Hi Hj]. exists i. split; [now apply in_zrange|]. apply in_map_iff. exists j. split; [reflexivity|now apply in_zrange].
Qed.
Lemma nodup_sigma_temps : forall ns nt, NoDup (sigma_temps ns nt).
Proof.
  intros ns nt. apply NoDup_flat_map; [apply NoDup_zrange| |].
  - intros x _. apply FinFun.Injective_map_NoDup; [intros a b E; congruence|apply NoDup_zrange].
  - intros x y b _ _ Hx Hy. apply in_map_iff in Hx, Hy. destruct Hx as [u [<- _]], Hy as [v [E _]]. congruence.
Qed.
(** the block of sigma i and temperature j *)
Definition block (nc nt : Z) (ij : Z * Z) (a : Z) : Prop :=
  adrs_shift nc nt (fst ij) (snd ij) <= a < adrs_shift nc nt (fst ij) (snd ij) + nc * nc.
Lemma shift_eq : forall nc nt i j, adrs_shift nc nt i j = (i * nt + j) * (nc * nc).
Proof. intros. unfold adrs_shift. ring. Qed.
Lemma block_disj : forall ns nt nc x y a, In x (sigma_temps ns nt) -> In y (sigma_temps ns nt) ->
  block nc nt x a -> block nc nt y a -> x = y.
Proof.
  intros ns nt nc [i j] [i' j'] a Hx Hy Ha Hb. apply in_sigma_temps in Hx, Hy. unfold block in Ha, Hb. cbn [fst snd] in Ha, Hb.
  rewrite shift_eq in Ha, Hb.
  assert (i * nt + j = i' * nt + j') as E.
  { destruct (flat_inj (nc * nc) (i * nt + j) (a - (i * nt + j) * (nc * nc)) (i' * nt + j') (a - (i' * nt + j') * (nc * nc))); lia. }
  apply flat_inj in E; [|tauto..]. destruct E; congruence.
Qed.

(** ** Symmetrization *)
Lemma sym_pair : forall nc shift k l k' l', 0 <= k -> k < l < nc -> 0 <= k' -> k' < l' < nc ->
  forall a, (a = shift + k * nc + l \/ a = shift + l * nc + k) -> (a = shift + k' * nc + l' \/ a = shift + l' * nc + k') -> k = k' /\ l = l'.
Proof.
  intros nc shift k l k' l' H1 H2 H3 H4 a [Ha|Ha] [Hb|Hb]; rewrite Ha in Hb.
  - destruct (flat_inj nc k l k' l'); lia.
  - destruct (flat_inj nc k l l' k'); lia.
  - destruct (flat_inj nc l k k' l'); lia.
  - destruct (flat_inj nc l k l' k'); lia.
Qed.
Lemma sym_body : forall nc shift k l m, 0 <= k < l -> l < nc ->
  let p := Rd (shift + k * nc + l) (fun x => Rd (shift + l * nc + k) (fun y =>
      Wr (shift + k * nc + l) ((x + y) / 2)%Q (Wr (shift + l * nc + k) ((x + y) / 2)%Q Ret))) in
  let v := ((m (shift + k * nc + l)%Z + m (shift + l * nc + k)%Z) / 2)%Q in
  run Z.eq_dec p m (shift + k * nc + l) = v /\ run Z.eq_dec p m (shift + l * nc + k) = v.
Proof.
  intros nc shift k l m H1 H2 p v. unfold p. cbn [run]. unfold wr. fold v.
  split; [destruct (Z.eq_dec (shift + k * nc + l) (shift + l * nc + k)); [reflexivity|]|]; destruct (Z.eq_dec _ _); congruence.
Qed.
Lemma sym_phase : forall nc shift m m', finishes Z.eq_dec (map (sym_iteration nc shift) (zrange nc)) m m' ->
  (forall k l, 0 <= k < l -> l < nc -> let v := ((m (shift + k * nc + l)%Z + m (shift + l * nc + k)%Z) / 2)%Q in
    m' (shift + k * nc + l) = v /\ m' (shift + l * nc + k) = v) /\
  (forall a, (forall k l, 0 <= k < l -> l < nc -> a <> shift + k * nc + l /\ a <> shift + l * nc + k) -> m' a = m a).
Proof.
  intros nc shift m m' Fin.
  set (S := fun k a => exists l, k < l < nc /\ (a = shift + k * nc + l \/ a = shift + l * nc + k)).
  destruct (par_key Z.eq_dec S (zrange nc) (sym_iteration nc shift) m m' (NoDup_zrange nc)) as [P1 P2]; [| |exact Fin|].
  - intros k Hk. unfold sym_iteration. apply fp_pfor. intros l Hl. apply in_zseq in Hl.
    assert (A1 : S k (shift + k * nc + l)) by (exists l; split; [lia|auto]). assert (A2 : S k (shift + l * nc + k)) by (exists l; split; [lia|auto]).
    repeat (constructor; auto; intros).
  - intros x y a Hx Hy [l [Hl Ha]] [l' [Hl' Ha']]. apply in_zrange in Hx, Hy.
    destruct (sym_pair nc shift x l y l') with (a := a); auto; lia.
  - split.
    + intros k l Hk Hl v. assert (Hin : In k (zrange nc)) by (apply in_zrange; lia).
      rewrite (P1 k (shift + k * nc + l) Hin), (P1 k (shift + l * nc + k) Hin) by (exists l; split; [lia|auto]).
      set (body := fun l => Rd (shift + k * nc + l) (fun x => Rd (shift + l * nc + k) (fun y =>
        Wr (shift + k * nc + l) ((x + y) / 2)%Q (Wr (shift + l * nc + k) ((x + y) / 2)%Q Ret)))).
      change (sym_iteration nc shift k) with (pfor (zseq (k + 1) nc) body). rewrite run_pfor.
      set (S' := fun l' a => a = shift + k * nc + l' \/ a = shift + l' * nc + k).
      assert (F : forall l', fp (S' l') (S' l') (body l')).
      { intros l'. unfold body. repeat (constructor; [unfold S'; auto|intros]). constructor. }
      destruct (fold_indep S' (fun l' m => run Z.eq_dec (body l') m) (zseq (k + 1) nc) m) as [Q1 _].
      * intros l' Hl'. split.
        -- intros u a Ha. eapply run_outside; [apply F|exact Ha].
        -- intros u u' E a Ha. eapply run_agree; [apply F| |left; exact Ha]. intros b [Hb|Hb]; apply E; exact Hb.
      * apply NoDup_zseq.
      * intros x y a Hx Hy Ha Hb. apply in_zseq in Hx, Hy. destruct (sym_pair nc shift k x k y) with (a := a); auto; lia.
      * assert (Hls : In l (zseq (k + 1) nc)) by (apply in_zseq; lia).
        destruct (sym_body nc shift k l m) as [B1 B2]; [lia|lia|].
        split; [exact (eq_trans (Q1 l _ Hls (or_introl eq_refl)) B1)|exact (eq_trans (Q1 l _ Hls (or_intror eq_refl)) B2)].
    + intros a Ha. apply P2. intros k Hk [l [Hl E]]. apply in_zrange in Hk. destruct (Ha k l); [lia|lia|]. destruct E; contradiction.
Qed.
Lemma symmetrize_result : forall nc nt ns m m', 0 <= nc -> phases (symmetrize_loops nc nt ns) m m' ->
  (forall i j k l, 0 <= i < ns -> 0 <= j < nt -> 0 <= k < nc -> 0 <= l < nc -> k <> l ->
    m' (((i * nt + j) * nc + k) * nc + l) = ((m (((i * nt + j) * nc + Z.min k l) * nc + Z.max k l)%Z + m (((i * nt + j) * nc + Z.max k l) * nc + Z.min k l)%Z) / 2)%Q) /\
  (forall a, (forall i j k l, 0 <= i < ns -> 0 <= j < nt -> 0 <= k < nc -> 0 <= l < nc -> k <> l -> a <> ((i * nt + j) * nc + k) * nc + l) -> m' a = m a).
Proof.
  intros nc nt ns m m' Hnc P. unfold symmetrize_loops in P.
  assert (Ad : forall i j k l, ((i * nt + j) * nc + k) * nc + l = adrs_shift nc nt i j + k * nc + l) by (intros; unfold adrs_shift; ring).
  set (S := fun ij a => exists k l, 0 <= k < nc /\ 0 <= l < nc /\ k <> l /\ a = adrs_shift nc nt (fst ij) (snd ij) + k * nc + l).
  assert (Sb : forall ij a, S ij a -> block nc nt ij a).
  { intros ij a [k [l [Hk [Hl [_ ->]]]]]. unfold block. nia. }
  assert (Out : forall x m m', finishes Z.eq_dec (map (sym_iteration nc (adrs_shift nc nt (fst x) (snd x))) (zrange nc)) m m' ->
    forall a, ~ S x a -> m' a = m a).
  { intros x u u' F a Ha. apply (proj2 (sym_phase _ _ _ _ F)). intros k l Hk Hl. split; intros E; apply Ha.
    - exists k, l. repeat split; auto; lia.
    - exists l, k. repeat split; auto; lia. }
  destruct (phases_local _ S (fun ij => map (sym_iteration nc (adrs_shift nc nt (fst ij) (snd ij))) (zrange nc)) (sigma_temps ns nt) m m') as [P1 P2].
  - apply nodup_sigma_temps.
  - intros x y a Hx Hy Ha Hb. eapply block_disj; eauto.
  - intros x u u' _. apply Out.
  - exact P.
  - split.
    + intros i j k l Hi Hj Hk Hl Hn. destruct (P1 (i, j)) as [m1 [m2 [F E]]]; [apply in_sigma_temps; auto|].
      destruct (sym_phase _ _ _ _ F) as [F1 _]. cbn [fst snd] in F1. specialize (F1 (Z.min k l) (Z.max k l) ltac:(lia) ltac:(lia)).
      rewrite !Ad. set (sh := adrs_shift nc nt i j) in *.
      assert (E' : forall k l, 0 <= k < nc -> 0 <= l < nc -> k <> l -> m1 (sh + k * nc + l) = m (sh + k * nc + l) /\ m' (sh + k * nc + l) = m2 (sh + k * nc + l)).
      { intros k' l' A1 A2 A3. apply E. exists k', l'. auto. }
      destruct (E' k l Hk Hl Hn) as [_ ->]. cbv zeta in F1.
      rewrite (proj1 (E' (Z.min k l) (Z.max k l) ltac:(lia) ltac:(lia) ltac:(lia))) in F1.
      rewrite (proj1 (E' (Z.max k l) (Z.min k l) ltac:(lia) ltac:(lia) ltac:(lia))) in F1.
      destruct (Z.min_spec k l) as [[L M]|[L M]], (Z.max_spec k l) as [[L' M']|[L' M']]; rewrite M, M' in *; try lia; apply F1.
    + intros a Ha. apply P2. intros [i j] Hij [k [l [Hk [Hl [Hn ->]]]]]. apply in_sigma_temps in Hij.
      apply (Ha i j k l); try tauto. symmetry. apply Ad.
Qed.

(** ** Expansion *)
Lemma nth_map_zrange : forall X (f : Z -> X) n q d, 0 <= q < n -> nth (Z.to_nat q) (map f (zrange n)) d = f q.
Proof.
  intros X f n q d Hq. destruct (zrange_cut n q Hq) as [t ->]. rewrite map_app. cbn [map].
  assert (L : length (map f (zrange q)) = Z.to_nat q).
  { rewrite map_length. apply length_zrange. }
  rewrite app_nth2 by lia. rewrite L, Nat.sub_diag. reflexivity.
Qed.
Lemma run_take_row : forall d l k m, NoDup l ->
  run Z.eq_dec (take_row d l k) m = run Z.eq_dec (k (map (fun a => (m a / d)%Q) l)) (fold_left (fun m a => wr Z.eq_dec m a 0%Q) l m).
Proof.
  intros d. induction l as [|a l IH]; intros k m N; cbn [take_row map fold_left run]; [reflexivity|]. inversion_clear N as [|? ? N1 N2].
  rewrite IH by exact N2. f_equal. f_equal. f_equal. apply map_ext_in. intros b Hb. unfold wr. destruct (Z.eq_dec b a); [congruence|reflexivity].
Qed.
Lemma fp_take_row : forall (W R : Z -> Prop) d l k, (forall a, In a l -> W a /\ R a) -> (forall vs, fp W R (k vs)) -> fp W R (take_row d l k).
Proof.
  intros W R d. induction l as [|a l IH]; intros k H F; cbn [take_row]; [apply F|].
  destruct (H a (or_introl eq_refl)). constructor; auto. intros v. constructor; auto. apply IH; [intros b Hb; apply H; now right|auto].
Qed.
Lemma zeroed : forall l (m : Z -> Q) a, fold_left (fun m a => wr Z.eq_dec m a 0%Q) l m a = if in_dec Z.eq_dec a l then 0%Q else m a.
Proof.
  induction l as [|b l IH]; intros m a; cbn [fold_left]; [reflexivity|]. rewrite IH. unfold wr. cbn [in_dec].
  destruct (in_dec Z.eq_dec a l) as [H|H]; destruct (in_dec Z.eq_dec a (b :: l)) as [H'|H']; cbn in H'; destruct (Z.eq_dec a b); try tauto; intuition congruence.
Qed.
Lemma inj_row : forall ng nb x j y c x' j' y' c', 0 <= j < nb -> 0 <= j' < nb -> 0 <= y < ng -> 0 <= y' < ng -> 0 <= c < nb -> 0 <= c' < nb ->
  ((x * nb + j) * ng + y) * nb + c = ((x' * nb + j') * ng + y') * nb + c' -> x = x' /\ j = j' /\ y = y' /\ c = c'.
Proof.
  intros ng nb x j y c x' j' y' c' H1 H2 H3 H4 H5 H6 E. apply inj3 in E; auto. destruct E as [E [-> ->]]. apply flat_inj in E; auto. tauto.
Qed.

Section Expand.
  Variables (rot irs : Z -> Z) (nir ng nrot nb shift : Z).
  Let r l x := rot (l * ng + x).
  Hypothesis HA : is_action nrot ng r.
  Hypothesis HR : representatives nrot ng r nir irs.
  Hypothesis Hnb : 0 <= nb.
  Let nbgb := nb * ng * nb.
  Let at_ x j y c := shift + (((x * nb + j) * ng + y) * nb + c).
  Definition rowv (ir j y c : Z) (m : Z -> Q) : Q := (m (at_ ir j y c) / inject_Z (multi rot ng nrot ir))%Q.

  Lemma expand_phase : forall m m', finishes Z.eq_dec (map (expand_iteration rot irs ng nrot nb shift) (zrange nir)) m m' ->
    (forall k x j y c, 0 <= k < nir -> (exists l, 0 <= l < nrot /\ r l (irs k) = x) -> 0 <= j < nb -> 0 <= y < ng -> 0 <= c < nb ->
      Qeq (m' (at_ x j y c)) ((if x =? irs k then 0%Q else m (at_ x j y c)) +
        Sum nrot (fun l => if r l (irs k) =? x then Sum ng (fun n => if r l n =? y then rowv (irs k) j n c m else 0%Q) else 0%Q))) /\
    (forall a, (forall k l j y c, 0 <= k < nir -> 0 <= l < nrot -> 0 <= j < nb -> 0 <= y < ng -> 0 <= c < nb -> a <> at_ (r l (irs k)) j y c) -> m' a = m a).
  Proof.
    intros m m' Fin.
    set (S := fun k a => exists l j y c, 0 <= l < nrot /\ 0 <= j < nb /\ 0 <= y < ng /\ 0 <= c < nb /\ a = at_ (r l (irs k)) j y c).
    destruct HR as [HR1 HR2].
    assert (Row : forall k a, 0 <= k < nir -> In a (map (fun l => shift + irs k * nbgb + l) (zrange nbgb)) ->
      exists j y c, 0 <= j < nb /\ 0 <= y < ng /\ 0 <= c < nb /\ a = at_ (irs k) j y c).
    { intros k a Hk Ha. apply in_map_iff in Ha. destruct Ha as [q [<- Hq]]. apply in_zrange in Hq. unfold nbgb in Hq.
      assert (0 < nb) by (destruct (Z.eq_dec nb 0) as [E0|]; [rewrite E0 in Hq; lia|lia]). destruct (flat_split nb (nb * ng) q) as [u [c [Hu [Hc ->]]]]; [lia|lia|].
      specialize (HR1 k Hk). destruct (flat_split ng nb u) as [j [y [Hj [Hy ->]]]]; [lia|lia|].
      exists j, y, c. repeat split; try lia. unfold at_, nbgb. ring. }
    assert (Row' : forall k j y c, 0 <= k < nir -> 0 <= j < nb -> 0 <= y < ng -> 0 <= c < nb ->
      In (at_ (irs k) j y c) (map (fun l => shift + irs k * nbgb + l) (zrange nbgb))).
    { intros k j y c Hk Hj Hy Hc. apply in_map_iff. exists ((j * ng + y) * nb + c). split; [unfold at_, nbgb; ring|]. apply in_zrange.
      unfold nbgb. apply flat_range; [|auto]. apply flat_range; auto. }
    assert (Ad : forall x j y c, shift + x * nbgb + j * ng * nb + y * nb + c = at_ x j y c) by (intros; unfold at_, nbgb; ring).
    destruct (act_id _ _ _ HA) as [e [He Hid]].
    destruct (par_key Z.eq_dec S (zrange nir) (expand_iteration rot irs ng nrot nb shift) m m' (NoDup_zrange nir)) as [P1 P2]; [| |exact Fin|].
    - intros k Hk. apply in_zrange in Hk. unfold expand_iteration. apply fp_take_row.
      + intros a Ha. destruct (Row k a Hk Ha) as [j [y [c [Hj [Hy [Hc E]]]]]]. assert (S k a); [|auto].
        exists e, j, y, c. rewrite Hid by auto. auto.
      + intros vs. apply fp_pfor. intros l Hl. apply in_zrange in Hl. apply fp_pfor. intros j Hj. apply in_zrange in Hj.
        apply fp_pfor. intros n Hn. apply in_zrange in Hn. apply fp_pfor. intros c Hc. apply in_zrange in Hc. unfold add_to.
        assert (S k (shift + rot (l * ng + irs k) * (nb * ng * nb) + j * ng * nb + rot (l * ng + n) * nb + c)).
        { exists l, j, (r l n), c. fold nbgb. rewrite Ad. split; [auto|]. split; [auto|]. split; [apply (act_in _ _ _ HA); auto|]. auto. }
        constructor; auto. intros v. constructor; auto. constructor.
    - intros k k' a Hk Hk' [l [j [y [c [Hl [Hj [Hy [Hc ->]]]]]]]] [l' [j' [y' [c' [Hl' [Hj' [Hy' [Hc' E]]]]]]]].
      apply in_zrange in Hk, Hk'. unfold at_ in E. apply Z.add_reg_l in E. apply inj_row in E; auto. destruct E as [E _]. eauto.
    - split.
      + intros k x j y c Hk [l0 [Hl0 El]] Hj Hy Hc. assert (Hin : In k (zrange nir)) by now apply in_zrange.
        rewrite (P1 k _ Hin) by (exists l0, j, y, c; rewrite El; tauto). unfold expand_iteration. fold nbgb. set (ir := irs k) in *.
        assert (Hir : 0 <= ir < ng) by (apply HR1; auto).
        rewrite run_take_row by (apply FinFun.Injective_map_NoDup; [intros u v Huv; lia|apply NoDup_zrange]).
        set (copy := map (fun a => (m a / inject_Z (multi rot ng nrot ir))%Q) (map (fun l => shift + ir * nbgb + l) (zrange nbgb))).
        assert (Cp : forall j n p, 0 <= j < nb -> 0 <= n < ng -> 0 <= p < nb -> nth (Z.to_nat (j * ng * nb + n * nb + p)) copy 0%Q = rowv ir j n p m).
        { intros j' n p A1 A2 A3. unfold copy. rewrite map_map.
          assert (Hq : 0 <= j' * ng * nb + n * nb + p < nbgb).
          { replace (j' * ng * nb + n * nb + p) with ((j' * ng + n) * nb + p) by ring. unfold nbgb. apply flat_range; [|auto]. apply flat_range; auto. }
          rewrite (nth_map_zrange _ (fun q => (m (shift + ir * nbgb + q)%Z / inject_Z (multi rot ng nrot ir))%Q)) by exact Hq. unfold rowv.
          replace (shift + ir * nbgb + (j' * ng * nb + n * nb + p)) with (at_ ir j' n p) by (unfold at_, nbgb; ring). reflexivity. }
        set (ad := fun l j n p => shift + rot (l * ng + ir) * nbgb + j * ng * nb + rot (l * ng + n) * nb + p).
        set (v := fun j n p => nth (Z.to_nat (j * ng * nb + n * nb + p)) copy 0%Q).
        set (d := fun l z => Sum nb (fun j => Sum ng (fun n => Sum nb (fun p => if (ad l j n p =? z) then v j n p else 0%Q)))).
        assert (A : adds (pfor (zrange nrot) (fun l => pfor (zrange nb) (fun j => pfor (zrange ng) (fun n => pfor (zrange nb) (fun p =>
            add_to (ad l j n p) (v j n p)))))) (fun z => Sum nrot (fun l => d l z))).
        { apply (adds_for _ _ _ d). intros l _. unfold d.
          apply (adds_for _ _ _ (fun j z => Sum ng (fun n => Sum nb (fun p => if (ad l j n p =? z) then v j n p else 0%Q)))). intros j' _.
          apply (adds_for _ _ _ (fun n z => Sum nb (fun p => if (ad l j' n p =? z) then v j' n p else 0%Q))). intros n' _.
          apply (adds_for _ _ _ (fun p z => if (ad l j' n' p =? z) then v j' n' p else 0%Q)). intros p' _. apply adds_one. }
        etransitivity; [apply A|]. apply Qplus_comp.
        * rewrite zeroed. destruct (in_dec Z.eq_dec _ _) as [Hi|Hi]; destruct (Z.eqb_spec x ir) as [Ex|Nx]; try reflexivity; exfalso.
          -- destruct (Row k _ Hk Hi) as [j' [y' [c' [A1 [A2 [A3 E]]]]]]. unfold at_ in E. apply Z.add_reg_l in E. apply inj_row in E; auto. destruct E as [E _]. exact (Nx E).
          -- apply Hi. rewrite Ex. apply Row'; auto.
        * apply Sum_ext. intros l Hl. unfold d.
          assert (Z0 : forall j' n' p', 0 <= j' < nb -> 0 <= n' < ng -> 0 <= p' < nb ->
            (if ad l j' n' p' =? at_ x j y c then v j' n' p' else 0%Q) =
            if (r l ir =? x) && (j' =? j) && (r l n' =? y) && (p' =? c) then rowv ir j n' c m else 0%Q).
          { intros j' n' p' A1 A2 A3. unfold ad. fold (r l ir) (r l n'). rewrite Ad.
            destruct (Z.eqb_spec (at_ (r l ir) j' (r l n') p') (at_ x j y c)) as [E|E].
            - unfold at_ in E. apply Z.add_reg_l in E. apply inj_row in E; auto; [|apply (act_in _ _ _ HA); auto].
              destruct E as [-> [-> [-> ->]]]. rewrite !Z.eqb_refl. cbn [andb]. apply Cp; auto.
            - destruct (Z.eqb_spec (r l ir) x), (Z.eqb_spec j' j), (Z.eqb_spec (r l n') y), (Z.eqb_spec p' c); cbn [andb]; try reflexivity. exfalso. apply E. congruence. }
          transitivity (Sum nb (fun j' => Sum ng (fun n' => Sum nb (fun p' => if (r l ir =? x) && (j' =? j) && (r l n' =? y) && (p' =? c) then rowv ir j n' c m else 0%Q)))).
          { apply Sum_ext; intros j' Hj'. apply Sum_ext; intros n' Hn'. apply Sum_ext; intros p' Hp'. rewrite Z0 by auto. reflexivity. }
          etransitivity; [apply (Sum_only nb j); [exact Hj|]; intros j' Hj' Nj; apply Sum_zero; intros n' _; apply Sum_zero; intros p' _;
            destruct (r l ir =? x); cbn [andb]; [|reflexivity]; rewrite (proj2 (Z.eqb_neq j' j) Nj); reflexivity|].
          cbv beta.
          destruct (r l ir =? x); cbn [andb].
          -- apply Sum_ext. intros n' Hn'. etransitivity; [apply (Sum_only nb c); [exact Hc|]|].
             2:{ cbv beta. rewrite !Z.eqb_refl. cbn [andb]. destruct (r l n' =? y); reflexivity. }
             intros p' _ Np. rewrite Z.eqb_refl. cbn [andb]. rewrite (proj2 (Z.eqb_neq p' c) Np). destruct (r l n' =? y); reflexivity.
          -- apply Sum_zero. intros n' _. apply Sum_zero. reflexivity.
      + intros a Ha. apply P2. intros k Hk [l [j [y [c [Hl [Hj [Hy [Hc ->]]]]]]]]. apply in_zrange in Hk. apply (Ha k l j y c); auto.
  Qed.
End Expand.

Lemma expand_result : forall rot irs nir ng nrot ns nt nb m m', let r l x := rot (l * ng + x) in
  is_action nrot ng r -> representatives nrot ng r nir irs -> 0 <= nb ->
  phases (expand_loops rot irs nir ng nrot ns nt nb) m m' ->
  (forall s t k x j y c, 0 <= s < ns -> 0 <= t < nt -> 0 <= k < nir -> (exists l, 0 <= l < nrot /\ r l (irs k) = x) ->
    0 <= j < nb -> 0 <= y < ng -> 0 <= c < nb ->
    Qeq (cm nt ng nb m' s t x j y c) ((if x =? irs k then 0%Q else cm nt ng nb m s t x j y c) +
      Sum nrot (fun l => if r l (irs k) =? x then
        Sum ng (fun n => if r l n =? y then (cm nt ng nb m s t (irs k) j n c / inject_Z (multi rot ng nrot (irs k)))%Q else 0%Q) else 0%Q))) /\
  (forall a, (forall s t k l j y c, 0 <= s < ns -> 0 <= t < nt -> 0 <= k < nir -> 0 <= l < nrot -> 0 <= j < nb -> 0 <= y < ng -> 0 <= c < nb ->
     a <> ((((s * nt + t) * ng + r l (irs k)) * nb + j) * ng + y) * nb + c) -> m' a = m a).
Proof.
  intros rot irs nir ng nrot ns nt nb m m' r HA HR Hnb P. unfold expand_loops in P. set (nc := ng * nb) in P.
  assert (Ad : forall s t x j y c, ((((s * nt + t) * ng + x) * nb + j) * ng + y) * nb + c =
    adrs_shift nc nt s t + (((x * nb + j) * ng + y) * nb + c)) by (intros; unfold adrs_shift, nc; ring).
  assert (Inb : forall s t x j y c, 0 <= x < ng -> 0 <= j < nb -> 0 <= y < ng -> 0 <= c < nb ->
    block nc nt (s, t) (adrs_shift nc nt s t + (((x * nb + j) * ng + y) * nb + c))).
  { intros s t x j y c Hx Hj Hy Hc. unfold block. cbn [fst snd].
    assert (0 <= ((x * nb + j) * ng + y) * nb + c < ((ng * nb) * ng) * nb).
    { apply flat_range; auto. apply flat_range; auto. apply flat_range; auto. } unfold nc. lia. }
  assert (Rin : forall k l, 0 <= k < nir -> 0 <= l < nrot -> 0 <= r l (irs k) < ng).
  { intros k l Hk Hl. apply (act_in _ _ _ HA); auto. apply HR; auto. }
  destruct (phases_local _ (block nc nt) (fun ij => map (expand_iteration rot irs ng nrot nb (adrs_shift nc nt (fst ij) (snd ij))) (zrange nir)) (sigma_temps ns nt) m m') as [P1 P2].
  - apply nodup_sigma_temps.
  - intros x y a Hx Hy Ha Hb. eapply block_disj; eauto.
  - intros [s t] u u' _ F a Ha. cbn [fst snd] in F. apply (proj2 (expand_phase rot irs nir ng nrot nb _ HA HR Hnb u u' F)).
    intros k l j y c Hk Hl Hj Hy Hc E. apply Ha. rewrite E. apply (Inb s t (r l (irs k))); auto.
  - exact P.
  - split.
    + intros s t k x j y c Hs Ht Hk Hx Hj Hy Hc. destruct (P1 (s, t)) as [m1 [m2 [F E]]]; [apply in_sigma_temps; auto|]. cbn [fst snd] in F.
      destruct (expand_phase rot irs nir ng nrot nb _ HA HR Hnb m1 m2 F) as [F1 _]. specialize (F1 k x j y c Hk Hx Hj Hy Hc).
      assert (Hxr : 0 <= x < ng) by (destruct Hx as [l [Hl <-]]; auto). assert (Hir : 0 <= irs k < ng) by (apply HR; auto).
      unfold cm. rewrite Ad. destruct (E _ (Inb s t x j y c Hxr Hj Hy Hc)) as [E1 E2]. rewrite E2.
      etransitivity; [exact F1|]. rewrite E1. apply Qplus_comp; [reflexivity|]. apply Sum_ext. intros l Hl.
      fold (r l (irs k)). destruct (r l (irs k) =? x); [|reflexivity]. apply Sum_ext. intros n Hn. fold (r l n). destruct (r l n =? y); [|reflexivity].
      unfold rowv. rewrite Ad. destruct (E _ (Inb s t (irs k) j n c Hir Hj Hn Hc)) as [E3 _]. rewrite E3. reflexivity.
    + intros a Ha.
      (* within a block, or outside all of them *)
      assert (G : forall l0, (forall x, In x l0 -> In x (sigma_temps ns nt)) -> forall u u',
        phases (map (fun ij => map (expand_iteration rot irs ng nrot nb (adrs_shift nc nt (fst ij) (snd ij))) (zrange nir)) l0) u u' -> u' a = u a).
      { induction l0 as [|[s t] l0 IH]; intros Hin u u' Ph; cbn [map] in Ph; inversion Ph as [|ps l' v0 v1 v2 Fin Ph' E1 E2 E3]; subst; [reflexivity|].
        rewrite (IH (fun x Hx => Hin x (or_intror Hx)) v1 u' Ph'). cbn [fst snd] in Fin.
        apply (proj2 (expand_phase rot irs nir ng nrot nb _ HA HR Hnb u v1 Fin)). intros k l j y c Hk Hl Hj Hy Hc E.
        destruct (proj1 (in_sigma_temps ns nt s t) (Hin _ (or_introl eq_refl))) as [Hs Ht].
        apply (Ha s t k l j y c Hs Ht Hk Hl Hj Hy Hc). rewrite Ad. exact E. }
      apply (G (sigma_temps ns nt) (fun x Hx => Hx) m m' P).
Qed.

(** ** Actions *)
Lemma act_inj : forall nrot ng r a x y, is_action nrot ng r -> 0 <= a < nrot -> 0 <= x < ng -> 0 <= y < ng -> r a x = r a y -> x = y.
Proof. intros nrot ng r a x y HA Ha Hx Hy E. destruct (act_inv _ _ _ HA a Ha) as [b [Hb [B1 B2]]]. rewrite <- (B1 x Hx), <- (B1 y Hy), E. reflexivity. Qed.
Lemma act_reindex : forall nrot ng r a (G : Z -> Q) x, is_action nrot ng r -> 0 <= a < nrot -> 0 <= x < ng ->
  exists mul, (forall l, 0 <= l < nrot -> 0 <= mul l < nrot /\ forall x, 0 <= x < ng -> r (mul l) x = r a (r l x)) /\
    Qeq (Sum nrot (fun l => G (mul l))) (Sum nrot G).
Proof.
  intros nrot ng r a G x HA Ha Hx. destruct (act_mul _ _ _ HA) as [mul [M1 [M2 M3]]]. exists (mul a). split.
  - intros l Hl. split; [auto|]. intros y Hy. auto.
  - unfold Sum. apply (qs_reindex nrot (mul a)); [auto|]. intros b b' Hb Hb' E. apply (M3 a b b'); auto.
Qed.
Lemma Sum_count : forall n (p : Z -> bool) v, Qeq (Sum n (fun l => if p l then v else 0%Q)) (inject_Z (zcount p (zrange n)) * v).
Proof.
  intros n p v. unfold Sum, zcount. induction (zrange n) as [|x l IH]; cbn [map filter]; [rewrite qs_nil; change (inject_Z (Z.of_nat (length (@nil Z)))) with 0%Q; lra|].
  rewrite qs_cons, IH. destruct (p x); [|lra]. cbn [length]. rewrite Nat2Z.inj_succ, <- Z.add_1_r, inject_Z_plus. change (inject_Z 1) with 1%Q. lra.
Qed.
Lemma multi_pos : forall rot ng nrot ir, let r l x := rot (l * ng + x) in is_action nrot ng r -> 0 <= ir < ng -> 0 < multi rot ng nrot ir.
Proof.
  intros rot ng nrot ir r HA Hir. unfold multi. apply zcount_pos. destruct (act_id _ _ _ HA) as [e [He Hid]]. exists e. split; [now apply in_zrange|].
  apply Z.eqb_eq. apply (Hid ir Hir).
Qed.
Lemma zcount_perm : forall (p : Z -> bool) l l', Permutation l l' -> zcount p l = zcount p l'.
Proof. intros p l l' P. induction P; rewrite ?zcount_cons; lia. Qed.
(** as many operations take ir to x as keep ir *)
Lemma star_count : forall rot ng nrot ir x, let r l x := rot (l * ng + x) in is_action nrot ng r -> 0 <= ir < ng ->
  (exists l, 0 <= l < nrot /\ r l ir = x) -> zcount (fun l => r l ir =? x) (zrange nrot) = multi rot ng nrot ir.
Proof.
  intros rot ng nrot ir x r HA Hir [a [Ha E]]. destruct (act_mul _ _ _ HA) as [mul [M1 [M2 M3]]].
  assert (P : Permutation (map (mul a) (zrange nrot)) (zrange nrot)) by (apply zrange_bij; [auto|]; intros b b' Hb Hb' K; apply (M3 a b b'); auto).
  transitivity (zcount (fun l => r l ir =? x) (map (mul a) (zrange nrot))).
  { symmetry. apply zcount_perm, P. }
  rewrite zcount_map. unfold multi. apply zcount_ext_in. intros l Hl. apply in_zrange in Hl. rewrite M2 by auto. fold (r l ir).
  rewrite <- E. destruct (Z.eqb_spec (r l ir) ir) as [->|N]; [apply Z.eqb_refl|]. apply Z.eqb_neq. intros K. apply N.
  apply (act_inj nrot ng r a (r l ir) ir HA Ha); [apply (act_in _ _ _ HA); auto|auto|exact K].
Qed.
