From Coq Require Import ZArith QArith List Lia Bool.
From Verif Require Import Base BaseProofs RestartModel RestartProps ColFileModel.
Import ListNotations.
Open Scope Z_scope.

Lemma map_znth : forall A (d : A) l, map (znth d l) (zrange (zlen l)) = l.
Proof.
  intros A d l. unfold zrange, zlen, znth. rewrite Nat2Z.id, map_map. rewrite (map_ext _ (fun k => nth k l d)) by (intros; now rewrite Nat2Z.id).
  induction l as [|x l IH]; [reflexivity|]. cbn [length seq map nth]. f_equal. rewrite <- seq_shift, map_map. exact IH.
Qed.
Section ColFile.
Context {M : Type}.
Variable zeroM : M.
Variable gam : Z -> Q -> Z -> Z -> Q.
Variable col : Z -> Q -> Z -> Z -> M.
Variable iso : Z -> Z -> Z -> Q.
Variable nb : Z.
Hypothesis nb_pos : 0 < nb.
Variable bzg2grg : Z -> Z.
Variable ir : list Z.
Hypothesis ir_pos : 0 < zlen ir.
Variable ts : list Q.
Hypothesis ts_pos : 0 < zlen ts.
Variable red : bool.
Notation nT := (zlen ts).
Notation T := (znth 0%Q ts).
(** where the rows of the i-th irreducible grid point are kept; distinct for distinct grid points *)
Definition p (i : Z) : Z := if red then bzg2grg (znth 0 ir i) else i.
Hypothesis p_inj : forall i i', 0 <= i < zlen ir -> 0 <= i' < zlen ir -> p i = p i' -> i = i'.

(** ** What the files should hold *)
Definition c_ok {A B} (okA : (Z -> A) -> Prop) (okB : (Z -> B) -> Prop) (f : cfile A B) : Prop :=
  c_nt f = nT /\ (forall t, 0 <= t < nT -> c_temp f t = T t) /\ okA (c_gamma f) /\ okB (c_col f).
Definition cgood (fs : @cfsys M) : Prop :=
  (forall s f, cf fs s = Some f -> c_ok (fun v => forall t i b, 0 <= t < nT -> 0 <= i < zlen ir -> 0 <= b < nb -> v t (p i) b = gam s (T t) (znth 0 ir i) b)
                                        (fun v => forall t i b, 0 <= t < nT -> 0 <= i < zlen ir -> 0 <= b < nb -> v t (p i) b = col s (T t) (znth 0 ir i) b) f) /\
  (forall s g f, cg fs s g = Some f -> c_ok (fun v => forall t b, 0 <= t < nT -> 0 <= b < nb -> v t b = gam s (T t) g b) (fun v => forall t b, 0 <= t < nT -> 0 <= b < nb -> v t b = col s (T t) g b) f) /\
  (forall s g b f, cb fs s g b = Some f -> c_ok (fun v => forall t, 0 <= t < nT -> v t = gam s (T t) g b) (fun v => forall t, 0 <= t < nT -> v t = col s (T t) g b) f).
Definition cavail_gp (fs : @cfsys M) (s g : Z) : Prop := cg fs s g <> None \/ forall b, 0 <= b < nb -> cb fs s g b <> None.
Definition cavail (fs : @cfsys M) (s : Z) : Prop := cf fs s <> None \/ forall i, 0 <= i < zlen ir -> cavail_gp fs s (znth 0 ir i).

(** ** Reading all temperatures *)
Section Read.
Variable fs : @cfsys M.
Hypothesis G : cgood fs.
Variable sig : list Z.
Notation sg := (znth 0 sig).
Definition shape0 (l : @lbte M) : Prop := l_gps l = ir /\ l_bands l = zrange nb /\ l_sig l = sig /\ l_red l = red.
Definition shape (l : @lbte M) : Prop := shape0 l /\ l_temps l = ts.
(** the temperature whose linewidths are read *)
Definition tsel (s g t : Z) : Z := match cf fs s, cg fs s g with None, Some _ => t | _, _ => 0 end.
Definition cright (l : @lbte M) (j i b : Z) : Prop := forall t, 0 <= t < nT ->
  l_col l j t (p i) b = col (sg j) (T t) (znth 0 ir i) b /\ l_gamma l j t (p i) b = gam (sg j) (T (tsel (sg j) (znth 0 ir i) t)) (znth 0 ir i) b.
Definition crng (j i b : Z) : Prop := 0 <= j /\ 0 <= i < zlen ir /\ 0 <= b < nb.
Definition cmono (l l' : @lbte M) : Prop := forall j i b, crng j i b -> cright l j i b -> cright l' j i b.
Lemma cmono_refl : forall l, cmono l l. Proof. intros l j i b _ H. exact H. Qed.
Lemma cmono_trans : forall a b c, cmono a b -> cmono b c -> cmono a c. Proof. intros a b c H1 H2 j i k R X. auto. Qed.
Lemma fold_out : forall (f : outcome -> Z -> outcome) (av : Z -> Prop) (Rg : Z -> @lbte M -> Prop) l,
  (forall x, f Raised x = Raised) ->
  (forall x a a', In x l -> cmono a a' -> Rg x a -> Rg x a') ->
  (forall x a, In x l -> shape a -> (av x /\ exists a', f (Go a) x = Go a' /\ shape a' /\ cmono a a' /\ Rg x a') \/ (~ av x /\ f (Go a) x = Raised)) ->
  forall a, shape a -> ((forall x, In x l -> av x) /\ exists a', fold_left f l (Go a) = Go a' /\ shape a' /\ cmono a a' /\ forall x, In x l -> Rg x a') \/
    ((~ forall x, In x l -> av x) /\ fold_left f l (Go a) = Raised).
Proof.
  intros f av Rg. induction l as [|x l IH]; intros HR0 HR Hs a Sa.
  - left. split; [intros ? []|]. exists a. split; [reflexivity|]. split; [exact Sa|]. split; [apply cmono_refl|intros ? []].
  - cbn [fold_left]. destruct (Hs x a (or_introl eq_refl) Sa) as [[A [a1 [E1 [S1 [M1 R1]]]]]|[A E1]]; rewrite E1.
    + destruct (IH HR0 (fun y b b' Hy => HR y b b' (or_intror Hy)) (fun y b Hy => Hs y b (or_intror Hy)) a1 S1) as [[B [a2 [E2 [S2 [M2 R2]]]]]|[B E2]].
      * left. split; [intros y [<-|Hy]; auto|]. exists a2. split; [exact E2|]. split; [exact S2|]. split; [eapply cmono_trans; eauto|]. intros y [<-|Hy]; [|auto]. apply (HR x a1 a2); auto. now left.
      * right. split; [intros H; apply B; intros; apply H; now right|exact E2].
    + right. split; [intros H; apply A, H; now left|]. clear - HR0. induction l as [|y l IH]; [reflexivity|]. cbn. rewrite HR0. exact IH.
Qed.
Lemma rep_ok : forall n t, n = nT -> 0 <= t < nT -> rep n t = t.
Proof. intros n t -> H. unfold rep. destruct (Z.eqb_spec nT 1); lia. Qed.
Lemma fits_nT : fits_n nT nT = true. Proof. unfold fits_n. now rewrite Z.eqb_refl. Qed.
Lemma nT_nz : (nT =? 0) = false. Proof. apply Z.eqb_neq. lia. Qed.
Lemma pos_p : forall l i, shape0 l -> pos bzg2grg l i = p i.
Proof. intros l i [E1 [E2 [E3 E4]]]. unfold pos, p, l_gp. rewrite E4, E1. reflexivity. Qed.
Lemma gp_ir : forall l i, shape0 l -> l_gp l i = znth 0 ir i. Proof. intros l i [E1 _]. unfold l_gp. now rewrite E1. Qed.
Lemma band_case : forall j i b a, crng j i b -> shape a -> cf fs (sg j) = None -> cg fs (sg j) (znth 0 ir i) = None ->
  (cb fs (sg j) (znth 0 ir i) b <> None /\ exists a', collect_band bzg2grg fs None nT j (sg j) i (Go a) b = Go a' /\ shape a' /\ cmono a a' /\ cright a' j i b) \/
  (~ cb fs (sg j) (znth 0 ir i) b <> None /\ collect_band bzg2grg fs None nT j (sg j) i (Go a) b = Raised).
Proof.
  intros j i b a R [S0 St] Hf Hg. unfold collect_band. cbn [obnd]. rewrite (gp_ir _ _ S0), (pos_p _ _ S0). destruct (cb fs (sg j) (znth 0 ir i) b) as [f|] eqn:E; [left|right; split; [intros H; apply H; reflexivity|reflexivity]].
  split; [discriminate|]. destruct G as [_ [_ G3]]. destruct (G3 _ _ _ _ E) as [F1 [F2 [F3 F4]]]. cbn [n_sel]. rewrite F1, St, fits_nT, nT_nz. cbn [andb negb].
  eexists. split; [reflexivity|]. split; [split; [exact S0|exact St]|].
  assert (Hnew : forall t, 0 <= t < nT -> c_col f (sel None (rep nT t)) = col (sg j) (T t) (znth 0 ir i) b /\ c_gamma f (sel None 0) = gam (sg j) (T (tsel (sg j) (znth 0 ir i) t)) (znth 0 ir i) b).
  { intros t Ht. cbn [sel]. rewrite rep_ok by auto. split; [now apply F4|]. unfold tsel. rewrite Hf, Hg. apply F3. lia. }
  split.
  - intros j' i' b' [Hj' [Hi' Hb']] X t Ht. unfold set_arrays. cbn [l_col l_gamma]. destruct (Z.eqb_spec j' j) as [->|], (Z.eqb_spec (p i') (p i)) as [Ep|], (Z.eqb_spec b' b) as [->|]; cbn [andb]; try (apply X; exact Ht).
    apply p_inj in Ep; [subst i'|exact Hi'|apply R]. now apply Hnew.
  - intros t Ht. unfold set_arrays. cbn [l_col l_gamma]. rewrite !Z.eqb_refl. cbn [andb]. now apply Hnew.
Qed.
Lemma gp_case : forall j i a, 0 <= j -> 0 <= i < zlen ir -> shape a -> cf fs (sg j) = None ->
  (cavail_gp fs (sg j) (znth 0 ir i) /\ exists a', collect bzg2grg fs None nT j (sg j) (Go a) i = Go a' /\ shape a' /\ cmono a a' /\ forall b, 0 <= b < nb -> cright a' j i b) \/
  (~ cavail_gp fs (sg j) (znth 0 ir i) /\ collect bzg2grg fs None nT j (sg j) (Go a) i = Raised).
Proof.
  intros j i a Hj Hi Sa Hf. pose proof Sa as [S0 St]. unfold collect. cbn [obnd]. rewrite (gp_ir _ _ S0). destruct (cg fs (sg j) (znth 0 ir i)) as [f|] eqn:E.
  - left. split; [left; congruence|]. unfold collect_gp. rewrite (pos_p _ _ S0). destruct G as [_ [G2 _]]. destruct (G2 _ _ _ E) as [F1 [F2 [F3 F4]]]. cbn [n_sel]. rewrite F1, St, fits_nT. cbn [andb].
    eexists. split; [reflexivity|]. split; [split; [exact S0|exact St]|].
    assert (Hnew : forall t b, 0 <= t < nT -> 0 <= b < nb -> c_col f (sel None (rep nT t)) b = col (sg j) (T t) (znth 0 ir i) b /\ c_gamma f (sel None (rep nT t)) b = gam (sg j) (T (tsel (sg j) (znth 0 ir i) t)) (znth 0 ir i) b).
    { intros t b Ht Hb. cbn [sel]. rewrite rep_ok by auto. split; [now apply F4|]. unfold tsel. rewrite Hf, E. apply F3; assumption. }
    split.
    + intros j' i' b' [Hj' [Hi' Hb']] X t Ht. unfold set_arrays. cbn [l_col l_gamma]. destruct (Z.eqb_spec j' j) as [->|], (Z.eqb_spec (p i') (p i)) as [Ep|]; cbn [andb]; try (apply X; exact Ht).
      apply p_inj in Ep; [subst i'|exact Hi'|exact Hi]. now apply Hnew.
    + intros b Hb t Ht. unfold set_arrays. cbn [l_col l_gamma]. rewrite !Z.eqb_refl. cbn [andb]. now apply Hnew.
  - replace (l_bands a) with (zrange nb) by (symmetry; apply S0). rewrite zlen_zrange by lia.
    destruct (fold_out (collect_band bzg2grg fs None nT j (sg j) i) (fun b => cb fs (sg j) (znth 0 ir i) b <> None) (fun b a => cright a j i b) (zrange nb)) with (a := a) as [[A [a' [E1 [S1 [M1 R1]]]]]|[A E1]].
    + reflexivity.
    + intros b x x' Hb H X. apply in_zrange in Hb. apply H; [|exact X]. repeat split; auto; lia.
    + intros b x Hb Sx. apply in_zrange in Hb. apply band_case; auto. repeat split; auto; lia.
    + exact Sa.
    + left. split; [right; intros b Hb; apply A; now apply in_zrange|]. exists a'. split; [exact E1|]. split; [exact S1|]. split; [exact M1|]. intros b Hb. apply R1. now apply in_zrange.
    + right. split; [|exact E1]. intros [H|H]; [congruence|]. apply A. intros b Hb. apply H. now apply in_zrange.
Qed.
Lemma ctemps_ts : forall A B okA okB (f : cfile A B), c_ok okA okB f -> map (c_temp f) (zrange (c_nt f)) = ts.
Proof.
  intros A B okA okB f [F1 [F2 _]]. rewrite F1. transitivity (map (znth 0%Q ts) (zrange nT)); [|apply map_znth].
  apply map_ext_in. intros t Ht. apply in_zrange in Ht. apply F2. exact Ht.
Qed.
Lemma set_temps_idem : forall l : @lbte M, shape l -> set_temps zeroM ts (set_temps zeroM ts l) = set_temps zeroM ts l.
Proof. intros l _. unfold set_temps. cbn. destruct (l_iso l); reflexivity. Qed.
Definition cbad (s : Z) : @outcome M := match first_temps fs s (znth 0 ir 0) with None => Failed | Some _ => Raised end.
Lemma sigma_case : forall j a, 0 <= j -> shape a -> (j = 0 -> set_temps zeroM ts a = a) ->
  (cavail fs (sg j) /\ exists a', collect_sigma zeroM bzg2grg fs None (Go a) j = Go a' /\ shape a' /\ cmono a a' /\ forall i b, 0 <= i < zlen ir -> 0 <= b < nb -> cright a' j i b) \/
  (~ cavail fs (sg j) /\ collect_sigma zeroM bzg2grg fs None (Go a) j = cbad (sg j)).
Proof.
  intros j a Hj Sa H0. pose proof Sa as [S0 St]. unfold collect_sigma. cbn [obnd]. replace (l_sig a) with sig by (symmetry; apply S0). rewrite (gp_ir _ _ S0).
  assert (Hset : (if j =? 0 then set_temps zeroM ts a else a) = a) by (destruct (Z.eqb_spec j 0); auto).
  assert (Hset' : (if negb (j =? 0) then a else set_temps zeroM ts a) = a) by (destruct (Z.eqb_spec j 0); cbn [negb]; auto).
  destruct (cf fs (sg j)) as [f|] eqn:E.
  - left. split; [left; congruence|]. unfold read_full. destruct G as [G1 _]. pose proof (G1 _ _ E) as F. pose proof (ctemps_ts _ _ _ _ f F) as Ht. destruct F as [F1 [F2 [F3 F4]]]. cbn [n_sel sel]. change (fun t : Z => c_temp f t) with (c_temp f). rewrite Ht, Hset'. rewrite F1, St, fits_nT, nT_nz. cbn [andb negb].
    eexists. split; [reflexivity|]. split; [split; [exact S0|exact St]|].
    assert (Hnew : forall t i b, 0 <= t < nT -> 0 <= i < zlen ir -> 0 <= b < nb -> c_col f (rep nT t) (p i) b = col (sg j) (T t) (znth 0 ir i) b /\ c_gamma f 0 (p i) b = gam (sg j) (T (tsel (sg j) (znth 0 ir i) t)) (znth 0 ir i) b).
    { intros t i b Ht' Hi Hb. rewrite rep_ok by auto. split; [now apply F4|]. unfold tsel. rewrite E. apply F3; auto. lia. }
    split.
    + intros j' i' b' [Hj' [Hi' Hb']] X t Ht'. unfold set_arrays. cbn [l_col l_gamma]. destruct (Z.eqb_spec j' j) as [->|]; [now apply Hnew|apply X; exact Ht'].
    + intros i b Hi Hb t Ht'. unfold set_arrays. cbn [l_col l_gamma]. rewrite !Z.eqb_refl. now apply Hnew.
  - unfold cbad. destruct (first_temps fs (sg j) (znth 0 ir 0)) as [ts'|] eqn:Ef.
    + assert (Ets : ts' = ts).
      { unfold first_temps, ctemps in Ef. destruct G as [_ [G2 G3]]. destruct (cg fs (sg j) (znth 0 ir 0)) as [f|] eqn:Eg; [|destruct (cb fs (sg j) (znth 0 ir 0) 0) as [f|] eqn:Eb; [|discriminate Ef]]; injection Ef as <-; eapply ctemps_ts; eauto. }
      rewrite Ets. rewrite Hset. replace (l_gps a) with ir by (symmetry; apply S0).
      destruct (fold_out (collect bzg2grg fs None nT j (sg j)) (fun i => cavail_gp fs (sg j) (znth 0 ir i)) (fun i a => forall b, 0 <= b < nb -> cright a j i b) (zrange (zlen ir))) with (a := a) as [[A [a' [E1 [S1 [M1 R1]]]]]|[A E1]].
      * reflexivity.
      * intros i x x' Hi H X b Hb. apply in_zrange in Hi. apply H; [|now apply X]. repeat split; auto; lia.
      * intros i x Hi Sx. apply in_zrange in Hi. apply gp_case; auto.
      * exact Sa.
      * left. split; [right; intros b Hb; apply A; now apply in_zrange|]. exists a'. split; [exact E1|]. split; [exact S1|]. split; [exact M1|]. intros i b Hi Hb. apply R1; auto. now apply in_zrange.
      * right. split; [|exact E1]. intros [H|H]; [congruence|]. apply A. intros b Hb. apply H. now apply in_zrange.
    + right. split; [|reflexivity]. intros [H|H]; [congruence|]. unfold first_temps in Ef. destruct (H 0) as [X|X]; [lia| |].
      * destruct (cg fs (sg j) (znth 0 ir 0)); [discriminate Ef|congruence].
      * specialize (X 0 ltac:(lia)). destruct (cg fs (sg j) (znth 0 ir 0)); [discriminate Ef|]. destruct (cb fs (sg j) (znth 0 ir 0) 0); [discriminate Ef|congruence].
Qed.
Lemma sigma_zero : forall l : @lbte M, shape0 l -> collect_sigma zeroM bzg2grg fs None (Go l) 0 = collect_sigma zeroM bzg2grg fs None (Go (set_temps zeroM ts l)) 0.
Proof.
  intros l S. unfold collect_sigma. cbn [obnd]. change (l_sig (set_temps zeroM ts l)) with (l_sig l). change (l_gp (set_temps zeroM ts l) 0) with (l_gp l 0).
  assert (I : forall t', set_temps zeroM t' (set_temps zeroM ts l) = set_temps zeroM t' l) by (intros; unfold set_temps; cbn; destruct (l_iso l); reflexivity).
  destruct (cf fs (znth 0 (l_sig l) 0)); [unfold read_full; cbn [Z.eqb negb]; now rewrite I|]. destruct (first_temps fs (znth 0 (l_sig l) 0) (l_gp l 0)); [|reflexivity]. cbn [Z.eqb]. now rewrite I.
Qed.
Lemma collect_stop : forall x l, x = Raised \/ x = Failed -> fold_left (collect_sigma zeroM bzg2grg fs None) l x = x.
Proof. intros x l H. induction l as [|y l IH]; [reflexivity|]. cbn [fold_left]. replace (collect_sigma zeroM bzg2grg fs None x y) with x by (destruct H as [-> | ->]; reflexivity). exact IH. Qed.
Lemma read_all_cases : forall l n, shape0 l -> 0 <= n ->
  ((forall j, 0 <= j < n -> cavail fs (sg j)) /\ exists a, fold_left (collect_sigma zeroM bzg2grg fs None) (zrange n) (Go l) = Go a /\ (0 < n -> shape a) /\ shape0 a /\ (n = 0 -> a = l) /\ forall j i b, 0 <= j < n -> 0 <= i < zlen ir -> 0 <= b < nb -> cright a j i b) \/
  (exists j, 0 <= j < n /\ (forall j', 0 <= j' < j -> cavail fs (sg j')) /\ ~ cavail fs (sg j) /\ fold_left (collect_sigma zeroM bzg2grg fs None) (zrange n) (Go l) = cbad (sg j)).
Proof.
  intros l n S0 Hn. pattern n. revert n Hn. apply natlike_ind.
  - left. split; [intros; lia|]. exists l. split; [reflexivity|]. split; [lia|]. split; [exact S0|]. split; [reflexivity|]. intros. lia.
  - intros n Hn [[A [a [E1 [E2 [E3 [E4 E5]]]]]]|[j [Hj [A [B E]]]]]; rewrite <- Z.add_1_r, zrange_succ, fold_left_app_one by lia.
    + rewrite E1. set (a' := if n =? 0 then set_temps zeroM ts a else a).
      assert (Ea : collect_sigma zeroM bzg2grg fs None (Go a) n = collect_sigma zeroM bzg2grg fs None (Go a') n) by (unfold a'; destruct (Z.eqb_spec n 0) as [->|]; [apply sigma_zero, E3|reflexivity]).
      assert (Sa : shape a') by (unfold a'; destruct (Z.eqb_spec n 0); [split; [exact E3|reflexivity]|apply E2; lia]).
      assert (Ha : n = 0 -> set_temps zeroM ts a' = a') by (intros ->; unfold a'; cbn; unfold set_temps; cbn; destruct (l_iso a); reflexivity).
      rewrite Ea. destruct (sigma_case n a' Hn Sa Ha) as [[B [a2 [F1 [F2 [F3 F4]]]]]|[B F]].
      * left. split; [intros j Hj; destruct (Z.eq_dec j n) as [->|]; [exact B|apply A; lia]|]. exists a2. split; [exact F1|]. split; [auto|]. split; [apply F2|]. split; [lia|].
        intros j i b Hj Hi Hb. destruct (Z.eq_dec j n) as [->|]; [now apply F4|]. apply F3; [repeat split; lia|]. unfold a'. destruct (Z.eqb_spec n 0); [lia|]. apply E5; auto. lia.
      * right. exists n. split; [lia|]. split; [exact A|]. split; [exact B|exact F].
    + right. exists j. split; [lia|]. split; [exact A|]. split; [exact B|]. rewrite E. apply (collect_stop (cbad (sg j)) [n]). unfold cbad. destruct (first_temps _ _ _); auto.
Qed.
End Read.

(** ** Writing *)
Definition at_ (l : @lbte M) (i : Z) : Z := if l_all l then pos bzg2grg l i else 0.
Definition wcells (l : @lbte M) (i : Z) : Prop := forall j t k, 0 <= j < zlen (l_sig l) -> 0 <= t < nT -> 0 <= k < zlen (l_bands l) ->
  l_gamma l j t (at_ l i) k = gam (znth 0 (l_sig l) j) (T t) (l_gp l i) (znth 0 (l_bands l) k) /\
  l_col l j t (at_ l i) k = col (znth 0 (l_sig l) j) (T t) (l_gp l i) (znth 0 (l_bands l) k).
Lemma cput_f_good : forall (fs : @cfsys M) s v, cgood fs -> (forall f, Some f = Some v -> c_ok (fun v => forall t i b, 0 <= t < nT -> 0 <= i < zlen ir -> 0 <= b < nb -> v t (p i) b = gam s (T t) (znth 0 ir i) b)
                                        (fun v => forall t i b, 0 <= t < nT -> 0 <= i < zlen ir -> 0 <= b < nb -> v t (p i) b = col s (T t) (znth 0 ir i) b) f) -> cgood (cput_f fs s v).
Proof. intros fs s v [A [B C]] H. split; [|split; [exact B|exact C]]. intros s' f E. cbn in E. destruct (Z.eqb_spec s' s) as [->|]; [auto|eauto]. Qed.
Lemma cput_g_good : forall (fs : @cfsys M) s g v, cgood fs -> (forall f, Some f = Some v -> c_ok (fun v => forall t b, 0 <= t < nT -> 0 <= b < nb -> v t b = gam s (T t) g b) (fun v => forall t b, 0 <= t < nT -> 0 <= b < nb -> v t b = col s (T t) g b) f) -> cgood (cput_g fs s g v).
Proof. intros fs s g v [A [B C]] H. split; [exact A|split; [|exact C]]. intros s' g' f E. cbn in E. destruct (Z.eqb_spec s' s) as [->|], (Z.eqb_spec g' g) as [->|]; cbn in E; eauto. Qed.
Lemma cput_b_good : forall (fs : @cfsys M) s g b v, cgood fs -> (forall f, Some f = Some v -> c_ok (fun v => forall t, 0 <= t < nT -> v t = gam s (T t) g b) (fun v => forall t, 0 <= t < nT -> v t = col s (T t) g b) f) -> cgood (cput_b fs s g b v).
Proof. intros fs s g b v [A [B C]] H. split; [exact A|split; [exact B|]]. intros s' g' b' f E. cbn in E. destruct (Z.eqb_spec s' s) as [->|], (Z.eqb_spec g' g) as [->|], (Z.eqb_spec b' b) as [->|]; cbn in E; eauto. Qed.
Lemma cfold_inv : forall (P : @cfsys M -> Prop) (f : @cfsys M -> Z -> cfsys) l, (forall fs x, In x l -> P fs -> P (f fs x)) -> forall fs, P fs -> P (fold_left f l fs).
Proof. intros P f. induction l as [|x l IH]; intros H fs H0; [exact H0|]. cbn [fold_left]. apply IH; [intros; apply H; [now right|assumption]|]. apply H; [now left|exact H0]. Qed.
Lemma write_col_good : forall l i fs, l_temps l = ts -> wcells l i -> cgood fs -> cgood (write_col nb bzg2grg l i fs).
Proof.
  intros l i fs Et C Gf. unfold write_col. fold (at_ l i). rewrite Et. destruct (zlist_eqb (l_bands l) (zrange nb)) eqn:E.
  - apply zlist_eqb_spec in E. apply cfold_inv; [|exact Gf]. intros fs' j Hj G'. apply in_zrange in Hj. apply cput_g_good; [exact G'|]. intros f Ef. injection Ef as ->. split; [reflexivity|]. split; [reflexivity|]. cbn [c_gamma c_col].
    assert (K : forall t b, 0 <= t < nT -> 0 <= b < nb -> l_gamma l j t (at_ l i) b = gam (znth 0 (l_sig l) j) (T t) (l_gp l i) b /\ l_col l j t (at_ l i) b = col (znth 0 (l_sig l) j) (T t) (l_gp l i) b).
    { intros t b Ht Hb. specialize (C j t b Hj Ht). rewrite E, zlen_zrange, znth_zrange in C by lia. auto. }
    split; intros t b Ht Hb; apply K; assumption.
  - apply cfold_inv; [|exact Gf]. intros fs' j Hj G'. apply in_zrange in Hj. apply cfold_inv; [|exact G']. intros fs2 k Hk G2. apply in_zrange in Hk. apply cput_b_good; [exact G2|]. intros f Ef. injection Ef as ->. split; [reflexivity|]. split; [reflexivity|]. cbn [c_gamma c_col].
    split; intros t Ht; apply (C j t k Hj Ht Hk).
Qed.
Record csame (l0 l : @lbte M) : Prop := CSame { sm1 : l_gps l = l_gps l0; sm2 : l_bands l = l_bands l0; sm3 : l_sig l = l_sig l0; sm4 : l_all l = l_all l0; sm5 : l_red l = l_red l0; sm6 : l_temps l = l_temps l0; sm7 : l_read l = l_read l0 }.
Lemma lbte_at_same : forall l i, csame l (lbte_at zeroM gam col iso bzg2grg l i). Proof. intros. constructor; reflexivity. Qed.
Lemma csame_trans : forall a b c, csame a b -> csame b c -> csame a c. Proof. intros a b c [A1 A2 A3 A4 A5 A6 A7] [B1 B2 B3 B4 B5 B6 B7]. constructor; congruence. Qed.
Lemma csame_pos : forall l0 l i, csame l0 l -> pos bzg2grg l i = pos bzg2grg l0 i. Proof. intros l0 l i H. unfold pos, l_gp. rewrite (sm5 _ _ H), (sm1 _ _ H). reflexivity. Qed.
Lemma csame_at : forall l0 l i, csame l0 l -> at_ l i = at_ l0 i. Proof. intros l0 l i H. unfold at_. rewrite (csame_pos _ _ _ H), (sm4 _ _ H). reflexivity. Qed.
Lemma lbte_at_cells : forall l i, l_temps l = ts -> l_read l = false -> wcells (lbte_at zeroM gam col iso bzg2grg l i) i.
Proof.
  intros l i Et Er j t k Hj Ht Hk. rewrite (csame_at _ _ i (lbte_at_same l i)). unfold lbte_at, set_arrays. cbn [l_gamma l_col l_sig l_bands l_gp l_gps]. rewrite Er, Et. fold (at_ l i). rewrite !Z.eqb_refl. split; reflexivity.
Qed.
Lemma lbte_at_other : forall l i i', l_temps l = ts -> l_read l = false -> l_all l = true -> pos bzg2grg l i' <> pos bzg2grg l i -> wcells l i' -> wcells (lbte_at zeroM gam col iso bzg2grg l i) i'.
Proof.
  intros l i i' Et Er Ea Hne C j t k Hj Ht Hk. rewrite (csame_at _ _ i' (lbte_at_same l i)). unfold lbte_at, set_arrays. cbn [l_gamma l_col l_sig l_bands l_gp l_gps] in *. rewrite Er, Ea. unfold at_. rewrite Ea. destruct (Z.eqb_spec (pos bzg2grg l i') (pos bzg2grg l i)); [contradiction|].
  specialize (C j t k Hj Ht Hk). unfold at_ in C. rewrite Ea in C. exact C.
Qed.
Definition cjob_ok (q : cjob) : Prop := q_red q = red /\ (q_sol q = true -> q_gps q = None /\ q_bands q = zrange nb).
Lemma csteps : forall l0 fs0 n, l_temps l0 = ts -> l_read l0 = false -> cgood fs0 -> 0 <= n -> let st := fold_left (cstep zeroM gam col iso nb bzg2grg) (zrange n) (l0, fs0) in
  csame l0 (fst st) /\ cgood (snd st) /\ (l_all l0 = true -> (forall i i', 0 <= i < n -> 0 <= i' < n -> pos bzg2grg l0 i = pos bzg2grg l0 i' -> i = i') -> forall i, 0 <= i < n -> wcells (fst st) i).
Proof.
  intros l0 fs0 n Et Er Gf Hn. cbv zeta. pattern n. revert n Hn. apply natlike_ind.
  - cbn. split; [constructor; reflexivity|]. split; [exact Gf|]. intros. lia.
  - intros n Hn [A [B C]]. rewrite <- Z.add_1_r, zrange_succ, fold_left_app_one by lia. destruct (fold_left _ (zrange n) (l0, fs0)) as [l fs] eqn:E. cbn [fst snd] in *. unfold cstep at 1 2 3. cbn [fst snd].
    assert (Et' : l_temps l = ts) by (rewrite (sm6 _ _ A); exact Et). assert (Er' : l_read l = false) by (rewrite (sm7 _ _ A); exact Er).
    split; [eapply csame_trans; [exact A|apply lbte_at_same]|]. split.
    + apply write_col_good; [exact Et'| |exact B]. apply lbte_at_cells; assumption.
    + intros Ha Hinj i Hi. destruct (Z.eq_dec i n) as [->|Hne]; [apply lbte_at_cells; assumption|]. apply lbte_at_other; auto.
      * rewrite (sm4 _ _ A). exact Ha.
      * rewrite !(csame_pos _ _ _ A). intros X. apply Hne, Hinj; [lia|lia|exact X].
      * apply C; [exact Ha| |lia]. intros. apply Hinj; lia.
Qed.
Lemma write_full_good : forall l fs, l_temps l = ts -> l_all l = true -> l_gps l = ir -> l_red l = red -> l_bands l = zrange nb -> (forall i, 0 <= i < zlen ir -> wcells l i) -> cgood fs -> cgood (write_col_full l fs).
Proof.
  intros l fs Et Ea Eg Er Eb C Gf. unfold write_col_full. rewrite Et. apply cfold_inv; [|exact Gf]. intros fs' j Hj G'. apply in_zrange in Hj. apply cput_f_good; [exact G'|]. intros f Ef. injection Ef as ->. split; [reflexivity|]. split; [reflexivity|]. cbn [c_gamma c_col].
  assert (K : forall t i b, 0 <= t < nT -> 0 <= i < zlen ir -> 0 <= b < nb -> l_gamma l j t (p i) b = gam (znth 0 (l_sig l) j) (T t) (znth 0 ir i) b /\ l_col l j t (p i) b = col (znth 0 (l_sig l) j) (T t) (znth 0 ir i) b).
  { intros t i b Ht Hi Hb. specialize (C i Hi j t b Hj Ht). rewrite Eb, zlen_zrange, znth_zrange in C by lia. unfold at_, pos, l_gp in C. rewrite Ea, Er, Eg in C. unfold p. apply C. exact Hb. }
  split; intros t i b Ht Hi Hb; apply K; assumption.
Qed.
Lemma cjob_good : forall q fs, cjob_ok q -> cgood fs -> cgood (snd (run_cjob zeroM gam col iso nb bzg2grg ir ts q fs)).
Proof.
  intros q fs [Hr Hq] Gf. unfold run_cjob. set (l := new_lbte _ _ _ _ _ _ _ _). cbv zeta. cbn [snd]. pose proof (zlen_pos _ (l_gps l)) as Hp. set (n := Z.min (q_steps q) (zlen (l_gps l))) in *.
  destruct (Z_lt_dec n 0) as [Hneg|Hnn].
  { rewrite zrange_nonpos by lia. cbn [fold_left fst snd]. destruct (Z.eqb_spec n (zlen (l_gps l))) as [X|X]; [lia|]. rewrite andb_false_r. exact Gf. }
  destruct (csteps l fs n) as [A [B C]]; [reflexivity|reflexivity|exact Gf|lia|].
  destruct (q_sol q && (n =? zlen (l_gps l))) eqn:E; [|exact B]. apply andb_prop in E as [E1 E2]. apply Z.eqb_eq in E2. destruct (Hq E1) as [Hg Hb].
  assert (Eg : l_gps l = ir) by (unfold l; rewrite Hg; reflexivity). assert (Ea : l_all l = true) by (unfold l; rewrite Hg; reflexivity). assert (Er : l_red l = red) by exact Hr.
  destruct A as [A1 A2 A3 A4 A5 A6 A7]. apply write_full_good; [rewrite A6; reflexivity|rewrite A4; exact Ea|rewrite A1; exact Eg|rewrite A5; exact Er|rewrite A2; exact Hb| |exact B]. intros i Hi. apply C; [exact Ea| |rewrite E2, Eg; exact Hi].
  intros i1 i2 H1 H2. unfold pos, l_gp. rewrite Er, Eg. intros X. apply p_inj; [rewrite <- Eg, <- E2; exact H1|rewrite <- Eg, <- E2; exact H2|exact X].
Qed.
Fixpoint run_cjobs (qs : list cjob) (fs : cfsys) : cfsys := match qs with [] => fs | q :: t => run_cjobs t (snd (run_cjob zeroM gam col iso nb bzg2grg ir ts q fs)) end.
Lemma cjobs_good : forall qs fs, Forall cjob_ok qs -> cgood fs -> cgood (run_cjobs qs fs).
Proof. induction qs as [|q qs IH]; intros fs H Gf; [exact Gf|]. inversion H as [|x y H1 H2]; subst. cbn. apply IH; [exact H2|]. apply cjob_good; assumption. Qed.
Lemma no_cfiles_good : cgood (@no_cfiles M). Proof. repeat split; intros; discriminate. Qed.
(** the object before reading *)
Definition reader (sig : list Z) (is_iso : bool) : @lbte M := new_lbte zeroM ir (zrange nb) sig true red [] is_iso.
(** ** C67: reading back what any sequence of interrupted calculations wrote. The collision matrix is right at every temperature;
    the linewidths are those of the temperature [tsel]: the right one where the file of the grid point was read, otherwise (full
    file or files of bands) always the first. Missing: linewidths in the latter case (refuted), selected temperatures (refuted). *)
Theorem C67_read_partial : forall qs sig is_iso, 0 < zlen sig -> Forall cjob_ok qs -> let fs := run_cjobs qs no_cfiles in
  (forall s, In s sig -> cavail fs s) ->
  exists l, set_collision_from_file zeroM bzg2grg fs None (reader sig is_iso) = Go l /\ l_temps l = ts /\
    forall j t i b, 0 <= j < zlen sig -> 0 <= t < nT -> 0 <= i < zlen ir -> 0 <= b < nb ->
      l_col l j t (p i) b = col (znth 0 sig j) (T t) (znth 0 ir i) b /\
      l_gamma l j t (p i) b = gam (znth 0 sig j) (T (tsel fs (znth 0 sig j) (znth 0 ir i) t)) (znth 0 ir i) b.
Proof.
  intros qs sig is_iso Hs Hq fs Ha. assert (Gf : cgood fs) by (apply cjobs_good; [exact Hq|apply no_cfiles_good]).
  destruct (read_all_cases fs Gf sig (reader sig is_iso) (zlen sig)) as [[A [a [E1 [E2 [E3 [E4 E5]]]]]]|[j [Hj [_ [B _]]]]]; [repeat split|lia| |].
  - exists a. split; [exact E1|]. split; [apply E2; exact Hs|]. intros j t i b Hj Ht Hi Hb. apply E5; assumption.
  - exfalso. apply B, Ha. unfold znth. apply nth_In. unfold zlen in Hj. lia.
Qed.
Corollary C67_grid_point_files : forall qs sig is_iso, 0 < zlen sig -> Forall cjob_ok qs -> let fs := run_cjobs qs no_cfiles in
  (forall s i, In s sig -> 0 <= i < zlen ir -> cf fs s = None /\ cg fs s (znth 0 ir i) <> None) ->
  exists l, set_collision_from_file zeroM bzg2grg fs None (reader sig is_iso) = Go l /\ l_temps l = ts /\
    forall j t i b, 0 <= j < zlen sig -> 0 <= t < nT -> 0 <= i < zlen ir -> 0 <= b < nb ->
      l_col l j t (p i) b = col (znth 0 sig j) (T t) (znth 0 ir i) b /\ l_gamma l j t (p i) b = gam (znth 0 sig j) (T t) (znth 0 ir i) b.
Proof.
  intros qs sig is_iso Hs Hq fs Hf. destruct (C67_read_partial qs sig is_iso Hs Hq) as [l [E1 [E2 E3]]].
  - intros s Hin. right. intros i Hi. left. apply Hf; assumption.
  - exists l. split; [exact E1|]. split; [exact E2|]. intros j t i b Hj Ht Hi Hb. destruct (E3 j t i b Hj Ht Hi Hb) as [X Y]. split; [exact X|]. rewrite Y. unfold tsel.
    destruct (Hf (znth 0 sig j) i) as [F1 F2]; [unfold znth; apply nth_In; unfold zlen in Hj; lia|exact Hi|]. fold fs. rewrite F1. destruct (cg fs (znth 0 sig j) (znth 0 ir i)); [reflexivity|congruence].
Qed.
(** ** C47: with data missing, the outcome is a failure value when, for the first smearing width in question, neither the file
    of the first grid point nor that of its first band exists; otherwise an error is raised. Missing: the latter (refuted). *)
Theorem C47_missing_partial : forall qs sig is_iso, Forall cjob_ok qs -> let fs := run_cjobs qs no_cfiles in
  ~ (forall s, In s sig -> cavail fs s) ->
  exists j, 0 <= j < zlen sig /\ ~ cavail fs (znth 0 sig j) /\
    ((cg fs (znth 0 sig j) (znth 0 ir 0) = None /\ cb fs (znth 0 sig j) (znth 0 ir 0) 0 = None /\ set_collision_from_file zeroM bzg2grg fs None (reader sig is_iso) = Failed) \/
     ((cg fs (znth 0 sig j) (znth 0 ir 0) <> None \/ cb fs (znth 0 sig j) (znth 0 ir 0) 0 <> None) /\ set_collision_from_file zeroM bzg2grg fs None (reader sig is_iso) = Raised)).
Proof.
  intros qs sig is_iso Hq fs Hn. assert (Gf : cgood fs) by (apply cjobs_good; [exact Hq|apply no_cfiles_good]).
  destruct (read_all_cases fs Gf sig (reader sig is_iso) (zlen sig)) as [[A _]|[j [Hj [_ [B E]]]]]; [repeat split|apply zlen_pos| |].
  - exfalso. apply Hn. intros s Hin. destruct (In_nth _ _ 0 Hin) as [k [Hk Ek]]. specialize (A (Z.of_nat k)). unfold znth in A. rewrite Nat2Z.id, Ek in A. apply A. unfold zlen. lia.
  - exists j. split; [exact Hj|]. split; [exact B|]. unfold set_collision_from_file. cbn [reader new_lbte set_temps l_sig]. unfold reader, new_lbte, set_temps in E. cbn [l_gps l_bands l_sig l_all l_red l_temps l_iso l_read] in E. unfold reader, new_lbte, set_temps. cbn [l_gps l_bands l_sig l_all l_red l_temps l_iso l_read]. rewrite E. unfold cbad, first_temps. destruct (cg fs (znth 0 sig j) (znth 0 ir 0)); [right; split; [left; discriminate|reflexivity]|].
    destruct (cb fs (znth 0 sig j) (znth 0 ir 0) 0); [right; split; [right; discriminate|reflexivity]|left; auto].
Qed.
(** ** C69: isotope linewidths in the files, when all grid points are calculated. Missing: given grid points (refuted). *)
Definition isogood (fs : @cfsys M) : Prop := (forall s g f x b, cg fs s g = Some f -> c_iso f = Some x -> 0 <= b < nb -> x b = iso s g b) /\ (forall s g b f x, cb fs s g b = Some f -> c_iso f = Some x -> x = iso s g b).
Lemma write_col_iso : forall l i fs, l_all l = true -> isogood fs -> isogood (write_col nb bzg2grg (lbte_at zeroM gam col iso bzg2grg l i) i fs).
Proof.
  intros l i fs Ha Gi. set (l1 := lbte_at zeroM gam col iso bzg2grg l i). pose proof (lbte_at_same l i) as Sm. fold l1 in Sm.
  assert (K : forall x j k, l_iso l1 = Some x -> x j (pos bzg2grg l1 i) k = iso (znth 0 (l_sig l1) j) (l_gp l1 i) (znth 0 (l_bands l1) k)).
  { intros x j k E. rewrite (csame_pos _ _ i Sm). unfold l1, lbte_at, set_arrays in E |- *. cbn [l_iso l_sig l_gp l_gps l_bands] in *. destruct (l_iso l); [|discriminate E]. cbn in E. injection E as <-. rewrite Z.eqb_refl. reflexivity. }
  assert (Ha1 : l_all l1 = true) by (rewrite (sm4 _ _ Sm); exact Ha). clearbody l1. unfold write_col. rewrite Ha1. destruct (zlist_eqb (l_bands l1) (zrange nb)) eqn:E.
  - apply zlist_eqb_spec in E. apply cfold_inv; [|exact Gi]. intros fs' j Hj [G1 G2]. split; [|exact G2]. intros s g f x b Ef Ex Hb. cbn in Ef. destruct (Z.eqb_spec s (znth 0 (l_sig l1) j)) as [->|], (Z.eqb_spec g (l_gp l1 i)) as [->|]; cbn [andb] in Ef; try (eapply G1; eassumption).
    injection Ef as <-. cbn [c_iso] in Ex. destruct (l_iso l1) as [y|] eqn:Ey; [|discriminate Ex]. cbn in Ex. injection Ex as <-. rewrite (K y j b eq_refl), E, znth_zrange by exact Hb. reflexivity.
  - apply cfold_inv; [|exact Gi]. intros fs' j Hj G'. apply cfold_inv; [|exact G']. intros fs2 k Hk [G1 G2]. split; [exact G1|]. intros s g b f x Ef Ex. cbn in Ef. destruct (Z.eqb_spec s (znth 0 (l_sig l1) j)) as [->|], (Z.eqb_spec g (l_gp l1 i)) as [->|], (Z.eqb_spec b (znth 0 (l_bands l1) k)) as [->|]; cbn [andb] in Ef; try (eapply G2; eassumption).
    injection Ef as <-. cbn [c_iso] in Ex. destruct (l_iso l1) as [y|] eqn:Ey; [|discriminate Ex]. cbn in Ex. injection Ex as <-. apply K. reflexivity.
Qed.
Theorem C69_all_grid_points_partial : forall qs fs, Forall (fun q => q_gps q = None) qs -> isogood fs -> isogood (run_cjobs qs fs).
Proof.
  induction qs as [|q qs IH]; intros fs H Gi; [exact Gi|]. inversion H as [|x y H1 H2]; subst. cbn. apply IH; [exact H2|]. unfold run_cjob. set (l := new_lbte _ _ _ _ _ _ _ _). cbv zeta. cbn [snd].
  assert (Ha : l_all l = true) by (unfold l; rewrite H1; reflexivity). clearbody l.
  assert (K : forall n l fs, l_all l = true -> isogood fs -> isogood (snd (fold_left (cstep zeroM gam col iso nb bzg2grg) n (l, fs)))).
  { clear. induction n as [|i n IH]; intros l fs Ha Gi; [exact Gi|]. cbn [fold_left]. unfold cstep at 2. cbn [fst snd]. apply IH; [rewrite (sm4 _ _ (lbte_at_same l i)); exact Ha|]. now apply write_col_iso. }
  destruct (q_sol q && _); [|apply K; assumption].
  unfold write_col_full. apply cfold_inv; [|apply K; assumption]. intros fs' j _ [G1 G2]. split; [exact G1|exact G2].
Qed.
(** ** C68: what was read is not used: the loop over the grid points computes everything again. (Universal statement; the property
    is refuted.) *)
Lemma collect_same : forall fs ix nloc j s l i, match collect bzg2grg fs ix nloc j s (Go l) i with Go l' => csame l l' | _ => True end.
Proof.
  intros fs ix nloc j s l i. unfold collect. cbn [obnd]. destruct (cg fs s (l_gp l i)).
  - unfold collect_gp. destruct (_ && _); [|exact I]. constructor; reflexivity.
  - assert (K : forall n x, match x with Go l' => csame l l' | _ => True end -> match fold_left (collect_band bzg2grg fs ix nloc j s i) n x with Go l' => csame l l' | _ => True end).
    { induction n as [|b n IH]; intros x H; [exact H|]. cbn [fold_left]. apply IH. unfold collect_band. destruct x as [l'| |]; cbn [obnd]; try exact I. destruct (cb fs s (l_gp l' i) b); [|exact I]. destruct (_ && _); [|exact I]. destruct H. constructor; assumption. }
    apply K. constructor; reflexivity.
Qed.
Record csame' (l0 l : @lbte M) : Prop := CSame' { sn1 : l_gps l = l_gps l0; sn2 : l_bands l = l_bands l0; sn3 : l_sig l = l_sig l0; sn4 : l_all l = l_all l0; sn5 : l_red l = l_red l0; sn7 : l_read l = l_read l0 }.
Lemma csame_weak : forall a b, csame a b -> csame' a b. Proof. intros a b []. constructor; assumption. Qed.
Lemma csame'_trans : forall a b c, csame' a b -> csame' b c -> csame' a c. Proof. intros a b c [] []. constructor; congruence. Qed.
Lemma set_col_same : forall fs ix l, match set_collision_from_file zeroM bzg2grg fs ix l with Go l' => csame' l l' | _ => True end.
Proof.
  intros fs ix l. unfold set_collision_from_file.
  assert (K : forall n x, match x with Go l' => csame' l l' | _ => True end -> match fold_left (collect_sigma zeroM bzg2grg fs ix) n x with Go l' => csame' l l' | _ => True end).
  { induction n as [|j n IH]; intros x H; [exact H|]. cbn [fold_left]. apply IH. unfold collect_sigma. destruct x as [l1| |]; cbn [obnd]; try exact I.
    destruct (cf fs (znth 0 (l_sig l1) j)).
    - unfold read_full. destruct (_ && _); [|exact I]. destruct (negb (j =? 0)); destruct H; constructor; assumption.
    - destruct (first_temps fs (znth 0 (l_sig l1) j) (l_gp l1 0)) as [ts'|]; [|exact I].
      set (l2 := if j =? 0 then set_temps zeroM ts' l1 else l1). assert (H2 : csame' l l2) by (unfold l2; destruct (j =? 0); [destruct H; constructor; assumption|exact H]). clearbody l2.
      assert (K2 : forall m x, match x with Go l' => csame' l l' | _ => True end -> match fold_left (collect bzg2grg fs ix (zlen ts') j (znth 0 (l_sig l1) j)) m x with Go l' => csame' l l' | _ => True end).
      { clear - bzg2grg. induction m as [|i m IH]; intros x H; [exact H|]. cbn [fold_left]. apply IH. destruct x as [l3| |]; try exact I. pose proof (collect_same fs ix (zlen ts') j (znth 0 (l_sig l1) j) l3 i) as X. destruct (collect _ _ _ _ _ _ _ _); try exact I. eapply csame'_trans; [exact H|]. now apply csame_weak. }
      apply K2. exact H2. }
  apply K. constructor; reflexivity.
Qed.
Theorem C68_computed_again : forall fs ix l l1, l_read l = false -> l_all l = true ->
  (forall i i', 0 <= i < zlen (l_gps l) -> 0 <= i' < zlen (l_gps l) -> pos bzg2grg l i = pos bzg2grg l i' -> i = i') ->
  set_collision_from_file zeroM bzg2grg fs ix l = Go l1 ->
  exists l2, read_and_run zeroM gam col iso bzg2grg fs ix l = Go l2 /\ l_temps l2 = l_temps l1 /\
    forall j t i k, 0 <= i < zlen (l_gps l) ->
      l_gamma l2 j t (pos bzg2grg l i) k = gam (znth 0 (l_sig l) j) (znth 0%Q (l_temps l2) t) (l_gp l i) (znth 0 (l_bands l) k) /\
      l_col l2 j t (pos bzg2grg l i) k = col (znth 0 (l_sig l) j) (znth 0%Q (l_temps l2) t) (l_gp l i) (znth 0 (l_bands l) k).
Proof.
  intros fs ix l l1 Er Ea Hinj E. pose proof (set_col_same fs ix l) as Sm. unfold read_and_run. rewrite E in *. cbn [obnd]. eexists. split; [reflexivity|].
  destruct Sm as [S1 S2 S3 S4 S5 S7]. rewrite S1.
  assert (K : forall n, 0 <= n <= zlen (l_gps l) -> let l2 := fold_left (lbte_at zeroM gam col iso bzg2grg) (zrange n) l1 in csame l1 l2 /\ forall j t i k, 0 <= i < n ->
      l_gamma l2 j t (pos bzg2grg l i) k = gam (znth 0 (l_sig l) j) (znth 0%Q (l_temps l2) t) (l_gp l i) (znth 0 (l_bands l) k) /\
      l_col l2 j t (pos bzg2grg l i) k = col (znth 0 (l_sig l) j) (znth 0%Q (l_temps l2) t) (l_gp l i) (znth 0 (l_bands l) k)).
  { intros n [Hn Hn2]. revert Hn2. pattern n. revert n Hn. apply natlike_ind.
    - intros _. cbn. split; [constructor; reflexivity|]. intros. lia.
    - intros n Hn IH Hn2. destruct IH as [A B]; [lia|]. cbv zeta. rewrite <- Z.add_1_r, zrange_succ, fold_left_app_one by lia. set (l2 := fold_left (lbte_at zeroM gam col iso bzg2grg) (zrange n) l1) in *.
      split; [eapply csame_trans; [exact A|apply lbte_at_same]|]. intros j t i k Hi. unfold lbte_at, set_arrays. cbn [l_gamma l_col l_temps]. destruct A as [A1 A2 A3 A4 A5 A6 A7]. rewrite A7, S7, Er, A4, S4, Ea.
      assert (Hp2 : forall i, pos bzg2grg l2 i = pos bzg2grg l i) by (intros; unfold pos, l_gp; rewrite A5, S5, A1, S1; reflexivity). assert (Hg2 : forall i, l_gp l2 i = l_gp l i) by (intros; unfold l_gp; rewrite A1, S1; reflexivity). rewrite Hp2, Hg2, A3, S3, A2, S2.
      destruct (Z.eqb_spec (pos bzg2grg l i) (pos bzg2grg l n)) as [Ep|Ep].
      + apply Hinj in Ep; [|lia|lia]. rewrite Ep. split; reflexivity.
      + destruct (Z.eq_dec i n) as [->|]; [congruence|]. apply B. lia. }
  destruct (K (zlen (l_gps l))) as [A B]; [split; [apply zlen_pos|lia]|]. split; [apply A|exact B].
Qed.
End ColFile.
Print Assumptions C67_read_partial.
Print Assumptions C67_grid_point_files.
Print Assumptions C47_missing_partial.
Print Assumptions C69_all_grid_points_partial.
Print Assumptions C68_computed_again.

(** ** Examples and witnesses *)
Definition xg (s : Z) (t : Q) (g b : Z) : Q := Qred (inject_Z (1000 * s + 100 * g + 10 * b) + t)%Q.
Definition xc (s : Z) (t : Q) (g b : Z) : Q := Qred (- xg s t g b)%Q.
Definition xi (s g b : Z) : Q := inject_Z (10 * g + b).
Definition xts : list Q := [100; 300]%Q.
Definition xir : list Z := [3; 7].
Definition xrun (qs : list cjob) : @cfsys Q := run_cjobs 0%Q xg xc xi 2 (fun z => z) xir xts qs no_cfiles.
Definition xread (ix : option (list Z)) (qs : list cjob) : @outcome Q := set_collision_from_file 0%Q (fun z => z) (xrun qs) ix (reader 0%Q 2 xir false [1] true).
(** an interrupted calculation and one of single bands, then reading: the matrix at the second temperature *)
Example C67_ex : Forall (cjob_ok 2 false) [CJob None [0; 1] [1] false true true 1; CJob (Some [7]) [0] [1] false true false 1; CJob (Some [7]) [1] [1] false false false 1] /\
  match xread None [CJob None [0; 1] [1] false true true 1; CJob (Some [7]) [0] [1] false true false 1; CJob (Some [7]) [1] [1] false false false 1] with
  | Go l => l_temps l = xts /\ l_col l 0 1 0 1 = xc 1 300%Q 3 1 /\ l_col l 0 1 1 1 = xc 1 300%Q 7 1 /\ l_gamma l 0 1 0 1 = xg 1 300%Q 3 1
  | _ => False end.
Proof. split; [|vm_compute; repeat split]. repeat (apply Forall_cons; [split; [reflexivity|intros; split; solve [reflexivity | discriminate]]|]). apply Forall_nil. Qed.
Example C67_grid_point_files_ex : match xread None [CJob (Some [7; 3]) [0; 1] [1] false true false 9] with
  | Go l => l_temps l = xts /\ l_col l 0 1 0 1 = xc 1 300%Q 3 1 /\ l_gamma l 0 1 1 1 = xg 1 300%Q 7 1 | _ => False end.
Proof. vm_compute. repeat split. Qed.
(** the full file and the files of bands: linewidths of the first temperature at all temperatures *)
Theorem C67_full_file_refuted : exists qs l, Forall (cjob_ok 2 false) qs /\ xread None qs = Go l /\ l_temps l = [100; 300]%Q /\
  l_gamma l 0 1 0 0 = xg 1 100%Q 3 0 /\ ~ Qeq (l_gamma l 0 1 0 0) (xg 1 300%Q 3 0).
Proof.
  exists [CJob None [0; 1] [1] false true true 9].
  assert (K : match xread None [CJob None [0; 1] [1] false true true 9] with Go l => l_temps l = [100; 300]%Q /\ l_gamma l 0 1 0 0 = xg 1 100%Q 3 0 | _ => False end) by (vm_compute; repeat split).
  revert K. generalize (xread None [CJob None [0; 1] [1] false true true 9]). intros [l| |] K; try contradiction. destruct K as [K1 K2]. exists l.
  split; [apply Forall_cons; [split; [reflexivity|intros; split; reflexivity]|apply Forall_nil]|]. split; [reflexivity|]. split; [exact K1|]. split; [exact K2|]. rewrite K2. discriminate.
Qed.
Theorem C67_band_files_refuted : exists qs l, Forall (cjob_ok 2 false) qs /\ xread None qs = Go l /\ l_temps l = [100; 300]%Q /\
  l_gamma l 0 1 0 0 = xg 1 100%Q 3 0 /\ ~ Qeq (l_gamma l 0 1 0 0) (xg 1 300%Q 3 0).
Proof.
  set (qs := [CJob None [0] [1] false true false 9; CJob None [1] [1] false true false 9]). exists qs.
  assert (K : match xread None qs with Go l => l_temps l = [100; 300]%Q /\ l_gamma l 0 1 0 0 = xg 1 100%Q 3 0 | _ => False end) by (vm_compute; repeat split).
  revert K. generalize (xread None qs). intros [l| |] K; try contradiction. destruct K as [K1 K2]. exists l.
  split; [repeat (apply Forall_cons; [split; [reflexivity|intros; discriminate]|]); apply Forall_nil|]. split; [reflexivity|]. split; [exact K1|]. split; [exact K2|]. rewrite K2. discriminate.
Qed.
(** the second temperature asked for: two temperatures, both with the data of the second *)
Theorem C67_selected_refuted : exists qs l, Forall (cjob_ok 2 false) qs /\ xread (Some [1]) qs = Go l /\ l_temps l = [100; 300]%Q /\
  l_gamma l 0 0 0 0 = xg 1 300%Q 3 0 /\ l_col l 0 0 0 0 = xc 1 300%Q 3 0 /\ ~ Qeq (l_gamma l 0 0 0 0) (xg 1 100%Q 3 0).
Proof.
  set (qs := [CJob None [0; 1] [1] false true false 9]). exists qs.
  assert (K : match xread (Some [1]) qs with Go l => l_temps l = [100; 300]%Q /\ l_gamma l 0 0 0 0 = xg 1 300%Q 3 0 /\ l_col l 0 0 0 0 = xc 1 300%Q 3 0 | _ => False end) by (vm_compute; repeat split).
  revert K. generalize (xread (Some [1]) qs). intros [l| |] K; try contradiction. destruct K as [K1 [K2 K3]]. exists l.
  split; [repeat (apply Forall_cons; [split; [reflexivity|intros; discriminate]|]); apply Forall_nil|]. split; [reflexivity|]. split; [exact K1|]. split; [exact K2|]. split; [exact K3|]. rewrite K2. discriminate.
Qed.
(** the calculation stopped after one grid point: reading raises an error *)
Theorem C47_interrupted_refuted : exists q, cjob_ok 2 false q /\ q_steps q = 1 /\ xread None [q] = Raised.
Proof. exists (CJob None [0; 1] [1] false true true 1). split; [split; [reflexivity|intros; split; reflexivity]|]. split; [reflexivity|]. vm_compute. reflexivity. Qed.
Example C47_ex : xread None [CJob (Some [7]) [0; 1] [1] false true false 1] = Failed.
Proof. vm_compute. reflexivity. Qed.
(** two given grid points: the file of the second holds the isotope linewidths of the first *)
Theorem C69_given_grid_points_refuted : exists q f x, q_gps q = Some [3; 7] /\ cg (xrun [q]) 1 7 = Some f /\ c_iso f = Some x /\ x 1 = xi 1 3 1 /\ ~ Qeq (x 1) (xi 1 7 1).
Proof.
  set (q := CJob (Some [3; 7]) [0; 1] [1] false true false 9). exists q.
  assert (K : match cg (xrun [q]) 1 7 with Some f => match c_iso f with Some x => x 1 = xi 1 3 1 | None => False end | None => False end) by (vm_compute; reflexivity).
  revert K. generalize (cg (xrun [q]) 1 7). intros [f|] K; [|contradiction]. exists f. destruct (c_iso f) as [x|]; [|contradiction]. exists x. split; [reflexivity|]. split; [reflexivity|]. split; [reflexivity|]. split; [exact K|]. rewrite K. discriminate.
Qed.
Example C69_ex : match cg (xrun [CJob None [0; 1] [1] false true false 9]) 1 7 with Some f => match c_iso f with Some x => x 1 = xi 1 7 1 | None => False end | None => False end.
Proof. vm_compute. reflexivity. Qed.
(** files of another calculation (linewidths ten times larger): read, and then everything is computed *)
Theorem C68_read_refuted : exists (gam gam' : Z -> Q -> Z -> Z -> Q) l1 l2,
  let fs := run_cjobs 0%Q gam' xc xi 2 (fun z => z) xir xts [CJob None [0; 1] [1] false true false 9] no_cfiles in
  let l := reader 0%Q 2 xir false [1] true in
  set_collision_from_file 0%Q (fun z => z) fs None l = Go l1 /\ l_gamma l1 0 1 0 0 = gam' 1 300%Q 3 0 /\
  read_and_run 0%Q gam xc xi (fun z => z) fs None l = Go l2 /\ l_gamma l2 0 1 0 0 = gam 1 300%Q 3 0 /\ ~ Qeq (l_gamma l2 0 1 0 0) (gam' 1 300%Q 3 0).
Proof.
  exists xg, (fun s t g b => Qred (10 * xg s t g b)). cbv zeta.
  set (fs := run_cjobs _ _ _ _ _ _ _ _ _ _). set (l := reader _ _ _ _ _ _).
  assert (K : match set_collision_from_file 0%Q (fun z => z) fs None l, read_and_run 0%Q xg xc xi (fun z => z) fs None l with
    | Go l1, Go l2 => l_gamma l1 0 1 0 0 = Qred (10 * xg 1 300%Q 3 0) /\ l_gamma l2 0 1 0 0 = xg 1 300%Q 3 0 | _, _ => False end) by (vm_compute; split; reflexivity).
  revert K. generalize (read_and_run 0%Q xg xc xi (fun z => z) fs None l). generalize (set_collision_from_file 0%Q (fun z => z) fs None l). intros [l1| |] [l2| |] K; try contradiction. destruct K as [K1 K2].
  exists l1, l2. split; [reflexivity|]. split; [exact K1|]. split; [reflexivity|]. split; [exact K2|]. rewrite K2. discriminate.
Qed.
Print Assumptions C67_full_file_refuted.
Print Assumptions C67_band_files_refuted.
Print Assumptions C67_selected_refuted.
Print Assumptions C47_interrupted_refuted.
Print Assumptions C69_given_grid_points_refuted.
Print Assumptions C68_read_refuted.
