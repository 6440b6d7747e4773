From Coq Require Import ZArith QArith List Lia Bool.
From Verif Require Import Base BaseProofs RestartModel.
Import ListNotations.
Open Scope Z_scope.

Lemma zlist_eqb_spec : forall a b, zlist_eqb a b = true -> a = b.
Proof. induction a as [|x a IH]; intros [|y b] H; cbn in H; try discriminate H; [reflexivity|]. apply andb_prop in H as [A B]. apply Z.eqb_eq in A as ->. f_equal. auto. Qed.
Lemma zlist_eqb_refl : forall a, zlist_eqb a a = true.
Proof. induction a as [|x a IH]; [reflexivity|]. cbn. now rewrite Z.eqb_refl, IH. Qed.
Lemma znth_zrange : forall n k, 0 <= k < n -> znth 0 (zrange n) k = k.
Proof.
  intros n k H. unfold znth, zrange. change 0 with (Z.of_nat 0) at 1. rewrite map_nth, seq_nth by lia. lia.
Qed.
Lemma zlen_zrange : forall n, 0 <= n -> zlen (zrange n) = n. Proof. intros n H. unfold zlen. rewrite length_zrange. lia. Qed.
Lemma zlen_pos : forall A (l : list A), 0 <= zlen l. Proof. intros. unfold zlen. lia. Qed.

(** ** What the files should hold *)
Section Restart.
Variables lw lwN lwU : Z -> Q -> Z -> Z -> Q.
Variable nb : Z.
Hypothesis nb_pos : 0 <= nb.
Variable ir : list Z.
Variable temps : list Q.
(** whether normal and Umklapp parts are computed: the same in all runs *)
Variable nu : bool.
Notation nT := (zlen temps).
Notation T := (znth 0%Q temps).
Definition file_ok {A} (ok : (Z -> Q -> Z -> Z -> Q) -> (Z -> A) -> Prop) (x : gfile A) : Prop :=
  g_nt x = nT /\ ok lw (g_gamma x) /\ match g_NU x with Some (n, u) => nu = true /\ ok lwN n /\ ok lwU u | None => nu = false end.
Definition okf s (F : Z -> Q -> Z -> Z -> Q) (v : Z -> Z -> Z -> Q) := forall t i b, 0 <= t < nT -> 0 <= i < zlen ir -> 0 <= b < nb -> v t i b = F s (T t) (znth 0 ir i) b.
Definition okg s g (F : Z -> Q -> Z -> Z -> Q) (v : Z -> Z -> Q) := forall t b, 0 <= t < nT -> 0 <= b < nb -> v t b = F s (T t) g b.
Definition okb s g b (F : Z -> Q -> Z -> Z -> Q) (v : Z -> Q) := forall t, 0 <= t < nT -> v t = F s (T t) g b.
(** every file holds the linewidths of its smearing width, grid point and band *)
Definition good (fs : fsys) : Prop :=
  (forall s f, kf fs s = Some f -> file_ok (okf s) f) /\ (forall s g f, kg fs s g = Some f -> file_ok (okg s g) f) /\
  (forall s g b f, kb fs s g b = Some f -> file_ok (okb s g b) f).
(** the data needed for smearing width [s] are there *)
Definition avail_gp (fs : fsys) (s g : Z) : Prop := kg fs s g <> None \/ forall b, 0 <= b < nb -> kb fs s g b <> None.
Definition avail (fs : fsys) (s : Z) : Prop := kf fs s <> None \/ forall i, 0 <= i < zlen ir -> avail_gp fs s (znth 0 ir i).

(** ** Reading *)
Section Read.
Variable fs : fsys.
Hypothesis fs_good : good fs.
Variable sig : list Z.
Notation sg := (znth 0 sig).
Definition right (a : acc) (j i b : Z) : Prop := forall t, 0 <= t < nT ->
  a_g a j t i b = lw (sg j) (T t) (znth 0 ir i) b /\
  (nu = true -> a_N a j t i b = lwN (sg j) (T t) (znth 0 ir i) b /\ a_U a j t i b = lwU (sg j) (T t) (znth 0 ir i) b /\ a_in a = true).
Definition rng (j i b : Z) : Prop := 0 <= j < zlen sig /\ 0 <= i < zlen ir /\ 0 <= b < nb.
Definition mono (a a' : acc) : Prop := (forall j i b, rng j i b -> right a j i b -> right a' j i b) /\ (nu = false -> a_in a = false -> a_in a' = false).
Lemma mono_refl : forall a, mono a a. Proof. split; auto. Qed.
Lemma mono_trans : forall a b c, mono a b -> mono b c -> mono a c.
Proof. intros a b c [H1 H2] [H3 H4]. split; [intros j i k R X; auto|auto]. Qed.
Lemma fold_gen : forall (f : option acc -> Z -> option acc) (av : Z -> Prop) (Rg : Z -> acc -> Prop) l,
  (forall x a a', In x l -> mono a a' -> Rg x a -> Rg x a') ->
  (forall x a, In x l -> exists a', f (Some a) x = Some a' /\ mono a a' /\ (av x -> Rg x a') /\ (a_ok a' = true <-> a_ok a = true /\ av x)) ->
  forall a, exists a', fold_left f l (Some a) = Some a' /\ mono a a' /\ (forall x, In x l -> av x -> Rg x a') /\ (a_ok a' = true <-> a_ok a = true /\ forall x, In x l -> av x).
Proof.
  intros f av Rg. induction l as [|x l IH]; intros HR Hs a.
  - exists a. split; [reflexivity|]. split; [apply mono_refl|]. split; [intros ? []|]. split; [intros H; split; [exact H|intros ? []]|tauto].
  - destruct (Hs x a (or_introl eq_refl)) as [a1 [E1 [M1 [R1 O1]]]].
    destruct (IH (fun y b b' Hy => HR y b b' (or_intror Hy)) (fun y b Hy => Hs y b (or_intror Hy)) a1) as [a2 [E2 [M2 [R2 O2]]]].
    exists a2. cbn [fold_left]. rewrite E1. split; [exact E2|]. split; [eapply mono_trans; eauto|]. split.
    + intros y [<-|Hy] Ha; [apply (HR x a1 a2); auto; now left|auto].
    + rewrite O2, O1. split; [intros [[A B] C]; split; [exact A|]; intros y [<-|Hy]; auto|intros [A B]; split; [split; [exact A|]|]; intros; apply B; cbn; auto].
Qed.
Lemma bc_ok : forall A (f : gfile A) t, g_nt f = nT -> 0 <= t < nT -> bc f t = t.
Proof. intros A f t E H. unfold bc. destruct (g_nt f =? 1) eqn:X; [apply Z.eqb_eq in X; lia|reflexivity]. Qed.
Lemma fits_ok : forall A (f : gfile A), g_nt f = nT -> fits nT f = true.
Proof. intros A f E. unfold fits. rewrite E, Z.eqb_refl. reflexivity. Qed.
(** storing a right file keeps right what is right, and makes its cells right *)
Lemma store_right : forall A (ok : (Z -> Q -> Z -> Z -> Q) -> (Z -> A) -> Prop) (f : gfile A) (wr : (Z -> A) -> arr4 -> arr4) (cell : Z -> Z -> Z -> Prop) a,
  file_ok ok f ->
  (forall F v x j t i b, ok F v -> rng j i b -> 0 <= t < nT -> cell j i b -> wr (fun t => v (bc f t)) x j t i b = F (sg j) (T t) (znth 0 ir i) b) ->
  (forall v x j t i b, rng j i b -> ~ cell j i b -> wr v x j t i b = x j t i b) ->
  (forall j i b, cell j i b \/ ~ cell j i b) ->
  mono a (store f wr a) /\ (forall j i b, rng j i b -> cell j i b -> right (store f wr a) j i b) /\ a_ok (store f wr a) = a_ok a.
Proof.
  intros A ok f wr cell a [E [Hg Hn]] Hin Hout Hdec. unfold store.
  assert (G : forall j i b, rng j i b -> cell j i b -> right (store f wr a) j i b).
  { intros j i b R C t Ht. unfold store. destruct (g_NU f) as [[n u]|] eqn:X.
    - destruct Hn as [Hnu [HN HU]]. cbn [a_g a_N a_U a_in]. split; [now apply Hin|]. intros _. split; [now apply Hin|]. split; [now apply Hin|reflexivity].
    - cbn [a_g]. split; [now apply Hin|]. intros Y. congruence. }
  split; [|split].
  - split.
    + intros j i b R X. destruct (Hdec j i b) as [C|C]; [apply G; auto|].
      intros t Ht. destruct (X t Ht) as [X1 X2]. destruct (g_NU f) as [[n u]|]; cbn [a_g a_N a_U a_in]; rewrite ?Hout by auto; (split; [exact X1|]); intros Y; destruct (X2 Y) as [X3 [X4 X5]]; repeat split; auto.
    + intros Y Z. destruct (g_NU f) as [[n u]|]; [destruct Hn; congruence|exact Z].
  - exact G.
  - destruct (g_NU f) as [[n u]|]; reflexivity.
Qed.
Lemma band_step : forall j i b a, rng j i b -> exists a', read_band fs nT j (sg j) i (znth 0 ir i) (Some a) b = Some a' /\ mono a a' /\
  (kb fs (sg j) (znth 0 ir i) b <> None -> right a' j i b) /\ (a_ok a' = true <-> a_ok a = true /\ kb fs (sg j) (znth 0 ir i) b <> None).
Proof.
  intros j i b a R. unfold read_band. cbn [obind]. destruct (kb fs (sg j) (znth 0 ir i) b) as [f|] eqn:E.
  - destruct fs_good as [_ [_ G]]. specialize (G _ _ _ _ E). rewrite fits_ok by apply G. eexists. split; [reflexivity|].
    destruct (store_right _ _ f (wr_b j i b) (fun j' i' b' => j' = j /\ i' = i /\ b' = b) a G) as [M [S O]].
    + intros F v x j' t i' b' Hv _ Ht [-> [-> ->]]. unfold wr_b. rewrite !Z.eqb_refl. cbn. rewrite bc_ok by (try apply G; lia). now apply Hv.
    + intros v x j' t i' b' _ N. unfold wr_b. destruct (Z.eqb_spec j' j), (Z.eqb_spec i' i), (Z.eqb_spec b' b); cbn; try reflexivity. exfalso. tauto.
    + intros. lia.
    + split; [exact M|]. split; [intros _; apply S; auto|]. rewrite O. split; [intros H; split; [exact H|discriminate]|tauto].
  - eexists. split; [reflexivity|]. split; [split; [intros j' i' b' _ X; exact X|auto]|]. split; [congruence|]. cbn [a_ok]. split; [intros H; discriminate H|intros [_ H]; congruence].
Qed.
Lemma gp_step : forall j i a, 0 <= j < zlen sig -> 0 <= i < zlen ir -> exists a', read_gp nb fs nT ir j (sg j) (Some a) i = Some a' /\ mono a a' /\
  (avail_gp fs (sg j) (znth 0 ir i) -> forall b, 0 <= b < nb -> right a' j i b) /\ (a_ok a' = true <-> a_ok a = true /\ avail_gp fs (sg j) (znth 0 ir i)).
Proof.
  intros j i a Hj Hi. unfold read_gp. cbn [obind]. destruct (kg fs (sg j) (znth 0 ir i)) as [f|] eqn:E.
  - destruct fs_good as [_ [G _]]. specialize (G _ _ _ E). rewrite fits_ok by apply G. eexists. split; [reflexivity|].
    destruct (store_right _ _ f (wr_g j i) (fun j' i' b' => j' = j /\ i' = i) a G) as [M [S O]].
    + intros F v x j' t i' b' Hv R Ht [-> ->]. unfold wr_g. rewrite !Z.eqb_refl. cbn. rewrite bc_ok by (try apply G; lia). apply Hv; auto. apply R.
    + intros v x j' t i' b' _ N. unfold wr_g. destruct (Z.eqb_spec j' j), (Z.eqb_spec i' i); cbn; try reflexivity. exfalso. tauto.
    + intros. lia.
    + split; [exact M|]. split; [intros _ b Hb; apply S; unfold rng; auto|]. rewrite O. split; [intros H; split; [exact H|left; congruence]|tauto].
  - destruct (fold_gen (read_band fs nT j (sg j) i (znth 0 ir i)) (fun b => kb fs (sg j) (znth 0 ir i) b <> None) (fun b a => right a j i b) (zrange nb)) with (a := a) as [a' [E0 [M [S O]]]].
    + intros b x x' Hb [M _] X. apply M; auto. apply in_zrange in Hb. unfold rng. auto.
    + intros b x Hb. apply band_step. apply in_zrange in Hb. unfold rng. auto.
    + exists a'. split; [exact E0|]. split; [exact M|]. split.
      * intros [H|H]; [congruence|]. intros b Hb. apply S; [now apply in_zrange|auto].
      * rewrite O. split; intros [H1 H2]; (split; [exact H1|]).
        { right. intros b Hb. apply H2. now apply in_zrange. }
        { intros b Hb. apply in_zrange in Hb. destruct H2 as [H2|H2]; [congruence|auto]. }
Qed.
Lemma sigma_step : forall B j a, b_sig B = sig -> b_temps B = temps -> b_gps B = ir -> 0 <= j < zlen sig -> exists a', read_sigma nb fs B (Some a) j = Some a' /\ mono a a' /\
  (avail fs (sg j) -> forall i b, 0 <= i < zlen ir -> 0 <= b < nb -> right a' j i b) /\ (a_ok a' = true <-> a_ok a = true /\ avail fs (sg j)).
Proof.
  intros B j a E1 E2 E3 Hj. unfold read_sigma. rewrite E1, E2, E3. cbn [obind]. cbv zeta. destruct (kf fs (sg j)) as [f|] eqn:E.
  - destruct fs_good as [G _]. specialize (G _ _ E). rewrite fits_ok by apply G. eexists. split; [reflexivity|].
    destruct (store_right _ _ f (wr_f j) (fun j' i' b' => j' = j) a G) as [M [S O]].
    + intros F v x j' t i' b' Hv R Ht ->. unfold wr_f. rewrite !Z.eqb_refl. cbn. rewrite bc_ok by (try apply G; lia). apply Hv; auto; apply R.
    + intros v x j' t i' b' _ N. unfold wr_f. destruct (Z.eqb_spec j' j); cbn; try reflexivity. exfalso. tauto.
    + intros. lia.
    + split; [exact M|]. split; [intros _ i b Hi Hb; apply S; unfold rng; auto|]. rewrite O. split; [intros H; split; [exact H|left; congruence]|tauto].
  - destruct (fold_gen (read_gp nb fs nT ir j (sg j)) (fun i => avail_gp fs (sg j) (znth 0 ir i)) (fun i a => forall b, 0 <= b < nb -> right a j i b) (zrange (zlen ir))) with (a := a) as [a' [E0 [M [S O]]]].
    + intros i x x' Hi [M _] X b Hb. apply M; auto. apply in_zrange in Hi. unfold rng. auto.
    + intros i x Hi. apply gp_step; [exact Hj|now apply in_zrange].
    + exists a'. split; [exact E0|]. split; [exact M|]. split.
      * intros [H|H]; [congruence|]. intros i b Hi Hb. apply S; auto. now apply in_zrange.
      * rewrite O. split; intros [H1 H2]; (split; [exact H1|]).
        { right. intros b Hb. apply H2. now apply in_zrange. }
        { intros b Hb. apply in_zrange in Hb. destruct H2 as [H2|H2]; [congruence|auto]. }
Qed.
(** the result of set_gamma_from_file *)
Definition read_result (B B' : brta) : Prop :=
  b_gps B' = b_gps B /\ b_bands B' = b_bands B /\ b_sig B' = b_sig B /\ b_temps B' = b_temps B /\ b_read B' = true /\
  (nu = false -> b_NU B' = b_NU B) /\ (b_NU B <> None -> b_NU B' <> None) /\
  forall j t i b, rng j i b -> 0 <= t < nT ->
    b_gamma B' j t i b = lw (sg j) (T t) (znth 0 ir i) b /\
    (nu = true -> exists N U, b_NU B' = Some (N, U) /\ N j t i b = lwN (sg j) (T t) (znth 0 ir i) b /\ U j t i b = lwU (sg j) (T t) (znth 0 ir i) b).
Lemma read_cases : forall B, b_sig B = sig -> b_temps B = temps -> b_gps B = ir ->
  (exists B', set_gamma_from_file nb fs B = Some (B', true) /\ read_result B B' /\ (forall s, In s sig -> avail fs s)) \/
  (set_gamma_from_file nb fs B = Some (B, false) /\ ~ forall s, In s sig -> avail fs s).
Proof.
  intros B E1 E2 E3.
  destruct (fold_gen (read_sigma nb fs B) (fun j => avail fs (sg j)) (fun j a => forall i b, 0 <= i < zlen ir -> 0 <= b < nb -> right a j i b) (zrange (zlen sig))) with (a := Acc zero4 zero4 zero4 false true) as [a [E [M [S O]]]].
  - intros j x x' Hj [M _] X i b Hi Hb. apply in_zrange in Hj. apply M; [unfold rng; auto|apply X; auto].
  - intros j x Hj. apply sigma_step; auto. now apply in_zrange.
  - unfold set_gamma_from_file. rewrite E1. rewrite E. cbn [obind].
    assert (K : (forall s, In s sig -> avail fs s) <-> forall j, In j (zrange (zlen sig)) -> avail fs (sg j)).
    { split; intros Ha.
      - intros j Hj; apply Ha; apply in_zrange in Hj; unfold znth; apply nth_In; unfold zlen in Hj; lia.
      - intros s Hs. destruct (In_nth sig s 0 Hs) as [k [Hk Ek]]. specialize (Ha (Z.of_nat k)). unfold znth in Ha. rewrite Nat2Z.id, Ek in Ha. apply Ha. apply in_zrange. unfold zlen. lia. }
    destruct (a_ok a) eqn:Ho.
    + left. pose proof (proj1 O eq_refl) as [_ Hav]. eexists. split; [reflexivity|]. split; [|exact (proj2 K Hav)].
      unfold read_result. cbn [b_gps b_bands b_sig b_temps b_read b_NU b_gamma]. repeat split; auto.
      * intros Hn. destruct M as [_ M]. rewrite M; auto.
      * destruct (a_in a); [discriminate|auto].
      * destruct H as [Hj [Hi Hb]]. apply in_zrange in Hj. exact (proj1 (S j Hj (Hav j Hj) i b Hi Hb t H0)).
      * intros Hn. destruct H as [Hj [Hi Hb]]. apply in_zrange in Hj. destruct (S j Hj (Hav j Hj) i b Hi Hb t H0) as [_ X]. destruct (X Hn) as [XN [XU XI]]. rewrite XI. eauto.
    + right. split; [reflexivity|]. intros Ha. pose proof (proj1 K Ha) as Hb. assert (X : false = true) by (apply O; split; [reflexivity|exact Hb]). discriminate X.
Qed.
End Read.

(** ** Writing *)
Definition cells (B : brta) (i : Z) : Prop := forall j t k, 0 <= j < zlen (b_sig B) -> 0 <= t < nT -> 0 <= k < zlen (b_bands B) ->
  b_gamma B j t i k = lw (znth 0 (b_sig B) j) (T t) (znth 0 (b_gps B) i) (znth 0 (b_bands B) k) /\
  match b_NU B with
  | Some (N, U) => nu = true /\ N j t i k = lwN (znth 0 (b_sig B) j) (T t) (znth 0 (b_gps B) i) (znth 0 (b_bands B) k) /\
                   U j t i k = lwU (znth 0 (b_sig B) j) (T t) (znth 0 (b_gps B) i) (znth 0 (b_bands B) k)
  | None => nu = false
  end.
Definition nu_ok (B : brta) : Prop := match b_NU B with Some _ => nu = true | None => nu = false end.
Lemma slice_ok : forall A (ok : (Z -> Q -> Z -> Z -> Q) -> (Z -> A) -> Prop) (B : brta) (sel : arr4 -> Z -> A), b_temps B = temps -> nu_ok B ->
  ok lw (sel (b_gamma B)) -> (forall N U, b_NU B = Some (N, U) -> ok lwN (sel N) /\ ok lwU (sel U)) -> file_ok ok (slice B sel).
Proof.
  intros A ok B sel Et Hn H1 H2. unfold slice, file_ok, nu_ok in *. cbn [g_nt g_gamma g_NU]. rewrite Et. split; [reflexivity|]. split; [exact H1|].
  destruct (b_NU B) as [[N U]|] eqn:X; cbn; [|exact Hn]. destruct (H2 N U eq_refl). auto.
Qed.
Lemma put_f_good : forall fs s v, good fs -> file_ok (okf s) v -> good (put_f fs s v).
Proof. intros fs s v [A [B C]] H. split; [|split; [exact B|exact C]]. intros s' f E. cbn in E. destruct (Z.eqb_spec s' s) as [->|]; [injection E as <-; exact H|eauto]. Qed.
Lemma put_g_good : forall fs s g v, good fs -> file_ok (okg s g) v -> good (put_g fs s g v).
Proof. intros fs s g v [A [B C]] H. split; [exact A|split; [|exact C]]. intros s' g' f E. cbn in E. destruct (Z.eqb_spec s' s) as [->|], (Z.eqb_spec g' g) as [->|]; cbn in E; eauto. injection E as <-; exact H. Qed.
Lemma put_b_good : forall fs s g b v, good fs -> file_ok (okb s g b) v -> good (put_b fs s g b v).
Proof. intros fs s g b v [A [B C]] H. split; [exact A|split; [exact B|]]. intros s' g' b' f E. cbn in E. destruct (Z.eqb_spec s' s) as [->|], (Z.eqb_spec g' g) as [->|], (Z.eqb_spec b' b) as [->|]; cbn in E; eauto. injection E as <-; exact H. Qed.
Lemma fold_good : forall (f : fsys -> Z -> fsys) l, (forall fs x, In x l -> good fs -> good (f fs x)) -> forall fs, good fs -> good (fold_left f l fs).
Proof. intros f. induction l as [|x l IH]; intros H fs G; [exact G|]. cbn [fold_left]. apply IH; [intros; apply H; [now right|assumption]|]. apply H; [now left|exact G]. Qed.
Lemma cells_all : forall B i j t b, b_bands B = zrange nb -> cells B i -> 0 <= j < zlen (b_sig B) -> 0 <= t < nT -> 0 <= b < nb ->
  b_gamma B j t i b = lw (znth 0 (b_sig B) j) (T t) (znth 0 (b_gps B) i) b /\
  match b_NU B with
  | Some (N, U) => nu = true /\ N j t i b = lwN (znth 0 (b_sig B) j) (T t) (znth 0 (b_gps B) i) b /\ U j t i b = lwU (znth 0 (b_sig B) j) (T t) (znth 0 (b_gps B) i) b
  | None => nu = false
  end.
Proof. intros B i j t b Eb C Hj Ht Hb. specialize (C j t b Hj Ht). rewrite Eb, zlen_zrange, znth_zrange in C by auto. auto. Qed.
Lemma write_gamma_good : forall B i fs, b_temps B = temps -> nu_ok B -> cells B i -> good fs -> good (write_gamma nb B i fs).
Proof.
  intros B i fs Et Hn C G. unfold write_gamma. destruct (all_bands nb B) eqn:E.
  - apply zlist_eqb_spec in E. apply fold_good; [|exact G]. intros fs' j Hj G'. apply in_zrange in Hj. apply put_g_good; [exact G'|]. apply slice_ok; auto.
    + intros t b Ht Hb. apply (cells_all B i j t b E C Hj Ht Hb).
    + intros N U X. split; intros t b Ht Hb; pose proof (cells_all B i j t b E C Hj Ht Hb) as [_ Y]; rewrite X in Y; apply Y.
  - apply fold_good; [|exact G]. intros fs' j Hj G'. apply in_zrange in Hj. apply fold_good; [|exact G']. intros fs2 k Hk G2. apply in_zrange in Hk. apply put_b_good; [exact G2|]. apply slice_ok; auto.
    + intros t Ht. apply (C j t k Hj Ht Hk).
    + intros N U X. split; intros t Ht; pose proof (C j t k Hj Ht Hk) as [_ Y]; rewrite X in Y; apply Y.
Qed.
Lemma write_kappa_good : forall B fs, b_temps B = temps -> nu_ok B -> b_gps B = ir -> b_bands B = zrange nb -> (forall i, 0 <= i < zlen ir -> cells B i) -> good fs -> good (write_kappa B fs).
Proof.
  intros B fs Et Hn Eg Eb C G. unfold write_kappa. apply fold_good; [|exact G]. intros fs' j Hj G'. apply in_zrange in Hj. apply put_f_good; [exact G'|]. apply slice_ok; auto.
  - intros t i b Ht Hi Hb. rewrite <- Eg. apply (cells_all B i j t b Eb (C i Hi) Hj Ht Hb).
  - intros N U X. split; intros t i b Ht Hi Hb; rewrite <- Eg; pose proof (cells_all B i j t b Eb (C i Hi) Hj Ht Hb) as [_ Y]; rewrite X in Y; apply Y.
Qed.
(** a calculation under way: parameters unchanged; [done] tells at which indices linewidths are right *)
Record going (B0 B : brta) (dn : Z -> Prop) : Prop := Going {
  gg : b_gps B = b_gps B0; gb : b_bands B = b_bands B0; gs : b_sig B = b_sig B0; gt : b_temps B = b_temps B0; gn : nu_ok B; gr : b_read B = b_read B0;
  gc : forall i, dn i -> cells B i }.
Lemma run_at_going : forall B0 B (dn : Z -> Prop) i, b_temps B0 = temps -> going B0 B dn -> (b_read B0 = true -> dn i) -> going B0 (run_at lw lwN lwU B i) (fun i' => i' = i \/ dn i').
Proof.
  intros B0 B dn i Et [G1 G2 G3 G4 G5 G6 G7] Hr. unfold run_at. destruct (b_read B) eqn:X.
  - constructor; auto; try congruence. intros i' [->|H]; [|auto]. apply G7, Hr. congruence.
  - constructor; cbn; auto; try congruence.
    + unfold nu_ok in *. cbn. destruct (b_NU B); exact G5.
    + intros i' Hi j t k Hj Ht Hk. cbn in *. unfold fill. rewrite G4, Et. destruct (Z.eqb_spec i' i) as [->|Hne].
      * split; [reflexivity|]. unfold nu_ok in G5. destruct (b_NU B) as [[N U]|]; cbn; unfold fill; rewrite ?Z.eqb_refl, ?G4, ?Et; auto.
      * destruct Hi as [Hi|Hi]; [contradiction|]. destruct (G7 i' Hi j t k Hj Ht Hk) as [Y1 Y2]. split; [exact Y1|]. destruct (b_NU B) as [[N U]|]; cbn; unfold fill; destruct (Z.eqb_spec i' i) as [X1|X1]; try contradiction; auto.
Qed.
Lemma going_weak : forall B0 B (p q : Z -> Prop), (forall i, q i -> p i) -> going B0 B p -> going B0 B q.
Proof. intros B0 B p q H [A1 A2 A3 A4 A5 A6 A7]. constructor; auto. Qed.
Lemma steps_going : forall wr B0 fs0 N n, b_temps B0 = temps -> nu_ok B0 -> (b_read B0 = true -> forall i, 0 <= i < N -> cells B0 i) -> good fs0 -> 0 <= n <= N ->
  going B0 (fst (fold_left (step lw lwN lwU nb wr) (zrange n) (B0, fs0))) (fun i => (b_read B0 = true /\ 0 <= i < N) \/ 0 <= i < n) /\ good (snd (fold_left (step lw lwN lwU nb wr) (zrange n) (B0, fs0))).
Proof.
  intros wr B0 fs0 N n Et Hn Hr G [Hn0 HN]. revert HN. pattern n. revert n Hn0. apply natlike_ind.
  - intros _. cbn. split; [|exact G]. constructor; auto. intros i [[X Y]|Y]; [auto|lia].
  - intros n Hn0 IH HN. destruct IH as [IH1 IH2]; [lia|]. rewrite <- Z.add_1_r, zrange_succ, fold_left_app_one by lia.
    destruct (fold_left (step lw lwN lwU nb wr) (zrange n) (B0, fs0)) as [B fs] eqn:E. cbn [fst snd] in *. cbn [step fst snd]. change (step lw lwN lwU nb wr (B, fs) n) with (run_at lw lwN lwU B n, if wr then write_gamma nb (run_at lw lwN lwU B n) n fs else fs). cbn [fst snd].
    pose proof (run_at_going B0 B _ n Et IH1) as H. 
    assert (H' : going B0 (run_at lw lwN lwU B n) (fun i => (b_read B0 = true /\ 0 <= i < N) \/ 0 <= i < n + 1)).
    { eapply going_weak; [|apply H; intros X; left; split; [exact X|lia]]. intros i [X|X]; [auto|]. destruct (Z.eq_dec i n); [auto|right; right; lia]. }
    split; [exact H'|]. destruct wr; [|exact IH2]. apply write_gamma_good; auto; [rewrite (gt _ _ _ H'); exact Et|apply H'|apply H'; right; lia].
Qed.
(** A run that reads linewidths does so for all grid points and bands; band indices are in range. *)
Definition job_ok (o : job) : Prop := o_NU o = nu /\ (o_read_gamma o = true -> o_gps o = None /\ o_bands o = zrange nb).
Lemma fresh_nu : forall o gps, job_ok o -> nu_ok (fresh gps (o_bands o) (o_sig o) temps (o_NU o)).
Proof. intros o gps [H _]. unfold nu_ok, fresh. cbn. rewrite H. destruct nu; reflexivity. Qed.
Lemma read_cells : forall B B', b_bands B = zrange nb -> b_gps B = ir -> nu_ok B -> read_result (b_sig B) B B' -> nu_ok B' /\ forall i, 0 <= i < zlen ir -> cells B' i.
Proof.
  intros B B' Eb Eg Hn [R1 [R2 [R3 [R4 [R5 [R6 [R8 R7]]]]]]].
  assert (Hn' : nu_ok B').
  { unfold nu_ok in *. destruct nu eqn:X.
    - destruct (b_NU B') eqn:Y; [reflexivity|]. destruct (b_NU B); [|discriminate Hn]. exfalso. apply R8; [discriminate|reflexivity].
    - rewrite R6 by reflexivity. exact Hn. }
  split; [exact Hn'|]. intros i Hi j t k Hj Ht Hk. rewrite R3 in *. rewrite R2, Eb in *. rewrite R1, Eg. rewrite zlen_zrange in Hk by exact nb_pos. rewrite znth_zrange by exact Hk.
  destruct (R7 j t i k) as [Y1 Y2]; [unfold rng; auto|exact Ht|]. split; [exact Y1|]. unfold nu_ok in Hn'. destruct (b_NU B') as [[N U]|] eqn:Z; [|exact Hn']. split; [exact Hn'|]. destruct (Y2 Hn') as [N' [U' [E [A C]]]]. injection E as <- <-. auto.
Qed.
Lemma begin_ok : forall o fs b0, job_ok o -> good fs -> let b := fresh (match o_gps o with Some g => g | None => ir end) (o_bands o) (o_sig o) temps (o_NU o) in
  (if o_read_gamma o then match set_gamma_from_file nb fs b with Some (b', true) => Some b' | _ => None end else Some b) = Some b0 ->
  b_temps b0 = temps /\ b_gps b0 = b_gps b /\ b_bands b0 = b_bands b /\ b_sig b0 = b_sig b /\ nu_ok b0 /\ (b_read b0 = true -> forall i, 0 <= i < zlen (b_gps b) -> cells b0 i).
Proof.
  intros o fs b0 Ho G b E. assert (Hb : nu_ok b) by (apply fresh_nu; exact Ho). destruct (o_read_gamma o) eqn:Er.
  - destruct Ho as [_ Ho]. destruct (Ho Er) as [Hg Hbd]. assert (Eg : b_gps b = ir) by (unfold b; rewrite Hg; reflexivity).
    destruct (read_cases fs G (o_sig o) b eq_refl eq_refl Eg) as [[B' [S [R _]]]|[S _]]; rewrite S in E; [|discriminate E]. injection E as <-.
    destruct (read_cells b B' Hbd Eg Hb R) as [R0 R1]. destruct R as [R2 [R3 [R4 [R5 [R6 _]]]]]. split; [exact R5|]. split; [exact R2|]. split; [exact R3|]. split; [exact R4|]. split; [exact R0|]. intros _. rewrite Eg. exact R1.
  - injection E as <-. split; [reflexivity|]. split; [reflexivity|]. split; [reflexivity|]. split; [reflexivity|]. split; [exact Hb|]. intros X. discriminate X.
Qed.
Lemma job_good : forall o fs, job_ok o -> good fs -> good (snd (run_job lw lwN lwU nb ir temps o fs)).
Proof.
  intros o fs Ho G. unfold run_job. pose proof (fun b0 => begin_ok o fs b0 Ho G) as K. cbv zeta in K |- *.
  destruct (if o_read_gamma o then _ else _) as [b0|]; [|exact G]. destruct (K b0 eq_refl) as [K1 [K2 [K3 [K4 [K5 K6]]]]]. cbn [fresh b_gps b_bands b_sig] in K2, K3, K4, K6.
  pose proof (zlen_pos _ (b_gps b0)) as Hp. set (n := Z.min (o_steps o) (zlen (b_gps b0))) in *.
  destruct (Z_lt_dec n 0) as [Hneg|Hnn].
  { rewrite zrange_nonpos by lia. cbn [fold_left fst snd]. destruct (Z.eqb_spec n (zlen (b_gps b0))) as [X|X]; [lia|]. exact G. }
  destruct (steps_going (o_write_gamma o) b0 fs (zlen (b_gps b0)) n K1 K5) as [S1 S2]; [rewrite K2; exact K6|exact G|lia|].
  destruct (_ && _) eqn:F; [|exact S2]. apply andb_prop in F as [F F4]. apply andb_prop in F as [F F3]. apply andb_prop in F as [F1 F2]. apply Z.eqb_eq in F1. apply zlist_eqb_spec in F3.
  destruct (o_gps o) eqn:Eo; [discriminate F2|]. destruct S1 as [A1 A2 A3 A4 A5 A6 A7]. cbn [snd]. apply write_kappa_good; auto; try congruence.
  intros i Hi. apply A7. right. rewrite F1, K2. exact Hi.
Qed.
Fixpoint run_jobs (os : list job) (fs : fsys) : fsys := match os with [] => fs | o :: t => run_jobs t (snd (run_job lw lwN lwU nb ir temps o fs)) end.
Lemma jobs_good : forall os fs, Forall job_ok os -> good fs -> good (run_jobs os fs).
Proof. induction os as [|o os IH]; intros fs H G; [exact G|]. inversion H as [|x y H1 H2]; subst. cbn. apply IH; [exact H2|]. apply job_good; assumption. Qed.
Lemma no_files_good : good no_files. Proof. repeat split; intros; discriminate. Qed.
(** the uninterrupted calculation *)
Definition whole (sig : list Z) : brta := fst (fold_left (step lw lwN lwU nb false) (zrange (zlen ir)) (fresh ir (zrange nb) sig temps nu, no_files)).
Lemma whole_spec : forall sig j t i b, 0 <= j < zlen sig -> 0 <= t < nT -> 0 <= i < zlen ir -> 0 <= b < nb ->
  b_gamma (whole sig) j t i b = lw (znth 0 sig j) (T t) (znth 0 ir i) b /\
  match b_NU (whole sig) with
  | Some (N, U) => nu = true /\ N j t i b = lwN (znth 0 sig j) (T t) (znth 0 ir i) b /\ U j t i b = lwU (znth 0 sig j) (T t) (znth 0 ir i) b
  | None => nu = false
  end.
Proof.
  intros sig j t i b Hj Ht Hi Hb. unfold whole.
  destruct (steps_going false (fresh ir (zrange nb) sig temps nu) no_files (zlen ir) (zlen ir)) as [[A1 A2 A3 A4 A5 A6 A7] _]; try reflexivity; try (split; [apply zlen_pos|lia]); try apply no_files_good.
  - unfold nu_ok, fresh. cbn. destruct nu; reflexivity.
  - intros X. discriminate X.
  - cbn [fresh b_gps b_bands b_sig] in A1, A2, A3. pose proof (cells_all _ i j t b A2 (A7 i (or_intror Hi))) as H. rewrite A1, A3 in H. apply H; assumption.
Qed.
(** ** C46 *)
(** Whatever calculations ran before, killed after any number of grid points, over any subsets of grid points and bands
    and any smearing widths: reading gives the linewidths of the uninterrupted calculation if the files needed are
    there, and otherwise fails and leaves the object as it was. *)
Theorem C46_restart : forall os B, Forall job_ok os -> b_temps B = temps -> b_gps B = ir -> b_NU B = (if nu then Some (zero4, zero4) else None) ->
  let fs := run_jobs os no_files in
  (exists B', set_gamma_from_file nb fs B = Some (B', true) /\ (forall s, In s (b_sig B) -> avail fs s) /\
     (forall j t i b, 0 <= j < zlen (b_sig B) -> 0 <= t < nT -> 0 <= i < zlen ir -> 0 <= b < nb ->
        b_gamma (run_at lw lwN lwU B' i) j t i b = b_gamma (whole (b_sig B)) j t i b /\
        match b_NU B', b_NU (whole (b_sig B)) with Some (N, U), Some (N', U') => N j t i b = N' j t i b /\ U j t i b = U' j t i b | None, None => True | _, _ => False end)) \/
  (set_gamma_from_file nb fs B = Some (B, false) /\ ~ (forall s, In s (b_sig B) -> avail fs s)).
Proof.
  intros os B Ho Et Eg Hn fs. assert (G : good fs) by (apply jobs_good; [exact Ho|apply no_files_good]).
  destruct (read_cases fs G (b_sig B) B eq_refl Et Eg) as [[B' [S [R A]]]|[S A]]; [left|right; auto].
  exists B'. split; [exact S|]. split; [exact A|]. intros j t i b Hj Ht Hi Hb. destruct R as [R1 [R2 [R3 [R4 [R5 [R6 [R8 R7]]]]]]]. destruct (whole_spec (b_sig B) j t i b Hj Ht Hi Hb) as [W1 W2].
  destruct (R7 j t i b) as [Y1 Y2]; [unfold rng; auto|exact Ht|]. unfold run_at. rewrite R5. split; [congruence|].
  destruct (b_NU (whole (b_sig B))) as [[N' U']|]; destruct nu eqn:X.
  - destruct W2 as [_ [W2 W3]]. destruct (Y2 eq_refl) as [N [U [E [E1 E2]]]]. rewrite E. split; congruence.
  - destruct W2 as [W2 _]. discriminate W2.
  - discriminate W2.
  - rewrite R6, Hn by reflexivity. exact I.
Qed.
(** Files never disappear, and a calculation that writes leaves the files of the grid points it completed. *)
Definition has (fs : fsys) (s g b : Z) : Prop := kg fs s g <> None \/ kb fs s g b <> None.
Definition grows (fs fs' : fsys) : Prop := (forall s, kf fs s <> None -> kf fs' s <> None) /\ (forall s g, kg fs s g <> None -> kg fs' s g <> None) /\ (forall s g b, kb fs s g b <> None -> kb fs' s g b <> None).
Lemma grows_refl : forall fs, grows fs fs. Proof. repeat split; auto. Qed.
Lemma grows_trans : forall a b c, grows a b -> grows b c -> grows a c. Proof. intros a b c [A [B C]] [D [E F]]. repeat split; auto. Qed.
Lemma grows_f : forall fs s v, grows fs (put_f fs s v). Proof. intros. repeat split; auto. cbn. intros s' H. destruct (s' =? s); [discriminate|auto]. Qed.
Lemma grows_g : forall fs s g v, grows fs (put_g fs s g v). Proof. intros. repeat split; auto. cbn. intros s' g' H. destruct (_ && _); [discriminate|auto]. Qed.
Lemma grows_b : forall fs s g b v, grows fs (put_b fs s g b v). Proof. intros. repeat split; auto. cbn. intros s' g' b' H. destruct (_ && _); [discriminate|auto]. Qed.
Lemma grows_fold : forall (f : fsys -> Z -> fsys) l fs, (forall fs x, grows fs (f fs x)) -> grows fs (fold_left f l fs).
Proof. intros f l. induction l as [|x l IH]; intros fs H; [apply grows_refl|]. cbn. eapply grows_trans; [apply H|]. apply IH, H. Qed.
Lemma grows_wg : forall B i fs, grows fs (write_gamma nb B i fs).
Proof. intros B i fs. unfold write_gamma. destruct (all_bands nb B); apply grows_fold; intros; [apply grows_g|]. apply grows_fold. intros. apply grows_b. Qed.
Lemma grows_steps : forall wr l st, grows (snd st) (snd (fold_left (step lw lwN lwU nb wr) l st)).
Proof. intros wr. induction l as [|i l IH]; intros st; [apply grows_refl|]. cbn [fold_left]. eapply grows_trans; [|apply IH]. unfold step. cbn [snd]. destruct wr; [apply grows_wg|apply grows_refl]. Qed.
Lemma grows_job : forall o fs, grows fs (snd (run_job lw lwN lwU nb ir temps o fs)).
Proof.
  intros o fs. unfold run_job. cbv zeta. destruct (if o_read_gamma o then _ else _) as [b0|]; [|apply grows_refl]. cbn [snd].
  match goal with |- context [fold_left ?f ?l ?x] => pose proof (grows_steps (o_write_gamma o) l x) as H; cbn [snd] in H end.
  destruct (_ && _); [|exact H]. eapply grows_trans; [exact H|]. apply grows_fold. intros. apply grows_f.
Qed.
Lemma grows_jobs : forall os fs, grows fs (run_jobs os fs).
Proof. induction os as [|o os IH]; intros fs; [apply grows_refl|]. cbn. eapply grows_trans; [apply grows_job|apply IH]. Qed.
Lemma fold_hit : forall (f : fsys -> Z -> fsys) (P : fsys -> Prop) l x fs, (forall fs y, grows fs (f fs y)) -> (forall a b, grows a b -> P a -> P b) -> In x l -> (forall fs, P (f fs x)) -> P (fold_left f l fs).
Proof.
  intros f P. induction l as [|y l IH]; intros x fs Hg Hm Hin Hx; [contradiction|]. cbn. destruct Hin as [->|Hin].
  - eapply Hm; [apply grows_fold, Hg|]. apply Hx.
  - eapply IH; eauto.
Qed.
Definition files_of (B : brta) (fs : fsys) (s g : Z) : Prop := if all_bands nb B then kg fs s g <> None else forall b, In b (b_bands B) -> kb fs s g b <> None.
Lemma wg_has : forall B i s fs, In s (b_sig B) -> files_of B (write_gamma nb B i fs) s (znth 0 (b_gps B) i).
Proof.
  intros B i s fs Hs. destruct (In_nth _ _ 0 Hs) as [j [Hj Ej]]. unfold files_of, write_gamma. destruct (all_bands nb B).
  - apply fold_hit with (x := Z.of_nat j) (P := fun fs => kg fs s (znth 0 (b_gps B) i) <> None).
    + intros. apply grows_g. + intros a b [_ [H _]]. apply H. + apply in_zrange. unfold zlen. lia.
    + intros fs'. cbn. unfold znth at 1. rewrite Nat2Z.id, Ej, !Z.eqb_refl. discriminate.
  - intros b Hb. destruct (In_nth _ _ 0 Hb) as [k [Hk Ek]]. apply fold_hit with (x := Z.of_nat j) (P := fun fs => kb fs s (znth 0 (b_gps B) i) b <> None).
    + intros. apply grows_fold. intros. apply grows_b. + intros x y [_ [_ H]]. apply H. + apply in_zrange. unfold zlen. lia.
    + intros fs'. apply fold_hit with (x := Z.of_nat k) (P := fun fs => kb fs s (znth 0 (b_gps B) i) b <> None).
      * intros. apply grows_b. * intros x y [_ [_ H]]. apply H. * apply in_zrange. unfold zlen. lia.
      * intros fs2. cbn. unfold znth. rewrite !Nat2Z.id, Ej, Ek, !Z.eqb_refl. discriminate.
Qed.
(** grid point [g] of width [s] and band [b] was completed by a calculation [o] that wrote *)
Definition wrote (o : job) (s g b : Z) : Prop := o_write_gamma o = true /\ o_read_gamma o = false /\ In s (o_sig o) /\ In b (o_bands o) /\
  exists i, 0 <= i < o_steps o /\ i < zlen (match o_gps o with Some l => l | None => ir end) /\ znth 0 (match o_gps o with Some l => l | None => ir end) i = g.
Definition wrote_all (o : job) (s g : Z) : Prop := wrote o s g 0 /\ o_bands o = zrange nb.
Lemma run_at_fields : forall B i, b_gps (run_at lw lwN lwU B i) = b_gps B /\ b_bands (run_at lw lwN lwU B i) = b_bands B /\ b_sig (run_at lw lwN lwU B i) = b_sig B.
Proof. intros B i. unfold run_at. destruct (b_read B); auto. Qed.
Lemma steps_fields : forall wr l st, let st' := fold_left (step lw lwN lwU nb wr) l st in b_gps (fst st') = b_gps (fst st) /\ b_bands (fst st') = b_bands (fst st) /\ b_sig (fst st') = b_sig (fst st).
Proof. intros wr. induction l as [|i l IH]; intros st; [auto|]. cbv zeta in *. cbn [fold_left]. destruct (IH (step lw lwN lwU nb wr st i)) as [A [B C]]. rewrite A, B, C. apply run_at_fields. Qed.
Lemma steps_hit : forall i l st s, In i l -> In s (b_sig (fst st)) -> let st' := fold_left (step lw lwN lwU nb true) l st in files_of (fst st) (snd st') s (znth 0 (b_gps (fst st)) i).
Proof.
  intros i l. induction l as [|x l IH]; intros st s Hin Hs; [contradiction|]. cbv zeta in *. cbn [fold_left].
  destruct (run_at_fields (fst st) x) as [F1 [F2 F3]]. destruct Hin as [->|Hin].
  - pose proof (wg_has (run_at lw lwN lwU (fst st) i) i s (snd st)) as H. rewrite F1, F3 in H. specialize (H Hs).
    assert (Gr := grows_steps true l (step lw lwN lwU nb true st i)). unfold files_of, all_bands in *. rewrite F2 in H. cbn [step snd] in Gr. destruct (zlist_eqb (b_bands (fst st)) (zrange nb)).
    + apply Gr. exact H.
    + intros b Hb. apply Gr. auto.
  - pose proof (IH (step lw lwN lwU nb true st x) s Hin) as H. cbn [step fst] in H. rewrite F1, F3 in H. specialize (H Hs). unfold files_of, all_bands in *. rewrite F2 in H. exact H.
Qed.
Lemma job_wrote : forall o fs s g b, wrote o s g b -> has (snd (run_job lw lwN lwU nb ir temps o fs)) s g b /\ (o_bands o = zrange nb -> kg (snd (run_job lw lwN lwU nb ir temps o fs)) s g <> None).
Proof.
  intros o fs s g b [W1 [W2 [W3 [W4 [i [W5 [W6 W7]]]]]]]. unfold run_job. rewrite W2, W1. cbv zeta. cbn [fresh b_gps].
  set (b0 := fresh _ _ _ _ _). set (gps := match o_gps o with Some l => l | None => ir end) in *.
  assert (H := steps_hit i (zrange (Z.min (o_steps o) (zlen gps))) (b0, fs) s). cbv zeta in H. cbn [fst] in H.
  assert (Hi : In i (zrange (Z.min (o_steps o) (zlen gps)))) by (apply in_zrange; lia). specialize (H Hi W3). unfold b0 in H at 3. cbn [fresh b_gps] in H. fold gps in H. rewrite W7 in H.
  assert (Gk : forall fs1 B c, grows fs1 (if (c : bool) then write_kappa B fs1 else fs1)) by (intros; destruct c; [apply grows_fold; intros; apply grows_f|apply grows_refl]).
  match goal with |- context [if ?c then write_kappa ?B ?F else _] => specialize (Gk F B c) end. cbn [snd]. destruct Gk as [_ [G2 G3]].
  unfold files_of in H. destruct (all_bands nb b0) eqn:E.
  - split; [left|intros _]; apply G2; exact H.
  - split; [right; apply G3, H; exact W4|]. intros X. unfold all_bands, b0 in E. cbn in E. rewrite X, zlist_eqb_refl in E. discriminate E.
Qed.
(** When every grid point was completed, in one calculation with all bands or band by band in several, reading succeeds. *)
Theorem C46_complete : forall os sig, 
  (forall s g, In s sig -> In g ir -> (exists o, In o os /\ wrote_all o s g) \/ (forall b, 0 <= b < nb -> exists o, In o os /\ wrote o s g b /\ o_bands o <> zrange nb)) ->
  forall s, In s sig -> avail (run_jobs os no_files) s.
Proof.
  intros os sig H s Hs. right. intros i Hi. assert (Hg : In (znth 0 ir i) ir) by (unfold znth; apply nth_In; unfold zlen in Hi; lia). set (g := znth 0 ir i) in *. clearbody g.
  assert (J : forall os o fs b, In o os -> wrote o s g b -> has (run_jobs os fs) s g b /\ (o_bands o = zrange nb -> kg (run_jobs os fs) s g <> None) ).
  { clear. induction os as [|x os IH]; intros o fs b Hin W; [contradiction|]. cbn. destruct Hin as [->|Hin]; [|eapply IH; eauto].
    destruct (job_wrote o fs s g b W) as [A B]. pose proof (grows_jobs os (snd (run_job lw lwN lwU nb ir temps o fs))) as [_ [G2 G3]]. split; [destruct A as [A|A]; [left; auto|right; auto]|auto]. }
  destruct (H s g Hs Hg) as [[o [Ho [W E]]]|K].
  - left. eapply J; eauto.
  - destruct (kg (run_jobs os no_files) s g) eqn:X; [left; congruence|]. right. intros b Hb. destruct (K b Hb) as [o [Ho [W _]]]. destruct (J os o no_files b Ho W) as [[A|A] _]; [congruence|exact A].
Qed.
End Restart.
Print Assumptions C46_restart.
Print Assumptions C46_complete.
(** ** Witnesses: 2 bands, grid points 0 and 5; one smearing width *)
Definition xlw (s : Z) (t : Q) (g b : Z) : Q := (inject_Z (100 * s + 10 * g + b) + t)%Q.
Definition xN (s : Z) (t : Q) (g b : Z) : Q := t.
Definition xU (s : Z) (t : Q) (g b : Z) : Q := inject_Z (100 * s + 10 * g + b).
Definition xjob gps bands nu n : job := Job gps bands [3] nu true false false n.
(** the first calculation is killed after grid point 0; band 0 and band 1 of grid point 5 are computed in two others *)
Definition xjobs : list job := [xjob None [0; 1] true 1; xjob (Some [5]) [1] true 1; xjob (Some [5]) [0] true 7].
Definition xread (temps : list Q) (fs : fsys) : option (list Q * bool) :=
  match set_gamma_from_file 2 fs (fresh [0; 5] [0; 1] [3] temps true) with
  | Some (B, ok) => Some (flat_map (fun t => flat_map (fun i => map (fun b => Qred (b_gamma B 0 t i b)) [0; 1]) [0; 1]) (zrange (zlen temps)), ok)
  | None => None
  end.
Example C46_ex : Forall (job_ok 2 true) xjobs /\
  xread [100%Q; 200%Q] (run_jobs xlw xN xU 2 [0; 5] [100%Q; 200%Q] xjobs no_files) = Some ([400%Q; 401%Q; 450%Q; 451%Q; 500%Q; 501%Q; 550%Q; 551%Q], true) /\
  xread [100%Q; 200%Q] (run_jobs xlw xN xU 2 [0; 5] [100%Q; 200%Q] (firstn 2 xjobs) no_files) = Some ([0%Q; 0%Q; 0%Q; 0%Q; 0%Q; 0%Q; 0%Q; 0%Q], false) /\
  (forall s g, In s [3] -> In g [0; 5] -> (exists o, In o xjobs /\ wrote_all 2 [0; 5] o s g) \/ (forall b, 0 <= b < 2 -> exists o, In o xjobs /\ wrote [0; 5] o s g b /\ o_bands o <> zrange 2)).
Proof.
  split; [unfold xjobs, job_ok; repeat (apply Forall_cons; [split; [reflexivity|intros H; discriminate H]|]); apply Forall_nil|]. split; [vm_compute; reflexivity|]. split; [vm_compute; reflexivity|].
  intros s g [<-|[]] [<-|[<-|[]]].
  - left. eexists. split; [left; reflexivity|]. split; [|reflexivity]. repeat split; cbn; auto. exists 0. cbn. repeat split; lia.
  - right. intros b Hb. assert (H : b = 0 \/ b = 1) by lia. destruct H as [-> | ->].
    + eexists. split; [right; right; left; reflexivity|]. split; [|intros H; vm_compute in H; discriminate H]. repeat split; cbn; auto. exists 0. cbn. repeat split; lia.
    + eexists. split; [right; left; reflexivity|]. split; [|intros H; vm_compute in H; discriminate H]. repeat split; cbn; auto. exists 0. cbn. repeat split; lia.
Qed.
(** Files of runs with and without normal and Umklapp parts: where the files have no parts, the parts that are read are zero
    although their sum should be the linewidth. *)
Theorem C46_mixed_parts_refuted : exists os B', (forall s t g b, (xN s t g b + xU s t g b == xlw s t g b)%Q) /\
  set_gamma_from_file 2 (run_jobs xlw xN xU 2 [0; 5] [100%Q] os no_files) (fresh [0; 5] [0; 1] [3] [100%Q] true) = Some (B', true) /\
  match b_NU B' with Some (N, U) => (N 0%Z 0%Z 1%Z 0%Z == 0)%Q /\ (U 0%Z 0%Z 1%Z 0%Z == 0)%Q | None => False end /\ (b_gamma B' 0%Z 0%Z 1%Z 0%Z == 450)%Q.
Proof.
  set (os := [xjob (Some [0]) [0; 1] true 1; xjob (Some [5]) [0; 1] false 1]). exists os.
  assert (K : match set_gamma_from_file 2 (run_jobs xlw xN xU 2 [0; 5] [100%Q] os no_files) (fresh [0; 5] [0; 1] [3] [100%Q] true) with
    Some (B', true) => match b_NU B' with Some (N, U) => (N 0%Z 0%Z 1%Z 0%Z == 0)%Q /\ (U 0%Z 0%Z 1%Z 0%Z == 0)%Q | None => False end /\ (b_gamma B' 0%Z 0%Z 1%Z 0%Z == 450)%Q | _ => False end) by (vm_compute; repeat split).
  revert K. generalize (set_gamma_from_file 2 (run_jobs xlw xN xU 2 [0; 5] [100%Q] os no_files) (fresh [0; 5] [0; 1] [3] [100%Q] true)).
  intros [[B' [|]]|] K; try contradiction. exists B'. split; [intros; unfold xN, xU, xlw; apply Qplus_comm|]. split; [reflexivity|exact K].
Qed.
Print Assumptions C46_mixed_parts_refuted.
(** A calculation that reads linewidths but selects bands writes the linewidth of another band. *)
Theorem C46_read_bands_refuted : let fs := run_jobs xlw xN xU 2 [0; 5] [100%Q] [Job None [0; 1] [3] false true false true 9; Job None [1] [3] false true true false 9] no_files in
  match kb fs 3 5 1 with Some f => (g_gamma f 0%Z == xlw 3 100 5 0)%Q /\ ~ (g_gamma f 0%Z == xlw 3 100 5 1)%Q | None => False end.
Proof. vm_compute. split; [reflexivity|intros H; discriminate H]. Qed.
Print Assumptions C46_read_bands_refuted.
(** ** C70: temperatures of the files *)
(** A different number of temperatures (not one) is an error. Missing: the temperatures themselves (refuted). *)
Theorem C70_number_partial : forall nb fs B j0 f, 0 <= j0 < zlen (b_sig B) ->
  kf fs (znth 0 (b_sig B) j0) = Some f -> g_nt f <> zlen (b_temps B) -> g_nt f <> 1 -> set_gamma_from_file nb fs B = None.
Proof.
  intros nb fs B j0 f Hj E N1 N2. unfold set_gamma_from_file.
  assert (K : forall l x, In j0 l \/ x = None -> fold_left (read_sigma nb fs B) l x = None).
  { induction l as [|j l IH]; intros x [H|H]; cbn [fold_left].
    - contradiction.
    - exact H.
    - destruct H as [->|H]; [|apply IH; left; exact H]. apply IH. right. unfold read_sigma. destruct x as [a|]; [|reflexivity]. cbn [obind]. rewrite E. unfold fits. destruct (Z.eqb_spec (g_nt f) (zlen (b_temps B))); [contradiction|]. destruct (Z.eqb_spec (g_nt f) 1); [contradiction|]. reflexivity.
    - apply IH. right. subst x. reflexivity. }
  rewrite K; [reflexivity|]. left. now apply in_zrange.
Qed.
Print Assumptions C70_number_partial.
Theorem C70_other_temperatures_refuted : let fs := run_jobs xlw xN xU 2 [0; 5] [300%Q] [xjob None [0; 1] true 2] no_files in
  match kg fs 3 5 with Some f => g_temp f 0 = 300%Q | None => False end /\
  xread [100%Q] fs = Some ([600%Q; 601%Q; 650%Q; 651%Q], true) /\
  xread [100%Q; 200%Q] fs = Some ([600%Q; 601%Q; 650%Q; 651%Q; 600%Q; 601%Q; 650%Q; 651%Q], true).
Proof. vm_compute. repeat split. Qed.
Print Assumptions C70_other_temperatures_refuted.
