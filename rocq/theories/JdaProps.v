(** C124: the joint density of states api and the frequency axis. *)
From Coq Require Import ZArith QArith Qround List Bool Lia Lqa Arith.
From Verif Require Import Base BaseProofs Mat3 QMat GridModel BzModel TetraModel TetraProofs TetraProps IwModel IwProps AvgModel AvgProps JdaModel.
Import ListNotations.
Open Scope Z_scope.

(** ** frequency points *)
Lemma zrange_length : forall n, length (zrange n) = Z.to_nat n.
Proof. intros n. unfold zrange. rewrite map_length, seq_length. reflexivity. Qed.
Lemma nth_zrange : forall n i, (i < Z.to_nat n)%nat -> nth_error (zrange n) i = Some (Z.of_nat i).
Proof. intros n i H. unfold zrange. rewrite nth_error_map, nth_error_nth' with (d := 0%nat) by (rewrite seq_length; lia). rewrite seq_nth by lia. reflexivity. Qed.
(** with a number of points (201 by default): equal steps from zero to the end of the axis *)
Theorem C124_points : forall top n pts, 2 <= n -> linspace0 top n = Some pts ->
  length pts = Z.to_nat n /\ forall i x, nth_error pts i = Some x -> (x * inject_Z (n - 1) == inject_Z (Z.of_nat i) * top)%Q.
Proof.
  intros top n pts Hn E. unfold linspace0 in E. destruct (Z.ltb_spec n 0); [lia|]. injection E as <-. split; [rewrite map_length; apply zrange_length|].
  intros i x Hx. assert (Hi : (i < Z.to_nat n)%nat) by (rewrite <- (zrange_length n), <- (map_length (fun i => if (i =? n - 1) && (1 <? n) then top else (inject_Z i * (top / inject_Z (n - 1)))%Q)); apply nth_error_Some; congruence).
  rewrite nth_error_map, nth_zrange in Hx by exact Hi. cbn [option_map] in Hx. injection Hx as <-.
  assert (N : ~ (inject_Z (n - 1) == 0)%Q) by (change 0%Q with (inject_Z 0); rewrite inject_Z_injective; lia).
  destruct (Z.eqb_spec (Z.of_nat i) (n - 1)) as [E|E]; cbn [andb].
  - destruct (Z.ltb_spec 1 n); [|lia]. rewrite E. ring.
  - field. exact N.
Qed.
(** without a number of points and a step there are 201, with both the number is taken *)
Theorem C124_default : forall m sigmas step num pts, step = None \/ (exists k, num = Some k /\ 2 <= k) ->
  get_frequency_points m sigmas None step num = Some pts ->
  let n := match num with Some k => k | None => 201 end in 2 <= n ->
  length pts = Z.to_nat n /\
  forall i x, nth_error pts i = Some x -> (x * inject_Z (n - 1) == inject_Z (Z.of_nat i) * axis_end m sigmas)%Q.
Proof.
  intros m sigmas step num pts C E n Hn. apply C124_points; [exact Hn|]. unfold get_frequency_points, sample_frequency_points in E. unfold n.
  destruct num as [k|]; [exact E|]. destruct C as [-> |[k [C _]]]; [exact E|discriminate].
Qed.
Corollary last_point : forall top n pts, 2 <= n -> linspace0 top n = Some pts -> exists x, nth_error pts (length pts - 1) = Some x /\ (x == top)%Q.
Proof.
  intros top n pts Hn E. destruct (C124_points top n pts Hn E) as [L P]. destruct (nth_error pts (length pts - 1)) as [x|] eqn:N; [|apply nth_error_None in N; lia].
  exists x. split; [reflexivity|]. pose proof (P _ _ N) as H. rewrite L in H. replace (Z.of_nat (Z.to_nat n - 1)) with (n - 1) in H by lia.
  assert (K : ~ (inject_Z (n - 1) == 0)%Q) by (change 0%Q with (inject_Z 0); rewrite inject_Z_injective; lia). rewrite (Qmult_comm (inject_Z (n - 1))) in H.
  apply Qmult_inj_r with (1 := K). exact H.
Qed.
(** with a step: multiples of the step, all below the end of the axis, and the next multiple is not *)
Theorem C124_step : forall top step pts, (0 < step)%Q -> arange0 top step = Some pts ->
  (forall i x, nth_error pts i = Some x -> (x == inject_Z (Z.of_nat i) * step)%Q /\ (x < top)%Q) /\ (top <= inject_Z (Z.of_nat (length pts)) * step)%Q.
Proof.
  intros top step pts Hs E. unfold arange0 in E. destruct (Qeq_bool step 0) eqn:Z0; [apply Qeq_bool_iff in Z0; lra|]. injection E as <-.
  pose proof (Qle_ceiling (top / step)) as C1. pose proof (Qceiling_lt (top / step)) as C2. set (n := Qceiling (top / step)) in *. clearbody n.
  assert (F : (top == top / step * step)%Q) by (field; lra).
  split.
  - intros i x Hx. assert (Hi : (i < Z.to_nat n)%nat) by (rewrite <- (zrange_length n), <- (map_length (fun i => (inject_Z i * step)%Q)); apply nth_error_Some; congruence).
    rewrite nth_error_map, nth_zrange in Hx by exact Hi. cbn [option_map] in Hx. injection Hx as <-. split; [reflexivity|].
    assert (L : (inject_Z (Z.of_nat i) <= inject_Z (n - 1))%Q) by (rewrite <- Zle_Qle; lia). rewrite F. apply Qmult_lt_r; [exact Hs|]. eapply Qle_lt_trans; [exact L|exact C2].
  - rewrite map_length, zrange_length. rewrite F. apply Qmult_le_compat_r; [|lra]. eapply Qle_trans; [exact C1|]. rewrite <- Zle_Qle. lia.
Qed.

(** the end of the axis *)
Lemma fold_qmax_ge : forall l a, (a <= fold_left qmax l a)%Q /\ forall x, In x l -> (x <= fold_left qmax l a)%Q.
Proof.
  induction l as [|y l IH]; intros a; cbn [fold_left]; [split; [lra|intros x []]|]. destruct (IH (qmax a y)) as [H1 H2]. unfold qmax in *. destruct (qltb a y) eqn:E.
  - apply qltb_lt in E. split; [lra|]. intros x [<- | Hx]; [lra|auto].
  - apply qltb_ge in E. split; [lra|]. intros x [<- | Hx]; [lra|auto].
Qed.
Theorem C124_axis_end : forall m sigmas, (0 <= m)%Q -> (forall s, In s (widths sigmas) -> 0 <= s)%Q ->
  (2 * m <= axis_end m sigmas)%Q /\ (0 < m -> 2 * m < axis_end m sigmas)%Q /\ forall s, In s (widths sigmas) -> (2 * m + 4 * s <= axis_end m sigmas)%Q.
Proof.
  intros m sigmas Hm Hs. unfold axis_end. destruct (widths sigmas) as [|a l].
  - split; [lra|]. split; [lra|]. intros s [].
  - destruct (fold_qmax_ge l a) as [H1 H2]. pose proof (Hs a (or_introl eq_refl)). set (mx := fold_left qmax l a) in *. clearbody mx. split; [lra|]. split; [lra|].
    intros s [<- | Hi]; [lra|]. pose proof (H2 s Hi). lra.
Qed.

(** ** nothing beyond the axis: at frequencies above twice the highest phonon frequency all tetrahedron weights vanish *)
Lemma weight_above : forall eps w ts, (forall a b c d, In (t4 a b c d) ts -> (a < w /\ b < w /\ c < w /\ d < w)%Q) -> (thm_get_integration_weight eps w ts true == 0)%Q.
Proof.
  intros eps w ts H. unfold thm_get_integration_weight. rewrite fold_sum.
  assert (fold_right (fun t acc => (tetra_term eps true w t + acc)%Q) 0%Q ts == 0)%Q as ->; [|reflexivity].
  induction ts as [|[a b c d] ts IH]; cbn [fold_right]; [reflexivity|]. rewrite (term_outside eps w a b c d) by (right; apply H; now left).
  rewrite IH; [reflexivity|]. intros; apply H; now right.
Qed.
Lemma nth_below : forall (l : list Q) w i, (0 < w)%Q -> (forall x, In x l -> x < w)%Q -> (nth i l 0 < w)%Q.
Proof. intros l w i Hw H. destruct (nth_in_or_default i l 0%Q) as [Hin | ->]; auto. Qed.
Theorem C124_nothing_beyond : forall eps T tp rel t freq nb b1 b2 m w k, tp = 2 \/ tp = 3 -> (0 <= m)%Q -> (forall x, freq x <= m)%Q -> (2 * m < w)%Q ->
  Qeq (delta_weight eps T tp rel t freq freq nb nb b1 b2 w k) 0.
Proof.
  intros eps T tp rel t freq nb b1 b2 m w k Htp Hm Hf Hw. unfold delta_weight. apply weight_above. intros a b c d Hin.
  unfold freq_vertices, combine_with in Hin. apply in_map_iff in Hin. destruct Hin as [[r0 r1] [E _]]. cbn [fst snd] in E. unfold to_t4 in E.
  set (l := map _ (combine r0 r1)) in E.
  assert (L : forall x, In x l -> (x < w)%Q).
  { intros x Hx. apply in_map_iff in Hx. destruct Hx as [[p q] [<- _]]. cbn [fst snd]. unfold clamp.
    assert (Et : (tp =? 2) || (tp =? 3) = true) by (destruct Htp; subst; reflexivity). rewrite Et.
    pose proof (Hf (p * nb + b1)) as F1. pose proof (Hf (q * nb + b2)) as F2.
    destruct (qltb (freq (p * nb + b1)) 0) eqn:E1; destruct (qltb (freq (q * nb + b2)) 0) eqn:E2;
      try apply qltb_ge in E1; try apply qltb_ge in E2; destruct (k =? 0); [|destruct (k =? 1)| |destruct (k =? 1)| |destruct (k =? 1)| |destruct (k =? 1)]; lra. }
  injection E as <- <- <- <-. repeat split; apply nth_below; auto; lra.
Qed.
Print Assumptions C124_points.
Print Assumptions C124_default.
Print Assumptions C124_step.
Print Assumptions C124_axis_end.
Print Assumptions C124_nothing_beyond.

(** ** the object *)
Lemma nth_error_ext : forall X (l l' : list X), (forall n, nth_error l n = nth_error l' n) -> l = l'.
Proof.
  induction l as [|x l IH]; intros [|y l'] H; [reflexivity|discriminate (H 0%nat)|discriminate (H 0%nat)|]. pose proof (H 0%nat) as E. cbn in E. injection E as ->.
  f_equal. apply IH. intros n. exact (H (S n)).
Qed.
Section P.
Variable M D : Type.
Variable max_freq : M -> Q.
Variable is_gamma : M -> Z -> bool.
Variable dos : M -> option D -> Z -> option Q -> option Q -> Q -> Q * Q.
Notation RUN := (run M D max_freq is_gamma dos).
Notation temps_of := (fun a : jargs D => match j_temps D a with None => [None] | Some l => map Some l end).

Lemma fold_assign : forall i_s i_t (v : Z -> Q * Q) l arr s t q,
  fold_left (fun arr p => assign arr i_s i_t p (v p)) l arr s t q = if Nat.eqb s i_s && Nat.eqb t i_t && existsb (Z.eqb q) l then v q else arr s t q.
Proof.
  intros i_s i_t v. induction l as [|p l IH]; intros arr s t q; cbn [fold_left existsb]; [now rewrite andb_false_r|]. rewrite IH. unfold assign.
  destruct (Nat.eqb s i_s && Nat.eqb t i_t); cbn [andb]; [|reflexivity]. destruct (existsb (Z.eqb q) l); [now rewrite orb_true_r|]. rewrite orb_false_r.
  destruct (Z.eqb_spec q p) as [->|]; reflexivity.
Qed.
Lemma fold_batches : forall i_s i_t (v : Z -> Q * Q) batches arr s t q,
  fold_left (fun arr batch => fold_left (fun arr p => assign arr i_s i_t p (v p)) batch arr) batches arr s t q
  = if Nat.eqb s i_s && Nat.eqb t i_t && existsb (Z.eqb q) (concat batches) then v q else arr s t q.
Proof.
  intros i_s i_t v batches arr s t q. rewrite <- (fold_assign i_s i_t v (concat batches)). revert arr. induction batches as [|b bs IH]; intros arr; [reflexivity|].
  cbn [fold_left concat]. rewrite IH, fold_left_app. reflexivity.
Qed.

Section R.
Variable m : M.
Variable a : jargs D.
Variable pts : list Q.
Variable batches : list (list Z).
Variable write : bool.
Hypothesis HB : concat batches = zrange (Z.of_nat (length pts)).
Notation inr := (fun q => (0 <=? q) && (q <? Z.of_nat (length pts))).
Lemma in_batches : forall q, existsb (Z.eqb q) (concat batches) = inr q.
Proof.
  intros q. rewrite HB. apply Bool.eq_iff_eq_true. rewrite existsb_exists, andb_true_iff, Z.leb_le, Z.ltb_lt. split.
  - intros [x [Hx E]]. apply Z.eqb_eq in E. subst. apply in_zrange in Hx. lia.
  - intros H. exists q. split; [apply in_zrange; lia|apply Z.eqb_refl].
Qed.
Definition value (dir : option D) (gp : Z) (sigma T : option Q) (q : Z) : Q * Q := dos m dir gp sigma T (nth (Z.to_nat q) pts 0%Q).
Definition content (dir : option D) (gp : Z) (sigma T : option Q) : list (Q * (Q * Q)) :=
  map (fun q => (nth (Z.to_nat q) pts 0%Q, value dir gp sigma T q)) (zrange (Z.of_nat (length pts))).
Notation AT := (at_temperature M D dos m a pts batches write).
Lemma at_dos : forall gp dir i_s sigma i_t T s x t q,
  s_dos M (AT gp dir i_s sigma i_t T s) x t q = if Nat.eqb x i_s && Nat.eqb t i_t && inr q then value dir gp sigma T q else s_dos M s x t q.
Proof. intros. unfold at_temperature. cbn [s_dos]. rewrite (fold_batches i_s i_t (fun p => dos m dir gp sigma T (nth (Z.to_nat p) pts 0%Q))), in_batches. reflexivity. Qed.
(** the loop over temperatures from the i-th *)
Lemma temps_loop : forall gp dir i_s sigma T0 l i s,
  (i = 0%nat -> match l with T :: _ => T = T0 | [] => True end) -> (i <> 0%nat -> forall q, inr q = true -> s_dos M s i_s 0%nat q = value dir gp sigma T0 q) ->
  let s' := foldi (fun i_t T s => AT gp dir i_s sigma i_t T s) i l s in
  s_grid M s' = s_grid M s /\ s_jdos M s' = s_jdos M s /\ s_points M s' = s_points M s /\
  (forall x t q, (x <> i_s \/ (t < i)%nat) -> s_dos M s' x t q = s_dos M s x t q) /\
  (forall k T q, nth_error l k = Some T -> inr q = true -> s_dos M s' i_s (i + k)%nat q = value dir gp sigma T q) /\
  exists new, s_files M s' = new ++ s_files M s /\ Forall (fun f => f = ((gp, i_s), content dir gp sigma T0)) new /\ (write = true -> l <> [] -> new <> []).
Proof.
  intros gp dir i_s sigma T0. induction l as [|T l IH]; intros i s H0 Hi; cbn [foldi].
  - do 4 (split; [reflexivity|]). split; [intros [|k] T' q E; discriminate|]. exists []. split; [reflexivity|]. split; [constructor|]. congruence.
  - set (s1 := AT gp dir i_s sigma i T s).
    assert (V0 : forall q, inr q = true -> s_dos M s1 i_s 0%nat q = value dir gp sigma T0 q).
    { intros q Hq. unfold s1. rewrite at_dos, Hq, Nat.eqb_refl. destruct i as [|i]; cbn [Nat.eqb andb]; [now rewrite (H0 eq_refl)|]. apply Hi; [lia|exact Hq]. }
    destruct (IH (S i) s1 ltac:(lia) (fun _ => V0)) as [G [J [Pp [Old [New [new [F [K N]]]]]]]].
    split; [exact G|]. split; [exact J|]. split; [exact Pp|]. split; [|split].
    + intros x t q H. rewrite Old by (destruct H; [now left|right; lia]). unfold s1. rewrite at_dos.
      destruct (Nat.eqb_spec x i_s); [|reflexivity]. destruct (Nat.eqb_spec t i); [destruct H; lia|]. reflexivity.
    + intros [|k] T' q E Hq; cbn [nth_error] in E.
      * injection E as <-. rewrite Nat.add_0_r. rewrite Old by (right; lia). unfold s1. rewrite at_dos, Hq, !Nat.eqb_refl. reflexivity.
      * replace (i + S k)%nat with (S i + k)%nat by lia. apply New; auto.
    + assert (F1 : s_files M s1 = if write then ((gp, i_s), content dir gp sigma T0) :: s_files M s else s_files M s).
      { unfold s1, at_temperature. cbn [s_files]. destruct write; [|reflexivity]. f_equal. f_equal. unfold content. apply map_ext_in. intros q Hq. apply in_zrange in Hq. f_equal.
        assert (Hr : inr q = true) by (apply andb_true_iff; rewrite Z.leb_le, Z.ltb_lt; lia). pose proof (V0 q Hr) as V. unfold s1, at_temperature in V. cbn [s_dos] in V. exact V. }
      destruct write.
      * exists (new ++ [((gp, i_s), content dir gp sigma T0)]). split; [rewrite F, F1, <- app_assoc; reflexivity|]. split; [apply Forall_app; split; auto|].
        intros _ _ E. apply app_eq_nil in E. destruct E; discriminate.
      * exists new. split; [rewrite F, F1; reflexivity|]. split; [exact K|discriminate].
Qed.
(** the loop over widths from the i-th *)
Definition dir_of (g : option M) (gp : Z) : option D := match g with Some g => if is_gamma g gp then j_dir D a else None | None => None end.
Notation TS := (temps_of a).
Hypothesis HT : TS <> [].
Lemma sigmas_loop : forall gp dir l i s,
  let s' := foldi (fun i_s sigma s => foldi (fun i_t T s => AT gp dir i_s sigma i_t T s) 0 TS s) i l s in
  s_grid M s' = s_grid M s /\ s_jdos M s' = s_jdos M s /\ s_points M s' = s_points M s /\
  (forall x t q, (x < i)%nat -> s_dos M s' x t q = s_dos M s x t q) /\
  (forall j sigma k T q, nth_error l j = Some sigma -> nth_error TS k = Some T -> inr q = true -> s_dos M s' (i + j)%nat k q = value dir gp sigma T q) /\
  exists new, s_files M s' = new ++ s_files M s /\
    Forall (fun f => exists j sigma, nth_error l j = Some sigma /\ f = ((gp, (i + j)%nat), content dir gp sigma (hd None TS))) new /\
    (write = true -> forall j, (j < length l)%nat -> exists f, In f new /\ fst f = (gp, (i + j)%nat)).
Proof.
  intros gp dir. induction l as [|sigma l IH]; intros i s; cbn [foldi].
  - do 4 (split; [reflexivity|]). split; [intros [|j] ? k T q E; discriminate|]. exists []. split; [reflexivity|]. split; [constructor|]. intros _ j H. cbn [length] in H. lia.
  - destruct (temps_loop gp dir i sigma (hd None TS) TS 0 s ltac:(intros _; destruct TS; reflexivity) ltac:(intros H; congruence)) as [G [J [Pp [Old [New [new [F [K N]]]]]]]].
    set (s1 := foldi (fun i_t T s => AT gp dir i sigma i_t T s) 0 TS s) in *. clearbody s1.
    destruct (IH (S i) s1) as [G' [J' [Pp' [Old' [New' [new' [F' [K' N']]]]]]]].
    split; [congruence|]. split; [congruence|]. split; [congruence|]. split; [|split].
    + intros x t q H. rewrite Old' by lia. apply Old. left. lia.
    + intros [|j] sg k T q E Ek Hq; cbn [nth_error] in E.
      * injection E as <-. rewrite Nat.add_0_r, Old' by lia. exact (New k T q Ek Hq).
      * replace (i + S j)%nat with (S i + j)%nat by lia. apply New'; auto.
    + exists (new' ++ new). split; [rewrite F', F, app_assoc; reflexivity|]. split.
      * apply Forall_app. split.
        -- eapply Forall_impl; [|exact K']. intros f [j [sg [E ->]]]. exists (S j), sg. split; [exact E|]. f_equal. f_equal. lia.
        -- eapply Forall_impl; [|exact K]. intros f ->. exists 0%nat, sigma. split; [reflexivity|]. f_equal. f_equal. lia.
      * intros Hw [|j] Hj; cbn [length] in Hj.
        -- specialize (N Hw HT). destruct new as [|f new]; [congruence|]. exists f. split; [apply in_or_app; right; now left|]. inversion K; subst. cbn [fst]. f_equal. lia.
        -- destruct (N' Hw j ltac:(lia)) as [f [Hf Ef]]. exists f. split; [apply in_or_app; now left|]. rewrite Ef. f_equal. lia.
Qed.
Notation SG := (j_sigmas D a).
Lemma gps_loop : forall gps s,
  let s' := fold_left (fun s gp => at_gp M D is_gamma dos m a pts batches write gp s) gps s in
  s_grid M s' = s_grid M s /\ s_jdos M s' = s_jdos M s /\ s_points M s' = s_points M s /\
  (forall gp j sigma k T q, gps <> [] -> last gps 0 = gp -> nth_error SG j = Some sigma -> nth_error TS k = Some T -> inr q = true -> s_dos M s' j k q = value (dir_of (s_grid M s) gp) gp sigma T q) /\
  exists new, s_files M s' = new ++ s_files M s /\
    Forall (fun f => exists gp j sigma, In gp gps /\ nth_error SG j = Some sigma /\ f = ((gp, j), content (dir_of (s_grid M s) gp) gp sigma (hd None TS))) new /\
    (write = true -> forall gp j, In gp gps -> (j < length SG)%nat -> exists f, In f new /\ fst f = (gp, j)).
Proof.
  induction gps as [|gp gps IH]; intros s; cbn [fold_left].
  - do 3 (split; [reflexivity|]). split; [congruence|]. exists []. split; [reflexivity|]. split; [constructor|]. intros _ gp j [].
  - set (s1 := at_gp M D is_gamma dos m a pts batches write gp s).
    destruct (sigmas_loop gp (dir_of (s_grid M s) gp) SG 0 s : let s' := s1 in _) as [G [J [Pp [_ [New [new [F [K N]]]]]]]].
    clearbody s1.
    destruct (IH s1) as [G' [J' [Pp' [New' [new' [F' [K' N']]]]]]].
    split; [congruence|]. split; [congruence|]. split; [congruence|]. split.
    + intros gp' j sigma k T q _ L Ej Ek Hq. destruct gps as [|g2 gps].
      * cbn [fold_left last] in *. subst gp'. exact (New j sigma k T q Ej Ek Hq).
      * rewrite <- G. apply New'; auto. discriminate.
    + exists (new' ++ new). split; [rewrite F', F, app_assoc; reflexivity|]. split.
      * apply Forall_app. split.
        -- eapply Forall_impl; [|exact K']. intros f [g' [j [sg [Hg [E ->]]]]]. exists g', j, sg. rewrite G. split; [now right|auto].
        -- eapply Forall_impl; [|exact K]. intros f [j [sg [E ->]]]. exists gp, j, sg. split; [now left|auto].
      * intros Hw g' j [-> | Hg] Hj.
        -- destruct (N Hw j Hj) as [f [Hf Ef]]. exists f. split; [apply in_or_app; now right|exact Ef].
        -- destruct (N' Hw g' j Hg Hj) as [f [Hf Ef]]. exists f. split; [apply in_or_app; now left|exact Ef].
Qed.
End R.

(** ** C124: an object made with a mesh *)
Definition direction (a : jargs D) (m : M) (gp : Z) : option D := if is_gamma m gp then j_dir D a else None.
Theorem C124_spectra : forall mesh a gps write s, RUN a gps write (create M (Some mesh)) = Some s ->
  (match j_batch D a with None => 10 | Some n => n end > 0) -> temps_of a <> [] -> gps <> [] ->
  get_frequency_points (max_freq mesh) (Some (j_sigmas D a)) None (j_step D a) (j_num D a) = Some (s_points M s) /\
  (* joint_dos: the last grid point *)
  (forall j sigma k T p f, nth_error (j_sigmas D a) j = Some sigma -> nth_error (temps_of a) k = Some T -> nth_error (s_points M s) p = Some f ->
     s_dos M s j k (Z.of_nat p) = dos mesh (direction a mesh (last gps 0)) (last gps 0) sigma T f) /\
  (* files: every grid point, the first temperature *)
  (write = true -> forall gp j sigma T, In gp gps -> nth_error (j_sigmas D a) j = Some sigma -> nth_error (temps_of a) 0 = Some T ->
     file_of M s gp j = Some (map (fun f => (f, dos mesh (direction a mesh gp) gp sigma T f)) (s_points M s))).
Proof.
  intros mesh a gps write s R Hb HT Hg. unfold run in R. cbn [create initialize set_mesh s_jdos s_grid] in R.
  destruct (get_frequency_points _ _ _ _ _) as [pts|]; [|discriminate].
  destruct (get_freq_points_batches _ _) as [bs|] eqn:Eb; [|discriminate].
  destruct (C35_batches_cover_once (Z.of_nat (length pts)) (j_batch D a) ltac:(lia) ltac:(lia)) as [bs' [Eb' [HB _]]]. assert (bs' = bs) as -> by congruence.
  set (s0 := {| s_grid := Some mesh; s_jdos := _; s_points := pts; s_dos := _; s_files := _ |}) in R.
  assert (R' : fold_left (fun s gp => at_gp M D is_gamma dos mesh a pts bs write gp s) gps s0 = s) by (destruct gps, (j_sigmas D a); congruence). clear R.
  destruct (gps_loop mesh a pts bs write HB HT gps s0) as [_ [_ [Pp [New [new [F [K N]]]]]]]. rewrite R' in *. change (s_points M s0) with pts in Pp.
  change (s_files M s0) with (@nil ((Z * nat) * list (Q * (Q * Q)))) in F. rewrite app_nil_r in F.
  rewrite Pp. split; [reflexivity|]. split.
  - intros j sigma k T p f Ej Ek Ep. assert (Hp : (p < length pts)%nat) by (apply nth_error_Some; congruence).
    rewrite (New (last gps 0) j sigma k T (Z.of_nat p) Hg eq_refl Ej Ek) by (apply andb_true_iff; rewrite Z.leb_le, Z.ltb_lt; lia).
    unfold value. rewrite Nat2Z.id, (nth_error_nth pts p 0%Q Ep). reflexivity.
  - intros Hw gp j sigma T Hgp Ej Et. unfold file_of. rewrite F.
    destruct (N Hw gp j Hgp ltac:(apply nth_error_Some; congruence)) as [f [Hf Ef]].
    destruct (find (fun f => (fst (fst f) =? gp) && Nat.eqb (snd (fst f)) j) new) as [c|] eqn:E.
    + apply find_some in E. destruct E as [Hin E]. rewrite Forall_forall in K. destruct (K c Hin) as [gp' [j' [sg [_ [Ej' ->]]]]]. cbn [fst snd] in E.
      apply andb_true_iff in E. destruct E as [E1 E2]. apply Z.eqb_eq in E1. apply Nat.eqb_eq in E2. subst gp' j'. rewrite Ej in Ej'. injection Ej' as <-.
      cbn [option_map snd]. f_equal. unfold content.
      assert (Hd : hd None (match j_temps D a with None => [None] | Some l => map Some l end) = T).
      { destruct (match j_temps D a with None => [None] | Some l => map Some l end) as [|x r]; [congruence|]. cbn [hd nth_error] in *. congruence. }
      rewrite Hd. unfold value, direction. change (s_grid M s0) with (Some mesh). cbn [dir_of].
      assert (G : forall (h : Q -> Q * (Q * Q)), map (fun q => h (nth (Z.to_nat q) pts 0%Q)) (zrange (Z.of_nat (length pts))) = map h pts).
      { intros h. apply nth_error_ext. intros n. rewrite !nth_error_map. destruct (lt_dec n (length pts)) as [L|L].
        - rewrite nth_zrange by lia. cbn [option_map]. rewrite Nat2Z.id. destruct (nth_error pts n) as [x|] eqn:En; [|apply nth_error_None in En; lia].
          rewrite (nth_error_nth pts n 0%Q En). reflexivity.
        - rewrite (proj2 (nth_error_None pts n)) by lia. rewrite (proj2 (nth_error_None (zrange _) n)) by (rewrite zrange_length; lia). reflexivity. }
      apply (G (fun f => (f, dos mesh (if is_gamma mesh gp then j_dir D a else None) gp sigma T f))).
    + exfalso. pose proof (find_none _ _ E f Hf) as X. cbv beta in X. rewrite Ef in X. cbn [fst snd] in X. rewrite Z.eqb_refl, Nat.eqb_refl in X. discriminate.
Qed.
(** without grid points nothing of an earlier run is left in joint_dos *)
Theorem C124_no_grid_points : forall a write s t, RUN a [] write s = Some t -> forall j k p, s_dos M t j k p = (0%Q, 0%Q).
Proof.
  intros a write s t R j k p. unfold run in R. destruct (s_jdos M s) as [[m|]|]; try discriminate. destruct (get_frequency_points _ _ _ _ _) as [pts|]; [|discriminate].
  destruct (get_freq_points_batches _ _); [|discriminate]. injection R as <-. reflexivity.
Qed.
(** an object made without a mesh cannot be run after initialize (97-112): its JointDos object has no grid *)
Theorem C124_late_refuted : forall mesh a gps write, RUN a gps write (initialize M mesh (create M None)) = None.
Proof. reflexivity. Qed.
End P.
Print Assumptions C124_spectra.
Print Assumptions C124_no_grid_points.
Print Assumptions C124_late_refuted.

(** ** A concrete case: meshes are numbers, the highest frequency is 10, and a spectrum tells what it was made of *)
Definition x_run := run Z Z (fun _ => 10%Q) (fun _ gp => gp =? 0)
  (fun m d gp sg T f => ((inject_Z (1000 * m + 100 * gp + match d with Some x => x | None => 0 end) + match sg with Some x => x | None => 0 end)%Q, (f + match T with Some t => t | None => 0 end)%Q)).
Definition x_args : jargs Z := {| j_dir := Some 7; j_sigmas := [Some (1#2); None]; j_temps := Some [300%Q; 0%Q]; j_step := None; j_num := Some 4; j_batch := Some 3 |}.
Definition x_state (s : option (jstate Z)) : jstate Z := match s with Some s => s | None => blank Z end.
Example C124_default_ex : exists pts, get_frequency_points 10 (Some [Some (1#2); None]) None None None = Some pts /\ length pts = 201%nat /\
  exists x, nth_error pts 200 = Some x /\ (x == (20 + (1#2) * 4) * (201 # 200))%Q.
Proof.
  destruct (get_frequency_points 10 (Some [Some (1#2); None]) None None None) as [pts|] eqn:E; [|discriminate E].
  destruct (C124_default 10 (Some [Some (1#2); None]) None None pts (or_introl eq_refl) E ltac:(lia)) as [L V]. exists pts. split; [reflexivity|]. split; [exact L|].
  destruct (nth_error pts 200) as [x|] eqn:Ex; [|apply nth_error_None in Ex; change (Z.to_nat 201) with 201%nat in L; lia]. exists x. split; [reflexivity|].
  specialize (V 200%nat x Ex). change (axis_end 10 (Some [Some (1#2); None])) with ((10 * 2 + (1#2) * 4) * (201#200))%Q in V. change (inject_Z (201 - 1)) with 200%Q in V. change (inject_Z (Z.of_nat 200)) with 200%Q in V. lra.
Qed.
Example C124_no_grid_points_ex : exists t, x_run x_args [] true (x_state (x_run x_args [0; 3] true (create Z (Some 2)))) = Some t /\ s_dos Z t 0 0 1 = (0%Q, 0%Q).
Proof. eexists. split; vm_compute; reflexivity. Qed.
Example C124_spectra_ex : let r := x_run x_args [0; 3] true (create Z (Some 2)) in
  r <> None /\ j_temps Z x_args <> Some [] /\ length (s_points Z (x_state r)) = 4%nat /\ file_of Z (x_state r) 0 0 <> None /\ file_of Z (x_state r) 3 1 <> None /\
  s_dos Z (x_state r) 0 1 2 <> s_dos Z (x_state r) 1 1 2.
Proof.
  cbv zeta. split; [vm_compute; discriminate|]. split; [vm_compute; discriminate|]. split; [vm_compute; reflexivity|]. split; [vm_compute; discriminate|].
  split; [vm_compute; discriminate|]. vm_compute. discriminate.
Qed.
(** the naive claim on meshes: after a mesh is set, or given to initialize, the spectra are those of that mesh. Both runs return the spectra of the first mesh *)
Theorem C124_mesh_refuted : exists mesh mesh' s, mesh <> mesh' /\
  x_run x_args [3] false (set_mesh Z mesh' (create Z (Some mesh))) = Some s /\
  s_grid Z s = Some mesh' /\ fst (s_dos Z s 1%nat 0%nat 0) = inject_Z (1000 * mesh + 300) /\ fst (s_dos Z s 1%nat 0%nat 0) <> inject_Z (1000 * mesh' + 300).
Proof. exists 2, 5. eexists. split; [discriminate|]. split; [vm_compute; reflexivity|]. split; [reflexivity|]. split; [reflexivity|discriminate]. Qed.
Theorem C124_initialize_refuted : exists mesh mesh' s, mesh <> mesh' /\
  x_run x_args [3] false (initialize Z mesh' (create Z (Some mesh))) = Some s /\
  s_grid Z s = Some mesh' /\ fst (s_dos Z s 1%nat 0%nat 0) = inject_Z (1000 * mesh + 300) /\ fst (s_dos Z s 1%nat 0%nat 0) <> inject_Z (1000 * mesh' + 300).
Proof. exists 2, 5. eexists. split; [discriminate|]. split; [vm_compute; reflexivity|]. split; [reflexivity|]. split; [reflexivity|discriminate]. Qed.

(** the naive claim on a given step: the axis reaches twice the highest frequency. With a highest frequency 10 and step 7 the axis is 0, 7, 14,
    while at 17 a tetrahedron of sums of two frequencies has weight *)
Theorem C124_step_refuted : exists m step pts, get_frequency_points m None None (Some step) None = Some pts /\ (0 < step)%Q /\ (forall x, In x pts -> (x < 2 * m - 5)%Q) /\
  exists w a b c d, (a <= 2 * m /\ b <= 2 * m /\ c <= 2 * m /\ d <= 2 * m)%Q /\ (forall x, In x pts -> (x < w)%Q) /\
    ~ (tetra_term (1 # 1000000) true w (t4 a b c d) == 0)%Q.
Proof.
  exists 10%Q, 7%Q. eexists. split; [vm_compute; reflexivity|]. split; [reflexivity|]. split; [intros x [<- | [<- | [<- | []]]]; reflexivity|].
  exists 17%Q, 15%Q, 16%Q, 18%Q, 19%Q. split; [repeat split; discriminate|]. split; [intros x [<- | [<- | [<- | []]]]; reflexivity|]. vm_compute. discriminate.
Qed.
Example C124_axis_ex : (axis_end 10 (Some [Some (1#2); None; Some (1#4)]) == 22 * (201#200))%Q /\ linspace0 20 5 = Some [0 * (20 / 4); 1 * (20/4); 2 * (20/4); 3 * (20/4); 20]%Q /\
  option_map (@length Q) (arange0 20 7) = Some 3%nat /\ widths (Some [Some (1#2); None]) = [(1#2)%Q].
Proof. split; [vm_compute; reflexivity|]. split; [vm_compute; reflexivity|]. split; reflexivity. Qed.
Print Assumptions C124_mesh_refuted.
Print Assumptions C124_initialize_refuted.
Print Assumptions C124_step_refuted.
