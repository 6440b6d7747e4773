(** C123: linewidths at several smearing widths. *)
From Coq Require Import ZArith QArith Qabs List Bool Lia Lqa Arith.
From Verif Require Import Base BaseProofs Mat3 QMat GridModel BzModel BzProps TripletModel TripletProps TetraModel Par IwModel IwProps KaccumModel KaccumProps TiwModel TiwProps
  IseModel IseSpec IseProofs IseProps ColModel SigModel.
Import ListNotations.
Open Scope Z_scope.

Section P.
Variable bose ish gauss : Q -> Q -> Q.
Variable g : bzgrid.
Variable rel : list (list V3).
Variable eps : Q.
Variable Qg : M3.
Variable rl : QM.
Variable triplets : Z -> tp3.
Variable weights : Z -> Z.
Variable nb0 nb ntrip : Z.
Variable fp freq : Z -> Q.
Variable cutoff unit pp_unit : Q.
Variable raw : Z -> Q.
Variable symmetrize_fc3q : bool.
Variable num_grid : Q.
Variable sigma_cutoff : option Q.
Variable icm : bool.
Notation WC := (weight_cells gauss g rel eps Qg rl triplets nb0 nb ntrip fp freq sigma_cutoff icm).
Notation RUN := (at_sigmas bose ish gauss g rel eps Qg rl triplets weights nb0 nb ntrip fp freq cutoff unit pp_unit raw symmetrize_fc3q num_grid sigma_cutoff icm).
Notation STEP := (at_sigma bose ish gauss g rel eps Qg rl triplets weights nb0 nb ntrip fp freq cutoff unit pp_unit raw symmetrize_fc3q num_grid sigma_cutoff icm).
Notation OUT := (outputs bose ish triplets weights nb0 nb ntrip freq cutoff unit).
Notation GAMMA := (gamma bose triplets weights nb0 nb ntrip freq cutoff unit).
Hypothesis P0 : 0 <= nb0.
Hypothesis P1 : 0 <= nb.
Hypothesis P2 : 0 <= ntrip.
Hypothesis Hocc : occ_ok bose cutoff.

(** ** flagged entries have no weight *)
Lemma flag_true : forall m x, m (c_zero x) = 1%Q \/ m (c_zero x) = 0%Q -> flag_of m x = true -> m (c_zero x) = 1%Q.
Proof. intros m x [H | H] F; [exact H|]. unfold flag_of in F. rewrite H in F. discriminate. Qed.
Lemma zero_weights : forall sigma i j k l, 0 <= i < ntrip -> 0 <= j < nb0 -> 0 <= k < nb -> 0 <= l < nb ->
  let key := ((i * nb0 + j) * nb + k) * nb + l in let S := ntrip * nb0 * nb * nb in
  flag_of (WC sigma) key = true ->
  Qeq (WC sigma (c_iw key)) 0 /\ Qeq (WC sigma (c_iw (key + S))) 0 /\ (icm = true -> Qeq (WC sigma (c_iw (key + 2 * S))) 0).
Proof.
  intros sigma i j k l Hi Hj Hk Hl key S F.
  assert (R : result_of ntrip nb0 nb (c_body g rel gauss triplets nb fp freq eps Qg rl sigma sigma_cutoff icm) (fun _ => 0%Q) (WC sigma)).
  { unfold result_of, weight_cells, iw_arrays. rewrite <- run_seq_wprog. apply seq_finishes. }
  unfold result_of, c_body in R. set (tp := if icm then 3 else 2) in *. assert (Htp : tp = 2 \/ tp = 3) by (unfold tp; destruct icm; auto).
  assert (Hi3 : icm = true -> tp = 3) by (intros E; unfold tp; now rewrite E).
  destruct (smeared_by sigma) as [s|].
  - destruct (C22_smearing_weights _ _ _ _ _ _ _ _ _ _ _ _ i k l j Htp R Hi Hk Hl Hj) as [[_ [_ [W0 [W1 W2]]]] | [Z0 _]].
    + split; [exact W0|]. split; [exact W1|]. intros E. exact (W2 (Hi3 E)).
    + exfalso. unfold flag_of in F. fold key in Z0. rewrite Z0 in F. discriminate.
  - destruct (C22_tetrahedron_weights _ _ _ _ _ _ _ _ _ _ _ _ _ _ i k l j Htp R Hi Hk Hl Hj) as [_ [_ [_ [Z0 | [_ [W0 [W1 W2]]]]]]].
    + exfalso. unfold flag_of in F. fold key in Z0. rewrite Z0 in F. discriminate.
    + split; [exact W0|]. split; [exact W1|]. intros E. exact (W2 (Hi3 E)).
Qed.
Lemma zeros_of_cells : forall sigma, zeros_ok ntrip nb0 nb (fun x => WC sigma (c_iw x)) (flag_of (WC sigma)).
Proof.
  intros sigma i r k l Hi Hr Hk Hl F. unfold arr4, arr5 in *. destruct (zero_weights sigma i r k l Hi Hr Hk Hl F) as [W0 [W1 _]]. split.
  - replace ((((0 * ntrip + i) * nb0 + r) * nb + k) * nb + l) with (((i * nb0 + r) * nb + k) * nb + l) by ring. exact W0.
  - replace ((((1 * ntrip + i) * nb0 + r) * nb + k) * nb + l) with (((i * nb0 + r) * nb + k) * nb + l + ntrip * nb0 * nb * nb) by ring. exact W1.
Qed.

(** ** linewidths as sums *)
Lemma gamma_spec : forall pp gw gz T b, zeros_ok ntrip nb0 nb gw gz -> 0 <= b < nb0 ->
  Qeq (GAMMA pp gw gz T b) (self_energy all_triplets bose nb0 nb ntrip nb0 pp freq triplets weights gw T cutoff b b * unit).
Proof.
  intros pp gw gz T b Hz Hb. unfold gamma.
  rewrite (C48_sparse_sum_equals_full_sum bose nb0 nb ntrip 0 (-1) pp freq triplets weights gw gz T cutoff _ _ _ _ P0 P1 P2 ltac:(lia) Hocc Hz
    (fun i _ => seq_finishes _ _ _) (seq_finishes _ _ _) b Hb). reflexivity.
Qed.
(** strengths that agree but where the weights vanish *)
Definition alike (gw pp pp' : Z -> Q) (planes : list Z) : Prop := forall i j k l, 0 <= i < ntrip -> 0 <= j < nb0 -> 0 <= k < nb -> 0 <= l < nb ->
  Qeq (arr4 nb0 nb nb pp i j k l) (arr4 nb0 nb nb pp' i j k l) \/ (forall p, In p planes -> Qeq (arr5 ntrip nb0 nb nb gw p i j k l) 0).
Lemma self_energy_alike : forall pp pp' gw T b, alike gw pp pp' [0; 1] -> 0 <= b < nb0 ->
  Qeq (self_energy all_triplets bose nb0 nb ntrip nb0 pp freq triplets weights gw T cutoff b b)
      (self_energy all_triplets bose nb0 nb ntrip nb0 pp' freq triplets weights gw T cutoff b b).
Proof.
  intros pp pp' gw T b A Hb. unfold self_energy. apply Sum_ext. intros i Hi. unfold all_triplets. cbv iota.
  apply Qmult_comp; [reflexivity|]. apply Sum_ext. intros k Hk. apply Sum_ext. intros l Hl. unfold contribution.
  destruct (qltb cutoff _ && qltb cutoff _); [|reflexivity].
  destruct (A i b k l Hi Hb Hk Hl) as [E | Z0].
  - destruct (qltb 0 T); rewrite E; reflexivity.
  - pose proof (Z0 0 (or_introl eq_refl)) as A0. pose proof (Z0 1 (or_intror (or_introl eq_refl))) as A1.
    destruct (qltb 0 T); rewrite ?A1, A0; ring.
Qed.
Lemma fold_sum_ext : forall (l : list Z) (f f' : Z -> Q) c c', (forall m, In m l -> Qeq (f m) (f' m)) -> Qeq c c' ->
  Qeq (fold_left (fun c m => (c + f m)%Q) l c) (fold_left (fun c m => (c + f' m)%Q) l c').
Proof.
  induction l as [|m l IH]; intros f f' c c' H E; [exact E|]. cbn [fold_left]. apply IH; [intros x Hx; apply H; now right|].
  rewrite E, (H m) by now left. reflexivity.
Qed.
Lemma collision_alike : forall pp pp' gw T ti sw gp2 k l, alike gw pp pp' [2] -> 0 <= ti < ntrip -> 0 <= k < nb0 -> 0 <= l < nb ->
  Qeq (collision ish nb0 nb ntrip pp freq gw T unit cutoff ti sw gp2 k l) (collision ish nb0 nb ntrip pp' freq gw T unit cutoff ti sw gp2 k l).
Proof.
  intros pp pp' gw T ti sw gp2 k l A Ht Hk Hl. unfold collision.
  apply (fold_sum_ext (zrange nb)
    (fun m => (pp (if sw then (ti * nb0 * nb * nb + k * nb * nb + m * nb + l)%Z else (ti * nb0 * nb * nb + k * nb * nb + l * nb + m)%Z) * gw (2 * ntrip * nb0 * nb * nb + (if sw then ti * nb0 * nb * nb + k * nb * nb + m * nb + l else ti * nb0 * nb * nb + k * nb * nb + l * nb + m))%Z * inv_sinh ish nb freq T cutoff gp2 m * unit)%Q)
    (fun m => (pp' (if sw then (ti * nb0 * nb * nb + k * nb * nb + m * nb + l)%Z else (ti * nb0 * nb * nb + k * nb * nb + l * nb + m)%Z) * gw (2 * ntrip * nb0 * nb * nb + (if sw then ti * nb0 * nb * nb + k * nb * nb + m * nb + l else ti * nb0 * nb * nb + k * nb * nb + l * nb + m))%Z * inv_sinh ish nb freq T cutoff gp2 m * unit)%Q)); [|reflexivity].
  intros m Hm. apply in_zrange in Hm. destruct sw.
  - destruct (A ti k m l Ht Hk Hm Hl) as [E | Z0]; unfold arr4, arr5 in *.
    + replace (ti * nb0 * nb * nb + k * nb * nb + m * nb + l) with (((ti * nb0 + k) * nb + m) * nb + l) by ring. rewrite E. reflexivity.
    + specialize (Z0 2 (or_introl eq_refl)). replace (2 * ntrip * nb0 * nb * nb + (ti * nb0 * nb * nb + k * nb * nb + m * nb + l)) with ((((2 * ntrip + ti) * nb0 + k) * nb + m) * nb + l) by ring. rewrite Z0. ring.
  - destruct (A ti k l m Ht Hk Hl Hm) as [E | Z0]; unfold arr4, arr5 in *.
    + replace (ti * nb0 * nb * nb + k * nb * nb + l * nb + m) with (((ti * nb0 + k) * nb + l) * nb + m) by ring. rewrite E. reflexivity.
    + specialize (Z0 2 (or_introl eq_refl)). replace (2 * ntrip * nb0 * nb * nb + (ti * nb0 * nb * nb + k * nb * nb + l * nb + m)) with ((((2 * ntrip + ti) * nb0 + k) * nb + l) * nb + m) by ring. rewrite Z0. ring.
Qed.

(** ** the loop over temperatures *)
Definition eff (const : option Q) (c : collider) : Z -> Q :=
  match co_pp c with Some p => p | None => match const with None => fun x => (raw x * pp_unit)%Q | Some v => fun _ => (v / num_grid)%Q end end.
Definition filled (const : option Q) (c : collider) : collider := mkco (co_g c) (co_gz c) (Some (eff const c)).
Notation TEMPS := (at_temperatures bose ish triplets weights nb0 nb ntrip freq cutoff unit pp_unit raw symmetrize_fc3q num_grid).
Lemma at_temperatures_filled : forall const temps c p, co_pp c <> None ->
  TEMPS const temps (c, p) = ((c, p), map (OUT c) temps).
Proof.
  intros const temps c p Hc. induction temps as [|T ts IH]; [reflexivity|]. cbn [at_temperatures]. unfold collision_run. cbn [fst].
  destruct (co_pp c) as [q|] eqn:E; [|congruence]. cbn [fst]. rewrite IH. reflexivity.
Qed.
Lemma at_temperatures_value : forall const temps c p, snd (TEMPS const temps (c, p)) = map (OUT (filled const c)) temps.
Proof.
  intros const temps c p. unfold filled, eff. destruct (co_pp c) as [q|] eqn:E.
  - rewrite at_temperatures_filled by congruence. cbn [snd]. destruct c as [a b d]. cbn [co_g co_gz co_pp] in *. now rewrite E.
  - destruct temps as [|T ts]; [reflexivity|]. cbn [at_temperatures]. unfold collision_run. cbn [fst]. rewrite E. unfold run_interaction.
    destruct const as [v|]; cbn [interaction_run in_pp fst]; rewrite at_temperatures_filled by discriminate; reflexivity.
Qed.
Lemma at_temperatures_state : forall T ts c p, co_pp c = None -> snd (fst (TEMPS None (T :: ts) (c, p))) = mkin (Some (fun x => raw x * pp_unit)%Q) None.
Proof.
  intros T ts c p E. cbn [at_temperatures]. unfold collision_run. cbn [fst]. rewrite E. unfold run_interaction. cbn [interaction_run in_pp fst].
  rewrite at_temperatures_filled by discriminate. reflexivity.
Qed.

(** ** outputs *)
Definition same_output (o o' : output) : Prop :=
  (forall b, 0 <= b < nb0 -> Qeq (o_gamma o b) (o_gamma o' b)) /\
  (icm = true -> forall ti sw gp2 k l, 0 <= ti < ntrip -> 0 <= k < nb0 -> 0 <= l < nb -> Qeq (o_elem o ti sw gp2 k l) (o_elem o' ti sw gp2 k l)).
Lemma same_refl : forall o, same_output o o.
Proof. intros o. split; intros; reflexivity. Qed.
Definition weighed (sigma : option Q) (pp : Z -> Q) : collider := mkco (Some (fun x => WC sigma (c_iw x))) (Some (flag_of (WC sigma))) (Some pp).
Lemma alike_masked : forall sigma pp pp', (forall i j k l, 0 <= i < ntrip -> 0 <= j < nb0 -> 0 <= k < nb -> 0 <= l < nb ->
    let key := ((i * nb0 + j) * nb + k) * nb + l in flag_of (WC sigma) key = true \/ Qeq (pp key) (pp' key)) ->
  forall T, same_output (OUT (weighed sigma pp) T) (OUT (weighed sigma pp') T).
Proof.
  intros sigma pp pp' H T. split.
  - intros b Hb. cbn [outputs o_gamma weighed co_pp co_g co_gz get]. rewrite !gamma_spec by (auto using zeros_of_cells).
    apply Qmult_comp; [|reflexivity]. apply self_energy_alike; [|exact Hb]. intros i j k l Hi Hj Hk Hl. destruct (H i j k l Hi Hj Hk Hl) as [F | E]; [right|now left].
    destruct (zeros_of_cells sigma i j k l Hi Hj Hk Hl F) as [W0 W1]. intros p [<- | [<- | []]]; auto.
  - intros Hc ti sw gp2 k l Ht Hk Hl. cbn [outputs o_elem weighed co_pp co_g co_gz get]. apply collision_alike; auto.
    intros i j k' l' Hi Hj Hk' Hl'. destruct (H i j k' l' Hi Hj Hk' Hl') as [F | E]; [right|now left]. intros p [<- | []].
    destruct (zero_weights sigma i j k' l' Hi Hj Hk' Hl' F) as [_ [_ W2]]. unfold arr5.
    replace ((((2 * ntrip + i) * nb0 + j) * nb + k') * nb + l') with (((i * nb0 + j) * nb + k') * nb + l' + 2 * (ntrip * nb0 * nb * nb)) by ring. exact (W2 Hc).
Qed.
Definition masked (sigma : option Q) (full : bool) : Z -> Q :=
  fun x => if (if full then false else if symmetrize_fc3q then false else flag_of (WC sigma) x) then 0%Q else (raw x * pp_unit)%Q.
Lemma masked_alike : forall sigma full T, same_output (OUT (weighed sigma (masked sigma full)) T) (OUT (weighed sigma (fun x => raw x * pp_unit)%Q) T).
Proof.
  intros sigma full. apply alike_masked. intros i j k l _ _ _ _ key. unfold masked. destruct full; [right; reflexivity|].
  destruct symmetrize_fc3q; [right; reflexivity|]. destruct (flag_of (WC sigma) key); [now left|right; reflexivity].
Qed.
Lemma same_sym : forall o o', same_output o o' -> same_output o' o.
Proof. intros o o' [H1 H2]. split; [intros b Hb; symmetry; auto|]. intros; symmetry; auto. Qed.
Lemma same_trans : forall a b c, same_output a b -> same_output b c -> same_output a c.
Proof.
  intros a b c [H1 H2] [H3 H4]. split; [intros x Hx; rewrite (H1 x Hx); auto|].
  intros Hc ti sw gp2 k l Ht Hk Hl. rewrite (H2 Hc ti sw gp2 k l Ht Hk Hl). auto.
Qed.
Lemma map_same : forall c c' temps, (forall T, same_output (OUT c T) (OUT c' T)) -> Forall2 same_output (map (OUT c) temps) (map (OUT c') temps).
Proof. intros c c' temps H. induction temps; cbn [map]; constructor; auto. Qed.

(** outputs of one pass *)
Lemma step_compute : forall lbte full temps j sigma s, exists s' pp,
  STEP lbte (Compute full) temps j sigma s = Ok (s', map (OUT (weighed sigma pp)) temps) /\ (pp = masked sigma full \/ pp = (fun x => raw x * pp_unit)%Q) /\
  (temps <> [] -> in_pp (snd s') = Some pp /\ (in_gz (snd s') = None \/ in_gz (snd s') = Some (flag_of (WC sigma)))).
Proof.
  intros lbte full temps j sigma [c p]. unfold at_sigma. cbn [fst snd strengths]. destruct (negb (j =? 0)%nat && _).
  - set (c1 := run_integration_weights gauss g rel eps Qg rl triplets nb0 nb ntrip fp freq sigma_cutoff icm sigma (set_sigma c)).
    pose proof (at_temperatures_value None temps c1 p) as V.
    assert (St : temps <> [] -> snd (fst (TEMPS None temps (c1, p))) = mkin (Some (fun x => raw x * pp_unit)%Q) None).
    { intros N. destruct temps as [|T ts]; [congruence|]. now apply at_temperatures_state. }
    unfold const_of. destruct (TEMPS None temps _) as [s' os] eqn:E. cbn [snd fst] in V, St. exists s', (fun x => raw x * pp_unit)%Q.
    split; [rewrite V; reflexivity|]. split; [now right|]. intros N. rewrite (St N). split; [reflexivity|now left].
  - unfold run_interaction at 1. cbn [run_integration_weights co_gz interaction_run in_pp co_g const_of].
    rewrite at_temperatures_filled by (cbn; discriminate). eexists (_, _). exists (masked sigma full). split; [|split; [now left|intros _]].
    + unfold weighed, masked. apply f_equal. apply f_equal2; [reflexivity|]. destruct full; [reflexivity|]. destruct symmetrize_fc3q; reflexivity.
    + cbn [snd in_pp in_gz]. unfold masked. destruct full; [auto|]. cbn [co_gz]. destruct symmetrize_fc3q; auto.
Qed.
Lemma step_same : forall lbte md temps j j' sigma s s',
  match STEP lbte md temps j sigma s with
  | Ok (_, os) => exists s1 os', STEP lbte md temps j' sigma s' = Ok (s1, os') /\ Forall2 same_output os os'
  | Err e => STEP lbte md temps j' sigma s' = Err e
  end.
Proof.
  intros lbte md temps j j' sigma [c p] [c' p'].
  assert (Refl : forall os, Forall2 same_output os os) by (induction os; constructor; auto using same_refl).
  destruct md as [file | v | v | full].
  - unfold at_sigma. cbn [fst snd strengths run_integration_weights co_gz get]. destruct (file sigma) as [[pp [z|]]|]; [|..|reflexivity].
    + destruct (different_zeros _ _ _ _ _).
      * destruct lbte; [|reflexivity]. unfold set_interaction_strength. cbn [co_g co_gz]. rewrite !at_temperatures_filled by discriminate. eauto.
      * unfold set_interaction_strength. cbn [co_g co_gz]. rewrite !at_temperatures_filled by discriminate. eauto.
    + unfold set_interaction_strength. cbn [co_g co_gz]. rewrite !at_temperatures_filled by discriminate. eauto.
  - unfold at_sigma. cbn [fst snd strengths run_integration_weights set_averaged co_gz co_g]. rewrite !at_temperatures_filled by discriminate. eauto.
  - unfold at_sigma. cbn [fst snd strengths run_integration_weights run_interaction interaction_run co_gz co_g in_pp]. rewrite !at_temperatures_filled by discriminate. eauto.
  - destruct (step_compute lbte full temps j sigma (c, p)) as [s1 [pp1 [E1 [K1 _]]]]. destruct (step_compute lbte full temps j' sigma (c', p')) as [s2 [pp2 [E2 [K2 _]]]].
    rewrite E1. exists s2. eexists. split; [exact E2|]. apply map_same. intros T.
    pose proof (masked_alike sigma full T) as M. destruct K1 as [-> | ->], K2 as [-> | ->]; auto using same_refl, same_sym.
Qed.

(** ** C123: every width gets what it would get alone, whatever was calculated before *)
Theorem C123_alone : forall lbte md temps sigmas s s',
  match RUN lbte md temps sigmas s with
  | Ok (_, outs) => length outs = length sigmas /\
      forall j sigma, nth_error sigmas j = Some sigma ->
        exists out s1 out1, nth_error outs j = Some out /\ RUN lbte md temps [sigma] s' = Ok (s1, [out1]) /\ Forall2 same_output out out1
  | Err e => exists sigma, In sigma sigmas /\ RUN lbte md temps [sigma] s' = Err e
  end.
Proof.
  intros lbte md temps sigmas s s'. unfold at_sigmas. generalize 0%nat at 1 as j0. revert s. induction sigmas as [|sigma rest IH]; intros s j0; cbn [from_sigma].
  - split; [reflexivity|]. intros [|j] sigma H; discriminate.
  - pose proof (step_same lbte md temps j0 0%nat sigma s s') as St. destruct (STEP lbte md temps j0 sigma s) as [[s1 os]|e].
    + specialize (IH s1 (S j0)). destruct (from_sigma _ _ _ _ _ _ _ _ _ _ _ _ _ _ _ _ _ _ _ _ _ _ _ lbte md temps (S j0) rest s1) as [[s2 outs]|e].
      * destruct IH as [L IH]. split; [cbn [length]; now rewrite L|]. intros [|j] sg H; cbn [nth_error] in *.
        -- injection H as <-. destruct St as [s3 [os' [E F]]]. exists os, s3, os'. rewrite E. auto.
        -- destruct (IH j sg H) as [out [s3 [out1 [E1 [E2 F]]]]]. exists out, s3, out1. auto.
      * destruct IH as [sg [Hin E]]. exists sg. split; [now right|exact E].
    + exists sigma. split; [now left|]. rewrite St. reflexivity.
Qed.

(** and calculated strengths always succeed and give the sums of the self-energy with all strengths *)
Theorem C123_value : forall lbte full temps sigmas s, exists s' outs,
  RUN lbte (Compute full) temps sigmas s = Ok (s', outs) /\ length outs = length sigmas /\
  forall j sigma k T, nth_error sigmas j = Some sigma -> nth_error temps k = Some T ->
    exists out o, nth_error outs j = Some out /\ nth_error out k = Some o /\
      forall b, 0 <= b < nb0 ->
        Qeq (o_gamma o b) (self_energy all_triplets bose nb0 nb ntrip nb0 (fun x => raw x * pp_unit)%Q freq triplets weights (fun x => WC sigma (c_iw x)) T cutoff b b * unit).
Proof.
  intros lbte full temps sigmas s. unfold at_sigmas. generalize 0%nat as j0. revert s. induction sigmas as [|sigma rest IH]; intros s j0; cbn [from_sigma].
  - exists s, []. split; [reflexivity|]. split; [reflexivity|]. intros [|j] sigma k T H; discriminate.
  - destruct (step_compute lbte full temps j0 sigma s) as [s1 [pp [E [K _]]]]. rewrite E. destruct (IH s1 (S j0)) as [s2 [outs [E2 [L H]]]]. rewrite E2.
    eexists _, _. split; [reflexivity|]. split; [cbn [length]; now rewrite L|]. intros [|j] sg k T Hs Ht; cbn [nth_error] in *; [|now apply (H j sg k T)].
    injection Hs as <-. eexists _, _. split; [reflexivity|]. split; [rewrite nth_error_map, Ht; reflexivity|]. intros b Hb.
    assert (M : same_output (OUT (weighed sigma pp) T) (OUT (weighed sigma (fun x => raw x * pp_unit)%Q) T)) by (destruct K as [-> | ->]; [apply masked_alike|apply same_refl]).
    rewrite (proj1 M b Hb). cbn [outputs o_gamma weighed co_pp co_g co_gz get]. rewrite gamma_spec by (auto using zeros_of_cells). reflexivity.
Qed.
(** averaged and constant strengths: the linewidth of a band is that of unit strengths times the value of that band over the number of grid points *)
Lemma self_energy_band : forall pp c gw T b, (forall i k l, 0 <= i < ntrip -> 0 <= k < nb -> 0 <= l < nb -> Qeq (pp (((i * nb0 + b) * nb + k) * nb + l)) c) ->
  Qeq (self_energy all_triplets bose nb0 nb ntrip nb0 pp freq triplets weights gw T cutoff b b)
      (c * self_energy all_triplets bose nb0 nb ntrip nb0 (fun _ => 1%Q) freq triplets weights gw T cutoff b b).
Proof.
  intros pp c gw T b A. unfold self_energy. rewrite <- Sum_scale. apply Sum_ext. intros i Hi. unfold all_triplets. cbv iota.
  transitivity (inject_Z (weights i) * (c * Sum nb (fun k => Sum nb (fun l => contribution bose T cutoff (freq (tp_at (triplets i) 1 * nb + k)%Z) (freq (tp_at (triplets i) 2 * nb + l)%Z)
      (arr5 ntrip nb0 nb nb gw 0 i b k l) (arr5 ntrip nb0 nb nb gw 1 i b k l) 1))))%Q; [|unfold arr4; ring].
  apply Qmult_comp; [reflexivity|]. rewrite <- Sum_scale. apply Sum_ext. intros k Hk. rewrite <- Sum_scale. apply Sum_ext. intros l Hl. unfold contribution.
  destruct (qltb cutoff _ && qltb cutoff _); [|ring]. unfold arr4. destruct (qltb 0 T); rewrite (A i k l Hi Hk Hl); ring.
Qed.
Theorem C123_averaged : forall lbte md value temps sigmas s, md = Averaged value \/ (exists v, md = Constant v /\ forall b, value b = v) -> exists s' outs,
  RUN lbte md temps sigmas s = Ok (s', outs) /\ length outs = length sigmas /\
  forall j sigma k T, nth_error sigmas j = Some sigma -> nth_error temps k = Some T ->
    exists out o, nth_error outs j = Some out /\ nth_error out k = Some o /\
      forall b, 0 <= b < nb0 ->
        Qeq (o_gamma o b) (value b / num_grid * self_energy all_triplets bose nb0 nb ntrip nb0 (fun _ => 1%Q) freq triplets weights (fun x => WC sigma (c_iw x)) T cutoff b b * unit).
Proof.
  intros lbte md value temps sigmas s Hmd.
  assert (St : forall j0 sigma s, exists s' pp, STEP lbte md temps j0 sigma s = Ok (s', map (OUT (weighed sigma pp)) temps) /\
    forall b, 0 <= b < nb0 -> forall i k l, 0 <= i < ntrip -> 0 <= k < nb -> 0 <= l < nb -> Qeq (pp (((i * nb0 + b) * nb + k) * nb + l)) (value b / num_grid)).
  { intros j0 sigma [c p]. destruct Hmd as [-> | [v [-> Hv]]]; unfold at_sigma.
    - cbn [fst snd strengths run_integration_weights set_averaged co_gz co_g]. rewrite !at_temperatures_filled by discriminate. eexists _, _. split; [reflexivity|]. intros b Hb i k l Hi Hk Hl. cbv beta.
      replace ((((i * nb0 + b) * nb + k) * nb + l) / (nb * nb)) with (i * nb0 + b) by (apply (Z.div_unique _ _ _ (k * nb + l)); nia).
      replace ((i * nb0 + b) mod nb0) with b by (apply (Z.mod_unique _ _ i); lia). reflexivity.
    - cbn [fst snd strengths run_integration_weights run_interaction interaction_run co_gz co_g in_pp]. rewrite !at_temperatures_filled by discriminate. eexists _, _. split; [reflexivity|]. intros b Hb i k l Hi Hk Hl. cbv beta. rewrite Hv. reflexivity. }
  unfold at_sigmas. generalize 0%nat as j0. revert s. induction sigmas as [|sigma rest IH]; intros s j0; cbn [from_sigma].
  - exists s, []. split; [reflexivity|]. split; [reflexivity|]. intros [|j] sigma k T H; discriminate.
  - destruct (St j0 sigma s) as [s1 [pp [E K]]]. rewrite E. destruct (IH s1 (S j0)) as [s2 [outs [E2 [L H]]]]. rewrite E2.
    eexists _, _. split; [reflexivity|]. split; [cbn [length]; now rewrite L|]. intros [|j] sg k T Hs Ht; cbn [nth_error] in *; [|now apply (H j sg k T)].
    injection Hs as <-. eexists _, _. split; [reflexivity|]. split; [rewrite nth_error_map, Ht; reflexivity|]. intros b Hb.
    cbn [outputs o_gamma weighed co_pp co_g co_gz get]. rewrite gamma_spec by (auto using zeros_of_cells). apply Qmult_comp; [|reflexivity]. apply self_energy_band. intros i kk l Hi Hk Hl. now apply K.
Qed.

(** ** a written file *)
Lemma last_pass : forall lbte full temps sigma sigmas s s' outs, RUN lbte (Compute full) temps (sigma :: sigmas) s = Ok (s', outs) ->
  exists j s0 out, STEP lbte (Compute full) temps j (last (sigma :: sigmas) None) s0 = Ok (s', out) /\ nth_error outs (length sigmas) = Some out.
Proof.
  intros lbte full temps sigma sigmas. unfold at_sigmas. generalize 0%nat as j0. revert sigma. induction sigmas as [|sg rest IH]; intros sigma j0 s s' outs H.
  - cbn [from_sigma] in H. destruct (STEP lbte (Compute full) temps j0 sigma s) as [[s1 o]|e] eqn:E; [|discriminate]. injection H as <- <-.
    exists j0, s, o. split; [exact E|reflexivity].
  - cbn [from_sigma] in H. destruct (STEP lbte (Compute full) temps j0 sigma s) as [[s1 o]|e] eqn:E; [|discriminate].
    destruct (STEP lbte (Compute full) temps (S j0) sg s1) as [[s2 o2]|e] eqn:E2; [|discriminate].
    destruct (from_sigma _ _ _ _ _ _ _ _ _ _ _ _ _ _ _ _ _ _ _ _ _ _ _ lbte (Compute full) temps (S (S j0)) rest s2) as [[s3 os]|e] eqn:E3; [|discriminate].
    injection H as <- <-.
    specialize (IH sg (S j0) s1 s3 (o2 :: os)). cbn [from_sigma] in IH. rewrite E2, E3 in IH. destruct (IH eq_refl) as [j [s0 [out [A B]]]].
    exists j, s0, out. split; [exact A|exact B].
Qed.
Lemma no_different_zeros : forall z, different_zeros nb0 nb ntrip z z = false.
Proof.
  intros z. unfold different_zeros. apply Bool.not_true_iff_false. intros H. apply existsb_exists in H. destruct H as [x [_ H]]. now rewrite Bool.eqb_reflx in H.
Qed.
(** The interaction strengths that a run writes, when they are read back for the width in the name of the file, are accepted and give the
    linewidths and the elements of the collision matrix of that run. Entries flagged in the file may have any value. *)
Theorem C123_pp_file : forall lbte lbte' full temps sigmas s s' outs sg pp z file, temps <> [] -> sigmas <> [] ->
  RUN lbte (Compute full) temps sigmas s = Ok (s', outs) -> write_pp sigmas (snd s') = (sg, (Some pp, z)) ->
  (exists pp', file sg = Some (pp', z) /\ forall x, (match z with Some z => z x | None => false end) = false -> Qeq (pp' x) (pp x)) ->
  exists out s1 out1, nth_error outs (length sigmas - 1) = Some out /\ RUN lbte' (Read file) temps [sg] s = Ok (s1, [out1]) /\ Forall2 same_output out out1.
Proof.
  intros lbte lbte' full temps [|sigma sigmas] s s' outs sg pp z file Ht Hs R W [pp' [F Hpp]]; [congruence|].
  destruct (last_pass _ _ _ _ _ _ _ _ R) as [j [s0 [out [E N]]]]. replace (length (sigma :: sigmas) - 1)%nat with (length sigmas) by (cbn [length]; lia).
  exists out. destruct (step_compute lbte full temps j (last (sigma :: sigmas) None) s0) as [s1 [q [E1 [_ Hst]]]]. rewrite E in E1. injection E1 as <- ->.
  unfold write_pp in W. injection W as <- W1 W2. destruct (Hst Ht) as [H1 H2]. set (sg := last (sigma :: sigmas) None) in *. rewrite W1 in H1. injection H1 as <-.
  assert (M : Forall2 same_output (map (OUT (weighed sg pp)) temps) (map (OUT (weighed sg pp')) temps)).
  { apply map_same. apply alike_masked. intros i' j' k l _ _ _ _ key. rewrite W2 in H2. destruct H2 as [-> | ->].
    - right. symmetry. apply Hpp. reflexivity.
    - destruct (flag_of (WC sg) key) eqn:Fl; [now left|]. right. symmetry. apply Hpp. exact Fl. }
  unfold at_sigmas. cbn [from_sigma]. unfold at_sigma. cbn [fst snd strengths run_integration_weights co_gz get]. rewrite F.
  assert (K : match z with Some z0 => different_zeros nb0 nb ntrip z0 (flag_of (WC sg)) | None => false end = false).
  { rewrite W2 in H2. destruct H2 as [-> | ->]; [reflexivity|apply no_different_zeros]. }
  eexists _, _. split; [exact N|]. split; [|exact M].
  destruct z as [z|]; [match goal with |- context [different_zeros nb0 nb ntrip z ?f] => replace (different_zeros nb0 nb ntrip z f) with false by (symmetry; exact K) end|]; unfold set_interaction_strength; cbn [co_g co_gz]; rewrite at_temperatures_filled by discriminate; reflexivity.
Qed.

(** ** the low-memory loop *)
Notation LC := (low_cells gauss g rel eps Qg rl triplets nb0 nb fp freq sigma_cutoff).
Definition not_zero (sigma : option Q) : Prop := forall x, sigma = Some x -> ~ Qeq x 0.
Lemma smeared_not_zero : forall x, ~ Qeq x 0 -> smeared_by (Some x) = Some x.
Proof. intros x H. unfold smeared_by. destruct (Qeq_bool x 0) eqn:E; [|reflexivity]. apply Qeq_bool_iff in E. contradiction. Qed.
Lemma low_weights : forall sigma i j k l, icm = false -> not_zero sigma -> 0 <= i < ntrip -> 0 <= j < nb0 -> 0 <= k < nb -> 0 <= l < nb ->
  let key := ((i * nb0 + j) * nb + k) * nb + l in let S := ntrip * nb0 * nb * nb in
  let lkey := ((0 * nb0 + j) * nb + k) * nb + l in let L := 1 * nb0 * nb * nb in
  Qeq (LC sigma i (c_iw lkey)) (WC sigma (c_iw key)) /\ Qeq (LC sigma i (c_iw (lkey + L))) (WC sigma (c_iw (key + S))) /\
  (flag_of (LC sigma i) lkey = true -> Qeq (LC sigma i (c_iw lkey)) 0 /\ Qeq (LC sigma i (c_iw (lkey + L))) 0).
Proof.
  intros sigma i j k l Hicm Hn Hi Hj Hk Hl key S lkey L.
  assert (R : result_of ntrip nb0 nb (c_body g rel gauss triplets nb fp freq eps Qg rl sigma sigma_cutoff icm) (fun _ => 0%Q) (WC sigma)).
  { unfold result_of, weight_cells, iw_arrays. rewrite <- run_seq_wprog. apply seq_finishes. }
  assert (R' : result_of 1 nb0 nb (low_body gauss g rel eps Qg rl triplets nb fp freq sigma_cutoff sigma i) (fun _ => 0%Q) (LC sigma i)).
  { unfold result_of, low_cells, iw_arrays. rewrite <- run_seq_wprog. apply seq_finishes. }
  assert (H0 : 0 <= 0 < 1) by lia. assert (T2 : 2 = 2 \/ 2 = 3) by now left.
  unfold result_of, c_body, low_body in R, R'. assert (E2 : (if icm then 3 else 2) = 2) by now rewrite Hicm. rewrite E2 in R. destruct sigma as [x|].
  - rewrite (smeared_not_zero x (Hn x eq_refl)) in R.
    pose proof (C22_smearing_weights _ _ _ _ _ _ _ _ _ _ _ _ i k l j T2 R Hi Hk Hl Hj) as A.
    pose proof (C22_smearing_weights _ _ _ _ _ _ _ _ _ _ _ _ 0 k l j T2 R' H0 Hk Hl Hj) as B.
    cbv zeta beta in A, B. fold key S in A. fold lkey L in B. fold tp_at in A, B.
    destruct A as [[_ [CA [A0 [A1 _]]]] | [_ [CA [A0 [A1 _]]]]], B as [[_ [CB [B0 [B1 _]]]] | [ZB [CB [B0 [B1 _]]]]].
    + rewrite A0, A1, B0, B1. split; [reflexivity|]. split; [reflexivity|]. intros _. split; reflexivity.
    + exfalso. exact (CB CA).
    + exfalso. exact (CA CB).
    + rewrite A0, A1, B0, B1. split; [reflexivity|]. split; [reflexivity|]. unfold flag_of. rewrite ZB. intros F. discriminate.
  - change (smeared_by None) with (@None Q) in R.
    pose proof (C22_tetrahedron_weights _ _ _ _ _ _ _ _ _ _ _ _ _ _ i k l j T2 R Hi Hk Hl Hj) as A.
    pose proof (C22_tetrahedron_weights _ _ _ _ _ _ _ _ _ _ _ _ _ _ 0 k l j T2 R' H0 Hk Hl Hj) as B.
    cbv zeta beta in A, B. fold key S in A. fold lkey L in B. destruct A as [A0 [A1 _]], B as [B0 [B1 [_ BZ]]].
    rewrite A0, A1, B0, B1. split; [reflexivity|]. split; [reflexivity|]. intros F. destruct BZ as [ZB | [_ [Z0 [Z1 _]]]].
    + exfalso. unfold flag_of in F. rewrite ZB in F. discriminate.
    + rewrite <- B0, <- B1. auto.
Qed.
Lemma contribution_ext : forall T f1 f2 g1 g1' g23 g23' phi phi' u, Qeq g1 g1' -> Qeq g23 g23' -> (Qeq (phi * u) phi' \/ (Qeq g1 0 /\ Qeq g23 0)) ->
  Qeq (contribution bose T cutoff f1 f2 g1 g23 phi * u) (contribution bose T cutoff f1 f2 g1' g23' phi').
Proof.
  intros T f1 f2 g1 g1' g23 g23' phi phi' u E1 E2 H. unfold contribution. destruct (qltb cutoff f1 && qltb cutoff f2); [|ring].
  destruct H as [H | [Z1 Z2]].
  - destruct (qltb 0 T); rewrite <- H, <- E1, <- ?E2; ring.
  - rewrite Z1 in E1. rewrite Z2 in E2. destruct (qltb 0 T); rewrite <- ?E2, <- E1, Z1, ?Z2; ring.
Qed.
Lemma Sum_mul : forall n f u, Qeq (Sum n f * u) (Sum n (fun i => f i * u)%Q).
Proof. intros n f u. rewrite Qmult_comm, <- Sum_scale. apply Sum_ext. intros i _. ring. Qed.
Theorem C123_lowmem : forall lbte full temps sigmas s s' outs is_N j sigma k T out o b,
  icm = false -> RUN lbte (Compute full) temps sigmas s = Ok (s', outs) ->
  nth_error sigmas j = Some sigma -> not_zero sigma -> nth_error temps k = Some T -> nth_error outs j = Some out -> nth_error out k = Some o -> 0 <= b < nb0 ->
  Qeq (low_gamma bose gauss g rel eps Qg rl triplets weights nb0 nb ntrip fp freq cutoff unit pp_unit raw sigma_cutoff is_N sigma temps (Z.of_nat k) b) (o_gamma o b).
Proof.
  intros lbte full temps sigmas s s' outs is_N j sigma k T out o b Hicm R Hs Hn Ht Ho Ho' Hb.
  destruct (C123_value lbte full temps sigmas s) as [s1 [outs1 [R1 [_ V]]]]. rewrite R in R1. injection R1 as <- <-.
  destruct (V j sigma k T Hs Ht) as [out1 [o1 [E1 [E2 V']]]]. rewrite Ho in E1. injection E1 as <-. rewrite Ho' in E2. injection E2 as <-. rewrite (V' b Hb). clear V V'.
  assert (Hk : (k < length temps)%nat) by (apply nth_error_Some; congruence).
  unfold low_gamma. cbv zeta.
  assert (HZ : forall i b k l, 0 <= i < ntrip -> 0 <= b < nb0 -> 0 <= k < nb -> 0 <= l < nb -> arr4 nb0 nb nb (flag_of (LC sigma i)) 0 b k l = true ->
     Qeq (arr4 nb0 nb nb (fun x => LC sigma i (c_iw x)) 0 b k l) 0 /\ Qeq (arr4 nb0 nb nb (fun x => LC sigma i (c_iw x)) 1 b k l) 0).
  { intros i b' k' l Hi Hb' Hk' Hl F. destruct (low_weights sigma i b' k' l Hicm Hn Hi Hb' Hk' Hl) as [_ [_ WZ]]. unfold arr4 in *.
    replace (((1 * nb0 + b') * nb + k') * nb + l) with (((0 * nb0 + b') * nb + k') * nb + l + 1 * nb0 * nb * nb) by ring. exact (WZ F). }
  rewrite (C48_lowmem_sparse_sum_equals_full_sum bose nb0 nb ntrip (Z.of_nat (length temps)) (low_phi gauss g rel eps Qg rl triplets nb0 nb fp freq raw sigma_cutoff sigma) freq triplets weights
    (fun i x => LC sigma i (c_iw x)) (fun i => flag_of (LC sigma i)) (fun j => nth (Z.to_nat j) temps 0%Q) cutoff _ _ _ _ (fun _ => 0%Q) is_N P0 P1 ltac:(lia) Hocc HZ
    (fun i _ => seq_finishes _ _ _) (seq_finishes _ _ _) (Z.of_nat k) b ltac:(lia) Hb).
  - rewrite Nat2Z.id, (nth_error_nth temps k 0%Q Ht). unfold lowmem_self_energy, self_energy.
    transitivity ((Sum ntrip (fun i => if all_triplets i then inject_Z (weights i) * Sum nb (fun k => Sum nb (fun l =>
      contribution bose T cutoff (freq (tp_at (triplets i) 1 * nb + k)%Z) (freq (tp_at (triplets i) 2 * nb + l)%Z)
        (arr4 nb0 nb nb (fun x => LC sigma i (c_iw x)) 0 b k l) (arr4 nb0 nb nb (fun x => LC sigma i (c_iw x)) 1 b k l)
        (arr4 nb0 nb nb (low_phi gauss g rel eps Qg rl triplets nb0 nb fp freq raw sigma_cutoff sigma i) 0 b k l))) else 0) * pp_unit) * unit)%Q; [ring|].
    apply Qmult_comp; [|reflexivity]. rewrite Sum_mul. apply Sum_ext. intros i Hi. unfold all_triplets. cbv iota.
    rewrite <- Qmult_assoc. apply Qmult_comp; [reflexivity|]. rewrite Sum_mul. apply Sum_ext. intros k' Hk'. rewrite Sum_mul. apply Sum_ext. intros l Hl.
    destruct (low_weights sigma i b k' l Hicm Hn Hi Hb Hk' Hl) as [W0 [W1 WZ]].
    assert (L0 : Qeq (arr4 nb0 nb nb (fun x => LC sigma i (c_iw x)) 0 b k' l) (arr5 ntrip nb0 nb nb (fun x => WC sigma (c_iw x)) 0 i b k' l)) by
      (unfold arr4, arr5; rewrite W0; replace ((((0 * ntrip + i) * nb0 + b) * nb + k') * nb + l) with (((i * nb0 + b) * nb + k') * nb + l) by ring; reflexivity).
    assert (EL : ((1 * nb0 + b) * nb + k') * nb + l = ((0 * nb0 + b) * nb + k') * nb + l + 1 * nb0 * nb * nb) by ring.
    assert (L1 : Qeq (arr4 nb0 nb nb (fun x => LC sigma i (c_iw x)) 1 b k' l) (arr5 ntrip nb0 nb nb (fun x => WC sigma (c_iw x)) 1 i b k' l)) by
      (unfold arr4, arr5; rewrite EL, W1; replace ((((1 * ntrip + i) * nb0 + b) * nb + k') * nb + l) with (((i * nb0 + b) * nb + k') * nb + l + ntrip * nb0 * nb * nb) by ring; reflexivity).
    apply contribution_ext; [exact L0|exact L1|]. unfold arr4, low_phi. rewrite EL. destruct (flag_of (LC sigma i) (((0 * nb0 + b) * nb + k') * nb + l)) eqn:F.
    + right. exact (WZ eq_refl).
    + left. replace (i * (nb0 * nb * nb) + (((0 * nb0 + b) * nb + k') * nb + l)) with (((i * nb0 + b) * nb + k') * nb + l) by ring. reflexivity.
Qed.
End P.
Print Assumptions C123_alone.
Print Assumptions C123_value. Print Assumptions C123_averaged.
Print Assumptions C123_pp_file.
Print Assumptions C123_lowmem.

(** ** a width of zero *)
Definition sx_run (o : BzOut) (cut : option Q) (md : mode) (sigmas : list (option Q)) : result ((collider * interaction) * list (list output)) :=
  at_sigmas (fun _ _ => 1%Q) (fun _ _ => 1%Q) (fun x _ => 1 + x)%Q (rod_grid o) one_rel ex_eps I3 (bL rod) at_zero (fun _ => 1) 1 1 1 (fun _ => 1%Q) (by_point (rod_grid o) hard) 0%Q 1%Q 2%Q (fun _ => 3%Q) false 4%Q
    cut false false md [0%Q; 1%Q] sigmas (mkco None None None, mkin None None).
Definition sx_low (o : BzOut) (cut sigma : option Q) (k : Z) : Q :=
  low_gamma (fun _ _ => 1%Q) (fun x _ => 1 + x)%Q (rod_grid o) one_rel ex_eps I3 (bL rod) at_zero (fun _ => 1) 1 1 1 (fun _ => 1%Q) (by_point (rod_grid o) hard) 0%Q 1%Q 2%Q (fun _ => 3%Q) cut (fun _ => true) sigma [0%Q; 1%Q] k 0.
Definition gammas (r : result ((collider * interaction) * list (list output))) : option (list (list Q)) :=
  match r with Ok (_, outs) => Some (map (map (fun o => Qred (o_gamma o 0))) outs) | Err _ => None end.
Lemma some_pair : forall (A B : Type) (a c : A) (b d : B), Some (a, b) = Some (c, d) -> a = c /\ b = d.
Proof. intros A B a c b d H. injection H as -> ->. auto. Qed.
(** the stored path takes a width of zero for the tetrahedron method, the low-memory path does not *)
Theorem C123_zero_width_refuted : ~ (forall bose ish gauss g rel eps Qg rl triplets weights nb0 nb ntrip fp freq cutoff unit pp_unit raw sym num_grid sigma_cutoff full temps sigma s s' is_N out k o b,
  0 <= nb0 -> 0 <= nb -> 0 <= ntrip -> occ_ok bose cutoff ->
  at_sigmas bose ish gauss g rel eps Qg rl triplets weights nb0 nb ntrip fp freq cutoff unit pp_unit raw sym num_grid sigma_cutoff false false (Compute full) temps [sigma] s = Ok (s', [out]) ->
  nth_error out k = Some o -> 0 <= b < nb0 ->
  Qeq (low_gamma bose gauss g rel eps Qg rl triplets weights nb0 nb ntrip fp freq cutoff unit pp_unit raw sigma_cutoff is_N sigma temps (Z.of_nat k) b) (o_gamma o b)).
Proof.
  intros H. destruct (get_bz_grid_addresses rod 2 zero_out) as [o|] eqn:E; [|vm_compute in E; discriminate].
  assert (K : option_map (fun o => (gammas (sx_run o None (Compute false) [Some 0%Q]), Qred (sx_low o None (Some 0%Q) 0))) (get_bz_grid_addresses rod 2 zero_out)
    = Some (Some [[4 # 27; 4 # 9]]%Q, 9%Q)) by (vm_compute; reflexivity).
  rewrite E in K. cbn [option_map] in K. apply some_pair in K. destruct K as [K1 K2].
  destruct (sx_run o None (Compute false) [Some 0%Q]) as [[s' outs]|e] eqn:R; [|discriminate K1]. cbn [gammas] in K1. injection K1 as K1.
  destruct outs as [|[|o1 out] [|]]; try discriminate K1. cbn [map] in K1. injection K1 as K1 _.
  specialize (H (fun _ _ => 1%Q) (fun _ _ => 1%Q) (fun x _ => 1 + x)%Q (rod_grid o) one_rel ex_eps I3 (bL rod) at_zero (fun _ => 1) 1 1 1 (fun _ => 1%Q) (by_point (rod_grid o) hard) 0%Q 1%Q 2%Q (fun _ => 3%Q) false 4%Q
    None false [0%Q; 1%Q] (Some 0%Q) (mkco None None None, mkin None None) s' (fun _ => true) _ 0%nat o1 0 ltac:(lia) ltac:(lia) ltac:(lia) ltac:(intros f T _; lra) R eq_refl ltac:(lia)).
  change (Z.of_nat 0) with 0 in H. fold (sx_low o None (Some 0%Q) 0) in H.
  rewrite <- (Qred_correct (sx_low o None (Some 0%Q) 0)), <- (Qred_correct (o_gamma o1 0)), K1, K2 in H. discriminate H.
Qed.
Print Assumptions C123_zero_width_refuted.

(** the tetrahedron method and two widths with a cutoff, the narrow one has every entry flagged; the hypotheses on sizes and occupations are met *)
Example C123_ex : option_map (fun o =>
    (gammas (sx_run o (Some 2%Q) (Compute false) [None; Some 1%Q; Some (1 # 10)%Q]), map (fun s => gammas (sx_run o (Some 2%Q) (Compute false) [s])) [None; Some 1%Q; Some (1 # 10)%Q],
     map (fun s => map (fun k => Qred (sx_low o (Some 2%Q) s k)) [0; 1]) [None; Some 1%Q; Some (1 # 10)%Q], gammas (sx_run o None (Read (fun _ => None)) [None])))
  (get_bz_grid_addresses rod 2 zero_out)
  = Some (Some [[4 # 27; 4 # 9]; [9; 27]; [0; 0]], [Some [[4 # 27; 4 # 9]]; Some [[9; 27]]; Some [[0; 0]]], [[4 # 27; 4 # 9]; [9; 27]; [0; 0]], None)%Q /\
  occ_ok (fun _ _ => 1%Q) 0%Q /\ not_zero (Some 1%Q) /\ not_zero None.
Proof.
  split; [vm_compute; reflexivity|]. split; [intros f T _; lra|]. split; [intros x H; injection H as <-; lra|intros x H; discriminate].
Qed.
(** the file written by a run with two widths, read for the second *)
Example C123_file_ex : option_map (fun o =>
    match sx_run o (Some 2%Q) (Compute false) [None; Some 1%Q] with
    | Ok ((_, p), _) => match write_pp [None; Some 1%Q] p with (sg, (Some pp, z)) => (sg, gammas (sx_run o (Some 2%Q) (Read (fun _ => Some (pp, z))) [sg])) | _ => (None, None) end
    | Err _ => (None, None)
    end) (get_bz_grid_addresses rod 2 zero_out) = Some (Some 1%Q, Some [[9; 27]])%Q.
Proof. vm_compute. reflexivity. Qed.
(** strength 8 on four grid points, for every band and constant, with a width and with the tetrahedron method *)
Example C123_averaged_ex : option_map (fun o => (gammas (sx_run o None (Averaged (fun _ => 8%Q)) [Some 1%Q; None]), gammas (sx_run o None (Constant 8%Q) [Some 1%Q; None]))) (get_bz_grid_addresses rod 2 zero_out)
  = Some (Some [[3; 9]; [4 # 81; 4 # 27]], Some [[3; 9]; [4 # 81; 4 # 27]])%Q.
Proof. vm_compute. reflexivity. Qed.
