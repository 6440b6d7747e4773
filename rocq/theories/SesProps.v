(** C133: phonons and strengths that a session gives belong to the inputs that are set. *)
From Coq Require Import ZArith List Bool Lia.
From Verif Require Import Base SesModel.
Import ListNotations.
Open Scope Z_scope.

Section Props.
Context {F2 F3 N M B G D P R : Type}.
Variable L : laws F2 F3 N M B G D P R.
Variable sym : bool.
Notation inter := (inter F2 F3 N M B G D P).
Notation api := (api F2 F3 N M B G D P).
Notation call := (@call F2 F3 N M B G D P).
Notation step := (@step F2 F3 N M B G D P R L sym).
Notation exec := (@exec F2 F3 N M B G D P R L sym).

(** Spec. Phonons [ph] at [p] of given inputs: with the direction, or at Gamma possibly without it *)
Definition of_inputs (f : F2) (n : option N) (m : M) (dir : option D) (g : G) (p : Z) (v : P) : Prop :=
  v = solve L f n m dir g p \/ (p = gamma L g /\ v = solve L f n m None g p).
(** calls between init_phph_interaction and the next change of fc2, fc3, masses, bands or mesh *)
Definition quiet (c : call) : Prop := match c with SetNac _ | RunSolver _ | GetData | RunAt _ | RunSelfEnergy _ => True | _ => False end.
(** calls that give results and set nothing *)
Definition running (c : call) : Prop := match c with RunSolver _ | GetData | RunAt _ | RunSelfEnergy _ => True | _ => False end.
(** the NAC parameters do not matter at Gamma without a direction *)
Definition gamma_free : Prop := forall f n n' m g, solve L f n m None g (gamma L g) = solve L f n' m None g (gamma L g).

(** Invariant of an initialised object *)
Record current (s : api) (dir : option D) (i : inter) : Prop := Current {
  k_inter : a_inter s = Some i;
  k_fc2 : a_fc2 s = Some (i_fc2 i);
  k_nac : i_nac i = a_nac s;
  k_fc3 : i_fc3 i = a_fc3 s;
  k_masses : i_masses i = a_masses s;
  k_bands : i_bands i = a_bands s;
  k_grid : a_grid s = Some (i_grid i);
  k_dir : i_dir i = dir;
  k_ph : forall p, i_done i p = true -> of_inputs (i_fc2 i) (i_nac i) (a_masses s) dir (i_grid i) p (i_ph i p);
  k_gamma : i_gamma i = Some (solve L (i_fc2 i) (i_nac i) (a_masses s) None (i_grid i) (gamma L (i_grid i))) }.

Lemma in_zrange : forall n p, 0 <= p < n -> existsb (Z.eqb p) (zrange n) = true.
Proof.
  intros. apply existsb_exists. exists p. split; [|apply Z.eqb_refl]. unfold zrange. apply in_map_iff. exists (Z.to_nat p).
  split; [lia|]. apply in_seq. lia.
Qed.

Lemma run_solver_current : forall s dir i pts, current s dir i -> current (with_inter s (Some (run_solver L (a_masses s) pts i))) dir (run_solver L (a_masses s) pts i).
Proof.
  intros s dir i pts []. constructor; cbn; try assumption; try reflexivity.
  intros p Hp. destruct (i_done i p) eqn:E; cbn in *.
  - rewrite andb_false_r. now apply k_ph0.
  - rewrite Hp. cbn. left. now rewrite k_dir0.
Qed.

Lemma at_gamma_true_current : forall s dir i, current s dir i -> current (with_inter s (Some (at_gamma L (a_masses s) true i))) dir (at_gamma L (a_masses s) true i).
Proof.
  intros s dir i K. pose proof K as []. unfold at_gamma. constructor; cbn; try assumption; try reflexivity.
  intros p Hp. destruct (p =? gamma L (i_grid i)) eqn:E; cbn in *.
  - left. now rewrite k_dir0.
  - rewrite orb_false_r in Hp. now apply k_ph0.
Qed.

Lemma at_gamma_false_current : forall s dir i, current s dir i -> current (with_inter s (Some (at_gamma L (a_masses s) false i))) dir (at_gamma L (a_masses s) false i).
Proof.
  intros s dir i K. pose proof K as []. unfold at_gamma. rewrite k_gamma0. constructor; cbn; try assumption; try reflexivity.
  intros p Hp. destruct (p =? gamma L (i_grid i)) eqn:E; cbn in *.
  - right. apply Z.eqb_eq in E. subst p. now split.
  - now apply k_ph0.
Qed.

Lemma grid_point_current : forall s dir i p j, current s dir i -> set_grid_point L sym (a_masses s) p i = Some j ->
  current (with_inter s (Some j)) dir j.
Proof.
  intros s dir i p j K H. unfold set_grid_point in H.
  assert (K0 : current (with_inter s (Some i)) dir i) by (destruct K; constructor; assumption || reflexivity).
  destruct (negb sym); [congruence|]. destruct (p =? _).
  - replace j with (at_gamma L (a_masses s) true i) by congruence. now apply at_gamma_true_current.
  - destruct (i_done_nac i); [|congruence]. destruct (i_dir i); [discriminate|].
    replace j with (at_gamma L (a_masses s) false i) by congruence. now apply at_gamma_false_current.
Qed.

Lemma run_current : forall s dir i, current s dir i -> current (with_inter s (Some (run L (a_masses s) i))) dir (run L (a_masses s) i).
Proof.
  intros. unfold run. destruct (existsb _ _); [now apply run_solver_current|]. destruct H; constructor; assumption || reflexivity.
Qed.

Lemma same_current : forall s dir i, current s dir i -> current (with_inter s (Some i)) dir i.
Proof. intros s dir i []. constructor; assumption || reflexivity. Qed.
Lemma prepare_current : forall s dir i, current s dir i -> current (with_inter s (Some (prepare L (a_masses s) i))) dir (prepare L (a_masses s) i).
Proof.
  intros s dir i K. apply run_current, at_gamma_false_current in K. cbn [a_masses with_inter] in K. apply at_gamma_true_current in K. cbn [a_masses with_inter] in K.
  destruct K. constructor; assumption || reflexivity.
Qed.
Lemma each_current : forall l s dir i, current s dir i -> current (with_inter s (Some (fst (each_point L sym (a_masses s) l i)))) dir (fst (each_point L sym (a_masses s) l i)).
Proof.
  induction l as [|p l IH]; intros s dir i K; [now apply same_current|]. cbn [each_point]. destruct (set_grid_point L sym (a_masses s) p i) as [j|] eqn:E; [|now apply same_current].
  pose proof (run_current _ _ _ (grid_point_current _ _ _ _ _ K E)) as K1. cbn [a_masses with_inter] in K1. set (j1 := run L (a_masses s) j) in *.
  destruct (i_fc3 j1); [|destruct K1; constructor; assumption || reflexivity]. specialize (IH _ _ _ K1). cbn [a_masses with_inter] in IH.
  destruct (each_point L sym (a_masses s) l j1) as [j2 rs]. cbn [fst] in *. destruct IH; constructor; assumption || reflexivity.
Qed.

(** all points are solved after a run *)
Lemma run_done : forall m (i : inter) p, 0 <= p < npts L (i_grid i) -> i_done (run L m i) p = true.
Proof.
  intros. unfold run. destruct (existsb _ _) eqn:E.
  - cbn. unfold all_points. rewrite in_zrange by assumption. apply orb_true_r.
  - destruct (i_done i p) eqn:F; [reflexivity|]. enough (false = true) by discriminate. rewrite <- E. apply existsb_exists. exists p.
    rewrite F. split; [|reflexivity]. unfold all_points, zrange. apply in_map_iff. exists (Z.to_nat p). split; [lia|]. apply in_seq. lia.
Qed.

Lemma run_kept : forall m (i : inter) p, i_done i p = true -> i_ph (run L m i) p = i_ph i p.
Proof. intros. unfold run. destruct (existsb _ _); [|reflexivity]. cbn. now rewrite H, andb_false_r. Qed.

Lemma init_current : forall s dir s1, step s (InitPhph dir) = (s1, Nothing) ->
  (exists i, current s1 dir i) /\ a_fc2 s1 = a_fc2 s /\ a_fc3 s1 = a_fc3 s /\ a_nac s1 = a_nac s /\ a_masses s1 = a_masses s /\ a_bands s1 = a_bands s
  /\ a_grid s1 = a_grid s.
Proof.
  intros s dir s1 H. cbn in H. destruct (a_grid s) as [g|] eqn:Eg; [|discriminate]. destruct (a_fc2 s) as [f|] eqn:Ef; [|discriminate].
  injection H as <-. split; [|cbn; auto 10].
  exists (api_init_dm L (a_masses s) f (a_nac s) (Inter (a_fc3 s) g (a_bands s) (a_masses s) f None dir (fun _ => false) (fun _ => unsolved L) None false)).
  constructor; cbn; try assumption; try reflexivity.
  - intros p Hp. exfalso. destruct (p =? gamma L g); cbn in Hp; discriminate.
  - now rewrite Z.eqb_refl.
Qed.

Lemma nac_current : forall s dir i x, gamma_free -> current s dir i ->
  exists j, step s (SetNac x) = (Api (a_fc2 s) (a_fc3 s) x (a_masses s) (a_bands s) (a_grid s) (Some j), Nothing)
    /\ current (fst (step s (SetNac x))) dir j.
Proof.
  intros s dir i x GF K. pose proof K as []. cbn. rewrite k_inter0, k_fc4. cbn. unfold with_inter. cbn. eexists. split; [reflexivity|].
  unfold api_init_dm, init_dm, allocate, at_gamma. cbn. rewrite k_gamma0. constructor; cbn; try assumption; try reflexivity.
  - intros p Hp. exfalso. destruct (p =? _); discriminate.
  - rewrite Z.eqb_refl. f_equal. apply GF.
Qed.

Lemma step_current : forall s dir i c, gamma_free -> current s dir i -> quiet c ->
  exists j, current (fst (step s c)) dir j /\ a_fc2 (fst (step s c)) = a_fc2 s /\ a_fc3 (fst (step s c)) = a_fc3 s
    /\ a_masses (fst (step s c)) = a_masses s /\ a_bands (fst (step s c)) = a_bands s /\ a_grid (fst (step s c)) = a_grid s.
Proof.
  intros s dir i c GF K Q. pose proof K as []. destruct c; cbn [quiet] in Q; try contradiction.
  - destruct (nac_current s dir i x GF K) as (j & E & C). exists j. split; [exact C|]. rewrite E. cbn. auto.
  - cbn. rewrite k_inter0. cbn [fst]. eexists. split; [apply (run_solver_current _ _ _ _ K)|]. cbn. auto 10.
  - cbn. rewrite k_inter0. cbn. exists i. auto 10.
  - cbn. rewrite k_inter0. destruct (set_grid_point L sym (a_masses s) p i) as [j|] eqn:E.
    + pose proof (grid_point_current _ _ _ _ _ K E) as K1. apply run_current in K1. cbn [fst]. eexists. split; [exact K1|]. cbn. auto 10.
    + cbn. exists i. auto 10.
  - cbn [SesModel.step]. rewrite k_inter0. pose proof (each_current l _ _ _ (prepare_current _ _ _ K)) as K1. cbn [a_masses with_inter] in K1.
    destruct (each_point L sym (a_masses s) l (prepare L (a_masses s) i)) as [j rs]. cbn [fst] in *. exists j.
    split; [destruct K1; constructor; assumption || reflexivity|]. cbn. auto 10.
Qed.

Lemma exec_current : forall l s dir i, gamma_free -> current s dir i -> Forall quiet l ->
  exists j, current (fst (exec s l)) dir j /\ a_fc2 (fst (exec s l)) = a_fc2 s /\ a_fc3 (fst (exec s l)) = a_fc3 s
    /\ a_masses (fst (exec s l)) = a_masses s /\ a_bands (fst (exec s l)) = a_bands s /\ a_grid (fst (exec s l)) = a_grid s.
Proof.
  induction l; intros s dir i GF K Q.
  - exists i. cbn. auto 10.
  - inversion Q; subst. destruct (step_current s dir i a GF K) as (j & K1 & E1 & E2 & E3 & E4 & E5); [assumption|].
    destruct (IHl _ _ _ GF K1 H2) as (j' & K2 & F1 & F2' & F3' & F4 & F5). cbn. destruct (step s a) as [s1 o]. cbn in *.
    destruct (exec s1 l) as [s2 os]. cbn in *. exists j'. repeat split; try congruence; apply K2.
Qed.

(** After init_phph_interaction, and any runs and changes of the NAC parameters: the strengths at a grid point are those of the fc3,
    the bands, the masses and the mesh that are set, with phonons of the fc2, the masses and the last NAC parameters at every
    grid point. *)
Theorem C133_strengths : forall s dir s1 l p s2 r, gamma_free ->
  step s (InitPhph dir) = (s1, Nothing) -> Forall quiet l -> step (fst (exec s1 l)) (RunAt p) = (s2, Strength r) ->
  exists f x g ph, a_fc2 s = Some f /\ a_fc3 s = Some x /\ a_grid s = Some g
    /\ r = strength L x (a_bands s) (a_masses s) g p ph
    /\ forall q, 0 <= q < npts L g -> of_inputs f (a_nac s2) (a_masses s) dir g q (ph q).
Proof.
  intros s dir s1 l p s2 r GF HI Q HR. destruct (init_current _ _ _ HI) as ((i & K) & A1 & A2 & A3 & A4 & A5 & A6).
  destruct (exec_current l s1 dir i GF K Q) as (j & K1 & B1 & B2 & B3 & B4 & B5). set (t := fst (exec s1 l)) in *. clearbody t.
  pose proof K1 as []. cbn in HR. rewrite k_inter0 in HR. destruct (set_grid_point L sym (a_masses t) p j) as [j1|] eqn:E; [|discriminate].
  pose proof (grid_point_current _ _ _ _ _ K1 E) as K2. pose proof (run_current _ _ _ K2) as K3. cbn [a_masses with_inter] in K3.
  set (j2 := run L (a_masses t) j1) in *. destruct (i_fc3 j2) as [x|] eqn:E3; [|discriminate].
  assert (s2 = with_inter t (Some j2)) by congruence. assert (HS : r = strength L x (i_bands j2) (i_masses j2) (i_grid j2) p (i_ph j2)) by congruence.
  subst s2. clear HR. destruct K3. cbn in *.
  exists (i_fc2 j2), x, (i_grid j2), (i_ph j2). split; [congruence|]. split; [congruence|]. split; [congruence|]. split.
  - rewrite HS, k_bands1, k_masses1. now rewrite B4, A5, B3, A4.
  - intros q Hq. rewrite <- k_nac1. replace (a_masses s) with (a_masses t) by congruence. apply k_ph1.
    unfold j2 in Hq |- *. apply run_done. unfold run in Hq. destruct (existsb _ _) in Hq; exact Hq.
Qed.

(** Self energies and spectral functions at a list of grid points: at each the strengths are with phonons of the inputs, with the
    direction, at every grid point *)
Definition at_direction (i : inter) (m : M) : Prop :=
  i_done i (gamma L (i_grid i)) = true /\ i_ph i (gamma L (i_grid i)) = solve L (i_fc2 i) (i_nac i) m (i_dir i) (i_grid i) (gamma L (i_grid i)).
Lemma run_at_direction : forall m i, at_direction i m -> at_direction (run L m i) m.
Proof.
  intros m i [E1 E2]. unfold at_direction, run. destruct (existsb _ _); cbn; [|auto]. rewrite E1, andb_false_r. cbn. auto.
Qed.
Lemma grid_point_at_direction : forall s dir i p j, current s dir i -> at_direction i (a_masses s) -> set_grid_point L sym (a_masses s) p i = Some j -> at_direction j (a_masses s).
Proof.
  intros s dir i p j [] [E1 E2] H. unfold set_grid_point in H. destruct (negb sym); [injection H as <-; now split|]. destruct (p =? _).
  - assert (j = at_gamma L (a_masses s) true i) by congruence. subst j. split; cbn; rewrite Z.eqb_refl; reflexivity.
  - destruct (i_done_nac i); [|injection H as <-; now split]. destruct (i_dir i) eqn:Ed; [discriminate|]. assert (j = at_gamma L (a_masses s) false i) by congruence. subst j.
    unfold at_gamma. rewrite k_gamma0. split; cbn; [exact E1|]. now rewrite Z.eqb_refl, Ed.
Qed.
Lemma each_spec : forall l s dir i rs, current s dir i -> at_direction i (a_masses s) -> snd (each_point L sym (a_masses s) l i) = Some rs ->
  Forall2 (fun p r => exists x ph, a_fc3 s = Some x /\ r = strength L x (a_bands s) (a_masses s) (i_grid i) p ph
    /\ forall q, 0 <= q < npts L (i_grid i) -> ph q = solve L (i_fc2 i) (i_nac i) (a_masses s) dir (i_grid i) q) l rs.
Proof.
  induction l as [|p l IH]; intros s dir i rs K A H; [cbn in H; injection H as <-; constructor|]. cbn [each_point] in H.
  destruct (set_grid_point L sym (a_masses s) p i) as [j|] eqn:E; [|discriminate].
  pose proof (grid_point_at_direction _ _ _ _ _ K A E) as A1. apply run_at_direction in A1. pose proof (grid_point_current _ _ _ _ _ K E) as Kj.
  assert (RD : forall q, 0 <= q < npts L (i_grid j) -> i_done (run L (a_masses s) j) q = true) by (intros; now apply run_done).
  assert (RG : i_grid (run L (a_masses s) j) = i_grid j) by (unfold run; destruct (existsb _ _); reflexivity).
  apply run_current in Kj. cbn [a_masses with_inter] in Kj. set (j1 := run L (a_masses s) j) in *. clearbody j1.
  destruct (i_fc3 j1) as [x|] eqn:E3; [|discriminate]. specialize (IH (with_inter (with_inter s (Some j)) (Some j1)) dir j1). cbn [a_masses with_inter a_fc3 a_bands] in IH.
  destruct (each_point L sym (a_masses s) l j1) as [j2 rs2]. cbn [snd] in *. destruct rs2 as [rs2|]; [|discriminate]. cbn in H. injection H as <-.
  pose proof K as []. pose proof Kj as []. cbn [a_fc2 a_fc3 a_nac a_masses a_bands a_grid a_inter with_inter] in *.
  assert (G1 : i_grid j1 = i_grid i) by congruence. assert (G2 : i_fc2 j1 = i_fc2 i) by congruence. assert (G3 : i_nac j1 = i_nac i) by congruence.
  constructor.
  - exists x, (i_ph j1). split; [congruence|]. split; [congruence|]. intros q Hq. rewrite <- G1, <- G2, <- G3.
    destruct (Z.eq_dec q (gamma L (i_grid j1))) as [Eq|Nq]; [|destruct (k_ph1 q) as [W|[W _]]; [apply RD; congruence|exact W|contradiction]].
    subst q. destruct A1 as [_ A1]. now rewrite A1, k_dir1.
  - specialize (IH rs2 Kj A1 eq_refl). rewrite G1, G2, G3 in IH. exact IH.
Qed.
Theorem C133_self_energies : forall s dir s1 l ps s2 rs, gamma_free ->
  step s (InitPhph dir) = (s1, Nothing) -> Forall quiet l -> step (fst (exec s1 l)) (RunSelfEnergy ps) = (s2, Strengths rs) ->
  exists f g, a_fc2 s = Some f /\ a_grid s = Some g /\
  Forall2 (fun p r => exists x ph, a_fc3 s = Some x /\ r = strength L x (a_bands s) (a_masses s) g p ph
    /\ forall q, 0 <= q < npts L g -> ph q = solve L f (a_nac s2) (a_masses s) dir g q) ps rs.
Proof.
  intros s dir s1 l ps s2 rs GF HI Q HR. destruct (init_current _ _ _ HI) as ((i & K) & A1 & A2 & A3 & A4 & A5 & A6).
  destruct (exec_current l s1 dir i GF K Q) as (j & K1 & B1 & B2 & B3 & B4 & B5). set (t := fst (exec s1 l)) in *. clearbody t.
  pose proof K1 as []. cbn [SesModel.step] in HR. rewrite k_inter0 in HR. pose proof (prepare_current _ _ _ K1) as K2.
  assert (AD : at_direction (prepare L (a_masses t) j) (a_masses t)).
  { unfold prepare. set (j0 := at_gamma L (a_masses t) false _). clearbody j0. split; cbn; now rewrite Z.eqb_refl. }
  set (j1 := prepare L (a_masses t) j) in *. clearbody j1. pose proof (each_spec ps (with_inter t (Some j1)) dir j1 rs K2 AD) as W. cbn [a_masses a_fc3 a_bands with_inter] in W.
  destruct (each_point L sym (a_masses t) ps j1) as [j2 o]. cbn [snd] in W. assert (s2 = with_inter t (Some j2)) by congruence. subst s2.
  assert (o = Some rs) by (destruct o; congruence). specialize (W H). destruct K2. cbn [a_fc2 a_fc3 a_nac a_masses a_bands a_grid a_inter with_inter] in *.
  exists (i_fc2 j1), (i_grid j1). split; [congruence|]. split; [congruence|].
  replace (a_fc3 s) with (a_fc3 t) by congruence. replace (a_bands s) with (a_bands t) by congruence. replace (a_masses s) with (a_masses t) by congruence.
  rewrite <- k_nac1. exact W.
Qed.

(** Phonons after a solution at all points: those of the inputs, at every grid point *)
Theorem C133_phonons : forall s dir s1 l s2 ph, gamma_free ->
  step s (InitPhph dir) = (s1, Nothing) -> Forall quiet l ->
  exec (fst (exec s1 l)) [RunSolver None; GetData] = (s2, [Nothing; Phonons ph]) ->
  exists f g, a_fc2 s = Some f /\ a_grid s = Some g /\ forall q, 0 <= q < npts L g -> of_inputs f (a_nac s2) (a_masses s) dir g q (ph q).
Proof.
  intros s dir s1 l s2 ph GF HI Q HR. destruct (init_current _ _ _ HI) as ((i & K) & A1 & A2 & A3 & A4 & A5 & A6).
  destruct (exec_current l s1 dir i GF K Q) as (j & K1 & B1 & B2 & B3 & B4 & B5). set (t := fst (exec s1 l)) in *. clearbody t.
  pose proof K1 as []. cbn [SesModel.exec SesModel.step] in HR. rewrite k_inter0 in HR. cbn [a_inter with_inter] in HR.
  pose proof (run_solver_current _ _ _ (all_points L j) K1) as K2. set (j1 := run_solver L (a_masses t) (all_points L j) j) in *.
  assert (Ht : s2 = with_inter t (Some j1)) by congruence. assert (Hp : ph = i_ph j1) by congruence. subst s2 ph.
  exists (i_fc2 j), (i_grid j). split; [congruence|]. split; [congruence|]. destruct K2. cbn [a_nac a_masses with_inter] in *.
  intros q Hq. rewrite <- k_nac1. replace (a_masses s) with (a_masses t) by congruence. apply k_ph1.
  unfold j1. cbn. unfold all_points. rewrite in_zrange by exact Hq. apply orb_true_r.
Qed.

(** NAC parameters set on an initialised object: solved phonons are forgotten, and the next solution is with the new ones and the
    direction, at Gamma too *)
Theorem C133_nac : forall s i f x, a_inter s = Some i -> a_fc2 s = Some f ->
  exists s2 ph, exec s [SetNac x; RunSolver None; GetData] = (s2, [Nothing; Nothing; Phonons ph])
    /\ forall q, 0 <= q < npts L (i_grid i) -> ph q = solve L f x (a_masses s) (i_dir i) (i_grid i) q.
Proof.
  intros s i f x Hi Hf. cbn [SesModel.exec SesModel.step]. rewrite Hi, Hf. cbn [a_inter with_inter]. eexists. eexists. split; [reflexivity|].
  intros q Hq. unfold api_init_dm, init_dm, allocate, at_gamma, all_points. destruct (i_gamma i); cbn.
  - rewrite in_zrange by exact Hq. destruct (q =? _); reflexivity.
  - rewrite in_zrange by exact Hq. destruct (q =? gamma L (i_grid i)) eqn:E; cbn; [reflexivity|]. reflexivity.
Qed.

(** init_phph_interaction gives an object that does not depend on what was done with the previous one *)
Theorem C133_fresh : forall s s' dir, a_fc2 s = a_fc2 s' -> a_fc3 s = a_fc3 s' -> a_nac s = a_nac s' -> a_masses s = a_masses s' ->
  a_bands s = a_bands s' -> a_grid s = a_grid s' -> snd (step s (InitPhph dir)) = Nothing -> forall l, exec s (InitPhph dir :: l) = exec s' (InitPhph dir :: l).
Proof.
  intros s s' dir E1 E2 E3 E4 E5 E6 H l. cbn [SesModel.exec]. enough (E : step s (InitPhph dir) = step s' (InitPhph dir)) by now rewrite E.
  cbn in *. unfold with_inter. rewrite <- E1, <- E2, <- E3, <- E4, <- E5, <- E6. destruct (a_grid s); [|discriminate H]. destruct (a_fc2 s); [reflexivity|discriminate H].
Qed.

(** Without init_phph_interaction, or after the mesh is set, all calls for results raise; init_phph_interaction raises and changes
    nothing exactly when there is no mesh or no fc2 *)
Theorem C133_needs_init : forall s c, running c -> (a_inter s = None -> step s c = (s, Raised))
  /\ forall g, a_inter (fst (step s (SetMesh g))) = None /\ step (fst (step s (SetMesh g))) c = (fst (step s (SetMesh g)), Raised).
Proof. intros s c R1. split; [intro E|intro g]; destruct c; cbn in *; try contradiction; try rewrite E; auto. Qed.
Theorem C133_init_raises : forall s dir, (a_grid s = None \/ a_fc2 s = None <-> snd (step s (InitPhph dir)) = Raised)
  /\ (snd (step s (InitPhph dir)) = Raised -> fst (step s (InitPhph dir)) = s).
Proof.
  intros. cbn. destruct (a_grid s), (a_fc2 s); cbn; (split; [split|]); intros; try discriminate; try reflexivity; auto.
  destruct H; discriminate.
Qed.

(** Phonons given by the user are what all runs at points other than Gamma use, at every grid point *)
Lemma data_kept : forall (i : inter) m p data, (forall q, i_done i q = true) -> (forall q, i_ph i q = data q) -> i_done_nac i = false ->
  p <> gamma L (i_grid i) \/ sym = false -> set_grid_point L sym m p i = Some i /\ run L m i = i.
Proof.
  intros i m p data Hd Hp Hn Hg. split.
  - unfold set_grid_point. destruct sym; [|reflexivity]. cbn. destruct (p =? _) eqn:E; [apply Z.eqb_eq in E; destruct Hg; [contradiction|discriminate]|]. now rewrite Hn.
  - unfold run. destruct (existsb _ _) eqn:E; [|reflexivity]. apply existsb_exists in E. destruct E as (q & _ & E). rewrite Hd in E. discriminate.
Qed.
Theorem C133_data : forall s i data s1 p, a_inter s = Some i -> i_done_nac i = false -> p <> gamma L (i_grid i) \/ sym = false ->
  step s (SetData true data) = (s1, Nothing) ->
  step s1 GetData = (s1, Phonons data)
  /\ step s1 (RunAt p) = (s1, match i_fc3 i with None => Raised | Some x => Strength (strength L x (i_bands i) (i_masses i) (i_grid i) p data) end).
Proof.
  intros s i data s1 p Hi Hn Hp H. cbn in H. rewrite Hi in H. assert (E : s1 = with_inter s (Some (set_data L data i))) by congruence. subst s1.
  split; [reflexivity|]. cbn. destruct (data_kept (set_data L data i) (a_masses s) p data) as [E1 E2]; try reflexivity; try assumption.
  rewrite E1, E2. reflexivity.
Qed.
(** ... but a run at Gamma solves Gamma again: the data there are not used *)
Theorem C133_data_gamma_refuted : forall s i data s1, sym = true -> a_inter s = Some i -> step s (SetData true data) = (s1, Nothing) ->
  exists s2 o, step s1 (RunAt (gamma L (i_grid i))) = (s2, o)
    /\ snd (step s2 GetData) <> Raised
    /\ forall ph, snd (step s2 GetData) = Phonons ph -> ph (gamma L (i_grid i)) = solve L (i_fc2 i) (i_nac i) (a_masses s) (i_dir i) (i_grid i) (gamma L (i_grid i)).
Proof.
  intros s i data s1 Hsym Hi H. cbn in H. rewrite Hi in H. assert (E : s1 = with_inter s (Some (set_data L data i))) by congruence. subst s1.
  cbn [SesModel.step a_inter with_inter]. unfold set_grid_point. rewrite Hsym. cbn [negb].
  change (i_grid (set_data L data i)) with (i_grid i). rewrite Z.eqb_refl.
  eexists. eexists. split; [reflexivity|]. cbn [snd a_inter with_inter]. split; [discriminate|]. intros ph Hph.
  injection Hph as <-. rewrite run_kept; cbn; now rewrite Z.eqb_refl.
Qed.
(** ... and data given before init_phph_interaction are dropped without a word *)
Theorem C133_data_before_refuted : forall s accepted data, a_inter s = None -> step s (SetData accepted data) = (s, Nothing).
Proof. intros. cbn. now rewrite H. Qed.

(** What is set after init_phph_interaction. fc2, fc3 and bands: no run uses them *)
Definition same_runs (s s' : api) : Prop := a_inter s = a_inter s' /\ a_masses s = a_masses s'.
Lemma same_step : forall s s' c, same_runs s s' -> running c ->
  snd (step s c) = snd (step s' c) /\ same_runs (fst (step s c)) (fst (step s' c)).
Proof.
  intros s s' c [E1 E2] Rc. unfold same_runs. destruct c; cbn [running] in Rc; try contradiction; cbn [SesModel.step]; rewrite <- E1, <- ?E2;
    destruct (a_inter s) as [i|] eqn:Ei; cbn [fst snd a_inter a_masses with_inter]; try (split; [reflexivity|split; congruence]).
  - destruct (set_grid_point L sym (a_masses s) p i); cbn [fst snd a_inter a_masses with_inter]; (split; [reflexivity|split; congruence]).
  - destruct (each_point L sym (a_masses s) l (prepare L (a_masses s) i)). cbn [fst snd a_inter a_masses with_inter]. split; [reflexivity|split; congruence].
Qed.
Lemma same_outputs : forall l s s', same_runs s s' -> Forall running l -> snd (exec s l) = snd (exec s' l).
Proof.
  induction l; intros s s' E Q; [reflexivity|]. inversion Q; subst. destruct (same_step s s' a E H1) as [A1 A2]. specialize (IHl _ _ A2 H2).
  cbn. destruct (step s a) as [t o], (step s' a) as [t' o']. cbn in *. destruct (exec t l), (exec t' l). cbn in *. congruence.
Qed.
Theorem C133_late_refuted : forall s c l, (exists x, c = SetFc2 x) \/ (exists x, c = SetFc3 x) \/ (exists x, c = SetBands x) -> Forall running l ->
  snd (exec (fst (step s c)) l) = snd (exec s l).
Proof. intros s c l H Q. apply same_outputs; [|exact Q]. destruct H as [[x ->]|[[x ->]|[x ->]]]; split; reflexivity. Qed.

(** Masses set after init_phph_interaction: phonons not yet solved are solved with the new ones, phonons solved stay, and the
    strengths are made with the old ones *)
Theorem C133_masses_refuted : forall (s : api) (i : inter) (m : M) (x : F3) p, a_inter s = Some i -> i_fc3 i = Some x -> i_done_nac i = false -> p <> gamma L (i_grid i) ->
  exists s2 ph, exec s [SetMasses (Some m); RunAt p] = (s2, [Nothing; Strength (strength L x (i_bands i) (i_masses i) (i_grid i) p ph)])
    /\ forall q, 0 <= q < npts L (i_grid i) ->
        ph q = if i_done i q then i_ph i q else solve L (i_fc2 i) (i_nac i) m (i_dir i) (i_grid i) q.
Proof.
  intros s i m x p Hi H3 Hn Hp. cbn [SesModel.exec SesModel.step a_inter]. rewrite Hi. cbn [a_masses].
  assert (E : set_grid_point L sym m p i = Some i).
  { unfold set_grid_point. destruct (negb sym); [reflexivity|]. apply Z.eqb_neq in Hp. now rewrite Hp, Hn. }
  rewrite E. assert (F : i_fc3 (run L m i) = Some x /\ i_bands (run L m i) = i_bands i /\ i_masses (run L m i) = i_masses i /\ i_grid (run L m i) = i_grid i).
  { unfold run. destruct (existsb _ _); cbn; auto. }
  destruct F as (F1 & F2' & F3' & F4). rewrite F1, F2', F3', F4. eexists. eexists. split; [reflexivity|].
  intros q Hq. pose proof (run_done m i q Hq) as Hd. unfold run in *. destruct (existsb _ _); cbn in *.
  - unfold all_points. rewrite in_zrange by exact Hq. destruct (i_done i q); reflexivity.
  - now rewrite Hd.
Qed.

Lemma exec_cons : forall s c l, snd (exec s (c :: l)) = snd (step s c) :: snd (exec (fst (step s c)) l).
Proof. intros. cbn [SesModel.exec]. destruct (step s c) as [t o]. cbn [fst snd]. destruct (exec t l). reflexivity. Qed.
Lemma step_run_at : forall s i j p, a_inter s = Some i -> set_grid_point L sym (a_masses s) p i = Some j ->
  fst (step s (RunAt p)) = with_inter s (Some (run L (a_masses s) j)).
Proof. intros s i j p E1 E2. cbn [SesModel.step]. now rewrite E1, E2. Qed.
(** an object prepared at a mesh without a direction *)
Record prepared (s : api) (i : inter) (m : M) (g : G) (f : F2) (x : option N) (v : P) : Prop := Prepared {
  p_inter : a_inter s = Some i; p_masses : a_masses s = m; p_grid : i_grid i = g; p_fc2 : i_fc2 i = f; p_nac : i_nac i = x; p_dir : i_dir i = None;
  p_gamma : i_gamma i = Some v }.
Lemma init_prepared : forall s f g, a_fc2 s = Some f -> a_grid s = Some g ->
  exists i, prepared (fst (step s (InitPhph None))) i (a_masses s) g f (a_nac s) (solve L f (a_nac s) (a_masses s) None g (gamma L g)).
Proof.
  intros s f g Hf Hg.
  exists (api_init_dm L (a_masses s) f (a_nac s) (Inter (a_fc3 s) g (a_bands s) (a_masses s) f None None (fun _ => false) (fun _ => unsolved L) None false)).
  constructor; cbn; rewrite ?Hf, ?Hg, ?Z.eqb_refl; reflexivity.
Qed.
Lemma nac_prepared : forall s i m g f f' x x' v, prepared s i m g f x v -> a_fc2 s = Some f' ->
  exists j, prepared (fst (step s (SetNac x'))) j m g f' x' v /\ forall q, i_done j q = false.
Proof.
  intros s i m g f f' x x' v [] Hf. exists (api_init_dm L (a_masses s) f' x' i).
  assert (E : fst (step s (SetNac x')) = Api (a_fc2 s) (a_fc3 s) x' (a_masses s) (a_bands s) (a_grid s) (Some (api_init_dm L (a_masses s) f' x' i)))
    by (cbn [SesModel.step]; now rewrite p_inter0, Hf).
  rewrite E. split.
  - constructor; [reflexivity|assumption|..]; unfold api_init_dm, init_dm, allocate, at_gamma; cbn; rewrite p_gamma0; cbn; rewrite ?Z.eqb_refl; assumption || reflexivity.
  - intro q. unfold api_init_dm, init_dm, allocate, at_gamma. cbn. rewrite p_gamma0. cbn. now destruct (q =? _).
Qed.
Lemma gamma_run : forall s i m g f x v, sym = true -> prepared s i m g f x v -> (forall q, i_done i q = false) ->
  exists j, prepared (fst (step s (RunAt (gamma L g)))) j m g f x v /\ i_done_nac j = true /\ (forall q, 0 <= q < npts L g -> i_done j q = true)
    /\ forall q, 0 <= q < npts L g -> i_ph j q = solve L f x m None g q.
Proof.
  intros s i m g f x v Hs [] Hd. exists (run L (a_masses s) (at_gamma L (a_masses s) true i)).
  assert (E : set_grid_point L sym (a_masses s) (gamma L g) i = Some (at_gamma L (a_masses s) true i)).
  { unfold set_grid_point. rewrite Hs, p_grid0, Z.eqb_refl. reflexivity. }
  rewrite (step_run_at _ _ _ _ p_inter0 E).
  assert (RD : forall q, 0 <= q < npts L g -> i_done (run L (a_masses s) (at_gamma L (a_masses s) true i)) q = true).
  { intros. apply run_done. cbn. now rewrite p_grid0. }
  split; [|split; [|split; [exact RD|]]].
  - constructor; cbn; try assumption; try reflexivity; unfold run; destruct (existsb _ _); cbn; assumption.
  - unfold run; destruct (existsb _ _); reflexivity.
  - intros q Hq. specialize (RD q Hq). unfold run in *. destruct (existsb _ _); cbn in *; rewrite ?p_grid0, ?Hd in *.
    + unfold all_points. cbn. rewrite p_grid0, in_zrange by exact Hq. rewrite p_fc3, p_nac0, p_masses0, p_dir0.
      destruct (q =? gamma L g); cbn; reflexivity.
    + destruct (q =? gamma L g); cbn in *; [now rewrite p_fc3, p_nac0, p_masses0, p_dir0|discriminate].
Qed.
Lemma next_run : forall s i m g f x v p, sym = true -> prepared s i m g f x v -> i_done_nac i = true -> p <> gamma L g ->
  exists j, a_inter (fst (step s (RunAt p))) = Some (run L m j) /\ i_grid j = g /\ (forall q, i_done j q = i_done i q)
    /\ forall q, i_ph j q = if q =? gamma L g then v else i_ph i q.
Proof.
  intros s i m g f x v p Hs [] Hn Hp. exists (at_gamma L (a_masses s) false i). apply Z.eqb_neq in Hp.
  assert (E : set_grid_point L sym (a_masses s) p i = Some (at_gamma L (a_masses s) false i)).
  { unfold set_grid_point. rewrite Hs, p_grid0, Hp, Hn, p_dir0. reflexivity. }
  rewrite (step_run_at _ _ _ _ p_inter0 E). cbn [a_inter with_inter]. rewrite p_masses0. unfold at_gamma. rewrite p_gamma0. cbn.
  repeat split; try assumption; intro q; cbn; rewrite ?p_grid0; reflexivity.
Qed.
(** fc2 and then NAC parameters set after init_phph_interaction: phonons are of the new fc2, but those that are kept for Gamma without a
    direction are of the old one, and are what runs at other points use once Gamma has been run *)
Theorem C133_gamma_refuted : forall (s s1 : api) (f f' : F2) (g : G) (x : option N) p s2 o1 o2 o3 o4 ph, sym = true -> a_fc2 s = Some f -> a_grid s = Some g ->
  step s (InitPhph None) = (s1, Nothing) -> p <> gamma L g ->
  exec s1 [SetFc2 (Some f'); SetNac x; RunAt (gamma L g); RunAt p; GetData] = (s2, [o1; o2; o3; o4; Phonons ph]) ->
  ph (gamma L g) = solve L f (a_nac s) (a_masses s) None g (gamma L g)
  /\ forall q, 0 <= q < npts L g -> q <> gamma L g -> ph q = solve L f' x (a_masses s) None g q.
Proof.
  intros s s1 f f' g x p s2 o1 o2 o3 o4 ph Hs Hf Hg HI Hp H. destruct (init_prepared s f g Hf Hg) as (i & K). rewrite HI in K. cbn [fst] in K. clear HI.
  apply (f_equal snd) in H. rewrite !exec_cons in H.
  assert (K0 : prepared (fst (step s1 (SetFc2 (Some f')))) i (a_masses s) g f (a_nac s) (solve L f (a_nac s) (a_masses s) None g (gamma L g)))
    by (destruct K; constructor; assumption).
  assert (F0 : a_fc2 (fst (step s1 (SetFc2 (Some f')))) = Some f') by reflexivity.
  set (t := fst (step s1 (SetFc2 (Some f')))) in *. clearbody t. destruct (nac_prepared _ _ _ _ _ _ _ x _ K0 F0) as (j & K1 & D1).
  set (t1 := fst (step t (SetNac x))) in *. clearbody t1. destruct (gamma_run _ _ _ _ _ _ _ Hs K1 D1) as (j1 & K2 & N2 & D2 & P2).
  set (t2 := fst (step t1 (RunAt (gamma L g)))) in *. clearbody t2. destruct (next_run _ _ _ _ _ _ _ p Hs K2 N2 Hp) as (j2 & I3 & G3 & D3 & P3).
  set (t3 := fst (step t2 (RunAt p))) in *. clearbody t3. cbn [SesModel.step] in H. rewrite I3 in H. cbn [snd] in H.
  assert (HP : ph = i_ph (run L (a_masses s) j2)) by congruence. subst ph. clear H.
  assert (RR : run L (a_masses s) j2 = j2).
  { unfold run. destruct (existsb _ _) eqn:E; [|reflexivity]. apply existsb_exists in E. destruct E as (q & Hq & E).
    unfold all_points, zrange in Hq. apply in_map_iff in Hq. destruct Hq as (k & <- & Hk). apply in_seq in Hk. rewrite G3 in Hk.
    rewrite D3, D2 in E by lia. discriminate. }
  rewrite RR. split; [rewrite P3, Z.eqb_refl; reflexivity|]. intros q Hq Nq. apply Z.eqb_neq in Nq. rewrite P3, Nq. now apply P2.
Qed.

(** Self energies with a direction: an exception at any grid point other than Gamma, with mesh symmetry, also on a new object *)
Theorem C133_direction_refuted : forall s i d p l, sym = true -> a_inter s = Some i -> i_dir i = Some d -> p <> gamma L (i_grid i) ->
  snd (step s (RunSelfEnergy (p :: l))) = Raised.
Proof.
  intros s i d p l Hs Hi Hd Hp. cbn [SesModel.step]. rewrite Hi. cbn [each_point].
  assert (E : set_grid_point L sym (a_masses s) p (prepare L (a_masses s) i) = None).
  { assert (GG : i_grid (prepare L (a_masses s) i) = i_grid i /\ i_dir (prepare L (a_masses s) i) = Some d /\ i_done_nac (prepare L (a_masses s) i) = true).
    { unfold prepare. assert (R1 : i_grid (run L (a_masses s) i) = i_grid i /\ i_dir (run L (a_masses s) i) = Some d) by (unfold run; destruct (existsb _ _); auto).
      set (j := run L (a_masses s) i) in *. clearbody j. destruct R1 as [R1 R2]. unfold at_gamma at 2 4 6. destruct (i_gamma j); cbn; auto. }
    destruct GG as (G1 & G2 & G3). unfold set_grid_point. apply Z.eqb_neq in Hp. rewrite Hs, G1, Hp, G2, G3. reflexivity. }
  rewrite E. reflexivity.
Qed.

(** Phonons asked for before they are solved: zeros at all points but Gamma *)
Theorem C133_unsolved_refuted : forall s dir s1 g, a_grid s = Some g -> step s (InitPhph dir) = (s1, Nothing) ->
  exists ph, step s1 GetData = (s1, Phonons ph) /\ forall q, q <> gamma L g -> ph q = unsolved L.
Proof.
  intros s dir s1 g Hg H. cbn [SesModel.step] in H. rewrite Hg in H. destruct (a_fc2 s) as [f|]; [|discriminate].
  set (i := api_init_dm L (a_masses s) f (a_nac s) _) in *.
  assert (I : forall q, q <> gamma L g -> i_ph i q = unsolved L) by (intros q Hq; apply Z.eqb_neq in Hq; unfold i; cbn; rewrite !Hq; reflexivity).
  clearbody i. exists (i_ph i). assert (E : s1 = with_inter s (Some i)) by congruence. rewrite E. split; [reflexivity|exact I].
Qed.
End Props.

(** Examples: a grid of three points with Gamma at 0; fc2, masses and directions are integers, NAC parameters matter at Gamma only
    with a direction *)
Definition exL : laws Z Z Z Z Z Z Z (Z * Z * Z * Z * Z) (list Z) :=
  Laws Z Z Z Z Z Z Z (Z * Z * Z * Z * Z) (list Z)
    (fun f n m d g p => (f, match n, d with Some n, Some _ => n | Some n, None => if p =? 0 then 0 else n | None, _ => 0 end, m, match d with None => 0 | Some d => d end, p))
    (fun g => g) (fun _ => 0) (0, 0, 0, 0, 0) (fun v => v)
    (fun x b m g p ph => [x; b; m; g; p] ++ flat_map (fun q => let '(f, n, m, d, _) := ph q in [f; n; m; d]) (zrange g)).
Definition exS : api Z Z Z Z Z Z Z (Z * Z * Z * Z * Z) := Api (Some 2) (Some 3) None 28 1 (Some 3) None.
Example C133_gamma_free_ex : gamma_free exL.
Proof. intros f n n' m g. destruct n, n'; reflexivity. Qed.
(** what a call gives, as numbers; phonons at the three points *)
Definition shown (o : @output (Z * Z * Z * Z * Z) (list Z)) : list Z :=
  match o with
  | Nothing => []
  | Raised => [-1]
  | Phonons ph => flat_map (fun q => let '(f, n, m, d, _) := ph q in [f; n; m; d]) (zrange 3)
  | Strength r => r
  | Strengths l => concat l
  end.
Definition results (l : list (@call Z Z Z Z Z Z Z (Z * Z * Z * Z * Z))) : list (list Z) := map shown (snd (exec exL true exS l)).
(** runs at 1 and at Gamma, before and after NAC parameters are set: each with the inputs of that moment *)
Example C133_strengths_ex :
  results [InitPhph (Some 9); RunAt 1; SetNac (Some 7); RunAt 1; RunAt 0; RunAt 2]
  = [[]; [3; 1; 28; 3; 1; 2; 0; 28; 9; 2; 0; 28; 9; 2; 0; 28; 9]; []; [3; 1; 28; 3; 1; 2; 7; 28; 9; 2; 7; 28; 9; 2; 7; 28; 9];
     [3; 1; 28; 3; 0; 2; 7; 28; 9; 2; 7; 28; 9; 2; 7; 28; 9]; [-1]].
Proof. vm_compute. reflexivity. Qed.
Example C133_phonons_ex : results [InitPhph None; SetNac (Some 7); GetData; RunSolver None; GetData; RunAt 0; GetData]
  = [[]; []; [2; 0; 28; 0; 0; 0; 0; 0; 0; 0; 0; 0]; []; [2; 0; 28; 0; 2; 7; 28; 0; 2; 7; 28; 0];
     [3; 1; 28; 3; 0; 2; 0; 28; 0; 2; 7; 28; 0; 2; 7; 28; 0]; [2; 0; 28; 0; 2; 7; 28; 0; 2; 7; 28; 0]].
Proof. vm_compute. reflexivity. Qed.
(** a second init_phph_interaction after fc2, fc3 and masses are set *)
Example C133_fresh_ex : results [InitPhph None; RunAt 1; SetFc2 (Some 5); SetFc3 (Some 6); SetMasses (Some 12); InitPhph None; RunAt 1]
  = [[]; [3; 1; 28; 3; 1; 2; 0; 28; 0; 2; 0; 28; 0; 2; 0; 28; 0]; []; []; []; []; [6; 1; 12; 3; 1; 5; 0; 12; 0; 5; 0; 12; 0; 5; 0; 12; 0]].
Proof. vm_compute. reflexivity. Qed.
Example C133_needs_init_ex : results [RunAt 1; RunSolver None; GetData; InitPhph None; SetMesh 3; RunAt 1; GetData] = [[-1]; [-1]; [-1]; []; []; [-1]; [-1]].
Proof. vm_compute. reflexivity. Qed.
Example C133_data_ex : results [SetData true (fun p => (8, 8, 8, 8, p)); InitPhph None; SetData true (fun p => (8, 8, 8, 8, p)); RunAt 1; RunAt 0; GetData]
  = [[]; []; []; [3; 1; 28; 3; 1; 8; 8; 8; 8; 8; 8; 8; 8; 8; 8; 8; 8]; [3; 1; 28; 3; 0; 2; 0; 28; 0; 8; 8; 8; 8; 8; 8; 8; 8];
     [2; 0; 28; 0; 8; 8; 8; 8; 8; 8; 8; 8]].
Proof. vm_compute. reflexivity. Qed.
(** fc2, fc3, bands and masses set after init_phph_interaction *)
Example C133_late_refuted_ex : results [InitPhph None; RunSolver (Some [1]); SetFc2 (Some 5); SetFc3 (Some 6); SetBands 4; SetMasses (Some 12); RunAt 1]
  = [[]; []; []; []; []; []; [3; 1; 28; 3; 1; 2; 0; 12; 0; 2; 0; 28; 0; 2; 0; 12; 0]].
Proof. vm_compute. reflexivity. Qed.
(** fc2 and NAC parameters set after it: phonons at Gamma that are kept are of the old fc2 *)
Example C133_gamma_refuted_ex : results [InitPhph None; SetFc2 (Some 5); SetNac (Some 7); RunAt 0; RunAt 1]
  = [[]; []; []; [3; 1; 28; 3; 0; 5; 0; 28; 0; 5; 7; 28; 0; 5; 7; 28; 0]; [3; 1; 28; 3; 1; 2; 0; 28; 0; 5; 7; 28; 0; 5; 7; 28; 0]].
Proof. vm_compute. reflexivity. Qed.

(** self energies: at Gamma with the direction; elsewhere without one only *)
Example C133_self_energies_ex : results [SetNac (Some 7); InitPhph (Some 9); RunSelfEnergy [0]; RunSelfEnergy [0; 1]; InitPhph None; RunSelfEnergy [0; 1]]
  = [[]; []; [3; 1; 28; 3; 0; 2; 7; 28; 9; 2; 7; 28; 9; 2; 7; 28; 9]; [-1]; [];
     [3; 1; 28; 3; 0; 2; 0; 28; 0; 2; 7; 28; 0; 2; 7; 28; 0] ++ [3; 1; 28; 3; 1; 2; 0; 28; 0; 2; 7; 28; 0; 2; 7; 28; 0]].
Proof. vm_compute. reflexivity. Qed.

Print Assumptions C133_self_energies.
Print Assumptions C133_direction_refuted.
Print Assumptions C133_strengths.
Print Assumptions C133_phonons.
Print Assumptions C133_nac.
Print Assumptions C133_fresh.
Print Assumptions C133_needs_init.
Print Assumptions C133_init_raises.
Print Assumptions C133_data.
Print Assumptions C133_data_gamma_refuted.
Print Assumptions C133_data_before_refuted.
Print Assumptions C133_late_refuted.
Print Assumptions C133_masses_refuted.
Print Assumptions C133_gamma_refuted.
Print Assumptions C133_unsolved_refuted.
