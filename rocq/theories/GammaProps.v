From Coq Require Import List Bool.
From Verif Require Import GammaModel.
Import ListNotations.

Section Gamma.
Context {D V : Type}.
Variable solver : option D -> V.
Lemma cache_init : forall d v0, i_cache (i_init solver d v0) = Some (solver None).
Proof. reflexivity. Qed.
Lemma solve_done : forall s, i_done (i_solve solver s) = true.
Proof. intros s. unfold i_solve. destruct (i_done s) eqn:E; [exact E|reflexivity]. Qed.
Lemma solve_cache : forall s, i_cache (i_solve solver s) = i_cache s. Proof. intros s. unfold i_solve. destruct (i_done s); reflexivity. Qed.
Lemma solve_dir : forall s, i_dir (i_solve solver s) = i_dir s. Proof. intros s. unfold i_solve. destruct (i_done s); reflexivity. Qed.
Lemma solve_nac : forall s, i_nac (i_solve solver s) = i_nac s. Proof. intros s. unfold i_solve. destruct (i_done s); reflexivity. Qed.
Lemma step_cache : forall sym s e, i_cache s = Some (solver None) -> i_cache (i_step solver sym s e) = Some (solver None).
Proof.
  intros sym s e H. destruct e as [d|g| |b]; cbn [i_step].
  - exact H.
  - unfold i_set_grid_point. destruct (negb sym); [exact H|]. destruct g; [exact H|]. destruct (i_nac s); [|exact H]. destruct (i_dir s); [exact H|]. cbn [fst]. unfold i_at_gamma. rewrite H. reflexivity.
  - rewrite solve_cache. exact H.
  - unfold i_at_gamma. destruct b; [exact H|]. rewrite H. reflexivity.
Qed.
Lemma exec_cache : forall sym h s, i_cache s = Some (solver None) -> i_cache (i_exec solver sym s h) = Some (solver None).
Proof. intros sym. induction h as [|e h IH]; intros s H; [exact H|]. cbn. apply IH, step_cache, H. Qed.
(** ** C44, interaction with mesh symmetry: after selecting Gamma its phonons are those of the current direction,
    whatever happened before, and stay so in [run]. Missing: grids without mesh symmetry (refuted). *)
Theorem C44_at_gamma_partial : forall d0 v0 h, let s := i_exec solver true (i_init solver d0 v0) h in
  snd (i_set_grid_point solver true true s) = true /\
  i_val (i_solve solver (fst (i_set_grid_point solver true true s))) = solver (i_dir s) /\ i_dir (fst (i_set_grid_point solver true true s)) = i_dir s.
Proof. intros d0 v0 h s. unfold i_set_grid_point. cbn [negb fst snd]. split; [reflexivity|]. split; reflexivity. Qed.
(** The solver is run on points including Gamma only without direction or when Gamma is done. *)
Fixpoint clean (s : istate) (h : list ievent) : Prop :=
  match h with
  | [] => True
  | e :: t => (e = IRun -> i_dir s = None \/ i_done s = true) /\ clean (i_step solver true s e) t
  end.
Definition inv (s : @istate D V) : Prop := i_cache s = Some (solver None) /\ (i_nac s = false -> i_done s = true -> i_val s = solver None).
Lemma inv_step : forall s e, inv s -> (e = IRun -> i_dir s = None \/ i_done s = true) -> inv (i_step solver true s e).
Proof.
  intros s e [C I] Hc. split; [now apply step_cache|]. destruct e as [d|g| |b]; cbn [i_step].
  - exact I.
  - unfold i_set_grid_point. cbn [negb]. destruct g; [intros N; discriminate N|]. destruct (i_nac s) eqn:E; [|cbn [fst]; rewrite E; exact I]. destruct (i_dir s); cbn [fst]; [rewrite E; exact I|]. unfold i_at_gamma. rewrite C. cbn. auto.
  - unfold i_solve. destruct (i_done s) eqn:E; [rewrite E; exact I|]. cbn. intros N _. destruct (Hc eq_refl) as [H|H]; [now rewrite H|discriminate H].
  - unfold i_at_gamma. destruct b; [intros N; discriminate N|]. rewrite C. cbn. auto.
Qed.
(** Elsewhere, without direction, the phonons at Gamma are those without NAC. Missing: histories that solve Gamma
    with a direction by run_phonon_solver (refuted). *)
Theorem C44_elsewhere_partial : forall d0 v0 h, let s := i_exec solver true (i_init solver d0 v0) h in
  clean (i_init solver d0 v0) h -> i_dir s = None ->
  snd (i_set_grid_point solver true false s) = true /\ i_val (i_solve solver (fst (i_set_grid_point solver true false s))) = solver None.
Proof.
  intros d0 v0 h. cbv zeta. assert (I0 : inv (i_init solver d0 v0)) by (split; [reflexivity|intros _ X; discriminate X]). revert I0. generalize (i_init solver d0 v0) as s. induction h as [|e h IH]; intros s I0 Hc Hd.
  - cbn [i_exec fold_left] in *. destruct I0 as [C I]. unfold i_set_grid_point. cbn [negb]. destruct (i_nac s) eqn:E.
    + rewrite Hd. cbn [fst snd]. split; [reflexivity|]. unfold i_at_gamma. rewrite C. unfold i_solve. cbn [i_done i_dir]. destruct (i_done s); cbn; [reflexivity|now rewrite Hd].
    + cbn [fst snd]. split; [reflexivity|]. unfold i_solve. destruct (i_done s) eqn:E2; [auto|]. cbn. now rewrite Hd.
  - destruct Hc as [Hc1 Hc2]. cbn [i_exec fold_left] in *. apply IH; [apply inv_step; auto|exact Hc2|exact Hd].
Qed.
(** ** Joint density of states through the api: at each grid point the phonons at Gamma are those for the direction of
    the api object at Gamma, and without NAC elsewhere; for any number of successive runs. *)
Definition jinv (d : option D) (s : @jstate D V) : Prop :=
  (j_nac s = false -> j_done s = true -> j_val s = solver None) /\ (d = None -> j_nac s = false) /\ (j_dir s = None \/ j_dir s = d) /\ (j_dir s <> None -> j_nac s = true).
Lemma jinv_solve : forall d s, jinv d s -> jinv d (j_solve solver s).
Proof.
  intros d s [A [B [C E]]]. unfold j_solve. destruct (j_done s) eqn:X; [repeat split; auto|]. split; [|auto]. cbn. intros N _. destruct (j_dir s) eqn:Y; [|reflexivity]. rewrite E in N by discriminate. discriminate N.
Qed.
Lemma jinv_gamma : forall d b s, jinv d s -> jinv d (j_at_gamma solver b s).
Proof.
  intros d b s [A [B [C E]]]. unfold j_at_gamma. destruct b; cbn; (split; [|split; [|split]]; cbn; auto).
  intros N _. destruct (j_dir s) eqn:Y; [|reflexivity]. rewrite E in N by discriminate. discriminate N.
Qed.
Lemma api_gp_spec : forall d g st, jinv d (fst st) -> jinv d (fst (api_gp solver d st g)) /\ snd (api_gp solver d st g) = snd st ++ [(g, solver (if g then d else None))].
Proof.
  intros d g [s l] [A [B [C E]]]. unfold api_gp. cbn [fst snd] in *. destruct g.
  - destruct d as [x|].
    + cbn. split; [|reflexivity]. unfold jinv. cbn. repeat split; auto; intros X; discriminate X.
    + cbn [j_set_grid_point j_set_dir j_dir fst]. specialize (B eq_refl). unfold j_solve. cbn. destruct (j_done s) eqn:X; cbn.
      * split; [unfold jinv; cbn; rewrite X; repeat split; auto; intros Y; congruence|]. rewrite ?X; cbn; rewrite ?X; cbn; rewrite A; auto.
      * split; [unfold jinv; cbn; repeat split; auto; intros Y; congruence|reflexivity].
  - cbn [j_set_grid_point j_set_dir j_dir j_nac fst]. destruct (j_nac s) eqn:X.
    + cbn. split; [|reflexivity]. unfold jinv. cbn. repeat split; auto; intros Y; congruence.
    + unfold j_solve. cbn. destruct (j_done s) eqn:Y; cbn.
      * split; [unfold jinv; cbn; rewrite X, Y; repeat split; auto; intros Z; congruence|]. rewrite ?Y; cbn; rewrite ?Y; cbn; rewrite A; auto.
      * rewrite X. split; [unfold jinv; cbn; repeat split; auto; intros Z; congruence|reflexivity].
Qed.
Lemma api_run_spec : forall d gps (s : @jstate D V), jinv d s -> jinv d (fst (api_run solver d gps s)) /\ snd (api_run solver d gps s) = map (fun g : bool => (g, solver (if g then d else None))) gps.
Proof.
  intros d gps s H. unfold api_run. assert (H1 : jinv d (j_at_gamma solver true (j_at_gamma solver false (j_solve solver s)))) by (apply jinv_gamma, jinv_gamma, jinv_solve, H).
  revert H1. generalize (j_at_gamma solver true (j_at_gamma solver false (j_solve solver s))) as s1. intros s1 H1.
  assert (G : forall gps st, jinv d (fst st) -> jinv d (fst (fold_left (api_gp solver d) gps st)) /\ snd (fold_left (api_gp solver d) gps st) = snd st ++ map (fun g : bool => (g, solver (if g then d else None))) gps).
  { clear. induction gps as [|g gps IH]; intros st H; [cbn; rewrite app_nil_r; auto|]. cbn [fold_left map]. destruct (api_gp_spec d g st H) as [A B]. destruct (IH _ A) as [C E]. split; [exact C|]. rewrite E, B, <- app_assoc. reflexivity. }
  apply (G gps (s1, [])). exact H1.
Qed.
Theorem C44_joint_dos_api : forall d v0 (runs : list (list bool)) last,
  let s := fold_left (fun s gps => fst (api_run solver d gps s)) runs (j_init v0) in
  snd (api_run solver d last s) = map (fun g : bool => (g, solver (if g then d else None))) last.
Proof.
  intros d v0 runs last s. apply api_run_spec. unfold s. assert (I : jinv d (j_init v0)) by (unfold jinv; cbn; repeat split; auto; try (intros _ X; discriminate X); intros X; congruence).
  revert I. generalize (@j_init D V v0) as s0. induction runs as [|r runs IH]; intros s0 I; [exact I|]. cbn [fold_left]. apply IH, api_run_spec, I.
Qed.
(** isotope: the first run uses the direction that was last set to a value. Missing: everything after (refuted). *)
Theorem C44_isotope_first_run_partial : forall d s, o_done s = false -> o_val (o_run solver (o_set_dir (Some d) s)) = solver (Some d).
Proof. intros d s H. unfold o_run, o_set_dir. cbn. rewrite H. reflexivity. Qed.
End Gamma.
Print Assumptions C44_at_gamma_partial.
Print Assumptions C44_elsewhere_partial.
Print Assumptions C44_joint_dos_api.
Print Assumptions C44_isotope_first_run_partial.
(** ** Witnesses: directions and values are numbers, solver d = d, without NAC = 0 *)
Definition sv (d : option nat) : nat := match d with Some k => k | None => 0 end.
(** phonons solved with a direction before a grid point other than Gamma is selected without one: the phonons
    at Gamma are still those with NAC *)
Theorem C44_stale_refuted : exists h, let s := i_exec sv true (i_init sv (Some 5) 0) h in
  i_dir s = None /\ snd (i_set_grid_point sv true false s) = true /\ i_val (i_solve sv (fst (i_set_grid_point sv true false s))) = 5.
Proof. exists [IRun; ISetDir None]. repeat split. Qed.
Print Assumptions C44_stale_refuted.
(** another grid point with a direction set: no error, and Gamma is solved with NAC *)
Theorem C44_nac_elsewhere_refuted : let s := i_init sv (Some 5) 0 in snd (i_set_grid_point sv true false s) = true /\ i_val (i_solve sv (fst (i_set_grid_point sv true false s))) = 5.
Proof. repeat split. Qed.
Print Assumptions C44_nac_elsewhere_refuted.
(** without mesh symmetry the phonons at Gamma do not follow the direction *)
Theorem C44_nosym_refuted : exists h, let s := i_exec sv false (i_init sv None 0) h in
  i_dir s = Some 7 /\ snd (i_set_grid_point sv false true s) = true /\ i_val (i_solve sv (fst (i_set_grid_point sv false true s))) = 0.
Proof. exists [IRun; ISetDir (Some 7)]. repeat split. Qed.
Print Assumptions C44_nosym_refuted.
(** an error is raised because of NAC at Gamma although the phonons at Gamma are without NAC *)
Theorem C44_error_refuted : exists h, let s := i_exec sv true (i_init sv (Some 5) 0) h in i_val s = 0 /\ snd (i_set_grid_point sv true false s) = false.
Proof. exists [ISetGridPoint true; ISetDir None; ISetGridPoint false; ISetDir (Some 5)]. repeat split. Qed.
Print Assumptions C44_error_refuted.
(** joint_dos.py itself: Gamma selected again without direction *)
Theorem C44_joint_dos_refuted : let s := j_set_dir None (fst (j_set_grid_point sv true (j_set_dir (Some 5) (j_init 0)))) in
  j_dir s = None /\ snd (j_set_grid_point sv true s) = true /\ j_val (fst (j_set_grid_point sv true s)) = 5.
Proof. repeat split. Qed.
Print Assumptions C44_joint_dos_refuted.
(** isotope.py: the direction cannot be removed, and does not matter once phonons were computed *)
Theorem C44_isotope_refuted : let s0 := OState None false 0 in
  o_val (o_run sv (o_set_dir None (o_set_dir (Some 5) s0))) = 5 /\ o_val (o_run sv (o_set_dir (Some 7) (o_run sv (o_set_dir (Some 5) s0)))) = 5.
Proof. split; reflexivity. Qed.
Print Assumptions C44_isotope_refuted.
Example C44_ex : let h := [IRun; ISetDir (Some 5); ISetGridPoint true; IRun; ISetDir None; IAtGamma false] in
  clean sv (i_init sv None 0) h /\ i_val (i_exec sv true (i_init sv None 0) h) = 0 /\
  snd (api_run sv (Some 5) [true; false; true] (fst (api_run sv (Some 5) [false; true] (j_init 9)))) = [(true, 5); (false, 0); (true, 5)].
Proof. cbn. repeat split; auto; intros X; discriminate X. Qed.
