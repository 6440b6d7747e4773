(** C108: what a run of the command does.  C109: default values of a run.
    C110: phonons that are solved, written and read. *)
From Coq Require Import List Bool ZArith QArith Qround Lia Lqa.
From Verif Require Import QMat CuiModel.
Import ListNotations.

(** ** C108 *)

(** The calculations asked for by the settings.  --isotope is a calculation of
    its own only without --br and --lbte. *)
Definition requested (r : request) (c : calc) : bool :=
  match c with
  | Gruneisen => r_gruneisen r
  | JointDos => r_jdos r
  | IsotopeLifetime => r_isotope r && negb (r_bterta r) && negb (r_lbte r)
  | ImagSelfEnergy => r_ise r
  | RealSelfEnergy => r_rse r
  | SpectralFunction => r_spf r
  | Conductivity false => r_bterta r
  | Conductivity true => r_lbte r
  end.

Definition performed (s : list stage) : list calc :=
  flat_map (fun x => match x with Calc c => [c] | _ => [] end) s.

(** No other task: file conversions, grid information, displacements,
    machine learning potentials. *)
Definition plain (r : request) : Prop :=
  r_fs2f2 r = false /\ r_cfs r = false /\ r_wgp r = false /\ r_stp r = false /\
  r_create_forces r = false /\ r_disp r = false /\ r_rd r = false /\
  r_rd_fc2 r = None /\ r_pypolymlp r = false /\ r_symfc_memory r = false.

(** Input that the calculation needs: a mesh (the Grueneisen parameters can be
    on paths or points instead), grid points, mass variances, and no option
    that makes fc3 unavailable to a calculation that uses it. *)
Definition complete (r : request) (c : calc) : Prop :=
  (r_mesh r = true \/ (c = Gruneisen /\ r_paths r = true)) /\
  match c with
  | Gruneisen | Conductivity _ => True
  | _ => r_gp r = true \/ r_ga r = true
  end /\
  (r_isotope r = true -> r_mass_variances r = true \/ r_isotope_known r = true) /\
  match c with
  | JointDos | IsotopeLifetime => True
  | Conductivity false =>
      True
  | Conductivity true =>
      r_load r = true \/ r_write_phonon r = false
      \/ r_read_gamma r = true \/ r_read_pp r = true \/ r_const_ave_pp r = true
  | Gruneisen =>
      r_load r = true \/ (r_write_phonon r = false /\ r_read_gamma r = false /\
        r_read_pp r = false /\ r_const_ave_pp r = false)
  | _ =>
      r_load r = true \/ r_const_ave_pp r = true \/
      (r_write_phonon r = false /\ r_read_gamma r = false /\ r_read_pp r = false)
  end.

Lemma run_mode_requested r m :
  run_mode r = Some m ->
  match m with
  | MGruneisen => r_gruneisen r = true
  | MJdos => r_jdos r = true
  | MIsotope => (r_isotope r && negb (r_bterta r || r_lbte r))%bool = true
  | MIse => r_ise r = true
  | MRse => r_rse r = true
  | MSpf => r_spf r = true
  | MRta => r_bterta r = true
  | MLbte => r_bterta r = false /\ r_lbte r = true
  | _ => True
  end.
Proof.
  unfold run_mode, get_run_mode. intros H.
  repeat match type of H with
  | (if ?b then _ else _) = _ => destruct b eqn:?
  end; try discriminate; injection H as <-; auto.
Qed.

Lemma performed_after s x :
  performed (fst (after s x)) = performed s ++ performed (fst x).
Proof.
  unfold after. cbn [fst]. unfold performed. apply flat_map_app.
Qed.

(** What [ph_ph] performs. *)
Lemma ph_ph_performed r m :
  performed (fst (ph_ph r m)) = [] \/
  match m with
  | Some MIse => performed (fst (ph_ph r m)) = [ImagSelfEnergy]
  | Some MRse => performed (fst (ph_ph r m)) = [RealSelfEnergy]
  | Some MSpf => performed (fst (ph_ph r m)) = [SpectralFunction]
  | Some MRta | Some MLbte =>
      performed (fst (ph_ph r m)) = [Conductivity (r_lbte r)]
  | _ => False
  end.
Proof.
  unfold ph_ph. destruct m as [[]|]; cbn; auto;
  repeat match goal with |- context [if ?b then _ else _] => destruct b end;
  cbn; auto.
Qed.

Lemma main_fc_performed r :
  performed (fst (main_fc r)) = [] \/
  exists c, performed (fst (main_fc r)) = [c] /\ requested r c = true.
Proof.
  unfold main_fc. rewrite performed_after. cbn [performed flat_map app].
  destruct (r_gruneisen r) eqn:G.
  - unfold run_gruneisen.
    destruct (negb (r_mesh r) && negb (r_paths r))%bool; [now left|].
    destruct (fc3_passed r); [now left|]. right. now exists Gruneisen.
  - destruct (run_mode r) as [m|] eqn:M; cbn zeta.
    + pose proof (run_mode_requested r m M) as Q.
      assert (PP : forall s, performed s = [] ->
        performed (fst (after s (ph_ph r (Some m)))) = [] \/
        exists c, performed (fst (after s (ph_ph r (Some m)))) = [c]
                  /\ requested r c = true).
      { intros s Z. rewrite performed_after, Z. cbn [app].
        destruct (ph_ph_performed r (Some m)) as [E|E]; [now left|].
        right. destruct m; try contradiction.
        - exists ImagSelfEnergy. now split.
        - exists RealSelfEnergy. now split.
        - exists SpectralFunction. now split.
        - exists (Conductivity (r_lbte r)). split; [exact E|].
          cbn. destruct (r_lbte r) eqn:L; [reflexivity | exact Q].
        - exists (Conductivity (r_lbte r)). split; [exact E|].
          cbn. destruct Q as [_ Q]. rewrite Q. reflexivity. }
      assert (IP : forall x, init_phph r = x -> performed (fst x) = []).
      { intros x <-. unfold init_phph. destruct (r_mesh r); [|reflexivity].
        now destruct (r_write_phonon r). }
      destruct m; try (
        destruct (r_isotope r && negb (r_mass_variances r)
                  && negb (r_isotope_known r))%bool; [now left|];
        destruct (init_phph r) as [s [e|]] eqn:I;
        [left; exact (IP _ eq_refl) | apply PP; exact (IP _ eq_refl)]).
      * right. exists JointDos. now split.
      * destruct (r_isotope r && negb (r_mass_variances r)
                  && negb (r_isotope_known r))%bool; [now left|].
        right. exists IsotopeLifetime. split; [reflexivity|]. cbn.
        destruct (r_isotope r), (r_bterta r), (r_lbte r); easy.
    + destruct (r_isotope r && negb (r_mass_variances r)
                && negb (r_isotope_known r))%bool; left; reflexivity.
Qed.

Lemma main_performed r :
  performed (fst (main r)) = [] \/
  exists c, performed (fst (main r)) = [c] /\ requested r c = true.
Proof.
  unfold main.
  destruct (r_fs2f2 r); [now left|]. destruct (r_cfs r); [now left|].
  destruct (r_create_forces r); [now left|].
  match goal with |- context [if ?b then create_supercells _ else _] =>
    destruct b end.
  { left. unfold create_supercells. destruct (r_phonon_cell r); reflexivity. }
  destruct (r_symfc_memory r && r_load r)%bool; [now left|].
  destruct (negb (r_mesh r) && in_mode mode_with_mesh (run_mode r))%bool;
    [now left|].
  destruct (in_mode mode_with_gp (run_mode r) && negb (r_gp r)
            && negb (r_ga r))%bool; [now left|].
  assert (K : performed (fst (if (r_load r && r_pypolymlp r)%bool then
        after [MlpTrained] (if (r_disp r || r_rd r)%bool then main_fc r
                            else ([Summary], Finished))
      else main_fc r)) = [] \/
    exists c, performed (fst (if (r_load r && r_pypolymlp r)%bool then
        after [MlpTrained] (if (r_disp r || r_rd r)%bool then main_fc r
                            else ([Summary], Finished))
      else main_fc r)) = [c] /\ requested r c = true).
  { destruct (r_load r && r_pypolymlp r)%bool; [|apply main_fc_performed].
    rewrite performed_after. cbn [performed flat_map app].
    destruct (r_disp r || r_rd r)%bool; [apply main_fc_performed | now left]. }
  destruct (run_mode r) as [[]|]; try exact K; now left.
Qed.

(** A run performs only what was asked for, and at most one calculation. *)
Theorem C108_only_requested r c :
  In (Calc c) (fst (main r)) -> requested r c = true.
Proof.
  intros I.
  assert (J : In c (performed (fst (main r)))).
  { unfold performed. apply in_flat_map. exists (Calc c). split; [exact I|].
    now left. }
  destruct (main_performed r) as [E|(c' & E & Q)]; rewrite E in J.
  - destruct J.
  - destruct J as [<-|[]]. exact Q.
Qed.

Theorem C108_at_most_one r : (length (performed (fst (main r))) <= 1)%nat.
Proof.
  destruct (main_performed r) as [E|(c' & E & _)]; rewrite E; cbn; lia.
Qed.

Lemma plain_main r :
  plain r ->
  main r =
  if (negb (r_mesh r) && in_mode mode_with_mesh (get_run_mode r))%bool
  then ([], Refused)
  else if (in_mode mode_with_gp (get_run_mode r)
           && negb (r_gp r) && negb (r_ga r))%bool
  then ([], Refused)
  else main_fc r.
Proof.
  intros (P1 & P2 & P3 & P4 & P5 & P6 & P7 & P8 & P9 & P10).
  unfold main. rewrite P1, P2, P5, P6, P7, P8, P9, P10. cbn.
  unfold run_mode. rewrite P3, P4. rewrite andb_false_r.
  replace (match get_run_mode r with
           | Some MGridInfo => ([GridInfo], Finished)
           | Some MTripletsInfo => ([TripletsInfo], Finished)
           | _ => main_fc r end) with (main_fc r); [reflexivity|].
  unfold get_run_mode.
  repeat match goal with |- context [if ?b then Some _ else _] => destruct b end;
  reflexivity.
Qed.

Lemma asked r c :
  (forall c', requested r c' = true <-> c' = c) ->
  r_gruneisen r = match c with Gruneisen => true | _ => false end /\
  r_jdos r = match c with JointDos => true | _ => false end /\
  r_ise r = match c with ImagSelfEnergy => true | _ => false end /\
  r_rse r = match c with RealSelfEnergy => true | _ => false end /\
  r_spf r = match c with SpectralFunction => true | _ => false end /\
  r_bterta r = match c with Conductivity false => true | _ => false end /\
  r_lbte r = match c with Conductivity true => true | _ => false end /\
  (r_isotope r && negb (r_bterta r || r_lbte r))%bool
  = match c with IsotopeLifetime => true | _ => false end.
Proof.
  intros H.
  assert (E : forall c', requested r c' =
              if (match c, c' with
                  | Gruneisen, Gruneisen | JointDos, JointDos
                  | IsotopeLifetime, IsotopeLifetime
                  | ImagSelfEnergy, ImagSelfEnergy
                  | RealSelfEnergy, RealSelfEnergy
                  | SpectralFunction, SpectralFunction => true
                  | Conductivity a, Conductivity b => eqb a b
                  | _, _ => false end) then true else false).
  { intros c'. specialize (H c').
    destruct (requested r c') eqn:Q.
    - rewrite (proj1 H eq_refl). destruct c as [| | | | | |[|]]; reflexivity.
    - destruct c as [| | | | | |[|]], c' as [| | | | | |[|]]; try reflexivity;
      exfalso; discriminate (proj2 H eq_refl). }
  pose proof (E Gruneisen) as E1. pose proof (E JointDos) as E2.
  pose proof (E ImagSelfEnergy) as E3. pose proof (E RealSelfEnergy) as E4.
  pose proof (E SpectralFunction) as E5.
  pose proof (E (Conductivity false)) as E6.
  pose proof (E (Conductivity true)) as E7.
  pose proof (E IsotopeLifetime) as E8. cbn in E1, E2, E3, E4, E5, E6, E7, E8.
  rewrite E1, E2, E3, E4, E5, E6, E7.
  destruct c as [| | | | | |[|]]; cbn in *; auto 10;
  repeat (split; [reflexivity|]);
  destruct (r_isotope r), (r_bterta r), (r_lbte r); cbn in *; congruence.
Qed.

Ltac oneof H := match type of H with
  | _ \/ _ => let H' := fresh in destruct H as [H'|H]; [oneof H' | oneof H]
  | _ /\ _ => let H' := fresh in destruct H as [H' H]; oneof H
  | _ => idtac end.

(** The calculation that was asked for, alone and with its input, is
    performed, and the run ends without error. *)
Theorem C108_single_request r c :
  plain r -> (forall c', requested r c' = true <-> c' = c) -> complete r c ->
  snd (main r) = Finished /\ performed (fst (main r)) = [c].
Proof.
  intros P A (CM & CG & CI & CF).
  destruct (asked r c A) as (R1 & R2 & R3 & R4 & R5 & R6 & R7 & R8).
  rewrite (plain_main r P). destruct P as (_ & _ & W & S & _ & D & RD & _ & _ & _).
  assert (GP : match c with Gruneisen | Conductivity _ => True
               | _ => (negb (r_gp r) && negb (r_ga r))%bool = false end).
  { destruct c; auto; destruct CG as [-> | ->]; rewrite ?andb_false_r; reflexivity. }
  assert (IK : (r_isotope r && negb (r_mass_variances r)
                && negb (r_isotope_known r))%bool = false).
  { destruct (r_isotope r); [|reflexivity].
    destruct (CI eq_refl) as [-> | ->]; cbn; rewrite ?andb_false_r; reflexivity. }
  assert (GM : get_run_mode r =
    match c with
    | Gruneisen => Some MGruneisen | JointDos => Some MJdos
    | IsotopeLifetime => Some MIsotope | ImagSelfEnergy => Some MIse
    | RealSelfEnergy => Some MRse | SpectralFunction => Some MSpf
    | Conductivity false => Some MRta | Conductivity true => Some MLbte
    end).
  { unfold get_run_mode. rewrite R8, R1, R2, R3, R4, R5, R6, R7.
    destruct c as [| | | | | |[|]]; reflexivity. }
  assert (RM : run_mode r = get_run_mode r)
    by (unfold run_mode; now rewrite W, S).
  rewrite GM. unfold main_fc. rewrite RM, GM, IK, R1.
  unfold init_phph, ph_ph, run_gruneisen, fc3_passed. rewrite R8, R2, R6, R7.
  destruct c as [| | | | | |[|]]; cbn in *.
  1: { (* Grueneisen *)
    rewrite !andb_false_r.
    assert (MP : (negb (r_mesh r) && negb (r_paths r))%bool = false).
    { destruct CM as [-> | (_ & ->)]; cbn; rewrite ?andb_false_r; reflexivity. }
    rewrite MP. cbn.
    destruct CF as [-> | (-> & -> & -> & ->)]; cbn;
      rewrite ?andb_false_r; cbn; auto. }
  all: destruct CM as [CM | (CM & _)]; [|discriminate]; rewrite CM; cbn.
  all: try (rewrite GP; cbn).
  all: try (split; reflexivity).
  all: destruct (r_load r), (r_write_phonon r), (r_read_gamma r), (r_read_pp r),
         (r_const_ave_pp r); cbn;
       try (destruct CG as [-> | ->]; rewrite ?orb_true_r; cbn);
       try (split; reflexivity);
       exfalso; oneof CF; discriminate.
Qed.

(** Without mesh, or without grid points, a calculation that needs them is
    refused before the force constants are touched. *)
Theorem C108_refused r c :
  plain r -> (forall c', requested r c' = true <-> c' = c) ->
  c <> Gruneisen -> c <> SpectralFunction ->
  (r_mesh r = false \/
   (r_gp r = false /\ r_ga r = false /\ forall b, c <> Conductivity b)) ->
  main r = ([], Refused).
Proof.
  intros P A NG NS H.
  destruct (asked r c A) as (R1 & R2 & R3 & R4 & R5 & R6 & R7 & R8).
  rewrite (plain_main r P).
  assert (GM : get_run_mode r =
    match c with
    | Gruneisen => Some MGruneisen | JointDos => Some MJdos
    | IsotopeLifetime => Some MIsotope | ImagSelfEnergy => Some MIse
    | RealSelfEnergy => Some MRse | SpectralFunction => Some MSpf
    | Conductivity false => Some MRta | Conductivity true => Some MLbte
    end).
  { unfold get_run_mode. rewrite R8, R1, R2, R3, R4, R5, R6, R7.
    destruct c as [| | | | | |[|]]; reflexivity. }
  rewrite GM. destruct H as [M | (G1 & G2 & NC)].
  - rewrite M. destruct c as [| | | | | |[|]]; try contradiction; reflexivity.
  - rewrite G1, G2. destruct c as [| | | | | |b];
      try contradiction; try (now elim (NC b));
      destruct (r_mesh r); reflexivity.
Qed.

(** *** Cases in which it goes wrong *)

(** No option at all, with mesh and grid point. *)
Definition bare (load mesh gp : bool) : request :=
  {| r_load := load; r_fs2f2 := false; r_cfs := false; r_wgp := false;
     r_stp := false; r_create_forces := false; r_gruneisen := false;
     r_jdos := false; r_isotope := false; r_ise := false; r_rse := false;
     r_spf := false; r_bterta := false; r_lbte := false; r_disp := false;
     r_rd := false; r_rd_fc2 := None; r_phonon_cell := false;
     r_phonon_dim := false; r_pypolymlp := false; r_write_phonon := false;
     r_symfc_memory := false; r_mesh := mesh; r_paths := false; r_gp := gp;
     r_ga := false; r_mass_variances := false; r_isotope_known := true;
     r_read_gamma := false; r_read_pp := false; r_const_ave_pp := false |}.

(** A change of one or two settings. *)
Definition with_spf r := {| r_load := r_load r; r_fs2f2 := r_fs2f2 r;
  r_cfs := r_cfs r; r_wgp := r_wgp r; r_stp := r_stp r;
  r_create_forces := r_create_forces r; r_gruneisen := r_gruneisen r;
  r_jdos := r_jdos r; r_isotope := r_isotope r; r_ise := r_ise r;
  r_rse := r_rse r; r_spf := true; r_bterta := r_bterta r; r_lbte := r_lbte r;
  r_disp := r_disp r; r_rd := r_rd r; r_rd_fc2 := r_rd_fc2 r;
  r_phonon_cell := r_phonon_cell r; r_phonon_dim := r_phonon_dim r;
  r_pypolymlp := r_pypolymlp r; r_write_phonon := r_write_phonon r;
  r_symfc_memory := r_symfc_memory r; r_mesh := r_mesh r; r_paths := r_paths r;
  r_gp := r_gp r; r_ga := r_ga r; r_mass_variances := r_mass_variances r;
  r_isotope_known := r_isotope_known r; r_read_gamma := r_read_gamma r;
  r_read_pp := r_read_pp r; r_const_ave_pp := r_const_ave_pp r |}.

(** --spf without mesh, or without grid points, is not refused: the force
    constants are made, then the program fails. *)
Theorem C108_spf_refuted :
  exists r r', plain r /\ plain r' /\
    (forall c, requested r c = true <-> c = SpectralFunction) /\
    (forall c, requested r' c = true <-> c = SpectralFunction) /\
    r_mesh r = false /\ main r = ([ForceConstants], Crashed TypeError) /\
    r_mesh r' = true /\ r_gp r' = false /\ r_ga r' = false /\
    main r' = ([ForceConstants; PhononsReady], Crashed TypeError).
Proof.
  exists (with_spf (bare true false true)), (with_spf (bare true true false)).
  assert (Q : forall a b c, requested (with_spf (bare true a b)) c = true
                            <-> c = SpectralFunction).
  { intros a b c. destruct c as [| | | | | |[|]]; cbn; split; congruence. }
  split; [repeat split|]. split; [repeat split|].
  split; [apply Q|]. split; [apply Q|]. repeat split.
Qed.

Definition phonon_request (load mesh lbte : bool) : request :=
  {| r_load := load; r_fs2f2 := false; r_cfs := false; r_wgp := false;
     r_stp := false; r_create_forces := false; r_gruneisen := false;
     r_jdos := false; r_isotope := false; r_ise := false; r_rse := false;
     r_spf := false; r_bterta := false; r_lbte := lbte; r_disp := false;
     r_rd := false; r_rd_fc2 := None; r_phonon_cell := false;
     r_phonon_dim := false; r_pypolymlp := false; r_write_phonon := true;
     r_symfc_memory := false; r_mesh := mesh; r_paths := false; r_gp := false;
     r_ga := false; r_mass_variances := false; r_isotope_known := true;
     r_read_gamma := false; r_read_pp := false; r_const_ave_pp := false |}.

(** --write-phonon without mesh; and with --lbte (phono3py command) fc3 is
    passed over, so that the run fails after the phonons are written. *)
Theorem C108_write_phonon_refuted :
  main (phonon_request true false false) = ([ForceConstants], Crashed TypeError)
  /\ (forall c, requested (phonon_request false true true) c = true
                <-> c = Conductivity true)
  /\ main (phonon_request false true true) =
     ([ForceConstants; PhononsReady; PhononsWritten], Crashed AttributeError)
  /\ main (phonon_request true true true) =
     ([ForceConstants; PhononsReady; PhononsWritten;
       Calc (Conductivity true); Summary], Finished).
Proof.
  split; [reflexivity|]. split; [|split; reflexivity].
  intros c. destruct c as [| | | | | |[|]]; cbn; split; congruence.
Qed.

(** --br --lbte: the mode shown is that of the RTA, the direct solution is
    run.  For every such request that is not stopped earlier. *)
Theorem C108_br_lbte_refuted r c :
  plain r -> r_bterta r = true -> r_lbte r = true ->
  r_ise r = false -> r_rse r = false -> r_spf r = false ->
  r_gruneisen r = false -> r_jdos r = false ->
  run_mode r = Some MRta /\
  (In (Calc c) (fst (main r)) -> c = Conductivity true).
Proof.
  intros P B L H1 H2 H3 H4 H5.
  assert (GM : get_run_mode r = Some MRta).
  { unfold get_run_mode. rewrite B, L, H1, H2, H3, H4, H5.
    rewrite andb_false_r. reflexivity. }
  split.
  - destruct P as (_ & _ & W & S & _). unfold run_mode. now rewrite W, S.
  - intros I. pose proof (C108_only_requested r c I) as Q.
    destruct c as [| | | | | |[|]]; cbn in Q; rewrite ?B, ?L in Q;
      try congruence.
    + rewrite andb_false_r in Q. discriminate.
    + exfalso. rewrite (plain_main r P), GM in I. cbn in I.
      destruct P as (_ & _ & W & S & _).
      destruct (r_mesh r) eqn:M; cbn in I; [|exact I].
      unfold main_fc, run_mode in I. rewrite H4, W, S, GM in I.
      destruct (r_isotope r && negb (r_mass_variances r)
                && negb (r_isotope_known r))%bool;
        [cbn in I; destruct I as [I|[]]; discriminate|].
      unfold init_phph in I. rewrite M in I. unfold ph_ph in I. rewrite L in I.
      destruct (r_write_phonon r); cbn in I;
      match type of I with context [if ?b then _ else _] => destruct b end;
      cbn in I; intuition discriminate.
Qed.

Definition two (load gruneisen jdos isotope disp phonon_cell known : bool)
  : request :=
  {| r_load := load; r_fs2f2 := false; r_cfs := false; r_wgp := false;
     r_stp := false; r_create_forces := false; r_gruneisen := gruneisen;
     r_jdos := jdos; r_isotope := isotope; r_ise := false; r_rse := false;
     r_spf := false; r_bterta := false; r_lbte := false; r_disp := disp;
     r_rd := false; r_rd_fc2 := None; r_phonon_cell := phonon_cell;
     r_phonon_dim := false; r_pypolymlp := false; r_write_phonon := false;
     r_symfc_memory := false; r_mesh := true; r_paths := false; r_gp := true;
     r_ga := false; r_mass_variances := false; r_isotope_known := known;
     r_read_gamma := false; r_read_pp := false; r_const_ave_pp := false |}.

(** --gruneisen --jdos (phono3py command) fails on the missing fc3. *)
Theorem C108_gruneisen_jdos_refuted :
  main (two false true true false false false true)
  = ([ForceConstants], Crashed TypeError)
  /\ main (two false true false false false false true)
     = ([ForceConstants; Calc Gruneisen], Finished).
Proof. split; reflexivity. Qed.

(** A request of displacements (-d, --rd, --rd-fc2) writes all files and performs nothing else, also if the phonon supercell matrix
    comes from phono3py.yaml. *)
Theorem C108_displacements r : r_fs2f2 r = false -> r_cfs r = false -> r_create_forces r = false -> r_pypolymlp r = false ->
  r_disp r = true \/ r_rd r = true \/ r_rd_fc2 r <> None ->
  snd (main r) = Finished /\ (forall s, In s (fst (main r)) <-> s = SupercellFiles \/ s = DispYaml \/ (s = Fc2SupercellFiles /\ r_phonon_cell r = true)).
Proof.
  intros H1 H2 H3 H4 D. unfold main. rewrite H1, H2, H3.
  match goal with |- context [if ?b then create_supercells _ else _] => assert (E : b = true) end.
  { destruct D as [D|[D|D]]; rewrite ?H4, ?D; cbn; try (destruct (r_rd_fc2 r); [|congruence]); rewrite ?orb_true_r, ?andb_true_r, ?andb_false_r; reflexivity. }
  rewrite E. unfold create_supercells. destruct (r_phonon_cell r); (split; [reflexivity|]); intros s; cbn; intuition (try congruence; eauto).
Qed.
Example C108_displacements_ex :
  main (two true false false false true true true) = ([SupercellFiles; Fc2SupercellFiles; DispYaml], Finished)
  /\ main (two true false false false true false true) = ([SupercellFiles; DispYaml], Finished).
Proof. split; reflexivity. Qed.

(** An isotope calculation for an element without isotope data ends with exit
    code 0 and without result. *)
Theorem C108_isotope_refuted :
  main (two true false false true false false false)
  = ([ForceConstants], Finished)
  /\ main (two true false false true false false true)
     = ([ForceConstants; Calc IsotopeLifetime], Finished).
Proof. split; reflexivity. Qed.

(** Grid addresses win over grid points, wherever both come from: the grid
    points of the command line are dropped if a file has GRID_ADDRESSES. *)
Theorem C108_grid_points_refuted A (conv : A -> list Z) ga gp gp' :
  settings_to_grid_points conv (Some ga) gp
  = settings_to_grid_points conv (Some ga) gp'.
Proof. reflexivity. Qed.

Example C108_example :
  plain (with_spf (bare true true true)) /\
  complete (with_spf (bare true true true)) SpectralFunction /\
  main (with_spf (bare true true true)) =
  ([ForceConstants; PhononsReady; Calc SpectralFunction; Summary], Finished).
Proof.
  split; [repeat split|]. split; [|reflexivity].
  split; [now left|]. split; [now left|]. split; [discriminate | now left].
Qed.

Example C108_example_refused :
  plain (two true false true false false false true) /\
  (forall c, requested (two true false true false false false true) c = true
             <-> c = JointDos).
Proof.
  split; [repeat split|].
  intros c. destruct c as [| | | | | |[|]]; cbn; split; congruence.
Qed.

(** ** C109 *)

Section C109.
Open Scope Q_scope.

(** The multiples of the step from [tmin] that lie below [tmax + tstep/10],
    in increasing order, starting from [tmin]. *)
Theorem C109_temperatures tmin tmax tstep s t :
  0 < tstep ->
  default_temperatures None false tmin tmax tstep = Some (s, t) ->
  (forall i x, nth_error t i = Some x ->
               x == tmin + inject_Z (Z.of_nat i) * tstep) /\
  (forall i, (i < length t)%nat <->
             tmin + inject_Z (Z.of_nat i) * tstep < tmax + tstep / 10).
Proof.
  intros P H. injection H as _ <-. unfold arange. split.
  - intros i x E. apply nth_error_In in E as I.
    assert (L : (i < Z.to_nat (Qceiling ((tmax + tstep / 10 - tmin) / tstep)))%nat).
    { assert (N : nth_error (map (fun i : nat => tmin + inject_Z (Z.of_nat i) * tstep)
         (seq 0 (Z.to_nat (Qceiling ((tmax + tstep / 10 - tmin) / tstep))))) i
         <> None) by congruence.
      apply nth_error_Some in N. now rewrite map_length, seq_length in N. }
    rewrite nth_error_map in E.
    rewrite (nth_error_nth' _ 0%nat) in E by (now rewrite seq_length).
    rewrite seq_nth in E by exact L. cbn in E. injection E as <-. reflexivity.
  - intros i. rewrite map_length, seq_length.
    set (z := (tmax + tstep / 10 - tmin) / tstep).
    assert (ZE : z * tstep == tmax + tstep / 10 - tmin)
      by (unfold z; field; lra).
    assert (D : (i < Z.to_nat (Qceiling z))%nat <-> inject_Z (Z.of_nat i) < z).
    { split; intros I.
      - destruct (Qlt_le_dec (inject_Z (Z.of_nat i)) z) as [Y|N]; [exact Y|].
        exfalso. pose proof (Qceiling_resp_le _ _ N) as C.
        rewrite Qceiling_Z in C. lia.
      - pose proof (Qle_ceiling z) as C.
        assert (X : inject_Z (Z.of_nat i) < inject_Z (Qceiling z)) by lra.
        rewrite <- Zlt_Qlt in X. lia. }
    rewrite D. split; intros I.
    + assert (X : 0 < (z - inject_Z (Z.of_nat i)) * tstep)
        by (apply Qmult_lt_0_compat; lra).
      nra.
    + destruct (Qlt_le_dec (inject_Z (Z.of_nat i)) z) as [Y|N]; [exact Y|].
      exfalso. assert (X : 0 <= (inject_Z (Z.of_nat i) - z) * tstep)
        by (apply Qmult_le_0_compat; lra).
      nra.
Qed.

(** [tmax] is among the temperatures when it is a whole number of steps from
    [tmin]. *)
Corollary C109_tmax_included tmin tmax tstep s t n :
  0 < tstep -> tmax == tmin + inject_Z (Z.of_nat n) * tstep ->
  default_temperatures None false tmin tmax tstep = Some (s, t) ->
  exists x, nth_error t n = Some x /\ x == tmax.
Proof.
  intros P E H. destruct (C109_temperatures _ _ _ _ _ P H) as [V L].
  assert (N : (n < length t)%nat).
  { apply L. rewrite <- E.
    assert (0 < tstep / 10) by (apply Qlt_shift_div_l; lra). lra. }
  destruct (nth_error t n) as [x|] eqn:X.
  - exists x. split; [reflexivity|]. rewrite (V n x X). now rewrite E.
  - apply nth_error_None in X. lia.
Qed.

(** A temperature above [tmax] can be in the list. *)
Theorem C109_tmax_refuted :
  exists s t, default_temperatures None false 0 95 100 = Some (s, t) /\
              exists x, In x t /\ 95 < x.
Proof.
  exists [0; 300], [0 + inject_Z 0 * 100; 0 + inject_Z 1 * 100].
  split; [reflexivity|]. eexists. split; [right; left; reflexivity|].
  vm_compute. reflexivity.
Qed.

(** --tmin, --tmax and --tstep do not reach the spectra (imaginary and real
    self energy, spectral function): these are always at 0 and 300 K, unless
    --ts is given. *)
Theorem C109_spectra_refuted tmin tmax tstep :
  exists t, default_temperatures None false tmin tmax tstep = Some ([0; 300], t).
Proof. eexists. reflexivity. Qed.

(** --ts is used for both. *)
Theorem C109_ts l jdos tmin tmax tstep :
  default_temperatures (Some l) jdos tmin tmax tstep = Some (l, l).
Proof. reflexivity. Qed.

(** Sigmas: never empty; the tetrahedron method is used exactly when asked for
    or when no sigma is given; the sigmas given are all used, in order. *)
Theorem C109_sigmas sigma tetrahedron :
  let given := match sigma with
               | SigmaNone => [] | SigmaFloat q => [q] | SigmaList l => l end in
  let s := default_sigmas sigma tetrahedron in
  s <> [] /\
  (In None s <-> tetrahedron = true \/ given = []) /\
  flat_map (fun x => match x with Some q => [q] | None => [] end) s = given /\
  (forall x r, s = x :: r -> ~ In None r).
Proof.
  cbn zeta.
  assert (NN : forall l : list Q, ~ In None (map Some l)).
  { intros l I. apply in_map_iff in I. destruct I as (x & E & _). discriminate. }
  assert (FM : forall l : list Q,
     flat_map (fun x => match x with Some q => [q] | None => [] end) (map Some l)
     = l).
  { induction l as [|a l IH]; [reflexivity|]. cbn. now rewrite IH. }
  unfold default_sigmas.
  destruct sigma as [|q|l]; [| |destruct l as [|a l]]; destruct tetrahedron;
    cbn; rewrite ?FM.
  all: split; [discriminate|].
  all: split; [intuition (try discriminate; try (now left); try (exfalso; eapply NN; eassumption))|].
  all: split; [reflexivity|].
  all: try (intros x r E; injection E as <- <-; cbn;
            intuition (try discriminate; try (eapply NN; eassumption))).
  all: try (eapply NN; eassumption).
Qed.

(** Sampling of frequencies: exactly one of the number of points and the step
    is set; the number given wins, then the pitch given, then 201 points. *)
Theorem C109_sampling num pitch :
  match default_sampling num pitch with
  | (Some n, None) => num = Some n \/ (num = None /\ pitch = None /\ n = 201%Z)
  | (None, Some p) => num = None /\ pitch = Some p
  | _ => False
  end.
Proof.
  destruct num as [n|]; cbn; [now left|].
  destruct pitch as [p|]; cbn; [now split | now right].
Qed.

(** The isotope calculation of the command uses another default cutoff
    frequency than the rest of the program. *)
Theorem C109_isotope_cutoff_refuted :
  ~ isotope_cutoff None == other_cutoff None /\
  forall c, isotope_cutoff (Some c) == other_cutoff (Some c).
Proof. split; [discriminate | intros c; reflexivity]. Qed.

Example C109_example :
  default_temperatures None false 0 30 10
  = Some ([0; 300], [0 + inject_Z 0 * 10; 0 + inject_Z 1 * 10;
                     0 + inject_Z 2 * 10; 0 + inject_Z 3 * 10])
  /\ 30 == 0 + inject_Z (Z.of_nat 3) * 10
  /\ default_sigmas (SigmaList [1; 2]) true = [None; Some 1; Some 2]
  /\ default_sigmas SigmaNone false = [None].
Proof. split; [reflexivity|]. split; [reflexivity|]. split; reflexivity. Qed.

End C109.

(** ** C110 *)

Section C110.
Variable A : Type.
Variable zeros : A.
Variable solve : nat -> A.
Variable az : A -> A.

Notation stage_of := (phonon_stage A zeros solve az).

Lemma set_nth_length B (l : list B) i x : length (set_nth l i x) = length l.
Proof.
  revert i. induction l as [|y l IH]; intros [|i]; cbn; auto.
Qed.

Lemma nth_set_nth B (l : list B) i j x d :
  nth j (set_nth l i x) d =
  if Nat.eqb j i then (if Nat.ltb i (length l) then x else d) else nth j l d.
Proof.
  revert i j. induction l as [|y l IH]; intros i j.
  - cbn. destruct i, j; cbn; try reflexivity;
      match goal with |- context [Nat.eqb ?a ?b] => destruct (Nat.eqb a b) end;
      reflexivity.
  - destruct i as [|i], j as [|j]; try reflexivity.
    cbn [set_nth nth length]. rewrite IH. cbn [Nat.eqb].
    destruct (Nat.eqb j i); [|reflexivity].
    replace (Nat.ltb (S i) (S (length l))) with (Nat.ltb i (length l));
      [reflexivity|].
    destruct (Nat.ltb_spec i (length l)), (Nat.ltb_spec (S i) (S (length l)));
      lia || reflexivity.
Qed.

(** After solving at the points of a list, a point that was not done before
    has the solution if it is in the list. *)
Lemma solve_fold l : forall (p : phonons A) n i d,
  length (values p) = n -> length (done p) = n -> (i < n)%nat ->
  (forall j, In j l -> (j < n)%nat) -> NoDup l ->
  nth i (done p) true = false ->
  nth i (values (fold_left (solve_at A solve) l p)) d =
  (if in_dec Nat.eq_dec i l then solve i else nth i (values p) d).
Proof.
  induction l as [|j l IH]; intros p n i d LV LD I B ND F; [reflexivity|].
  cbn [fold_left]. inversion ND as [|? ? NI ND']; subst.
  assert (Bj : (j < length (values p))%nat) by (apply B; now left).
  destruct (Nat.eq_dec j i) as [->|ne].
  - assert (E : solve_at A solve p i =
                Phonons (set_nth (values p) i (solve i)) (set_nth (done p) i true))
      by (unfold solve_at; now rewrite F).
    rewrite E.
    assert (K : forall l (q : phonons A), ~ In i l ->
      nth i (values (fold_left (solve_at A solve) l q)) d = nth i (values q) d).
    { clear. induction l as [|k l IH]; intros q N; [reflexivity|].
      cbn [fold_left]. rewrite IH by (cbn in N; tauto).
      unfold solve_at. destruct (nth k (done q) true); [reflexivity|].
      cbn [values]. rewrite nth_set_nth.
      destruct (Nat.eqb_spec i k); [subst; cbn in N; tauto | reflexivity]. }
    rewrite K by exact NI. cbn [values].
    rewrite nth_set_nth, Nat.eqb_refl.
    destruct (Nat.ltb_spec i (length (values p))); [|lia].
    destruct (in_dec Nat.eq_dec i (i :: l)) as [_|N]; [reflexivity|].
    elim N. now left.
  - assert (S1 : length (values (solve_at A solve p j)) = length (values p))
      by (unfold solve_at; destruct (nth j (done p) true); cbn;
          rewrite ?set_nth_length; reflexivity).
    assert (S2 : length (done (solve_at A solve p j)) = length (done p))
      by (unfold solve_at; destruct (nth j (done p) true); cbn;
          rewrite ?set_nth_length; reflexivity).
    assert (S3 : nth i (done (solve_at A solve p j)) true = false).
    { unfold solve_at. destruct (nth j (done p) true); [exact F|]. cbn.
      rewrite nth_set_nth. destruct (Nat.eqb_spec i j); [congruence|exact F]. }
    assert (S4 : nth i (values (solve_at A solve p j)) d = nth i (values p) d).
    { unfold solve_at. destruct (nth j (done p) true); [reflexivity|]. cbn.
      rewrite nth_set_nth. destruct (Nat.eqb_spec i j); [congruence|reflexivity]. }
    rewrite (IH _ (length (values p)) i d S1 (eq_trans S2 LD) I); try assumption.
    + rewrite S4.
      destruct (in_dec Nat.eq_dec i l) as [Y|N];
      destruct (in_dec Nat.eq_dec i (j :: l)) as [Y2|N2]; try reflexivity;
      exfalso; [apply N2; now right | destruct Y2; [contradiction|tauto]].
    + intros k K. apply B. now right.
Qed.

Lemma init_dm_shape n g :
  length (values (init_dm A zeros solve az n g)) = n /\
  length (done (init_dm A zeros solve az n g)) = n /\
  forall i, (i < n)%nat -> nth i (done (init_dm A zeros solve az n g)) true = false.
Proof.
  unfold init_dm, allocate, solve_at. cbn [values done].
  destruct (nth g (repeat false n) true) eqn:G; cbn [values done];
  rewrite ?set_nth_length, ?repeat_length; (split; [reflexivity|]);
  (split; [reflexivity|]); intros i I; rewrite ?nth_set_nth, ?set_nth_length,
    ?repeat_length;
  assert (R : nth i (repeat false n) true = false)
    by (rewrite nth_indep with (d' := false) by (now rewrite repeat_length);
        apply nth_repeat);
  destruct (Nat.eqb_spec i g); try exact R; subst;
  destruct (Nat.ltb_spec g n); (reflexivity || lia).
Qed.

Lemma solve_all_init n g i d :
  (i < n)%nat ->
  nth i (values (solve_all A solve n (init_dm A zeros solve az n g))) d = solve i.
Proof.
  intros I. destruct (init_dm_shape n g) as (L1 & L2 & D). unfold solve_all.
  rewrite (solve_fold _ _ n i d L1 L2 I).
  - destruct (in_dec Nat.eq_dec i (seq 0 n)) as [_|N]; [reflexivity|].
    elim N. apply in_seq. lia.
  - intros j J. apply in_seq in J. lia.
  - apply seq_NoDup.
  - now apply D.
Qed.

Lemma solve_all_length n (p : phonons A) :
  length (values (solve_all A solve n p)) = length (values p).
Proof.
  unfold solve_all. generalize (seq 0 n). intros l. revert p.
  induction l as [|j l IH]; intros p; [reflexivity|]. cbn [fold_left].
  rewrite IH. unfold solve_at. destruct (nth j (done p) true); cbn;
  rewrite ?set_nth_length; reflexivity.
Qed.

(** Without --read-phonon, the phonons of the run are the solutions at every
    grid point; --write-phonon puts them in the file, otherwise the file is
    left as it was. *)
Theorem C110_solved n g write file :
  stage_of n g false write file =
  (Some (map solve (seq 0 n)),
   if write then Some (map solve (seq 0 n)) else file).
Proof.
  assert (E : values (solve_all A solve n (init_dm A zeros solve az n g))
              = map solve (seq 0 n)).
  { destruct (init_dm_shape n g) as (L1 & _ & _).
    apply nth_ext with (d := zeros) (d' := solve 0%nat).
    - now rewrite solve_all_length, L1, map_length, seq_length.
    - intros i I. rewrite solve_all_length, L1 in I.
      rewrite solve_all_init by exact I.
      rewrite map_nth with (f := solve) (d := 0%nat).
      now rewrite seq_nth by exact I. }
  unfold phonon_stage. rewrite E. now destruct write.
Qed.

(** With --read-phonon alone, the phonons are those of the file, which is left
    as it was; without the file the run is refused. *)
Theorem C110_read n g file :
  stage_of n g true false file = (file, file).
Proof. unfold phonon_stage. now destruct file. Qed.

(** What a run wrote is what a later run reads, whatever its own solver gives
    (e.g. other eigenvectors of degenerate bands). *)
Theorem C110_round_trip n g file (solve' : nat -> A) :
  phonon_stage A zeros solve' az n g true false
    (snd (stage_of n g false true file))
  = (fst (stage_of n g false true file), snd (stage_of n g false true file)).
Proof.
  rewrite C110_solved. cbn [fst snd]. unfold phonon_stage. reflexivity.
Qed.

(** With both options, the phonons of the file are lost: it is overwritten by
    the arrays that are not solved yet, and these are read back.  Everywhere
    but at Gamma they are zeros. *)
Theorem C110_read_write_refuted n g file i d :
  exists v, stage_of n g true true file = (Some v, Some v) /\
    ((i < n)%nat -> i <> g -> nth i v d = zeros).
Proof.
  eexists. split; [unfold phonon_stage; reflexivity|]. intros I N.
  unfold init_dm, allocate, solve_at. cbn [values done].
  destruct (nth g (repeat false n) true); cbn [values];
  rewrite ?nth_set_nth; destruct (Nat.eqb_spec i g); try contradiction;
  rewrite nth_indep with (d' := zeros) by (now rewrite repeat_length);
  apply nth_repeat.
Qed.

(** The frequencies at Gamma that the program announces as "forced to be zero"
    are the solved ones in the phonons of the run. *)
Theorem C110_forced_zero_refuted n g write file v :
  fst (stage_of n g false write file) = Some v -> (g < n)%nat ->
  forall d, nth g v d = solve g.
Proof.
  rewrite C110_solved. cbn [fst]. intros E I d. injection E as <-.
  rewrite nth_indep with (d' := solve 0%nat)
    by (now rewrite map_length, seq_length).
  rewrite map_nth with (f := solve) (d := 0%nat). now rewrite seq_nth by exact I.
Qed.

End C110.

Local Open Scope nat_scope.
Example C110_example :
  phonon_stage nat 0 (fun i => 10 + i) (fun _ => 0) 3 0 false true (Some [7; 7; 7])
  = (Some [10; 11; 12], Some [10; 11; 12])
  /\ phonon_stage nat 0 (fun i => 10 + i) (fun _ => 0) 3 0 true true (Some [7; 7; 7])
     = (Some [0; 0; 0], Some [0; 0; 0])
  /\ phonon_stage nat 0 (fun i => 10 + i) (fun _ => 0) 3 0 true false (Some [7; 7; 7])
     = (Some [7; 7; 7], Some [7; 7; 7]).
Proof. split; [reflexivity|]. split; reflexivity. Qed.

Print Assumptions C108_only_requested.
Print Assumptions C108_at_most_one.
Print Assumptions C108_single_request.
Print Assumptions C108_refused.
Print Assumptions C108_spf_refuted.
Print Assumptions C108_write_phonon_refuted.
Print Assumptions C108_br_lbte_refuted.
Print Assumptions C108_gruneisen_jdos_refuted.
Print Assumptions C108_displacements.
Print Assumptions C108_isotope_refuted.
Print Assumptions C108_grid_points_refuted.
Print Assumptions C109_temperatures.
Print Assumptions C109_tmax_included.
Print Assumptions C109_tmax_refuted.
Print Assumptions C109_spectra_refuted.
Print Assumptions C109_ts.
Print Assumptions C109_sigmas.
Print Assumptions C109_sampling.
Print Assumptions C109_isotope_cutoff_refuted.
Print Assumptions C110_solved.
Print Assumptions C110_read.
Print Assumptions C110_round_trip.
Print Assumptions C110_read_write_refuted.
Print Assumptions C110_forced_zero_refuted.
