(** C105: the files fc3.hdf5 and fc2.hdf5 in the runs of the commands phono3py-load (_store_force_constants) and phono3py
    (create_phono3py_force_constants). *)
From Coq Require Import String.
From Coq Require Import ZArith QArith List Bool Lia.
From Verif Require Import Base DsModel ForcesModel LoadModel LoadProps.
Import ListNotations.
Open Scope Z_scope.

Lemma put_same {X} (disk : string -> option X) n x : put disk n x n = Some x.
Proof. unfold put. rewrite String.eqb_refl. reflexivity. Qed.
Lemma put_other {X} (disk : string -> option X) n x m : m <> n -> put disk n x m = disk m.
Proof. intros H. unfold put. destruct (String.eqb m n) eqn:E; [|reflexivity]. apply String.eqb_eq in E. contradiction. Qed.

Section Store.
Variable F : Type.
Variable cols : F -> Z.
Variable compact : F -> bool.
Variable solve3 : dset -> F * F.
Variable solve2 : dset -> F.
Variable cut : Q -> F -> F.
Variable indices_ok : bool -> list Z -> list Z -> bool.
Variable natom natom2 : Z.
Variable p2s p2s2 : list Z.
Variable units : Z -> option Q * option Q.
Notation run := (run_load F cols compact solve3 solve2 cut indices_ok natom natom2 p2s p2s2 units).
Notation store := (store_force_constants F cols compact solve3 solve2 cut indices_ok natom natom2 p2s p2s2).
Notation create := (create_force_constants F cols compact solve3 solve2 cut indices_ok natom natom2 p2s p2s2 units).
Notation stored3 := (stored_as F cols compact indices_ok).

(** zeros beyond the distance asked for *)
Definition beyond (c : option Q) (f : F) : F := match c with Some c => if negb (Qle_bool c 0) then cut c f else f | None => f end.

(** ** C105: phono3py-load takes fc3 (fc2) from fc3.hdf5 (fc2.hdf5) whenever the file is there, else from the dataset with forces; it ends
    with both or not at all; afterwards the two files hold what is used in the run, other files are as before *)
Theorem C105_store : forall fl y cp c calc p fl', plain (Some y) -> run fl y cp c calc = Ok (p, fl') ->
  (exists f, p_fc3 F p = Some (beyond c f) /\
     match fl_fc3 F fl "fc3.hdf5" with
     | Some _ => stored3 (fl_fc3 F fl) p2s natom "fc3.hdf5" f
     | None => exists d, p_data F p = Some d /\ has_forces d /\ f = fst (solve3 d)
     end) /\
  (exists f, p_fc2 F p = Some f /\
     match fl_fc2 F fl "fc2.hdf5" with
     | Some _ => stored3 (fl_fc2 F fl) p2s2 (if y_phonon_smat y then natom2 else natom) "fc2.hdf5" f
     | None => exists d, (if y_phonon_smat y then p_data2 F p else p_data F p) = Some d /\ has_forces d /\ f = solve2 d
     end) /\
  (exists f3 f2, p_fc3 F p = Some f3 /\ p_fc2 F p = Some f2 /\ fl_fc3 F fl' "fc3.hdf5" = Some (f3, Some p2s) /\ fl_fc2 F fl' "fc2.hdf5" = Some (f2, Some p2s)) /\
  (forall n, n <> "fc3.hdf5"%string -> fl_fc3 F fl' n = fl_fc3 F fl n) /\ (forall n, n <> "fc2.hdf5"%string -> fl_fc2 F fl' n = fl_fc2 F fl n) /\ fl_forces F fl' = fl_forces F fl.
Proof.
  intros fl y cp c calc p fl' P H. unfold run_load in H. oks. rename a into p0, E into E0.
  destruct (datasets_ok F natom natom2 units _ _ _ _ _ _ _ _ E0) as (D1 & D2 & D3 & r3 & r2 & pp & S3 & S2 & S0 & R3 & R2). cbn [p_fc3 p_fc2 p_smat2 p_data p_data2] in *.
  unfold store_force_constants in H. rewrite D1, D2 in H. oks. rename a into p1, a0 into p2, E into E1, E1 into E2.
  destruct (load_both_ok F cols compact indices_ok natom natom2 p2s p2s2 _ _ _ _ _ E1) as (L1 & L2 & L3 & L4 & L5). rewrite D1 in L4. rewrite D2 in L5. rewrite D3 in L5, L3.
  destruct (compute_ok F solve3 solve2 p1 p2 E2) as (C1 & C2 & C3 & C4 & C5 & C6 & C7).
  destruct (p_fc3 F p2) as [f3|] eqn:F3; [|discriminate]. destruct (p_fc2 F p2) as [f2|] eqn:F2; [|discriminate]. apply (f_equal (fun r => match r with Ok x => Some x | Err _ => None end)) in H. injection H as Hp Hf.
  rewrite <- Hp. cbn [p_fc3 p_fc2 p_data p_data2]. rewrite <- Hf. cbn [fl_fc3 fl_fc2 fl_forces]. split; [|split; [|split]].
  - exists f3. split; [reflexivity|]. unfold fc_name in L4. destruct (fl_fc3 F fl "fc3.hdf5") eqn:B.
    + destruct L4 as (fc & G & S). apply C4 in G. injection G as ->. exact S.
    + specialize (C6 L4). rewrite C1. exact C6.
  - exists f2. split; [reflexivity|]. unfold fc_name in L5. destruct (fl_fc2 F fl "fc2.hdf5") eqn:B.
    + destruct L5 as (fc & G & S). apply C5 in G. injection G as ->. exact S.
    + rewrite C1, C2. rewrite L3 in C7. apply (C7 L5). intros T.
      rewrite L2. assert (Y : forall y', Some y = Some y' -> p_smat2 F pp = y_phonon_smat y') by (intros y' G; injection G as <-; rewrite S0; reflexivity).
      pose proof (select2_ok F natom natom2 units _ _ _ _ _ _ P Y S2) as Q2. rewrite S0 in Q2. destruct r2 as [d|]; [|exact R2]. destruct Q2 as [Q2 _]. rewrite T in Q2. discriminate.
  - eexists. exists f2. split; [reflexivity|]. split; [reflexivity|]. rewrite !put_same. split; reflexivity.
  - split; [|split; [|reflexivity]]; intros n N; apply put_other; exact N.
Qed.
Lemma accepted : forall fl y cp calc p fl', plain (Some y) ->
  (forall b m, indices_ok b m m = true) -> (forall m m', indices_ok false m m' = true) ->
  (forall d, cols (fst (solve3 d)) = natom) -> (forall d, cols (solve2 d) = if y_phonon_smat y then natom2 else natom) ->
  run fl y cp None calc = Ok (p, fl') ->
  (forall f, p_fc2 F p = Some f -> compact f = false \/ p2s = p2s2) ->
  forall f3 f2, p_fc3 F p = Some f3 -> p_fc2 F p = Some f2 ->
    load_fc F cols compact indices_ok (fl_fc3 F fl') p2s natom "fc3.hdf5" = Ok f3 /\
    load_fc F cols compact indices_ok (fl_fc2 F fl') p2s2 (if y_phonon_smat y then natom2 else natom) "fc2.hdf5" = Ok f2.
Proof.
  intros fl y cp calc p fl' P I1 I2 K3 K2 H C f3 f2 A3 A4.
  destruct (C105_store _ _ _ _ _ _ _ P H) as ((h3 & A1 & A1') & (h2 & A2 & A2') & (g3 & g2 & B3 & B4 & A5 & A6) & _). cbn in A1.
  rewrite A3 in A1, B3. injection A1 as <-. injection B3 as <-. rewrite A4 in A2, B4. injection A2 as <-. injection B4 as <-.
  assert (cols f3 = natom) as E3.
  { destruct (fl_fc3 F fl "fc3.hdf5"); [destruct A1' as (m & _ & E & _); exact E|]. destruct A1' as (d & _ & _ & ->). apply K3. }
  assert (cols f2 = if y_phonon_smat y then natom2 else natom) as E2.
  { destruct (fl_fc2 F fl "fc2.hdf5"); [destruct A2' as (m & _ & E & _); exact E|]. destruct A2' as (d & _ & _ & ->). apply K2. }
  unfold load_fc. rewrite A5, A6, I1, E3, E2, !Z.eqb_refl. cbn. split; [reflexivity|].
  destruct (C f2 A4) as [-> | <-]; [rewrite I2|rewrite I1]; reflexivity.
Qed.

(** ** C105: a second run of phono3py-load in the same directory, without cutoff, works and goes on with the same force constants and
    leaves the files as they are, if fc2 is not compact or the primitive cells of the two supercells have the same indices *)
Theorem C105_again : forall fl y cp calc p fl', plain (Some y) ->
  (forall b m, indices_ok b m m = true) -> (forall m m', indices_ok false m m' = true) ->
  (forall d, cols (fst (solve3 d)) = natom) -> (forall d, cols (solve2 d) = if y_phonon_smat y then natom2 else natom) ->
  run fl y cp None calc = Ok (p, fl') ->
  (forall f, p_fc2 F p = Some f -> compact f = false \/ p2s = p2s2) ->
  exists p' fl'', run fl' y cp None calc = Ok (p', fl'') /\ p_fc3 F p' = p_fc3 F p /\ p_fc2 F p' = p_fc2 F p /\
    (forall n, fl_fc3 F fl'' n = fl_fc3 F fl' n) /\ (forall n, fl_fc2 F fl'' n = fl_fc2 F fl' n).
Proof.
  intros fl y cp calc p fl' P I1 I2 K3 K2 H C.
  destruct (C105_store _ _ _ _ _ _ _ P H) as (A1 & A2 & (f3 & f2 & A3 & A4 & A5 & A6) & _ & _ & A7).
  destruct (accepted _ _ _ _ _ _ P I1 I2 K3 K2 H C f3 f2 A3 A4) as [L3 L2].
  unfold run_load in H |- *. apply andthen_ok in H. destruct H as (p0 & E0 & _).
  assert (load_datasets F natom natom2 units fl' (Some y) None None cp calc (Ph3 F None None None None (y_phonon_smat y)) = Ok p0) as ->.
  { rewrite <- E0. unfold load_datasets, select_dataset, select_phonon_dataset. rewrite A7. reflexivity. }
  destruct (datasets_ok F natom natom2 units _ _ _ _ _ _ _ _ E0) as (D1 & D2 & D3 & _). cbn [p_fc3 p_fc2 p_smat2] in D1, D2, D3.
  cbn [andthen]. unfold store_force_constants, load_fc2_and_fc3, exists_file. rewrite A5, A6, D1, D2. cbn [orb andthen]. rewrite L3. cbn [andthen p_smat2]. rewrite D3, L2. cbn [andthen p_fc3 p_fc2].
  unfold compute_fc. cbn [andthen p_fc3 p_fc2]. eexists. eexists. split; [reflexivity|]. cbn [p_fc3 p_fc2 fl_fc3 fl_fc2]. rewrite A3, A4. repeat split.
  - intros n. destruct (string_dec n "fc3.hdf5") as [->|N]; [rewrite put_same, A5; reflexivity|apply put_other; exact N].
  - intros n. destruct (string_dec n "fc2.hdf5") as [->|N]; [rewrite put_same, A6; reflexivity|apply put_other; exact N].
Qed.
(** ** C105: phono3py with --fc3 --fc2 (read both) leaves the files alone; what is used is what they hold, with fc3 cut as asked *)
Theorem C105_read : forall fl s y calc p0 p fl', st_read_fc3 s = true -> st_read_fc2 s = true -> skip_fc3 s = false -> create fl s y calc p0 = Ok (p, fl') ->
  fl' = fl /\
  (exists f, p_fc3 F p = Some (beyond (st_cutoff s) f) /\ stored3 (fl_fc3 F fl) p2s natom "fc3.hdf5" f) /\
  (exists f, p_fc2 F p = Some f /\ stored3 (fl_fc2 F fl) p2s2 (if p_smat2 F p0 then natom2 else natom) "fc2.hdf5" f).
Proof.
  intros fl s y calc p0 p fl' R3 R2 K H. unfold create_force_constants in H. rewrite R3, R2, K in H.
  apply andthen_ok in H. destruct H as ([[q fq] b] & E & H). apply andthen_ok in E. destruct E as (q1 & E1 & E). apply andthen_ok in E1. destruct E1 as (f3 & E3 & E1).
  apply andthen_ok in H. destruct H as (f2 & E2 & H).
  assert (L3 : load_fc F cols compact indices_ok (fl_fc3 F fl) p2s natom "fc3.hdf5" = Ok f3) by (destruct (load_fc F cols compact indices_ok (fl_fc3 F fl) p2s natom "fc3.hdf5") as [g|[]]; cbn in E3; try discriminate; exact E3).
  apply (f_equal (fun r => match r with Ok x => Some x | Err _ => None end)) in E1. injection E1 as <-. cbn [p_fc3] in E.
  apply (f_equal (fun r => match r with Ok x => Some x | Err _ => None end)) in H. injection H as <- <-.
  assert (q = Ph3 F (Some (beyond (st_cutoff s) f3)) (p_fc2 F p0) (p_data F p0) (p_data2 F p0) (p_smat2 F p0) /\ fq = fl) as [-> ->].
  { unfold beyond. destruct (st_cutoff s) as [c|]; [destruct (Qle_bool c 0)|]; cbn [negb p_fc3 p_fc2 p_data p_data2 p_smat2] in E;
      apply (f_equal (fun r => match r with Ok x => Some x | Err _ => None end)) in E; injection E as <- <- <-; split; reflexivity. }
  cbn [p_fc3 p_fc2 p_smat2] in *. split; [reflexivity|]. split.
  - exists f3. split; [reflexivity|]. apply load_fc_ok. exact L3.
  - exists f2. split; [reflexivity|]. apply load_fc_ok.
    destruct (load_fc F cols compact indices_ok (fl_fc2 F fl) p2s2 _ "fc2.hdf5") as [g|[]]; cbn in E2; try discriminate; exact E2.
Qed.
(** ** C105: phono3py without reading computes both from forces and writes what it goes on with, fc3 after cutting, each with the indices
    of its own primitive cell *)
Theorem C105_write : forall fl s y calc sm p fl', st_read_fc3 s = false -> st_read_fc2 s = false -> skip_fc3 s = false ->
  create fl s y calc (Ph3 F None None None None sm) = Ok (p, fl') ->
  exists d, p_data F p = Some d /\
  p_fc3 F p = Some (beyond (st_cutoff s) (fst (solve3 d))) /\
  (exists e, (if sm then p_data2 F p else p_data F p) = Some e /\ has_forces e /\ p_fc2 F p = Some (solve2 e)) /\
  (exists f3 f2, p_fc3 F p = Some f3 /\ p_fc2 F p = Some f2 /\
     (forall n, fl_fc3 F fl' n = if String.eqb n "fc3.hdf5" then Some (f3, Some p2s) else fl_fc3 F fl n) /\
     (forall n, fl_fc2 F fl' n = if String.eqb n "fc2.hdf5" then Some (f2, Some p2s2) else fl_fc2 F fl n) /\ fl_forces F fl' = fl_forces F fl).
Proof.
  intros fl s y calc sm p fl' R3 R2 K H. unfold create_force_constants in H. rewrite R3, R2, K in H.
  apply andthen_ok in H. destruct H as ([[q fq] b] & E & H). apply andthen_ok in E. destruct E as (q1 & E1 & E). apply andthen_ok in E1. destruct E1 as (d0 & E3 & E1).
  apply andthen_ok in E1. destruct E1 as (d & Ed & E1). unfold produce_fc3 in E1. cbn [p_data p_fc2 p_data2 p_smat2] in E1. destruct (solve3 d) as [g3 g2] eqn:G.
  apply (f_equal (fun r => match r with Ok x => Some x | Err _ => None end)) in E1. injection E1 as <-. cbn [p_fc3 p_fc2 p_data p_data2 p_smat2] in E.
  set (f2 := if sm then None else Some g2) in E.
  assert (q = Ph3 F (Some (beyond (st_cutoff s) g3)) f2 (Some d) None sm /\ fq = Files F (put (fl_fc3 F fl) "fc3.hdf5" (beyond (st_cutoff s) g3, Some p2s)) (fl_fc2 F fl) (fl_forces F fl) /\ b = true) as (-> & -> & ->).
  { unfold beyond. destruct (st_cutoff s) as [c|]; [destruct (Qle_bool c 0)|]; cbn [negb p_fc3 p_fc2 p_data p_data2 p_smat2] in E;
      apply (f_equal (fun r => match r with Ok x => Some x | Err _ => None end)) in E; injection E as <- <- <-; auto. }
  clear E. cbn [p_fc3 p_fc2 p_data p_data2 p_smat2 orb negb fl_fc3 fl_fc2 fl_forces] in H.
  apply andthen_ok in H. destruct H as (q & E & H). apply andthen_ok in H. destruct H as (q' & Eq & H).
  assert (exists d2, q = Ph3 F (Some (beyond (st_cutoff s) g3)) f2 (Some d) d2 sm /\ (sm = false -> d2 = None) /\ (sm = true -> d2 <> None)) as (d2 & -> & N1 & N2).
  { destruct sm.
    - apply andthen_ok in E. destruct E as (e0 & _ & E). apply andthen_ok in E. destruct E as (e & _ & E). apply (f_equal (fun r => match r with Ok x => Some x | Err _ => None end)) in E. injection E as <-.
      exists (Some e). repeat split; discriminate.
    - apply (f_equal (fun r => match r with Ok x => Some x | Err _ => None end)) in E. injection E as <-. exists None. repeat split. discriminate. }
  unfold produce_fc2 in Eq. cbn [p_fc3 p_fc2 p_data p_data2 p_smat2] in Eq. apply andthen_ok in Eq. destruct Eq as (b & Eb & Eq).
  destruct (match d2 with Some d => Some d | None => Some d end) as [e|] eqn:D2; [|destruct d2; discriminate]. destruct b; [|discriminate].
  apply (f_equal (fun r => match r with Ok x => Some x | Err _ => None end)) in Eq. injection Eq as <-.
  apply (f_equal (fun r => match r with Ok x => Some x | Err _ => None end)) in H. injection H as <- <-. cbn [p_fc3 p_fc2 p_data p_data2 p_smat2 fl_fc3 fl_fc2 fl_forces].
  exists d. rewrite G. cbn [fst]. split; [reflexivity|]. split; [reflexivity|]. split.
  - exists e. split; [|split; [apply (forces_in_spec e true Eb); reflexivity|reflexivity]]. destruct sm; [destruct d2; [exact D2|exfalso; apply N2; reflexivity]|rewrite N1 in D2 by reflexivity; exact D2].
  - eexists. eexists. split; [reflexivity|]. split; [reflexivity|]. repeat split.
Qed.
(** ** C105: reading in the next run gives exactly what the run that wrote the files went on with *)
Theorem C105_read_back : forall fl s y calc (sm : bool) p fl' s' y' calc',
  (forall b m, indices_ok b m m = true) -> (forall c f, cols (cut c f) = cols f) -> (forall d, cols (fst (solve3 d)) = natom) -> (forall d, cols (solve2 d) = if sm then natom2 else natom) ->
  st_read_fc3 s = false -> st_read_fc2 s = false -> skip_fc3 s = false -> create fl s y calc (Ph3 F None None None None sm) = Ok (p, fl') ->
  st_read_fc3 s' = true -> st_read_fc2 s' = true -> skip_fc3 s' = false -> st_cutoff s' = None ->
  exists p', create fl' s' y' calc' (Ph3 F None None None None sm) = Ok (p', fl') /\ p_fc3 F p' = p_fc3 F p /\ p_fc2 F p' = p_fc2 F p.
Proof.
  intros fl s y calc sm p fl' s' y' calc' I K0 K3 K2 A1 A2 A3 H B1 B2 B3 B4.
  destruct (C105_write _ _ _ _ _ _ _ A1 A2 A3 H) as (d & D & F3 & (e & E & _ & F2) & f3 & f2 & G3 & G2 & W3 & W2 & _). rewrite F3 in G3. rewrite F2 in G2. injection G3 as <-. injection G2 as <-.
  unfold create_force_constants. rewrite B1, B2, B3, B4. unfold load_fc. rewrite W3. cbn [String.eqb Ascii.eqb Bool.eqb]. rewrite I. cbn [negb].
  assert (cols (beyond (st_cutoff s) (fst (solve3 d))) = natom) as -> by (unfold beyond; destruct (st_cutoff s) as [c|]; [destruct (negb (Qle_bool c 0)); [rewrite K0|]|]; apply K3).
  rewrite Z.eqb_refl. cbn [negb exits andthen p_fc3 p_smat2]. rewrite W2. cbn [String.eqb Ascii.eqb Bool.eqb]. rewrite I, K2, Z.eqb_refl. cbn [negb exits andthen p_fc3 p_fc2 p_data p_data2 p_smat2].
  eexists. split; [reflexivity|]. cbn [p_fc3 p_fc2]. rewrite F3, F2. split; reflexivity.
Qed.
(** ** C105, refuted: runs that do not need fc3 (joint DOS, isotopes only, gamma or interaction strengths from files) compute fc2 from forces:
    they never do, the run fails; with --fc2 they work *)
Theorem C105_no_fc3_refuted : forall fl s y calc p0, skip_fc3 s = true -> st_read_fc2 s = false -> forall r, create fl s y calc p0 <> Ok r.
Proof.
  intros fl s y calc p0 K R r H. unfold create_force_constants in H. rewrite K, R in H. cbn [andthen] in H. apply andthen_ok in H. destruct H as (q & _ & H). discriminate.
Qed.
End Store.
Print Assumptions C105_store.
Print Assumptions C105_again.
Print Assumptions C105_read.
Print Assumptions C105_write.
Print Assumptions C105_read_back.
Print Assumptions C105_no_fc3_refuted.

(** * Concrete cases (see LoadProps): cutting marks the tag; compact fc2 of the phonon supercell *)
Definition t_cut (c : Q) (t : tag) : tag := let '(d, k, n, b) := t in (d, k + 100, n, b).
Definition t_solve22 (d : dset) : tag := (d, 2, 3, true).
Definition y2 : yaml := Yaml None (Some wforces) (Some (DSet (Type2 (Some [[v 1; v 0; v 0]]) (Some [[v 3; v 0; v 0]]) None) None)) true true.
Definition t_run (p2s2 : list Z) := run_load tag t_cols t_compact t_solve3 t_solve22 t_cut t_indices 2 3 [0] p2s2 t_units.
Definition empty : files tag := Files tag none none none.
Definition fc3_of (r : res (ph3 tag * files tag)) : option Z := match r with Ok (p, _) => option_map (fun t => let '(_, k, _, _) := t in k) (p_fc3 tag p) | Err _ => None end.
Definition files_of (r : res (ph3 tag * files tag)) : files tag := match r with Ok (_, fl) => fl | Err _ => empty end.
Definition failure (r : res (ph3 tag * files tag)) : option err := match r with Ok _ => None | Err e => Some e end.

(** ** C105, refuted: --cutoff-fc3 is for one run: fc3.hdf5 that was there before is overwritten with the cut one, and later runs without the
    option use that *)
Theorem C105_cutoff_refuted :
  exists fl y c, fl_fc3 tag fl "fc3.hdf5" <> None /\
    let fl' := files_of (t_run [0] fl y None (Some c) None) in
    fl_fc3 tag fl' "fc3.hdf5" <> fl_fc3 tag fl "fc3.hdf5" /\
    fc3_of (t_run [0] fl y None None None) = Some 7 /\ fc3_of (t_run [0] fl' y None None None) = Some 107.
Proof.
  exists (Files tag (put none "fc3.hdf5" (other, None)) none none), y2, 4%Q. split; [vm_compute; discriminate|]. cbv zeta. split; [vm_compute; discriminate|]. split; vm_compute; reflexivity.
Qed.
(** ** C105, refuted: with compact force constants and two supercells the second run refuses the fc2.hdf5 of the first: it was written with the
    indices of the other primitive cell *)
Theorem C105_own_file_refuted :
  exists y p2s2, failure (t_run p2s2 empty y None None None) = None /\ failure (t_run p2s2 (files_of (t_run p2s2 empty y None None None)) y None None None) = Some RuntimeError.
Proof. exists y2, [1]. split; vm_compute; reflexivity. Qed.
Print Assumptions C105_cutoff_refuted.
Print Assumptions C105_own_file_refuted.

Definition t_create := create_force_constants tag t_cols t_compact t_solve3 t_solve22 t_cut t_indices 2 3 [0] [1] t_units.
Definition make (c : option Q) : sets := Sets false false true false false false false false false false c None.
Definition again_sets : sets := Sets false false true false false false false false true true None None.
Definition jdos (read_fc2 : bool) : sets := Sets true false false false false false false false false read_fc2 None None.
Definition new_object : ph3 tag := Ph3 tag None None None None true.
(** Cases meeting the hypotheses: two supercells with the same indices; phono3py with --cutoff-fc3, then reading; joint DOS *)
Example C105_example :
  plain (Some y2) /\ fc3_of (t_run [0] empty y2 None None None) = Some 3 /\ fc3_of (t_run [0] (files_of (t_run [0] empty y2 None None None)) y2 None None None) = Some 3 /\
  (let r := t_create empty (make (Some 4%Q)) (Some y2) None new_object in
   fc3_of r = Some 103 /\ fc3_of (t_create (files_of r) again_sets (Some y2) None new_object) = Some 103 /\
   failure (t_create (files_of r) (jdos true) (Some y2) None new_object) = None /\ failure (t_create (files_of r) (jdos false) (Some y2) None new_object) = Some UnboundLocalError).
Proof. split; [split; [reflexivity|discriminate]|]. repeat split; vm_compute; reflexivity. Qed.
