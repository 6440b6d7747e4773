(** Displacements generated with the options given: datasets for fc3 and fc2, seeds, and the files of the command. *)
From Coq Require Import ZArith QArith List Bool Lia.
From Verif Require Import Base BaseProofs GenModel.
Import ListNotations.
Open Scope Z_scope.

(** ** What the documentation says *)
Definition valid_seed (n : Z) : Prop := 0 <= n /\ n < 4294967296.
(** random displacements are asked for: [n] of them, or "auto": twice the number needed for the cell that is displaced *)
Inductive wants (needed : Z) : snapshots -> Z -> Prop :=
| wants_number n : 0 < n -> wants needed (Snapshots n) n
| wants_auto : wants needed AutoSnapshots (2 * needed).
Inductive wants_none : snapshots -> Prop :=
| none_given : wants_none NoSnapshots
| none_number n : n <= 0 -> wants_none (Snapshots n).
(** distance given or 0.03 *)
Inductive distance_of : option Q -> Q -> Prop := distance_given d : distance_of (Some d) d | distance_default : distance_of None (3 # 100)%Q.
(** both signs of random displacements only if asked for explicitly *)
Definition both_signs (p : plusminus) (b : bool) : Prop := b = true <-> p = PM_true.
(** the source of random numbers, and the seed recorded *)
Inductive source_of {E} (e : E) : option Z -> option Z -> source E -> Prop :=
| seeded n : valid_seed n -> source_of e (Some n) (Some n) (Seed n)
| unseeded given : (forall n, given = Some n -> ~ valid_seed n) -> source_of e given None (System e).

Section Props.
Context {C S R D3 D2 E : Type}.
Variable T : tools C S R D3 D2 E.
Notation obj := (object C S R D3 D2).

Definition random_data {D} (e : E) (cell : C) (n : Z) (o : options) (d : dataset R D) : Prop :=
  exists seed_ src dist b, source_of e (seed o) seed_ src /\ distance_of (distance o) dist /\ both_signs (pm o) b /\
    d = Random seed_ (random T n (natom T cell) dist src b (max_distance o)).
Lemma distance_ok : forall o, distance_of (distance o) (the_distance o).
Proof. intros o. unfold the_distance. destruct (distance o); constructor. Qed.
Lemma random_ok : forall D e cell n o, @random_data D e cell n o (generate_random T e n (natom T cell) (the_distance o) (is_true (pm o)) (seed o) (max_distance o)).
Proof.
  intros D e cell n o. unfold random_data, generate_random. destruct (seed o) as [z|] eqn:Z0.
  - destruct ((0 <=? z) && (z <? 2 ^ 32)) eqn:V.
    + exists (Some z), (Seed z), (the_distance o), (is_true (pm o)). apply andb_prop in V. destruct V as [V1 V2]. apply Z.leb_le in V1. apply Z.ltb_lt in V2.
      repeat split; try (now constructor); try apply distance_ok; destruct (pm o); cbn; congruence.
    + exists None, (System e), (the_distance o), (is_true (pm o)). split.
      * constructor. intros k K [V1 V2]. injection K as <-. apply andb_false_iff in V. destruct V as [V|V]; [apply Z.leb_gt in V; lia|apply Z.ltb_ge in V; lia].
      * repeat split; try apply distance_ok; destruct (pm o); cbn; congruence.
  - exists None, (System e), (the_distance o), (is_true (pm o)). split; [constructor; discriminate|]. repeat split; try apply distance_ok; destruct (pm o); cbn; congruence.
Qed.

(** ** fc3 *)
Theorem C132_fc3_random : forall e o (s : obj) n, wants (estimate T (supercell s) (symmetry s) (cutoff o) 3) (number o) n ->
  exists d, data3 (generate_displacements T e o s) = Some d /\ random_data e (supercell s) n o d.
Proof.
  intros e o s n W. eexists. split; [unfold generate_displacements; destruct (has_matrix s), (data2 s); reflexivity|].
  inversion W as [k K E1 E2|E1 E2]; cbn [at_random].
  - rewrite (proj2 (Z.ltb_lt 0 n) K). apply random_ok.
  - rewrite Z.mul_comm. apply random_ok.
Qed.
Theorem C132_fc3_systematic : forall e o (s : obj), wants_none (number o) ->
  exists d, data3 (generate_displacements T e o s) = Some (Systematic d) /\
    exists dist, distance_of (distance o) dist /\ d = systematic3 T (supercell s) (symmetry s) (pm o) (diagonal o) dist (cutoff o).
Proof.
  intros e o s W. eexists. split; [|exists (the_distance o); split; [apply distance_ok|reflexivity]].
  unfold generate_displacements. inversion W as [E1|k K E1]; cbn [at_random]; try rewrite (proj2 (Z.ltb_ge 0 k) K); destruct (has_matrix s), (data2 s); reflexivity.
Qed.
(** Displacements for fc2: those that exist stay; without a phonon supercell matrix none are made; otherwise systematic ones with the
    same distance and signs are made, also if those of fc3 are random. *)
Theorem C132_fc2_beside : forall e o (s : obj), let s' := generate_displacements T e o s in
  (data2 s <> None \/ has_matrix s = false -> data2 s' = data2 s) /\
  (data2 s = None -> has_matrix s = true -> exists dist, distance_of (distance o) dist /\
     data2 s' = Some (Systematic (systematic2 T (phonon_supercell s) (phonon_symmetry s) (pm o) false dist))) /\
  supercell s' = supercell s /\ symmetry s' = symmetry s /\ phonon_supercell s' = phonon_supercell s /\ phonon_symmetry s' = phonon_symmetry s /\ has_matrix s' = has_matrix s.
Proof.
  intros e o s s'. unfold s', generate_displacements. split; [|split].
  - intros [H|H]; destruct (has_matrix s), (data2 s); cbn; congruence.
  - intros -> ->. exists (the_distance o). split; [apply distance_ok|reflexivity].
  - destruct (has_matrix s), (data2 s); repeat split; reflexivity.
Qed.

(** ** fc2 *)
Theorem C132_fc2_random : forall e o (s : obj) n, number o = Snapshots n -> 0 < n ->
  exists d, data2 (generate_fc2_displacements T e o s) = Some d /\ random_data e (phonon_supercell s) n o d.
Proof.
  intros e o s n N P. eexists. split; [reflexivity|]. rewrite N. cbn [at_random]. rewrite (proj2 (Z.ltb_lt 0 n) P). apply random_ok.
Qed.
Theorem C132_fc2_systematic : forall e o (s : obj), wants_none (number o) ->
  exists dist, distance_of (distance o) dist /\ data2 (generate_fc2_displacements T e o s) = Some (Systematic (systematic2 T (phonon_supercell s) (phonon_symmetry s) (pm o) (diagonal o) dist)).
Proof.
  intros e o s W. exists (the_distance o). split; [apply distance_ok|]. unfold generate_fc2_displacements. cbn [data2].
  inversion W as [E1|k K E1]; cbn [at_random]; try rewrite (proj2 (Z.ltb_ge 0 k) K); reflexivity.
Qed.
Theorem C132_fc2_only : forall e o (s : obj), let s' := generate_fc2_displacements T e o s in data3 s' = data3 s /\ supercells T s' = supercells T s /\ has_matrix s' = has_matrix s.
Proof. intros. repeat split; reflexivity. Qed.
(** "auto" for fc2 with the same cell for fc2 and fc3: as documented. *)
Theorem C132_fc2_auto_partial : forall e o (s : obj) n, phonon_supercell s = supercell s -> phonon_symmetry s = symmetry s ->
  wants (estimate T (phonon_supercell s) (phonon_symmetry s) None 2) (number o) n ->
  exists d, data2 (generate_fc2_displacements T e o s) = Some d /\ random_data e (phonon_supercell s) n o d.
Proof.
  intros e o s n H1 H2 W. eexists. split; [reflexivity|]. rewrite H1, H2 in *.
  inversion W as [k K E1 E2|E1 E2]; cbn [at_random].
  - rewrite (proj2 (Z.ltb_lt 0 n) K). apply random_ok.
  - rewrite Z.mul_comm. apply random_ok.
Qed.

(** ** Seeds *)
(** The seed recorded in the dataset gives the same dataset again, whatever the state of the system; a valid seed is recorded. *)
Theorem C132_reproducible : forall e e' o (s s' : obj) z rows, data3 (generate_displacements T e o s) = Some (Random (Some z) rows) ->
  supercell s' = supercell s -> symmetry s' = symmetry s ->
  data3 (generate_displacements T e' (Options (distance o) (cutoff o) (pm o) (diagonal o) (number o) (Some z) (max_distance o)) s') = Some (Random (Some z) rows).
Proof.
  intros e e' o s s' z rows H E1 E2.
  assert (G : data3 (generate_displacements T e o s) = Some (if at_random (number o) then
      generate_random T e (match number o with Snapshots n => n | _ => estimate T (supercell s) (symmetry s) (cutoff o) 3 * 2 end) (natom T (supercell s)) (the_distance o) (is_true (pm o)) (seed o) (max_distance o)
    else Systematic (systematic3 T (supercell s) (symmetry s) (pm o) (diagonal o) (the_distance o) (cutoff o)))) by (unfold generate_displacements; destruct (has_matrix s), (data2 s); reflexivity).
  rewrite G in H. destruct (at_random (number o)) eqn:A; [|discriminate H].
  unfold generate_random in H. assert (Z1 : match seed o with Some n => if (0 <=? n) && (n <? 2 ^ 32) then Some n else None | None => None end = Some z) by congruence.
  rewrite Z1 in H. assert (V : (0 <=? z) && (z <? 2 ^ 32) = true) by (destruct (seed o) as [k|]; [|discriminate]; destruct ((0 <=? k) && (k <? 2 ^ 32)) eqn:B; congruence).
  transitivity (Some (generate_random (D := D3) T e' (match number o with Snapshots n => n | _ => estimate T (supercell s) (symmetry s) (cutoff o) 3 * 2 end) (natom T (supercell s)) (the_distance o) (is_true (pm o)) (Some z) (max_distance o))).
  - unfold generate_displacements. cbn [number seed cutoff]. rewrite A, E1, E2. destruct (has_matrix s'), (data2 s'); reflexivity.
  - unfold generate_random. rewrite V. exact H.
Qed.
Theorem C132_seed_recorded : forall e o (s : obj) z, at_random (number o) = true -> seed o = Some z -> valid_seed z ->
  exists rows, data3 (generate_displacements T e o s) = Some (Random (Some z) rows) /\ forall e', data3 (generate_displacements T e' o s) = Some (Random (Some z) rows).
Proof.
  intros e o s z A Sz [V1 V2]. assert (G : forall e, data3 (generate_displacements T e o s) = Some (Random (Some z) (random T (match number o with Snapshots n => n | _ => estimate T (supercell s) (symmetry s) (cutoff o) 3 * 2 end) (natom T (supercell s)) (the_distance o) (Seed z) (is_true (pm o)) (max_distance o)))).
  { intros e0. transitivity (Some (generate_random (D := D3) T e0 (match number o with Snapshots n => n | _ => estimate T (supercell s) (symmetry s) (cutoff o) 3 * 2 end) (natom T (supercell s)) (the_distance o) (is_true (pm o)) (seed o) (max_distance o))).
    - unfold generate_displacements. rewrite A. destruct (has_matrix s), (data2 s); reflexivity.
    - unfold generate_random. rewrite Sz. change (2 ^ 32) with 4294967296. rewrite (proj2 (Z.leb_le 0 z) V1), (proj2 (Z.ltb_lt z 4294967296) V2). reflexivity. }
  eexists. split; [apply G|exact G].
Qed.

(** ** The command *)
(** Displacements for fc3 are made with the options of the command, the distance being that given or the default of the interface. *)
Theorem C132_command_fc3 : forall e e' default x (s : obj), let d := match s_distance x with Some d => d | None => default end in
  data3 (command_generate T e e' default x s) = data3 (generate_displacements T e (Options (Some d) (s_cutoff x) (s_pm x) (s_diagonal x) (s_random x) (s_seed x) None) s).
Proof. intros e e' default x s d. unfold command_generate, d. destruct (s_distance x), (truthy (s_random_fc2 x) || matrix_setting x); reflexivity. Qed.
(** Displacements for fc2 are made with the options for fc2 if the matrix is an option or tag, or random ones for fc2 are asked for. *)
Theorem C132_command_fc2 : forall e e' default x (s : obj), (exists n, s_random_fc2 x = Snapshots n /\ n <> 0) \/ s_random_fc2 x = AutoSnapshots \/ matrix_setting x = true ->
  let d := match s_distance x with Some d => d | None => default end in
  data2 (command_generate T e e' default x s) = data2 (generate_fc2_displacements T e' (Options (Some d) None (s_pm_fc2 x) false (s_random_fc2 x) (s_seed x) None) s).
Proof.
  intros e e' default x s H d. unfold command_generate. assert (B : truthy (s_random_fc2 x) || matrix_setting x = true) by (destruct H as [[n [-> Hn]]|[-> | ->]]; cbn [truthy]; [now rewrite (proj2 (Z.eqb_neq n 0) Hn)|reflexivity|apply orb_true_r]).
  rewrite B. unfold d, generate_displacements. destruct (s_distance x), (has_matrix s), (data2 s); reflexivity.
Qed.
(** Supercells: those of fc3 are displaced supercells, those of fc2 displaced phonon supercells, one for each set of random
    displacements in their order *)
Theorem C132_cells : forall (s : obj),
  (forall z rows, data3 s = Some (Random z rows) -> length (supercells T s) = length rows /\
     forall i r, nth_error rows i = Some r -> nth_error (supercells T s) i = Some (Some (displaced T (supercell s) r))) /\
  (forall d, data3 s = Some (Systematic d) -> supercells T s = cells3 T (supercell s) d) /\ (data3 s = None -> supercells T s = []).
Proof.
  intros s. unfold supercells. split; [|split]; intros *; intro H; rewrite H; try reflexivity.
  split; [apply map_length|]. intros i r Hr. exact (map_nth_error (fun r => Some (displaced T (supercell s) r)) i rows Hr).
Qed.
Theorem C132_cells_fc2 : forall (s : obj),
  (forall z rows, data2 s = Some (Random z rows) -> exists l, phonon_supercells T s = Some l /\ length l = length rows /\
     forall i r, nth_error rows i = Some r -> nth_error l i = Some (displaced T (phonon_supercell s) r)) /\
  (forall d, data2 s = Some (Systematic d) -> phonon_supercells T s = Some (cells2 T (phonon_supercell s) d)) /\ (data2 s = None -> phonon_supercells T s = None).
Proof.
  intros s. unfold phonon_supercells. split; [|split]; intros *; intro H; rewrite H; try reflexivity.
  eexists. split; [reflexivity|]. split; [apply map_length|]. intros i r Hr. exact (map_nth_error (displaced T (phonon_supercell s)) i rows Hr).
Qed.
(** The seed recorded for fc2 gives the same displacements again *)
Theorem C132_fc2_reproducible : forall e e' o (s s' : obj) z rows, data2 (generate_fc2_displacements T e o s) = Some (Random (Some z) rows) ->
  supercell s' = supercell s -> symmetry s' = symmetry s -> phonon_supercell s' = phonon_supercell s ->
  data2 (generate_fc2_displacements T e' (Options (distance o) (cutoff o) (pm o) (diagonal o) (number o) (Some z) (max_distance o)) s') = Some (Random (Some z) rows).
Proof.
  intros e e' o s s' z rows H E1 E2 E3. unfold generate_fc2_displacements in *. cbn [data2 number seed distance pm max_distance diagonal] in *. rewrite E1, E2, E3.
  destruct (at_random (number o)); [|discriminate H]. unfold generate_random in *.
  assert (Z1 : match seed o with Some n => if (0 <=? n) && (n <? 2 ^ 32) then Some n else None | None => None end = Some z) by congruence.
  rewrite Z1 in H. assert (V : (0 <=? z) && (z <? 2 ^ 32) = true) by (destruct (seed o) as [k|]; [|discriminate]; destruct ((0 <=? k) && (k <? 2 ^ 32)) eqn:B; congruence).
  rewrite V. exact H.
Qed.
(** Files are always written, and the files of fc3 are those of the supercells that exist, with the number of their place, each once. *)
Lemma in_enumerate : forall (l : list (option C)) i c, In (i, c) (enumerate l) <-> 1 <= i /\ nth_error l (Z.to_nat (i - 1)) = Some (Some c).
Proof.
  intros l i c. unfold enumerate. rewrite in_flat_map.
  assert (N : forall k x, In (k, x) (combine (zrange (Z.of_nat (length l))) l) <-> 0 <= k /\ nth_error l (Z.to_nat k) = Some x).
  { assert (G : forall (m : list (option C)) a k x, In (k, x) (combine (map (fun j => Z.of_nat j) (seq a (length m))) m) <-> Z.of_nat a <= k /\ nth_error m (Z.to_nat k - a) = Some x).
    { induction m as [|y m IH]; intros a k x; cbn [length seq map combine In].
      - split; [tauto|]. intros [_ K]. destruct (Z.to_nat k - a)%nat; discriminate K.
      - rewrite (IH (Datatypes.S a)). split.
        + intros [K|[K1 K2]].
          * injection K as <- <-. split; [lia|]. rewrite Nat2Z.id, Nat.sub_diag. reflexivity.
          * split; [lia|]. replace (Z.to_nat k - a)%nat with (Datatypes.S (Z.to_nat k - Datatypes.S a)) by lia. exact K2.
        + intros [K1 K2]. destruct (Z.eq_dec k (Z.of_nat a)) as [->|K3].
          * left. rewrite Nat2Z.id, Nat.sub_diag in K2. cbn in K2. congruence.
          * right. split; [lia|]. replace (Z.to_nat k - a)%nat with (Datatypes.S (Z.to_nat k - Datatypes.S a)) in K2 by lia. exact K2. }
    intros k x. assert (Z0 : zrange (Z.of_nat (length l)) = map (fun j => Z.of_nat j) (seq 0 (length l))) by (unfold zrange; rewrite Nat2Z.id; reflexivity).
    rewrite Z0, (G l 0%nat k x), Nat.sub_0_r. reflexivity. }
  split.
  - intros [[k x] [K1 K2]]. cbn [fst snd] in K2. destruct x as [y|]; [|destruct K2]. destruct K2 as [K2|[]]. injection K2 as <- <-. apply N in K1. destruct K1 as [K1 K3].
    replace (k + 1 - 1) with k by lia. split; [lia|exact K3].
  - intros [K1 K2]. exists (i - 1, Some c). split; [apply N; split; [lia|exact K2]|]. left. cbn. f_equal. lia.
Qed.
Lemma fst_enumerate_nodup : forall (l : list (option C)), NoDup (map fst (enumerate l)).
Proof.
  intros l. unfold enumerate. assert (G : forall (m : list (option C)) (ks : list Z), NoDup ks -> NoDup (map fst (flat_map (fun p : Z * option C => match snd p with Some c => [(fst p + 1, c)] | None => [] end) (combine ks m))) /\
      forall z, In z (map fst (flat_map (fun p : Z * option C => match snd p with Some c => [(fst p + 1, c)] | None => [] end) (combine ks m))) -> In (z - 1) ks).
  { induction m as [|y m IH]; intros ks N; destruct ks as [|k ks]; cbn [combine flat_map map]; try (split; [constructor|intros z []]).
    inversion N as [|? ? N1 N2]; subst. destruct (IH ks N2) as [A B]. destruct y as [y|]; cbn [snd fst app map].
    - split; [constructor; [intros K; apply B in K; replace (k + 1 - 1) with k in K by lia; tauto|exact A]|].
      intros z [<-|K]; [left; lia|right; now apply B].
    - split; [exact A|intros z K; right; now apply B]. }
  apply (proj1 (G l (zrange (Z.of_nat (length l))) (NoDup_zrange _))).
Qed.
Theorem C132_files : forall e e' default x (s : obj), data3 s = None -> data2 s = None ->
  let s' := command_generate T e e' default x s in
  exists f3 f2, command_files T s' = Some (f3, f2) /\
    NoDup (map fst f3) /\ (forall i c, In (i, c) f3 <-> 1 <= i /\ nth_error (supercells T s') (Z.to_nat (i - 1)) = Some (Some c)) /\
    (has_matrix s = false -> f2 = None) /\
    (has_matrix s = true -> exists l g2, f2 = Some g2 /\ phonon_supercells T s' = Some l /\ NoDup (map fst g2) /\ forall i c, In (i, c) g2 <-> 1 <= i /\ nth_error l (Z.to_nat (i - 1)) = Some c).
Proof.
  intros e e' default x s N3 N2 s'. assert (M : has_matrix s' = has_matrix s) by (unfold s', command_generate; destruct (truthy (s_random_fc2 x) || matrix_setting x); cbn [has_matrix generate_fc2_displacements]; apply (proj2 (proj2 (C132_fc2_beside e _ s)))).
  unfold command_files. rewrite M. destruct (has_matrix s) eqn:Hm.
  - assert (D : data2 s' <> None).
    { unfold s', command_generate. destruct (truthy (s_random_fc2 x) || matrix_setting x); [cbn; discriminate|].
      destruct (proj1 (proj2 (C132_fc2_beside e (Options (Some (match s_distance x with None => default | Some d => d end)) (s_cutoff x) (s_pm x) (s_diagonal x) (s_random x) (s_seed x) None) s)) N2 Hm) as [dist [_ K]]. rewrite K. discriminate. }
    destruct (phonon_supercells T s') as [l|] eqn:P; [|unfold phonon_supercells in P; destruct (data2 s') as [[?|?]|]; congruence].
    exists (enumerate (supercells T s')), (Some (enumerate (map Some l))). split; [reflexivity|]. split; [apply fst_enumerate_nodup|]. split; [apply in_enumerate|]. split; [discriminate|].
    intros _. exists l, (enumerate (map Some l)). split; [reflexivity|]. split; [reflexivity|]. split; [apply fst_enumerate_nodup|].
    intros i c. rewrite in_enumerate, nth_error_map. destruct (nth_error l (Z.to_nat (i - 1))); cbn; intuition congruence.
  - exists (enumerate (supercells T s')), None. split; [reflexivity|]. split; [apply fst_enumerate_nodup|]. split; [apply in_enumerate|]. split; [reflexivity|discriminate].
Qed.
(** Random displacements for fc2 without a phonon supercell matrix: the dataset for fc2 is made, its supercells are not written. *)
Theorem C132_rd_fc2_files_refuted : forall e e' default x (s : obj) n, has_matrix s = false -> s_random_fc2 x = Snapshots n -> 0 < n ->
  let s' := command_generate T e e' default x s in (exists l, phonon_supercells T s' = Some l) /\ exists f3, command_files T s' = Some (f3, None).
Proof.
  intros e e' default x s n Hm Hn Hp s'. assert (B : truthy (s_random_fc2 x) || matrix_setting x = true) by (rewrite Hn; cbn [truthy]; rewrite (proj2 (Z.eqb_neq n 0)) by lia; reflexivity).
  split.
  - unfold s', command_generate. rewrite B, Hn. unfold phonon_supercells. cbn [data2 generate_fc2_displacements number at_random]. rewrite (proj2 (Z.ltb_lt 0 n) Hp). unfold generate_random. eexists. reflexivity.
  - assert (M : has_matrix s' = false) by (unfold s', command_generate; rewrite B; cbn [has_matrix generate_fc2_displacements]; rewrite (proj2 (proj2 (proj2 (proj2 (proj2 (proj2 (C132_fc2_beside e _ s))))))); exact Hm).
    unfold command_files. rewrite M. eexists. reflexivity.
Qed.
(** A phonon supercell matrix found in phono3py.yaml only: the signs of displacements for fc2 are those asked for fc3, the option for
    fc2 has no effect. *)
Theorem C132_yaml_matrix_refuted : forall e e' default x p (s : obj), has_matrix s = true -> data2 s = None -> matrix_setting x = false -> s_random_fc2 x = NoSnapshots ->
  exists dist, data2 (command_generate T e e' default x s) = Some (Systematic (systematic2 T (phonon_supercell s) (phonon_symmetry s) (s_pm x) false dist)) /\
  data2 (command_generate T e e' default (Settings (s_distance x) (s_cutoff x) (s_pm x) (s_diagonal x) (s_random x) (s_seed x) p (s_random_fc2 x) (matrix_setting x)) s) = data2 (command_generate T e e' default x s).
Proof.
  intros e e' default x p s Hm N2 Ms Hr. unfold command_generate. cbn [s_random_fc2 matrix_setting s_distance s_cutoff s_pm s_diagonal s_random s_seed s_pm_fc2]. rewrite Hr, Ms. cbn [truthy orb].
  destruct (proj1 (proj2 (C132_fc2_beside e (Options (Some (match s_distance x with None => default | Some d => d end)) (s_cutoff x) (s_pm x) (s_diagonal x) (s_random x) (s_seed x) None) s)) N2 Hm) as [dist [_ K]].
  exists dist. split; [exact K|reflexivity].
Qed.
End Props.

(** ** A case: cells are numbers of atoms, displacements lists of numbers *)
Definition toy : tools Z Z (list Z) (list (option Z)) (list Z) Z :=
  {| natom := fun c => c;
     random := fun n a _ src pm _ => let z := match src with Seed z => z | System e => e end in
       let rows := map (fun i => map (fun j => (z + 7 * i + j) mod 5) (zrange a)) (zrange n) in if pm then rows ++ map (map Z.opp) rows else rows;
     systematic3 := fun c _ pm _ _ cut => [Some c; match cut with None => Some (c + 1) | Some _ => None end; Some (match pm with PM_true => c + 2 | _ => c + 3 end)];
     systematic2 := fun c _ pm _ _ => match pm with PM_true => [c; c] | _ => [c] end;
     estimate := fun c _ cut order => c * order - match cut with None => 0 | Some _ => 1 end;
     cells3 := fun _ d => d; cells2 := fun _ d => d; displaced := fun c r => c + fold_right Z.add 0 r |}.
Definition toy_object : object Z Z (list Z) (list (option Z)) (list Z) := Object 2 0 8 0 true None None.
Definition plain_settings : settings := Settings None (Some (4 # 1)%Q) PM_auto false NoSnapshots None PM_true NoSnapshots true.
Example C132_ex : let s := command_generate toy 5 6 (1 # 100)%Q plain_settings toy_object in
  command_files toy s = Some ([(1, 2); (3, 5)], Some [(1, 8); (2, 8)]) /\ data3 toy_object = None /\ data2 toy_object = None /\ truthy (s_random_fc2 plain_settings) = false.
Proof. repeat split; vm_compute; reflexivity. Qed.
Example C132_seed_ex : let o := Options None None PM_true false (Snapshots 2) (Some 3) None in valid_seed 3 /\
  data3 (generate_displacements toy 77 o toy_object) = Some (Random (Some 3) [[3; 4]; [0; 1]; [-3; -4]; [0; -1]]) /\ wants 6 (number o) 2 /\ wants 6 AutoSnapshots 12.
Proof. split; [unfold valid_seed; lia|]. split; [vm_compute; reflexivity|]. split; constructor; lia. Qed.
(** "auto" for fc2: the number is that of the supercell of fc3. *)
Theorem C132_fc2_auto_refuted : exists e o (s : object Z Z (list Z) (list (option Z)) (list Z)) n, wants (estimate toy (phonon_supercell s) (phonon_symmetry s) None 2) (number o) n /\
  forall d, data2 (generate_fc2_displacements toy e o s) = Some d -> ~ random_data toy e (phonon_supercell s) n o d.
Proof.
  exists 0, (Options None None PM_false false AutoSnapshots (Some 3) None), toy_object, 32. split; [constructor|].
  intros d Hd [sd [src [dist [b [_ [_ [_ K]]]]]]]. subst d. cbn in Hd. injection Hd as _ K.
  apply (f_equal (@length _)) in K. revert K. destruct b; vm_compute; discriminate.
Qed.
(** A seed that numpy does not accept is dropped without a message: two runs with it differ. *)
Theorem C132_seed_refuted : exists o (s : object Z Z (list Z) (list (option Z)) (list Z)) e e' rows rows', seed o = Some 4294967296 /\
  data3 (generate_displacements toy e o s) = Some (Random None rows) /\ data3 (generate_displacements toy e' o s) = Some (Random None rows') /\ rows <> rows'.
Proof.
  exists (Options None None PM_false false (Snapshots 1) (Some 4294967296) None), toy_object, 0, 1. eexists. eexists. split; [reflexivity|]. split; [vm_compute; reflexivity|]. split; [vm_compute; reflexivity|]. discriminate.
Qed.

(** random displacements of both cells with a seed, and their supercells *)
Example C132_cells_ex : let o := Options None None PM_false false (Snapshots 2) (Some 3) None in let s := generate_fc2_displacements toy 5 o (generate_displacements toy 5 o (Object 2 0 3 0 true None None)) in
  supercells toy s = [Some 9; Some 3] /\ phonon_supercells toy s = Some [10; 6] /\ data2 s = Some (Random (Some 3) [[3; 4; 0]; [0; 1; 2]]).
Proof. vm_compute. auto. Qed.
Print Assumptions C132_cells.
Print Assumptions C132_cells_fc2.
Print Assumptions C132_fc2_reproducible.
Print Assumptions C132_fc3_random.
Print Assumptions C132_fc3_systematic.
Print Assumptions C132_fc2_beside.
Print Assumptions C132_fc2_random.
Print Assumptions C132_fc2_systematic.
Print Assumptions C132_fc2_only.
Print Assumptions C132_fc2_auto_partial.
Print Assumptions C132_reproducible.
Print Assumptions C132_seed_recorded.
Print Assumptions C132_command_fc3.
Print Assumptions C132_command_fc2.
Print Assumptions C132_files.
Print Assumptions C132_rd_fc2_files_refuted.
Print Assumptions C132_yaml_matrix_refuted.
Print Assumptions C132_fc2_auto_refuted.
Print Assumptions C132_seed_refuted.
