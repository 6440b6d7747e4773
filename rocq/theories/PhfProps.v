(** C136: phonons that are written are read back with the same name, whatever else is run in between. *)
From Coq Require Import ZArith List Bool Ascii String Lia.
From Verif Require Import Base NameModel NameProps PhfModel.
Import ListNotations.
Open Scope Z_scope.
Open Scope list_scope.

(** * Specification *)
(** the name for output and for input as documented: --io stands for both; phono3py-load has none of these options *)
Definition writes_as {P} (c : command P) (x : option text) : Prop :=
  (load c = true /\ x = None) \/ (load c = false /\ ((exists y, opt_io c = Some y /\ x = Some y) \/ (opt_io c = None /\ x = opt_o c))).
Definition reads_as {P} (c : command P) (x : option text) : Prop :=
  (load c = true /\ x = None) \/ (load c = false /\ ((exists y, opt_io c = Some y /\ x = Some y) \/ (opt_io c = None /\ x = opt_i c))).
Definition positive (m : Z * Z * Z) : Prop := 0 < fst (fst m) /\ 0 < snd (fst m) /\ 0 < snd m.

(** * Names *)
Lemma names : forall P (c : command P) x, writes_as c x -> snd (in_out c) = x.
Proof. intros P c x [[L ->]|[L [(y & E & ->)|[E ->]]]]; unfold in_out; rewrite L; [reflexivity|rewrite E; reflexivity|rewrite E; reflexivity]. Qed.
Lemma names_in : forall P (c : command P) x, reads_as c x -> fst (in_out c) = x.
Proof. intros P c x [[L ->]|[L [(y & E & ->)|[E ->]]]]; unfold in_out; rewrite L; [reflexivity|rewrite E; reflexivity|rewrite E; reflexivity]. Qed.

Definition digits (m : Z * Z * Z) : text := let '(a, b, c) := m in dec a ++ dec b ++ dec c.
Definition ending (x : option text) : text := match x with Some f => "."%char :: f | None => [] end ++ t ".hdf5".
Lemma file_form : forall m x, phonon_file m x = t "phonon-m" ++ digits m ++ ending x.
Proof. intros [[a b] c] x. unfold phonon_file, suffix, ending, digits. cbn [p_mesh p_gp p_bands p_sigma p_temp p_file]. rewrite !app_nil_l, <- !app_assoc. reflexivity. Qed.
Lemma digits_dig : forall m, positive m -> Forall isdig (digits m).
Proof. intros [[a b] c] (A & B & C). cbn in *. unfold digits. repeat (apply Forall_app; split); apply dec_dig; lia. Qed.
Lemma ending_stop : forall x, stops isdig (ending x).
Proof. intros [f|]; cbn; unfold isdig; cbn; lia. Qed.
Lemma ending_inj : forall x y, ending x = ending y -> x = y.
Proof.
  intros [f|] [g|] E; unfold ending in E; [| | |reflexivity].
  - apply app_inv_tail in E. congruence.
  - apply (f_equal (@List.length ascii)) in E. rewrite !app_length in E. cbn in E. lia.
  - apply (f_equal (@List.length ascii)) in E. rewrite !app_length in E. cbn in E. lia.
Qed.
(** runs with different names never share a file, whatever their meshes *)
Theorem C136_names : forall m n x y, positive m -> positive n -> x <> y -> phonon_file m x <> phonon_file n y.
Proof.
  intros m n x y Hm Hn N E. rewrite !file_form in E. apply app_inv_head in E.
  apply (split_at isdig) in E; auto using digits_dig, ending_stop. apply N, ending_inj, (proj2 E).
Qed.

(** meshes whose numbers read the same have one file: the first phonons are lost, and reading them ends the run *)
Theorem C136_mesh_refuted : forall P g h (p q a : P) x,
  let first := Command false None (Some x) None (1, 11, 1) g false true p a in
  let second := Command false None (Some x) None (11, 1, 1) h false true q a in
  let third := Command false (Some x) None None (1, 11, 1) g true false p a in
  snd (run (runs [] [first; second]) third) = None.
Proof.
  intros P g h p q a x first second third. unfold runs, run, first, second, third. cbn [in_out load opt_i opt_o opt_io read_phonon write_phonon mesh negb fst].
  unfold write, lookup. cbn [find fst]. rewrite !file_form. replace (digits (11, 1, 1)) with (digits (1, 11, 1)) by reflexivity.
  unfold text_eqb. destruct (list_eq_dec _ _ _) as [_|N]; [reflexivity|congruence].
Qed.

(** * Files over runs *)
Lemma lookup_same : forall X (d : dir X) n x, lookup (write d n x) n = Some x.
Proof. intros. unfold lookup, write. cbn [find fst]. unfold text_eqb at 1. destruct (list_eq_dec _ _ _); [reflexivity|congruence]. Qed.
Lemma lookup_other : forall X (d : dir X) m n x, m <> n -> lookup (write d m x) n = lookup d n.
Proof. intros X d m n x N. unfold lookup, write. cbn [find fst]. unfold text_eqb at 1. destruct (list_eq_dec _ _ _); [congruence|reflexivity]. Qed.
Lemma run_dir : forall P (d : dir (content P)) c,
  fst (run d c) = if write_phonon c then write d (phonon_file (mesh c) (snd (in_out c))) (Content (mesh c) (grid c) (if read_phonon c then allocated c else solved c)) else d.
Proof.
  intros P d c. unfold run. destruct (in_out c) as [i o]. cbn [snd]. destruct (read_phonon c); cbn [negb]; [|reflexivity].
  destruct (lookup _ _); reflexivity.
Qed.
Lemma accepted_same : forall g, g <> [] -> accepted g g = true.
Proof.
  intros [|[[a b] c] g] H; [congruence|]. unfold accepted. rewrite Nat.eqb_refl. cbn [combine forallb]. rewrite Z.sub_diag. reflexivity.
Qed.
Lemma mesh_same : forall m, mesh_eqb m m = true.
Proof. intros [[a b] c]. unfold mesh_eqb. rewrite !Z.eqb_refl. reflexivity. Qed.

(** phonons written by a run are those that a later run with the same name, mesh and grid goes on with, if no run in between writes with
    that name *)
Theorem C136_round_trip : forall P d (c : command P) l r x,
  write_phonon c = true -> read_phonon c = false -> writes_as c x -> positive (mesh c) ->
  (forall b, In b l -> write_phonon b = false \/ (positive (mesh b) /\ exists y, writes_as b y /\ y <> x)) ->
  read_phonon r = true -> write_phonon r = false -> reads_as r x -> mesh r = mesh c -> grid r = grid c -> grid c <> [] ->
  snd (run (runs d (c :: l)) r) = Some (solved c).
Proof.
  intros P d c l r x Wc Rc Nc Hm Hl Rr Wr Nr Em Eg Hg.
  assert (K : lookup (runs d (c :: l)) (phonon_file (mesh c) x) = Some (Content (mesh c) (grid c) (solved c))).
  { cbn [runs]. rewrite run_dir, Wc, Rc, (names _ _ _ Nc).
    assert (G : forall (l : list (command P)) (d : dir (content P)), (forall b, In b l -> write_phonon b = false \/ (positive (mesh b) /\ exists y, writes_as b y /\ y <> x)) ->
      lookup (runs d l) (phonon_file (mesh c) x) = lookup d (phonon_file (mesh c) x)).
    { clear - Hm. intros l. induction l as [|b l IH]; intros d H; [reflexivity|]. cbn [runs]. rewrite IH by (intros; apply H; right; assumption).
      rewrite run_dir. destruct (H b (or_introl eq_refl)) as [-> |(Hb & y & Ny & N)]; [reflexivity|]. destruct (write_phonon b); [|reflexivity].
      apply lookup_other. rewrite (names _ _ _ Ny). apply C136_names; auto. }
    rewrite G by exact Hl. apply lookup_same. }
  unfold run. destruct (in_out r) as [i o] eqn:E. pose proof (names_in _ _ _ Nr) as I. rewrite E in I. cbn [fst] in I. subst i.
  rewrite Rr, Wr, Em, K, Eg. cbn [in_mesh in_grid in_phonons snd]. rewrite mesh_same, accepted_same by exact Hg. reflexivity.
Qed.

(** without the file the run ends and nothing is written *)
Theorem C136_missing : forall P d (c : command P) x, read_phonon c = true -> write_phonon c = false -> reads_as c x ->
  lookup d (phonon_file (mesh c) x) = None -> run d c = (d, None).
Proof.
  intros P d c x R W N K. unfold run. destruct (in_out c) as [i o] eqn:E. pose proof (names_in _ _ _ N) as I. rewrite E in I. cbn [fst] in I. subst i.
  rewrite R, W, K. reflexivity.
Qed.

(** a file of another mesh or with another number of grid points ends the run *)
Theorem C136_other : forall P d (c : command P) x f, read_phonon c = true -> write_phonon c = false -> reads_as c x ->
  lookup d (phonon_file (mesh c) x) = Some f -> in_mesh f <> mesh c \/ List.length (in_grid f) <> List.length (grid c) -> run d c = (d, None).
Proof.
  intros P d c x f R W N K H. unfold run. destruct (in_out c) as [i o] eqn:E. pose proof (names_in _ _ _ N) as I. rewrite E in I. cbn [fst] in I. subst i.
  rewrite R, W, K. destruct (mesh_eqb (in_mesh f) (mesh c) && accepted (grid c) (in_grid f)) eqn:T; [exfalso|reflexivity].
  apply andb_true_iff in T. destruct T as [A B]. destruct H as [H|H]; apply H.
  - destruct (in_mesh f) as [[u v] w], (mesh c) as [[u' v'] w']. unfold mesh_eqb in A. rewrite !andb_true_iff, !Z.eqb_eq in A. destruct A as [[-> ->] ->]. reflexivity.
  - unfold accepted in B. apply andb_true_iff in B. apply Nat.eqb_eq, (proj1 B).
Qed.
(** a file of another grid with as many points is read if one coordinate of one point agrees, as it does at Gamma *)
Theorem C136_addresses_refuted : forall P d (c : command P) x g h p, read_phonon c = true -> write_phonon c = false -> reads_as c x ->
  lookup d (phonon_file (mesh c) x) = Some (Content (mesh c) ((0, 0, 0) :: h) p) -> grid c = (0, 0, 0) :: g -> List.length g = List.length h ->
  snd (run d c) = Some p.
Proof.
  intros P d c x g h p R W N K G L. unfold run. destruct (in_out c) as [i o] eqn:E. pose proof (names_in _ _ _ N) as I. rewrite E in I. cbn [fst] in I. subst i.
  rewrite R, W, K, G. cbn [in_mesh in_grid in_phonons snd]. rewrite mesh_same. unfold accepted. cbn [List.length]. rewrite L, Nat.eqb_refl. reflexivity.
Qed.

(** with both options and one name the file is replaced by arrays that are not solved before it is read, and the run goes on with these *)
Theorem C136_both_refuted : forall P d (c : command P) x, read_phonon c = true -> write_phonon c = true -> reads_as c x -> writes_as c x -> grid c <> [] ->
  snd (run d c) = Some (allocated c) /\ lookup (fst (run d c)) (phonon_file (mesh c) x) = Some (Content (mesh c) (grid c) (allocated c)).
Proof.
  intros P d c x R W Nr Nw Hg. split.
  - unfold run. destruct (in_out c) as [i o] eqn:E. pose proof (names_in _ _ _ Nr) as I. pose proof (names _ _ _ Nw) as O. rewrite E in I, O. cbn [fst snd] in I, O. subst i o.
    rewrite R, W. cbn [negb]. rewrite lookup_same. cbn [in_mesh in_grid in_phonons snd]. rewrite mesh_same, accepted_same by exact Hg. reflexivity.
  - rewrite run_dir, W, R, (names _ _ _ Nw). apply lookup_same.
Qed.
(** with two names the phonons that are read are used, but the file that is written holds arrays that are not solved *)
Theorem C136_copy_refuted : forall P d (c : command P) x, read_phonon c = true -> write_phonon c = true -> writes_as c x ->
  option_map in_phonons (lookup (fst (run d c)) (phonon_file (mesh c) x)) = Some (allocated c).
Proof. intros P d c x R W Nw. rewrite run_dir, W, R, (names _ _ _ Nw), lookup_same. reflexivity. Qed.

(** * Examples *)
Definition cmd (i o io : option string) (rd wr : bool) (p : Z) : command Z :=
  Command false (option_map t i) (option_map t o) (option_map t io) (2, 2, 1) [(0, 0, 0); (1, 0, 0)] rd wr p 0.
Example C136_round_trip_ex : snd (run (runs [] [cmd None (Some "a"%string) None false true 5; cmd None None None false true 6; cmd None (Some "c"%string) (Some "b"%string) false true 7])
  (cmd (Some "a"%string) None None true false 8)) = Some 5.
Proof. vm_compute. reflexivity. Qed.
Example C136_round_trip_hyp_ex : writes_as (cmd None (Some "a"%string) None false true 5) (Some (t "a")) /\ reads_as (cmd (Some "a"%string) None None true false 8) (Some (t "a")) /\
  (exists y, writes_as (cmd None (Some "a"%string) (Some "b"%string) false true 7) y /\ y <> Some (t "a")) /\ positive (2, 2, 1).
Proof.
  split; [right; split; [reflexivity|right; split; reflexivity]|]. split; [right; split; [reflexivity|right; split; reflexivity]|].
  split; [|cbn; unfold positive; cbn; lia]. exists (Some (t "b")). split; [right; split; [reflexivity|left; exists (t "b"); split; reflexivity]|discriminate].
Qed.
Example C136_both_ex : let d := runs [] [cmd None None None false true 5] in
  snd (run d (cmd None None None true false 8)) = Some 5 /\ snd (run d (cmd None None None true true 8)) = Some 0.
Proof. vm_compute. split; reflexivity. Qed.
Example C136_missing_ex : run [] (cmd (Some "a"%string) None None true false 8) = ([], None).
Proof. vm_compute. reflexivity. Qed.
Example C136_other_ex : let d := runs [] [cmd None None None false true 5] in
  let c g := Command false None None None (2, 2, 1) g true false 8 0 in
  snd (run d (c [(0, 0, 0); (7, 7, 7)])) = Some 5 /\ run d (c [(0, 0, 0)]) = (d, None).
Proof. vm_compute. split; reflexivity. Qed.
Example C136_names_ex : phonon_file (2, 2, 1) (Some (t "a")) = t "phonon-m221.a.hdf5" /\ phonon_file (11, 1, 1) None = phonon_file (1, 11, 1) None.
Proof. vm_compute. split; reflexivity. Qed.

Print Assumptions C136_names.
Print Assumptions C136_mesh_refuted.
Print Assumptions C136_round_trip.
Print Assumptions C136_missing.
Print Assumptions C136_other.
Print Assumptions C136_addresses_refuted.
Print Assumptions C136_both_refuted.
Print Assumptions C136_copy_refuted.
