(** Further theorems about collecting forces (C112), written after wrong versions of CfsModel had passed: the rest of the params file, type-2
    datasets, FORCE_SETS out of FORCES_FC2. *)
From Coq Require Import String.
From Coq Require Import ZArith QArith List Bool Lia.
From Verif Require Import Base BaseProofs DsModel DsProps ForcesModel ForcesProps CfsModel CfsProps.
Import ListNotations.
Open Scope Z_scope.

Section Env.
Context {C N : Type}.
Variables (present : string -> bool) (names_in : string -> list string).
Variable get_calc : option string -> Z -> list string -> calc.
Variable get_wien2k : list string -> C -> dataset -> list conf.
Variables (moved : C -> dataset -> list conf -> list string -> bool) (cell_moved : C -> conf -> bool).
Variable get_nac : option N.
Variable rv : vec -> vec.
Notation create := (@create_forces C N present names_in get_calc get_wien2k moved cell_moved get_nac rv).

(** Cells and calculator of the params file are those of the yaml file; so are the NAC parameters, those found elsewhere are used only if it
    has none. *)
Theorem C112_params_rest : forall s y y', In (WParams y') (fst (create s y)) ->
  y_cell y' = y_cell y /\ y_pcell y' = y_pcell y /\ y_calc y' = y_calc y /\
  (forall n, y_nac y = Some n -> y_nac y' = Some n) /\ (y_nac y = None -> y_nac y' = get_nac).
Proof.
  intros s y y' H. unfold create_forces in H. destruct (collected _ _ _ _ _ _ s y) as [[c3 c2]|e]; [|destruct H]. destruct (st_save s).
  - destruct c3 as [c|]; [|destruct H]. destruct (set_forces_and_nac get_nac y s c c2) as [z|e] eqn:E; [|destruct H]. destruct H as [H|[]]. injection H as <-.
    unfold set_forces_and_nac in E. destruct (y_data y) as [d|]; [|discriminate E]. cbn [from_opt obind] in E. destruct (put_fc3 c d) as [d'|]; [|discriminate E]. cbn [obind] in E.
    match type of E with (do p' <- ?m; _) = _ => destruct m as [p'|] end; [|discriminate E]. cbn [obind] in E. injection E as <-. cbn [y_cell y_pcell y_calc y_nac].
    repeat (split; [reflexivity|]). destruct (y_nac y) as [n|]; split; [intros m Hm; exact Hm|discriminate|discriminate|reflexivity].
  - exfalso. assert (W : forall w d c x, In (WParams x) (fst (@write_opt C N rv w d c)) -> False).
    { intros w [d|] [c|] x K; cbn in K; try (now destruct K). unfold write_set in K. destruct d as [natom fs|x1 [old|] x3]; cbn in K.
      - destruct w; cbn in K; [destruct (write_FORCES_FC3 _ _ _ _)|destruct (write_FORCES_FC2 _ _ _ _)]; cbn in K; destruct K as [K|[]]; discriminate K.
      - destruct K as [K|[]]; discriminate K.
      - destruct K as [K|[]]; discriminate K. }
    destruct (write_opt rv FC3 (y_data y) c3) as [l o] eqn:E1. pose proof (W FC3 (y_data y) c3 y') as W1. rewrite E1 in W1. cbn [fst] in W1. destruct o as [e|]; [exact (W1 H)|].
    destruct (write_opt rv FC2 (y_pdata y) c2) as [l2 o2] eqn:E2. pose proof (W FC2 (y_pdata y) c2 y') as W2. rewrite E2 in W2. cbn [fst] in *. apply in_app_or in H. destruct H as [H|H]; [exact (W1 H)|exact (W2 H)].
Qed.

(** A type-2 dataset without forces: FORCES_FC3 gets its displacements and, file by file, the forces of the calculator, less those of the
    perfect supercell when asked for. *)
Theorem C112_type2 : forall s y first rest en ref cells F,
  y_data y = Some (Type2 (Some (first :: rest)) None en) -> cells <> [] ->
  calc_mode s y <> Some "wien2k"%string -> (forall f, st_cf3_file s = Some f -> present f = true) ->
  results present get_calc moved cell_moved (calc_mode s y) (Z.of_nat (List.length first)) (y_cell y) (Type2 (Some (first :: rest)) None en) ref F cells (@fc3_names names_in s) (st_sub s) ->
  wants_fc3 s = true -> st_cf2 s = [] -> st_save s = false ->
  create s y = ([WSets FC3 (Some (first :: rest)) (map (fun c => match st_sub s with None => F c | Some _ => minus (F c) (F ref) end) cells)], None).
Proof.
  intros s y first rest en ref cells F Hd Hne Hw Hf R W3 W2 Sv. unfold create_forces, collected. fold (calc_mode s y). rewrite W3, W2, Hd. unfold collect_fc3. cbn [from_opt obind shape_fc3 is_type1 andb nonempty].
  assert (E : match st_cf3_file s with Some f => do _ <- present_all present [f]; Done (names_in f) | None => Done (st_cf3 s) end = Done (@fc3_names names_in s)).
  { unfold fc3_names. destruct (st_cf3_file s) as [f|]; [|reflexivity]. rewrite present_all_ok; [reflexivity|]. intros n [<-|[]]. now apply Hf. }
  rewrite E. cbn [obind]. rewrite (present_all_ok _ _ (r_present _ _ _ _ _ _ _ _ _ _ _ _ _ R)). cbn [obind].
  assert (M : match calc_mode s y with Some "wien2k"%string => Calc (get_wien2k (@fc3_names names_in s) (y_cell y) (Type2 (Some (first :: rest)) None en)) None None | _ => get_calc (calc_mode s y) (Z.of_nat (List.length first)) (@fc3_names names_in s) end = get_calc (calc_mode s y) (Z.of_nat (List.length first)) (@fc3_names names_in s)).
  { destruct (calc_mode s y) as [m|]; [|reflexivity]. destruct (string_dec m "wien2k") as [->|D]; [now elim Hw|].
    repeat (destruct m as [|[[|] [|] [|] [|] [|] [|] [|] [|]] m]; try reflexivity). now elim D. }
  rewrite M, (points_ok _ _ _ _ _ _ _ _ _ _ _ _ _ R). cbn [obind]. rewrite (r_forces _ _ _ _ _ _ _ _ _ _ _ _ _ R), (take_off_ok _ _ _ _ _ _ _ _ _ _ _ _ _ R). cbn [obind c_forces].
  destruct cells as [|c0 l]; [now elim Hne|]. cbn [nonempty map guard obind]. rewrite Sv. cbn [write_opt write_set c_forces app]. destruct (y_pdata y); reflexivity.
Qed.
End Env.
Print Assumptions C112_params_rest.
Print Assumptions C112_type2.

(** FORCE_SETS out of FORCES_FC2 (--dim-fc2 given): the forces written to FORCES_FC2, if the matrix is that of the yaml file; anything else, also
    a yaml file without the matrix, is refused. *)
Theorem C112_force_sets_from_fc2 : forall rv natom fs forces lines2 M (same : M -> M -> bool) b m pm data lines3, 0 < natom -> (forall x y, same x y = true <-> x = y) ->
  (forall f : conf, In f forces -> List.length f = Z.to_nat natom) -> write_FORCES_FC2 rv (Some forces) 0 fs = Some lines2 ->
  (pm = Some b -> exists fs', force_sets_from same (Some b) m pm data (natom, fs) lines3 lines2 = Done (natom, fs') /\ map no_forces_f fs' = map no_forces_f fs /\
    map f_forces fs' = map (fun f => Some (map rv f)) (firstn (List.length fs) forces)) /\
  (pm <> Some b -> force_sets_from same (Some b) m pm data (natom, fs) lines3 lines2 = Raises EExit) /\
  force_sets_from same None None pm data (natom, fs) lines3 lines2 = Raises EExit.
Proof.
  intros rv natom fs forces lines2 M same b m pm data lines3 Hn Hs Hl W. split; [|split; [|unfold force_sets_from; destruct data; reflexivity]].
  - intros ->. unfold force_sets_from. cbn [fst snd]. assert (S : same b b = true) by now apply Hs. rewrite S. eexists. split; [reflexivity|].
    set (n := Z.to_nat natom) in *.
    assert (G : forall fs k a, write_FORCES_FC2 rv (Some forces) k fs = Some a -> (k + List.length fs <= List.length forces \/ fs = [])%nat /\ nums a = flat rv (firstn (List.length fs) (skipn k forces))).
    { clear - rv forces. induction fs as [|f fs IH]; intros k a E; [cbn [write_FORCES_FC2] in E; injection E as <-; split; [now right|reflexivity]|]. cbn [write_FORCES_FC2 force_of] in E. destruct (nth_error forces k) as [x|] eqn:Ex; [|discriminate E]. cbn [bind] in E.
      destruct (write_FORCES_FC2 rv (Some forces) (S k) fs) as [r|] eqn:Er; [|discriminate E]. cbn [bind] in E. injection E as <-. destruct (IH _ _ Er) as [H1 H2].
      assert (Lk : (k < List.length forces)%nat) by (apply nth_error_Some; rewrite Ex; discriminate). split; [left; cbn [List.length]; destruct H1 as [H1|H1]; [lia|subst fs; cbn; lia]|].
      cbn [nums List.length]. rewrite nums_app, nums_set, H2. assert (S : skipn k forces = x :: skipn (S k) forces). { clear - Ex. revert k Ex. induction forces as [|y l IH]; intros [|k] E; try discriminate E; cbn in *; [injection E as ->; reflexivity|apply IH, E]. }
      rewrite S. reflexivity. }
    destruct (G fs 0%nat lines2 W) as [H1 H2]. cbn [Nat.add skipn] in H1, H2. assert (Lf : (List.length fs <= List.length forces)%nat) by (destruct H1 as [H1| ->]; [exact H1|cbn; lia]). clear H1.
    assert (Ln : forall x, In x (firstn (List.length fs) forces) -> List.length x = n). { intros x H. apply Hl. rewrite <- (firstn_skipn (List.length fs) forces). apply in_or_app. now left. }
    assert (Lna : List.length (nums lines2) = (List.length fs * n)%nat) by (rewrite H2, (flat_length rv n _ Ln), firstn_length, Nat.min_l by exact Lf; reflexivity).
    destruct (C40_parse_fc2 None lines2 natom fs Hn) as [_ P]. fold n in P. destruct P as [A B]; [lia|]. split; [exact B|]. rewrite A. clear A B.
    apply nth_ext with (d := None) (d' := None); [rewrite !map_length, seq_length, firstn_length; lia|]. intros i Hi. rewrite map_length, seq_length in Hi.
    assert (Hf : (i < List.length (firstn (List.length fs) forces))%nat) by (rewrite firstn_length; lia).
    destruct (nth_error (firstn (List.length fs) forces) i) as [x|] eqn:Ex; [|apply nth_error_None in Ex; lia].
    rewrite (nth_indep _ None (Some (in_units None (chunk n (nums lines2) 0)))) by (rewrite map_length, seq_length; exact Hi). rewrite (map_nth (fun i => Some (in_units None (chunk n (nums lines2) i)))), seq_nth by exact Hi.
    rewrite (nth_indep _ None (Some (map rv []))) by (rewrite map_length; exact Hf). rewrite (map_nth (fun f => Some (map rv f))), (nth_error_nth _ _ _ Ex). cbn [Nat.add in_units]. f_equal.
    now rewrite <- (chunk_flat rv n _ i x Ln Ex), <- H2.
  - intros Hp. unfold force_sets_from. destruct pm as [a|]; [|reflexivity]. destruct (same b a) eqn:E; [|reflexivity]. apply Hs in E. subst. now elim Hp.
Qed.
Print Assumptions C112_force_sets_from_fc2.

(** Two atoms; a type-2 dataset with two sets of displacements; FORCES_FC2 with one displacement. *)
Example C112_more_ex :
  (let s := ex_set ["a"; "b"]%string [] (Some "z"%string) false in let d := Type2 (Some [ex_ref; ex_ref]) None None in
   @results unit (fun _ => true) ex_calc (fun _ _ _ _ => false) (fun _ _ => false) (Some "qe"%string) 2 tt d ex_ref ex_F (firstn 2 ex_cells) (@fc3_names (fun _ => []) s) (st_sub s) /\
   exists f, ex_create ex_calc s (ex_yaml (Some d) None) = ([WSets FC3 (Some [ex_ref; ex_ref]) f], None) /\ List.length f = 2%nat) /\
  (exists l, write_FORCES_FC2 (fun v => v) (Some [ex_F (nth 0 ex_cells [])]) 0 ex_data = Some l /\
    (exists fs, force_sets_from Z.eqb (Some 3) (Some 2) (Some 3) (2, []) (2, ex_data) [] l = Done (2, fs) /\ List.length fs = 1%nat) /\
    force_sets_from Z.eqb (Some 3) (Some 3) (Some 2) (2, []) (2, ex_data) [] l = Raises EExit) /\
  (exists y, ex_create ex_calc (ex_set ["a"; "b"; "c"]%string [] None true) (Yaml (Some "qe"%string) (Some (Type1 2 ex_data)) tt None tt (Some tt)) = ([WParams y], None) /\ y_nac y = Some tt).
Proof.
  split; [split; [|eexists; split; reflexivity]|split; [eexists; split; [reflexivity|split; [eexists; split; reflexivity|reflexivity]]|eexists; split; reflexivity]].
  constructor; try reflexivity; try discriminate; try exact I.
  - intros z E. split; [reflexivity|]. split; [|exact I]. injection E as <-. reflexivity.
  - cbn. intuition (subst; reflexivity).
Qed.
