From Coq Require Import ZArith QArith List Bool Lia Lqa String Ascii.
From Verif Require Import Base BaseProofs DsModel DsProps MlpModel.
Import ListNotations.
Open Scope Z_scope.
Local Notation length := List.length.

(** ** Energies: everything in the dataset but the energies *)
Definition no_energy_s (s : sec) : sec := Sec (s_num s) (s_disp s) (s_dist s) (s_incl s) (s_id s) (s_forces s) None.
Definition no_energy_f (f : fir) : fir := Fir (f_num f) (f_disp f) (f_id f) (f_forces f) None (map no_energy_s (f_second f)).
Lemma eset_first_spec : forall fs vals, (length fs <= length vals)%nat ->
  exists fs', eset_first vals fs = (fs', Some (skipn (length fs) vals)) /\ map f_energy fs' = map Some (firstn (length fs) vals) /\
    map no_energy_f fs' = map no_energy_f fs /\ map f_second fs' = map f_second fs.
Proof.
  induction fs as [|f fs IH]; intros vals H; [exists []; destruct vals; repeat split; reflexivity|].
  destruct vals as [|v vals]; [cbn in H; lia|]. destruct (IH vals ltac:(cbn in H; lia)) as [fs' [E [F [N S]]]]. cbn [eset_first length skipn firstn]. rewrite E.
  eexists. split; [reflexivity|]. cbn [map f_energy f_second]. rewrite F, N, S. repeat split; reflexivity.
Qed.
Lemma eset_secs_spec : forall ss vals, (length ss <= length vals)%nat ->
  exists ss', eset_secs vals ss = (ss', Some (skipn (length ss) vals)) /\ map s_energy ss' = map Some (firstn (length ss) vals) /\ map no_energy_s ss' = map no_energy_s ss.
Proof.
  induction ss as [|s ss IH]; intros vals H; [exists []; destruct vals; repeat split; reflexivity|].
  destruct vals as [|v vals]; [cbn in H; lia|]. destruct (IH vals ltac:(cbn in H; lia)) as [ss' [E [F N]]]. cbn [eset_secs length skipn firstn]. rewrite E.
  eexists. split; [reflexivity|]. cbn [map s_energy]. rewrite F, N. split; reflexivity.
Qed.
Lemma eset_second_spec : forall fs vals, (npairs fs <= length vals)%nat ->
  exists fs', eset_second vals fs = (fs', Some (skipn (npairs fs) vals)) /\
   flat_map (fun f => map s_energy (f_second f)) fs' = map Some (firstn (npairs fs) vals) /\ map f_energy fs' = map f_energy fs /\ map no_energy_f fs' = map no_energy_f fs.
Proof.
  unfold npairs. induction fs as [|f fs IH]; intros vals H; [exists []; destruct vals; repeat split; reflexivity|]. cbn [flat_map] in H. rewrite app_length in H.
  destruct (eset_secs_spec (f_second f) vals ltac:(lia)) as [ss [E [F N]]].
  destruct (IH (skipn (length (f_second f)) vals)) as [fs' [E' [F' [G' N']]]]; [rewrite skipn_length; lia|].
  cbn [eset_second]. rewrite E, E'. cbn [flat_map map]. rewrite app_length, skipn_skipn2, firstn_plus, map_app. eexists. split; [reflexivity|].
  cbn [flat_map map f_second f_energy]. rewrite F, F', G', N'. split; [reflexivity|]. split; [reflexivity|]. f_equal. unfold no_energy_f. cbn. now rewrite N.
Qed.

Definition energies_of (fs : list fir) : list (option Q) := map f_energy fs ++ flat_map (fun f => map s_energy (f_second f)) fs.
Lemma energies_no_forces : forall fs fs', map no_forces_f fs = map no_forces_f fs' -> energies_of fs = energies_of fs'.
Proof.
  assert (G : forall fs, energies_of fs = energies_of (map no_forces_f fs)).
  { intros fs. unfold energies_of. rewrite map_map. f_equal. induction fs as [|f fs IH]; [reflexivity|]. cbn [flat_map map]. rewrite IH. f_equal. unfold no_forces_f; cbn [f_second]. rewrite map_map. reflexivity. }
  intros fs fs' E. rewrite (G fs), (G fs'), E. reflexivity.
Qed.
Lemma slots_no_energy : forall fs fs', map no_energy_f fs = map no_energy_f fs' -> slots fs = slots fs'.
Proof.
  assert (G : forall fs, slots fs = slots (map no_energy_f fs)).
  { intros fs. unfold slots. rewrite map_map. f_equal. induction fs as [|f fs IH]; [reflexivity|]. cbn [flat_map map]. rewrite IH. f_equal. unfold no_energy_f; cbn [f_second f_num f_disp]. rewrite map_map. reflexivity. }
  intros fs fs' E. rewrite (G fs), (G fs'), E. reflexivity.
Qed.
Lemma set_energies_ok : forall natom fs vals, length vals = length (slots fs) ->
  exists fs', set_energies vals (Type1 natom fs) = (Type1 natom fs', true) /\ energies_of fs' = map Some vals /\ map no_energy_f fs' = map no_energy_f fs.
Proof.
  intros natom fs vals L. rewrite slots_length in L. cbn [set_energies].
  destruct (eset_first_spec fs vals ltac:(lia)) as [f1 [E1 [F1 [N1 S1]]]]. rewrite E1.
  assert (P : npairs f1 = npairs fs). { unfold npairs. rewrite !flat_map_concat_map, S1. reflexivity. }
  destruct (eset_second_spec f1 (skipn (length fs) vals)) as [f2 [E2 [F2 [G2 N2]]]]; [rewrite skipn_length; lia|]. rewrite E2. exists f2. split; [reflexivity|].
  split; [|congruence]. unfold energies_of. rewrite F2, G2, F1, <- map_app. f_equal. rewrite P, (firstn_all2 (skipn _ _)) by (rewrite skipn_length; lia). apply firstn_skipn.
Qed.

(** ** C129: evaluation *)
Lemma build_current : forall o cells, cache_ok (o_ref o) o -> bind (o_data o) (build_supercells (o_ref o)) = Some cells ->
  exists o', supercells_with_displacements o = (o', Some cells) /\ o_ref o' = o_ref o /\ o_data o' = o_data o.
Proof.
  intros o cells [_ K] B. unfold supercells_with_displacements. destruct (o_cache o) as [c|] eqn:E.
  - specialize (K c eq_refl). assert (c = cells) by congruence. subst c. exists o. auto.
  - rewrite B. eexists. split; [reflexivity|]. auto.
Qed.
Lemma all_included : forall ref sl cells, Forall2 (fun s cell => if sl_incl s then exists c, cell = Some c /\ displaced ref (sl_moves s) c else cell = None) sl cells ->
  (forall s, In s sl -> sl_incl s = true) -> exists cs, cells = map Some cs /\ Forall2 (fun s c => displaced ref (sl_moves s) c) sl cs.
Proof.
  intros ref sl cells F. induction F as [|s cell sl cells H F IH]; intros A; [exists []; split; [reflexivity|constructor]|].
  rewrite (A s (or_introl eq_refl)) in H. destruct H as [c [-> D]]. destruct IH as [cs [-> G]]; [intros x I; apply A; now right|]. exists (c :: cs). split; [reflexivity|]. constructor; assumption.
Qed.
(** The i-th energy and forces are those of the potential at the i-th displaced supercell: for pairs of displacements... *)
Theorem C129_evaluated : forall s p natom fs, mlp s = Some p -> let ref := o_ref (fc3 s) in
  o_data (fc3 s) = Some (Type1 natom fs) -> fs <> [] -> cache_ok ref (fc3 s) -> atoms_ok (length ref) fs -> (forall x, In x (slots fs) -> sl_incl x = true) ->
  exists s' cells fs', evaluate_mlp s = (s', Returned) /\ Forall2 (fun x c => displaced ref (sl_moves x) c) (slots fs) cells /\
    o_data (fc3 s') = Some (Type1 natom fs') /\ map (fun x => (sl_moves x, sl_incl x)) (slots fs') = map (fun x => (sl_moves x, sl_incl x)) (slots fs) /\
    get_forces (Type1 natom fs') = Some (Some (map (fun c => snd (p c)) cells)) /\ get_energies (Type1 natom fs') = Some (Some (map (fun c => fst (p c)) cells)).
Proof.
  intros s p natom fs M ref D NE CO AO INC. destruct (C37_supercells_in_order ref natom fs AO) as [cells [B F]].
  destruct (all_included _ _ _ F INC) as [cs [-> G]]. pose proof (F2_len _ _ _ _ _ G) as L.
  destruct (build_current (fc3 s) (map Some cs)) as [o' [S [R O]]]; [exact CO|rewrite D; exact B|].
  unfold evaluate_mlp. rewrite M, S. cbn [bind]. unfold evaluate. rewrite sequence_some. cbn [option_map]. rewrite O, D.
  destruct (set_energies_ok natom fs (map (fun c => fst (p c)) cs)) as [f1 [E1 [V1 N1]]]; [rewrite map_length; lia|]. rewrite E1. cbn [negb].
  pose proof (slots_no_energy _ _ N1) as SL.
  destruct (C37_forces_in_order natom f1 (map (fun c => snd (p c)) cs)) as [f2 [E2 [V2 [N2 [M2 G2]]]]]; [rewrite map_length, SL; lia|]. rewrite E2.
  assert (NE1 : f1 <> []) by (intros ->; destruct fs; [congruence|discriminate N1]).
  eexists. exists cs, f2. split; [reflexivity|]. split; [exact G|]. split; [reflexivity|]. split; [rewrite <- SL; exact M2|]. split; [exact (G2 NE1)|].
  pose proof (G2 NE1) as GF. assert (NE2 : f2 <> []) by (intros ->; destruct f1; [congruence|discriminate N2]).
  pose proof (energies_no_forces _ _ N2) as EE. rewrite V1 in EE.
  destruct f2 as [|f0 t]; [congruence|]. cbn [get_forces get_energies] in *. destruct (f_forces f0); [|discriminate GF].
  change (option_map Some (sequence (energies_of (f0 :: t))) = Some (Some (map (fun c => fst (p c)) cs))). rewrite EE, sequence_some. reflexivity.
Qed.
(** ... and for displacements of all atoms. *)
Theorem C129_evaluated_all : forall s p disps f e, mlp s = Some p -> let ref := o_ref (fc3 s) in
  o_data (fc3 s) = Some (Type2 (Some disps) f e) -> cache_ok ref (fc3 s) ->
  exists s' cells, evaluate_mlp s = (s', Returned) /\ cells = map (fun u => map (fun x => vadd3 (fst x) (snd x)) (combine ref u)) disps /\
    o_data (fc3 s') = Some (Type2 (Some disps) (Some (map (fun c => snd (p c)) cells)) (Some (map (fun c => fst (p c)) cells))).
Proof.
  intros s p disps f e M ref D CO. set (cells := map (fun u => map (fun x => vadd3 (fst x) (snd x)) (combine ref u)) disps).
  destruct (build_current (fc3 s) (map Some cells)) as [o' [S [R O]]]; [exact CO|rewrite D; reflexivity|].
  eexists. exists cells. split; [|split; [reflexivity|]].
  - unfold evaluate_mlp. rewrite M, S. cbn [bind]. unfold evaluate. rewrite sequence_some. cbn [option_map]. rewrite O, D. cbn [set_energies set_forces negb]. reflexivity.
  - reflexivity.
Qed.
(** The supercells for fc2: the potential made for them is used if there is one. *)
Lemma zip_len_f : forall vals fs, length (zip_forces vals fs) = length fs.
Proof. intros vals fs. revert vals. induction fs as [|f fs IH]; intros [|v vals]; cbn; try reflexivity. now rewrite IH. Qed.
Lemma zip_len_e : forall vals fs, length (zip_energies vals fs) = length fs.
Proof. intros vals fs. revert vals. induction fs as [|f fs IH]; intros [|v vals]; cbn; try reflexivity. now rewrite IH. Qed.
Lemma zip_forces_ok : forall fs vals, length vals = length fs -> map f_forces (zip_forces vals fs) = map Some vals /\ map no_forces_f (zip_forces vals fs) = map no_forces_f fs.
Proof.
  induction fs as [|f fs IH]; intros [|v vals] L; try discriminate L; [split; reflexivity|]. cbn in L. destruct (IH vals ltac:(lia)) as [A B].
  cbn [zip_forces map f_forces]. rewrite A, B. split; reflexivity.
Qed.
Lemma zip_energies_ok : forall fs vals, length vals = length fs -> map f_energy (zip_energies vals fs) = map Some vals /\ map no_energy_f (zip_energies vals fs) = map no_energy_f fs.
Proof.
  induction fs as [|f fs IH]; intros [|v vals] L; try discriminate L; [split; reflexivity|]. cbn in L. destruct (IH vals ltac:(lia)) as [A B].
  cbn [zip_energies map f_energy]. rewrite A, B. split; reflexivity.
Qed.
Lemma present_some : forall X (l : list X), present (map Some l) = l.
Proof. intros X l. induction l as [|x l IH]; [reflexivity|]. cbn. f_equal. exact IH. Qed.
Lemma not_empty_some : forall X (l : list X), l <> [] -> not_empty l = Some l.
Proof. intros X [|x l] H; [congruence|reflexivity]. Qed.
Lemma energy_of_no_forces : forall fs fs', map no_forces_f fs = map no_forces_f fs' -> map f_energy fs = map f_energy fs'.
Proof. intros fs fs' E. apply (f_equal (map f_energy)) in E. rewrite !map_map in E. exact E. Qed.
Lemma singles_ok : forall ref n fs, (forall f, In f fs -> 0 <= f_num f < Z.of_nat (length ref)) ->
  exists cells, build_singles ref (Type1 n fs) = Some cells /\ Forall2 (fun f c => displaced ref [(f_num f, f_disp f)] c) fs cells.
Proof.
  intros ref n fs A. apply (sequence_map _ _ (fun f => add_at ref (f_num f) (f_disp f)) (fun f c => displaced ref [(f_num f, f_disp f)] c) fs).
  intros f I. destruct (add_at_spec ref [] ref (f_num f) (f_disp f) (displaced_ref ref) (A f I)) as [c [E D]]. exists c. split; [exact E|]. exact D.
Qed.
(** the displaced supercells kept are those of the dataset *)
Definition pcache_ok (s : st) : Prop := forall c, pcache s = Some c -> bind (pdata s) (build_singles (pref s)) = Some c.
Lemma phonon_current : forall s cells, pcache_ok s -> bind (pdata s) (build_singles (pref s)) = Some cells ->
  exists s', phonon_supercells s = (s', Some cells) /\ pdata s' = pdata s /\ pref s' = pref s /\ mlp s' = mlp s /\ pmlp s' = pmlp s /\ fc3 s' = fc3 s.
Proof.
  intros s cells K B. unfold phonon_supercells. destruct (pcache s) as [c|] eqn:E.
  - specialize (K c E). assert (c = cells) by congruence. subst c. exists s. auto 6.
  - rewrite B. eexists. split; [reflexivity|]. cbn. auto 6.
Qed.
Theorem C129_phonon_evaluated : forall s p n fs, (pmlp s = Some p \/ pmlp s = None /\ mlp s = Some p) -> let ref := pref s in
  pdata s = Some (Type1 n fs) -> fs <> [] -> pcache_ok s -> (forall f, In f fs -> 0 <= f_num f < Z.of_nat (length ref)) ->
  exists s' cells fs', evaluate_phonon_mlp s = (s', Returned) /\ Forall2 (fun f c => displaced ref [(f_num f, f_disp f)] c) fs cells /\
    pdata s' = Some (Type1 n fs') /\ map (fun f => (f_num f, f_disp f)) fs' = map (fun f => (f_num f, f_disp f)) fs /\
    get_pforces (Type1 n fs') = Some (map (fun c => snd (p c)) cells) /\ get_penergies (Type1 n fs') = Some (map (fun c => fst (p c)) cells).
Proof.
  intros s p n fs P ref D NE CO AO. destruct (singles_ok ref n fs AO) as [cells [B F]]. pose proof (F2_len _ _ _ _ _ F) as L.
  destruct (phonon_current s cells CO) as [s1 [S [D1 [R1 [M1 [P1 _]]]]]]; [rewrite D; exact B|].
  set (es := map (fun c => fst (p c)) cells). set (fo := map (fun c => snd (p c)) cells).
  assert (NC : cells <> []) by (intros ->; destruct fs; [congruence|discriminate L]).
  destruct (zip_energies_ok fs es) as [E1 N1]; [unfold es; rewrite map_length; lia|]. set (f1 := zip_energies es fs) in *.
  destruct (zip_forces_ok f1 fo) as [E2 N2]; [unfold fo, f1; rewrite map_length, zip_len_e; lia|]. set (f2 := zip_forces fo f1) in *.
  assert (EV : exists s', evaluate_phonon_mlp s = (s', Returned) /\ pdata s' = Some (Type1 n f2)).
  { unfold evaluate_phonon_mlp. destruct P as [P|[P P']].
    - rewrite P, S. rewrite D1, D. destruct (mlp s); eexists; (split; [reflexivity|]); reflexivity.
    - rewrite P, P', S. rewrite D1, D. eexists; (split; [reflexivity|]); reflexivity. }
  destruct EV as [s' [EV D']]. exists s', cells, f2. split; [exact EV|]. split; [exact F|]. split; [exact D'|].
  split; [|split].
  - transitivity (map (fun f => (f_num f, f_disp f)) f1).
    + apply (f_equal (map (fun f => (f_num f, f_disp f)))) in N2. rewrite !map_map in N2. exact N2.
    + apply (f_equal (map (fun f => (f_num f, f_disp f)))) in N1. rewrite !map_map in N1. exact N1.
  - cbn [get_pforces]. rewrite E2, present_some. apply not_empty_some. unfold fo. destruct cells; [congruence|discriminate].
  - cbn [get_penergies]. rewrite (energy_of_no_forces _ _ N2), E1, present_some. apply not_empty_some. unfold es. destruct cells; [congruence|discriminate].
Qed.
Print Assumptions C129_evaluated.
Print Assumptions C129_evaluated_all.
Print Assumptions C129_phonon_evaluated.

(** ** Training data *)
Theorem C129_accepted : forall d, check_mlp_dataset d = Returned <->
  exists x f e, d = Dict (Some x) (Some f) (Some e) false /\ length f = length x /\ length e = length x.
Proof.
  intros d. split.
  - destruct d as [|[x|] [f|] e k]; cbn; try discriminate. destruct k; [discriminate|].
    destruct (Nat.eqb_spec (length x) (length f)) as [E|E]; cbn; [|discriminate]. destruct e as [e|]; [|discriminate].
    destruct (Nat.eqb_spec (length x) (length e)) as [E'|E']; cbn; [|discriminate]. intros _. exists x, f, e. auto.
  - intros [x [f [e [-> [A B]]]]]. cbn. rewrite A, B, !Nat.eqb_refl. reflexivity.
Qed.
(** Data without energies end in a KeyError instead of the message, and complete data with one more key are refused with the
    message that energies have to be given. *)
Theorem C129_message_refuted : forall x f e, length f = length x -> length e = length x ->
  check_mlp_dataset (Dict (Some x) (Some f) None false) = Raised KeyErr /\ check_mlp_dataset (Dict (Some x) (Some f) (Some e) true) = Raised RuntimeErr.
Proof. intros x f e A B. cbn. rewrite A, Nat.eqb_refl. split; reflexivity. Qed.

(** ** Files *)
Section F.
Variable train : mlp_dict -> conf -> potential.
Let compute := compute_forces train.
Theorem C129_found : forall fs s p name, glob fs "polymlp.yaml" = ["polymlp.yaml"%string] -> lookup fs "polymlp.yaml" = Some p ->
  compute fs s name None = (fs, with_mlp s (Some p), Returned).
Proof. intros fs s p name G L. unfold compute, compute_forces. cbn [find_mlp]. rewrite G. assert (K : existsb (String.eqb (suffix_of "polymlp.yaml")) known_suffixes = true) by reflexivity. rewrite K. unfold load_mlp. rewrite L. reflexivity. Qed.
Lemma lookup_write : forall fs n p m, lookup (write fs n p) m = if String.eqb n m then Some p else lookup fs m.
Proof.
  intros fs n p m. unfold write. cbn [lookup]. destruct (String.eqb_spec n m) as [E|E]; [reflexivity|].
  induction fs as [|[k q] fs IH]; [reflexivity|]. cbn [filter fst]. destruct (String.eqb_spec k n) as [E1|E1]; cbn [negb lookup].
  - subst k. destruct (String.eqb_spec n m); [congruence|exact IH].
  - destruct (String.eqb_spec k m); [reflexivity|exact IH].
Qed.
Theorem C129_trained : forall fs s d name, glob fs "polymlp.yaml" = [] -> glob fs "phono3py.pmlp" = [] -> mdata s = Some d ->
  exists fs', let p := train d (o_ref (fc3 s)) in compute fs s name None = (fs', with_mlp s (Some p), Returned) /\
  forall m, lookup fs' m = if String.eqb "polymlp.yaml" m then Some p else lookup fs m.
Proof.
  intros fs s d name G1 G2 M. eexists. cbv zeta. split.
  - unfold compute, compute_forces. cbn [find_mlp]. rewrite G1, G2, M. unfold develop_mlp. rewrite M. reflexivity.
  - intros m. apply lookup_write.
Qed.
Theorem C129_no_potential : forall fs s name prepare, glob fs "polymlp.yaml" = [] -> glob fs "phono3py.pmlp" = [] -> mdata s = None ->
  compute fs s name prepare = (fs, s, Raised RuntimeErr).
Proof. intros fs s name prepare G1 G2 M. unfold compute, compute_forces. cbn [find_mlp]. rewrite G1, G2, M. reflexivity. Qed.

(** ** The command and the function *)
Lemma evaluate_keeps : forall s, smat (fst (evaluate_mlp s)) = smat s /\ pdata (fst (evaluate_mlp s)) = pdata s.
Proof.
  intros s. unfold evaluate_mlp. destruct (mlp s); [|auto]. destruct (supercells_with_displacements (fc3 s)) as [o cl].
  destruct (bind cl (evaluate p)) as [[a b]|]; [|auto]. destruct (o_data o) as [d|]; [|auto]. destruct (set_energies a d) as [d1 [|]]; cbn [negb]; [|auto]. destruct (set_forces b d1) as [d2 [|]]; auto.
Qed.
(** phono3py-load with complete data, no file of a potential and random displacements, one supercell for fc2 and fc3: both force
    constants are computed from the displacements generated and the forces of the potential trained with the data. *)
Theorem C129_command : forall fs s x f e disps pd, let ref := o_ref (fc3 s) in
  o_data (fc3 s) = Some (Type2 (Some x) (Some f) (Some e)) -> length f = length x -> length e = length x -> smat s = false ->
  glob fs "polymlp.yaml" = [] -> glob fs "phono3py.pmlp" = [] ->
  let p := train (Dict (Some x) (Some f) (Some e) false) ref in
  let cells := map (fun u => map (fun y => vadd3 (fst y) (snd y)) (combine ref u)) disps in
  let data := Type2 (Some disps) (Some (map (fun c => snd (p c)) cells)) (Some (map (fun c => fst (p c)) cells)) in
  exists fs' s', load_command train fs s (Some (Type2 (Some disps) None None, pd)) = (fs', s', Computed data data) /\ lookup fs' "polymlp.yaml" = Some p.
Proof.
  intros fs s x f e disps pd ref D L1 L2 SM G1 G2 p cells data. unfold load_command. rewrite D. unfold set_mlp_dataset. cbn [dict_of].
  assert (C : check_mlp_dataset (Dict (Some x) (Some f) (Some e) false) = Returned) by (apply C129_accepted; exists x, f, e; auto). rewrite C.
  set (s1 := with_ph _ _ _). unfold compute_forces. cbn [find_mlp]. rewrite G1, G2. change (mdata s1) with (Some (Dict (Some x) (Some f) (Some e) false)). unfold develop_mlp.
  change (mdata s1) with (Some (Dict (Some x) (Some f) (Some e) false)). change (o_ref (fc3 s1)) with ref. fold p. cbn [save_mlp with_mlp mlp].
  unfold generate. cbn [smat pdata with_fc3 with_mlp]. change (smat s1) with (smat s). rewrite SM.
  set (s2 := with_fc3 _ _). destruct (C129_evaluated_all s2 p disps None None) as [s3 [cl [E [-> O]]]]; [reflexivity..| |].
  { split; [reflexivity|]. intros c Hc. discriminate Hc. }
  rewrite E. exists (write fs "polymlp.yaml" p), s3. split; [|rewrite lookup_write; reflexivity].
  assert (S3 : smat s3 = false).
  { pose proof (proj1 (evaluate_keeps s2)) as K. rewrite E in K. cbn [fst] in K. rewrite K. exact SM. }
  unfold constants, fc3_from, fc2_from. rewrite S3, O. reflexivity.
Qed.
Lemma load_mlp_keeps : forall s fs n s' r, load_mlp s fs n = (s', r) -> smat s' = smat s /\ pdata s' = pdata s /\ o_data (fc3 s') = o_data (fc3 s).
Proof. intros s fs n s' r E. unfold load_mlp in E. destruct (lookup fs n); apply (f_equal fst) in E; cbn in E; subst s'; auto. Qed.
(** the potential, then the rest *)
Definition potential_stage (fs : files) (s : st) : files * st * outcome := compute fs s None None.
Lemma stage_keeps : forall fs s fs' s' r, potential_stage fs s = (fs', s', r) -> smat s' = smat s /\ pdata s' = pdata s /\ o_data (fc3 s') = o_data (fc3 s).
Proof.
  intros fs s fs' s' r E. unfold potential_stage, compute, compute_forces in E. destruct (find_mlp fs _) as [n|].
  - destruct (load_mlp s fs n) as [s1 r1] eqn:K. destruct (load_mlp_keeps _ _ _ _ _ K) as [A [B C]]. destruct r1; apply (f_equal fst) in E; cbn in E; injection E as _ <-; auto.
  - unfold develop_mlp in E. destruct (mdata s) as [d|]; [|apply (f_equal fst) in E; cbn in E; injection E as _ <-; auto].
    cbn [save_mlp with_mlp mlp] in E. apply (f_equal fst) in E; cbn in E; injection E as _ <-; auto.
Qed.
Lemma compute_split : forall fs s name prepare, compute fs s name prepare =
  let '(fs', s', r) := potential_stage fs s in
  match r, prepare with Returned, Some (d, pd) => let '(s2, r2) := evaluate_mlp (generate s' d pd) in (fs', s2, r2) | _, _ => (fs', s', r) end.
Proof.
  intros fs s name prepare. unfold potential_stage, compute, compute_forces. destruct (match find_mlp fs _ with Some n => _ | None => _ end) as [[fs' s'] r].
  destruct r; reflexivity.
Qed.
(** No forces for fc2 are made: with a phonon supercell matrix and no forces for it among the data read, the command never
    gets to the force constants. *)
Theorem C129_dim_fc2_refuted : forall fs s d pd a b, smat s = true -> forces_in (pdata s) = false -> forces_in (Some pd) = false ->
  snd (load_command train fs s (Some (d, pd))) <> Computed a b.
Proof.
  intros fs s d pd a b SM FP FG. unfold load_command.
  assert (Z : forall s1 r1, (match o_data (fc3 s) with Some d0 => let '(s0, r) := set_mlp_dataset s (dict_of d0) in match r with Returned => (with_ph (with_fc3 s0 (fst (set_dataset (fc3 s0) ANone))) (pdata s0) None, r) | _ => (s0, r) end | None => (s, Returned) end) = (s1, r1) -> smat s1 = true /\ forces_in (pdata s1) = false).
  { intros s1 r1 E. destruct (o_data (fc3 s)) as [d0|]; [|apply (f_equal fst) in E; cbn in E; subst s1; auto]. unfold set_mlp_dataset in E. destruct (check_mlp_dataset (dict_of d0)); apply (f_equal fst) in E; cbn in E; subst s1; auto. }
  destruct (match o_data (fc3 s) with Some _ => _ | None => _ end) as [s1 r1]. destruct (Z s1 r1 eq_refl) as [S1 P1]. destruct r1; [|cbn; discriminate].
  fold compute. rewrite (compute_split fs s1 None (Some (d, pd))). destruct (potential_stage fs s1) as [[fs2 s2] r2] eqn:E2. destruct (stage_keeps _ _ _ _ _ E2) as [A2 [B2 _]].
  destruct r2; [|cbn; discriminate]. set (g := generate s2 d pd). destruct (evaluate_mlp g) as [s3 r3] eqn:E3. pose proof (evaluate_keeps g) as [A3 B3]. rewrite E3 in A3, B3. cbn [fst] in A3, B3.
  destruct r3; [|cbn; discriminate]. cbn [snd]. unfold constants.
  assert (G : smat g = true /\ forces_in (pdata g) = false).
  { unfold g, generate. cbn [smat pdata with_fc3]. rewrite A2, B2, S1. destruct (pdata s1) as [q|] eqn:Q; cbn [smat pdata with_fc3 with_ph]; rewrite ?A2, ?B2, ?S1; auto. }
  destruct G as [G1 G2]. unfold fc2_from. rewrite A3, B3, G1, G2. destruct (fc3_from s3); discriminate.
Qed.
(** phono3py.load with use_pypolymlp never computes fc3. *)
Theorem C129_load_function_refuted : forall fs s fs' s' a b, load_function train fs s = (fs', s', inr (a, b)) -> a = None.
Proof.
  intros fs s fs' s' a b E. unfold load_function in E.
  assert (Z : forall s1 r1, (match o_data (fc3 s) with Some d0 => if forces_in (Some d0) then let '(s0, r) := set_mlp_dataset s (dict_of d0) in match r with Returned => (with_ph (with_fc3 s0 (fst (set_dataset (fc3 s0) ANone))) (pdata s0) None, r) | _ => (s0, r) end else (s, Returned) | None => (s, Returned) end) = (s1, r1) -> r1 = Returned -> forces_in (o_data (fc3 s1)) = false).
  { intros s1 r1 K R. subst r1. destruct (o_data (fc3 s)) as [d0|] eqn:D; [|apply (f_equal fst) in K; cbn in K; subst s1; now rewrite D].
    destruct (forces_in (Some d0)) eqn:FI; [|apply (f_equal fst) in K; cbn in K; subst s1; now rewrite D].
    unfold set_mlp_dataset in K. destruct (check_mlp_dataset (dict_of d0)); [|discriminate K]. apply (f_equal fst) in K; cbn in K; subst s1. reflexivity. }
  destruct (match o_data (fc3 s) with Some _ => _ | None => _ end) as [s1 r1]. specialize (Z s1 r1 eq_refl). destruct r1; [|discriminate E]. specialize (Z eq_refl).
  fold compute in E. change (compute fs s1 None None) with (potential_stage fs s1) in E. destruct (potential_stage fs s1) as [[fs2 s2] r2] eqn:E2. destruct (stage_keeps _ _ _ _ _ E2) as [_ [_ C]].
  destruct r2; [|discriminate E]. injection E as _ _ E _. unfold fc3_from in E. rewrite C, Z in E. symmetry. exact E.
Qed.
End F.
Print Assumptions C129_accepted.
Print Assumptions C129_message_refuted.
Print Assumptions C129_found.
Print Assumptions C129_trained.
Print Assumptions C129_no_potential.
Print Assumptions C129_command.
Print Assumptions C129_dim_fc2_refuted.
Print Assumptions C129_load_function_refuted.

(** An excluded pair has no supercell: the evaluation fails and no forces are stored. *)
Theorem C129_excluded_refuted : forall s p natom fs x, mlp s = Some p -> let ref := o_ref (fc3 s) in
  o_data (fc3 s) = Some (Type1 natom fs) -> cache_ok ref (fc3 s) -> atoms_ok (length ref) fs -> In x (slots fs) -> sl_incl x = false ->
  exists s', evaluate_mlp s = (s', Raised Other) /\ o_data (fc3 s') = Some (Type1 natom fs).
Proof.
  intros s p natom fs x M ref D CO AO I X. destruct (C37_supercells_in_order ref natom fs AO) as [cells [B F]].
  assert (N : sequence cells = None).
  { clear - F I X. induction F as [|y c sl cells H F IH]; [destruct I|]. destruct I as [<-|I].
    - rewrite X in H. subst c. reflexivity.
    - cbn [sequence]. rewrite (IH I). destruct c; reflexivity. }
  destruct (build_current (fc3 s) cells) as [o' [S [R O]]]; [exact CO|rewrite D; exact B|].
  exists (with_fc3 s o'). unfold evaluate_mlp. rewrite M, S. cbn [bind]. unfold evaluate. rewrite N. cbn [option_map].
  split; [reflexivity|]. cbn. now rewrite O.
Qed.
Print Assumptions C129_excluded_refuted.

(** ** Witnesses *)
Definition ex_ref : conf := [(0, 0, 0); (5, 0, 0)]%Q.
Definition ex_pot (k : Q) : potential := fun c => (k, map (fun v => let '(x, y, z) := v in (k * x, k * y, k * z)%Q) c).
Definition ex_train (d : mlp_dict) (_ : conf) : potential := match d with Dict _ _ (Some (e :: _)) _ => ex_pot e | _ => ex_pot 0 end.
Definition bare (o : option dataset) (sm : bool) (ph : option dataset) : st := St (Obj ex_ref o None) sm ex_ref ph None None None None None.
Definition u1 : conf := [(1, 0, 0); (0, 0, 0)]%Q.
Definition u2 : conf := [(0, 0, 0); (0, 1, 0)]%Q.
Definition ex_data : dataset := Type2 (Some [u1]) (Some [u2]) (Some [7%Q]).
Definition ex_pairs (incl : bool) : dataset := Type1 2 [Fir 0 (1, 0, 0)%Q None None None [Sec 1 (0, 1, 0)%Q None (Some incl) None None None]].
Definition ended_of {A B} (x : A * B * ended) : ended := snd x.
Example C129_evaluated_ex : let s := with_mlp (bare (Some (ex_pairs true)) false None) (Some (ex_pot 2)) in
  cache_ok ex_ref (fc3 s) /\ (exists s', evaluate_mlp s = (s', Returned) /\ match o_data (fc3 s') with Some d => get_energies d = Some (Some [2; 2]%Q) /\
    get_forces d = Some (Some [[(2, 0, 0); (10, 0, 0)]; [(2, 0, 0); (10, 2, 0)]]%Q) | None => False end) /\
  exists s', evaluate_mlp (with_mlp (bare (Some (ex_pairs false)) false None) (Some (ex_pot 2))) = (s', Raised Other).
Proof.
  cbv zeta. split; [split; [reflexivity|intros c H; discriminate H]|]. split; [|eexists; vm_compute; reflexivity].
  eexists. split; [vm_compute; reflexivity|]. split; reflexivity.
Qed.
Example C129_command_ex : glob [] "polymlp.yaml" = [] /\
  exists fs' s', load_command ex_train [] (bare (Some ex_data) false None) (Some (Type2 (Some [u2]) None None, ex_data)) =
    (fs', s', let d := Type2 (Some [u2]) (Some [[(0, 0, 0); (35, 7, 0)]]%Q) (Some [7%Q]) in Computed d d).
Proof. split; [reflexivity|]. eexists. eexists. vm_compute. reflexivity. Qed.
(** ... the same with a phonon supercell: error exit. With forces for fc2 among the data it goes on. *)
Example C129_dim_fc2_ex : forces_in (Some (Type2 (Some [u1]) None None)) = false /\
  ended_of (load_command ex_train [] (bare (Some ex_data) true None) (Some (Type2 (Some [u2]) None None, Type2 (Some [u1]) None None))) = ExitOne /\
  exists d, ended_of (load_command ex_train [] (bare (Some ex_data) true (Some ex_data)) (Some (Type2 (Some [u2]) None None, Type2 (Some [u1]) None None))) = Computed d ex_data.
Proof. split; [reflexivity|]. split; [vm_compute; reflexivity|]. eexists. vm_compute. reflexivity. Qed.
Example C129_load_function_ex : exists fs' s', load_function ex_train [] (bare (Some ex_data) false None) = (fs', s', inr (None, None)) /\ mlp s' <> None.
Proof. eexists. eexists. split; [vm_compute; reflexivity|]. discriminate. Qed.
(** A file of a potential is enough when there are no data; with displacements only, or with displacement pairs with forces, in the
    yaml file the command stops. *)
Theorem C129_data_refuted : exists fs p f1, lookup fs "polymlp.yaml" = Some p /\ glob fs "polymlp.yaml" = ["polymlp.yaml"%string] /\
  let prepare := Some (Type2 (Some [u2]) None None, ex_data) in
  (exists d, ended_of (load_command ex_train fs (bare None false None) prepare) = Computed d d) /\
  ended_of (load_command ex_train fs (bare (Some (Type2 (Some [u1]) None None)) false None) prepare) = Stopped RuntimeErr /\
  ended_of (load_command ex_train fs (bare (Some (Type1 2 [Fir 0 (1, 0, 0)%Q None (Some f1) (Some 1%Q) []])) false None) prepare) = Stopped RuntimeErr.
Proof.
  exists [("polymlp.yaml"%string, ex_pot 2)], (ex_pot 2), u1. split; [reflexivity|]. split; [reflexivity|]. cbv zeta. split; [eexists; vm_compute; reflexivity|]. split; vm_compute; reflexivity.
Qed.
(** A compressed potential is found but not the file that is opened; any other file whose name starts with polymlp.yaml, if it is
    listed first, hides the potential: it is not found, or it is replaced by one trained anew. *)
Theorem C129_files_refuted : exists p q,
  (exists s', compute_forces ex_train [("polymlp.yaml.xz"%string, p)] (bare None false None) None None = ([("polymlp.yaml.xz"%string, p)], s', Raised NotFound)) /\
  let fs := [("polymlp.yaml.bak"%string, q); ("polymlp.yaml"%string, p)] in
  (exists s', compute_forces ex_train fs (bare None false None) None None = (fs, s', Raised RuntimeErr)) /\
  exists fs' s' r, compute_forces ex_train fs (with_mdata (bare None false None) (Some (dict_of ex_data))) None None = (fs', s', Returned) /\
    lookup fs' "polymlp.yaml" = Some r /\ fst (r ex_ref) <> fst (p ex_ref).
Proof.
  exists (ex_pot 2), (ex_pot 3). split; [eexists; vm_compute; reflexivity|]. cbv zeta. split; [eexists; vm_compute; reflexivity|].
  eexists. eexists. eexists. split; [vm_compute; reflexivity|]. split; [vm_compute; reflexivity|]. vm_compute. discriminate.
Qed.
(** The argument mlp_filename is not used. *)
Theorem C129_filename_refuted : exists fs s n p, lookup fs n = Some p /\ forall train, compute_forces train fs s (Some n) None = (fs, s, Raised RuntimeErr).
Proof. exists [("other.yaml"%string, ex_pot 2)], (bare None false None), "other.yaml"%string, (ex_pot 2). split; [reflexivity|]. intros train. vm_compute. reflexivity. Qed.
(** A potential made for the supercells of fc2 alone cannot be saved; without one, saving it does not say so. *)
Theorem C129_save_refuted : forall s fs n p, 
  (mlp s = None -> pmlp s = Some p -> save_phonon_mlp s fs n = (fs, Raised RuntimeErr)) /\
  (mlp s = Some p -> pmlp s = None -> save_phonon_mlp s fs n = (fs, Raised AttributeErr)).
Proof. intros s fs n p. unfold save_phonon_mlp. split; intros H1 H2; rewrite H1, ?H2; reflexivity. Qed.
(** Energies are documented to be None when they are not found; with forces alone it is an exception. *)
Theorem C129_energies_refuted : exists d v, get_forces d = Some (Some v) /\ get_energies d = None.
Proof. exists (Type1 2 [Fir 0 (1, 0, 0)%Q None (Some u1) None []]), [u1]. split; reflexivity. Qed.
Print Assumptions C129_data_refuted.
Print Assumptions C129_files_refuted.
Print Assumptions C129_filename_refuted.
Print Assumptions C129_save_refuted.
Print Assumptions C129_energies_refuted.

(** ** C130: displacements, forces and supercells for fc2 *)
(** Row i of phonon_displacements describes displaced supercell i. *)
Definition row_of (ref row cell : conf) : Prop :=
  length row = length ref /\ length cell = length ref /\
  forall a, 0 <= a < Z.of_nat (length ref) -> veq (nth (Z.to_nat a) cell vec0) (vadd3 (nth (Z.to_nat a) ref vec0) (nth (Z.to_nat a) row vec0)).
Theorem C130_displacements : forall ref n fs, (forall f, In f fs -> 0 <= f_num f < Z.of_nat (length ref)) ->
  exists rows cells, get_pdisplacements (length ref) (Type1 n fs) = Some rows /\ build_singles ref (Type1 n fs) = Some cells /\
  length rows = length fs /\ Forall2 (row_of ref) rows cells.
Proof.
  intros ref n fs A. destruct (singles_ok ref n fs A) as [cells [B F]].
  destruct (sequence_map _ _ (fun f => put_at (zeros (length ref)) (f_num f) (f_disp f)) (fun f c => displaced (zeros (length ref)) [(f_num f, f_disp f)] c) fs) as [rows [R G]].
  { intros f I. destruct (put_at_spec (length ref) [] (zeros (length ref)) (f_num f) (f_disp f) (displaced_ref _) (A f I)) as [c [E D]]; [intros m []|]. exists c. split; [exact E|]. exact D. }
  exists rows, cells. split; [exact R|]. split; [exact B|]. split; [symmetry; exact (F2_len _ _ _ _ _ G)|].
  clear - F G. revert cells F. induction G as [|f r fs rows D G IH]; intros cells F; inversion F as [|x c y cs E K]; subst; constructor; [|apply IH; assumption].
  destruct D as [D1 D2]. destruct E as [E1 E2]. assert (LZ : length (zeros (length ref)) = length ref) by apply repeat_length. rewrite LZ in D1, D2.
  split; [exact D1|]. split; [exact E1|]. intros a Ha. eapply veq_trans; [apply E2, Ha|]. apply vadd_comp; [apply veq_refl|]. apply veq_sym. eapply veq_trans; [apply D2, Ha|].
  unfold zeros. rewrite nth_repeat0. apply vadd_0l.
Qed.
Theorem C130_displacements_all : forall ref disps f e, shape_ok (length ref) disps = true ->
  exists rows cells, get_pdisplacements (length ref) (Type2 (Some disps) f e) = Some rows /\ build_singles ref (Type2 (Some disps) f e) = Some cells /\ Forall2 (row_of ref) rows cells.
Proof.
  intros ref disps f e S. exists disps. eexists. split; [reflexivity|]. split; [reflexivity|].
  induction disps as [|u disps IH]; cbn [map]; constructor.
  - cbn [shape_ok forallb] in S. apply andb_prop in S. destruct S as [S _]. apply Nat.eqb_eq in S. split; [exact S|]. split; [rewrite map_length, combine_length, S; apply Nat.min_id|].
    intros a Ha. set (g := fun x : vec * vec => vadd3 (fst x) (snd x)). rewrite (nth_indep _ vec0 (g (vec0, vec0))) by (rewrite map_length, combine_length, S; lia).
    rewrite map_nth, combine_nth by (symmetry; exact S). apply veq_refl.
  - apply IH. cbn [shape_ok forallb] in S. apply andb_prop in S. exact (proj2 S).
Qed.
(** Forces and energies are given back in the order in which they were assigned, and the displacements do not change. *)
Theorem C130_forces : forall n fs vals es, fs <> [] -> length vals = length fs -> length es = length fs -> forall natom,
  exists fs', set_pforces natom vals (fst (set_penergies es (Type1 n fs))) = (Type1 n fs', true) /\ map (fun f => (f_num f, f_disp f)) fs' = map (fun f => (f_num f, f_disp f)) fs /\
  get_pforces (Type1 n fs') = Some vals /\ get_penergies (Type1 n fs') = Some es /\ map f_forces fs' = map Some vals /\ map f_energy fs' = map Some es.
Proof.
  intros n fs vals es NE L1 L2 natom. destruct (zip_energies_ok fs es L2) as [E1 N1]. set (f1 := zip_energies es fs) in *.
  destruct (zip_forces_ok f1 vals) as [E2 N2]; [unfold f1; now rewrite zip_len_e|]. exists (zip_forces vals f1). split; [reflexivity|].
  assert (E3 : map f_energy (zip_forces vals f1) = map Some es) by (rewrite (energy_of_no_forces _ _ N2); exact E1).
  split; [|split; [|split; [|split; [exact E2|exact E3]]]].
  - transitivity (map (fun f => (f_num f, f_disp f)) f1).
    + apply (f_equal (map (fun f => (f_num f, f_disp f)))) in N2. rewrite !map_map in N2. exact N2.
    + apply (f_equal (map (fun f => (f_num f, f_disp f)))) in N1. rewrite !map_map in N1. exact N1.
  - cbn [get_pforces]. rewrite E2, present_some. apply not_empty_some. destruct vals, fs; congruence || discriminate.
  - cbn [get_penergies]. rewrite E3, present_some. apply not_empty_some. destruct es, fs; congruence || discriminate.
Qed.
Theorem C130_forces_all : forall natom x f e vals, 
  (length vals = length x -> shape_ok natom vals = true -> set_pforces natom vals (Type2 (Some x) f e) = (Type2 (Some x) (Some vals) e, true)) /\
  (~ (length vals = length x /\ shape_ok natom vals = true) -> set_pforces natom vals (Type2 (Some x) f e) = (Type2 (Some x) f e, false)).
Proof.
  intros natom x f e vals. cbn [set_pforces]. destruct (Nat.eqb_spec (length vals) (length x)) as [E|E]; destruct (shape_ok natom vals); cbn; split; intros; try reflexivity; try congruence; exfalso; tauto.
Qed.
(** Too few or too many forces are taken without a word for displacements of one atom. *)
Theorem C130_number_refuted : exists n fs vals, (length vals < length fs)%nat /\ snd (set_pforces 2 vals (Type1 n fs)) = true /\
  get_pforces (fst (set_pforces 2 vals (Type1 n fs))) = Some vals /\ (forall v, set_pforces 2 (vals ++ [v]) (Type1 n (firstn 1 fs)) = set_pforces 2 vals (Type1 n (firstn 1 fs))).
Proof.
  exists 2, [Fir 0 (1, 0, 0)%Q None None None []; Fir 1 (1, 0, 0)%Q None None None []], [u1]. split; [cbn; lia|]. split; [reflexivity|]. split; [reflexivity|]. intros v. reflexivity.
Qed.
(** The supercells returned are those of the dataset after any calls, unless the assignment of a dataset failed. *)
Inductive pcall := PDataset (a : option dataset) | PDisplacements (x : list conf) | PForces (x : list conf) | PEnergies (x : list Q) | PGenerate (d : dataset) | PSupercells.
Definition pstep (s : st) (c : pcall) : st * bool :=
  match c with
  | PDataset a => set_pdataset s a
  | PDisplacements x => let '(d, ok) := set_pdisplacements (smat s) (length (pref s)) x (pdata s) in (with_ph s d (if ok then None else pcache s), ok)
  | PForces x => match pdata s with None => (s, false) | Some d => let '(d', ok) := set_pforces (length (pref s)) x d in (with_ph s (Some d') (pcache s), ok) end
  | PEnergies x => match pdata s with None => (s, false) | Some d => let '(d', ok) := set_penergies x d in (with_ph s (Some d') (pcache s), ok) end
  | PGenerate d => (with_ph s (Some d) None, true)
  | PSupercells => let '(s', r) := phonon_supercells s in (s', match r with Some _ => true | None => false end)
  end.
Fixpoint psession (s : st) (cs : list pcall) : st * list bool :=
  match cs with [] => (s, []) | c :: t => let '(s1, ok) := pstep s c in let '(s2, r) := psession s1 t in (s2, ok :: r) end.
Lemma singles_no_forces : forall ref n fs fs', map (fun f => (f_num f, f_disp f)) fs = map (fun f => (f_num f, f_disp f)) fs' -> build_singles ref (Type1 n fs) = build_singles ref (Type1 n fs').
Proof.
  intros ref n fs fs' E. cbn [build_singles]. f_equal. transitivity (map (fun q => add_at ref (fst q) (snd q)) (map (fun f => (f_num f, f_disp f)) fs)); [now rewrite map_map|]. rewrite E, map_map. reflexivity.
Qed.
Lemma zip_forces_keeps : forall fs vals, map (fun f => (f_num f, f_disp f)) (zip_forces vals fs) = map (fun f => (f_num f, f_disp f)) fs.
Proof. induction fs as [|f fs IH]; intros [|v vals]; cbn [zip_forces map]; try reflexivity. now rewrite IH. Qed.
Lemma zip_energies_keeps : forall fs vals, map (fun f => (f_num f, f_disp f)) (zip_energies vals fs) = map (fun f => (f_num f, f_disp f)) fs.
Proof. induction fs as [|f fs IH]; intros [|v vals]; cbn [zip_energies map]; try reflexivity. now rewrite IH. Qed.
Lemma set_pforces_build : forall ref k vals d, build_singles ref (fst (set_pforces k vals d)) = build_singles ref d.
Proof.
  intros ref k vals [n fs|[x|] f e]; try reflexivity; cbn [set_pforces].
  - apply singles_no_forces, zip_forces_keeps.
  - destruct (_ && _)%bool; reflexivity.
Qed.
Lemma set_penergies_build : forall ref vals d, build_singles ref (fst (set_penergies vals d)) = build_singles ref d.
Proof.
  intros ref vals [n fs|[x|] f e]; try reflexivity; cbn [set_penergies].
  - apply singles_no_forces, zip_energies_keeps.
  - destruct (Nat.eqb _ _); reflexivity.
Qed.
Lemma pstep_ok : forall s c, pcache_ok s -> (forall a, c = PDataset a -> snd (pstep s c) = true) -> pcache_ok (fst (pstep s c)).
Proof.
  intros s c K H. destruct c as [a|x|x|x|d|]; cbn [pstep].
  - specialize (H a eq_refl). cbn [pstep] in H. unfold set_pdataset in *. destruct a as [[n fs|[x|] f e]|]; try (intros c E; discriminate E); [|exact K].
    destruct (set_pdisplacements _ _ x _) as [d1 [|]]; cbn [negb] in *; [|discriminate H]. destruct d1 as [d1|]; [|exact K].
    destruct (match f with Some v => _ | None => _ end) as [d2 [|]]; cbn [negb] in *; [|discriminate H]. destruct (match e with Some v => _ | None => _ end) as [d3 ok3]. intros c E. discriminate E.
  - unfold set_pdisplacements. destruct (negb (smat s)); [exact K|]. destruct (negb (shape_ok _ x)); [exact K|]. destruct (pdata s) as [[n fs|y f e]|] eqn:D; try (intros c E; discriminate E).
    intros c E. cbn in E |- *. specialize (K c E). rewrite D in K. exact K.
  - destruct (pdata s) as [d|] eqn:D; [|exact K]. destruct (set_pforces _ x d) as [d' ok] eqn:S. intros c E. cbn in E |- *. specialize (K c E). rewrite D in K. cbn [bind] in K.
    rewrite <- K. pose proof (set_pforces_build (pref s) (length (pref s)) x d) as B. rewrite S in B. exact B.
  - destruct (pdata s) as [d|] eqn:D; [|exact K]. destruct (set_penergies x d) as [d' ok] eqn:S. intros c E. cbn in E |- *. specialize (K c E). rewrite D in K. cbn [bind] in K.
    rewrite <- K. pose proof (set_penergies_build (pref s) x d) as B. rewrite S in B. exact B.
  - intros c E. discriminate E.
  - unfold phonon_supercells. destruct (pcache s) as [c|] eqn:E; [exact K|]. destruct (bind (pdata s) (build_singles (pref s))) as [c|] eqn:B; [|exact K]. intros c' E'. cbn in *. congruence.
Qed.
Theorem C130_current_partial : forall s cs, pcache s = None -> Forall2 (fun c ok => forall a, c = PDataset a -> ok = true) cs (snd (psession s cs)) ->
  let s' := fst (psession s cs) in snd (phonon_supercells s') = bind (pdata s') (build_singles (pref s')).
Proof.
  intros s cs N H. assert (K : pcache_ok (fst (psession s cs))).
  { assert (K : pcache_ok s) by (intros c E; congruence). clear N. revert s H K. induction cs as [|c cs IH]; intros s H K; [exact K|]. cbn [psession] in *.
    pose proof (pstep_ok s c K) as P. destruct (pstep s c) as [s1 ok]. destruct (psession s1 cs) as [s2 r] eqn:E. cbn [fst snd] in *. inversion H; subst.
    specialize (IH s1). rewrite E in IH. apply IH; [assumption|]. apply P. intros a ->. eauto. }
  cbv zeta. unfold phonon_supercells. destruct (pcache (fst (psession s cs))) as [c|] eqn:E; [symmetry; apply K, E|]. destruct (bind _ _); reflexivity.
Qed.
(** Without phonon supercell matrix a dataset with displacements of all atoms is refused, but the previous dataset is lost and its
    supercells are still returned. *)
Theorem C130_failed_assignment_refuted : exists s d cells s', pcache s = None /\ build_singles (pref s) d = Some cells /\
  psession s [PDataset (Some d); PSupercells; PDataset (Some ex_data)] = (s', [true; true; false]) /\
  pdata s' = Some (Type2 None None None) /\ snd (phonon_supercells s') = Some cells /\ bind (pdata s') (build_singles (pref s')) = None.
Proof.
  exists (bare None false None), (ex_pairs true). eexists. eexists. split; [reflexivity|]. split; [vm_compute; reflexivity|]. split; [vm_compute; reflexivity|]. split; [reflexivity|]. split; vm_compute; reflexivity.
Qed.
Example C130_ex : let s := bare None true None in exists s', psession s [PDataset (Some ex_data); PSupercells; PDisplacements [u2]; PForces [u1]; PForces [u1; u2]; PSupercells] = (s', [true; true; true; true; false; true]) /\
  snd (phonon_supercells s') = Some [[(0 + 0, 0 + 0, 0 + 0); (5 + 0, 0 + 1, 0 + 0)]]%Q /\ option_map get_pforces (pdata s') = Some (Some [u1]).
Proof. cbv zeta. eexists. split; [vm_compute; reflexivity|]. split; vm_compute; reflexivity. Qed.
Example C130_forces_ex : let fs := [Fir 0 (1, 0, 0)%Q None None None []; Fir 1 (1, 0, 0)%Q None None None []] in fs <> [] /\ (forall f, In f fs -> 0 <= f_num f < Z.of_nat (length ex_ref)) /\
  get_pdisplacements 2 (Type1 2 fs) = Some [[(1, 0, 0); (0, 0, 0)]; [(0, 0, 0); (1, 0, 0)]]%Q.
Proof. cbv zeta. split; [discriminate|]. split; [intros f [<-|[<-|[]]]; cbn; lia|reflexivity]. Qed.
Print Assumptions C130_displacements.
Print Assumptions C130_displacements_all.
Print Assumptions C130_forces.
Print Assumptions C130_forces_all.
Print Assumptions C130_number_refuted.
Print Assumptions C130_current_partial.
Print Assumptions C130_failed_assignment_refuted.

(** A dataset for training is stored if it is accepted, otherwise nothing changes. *)
Theorem C129_stored : forall s d, (check_mlp_dataset d = Returned -> set_mlp_dataset s d = (with_mdata s (Some d), Returned)) /\
  forall e, check_mlp_dataset d = Raised e -> set_mlp_dataset s d = (s, Raised e).
Proof. intros s d. unfold set_mlp_dataset. split; [intros ->; reflexivity|intros e ->; reflexivity]. Qed.
(** The second file name is used if there is no file of the first. *)
Theorem C129_second_file : forall train fs s p name, glob fs "polymlp.yaml" = [] -> glob fs "phono3py.pmlp" = ["phono3py.pmlp"%string] -> lookup fs "phono3py.pmlp" = Some p ->
  compute_forces train fs s name None = (fs, with_mlp s (Some p), Returned).
Proof.
  intros train fs s p name G1 G2 L. unfold compute_forces. cbn [find_mlp]. rewrite G1, G2.
  assert (K : existsb (String.eqb (suffix_of "phono3py.pmlp")) known_suffixes = true) by reflexivity. rewrite K. unfold load_mlp. rewrite L. reflexivity.
Qed.
(** The potential for the phonon supercell is trained on its own data and on its own supercell, and used for it: the one of fc3 is
    not changed by it. *)
Theorem C129_phonon_trained : forall train s d, pmdata s = Some d ->
  exists s', develop_phonon_mlp train s = (s', Returned) /\ pmlp s' = Some (train d (pref s)) /\ mlp s' = mlp s /\ fc3 s' = fc3 s /\ pdata s' = pdata s /\ pcache s' = pcache s /\ mdata s' = mdata s.
Proof. intros train s d H. eexists. unfold develop_phonon_mlp. rewrite H. split; [reflexivity|]. repeat split; reflexivity. Qed.
Example C129_second_file_ex : exists s', compute_forces ex_train [("phono3py.pmlp"%string, ex_pot 2)] (bare None false None) None None = ([("phono3py.pmlp"%string, ex_pot 2)], s', Returned) /\ mlp s' = Some (ex_pot 2).
Proof. eexists. split; vm_compute; reflexivity. Qed.
(** Displacements of all atoms: taken if a phonon supercell is given, their shape is right and the dataset is not one of single
    displacements, then they are those of the supercells, and forces and energies stay; otherwise refused, and nothing changes. *)
Theorem C130_assigned : forall s x, let right := smat s = true /\ shape_ok (length (pref s)) x = true /\ match pdata s with Some (Type1 _ _) => False | _ => True end in
  (right -> exists s' cells, pstep s (PDisplacements x) = (s', true) /\ phonon_supercells s' = (with_ph s' (pdata s') (Some cells), Some cells) /\ Forall2 (row_of (pref s)) x cells /\
     bind (pdata s') (get_pdisplacements (length (pref s))) = Some x /\ bind (pdata s') get_pforces = bind (pdata s) get_pforces /\ bind (pdata s') get_penergies = bind (pdata s) get_penergies) /\
  (~ right -> exists s', pstep s (PDisplacements x) = (s', false) /\ pdata s' = pdata s /\ pcache s' = pcache s).
Proof.
  intros s x right. split.
  - intros [R1 [R2 R3]]. cbn [pstep]. unfold set_pdisplacements. rewrite R1, R2. cbn [negb].
    destruct (C130_displacements_all (pref s) x None None R2) as [rows [cells [A [B F]]]]. cbn in A. injection A as <-.
    destruct (pdata s) as [[n fs|y f e]|]; [destruct R3| |]; eexists; exists cells; (split; [reflexivity|]); cbn [pdata with_ph]; unfold phonon_supercells; cbn [pcache pdata pref with_ph bind build_singles] in *;
      (split; [injection B as <-; reflexivity|]); (split; [exact F|]); repeat split; reflexivity.
  - intros N. cbn [pstep]. unfold set_pdisplacements. destruct (smat s) eqn:R1; cbn [negb]; [|eexists; repeat split; reflexivity].
    destruct (shape_ok (length (pref s)) x) eqn:R2; cbn [negb]; [|eexists; repeat split; reflexivity].
    destruct (pdata s) as [[n fs|y f e]|] eqn:R3; [eexists; cbn; repeat split; auto| |]; destruct N; repeat split; auto.
Qed.
Theorem C130_energies_all : forall x f e vals,
  (length vals = length x -> set_penergies vals (Type2 (Some x) f e) = (Type2 (Some x) f (Some vals), true)) /\
  (length vals <> length x -> set_penergies vals (Type2 (Some x) f e) = (Type2 (Some x) f e, false)).
Proof. intros x f e vals. cbn [set_penergies]. destruct (Nat.eqb_spec (length vals) (length x)) as [E|E]; split; intros; try reflexivity; congruence. Qed.
Print Assumptions C129_stored.
Print Assumptions C129_second_file.
Print Assumptions C129_phonon_trained.
Print Assumptions C130_assigned.
Print Assumptions C130_energies_all.
