From Coq Require Import ZArith QArith List Bool Lia.
From Verif Require Import Base BaseProofs DsModel DsProps ForcesModel.
Import ListNotations.
Open Scope Z_scope.

(** Independent description: only the lines with numbers count; the i-th supercell takes natom of them. *)
Fixpoint nums (lines : list line) : conf := match lines with [] => [] | LNums v :: t => v :: nums t | _ :: t => nums t end.
Definition chunk (natom : nat) (l : conf) (i : nat) : conf := firstn natom (skipn (i * natom) l).

(** The values in the file times the factor, component by component. *)
Definition in_units (factor : option Q) (c : conf) : conf := match factor with None => c | Some u => map (fun v => (fst (fst v) * u, snd (fst v) * u, snd v * u)%Q) c end.
Lemma convert_units : forall factor c, convert factor c = in_units factor c.
Proof. intros [u|] c; [|reflexivity]. apply map_ext. intros [[a b] d]. reflexivity. Qed.

Lemma nums_app : forall a b, nums (a ++ b) = nums a ++ nums b.
Proof. induction a as [|[| |v] a IH]; intros b; cbn; [reflexivity|apply IH|apply IH|now rewrite IH]. Qed.
Lemma parse_lines_spec : forall natom lines acc, (length acc < natom)%nat ->
  let k := (natom - length acc)%nat in
  if Nat.leb k (length (nums lines)) then exists rest, parse_force_lines natom acc lines = (Some (acc ++ firstn k (nums lines)), rest) /\ nums rest = skipn k (nums lines)
  else fst (parse_force_lines natom acc lines) = None.
Proof.
  intros natom. induction lines as [|l lines IH]; intros acc H k.
  - cbn [nums length]. destruct (Nat.leb_spec k 0) as [L|L]; [unfold k in L; lia|]. cbn. destruct (Nat.eqb_spec (length acc) natom); [lia|reflexivity].
  - destruct l as [| |v]; [apply IH, H..|]. cbn [parse_force_lines nums length]. rewrite app_length. cbn [length]. destruct (Nat.eqb_spec (length acc + 1) natom) as [E|E].
    + assert (k = 1)%nat by (unfold k; lia). clearbody k. subst k. cbn [Nat.leb]. exists lines. split; [reflexivity|]. reflexivity.
    + specialize (IH (acc ++ [v])). rewrite app_length in IH. cbn [length] in IH. specialize (IH ltac:(lia)). cbn zeta in IH.
      replace k with (S (natom - (length acc + 1))) by (unfold k; lia). cbn [Nat.leb firstn skipn].
      destruct (Nat.leb (natom - (length acc + 1)) (length (nums lines))); [|exact IH]. destruct IH as [rest [E1 E2]]. exists rest. split; [|exact E2]. rewrite E1, <- app_assoc. reflexivity.
Qed.
Lemma parse_all_spec : forall natom n lines, (0 < natom)%nat ->
  if Nat.leb (n * natom) (length (nums lines)) then parse_all natom n lines = Some (map (chunk natom (nums lines)) (seq 0 n)) else parse_all natom n lines = None.
Proof.
  intros natom n lines Hn. revert lines. induction n as [|n IH]; intros lines; [reflexivity|]. cbn [parse_all].
  pose proof (parse_lines_spec natom lines [] Hn) as P. cbn [length] in P. cbn zeta in P. rewrite Nat.sub_0_r in P.
  destruct (Nat.leb_spec natom (length (nums lines))) as [L|L].
  - destruct P as [rest [E1 E2]]. rewrite E1. cbn [app]. specialize (IH rest). rewrite E2, skipn_length in IH.
    replace (Nat.leb (S n * natom) (length (nums lines))) with (Nat.leb (n * natom) (length (nums lines) - natom)).
    2:{ cbn [Nat.mul]. destruct (Nat.leb_spec (n * natom) (length (nums lines) - natom)), (Nat.leb_spec (natom + n * natom) (length (nums lines))); try reflexivity; lia. }
    destruct (Nat.leb (n * natom) (length (nums lines) - natom)); rewrite IH; [|reflexivity]. cbn [option_map seq map]. f_equal. f_equal.
    rewrite <- seq_shift, map_map. apply map_ext. intros i. unfold chunk. rewrite skipn_skipn2. f_equal.
  - destruct (Nat.leb_spec (S n * natom) (length (nums lines))) as [L'|L']; [cbn in L'; lia|]. destruct (parse_force_lines natom [] lines) as [r x]. cbn in P. subst r. reflexivity.
Qed.
Lemma count_pairs : forall fs k, fold_left (fun n f => n + length (f_second f))%nat fs k = (k + npairs fs)%nat.
Proof. unfold npairs. induction fs as [|f fs IH]; intros k; cbn [fold_left flat_map]; [cbn; lia|]. rewrite IH, app_length. lia. Qed.

(** ** C40, reading: the file is refused exactly when it has too few lines with numbers; otherwise each
    displacement (pair) receives its lines, and nothing else changes. *)
Theorem C40_parse_fc3 : forall factor lines natom fs, 0 < natom ->
  let n := Z.to_nat natom in
  (parse_FORCES_FC3 factor lines natom fs = None <-> (length (nums lines) < length (slots fs) * n)%nat) /\
  forall fs', parse_FORCES_FC3 factor lines natom fs = Some fs' ->
    map sl_forces (slots fs') = map (fun i => Some (in_units factor (chunk n (nums lines) i))) (seq 0 (length (slots fs))) /\
    map no_forces_f fs' = map no_forces_f fs.
Proof.
  intros factor lines natom fs Hn n. unfold parse_FORCES_FC3. rewrite count_pairs. cbn [plus].
  replace (length fs + npairs fs)%nat with (length (slots fs)) by apply slots_length. fold n. pose proof (parse_all_spec n (length (slots fs)) lines ltac:(unfold n; lia)) as P.
  destruct (Nat.leb_spec (length (slots fs) * n) (length (nums lines))) as [L|L]; rewrite P; cbn [option_map].
  - split; [split; [intros X; discriminate X|lia]|].
    set (vals := map (convert factor) (map (chunk n (nums lines)) (seq 0 (length (slots fs))))).
    destruct (C37_forces_in_order natom fs vals) as [fs'' [E [A [B _]]]]; [unfold vals; rewrite !map_length, seq_length; reflexivity|].
    intros fs' H. injection H as H. cbn [set_forces] in E. destruct (set_first vals fs) as [fs1 [rest|]]; [|discriminate E]. destruct (set_second rest fs1) as [fs2 r2]. cbn [fst] in H. injection E as E _. subst fs' fs2.
    split; [|exact B]. rewrite A. unfold vals. rewrite !map_map. apply map_ext. intros i. now rewrite convert_units.
  - split; [split; auto|]. intros fs' X. discriminate X.
Qed.
Print Assumptions C40_parse_fc3.
Theorem C40_parse_fc2 : forall factor lines natom fs, 0 < natom ->
  let n := Z.to_nat natom in
  ((length (nums lines) < length fs * n)%nat -> parse_FORCES_FC2 factor lines natom fs = fs) /\
  ((length fs * n <= length (nums lines))%nat ->
     map f_forces (parse_FORCES_FC2 factor lines natom fs) = map (fun i => Some (in_units factor (chunk n (nums lines) i))) (seq 0 (length fs)) /\
     map no_forces_f (parse_FORCES_FC2 factor lines natom fs) = map no_forces_f fs).
Proof.
  intros factor lines natom fs Hn n. unfold parse_FORCES_FC2. fold n. pose proof (parse_all_spec n (length fs) lines ltac:(unfold n; lia)) as P.
  destruct (Nat.leb_spec (length fs * n) (length (nums lines))) as [L|L]; rewrite P; (split; [intros H; try lia|intros H; try lia]); [|reflexivity].
  set (vals := map (convert factor) (map (chunk n (nums lines)) (seq 0 (length fs)))).
  assert (Lv : length vals = length fs) by (unfold vals; rewrite !map_length, seq_length; reflexivity).
  destruct (set_first_spec fs vals ltac:(lia)) as [fs' [E [F [N _]]]]. rewrite E. cbn [fst]. split; [|exact N]. rewrite F, (firstn_all2 vals) by lia. unfold vals. rewrite !map_map. apply map_ext. intros i. now rewrite convert_units.
Qed.
Print Assumptions C40_parse_fc2.

(** The force set written for a slot: zeros for an excluded pair; else the one in the dataset, or the next of
    the given array. *)
Definition ninc (sl : list slot) : nat := length (filter sl_incl sl).
Definition to_write (natom : nat) (given : option (list conf)) (sl : list slot) (i : nat) (f : conf) : Prop :=
  exists s, nth_error sl i = Some s /\
    if sl_incl s then match given with None => sl_forces s = Some f | Some v => nth_error v (ninc (firstn i sl)) = Some f end else f = zeros natom.
(** the slots written one after the other, k included ones before *)
Fixpoint written (natom : nat) (given : option (list conf)) (k : nat) (sl : list slot) : option (list conf) :=
  match sl with
  | [] => Some []
  | s :: t => if sl_incl s then bind (force_of (sl_forces s) given k) (fun f => option_map (cons f) (written natom given (S k) t)) else option_map (cons (zeros natom)) (written natom given k t)
  end.
Lemma written_app : forall natom given a b k, written natom given k (a ++ b) = bind (written natom given k a) (fun x => option_map (app x) (written natom given (k + ninc a) b)).
Proof.
  intros natom given. induction a as [|s a IH]; intros b k.
  - cbn. rewrite Nat.add_0_r. destruct (written natom given k b); reflexivity.
  - cbn [app written]. unfold ninc in *. cbn [filter]. destruct (sl_incl s).
    + destruct (force_of (sl_forces s) given k) as [f|]; [|reflexivity]. cbn [bind]. rewrite IH. cbn [length]. rewrite Nat.add_succ_r. destruct (written natom given (S k) a) as [x|]; [|reflexivity].
      cbn [bind option_map Nat.add]. destruct (written natom given _ b); reflexivity.
    + rewrite IH. destruct (written natom given k a) as [x|]; [|reflexivity]. cbn [bind option_map]. destruct (written natom given _ b); reflexivity.
Qed.
Lemma written_spec : forall natom given sl k r, written natom given k sl = Some r -> length r = length sl /\
  forall i (f : conf), nth_error r i = Some f -> exists s, nth_error sl i = Some s /\
    if sl_incl s then match given with None => sl_forces s = Some f | Some v => nth_error v (k + ninc (firstn i sl)) = Some f end else f = zeros natom.
Proof.
  intros natom given. induction sl as [|s sl IH]; intros k r E; [injection E as <-; split; [reflexivity|intros [|i] f H; discriminate H]|]. cbn [written] in E. destruct (sl_incl s) eqn:Ei.
  - destruct (force_of (sl_forces s) given k) as [f0|] eqn:Ef; [|discriminate E]. cbn [bind] in E. destruct (written natom given (S k) sl) as [t|] eqn:Et; [|discriminate E]. injection E as <-.
    destruct (IH _ _ Et) as [L H]. split; [cbn; now rewrite L|]. intros [|i] f Hf; cbn [nth_error] in *.
    + injection Hf as <-. exists s. split; [reflexivity|]. rewrite Ei. cbn [firstn]. unfold ninc. cbn. rewrite Nat.add_0_r. unfold force_of in Ef. destruct given; [exact Ef|]. destruct (sl_forces s); [exact Ef|discriminate Ef].
    + destruct (H i f Hf) as [s' [H1 H2]]. exists s'. split; [exact H1|]. cbn [firstn]. unfold ninc in *. cbn [filter]. rewrite Ei. cbn [length]. rewrite Nat.add_succ_r. exact H2.
  - destruct (written natom given k sl) as [t|] eqn:Et; [|discriminate E]. injection E as <-. destruct (IH _ _ Et) as [L H]. split; [cbn; now rewrite L|]. intros [|i] f Hf; cbn [nth_error] in *.
    + injection Hf as <-. exists s. split; [reflexivity|]. rewrite Ei. reflexivity.
    + destruct (H i f Hf) as [s' [H1 H2]]. exists s'. split; [exact H1|]. cbn [firstn]. unfold ninc in *. cbn [filter]. rewrite Ei. exact H2.
Qed.
Lemma written_some : forall natom given sl k, (forall i s, nth_error sl i = Some s -> sl_incl s = true -> match given with None => sl_forces s <> None | Some v => (k + ninc (firstn i sl) < length v)%nat end) -> exists r, written natom given k sl = Some r.
Proof.
  intros natom given. induction sl as [|s sl IH]; intros k H; [eexists; reflexivity|]. cbn [written]. destruct (sl_incl s) eqn:Ei.
  - destruct (force_of (sl_forces s) given k) as [f|] eqn:Ef.
    + cbn [bind]. destruct (IH (S k)) as [r E]; [|rewrite E; eexists; reflexivity]. intros i s' Hi Hin. specialize (H (S i) s' Hi Hin). cbn [firstn] in H. unfold ninc in *. cbn [filter] in H. rewrite Ei in H. cbn [length] in H. rewrite Nat.add_succ_r in H. exact H.
    + exfalso. specialize (H 0%nat s eq_refl Ei). unfold force_of in Ef. cbn in H. destruct given as [v|]; [|destruct (sl_forces s); [discriminate Ef|now apply H]]. apply nth_error_None in Ef. rewrite Nat.add_0_r in H. lia.
  - destruct (IH k) as [r E]; [|rewrite E; eexists; reflexivity]. intros i s' Hi Hin. specialize (H (S i) s' Hi Hin). cbn [firstn] in H. unfold ninc in *. cbn [filter] in H. rewrite Ei in H. exact H.
Qed.
Section Write.
Variables (rv : vec -> vec) (given : option (list conf)) (natom : nat).
Definition flat (r : list conf) : conf := flat_map (map rv) r.
Lemma nums_set : forall (f : conf), nums (map (fun x => LNums (rv x)) f) = map rv f.
Proof. induction f as [|x f IH]; [reflexivity|]. cbn. now rewrite IH. Qed.
Lemma nums_zero : nums (repeat (LNums (rv vec0)) natom) = map rv (zeros natom).
Proof. unfold zeros. induction natom as [|n IH]; [reflexivity|]. cbn. now rewrite IH. Qed.
Definition same (o : option (list line)) (w : option (list conf)) : Prop := match o, w with Some l, Some r => nums l = flat r | None, None => True | _, _ => False end.
Lemma write_fc2_spec : forall fs k, same (write_FORCES_FC2 rv given k fs) (written natom given k (map (fun f => Slot [(f_num f, f_disp f)] true (f_forces f)) fs)).
Proof.
  induction fs as [|f fs IH]; intros k; [reflexivity|]. cbn [write_FORCES_FC2 map written sl_incl sl_forces]. destruct (force_of (f_forces f) given k) as [x|]; [|exact I]. cbn [bind]. specialize (IH (S k)). unfold same in IH.
  destruct (write_FORCES_FC2 rv given (S k) fs) as [l|], (written natom given (S k) (map _ fs)) as [r|]; try contradiction; [|exact I]. cbn [bind option_map same app nums]. rewrite nums_app, nums_set, IH. reflexivity.
Qed.
Lemma write_seconds_spec : forall n1 d1 ss k, match write_seconds rv given natom k ss with
  | Some (l, k') => k' = (k + length (filter included ss))%nat /\ same (Some l) (written natom given k (map (fun s => Slot [(n1, d1); (s_num s, s_disp s)] (included s) (s_forces s)) ss))
  | None => written natom given k (map (fun s => Slot [(n1, d1); (s_num s, s_disp s)] (included s) (s_forces s)) ss) = None end.
Proof.
  intros n1 d1. induction ss as [|s ss IH]; intros k; [cbn; split; [lia|reflexivity]|]. cbn [write_seconds map written sl_incl sl_forces filter]. destruct (included s).
  - destruct (force_of (s_forces s) given k) as [x|]; [|reflexivity]. cbn [bind]. specialize (IH (S k)). destruct (write_seconds rv given natom (S k) ss) as [[l k']|]; [|cbn [bind]; rewrite IH; reflexivity].
    destruct IH as [-> IH]. cbn [bind fst snd]. split; [cbn [length]; lia|]. unfold same in *. destruct (written natom given (S k) (map _ ss)); [|contradiction]. cbn [option_map app nums]. rewrite nums_app, nums_set, IH. reflexivity.
  - specialize (IH k). destruct (write_seconds rv given natom k ss) as [[l k']|]; [|cbn [bind]; rewrite IH; reflexivity].
    destruct IH as [-> IH]. cbn [bind fst snd]. split; [reflexivity|]. unfold same in *. destruct (written natom given k (map _ ss)); [|contradiction]. cbn [option_map app nums]. rewrite nums_app, nums_zero, IH. reflexivity.
Qed.
Lemma ninc_seconds : forall n1 d1 ss, ninc (map (fun s => Slot [(n1, d1); (s_num s, s_disp s)] (included s) (s_forces s)) ss) = length (filter included ss).
Proof. intros. unfold ninc. induction ss as [|s ss IH]; [reflexivity|]. cbn [map filter sl_incl]. destruct (included s); cbn [length]; now rewrite IH. Qed.
Lemma write_pairs_spec : forall fs k, same (write_pairs rv given natom k fs)
  (written natom given k (flat_map (fun f => map (fun s => Slot [(f_num f, f_disp f); (s_num s, s_disp s)] (included s) (s_forces s)) (f_second f)) fs)).
Proof.
  induction fs as [|f fs IH]; intros k; [reflexivity|]. cbn [write_pairs flat_map]. rewrite written_app, ninc_seconds. pose proof (write_seconds_spec (f_num f) (f_disp f) (f_second f) k) as S.
  destruct (write_seconds rv given natom k (f_second f)) as [[l k']|]; [|rewrite S; exact I]. destruct S as [-> S]. cbn [bind fst snd]. unfold same in S. destruct (written natom given k (map _ (f_second f))) as [r|]; [|contradiction]. cbn [bind].
  specialize (IH (k + length (filter included (f_second f)))%nat). unfold same in IH. destruct (write_pairs rv given natom _ fs) as [l2|], (written natom given _ (flat_map _ fs)) as [r2|]; try contradiction; [|exact I].
  cbn [bind option_map same]. rewrite nums_app, S, IH. unfold flat. rewrite flat_map_app. reflexivity.
Qed.
Lemma write_fc3_spec : forall fs, same (write_FORCES_FC3 rv natom fs given) (written natom given 0 (slots fs)).
Proof.
  intros fs. unfold write_FORCES_FC3, slots. rewrite written_app. pose proof (write_fc2_spec fs 0) as A. unfold same in A.
  assert (N : ninc (map (fun f => Slot [(f_num f, f_disp f)] true (f_forces f)) fs) = length fs) by (unfold ninc; induction fs as [|f l IH]; [reflexivity|]; cbn [map filter sl_incl length]; f_equal; clear - l; induction l as [|g l IH]; [reflexivity|]; cbn [map filter sl_incl length]; now rewrite IH).
  rewrite N. cbn [Nat.add]. destruct (write_FORCES_FC2 rv given 0 fs) as [l|], (written natom given 0 (map _ fs)) as [r|]; try contradiction; [|exact I]. cbn [bind].
  pose proof (write_pairs_spec fs (length fs)) as B. unfold same in B. destruct (write_pairs rv given natom (length fs) fs) as [l2|], (written natom given (length fs) _) as [r2|]; try contradiction; [|exact I].
  cbn [bind option_map same]. rewrite nums_app, A, B. unfold flat. rewrite flat_map_app. reflexivity.
Qed.
End Write.
Lemma chunk_flat : forall rv natom (r : list conf) i (f : conf), (forall x : conf, In x r -> length x = natom) -> nth_error r i = Some f -> chunk natom (flat rv r) i = map rv f.
Proof.
  intros rv natom. induction r as [|x r IH]; intros i f H Hf; [destruct i; discriminate Hf|]. destruct i as [|i]; cbn [nth_error] in Hf.
  - injection Hf as ->. unfold chunk, flat. cbn [Nat.mul skipn flat_map]. rewrite firstn_app, map_length, (H f (or_introl eq_refl)), Nat.sub_diag. cbn [firstn]. rewrite app_nil_r. apply firstn_all2. rewrite map_length, (H f (or_introl eq_refl)). lia.
  - rewrite <- (IH i f (fun y h => H y (or_intror h)) Hf). unfold chunk, flat. cbn [flat_map]. f_equal. cbn [Nat.mul]. rewrite skipn_app, map_length, (H x (or_introl eq_refl)).
    rewrite skipn_all2 by (rewrite map_length, (H x (or_introl eq_refl)); lia). cbn [app]. f_equal. lia.
Qed.
Lemma flat_length : forall rv natom (r : list conf), (forall x : conf, In x r -> length x = natom) -> length (flat rv r) = (length r * natom)%nat.
Proof. intros rv natom. unfold flat. induction r as [|x r IH]; intros H; [reflexivity|]. cbn [flat_map length Nat.mul]. rewrite app_length, map_length, (H x (or_introl eq_refl)), IH by (intros y h; apply H; right; exact h). reflexivity. Qed.

(** ** C40: writing FORCES_FC3 and reading it with a dataset that has the same displacements attaches to the
    i-th displacement (pair) the forces written for it (rounded by the format), zeros for excluded pairs. *)
Theorem C40_fc3_round_trip : forall rv natom fs fs0 given,
  0 < natom -> let n := Z.to_nat natom in
  (forall s f, In s (slots fs) -> sl_incl s = true -> given = None -> sl_forces s = Some f -> length f = n) -> (forall (v : list conf) (f : conf), given = Some v -> In f v -> length f = n) ->
  (forall s, In s (slots fs) -> sl_incl s = true -> given = None -> sl_forces s <> None) -> (forall v, given = Some v -> (ninc (slots fs) <= length v)%nat) ->
  length (slots fs0) = length (slots fs) ->
  exists lines fs', write_FORCES_FC3 rv n fs given = Some lines /\ parse_FORCES_FC3 None lines natom fs0 = Some fs' /\ map no_forces_f fs' = map no_forces_f fs0 /\
    forall i s, nth_error (slots fs') i = Some s -> exists f, to_write n given (slots fs) i f /\ sl_forces s = Some (map rv f).
Proof.
  intros rv natom fs fs0 given Hn n Hl Hv Hf Hg Hs. pose proof (write_fc3_spec rv given n fs) as W.
  destruct (written_some n given (slots fs) 0) as [r Er].
  { intros i s Hi Hin. destruct given as [v|].
    - cbn [Nat.add]. specialize (Hg v eq_refl). unfold ninc in *. rewrite <- (firstn_skipn i (slots fs)) in Hg. rewrite filter_app, app_length in Hg.
      enough (0 < length (filter sl_incl (skipn i (slots fs))))%nat by (eapply Nat.lt_le_trans; [|exact Hg]; lia). assert (In s (skipn i (slots fs))). { clear - Hi. revert Hi. generalize (slots fs) as l. induction i as [|i IH]; intros [|x l] H; try discriminate H; cbn in *; [injection H as ->; auto|apply IH, H]. }
      assert (In s (filter sl_incl (skipn i (slots fs)))) by (apply filter_In; auto). destruct (filter sl_incl (skipn i (slots fs))); [contradiction|cbn; lia].
    - apply (Hf s (nth_error_In _ _ Hi) Hin eq_refl). }
  rewrite Er in W. unfold same in W. destruct (write_FORCES_FC3 rv n fs given) as [lines|]; [|contradiction]. destruct (written_spec n given (slots fs) 0 r Er) as [Lr Hr].
  assert (Ln : forall x, In x r -> length x = n).
  { intros x Hx. apply In_nth_error in Hx. destruct Hx as [i Hi]. destruct (Hr i x Hi) as [s [H1 H2]]. destruct (sl_incl s) eqn:Ei.
    - destruct given as [v|]; [eapply Hv; [reflexivity|eapply nth_error_In, H2]|]. eapply Hl; [eapply nth_error_In, H1|exact Ei|reflexivity|exact H2].
    - subst x. apply repeat_length. }
  destruct (C40_parse_fc3 None lines natom fs0 Hn) as [P1 P2]. fold n in P1, P2. rewrite W, (flat_length rv n r Ln), Lr, <- Hs in P1.
  destruct (parse_FORCES_FC3 None lines natom fs0) as [fs'|] eqn:Ep; [|exfalso; pose proof (proj1 P1 eq_refl); lia]. destruct (P2 fs' eq_refl) as [A B].
  exists lines, fs'. split; [reflexivity|]. split; [exact Ep|]. split; [exact B|]. intros i s Hi.
  assert (Hi' : nth_error (map sl_forces (slots fs')) i = Some (sl_forces s)) by (rewrite nth_error_map, Hi; reflexivity). rewrite A, nth_error_map in Hi'.
  destruct (nth_error (seq 0 (length (slots fs0))) i) as [j|] eqn:Ej; [|discriminate Hi'].
  assert (Li : (i < length (seq 0 (length (slots fs0))))%nat) by (apply nth_error_Some; rewrite Ej; discriminate).
  assert (j = i). { rewrite (nth_error_nth' _ 0%nat Li) in Ej. rewrite seq_length in Li. rewrite seq_nth in Ej by exact Li. cbn in Ej. congruence. } subst j. rewrite seq_length in Li.
  destruct (nth_error r i) as [f|] eqn:Erf; [|apply nth_error_None in Erf; lia]. exists f. split; [exact (Hr i f Erf)|]. cbn [option_map in_units] in Hi'. injection Hi' as Hi'. rewrite <- Hi', W. f_equal. apply chunk_flat; assumption.
Qed.
Print Assumptions C40_fc3_round_trip.

Theorem C40_fc2_round_trip : forall rv natom fs fs0 given, 0 < natom -> let n := Z.to_nat natom in
  (forall f c, In f fs -> given = None -> f_forces f = Some c -> length c = n) -> (forall (v : list conf) (c : conf), given = Some v -> In c v -> length c = n) ->
  (forall f, In f fs -> given = None -> f_forces f <> None) -> (forall v, given = Some v -> (length fs <= length v)%nat) -> length fs0 = length fs ->
  exists lines, write_FORCES_FC2 rv given 0 fs = Some lines /\ map no_forces_f (parse_FORCES_FC2 None lines natom fs0) = map no_forces_f fs0 /\
    forall i f f', nth_error fs i = Some f -> nth_error (parse_FORCES_FC2 None lines natom fs0) i = Some f' ->
      exists c, f_forces f' = Some (map rv c) /\ match given with None => f_forces f = Some c | Some v => nth_error v i = Some c end.
Proof.
  intros rv natom fs fs0 given Hn n Hl Hv Hf Hg Hs. set (sl := map (fun f => Slot [(f_num f, f_disp f)] true (f_forces f)) fs). pose proof (write_fc2_spec rv given n fs 0) as W. fold sl in W.
  assert (Ls : length sl = length fs) by apply map_length.
  assert (Inc : forall s, In s sl -> sl_incl s = true) by (intros s H; apply in_map_iff in H; destruct H as [f [<- _]]; reflexivity).
  assert (Nn : forall i, (i <= length sl)%nat -> ninc (firstn i sl) = i).
  { intros i Hi. unfold ninc. assert (G : forall l, (forall s, In s l -> sl_incl s = true) -> filter sl_incl l = l). { clear. induction l as [|s l IH]; intros H; [reflexivity|]. cbn. rewrite (H s (or_introl eq_refl)), IH; [reflexivity|]. intros x h. apply H. now right. }
    rewrite G by (intros s H; apply Inc; clear - H; revert H; generalize sl as l; induction i as [|i IH]; intros [|x l] H; cbn in *; try contradiction; destruct H; auto). apply firstn_length_le, Hi. }
  assert (Own : forall i s, nth_error sl i = Some s -> exists f, nth_error fs i = Some f /\ sl_forces s = f_forces f).
  { intros i s H. unfold sl in H. rewrite nth_error_map in H. destruct (nth_error fs i) as [f|]; [|discriminate H]. injection H as <-. eauto. }
  destruct (written_some n given sl 0) as [r Er].
  { intros i s Hi _. destruct given as [v|].
    - assert ((i < length sl)%nat) by (apply nth_error_Some; rewrite Hi; discriminate). rewrite Nn by lia. specialize (Hg v eq_refl). lia.
    - destruct (Own i s Hi) as [f [H1 H2]]. rewrite H2. apply Hf; [eapply nth_error_In, H1|reflexivity]. }
  rewrite Er in W. unfold same in W. destruct (write_FORCES_FC2 rv given 0 fs) as [lines|]; [|contradiction]. destruct (written_spec n given sl 0 r Er) as [Lr Hr].
  assert (Get : forall i c, nth_error r i = Some c -> exists f, nth_error fs i = Some f /\ match given with None => f_forces f = Some c | Some v => nth_error v i = Some c end).
  { intros i c Hi. destruct (Hr i c Hi) as [s [H1 H2]]. rewrite (Inc s (nth_error_In _ _ H1)) in H2. destruct (Own i s H1) as [f [H3 H4]]. exists f. split; [exact H3|]. rewrite H4 in H2.
    assert ((i < length sl)%nat) by (apply nth_error_Some; rewrite H1; discriminate). rewrite Nn in H2 by lia. exact H2. }
  assert (Ln : forall x, In x r -> length x = n).
  { intros x Hx. apply In_nth_error in Hx. destruct Hx as [i Hi]. destruct (Get i x Hi) as [f [H1 H2]]. destruct given as [v|]; [eapply Hv; [reflexivity|eapply nth_error_In, H2]|eapply Hl; [eapply nth_error_In, H1|reflexivity|exact H2]]. }
  exists lines. split; [reflexivity|]. destruct (C40_parse_fc2 None lines natom fs0 Hn) as [_ P2]. fold n in P2. destruct P2 as [A B]; [rewrite W, (flat_length rv n r Ln), Lr, Ls, Hs; lia|].
  split; [exact B|]. intros i f f' H1 H2.
  assert (Hi' : nth_error (map f_forces (parse_FORCES_FC2 None lines natom fs0)) i = Some (f_forces f')) by (rewrite nth_error_map, H2; reflexivity). rewrite A, nth_error_map in Hi'.
  assert (Li : (i < length fs)%nat) by (apply nth_error_Some; rewrite H1; discriminate).
  rewrite (nth_error_nth' _ 0%nat) in Hi' by (rewrite seq_length; lia). rewrite seq_nth in Hi' by lia. cbn [Nat.add option_map in_units] in Hi'. injection Hi' as Hi'.
  destruct (nth_error r i) as [c|] eqn:Erc; [|apply nth_error_None in Erc; lia]. exists c. destruct (Get i c Erc) as [g [G1 G2]]. rewrite H1 in G1. injection G1 as <-. split; [|exact G2].
  rewrite <- Hi', W. f_equal. apply chunk_flat; assumption.
Qed.
Print Assumptions C40_fc2_round_trip.

Definition ex_fs : list fir := [Fir 0 (1, 0, 0)%Q None (Some [(1, 1, 1); (2, 2, 2)]%Q) None
   [Sec 1 (0, 1, 0)%Q None (Some false) None None None; Sec 1 (0, 0, 1)%Q None (Some true) None (Some [(3, 3, 3); (4, 4, 4)]%Q) None]].
Example C40_ex : (forall s f, In s (slots ex_fs) -> sl_incl s = true -> sl_forces s = Some f -> length f = 2%nat) /\ (forall s, In s (slots ex_fs) -> sl_incl s = true -> sl_forces s <> None) /\
  option_map (fun l => option_map (fun x => map sl_forces (slots x)) (parse_FORCES_FC3 None l 2 [ex_first])) (write_FORCES_FC3 (fun x => x) 2 ex_fs None) =
  Some (Some [Some [(1, 1, 1); (2, 2, 2)]; Some [(0, 0, 0); (0, 0, 0)]; Some [(3, 3, 3); (4, 4, 4)]])%Q /\
  option_map (fun l => parse_FORCES_FC3 None (tl (rev l)) 2 ex_fs) (write_FORCES_FC3 (fun x => x) 2 ex_fs None) = Some None.
Proof.
  split; [intros s f H _ E; cbn in H; repeat destruct H as [<-|H]; try destruct H; cbn in E; try discriminate E; injection E as <-; reflexivity|].
  split; [intros s H E; cbn in H; repeat destruct H as [<-|H]; try destruct H; cbn in E |- *; try discriminate E; discriminate|]. vm_compute. auto.
Qed.
