(** C106: calculators and options of the second- and third-order force constants. *)
From Coq Require Import String Ascii.
From Coq Require Import ZArith List Bool Lia.
From Verif Require Import Base CalcModel.
Import ListNotations.
Open Scope Z_scope.

(** * Specification *)
Definition bar_free (s : text) : Prop := ~ In bar s.
(** an entry between bars as a setting: nothing means not set *)
Definition setting (s : text) : option text := match s with [] => None | _ => Some s end.
Definition blank (s : text) : Prop := forall c, In c s -> is_space c = true.
Definition contains (w s : text) : Prop := exists a b, s = a ++ w ++ b.
(** [s] without white space around it *)
Definition trimmed (s t : text) : Prop := exists a b, s = a ++ t ++ b /\ blank a /\ blank b /\ (forall c r, t = c :: r -> is_space c = false) /\ (forall c r, t = r ++ [c] -> is_space c = false).

(** * Lemmas *)
Lemma has_bar_spec : forall s, has_bar s = true <-> In bar s.
Proof.
  intros s. unfold has_bar. rewrite existsb_exists. split.
  - intros (c & H & E). apply Ascii.eqb_eq in E. subst. exact H.
  - intros H. exists bar. split; [exact H|apply Ascii.eqb_refl].
Qed.
Lemma no_bar : forall s, bar_free s -> has_bar s = false.
Proof. intros s H. destruct (has_bar s) eqn:E; [|reflexivity]. apply has_bar_spec in E. contradiction. Qed.
Lemma bar_mid : forall a b, has_bar (a ++ bar :: b) = true.
Proof. intros. apply has_bar_spec. apply in_or_app. right. left. reflexivity. Qed.
Lemma split_free : forall s, bar_free s -> split_bar s = [s].
Proof.
  induction s as [|c s IH]; intros H; [reflexivity|]. cbn. destruct (c =? bar)%char eqn:E; [apply Ascii.eqb_eq in E; exfalso; apply H; left; exact E|]. rewrite IH; [reflexivity|]. intros G. apply H. right. exact G.
Qed.
Lemma split_app : forall a b, bar_free a -> split_bar (a ++ bar :: b) = a :: split_bar b.
Proof.
  induction a as [|c a IH]; intros b H; [reflexivity|]. cbn [app split_bar]. destruct (c =? bar)%char eqn:E; [apply Ascii.eqb_eq in E; exfalso; apply H; left; exact E|]. rewrite IH; [reflexivity|]. intros G. apply H. right. exact G.
Qed.
Lemma lstrip_spec : forall s, exists a, s = a ++ lstrip s /\ blank a /\ forall c r, lstrip s = c :: r -> is_space c = false.
Proof.
  induction s as [|c s (a & E & B & N)]; [exists []; repeat split; [intros c []|discriminate]|]. cbn. destruct (is_space c) eqn:S.
  - exists (c :: a). split; [cbn; f_equal; exact E|]. split; [|exact N]. intros d [<-|G]; [exact S|apply B; exact G].
  - exists []. split; [reflexivity|]. split; [intros d []|]. intros d r G. injection G as <- _. exact S.
Qed.
Lemma strip_trimmed : forall s, trimmed s (strip s).
Proof.
  intros s. unfold trimmed, strip. destruct (lstrip_spec s) as (a & E & B & N). set (u := lstrip s) in *. destruct (lstrip_spec (rev u)) as (b & E' & B' & N'). set (w := lstrip (rev u)) in *.
  assert (U : u = rev w ++ rev b) by (rewrite <- rev_app_distr, <- E', rev_involutive; reflexivity).
  exists a, (rev b). split; [rewrite <- U; exact E|]. split; [exact B|]. split; [intros c G; apply B'; apply in_rev; exact G|]. split.
  - intros c r G. apply (N c (r ++ rev b)). rewrite U, G. reflexivity.
  - intros c r G. apply (N' c (rev r)). rewrite <- (rev_involutive w), G, rev_app_distr. reflexivity.
Qed.
Lemma blank_rev_nil : forall a t : text, blank (a ++ t) -> (forall c r, t = c :: r -> is_space c = false) -> t = [].
Proof. intros a [|c t] B N; [reflexivity|]. specialize (N c t eq_refl). rewrite (B c) in N by (apply in_or_app; right; left; reflexivity). discriminate. Qed.
Lemma strip_blank : forall s, strip s = [] <-> blank s.
Proof.
  intros s. destruct (strip_trimmed s) as (a & b & E & Ba & Bb & N & _). split.
  - intros G. rewrite G in E. rewrite E. intros c I. apply in_app_or in I. destruct I as [I|I]; [apply Ba; exact I|apply Bb; exact I].
  - intros B. apply (blank_rev_nil a); [|exact N]. intros c I. apply B. rewrite E, app_assoc. apply in_or_app. left. exact I.
Qed.
Lemma strip_free : forall s, bar_free s -> bar_free (strip s).
Proof. intros s H G. destruct (strip_trimmed s) as (a & b & E & _). apply H. rewrite E. apply in_or_app. right. apply in_or_app. left. exact G. Qed.
Lemma prefix_spec : forall w s, prefix w s = true <-> exists b, s = w ++ b.
Proof.
  induction w as [|c w IH]; intros s; [split; [intros _; exists s; reflexivity|reflexivity]|]. destruct s as [|d s]; cbn.
  - split; [discriminate|intros (b & E); discriminate].
  - rewrite andb_true_iff, Ascii.eqb_eq, IH. split; [intros [-> (b & ->)]; exists b; reflexivity|]. intros (b & E). injection E as -> ->. split; [reflexivity|exists b; reflexivity].
Qed.
Lemma within_spec : forall w s, within w s = true <-> contains w s.
Proof.
  intros w s. unfold contains. induction s as [|c s IH].
  - cbn. rewrite orb_false_r, prefix_spec. split; [intros (b & E); exists [], b; exact E|]. intros ([|x a] & b & E); [exists b; exact E|discriminate].
  - cbn [within]. rewrite orb_true_iff, prefix_spec, IH. split.
    + intros [(b & E)|(a & b & E)]; [exists [], b; exact E|exists (c :: a), b; cbn; f_equal; exact E].
    + intros ([|x a] & b & E); [left; exists b; exact E|right; injection E as _ E; exists a, b; exact E].
Qed.
Lemma contains_app : forall w a b, contains w b -> contains w (a ++ b).
Proof. intros w a b (x & z & ->). exists (a ++ x), z. rewrite !app_assoc. reflexivity. Qed.
Lemma contains_app_l : forall w a b, contains w a -> contains w (a ++ b).
Proof. intros w a b (x & z & ->). exists x, (z ++ b). rewrite <- !app_assoc. reflexivity. Qed.

(** ** C106: one name or one list of options is for both orders; white space only is not a setting *)
Theorem C106_one : forall s order, bar_free s -> (blank s -> extract_str s order = None) /\ (~ blank s -> extract_str s order = Some s).
Proof.
  intros s order H. unfold extract_str. rewrite (no_bar s H). rewrite <- strip_blank. destruct (strip s); split; intros G; try reflexivity; [contradiction|discriminate].
Qed.
(** ** C106: "a|b": a for fc2, b for fc3 *)
Theorem C106_two : forall a b, bar_free a -> bar_free b -> extract_str (a ++ bar :: b) 2 = setting a /\ extract_str (a ++ bar :: b) 3 = setting b.
Proof. intros a b A B. unfold extract_str. rewrite bar_mid, split_app, split_free by assumption. cbn [Nat.sub nth]. split; [destruct a|destruct b]; reflexivity. Qed.
(** ** C106: names known to phonopy pass, in lower case, one for both orders or a pair, where a side may be empty *)
Theorem C106_params : forall known o c,
  (forall s, bar_free s -> s <> [] -> known (lower s) = true -> fst (calculator_params known (Some s) o c) = Some (lower s)) /\
  (forall a b, bar_free a -> bar_free b -> (a = [] \/ known (lower a) = true) -> (b = [] \/ known (lower b) = true) ->
     fst (calculator_params known (Some (a ++ bar :: b)) o c) = Some (lower a ++ bar :: lower b)).
Proof.
  intros known o c. split.
  - intros s H N K. unfold calculator_params, calculator_list. rewrite split_free by assumption. destruct s as [|x s]; [contradiction|]. cbn [flat_map]. rewrite K. reflexivity.
  - intros a b A B Ka Kb. unfold calculator_params, calculator_list. rewrite split_app, split_free by assumption. cbn [flat_map]. cbn [fst].
    assert (forall w, w = [] \/ known (lower w) = true -> match w with [] => [[]] | _ => if known (lower w) then [lower w] else [] end = [lower w]) as L.
    { intros w [->|K]; [reflexivity|]. rewrite K. destruct w; reflexivity. }
    rewrite (L a Ka), (L b Kb). reflexivity.
Qed.
(** ** C106: the pair cutoff goes to the options of fc3 only, and does not replace a cutoff given there *)
Theorem C106_cutoff : forall a b c, bar_free a -> bar_free b -> bar_free c ->
  let r := set_cutoff (Some (a ++ bar :: b)) c in
  (exists a', trimmed a a' /\ extract_str r 2 = setting a') /\
  (exists b' b'', trimmed b b' /\ extract_str r 3 = Some b'' /\ contains (str "cutoff") b'' /\
     (contains (str "cutoff") b' -> b'' = b') /\ (~ contains (str "cutoff") b' -> b'' = b' ++ (if b' then [] else str ", ") ++ str "cutoff=" ++ c)).
Proof.
  intros a b c A B C r. unfold r, set_cutoff. rewrite bar_mid, split_app, split_free by assumption. cbn [map].
  set (b'' := match strip b with [] => str "cutoff=" ++ c | _ => if within (str "cutoff") (strip b) then strip b else strip b ++ str ", " ++ str "cutoff=" ++ c end).
  assert (Hc : contains (str "cutoff") (str "cutoff=" ++ c)) by (exists [], ("="%char :: c); reflexivity).
  assert (F : bar_free (str "cutoff=" ++ c)) by (intros G; apply in_app_or in G; destruct G as [G|G]; [vm_compute in G; intuition discriminate|exact (C G)]).
  assert (F2 : bar_free b'').
  { unfold b''. destruct (strip b) as [|x t] eqn:E; [exact F|]. rewrite <- E. destruct (within (str "cutoff") (strip b)); [apply strip_free; exact B|].
    intros G. apply in_app_or in G. destruct G as [G|G]; [revert G; apply strip_free; exact B|]. apply in_app_or in G. destruct G as [G|G]; [vm_compute in G; intuition discriminate|exact (F G)]. }
  destruct (C106_two (strip a) b'' (strip_free a A) F2) as [E2 E3].
  split; [exists (strip a); split; [apply strip_trimmed|exact E2]|]. exists (strip b), b''. split; [apply strip_trimmed|].
  assert (K : contains (str "cutoff") b'').
  { unfold b''. destruct (strip b) as [|x t] eqn:E; [exact Hc|]. rewrite <- E. destruct (within (str "cutoff") (strip b)) eqn:W; [apply within_spec; exact W|]. apply contains_app, contains_app. exact Hc. }
  split; [rewrite E3; unfold setting; destruct b''; [destruct K as ([|] & z & G); discriminate|reflexivity]|]. split; [exact K|]. split.
  - intros G. unfold b''. destruct (strip b) as [|x t] eqn:E; [destruct G as ([|] & z & G); discriminate|]. rewrite <- E in *. apply within_spec in G. rewrite G. reflexivity.
  - intros G. unfold b''. destruct (strip b) as [|x t] eqn:E; [reflexivity|]. rewrite <- E in *. destruct (within (str "cutoff") (strip b)) eqn:W; [exfalso; apply G; apply within_spec; exact W|]. rewrite E. reflexivity.
Qed.
(** ** C106: the same with no options, and with options for both orders *)
Theorem C106_cutoff_alone : forall c, bar_free c ->
  extract_str (set_cutoff None c) 2 = None /\ extract_str (set_cutoff None c) 3 = Some (str "cutoff=" ++ c) /\
  (forall o, bar_free o -> o <> [] -> ~ contains (str "cutoff") o -> extract_str (set_cutoff (Some o) c) 2 = Some o /\ extract_str (set_cutoff (Some o) c) 3 = Some (o ++ str ", cutoff=" ++ c)) /\
  (forall o, bar_free o -> contains (str "cutoff") o -> extract_str (set_cutoff (Some o) c) 2 = Some o /\ extract_str (set_cutoff (Some o) c) 3 = Some o).
Proof.
  intros c C.
  assert (F : forall w, bar_free w -> bar_free (w ++ str "cutoff=" ++ c)).
  { intros w W G. apply in_app_or in G. destruct G as [G|G]; [exact (W G)|]. apply in_app_or in G. destruct G as [G|G]; [vm_compute in G; intuition discriminate|exact (C G)]. }
  assert (N : bar_free []) by (intros []).
  split; [|split; [|split]].
  - apply (C106_two [] (str "cutoff=" ++ c) N (F [] N)).
  - apply (C106_two [] (str "cutoff=" ++ c) N (F [] N)).
  - intros o O E W. unfold set_cutoff. rewrite (no_bar o O). destruct (within (str "cutoff") o) eqn:I; [exfalso; apply W; apply within_spec; exact I|].
    destruct o as [|x o]; [contradiction|]. destruct (C106_two (x :: o) ((x :: o) ++ str ", " ++ str "cutoff=" ++ c) O) as [E2 E3].
    { rewrite app_assoc. apply F. intros G. apply in_app_or in G. destruct G as [G|G]; [exact (O G)|vm_compute in G; intuition discriminate]. }
    split; [exact E2|exact E3].
  - intros o O W. unfold set_cutoff. rewrite (no_bar o O). apply within_spec in W. rewrite W. destruct o as [|x o]; [discriminate|]. destruct (C106_two (x :: o) (x :: o) O O) as [E2 E3]. split; [exact E2|exact E3].
Qed.
(** ** C106: in phono3py-load and load(): options as a string reach fc2 without the pair cutoff, and the argument is not changed; fc3 has a
    cutoff, the given one if there was one *)
Theorem C106_orders : forall D V (o : option text) (v : V) printed,
  let o' := option_map (@Str D V) o in
  let '(o3, o2, after) := options_of_orders o' (Some (v, printed)) in
  after = o' /\ o2 = extract o' 2 /\
  (exists s, o3 = Some (Str s) /\ contains (str "cutoff") s /\ forall t, extract o' 3 = Some (Str t) -> contains (str "cutoff") t -> s = t).
Proof.
  intros D V o v printed o'. unfold options_of_orders.
  assert (o' = match o' with Some (Dict _ _) => update_cutoff (extract o' 3) (Some (v, printed)) | _ => o' end) as <- by (unfold o'; destruct o; reflexivity).
  split; [reflexivity|]. split; [reflexivity|]. assert (exists e, extract o' 3 = option_map (@Str D V) e) as (e & E) by (unfold o'; destruct o as [s|]; [exists (extract_str s 3); reflexivity|exists None; reflexivity]).
  rewrite E. destruct e as [e|]; cbn [option_map update_cutoff].
  - destruct (within (str "cutoff") e) eqn:W.
    + exists e. split; [reflexivity|]. split; [apply within_spec; exact W|]. intros t G _. injection G as <-. reflexivity.
    + eexists. split; [reflexivity|]. split; [apply contains_app; exists (str ", "), (str " = " ++ printed); reflexivity|]. intros t G H. injection G as <-. apply within_spec in H. rewrite H in W. discriminate.
  - eexists. split; [reflexivity|]. split; [exists [], (str " = " ++ printed); reflexivity|]. discriminate.
Qed.
(** ** C106, refuted: with options as a dictionary the pair cutoff reaches fc2 too, and stays in the dictionary of the caller *)
Theorem C106_dictionary_refuted : forall D V (d : D) (v : V) printed,
  let '(o3, o2, after) := options_of_orders (Some (Dict d None)) (Some (v, printed)) in
  o2 = Some (Dict d (Some v)) /\ after = Some (Dict d (Some v)) /\ o2 <> extract (Some (Dict d None)) 2.
Proof. intros. cbn. repeat split. discriminate. Qed.
(** ** C106, refuted: "First and last parts separated correspond to fc2 and fc3" *)
Theorem C106_last_refuted : exists a b c, bar_free a /\ bar_free b /\ bar_free c /\ extract_str (a ++ bar :: b ++ bar :: c) 3 <> setting c.
Proof. exists (str "alm"), (str "symfc"), (str "traditional"). repeat split; intros H; vm_compute in H; intuition discriminate. Qed.
(** ** C106, refuted: a calculator is used only for the order it was named for: a name that is not known, or a blank, before the bar makes the
    other one that of both orders *)
Theorem C106_unknown_refuted :
  let known := teqb (str "symfc") in
  (forall w, bar_free w -> w <> [] -> known (lower w) = false ->
     fst (calculator_params known (Some (w ++ bar :: str "symfc")) None None) = Some (str "symfc")) /\
  extract_str (str "symfc") 2 = Some (str "symfc") /\ extract_str (str " |symfc") 2 = Some (str " ").
Proof.
  cbv zeta. split; [|split; vm_compute; reflexivity]. intros w W N K. unfold calculator_params, calculator_list. rewrite split_app by assumption. cbn [flat_map]. rewrite K. destruct w; [contradiction|]. reflexivity.
Qed.
Print Assumptions C106_one.
Print Assumptions C106_two.
Print Assumptions C106_params.
Print Assumptions C106_cutoff.
Print Assumptions C106_cutoff_alone.
Print Assumptions C106_orders.
Print Assumptions C106_dictionary_refuted.
Print Assumptions C106_last_refuted.
Print Assumptions C106_unknown_refuted.

Example C106_example :
  let known := fun w => existsb (teqb w) [str "alm"; str "symfc"; str "traditional"] in
  calculator_params known (Some (str "traditional|SymFC")) (Some (str "|solver = dense")) (Some (str "4.0")) = (Some (str "traditional|symfc"), Some (str "|solver = dense, cutoff=4.0")) /\
  calculator_params known (Some (str "alm")) (Some (str "cutoff = 5")) (Some (str "4.0")) = (Some (str "alm"), Some (str "cutoff = 5|cutoff = 5")) /\
  calculator_params known (Some (str "alm")) None (Some (str "4.0")) = (Some (str "alm"), Some (str "|cutoff=-1 4.0")) /\
  extract_str (str "traditional|symfc") 2 = Some (str "traditional") /\ extract_str (str "|symfc") 2 = None /\ extract_str (str "  ") 3 = None.
Proof. repeat split; vm_compute; reflexivity. Qed.
