(** Lemmas about the option tables of [OptModel]. *)
From Coq Require Import String Ascii List Bool QArith.
From Verif Require Import OptModel OptSpec.
Import ListNotations.
Open Scope string_scope.
Open Scope list_scope.

Lemma dget_dset_same A (d : dict A) k v : dget (dset d k v) k = Some v.
Proof.
  induction d as [|[k' v'] r IH]; cbn; [now rewrite String.eqb_refl|].
  destruct (String.eqb k k') eqn:E; cbn; rewrite E; [reflexivity | exact IH].
Qed.

Lemma dget_dset_other A (d : dict A) k k' v :
  k' <> k -> dget (dset d k v) k' = dget d k'.
Proof.
  intros N. induction d as [|[k2 v2] r IH]; cbn.
  - destruct (String.eqb_spec k' k); [contradiction | reflexivity].
  - destruct (String.eqb_spec k k2); cbn.
    + subst k2. destruct (String.eqb_spec k' k); [contradiction | reflexivity].
    + now rewrite IH.
Qed.

Lemma mem_in s l : mem s l = true <-> In s l.
Proof.
  unfold mem. rewrite existsb_exists. split.
  - intros (x & I & E). apply String.eqb_eq in E. now subst.
  - intros I. exists s. split; [exact I | apply String.eqb_refl].
Qed.

Lemma mem_not_in s l : mem s l = false <-> ~ In s l.
Proof.
  rewrite <- mem_in. destruct (mem s l); split; congruence.
Qed.

(** Keys of a dictionary without repetition. *)
Definition keys {A} (d : dict A) := map fst d.

Lemma keys_dset A (d : dict A) k v x :
  In x (keys (dset d k v)) <-> x = k \/ In x (keys d).
Proof.
  induction d as [|[k' v'] r IH]; cbn; [intuition congruence|].
  destruct (String.eqb_spec k k'); cbn.
  - subst k'. intuition congruence.
  - unfold keys in IH. rewrite IH. intuition congruence.
Qed.

Lemma nodup_dset A (d : dict A) k v : NoDup (keys d) -> NoDup (keys (dset d k v)).
Proof.
  induction d as [|[k' v'] r IH]; cbn; intros H.
  - constructor; [easy | constructor].
  - inversion H as [|? ? N M]; subst.
    destruct (String.eqb_spec k k'); cbn; constructor.
    + exact N.
    + exact M.
    + intros I. apply keys_dset in I. destruct I as [-> | I]; contradiction.
    + exact (IH M).
Qed.

Lemma dget_none A (d : dict A) k : dget d k = None <-> ~ In k (keys d).
Proof.
  induction d as [|[k' v'] r IH]; cbn; [intuition|].
  destruct (String.eqb_spec k k').
  - subst. split; [discriminate | intros N; elim N; now left].
  - rewrite IH. intuition congruence.
Qed.

(** ** Command line *)

(** Options of [rows] other than those of destination [d] share no name with
    [names]; those of destination [d] have these names and act as [r]. *)
Definition names_of (load : bool) (d : string) (names : list string)
  (ac : action) : Prop :=
  (exists r, In r parser /\ available load r = true /\ row_dest r = d) /\
  forall r, In r parser -> available load r = true ->
    (row_dest r = d -> (forall f, In f (row_flags r) <-> In f names) /\
                       row_action r = ac) /\
    (row_dest r <> d -> forall f, In f (row_flags r) -> ~ In f names).

Definition act (ac : action) (w : list string) : arg :=
  match ac with StoreTrue => Flag true | StoreFalse => Flag false
           | Store => Words w end.

Lemma step_item_get load d names ac ns f w :
  names_of load d names ac ->
  dget (step_item load ns (f, w)) d =
  (if in_dec string_dec f names then Some (act ac w) else dget ns d).
Proof.
  intros [(r0 & I0 & A0 & D0) H]. unfold step_item. cbn [fst snd].
  destruct (find _ parser) as [r|] eqn:E.
  - apply find_some in E. destruct E as [I E].
    apply andb_true_iff in E. destruct E as [A M]. apply mem_in in M.
    destruct (H r I A) as [Hd Ho].
    destruct (string_dec (row_dest r) d) as [e|n].
    + rewrite e, dget_dset_same. destruct (Hd e) as [F Ac].
      destruct (in_dec string_dec f names) as [_|N];
        [|elim N; now apply F].
      unfold store, act. now rewrite Ac.
    + rewrite dget_dset_other by congruence.
      destruct (in_dec string_dec f names) as [Y|_]; [|reflexivity].
      elim (Ho n f M Y).
  - destruct (in_dec string_dec f names) as [Y|_]; [|reflexivity].
    exfalso. apply (find_none _ _ E) in I0 as Z. cbn in Z.
    rewrite A0 in Z. cbn in Z. apply mem_not_in in Z. apply Z.
    destruct (H r0 I0 A0) as [Hd _]. now apply (Hd D0).
Qed.

Lemma fold_items_get load d names ac cl : forall ns,
  names_of load d names ac ->
  dget (fold_left (step_item load) cl ns) d =
  match last_words names cl with
  | Some w => Some (act ac w)
  | None => dget ns d
  end.
Proof.
  induction cl as [|[f w] r IH]; intros ns H; [reflexivity|].
  cbn [fold_left last_words]. rewrite IH by exact H.
  destruct (last_words names r); [reflexivity|].
  rewrite (step_item_get load d names ac) by exact H.
  destruct (in_dec string_dec f names); reflexivity.
Qed.

Lemma namespace_get load d names ac cl :
  names_of load d names ac ->
  dget (namespace load cl) d =
  match last_words names cl with
  | Some w => Some (act ac w)
  | None => dget (namespace load []) d
  end.
Proof.
  intros H. unfold namespace. cbn [fold_left].
  rewrite (fold_items_get load d names ac _ _ H). reflexivity.
Qed.

(** ** Options to texts *)

(** The blocks that set the key [k] are those of destination [d] and test
    [h]. *)
Definition read_by (k d : string) (h : how) : Prop :=
  In (d, k, h) read_table /\
  forall d' h', In (d', k, h') read_table -> d' = d /\ h' = h.

Definition read_get (ns : dict arg) (d : string) (h : how) : option string :=
  match dget ns d with None => None | Some a => read_value h a end.

Lemma fold_read_get ns k d h tbl : forall c,
  (forall d' h', In (d', k, h') tbl -> d' = d /\ h' = h) ->
  dget (fold_left (read_step ns) tbl c) k =
  match read_get ns d h with
  | Some t => if in_dec string_dec k (map (fun r => snd (fst r)) tbl)
              then Some t else dget c k
  | None => dget c k
  end.
Proof.
  induction tbl as [|[[d1 k1] h1] tbl IH]; intros c H.
  - cbn. now destruct (read_get ns d h).
  - cbn [fold_left]. rewrite IH by (intros; apply H; now right).
    destruct (string_dec k1 k) as [e|n].
    + subst k1. destruct (H d1 h1 (or_introl eq_refl)) as [-> ->].
      destruct (in_dec string_dec k
                 (map (fun r => snd (fst r)) ((d, k, h) :: tbl))) as [_|N];
        [|elim N; now left].
      unfold read_step, read_get. destruct (dget ns d) as [a|]; [|reflexivity].
      destruct (read_value h a) as [t|]; [|reflexivity].
      rewrite dget_dset_same.
      now destruct (in_dec string_dec k (map _ tbl)).
    + replace (dget (read_step ns c (d1, k1, h1)) k) with (dget c k).
      2:{ unfold read_step. destruct (dget ns d1) as [a|]; [|reflexivity].
          destruct (read_value h1 a); [|reflexivity].
          rewrite dget_dset_other; congruence. }
      destruct (read_get ns d h); [|reflexivity].
      destruct (in_dec string_dec k (map _ tbl)) as [Y|N];
      destruct (in_dec string_dec k (map _ ((d1, k1, h1) :: tbl))) as [Y2|N2];
        try reflexivity; exfalso.
      * apply N2. now right.
      * destruct Y2 as [e|Y2]; [cbn in e; congruence | contradiction].
Qed.

Lemma read_options_get ns k d h :
  read_by k d h -> dget (read_options ns) k = read_get ns d h.
Proof.
  intros [I H]. unfold read_options. rewrite (fold_read_get ns k d h) by exact H.
  destruct (read_get ns d h); [|reflexivity].
  destruct (in_dec string_dec k _) as [_|N]; [reflexivity|].
  elim N. apply in_map_iff. now exists (d, k, h).
Qed.

Lemma read_options_nodup ns : NoDup (keys (read_options ns)).
Proof.
  unfold read_options.
  assert (G : forall tbl c, NoDup (keys c) ->
             NoDup (keys (fold_left (read_step ns) tbl c))).
  { induction tbl as [|[[d k] h] tbl IH]; intros c H; [exact H|].
    cbn [fold_left]. apply IH. unfold read_step.
    destruct (dget ns d) as [a|]; [|exact H].
    destruct (read_value h a); [now apply nodup_dset | exact H]. }
  apply G. constructor.
Qed.

(** ** File *)

Fixpoint last_key (k : string) (ls : list (string * string)) : option string :=
  match ls with
  | [] => None
  | (t, v) :: r =>
    match last_key k r with
    | Some v' => Some v'
    | None => if string_dec (lower_string t) k then Some v else None
    end
  end.

Lemma fold_file_get k ls : forall c : dict string,
  dget (fold_left (fun c l => dset c (lower_string (fst l)) (snd l)) ls c) k =
  match last_key k ls with Some v => Some v | None => dget c k end.
Proof.
  induction ls as [|[t v] r IH]; intros c; [reflexivity|].
  cbn [fold_left fst snd last_key]. rewrite IH.
  destruct (last_key k r); [reflexivity|].
  destruct (string_dec (lower_string t) k) as [e|n].
  - subst k. apply dget_dset_same.
  - apply dget_dset_other. congruence.
Qed.

Lemma read_file_get tag ls :
  dget (read_file ls) (lower_string tag) = last_line tag ls.
Proof.
  unfold read_file. rewrite fold_file_get. cbn [dget].
  replace (last_key (lower_string tag) ls) with (last_line tag ls);
    [now destruct (last_line tag ls)|].
  induction ls as [|[t v] r IH]; [reflexivity|]. cbn. now rewrite IH.
Qed.

Lemma read_file_nodup ls : NoDup (keys (read_file ls)).
Proof.
  unfold read_file.
  assert (G : forall ls c, NoDup (keys c) -> NoDup (keys (fold_left
     (fun c l => dset c (lower_string (fst l)) (snd l)) ls c : dict string))).
  { clear. induction ls as [|[t v] r IH]; intros c H; [exact H|].
    cbn [fold_left]. apply IH. now apply nodup_dset. }
  apply G. constructor.
Qed.

Lemma lower_char_idem c : lower_char (lower_char c) = lower_char c.
Proof.
  destruct c as [a0 a1 a2 a3 a4 a5 a6 a7].
  destruct a0, a1, a2, a3, a4, a5, a6, a7; vm_compute; reflexivity.
Qed.

Lemma lower_idem s : lower_string (lower_string s) = lower_string s.
Proof. induction s as [|c s IH]; cbn; [reflexivity|]. now rewrite lower_char_idem, IH. Qed.

(** A key with an upper case letter is in no configuration file. *)
Lemma read_file_upper k ls : lower_string k <> k -> dget (read_file ls) k = None.
Proof.
  intros N. apply dget_none. unfold read_file.
  assert (G : forall ls c, ~ In k (keys c) -> ~ In k (keys (fold_left
     (fun c l => dset c (lower_string (fst l)) (snd l)) ls c : dict string))).
  { clear ls. induction ls as [|[t v] r IH]; intros c H; [exact H|].
    cbn [fold_left]. apply IH. cbn [fst snd]. intros I. apply keys_dset in I.
    destruct I as [-> | I]; [|contradiction]. apply N. apply lower_idem. }
  apply G. easy.
Qed.

(** ** Parameters *)

Section Acc.
Variable accepts : string -> string -> bool.

Definition param (confs : dict string) (k : string) : option value :=
  match dget confs k with
  | None => None
  | Some t => match parse_key accepts k t with
              | Some (Some v) => Some v
              | _ => None
              end
  end.

Lemma parse_from_get confs : forall ps qs k,
  NoDup (keys confs) ->
  parse_from accepts confs ps = Some qs ->
  dget qs k = match param confs k with Some v => Some v | None => dget ps k end.
Proof.
  induction confs as [|[k1 t1] r IH]; intros ps qs k ND H.
  - cbn in H. injection H as <-. reflexivity.
  - cbn [parse_from] in H. inversion ND as [|? ? N M]; subst. cbn in N.
    unfold param. cbn [dget].
    destruct (String.eqb_spec k k1) as [->|ne].
    + assert (Z : param r k1 = None).
      { unfold param. replace (dget r k1) with (@None string); [reflexivity|].
        symmetry. now apply dget_none. }
      destruct (parse_key accepts k1 t1) as [[v|]|]; [| |discriminate].
      * rewrite (IH _ _ k1 M H), Z. apply dget_dset_same.
      * now rewrite (IH _ _ k1 M H), Z.
    + change (match dget r k with
              | None => None
              | Some t => match parse_key accepts k t with
                          | Some (Some v) => Some v | _ => None end
              end) with (param r k).
      destruct (parse_key accepts k1 t1) as [[v|]|]; [| |discriminate].
      * rewrite (IH _ _ k M H). destruct (param r k); [reflexivity|].
        now apply dget_dset_other.
      * now apply IH.
Qed.

Lemma parse_conf_get confs qs k :
  NoDup (keys confs) -> parse_conf accepts confs = Some qs ->
  dget qs k = param confs k.
Proof.
  intros ND H. rewrite (parse_from_get _ _ _ k ND H).
  now destruct (param confs k).
Qed.

(** ** Settings *)

(** The setters of attribute [a] are those of key [k]. *)
Definition set_by (a k : string) : Prop :=
  In (k, a) set_table /\ forall k', In (k', a) set_table -> k' = k.

Lemma fold_set_get ps a k tbl : forall s,
  (forall k', In (k', a) tbl -> k' = k) ->
  fold_left (set_step ps) tbl s a =
  match dget ps k with
  | Some v => if in_dec string_dec a (map snd tbl) then v else s a
  | None => s a
  end.
Proof.
  induction tbl as [|[k1 a1] tbl IH]; intros s H.
  - cbn. now destruct (dget ps k).
  - cbn [fold_left]. rewrite IH by (intros; apply H; now right).
    destruct (string_dec a1 a) as [e|n].
    + subst a1. rewrite (H k1 (or_introl eq_refl)).
      unfold set_step. cbn [fst snd].
      destruct (dget ps k) as [v|] eqn:E; [|reflexivity].
      destruct (in_dec string_dec a (map snd ((k, a) :: tbl))) as [_|N];
        [|elim N; now left].
      rewrite String.eqb_refl. now destruct (in_dec string_dec a (map snd tbl)).
    + replace (set_step ps s (k1, a1) a) with (s a).
      2:{ unfold set_step. cbn [fst snd]. destruct (dget ps k1); [|reflexivity].
          destruct (String.eqb_spec a a1); [congruence | reflexivity]. }
      destruct (dget ps k); [|reflexivity].
      destruct (in_dec string_dec a (map snd tbl)) as [Y|N];
      destruct (in_dec string_dec a (map snd ((k1, a1) :: tbl))) as [Y2|N2];
        try reflexivity; exfalso.
      * apply N2. now right.
      * destruct Y2 as [e|Y2]; [cbn in e; congruence | contradiction].
Qed.

Lemma set_settings_get ps s a k :
  set_by a k ->
  set_settings ps s a = match dget ps k with Some v => v | None => s a end.
Proof.
  intros [I H]. unfold set_settings. rewrite (fold_set_get ps a k) by exact H.
  destruct (dget ps k); [|reflexivity].
  destruct (in_dec string_dec a _) as [_|N]; [reflexivity|].
  elim N. apply in_map_iff. now exists (k, a).
Qed.

Lemma pass_get confs s s' a k :
  NoDup (keys confs) -> set_by a k -> pass accepts confs s = Some s' ->
  s' a = match param confs k with Some v => v | None => s a end.
Proof.
  intros ND B H. unfold pass in H.
  destruct (parse_conf accepts confs) as [ps|] eqn:E; [|discriminate].
  injection H as <-. rewrite (set_settings_get ps s a k B).
  now rewrite (parse_conf_get _ _ k ND E).
Qed.

Definition file_param (file : option (list (string * string))) (k : string)
  : option value :=
  match file with None => None | Some ls => param (read_file ls) k end.

(** A setting written by one key. *)
Lemma conf_parser_get load file cl s a k :
  set_by a k -> conf_parser accepts load file cl = Some s ->
  s a = first_of (param (read_options (namespace load cl)) k)
                 (file_param file k) (default_settings a).
Proof.
  intros B H. unfold conf_parser in H.
  destruct file as [ls|]; cbn [file_param].
  - destruct (pass accepts (read_file ls) default_settings) as [s1|] eqn:E;
      [|discriminate].
    rewrite (pass_get _ _ _ a k (read_options_nodup _) B H).
    rewrite (pass_get _ _ _ a k (read_file_nodup _) B E).
    unfold first_of. reflexivity.
  - rewrite (pass_get _ _ _ a k (read_options_nodup _) B H).
    unfold first_of. reflexivity.
Qed.

End Acc.
