(** C107: the value of a setting comes from the command line, else from the
    configuration file, else from the defaults. *)
From Coq Require Import String Ascii List Bool QArith.
From Verif Require Import OptModel OptSpec OptProofs.
Import ListNotations.
Open Scope string_scope.
Open Scope list_scope.

Local Opaque parser read_table set_table default_table.

(** ** A computable check that the tables treat an option as documented *)

Definition value_dec (a b : value) : {a = b} + {a <> b}.
Proof.
  decide equality; try apply string_dec; try apply bool_dec.
  destruct q as [n d], q0 as [n' d'].
  destruct (Z.eq_dec n n') as [->|N]; [|right; congruence].
  destruct (Pos.eq_dec d d') as [->|N]; [left; reflexivity | right; congruence].
Defined.

Definition action_dec (a b : action) : {a = b} + {a <> b}.
Proof. decide equality. Defined.

Definition how_dec (a b : how) : {a = b} + {a <> b}.
Proof.
  decide equality; decide equality; apply string_dec.
Defined.

Definition arg_dec (a b : arg) : {a = b} + {a <> b}.
Proof. decide equality; [apply bool_dec | apply list_eq_dec, string_dec]. Defined.

Definition yes {A B} (x : {A} + {B}) : bool := if x then true else false.

Lemma yes_true A B (x : {A} + {B}) : yes x = true -> A.
Proof. now destruct x. Qed.

Definition sub (a b : list string) : bool := forallb (fun x => mem x b) a.

Lemma sub_in a b : sub a b = true -> forall x, In x a -> In x b.
Proof.
  unfold sub. rewrite forallb_forall. intros H x I. apply mem_in. now apply H.
Qed.

Definition names_check (load : bool) (d : string) (names : list string)
  (ac : action) : bool :=
  existsb (fun r => (available load r && String.eqb (row_dest r) d)%bool) parser
  && forallb (fun r =>
       if available load r then
         if String.eqb (row_dest r) d
         then (sub (row_flags r) names && sub names (row_flags r)
               && yes (action_dec (row_action r) ac))%bool
         else forallb (fun f => negb (mem f names)) (row_flags r)
       else true) parser.

Lemma names_check_ok load d names ac :
  names_check load d names ac = true -> names_of load d names ac.
Proof.
  unfold names_check. intros H. apply andb_true_iff in H. destruct H as [E F].
  split.
  - apply existsb_exists in E. destruct E as (r & I & E).
    apply andb_true_iff in E. destruct E as [A E]. apply String.eqb_eq in E.
    now exists r.
  - rewrite forallb_forall in F. intros r I A. specialize (F r I). cbn in F.
    rewrite A in F. destruct (String.eqb_spec (row_dest r) d) as [e|n].
    + apply andb_true_iff in F. destruct F as [F F3].
      apply andb_true_iff in F. destruct F as [F1 F2].
      split; [|contradiction]. intros _. split.
      * intros f. split; apply sub_in; assumption.
      * exact (yes_true _ _ _ F3).
    + split; [contradiction|]. intros _ f If.
      rewrite forallb_forall in F. specialize (F f If).
      apply negb_true_iff, mem_not_in in F. exact F.
Qed.

Definition read_check (k d : string) (h : how) : bool :=
  existsb (fun r => (String.eqb (fst (fst r)) d && String.eqb (snd (fst r)) k
                     && yes (how_dec (snd r) h))%bool) read_table
  && forallb (fun r =>
       if String.eqb (snd (fst r)) k
       then (String.eqb (fst (fst r)) d && yes (how_dec (snd r) h))%bool
       else true) read_table.

Lemma read_check_ok k d h : read_check k d h = true -> read_by k d h.
Proof.
  unfold read_check. intros H. apply andb_true_iff in H. destruct H as [E F].
  split.
  - apply existsb_exists in E. destruct E as ([[d' k'] h'] & I & E).
    cbn [fst snd] in E. apply andb_true_iff in E. destruct E as [E E3].
    apply andb_true_iff in E. destruct E as [E1 E2].
    apply String.eqb_eq in E1. apply String.eqb_eq in E2.
    apply yes_true in E3. now subst.
  - intros d' h' I. rewrite forallb_forall in F. specialize (F _ I).
    cbn [fst snd] in F. rewrite String.eqb_refl in F.
    apply andb_true_iff in F. destruct F as [F1 F2].
    apply String.eqb_eq in F1. apply yes_true in F2. now split.
Qed.

Definition set_check (a k : string) : bool :=
  existsb (fun r => (String.eqb (fst r) k && String.eqb (snd r) a)%bool) set_table
  && forallb (fun r => if String.eqb (snd r) a then String.eqb (fst r) k
                       else true) set_table.

Lemma set_check_ok a k : set_check a k = true -> set_by a k.
Proof.
  unfold set_check. intros H. apply andb_true_iff in H. destruct H as [E F].
  split.
  - apply existsb_exists in E. destruct E as ([k' a'] & I & E).
    cbn [fst snd] in E. apply andb_true_iff in E. destruct E as [E1 E2].
    apply String.eqb_eq in E1. apply String.eqb_eq in E2. now subst.
  - intros k' I. rewrite forallb_forall in F. specialize (F _ I).
    cbn [fst snd] in F. rewrite String.eqb_refl in F. now apply String.eqb_eq.
Qed.

(** Destination of the option with the first of the names. *)
Definition dest_of (load : bool) (o : opt) : string :=
  match find (fun r => (available load r
                        && existsb (fun f => mem f (o_flags o)) (row_flags r))%bool)
             parser with
  | Some r => row_dest r
  | None => ""
  end.

Definition how_of (o : opt) : how :=
  match o_kind o with
  | Switch true => IfTruthy (Fixed ".true.")
  | Switch false => IfTruthy (Fixed ".false.")
  | _ => IfGiven Taken
  end.

Definition action_of (o : opt) : action :=
  match o_kind o with Switch _ => StoreTrue | _ => Store end.

Definition is_bool (k : string) : bool :=
  (mem k bool_keys || String.eqb k "pm_fc2")%bool.

Definition kind_check (o : opt) : bool :=
  let k := lower_string (o_tag o) in
  match o_kind o with
  | Switch _ => is_bool k
  | Wording => (negb (is_bool k) && mem k string_keys)%bool
  | Valued => (negb (is_bool k) && negb (mem k string_keys)
               && (mem k float_keys || mem k int_keys || mem k special_keys))%bool
  end.

Definition has_b (load : bool) (o : opt) : bool :=
  match o_avail o with Both => true | Plain => negb load | Load => load end.

Definition table_check (load : bool) (o : opt) : bool :=
  let k := lower_string (o_tag o) in
  if has_b load o then
    names_check load (dest_of load o) (o_flags o) (action_of o)
    && read_check k (dest_of load o) (how_of o)
    && set_check (o_attr o) k
    && kind_check o
    && yes (value_dec (default_settings (o_attr o)) (o_default o))
    && match dget (namespace load []) (dest_of load o) with
       | Some (Flag false) | Some NotGiven =>
         match o_kind o with Switch _ => true
                        | _ => match dget (namespace load []) (dest_of load o)
                               with Some NotGiven => true | _ => false end end
       | _ => false
       end
  else true.

Local Transparent parser read_table set_table default_table.

Lemma tables_documented :
  forallb (fun o => (table_check true o && table_check false o)%bool) documented
  = true.
Proof. vm_compute. reflexivity. Qed.

Local Opaque parser read_table set_table default_table.

Section C107.
Variable accepts : string -> string -> bool.

Lemma parse_text o t :
  kind_check o = true ->
  match parse_key accepts (lower_string (o_tag o)) t with
  | Some (Some v) => from_text o t = Some v
  | Some None => from_text o t = None
  | None => o_kind o = Valued /\ accepts (lower_string (o_tag o)) t = false
  end.
Proof.
  unfold kind_check, parse_key, is_bool, from_text. cbn zeta. intros H.
  destruct (o_kind o) as [b| |].
  - rewrite H.
    destruct (String.eqb_spec (lower_string t) ".true.") as [->|n1].
    + now destruct (string_dec ".true." ".true.").
    + destruct (string_dec (lower_string t) ".true."); [contradiction|].
      destruct (String.eqb_spec (lower_string t) ".false.") as [->|n2].
      * now destruct (string_dec ".false." ".false.").
      * now destruct (string_dec (lower_string t) ".false.").
  - apply andb_true_iff in H. destruct H as [H1 H2].
    apply negb_true_iff in H1. now rewrite H1, H2.
  - apply andb_true_iff in H. destruct H as [H H3].
    apply andb_true_iff in H. destruct H as [H1 H2].
    apply negb_true_iff in H1. apply negb_true_iff in H2.
    rewrite H1, H2, H3. destruct (accepts _ t) eqn:E; [reflexivity|].
    now split.
Qed.

(** A pass that succeeds has accepted the text of every key. *)
Lemma parse_from_accepts confs : forall ps qs k t,
  NoDup (keys confs) -> parse_from accepts confs ps = Some qs ->
  dget confs k = Some t -> parse_key accepts k t <> None.
Proof.
  induction confs as [|[k1 t1] r IH]; intros ps qs k t ND H G; [discriminate|].
  cbn [parse_from] in H. inversion ND as [|? ? N M]; subst.
  cbn [dget] in G. destruct (String.eqb_spec k k1) as [->|ne].
  - injection G as ->. destruct (parse_key accepts k1 t); [discriminate|].
    discriminate.
  - destruct (parse_key accepts k1 t1) as [[v|]|]; [| |discriminate];
      exact (IH _ _ _ _ M H G).
Qed.

Lemma pass_param confs s s' o :
  kind_check o = true -> NoDup (keys confs) ->
  pass accepts confs s = Some s' ->
  param accepts confs (lower_string (o_tag o)) =
  match dget confs (lower_string (o_tag o)) with
  | None => None
  | Some t => from_text o t
  end.
Proof.
  intros K ND H. unfold param, pass in *.
  destruct (parse_conf accepts confs) as [ps|] eqn:E; [|discriminate].
  destruct (dget confs (lower_string (o_tag o))) as [t|] eqn:G; [|reflexivity].
  pose proof (parse_from_accepts _ _ _ _ _ ND E G) as A.
  pose proof (parse_text o t K) as P.
  destruct (parse_key accepts (lower_string (o_tag o)) t) as [[v|]|];
    [now rewrite P | now rewrite P | contradiction].
Qed.

(** Command line first, then configuration file, then default: for every
    documented option, every configuration file and every command line with
    which the program does not stop. *)
Theorem C107_precedence load file cl s o :
  In o documented -> has load o ->
  conf_parser accepts load file cl = Some s ->
  s (o_attr o) = first_of (from_command_line o cl) (from_file o file)
                          (o_default o).
Proof.
  intros I Hs H.
  pose proof tables_documented as T. rewrite forallb_forall in T.
  specialize (T o I). apply andb_true_iff in T. destruct T as [T1 T2].
  assert (T : table_check load o = true) by (now destruct load).
  clear T1 T2. unfold table_check in T.
  replace (has_b load o) with true in T
    by (unfold has_b, has in *; destruct (o_avail o), load; easy).
  apply andb_true_iff in T. destruct T as [T TN].
  apply andb_true_iff in T. destruct T as [T TD]. apply yes_true in TD.
  apply andb_true_iff in T. destruct T as [T TK].
  apply andb_true_iff in T. destruct T as [T TS]. apply set_check_ok in TS.
  apply andb_true_iff in T. destruct T as [TA TR].
  apply names_check_ok in TA. apply read_check_ok in TR.
  rewrite (conf_parser_get accepts load file cl s _ _ TS H), TD.
  assert (P1 : param accepts (read_options (namespace load cl))
                     (lower_string (o_tag o)) = from_command_line o cl).
  { unfold conf_parser in H.
    destruct (match file with None => Some default_settings
              | Some ls => pass accepts (read_file ls) default_settings end)
      as [s1|]; [|discriminate].
    rewrite (pass_param _ _ _ o TK (read_options_nodup _) H).
    rewrite (read_options_get _ _ _ _ TR). unfold read_get, from_command_line.
    rewrite (namespace_get load _ _ _ cl TA).
    set (dn := dget (namespace load []) (dest_of load o)) in *.
    destruct (last_words (o_flags o) cl) as [w|].
    - unfold action_of, how_of, from_text. destruct (o_kind o) as [[|]| |];
        reflexivity.
    - unfold how_of. clear -TN. destruct dn as [[[|]| |w]|]; try discriminate;
        destruct (o_kind o) as [[|]| |]; try discriminate; reflexivity. }
  assert (P2 : file_param accepts file (lower_string (o_tag o)) = from_file o file).
  { destruct file as [ls|]; [|reflexivity]. unfold file_param, from_file.
    unfold conf_parser in H.
    destruct (pass accepts (read_file ls) default_settings) as [s1|] eqn:E;
      [|discriminate].
    rewrite (pass_param _ _ _ o TK (read_file_nodup _) E).
    now rewrite read_file_get. }
  now rewrite P1, P2.
Qed.

(** The option --nu is obeyed, but no configuration file turns the setting on
    (finding: the tag N_U of the documentation does nothing). *)
Theorem C107_N_U_tag_refuted load file cl s :
  last_words ["--nu"] cl = None ->
  conf_parser accepts load file cl = Some s ->
  s "is_N_U" = VBool false.
Proof.
  intros L H.
  assert (TS : set_by "is_N_U" "N_U")
    by (apply set_check_ok; vm_compute; reflexivity).
  assert (TR : read_by "N_U" "is_N_U" (IfTruthy (Fixed ".true.")))
    by (apply read_check_ok; vm_compute; reflexivity).
  assert (TA : names_of load "is_N_U" ["--nu"] StoreTrue)
    by (apply names_check_ok; destruct load; vm_compute; reflexivity).
  assert (TD : default_settings "is_N_U" = VBool false)
    by (vm_compute; reflexivity).
  assert (TN : dget (namespace load []) "is_N_U" = Some (Flag false))
    by (destruct load; vm_compute; reflexivity).
  rewrite (conf_parser_get accepts load file cl s _ _ TS H), TD.
  unfold param at 1. rewrite (read_options_get _ _ _ _ TR). unfold read_get.
  rewrite (namespace_get load _ _ _ cl TA), L, TN. cbn [read_value truthy].
  unfold file_param. destruct file as [ls|]; [|reflexivity].
  unfold param. rewrite read_file_upper; [reflexivity|].
  vm_compute. discriminate.
Qed.

Theorem C107_N_U_option load file cl s :
  last_words ["--nu"] cl <> None ->
  conf_parser accepts load file cl = Some s ->
  s "is_N_U" = VBool true.
Proof.
  intros L H.
  assert (TS : set_by "is_N_U" "N_U")
    by (apply set_check_ok; vm_compute; reflexivity).
  assert (TR : read_by "N_U" "is_N_U" (IfTruthy (Fixed ".true.")))
    by (apply read_check_ok; vm_compute; reflexivity).
  assert (TA : names_of load "is_N_U" ["--nu"] StoreTrue)
    by (apply names_check_ok; destruct load; vm_compute; reflexivity).
  rewrite (conf_parser_get accepts load file cl s _ _ TS H).
  unfold param at 1. rewrite (read_options_get _ _ _ _ TR). unfold read_get.
  rewrite (namespace_get load _ _ _ cl TA).
  destruct (last_words ["--nu"] cl) as [w|]; [|contradiction].
  assert (PK : parse_key accepts "N_U" ".true." = Some (Some (VBool true)))
    by (vm_compute; reflexivity).
  cbn [act read_value truthy]. rewrite PK. reflexivity.
Qed.

(** --wigner and --kubo: the type of conductivity is the one asked for, kubo
    when both are; without either it is that of the file. *)
Theorem C107_conductivity_type load file cl s :
  conf_parser accepts load file cl = Some s ->
  s "conductivity_type" =
  match last_words ["--kubo"] cl, last_words ["--wigner"] cl, file with
  | Some _, _, _ => VText "kubo"
  | None, Some _, _ => VText "wigner"
  | None, None, None => VNone
  | None, None, Some ls =>
    match last_line "CONDUCTIVITY_TYPE" ls with
    | Some t => VText t
    | None => VNone
    end
  end.
Proof.
  intros H.
  assert (TS : set_by "conductivity_type" "conductivity_type")
    by (apply set_check_ok; vm_compute; reflexivity).
  assert (TW : names_of load "is_wigner_kappa" ["--wigner"] StoreTrue)
    by (apply names_check_ok; destruct load; vm_compute; reflexivity).
  assert (TK : names_of load "is_kubo_kappa" ["--kubo"] StoreTrue)
    by (apply names_check_ok; destruct load; vm_compute; reflexivity).
  assert (TD : default_settings "conductivity_type" = VNone)
    by (vm_compute; reflexivity).
  assert (NW : dget (namespace load []) "is_wigner_kappa" = Some (Flag false))
    by (destruct load; vm_compute; reflexivity).
  assert (NK : dget (namespace load []) "is_kubo_kappa" = Some (Flag false))
    by (destruct load; vm_compute; reflexivity).
  assert (PK : forall t, parse_key accepts "conductivity_type" t
                         = Some (Some (VText t))) by (intros; reflexivity).
  assert (RO : dget (read_options (namespace load cl)) "conductivity_type" =
               match last_words ["--kubo"] cl, last_words ["--wigner"] cl with
               | Some _, _ => Some "kubo"
               | None, Some _ => Some "wigner"
               | None, None => None
               end).
  { assert (S : exists a b, read_table =
       a ++ [("is_wigner_kappa", "conductivity_type", IfTruthy (Fixed "wigner"));
             ("is_kubo_kappa", "conductivity_type", IfTruthy (Fixed "kubo"))] ++ b
       /\ ~ In "conductivity_type" (map (fun r => snd (fst r)) a)
       /\ ~ In "conductivity_type" (map (fun r => snd (fst r)) b)).
    { exists (firstn 32 read_table), (skipn 34 read_table).
      split; [vm_compute; reflexivity|].
      split; apply mem_not_in; vm_compute; reflexivity. }
    destruct S as (ta & tb & S & Na & Nb).
    assert (Skip : forall ns tbl c,
       ~ In "conductivity_type" (map (fun r => snd (fst r)) tbl) ->
       dget (fold_left (read_step ns) tbl c) "conductivity_type"
       = dget c "conductivity_type").
    { clear. intros ns. induction tbl as [|[[d k] h] tbl IH]; intros c N;
        [reflexivity|]. cbn [fold_left]. rewrite IH by (cbn in N; tauto).
      unfold read_step. destruct (dget ns d) as [a|]; [|reflexivity].
      destruct (read_value h a); [|reflexivity].
      apply dget_dset_other. cbn in N. intros e. apply N. now left. }
    unfold read_options. rewrite S, !fold_left_app, Skip by exact Nb.
    cbn [fold_left]. set (c := fold_left (read_step (namespace load cl)) ta []).
    assert (Z : dget c "conductivity_type" = None)
      by (unfold c; rewrite Skip by exact Na; reflexivity).
    unfold read_step.
    rewrite (namespace_get load _ _ _ cl TW), (namespace_get load _ _ _ cl TK),
      NW, NK.
    destruct (last_words ["--kubo"] cl), (last_words ["--wigner"] cl);
      cbn [act read_value truthy]; rewrite ?dget_dset_same; try reflexivity.
    exact Z. }
  rewrite (conf_parser_get accepts load file cl s _ _ TS H), TD.
  unfold param at 1. rewrite RO.
  destruct (last_words ["--kubo"] cl); [now rewrite PK|].
  destruct (last_words ["--wigner"] cl); [now rewrite PK|].
  unfold file_param, param, first_of. destruct file as [ls|]; [|reflexivity].
  change "conductivity_type" with (lower_string "CONDUCTIVITY_TYPE") at 1.
  rewrite read_file_get. destruct (last_line _ ls); [now rewrite PK | reflexivity].
Qed.

(** --pp-unit-conversion has no effect on the run: the setting it is meant for
    is the one of the file or the default, whatever the command line. *)
Theorem C107_pp_unit_conversion_refuted load file cl w s s' :
  conf_parser accepts load file cl = Some s ->
  conf_parser accepts load file (cl ++ [("--pp-unit-conversion", w)]) = Some s' ->
  s' "pp_conversion_factor" = s "pp_conversion_factor".
Proof.
  intros H H'.
  assert (TS : set_by "pp_conversion_factor" "pp_conversion_factor")
    by (apply set_check_ok; vm_compute; reflexivity).
  assert (TR : read_by "pp_conversion_factor" "pp_conversion_factor"
                       (IfGiven Taken))
    by (apply read_check_ok; vm_compute; reflexivity).
  assert (Z : forall cl, dget (namespace load cl) "pp_conversion_factor" = None).
  { clear. intros cl. unfold namespace.
    assert (G : forall cl ns, dget ns "pp_conversion_factor" = None ->
      dget (fold_left (step_item load) cl ns) "pp_conversion_factor" = None).
    { clear. induction cl as [|i cl IH]; intros ns N; [exact N|].
      cbn [fold_left]. apply IH. unfold step_item.
      destruct (find _ parser) as [r|] eqn:E; [|exact N].
      apply find_some in E. destruct E as [I _].
      rewrite dget_dset_other; [exact N|]. intros e.
      assert (Q : forallb (fun r => negb (String.eqb (row_dest r)
                                      "pp_conversion_factor")) parser = true)
        by (vm_compute; reflexivity).
      rewrite forallb_forall in Q. specialize (Q r I).
      rewrite <- e, String.eqb_refl in Q. discriminate. }
    apply G. destruct load; vm_compute; reflexivity. }
  rewrite (conf_parser_get accepts load file _ s' _ _ TS H').
  rewrite (conf_parser_get accepts load file _ s _ _ TS H).
  unfold param. rewrite !(read_options_get _ _ _ _ TR). unfold read_get.
  now rewrite !Z.
Qed.

(** FC3_R0_AVERAGE in the file has no effect without --v2: the average is
    always taken. *)
Theorem C107_r0_average_tag_refuted load file cl s :
  last_words ["--v2"] cl = None ->
  conf_parser accepts load file cl = Some s ->
  s "is_fc3_r0_average" = VBool true.
Proof.
  intros L H.
  assert (TS : set_by "is_fc3_r0_average" "fc3_r0_average")
    by (apply set_check_ok; vm_compute; reflexivity).
  assert (TR : read_by "fc3_r0_average" "is_fc3_r0_average"
                       (IfTruthy (Fixed ".true.")))
    by (apply read_check_ok; vm_compute; reflexivity).
  assert (TA : names_of load "is_fc3_r0_average" ["--v2"] StoreFalse)
    by (apply names_check_ok; destruct load; vm_compute; reflexivity).
  assert (TN : dget (namespace load []) "is_fc3_r0_average" = Some (Flag true))
    by (destruct load; vm_compute; reflexivity).
  assert (PK : parse_key accepts "fc3_r0_average" ".true."
               = Some (Some (VBool true))) by (vm_compute; reflexivity).
  rewrite (conf_parser_get accepts load file cl s _ _ TS H).
  unfold param at 1. rewrite (read_options_get _ _ _ _ TR). unfold read_get.
  rewrite (namespace_get load _ _ _ cl TA), L, TN. cbn [read_value truthy].
  now rewrite PK.
Qed.

(** ... and --v2 does not win over the file. *)
Theorem C107_v2_option load file cl s :
  last_words ["--v2"] cl <> None ->
  conf_parser accepts load file cl = Some s ->
  s "is_fc3_r0_average" =
  match file with
  | None => VBool false
  | Some ls =>
    match last_line "FC3_R0_AVERAGE" ls with
    | Some t => if string_dec (lower_string t) ".true." then VBool true
                else VBool false
    | None => VBool false
    end
  end.
Proof.
  intros L H.
  assert (TS : set_by "is_fc3_r0_average" "fc3_r0_average")
    by (apply set_check_ok; vm_compute; reflexivity).
  assert (TR : read_by "fc3_r0_average" "is_fc3_r0_average"
                       (IfTruthy (Fixed ".true.")))
    by (apply read_check_ok; vm_compute; reflexivity).
  assert (TA : names_of load "is_fc3_r0_average" ["--v2"] StoreFalse)
    by (apply names_check_ok; destruct load; vm_compute; reflexivity).
  assert (TD : default_settings "is_fc3_r0_average" = VBool false)
    by (vm_compute; reflexivity).
  rewrite (conf_parser_get accepts load file cl s _ _ TS H), TD.
  unfold param at 1. rewrite (read_options_get _ _ _ _ TR). unfold read_get.
  rewrite (namespace_get load _ _ _ cl TA).
  destruct (last_words ["--v2"] cl) as [w|]; [|contradiction].
  cbn [act read_value truthy]. unfold file_param, param, first_of.
  destruct file as [ls|]; [|reflexivity].
  change "fc3_r0_average" with (lower_string "FC3_R0_AVERAGE") at 1.
  rewrite read_file_get. destruct (last_line _ ls) as [t|]; [|reflexivity].
  assert (PK : parse_key accepts "fc3_r0_average" t =
    (if String.eqb (lower_string t) ".true." then Some (Some (VBool true))
     else if String.eqb (lower_string t) ".false." then Some (Some (VBool false))
     else Some None)) by reflexivity.
  rewrite PK. clear PK.
  destruct (String.eqb_spec (lower_string t) ".true.") as [->|n].
  - reflexivity.
  - destruct (string_dec (lower_string t) ".true."); [contradiction|].
    now destruct (String.eqb (lower_string t) ".false.").
Qed.

End C107.

(** ** Examples *)

(** A file and a command line: the mean free path of the command line wins,
    the file's isotope setting is kept, --noks is obeyed. *)
Example C107_example :
  exists s,
    conf_parser (fun _ _ => true) true
      (Some [("BOUNDARY_MFP", "10"); ("Isotope", ".TRUE."); ("N_U", ".TRUE.")])
      [("--boundary-mfp", ["5"]); ("--br", []); ("--noks", []);
       ("--bmfp", ["7"])] = Some s
    /\ s "boundary_mfp" = VParsed "boundary_mfp" "7"
    /\ s "is_isotope" = VBool true /\ s "is_bterta" = VBool true
    /\ s "is_kappa_star" = VBool false /\ s "is_N_U" = VBool false
    /\ s "is_lbte" = VBool false.
Proof.
  eexists. split; [reflexivity|].
  split; [vm_compute; reflexivity|]. split; [vm_compute; reflexivity|].
  split; [vm_compute; reflexivity|]. split; [vm_compute; reflexivity|].
  split; vm_compute; reflexivity.
Qed.

Example C107_example_in :
  In (Opt ["--noks"; "--no-kappa-stars"] "KAPPA_STAR" "is_kappa_star"
          (Switch false) (VBool true) Both) documented
  /\ has true (Opt ["--noks"; "--no-kappa-stars"] "KAPPA_STAR" "is_kappa_star"
          (Switch false) (VBool true) Both).
Proof.
  split; [|exact I]. apply nth_error_In with (n := 33%nat). reflexivity.
Qed.

Example C107_example_both :
  exists s,
    conf_parser (fun _ _ => true) false None [("--kubo", []); ("--wigner", [])]
    = Some s /\ s "conductivity_type" = VText "kubo".
Proof. eexists. split; [reflexivity | vm_compute; reflexivity]. Qed.

Example C107_example_unit :
  exists s,
    conf_parser (fun _ _ => true) false None [("--pp-unit-conversion", ["2"])]
    = Some s /\ s "pp_conversion_factor" = VNone.
Proof. eexists. split; [reflexivity | vm_compute; reflexivity]. Qed.

Example C107_example_v2 :
  exists s s',
    conf_parser (fun _ _ => true) false (Some [("FC3_R0_AVERAGE", ".FALSE.")]) []
    = Some s /\ s "is_fc3_r0_average" = VBool true
    /\ conf_parser (fun _ _ => true) false (Some [("FC3_R0_AVERAGE", ".TRUE.")])
                   [("--v2", [])]
       = Some s' /\ s' "is_fc3_r0_average" = VBool true.
Proof.
  eexists. eexists. split; [reflexivity|]. split; [vm_compute; reflexivity|].
  split; [reflexivity | vm_compute; reflexivity].
Qed.

Print Assumptions C107_precedence.
Print Assumptions C107_N_U_tag_refuted.
Print Assumptions C107_N_U_option.
Print Assumptions C107_conductivity_type.
Print Assumptions C107_pp_unit_conversion_refuted.
Print Assumptions C107_r0_average_tag_refuted.
Print Assumptions C107_v2_option.
