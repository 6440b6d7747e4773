(** C104: where load() takes force constants and datasets from. *)
From Coq Require Import String.
From Coq Require Import ZArith QArith List Bool Lia Setoid.
From Verif Require Import Base DsModel ForcesModel LoadModel.
Import ListNotations.
Open Scope Z_scope.

(** * Specification *)
(** the dataset is a type-2 dictionary with forces, or its first supercell has forces *)
Definition has_forces (d : dset) : Prop :=
  match d_set d with Type2 _ f _ => f <> None | Type1 _ fs => exists f rest, fs = f :: rest /\ f_forces f <> None end.
(** a quantity and the same in A or eV/A *)
Definition in_unit (u : option Q) (v w : vec) : Prop :=
  match u with
  | None => w = v
  | Some c => let '(x, y, z) := v in let '(x', y', z') := w in (x' == c * x /\ y' == c * y /\ z' == c * z)%Q
  end.
Definition opt_rel {X} (R : X -> X -> Prop) (a b : option X) : Prop :=
  match a, b with None, None => True | Some x, Some y => R x y | _, _ => False end.
Definition sec_in (du fu : option Q) (s t : sec) : Prop :=
  s_num t = s_num s /\ s_dist t = s_dist s /\ s_incl t = s_incl s /\ s_id t = s_id s /\ s_energy t = s_energy s /\
  in_unit du (s_disp s) (s_disp t) /\ opt_rel (Forall2 (in_unit fu)) (s_forces s) (s_forces t).
Definition fir_in (du fu : option Q) (s t : fir) : Prop :=
  f_num t = f_num s /\ f_id t = f_id s /\ f_energy t = f_energy s /\
  in_unit du (f_disp s) (f_disp t) /\ opt_rel (Forall2 (in_unit fu)) (f_forces s) (f_forces t) /\ Forall2 (sec_in du fu) (f_second s) (f_second t).
Definition dataset_in (du fu : option Q) (d e : dataset) : Prop :=
  match d, e with
  | Type1 n fs, Type1 m gs => m = n /\ Forall2 (fir_in du fu) fs gs
  | Type2 a f e1, Type2 b g e2 => opt_rel (Forall2 (Forall2 (in_unit du))) a b /\ opt_rel (Forall2 (Forall2 (in_unit fu))) f g /\ e2 = e1
  | _, _ => False
  end.
Definition units_of (units : Z -> option Q * option Q) (calc : option Z) : option Q * option Q :=
  match calc with None => (None, None) | Some c => units c end.
(** what a force file gives together with the displacements known before *)
Inductive from_file (fc3 : bool) (known : option dset) : ffile -> dset -> Prop :=
| from_type2 : forall disps forces, from_file fc3 known (FType2 disps forces) (DSet (Type2 (Some disps) (Some forces) None) None)
| from_type1_fc3 : forall lines n fs c gs, fc3 = true -> known = Some (DSet (Type1 n fs) c) -> parse_FORCES_FC3 None lines n fs = Some gs ->
    from_file fc3 known (FType1 lines) (DSet (Type1 n gs) c)
| from_type1_fc2 : forall lines n fs c, fc3 = false -> known = Some (DSet (Type1 n fs) c) ->
    from_file fc3 known (FType1 lines) (DSet (Type1 n (parse_FORCES_FC2 None lines n fs)) c).
(** the dataset that is chosen, before the units are changed: the one of phono3py_yaml if it has forces, else the file asked for, else
    the file of the default name, else the displacements of phono3py_yaml *)
Inductive chosen (fc3 : bool) (default : string) (disk : string -> option ffile) (known : option dset) (given : option path) : dset -> Prop :=
| by_yaml : forall d, known = Some d -> has_forces d -> chosen fc3 default disk known given d
| by_file : forall name file d, (forall k, known = Some k -> ~ has_forces k) ->
    given = Some (Path name) \/ given = None /\ name = default -> disk name = Some file -> from_file fc3 known file d ->
    chosen fc3 default disk known given d
| by_displacements : forall d, known = Some d -> ~ has_forces d -> given = None -> disk default = None -> chosen fc3 default disk known given d.

(** * Lemmas *)
Lemma andthen_ok {A B} (r : res A) (f : A -> res B) b : andthen r f = Ok b -> exists a, r = Ok a /\ f a = Ok b.
Proof. destruct r as [a|e]; [intros H; exists a; split; [reflexivity|exact H]|discriminate]. Qed.
Ltac oks :=
  repeat match goal with
  | H : andthen _ _ = Ok _ |- _ => apply andthen_ok in H; let a := fresh "a" in let E := fresh "E" in destruct H as (a & E & H); cbv beta in H
  | H : Ok _ = Ok _ |- _ => apply (f_equal (fun r => match r with Ok x => Some x | Err _ => None end)) in H
  | H : Some _ = Some _ |- _ => injection H; clear H; intros H
  | H : Err _ = Ok _ |- _ => discriminate H
  | H : Ok _ = Err _ |- _ => discriminate H
  end.
Lemma forces_in_spec : forall d b, forces_in (Some d) = Ok b -> (b = true <-> has_forces d).
Proof.
  intros [[n fs|a f e] c] b; unfold forces_in, has_forces; cbn [option_map d_set].
  - destruct fs as [|f fs]; [discriminate|]. intros H. apply (f_equal (fun r => match r with Ok x => Some x | Err _ => None end)) in H. injection H as <-.
    split.
    + intros T. exists f, fs. split; [reflexivity|]. destruct (f_forces f); [discriminate|discriminate T].
    + intros (g & rest & E & N). injection E as <- _. destruct (f_forces f); [reflexivity|contradiction].
  - intros H. apply (f_equal (fun r => match r with Ok x => Some x | Err _ => None end)) in H. injection H as <-. destruct f; split; intros T; try reflexivity; try discriminate; contradiction.
Qed.
Lemma times_in : forall u v, in_unit u v (times u v).
Proof. intros [c|] [[x y] z]; cbn; [|reflexivity]. repeat split; apply Qmult_comm. Qed.
Lemma Forall2_map {X Y} (R : X -> Y -> Prop) (f : X -> Y) l : (forall x, R x (f x)) -> Forall2 R l (map f l).
Proof. intros H. induction l; constructor; auto. Qed.
Lemma opt_map {X} (R : X -> X -> Prop) (f : X -> X) o : (forall x, R x (f x)) -> opt_rel R o (option_map f o).
Proof. intros H. destruct o; cbn; auto. Qed.
Lemma convert_in : forall du fu d, dataset_in du fu d (convert_unit du fu d).
Proof.
  intros du fu [n fs|a f e]; cbn.
  - split; [reflexivity|]. apply Forall2_map. intros x. unfold fir_in. cbn. repeat split; try apply times_in.
    + apply opt_map. intros y. apply Forall2_map. apply times_in.
    + apply Forall2_map. intros s. unfold sec_in. cbn. repeat split; try apply times_in. apply opt_map. intros y. apply Forall2_map. apply times_in.
  - repeat split; apply opt_map; intros x; apply Forall2_map; intros y; apply Forall2_map; apply times_in.
Qed.
Lemma Forall2_refl {X} (R : X -> X -> Prop) l : (forall x, R x x) -> Forall2 R l l.
Proof. intros H. induction l; constructor; auto. Qed.
Lemma opt_refl {X} (R : X -> X -> Prop) o : (forall x, R x x) -> opt_rel R o o.
Proof. intros H. destruct o; cbn; auto. Qed.
Lemma none_in : forall d, dataset_in None None d d.
Proof.
  assert (I : forall v, in_unit None v v) by reflexivity.
  intros [n fs|a f e]; cbn.
  - split; [reflexivity|]. apply Forall2_refl. intros x. unfold fir_in. repeat split; try reflexivity.
    + apply opt_refl. intros y. apply Forall2_refl, I.
    + apply Forall2_refl. intros s. unfold sec_in. repeat split; try reflexivity. apply opt_refl. intros y. apply Forall2_refl, I.
  - repeat split; apply opt_refl; intros x; apply Forall2_refl; intros y; apply Forall2_refl, I.
Qed.

Section Parse.
Variable units : Z -> option Q * option Q.
Variable disk : string -> option ffile.
Notation parse := (parse_forces units disk).
Lemma read_ok : forall d fc3 f r, read_forces disk d fc3 f = Ok (Some r) -> exists name file, f = Path name /\ disk name = Some file /\ from_file fc3 d file r.
Proof.
  intros d fc3 [name|a b] r; cbn [read_forces]; [|discriminate]. destruct (disk name) as [file|] eqn:D; [|discriminate]. intros H. exists name, file. split; [reflexivity|]. split; [exact D|].
  destruct file as [disps forces|lines|]; [| |discriminate].
  - oks. rewrite <- H. constructor.
  - destruct d as [[[n fs|a f e] c]|]; try discriminate. destruct fc3.
    + destruct (parse_FORCES_FC3 None lines n fs) as [gs|] eqn:P; [|discriminate]. oks. rewrite <- H. apply from_type1_fc3 with fs; auto.
    + oks. rewrite <- H. apply from_type1_fc2; auto.
Qed.
(** the result of parse_forces: what was known or read, in units of A and eV/A, for the supercell of this size *)
Lemma parse_ok : forall y natom cutoff f fc3 calc r, parse y natom cutoff f fc3 calc = Ok r ->
  let known := match y with None => None | Some y => extract_dataset y fc3 end in
  exists raw, dataset_in (fst (units_of units calc)) (snd (units_of units calc)) (d_set raw) (d_set r) /\
    (forall n fs, d_set r = Type1 n fs -> n = natom) /\ (cutoff = None -> d_cut r = d_cut raw) /\
    match f with
    | None => known = Some raw
    | Some f => known = Some raw /\ has_forces raw \/
                (forall k, known = Some k -> ~ has_forces k) /\ exists name file, f = Path name /\ disk name = Some file /\ from_file fc3 known file raw
    end.
Proof.
  intros y natom cutoff f fc3 calc r H known. unfold parse_forces in H. fold known in H. oks. rename E into E1, E0 into E2, a into d1, a0 into d2.
  destruct d2 as [d2|]; [|discriminate].
  assert (exists raw, d1 = Some raw /\ d_cut d2 = d_cut raw /\ dataset_in (fst (units_of units calc)) (snd (units_of units calc)) (d_set raw) (d_set d2)) as (raw & -> & C & U).
  { destruct calc as [c|].
    - destruct d1 as [d1|]; [|discriminate]. oks. exists d1. rewrite <- E2. cbn [d_cut d_set units_of]. repeat split. apply convert_in.
    - oks. exists d2. split; [exact E2|]. split; [reflexivity|]. apply none_in. }
  assert (d_set r = d_set d2 /\ (cutoff = None -> d_cut r = d_cut d2) /\ forall n fs, d_set d2 = Type1 n fs -> n = natom) as (S & K & N).
  { destruct (match d_set d2 with Type1 n _ => negb (n =? natom) | Type2 _ _ _ => false end) eqn:B; [discriminate|]. assert (forall n fs, d_set d2 = Type1 n fs -> n = natom) as N.
    { intros n fs G. rewrite G in B. apply negb_false_iff in B. apply Z.eqb_eq. exact B. }
    destruct cutoff as [c|]; [|oks; subst r; repeat split; assumption]. destruct (fc3 && negb (Qeq_bool c 0)); [|oks; subst r; repeat split; assumption].
    destruct (d_cut d2); oks; subst r; cbn [d_set d_cut]; repeat split; try assumption; discriminate. }
  exists raw. rewrite S. split; [exact U|]. split; [exact N|]. split; [intros G; rewrite (K G); exact C|].
  destruct f as [f|]; [|oks; exact E1]. oks. rename E into F, a into b.
  destruct known as [k|].
  - pose proof (forces_in_spec k b F) as B. destruct b.
    + oks. left. subst k. split; [reflexivity|]. apply B. reflexivity.
    + right. split; [intros k' G; injection G as <-; intros T; apply B in T; discriminate|]. apply read_ok. exact E1.
  - cbn in F. oks. subst b. right. split; [discriminate|]. apply read_ok. exact E1.
Qed.
End Parse.

Section Load.
Variable F : Type.
Variable cols : F -> Z.
Variable compact : F -> bool.
Variable solve3 : dset -> F * F.
Variable solve2 : dset -> F.
Variable indices_ok : bool -> list Z -> list Z -> bool.
Variable natom natom2 : Z.
Variable p2s p2s2 : list Z.
Variable units : Z -> option Q * option Q.
Notation load := (load F cols compact solve3 solve2 indices_ok natom natom2 p2s p2s2 units).
Notation compute := (compute_fc F solve3 solve2).

(** an array of force constants stored under a name, that fits the cells *)
Definition stored_as (disk : string -> option (fcfile F)) (p2s : list Z) (natom : Z) (name : string) (fc : F) : Prop :=
  exists m, disk name = Some (fc, m) /\ cols fc = natom /\ forall m', m = Some m' -> indices_ok (compact fc) m' p2s = true.
Lemma load_fc_ok : forall disk p2s natom name fc, load_fc F cols compact indices_ok disk p2s natom name = Ok fc -> stored_as disk p2s natom name fc.
Proof.
  intros disk p s name fc H. unfold load_fc in H. destruct (disk name) as [[fc' m]|] eqn:D; [|discriminate].
  destruct (match m with None => false | Some m => negb (indices_ok (compact fc') m p) end) eqn:I; [discriminate|].
  destruct (s =? cols fc') eqn:C; [|discriminate]. cbn in H. oks. subst fc'. exists m. split; [exact D|]. split; [symmetry; apply Z.eqb_eq; exact C|].
  intros m' ->. apply negb_false_iff in I. exact I.
Qed.
(** the name of the file that is read, if any *)
Definition fc_name (disk : string -> option (fcfile F)) (default : string) (given : option string) : option string :=
  match given with Some n => Some n | None => match disk default with Some _ => Some default | None => None end end.
Lemma load_both_ok : forall fl n3 n2 p q, load_fc2_and_fc3 F cols compact indices_ok natom natom2 p2s p2s2 fl n3 n2 p = Ok q ->
  p_data F q = p_data F p /\ p_data2 F q = p_data2 F p /\ p_smat2 F q = p_smat2 F p /\
  match fc_name (fl_fc3 F fl) "fc3.hdf5" n3 with
  | Some n => exists fc, p_fc3 F q = Some fc /\ stored_as (fl_fc3 F fl) p2s natom n fc
  | None => p_fc3 F q = p_fc3 F p
  end /\
  match fc_name (fl_fc2 F fl) "fc2.hdf5" n2 with
  | Some n => exists fc, p_fc2 F q = Some fc /\ stored_as (fl_fc2 F fl) p2s2 (if p_smat2 F p then natom2 else natom) n fc
  | None => p_fc2 F q = p_fc2 F p
  end.
Proof.
  intros fl n3 n2 p q H. unfold load_fc2_and_fc3 in H. oks. rename a into p1, E into E1.
  assert (p_data F p1 = p_data F p /\ p_data2 F p1 = p_data2 F p /\ p_smat2 F p1 = p_smat2 F p /\ p_fc2 F p1 = p_fc2 F p /\
    match fc_name (fl_fc3 F fl) "fc3.hdf5" n3 with
    | Some n => exists fc, p_fc3 F p1 = Some fc /\ stored_as (fl_fc3 F fl) p2s natom n fc
    | None => p_fc3 F p1 = p_fc3 F p
    end) as (A1 & A2 & A3 & A4 & A5).
  { unfold fc_name. destruct n3 as [n|].
    - cbn [orb] in E1. oks. rewrite <- E1. cbn. repeat split. exists a. split; [reflexivity|]. apply load_fc_ok. assumption.
    - cbn [orb] in E1. unfold exists_file in E1. destruct (fl_fc3 F fl "fc3.hdf5") eqn:D.
      + oks. rewrite <- E1. cbn. repeat split. exists a. split; [reflexivity|]. apply load_fc_ok. assumption.
      + oks. rewrite <- E1. repeat split. }
  rewrite <- A1, <- A2, <- A3, <- A4 in *. clear A1 A2 A3 A4.
  unfold fc_name at 2. unfold exists_file in H. destruct n2 as [n|]; cbn [orb] in H; [|destruct (fl_fc2 F fl "fc2.hdf5") eqn:D]; oks; rewrite <- H; cbn; repeat split; try assumption;
    try reflexivity; exists a; (split; [reflexivity|]; apply load_fc_ok; assumption).
Qed.
Lemma select_ok : forall fl y given cutoff calc r, select_dataset F natom units fl y given cutoff calc = Ok r ->
  let known := match y with Some y => y_data y | None => None end in
  match r with
  | Some d => exists raw, chosen true "FORCES_FC3" (fl_forces F fl) known given raw /\
      dataset_in (fst (units_of units calc)) (snd (units_of units calc)) (d_set raw) (d_set d) /\ (forall n fs, d_set d = Type1 n fs -> n = natom) /\
      (cutoff = None -> d_cut d = d_cut raw)
  | None => known = None /\ given = None /\ fl_forces F fl "FORCES_FC3" = None
  end.
Proof.
  intros fl y given cutoff calc r H known. unfold select_dataset in H. fold known in H. oks. rename a into b, E into Eb.
  assert (K : match y with None => None | Some y => extract_dataset y true end = known).
  { destruct y; [|reflexivity]. unfold extract_dataset. rewrite orb_true_r. reflexivity. }
  assert (Hk : forall k, known = Some k -> (b = true <-> has_forces k)) by (intros k G; rewrite G in Eb; apply forces_in_spec; exact Eb).
  destruct b.
  - oks. rename a into d. rewrite <- H. destruct (parse_ok _ _ _ _ _ _ _ _ _ E) as (raw & U & N & C & S). rewrite K in S. exists raw. split; [|auto]. apply by_yaml; [exact S|]. apply (Hk raw S). reflexivity.
  - assert (Hn : forall k, known = Some k -> ~ has_forces k) by (intros k G T; apply (Hk k G) in T; discriminate).
    unfold exists_file in H. destruct given as [f|].
    + cbn [orb] in H. oks. rename a into d. rewrite <- H. destruct (parse_ok _ _ _ _ _ _ _ _ _ E) as (raw & U & N & C & S). rewrite K in S. exists raw. split; [|auto].
      destruct S as [(S1 & S2)|(_ & name & file & -> & S1 & S2)]; [exfalso; apply (Hn raw S1 S2)|]. apply by_file with name file; auto.
    + cbn [orb] in H. destruct (fl_forces F fl "FORCES_FC3") as [file0|] eqn:D.
      * oks. rename a into d. rewrite <- H. destruct (parse_ok _ _ _ _ _ _ _ _ _ E) as (raw & U & N & C & S). rewrite K in S. exists raw. split; [|auto].
        destruct S as [(S1 & S2)|(_ & name & file & G & S1 & S2)]; [exfalso; apply (Hn raw S1 S2)|]. injection G as <-. apply by_file with "FORCES_FC3"%string file; auto.
      * destruct y as [[yc [yd|] y2 yp ys]|]; cbn in known, K; subst known.
        -- oks. rename a into d. rewrite <- H. destruct (parse_ok _ _ _ _ _ _ _ _ _ E) as (raw & U & N & C & S). rewrite K in S. exists raw. split; [|auto].
           apply by_displacements; [exact S|apply Hn; exact S|reflexivity|exact D].
        -- oks. rewrite <- H. auto.
        -- oks. rewrite <- H. auto.
Qed.
Lemma stored_ok : forall d e, stored d = Ok e -> d_set e = d_set d /\ forall n fs, d_set d = Type1 n fs -> d_cut e = d_cut d.
Proof.
  intros [[n fs|[a|] f e] c] r H; cbn in H; oks; try discriminate; rewrite <- H; cbn; split; auto. intros; discriminate.
Qed.
(** phono3py_yaml written for a phonon supercell keeps two datasets *)
Definition known2 (y : option yaml) : option dset := match y with None => None | Some y => if y_phonon_cell y then y_phonon_data y else y_data y end.
Definition plain (y : option yaml) : Prop := match y with None => True | Some y => y_phonon_smat y = y_phonon_cell y /\ (y_phonon_cell y = false -> y_phonon_data y = None) end.
Lemma select2_ok : forall fl p y given calc r, plain y -> (forall y', y = Some y' -> p_smat2 F p = y_phonon_smat y') -> select_phonon_dataset F natom natom2 units fl p y given calc = Ok r ->
  match r with
  | Some d => p_smat2 F p = true /\ exists raw, chosen false "FORCES_FC2" (fl_forces F fl) (known2 y) given raw /\
      dataset_in (fst (units_of units calc)) (snd (units_of units calc)) (d_set raw) (d_set d) /\ (forall n fs, d_set d = Type1 n fs -> n = natom2)
  | None => p_smat2 F p = true -> known2 y = None /\ given = None /\ fl_forces F fl "FORCES_FC2" = None
  end.
Proof.
  intros fl p y given calc r P S H. unfold select_phonon_dataset in H. oks. rename a into b, E into Eb.
  assert (K : match y with None => None | Some y => extract_dataset y false end = known2 y).
  { destruct y as [y|]; [|reflexivity]. unfold extract_dataset, known2. destruct (y_phonon_cell y); reflexivity. }
  assert (D2 : p_smat2 F p = true -> match y with Some y => y_phonon_data y | None => None end = known2 y).
  { intros T. destruct y as [y|]; [|reflexivity]. cbn in P |- *. destruct P as [P _]. rewrite <- P, <- (S y eq_refl), T. reflexivity. }
  assert (D3 : forall d, match y with Some y => y_phonon_data y | None => None end = Some d -> p_smat2 F p = true).
  { intros d G. destruct y as [y|]; [|discriminate]. rewrite (S y eq_refl). cbn in P. destruct P as [P1 P2]. rewrite P1. destruct (y_phonon_cell y); [reflexivity|]. rewrite P2 in G; [discriminate|reflexivity]. }
  destruct b.
  - destruct (match y with Some y => y_phonon_data y | None => None end) as [k|] eqn:Y; [|discriminate]. pose proof (D3 k eq_refl) as T. specialize (D2 T). rewrite T in H. oks. rename a into d. rewrite <- H.
    destruct (parse_ok _ _ _ _ _ _ _ _ _ E) as (raw & U & N & C & G). rewrite K in G. split; [exact T|]. exists raw. split; [|auto]. apply by_yaml; [exact G|].
    rewrite <- D2 in G. injection G as <-. apply (forces_in_spec k true Eb). reflexivity.
  - destruct (p_smat2 F p) eqn:T.
    + specialize (D2 eq_refl). rewrite D2 in *. assert (Hn : forall k, known2 y = Some k -> ~ has_forces k).
      { intros k G V. rewrite G in Eb. apply (forces_in_spec k false Eb) in V. discriminate. }
      unfold exists_file in H. destruct given as [f|].
      * cbn [orb andb] in H. oks. rename a into d. rewrite <- H. destruct (parse_ok _ _ _ _ _ _ _ _ _ E) as (raw & U & N & C & G). rewrite K in G. split; [reflexivity|]. exists raw. split; [|auto].
        destruct G as [(S1 & S2)|(_ & name & file & -> & S1 & S2)]; [exfalso; apply (Hn raw S1 S2)|]. apply by_file with name file; auto.
      * cbn [orb] in H. destruct (fl_forces F fl "FORCES_FC2") as [file0|] eqn:Dk.
        -- cbn [andb] in H. oks. rename a into d. rewrite <- H. destruct (parse_ok _ _ _ _ _ _ _ _ _ E) as (raw & U & N & C & G). rewrite K in G. split; [reflexivity|]. exists raw. split; [|auto].
           destruct G as [(S1 & S2)|(_ & name & file & G & S1 & S2)]; [exfalso; apply (Hn raw S1 S2)|]. injection G as <-. apply by_file with "FORCES_FC2"%string file; auto.
        -- cbn [andb] in H. destruct y as [[yc yd [y2|] yp ys]|].
           ++ oks. rename a into d. rewrite <- H. destruct (parse_ok _ _ _ _ _ _ _ _ _ E) as (raw & U & N & C & G). rewrite K in G. split; [reflexivity|]. exists raw. split; [|auto].
              apply by_displacements; [exact G|apply Hn; exact G|reflexivity|exact Dk].
           ++ oks. rewrite <- H. intros _. rewrite <- D2. auto.
           ++ oks. rewrite <- H. auto.
    + rewrite andb_false_r in H. destruct y as [[yc yd [y2|] yp ys]|].
      * specialize (D3 y2 eq_refl). discriminate.
      * oks. rewrite <- H. discriminate.
      * oks. rewrite <- H. discriminate.
Qed.
Lemma compute_ok : forall p q, compute p = Ok q ->
  p_data F q = p_data F p /\ p_data2 F q = p_data2 F p /\ p_smat2 F q = p_smat2 F p /\
  (forall f, p_fc3 F p = Some f -> p_fc3 F q = Some f) /\ (forall f, p_fc2 F p = Some f -> p_fc2 F q = Some f) /\
  (p_fc3 F p = None -> match p_fc3 F q with
                       | Some f => exists d, p_data F p = Some d /\ has_forces d /\ f = fst (solve3 d)
                       | None => forall d, p_data F p = Some d -> ~ has_forces d
                       end) /\
  (p_fc2 F p = None -> (p_smat2 F p = false -> p_data2 F p = None) -> let src := if p_smat2 F p then p_data2 F p else p_data F p in
     match p_fc2 F q with
     | Some f => exists d, src = Some d /\ has_forces d /\ f = solve2 d
     | None => forall d, src = Some d -> ~ has_forces d
     end).
Proof.
  intros [f3 f2 d1 d2 sm] q H. unfold compute_fc in H. cbn [p_fc2 p_fc3 p_data p_data2 p_smat2] in *. oks. rename a into p1, E into E1.
  assert (A : p_data F p1 = d1 /\ p_data2 F p1 = d2 /\ p_smat2 F p1 = sm /\ (forall f, f3 = Some f -> p_fc3 F p1 = Some f) /\ (forall f, f2 = Some f -> p_fc2 F p1 = Some f) /\
     (f3 = None -> match p_fc3 F p1 with Some f => exists d, d1 = Some d /\ has_forces d /\ f = fst (solve3 d) | None => forall d, d1 = Some d -> ~ has_forces d end) /\
     (f2 = None -> (forall d, (if sm then d2 else d1) = Some d -> ~ has_forces d) -> p_fc2 F p1 = None)).
  { destruct f3 as [f3|].
    - oks. rewrite <- E1. cbn. repeat split; auto; discriminate.
    - oks. rename a into b, E into Eb. destruct d1 as [d|].
      + pose proof (forces_in_spec d b Eb) as B. destruct b.
        * unfold produce_fc3 in E1. cbn [p_data] in E1. destruct (solve3 d) as [g3 g2] eqn:G. oks. rewrite <- E1. cbn. repeat split; try discriminate.
          -- intros f ->. reflexivity.
          -- intros _. exists d. rewrite G. repeat split. apply B. reflexivity.
          -- intros -> N. destruct sm; [reflexivity|]. exfalso. apply (N d eq_refl). apply B. reflexivity.
        * oks. rewrite <- E1. cbn. repeat split; auto; try discriminate. intros _ k G T. injection G as <-. apply B in T. discriminate.
      + cbn in Eb. oks. subst b. oks. rewrite <- E1. cbn. repeat split; auto; discriminate. }
  destruct A as (A1 & A2 & A3 & A4 & A5 & A6 & A7). destruct f2 as [f2|].
  - oks. subst q. repeat split; auto; discriminate.
  - oks. rename a into b, E into Eb. rewrite A1, A2, A3 in Eb. destruct b.
    + unfold produce_fc2 in H. rewrite A1, A2, A3 in H. oks. rename a into b, E into Eb'. destruct (match d2 with Some d => Some d | None => d1 end) as [d|] eqn:D; [|discriminate].
      destruct b; [|discriminate]. oks. rewrite <- H. cbn. repeat split; auto; try discriminate. intros _ P2.
      assert ((if sm then d2 else d1) = Some d) as ->.
      { destruct sm; [|rewrite (P2 eq_refl) in D; exact D]. destruct d2; [exact D|]. cbn in Eb. discriminate. }
      exists d. repeat split. apply (forces_in_spec d true Eb'). reflexivity.
    + oks. subst q. repeat split; auto; try discriminate. intros _ _.
      assert (N : forall d, (if sm then d2 else d1) = Some d -> ~ has_forces d).
      { intros d G T. assert (forces_in (Some d) = Ok false) as Eb1 by (rewrite <- G; destruct sm; exact Eb). apply (forces_in_spec d false Eb1) in T. discriminate. }
      cbv zeta. rewrite A7 by auto. exact N.
Qed.

(** ** C104: with a structure given phono3py_yaml does not matter at all; without one the calculator and the phonon supercell matrix
    given as arguments do not *)
Theorem C104_structure : forall fl a,
  (a_cell a = true -> forall y, load fl a = load fl (Args true (a_unit a) (a_smat2 a) y (a_calc a) (a_fc3 a) (a_fc2 a) (a_forces3 a) (a_forces2 a) (a_produce a))) /\
  (a_cell a = false -> forall u s c, load fl a = load fl (Args false u s (a_yaml a) c (a_fc3 a) (a_fc2 a) (a_forces3 a) (a_forces2 a) (a_produce a))).
Proof. intros fl [cell unit s y c n3 n2 g3 g2 pr]. split; cbn; intros ->; reflexivity. Qed.

(** the structure used: the calculator and phono3py_yaml that count *)
Definition yaml_used (a : args) : option yaml := if a_cell a then None else a_yaml a.
Definition calc_used (a : args) : option Z := if a_cell a then a_calc a else match a_yaml a with Some y => y_calc y | None => None end.
Definition smat2_used (a : args) : bool := if a_cell a then a_smat2 a else match a_yaml a with Some y => y_phonon_smat y | None => false end.
Lemma load_split : forall fl a p, load fl a = Ok p ->
  exists p1 p2, load_fc2_and_fc3 F cols compact indices_ok natom natom2 p2s p2s2 fl (a_fc3 a) (a_fc2 a) (Ph3 F None None None None (smat2_used a)) = Ok p1 /\
    load_datasets F natom natom2 units fl (yaml_used a) (a_forces3 a) (a_forces2 a) None (calc_used a) p1 = Ok p2 /\ (if a_produce a then compute p2 else Ok p2) = Ok p.
Proof.
  intros fl a p H. unfold LoadModel.load in H. unfold yaml_used, calc_used, smat2_used. oks. destruct a0 as [[c s] y]. destruct (a_cell a).
  - destruct (a_smat2 a && negb (a_unit a)); [discriminate|]. oks. inversion E; subst. oks. intros; subst. exists a0, a1. split; [assumption|]. split; assumption.
  - destruct (a_yaml a) as [y'|]; [|discriminate]. oks. inversion E; subst. oks. intros; subst. exists a0, a1. split; [assumption|]. split; assumption.
Qed.
Lemma datasets_ok : forall fl y g3 g2 cutoff calc p q, load_datasets F natom natom2 units fl y g3 g2 cutoff calc p = Ok q ->
  p_fc3 F q = p_fc3 F p /\ p_fc2 F q = p_fc2 F p /\ p_smat2 F q = p_smat2 F p /\
  exists r3 r2 p1, select_dataset F natom units fl y g3 cutoff calc = Ok r3 /\ select_phonon_dataset F natom natom2 units fl p1 y g2 calc = Ok r2 /\ p_smat2 F p1 = p_smat2 F p /\
    (match r3 with None => p_data F q = p_data F p | Some d => exists e, stored d = Ok e /\ p_data F q = Some e end) /\
    (match r2 with None => p_data2 F q = p_data2 F p | Some d => exists e, stored d = Ok e /\ p_data2 F q = Some e end).
Proof.
  intros fl y g3 g2 cutoff calc p q H. unfold load_datasets in H. oks. rename a into r3, a1 into r2, a0 into p1, E into E3, E1 into E2, E0 into Ep.
  assert (p_fc3 F p1 = p_fc3 F p /\ p_fc2 F p1 = p_fc2 F p /\ p_smat2 F p1 = p_smat2 F p /\ p_data2 F p1 = p_data2 F p /\
    match r3 with None => p_data F p1 = p_data F p | Some d => exists e, stored d = Ok e /\ p_data F p1 = Some e end) as (A1 & A2 & A3 & A4 & A5).
  { destruct r3 as [d|]; oks; rewrite <- Ep; cbn; repeat split. exists a. auto. }
  assert (p_fc3 F q = p_fc3 F p1 /\ p_fc2 F q = p_fc2 F p1 /\ p_smat2 F q = p_smat2 F p1 /\ p_data F q = p_data F p1 /\
    match r2 with None => p_data2 F q = p_data2 F p1 | Some d => exists e, stored d = Ok e /\ p_data2 F q = Some e end) as (B1 & B2 & B3 & B4 & B5).
  { destruct r2 as [d|]; oks; rewrite <- H; cbn; repeat split. exists a. auto. }
  rewrite B1, B2, B3, A1, A2, A3. repeat split. exists r3, r2, p1. rewrite B4. repeat split; try assumption. destruct r2; [exact B5|]. rewrite B5. exact A4.
Qed.

(** ** C104: the dataset. It is the dataset of phono3py_yaml if that has forces, else what the force file holds, else the displacements
    of phono3py_yaml; lengths and forces are in A and eV/A, converted once, and a type-1 dataset is for the supercell of load *)
Theorem C104_dataset : forall fl a p, load fl a = Ok p ->
  let known := match yaml_used a with Some y => y_data y | None => None end in
  match p_data F p with
  | Some d => exists raw, chosen true "FORCES_FC3" (fl_forces F fl) known (a_forces3 a) raw /\
      dataset_in (fst (units_of units (calc_used a))) (snd (units_of units (calc_used a))) (d_set raw) (d_set d) /\
      (forall n fs, d_set d = Type1 n fs -> n = natom /\ d_cut d = d_cut raw)
  | None => known = None /\ a_forces3 a = None /\ fl_forces F fl "FORCES_FC3" = None
  end.
Proof.
  intros fl a p H known. destruct (load_split fl a p H) as (p1 & p2 & E1 & E2 & E3).
  destruct (load_both_ok _ _ _ _ _ E1) as (L1 & L2 & L3 & _). cbn in L1, L2, L3.
  destruct (datasets_ok _ _ _ _ _ _ _ _ E2) as (D1 & D2 & D3 & r3 & r2 & p0 & S3 & S2 & _ & R3 & R2).
  assert (p_data F p = p_data F p2) as -> by (destruct (a_produce a); [apply (compute_ok p2 p E3)|oks; subst; reflexivity]).
  pose proof (select_ok _ _ _ _ _ _ S3) as C. cbv zeta in C. fold known in C. destruct r3 as [d|].
  - destruct R3 as (e & R & ->). destruct (stored_ok d e R) as [T1 T2]. destruct C as (raw & C1 & C2 & C3 & C4). exists raw. rewrite T1. split; [assumption|]. split; [assumption|]. intros n fs G. split; [exact (C3 n fs G)|].
    rewrite (T2 n fs G). apply C4. reflexivity.
  - rewrite R3, L1. exact C.
Qed.
(** ** C104: the dataset for fc2, in the same way; there is one only with a phonon supercell matrix *)
Theorem C104_phonon_dataset : forall fl a p, plain (yaml_used a) -> load fl a = Ok p ->
  match p_data2 F p with
  | Some d => smat2_used a = true /\ exists raw, chosen false "FORCES_FC2" (fl_forces F fl) (known2 (yaml_used a)) (a_forces2 a) raw /\
      dataset_in (fst (units_of units (calc_used a))) (snd (units_of units (calc_used a))) (d_set raw) (d_set d) /\ (forall n fs, d_set d = Type1 n fs -> n = natom2)
  | None => smat2_used a = true -> known2 (yaml_used a) = None /\ a_forces2 a = None /\ fl_forces F fl "FORCES_FC2" = None
  end.
Proof.
  intros fl a p P H. destruct (load_split fl a p H) as (p1 & p2 & E1 & E2 & E3).
  destruct (load_both_ok _ _ _ _ _ E1) as (L1 & L2 & L3 & _). cbn in L1, L2, L3.
  destruct (datasets_ok _ _ _ _ _ _ _ _ E2) as (D1 & D2 & D3 & r3 & r2 & p0 & S3 & S2 & S0 & R3 & R2).
  assert (p_data2 F p = p_data2 F p2) as -> by (destruct (a_produce a); [apply (compute_ok p2 p E3)|oks; subst; reflexivity]).
  assert (Y : forall y', yaml_used a = Some y' -> p_smat2 F p0 = y_phonon_smat y').
  { intros y' G. rewrite S0, L3. unfold yaml_used, smat2_used in *. destruct (a_cell a); [discriminate|]. rewrite G. reflexivity. }
  pose proof (select2_ok _ _ _ _ _ _ P Y S2) as C. rewrite S0, L3 in C. destruct r2 as [d|].
  - destruct R2 as (e & R & ->). destruct (stored_ok d e R) as [T1 T2]. destruct C as (T & raw & C1 & C2 & C3). split; [exact T|]. exists raw. rewrite T1. auto.
  - rewrite R2, L2. exact C.
Qed.
(** ** C104: the force constants. A file named in the call is used, else fc3.hdf5 (fc2.hdf5) of the directory, in both cases checked
    against the supercell; else they are computed from the dataset when it has forces; else there are none *)
Theorem C104_force_constants : forall fl a p, plain (yaml_used a) -> load fl a = Ok p ->
  match fc_name (fl_fc3 F fl) "fc3.hdf5" (a_fc3 a) with
  | Some n => exists fc, p_fc3 F p = Some fc /\ stored_as (fl_fc3 F fl) p2s natom n fc
  | None => match p_fc3 F p with
            | Some f => a_produce a = true /\ exists d, p_data F p = Some d /\ has_forces d /\ f = fst (solve3 d)
            | None => a_produce a = false \/ forall d, p_data F p = Some d -> ~ has_forces d
            end
  end /\
  let src := if smat2_used a then p_data2 F p else p_data F p in
  match fc_name (fl_fc2 F fl) "fc2.hdf5" (a_fc2 a) with
  | Some n => exists fc, p_fc2 F p = Some fc /\ stored_as (fl_fc2 F fl) p2s2 (if smat2_used a then natom2 else natom) n fc
  | None => match p_fc2 F p with
            | Some f => a_produce a = true /\ exists d, src = Some d /\ has_forces d /\ f = solve2 d
            | None => a_produce a = false \/ forall d, src = Some d -> ~ has_forces d
            end
  end.
Proof.
  intros fl a p P H. pose proof (C104_phonon_dataset fl a p P H) as PD. destruct (load_split fl a p H) as (p1 & p2 & E1 & E2 & E3).
  destruct (load_both_ok _ _ _ _ _ E1) as (L1 & L2 & L3 & L4 & L5). cbn in L1, L2, L3, L4, L5.
  destruct (datasets_ok _ _ _ _ _ _ _ _ E2) as (D1 & D2 & D3 & _). rewrite <- D1 in L4. rewrite <- D2 in L5. rewrite <- D3 in L3. clear D1 D2 D3 E1 E2 L1 L2.
  destruct (a_produce a).
  - destruct (compute_ok p2 p E3) as (C1 & C2 & C3 & C4 & C5 & C6 & C7). rewrite C1, C2. rewrite C2 in PD. rewrite L3 in C7. split.
    + destruct (fc_name (fl_fc3 F fl) "fc3.hdf5" (a_fc3 a)) as [n|].
      * destruct L4 as (fc & G & S). exists fc. split; [apply C4; exact G|exact S].
      * specialize (C6 L4). destruct (p_fc3 F p); [split; [reflexivity|exact C6]|right; exact C6].
    + destruct (fc_name (fl_fc2 F fl) "fc2.hdf5" (a_fc2 a)) as [n|].
      * destruct L5 as (fc & G & S). exists fc. split; [apply C5; exact G|exact S].
      * assert (N : smat2_used a = false -> p_data2 F p2 = None).
        { intros T. destruct (p_data2 F p2); [|reflexivity]. destruct PD as [PD _]. rewrite PD in T. discriminate. }
        specialize (C7 L5 N). cbv zeta in C7. destruct (p_fc2 F p); [split; [reflexivity|exact C7]|right; exact C7].
  - oks. subst p2. split.
    + destruct (fc_name (fl_fc3 F fl) "fc3.hdf5" (a_fc3 a)); [exact L4|]. rewrite L4. left. reflexivity.
    + destruct (fc_name (fl_fc2 F fl) "fc2.hdf5" (a_fc2 a)); [exact L5|]. cbn. rewrite L5. left. reflexivity.
Qed.
(** ** C104, refuted: the pair of file names that the documentation of forces_fc3_filename describes never works: TypeError unless
    phono3py_yaml has forces already or reading fc files failed before *)
Theorem C104_sequence_refuted : forall fl a f d, a_forces3 a = Some (Paths f d) -> (forall y k, yaml_used a = Some y -> y_data y = Some k -> ~ has_forces k) ->
  forall p, load fl a <> Ok p.
Proof.
  intros fl a f d G N p H. pose proof (C104_dataset fl a p H) as D. cbv zeta in D. destruct (p_data F p) as [e|].
  - destruct D as (raw & C & _). inversion C as [k K1 K2|name file k K1 K2 K3 K4|k K1 K2 K3 K4]; subst.
    + destruct (yaml_used a) as [y|] eqn:Y; [|discriminate]. apply (N y raw eq_refl K1 K2).
    + rewrite G in K2. destruct K2 as [K2|[K2 _]]; discriminate.
    + rewrite G in K3. discriminate.
  - destruct D as (_ & D & _). rewrite G in D. discriminate.
Qed.
(** ** C104, refuted: with the structure given by unitcell, a type-1 FORCES_FC3 never works, whether phono3py_disp.yaml is there or not *)
Theorem C104_type1_refuted : forall fl a lines, a_cell a = true -> fl_forces F fl "FORCES_FC3" = Some (FType1 lines) -> a_forces3 a = None ->
  forall p, load fl a <> Ok p.
Proof.
  intros fl a lines Hc Hf G p H. pose proof (C104_dataset fl a p H) as D. cbv zeta in D. unfold yaml_used in D. rewrite Hc in D. destruct (p_data F p) as [e|].
  - destruct D as (raw & C & _). inversion C as [k K1 K2|name file k K1 K2 K3 K4|k K1 K2 K3 K4]; subst; try discriminate.
    rewrite G in K2. destruct K2 as [K2|[_ ->]]; [discriminate|]. rewrite Hf in K3. injection K3 as <-. inversion K4; discriminate.
  - destruct D as (_ & _ & D). rewrite Hf in D. discriminate.
Qed.
(** ** C104, refuted: forces_fc2_filename is ignored without a phonon supercell matrix *)
Theorem C104_fc2_file_refuted : forall fl a g, smat2_used a = false ->
  load fl a = load fl (Args (a_cell a) (a_unit a) (a_smat2 a) (a_yaml a) (a_calc a) (a_fc3 a) (a_fc2 a) (a_forces3 a) g (a_produce a)).
Proof.
  intros fl [cell unit s y c n3 n2 g3 g2 pr] g. unfold smat2_used, LoadModel.load. cbn [a_cell a_unit a_smat2 a_yaml a_calc a_fc3 a_fc2 a_forces3 a_forces2 a_produce]. intros S.
  match goal with |- andthen ?r _ = _ => destruct r as [[[c' s'] y']|e] eqn:R; [|reflexivity] end. cbn [andthen].
  assert (s' = false) as ->.
  { destruct cell; [destruct (s && negb unit); [discriminate|]; inversion R; subst; reflexivity|]. destruct y; [|discriminate]. inversion R; subst. exact S. }
  clear R. match goal with |- andthen ?r _ = _ => destruct r as [p|e] eqn:R; [|reflexivity] end. cbn [andthen].
  destruct (load_both_ok _ _ _ _ _ R) as (_ & _ & S' & _). cbn in S'. f_equal. unfold load_datasets. destruct (select_dataset F natom units fl y' g3 None c') as [r|e]; [|reflexivity]. cbn [andthen].
  match goal with |- andthen ?r _ = _ => destruct r as [q|e] eqn:Q; [|reflexivity] end. cbn [andthen].
  assert (p_smat2 F q = false) as Sq by (destruct r as [d|]; [destruct (stored d); [|discriminate]; cbn in Q|]; inversion Q; subst; exact S').
  unfold select_phonon_dataset. rewrite Sq, !andb_false_r. reflexivity.
Qed.
End Load.
Print Assumptions C104_structure.
Print Assumptions C104_dataset.
Print Assumptions C104_phonon_dataset.
Print Assumptions C104_force_constants.
Print Assumptions C104_sequence_refuted.
Print Assumptions C104_type1_refuted.
Print Assumptions C104_fc2_file_refuted.

(** * Concrete cases: force constants are a tag, the length of the second axis and whether they are compact; a supercell of two atoms, a
    phonon supercell of three *)
Definition tag := (dset * Z * Z * bool)%type.
Definition t_cols (t : tag) : Z := let '(_, _, c, _) := t in c.
Definition t_compact (t : tag) : bool := let '(_, _, _, b) := t in b.
Definition t_solve3 (d : dset) : tag * tag := ((d, 3, 2, true), (d, 20, 2, true)).
Definition t_solve2 (d : dset) : tag := (d, 2, 2, true).
Definition t_indices (compact : bool) (m p : list Z) : bool := negb compact || if list_eq_dec Z.eq_dec m p then true else false.
Definition t_units (c : Z) : option Q * option Q := if c =? 1 then (Some (1 # 2), Some 10)%Q else (Some 1, None)%Q.
Definition t_load := load tag t_cols t_compact t_solve3 t_solve2 t_indices 2 3 [0] [0] t_units.
Definition none {X} : string -> option X := fun _ => None.
Definition v (x : Q) : vec := (x, 0, 0)%Q.
Definition snap (x : Q) : ffile := FType2 [[v x; v 0]] [[v (2 * x); v 0]]%Q.
Definition nothing : dset := DSet (Type1 0 []) None.
Definition other : tag := (nothing, 7, 2, false).
Definition wforces : dset := DSet (Type2 (Some [[v 1; v 0]]) (Some [[v 3; v 0]]) None) None.
Definition wdisp : dset := DSet (Type1 2 [Fir 0 (v 1) None None None []]) (Some 5)%Q.
Definition y_forces : yaml := Yaml (Some 1) (Some wforces) None false false.
Definition y_disp : yaml := Yaml (Some 1) (Some wdisp) None false false.
Definition ask3 (y : option yaml) (g : option path) : args := Args (match y with Some _ => false | None => true end) true false y (Some 1) None None g None true.
(** what fc3 was computed from *)
Definition from3 (r : res (ph3 tag)) : option (dset * Z) := match r with Ok p => option_map (fun t => let '(d, k, _, _) := t in (d, k)) (p_fc3 tag p) | Err _ => None end.
Definition error (r : res (ph3 tag)) : option err := match r with Ok _ => None | Err e => Some e end.

(** ** C104, refuted: "forces_fc3_filename: filename corresponding to FORCES_FC3" — a file of forces named in the call is not what fc3 is
    computed from when fc3.hdf5 is in the directory *)
Theorem C104_named_forces_refuted :
  exists fl name file p, fl_forces tag fl name = Some file /\ t_load fl (ask3 None (Some (Path name))) = Ok p /\
    (exists d, p_data tag p = Some d /\ has_forces d) /\ (forall d, p_data tag p = Some d -> p_fc3 tag p <> Some (fst (t_solve3 d))).
Proof.
  exists (Files tag (put none "fc3.hdf5" (other, None)) none (put none "mine" (snap 1))), "mine"%string, (snap 1).
  eexists. split; [reflexivity|]. split; [vm_compute; reflexivity|]. split.
  - eexists. split; [reflexivity|]. cbn. discriminate.
  - intros d _ H. cbn in H. discriminate.
Qed.
(** ** C104, refuted: nor when phono3py_yaml has forces *)
Theorem C104_yaml_forces_refuted :
  exists fl name file p, fl_forces tag fl name = Some file /\ t_load fl (ask3 (Some y_forces) (Some (Path name))) = Ok p /\
    (forall fl', t_load (Files tag none none fl') (ask3 (Some y_forces) None) = Ok p) /\ file = snap 7 /\ from3 (Ok p) <> None.
Proof.
  exists (Files tag none none (put none "mine" (snap 7))), "mine"%string, (snap 7).
  eexists. split; [reflexivity|]. split; [vm_compute; reflexivity|]. split; [intros fl'; destruct (fl' "FORCES_FC2"%string) eqn:E; vm_compute; rewrite E; reflexivity|]. split; [reflexivity|]. vm_compute. discriminate.
Qed.
(** ** C104, refuted: a dataset that is not found is a RuntimeError ("Dataset is not found."): with a calculator it is a TypeError *)
Theorem C104_not_found_refuted :
  error (t_load (Files tag none none none) (ask3 None (Some (Path "mine")))) = Some TypeError /\
  error (t_load (Files tag none none none) (Args true true false None None None None (Some (Path "mine")) None true)) = Some RuntimeError.
Proof. split; vm_compute; reflexivity. Qed.
(** ** C104, refuted: neither a structure nor phono3py_yaml is an error of its own: the local variables are unbound *)
Theorem C104_nothing_refuted : forall fl a, a_cell a = false -> a_yaml a = None -> t_load fl a = Err UnboundLocalError.
Proof. intros fl [c u s y k n3 n2 g3 g2 p]. cbn. intros -> ->. reflexivity. Qed.
(** ** C104, refuted: a force file that is too short is refused: FORCES_FC2 is not, fc2 is silently missing *)
Theorem C104_short_file_refuted :
  let y := Yaml None (Some wforces) (Some (DSet (Type1 3 [Fir 0 (v 1) None None None []]) None)) true true in
  let fl := Files tag none none (put none "FORCES_FC2" (FType1 [LNums (v 1); LNums (v 0)])) in
  match t_load fl (ask3 (Some y) None) with Ok p => p_fc2 tag p = None /\ p_fc3 tag p <> None | Err _ => False end /\
  error (t_load (Files tag none none (put none "FORCES_FC3" (FType1 [LNums (v 1)]))) (ask3 (Some y_disp) None)) = Some RuntimeError.
Proof. split; vm_compute; [split; [reflexivity|discriminate]|reflexivity]. Qed.
Print Assumptions C104_named_forces_refuted.
Print Assumptions C104_yaml_forces_refuted.
Print Assumptions C104_not_found_refuted.
Print Assumptions C104_nothing_refuted.
Print Assumptions C104_short_file_refuted.

(** Cases meeting the hypotheses: a type-1 file with the displacements of phono3py_yaml, in other units; a type-2 file next to it; fc3.hdf5
    for another supercell; the pair of names; a type-1 file without phono3py_yaml *)
Example C104_example_units :
  from3 (t_load (Files tag none none (put none "FORCES_FC3" (FType1 [LComment; LNums (v 1); LNums (v 2)]))) (ask3 (Some y_disp) None)) =
  Some (DSet (Type1 2 [Fir 0 (1 # 2, 0 # 2, 0 # 2)%Q None (Some [(10, 0, 0); (20, 0, 0)])%Q None []]) (Some 5%Q), 3).
Proof. vm_compute. reflexivity. Qed.
Example C104_example_sizes :
  error (t_load (Files tag (put none "fc3.hdf5" (nothing, 7, 3, false, None)) none none) (ask3 (Some y_forces) None)) = Some RuntimeError /\
  error (t_load (Files tag (put none "fc3.hdf5" (nothing, 7, 2, true, Some [1])) none none) (ask3 (Some y_forces) None)) = Some RuntimeError /\
  from3 (t_load (Files tag (put none "fc3.hdf5" (nothing, 7, 2, true, Some [0])) none none) (ask3 (Some y_forces) None)) = Some (nothing, 7).
Proof. repeat split; vm_compute; reflexivity. Qed.
Example C104_example_refused :
  let fl := Files tag none none (put none "FORCES_FC3" (FType1 [LNums (v 1); LNums (v 2)])) in
  error (t_load fl (ask3 (Some y_disp) (Some (Paths "FORCES_FC3" "phono3py_disp.yaml")))) = Some TypeError /\
  error (t_load fl (ask3 None None)) = Some TypeError /\ plain (Some y_disp) /\ plain (Some y_forces).
Proof. repeat split; vm_compute; reflexivity. Qed.
