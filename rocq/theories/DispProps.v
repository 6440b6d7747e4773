From Coq Require Import ZArith QArith List Bool Lia Lqa Sorting.Sorted Relations.
From Verif Require Import Base BaseProofs QMat DsModel DsProps DispModel.
Import ListNotations.
Open Scope Z_scope.

(** ** Independent description: the pairs in the order of the nested lists *)
Record pair := Pair { p_n1 : Z; p_d1 : dir; p_n2 : Z; p_d2 : dir; p_dist : Q }.
Definition pairs_of (dds : list dfir) : list pair :=
  flat_map (fun f => flat_map (fun s => map (fun d2 => Pair (df_num f) (df_dir f) (ds_num s) d2 (ds_dist s)) (ds_dirs s)) (df_second f)) dds.
(** moves of the displacement with a given id: 1, 2, ... singles, then pairs *)
Definition moves_of_id (cart : dir -> vec) (dds : list dfir) (id : Z) : option (list (Z * vec)) :=
  nth_error (map (fun f => [(df_num f, cart (df_dir f))]) dds ++
             map (fun p => [(p_n1 p, cart (p_d1 p)); (p_n2 p, cart (p_d2 p))]) (pairs_of dds)) (Z.to_nat (id - 1)).
Definition within (cutoff : option Q) (p : pair) : Prop := match cutoff with None => True | Some c => (p_dist p < c)%Q end.

Lemma zseq_split : forall a b c, a <= b <= c -> zseq a c = zseq a b ++ zseq b c.
Proof.
  intros a b c H. unfold zseq, zrange. rewrite !map_map. replace (Z.to_nat (c - a)) with (Z.to_nat (b - a) + Z.to_nat (c - b))%nat by lia.
  rewrite seq_app, map_app. f_equal. cbn [plus]. rewrite <- (Nat.add_0_r (Z.to_nat (b - a))) at 1. 
  generalize (Z.to_nat (c - b)) as n, 0%nat at 1 2 as m.
  intros n. induction n as [|n IH]; intros m; [reflexivity|]. cbn [seq map]. f_equal; [lia|]. specialize (IH (S m)). rewrite Nat.add_succ_r in IH. exact IH.
Qed.
Lemma zseq_cons : forall a b, a < b -> zseq a b = a :: zseq (a + 1) b.
Proof.
  intros a b H. rewrite (zseq_split a (a + 1) b) by lia. assert (E : zseq a (a + 1) = [a]) by (unfold zseq, zrange; replace (a + 1 - a) with 1 by lia; change (Z.to_nat 1) with 1%nat; cbn [seq map]; f_equal; lia). rewrite E. reflexivity.
Qed.
Lemma combine_map_fst : forall X Y (l : list X) (m : list Y), length l = length m -> map fst (combine l m) = l.
Proof. intros X Y. induction l as [|x l IH]; intros [|y m] H; try discriminate H; [reflexivity|]. cbn [combine map fst]. f_equal. apply IH. injection H as H. exact H. Qed.
Lemma combine_map_snd : forall X Y (l : list X) (m : list Y), length l = length m -> map snd (combine l m) = m.
Proof. intros X Y. induction l as [|x l IH]; intros [|y m] H; try discriminate H; [reflexivity|]. cbn [combine map snd]. f_equal. apply IH. injection H as H. exact H. Qed.
Lemma zrange_len : forall X (l : list X), length (zrange (Z.of_nat (length l))) = length l.
Proof. intros. unfold zrange. rewrite map_length, seq_length. lia. Qed.

Section Ids.
Variables (cart : dir -> vec) (cutoff : option Q).
Definition sinfo (s : sec) := (s_num s, s_disp s, s_dist s, s_incl s, s_forces s).
Definition winfo (n : Z) (dist : Q) (d : dir) := (n, cart d, Some dist, option_map (fun c => qltb dist c) cutoff, @None conf).
Lemma second_entries_spec : forall c s, map s_id (second_entries cart cutoff c s) = map Some (zseq c (c + Z.of_nat (length (ds_dirs s)))) /\
  map sinfo (second_entries cart cutoff c s) = map (winfo (ds_num s) (ds_dist s)) (ds_dirs s) /\ length (second_entries cart cutoff c s) = length (ds_dirs s).
Proof.
  intros c s. unfold second_entries. rewrite !map_map. split; [|split].
  - cbn [s_id]. rewrite <- (map_map (fun p : Z * dir => fst p) (fun z => Some (c + z))), combine_map_fst by apply zrange_len.
    unfold zseq. rewrite map_map. replace (c + Z.of_nat (length (ds_dirs s)) - c) with (Z.of_nat (length (ds_dirs s))) by lia. reflexivity.
  - unfold sinfo. cbn. rewrite <- (map_map (fun p : Z * dir => snd p) (winfo (ds_num s) (ds_dist s))), combine_map_snd by apply zrange_len. reflexivity.
  - rewrite map_length, combine_length, zrange_len. lia.
Qed.
Lemma seconds_spec : forall ss c, let n := Z.of_nat (length (flat_map ds_dirs ss)) in
  map s_id (fst (seconds_of cart cutoff c ss)) = map Some (zseq c (c + n)) /\
  map sinfo (fst (seconds_of cart cutoff c ss)) = flat_map (fun s => map (winfo (ds_num s) (ds_dist s)) (ds_dirs s)) ss /\
  snd (seconds_of cart cutoff c ss) = c + n.
Proof.
  induction ss as [|s ss IH]; intros c; cbn zeta in *.
  - cbn. rewrite Z.add_0_r. repeat split; try reflexivity. unfold zseq. now rewrite Z.sub_diag.
  - cbn [seconds_of flat_map]. destruct (second_entries_spec c s) as [E1 [E2 E3]]. rewrite E3. specialize (IH (c + Z.of_nat (length (ds_dirs s)))).
    destruct (seconds_of cart cutoff (c + Z.of_nat (length (ds_dirs s))) ss) as [r c']. cbn [fst snd] in *. destruct IH as [I1 [I2 I3]].
    rewrite !map_app, E1, E2, I1, I2, <- map_app, app_length. split; [|split]; [|reflexivity|lia].
    f_equal. rewrite <- zseq_split by lia. f_equal. lia.
Qed.
Lemma firsts_spec : forall dds i c, let fs := firsts_of cart cutoff i c dds in
  map f_id fs = map Some (zseq (i + 1) (i + 1 + Z.of_nat (length dds))) /\
  flat_map (fun f => map s_id (f_second f)) fs = map Some (zseq c (c + Z.of_nat (length (pairs_of dds)))) /\
  slots fs = map (fun f => Slot [(df_num f, cart (df_dir f))] true None) dds ++
    map (fun p => Slot [(p_n1 p, cart (p_d1 p)); (p_n2 p, cart (p_d2 p))] (match cutoff with None => true | Some x => qltb (p_dist p) x end) None) (pairs_of dds).
Proof.
  intros dds. unfold slots.
  assert (G : forall dds i c, let fs := firsts_of cart cutoff i c dds in
    map f_id fs = map Some (zseq (i + 1) (i + 1 + Z.of_nat (length dds))) /\
    flat_map (fun f => map s_id (f_second f)) fs = map Some (zseq c (c + Z.of_nat (length (pairs_of dds)))) /\
    map (fun f => Slot [(f_num f, f_disp f)] true (f_forces f)) fs = map (fun f => Slot [(df_num f, cart (df_dir f))] true None) dds /\
    flat_map (fun f => map (fun s => Slot [(f_num f, f_disp f); (s_num s, s_disp s)] (included s) (s_forces s)) (f_second f)) fs =
    map (fun p => Slot [(p_n1 p, cart (p_d1 p)); (p_n2 p, cart (p_d2 p))] (match cutoff with None => true | Some x => qltb (p_dist p) x end) None) (pairs_of dds)).
  2:{ intros i c. destruct (G dds i c) as [G1 [G2 [G3 G4]]]. cbn zeta. split; [exact G1|]. split; [exact G2|]. rewrite G3, G4. reflexivity. }
  clear dds. induction dds as [|f dds IH]; intros i c; cbn zeta in *.
  - cbn. rewrite !Z.add_0_r. unfold zseq. rewrite !Z.sub_diag. repeat split; reflexivity.
  - cbn [firsts_of]. pose proof (seconds_spec (df_second f) c) as S. destruct (seconds_of cart cutoff c (df_second f)) as [ss c']. cbn [fst snd] in S. destruct S as [S1 [S2 S3]].
    specialize (IH (i + 1) c'). destruct IH as [I1 [I2 [I3 I4]]]. cbn [map f_id flat_map f_second f_num f_disp f_forces]. rewrite I1, I2, I3, I4. clear I1 I2 I3 I4.
    assert (L : length (flat_map (fun s => map (fun d2 => Pair (df_num f) (df_dir f) (ds_num s) d2 (ds_dist s)) (ds_dirs s)) (df_second f)) = length (flat_map ds_dirs (df_second f))).
    { clear. induction (df_second f) as [|s l IH]; [reflexivity|]. cbn [flat_map]. rewrite !app_length, map_length, IH. reflexivity. }
    split; [|split; [|split]].
    + cbn [length]. rewrite (zseq_cons (i + 1)) by lia. cbn [map]. f_equal. f_equal. f_equal. lia.
    + rewrite S1, S3, <- map_app. f_equal. unfold pairs_of. cbn [flat_map]. rewrite app_length, L, <- zseq_split by lia. f_equal. lia.
    + reflexivity.
    + unfold pairs_of. cbn [flat_map]. rewrite map_app. f_equal.
      transitivity (map (fun x : Z * vec * option Q * option bool * option conf => let '(n, d, dist, inc, fo) := x in
         Slot [(df_num f, cart (df_dir f)); (n, d)] (match inc with Some b => b | None => true end) fo) (map sinfo ss)); [rewrite map_map; reflexivity|].
      rewrite S2. clear. induction (df_second f) as [|s l IH]; [reflexivity|]. cbn [flat_map]. rewrite !map_app, !map_map, IH. f_equal. apply map_ext. intros d. cbn. destruct cutoff; reflexivity.
Qed.
End Ids.

(** ** C51: ids are 1, 2, ..., in the order of the displaced supercells; a pair is included iff its distance
    is within the cutoff. *)
Theorem C51_ids_follow_supercells : forall cart natom cutoff dds,
  exists fs, direction_to_displacement cart natom cutoff dds = Type1 natom fs /\
    map f_id fs ++ flat_map (fun f => map s_id (f_second f)) fs = map Some (zseq 1 (1 + Z.of_nat (length (slots fs)))) /\
    length (slots fs) = (length dds + length (pairs_of dds))%nat /\
    (forall id sl, 1 <= id -> nth_error (slots fs) (Z.to_nat (id - 1)) = Some sl -> moves_of_id cart dds id = Some (sl_moves sl)) /\
    (forall k p sl, nth_error (pairs_of dds) k = Some p -> nth_error (slots fs) (length dds + k) = Some sl -> (sl_incl sl = true <-> within cutoff p)).
Proof.
  intros cart natom cutoff dds. unfold direction_to_displacement. eexists. split; [reflexivity|].
  destruct (firsts_spec cart cutoff dds 0 (Z.of_nat (length dds) + 1)) as [H1 [H2 H3]]. cbn zeta in *.
  set (fs := firsts_of cart cutoff 0 (Z.of_nat (length dds) + 1) dds) in *.
  assert (L : length (slots fs) = (length dds + length (pairs_of dds))%nat) by (rewrite H3, app_length, !map_length; reflexivity).
  split; [|split; [exact L|split]].
  - rewrite H1, H2, <- map_app, L. f_equal. replace (0 + 1) with 1 by lia. replace (Z.of_nat (length dds) + 1) with (1 + Z.of_nat (length dds)) by lia. rewrite <- zseq_split by lia. f_equal. lia.
  - intros id sl Hid E. rewrite H3 in E. unfold moves_of_id. 
    assert (M : map (fun f => [(df_num f, cart (df_dir f))]) dds ++ map (fun p => [(p_n1 p, cart (p_d1 p)); (p_n2 p, cart (p_d2 p))]) (pairs_of dds) =
      map sl_moves (map (fun f => Slot [(df_num f, cart (df_dir f))] true None) dds ++
        map (fun p => Slot [(p_n1 p, cart (p_d1 p)); (p_n2 p, cart (p_d2 p))] (match cutoff with None => true | Some x => qltb (p_dist p) x end) None) (pairs_of dds)))
      by (rewrite map_app, !map_map; reflexivity).
    rewrite M, nth_error_map, E. reflexivity.
  - intros k p sl Hp E. rewrite H3, nth_error_app2 in E by (rewrite map_length; lia). rewrite map_length in E. replace (length dds + k - length dds)%nat with k in E by lia.
    rewrite nth_error_map, Hp in E. injection E as <-. cbn [sl_incl]. unfold within. destruct cutoff as [x|]; [|tauto].
    split; intros H; [apply qltb_lt, H|apply qltb_lt, H].
Qed.
Print Assumptions C51_ids_follow_supercells.

(** ** Duplicates *)
Lemma keyb_eq : forall a b, keyb a b = true <-> a = b.
Proof. intros [a1 a2] [b1 b2]. unfold keyb. cbn. rewrite andb_true_iff, !Z.eqb_eq. split; [intros [-> ->]; reflexivity|intros E; injection E as -> ->; auto]. Qed.
Lemma keyb_refl : forall a, keyb a a = true. Proof. intros a. now apply keyb_eq. Qed.
Lemma dirb_eq : forall a b, dirb a b = true <-> a = b.
Proof. intros [[a1 a2] a3] [[b1 b2] b3]. unfold dirb. rewrite !andb_true_iff, !Z.eqb_eq. split; [intros [[-> ->] ->]; reflexivity|intros E; injection E as -> -> ->; auto]. Qed.
Lemma dget_dset : forall V (d : dict V) k v k', dget (dset d k v) k' = if keyb k k' then Some v else dget d k'.
Proof.
  intros V. induction d as [|[k0 v0] d IH]; intros k v k'; [reflexivity|]. cbn [dset]. destruct (keyb k0 k) eqn:E.
  - apply keyb_eq in E. subst k0. cbn [dget]. destruct (keyb k k'); reflexivity.
  - cbn [dget]. destruct (keyb k0 k') eqn:E'; [|apply IH]. apply keyb_eq in E'. subst k0. destruct (keyb k k') eqn:E2; [|reflexivity]. apply keyb_eq in E2. subst. rewrite keyb_refl in E. discriminate E.
Qed.
Definition row := (key * entry)%type.
Definition sel (k : key) (l : list row) : list entry := map snd (filter (fun r => keyb (fst r) k) l).
Lemma sel_app : forall k l m, sel k (l ++ m) = sel k l ++ sel k m.
Proof. intros. unfold sel. rewrite filter_app, map_app. reflexivity. Qed.
(** rows with ids from [idx] on *)
Definition number (idx : Z) (ps : list pair) : list row :=
  map (fun q => ((p_n1 (snd q), p_n2 (snd q)), (p_d1 (snd q), p_d2 (snd q), idx + fst q))) (combine (zrange (Z.of_nat (length ps))) ps).
Lemma number_app : forall idx a b, number idx (a ++ b) = number idx a ++ number (idx + Z.of_nat (length a)) b.
Proof.
  intros idx a b. unfold number. rewrite app_length, Nat2Z.inj_add. unfold zrange. rewrite Z2Nat.inj_add, !Nat2Z.id by lia. rewrite seq_app, map_app.
  assert (C : forall X Y (l1 l2 : list X) (m1 m2 : list Y), length l1 = length m1 -> combine (l1 ++ l2) (m1 ++ m2) = combine l1 m1 ++ combine l2 m2).
  { intros X Y. induction l1 as [|x l1 IH]; intros l2 [|y m1] m2 H; try discriminate H; [reflexivity|]. cbn [app combine]. f_equal. apply IH. injection H as H. exact H. }
  rewrite C by (rewrite map_length, seq_length; reflexivity). rewrite map_app. f_equal. cbn [plus].
  assert (S : forall n k, map Z.of_nat (seq k n) = map (fun z => Z.of_nat k + z) (map Z.of_nat (seq 0 n))).
  { intros n k. rewrite map_map. rewrite <- (Nat.add_0_r k) at 1. generalize 0%nat as m. induction n as [|n IH]; intros m; [reflexivity|]. cbn [seq map]. f_equal; [lia|]. specialize (IH (S m)). rewrite Nat.add_succ_r in IH. exact IH. }
  rewrite (S (length b) (length a)).
  generalize (map Z.of_nat (seq 0 (length b))) as zs. intros zs. revert zs. induction b as [|p b IH]; intros [|z zs]; try reflexivity. cbn [map combine]. rewrite IH. cbn [fst snd]. f_equal. f_equal. f_equal. lia.
Qed.
Definition keys (dds : list dfir) : list key := flat_map (fun f => map (fun s => (df_num f, ds_num s)) (df_second f)) dds.

Definition inv (ds : dict (list entry)) (rows : list row) (ks : list key) : Prop :=
  (forall k, sets_at ds k = sel k rows) /\ (forall k, dget ds k <> None <-> In k ks).
Lemma inner_fold : forall k (ps : list (Z * dir)) (d1 : dir) idx (ds : dict (list entry)) rows ks, inv ds rows ks -> In k ks ->
  inv (fold_left (fun (ds : dict (list entry)) p => match dget ds k with Some l => dset ds k (l ++ [(d1, snd p, idx + fst p)]) | None => ds end) ps ds)
      (rows ++ map (fun p => (k, (d1, snd p, idx + fst p))) ps) ks.
Proof.
  intros k. induction ps as [|p ps IH]; intros d1 idx ds rows ks I Hk; [cbn; rewrite app_nil_r; exact I|]. cbn [fold_left map].
  replace (rows ++ (k, (d1, snd p, idx + fst p)) :: map (fun p => (k, (d1, snd p, idx + fst p))) ps) with ((rows ++ [(k, (d1, snd p, idx + fst p))]) ++ map (fun p => (k, (d1, snd p, idx + fst p))) ps) by (rewrite <- app_assoc; reflexivity).
  apply IH; [|exact Hk]. destruct I as [I1 I2]. destruct (dget ds k) as [l|] eqn:E; [|exfalso; apply (proj2 (I2 k) Hk), E]. split.
  - intros k'. unfold sets_at. rewrite dget_dset. rewrite sel_app. unfold sel at 2. cbn [filter fst]. destruct (keyb k k') eqn:Ek.
    + apply keyb_eq in Ek. subst k'. cbn [map snd]. f_equal. rewrite <- I1. unfold sets_at. rewrite E. reflexivity.
    + cbn [map]. rewrite app_nil_r. apply I1.
  - intros k'. rewrite dget_dset. destruct (keyb k k') eqn:Ek; [|apply I2]. apply keyb_eq in Ek. subst k'. split; [auto|intros _ X; discriminate X].
Qed.
Lemma add_rows_spec : forall n1 d1 ds idx s rows ks, inv ds rows ks ->
  let ps := map (fun d2 => Pair n1 d1 (ds_num s) d2 (ds_dist s)) (ds_dirs s) in
  inv (fst (add_rows n1 d1 (ds, idx) s)) (rows ++ number idx ps) (ks ++ [(n1, ds_num s)]) /\ snd (add_rows n1 d1 (ds, idx) s) = idx + Z.of_nat (length ps).
Proof.
  intros n1 d1 ds idx s rows ks I ps. unfold add_rows. cbn [fst snd]. split; [|unfold ps; rewrite map_length; reflexivity]. set (k := (n1, ds_num s)).
  replace (number idx ps) with (map (fun p : Z * dir => (k, (d1, snd p, idx + fst p))) (combine (zrange (Z.of_nat (length (ds_dirs s)))) (ds_dirs s))).
  2:{ unfold number, ps. rewrite map_length. generalize (zrange (Z.of_nat (length (ds_dirs s)))) as zs. induction (ds_dirs s) as [|d l IH]; intros [|z zs]; try reflexivity.
      cbn [map combine]. rewrite IH. reflexivity. }
  apply inner_fold; [|apply in_or_app; right; left; reflexivity]. destruct I as [I1 I2]. split.
  - intros k'. destruct (dget ds k) as [l|] eqn:E; cbv iota; [apply I1|]. unfold sets_at. rewrite dget_dset. destruct (keyb k k') eqn:Ek; [|apply I1].
    apply keyb_eq in Ek. subst k'. rewrite <- I1. unfold sets_at. rewrite E. reflexivity.
  - intros k'. rewrite in_app_iff. cbn [In]. destruct (dget ds k) as [l|] eqn:E; cbv iota.
    + rewrite I2. split; [auto|]. intros [H|[<-|[]]]; [exact H|]. apply I2. fold k. rewrite E. intros X; discriminate X.
    + rewrite dget_dset. destruct (keyb k k') eqn:Ek.
      * apply keyb_eq in Ek. subst k'. split; [auto|intros _ X; discriminate X].
      * rewrite I2. split; [auto|]. intros [H|[H|[]]]; [exact H|]. fold k in H. subst k'. rewrite keyb_refl in Ek. discriminate Ek.
Qed.
Lemma add_all : forall (l : list (Z * dir * dsec)) ds idx rows ks, inv ds rows ks ->
  let ps := flat_map (fun q => map (fun d2 => Pair (fst (fst q)) (snd (fst q)) (ds_num (snd q)) d2 (ds_dist (snd q))) (ds_dirs (snd q))) l in
  inv (fst (fold_left (fun st q => add_rows (fst (fst q)) (snd (fst q)) st (snd q)) l (ds, idx))) (rows ++ number idx ps) (ks ++ map (fun q => (fst (fst q), ds_num (snd q))) l).
Proof.
  induction l as [|q l IH]; intros ds idx rows ks I; cbn zeta in *; [cbn; rewrite !app_nil_r; exact I|]. cbn [fold_left flat_map map].
  destruct (add_rows_spec (fst (fst q)) (snd (fst q)) ds idx (snd q) rows ks I) as [I' S]. cbn zeta in *.
  destruct (add_rows (fst (fst q)) (snd (fst q)) (ds, idx) (snd q)) as [ds' idx']. cbn [fst snd] in I', S. subst idx'. rewrite number_app, app_assoc.
  replace (ks ++ (fst (fst q), ds_num (snd q)) :: map (fun q => (fst (fst q), ds_num (snd q))) l) with ((ks ++ [(fst (fst q), ds_num (snd q))]) ++ map (fun q => (fst (fst q), ds_num (snd q))) l) by (rewrite <- app_assoc; reflexivity). apply IH, I'.
Qed.
Lemma nested_fold : forall S (step : dfir -> S -> dsec -> S) dds st,
  fold_left (fun st f => fold_left (step f) (df_second f) st) dds st = fold_left (fun st q => step (fst q) st (snd q)) (flat_map (fun f => map (fun s => (f, s)) (df_second f)) dds) st.
Proof.
  intros S step. induction dds as [|f dds IH]; intros st; [reflexivity|]. cbn [fold_left flat_map]. rewrite fold_left_app, IH. f_equal.
  clear. revert st. induction (df_second f) as [|s l IH]; intros st; [reflexivity|]. cbn [fold_left map]. apply IH.
Qed.
Definition rows (dds : list dfir) : list row := number (Z.of_nat (length dds) + 1) (pairs_of dds).
Lemma direction_sets_spec : forall dds, inv (direction_sets dds) (rows dds) (keys dds).
Proof.
  intros dds. unfold direction_sets. rewrite (nested_fold _ (fun f st s => add_rows (df_num f) (df_dir f) st s)).
  set (l := flat_map (fun f => map (fun s => (f, s)) (df_second f)) dds).
  assert (I0 : inv (@nil (key * list entry)) [] []) by (split; [reflexivity|intros k; cbn; split; [intros H; now apply H|intros []]]).
  pose proof (add_all (map (fun q : dfir * dsec => (df_num (fst q), df_dir (fst q), snd q)) l) [] (Z.of_nat (length dds) + 1) [] [] I0) as A. cbn zeta in A. cbn [app] in A.
  assert (F : forall st, fold_left (fun st q => add_rows (df_num (fst q)) (df_dir (fst q)) st (snd q)) l st =
    fold_left (fun st q => add_rows (fst (fst q)) (snd (fst q)) st (snd q)) (map (fun q : dfir * dsec => (df_num (fst q), df_dir (fst q), snd q)) l) st).
  { clear. induction l as [|q l IH]; intros st; [reflexivity|]. cbn [map fold_left fst snd]. apply IH. }
  rewrite F. unfold rows.
  assert (P : flat_map (fun q : Z * dir * dsec => map (fun d2 => Pair (fst (fst q)) (snd (fst q)) (ds_num (snd q)) d2 (ds_dist (snd q))) (ds_dirs (snd q))) (map (fun q : dfir * dsec => (df_num (fst q), df_dir (fst q), snd q)) l) = pairs_of dds).
  { unfold l, pairs_of. clear. induction dds as [|f dds IH]; [reflexivity|]. cbn [flat_map]. rewrite !map_app, flat_map_app, IH. f_equal. clear.
    induction (df_second f) as [|s m IH]; [reflexivity|]. cbn [map flat_map fst snd]. rewrite IH. reflexivity. }
  assert (K : map (fun q : Z * dir * dsec => (fst (fst q), ds_num (snd q))) (map (fun q : dfir * dsec => (df_num (fst q), df_dir (fst q), snd q)) l) = keys dds).
  { unfold l, keys. clear. rewrite map_map. cbn [fst snd]. induction dds as [|f dds IH]; [reflexivity|]. cbn [flat_map]. rewrite map_app, map_map, IH. reflexivity. }
  rewrite P, K in A. exact A.
Qed.

Section Dups.
Variable ds : dict (list entry).
Lemma dup_phase : forall ks st, 
  let step := fun (st : list key * list (Z * Z)) (k : key) => dup_step ds (fst k) st (DSec (snd k) [] 0%Q) in
  (forall k, In (snd k, fst k) (fst st) -> fst k < snd k -> dget ds (snd k, fst k) <> None -> incl (compare_sets (sets_at ds k) (sets_at ds (snd k, fst k))) (snd st)) ->
  forall p, In p (snd (fold_left step ks st)) <-> In p (snd st) \/ exists k, In k ks /\ fst k < snd k /\ dget ds (snd k, fst k) <> None /\ In p (compare_sets (sets_at ds k) (sets_at ds (snd k, fst k))).
Proof.
  intros ks st step. revert st. induction ks as [|k ks IH]; intros [done dups] Hst p.
  - cbn. split; [auto|]. intros [H|[k [[] _]]]. exact H.
  - cbn [fold_left]. set (P := fun k => fst k < snd k /\ dget ds (snd k, fst k) <> None /\ In p (compare_sets (sets_at ds k) (sets_at ds (snd k, fst k)))).
    cbn [fst snd] in Hst. unfold step at 2, dup_step. cbn [ds_num].
    destruct ((fst k <? snd k) && negb (existsb (keyb (snd k, fst k)) done) && match dget ds (snd k, fst k) with Some _ => true | None => false end) eqn:E.
    + rewrite !andb_true_iff, Z.ltb_lt, negb_true_iff in E. destruct E as [[E1 E2] E3].
      assert (Ek : (fst k, snd k) = k) by (destruct k; reflexivity). rewrite Ek. rewrite IH.
      * cbn [fst snd]. rewrite in_app_iff. split.
        -- intros [[H|H]|[k' [H1 H2]]]; [auto| |right; exists k'; split; [right; exact H1|exact H2]]. right. exists k. split; [left; reflexivity|]. split; [exact E1|]. split; [|exact H].
           intros X. rewrite X in E3. discriminate E3.
        -- intros [H|[k' [[<-|H1] H2]]]; [auto| |right; exists k'; auto]. left. right. apply H2.
      * cbn [fst snd]. intros k' Hin H1 H2. apply in_app_iff in Hin. destruct Hin as [Hin|[Heq|[]]].
        -- intros x Hx. apply in_app_iff. left. apply (Hst k' Hin H1 H2), Hx.
        -- injection Heq as Ha Hb. assert (k' = k) as -> by (destruct k, k'; cbn in *; congruence). intros x Hx. apply in_app_iff. right. exact Hx.
    + rewrite IH; [|exact Hst]. cbn [snd]. split.
      * intros [H|[k' [H1 H2]]]; [auto|]. right. exists k'. split; [right; exact H1|exact H2].
      * intros [H|[k' [[Hk|H1] H2]]]; [auto| |right; exists k'; auto]. subst k'. left. destruct H2 as [H2 [H3 H4]].
        rewrite (proj2 (Z.ltb_lt _ _) H2) in E. cbn [andb] in E. destruct (dget ds (snd k, fst k)) eqn:Ed; [|exfalso; apply H3; reflexivity]. rewrite andb_true_r, negb_false_iff in E.
        apply existsb_exists in E. destruct E as [k' [Hin Heq]]. apply keyb_eq in Heq. subst k'. apply (Hst k Hin H2); [rewrite Ed; exact H3|exact H4].
Qed.
Lemma opp_phase : forall ks st,
  let step := fun (st : list Z * list (Z * Z)) (k : key) => opp_step ds (fst k) st (DSec (snd k) [] 0%Q) in
  (forall n, In n (fst st) -> incl (compare_opposite (sets_at ds (n, n))) (snd st)) ->
  forall p, In p (snd (fold_left step ks st)) <-> In p (snd st) \/ exists k, In k ks /\ fst k = snd k /\ In p (compare_opposite (sets_at ds k)).
Proof.
  intros ks st step. revert st. induction ks as [|k ks IH]; intros [done dups] Hst p.
  - cbn. split; [auto|]. intros [H|[k [[] _]]]. exact H.
  - cbn [fold_left]. cbn [fst snd] in Hst. unfold step at 2, opp_step. cbn [ds_num].
    destruct ((fst k =? snd k) && negb (existsb (Z.eqb (fst k)) done)) eqn:E.
    + rewrite andb_true_iff, Z.eqb_eq, negb_true_iff in E. destruct E as [E1 E2].
      assert (Ek : (fst k, fst k) = k) by (destruct k; cbn in *; congruence). rewrite Ek. rewrite IH.
      * cbn [fst snd]. rewrite in_app_iff. split.
        -- intros [[H|H]|[k' [H1 H2]]]; [auto| |right; exists k'; split; [right; exact H1|exact H2]]. right. exists k. split; [left; reflexivity|]. auto.
        -- intros [H|[k' [[<-|H1] H2]]]; [auto| |right; exists k'; auto]. left. right. apply H2.
      * cbn [fst snd]. intros n Hin. apply in_app_iff in Hin. destruct Hin as [Hin|[<-|[]]].
        -- intros x Hx. apply in_app_iff. left. apply (Hst n Hin), Hx.
        -- rewrite Ek. intros x Hx. apply in_app_iff. right. exact Hx.
    + rewrite IH; [|exact Hst]. cbn [snd]. split.
      * intros [H|[k' [H1 H2]]]; [auto|]. right. exists k'. split; [right; exact H1|exact H2].
      * intros [H|[k' [[Hk|H1] H2]]]; [auto| |right; exists k'; auto]. subst k'. left. destruct H2 as [H2 H3].
        rewrite (proj2 (Z.eqb_eq _ _) H2) in E. cbn [andb] in E. rewrite negb_false_iff in E.
        apply existsb_exists in E. destruct E as [n [Hin Heq]]. apply Z.eqb_eq in Heq. subst n. apply (Hst _ Hin). replace (fst k, fst k) with k by (destruct k; cbn in *; congruence). exact H3.
Qed.
End Dups.
Lemma in_compare : forall l1 l2 i j, In (i, j) (compare_sets l1 l2) <->
  exists a b, In a l1 /\ In b l2 /\ e_d2 b = e_d1 a /\ e_d1 b = e_d2 a /\ i = e_id b /\ j = e_id a /\ j < i.
Proof.
  intros l1 l2 i j. unfold compare_sets. rewrite filter_In, in_flat_map. cbn [fst snd]. rewrite Z.ltb_lt. split.
  - intros [[a [Ha H]] L]. apply in_map_iff in H. destruct H as [b [E H]]. apply filter_In in H. rewrite andb_true_iff, !dirb_eq in H. injection E as <- <-. exists a, b. intuition.
  - intros [a [b [Ha [Hb [E1 [E2 [-> [-> L]]]]]]]]. split; [|exact L]. exists a. split; [exact Ha|]. apply in_map_iff. exists b. split; [reflexivity|]. apply filter_In. rewrite andb_true_iff, !dirb_eq. auto.
Qed.
Lemma in_opposite : forall l i j, In (i, j) (compare_opposite l) <->
  exists a b, In a l /\ In b l /\ e_d2 b = dneg (e_d1 a) /\ e_d1 b = dneg (e_d2 a) /\ i = e_id b /\ j = 0 /\ 0 < i.
Proof.
  intros l i j. unfold compare_opposite. rewrite filter_In, in_flat_map. cbn [fst snd]. rewrite Z.ltb_lt. split.
  - intros [[a [Ha H]] L]. apply in_map_iff in H. destruct H as [b [E H]]. apply filter_In in H. rewrite andb_true_iff, !dirb_eq in H. injection E as <- <-. exists a, b. intuition.
  - intros [a [b [Ha [Hb [E1 [E2 [-> [-> L]]]]]]]]. split; [|exact L]. exists a. split; [exact Ha|]. apply in_map_iff. exists b. split; [reflexivity|]. apply filter_In. rewrite andb_true_iff, !dirb_eq. auto.
Qed.
Lemma in_sel : forall k l e, In e (sel k l) <-> In (k, e) l.
Proof.
  intros k l e. unfold sel. rewrite in_map_iff. split.
  - intros [[k' e'] [E H]]. apply filter_In in H. cbn in *. subst e'. destruct H as [H E]. apply keyb_eq in E. now subst k'.
  - intros H. exists (k, e). split; [reflexivity|]. apply filter_In. split; [exact H|apply keyb_refl].
Qed.
Lemma in_number : forall idx ps k d1 d2 id, In (k, (d1, d2, id)) (number idx ps) <-> exists m p, nth_error ps m = Some p /\ k = (p_n1 p, p_n2 p) /\ d1 = p_d1 p /\ d2 = p_d2 p /\ id = idx + Z.of_nat m.
Proof.
  intros idx ps. revert idx. induction ps as [|p ps IH]; intros idx k d1 d2 id.
  - cbn. split; [intros []|]. intros [[|m] [p [H _]]]; discriminate H.
  - change (p :: ps) with ([p] ++ ps). rewrite number_app, in_app_iff. rewrite IH.
    assert (N1 : number idx [p] = [((p_n1 p, p_n2 p), (p_d1 p, p_d2 p, idx))]) by (unfold number; change (zrange (Z.of_nat (length [p]))) with [0]; cbn [combine map fst snd]; rewrite Z.add_0_r; reflexivity).
    rewrite N1. cbn [In length]. split.
    + intros [[E|[]]|[m [q [H1 [H2 [H3 [H4 H5]]]]]]].
      * injection E as <- <- <- <-. exists 0%nat, p. repeat split; auto. lia.
      * exists (S m), q. cbn [nth_error]. split; [exact H1|]. repeat split; auto. lia.
    + intros [[|m] [q [H1 [H2 [H3 [H4 H5]]]]]]; cbn [nth_error] in H1.
      * injection H1 as ->. left. left. subst. change (Z.of_nat 0) with 0. rewrite ?Z.add_0_r. reflexivity.
      * right. exists m, q. repeat split; auto. lia.
Qed.
(** id of the m-th pair *)
Definition pair_id (dds : list dfir) (m : nat) : Z := Z.of_nat (length dds) + 1 + Z.of_nat m.
Lemma in_keys : forall dds m p, nth_error (pairs_of dds) m = Some p -> In (p_n1 p, p_n2 p) (keys dds).
Proof.
  intros dds m p H. apply nth_error_In in H. unfold pairs_of in H. apply in_flat_map in H. destruct H as [f [Hf H]]. apply in_flat_map in H. destruct H as [s [Hs H]].
  apply in_map_iff in H. destruct H as [d [<- H]]. cbn. unfold keys. apply in_flat_map. exists f. split; [exact Hf|]. apply in_map_iff. exists s. auto.
Qed.
(** ** C51: exactly which pairs of ids are reported as duplicates *)
Theorem C51_reported_duplicates : forall dds i j, In (i, j) (find_duplicates dds) <->
  (exists a b p q, nth_error (pairs_of dds) a = Some p /\ nth_error (pairs_of dds) b = Some q /\ j = pair_id dds a /\ i = pair_id dds b /\ (a < b)%nat /\
     p_n1 p < p_n2 p /\ p_n1 q = p_n2 p /\ p_n2 q = p_n1 p /\ p_d1 q = p_d2 p /\ p_d2 q = p_d1 p) \/
  (exists a b p q, nth_error (pairs_of dds) a = Some p /\ nth_error (pairs_of dds) b = Some q /\ j = 0 /\ i = pair_id dds b /\
     p_n1 p = p_n2 p /\ p_n1 q = p_n1 p /\ p_n2 q = p_n1 p /\ p_d2 q = dneg (p_d1 p) /\ p_d1 q = dneg (p_d2 p)).
Proof.
  intros dds i j. unfold find_duplicates. pose proof (direction_sets_spec dds) as [I1 I2]. set (ds := direction_sets dds) in *.
  assert (K : forall (S : Type) (step : Z -> S -> dsec -> S) (st : S), (forall n st s, step n st s = step n st (DSec (ds_num s) [] 0%Q)) ->
    fold_left (fun st f => fold_left (step (df_num f)) (df_second f) st) dds st = fold_left (fun st k => step (fst k) st (DSec (snd k) [] 0%Q)) (keys dds) st).
  { intros S step st H. rewrite (nested_fold _ (fun f => step (df_num f))). unfold keys. clear - H. revert st. induction dds as [|f dds IH]; intros st; [reflexivity|]. cbn [flat_map]. rewrite !fold_left_app, IH. f_equal.
    clear - H. revert st. induction (df_second f) as [|s l IH]; intros st; [reflexivity|]. cbn [map fold_left fst snd]. rewrite H. apply IH. }
  rewrite (K _ (opp_step ds)) by reflexivity. rewrite (K _ (dup_step ds)) by reflexivity.
  rewrite (opp_phase ds); [|intros n []]. cbn [snd]. rewrite (dup_phase ds); [|intros n []]. cbn [snd].
  assert (Some_iff : forall p, In p (pairs_of dds) -> True) by auto.
  split.
  - intros [[[]|[k [Hk [H1 [H2 H3]]]]]|[k [Hk [H1 H2]]]].
    + left. apply in_compare in H3. destruct H3 as [a [b [Ha [Hb [E1 [E2 [-> [-> L]]]]]]]]. rewrite I1 in Ha, Hb. apply in_sel in Ha, Hb. destruct a as [[a1 a2] ai], b as [[b1 b2] bi]. unfold rows in Ha, Hb.
      apply in_number in Ha, Hb. destruct Ha as [m [p [Hp [-> [-> [-> ->]]]]]]. destruct Hb as [n [q [Hq [Ek [-> [-> ->]]]]]]. cbn in *. injection Ek as E3 E4.
      exists m, n, p, q. unfold pair_id. repeat split; auto. lia.
    + right. apply in_opposite in H2. destruct H2 as [a [b [Ha [Hb [E1 [E2 [-> [-> L]]]]]]]]. rewrite I1 in Ha, Hb. apply in_sel in Ha, Hb. destruct a as [[a1 a2] ai], b as [[b1 b2] bi]. unfold rows in Ha, Hb.
      apply in_number in Ha, Hb. destruct Ha as [m [p [Hp [-> [-> [-> ->]]]]]]. destruct Hb as [n [q [Hq [Ek [-> [-> ->]]]]]]. cbn in *. injection Ek as E3 E4.
      exists m, n, p, q. unfold pair_id. repeat split; auto. congruence.
  - intros [[a [b [p [q [Hp [Hq [-> [-> [L [H1 [H2 [H3 [H4 H5]]]]]]]]]]]]]|[a [b [p [q [Hp [Hq [-> [-> [H1 [H2 [H3 [H4 H5]]]]]]]]]]]]].
    + left. right. exists (p_n1 p, p_n2 p). cbn [fst snd]. split; [eapply in_keys, Hp|]. split; [exact H1|]. split; [apply I2; rewrite <- H2, <- H3; eapply in_keys, Hq|].
      apply in_compare. exists (p_d1 p, p_d2 p, pair_id dds a), (p_d1 q, p_d2 q, pair_id dds b). rewrite !I1. rewrite !in_sel. unfold rows. rewrite !in_number.
      split; [exists a, p; unfold pair_id; auto|]. split; [exists b, q; unfold pair_id; rewrite H2, H3; auto|]. cbn. unfold pair_id. repeat split; auto. lia.
    + right. exists (p_n1 p, p_n2 p). cbn [fst snd]. split; [eapply in_keys, Hp|]. split; [exact H1|].
      apply in_opposite. exists (p_d1 p, p_d2 p, pair_id dds a), (p_d1 q, p_d2 q, pair_id dds b). rewrite !I1. rewrite !in_sel. unfold rows. rewrite !in_number.
      split; [exists a, p; unfold pair_id; auto|]. split; [exists b, q; unfold pair_id; rewrite H2, H3, <- H1; auto|]. cbn. unfold pair_id. repeat split; auto. lia.
Qed.
Print Assumptions C51_reported_duplicates.

Lemma moves_pair : forall cart dds m p, nth_error (pairs_of dds) m = Some p ->
  moves_of_id cart dds (pair_id dds m) = Some [(p_n1 p, cart (p_d1 p)); (p_n2 p, cart (p_d2 p))].
Proof.
  intros cart dds m p H. unfold moves_of_id, pair_id. replace (Z.to_nat (Z.of_nat (length dds) + 1 + Z.of_nat m - 1)) with (length dds + m)%nat by lia.
  rewrite nth_error_app2 by (rewrite map_length; lia). rewrite map_length. replace (length dds + m - length dds)%nat with m by lia. rewrite nth_error_map, H. reflexivity.
Qed.
Lemma vadd_comm : forall a b, veq (vadd3 a b) (vadd3 b a).
Proof. intros [[a1 a2] a3] [[b1 b2] b3]. repeat split; cbn; ring. Qed.
(** ** C51: two ids reported as duplicates describe the same displaced supercell: every atom is displaced by
    the same vector. Missing: entries [i, 0], see below. *)
Theorem C51_duplicates_partial : forall cart dds i j, In (i, j) (find_duplicates dds) -> j <> 0 ->
  exists mi mj, moves_of_id cart dds i = Some mi /\ moves_of_id cart dds j = Some mj /\ j < i /\ forall a, veq (shift mi a) (shift mj a).
Proof.
  intros cart dds i j H Hj. apply C51_reported_duplicates in H. destruct H as [[a [b [p [q [Hp [Hq [-> [-> [L [H1 [H2 [H3 [H4 H5]]]]]]]]]]]]]|[a [b [p [q [_ [_ [E _]]]]]]]]; [|congruence].
  eexists. eexists. split; [apply moves_pair, Hq|]. split; [apply moves_pair, Hp|]. split; [unfold pair_id; lia|]. intros x. rewrite H2, H3, H4, H5. unfold shift. cbn [fold_right fst snd].
  destruct (p_n1 p =? x), (p_n2 p =? x); try apply veq_refl.
  eapply veq_trans; [apply vadd_comp; [apply veq_refl|apply vadd_0]|]. eapply veq_trans; [apply vadd_comm|]. apply vadd_comp; [apply veq_refl|apply veq_sym, vadd_0].
Qed.
Print Assumptions C51_duplicates_partial.
Lemma pairs_sorted : forall dds, StronglySorted Z.le (map df_num dds) -> StronglySorted Z.le (map p_n1 (pairs_of dds)).
Proof.
  induction dds as [|f dds IH]; intros H; [constructor|]. cbn [map] in H. apply StronglySorted_inv in H. destruct H as [H1 H2]. specialize (IH H1).
  unfold pairs_of. cbn [flat_map]. rewrite map_app.
  assert (C : Forall (fun n => n = df_num f) (map p_n1 (flat_map (fun s => map (fun d2 => Pair (df_num f) (df_dir f) (ds_num s) d2 (ds_dist s)) (ds_dirs s)) (df_second f)))).
  { apply Forall_forall. intros n Hn. apply in_map_iff in Hn. destruct Hn as [p [<- Hp]]. apply in_flat_map in Hp. destruct Hp as [s [_ Hp]]. apply in_map_iff in Hp. destruct Hp as [d [<- _]]. reflexivity. }
  assert (G : Forall (Z.le (df_num f)) (map p_n1 (pairs_of dds))).
  { apply Forall_forall. intros n Hn. apply in_map_iff in Hn. destruct Hn as [p [<- Hp]]. unfold pairs_of in Hp. apply in_flat_map in Hp. destruct Hp as [g [Hg Hp]]. apply in_flat_map in Hp. destruct Hp as [s [_ Hp]].
    apply in_map_iff in Hp. destruct Hp as [d [<- _]]. cbn. rewrite Forall_forall in H2. apply H2, in_map, Hg. }
  unfold pairs_of in IH, G. revert C. generalize (map p_n1 (flat_map (fun s => map (fun d2 => Pair (df_num f) (df_dir f) (ds_num s) d2 (ds_dist s)) (ds_dirs s)) (df_second f))) as l. intros l C.
  induction C as [|n l E C IHC]; [exact IH|]. cbn [app]. constructor; [exact IHC|]. subst n. apply Forall_app. split; [|exact G].
  eapply Forall_impl; [|exact C]. intros n ->. lia.
Qed.
(** Conversely, pairs of different atoms that are equal up to the order of the two displacements are all
    reported, when first atoms are in ascending order. *)
Theorem C51_duplicates_complete : forall dds a b p q, StronglySorted Z.le (map df_num dds) ->
  nth_error (pairs_of dds) a = Some p -> nth_error (pairs_of dds) b = Some q -> (a < b)%nat -> p_n1 p <> p_n2 p ->
  p_n1 q = p_n2 p -> p_n2 q = p_n1 p -> p_d1 q = p_d2 p -> p_d2 q = p_d1 p ->
  In (pair_id dds b, pair_id dds a) (find_duplicates dds).
Proof.
  intros dds a b p q S Hp Hq L N H1 H2 H3 H4. apply C51_reported_duplicates. left. exists a, b, p, q. repeat split; auto.
  assert (p_n1 p <= p_n1 q); [|lia]. apply pairs_sorted in S. clear - S Hp Hq L. revert a b S Hp Hq L. generalize (pairs_of dds) as l. induction l as [|x l IH]; intros a b S Hp Hq L; [destruct a; discriminate Hp|].
  cbn [map] in S. apply StronglySorted_inv in S. destruct S as [S1 S2]. destruct a as [|a], b as [|b]; try lia; cbn [nth_error] in *.
  - injection Hp as ->. rewrite Forall_forall in S2. apply S2, in_map. eapply nth_error_In, Hq.
  - eapply IH; eauto. lia.
Qed.
Print Assumptions C51_duplicates_complete.
(** A pair that puts the atom back is always reported as a duplicate of the perfect supercell, ... *)
Theorem C51_perfect_supercells_reported : forall dds a p, nth_error (pairs_of dds) a = Some p -> p_n1 p = p_n2 p -> p_d2 p = dneg (p_d1 p) ->
  In (pair_id dds a, 0) (find_duplicates dds).
Proof.
  intros dds a p Hp H1 H2. apply C51_reported_duplicates. right. exists a, a, p, p. repeat split; auto. rewrite H2. destruct (p_d1 p) as [[x y] z]. cbn. rewrite !Z.opp_involutive. reflexivity.
Qed.
Print Assumptions C51_perfect_supercells_reported.
(** ... and nothing else is, for an atom that is displaced in one direction only as first atom. *)
Theorem C51_perfect_supercell_partial : forall cart dds i, (forall d, veq (vadd3 (cart d) (cart (dneg d))) vec0) ->
  (forall p q, In p (pairs_of dds) -> In q (pairs_of dds) -> p_n1 p = p_n2 p -> p_n1 q = p_n1 p -> p_n2 q = p_n2 p -> p_d1 p = p_d1 q) ->
  In (i, 0) (find_duplicates dds) -> exists mi, moves_of_id cart dds i = Some mi /\ forall a, veq (shift mi a) vec0.
Proof.
  intros cart dds i Odd One H. apply C51_reported_duplicates in H. destruct H as [[a [b [p [q [_ [_ [E _]]]]]]]|[a [b [p [q [Hp [Hq [_ [-> [H1 [H2 [H3 [H4 H5]]]]]]]]]]]]].
  - unfold pair_id in E. lia.
  - eexists. split; [apply moves_pair, Hq|]. intros x. rewrite H2, H3. unfold shift. cbn [fold_right fst snd].
    rewrite (One p q (nth_error_In _ _ Hp) (nth_error_In _ _ Hq)) in H4 by congruence. rewrite H4. destruct (p_n1 p =? x); [|apply veq_refl].
    eapply veq_trans; [apply vadd_comp; [apply veq_refl|apply vadd_0]|]. apply Odd.
Qed.
Print Assumptions C51_perfect_supercell_partial.
Definition xcart (d : dir) : vec := let '(x, y, z) := d in (inject_Z x, inject_Z y, inject_Z z).
Definition ex_dds : list dfir := [
  DFir 0 (1, 0, 0) [DSec 0 [(1, 0, 0); (-1, 0, 0)] 0; DSec 1 [(0, 1, 0); (0, -1, 0)] 2];
  DFir 1 (0, 1, 0) [DSec 0 [(1, 0, 0)] 2; DSec 1 [(0, -1, 0)] 0]].
Example C51_ex : StronglySorted Z.le (map df_num ex_dds) /\ find_duplicates ex_dds = [(7, 5); (4, 0); (8, 0)] /\
  (forall p q, In p (pairs_of ex_dds) -> In q (pairs_of ex_dds) -> p_n1 p = p_n2 p -> p_n1 q = p_n1 p -> p_n2 q = p_n2 p -> p_d1 p = p_d1 q).
Proof.
  split; [cbn; repeat (constructor; try lia)|]. split; [vm_compute; reflexivity|]. intros p q Hp Hq. cbn in Hp, Hq.
  repeat destruct Hp as [<-|Hp]; try destruct Hp; repeat destruct Hq as [<-|Hq]; try destruct Hq; cbn; intros; try reflexivity; try lia.
Qed.
Example C51_ex_ids : let fs := match direction_to_displacement xcart 2 (Some 1%Q) ex_dds with Type1 _ fs => fs | _ => [] end in
  map f_id fs = [Some 1; Some 2] /\ map sl_incl (slots fs) = [true; true; true; true; false; false; false; true].
Proof. vm_compute. auto. Qed.
(** An atom displaced along x and along -y as first atom: the pair (-y, -x) is reported to be the perfect
    supercell because the pair (x, y) exists, although it displaces the atom. *)
Theorem C51_perfect_supercell_refuted : exists cart dds i mi, (forall d, veq (vadd3 (cart d) (cart (dneg d))) vec0) /\
  In (i, 0) (find_duplicates dds) /\ moves_of_id cart dds i = Some mi /\ ~ veq (shift mi 0) vec0.
Proof.
  exists xcart, [DFir 0 (1, 0, 0) [DSec 0 [(0, 1, 0)] 0]; DFir 0 (0, -1, 0) [DSec 0 [(-1, 0, 0)] 0]], 4. eexists.
  split; [intros [[x y] z]; repeat split; cbn; rewrite inject_Z_opp; ring|]. split; [vm_compute; auto|]. split; [vm_compute; reflexivity|]. intros [H _]. vm_compute in H. discriminate H.
Qed.
Print Assumptions C51_perfect_supercell_refuted.

(** ** C52: second atoms *)
Section Orbits.
Variables (close : vec -> bool) (positions : list vec) (atom : Z) (sym : list rot).
Let n := Z.of_nat (length positions).
(** operation r, centred at the atom, brings atom a to atom b *)
Definition maps (r : rot) (a b : Z) : Prop :=
  0 <= b < n /\ close (vsub3 (pos_at positions b) (vadd3 (qrot r (vsub3 (pos_at positions a) (pos_at positions atom))) (pos_at positions atom))) = true.
Definition linked (a b : Z) : Prop := exists r, In r sym /\ maps r a b.
Lemma orbit_row_spec : forall sy a row, incl sy sym -> orbit_row close positions (pos_at positions atom) sy (pos_at positions a) = Some row ->
  forall b, In b row -> 0 <= b < n /\ clos_refl_trans Z linked a b.
Proof.
  induction sy as [|r sy IH]; intros a row Hi E b Hb; [injection E as <-; destruct Hb|]. cbn [orbit_row] in E.
  destruct (first_match close positions (pos_at positions atom) r (pos_at positions a)) as [i|] eqn:Ef; [|discriminate E].
  unfold first_match in Ef. apply find_first_some in Ef. destruct Ef as [Hin Hc]. apply in_zrange in Hin.
  assert (S : linked a i) by (exists r; split; [apply Hi; left; reflexivity|split; [exact Hin|exact Hc]]).
  destruct (orbit_row close positions (pos_at positions atom) sy (pos_at positions i)) as [t|] eqn:Et; [|discriminate E]. injection E as <-.
  destruct Hb as [<-|Hb]; [split; [exact Hin|apply rt_step, S]|]. destruct (IH i t (fun x h => Hi x (or_intror h)) Et b Hb) as [H1 H2]. split; [exact H1|].
  eapply rt_trans; [apply rt_step, S|exact H2].
Qed.
Definition conn := clos_refl_sym_trans Z linked.
Lemma conn_rt : forall a b, clos_refl_trans Z linked a b -> conn a b.
Proof. intros a b H. induction H; [apply rst_step; auto|apply rst_refl|eapply rst_trans; eauto]. Qed.
Lemma least_step_spec : forall m p, (forall b, In b (snd p) -> 0 <= b < n /\ conn (fst p) b) -> 0 <= fst p < n -> (forall a, 0 <= a < n -> 0 <= m a < n /\ conn a (m a)) ->
  forall a, 0 <= a < n -> 0 <= least_step m p a < n /\ conn a (least_step m p a).
Proof.
  intros m [i l]. cbn [fst snd]. unfold least_step. cbn [fst snd]. intros Hl Hi. revert m. induction l as [|b l IH]; intros m Hm a Ha; [apply Hm, Ha|]. cbn [fold_left].
  apply IH; [intros c Hc; apply Hl; right; exact Hc| |exact Ha]. intros x Hx. destruct (m i <? m b); [|apply Hm, Hx].
  unfold upd. destruct (x =? b) eqn:E; [|apply Hm, Hx]. apply Z.eqb_eq in E. subst x. destruct (Hm i Hi) as [H1 H2]. split; [exact H1|].
  eapply rst_trans; [apply rst_sym, Hl; left; reflexivity|exact H2].
Qed.
(** Every atom is connected to one of the chosen second atoms by operations of the site symmetry. *)
Theorem C52_second_atoms_cover : forall atoms, get_least_orbits close positions atom sym = Some atoms ->
  forall a, 0 <= a < n -> exists b, In b atoms /\ clos_refl_sym_trans Z linked a b.
Proof.
  intros atoms E a Ha. unfold get_least_orbits in E. destruct (get_orbits close positions atom sym) as [orbits|] eqn:Eo; [|discriminate E]. injection E as <-. fold n.
  set (mapping := fold_left least_step (combine (zrange n) orbits) (fun i => i)).
  assert (R : forall p, In p (combine (zrange n) orbits) -> 0 <= fst p < n /\ forall b, In b (snd p) -> 0 <= b < n /\ conn (fst p) b).
  { unfold get_orbits in Eo.
    assert (G : forall (ps : list vec) os k, 0 <= k -> (forall j, (j < length ps)%nat -> nth j ps vec0 = pos_at positions (k + Z.of_nat j)) -> sequence (map (orbit_row close positions (pos_at positions atom) sym) ps) = Some os ->
      forall j row, nth_error os j = Some row -> (j < length ps)%nat /\ forall b, In b row -> 0 <= b < n /\ conn (k + Z.of_nat j) b).
    { clear. induction ps as [|p ps IH]; intros os k Hk Hp E j row Hj; [cbn in E; injection E as <-; destruct j; discriminate Hj|].
      cbn [map sequence] in E. destruct (orbit_row close positions (pos_at positions atom) sym p) as [row0|] eqn:E0; [|discriminate E].
      destruct (sequence (map (orbit_row close positions (pos_at positions atom) sym) ps)) as [os'|] eqn:E1; [|discriminate E]. injection E as <-. destruct j as [|j]; cbn [nth_error] in Hj.
      - injection Hj as ->. split; [cbn; lia|]. intros b Hb. specialize (Hp 0%nat ltac:(cbn; lia)). cbn [nth] in Hp. rewrite Hp in E0.
        destruct (orbit_row_spec sym _ row (fun x h => h) E0 b Hb) as [H1 H2]. split; [exact H1|apply conn_rt, H2].
      - destruct (IH os' (k + 1) ltac:(lia)) with (j := j) (row := row) as [H1 H2]; [|reflexivity|exact Hj|].
        + intros i Hi. specialize (Hp (S i) ltac:(cbn; lia)). cbn [nth] in Hp. rewrite Hp. f_equal. lia.
        + split; [cbn; lia|]. replace (k + Z.of_nat (S j)) with (k + 1 + Z.of_nat j) by lia. exact H2. }
    intros [i row] Hin. cbn [fst snd]. apply In_nth_error in Hin. destruct Hin as [j Hj].
    assert (Hc : nth_error (zrange n) j = Some i /\ nth_error orbits j = Some row).
    { clear - Hj. revert Hj. generalize (zrange n) as zs. revert j orbits. induction j as [|j IH]; intros [|o os] [|z zs] H; try discriminate H; cbn in *; [injection H as -> ->; auto|apply IH, H]. }
    destruct Hc as [Hi Hr]. destruct (G positions orbits 0 ltac:(lia)) with (j := j) (row := row) as [H1 H2]; [intros j' Hj'; unfold pos_at; f_equal; lia|exact Eo|exact Hr|].
    assert (i = Z.of_nat j).
    { unfold zrange in Hi. rewrite nth_error_map in Hi. assert (Hs : nth_error (seq 0 (Z.to_nat n)) j = Some j). { rewrite nth_error_nth' with (d := 0%nat) by (rewrite seq_length; unfold n; lia). rewrite seq_nth by (unfold n; lia). reflexivity. }
      rewrite Hs in Hi. cbn in Hi. injection Hi as <-. reflexivity. }
    subst i. split; [unfold n; lia|]. intros b Hb. apply (H2 b Hb). }
  assert (M : forall a, 0 <= a < n -> 0 <= mapping a < n /\ conn a (mapping a)).
  { assert (G : forall l m, (forall p, In p l -> 0 <= fst p < n /\ forall b, In b (snd p) -> 0 <= b < n /\ conn (fst p) b) ->
      (forall a, 0 <= a < n -> 0 <= m a < n /\ conn a (m a)) -> forall a, 0 <= a < n -> 0 <= fold_left least_step l m a < n /\ conn a (fold_left least_step l m a)).
    { clear. induction l as [|p l IH]; intros m R M0; [exact M0|]. cbn [fold_left]. apply IH; [intros q Hq; apply R; right; exact Hq|].
      destruct (R p (or_introl eq_refl)) as [H1 H2]. apply least_step_spec; assumption. }
    apply G; [exact R|]. intros x Hx. split; [exact Hx|apply rst_refl]. }
  exists (mapping a). destruct (M a Ha) as [H1 H2]. split; [|exact H2]. apply filter_In. split; [apply in_zrange, H1|]. apply existsb_exists. exists a. split; [apply in_zrange, Ha|apply Z.eqb_refl].
Qed.
(** When the operations act as a group of permutations of the atoms, one operation suffices. *)
Theorem C52_one_operation : forall atoms, get_least_orbits close positions atom sym = Some atoms ->
  (forall a, 0 <= a < n -> exists r, In r sym /\ maps r a a) ->
  (forall r a b, In r sym -> maps r a b -> exists r', In r' sym /\ maps r' b a) ->
  (forall r s a b c, In r sym -> In s sym -> maps r a b -> maps s b c -> exists t, In t sym /\ maps t a c) ->
  forall a, 0 <= a < n -> exists b r, In b atoms /\ In r sym /\ maps r a b.
Proof.
  intros atoms E Id Inv Comp a Ha. destruct (C52_second_atoms_cover atoms E a Ha) as [b [Hb H]].
  assert (G : (a = b \/ exists r, In r sym /\ maps r a b) /\ (b = a \/ exists r, In r sym /\ maps r b a)).
  { clear - Inv Comp H. induction H as [x y [r [H1 H2]]|x|x y H IH|x y z H1 IH1 H2 IH2].
    - split; right; [exists r; auto|]. destruct (Inv r x y H1 H2) as [r' [H3 H4]]. eauto.
    - auto.
    - tauto.
    - destruct IH1 as [A1 B1], IH2 as [A2 B2]. split.
      + destruct A1 as [->|[r [R1 R2]]]; [exact A2|]. destruct A2 as [<-|[s [S1 S2]]]; [eauto|]. right. eapply Comp; [exact R1|exact S1|exact R2|exact S2].
      + destruct B2 as [->|[r [R1 R2]]]; [exact B1|]. destruct B1 as [<-|[s [S1 S2]]]; [eauto|]. right. eapply Comp; [exact R1|exact S1|exact R2|exact S2]. }
  destruct G as [[<-|[r [R1 R2]]] _]; [|eauto]. destruct (Id a Ha) as [r [R1 R2]]. exists a, r. auto.
Qed.
End Orbits.
Print Assumptions C52_second_atoms_cover.
Print Assumptions C52_one_operation.

(** A central atom, four neighbours, one atom above, and the fourfold rotations about z. *)
Definition ex_sym : list rot := [((1, 0, 0), (0, 1, 0), (0, 0, 1)); ((0, -1, 0), (1, 0, 0), (0, 0, 1)); ((-1, 0, 0), (0, -1, 0), (0, 0, 1)); ((0, 1, 0), (-1, 0, 0), (0, 0, 1))].
Definition ex_positions : list vec := [(0, 0, 0); (1#4, 0, 0); (0, 1#4, 0); (3#4, 0, 0); (0, 0, 1#3); (0, 3#4, 0)]%Q.
Definition integral (v : vec) : bool := let '(x, y, z) := v in (Zpos (Qden (Qred x)) =? 1) && (Zpos (Qden (Qred y)) =? 1) && (Zpos (Qden (Qred z)) =? 1).
Example C52_ex : get_least_orbits integral ex_positions 0 ex_sym = Some [0; 1; 4] /\
  option_map (map (nodup Z.eq_dec)) (get_orbits integral ex_positions 0 ex_sym) = Some [[0]; [1; 2; 5; 3]; [2; 3; 1; 5]; [3; 5; 2; 1]; [4]; [5; 1; 3; 2]].
Proof. vm_compute. auto. Qed.
Example C52_ex_group : forall r, In r ex_sym -> forall a, 0 <= a < 6 -> exists b r', maps integral ex_positions 0 r a b /\ In r' ex_sym /\ maps integral ex_positions 0 r' b a.
Proof.
  assert (C : forallb (fun r => forallb (fun a => existsb (fun b => integral (vsub3 (pos_at ex_positions b) (vadd3 (qrot r (vsub3 (pos_at ex_positions a) (pos_at ex_positions 0))) (pos_at ex_positions 0))) &&
     existsb (fun r' => integral (vsub3 (pos_at ex_positions a) (vadd3 (qrot r' (vsub3 (pos_at ex_positions b) (pos_at ex_positions 0))) (pos_at ex_positions 0)))) ex_sym) (zrange 6)) (zrange 6)) ex_sym = true) by (vm_compute; reflexivity).
  intros r Hr a Ha. rewrite forallb_forall in C. specialize (C r Hr). rewrite forallb_forall in C. specialize (C a (proj2 (in_zrange 6 a) Ha)).
  apply existsb_exists in C. destruct C as [b [Hb C]]. apply in_zrange in Hb. apply andb_true_iff in C. destruct C as [C1 C2]. apply existsb_exists in C2. destruct C2 as [r' [Hr' C2]].
  exists b, r'. split; [split; [exact Hb|exact C1]|]. split; [exact Hr'|]. split; [exact Ha|exact C2].
Qed.
