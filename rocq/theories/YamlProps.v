From Coq Require Import ZArith QArith List Bool Lia Sorting.Sorted.
From Verif Require Import Base BaseProofs DsModel DsProps YamlModel.
Import ListNotations.
Open Scope Z_scope.

Section Yaml.
Variables (rv : vec -> vec) (rd re : Q -> Q) (with_forces : bool).
(** ** What should come back: everything, with numbers rounded by the format and ids filled in *)
Definition back_s (id : Z) (s : sec) : sec :=
  Sec (s_num s) (rv (s_disp s)) (option_map rd (s_dist s)) (if with_forces then None else s_incl s) (Some id)
      (if with_forces then option_map (map rv) (s_forces s) else None) (if with_forces then option_map re (s_energy s) else None).
Fixpoint back_secs (id : Z) (ss : list sec) : list sec := match ss with [] => [] | s :: t => back_s (id + 1) s :: back_secs (id + 1) t end.
Fixpoint back (i id : Z) (fs : list fir) : list fir :=
  match fs with
  | [] => []
  | f :: t =>
      let forces := if with_forces then option_map (map rv) (f_forces f) else None in
      Fir (f_num f) (rv (f_disp f)) (Some (i + 1)) forces (match forces with Some _ => option_map re (f_energy f) | None => None end) (back_secs id (f_second f))
      :: back (i + 1) (id + Z.of_nat (length (f_second f))) t
  end.
(** ids that are present are the consecutive ones *)
Fixpoint ids_fit (id : Z) (ss : list sec) : Prop := match ss with [] => True | s :: t => (s_id s = None \/ s_id s = Some (id + 1)) /\ ids_fit (id + 1) t end.
Fixpoint all_ids_fit (i id : Z) (fs : list fir) : Prop :=
  match fs with [] => True | f :: t => (f_id f = None \/ f_id f = Some (i + 1)) /\ ids_fit id (f_second f) /\ all_ids_fit (i + 1) (id + Z.of_nat (length (f_second f))) t end.
(** second atoms as generated: in ascending order, distance and inclusion depending on the atom only *)
Definition regular (ss : list sec) : Prop :=
  ss <> [] /\ StronglySorted Z.le (map s_num ss) /\ (forall s, In s ss -> s_dist s <> None) /\
  (forall s t, In s ss -> In t ss -> s_num s = s_num t -> s_dist s = s_dist t /\ s_incl s = s_incl t).

Lemma id_ok_fit : forall o id, (o = None \/ o = Some id) -> id_ok o id = true.
Proof. intros o id [-> | ->]; [reflexivity|apply Z.eqb_refl]. Qed.
Lemma load_pairs_app : forall a b id, load_pairs (a ++ b) id = bind (load_pairs a id) (fun r => bind (load_pairs b (snd r)) (fun r2 => Some (fst r ++ fst r2, snd r2))).
Proof.
  induction a as [|p a IH]; intros b id.
  - cbn. destruct (load_pairs b id) as [[x y]|]; reflexivity.
  - cbn [app load_pairs]. destruct (load_pair p id) as [r|]; [|reflexivity]. cbn [bind]. rewrite IH. destruct (load_pairs a (snd r)) as [r1|]; [|reflexivity]. cbn [bind fst snd].
    destruct (load_pairs b (snd r1)) as [r2|]; [|reflexivity]. cbn [bind fst snd]. now rewrite app_assoc.
Qed.
Lemma back_app : forall a b id, back_secs id (a ++ b) = back_secs id a ++ back_secs (id + Z.of_nat (length a)) b.
Proof.
  induction a as [|s a IH]; intros b id; [cbn; now rewrite Z.add_0_r|]. cbn [app back_secs]. rewrite IH. f_equal. f_equal. f_equal. cbn [length]. lia.
Qed.
Lemma fit_app : forall a b id, ids_fit id (a ++ b) -> ids_fit id a /\ ids_fit (id + Z.of_nat (length a)) b.
Proof.
  induction a as [|s a IH]; intros b id H; [cbn in *; rewrite Z.add_0_r; auto|]. cbn [app ids_fit] in *. destruct H as [H1 H2]. destruct (IH _ _ H2) as [H3 H4]. split; [auto|].
  replace (id + Z.of_nat (length (s :: a))) with (id + 1 + Z.of_nat (length a)) by (cbn [length]; lia). exact H4.
Qed.
Lemma group_forces : with_forces = true -> forall i g id, (forall s, In s g -> s_num s = i) -> (forall s, In s g -> s_dist s <> None) -> (forall s, In s g -> s_forces s <> None) -> ids_fit id g ->
  exists ps, dump_forces rv rd re i g id = Some ps /\ load_pairs ps id = Some (back_secs id g, id + Z.of_nat (length g)) /\ (g <> [] -> ps <> []).
Proof.
  intros Hw i. induction g as [|s g IH]; intros id Hn Hd Hf Hi; [exists []; cbn; rewrite Z.add_0_r; repeat split; auto|]. cbn [dump_forces]. destruct Hi as [Hi1 Hi2].
  destruct (s_dist s) as [dist|] eqn:Ed; [|exfalso; exact (Hd s (or_introl eq_refl) Ed)]. cbn [bind]. rewrite (id_ok_fit _ _ Hi1). destruct (s_forces s) as [fo|] eqn:Ef; [|exfalso; exact (Hf s (or_introl eq_refl) Ef)]. cbn [bind].
  destruct (IH (id + 1)) as [ps [E [L _]]]; auto; [intros t h; apply Hn; now right|intros t h; apply Hd; now right|intros t h; apply Hf; now right|].
  rewrite E. cbn [bind]. eexists. split; [reflexivity|]. split; [|intros _ X; discriminate X]. cbn [load_pairs load_pair]. rewrite Z.eqb_refl. cbn [bind fst snd]. rewrite L. cbn [bind fst snd app]. 
  f_equal. f_equal; [|cbn [length]; lia]. cbn [back_secs]. f_equal. unfold back_s. rewrite Ed, Ef, Hw, (Hn s (or_introl eq_refl)). cbn [option_map]. f_equal. lia.
Qed.
Lemma group_disps : with_forces = false -> forall i g id s0, (forall s, In s (s0 :: g) -> s_num s = i) -> s_dist s0 <> None ->
  (forall s, In s (s0 :: g) -> s_dist s = s_dist s0 /\ s_incl s = s_incl s0) -> ids_fit id (s0 :: g) ->
  exists ps, dump_group rv rd re with_forces i (s0 :: g) id = Some ps /\ load_pairs ps id = Some (back_secs id (s0 :: g), id + Z.of_nat (length (s0 :: g))) /\ ps <> [].
Proof.
  intros Hw i g id s0 Hn Hd Hc Hi. unfold dump_group. rewrite Hw. cbn [andb]. destruct (s_dist s0) as [dist|] eqn:Ed; [|exfalso; now apply Hd]. cbn [bind]. clear Hd.
  set (l := s0 :: g) in *. clearbody l. 
  assert (G : exists ids, ids_from l id = Some ids /\ zip_ids ids (map (fun d => Sec (i + 1 - 1) d (Some (rd dist)) (s_incl s0) None None None) (map (fun s => rv (s_disp s)) l)) id = Some (back_secs id l, id + Z.of_nat (length l))).
  { revert id Hi. induction l as [|s l IH]; intros id Hi; [exists []; cbn; rewrite Z.add_0_r; auto|]. destruct Hi as [Hi1 Hi2].
    destruct (IH (fun t h => Hn t (or_intror h)) (fun t h => Hc t (or_intror h)) (id + 1) Hi2) as [ids [E1 E2]]. cbn [ids_from]. rewrite (id_ok_fit _ _ Hi1), E1. cbn [option_map]. eexists. split; [reflexivity|].
    cbn [map zip_ids]. rewrite Z.eqb_refl, E2. cbn [bind fst snd s_num s_disp s_dist s_incl s_forces s_energy]. f_equal. f_equal; [|cbn [length]; lia]. cbn [back_secs]. f_equal. unfold back_s. rewrite Hw.
    destruct (Hc s (or_introl eq_refl)) as [C1 C2]. rewrite C1, C2, (Hn s (or_introl eq_refl)). cbn [option_map]. f_equal. lia. }
  destruct G as [ids [E1 E2]]. rewrite E1. cbn [bind]. eexists. split; [reflexivity|]. split; [|intros X; discriminate X]. cbn [load_pairs load_pair]. cbv zeta. rewrite E2. cbn [bind fst snd]. rewrite app_nil_r. reflexivity.
Qed.
Lemma filter_eq_in : forall ss i s, In s (filter (fun s => s_num s =? i) ss) -> In s ss /\ s_num s = i.
Proof. intros ss i s H. apply filter_In in H. rewrite Z.eqb_eq in H. exact H. Qed.
Lemma groups_spec : forall us ss id, (with_forces = true -> forall s, In s ss -> s_forces s <> None) -> (forall s, In s ss -> s_dist s <> None) ->
  (forall s t, In s ss -> In t ss -> s_num s = s_num t -> s_dist s = s_dist t /\ s_incl s = s_incl t) -> (forall u, In u us -> In u (map s_num ss)) ->
  let l := flat_map (fun u => filter (fun s => s_num s =? u) ss) us in ids_fit id l ->
  exists ps, dump_groups rv rd re with_forces us ss id = Some (ps, id + Z.of_nat (length l)) /\ load_pairs ps id = Some (back_secs id l, id + Z.of_nat (length l)) /\ (us <> [] -> ps <> []).
Proof.
  induction us as [|u us IH]; intros ss id Hf Hd Hc Hu l Hi; [exists []; cbn; rewrite Z.add_0_r; repeat split; auto|]. unfold l in *. clear l. cbn [flat_map] in *. set (g := filter (fun s => s_num s =? u) ss) in *.
  apply fit_app in Hi. destruct Hi as [Hi1 Hi2]. destruct (IH ss (id + Z.of_nat (length g)) Hf Hd Hc (fun v h => Hu v (or_intror h)) Hi2) as [ps2 [E2 [L2 _]]]. cbn [dump_groups]. fold g.
  assert (G : exists ps, dump_group rv rd re with_forces u g id = Some ps /\ load_pairs ps id = Some (back_secs id g, id + Z.of_nat (length g)) /\ ps <> []).
  { assert (Hg : forall s, In s g -> In s ss /\ s_num s = u) by (intros s h; apply (filter_eq_in ss u s h)).
    assert (Hne : g <> []). { specialize (Hu u (or_introl eq_refl)). apply in_map_iff in Hu. destruct Hu as [s [E Hs]]. intros X. assert (In s g) by (apply filter_In; split; [exact Hs|apply Z.eqb_eq, E]). rewrite X in H. destruct H. }
    destruct g as [|s0 g0] eqn:Eg; [congruence|]. assert (Ew : with_forces = true \/ with_forces = false) by (destruct with_forces; auto). destruct Ew as [Ew|Ew].
    - destruct (group_forces Ew u (s0 :: g0) id) as [ps [P1 [P2 P3]]]; auto; [intros s h; apply (Hg s h)|intros s h; apply Hd, (Hg s h)|intros s h; apply Hf; [exact Ew|apply (Hg s h)]|].
      exists ps. split; [|split; [exact P2|apply P3; discriminate]]. unfold dump_group. rewrite Ew. destruct (s_forces s0) eqn:Es; [exact P1|]. exfalso. apply (Hf Ew s0); [apply (Hg s0 (or_introl eq_refl))|exact Es].
    - pose proof (group_disps Ew u g0 id s0 (fun s h => proj2 (Hg s h)) (Hd s0 (proj1 (Hg s0 (or_introl eq_refl))))) as P. apply P; [|exact Hi1].
      intros s h. apply Hc; [apply (Hg s h)|apply (Hg s0 (or_introl eq_refl))|]. rewrite (proj2 (Hg s h)), (proj2 (Hg s0 (or_introl eq_refl))). reflexivity. }
  destruct G as [ps [E [L Hne]]]. rewrite E. cbn [bind]. rewrite E2. cbn [bind fst snd]. rewrite app_length. eexists. split; [f_equal; f_equal; lia|]. split.
  - rewrite load_pairs_app, L. cbn [bind fst snd]. rewrite L2. cbn [bind fst snd]. rewrite back_app. f_equal. f_equal. lia.
  - intros _ X. apply app_eq_nil in X. destruct X as [X _]. apply Hne, X.
Qed.
Lemma uinsert_in : forall x l y, In y (uinsert x l) <-> y = x \/ In y l.
Proof.
  intros x. induction l as [|z l IH]; intros y; [cbn; intuition congruence|]. cbn [uinsert]. destruct (x <? z); [cbn; intuition congruence|]. destruct (x =? z) eqn:E; [apply Z.eqb_eq in E; subst; cbn; intuition congruence|]. cbn [In]. rewrite IH. tauto.
Qed.
Lemma uinsert_sorted : forall x l, StronglySorted Z.lt l -> StronglySorted Z.lt (uinsert x l).
Proof.
  intros x. induction l as [|z l IH]; intros H; [repeat constructor|]. cbn [uinsert]. apply StronglySorted_inv in H. destruct H as [H1 H2]. destruct (Z.ltb_spec x z) as [L|L].
  - constructor; [constructor; auto|]. constructor; [exact L|]. eapply Forall_impl; [|exact H2]. intros; lia.
  - destruct (Z.eqb_spec x z) as [->|N]; [constructor; auto|]. constructor; [apply IH, H1|]. apply Forall_forall. intros y Hy. apply uinsert_in in Hy. destruct Hy as [->|Hy]; [lia|]. rewrite Forall_forall in H2. apply H2, Hy.
Qed.
Lemma unique_spec : forall l, StronglySorted Z.lt (unique l) /\ forall y, In y (unique l) <-> In y l.
Proof.
  induction l as [|x l [IH1 IH2]]; [split; [constructor|intros y; reflexivity]|]. cbn [unique fold_right]. split; [apply uinsert_sorted, IH1|]. intros y. rewrite uinsert_in. fold (unique l). rewrite IH2. cbn. intuition congruence.
Qed.
Lemma group_concat : forall us ss, StronglySorted Z.lt us -> StronglySorted Z.le (map s_num ss) -> (forall s, In s ss -> In (s_num s) us) ->
  flat_map (fun u => filter (fun s => s_num s =? u) ss) us = ss.
Proof.
  induction us as [|u us IH]; intros ss Hu Hs Hin; [destruct ss as [|s ss]; [reflexivity|exfalso; exact (Hin s (or_introl eq_refl))]|].
  apply StronglySorted_inv in Hu. destruct Hu as [Hu1 Hu2]. rewrite Forall_forall in Hu2. induction ss as [|s ss IHs].
  - cbn. clear. induction us; [reflexivity|exact IHus].
  - cbn [map] in Hs. apply StronglySorted_inv in Hs. destruct Hs as [Hs1 Hs2]. rewrite Forall_forall in Hs2. destruct (Z.eqb_spec (s_num s) u) as [E|E].
    + cbn [flat_map filter]. rewrite E, Z.eqb_refl. cbn [app]. f_equal. etransitivity; [|apply IHs; [exact Hs1|intros t h; apply Hin; now right]]. cbn [flat_map]. f_equal.
      rewrite !flat_map_concat_map. f_equal. apply map_ext_in. intros v Hv. cbn. rewrite (proj2 (Z.eqb_neq u v)); [reflexivity|]. specialize (Hu2 v Hv). lia.
    + cbn [flat_map]. assert (F : filter (fun s => s_num s =? u) (s :: ss) = []).
      { assert (u < s_num s) by (destruct (Hin s (or_introl eq_refl)) as [X|X]; [congruence|apply Hu2, X]).
        assert (A : forall t, In t (s :: ss) -> (s_num t =? u) = false) by (intros t [<-|h]; apply Z.eqb_neq; [exact E|]; specialize (Hs2 (s_num t) (in_map _ _ _ h)); lia).
        clear - A. revert A. generalize (s :: ss) as l. induction l as [|t l IH]; intros A; [reflexivity|]. cbn. rewrite (A t (or_introl eq_refl)). apply IH. intros x h. apply A. now right. }
      rewrite F. cbn [app]. apply IH; [exact Hu1|constructor; [exact Hs1|apply Forall_forall; exact Hs2]|]. intros t h. destruct (Hin t h) as [X|X]; [|exact X]. exfalso.
      assert (In t (filter (fun s => s_num s =? u) (s :: ss))) by (apply filter_In; split; [exact h|apply Z.eqb_eq; congruence]). rewrite F in H. destruct H.
Qed.
(** ** C41: writing the dataset and reading it back gives the same first and second atoms in the same order,
    with their ids; inclusion flags when forces are not written, forces and energies when they are. Missing:
    inclusion flags in a file with forces, second atoms that are not in ascending order (both refuted below). *)
Theorem C41_yaml_round_trip_partial : forall fs, fs <> [] -> (forall f, In f fs -> regular (f_second f)) ->
  (with_forces = true -> forall f s, In f fs -> In s (f_second f) -> s_forces s <> None) ->
  all_ids_fit 0 (Z.of_nat (length fs)) fs ->
  exists ys, dump rv rd re with_forces fs = Some ys /\ load ys = Some (back 0 (Z.of_nat (length fs)) fs).
Proof.
  intros fs Hne Hr Hf Hi. unfold dump, load. assert (D : forall X (x : option X), match fs with [] => None | _ => x end = x) by (intros; destruct fs; [congruence|reflexivity]). rewrite D. clear D Hne.
  assert (G : forall i id, all_ids_fit i id fs -> exists ys, dump_firsts rv rd re with_forces fs i id = Some ys /\ length ys = length fs /\ load_firsts ys i id = Some (back i id fs)).
  { clear Hi. induction fs as [|f fs IH]; intros i id Hi; [exists []; repeat split; reflexivity|]. destruct Hi as [Hi1 [Hi2 Hi3]]. cbn [dump_firsts]. rewrite (id_ok_fit _ _ Hi1).
    destruct (Hr f (or_introl eq_refl)) as [R1 [R2 [R3 R4]]]. unfold dump_seconds. destruct (unique_spec (map s_num (f_second f))) as [U1 U2].
    pose proof (group_concat (unique (map s_num (f_second f))) (f_second f) U1 R2 (fun s h => proj2 (U2 _) (in_map s_num _ _ h))) as C.
    destruct (groups_spec (unique (map s_num (f_second f))) (f_second f) id (fun w s h => Hf w f s (or_introl eq_refl) h) R3 R4 (fun u h => proj1 (U2 u) h)) as [ps [P1 [P2 P3]]]; [rewrite C; exact Hi2|].
    rewrite C in P1, P2. rewrite P1. cbn [bind fst snd]. destruct (IH (fun g h => Hr g (or_intror h)) (fun w g s h => Hf w g s (or_intror h)) (i + 1) _ Hi3) as [ys [E1 [E2 E3]]]. rewrite E1. cbn [bind].
    eexists. split; [reflexivity|]. split; [cbn; now rewrite E2|]. cbn [load_firsts y_id y_paired]. rewrite Z.eqb_refl. 
    assert (Hps : ps <> []). { apply P3. intros X. apply R1. destruct (f_second f) as [|s t]; [reflexivity|]. exfalso. assert (In (s_num s) (unique (map s_num (s :: t)))) by (apply U2; left; reflexivity). rewrite X in H. destruct H. }
    destruct ps as [|p ps]; [congruence|]. cbv iota. rewrite P2. cbn [bind fst snd]. rewrite E3. cbn [bind y_atom y_disp y_id y_forces y_energy]. cbn [back]. f_equal. f_equal. f_equal. lia. }
  destruct (G 0 (Z.of_nat (length fs)) Hi) as [ys [E1 [E2 E3]]]. exists ys. split; [exact E1|]. rewrite E2. exact E3.
Qed.
End Yaml.
Print Assumptions C41_yaml_round_trip_partial.
Lemma back_secs_length : forall rv rd re w ss id, length (back_secs rv rd re w id ss) = length ss.
Proof. intros rv rd re w. induction ss as [|s ss IH]; intros id; [reflexivity|]. cbn. now rewrite IH. Qed.
(** Read off [back]: the displaced supercells described are the same, in the same order, with the same flags
    when forces are not written. *)
Theorem C41_same_supercells : forall rv rd re fs i id,
  map (fun s => (sl_moves s, sl_incl s)) (slots (back rv rd re false i id fs)) = map (fun s => (map (fun m => (fst m, rv (snd m))) (sl_moves s), sl_incl s)) (slots fs) /\
  map sl_forces (slots (back rv rd re true i id fs)) = map (fun s => option_map (map rv) (sl_forces s)) (slots fs).
Proof.
  intros rv rd re fs i id. unfold slots. rewrite !map_app, !map_map. cbn [sl_moves sl_incl sl_forces].
  assert (S1 : forall ss id (n1 : Z) d1, map (fun s => ([(n1, rv d1); (s_num s, s_disp s)], included s)) (back_secs rv rd re false id ss) = map (fun s => ([(n1, rv d1); (s_num s, rv (s_disp s))], included s)) ss).
  { induction ss as [|s ss IH]; intros k n1 d1; [reflexivity|]. cbn [back_secs map]. rewrite IH. reflexivity. }
  assert (S2 : forall ss id, map s_forces (back_secs rv rd re true id ss) = map (fun s => option_map (map rv) (s_forces s)) ss).
  { induction ss as [|s ss IH]; intros k; [reflexivity|]. cbn [back_secs map]. rewrite IH. reflexivity. }
  split; f_equal; revert i id; induction fs as [|f fs IH]; intros i id; try reflexivity; cbn [back map flat_map]; rewrite ?IH; try reflexivity; rewrite !map_app, !map_map, IH; cbn [f_second f_num f_disp sl_moves sl_incl sl_forces]; f_equal; try apply S2.
  etransitivity; [apply S1|]. reflexivity.
Qed.
Print Assumptions C41_same_supercells.

(** ** Examples and refutations (no rounding) *)
Definition v1 : vec := (1%Q, 0%Q, 0%Q).
Definition idv (v : vec) : vec := v.
Definition idq (q : Q) : Q := q.
Definition sc (n : Z) (incl : option bool) (id : option Z) (fo : option conf) : sec := Sec n v1 (Some 2%Q) incl id fo None.
Definition ex_ds : list fir :=
  [Fir 0 v1 None None None [sc 0 None None None; sc 0 None None None; sc 3 (Some false) None None];
   Fir 5 v1 (Some 2) None None [sc 1 (Some false) (Some 6) None; sc 4 (Some true) None None]].
Example C41_ex_hyp : (ex_ds <> []) /\ (forall f, In f ex_ds -> regular (f_second f)) /\ all_ids_fit 0 2 ex_ds.
Proof.
  split; [discriminate|]. split.
  - intros f [<-|[<-|[]]]; cbn [f_second]; (split; [discriminate|]); (split; [cbn; repeat (constructor; try lia)|]); (split; [cbn; intros s H; intuition; subst s; cbn in *; discriminate|]).
    + intros s t Hs Ht E. cbn in Hs, Ht. destruct Hs as [Hs | [Hs | [Hs | []]]]; destruct Ht as [Ht | [Ht | [Ht | []]]]; subst s; subst t; cbn in *; try discriminate E; auto.
    + intros s t Hs Ht E. cbn in Hs, Ht. destruct Hs as [Hs | [Hs | []]]; destruct Ht as [Ht | [Ht | []]]; subst s; subst t; cbn in *; try discriminate E; auto.
  - cbn. repeat split; auto.
Qed.
Example C41_ex : exists ys, dump idv idq idq false ex_ds = Some ys /\ load ys = Some (back idv idq idq false 0 2 ex_ds) /\
  map (fun s => (map fst (sl_moves s), sl_incl s)) (slots (back idv idq idq false 0 2 ex_ds)) = map (fun s => (map fst (sl_moves s), sl_incl s)) (slots ex_ds).
Proof. eexists. split; [reflexivity|]. split; reflexivity. Qed.
(** In a file with forces the inclusion flag is lost: an excluded pair comes back included. *)
Theorem C41_included_with_forces_refuted : exists fs ys gs,
  (forall f, In f fs -> regular (f_second f)) /\ (forall f s, In f fs -> In s (f_second f) -> s_forces s <> None) /\ all_ids_fit 0 (Z.of_nat (length fs)) fs /\
  dump idv idq idq true fs = Some ys /\ load ys = Some gs /\
  map sl_incl (slots fs) = [true; true; false] /\ map sl_incl (slots gs) = [true; true; true].
Proof.
  exists [Fir 0 v1 None (Some [v1; v1]) None [sc 0 (Some true) None (Some [v1; v1]); sc 1 (Some false) None (Some [v1; v1])]]. eexists. eexists.
  split; [intros f [<-|[]]; cbn [f_second]; (split; [discriminate|]); (split; [cbn; repeat (constructor; try lia)|]); (split; [cbn; intros s H; intuition; subst s; cbn in *; discriminate|]);
    intros s t Hs Ht E; cbn in Hs, Ht; destruct Hs as [Hs | [Hs | []]]; destruct Ht as [Ht | [Ht | []]]; subst s; subst t; cbn in *; try discriminate E; auto|].
  split; [intros f s [<-|[]]; cbn; intros [<-|[<-|[]]]; discriminate|]. split; [cbn; repeat split; auto|]. split; [reflexivity|]. split; [reflexivity|]. split; reflexivity.
Qed.
Print Assumptions C41_included_with_forces_refuted.
(** Second atoms not in ascending order: the file lists them in another order, so the k-th supercell after
    loading is not the k-th before; if the dataset has ids, writing it fails. *)
Theorem C41_order_refuted : (exists fs ys gs, dump idv idq idq false fs = Some ys /\ load ys = Some gs /\
    map (fun s => map fst (sl_moves s)) (slots fs) = [[0]; [0; 3]; [0; 1]] /\ map (fun s => map fst (sl_moves s)) (slots gs) = [[0]; [0; 1]; [0; 3]]) /\
  (exists fs, all_ids_fit 0 (Z.of_nat (length fs)) fs /\ dump idv idq idq false fs = None).
Proof.
  split.
  - exists [Fir 0 v1 None None None [sc 3 None None None; sc 1 None None None]]. eexists. eexists. split; [reflexivity|]. split; [reflexivity|]. split; reflexivity.
  - exists [Fir 0 v1 (Some 1) None None [sc 3 None (Some 2) None; sc 1 None (Some 3) None]]. split; [cbn; repeat split; auto|reflexivity].
Qed.
Print Assumptions C41_order_refuted.
(** A first atom without second atoms is written but cannot be read. *)
Theorem C41_no_second_refuted : exists fs ys, dump idv idq idq false fs = Some ys /\ load ys = None.
Proof. exists [Fir 0 v1 None None None []]. eexists. split; reflexivity. Qed.
Print Assumptions C41_no_second_refuted.
