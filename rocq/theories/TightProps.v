(** Further theorems about definitions of earlier files, written after wrong versions of them had passed: C92 (modes left out), C100 (positions
    and the scalar), C103 (velocity matrices), C104 (cutoff pair distance), C105 (when fc3 is made), C106 (cutoffs of fc calculators). *)
From Coq Require Import String.
From Coq Require Import Ascii ZArith QArith List Bool Lia Lqa Qfield.
From Verif Require Import Base BaseProofs Mat3 QMat Cplx Fc3Trans DsModel ForcesModel.
From Verif Require Import KapModel GruModel GruProps WigModel KuboProps LoadModel LoadProps StoreProps CalcModel CalcProps.
Import ListNotations.
Open Scope Z_scope.

(** ** C92: the number of modes reported as ignored is the number of pairs of a sampled grid point and a band with a frequency below the
    cutoff; it is zero exactly if all are at or above it *)
Theorem C92_ignored : forall D ops init nb freq cutoff star,
  let points := kap_points D ops init star in
  kap_ignored D ops init nb freq cutoff star = Z.of_nat (List.length (filter (fun x => negb (Qle_bool cutoff (freq (fst x) (snd x)))) (list_prod points (zrange nb)))) /\
  (kap_ignored D ops init nb freq cutoff star = 0 <-> forall g b, In g points -> 0 <= b < nb -> (cutoff <= freq g b)%Q).
Proof.
  intros D ops init nb freq cutoff star points.
  assert (E : kap_ignored D ops init nb freq cutoff star = Z.of_nat (List.length (filter (fun x => negb (Qle_bool cutoff (freq (fst x) (snd x)))) (list_prod points (zrange nb))))).
  { unfold kap_ignored. fold points. generalize points. intros l. induction l as [|g l IH]; [reflexivity|]. cbn [map list_prod]. rewrite filter_app, app_length, Nat2Z.inj_add, <- IH.
    assert (K : forall m, zcount (fun b => qltb (freq g b) cutoff) m = Z.of_nat (List.length (filter (fun x : Z * Z => negb (Qle_bool cutoff (freq (fst x) (snd x)))) (map (fun y => (g, y)) m)))).
    { induction m as [|b m IHm]; [reflexivity|]. rewrite zcount_cons, IHm. cbn [map filter fst snd]. unfold qltb. destruct (Qle_bool cutoff (freq g b)); cbn [negb List.length]; lia. }
    rewrite <- K. reflexivity. }
  split; [exact E|]. rewrite E. split.
  - intros H g b Hg Hb. apply Qle_bool_iff. destruct (Qle_bool cutoff (freq g b)) eqn:G; [reflexivity|]. exfalso.
    assert (I : In (g, b) (filter (fun x => negb (Qle_bool cutoff (freq (fst x) (snd x)))) (list_prod points (zrange nb)))) by (apply filter_In; split; [apply in_prod; [exact Hg|apply in_zrange; exact Hb]|cbn [fst snd]; rewrite G; reflexivity]).
    destruct (filter _ _); [destruct I|cbn [List.length] in H; lia].
  - intros H. assert (N : filter (fun x => negb (Qle_bool cutoff (freq (fst x) (snd x)))) (list_prod points (zrange nb)) = []); [|rewrite N; reflexivity].
    destruct (filter _ _) as [|[g b] l] eqn:F; [reflexivity|]. assert (I : In (g, b) ((g, b) :: l)) by (left; reflexivity). rewrite <- F in I. apply filter_In in I. destruct I as [I G].
    apply in_prod_iff in I. cbn [fst snd] in G. assert (K : (cutoff <= freq g b)%Q) by (apply H; [apply I|apply in_zrange; apply I]). apply Qle_bool_iff in K. rewrite K in G. discriminate.
Qed.
(** ** C100: positions follow the lattice: rows of the lattice multiplied by a matrix from the right, so are the positions *)
Theorem C100_positions : forall svecs multi lat lat' (S : Z -> Z -> Q) nu N k, 0 <= k < 3 ->
  (forall l m, 0 <= l < 3 -> 0 <= m < 3 -> (lat' l m == QS 3 (fun i => lat l i * S i m))%Q) ->
  (get_R svecs multi lat' nu N k == QS 3 (fun i => get_R svecs multi lat nu N i * S i k))%Q.
Proof.
  intros svecs multi lat lat' S nu N k Hk H. unfold get_R. destruct (multi N nu) as [m adrs]. change (zrange 3) with [0; 1; 2] in *. cbn [map] in *. rewrite !qs_cons, !qs_nil.
  rewrite (H 0 k), (H 1 k), (H 2 k) by lia. rewrite !qs_cons, !qs_nil. ring.
Qed.
(** ** C100: the scalar is minus the relative change of the frequency per relative change of the volume: an expansion by [e / 3] along each
    axis enters C100_meaning with the scalar times [e] *)
Theorem C100_scalar : forall (g : Z -> Z -> Q) e, (QS 3 (fun k => QS 3 (fun l => g k l * (if k =? l then e / 3 else 0))) == gru_scalar g * e)%Q.
Proof. intros g e. unfold gru_scalar. change (zrange 3) with [0; 1; 2]. cbn. field. Qed.
(** ** C103: symmetrized velocity matrices are hermitian, whatever the rotations and the matrix *)
Theorem C103_hermitian : forall nb rots v, herm_mat nb (gvm_sym rots v).
Proof. intros nb rots v i k l _ _ _. unfold gvm_sym. split; cbn; ring. Qed.
(** ** C103: products of hermitian matrices: exchange of the bands gives the complex conjugate, elements xx, yy and zz are not negative *)
Theorem C103_products : forall nb vs multi a b k l, (forall v, In v vs -> herm_mat nb v) -> 0 <= a < 3 -> 0 <= b < 3 -> 0 <= k < nb -> 0 <= l < nb ->
  gvm_by_gvm vs multi a b l k =c= conj (gvm_by_gvm vs multi a b k l) /\
  (0 < multi -> (0 <= re (gvm_by_gvm vs multi a a k l))%Q /\ (im (gvm_by_gvm vs multi a a k l) == 0)%Q).
Proof.
  intros nb vs multi a b k l H Ha Hb Hk Hl. unfold gvm_by_gvm. split.
  - assert (E : csum (map (fun v => cmul (v a l k) (v b k l)) vs) =c= conj (csum (map (fun v => cmul (v a k l) (v b l k)) vs))).
    { rewrite csum_conj. apply csum_ext. intros v Hv. destruct (H v Hv a k l Ha Hk Hl) as [A1 A2]. destruct (H v Hv b k l Hb Hk Hl) as [B1 B2].
      cbn [conj re im] in *. split; cbn [cmul conj re im]; rewrite A1, A2, B1, B2; ring. }
    rewrite E. split; cbn; ring.
  - intros Hm.
    assert (E : (0 <= re (csum (map (fun v => cmul (v a k l) (v a l k)) vs)))%Q /\ (im (csum (map (fun v => cmul (v a k l) (v a l k)) vs)) == 0)%Q).
    { induction vs as [|v vs IH]; [cbn; split; [lra|reflexivity]|]. destruct (IH (fun v Hv => H v (or_intror Hv))) as [I1 I2]. destruct (H v (or_introl eq_refl) a k l Ha Hk Hl) as [A1 A2]. cbn [conj re im] in A1, A2.
      cbn [map]. rewrite csum_cons. cbn [cadd cmul re im]. rewrite A1, A2, I2. split; [|ring]. assert (0 <= re (v a k l) * re (v a k l))%Q by nra. assert (0 <= im (v a k l) * im (v a k l))%Q by nra. lra. }
    destruct E as [E1 E2]. cbn [cscale re im]. split; [|rewrite E2; ring]. apply Qmult_le_0_compat; [|exact E1]. apply Qinv_le_0_compat. change 0%Q with (inject_Z 0). rewrite <- Zle_Qle. lia.
Qed.
(** ** C104: with a cutoff pair distance the dataset for fc3 is the one without, with the smaller of its own cutoff and this one *)
Theorem C104_cutoff : forall units disk y natom c f calc r, ~ (c == 0)%Q -> parse_forces units disk y natom (Some c) f true calc = Ok r ->
  exists r0 m, parse_forces units disk y natom None f true calc = Ok r0 /\ d_set r = d_set r0 /\ d_cut r = Some m /\ (m <= c)%Q /\
    (d_cut r0 = None -> m = c) /\ forall c0, d_cut r0 = Some c0 -> (m <= c0)%Q /\ (m = c0 \/ m = c).
Proof.
  intros units disk y natom c f calc r Hc H. unfold parse_forces in *. apply andthen_ok in H. destruct H as (d1 & E1 & H). rewrite E1. cbn [andthen]. apply andthen_ok in H. destruct H as (d2 & E2 & H). rewrite E2. cbn [andthen].
  destruct d2 as [d2|]; [|discriminate]. destruct (match d_set d2 with Type1 n _ => negb (n =? natom) | Type2 _ _ _ => false end); [discriminate|].
  destruct (Qeq_bool c 0) eqn:Q0; [apply Qeq_bool_iff in Q0; contradiction|]. cbn [andb negb] in H. exists d2.
  destruct (d_cut d2) as [c0|] eqn:C; apply (f_equal (fun r => match r with Ok x => Some x | Err _ => None end)) in H; injection H as <-; cbn [d_set d_cut].
  - exists (if Qle_bool c0 c then c0 else c). split; [reflexivity|]. split; [reflexivity|]. split; [reflexivity|]. destruct (Qle_bool c0 c) eqn:L.
    + apply Qle_bool_iff in L. split; [exact L|]. split; [discriminate|]. intros c1 G. injection G as <-. split; [lra|left; reflexivity].
    + assert (~ (c0 <= c)%Q) by (intros K; apply Qle_bool_iff in K; congruence). split; [lra|]. split; [discriminate|]. intros c1 G. injection G as <-. split; [lra|right; reflexivity].
  - exists c. split; [reflexivity|]. split; [reflexivity|]. split; [reflexivity|]. split; [lra|]. split; [reflexivity|]. discriminate.
Qed.
Section Made.
Variable F : Type.
Variable cols : F -> Z.
Variable compact : F -> bool.
Variable solve3 : dset -> F * F.
Variable solve2 : dset -> F.
Variable cut : Q -> F -> F.
Variable indices_ok : bool -> list Z -> list Z -> bool.
Variable natom natom2 : Z.
Variable p2s p2s2 : list Z.
Variable units : Z -> option Q * option Q.
Notation create := (create_force_constants F cols compact solve3 solve2 cut indices_ok natom natom2 p2s p2s2 units).
Lemma fc3_made : forall fl s y calc p0 p fl', skip_fc3 s = false -> create fl s y calc p0 = Ok (p, fl') -> p_fc3 F p <> None.
Proof.
  intros fl s y calc p0 p fl' K H. unfold create_force_constants in H. rewrite K in H.
  apply andthen_ok in H. destruct H as ([[q fq] b] & E & H). apply andthen_ok in E. destruct E as (q1 & E1 & E).
  assert (M : p_fc3 F q1 <> None).
  { destruct (st_read_fc3 s).
    - apply andthen_ok in E1. destruct E1 as (f & _ & E1). apply (f_equal (fun r => match r with Ok x => Some x | Err _ => None end)) in E1. injection E1 as <-. discriminate.
    - apply andthen_ok in E1. destruct E1 as (d & _ & E1). apply andthen_ok in E1. destruct E1 as (d' & _ & E1). unfold produce_fc3 in E1. cbn [p_data p_fc2 p_data2 p_smat2] in E1. destruct (solve3 d').
      apply (f_equal (fun r => match r with Ok x => Some x | Err _ => None end)) in E1. injection E1 as <-. discriminate. }
  assert (Mq : p_fc3 F q <> None).
  { apply (f_equal (fun r => match r with Ok x => Some x | Err _ => None end)) in E. injection E as E _ _. rewrite <- E. destruct (st_cutoff s) as [c|]; [|exact M]. destruct (p_fc3 F q1) eqn:G; [|contradiction]. destruct (negb (Qle_bool c 0)); [discriminate|rewrite G; discriminate]. }
  clear E E1 M. destruct (st_read_fc2 s).
  - apply andthen_ok in H. destruct H as (f & _ & H). apply (f_equal (fun r => match r with Ok x => Some x | Err _ => None end)) in H. injection H as <- _. exact Mq.
  - apply andthen_ok in H. destruct H as (q2 & E & H).
    assert (M2 : p_fc3 F q2 <> None).
    { destruct (_ || _).
      - apply andthen_ok in E. destruct E as (d & _ & E). apply andthen_ok in E. destruct E as (d' & _ & E). apply (f_equal (fun r => match r with Ok x => Some x | Err _ => None end)) in E. injection E as <-. destruct (p_smat2 F q); exact Mq.
      - apply (f_equal (fun r => match r with Ok x => Some x | Err _ => None end)) in E. injection E as <-. exact Mq. }
    destruct (negb b); [discriminate|]. apply andthen_ok in H. destruct H as (q3 & E3 & H). apply (f_equal (fun r => match r with Ok x => Some x | Err _ => None end)) in H. injection H as <- _.
    unfold produce_fc2 in E3. destruct (match p_data2 F q2 with Some d => Some d | None => p_data F q2 end); [|discriminate]. apply andthen_ok in E3. destruct E3 as (h & _ & E3). destruct h; [|discriminate].
    apply (f_equal (fun r => match r with Ok x => Some x | Err _ => None end)) in E3. injection E3 as <-. exact M2.
Qed.
(** ** C105: a run of lattice thermal conductivity with --br, which takes neither linewidths nor interaction strengths from elsewhere, goes on with fc3, also with --write-phonon
    and --isotope; so does one with --lbte, without --write-phonon *)
Theorem C105_fc3_made : forall fl s y calc p0 p fl', st_jdos s = false -> st_read_gamma s = false -> st_read_pp s = false -> st_const_pp s = false ->
  (st_bterta s = true \/ st_lbte s = true /\ st_write_phonon s = false) ->
  create fl s y calc p0 = Ok (p, fl') -> p_fc3 F p <> None.
Proof.
  intros fl s y calc p0 p fl' A1 A2 A3 A4 A5. apply fc3_made. unfold skip_fc3. rewrite A1, A2, A3, A4. destruct A5 as [-> | [-> ->]]; [|rewrite orb_true_r, andb_false_r]; cbn [negb orb andb]; rewrite ?andb_false_r; reflexivity.
Qed.
(** ** C105, refuted: with --lbte and --write-phonon the run has no fc3, even if it is asked to read fc3 *)
Theorem C105_lbte_phonon_refuted : forall fl s y calc p fl' sm, st_lbte s = true -> st_bterta s = false -> st_write_phonon s = true ->
  create fl s y calc (Ph3 F None None None None sm) = Ok (p, fl') -> p_fc3 F p = None.
Proof.
  intros fl s y calc p fl' sm B A W H. unfold create_force_constants in H. assert (K : skip_fc3 s = true) by (unfold skip_fc3; rewrite A, W; rewrite !orb_true_r; reflexivity). rewrite K in H. cbn [andthen p_smat2] in H.
  destruct (st_read_fc2 s).
  - apply andthen_ok in H. destruct H as (f & _ & H). apply (f_equal (fun r => match r with Ok x => Some x | Err _ => None end)) in H. injection H as <- _. reflexivity.
  - apply andthen_ok in H. destruct H as (q & _ & H). discriminate.
Qed.
End Made.
(** ** C106: options as a dictionary: a cutoff given there is kept, the rest is kept anyway *)
Theorem C106_dictionary : forall D V (d : D) (w : V) cutoff order,
  options_of_orders (Some (Dict d (Some w))) cutoff = (Some (Dict d (Some w)), Some (Dict d (Some w)), Some (Dict d (Some w))) /\
  extract (update_cutoff (Some (Dict d (Some w))) cutoff) order = Some (Dict d (Some w)) /\
  forall o', update_cutoff (Some (Dict d None)) cutoff = Some o' -> exists x, o' = Dict d x /\ x = option_map fst cutoff.
Proof.
  intros D V d w cutoff order. split; [destruct cutoff as [[v t]|]; reflexivity|]. split; [destruct cutoff as [[v t]|]; reflexivity|].
  intros o'. destruct cutoff as [[v t]|]; cbn; intros H; injection H as <-; eexists; split; reflexivity.
Qed.
(** ** C106: ALM is given one cutoff for each order: none ("-1") for fc2 and the pair cutoff for fc3; symfc gets the pair cutoff; it is the
    calculator of fc3 that counts *)
Theorem C106_alm : forall known a c, bar_free a -> bar_free c -> (a = [] \/ known (lower a) = true) -> known (str "alm") = true -> known (str "symfc") = true ->
  (forall o, snd (calculator_params known (Some (a ++ bar :: str "alm")) None (Some c)) = Some o -> extract_str o 2 = None /\ extract_str o 3 = Some (str "cutoff=-1 " ++ c)) /\
  (forall o, snd (calculator_params known (Some (a ++ bar :: str "symfc")) None (Some c)) = Some o -> extract_str o 2 = None /\ extract_str o 3 = Some (str "cutoff=" ++ c)) /\
  snd (calculator_params known (Some (a ++ bar :: str "alm")) None (Some c)) <> None /\ snd (calculator_params known (Some (a ++ bar :: str "symfc")) None (Some c)) <> None.
Proof.
  intros known a c A C Ka K1 K2.
  assert (L : forall w, bar_free w -> w <> [] -> lower w = w -> known w = true -> calculator_list known (Some (a ++ bar :: w)) = [lower a; w]).
  { intros w W N Lw Kw. unfold calculator_list. rewrite split_app, split_free by assumption. cbn [flat_map].
    assert (match a with [] => [[]] | _ => if known (lower a) then [lower a] else [] end = [lower a]) as -> by (destruct Ka as [-> | K]; [reflexivity|rewrite K; destruct a; reflexivity]).
    destruct w; [contradiction|]. rewrite Lw, Kw. reflexivity. }
  assert (B1 : bar_free (str "alm")) by (intros G; vm_compute in G; intuition discriminate). assert (B2 : bar_free (str "symfc")) by (intros G; vm_compute in G; intuition discriminate).
  assert (Lalm : lower (str "alm") = str "alm") by reflexivity. assert (Lsym : lower (str "symfc") = str "symfc") by reflexivity.
  unfold calculator_params. rewrite (L _ B1), (L _ B2) by (assumption || discriminate). cbn [rev app snd].
  assert (teqb (str "alm") (str "alm") = true) as -> by reflexivity. assert (teqb (str "symfc") (str "alm") = false) as -> by reflexivity. assert (teqb (str "symfc") (str "symfc") = true) as -> by reflexivity.
  assert (C' : bar_free (str "-1 " ++ c)) by (intros G; apply in_app_or in G; destruct G as [G|G]; [vm_compute in G; intuition discriminate|exact (C G)]).
  split; [|split; [|split; discriminate]]; intros o G; injection G as <-.
  - destruct (C106_cutoff_alone _ C') as (E2 & E3 & _). split; [exact E2|exact E3].
  - destruct (C106_cutoff_alone _ C) as (E2 & E3 & _). split; [exact E2|exact E3].
Qed.
Print Assumptions C92_ignored.
Print Assumptions C100_positions.
Print Assumptions C100_scalar.
Print Assumptions C103_hermitian.
Print Assumptions C103_products.
Print Assumptions C104_cutoff.
Print Assumptions C105_fc3_made.
Print Assumptions C105_lbte_phonon_refuted.
Print Assumptions C106_dictionary.
Print Assumptions C106_alm.

(** ** Concrete cases *)
Example C92_ex_ignored : kap_ignored (v3 2 1 1) [] id 2 (fun g b => inject_Z (g + b)) (3 # 2) false = 3 /\ kap_points (v3 2 1 1) [] id false = [0; 1].
Proof. split; vm_compute; reflexivity. Qed.
Example C100_ex_positions :
  let lat := fun l k => if l =? k then 2%Q else if (l =? 0) && (k =? 1) then 1%Q else 0%Q in
  map (fun k => Qred (get_R (fun v l => inject_Z (v + l)) (fun N nu => (2, 1)) lat 0 0 k)) [0; 1; 2] = [3%Q; 13 # 2; 7%Q] /\
  (gru_scalar (fun k l => if k =? l then inject_Z (k + 1) else 5%Q) == 2)%Q.
Proof. cbv zeta. split; vm_compute; reflexivity. Qed.
Definition t_v (i k l : Z) : cplx := if k =? l then C (inject_Z (i + 1)) 0 else if k <? l then C 1 2 else C 1 (-2).
Example C103_ex_products : herm_mat 2 t_v /\ gvm_by_gvm [t_v; t_v] 2 0 0 0 1 =c= C 5 0 /\ gvm_sym [id3] (fun i k l => if k <? l then C 2 4 else c0) 0 1 0 =c= C 1 (-2).
Proof.
  split; [|split; split; vm_compute; reflexivity]. intros i k l Hi Hk Hl. unfold t_v. assert (K : k = 0 \/ k = 1) by lia. assert (L : l = 0 \/ l = 1) by lia.
  destruct K as [-> | ->], L as [-> | ->]; cbn; split; cbn; ring.
Qed.
(** the dataset of phono3py_yaml has cutoff 3: asked for 4 and for 2 *)
Example C104_ex_cutoff :
  let y := Some (Yaml None (Some (DSet (d_set wforces) (Some 3%Q))) None false false) in let cut := fun c => match parse_forces t_units none y 2 (Some c) None true None with Ok r => d_cut r | Err _ => None end in
  cut 4%Q = Some 3%Q /\ cut 2%Q = Some 2%Q.
Proof. cbv zeta. split; vm_compute; reflexivity. Qed.
(** files of a run with --br; then --br with --write-phonon and --isotope, and --lbte with --write-phonon, both reading fc2 and fc3 *)
Example C105_ex_phonon :
  let fl := files_of (t_create empty (make None) (Some y2) None new_object) in
  fc3_of (t_create fl (Sets false true true false false false true false true true None None) (Some y2) None new_object) = Some 3 /\
  let r := t_create fl (Sets false false false true false false true false true true None None) (Some y2) None new_object in failure r = None /\ fc3_of r = None.
Proof. cbv zeta. split; [|split]; vm_compute; reflexivity. Qed.
Example C106_ex_alm : bar_free (str "symfc") /\ snd (calculator_params (fun _ => true) (Some (str "symfc|alm")) None (Some (str "4.0"))) = Some (str "|cutoff=-1 4.0") /\
  snd (calculator_params (fun _ => true) (Some (str "alm|symfc")) None (Some (str "4.0"))) = Some (str "|cutoff=4.0").
Proof. split; [intros G; vm_compute in G; intuition discriminate|]. split; vm_compute; reflexivity. Qed.
