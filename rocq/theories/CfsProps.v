From Coq Require Import ZArith QArith List Bool Lia String.
From Verif Require Import Base BaseProofs DsModel DsProps ForcesModel ForcesProps CfsModel.
Import ListNotations.
Open Scope Z_scope.
Local Notation length := List.length.

(** ** Lists of slots *)
Lemma ninc_app : forall a b, ninc (a ++ b) = (ninc a + ninc b)%nat.
Proof. intros a b. unfold ninc. now rewrite filter_app, app_length. Qed.
Lemma ninc_singles : forall fs, ninc (map (fun f => Slot [(f_num f, f_disp f)] true (f_forces f)) fs) = length fs.
Proof. unfold ninc. induction fs as [|f l IH]; [reflexivity|]. cbn [map filter sl_incl length]. now rewrite IH. Qed.
Lemma zcount_len : forall X (p : X -> bool) l, zcount p l = Z.of_nat (length (filter p l)).
Proof. intros X p l. reflexivity. Qed.
Lemma ninc_slots : forall fs, ninc (slots fs) = (length fs + length (filter included (flat_map f_second fs)))%nat.
Proof.
  intros fs. unfold slots. rewrite ninc_app, ninc_singles. f_equal. induction fs as [|f fs IH]; [reflexivity|]. cbn [flat_map]. rewrite ninc_app, ninc_seconds, filter_app, app_length, IH. reflexivity.
Qed.

(** The configurations that were written to files: create_supercells.py 113-118 leaves out the entries of excluded pairs. *)
Definition cells_written (cells : list (option conf)) : list conf := flat_map (fun c => match c with Some x => [x] | None => [] end) cells.
Definition cell_of (ref : conf) (sl : slot) (cell : option conf) : Prop :=
  if sl_incl sl then exists c, cell = Some c /\ displaced ref (sl_moves sl) c else cell = None.
Lemma written_number : forall ref sls cells, Forall2 (cell_of ref) sls cells -> length (cells_written cells) = ninc sls.
Proof.
  intros ref sls cells F. unfold ninc, cells_written. induction F as [|s c sls cells H F IH]; [reflexivity|]. cbn [flat_map filter]. rewrite app_length, IH. unfold cell_of in H. destruct (sl_incl s); [destruct H as [x [-> _]]|rewrite H]; reflexivity.
Qed.
Lemma written_nth : forall ref sls cells, Forall2 (cell_of ref) sls cells -> forall i sl, nth_error sls i = Some sl -> sl_incl sl = true ->
  exists c, displaced ref (sl_moves sl) c /\ nth_error (cells_written cells) (ninc (firstn i sls)) = Some c.
Proof.
  intros ref sls cells F. unfold ninc, cells_written. induction F as [|s c sls cells H F IH]; intros i sl Hi Hs; [destruct i; discriminate Hi|]. unfold cell_of in H. destruct i as [|i]; cbn [nth_error] in Hi.
  - injection Hi as ->. rewrite Hs in H. destruct H as [x [-> D]]. exists x. split; [exact D|reflexivity].
  - destruct (IH i sl Hi Hs) as [x [D E]]. exists x. split; [exact D|]. cbn [firstn filter flat_map]. destruct (sl_incl s); [destruct H as [y [-> _]]|rewrite H]; exact E.
Qed.

(** ** The loops that put the forces into the dataset *)
Definition shapes (fs : list fir) := map (fun f => (f_num f, f_disp f, f_id f, map (fun s => (s_num s, s_disp s, s_dist s, s_incl s, s_id s)) (f_second f))) fs.
(** slot after: the next force set if the slot is included, else as before *)
Fixpoint put (vals : list conf) (k : nat) (sl : list slot) : option (list slot) :=
  match sl with
  | [] => Some []
  | s :: t => if sl_incl s then bind (nth_error vals k) (fun f => option_map (cons (Slot (sl_moves s) true (Some f))) (put vals (S k) t)) else option_map (cons s) (put vals k t)
  end.
Lemma put_app : forall vals a b k, put vals k (a ++ b) = bind (put vals k a) (fun x => option_map (app x) (put vals (k + ninc a) b)).
Proof.
  intros vals. induction a as [|s a IH]; intros b k.
  - cbn. rewrite Nat.add_0_r. destruct (put vals k b); reflexivity.
  - cbn [app put]. unfold ninc in *. cbn [filter]. destruct (sl_incl s).
    + destruct (nth_error vals k) as [f|]; [|reflexivity]. cbn [bind]. rewrite IH. cbn [length]. rewrite Nat.add_succ_r. destruct (put vals (S k) a) as [x|]; [|reflexivity].
      cbn [bind option_map Nat.add]. destruct (put vals _ b); reflexivity.
    + rewrite IH. destruct (put vals k a) as [x|]; [|reflexivity]. cbn [bind option_map]. destruct (put vals _ b); reflexivity.
Qed.
Lemma put_spec : forall vals sl k, (k + ninc sl <= length vals)%nat -> exists r, put vals k sl = Some r /\ length r = length sl /\
  forall i s, nth_error sl i = Some s -> nth_error r i = Some (Slot (sl_moves s) (sl_incl s) (if sl_incl s then nth_error vals (k + ninc (firstn i sl)) else sl_forces s)).
Proof.
  intros vals. unfold ninc. induction sl as [|s sl IH]; intros k H; [exists []; split; [reflexivity|]; split; [reflexivity|]; intros [|i] s E; discriminate E|]. cbn [put filter] in *. destruct (sl_incl s) eqn:Es.
  - cbn [length] in H. destruct (nth_error vals k) as [f|] eqn:Ef; [|apply nth_error_None in Ef; lia]. destruct (IH (S k) ltac:(lia)) as [r [E [L G]]]. cbn [bind]. rewrite E. eexists. split; [reflexivity|]. split; [cbn; now rewrite L|].
    intros [|i] t Hi; cbn [nth_error] in *.
    + injection Hi as <-. rewrite Es. cbn. rewrite Nat.add_0_r, Ef. reflexivity.
    + rewrite (G i t Hi). cbn [firstn filter]. rewrite Es. cbn [length]. rewrite Nat.add_succ_r. reflexivity.
  - destruct (IH k H) as [r [E [L G]]]. rewrite E. eexists. split; [reflexivity|]. split; [cbn; now rewrite L|].
    intros [|i] t Hi; cbn [nth_error] in *.
    + injection Hi as <-. rewrite Es. destruct s; cbn in *; subst; reflexivity.
    + rewrite (G i t Hi). cbn [firstn filter]. rewrite Es. reflexivity.
Qed.
Definition energies_ok (c : calc) : Prop := match c_energies c with None => True | Some l => (length (c_forces c) <= length l)%nat end.
Lemma energy_some : forall c i f o, energies_ok c -> nth_error (c_forces c) i = Some f -> exists e, energy_at c i o = Done e.
Proof.
  intros c i f o H Hi. unfold energies_ok in H. unfold energy_at. destruct (c_energies c) as [l|]; [|eauto]. assert ((i < length (c_forces c))%nat) by (apply nth_error_Some; rewrite Hi; discriminate).
  destruct (nth_error l i) as [e|] eqn:E; [cbn; eauto|apply nth_error_None in E; lia].
Qed.
Lemma put_secs_spec : forall c n1 d1 ss k, energies_ok c ->
  match put (c_forces c) k (map (fun s => Slot [(n1, d1); (s_num s, s_disp s)] (included s) (s_forces s)) ss) with
  | Some r => exists ss', put_secs c k ss = Done (ss', (k + length (filter included ss))%nat) /\ map (fun s => Slot [(n1, d1); (s_num s, s_disp s)] (included s) (s_forces s)) ss' = r /\
      map (fun s => (s_num s, s_disp s, s_dist s, s_incl s, s_id s)) ss' = map (fun s => (s_num s, s_disp s, s_dist s, s_incl s, s_id s)) ss
  | None => exists e, put_secs c k ss = Raises e
  end.
Proof.
  intros c n1 d1 ss k He. revert k. induction ss as [|s ss IH]; intros k; [cbn; exists []; rewrite Nat.add_0_r; auto|]. cbn [map put put_secs sl_incl sl_moves filter]. destruct (included s) eqn:Ei.
  - destruct (nth_error (c_forces c) k) as [f|] eqn:Ef; [|cbn; eauto]. cbn [bind from_opt obind]. destruct (energy_some c k f (s_energy s) He Ef) as [e ->]. cbn [obind]. specialize (IH (S k)). destruct (put (c_forces c) (S k) _) as [r|]; cbn [option_map].
    + destruct IH as [ss' [E [A B]]]. rewrite E. cbn [obind fst snd]. eexists. split; [f_equal; f_equal; cbn [length]; lia|]. cbn [map s_num s_disp s_incl s_forces s_dist s_id]. rewrite A, B. unfold included at 1. cbn [s_incl]. fold (included s). rewrite Ei. auto.
    + destruct IH as [x ->]. cbn. eauto.
  - specialize (IH k). destruct (put (c_forces c) k _) as [r|]; cbn [option_map].
    + destruct IH as [ss' [E [A B]]]. rewrite E. cbn [obind fst snd]. eexists. split; [reflexivity|]. cbn [map]. rewrite A, B, Ei. auto.
    + destruct IH as [x ->]. cbn. eauto.
Qed.
Definition pairs_of (fs : list fir) : list slot := flat_map (fun f => map (fun s => Slot [(f_num f, f_disp f); (s_num s, s_disp s)] (included s) (s_forces s)) (f_second f)) fs.
Definition singles_of (fs : list fir) : list slot := map (fun f => Slot [(f_num f, f_disp f)] true (f_forces f)) fs.
Lemma put_firsts_spec : forall c fs i k, energies_ok c ->
  match put (c_forces c) i (singles_of fs), put (c_forces c) k (pairs_of fs) with
  | Some a, Some b => exists fs', put_firsts c i k fs = Done fs' /\ singles_of fs' = a /\ pairs_of fs' = b /\ shapes fs' = shapes fs
  | _, _ => exists e, put_firsts c i k fs = Raises e
  end.
Proof.
  intros c fs i k He. revert i k. unfold singles_of, pairs_of, shapes. induction fs as [|f fs IH]; intros i k; [cbn; exists []; auto|]. cbn [map flat_map put put_firsts sl_incl sl_moves].
  destruct (nth_error (c_forces c) i) as [x|] eqn:Ef; [|cbn; eauto]. cbn [bind from_opt obind]. destruct (energy_some c i x (f_energy f) He Ef) as [e ->]. cbn [obind].
  rewrite put_app, ninc_seconds. pose proof (put_secs_spec c (f_num f) (f_disp f) (f_second f) k He) as S. destruct (put (c_forces c) k (map _ (f_second f))) as [r|].
  - destruct S as [ss' [E [A B]]]. rewrite E. cbn [obind fst snd bind]. specialize (IH (S i) (k + length (filter included (f_second f)))%nat).
    destruct (put (c_forces c) (S i) _) as [a|]; cbn [option_map]; [|destruct IH as [z ->]; cbn; eauto]. destruct (put (c_forces c) (k + _) _) as [b|]; cbn [option_map]; [|destruct IH as [z ->]; cbn; eauto].
    destruct IH as [fs' [E' [P [Q R]]]]. rewrite E'. cbn [obind]. eexists. split; [reflexivity|]. cbn [map flat_map f_num f_disp f_forces f_second f_id]. rewrite P, Q, R, A, B. auto.
  - destruct S as [z ->]. cbn [bind obind]. destruct (option_map _ _); eauto.
Qed.
(** Every included slot gets the force set counted by the included slots before it; nothing else is touched
    but energies. *)
Lemma put_fc3_spec : forall c natom fs, energies_ok c -> (ninc (slots fs) <= length (c_forces c))%nat ->
  exists fs', put_fc3 c (Type1 natom fs) = Done (Type1 natom fs') /\ shapes fs' = shapes fs /\ length (slots fs') = length (slots fs) /\
  forall i s, nth_error (slots fs) i = Some s ->
    nth_error (slots fs') i = Some (Slot (sl_moves s) (sl_incl s) (if sl_incl s then nth_error (c_forces c) (ninc (firstn i (slots fs))) else sl_forces s)).
Proof.
  intros c natom fs He H. destruct (put_spec (c_forces c) (slots fs) 0 H) as [r [E [L G]]]. unfold slots in E. rewrite put_app in E. cbn [Nat.add] in E. rewrite ninc_singles in E.
  pose proof (put_firsts_spec c fs 0 (length fs) He) as P. unfold singles_of, pairs_of in P. destruct (put (c_forces c) 0 (map _ fs)) as [a|]; [|discriminate E]. cbn [bind] in E.
  destruct (put (c_forces c) (length fs) _) as [b|]; [|discriminate E]. cbn [option_map] in E. injection E as E. destruct P as [fs' [P1 [P2 [P3 P4]]]]. exists fs'. cbn [put_fc3]. rewrite P1. split; [reflexivity|]. split; [exact P4|].
  assert (S : slots fs' = r) by (unfold slots; rewrite P2, P3; exact E). rewrite S. split; [exact L|]. exact G.
Qed.
Lemma put_singles_spec : forall c fs i, energies_ok c -> (i + length fs <= length (c_forces c))%nat ->
  exists fs', put_singles c i fs = Done fs' /\ length fs' = length fs /\
  forall j f, nth_error fs j = Some f -> exists x e, nth_error (c_forces c) (i + j) = Some x /\ nth_error fs' j = Some (Fir (f_num f) (f_disp f) (f_id f) (Some x) e (f_second f)).
Proof.
  intros c fs i He. revert i. induction fs as [|f fs IH]; intros i H; [exists []; split; [reflexivity|]; split; [reflexivity|]; intros [|j] x E; discriminate E|]. cbn [put_singles length] in *.
  destruct (nth_error (c_forces c) i) as [x|] eqn:Ef; [|apply nth_error_None in Ef; lia]. cbn [from_opt obind]. destruct (energy_some c i x (f_energy f) He Ef) as [e ->]. cbn [obind]. destruct (IH (S i) ltac:(lia)) as [fs' [E [L G]]]. rewrite E. cbn [obind].
  eexists. split; [reflexivity|]. split; [cbn; now rewrite L|]. intros [|j] g Hj; cbn [nth_error] in *.
  - injection Hj as <-. exists x, e. rewrite Nat.add_0_r. auto.
  - destruct (G j g Hj) as [y [e' [A B]]]. exists y, e'. rewrite Nat.add_succ_r. auto.
Qed.

(** ** A calculator run. *)
Definition minus (a b : conf) : conf := map (fun p => (fst (fst (fst p)) - fst (fst (snd p)), snd (fst (fst p)) - snd (fst (snd p)), snd (fst p) - snd (snd p))%Q) (combine a b).
Lemma csub_minus : forall z f, length f = length z -> csub z f = Done (minus f z).
Proof. intros z f H. unfold csub. rewrite H, Nat.eqb_refl. f_equal. apply map_ext. intros [[[a b] c] [[d e] g]]. reflexivity. Qed.
Lemma oall_minus : forall z l, (forall f : conf, In f l -> length f = length z) -> oall (csub z) l = Done (map (fun f => minus f z) l).
Proof. intros z. induction l as [|f l IH]; intros H; [reflexivity|]. cbn [oall map]. rewrite csub_minus by (apply H; now left). cbn [obind]. rewrite IH by (intros g h; apply H; now right). reflexivity. Qed.

Section Env.
Context {C N : Type}.
Variables (present : string -> bool) (names_in : string -> list string).
Variable get_calc : option string -> Z -> list string -> calc.
Variable get_wien2k : list string -> C -> dataset -> list conf.
Variables (moved : C -> dataset -> list conf -> list string -> bool) (cell_moved : C -> conf -> bool).
Variable get_nac : option N.
Variable rv : vec -> vec.
Notation create := (@create_forces C N present names_in get_calc get_wien2k moved cell_moved get_nac rv).

(** F is the calculator: forces on the atoms of a configuration. The files named on the command line hold its
    results for the configurations cells, in this order; the file given with --cfz that for the perfect
    supercell. *)
Definition fc3_names (s : settings) : list string := match st_cf3_file s with Some f => names_in f | None => st_cf3 s end.
Definition calc_mode (s : settings) (y : yaml C N) : option string := match y_calc y with Some c => Some c | None => st_calc s end.
Record results (mode : option string) (natom : Z) (cell : C) (d : dataset) (ref : conf) (F : conf -> conf) (cells : list conf) (names : list string) (zero : option string) : Prop := Results {
  r_present : forall n, In n names -> present n = true;
  r_number : length names = length cells;
  r_forces : c_forces (get_calc mode natom names) = map F cells;
  r_energies : energies_ok (get_calc mode natom names);
  r_points : forall pts, c_points (get_calc mode natom names) = Some pts -> moved cell d pts names = false;
  r_zero : forall z, zero = Some z -> present z = true /\ c_forces (get_calc mode natom [z]) = [F ref] /\
             match c_points (get_calc mode natom [z]) with None => True | Some pts => exists p, nth_error pts 0 = Some p /\ cell_moved cell p = false end;
  r_atoms : forall c, In c (ref :: cells) -> length (F c) = length ref }.
Definition expected (zero : option string) (F : conf -> conf) (ref c : conf) : conf := match zero with None => F c | Some _ => minus (F c) (F ref) end.

Lemma take_off_ok : forall mode natom cell d ref F cells names zero, results mode natom cell d ref F cells names zero ->
  take_off present get_calc cell_moved mode natom cell zero (Some (map F cells)) = Done (Some (map (expected zero F ref) cells)).
Proof.
  intros mode natom cell d ref F cells names zero R. unfold take_off, expected. destruct zero as [z|]; [|reflexivity]. destruct (r_zero _ _ _ _ _ _ _ _ _ R z eq_refl) as [Z1 [Z2 Z3]].
  unfold present_all. cbn [forallb]. rewrite Z1. cbn [andb guard obind].
  assert (E : match c_points (get_calc mode natom [z]) with None => Done tt | Some pts => do p <- from_opt (nth_error pts 0) EIndex; guard (negb (cell_moved cell p)) ERuntime end = Done tt).
  { destruct (c_points (get_calc mode natom [z])) as [pts|]; [|reflexivity]. destruct Z3 as [p [-> Hp]]. cbn. now rewrite Hp. }
  rewrite E, Z2. cbn [nth_error from_opt obind]. rewrite oall_minus.
  - cbn [obind]. rewrite map_map. reflexivity.
  - intros f H. apply in_map_iff in H. destruct H as [c [<- H]]. rewrite !(r_atoms _ _ _ _ _ _ _ _ _ R); [reflexivity|now left|now right].
Qed.
Lemma present_all_ok : forall names, (forall n, In n names -> present n = true) -> present_all present names = Done tt.
Proof. intros names H. unfold present_all. assert (forallb present names = true) as -> by (apply forallb_forall; exact H). reflexivity. Qed.
Lemma points_ok : forall mode natom cell d ref F cells names zero, results mode natom cell d ref F cells names zero ->
  match c_points (get_calc mode natom names) with None => Done tt | Some pts => guard (negb (moved cell d pts names)) ERuntime end = Done tt.
Proof. intros mode natom cell d ref F cells names zero R. pose proof (r_points _ _ _ _ _ _ _ _ _ R) as P. destruct (c_points (get_calc mode natom names)) as [pts|]; [|reflexivity]. now rewrite (P pts eq_refl). Qed.
Lemma collect_fc3_ok : forall s natom fs cell mode ref F cells, mode <> Some "wien2k"%string ->
  (forall f, st_cf3_file s = Some f -> present f = true) ->
  results mode natom cell (Type1 natom fs) ref F cells (fc3_names s) (st_sub s) -> length cells = ninc (slots fs) ->
  exists c, collect_fc3 present names_in get_calc get_wien2k moved cell_moved s (Some (Type1 natom fs)) cell mode = Done c /\ c_forces c = map (expected (st_sub s) F ref) cells /\ energies_ok c.
Proof.
  intros s natom fs cell mode ref F cells Hw Hf R L. unfold collect_fc3. cbn [from_opt obind shape_fc3 is_type1 andb].
  assert (E : match st_cf3_file s with Some f => do _ <- present_all present [f]; Done (names_in f) | None => Done (st_cf3 s) end = Done (fc3_names s)).
  { unfold fc3_names. destruct (st_cf3_file s) as [f|]; [|reflexivity]. rewrite present_all_ok; [reflexivity|]. intros n [<-|[]]. now apply Hf. }
  rewrite E. cbn [obind]. rewrite (present_all_ok _ (r_present _ _ _ _ _ _ _ _ _ R)). cbn [obind].
  rewrite (r_number _ _ _ _ _ _ _ _ _ R), L, ninc_slots, zcount_len, Nat2Z.inj_add, Z.eqb_refl. cbn [negb].
  assert (M : match mode with Some "wien2k"%string => Calc (get_wien2k (fc3_names s) cell (Type1 natom fs)) None None | _ => get_calc mode natom (fc3_names s) end = get_calc mode natom (fc3_names s)).
  { destruct mode as [m|]; [|reflexivity]. destruct (string_dec m "wien2k") as [->|D]; [now elim Hw|].
    repeat (destruct m as [|[[|] [|] [|] [|] [|] [|] [|] [|]] m]; try reflexivity). now elim D. }
  rewrite M, (points_ok _ _ _ _ _ _ _ _ _ R). cbn [obind]. rewrite (r_forces _ _ _ _ _ _ _ _ _ R), (take_off_ok _ _ _ _ _ _ _ _ _ R). cbn [obind]. eexists. split; [reflexivity|]. split; [reflexivity|].
  unfold energies_ok. cbn [c_energies c_forces]. pose proof (r_energies _ _ _ _ _ _ _ _ _ R) as He. unfold energies_ok in He. destruct (c_energies _); [|exact I]. rewrite (r_forces _ _ _ _ _ _ _ _ _ R), map_length in He. rewrite map_length. exact He.
Qed.

(** ** C112: with the results of the displaced supercells given in the order in which they were made, the params
    file holds for every included displacement (pair) the forces of its own configuration, less those of the
    perfect supercell when asked for; displacements and the rest are unchanged. *)
Theorem C112_params : forall s y natom fs ref cells F,
  y_data y = Some (Type1 natom fs) -> fs <> [] -> atoms_ok (length ref) fs ->
  build_supercells ref (Type1 natom fs) = Some cells ->
  calc_mode s y <> Some "wien2k"%string -> (forall f, st_cf3_file s = Some f -> present f = true) ->
  results (calc_mode s y) natom (y_cell y) (Type1 natom fs) ref F (cells_written cells) (fc3_names s) (st_sub s) ->
  wants_fc3 s = true -> st_cf2 s = [] -> st_save s = true ->
  exists y' fs', create s y = ([WParams y'], None) /\ y_data y' = Some (Type1 natom fs') /\ shapes fs' = shapes fs /\ y_pdata y' = y_pdata y /\
    length (slots fs') = length (slots fs) /\
    forall i sl, nth_error (slots fs) i = Some sl -> exists sl', nth_error (slots fs') i = Some sl' /\ sl_moves sl' = sl_moves sl /\ sl_incl sl' = sl_incl sl /\
      (sl_incl sl = true -> exists c, displaced ref (sl_moves sl) c /\ sl_forces sl' = Some (expected (st_sub s) F ref c)) /\
      (sl_incl sl = false -> sl_forces sl' = sl_forces sl).
Proof.
  intros s y natom fs ref cells F Hd Hne Ha Hb Hw Hf R W3 W2 Sv.
  destruct (C37_supercells_in_order ref natom fs Ha) as [cells' [Hb' F2]]. rewrite Hb in Hb'. injection Hb' as <-. fold (cell_of ref) in F2. pose proof (written_number _ _ _ F2) as L.
  destruct (collect_fc3_ok s natom fs (y_cell y) (calc_mode s y) ref F (cells_written cells) Hw Hf R L) as [c [Ec [Fc He]]].
  unfold create_forces, collected. fold (calc_mode s y). rewrite W3, W2, Hd, Ec. cbn [obind nonempty].
  assert (Ne : nonempty (c_forces c) = true).
  { rewrite Fc. destruct (cells_written cells) as [|c0 l] eqn:El; [|reflexivity]. exfalso. cbn in L. rewrite ninc_slots in L. destruct fs; [now apply Hne|discriminate L]. }
  rewrite Ne. cbn [guard obind]. rewrite Sv. unfold set_forces_and_nac. rewrite Hd, W2. cbn [from_opt obind].
  destruct (put_fc3_spec c natom fs He) as [fs' [E [Sh [Ls G]]]]; [rewrite Fc, map_length, L; lia|]. rewrite E. cbn [obind]. eexists. exists fs'. split; [reflexivity|]. cbn [y_data y_pdata]. split; [reflexivity|]. split; [exact Sh|]. split; [reflexivity|]. split; [exact Ls|].
  intros i sl Hi. eexists. split; [apply (G i sl Hi)|]. cbn [sl_moves sl_incl sl_forces]. split; [reflexivity|]. split; [reflexivity|]. split; intros Hs; rewrite Hs; [|reflexivity].
  destruct (written_nth _ _ _ F2 i sl Hi Hs) as [x [D Ex]]. exists x. split; [exact D|]. rewrite Fc, nth_error_map, Ex. reflexivity.
Qed.
(** The same results through FORCES_FC3, read again with the same displacements: each included displacement
    (pair) has the forces of its configuration as printed, excluded pairs have zeros. *)
Theorem C112_forces_fc3 : forall s y natom fs ref cells F,
  y_data y = Some (Type1 natom fs) -> fs <> [] -> atoms_ok (length ref) fs -> 0 < natom -> length ref = Z.to_nat natom ->
  build_supercells ref (Type1 natom fs) = Some cells ->
  calc_mode s y <> Some "wien2k"%string -> (forall f, st_cf3_file s = Some f -> present f = true) ->
  results (calc_mode s y) natom (y_cell y) (Type1 natom fs) ref F (cells_written cells) (fc3_names s) (st_sub s) ->
  wants_fc3 s = true -> st_cf2 s = [] -> st_save s = false ->
  exists lines fs', create s y = ([WLines FC3 lines], None) /\ parse_FORCES_FC3 None lines natom fs = Some fs' /\ map no_forces_f fs' = map no_forces_f fs /\
    forall i sl, nth_error (slots fs') i = Some sl ->
      if sl_incl sl then exists c, displaced ref (sl_moves sl) c /\ sl_forces sl = Some (map rv (expected (st_sub s) F ref c)) else sl_forces sl = Some (map rv (zeros (Z.to_nat natom))).
Proof.
  intros s y natom fs ref cells F Hd Hne Ha Hn Hr Hb Hw Hf R W3 W2 Sv.
  destruct (C37_supercells_in_order ref natom fs Ha) as [cells' [Hb' F2]]. rewrite Hb in Hb'. injection Hb' as <-. fold (cell_of ref) in F2. pose proof (written_number _ _ _ F2) as L.
  destruct (collect_fc3_ok s natom fs (y_cell y) (calc_mode s y) ref F (cells_written cells) Hw Hf R L) as [c [Ec [Fc He]]].
  unfold create_forces, collected. fold (calc_mode s y). rewrite W3, W2, Hd, Ec. cbn [obind nonempty].
  assert (Ne : nonempty (c_forces c) = true).
  { rewrite Fc. destruct (cells_written cells) as [|c0 l] eqn:El; [|reflexivity]. exfalso. cbn in L. rewrite ninc_slots in L. destruct fs; [now apply Hne|discriminate L]. }
  rewrite Ne. cbn [guard obind]. rewrite Sv. cbn [write_opt write_set].
  destruct (C40_fc3_round_trip rv natom fs fs (Some (c_forces c)) Hn) as [lines [fs' [E1 [E2 [E3 E4]]]]]; try discriminate.
  - intros v f E H. injection E as <-. rewrite Fc in H. apply in_map_iff in H. destruct H as [x [<- H]]. unfold expected. pose proof (r_atoms _ _ _ _ _ _ _ _ _ R) as A. rewrite <- Hr. destruct (st_sub s); [|apply A; now right]. unfold minus. rewrite map_length, combine_length, !A; [lia|now left|now right].
  - intros v E. injection E as <-. rewrite Fc, map_length, L. lia.
  - reflexivity.
  - rewrite E1. exists lines, fs'. split; [destruct (y_pdata y); reflexivity|]. split; [exact E2|]. split; [exact E3|]. intros i sl Hi. destruct (E4 i sl Hi) as [f [[sl0 [T1 T2]] Hf']].
    pose proof (slots_moves fs' fs E3) as SM. assert (nth_error (map (fun s => (sl_moves s, sl_incl s)) (slots fs')) i = nth_error (map (fun s => (sl_moves s, sl_incl s)) (slots fs)) i) as H by now rewrite SM.
    rewrite !nth_error_map, Hi, T1 in H. cbn [option_map] in H. injection H as M1 M2. rewrite M1, M2. destruct (sl_incl sl0) eqn:Es.
    + destruct (written_nth _ _ _ F2 i sl0 T1 Es) as [x [D Ex]]. exists x. split; [exact D|]. rewrite Hf'. rewrite Fc, nth_error_map, Ex in T2. injection T2 as <-. reflexivity.
    + rewrite Hf', T2. reflexivity.
Qed.
(** Nothing is written unless all requested collections have succeeded with at least one force set. *)
Theorem C112_all_or_nothing : forall s y, fst (create s y) <> [] ->
  exists c3 c2, (wants_fc3 s = true -> collect_fc3 present names_in get_calc get_wien2k moved cell_moved s (y_data y) (y_cell y) (calc_mode s y) = Done c3 /\ c_forces c3 <> []) /\
    (st_cf2 s <> [] -> collect_fc2 present get_calc moved cell_moved s (y_pdata y) (y_pcell y) (calc_mode s y) = Done c2 /\ c_forces c2 <> []) /\
    (forall y', In (WParams y') (fst (create s y)) -> st_save s = true /\ wants_fc3 s = true /\ fst (create s y) = [WParams y'] /\ snd (create s y) = None).
Proof.
  intros s y. unfold create_forces. destruct (collected present names_in get_calc get_wien2k moved cell_moved s y) as [[c3 c2]|e] eqn:Ec; [|intros H; now elim H]. intros _.
  unfold collected in Ec. fold (calc_mode s y) in Ec.
  assert (G : forall (b : bool) (o : out calc) (k : option calc -> out (option calc * option calc)) r, (do c <- (if b then do c <- o; do _ <- guard (nonempty (c_forces c)) EExit; Done (Some c) else Done None); k c) = Done r ->
    (b = true /\ exists c, o = Done c /\ c_forces c <> [] /\ k (Some c) = Done r) \/ (b = false /\ k None = Done r)).
  { intros b o k r H. destruct b; [left; split; [reflexivity|]|right; auto]. destruct o as [c|e]; [|discriminate H]. cbn [obind] in H. destruct (c_forces c) eqn:Ef; [discriminate H|]. exists c. cbn in H. rewrite Ef. split; [reflexivity|]. split; [discriminate|exact H]. }
  assert (P3 : exists d3, (wants_fc3 s = true -> collect_fc3 present names_in get_calc get_wien2k moved cell_moved s (y_data y) (y_cell y) (calc_mode s y) = Done d3 /\ c_forces d3 <> []) /\ (c3 = if wants_fc3 s then Some d3 else None) /\
    exists d2, (nonempty (st_cf2 s) = true -> collect_fc2 present get_calc moved cell_moved s (y_pdata y) (y_pcell y) (calc_mode s y) = Done d2 /\ c_forces d2 <> [])).
  { destruct (G _ _ _ _ Ec) as [[B [c [E1 [E2 E3]]]]|[B E3]]; rewrite B.
    - exists c. split; [auto|]. destruct (G _ _ _ _ E3) as [[B2 [d [F1 [F2 F3]]]]|[B2 F3]]; injection F3 as <- _; (split; [reflexivity|]); [exists d; auto|exists c; intros X; rewrite X in B2; discriminate B2].
    - exists (Calc [] None None). split; [intros X; discriminate X|]. destruct (G _ _ _ _ E3) as [[B2 [d [F1 [F2 F3]]]]|[B2 F3]]; injection F3 as <- _; (split; [reflexivity|]); [exists d; auto|exists (Calc [] None None); intros X; rewrite X in B2; discriminate B2]. }
  destruct P3 as [d3 [Q3 [E3 [d2 Q2]]]]. exists d3, d2. split; [exact Q3|]. split; [intros H; apply Q2; destruct (st_cf2 s); [now elim H|reflexivity]|].
  intros y' Hy. destruct (st_save s).
  - split; [reflexivity|]. destruct c3 as [c|]; [|contradiction Hy]. destruct (wants_fc3 s); [|discriminate E3]. split; [reflexivity|]. destruct (set_forces_and_nac get_nac y s c c2) as [y2|e]; [|contradiction Hy]. cbn [fst In] in Hy. destruct Hy as [Hy|[]]. injection Hy as ->. split; reflexivity.
  - exfalso. assert (NW : forall w d c, ~ In (WParams y') (fst (@write_opt C N rv w d c))).
    { intros w d c H. destruct d as [d|]; [|contradiction H]. destruct c as [c|]; [|contradiction H]. cbn [write_opt] in H. unfold write_set in H. destruct d as [n fs|x o e].
      - destruct (match w with FC3 => _ | FC2 => _ end); cbn in H; destruct H as [H|[]]; discriminate H.
      - destruct o; cbn in H; destruct H as [H|[]]; discriminate H. }
    destruct (write_opt rv FC3 (y_data y) c3) as [l [e|]] eqn:E1; [apply (NW FC3 (y_data y) c3); rewrite E1; exact Hy|].
    destruct (write_opt rv FC2 (y_pdata y) c2) as [l2 e2] eqn:E2. cbn [fst] in Hy. apply in_app_or in Hy. destruct Hy as [Hy|Hy]; [apply (NW FC3 (y_data y) c3); rewrite E1; exact Hy|apply (NW FC2 (y_pdata y) c2); rewrite E2; exact Hy].
Qed.
(** A missing file or, without --cfz, a number of files other than that of the displacements ends the
    program and nothing is written. *)
Theorem C112_refuses : forall s y natom fs, y_data y = Some (Type1 natom fs) -> wants_fc3 s = true -> (forall f, st_cf3_file s = Some f -> present f = true) ->
  ((exists n, In n (fc3_names s) /\ present n = false) \/ (length (fc3_names s) <> ninc (slots fs) /\ st_sub s = None)) -> create s y = ([], Some EExit).
Proof.
  intros s y natom fs Hd W3 Hf H.
  assert (E : collected present names_in get_calc get_wien2k moved cell_moved s y = Raises EExit).
  { unfold collected. rewrite W3, Hd. unfold collect_fc3. cbn [from_opt obind shape_fc3 is_type1 andb].
    assert (E : match st_cf3_file s with Some f => do _ <- present_all present [f]; Done (names_in f) | None => Done (st_cf3 s) end = Done (fc3_names s)).
    { unfold fc3_names. destruct (st_cf3_file s) as [f|]; [|reflexivity]. rewrite present_all_ok; [reflexivity|]. intros n [<-|[]]. now apply Hf. }
    rewrite E. cbn [obind]. unfold present_all at 1. destruct (forallb present (fc3_names s)) eqn:Ep; [|reflexivity]. cbn [guard obind].
    destruct H as [[n [H1 H2]]|[H1 H2]]; [rewrite forallb_forall in Ep; rewrite (Ep n H1) in H2; discriminate H2|].
    rewrite zcount_len, (proj2 (Z.eqb_neq _ _)) by (rewrite ninc_slots in H1; lia). cbn [negb]. rewrite H2. reflexivity. }
  unfold create_forces. rewrite E. reflexivity.
Qed.
(** fc2: the calculator named on the command line, the files in the order of the displacements. *)
Theorem C112_fc2 : forall s y natom fs ref cells F,
  y_pdata y = Some (Type1 natom fs) -> fs <> [] -> atoms_ok (length ref) fs -> 0 < natom -> length ref = Z.to_nat natom ->
  build_singles ref (Type1 natom fs) = Some cells ->
  let zero := match st_sub2 s with Some f => Some f | None => st_sub s end in
  results (st_calc s) natom (y_pcell y) (Type1 natom fs) ref F cells (st_cf2 s) zero ->
  wants_fc3 s = false -> st_cf2 s <> [] -> st_save s = false ->
  exists lines, create s y = ([WLines FC2 lines], None) /\ map no_forces_f (parse_FORCES_FC2 None lines natom fs) = map no_forces_f fs /\
    forall i f f', nth_error fs i = Some f -> nth_error (parse_FORCES_FC2 None lines natom fs) i = Some f' ->
      exists c, displaced ref [(f_num f, f_disp f)] c /\ f_forces f' = Some (map rv (expected zero F ref c)).
Proof.
  intros s y natom fs ref cells F Hd Hne Ha Hn Hr Hb zero R W3 W2 Sv.
  destruct (sequence_map _ _ (fun f => add_at ref (f_num f) (f_disp f)) (fun f c => displaced ref [(f_num f, f_disp f)] c) fs) as [a [Ea Fa]].
  { intros f Hf. apply (add_at_spec ref [] ref (f_num f) (f_disp f) (displaced_ref ref)). apply Ha, Hf. }
  cbn [build_singles] in Hb. rewrite Ea in Hb. injection Hb as ->. pose proof (F2_len _ _ _ _ _ Fa) as L.
  unfold create_forces, collected. rewrite W3, Hd. cbn [obind]. assert (nonempty (st_cf2 s) = true) as -> by (destruct (st_cf2 s); [now elim W2|reflexivity]).
  unfold collect_fc2. cbn [from_opt obind shape_fc2]. rewrite (present_all_ok _ (r_present _ _ _ _ _ _ _ _ _ R)). cbn [obind]. rewrite (points_ok _ _ _ _ _ _ _ _ _ R). cbn [obind].
  fold zero. rewrite (r_forces _ _ _ _ _ _ _ _ _ R), (take_off_ok _ _ _ _ _ _ _ _ _ R). cbn [obind c_forces].
  assert (nonempty (map (expected zero F ref) cells) = true) as -> by (destruct cells; [destruct fs; [now elim Hne|discriminate L]|reflexivity]). cbn [guard obind]. rewrite Sv.
  assert (write_opt rv FC3 (y_data y) None = ([], None)) as -> by (destruct (y_data y); reflexivity). cbn [write_opt write_set c_forces app].
  destruct (C40_fc2_round_trip rv natom fs fs (Some (map (expected zero F ref) cells)) Hn) as [lines [E1 [E2 E3]]]; try discriminate.
  - intros v f E H. injection E as <-. apply in_map_iff in H. destruct H as [x [<- H]]. unfold expected. pose proof (r_atoms _ _ _ _ _ _ _ _ _ R) as A. rewrite <- Hr. destruct zero; [|apply A; now right]. unfold minus. rewrite map_length, combine_length, !A; [lia|now left|now right].
  - intros v E. injection E as <-. rewrite map_length, L. lia.
  - reflexivity.
  - rewrite E1. exists lines. split; [reflexivity|]. split; [exact E2|]. intros i f f' H1 H2. destruct (E3 i f f' H1 H2) as [c [G1 G2]]. rewrite nth_error_map in G2. destruct (nth_error cells i) as [x|] eqn:Ex; [|discriminate G2]. injection G2 as <-.
    exists x. split; [|exact G1]. clear - Fa H1 Ex. revert i H1 Ex. induction Fa as [|g z l m H F IH]; intros [|i] H1 Ex; try discriminate; cbn [nth_error] in *; [injection H1 as ->; injection Ex as ->; exact H|eauto].
Qed.
End Env.
Print Assumptions C112_params.
Print Assumptions C112_forces_fc3.
Print Assumptions C112_all_or_nothing.
Print Assumptions C112_refuses.
Print Assumptions C112_fc2.

(** FORCE_SETS out of FORCES_FC3: the forces of the single displacements. *)
Theorem C112_force_sets_from_fc3 : forall rv natom fs forces lines M (same : M -> M -> bool) m pm pdata lines2, 0 < natom ->
  (forall f : conf, In f forces -> length f = Z.to_nat natom) -> write_FORCES_FC3 rv (Z.to_nat natom) fs (Some forces) = Some lines ->
  exists fs', force_sets_from same None (Some m) pm (natom, fs) pdata lines lines2 = Done (natom, fs') /\ map no_forces_f fs' = map no_forces_f fs /\
    map f_forces fs' = map (fun f => Some (map rv f)) (firstn (length fs) forces).
Proof.
  intros rv natom fs forces lines M same m pm pdata lines2 Hn Hl W. unfold force_sets_from. cbn [fst snd]. eexists. split; [reflexivity|].
  set (n := Z.to_nat natom) in *. unfold write_FORCES_FC3 in W. destruct (write_FORCES_FC2 rv (Some forces) 0 fs) as [a|] eqn:Ea; [|discriminate W]. cbn [bind] in W. destruct (write_pairs rv (Some forces) n (length fs) fs) as [b|]; [|discriminate W]. injection W as <-.
  assert (G : forall fs k a, write_FORCES_FC2 rv (Some forces) k fs = Some a -> (k + length fs <= length forces \/ fs = [])%nat /\ nums a = flat rv (firstn (length fs) (skipn k forces))).
  { clear - rv forces. induction fs as [|f fs IH]; intros k a E; [cbn [write_FORCES_FC2] in E; injection E as <-; split; [now right|reflexivity]|]. cbn [write_FORCES_FC2 force_of] in E. destruct (nth_error forces k) as [x|] eqn:Ex; [|discriminate E]. cbn [bind] in E.
    destruct (write_FORCES_FC2 rv (Some forces) (S k) fs) as [r|] eqn:Er; [|discriminate E]. cbn [bind] in E. injection E as <-. destruct (IH _ _ Er) as [H1 H2].
    assert (Lk : (k < length forces)%nat) by (apply nth_error_Some; rewrite Ex; discriminate). split; [left; cbn [length]; destruct H1 as [H1|H1]; [lia|subst fs; cbn; lia]|].
    cbn [nums length]. rewrite nums_app, nums_set, H2. assert (S : skipn k forces = x :: skipn (S k) forces). { clear - Ex. revert k Ex. induction forces as [|y l IH]; intros [|k] E; try discriminate E; cbn in *; [injection E as ->; reflexivity|apply IH, E]. }
    rewrite S. reflexivity. }
  destruct (G fs 0%nat a Ea) as [H1 H2]. cbn [Nat.add skipn] in H1, H2. assert (Lf : (length fs <= length forces)%nat) by (destruct H1 as [H1| ->]; [exact H1|cbn; lia]). clear H1.
  assert (Ln : forall x, In x (firstn (length fs) forces) -> length x = n). { intros x H. apply Hl. rewrite <- (firstn_skipn (length fs) forces). apply in_or_app. now left. }
  assert (Lna : length (nums a) = (length fs * n)%nat) by (rewrite H2, (flat_length rv n _ Ln), firstn_length, Nat.min_l by exact Lf; reflexivity).
  destruct (C40_parse_fc2 None (a ++ b) natom fs Hn) as [_ P]. fold n in P. rewrite nums_app, app_length in P. destruct P as [A B]; [lia|]. split; [exact B|]. rewrite A. clear A B.
  apply nth_ext with (d := None) (d' := None); [rewrite !map_length, seq_length, firstn_length; lia|]. intros i Hi. rewrite map_length, seq_length in Hi.
  assert (Hf : (i < length (firstn (length fs) forces))%nat) by (rewrite firstn_length; lia).
  destruct (nth_error (firstn (length fs) forces) i) as [x|] eqn:Ex; [|apply nth_error_None in Ex; lia].
  rewrite (nth_indep _ None (Some (in_units None (chunk n (nums a ++ nums b) 0)))) by (rewrite map_length, seq_length; exact Hi). rewrite (map_nth (fun i => Some (in_units None (chunk n (nums a ++ nums b) i)))), seq_nth by exact Hi.
  rewrite (nth_indep _ None (Some (map rv []))) by (rewrite map_length; exact Hf). rewrite (map_nth (fun f => Some (map rv f))), (nth_error_nth _ _ _ Ex). cbn [Nat.add in_units]. f_equal.
  rewrite <- (chunk_flat rv n _ i x Ln Ex), <- H2. unfold chunk. rewrite skipn_app, firstn_app. replace (n - length (skipn (i * n) (nums a)))%nat with 0%nat by (rewrite skipn_length, Lna; nia). cbn [firstn]. now rewrite app_nil_r.
Qed.
Print Assumptions C112_force_sets_from_fc3.

(** ** An example: two atoms, one single displacement with an included, an excluded and again an included pair. *)
Definition ex_ref : conf := [(0, 0, 0); (2, 2, 2)]%Q.
Definition ex_data : list fir := [Fir 0 (1, 0, 0)%Q (Some 1) None None
  [Sec 1 (0, 1, 0)%Q (Some 1%Q) (Some true) (Some 2) None None; Sec 1 (0, 0, 1)%Q (Some 1%Q) (Some false) (Some 3) None None; Sec 0 (0, 1, 0)%Q (Some 0%Q) (Some true) (Some 4) None None]].
Definition ex_F (c : conf) : conf := map (fun v => (1 - 2 * fst (fst v), - snd (fst v), 3 * snd v)%Q) c.
Definition ex_cells : list conf := [[(1, 0, 0); (2, 2, 2)]; [(1, 0, 0); (2, 3, 2)]; [(1, 1, 0); (2, 2, 2)]]%Q.
(** contents of the files: a, b, c hold the results for the three configurations, z for the perfect one *)
Definition ex_file (n : string) : conf :=
  if String.eqb n "a" then ex_F (nth 0 ex_cells []) else if String.eqb n "b" then ex_F (nth 1 ex_cells []) else if String.eqb n "c" then ex_F (nth 2 ex_cells []) else ex_F ex_ref.
Definition ex_calc (mode : option string) (natom : Z) (names : list string) : calc := Calc (map ex_file names) None None.
Definition ex_create (calc : option string -> Z -> list string -> calc) := @create_forces unit unit (fun _ => true) (fun _ => []) calc (fun _ _ _ => []) (fun _ _ _ _ => false) (fun _ _ => false) None (fun v => v).
Definition ex_yaml (d p : option dataset) : yaml unit unit := Yaml (Some "qe"%string) d tt p tt None.
Definition ex_set (names names2 : list string) (zero : option string) (save : bool) := Settings None names None names2 zero None save.
Example C112_ex : atoms_ok (length ex_ref) ex_data /\ build_supercells ex_ref (Type1 2 ex_data) = Some [Some (nth 0 ex_cells []); Some (nth 1 ex_cells []); None; Some (nth 2 ex_cells [])] /\
  (forall save, let s := ex_set ["a"; "b"; "c"]%string [] (Some "z"%string) save in
   @results unit (fun _ => true) ex_calc (fun _ _ _ _ => false) (fun _ _ => false) (Some "qe"%string) 2 tt (Type1 2 ex_data) ex_ref ex_F ex_cells (@fc3_names (fun _ => []) s) (st_sub s)) /\
  (exists y, ex_create ex_calc (ex_set ["a"; "b"; "c"]%string [] (Some "z"%string) true) (ex_yaml (Some (Type1 2 ex_data)) None) = ([WParams y], None) /\
    option_map (fun d => match d with Type1 _ fs => map (fun s => option_map (map (fun v => (Qred (fst (fst v)), Qred (snd (fst v)), Qred (snd v)))) (sl_forces s)) (slots fs) | _ => [] end) (y_data y) =
    Some [Some [(-2, 0, 0); (0, 0, 0)]; Some [(-2, 0, 0); (0, -1, 0)]; None; Some [(-2, -1, 0); (0, 0, 0)]]%Q) /\
  (exists l, ex_create ex_calc (ex_set ["a"; "b"; "c"]%string [] (Some "z"%string) false) (ex_yaml (Some (Type1 2 ex_data)) None) = ([WLines FC3 l], None) /\ length l = 19%nat) /\
  ex_create ex_calc (ex_set ["a"; "b"]%string [] None false) (ex_yaml (Some (Type1 2 ex_data)) None) = ([], Some EExit) /\
  (exists l, ex_create ex_calc (ex_set [] ["a"]%string (Some "z"%string) false) (ex_yaml None (Some (Type1 2 ex_data))) = ([WLines FC2 l], None) /\ length l = 4%nat).
Proof.
  split; [intros f [<-|[]]; cbn; split; [lia|]; intros s H; intuition (subst; cbn; lia)|]. split; [reflexivity|].
  split. { intros save s. constructor; try reflexivity; try discriminate; try exact I. - intros z E. split; [reflexivity|]. split; [|exact I]. injection E as <-. reflexivity. - cbn. intuition (subst; reflexivity). }
  split; [eexists; split; [reflexivity|vm_compute; reflexivity]|]. split; [eexists; split; reflexivity|]. split; [reflexivity|]. eexists. split; reflexivity.
Qed.

(** ** Refuted *)
(** The displacement file says the calculator is qe, nothing is said on the command line. The files for fc3 are
    read as qe output; those for fc2 are not: the program refuses them though they are right. *)
Theorem C112_fc2_calculator_refuted : exists (calc : option string -> Z -> list string -> calc) s y,
  y_calc y = Some "qe"%string /\ st_calc s = None /\
  (forall natom names, c_forces (calc (Some "qe"%string) natom names) = map ex_file names) /\ (forall natom names, c_forces (calc None natom names) = []) /\
  (exists l, ex_create calc (ex_set (st_cf2 s) [] None false) (ex_yaml (y_pdata y) None) = ([WLines FC3 l], None)) /\
  ex_create calc s y = ([], Some EExit).
Proof.
  exists (fun mode _ names => match mode with Some _ => Calc (map ex_file names) None None | None => Calc [] None None end), (ex_set [] ["a"]%string None false),
    (ex_yaml None (Some (Type1 2 [Fir 0 (1, 0, 0)%Q None None None []]))). split; [reflexivity|]. split; [reflexivity|]. split; [reflexivity|]. split; [reflexivity|]. split; [eexists; vm_compute; reflexivity|vm_compute; reflexivity].
Qed.
Print Assumptions C112_fc2_calculator_refuted.
(** With --cfz a wrong number of files ends in UnboundLocalError. *)
Theorem C112_wrong_number_with_zero_refuted : exists s y natom fs, y_data y = Some (Type1 natom fs) /\ wants_fc3 s = true /\ length (st_cf3 s) <> ninc (slots fs) /\ ex_create ex_calc s y = ([], Some EUnbound).
Proof. exists (ex_set ["a"; "b"]%string [] (Some "z"%string) false), (ex_yaml (Some (Type1 2 ex_data)) None), 2, ex_data. split; [reflexivity|]. split; [reflexivity|]. split; [discriminate|vm_compute; reflexivity]. Qed.
Print Assumptions C112_wrong_number_with_zero_refuted.
(** A calculator that gives no energies: the params file is made for a type-1 dataset, a type-2 dataset raises
    KeyError. *)
Theorem C112_no_energies_refuted : exists s d1 d2, (forall mode natom names, c_energies (ex_calc mode natom names) = None) /\
  (exists y, ex_create ex_calc s (ex_yaml (Some d1) None) = ([WParams y], None)) /\ d2 = Type2 (Some [ex_ref; ex_ref; ex_ref]) None None /\ ex_create ex_calc s (ex_yaml (Some d2) None) = ([], Some EKey).
Proof. exists (ex_set ["a"; "b"; "c"]%string [] None true), (Type1 2 ex_data). eexists. split; [reflexivity|]. split; [eexists; vm_compute; reflexivity|]. split; [reflexivity|vm_compute; reflexivity]. Qed.
Print Assumptions C112_no_energies_refuted.
(** The number of files for fc2 is not checked: too many are ignored; too few leave a complete FORCES_FC3 and an
    incomplete FORCES_FC2 behind. *)
Theorem C112_fc2_number_refuted : exists d p,
  (exists a b, ex_create ex_calc (ex_set ["a"; "b"; "c"]%string ["a"; "b"; "c"]%string None false) (ex_yaml (Some d) (Some p)) = ([WLines FC3 a; WLines FC2 b], None) /\ length (nums b) = 4%nat) /\
  (exists a, ex_create ex_calc (ex_set ["a"; "b"; "c"]%string ["a"]%string None false) (ex_yaml (Some d) (Some p)) = ([WLines FC3 a; WBroken FC2], Some EIndex)).
Proof. exists (Type1 2 ex_data), (Type1 2 [Fir 0 (1, 0, 0)%Q None None None []; Fir 1 (1, 0, 0)%Q None None None []]). split; [eexists; eexists; split; [vm_compute; reflexivity|reflexivity]|eexists; vm_compute; reflexivity]. Qed.
Print Assumptions C112_fc2_number_refuted.
(** Type-2 displacements that already have forces: the old forces are written, the new ones dropped. *)
Theorem C112_old_forces_refuted : exists s disps old, (forall f, In f old -> ~ In f (map ex_file (st_cf3 s))) /\
  ex_create ex_calc s (ex_yaml (Some (Type2 (Some disps) (Some old) None)) None) = ([WSets FC3 (Some disps) old], None).
Proof.
  exists (ex_set ["a"; "b"]%string [] None false), [ex_ref; ex_ref], [[(7, 7, 7); (7, 7, 7)]; [(8, 8, 8); (8, 8, 8)]]%Q. split; [|vm_compute; reflexivity].
  intros f H G. cbn in H, G. destruct H as [<-|[<-|[]]]; destruct G as [G|[G|[]]]; discriminate G.
Qed.
Print Assumptions C112_old_forces_refuted.
(** The two routes do not agree when there are excluded pairs: in the params file these have no forces, and
    the solvers' get_displacements_and_forces_fc3 (assertion) refuses the dataset; through FORCES_FC3 it is
    accepted. *)
Theorem C112_excluded_pairs_refuted : exists s1 s2 fs y l fs2 forces, st_cf3 s1 = st_cf3 s2 /\
  ex_create ex_calc s1 (ex_yaml (Some (Type1 2 fs)) None) = ([WParams y], None) /\ bind (y_data y) solver_forces = None /\
  ex_create ex_calc s2 (ex_yaml (Some (Type1 2 fs)) None) = ([WLines FC3 l], None) /\ parse_FORCES_FC3 None l 2 fs = Some fs2 /\ solver_forces (Type1 2 fs2) = Some (Some forces) /\ length forces = 3%nat.
Proof.
  exists (ex_set ["a"; "b"; "c"]%string [] None true), (ex_set ["a"; "b"; "c"]%string [] None false), ex_data. eexists. eexists. eexists. eexists. split; [reflexivity|].
  split; [vm_compute; reflexivity|]. split; [vm_compute; reflexivity|]. split; [vm_compute; reflexivity|]. split; [vm_compute; reflexivity|]. split; vm_compute; reflexivity.
Qed.
Print Assumptions C112_excluded_pairs_refuted.
