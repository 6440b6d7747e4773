(** C135: the real part of self energies is calculated with, and written under, the widths asked for. *)
From Coq Require Import ZArith QArith List Bool Lia.
From Verif Require Import Base EpsModel.
Import ListNotations.

(** * Specification *)
(** the numbers in a list of widths, in order *)
Fixpoint numbers (l : list (option Q)) : list Q := match l with [] => [] | Some q :: l' => q :: numbers l' | None :: l' => numbers l' end.
(** the widths a user expects: those given; otherwise the sigmas that are numbers; 0.05 if there is none *)
Definition expected (sigmas : list (option Q)) (epsilons : option (list Q)) : list Q :=
  match epsilons with
  | Some e => e
  | None => match numbers sigmas with [] => [5 # 100] | l => l end
  end.
(** sigmas in which None is at most the first element *)
Definition none_first (sigmas : list (option Q)) : Prop :=
  sigmas <> [] /\ forall i, (0 < i)%nat -> nth_error sigmas i <> Some None.
(** values of a file after a call *)
Definition content {R} (fs : files R) (n : name) (v : option R) : Prop := exists a b, fs = a ++ (n, v) :: b /\ forall w, ~ In (n, w) a.

(** * Sigmas *)
Theorem C135_setter : forall l q,
  set_sigmas NoSigma = [None] /\ set_sigmas (OneSigma q) = [Some q] /\
  set_sigmas (Sigmas (map (fun s => match s with None => Nothing | Some q => Number q end) l)) = l.
Proof. intros l q. split; [reflexivity|]. split; [reflexivity|]. cbn. induction l as [|[a|] l IH]; cbn; congruence. Qed.

(** any other value is dropped without a word, and when nothing is left the real part cannot be calculated *)
Theorem C135_setter_refuted : (forall l m, set_sigmas (Sigmas (l ++ Other :: m)) = set_sigmas (Sigmas (l ++ m))) /\
  forall R (rse : Q -> Q -> Z -> list Z -> R) gps temps at_bands txt sets,
    run_real_self_energy rse (set_sigmas (Sigmas [Other])) gps temps None at_bands txt sets = ([], None).
Proof. split; [|reflexivity]. intros l m. cbn. rewrite !flat_map_app. reflexivity. Qed.

(** * Widths *)
Lemma numbers_some : forall l, numbers (map Some l) = l.
Proof. induction l; cbn; congruence. Qed.
Lemma all_numbers : forall l, (forall i, nth_error l i <> Some None) -> l = map Some (numbers l).
Proof.
  induction l as [|[a|] l IH]; intros H; [reflexivity| |].
  - cbn. f_equal. apply IH. intros i. exact (H (S i)).
  - exfalso. exact (H 0%nat eq_refl).
Qed.
Lemma chosen : forall sigmas epsilons, none_first sigmas ->
  (choose_epsilons sigmas (option_map (map Some) epsilons) = Some None /\ expected sigmas epsilons = [5 # 100]) \/
  choose_epsilons sigmas (option_map (map Some) epsilons) = Some (Some (map Some (expected sigmas epsilons))).
Proof.
  intros sigmas [e|] [Hn H]; [right; reflexivity|]. cbn [option_map]. destruct sigmas as [|[a|] l]; [congruence| |].
  - right. cbn. rewrite <- all_numbers; [reflexivity|]. intros i. exact (H (S i) (Nat.lt_0_succ i)).
  - assert (E : l = map Some (numbers l)) by (apply all_numbers; intros i; exact (H (S i) (Nat.lt_0_succ i))).
    destruct l as [|x l]; [left; split; reflexivity|]. right. unfold expected. cbn [choose_epsilons numbers]. rewrite E at 1.
    destruct x as [x|]; [reflexivity|discriminate (f_equal (fun z => hd (Some 0%Q) z) E) || (exfalso; exact (H 1%nat (Nat.lt_0_succ 0) eq_refl))].
Qed.

(** the values returned are those of the expected widths, of the temperatures and of the points, in order *)
Theorem C135_values : forall R (rse : Q -> Q -> Z -> list Z -> R) sigmas gps temps epsilons at_bands sets, none_first sigmas ->
  exists values, snd (run_real_self_energy rse sigmas gps temps (option_map (map Some) epsilons) at_bands false sets) = Some values /\
  length values = length (expected sigmas epsilons) /\
  forall i k j e t gp, nth_error (expected sigmas epsilons) i = Some e -> nth_error temps k = Some t -> nth_error gps j = Some gp ->
  exists a b f, nth_error values i = Some a /\ nth_error a k = Some b /\ nth_error b j = Some f /\ forall s, f s = rse e t gp s.
Proof.
  intros R rse sigmas gps temps epsilons at_bands sets H. unfold run_real_self_energy.
  assert (K : exists es, choose_epsilons sigmas (option_map (map Some) epsilons) = Some es /\
    map set_epsilon (match es with None => [None] | Some e => e end) = expected sigmas epsilons).
  { destruct (chosen sigmas epsilons H) as [[-> ->]| ->]; eexists; split; try reflexivity. cbv iota. rewrite map_map. apply map_id. }
  destruct K as (es & -> & K). eexists. split; [reflexivity|]. unfold get_real_self_energy. set (l := match es with None => _ | Some e => e end) in *.
  rewrite <- K. split; [rewrite !map_length; reflexivity|]. intros i k j e t gp Hi Hk Hj.
  rewrite nth_error_map in Hi. destruct (nth_error l i) as [o|] eqn:E; [|discriminate]. injection Hi as <-.
  do 3 eexists. split; [rewrite nth_error_map, E; reflexivity|]. split; [rewrite nth_error_map, Hk; reflexivity|].
  split; [rewrite nth_error_map, Hj; reflexivity|]. reflexivity.
Qed.

(** with None after the first element the width 0.05 is used beside those that are asked for *)
Theorem C135_widths_refuted : forall R (rse : Q -> Q -> Z -> list Z -> R) q gps temps at_bands sets,
  let sigmas := set_sigmas (Sigmas [Number q; Nothing]) in
  exists a b, snd (run_real_self_energy rse sigmas gps temps None at_bands false sets) = Some [a; b] /\
  b = map (fun t => map (fun gp => rse (5 # 100) t gp) gps) temps /\ length (expected sigmas None) = 1%nat.
Proof. intros. do 2 eexists. split; [reflexivity|]. split; reflexivity. Qed.

(** * Files *)
Section Loops.
Variable R : Type.
Lemma loop_done : forall (A : Type) (body : A -> files R -> files R * bool) (out : A -> files R) l fs,
  (forall a fs, In a l -> body a fs = (out a ++ fs, true)) -> loop body l fs = (flat_map out (rev l) ++ fs, true).
Proof.
  intros A body out. induction l as [|a l IH]; intros fs H; [reflexivity|]. cbn [loop]. rewrite (H a fs (or_introl eq_refl)).
  rewrite IH by (intros; apply H; right; assumption). cbn [rev]. rewrite flat_map_app. cbn [flat_map]. rewrite app_nil_r, <- app_assoc. reflexivity.
Qed.
End Loops.
Lemma first_content : forall R (fs : files R) n v, (forall m w, In (m, w) fs -> m = n -> w = v) -> In (n, v) fs ->
  (forall m k : name, {m = k} + {m <> k}) -> content fs n v.
Proof.
  intros R fs n v H I dec. induction fs as [|[m w] fs IH]; [destruct I|]. destruct (dec m n) as [->|Hm].
  - rewrite (H n w (or_introl eq_refl) eq_refl). exists [], fs. split; [reflexivity|]. intros w' [].
  - destruct I as [I|I]; [congruence|]. destruct (IH (fun a b c => H a b (or_intror c)) I) as (a & b & -> & N).
    exists ((m, w) :: a), b. split; [reflexivity|]. intros w' [X|X]; [congruence|exact (N w' X)].
Qed.
Lemma name_dec : forall m n : name, {m = n} + {m <> n}.
Proof. repeat decide equality. Qed.
Lemma combine_map_in : forall (A B : Type) (f : A -> B) l p, In p (combine l (map f l)) <-> In (fst p) l /\ snd p = f (fst p).
Proof.
  intros A B f l [a b]. cbn [fst snd]. induction l as [|x l IH]; cbn [map combine In]; [tauto|]. rewrite IH. split.
  - intros [X|[X Y]]; [injection X as <- <-; auto|auto].
  - intros [[->|X] ->]; auto.
Qed.

Lemma written : forall R (rse : Q -> Q -> Z -> list Z -> R) es gps temps sets,
  exists fs, write_real_self_energy (map (fun e => map (fun t => map (at_point R rse e t) gps) temps) es) gps sets true temps (Some (map Some es)) [] = (fs, true) /\
  forall n v, In (n, v) fs <-> In (n_epsilon n) es /\ In (n_temperature n) temps /\ In (n_gp n) gps /\ In (n_bands n) sets /\
    v = Some (rse (n_epsilon n) (n_temperature n) (n_gp n) (n_bands n)).
Proof.
  intros R rse es gps temps sets. unfold write_real_self_energy.
  set (o4 := fun (e t : Q) (gp : Z) (r : list Z -> R) (b : list Z) => [(Name gp e t b, Some (r b))]).
  set (o3 := fun (e t : Q) (p : Z * (list Z -> R)) => flat_map (o4 e t (fst p) (snd p)) (rev sets)).
  set (o2 := fun (e : Q) (p : Q * list (list Z -> R)) => flat_map (o3 e (fst p)) (rev (combine gps (snd p)))).
  set (o1 := fun (p : option Q * list (list (list Z -> R))) => flat_map (o2 (set_epsilon (fst p))) (rev (combine temps (snd p)))).
  eexists. split.
  - rewrite (loop_done R _ _ o1); [rewrite app_nil_r; reflexivity|]. intros [e by_t] fs Hin.
    apply in_combine_l, in_map_iff in Hin. destruct Hin as (q & <- & _). unfold o1. cbn [fst snd set_epsilon].
    apply loop_done. intros [t by_gp] fs1 _. unfold o2. cbn [fst snd]. apply loop_done. intros [gp r] fs2 _. unfold o3. cbn [fst snd].
    apply loop_done. intros b fs3 _. reflexivity.
  - assert (M : combine (map Some es) (map (fun e => map (fun t => map (at_point R rse e t) gps) temps) es) =
      map (fun e => (Some e, map (fun t => map (at_point R rse e t) gps) temps)) es).
    { clear. induction es as [|x l IH]; cbn [map combine]; [reflexivity|f_equal; exact IH]. }
    rewrite M. intros n v. rewrite in_flat_map. split.
    + intros (p & P & I). rewrite <- in_rev, in_map_iff in P. destruct P as (e & <- & He). unfold o1 in I. cbn [fst snd set_epsilon] in I.
      apply in_flat_map in I. destruct I as ([t by_gp] & P & I). rewrite <- in_rev in P. apply combine_map_in in P. cbn [fst snd] in P. destruct P as [Ht ->].
      unfold o2 in I. cbn [fst snd] in I. apply in_flat_map in I. destruct I as ([gp r] & P & I). rewrite <- in_rev in P. apply combine_map_in in P. cbn [fst snd] in P. destruct P as [Hg ->].
      unfold o3 in I. cbn [fst snd] in I. apply in_flat_map in I. destruct I as (b & P & I). rewrite <- in_rev in P. destruct I as [I|[]]. injection I as <- <-. cbn. auto.
    + intros (He & Ht & Hg & Hb & ->). destruct n as [gp e t b]. cbn [n_epsilon n_temperature n_gp n_bands] in *.
      eexists. split; [rewrite <- in_rev; apply in_map; exact He|]. unfold o1. cbn [fst snd set_epsilon]. apply in_flat_map.
      exists (t, map (at_point R rse e t) gps). split; [rewrite <- in_rev; apply (combine_map_in _ _ (fun t => map (at_point R rse e t) gps)); auto|].
      unfold o2. cbn [fst snd]. apply in_flat_map. exists (gp, at_point R rse e t gp). split; [rewrite <- in_rev; apply (combine_map_in _ _ (at_point R rse e t)); auto|].
      unfold o3. cbn [fst snd]. apply in_flat_map. exists b. split; [rewrite <- in_rev; exact Hb|]. left. reflexivity.
Qed.

(** there is a file for each width, temperature, point and set of bands, it holds what was calculated with these, and there is no other *)
Theorem C135_files : forall R (rse : Q -> Q -> Z -> list Z -> R) sigmas gps temps epsilons sets, none_first sigmas ->
  let '(fs, values) := run_real_self_energy rse sigmas gps temps (option_map (map Some) epsilons) false true sets in
  values <> None /\
  (forall e t gp b, In e (expected sigmas epsilons) -> In t temps -> In gp gps -> In b sets -> content fs (Name gp e t b) (Some (rse e t gp b))) /\
  (forall n v, In (n, v) fs -> In (n_epsilon n) (expected sigmas epsilons) /\ In (n_temperature n) temps /\ In (n_gp n) gps /\ In (n_bands n) sets).
Proof.
  intros R rse sigmas gps temps epsilons sets H. unfold run_real_self_energy.
  destruct (written R rse (expected sigmas epsilons) gps temps sets) as (fs & W & I).
  assert (K : exists es, choose_epsilons sigmas (option_map (map Some) epsilons) = Some es /\
    write_real_self_energy (get_real_self_energy rse gps temps es) gps sets true temps es [] = (fs, true)).
  { destruct (chosen sigmas epsilons H) as [[-> E]| ->]; eexists; split; try reflexivity.
    - rewrite E in W. exact W.
    - unfold get_real_self_energy. cbv iota. rewrite map_map. exact W. }
  destruct K as (es & -> & K). cbn [negb]. rewrite K. split; [discriminate|]. split.
  - intros e t gp b He Ht Hg Hb. apply first_content; [|apply I; cbn; auto|exact name_dec].
    intros m w X ->. apply I in X. exact (proj2 (proj2 (proj2 (proj2 X)))).
  - intros n v X. apply I in X. tauto.
Qed.

(** a width None that is not the first raises when files are written; the values that were calculated are lost *)
Theorem C135_none_refuted : forall R (rse : Q -> Q -> Z -> list Z -> R) q gp gps t temps b sets,
  snd (run_real_self_energy rse (set_sigmas (Sigmas [Number q; Nothing])) (gp :: gps) (t :: temps) None false true (b :: sets)) = None /\
  snd (run_real_self_energy rse (set_sigmas (Sigmas [Nothing; Nothing])) (gp :: gps) (t :: temps) None false true (b :: sets)) = None.
Proof.
  intros. split; [|reflexivity]. unfold run_real_self_energy. cbn [set_sigmas flat_map app choose_epsilons negb].
  unfold write_real_self_energy, get_real_self_energy. cbn [map combine].
  set (body := fun p : option Q * list (list (list Z -> R)) => _).
  cbn [loop]. set (x := body (Some q, _) _). destruct x as [fs [|]]; [|reflexivity]. unfold body. reflexivity.
Qed.

(** at the frequencies of bands the files cannot be written: an empty file is left and the values are lost *)
Theorem C135_at_bands_refuted : forall R (rse : Q -> Q -> Z -> list Z -> R) sigmas gp gps t temps epsilons b sets, none_first sigmas -> expected sigmas epsilons <> [] ->
  exists e, run_real_self_energy rse sigmas (gp :: gps) (t :: temps) (option_map (map Some) epsilons) true true (b :: sets) = ([(Name gp e t b, None)], None).
Proof.
  intros R rse sigmas gp gps t temps epsilons b sets H Hne. unfold run_real_self_energy.
  destruct (chosen sigmas epsilons H) as [[-> E]| ->]; [exists default_epsilon; reflexivity|].
  destruct (expected sigmas epsilons) as [|e es]; [congruence|]. exists e. reflexivity.
Qed.

(** * Temperatures of the imaginary part: without temperatures 300 K is kept in the object, but nothing is calculated *)
Theorem C135_temperatures_refuted : run_imag_temperatures None = ([300 # 1], None).
Proof. reflexivity. Qed.

(** * Examples *)
Definition toy (e t : Q) (gp : Z) (b : list Z) : Q := (e * t + inject_Z gp + inject_Z (Z.of_nat (length b)))%Q.
Example C135_none_first_ex : none_first [None; Some (1 # 10); Some (2 # 10)].
Proof. split; [discriminate|]. intros [|[|[|[|i]]]] Hi; [lia|discriminate..]. Qed.
Example C135_values_ex : option_map (@length _) (snd (run_real_self_energy toy [None; Some (1 # 10); Some (2 # 10)] [3%Z; 4%Z] [300 # 1] None false false [[0%Z]])) = Some 2%nat.
Proof. reflexivity. Qed.
Example C135_files_ex : map (fun p => (n_gp (fst p), Qred (n_epsilon (fst p)), option_map Qred (snd p)))
    (fst (run_real_self_energy toy [None; Some (1 # 10); Some (2 # 10)] [3%Z; 4%Z] [300 # 1] None false true [[0%Z; 1%Z]])) =
  [(4%Z, 1 # 5, Some (66 # 1)); (3%Z, 1 # 5, Some (65 # 1)); (4%Z, 1 # 10, Some (36 # 1)); (3%Z, 1 # 10, Some (35 # 1))].
Proof. vm_compute. reflexivity. Qed.
Example C135_at_bands_ex : expected [None] None <> [] /\ none_first [None].
Proof. split; [discriminate|]. split; [discriminate|]. intros [|[|i]] Hi; [lia|discriminate..]. Qed.
Example C135_setter_ex : set_sigmas (Sigmas [Number (1 # 10); Other; Nothing]) = [Some (1 # 10); None].
Proof. reflexivity. Qed.

Print Assumptions C135_setter.
Print Assumptions C135_setter_refuted.
Print Assumptions C135_values.
Print Assumptions C135_widths_refuted.
Print Assumptions C135_files.
Print Assumptions C135_none_refuted.
Print Assumptions C135_at_bands_refuted.
Print Assumptions C135_temperatures_refuted.
