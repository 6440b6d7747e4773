(** C137: rates of a Phono3pyIsotope object are those of its dynamical matrix, sigmas, grid points and bands. *)
From Coq Require Import ZArith QArith List Bool Lia.
From Verif Require Import Base IssModel.
Import ListNotations.

Section Props.
Variable D : Type.
Variable rate : D -> option Q -> Z -> Z -> Q.
Variable frequency : D -> Z -> Z -> Q.
Notation exec := (exec rate frequency). Notation step := (step rate frequency).

(** * Specification *)
(** values by sigma, grid point and band *)
Definition rates_of (d : D) (sg : list (option Q)) (gps bs : list Z) (v : list (list (list Q))) : Prop :=
  length v = length sg /\ forall i j k x gp b, nth_error sg i = Some x -> nth_error gps j = Some gp -> nth_error bs k = Some b ->
  exists a c, nth_error v i = Some a /\ length a = length gps /\ nth_error a j = Some c /\ length c = length bs /\ nth_error c k = Some (rate d x gp b).
Definition chosen_sigmas (s : option (list (option Q))) : list (option Q) := match s with Some l => l | None => [None] end.
(** no other dynamical matrix is given *)
Definition keeps (d : D) (l : list (call D)) : Prop := forall e, In (Init e) l -> e = d.

Lemma nth_map : forall (A B : Type) (f : A -> B) l i x, nth_error l i = Some x -> nth_error (map f l) i = Some (f x).
Proof. intros A B f l i x H. rewrite nth_error_map, H. reflexivity. Qed.
Lemma computed : forall d sg gps bs, rates_of d sg gps bs (map (fun x => map (fun gp => map (rate d x gp) bs) gps) sg).
Proof.
  intros. split; [apply map_length|]. intros i j k x gp b Hi Hj Hk. do 2 eexists. split; [exact (nth_map _ _ _ _ _ _ Hi)|].
  split; [apply map_length|]. split; [exact (nth_map _ _ _ _ _ _ Hj)|]. split; [apply map_length|]. exact (nth_map _ _ _ _ _ _ Hk).
Qed.

Definition inv (d : D) (sg : list (option Q)) (bs : list Z) (n : nat) (s : state D) : Prop :=
  sigmas s = sg /\ bands s = bs /\ num_band s = n /\ dm s = Some d /\ (phonons s = None \/ phonons s = Some d).
Lemma inv_step : forall d sg bs n s c, inv d sg bs n s -> (forall e, c = Init e -> e = d) -> inv d sg bs n (fst (step s c)).
Proof.
  intros d sg bs n s c (A & B & C & M & F) H. unfold IssModel.step. destruct c as [e|gps|x]; cbn [fst].
  - rewrite (H e eq_refl). unfold inv. cbn. auto.
  - assert (S : solve D s = Some d) by (unfold solve; rewrite M; destruct F as [-> | ->]; reflexivity). rewrite S.
    destruct gps as [|g gps]; [|destruct (sigmas s) as [|x l] eqn:E]; unfold inv; cbn [fst sigmas bands num_band dm phonons]; repeat (split; [assumption|]); auto.
  - unfold inv. auto.
Qed.
Lemma inv_exec : forall d sg bs n l s, keeps d l -> inv d sg bs n s -> inv d sg bs n (exec s l).
Proof.
  intros d sg bs n. induction l as [|c l IH]; intros s K I; [exact I|]. cbn. apply IH; [intros e X; apply K; right; exact X|].
  apply inv_step; [exact I|]. intros e ->. apply K. left. reflexivity.
Qed.
Lemma inv_new : forall d sg bs n, inv d (chosen_sigmas sg) (match bs with None => all_bands n | Some l => l end) n (fst (step (new sg bs n) (Init d))).
Proof. intros. unfold inv. split; [reflexivity|]. split; [reflexivity|]. split; [reflexivity|]. split; [reflexivity|]. left. reflexivity. Qed.
Lemma run_inv : forall d sg bs n s gps, inv d sg bs n s -> gps <> [] -> sg <> [] ->
  gamma (fst (step s (Run gps))) = Some (map (fun x => map (fun gp => map (rate d x gp) bs) gps) sg) /\ points (fst (step s (Run gps))) = Some gps /\
  snd (step s (Run gps)) = Some (map (fun gp => map (fun x => combine (map (frequency d gp) (all_bands n)) (map (rate d x gp) bs)) sg) gps).
Proof.
  intros d sg bs n s gps (A & B & C & M & F) Hg Hs. unfold IssModel.step. destruct gps as [|g gps]; [congruence|].
  assert (S : solve D s = Some d) by (unfold solve; rewrite M; destruct F as [-> | ->]; reflexivity). rewrite S.
  unfold table. rewrite A, B, C. destruct sg as [|x l]; [congruence|]. cbn [fst snd gamma points]. auto.
Qed.

(** rates after any calls with one dynamical matrix *)
Theorem C137_gamma : forall d sg bs n l gps, keeps d l -> gps <> [] -> chosen_sigmas sg <> [] ->
  let s := exec (new sg bs n) (Init d :: l ++ [Run gps]) in
  points s = Some gps /\ exists v, gamma s = Some v /\ rates_of d (chosen_sigmas sg) gps (match bs with None => all_bands n | Some b => b end) v.
Proof.
  intros d sg bs n l gps K Hg Hs s. subst s. cbn [IssModel.exec].
  assert (X : forall l s c, exec s (l ++ [c]) = fst (step (exec s l) c)) by (clear; induction l as [|a l IH]; intros s c; [reflexivity|cbn; apply IH]).
  rewrite X. destruct (run_inv d (chosen_sigmas sg) _ n _ gps (inv_exec d _ _ n l _ K (inv_new d sg bs n)) Hg Hs) as (G & P & _).
  split; [exact P|]. eexists. split; [exact G|]. apply computed.
Qed.

(** with all bands each printed row has the frequency and the rate of one band *)
Theorem C137_table : forall d sg n l gps, keeps d l -> gps <> [] -> chosen_sigmas sg <> [] ->
  exists rows, snd (step (exec (new sg None n) (Init d :: l)) (Run gps)) = Some rows /\
  forall i j k x gp, nth_error (chosen_sigmas sg) i = Some x -> nth_error gps j = Some gp -> (k < n)%nat ->
  exists a t, nth_error rows j = Some a /\ nth_error a i = Some t /\ nth_error t k = Some (frequency d gp (Z.of_nat k), rate d x gp (Z.of_nat k)).
Proof.
  intros d sg n l gps K Hg Hs. destruct (run_inv d (chosen_sigmas sg) _ n _ gps (inv_exec d _ _ n l _ K (inv_new d sg None n)) Hg Hs) as (_ & _ & R).
  cbn [IssModel.exec]. eexists. split; [exact R|]. intros i j k x gp Hi Hj Hk. do 2 eexists. split; [exact (nth_map _ _ _ _ _ _ Hj)|]. split; [exact (nth_map _ _ _ _ _ _ Hi)|].
  assert (Z : forall (f g : Z -> Q) m k, (k < m)%nat -> forall a, nth_error (combine (map f (map Z.of_nat (seq a m))) (map g (map Z.of_nat (seq a m)))) k = Some (f (Z.of_nat (a + k)), g (Z.of_nat (a + k)))).
  { clear. intros f g m. induction m as [|m IH]; intros k Hk a; [lia|]. cbn [seq map combine]. destruct k as [|k]; [cbn; rewrite Nat.add_0_r; reflexivity|].
    cbn [nth_error]. rewrite IH by lia. replace (S a + k)%nat with (a + S k)%nat by lia. reflexivity. }
  unfold all_bands. rewrite (Z _ _ n k Hk 0%nat). reflexivity.
Qed.
(** with chosen bands the rates of these stand beside the frequencies of the first bands *)
Theorem C137_table_refuted : forall d x gp b n, (0 < n)%nat ->
  snd (step (exec (new (Some [x]) (Some [b]) n) [Init d]) (Run [gp])) = Some [[[(frequency d gp 0, rate d x gp b)]]].
Proof. intros d x gp b [|n] H; [lia|]. cbn. destruct (map (frequency d gp) _); reflexivity. Qed.

(** a dynamical matrix given after a run is not used *)
Theorem C137_new_matrix_refuted : forall d d' sg bs n gps gps', gps <> [] -> gps' <> [] -> chosen_sigmas sg <> [] ->
  exists v, gamma (exec (new sg bs n) [Init d; Run gps; Init d'; Run gps']) = Some v /\ rates_of d (chosen_sigmas sg) gps' (match bs with None => all_bands n | Some b => b end) v.
Proof.
  intros d d' sg bs n [|g gps] [|g' gps'] H H' Hs; try congruence. eexists. split; [|apply computed].
  unfold IssModel.exec, new. cbn [IssModel.step fst sigmas bands num_band dm phonons gamma points solve].
  change (match sg with None => [None] | Some l => l end) with (chosen_sigmas sg) in *. destruct (chosen_sigmas sg) as [|x l]; [congruence|]. reflexivity.
Qed.

(** without a dynamical matrix a run raises and leaves the rates, but not the grid points *)
Theorem C137_no_matrix : forall s gps, dm s = None -> gps <> [] -> sigmas s <> [] ->
  snd (step s (Run gps)) = None /\ gamma (fst (step s (Run gps))) = gamma s /\ points (fst (step s (Run gps))) = Some gps.
Proof.
  intros s [|g gps] M Hg Hs; [congruence|]. unfold IssModel.step, solve. rewrite M. destruct (sigmas s); [congruence|]. split; [reflexivity|]. split; reflexivity.
Qed.
(** rates and grid points stay until the next run *)
Theorem C137_stay : forall l s, (forall gps, ~ In (Run gps) l) -> gamma (exec s l) = gamma s /\ points (exec s l) = points s.
Proof.
  induction l as [|c l IH]; intros s H; [split; reflexivity|]. cbn [IssModel.exec]. destruct (IH (fst (step s c)) (fun g X => H g (or_intror X))) as [-> ->].
  destruct c as [d|gps|x]; [split; reflexivity|destruct (H gps (or_introl eq_refl))|split; reflexivity].
Qed.
(** set_sigma always raises *)
Theorem C137_set_sigma_refuted : forall s x, step s (SetSigma x) = (s, None).
Proof. reflexivity. Qed.
End Props.

(** * Examples *)
Definition ex_rate (d : Z) (x : option Q) (gp b : Z) : Q := (inject_Z (1000 * d + 100 * gp + b) + match x with None => 0 | Some q => q end)%Q.
Definition ex_freq (d : Z) (gp b : Z) : Q := inject_Z (10 * d + b).
Example C137_gamma_ex : gamma (exec ex_rate ex_freq (new (Some [None; Some (1 # 2)]) (Some [2%Z]) 3) [Init 7%Z; Run [4%Z]; Run [5%Z; 6%Z]]) =
  Some [[[(7502 # 1)]; [(7602 # 1)]]; [[(15005 # 2)]; [(15205 # 2)]]].
Proof. vm_compute. reflexivity. Qed.
Example C137_keeps_ex : keeps Z 7%Z [Run [4%Z]; Init 7%Z; SetSigma None].
Proof. intros e [H|[H|[H|[]]]]; congruence. Qed.
Example C137_table_ex : snd (step ex_rate ex_freq (exec ex_rate ex_freq (new None None 2) [Init 7%Z]) (Run [1%Z])) = Some [[[(70 # 1, 7100 # 1); (71 # 1, 7101 # 1)]]].
Proof. vm_compute. reflexivity. Qed.
Example C137_stay_ex : points (exec ex_rate ex_freq (new None None 2) [Init 7%Z; Run [4%Z]; SetSigma None; Init 8%Z]) = Some [4%Z].
Proof. vm_compute. reflexivity. Qed.
Example C137_no_matrix_ex : dm (new (D := Z) None None 2) = None /\ sigmas (new (D := Z) None None 2) <> [].
Proof. split; [reflexivity|discriminate]. Qed.

Print Assumptions C137_gamma.
Print Assumptions C137_table.
Print Assumptions C137_table_refuted.
Print Assumptions C137_new_matrix_refuted.
Print Assumptions C137_no_matrix.
Print Assumptions C137_stay.
Print Assumptions C137_set_sigma_refuted.
