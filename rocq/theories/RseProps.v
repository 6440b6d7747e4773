(** Frequency shifts (C97) *)
From Coq Require Import ZArith QArith Qabs Qfield List Bool Lia Lqa.
From Verif Require Import Base BaseProofs QMat Fc3Trans IseModel IseSpec IseProofs KapProofs KapTensor RseModel.
Import ListNotations.
Open Scope Z_scope.

(** ** Specification: a discrete spectrum *)
(** Two phonons of frequencies [f1], [f2] and occupations [n1], [n2] make lines at [+-(f1 + f2)] (decay and creation) and [+-(f1 - f2)] (collision), each with
    its strength. *)
Definition pair_lines (n1 n2 f1 f2 : Q) : list (Q * Q) :=
  [((n1 + n2 + 1)%Q, (f1 + f2)%Q); ((- (n1 + n2 + 1))%Q, (- (f1 + f2))%Q); ((n2 - n1)%Q, (f1 - f2)%Q); ((n1 - n2)%Q, (f2 - f1)%Q)].
(** occupation at temperature [T], none at and below 0 K *)
Definition occ (bose : Q -> Q -> Q) (T f : Q) : Q := if qltb 0 T then bose f T else 0%Q.
(** lines of one triplet, with its weight: every pair of modes above the cutoff, with the strength of interaction with band number [band] of the first grid point *)
Definition triplet_lines (bose : Q -> Q -> Q) (nb0 nb : Z) (phi freq : Z -> Q) (triplets : Z -> tp3) (weights : Z -> Z) (cutoff T : Q) (band i : Z) : list (Q * Q) :=
  flat_map (fun j => flat_map (fun k =>
    let f1 := freq (tp_at (triplets i) 1 * nb + j) in let f2 := freq (tp_at (triplets i) 2 * nb + k) in
    if qltb cutoff f1 && qltb cutoff f2 then
      map (fun l => (inject_Z (weights i) * arr4 nb0 nb nb phi i band j k * fst l, snd l)%Q) (pair_lines (occ bose T f1) (occ bose T f2) f1 f2)
    else []) (zrange nb)) (zrange nb).
(** all lines seen by band number [band] *)
Definition spectrum (bose : Q -> Q -> Q) (nb0 nb nt : Z) (phi freq : Z -> Q) (triplets : Z -> tp3) (weights : Z -> Z) (cutoff T : Q) (band : Z) : list (Q * Q) :=
  flat_map (triplet_lines bose nb0 nb phi freq triplets weights cutoff T band) (zrange nt).
(** the shift: strength over distance, the distance regularized by [eps] *)
Definition shift (eps : Q) (lines : list (Q * Q)) (f : Q) : Q := qsum (map (fun l => fst l * ((f - snd l) / ((f - snd l) * (f - snd l) + eps * eps)))%Q lines).

(** ** C97 *)
Lemma lor_eq : forall e x y, (x == y)%Q -> (lor e x == lor e y)%Q.
Proof. intros e x y H. unfold lor. rewrite H. reflexivity. Qed.
Lemma lor_opp : forall e x, (lor e (- x) == - lor e x)%Q.
Proof. intros e x. unfold lor. setoid_replace (- x * - x + e * e)%Q with (x * x + e * e)%Q by ring. unfold Qdiv. ring. Qed.
Lemma if_add : forall (b : bool) (s x y : Q), (x == y)%Q -> ((if b then s + x else s) == s + (if b then y else 0))%Q.
Proof. intros [] s x y H; [rewrite H; reflexivity|ring]. Qed.
Lemma fold_ext : forall X (f g : Q -> X -> Q) l a b, (forall s s' x, In x l -> (s == s')%Q -> (f s x == g s' x)%Q) -> (a == b)%Q -> (fold_left f l a == fold_left g l b)%Q.
Proof. intros X f g l. induction l as [|x l IH]; intros a b H E; [exact E|]. cbn. apply IH; [intros; apply H; [right; assumption|assumption]|apply H; [left; reflexivity|exact E]]. Qed.
Lemma shift_app : forall eps l l' f, (shift eps (l ++ l') f == shift eps l f + shift eps l' f)%Q.
Proof. intros. unfold shift. rewrite map_app, qs_app. reflexivity. Qed.
Lemma shift_flat : forall X eps (g : X -> list (Q * Q)) l f, (shift eps (flat_map g l) f == qsum (map (fun x => shift eps (g x) f) l))%Q.
Proof. intros X eps g l f. induction l as [|x l IH]; [reflexivity|]. cbn [flat_map map]. rewrite shift_app, IH, qs_cons. reflexivity. Qed.
Lemma shift_pair : forall eps c n1 n2 f1 f2 f,
  (shift eps (map (fun l => (c * fst l, snd l)%Q) (pair_lines n1 n2 f1 f2)) f ==
   c * (- (n1 + n2 + 1) * lor eps (f + f1 + f2) + (n1 + n2 + 1) * lor eps (f - f1 - f2) - (n1 - n2) * lor eps (f - f1 + f2) + (n1 - n2) * lor eps (f + f1 - f2)))%Q.
Proof.
  intros. unfold shift, pair_lines. cbn [map fst snd qsum fold_right].
  assert (E : forall x, (x / (x * x + eps * eps))%Q = lor eps x) by reflexivity. rewrite !E.
  rewrite (lor_eq eps (f - (f1 + f2)) (f - f1 - f2)), (lor_eq eps (f - - (f1 + f2)) (f + f1 + f2)), (lor_eq eps (f - (f1 - f2)) (f - f1 + f2)), (lor_eq eps (f - (f2 - f1)) (f + f1 - f2)) by ring.
  ring.
Qed.

Section C97.
  Variable bose : Q -> Q -> Q.
  Variables (nb0 nb nt : Z) (phi freq : Z -> Q) (triplets : Z -> tp3) (weights : Z -> Z) (unit cutoff : Q).
  Local Notation term i band f eps T := (shift eps (triplet_lines bose nb0 nb phi freq triplets weights cutoff T band i) f).
  Lemma sum_rse_term : forall i band f eps T, (0 < T)%Q ->
    (sum_rse bose nb phi freq cutoff (i * nb0 * nb * nb + band * nb * nb) f (tp_at (triplets i) 1) (tp_at (triplets i) 2) eps T * inject_Z (weights i) == term i band f eps T)%Q.
  Proof.
    intros i band f eps T HT. unfold triplet_lines. rewrite shift_flat. unfold sum_rse. rewrite Qmult_comm, <- qs_scale. apply qs_ext. intros j _. cbv zeta. rewrite shift_flat.
    destruct (qltb cutoff (freq (tp_at (triplets i) 1 * nb + j))) eqn:E1.
    - rewrite <- qs_scale. apply qs_ext. intros k _. cbv zeta. destruct (qltb cutoff (freq (tp_at (triplets i) 2 * nb + k))) eqn:E2; cbn [andb].
      + rewrite shift_pair. unfold occ. rewrite (proj2 (qltb_lt 0 T) HT). unfold arr4.
        replace (((i * nb0 + band) * nb + j) * nb + k) with (i * nb0 * nb * nb + band * nb * nb + (j * nb + k)) by ring. ring.
      + change (shift eps [] f) with 0%Q. ring.
    - cbn [andb]. rewrite qs_zero; [ring|]. intros k _. reflexivity.
  Qed.
  Lemma sum_rse_0K_term : forall i band f eps T, (T <= 0)%Q ->
    (sum_rse_0K nb phi freq cutoff (i * nb0 * nb * nb + band * nb * nb) f (tp_at (triplets i) 1) (tp_at (triplets i) 2) eps * inject_Z (weights i) == term i band f eps T)%Q.
  Proof.
    intros i band f eps T HT. unfold triplet_lines. rewrite shift_flat. unfold sum_rse_0K. rewrite Qmult_comm, <- qs_scale. apply qs_ext. intros j _. cbv zeta. rewrite shift_flat.
    destruct (qltb cutoff (freq (tp_at (triplets i) 1 * nb + j))) eqn:E1.
    - rewrite <- qs_scale. apply qs_ext. intros k _. cbv zeta. destruct (qltb cutoff (freq (tp_at (triplets i) 2 * nb + k))) eqn:E2; cbn [andb].
      + rewrite shift_pair. unfold occ. rewrite (proj2 (qltb_ge 0 T) HT). unfold arr4.
        replace (((i * nb0 + band) * nb + j) * nb + k) with (i * nb0 * nb * nb + band * nb * nb + (j * nb + k)) by ring. ring.
      + change (shift eps [] f) with 0%Q. ring.
    - cbn [andb]. rewrite qs_zero; [ring|]. intros k _. reflexivity.
  Qed.
  Lemma rse_value : forall band f eps T,
    (rse_at_band bose nb0 nb nt phi freq triplets weights unit cutoff band f eps T == unit * shift eps (spectrum bose nb0 nb nt phi freq triplets weights cutoff T band) f)%Q.
  Proof.
    intros band f eps T. unfold rse_at_band, spectrum. rewrite shift_flat, <- qs_scale.
    etransitivity; [apply (fold_ext _ _ (fun s i => s + unit * term i band f eps T)%Q _ 0%Q 0%Q); [|reflexivity]|].
    - intros s s' i _ E. cbv zeta. destruct (qltb 0 T) eqn:ET; rewrite E.
      + rewrite sum_rse_term by (apply qltb_lt; exact ET). ring.
      + rewrite (sum_rse_0K_term i band f eps T) by (apply qltb_ge; exact ET). ring.
    - rewrite fold_qsum. ring.
  Qed.

  (** At the frequency of a band and at any frequency point, above 0 K and at 0 K, the C function gives the shift due to the spectrum (zero below the cutoff). *)
  Theorem C97_value : forall bands eps T i,
    (rse_at_bands bose nb0 nb nt phi freq triplets weights unit cutoff bands eps T i ==
     let f := freq (tp_at (triplets 0) 0 * nb + bands i) in
     if qltb f cutoff then 0 else unit * shift eps (spectrum bose nb0 nb nt phi freq triplets weights cutoff T i) f)%Q /\
    forall f, (rse_at_frequency_point bose nb0 nb nt phi freq triplets weights unit cutoff f eps T i ==
     if qltb f cutoff then 0 else unit * shift eps (spectrum bose nb0 nb nt phi freq triplets weights cutoff T i) f)%Q.
  Proof.
    intros bands eps T i. split; [|intros f]; unfold rse_at_bands, rse_at_frequency_point; cbv zeta; destruct (qltb _ cutoff); try reflexivity; apply rse_value.
  Qed.

  Lemma acc_row : forall (v : Z -> Q) n j0 (arr : Z -> Q), 0 <= n ->
    (fold_left (fun arr j => upd arr j (arr j + v j)%Q) (zrange n) arr) j0 = if (0 <=? j0) && (j0 <? n) then (arr j0 + v j0)%Q else arr j0.
  Proof.
    intros v n j0 arr Hn. revert n Hn. apply (Zlt_0_ind (fun n => _)). intros n IH Hn. destruct (Z.eq_dec n 0) as [->|N].
    - cbn [zrange]. destruct (0 <=? j0) eqn:A, (j0 <? 0) eqn:B; try reflexivity. lia.
    - replace n with (n - 1 + 1) at 1 by ring. rewrite zrange_succ by lia. rewrite fold_left_app. cbn [fold_left].
      destruct (Z.eq_dec j0 (n - 1)) as [->|Nj].
      + rewrite upd_same, IH by lia. rewrite (proj2 (Z.ltb_ge (n - 1) (n - 1))) by lia. rewrite andb_false_r.
        rewrite (proj2 (Z.leb_le 0 (n - 1))), (proj2 (Z.ltb_lt (n - 1) n)) by lia. reflexivity.
      + rewrite upd_other by exact Nj. rewrite IH by lia. replace (j0 <? n - 1) with (j0 <? n); [reflexivity|]. destruct (Z.ltb_spec j0 n), (Z.ltb_spec j0 (n - 1)); lia.
  Qed.
  Lemma acc_arr : forall (v : Z -> Z -> Q) n j0 l (arr : Z -> Q), 0 <= j0 < n ->
    (fold_left (fun arr i => fold_left (fun arr j => upd arr j (arr j + v i j)%Q) (zrange n) arr) l arr j0 == arr j0 + qsum (map (fun i => v i j0) l))%Q.
  Proof.
    intros v n j0 l. induction l as [|i l IH]; intros arr Hj; [cbn; ring|]. cbn [fold_left map]. rewrite IH by exact Hj. rewrite acc_row by lia.
    rewrite (proj2 (Z.leb_le 0 j0)), (proj2 (Z.ltb_lt j0 n)) by lia. cbn [andb]. rewrite qs_cons. ring.
  Qed.
  Lemma py_fold : forall i band f eps T (step : Q -> Z * Z -> Q),
    (forall s s' j k, (s == s')%Q -> (step s (j, k) == s' + (let f1 := freq (tp_at (triplets i) 1 * nb + j)%Z in let f2 := freq (tp_at (triplets i) 2 * nb + k)%Z in
        if qltb cutoff f1 && qltb cutoff f2 then
          inject_Z (weights i) * arr4 nb0 nb nb phi i band j k * (- (occ bose T f1 + occ bose T f2 + 1) * lor eps (f + f1 + f2) + (occ bose T f1 + occ bose T f2 + 1) * lor eps (f - f1 - f2)
            - (occ bose T f1 - occ bose T f2) * lor eps (f - f1 + f2) + (occ bose T f1 - occ bose T f2) * lor eps (f + f1 - f2)) else 0))%Q) ->
    (fold_left step (flat_map (fun j => map (fun k => (j, k)) (zrange nb)) (zrange nb)) 0 == term i band f eps T)%Q.
  Proof.
    intros i band f eps T step H.
    etransitivity; [apply (fold_ext _ _ (fun s jk => s + (let f1 := freq (tp_at (triplets i) 1 * nb + fst jk)%Z in let f2 := freq (tp_at (triplets i) 2 * nb + snd jk)%Z in
        if qltb cutoff f1 && qltb cutoff f2 then
          inject_Z (weights i) * arr4 nb0 nb nb phi i band (fst jk) (snd jk) * (- (occ bose T f1 + occ bose T f2 + 1) * lor eps (f + f1 + f2) + (occ bose T f1 + occ bose T f2 + 1) * lor eps (f - f1 - f2)
            - (occ bose T f1 - occ bose T f2) * lor eps (f - f1 + f2) + (occ bose T f1 - occ bose T f2) * lor eps (f + f1 - f2)) else 0))%Q _ 0%Q 0%Q); [|reflexivity]|].
    - intros s s' [j k] _ E. apply H. exact E.
    - rewrite fold_qsum, Qplus_0_l. unfold triplet_lines. rewrite shift_flat, map_flat_map', qs_flat_map. apply qs_ext. intros j _. rewrite shift_flat, map_map. apply qs_ext. intros k _.
      cbn [fst snd]. cbv zeta. destruct (_ && _); [|reflexivity]. rewrite shift_pair. reflexivity.
  Qed.
  Lemma py_term : forall i band f eps T, qltb f cutoff = false ->
    ((if qltb 0 T then py_rse bose nb phi freq cutoff (i * nb0 * nb * nb + band * nb * nb) f (triplets i) (weights i) eps T
      else py_rse_0K nb phi freq cutoff (i * nb0 * nb * nb + band * nb * nb) f (triplets i) (weights i) eps) == term i band f eps T)%Q.
  Proof.
    intros i band f eps T Hf. unfold py_rse, py_rse_0K. rewrite Hf. destruct (qltb 0 T) eqn:ET; apply py_fold; intros s s' j k E; cbv beta iota zeta;
      (destruct (_ && _); [|rewrite E; ring]); rewrite E; unfold occ; rewrite ET; unfold arr4;
        replace (((i * nb0 + band) * nb + j) * nb + k) with (i * nb0 * nb * nb + band * nb * nb + (j * nb + k)) by ring; ring.
  Qed.
  Lemma py_zero : forall p f t w eps T, qltb f cutoff = true ->
    (if qltb 0 T then py_rse bose nb phi freq cutoff p f t w eps T else py_rse_0K nb phi freq cutoff p f t w eps) = 0%Q.
  Proof. intros p f t w eps T H. unfold py_rse, py_rse_0K. rewrite H. destruct (qltb 0 T); reflexivity. Qed.

  (** Python and C give the same shifts. *)
  Theorem C97_python_and_C_agree : forall bands eps T i, 0 <= i < nb0 -> (forall x, 0 <= x < nt -> tp_at (triplets x) 0 = tp_at (triplets 0) 0) ->
    (py_rse_at_bands bose nb0 nb nt phi freq triplets weights unit cutoff bands eps T i == rse_at_bands bose nb0 nb nt phi freq triplets weights unit cutoff bands eps T i)%Q /\
    forall f, (py_rse_at_frequency_point bose nb0 nb nt phi freq triplets weights unit cutoff f eps T i == rse_at_frequency_point bose nb0 nb nt phi freq triplets weights unit cutoff f eps T i)%Q.
  Proof.
    intros bands eps T i Hi HG. destruct (C97_value bands eps T i) as [V1 V2]. split; [rewrite V1|intros f; rewrite V2]; clear V1 V2;
      [unfold py_rse_at_bands|unfold py_rse_at_frequency_point]; cbv zeta; rewrite acc_arr by exact Hi; rewrite Qplus_0_l.
    - destruct (qltb _ cutoff) eqn:Ef.
      + rewrite qs_zero; [ring|]. intros x Hx. apply in_zrange in Hx. rewrite (HG x Hx), py_zero by exact Ef. reflexivity.
      + unfold spectrum. rewrite shift_flat, Qmult_comm. apply Qmult_comp; [reflexivity|]. apply qs_ext. intros x Hx. apply in_zrange in Hx. rewrite (HG x Hx). apply py_term. exact Ef.
    - destruct (qltb _ cutoff) eqn:Ef.
      + rewrite qs_zero; [ring|]. intros x Hx. rewrite py_zero by exact Ef. reflexivity.
      + unfold spectrum. rewrite shift_flat, Qmult_comm. apply Qmult_comp; [reflexivity|]. apply qs_ext. intros x Hx. apply py_term. exact Ef.
  Qed.
End C97.
Print Assumptions C97_value.
Print Assumptions C97_python_and_C_agree.

(** Exchanging the two other grid points of every triplet together with the last two axes of the interaction strength changes no shift. *)
Definition swap23 (t : tp3) : tp3 := let '(a, b, c) := t in (a, c, b).
Theorem C97_exchange : forall bose nb0 nb nt phi phi' freq triplets weights unit cutoff,
  forall band f eps T, (forall i j k, 0 <= i < nt -> 0 <= j < nb -> 0 <= k < nb -> (arr4 nb0 nb nb phi' i band k j == arr4 nb0 nb nb phi i band j k)%Q) ->
  (rse_at_band bose nb0 nb nt phi' freq (fun i => swap23 (triplets i)) weights unit cutoff band f eps T == rse_at_band bose nb0 nb nt phi freq triplets weights unit cutoff band f eps T)%Q.
Proof.
  intros bose nb0 nb nt phi phi' freq triplets weights unit cutoff band f eps T HP. rewrite !rse_value. apply Qmult_comp; [reflexivity|]. unfold spectrum. rewrite !shift_flat. apply qs_ext. intros i Hi. apply in_zrange in Hi.
  unfold triplet_lines. rewrite !shift_flat.
  etransitivity; [apply qs_ext; intros j _; apply shift_flat|]. etransitivity; [|apply qs_ext; intros j _; symmetry; apply shift_flat].
  rewrite qs_swap. apply qs_ext. intros j Hj. apply in_zrange in Hj. apply qs_ext. intros k Hk. apply in_zrange in Hk. cbv zeta.
  assert (E1 : tp_at (swap23 (triplets i)) 1 = tp_at (triplets i) 2) by (destruct (triplets i) as [[? ?] ?]; reflexivity).
  assert (E2 : tp_at (swap23 (triplets i)) 2 = tp_at (triplets i) 1) by (destruct (triplets i) as [[? ?] ?]; reflexivity).
  rewrite E1, E2. set (f1 := freq (tp_at (triplets i) 1 * nb + j)). set (f2 := freq (tp_at (triplets i) 2 * nb + k)). rewrite (andb_comm (qltb cutoff f2)).
  destruct (_ && _); [|reflexivity]. rewrite !shift_pair, HP by assumption.
  rewrite (lor_eq eps (f + f2 + f1) (f + f1 + f2)), (lor_eq eps (f - f2 - f1) (f - f1 - f2)), (lor_eq eps (f - f2 + f1) (f + f1 - f2)), (lor_eq eps (f + f2 - f1) (f - f1 + f2)) by ring. ring.
Qed.
Print Assumptions C97_exchange.

Lemma lor_sign : forall e x, (x <= 0)%Q -> (lor e x <= 0)%Q.
Proof.
  intros e x H. unfold lor. destruct (Qeq_dec (x * x + e * e) 0) as [Z|N].
  - unfold Qdiv. setoid_replace (/ (x * x + e * e))%Q with 0%Q; [lra|]. rewrite Z. reflexivity.
  - assert (0 < x * x + e * e)%Q by nra. apply Qle_shift_div_r; [assumption|]. lra.
Qed.
Lemma lor_sign' : forall e x, (0 <= x)%Q -> (0 <= lor e x)%Q.
Proof. intros e x H. assert (A := lor_sign e (- x)). rewrite lor_opp in A. assert (- x <= 0)%Q by lra. specialize (A H0). lra. Qed.

(** At 0 K and below the lowest sum of two frequencies every mode is shifted downwards. *)
Theorem C97_below_continuum : forall bose nb0 nb nt phi freq triplets weights unit cutoff band f eps T, (T <= 0)%Q -> (0 <= unit)%Q -> (0 <= f)%Q ->
  (forall i j k, 0 <= i < nt -> 0 <= j < nb -> 0 <= k < nb ->
    0 <= weights i /\ (0 <= arr4 nb0 nb nb phi i band j k)%Q /\
    let f1 := freq (tp_at (triplets i) 1 * nb + j) in let f2 := freq (tp_at (triplets i) 2 * nb + k) in
    ((cutoff < f1)%Q -> (cutoff < f2)%Q -> (f <= f1 + f2)%Q)) ->
  (rse_at_band bose nb0 nb nt phi freq triplets weights unit cutoff band f eps T <= 0)%Q.
Proof.
  intros bose nb0 nb nt phi freq triplets weights unit cutoff band f eps T HT HU Hf H. rewrite rse_value.
  assert (K : (shift eps (spectrum bose nb0 nb nt phi freq triplets weights cutoff T band) f <= 0)%Q); [|nra].
  unfold spectrum. rewrite shift_flat.
  assert (N : forall X (g : X -> Q) l, (forall x, In x l -> (g x <= 0)%Q) -> (qsum (map g l) <= 0)%Q).
  { intros X g l G. rewrite <- (qs_zero _ (fun _ : X => 0%Q) l) by (intros; reflexivity). apply qs_le. exact G. }
  apply N. intros i Hi. apply in_zrange in Hi. unfold triplet_lines. rewrite shift_flat. apply N. intros j Hj. apply in_zrange in Hj.
  rewrite shift_flat. apply N. intros k Hk. apply in_zrange in Hk. cbv zeta.
  destruct (H i j k Hi Hj Hk) as (W & P & L). cbv zeta in L. set (f1 := freq (tp_at (triplets i) 1 * nb + j)) in *. set (f2 := freq (tp_at (triplets i) 2 * nb + k)) in *.
  destruct (qltb cutoff f1) eqn:E1; [|apply Qle_refl]. destruct (qltb cutoff f2) eqn:E2; [|apply Qle_refl]. cbn [andb].
  apply qltb_lt in E1. apply qltb_lt in E2. specialize (L E1 E2).
  rewrite shift_pair. unfold occ. rewrite (proj2 (qltb_ge 0 T) HT).
  assert (WP : (0 <= inject_Z (weights i) * arr4 nb0 nb nb phi i band j k)%Q) by (apply Qmult_le_0_compat; [rewrite Zle_Qle in W; exact W|exact P]).
  assert (A := lor_sign eps (f - f1 - f2)). assert (B := lor_sign' eps (f + f1 + f2)).
  assert (A' : (f - f1 - f2 <= 0)%Q) by lra. assert (B' : (0 <= f + f1 + f2)%Q) by lra. specialize (A A'). specialize (B B').
  set (c := (inject_Z (weights i) * arr4 nb0 nb nb phi i band j k)%Q) in *. set (a := lor eps (f - f1 - f2)) in *. set (b := lor eps (f + f1 + f2)) in *.
  setoid_replace (c * (- (0 + 0 + 1) * b + (0 + 0 + 1) * a - (0 - 0) * lor eps (f - f1 + f2) + (0 - 0) * lor eps (f + f1 - f2)))%Q with (c * a - c * b)%Q by ring. nra.
Qed.
Print Assumptions C97_below_continuum.

Lemma mul_le_l : forall c x y, (0 <= c)%Q -> (x <= y)%Q -> (c * x <= c * y)%Q.
Proof. intros. nra. Qed.
Lemma lor_bound : forall e x, (0 < e)%Q -> (Qabs (lor e x) <= 1 / (2 * e))%Q.
Proof.
  intros e x He. assert (P : (0 < x * x + e * e)%Q) by nra. apply Qabs_Qle_condition. unfold lor. split.
  - setoid_replace (- (1 / (2 * e)))%Q with (- (1) / (2 * e))%Q by (field; lra).
    apply Qle_shift_div_l; [exact P|]. unfold Qdiv. rewrite <- Qmult_assoc, (Qmult_comm (/ (2 * e))), Qmult_assoc. apply Qle_shift_div_r; [lra|].
    assert (S := sq_nn (x + e)). nra.
  - apply Qle_shift_div_l; [lra|]. unfold Qdiv. rewrite <- Qmult_assoc, (Qmult_comm (/ (x * x + e * e))), Qmult_assoc. apply Qle_shift_div_r; [exact P|].
    assert (S := sq_nn (x - e)). nra.
Qed.
(** With [eps > 0] no shift is larger than the strength of all lines divided by [2 eps]. *)
Theorem C97_bounded : forall bose nb0 nb nt phi freq triplets weights unit cutoff band f eps T, (0 < eps)%Q ->
  (Qabs (rse_at_band bose nb0 nb nt phi freq triplets weights unit cutoff band f eps T) <=
   Qabs unit * qsum (map (fun l => Qabs (fst l)) (spectrum bose nb0 nb nt phi freq triplets weights cutoff T band)) / (2 * eps))%Q.
Proof.
  intros bose nb0 nb nt phi freq triplets weights unit cutoff band f eps T He. rewrite rse_value, Qabs_Qmult.
  unfold Qdiv. rewrite <- Qmult_assoc. apply mul_le_l; [apply Qabs_nonneg|].
  generalize (spectrum bose nb0 nb nt phi freq triplets weights cutoff T band). intros l. unfold shift. induction l as [|[s a] l IH].
  - cbn [map]. rewrite !qs_nil. cbn [Qabs]. unfold Qle. cbn. lia.
  - cbn [map fst snd]. rewrite !qs_cons. eapply Qle_trans; [apply Qabs_triangle|]. rewrite Qmult_plus_distr_l. apply Qplus_le_compat; [|exact IH].
    rewrite Qabs_Qmult. apply mul_le_l; [apply Qabs_nonneg|]. eapply Qle_trans; [apply (lor_bound eps (f - a) He)|]. unfold Qdiv. rewrite Qmult_1_l. apply Qle_refl.
Qed.
Print Assumptions C97_bounded.

(** Epsilon only regularizes: away from the lines ([d] or further) the shift with [eps] differs from the one without by at most [eps^2 / d^3] of the strength of all lines. *)
Lemma lor_eps : forall e x d, (0 < d)%Q -> (d <= Qabs x)%Q -> (Qabs (lor e x - lor 0 x) <= e * e / (d * d * d))%Q.
Proof.
  assert (P : forall e x d, (0 < d)%Q -> (d <= x)%Q -> (Qabs (lor e x - lor 0 x) <= e * e / (d * d * d))%Q).
  { intros e x d Hd Hx. assert (Px : (0 < x)%Q) by lra. assert (Pe : (0 <= e * e)%Q) by apply sq_nn. assert (P1 : (0 < x * x)%Q) by nra. assert (P2 : (0 < x * x + e * e)%Q) by lra.
    assert (E : (lor e x - lor 0 x == - (e * e / (x * (x * x + e * e))))%Q) by (unfold lor; field; repeat split; intros K; nra).
    rewrite E, Qabs_opp. assert (P3 : (0 < x * (x * x + e * e))%Q) by nra. assert (P4 : (0 < d * d)%Q) by nra. assert (P5 : (0 < d * d * d)%Q) by nra.
    assert (N : (0 <= e * e / (x * (x * x + e * e)))%Q) by (apply Qle_shift_div_l; [exact P3|lra]). rewrite Qabs_pos by exact N.
    apply Qle_shift_div_l; [exact P5|]. unfold Qdiv. rewrite <- Qmult_assoc, (Qmult_comm (/ _)), Qmult_assoc. apply Qle_shift_div_r; [exact P3|].
    apply mul_le_l; [exact Pe|]. assert (A1 : (d * d <= x * x)%Q) by nra. assert (A2 : (d * d * d <= x * x * x)%Q) by nra. assert (A3 : (0 <= x * (e * e))%Q) by nra. nra. }
  intros e x d Hd Hx. destruct (Qlt_le_dec x 0) as [L|L].
  - rewrite Qabs_neg in Hx by lra. assert (A := P e (- x)%Q d Hd Hx). rewrite !lor_opp in A. setoid_replace (- lor e x - - lor 0 x)%Q with (- (lor e x - lor 0 x))%Q in A by ring. rewrite Qabs_opp in A. exact A.
  - rewrite Qabs_pos in Hx by lra. exact (P e x d Hd Hx).
Qed.
Theorem C97_small_epsilon : forall bose nb0 nb nt phi freq triplets weights unit cutoff band f eps T d, (0 < d)%Q ->
  (forall l, In l (spectrum bose nb0 nb nt phi freq triplets weights cutoff T band) -> (d <= Qabs (f - snd l))%Q) ->
  (Qabs (rse_at_band bose nb0 nb nt phi freq triplets weights unit cutoff band f eps T - rse_at_band bose nb0 nb nt phi freq triplets weights unit cutoff band f 0 T) <=
   Qabs unit * qsum (map (fun l => Qabs (fst l)) (spectrum bose nb0 nb nt phi freq triplets weights cutoff T band)) * (eps * eps / (d * d * d)))%Q.
Proof.
  intros bose nb0 nb nt phi freq triplets weights unit cutoff band f eps T d Hd HL. rewrite !rse_value.
  setoid_replace (unit * shift eps (spectrum bose nb0 nb nt phi freq triplets weights cutoff T band) f - unit * shift 0 (spectrum bose nb0 nb nt phi freq triplets weights cutoff T band) f)%Q
    with (unit * (shift eps (spectrum bose nb0 nb nt phi freq triplets weights cutoff T band) f - shift 0 (spectrum bose nb0 nb nt phi freq triplets weights cutoff T band) f))%Q by ring.
  rewrite Qabs_Qmult, <- Qmult_assoc. apply mul_le_l; [apply Qabs_nonneg|].
  revert HL. generalize (spectrum bose nb0 nb nt phi freq triplets weights cutoff T band). intros l. unfold shift. induction l as [|[s a] l IH]; intros HL.
  - cbn [map]. rewrite !qs_nil. apply Qle_lteq. right. rewrite Qmult_0_l. reflexivity.
  - cbn [map fst snd]. rewrite !qs_cons. fold (lor eps (f - a)) (lor 0 (f - a)).
    match goal with |- (Qabs (?x * ?u + ?S - (?x * ?v + ?S')) <= _)%Q => setoid_replace (x * u + S - (x * v + S'))%Q with (x * (u - v) + (S - S'))%Q by ring end.
    eapply Qle_trans; [apply Qabs_triangle|]. rewrite Qmult_plus_distr_l. apply Qplus_le_compat; [|apply IH; intros; apply HL; right; assumption].
    rewrite Qabs_Qmult. apply mul_le_l; [apply Qabs_nonneg|]. apply lor_eps; [exact Hd|]. apply (HL (s, a)). left. reflexivity.
Qed.
Print Assumptions C97_small_epsilon.

(** ** Examples: one triplet of weight 2 and two bands; modes 3, 5 at grid point 1 and 4, 7 at grid point 2; occupations 1/f *)
Definition ex_freq (x : Z) : Q := match x with 0 => 2 | 1 => 6 | 2 => 3 | 3 => 5 | 4 => 4 | _ => 7 end.
Definition ex_phi (x : Z) : Q := inject_Z (x + 1).
Example C97_value_ex :
  Qeq_bool (rse_at_bands (fun f _ => (1 / f)%Q) 2 2 1 ex_phi ex_freq (fun _ => (0, 1, 2)) (fun _ => 2) 1 (1 # 2) (fun i => i) (1 # 10) 300 0)
    (shift (1 # 10) (spectrum (fun f _ => (1 / f)%Q) 2 2 1 ex_phi ex_freq (fun _ => (0, 1, 2)) (fun _ => 2) (1 # 2) 300 0) 2) = true /\
  length (spectrum (fun f _ => (1 / f)%Q) 2 2 1 ex_phi ex_freq (fun _ => (0, 1, 2)) (fun _ => 2) (1 # 2) 300 0) = 16%nat /\
  qltb (rse_at_bands (fun f _ => (1 / f)%Q) 2 2 1 ex_phi ex_freq (fun _ => (0, 1, 2)) (fun _ => 2) 1 (1 # 2) (fun i => i) (1 # 10) 300 0) 0 = true.
Proof. vm_compute. auto. Qed.
Example C97_python_ex : (forall x, 0 <= x < 1 -> tp_at (0, 1, 2) 0 = tp_at (0, 1, 2) 0) /\
  Qeq_bool (py_rse_at_bands (fun f _ => (1 / f)%Q) 2 2 1 ex_phi ex_freq (fun _ => (0, 1, 2)) (fun _ => 2) 1 (1 # 2) (fun i => i) (1 # 10) 300 1)
    (rse_at_bands (fun f _ => (1 / f)%Q) 2 2 1 ex_phi ex_freq (fun _ => (0, 1, 2)) (fun _ => 2) 1 (1 # 2) (fun i => i) (1 # 10) 300 1) = true.
Proof. split; [reflexivity|vm_compute; reflexivity]. Qed.
(** transposed interaction strengths of the exchange *)
Example C97_exchange_ex : forall i j k, 0 <= i < 1 -> 0 <= j < 2 -> 0 <= k < 2 ->
  (arr4 2 2 2 (fun x => ex_phi (4 * (x / 4) + 2 * (x mod 2) + (x / 2) mod 2)) i 1 k j == arr4 2 2 2 ex_phi i 1 j k)%Q.
Proof.
  intros i j k Hi Hj Hk. assert (i = 0) by lia. assert (j = 0 \/ j = 1) by lia. assert (k = 0 \/ k = 1) by lia.
  subst i. destruct H0 as [-> | ->], H1 as [-> | ->]; reflexivity.
Qed.
(** band 2 lies below all sums (7 at least): shifted downwards at 0 K; the bound holds with the strengths of 16 lines *)
Example C97_below_ex : qltb (rse_at_band (fun f _ => (1 / f)%Q) 2 2 1 ex_phi ex_freq (fun _ => (0, 1, 2)) (fun _ => 2) 1 (1 # 2) 0 2 (1 # 10) 0) 0 = true /\
  forallb (fun jk => Qle_bool 2 (ex_freq (1 * 2 + fst jk) + ex_freq (2 * 2 + snd jk)) && Qle_bool 0 (arr4 2 2 2 ex_phi 0 0 (fst jk) (snd jk))) [(0, 0); (0, 1); (1, 0); (1, 1)] = true.
Proof. vm_compute. auto. Qed.
Example C97_bounded_ex : (0 < 1 # 10)%Q /\
  Qle_bool (Qabs (rse_at_band (fun f _ => (1 / f)%Q) 2 2 1 ex_phi ex_freq (fun _ => (0, 1, 2)) (fun _ => 2) 1 (1 # 2) 0 2 (1 # 10) 300))
    (qsum (map (fun l => Qabs (fst l)) (spectrum (fun f _ => (1 / f)%Q) 2 2 1 ex_phi ex_freq (fun _ => (0, 1, 2)) (fun _ => 2) (1 # 2) 300 0)) / (2 * (1 # 10))) = true.
Proof. split; [reflexivity|vm_compute; reflexivity]. Qed.
(** all 16 lines are at distance 1/2 or more from 13/2 *)
Example C97_small_epsilon_ex :
  forallb (fun l => Qle_bool (1 # 2) (Qabs ((13 # 2) - snd l))) (spectrum (fun f _ => (1 / f)%Q) 2 2 1 ex_phi ex_freq (fun _ => (0, 1, 2)) (fun _ => 2) (1 # 2) 300 0) = true.
Proof. vm_compute. reflexivity. Qed.
