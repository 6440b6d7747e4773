(** C118: phonons made by rotating eigenvectors (solve_by_rotation) *)
From Coq Require Import ZArith QArith List Bool Lia Lqa Setoid.
From Verif Require Import Base BaseProofs Mat3 QMat Cplx IseSpec IsoSym GridSpec GridModel GridProofs GridProps SnfModel SnfProofs RotModel RotProps BzModel BzProofs BzProps Par Par2 IseProofs DynModel DynProofs DynProps R2nProps Fc3Spec R2rModel R2rProofs R2rShort R2rProps R2rProps2 R2rSym DynSym EvrModel EvrSpectrum EvrProofs.
Import ListNotations.
Open Scope Z_scope.

(** ** operations of the crystal among the reciprocal operations *)
Theorem C118_operations_found : forall rots tr recs, reciprocal_point_group rots tr true = Some recs ->
  exists map, d2r_map recs rots = Some map /\ length map = length rots /\
    forall k, (k < length rots)%nat -> 0 <= nth k map 0 < Z.of_nat (length recs) /\ transp (nth (Z.to_nat (nth k map 0)) recs I3) = nth k rots I3.
Proof.
  intros rots tr recs H. destruct (C07_point_group_contents _ _ _ _ H) as [_ [HI _]].
  assert (A : forall r, In r rots -> exists i, find_first (fun i => meqb (transp (nth (Z.to_nat i) recs I3)) r) (zrange (Z.of_nat (length recs))) = Some i).
  { intros r Hr. destruct (find_first _ _) as [i|] eqn:E; [now exists i|]. exfalso. assert (Hin : In (transp r) recs) by (apply HI; left; cbn; now apply in_map).
    destruct (In_nth recs (transp r) I3 Hin) as [k [Hk Ek]]. pose proof (find_first_none _ _ _ E (Z.of_nat k) ltac:(apply in_zrange; lia)) as F. cbv beta in F. rewrite Nat2Z.id, Ek, transp_transp in F.
    assert (T : meqb r r = true) by now apply meqb_eq. congruence. }
  clear H HI. induction rots as [|r t IH]; [exists []; split; [reflexivity|split; [reflexivity|intros k Hk; cbn in Hk; lia]]|].
  destruct (A r (or_introl eq_refl)) as [i Ei]. destruct IH as [l [El [Ll Hl]]]; [intros; apply A; now right|]. exists (i :: l). cbn [d2r_map]. rewrite Ei, El. split; [reflexivity|]. split; [cbn; now rewrite Ll|].
  intros [|k] Hk; [cbn [nth]; apply find_first_some in Ei; destruct Ei as [E1 E2]; apply in_zrange in E1; apply meqb_eq in E2; now split|apply Hl; cbn in *; lia].
Qed.

(** ** wave vectors of rotated addresses *)
Definition QDinv_of (D : V3) (Qm : M3) (QDinv : Z -> Z -> Q) : Prop := forall j c, 0 <= j < 3 -> 0 <= c < 3 -> (QDinv j c == inject_Z (mentry Qm j c) / inject_Z (ventry D c))%Q.
Lemma grid_q_rotated : forall D Q QDinv rec T a, pos_mesh D -> unimod Q -> QDinv_of D Q QDinv -> exact_transform D Q rec T ->
  forall j, 0 <= j < 3 -> (grid_q QDinv (ventry (mulMV T a)) j == inject_Z (mentry rec j 0) * grid_q QDinv (ventry a) 0%Z + inject_Z (mentry rec j 1) * grid_q QDinv (ventry a) 1%Z + inject_Z (mentry rec j 2) * grid_q QDinv (ventry a) 2%Z)%Q.
Proof.
  intros D Q QDinv rec T a HD HQ HQD HT j Hj. specialize (HT _ (minv_l Q HQ)). set (K := mulMM (minv Q) (mulMM rec Q)) in *.
  assert (QK : mulMM Q K = mulMM rec Q) by (unfold K; rewrite mulMM_assoc, minv_r, mulMM_1_l by assumption; reflexivity). clearbody K.
  unfold grid_q. unfold QDinv_of in HQD. rewrite !HQD by lia. clear HQD QDinv. destruct D as [d0 d1 d2], Q as [a00 a01 a02 a10 a11 a12 a20 a21 a22], T as [t00 t01 t02 t10 t11 t12 t20 t21 t22], rec as [r00 r01 r02 r10 r11 r12 r20 r21 r22], K as [k00 k01 k02 k10 k11 k12 k20 k21 k22], a as [x y z].
  unfold pos_mesh in HD. cbv beta iota in HD. unfold mulMM, diag3 in HT, QK. injection HT. injection QK. clear HT QK HQ. intros Q8 Q7 Q6 Q5 Q4 Q3 Q2 Q1 Q0 T8 T7 T6 T5 T4 T3 T2 T1 T0.
  cbn [mentry ventry mulMV].
  assert (I : forall m, 0 < m -> ~ (inject_Z m == 0)%Q) by (intros m Hm E; unfold inject_Z, Qeq in E; cbn [Qnum Qden] in E; lia).
  pose proof (I d0 ltac:(lia)) as N0. pose proof (I d1 ltac:(lia)) as N1. pose proof (I d2 ltac:(lia)) as N2. clear I.
  assert (TT : forall t d k e, t * e = d * k -> ~ (inject_Z e == 0)%Q -> (inject_Z t == inject_Z d * inject_Z k / inject_Z e)%Q) by (intros t d k e E Ne; rewrite <- inject_Z_mult, <- E, inject_Z_mult; field; exact Ne).
  assert (U00 := TT t00 d0 k00 d0 ltac:(lia) N0). assert (U01 := TT t01 d0 k01 d1 ltac:(lia) N1). assert (U02 := TT t02 d0 k02 d2 ltac:(lia) N2).
  assert (U10 := TT t10 d1 k10 d0 ltac:(lia) N0). assert (U11 := TT t11 d1 k11 d1 ltac:(lia) N1). assert (U12 := TT t12 d1 k12 d2 ltac:(lia) N2).
  assert (U20 := TT t20 d2 k20 d0 ltac:(lia) N0). assert (U21 := TT t21 d2 k21 d1 ltac:(lia) N1). assert (U22 := TT t22 d2 k22 d2 ltac:(lia) N2). clear TT T0 T1 T2 T3 T4 T5 T6 T7 T8.
  assert (Lift : forall a b c a' b' c' p q r p' q' r', a * a' + b * b' + c * c' = p * p' + q * q' + r * r' -> (inject_Z a * inject_Z a' + inject_Z b * inject_Z b' + inject_Z c * inject_Z c' == inject_Z p * inject_Z p' + inject_Z q * inject_Z q' + inject_Z r * inject_Z r')%Q) by (intros * Eq; rewrite <- !inject_Z_mult, <- !inject_Z_plus, Eq; reflexivity).
  apply Lift in Q0, Q1, Q2, Q3, Q4, Q5, Q6, Q7, Q8. clear Lift.
  rewrite !inject_Z_plus, !inject_Z_mult, U00, U01, U02, U10, U11, U12, U20, U21, U22. clear U00 U01 U02 U10 U11 U12 U20 U21 U22.
  set (x' := (inject_Z x / inject_Z d0)%Q). set (y' := (inject_Z y / inject_Z d1)%Q). set (z' := (inject_Z z / inject_Z d2)%Q).
  assert (E : j = 0 \/ j = 1 \/ j = 2) by lia. destruct E as [-> | [-> | -> ]].
  - transitivity ((inject_Z a00 * inject_Z k00 + inject_Z a01 * inject_Z k10 + inject_Z a02 * inject_Z k20) * x' + (inject_Z a00 * inject_Z k01 + inject_Z a01 * inject_Z k11 + inject_Z a02 * inject_Z k21) * y' + (inject_Z a00 * inject_Z k02 + inject_Z a01 * inject_Z k12 + inject_Z a02 * inject_Z k22) * z')%Q; [unfold x', y', z'; field; auto|]. rewrite Q0, Q1, Q2. unfold x', y', z'. field. auto.
  - transitivity ((inject_Z a10 * inject_Z k00 + inject_Z a11 * inject_Z k10 + inject_Z a12 * inject_Z k20) * x' + (inject_Z a10 * inject_Z k01 + inject_Z a11 * inject_Z k11 + inject_Z a12 * inject_Z k21) * y' + (inject_Z a10 * inject_Z k02 + inject_Z a11 * inject_Z k12 + inject_Z a12 * inject_Z k22) * z')%Q; [unfold x', y', z'; field; auto|]. rewrite Q3, Q4, Q5. unfold x', y', z'. field. auto.
  - transitivity ((inject_Z a20 * inject_Z k00 + inject_Z a21 * inject_Z k10 + inject_Z a22 * inject_Z k20) * x' + (inject_Z a20 * inject_Z k01 + inject_Z a21 * inject_Z k11 + inject_Z a22 * inject_Z k21) * y' + (inject_Z a20 * inject_Z k02 + inject_Z a21 * inject_Z k12 + inject_Z a22 * inject_Z k22) * z')%Q; [unfold x', y', z'; field; auto|]. rewrite Q6, Q7, Q8. unfold x', y', z'. field. auto.
Qed.
Lemma grid_q_zero : forall D Q QDinv a, pos_mesh D -> unimod Q -> QDinv_of D Q QDinv -> (forall j, 0 <= j < 3 -> (grid_q QDinv (ventry a) j == 0)%Q) -> a = vzero.
Proof.
  intros D Q QDinv a HD HQ HQD H. pose proof (minv_l Q HQ) as HI. pose proof (H 0 ltac:(lia)) as H0. pose proof (H 1 ltac:(lia)) as H1. pose proof (H 2 ltac:(lia)) as H2. clear H.
  unfold QDinv_of in HQD. unfold grid_q in H0, H1, H2. rewrite !HQD in H0, H1, H2 by lia. clear HQD QDinv. destruct (minv Q) as [i00 i01 i02 i10 i11 i12 i20 i21 i22]. destruct D as [d0 d1 d2], Q as [a00 a01 a02 a10 a11 a12 a20 a21 a22], a as [x y z].
  cbn [mentry ventry] in H0, H1, H2. unfold pos_mesh in HD. cbv beta iota in HD. unfold mulMM, I3 in HI. injection HI. clear HI HQ. intros E22 E21 E20 E12 E11 E10 E02 E01 E00.
  assert (I : forall m, 0 < m -> ~ (inject_Z m == 0)%Q) by (intros m Hm E; unfold inject_Z, Qeq in E; cbn [Qnum Qden] in E; lia).
  pose proof (I d0 ltac:(lia)) as N0. pose proof (I d1 ltac:(lia)) as N1. pose proof (I d2 ltac:(lia)) as N2. clear I.
  assert (Lift : forall a b c a' b' c' d, a * a' + b * b' + c * c' = d -> (inject_Z a * inject_Z a' + inject_Z b * inject_Z b' + inject_Z c * inject_Z c' == inject_Z d)%Q) by (intros * Eq; rewrite <- !inject_Z_mult, <- !inject_Z_plus, Eq; reflexivity).
  apply Lift in E00, E01, E02, E10, E11, E12, E20, E21, E22. clear Lift. change (inject_Z 1) with 1%Q in *. change (inject_Z 0) with 0%Q in *.
  set (x' := (inject_Z x / inject_Z d0)%Q). set (y' := (inject_Z y / inject_Z d1)%Q). set (z' := (inject_Z z / inject_Z d2)%Q).
  assert (K : forall p q r, (inject_Z p / inject_Z d0 * inject_Z x + inject_Z q / inject_Z d1 * inject_Z y + inject_Z r / inject_Z d2 * inject_Z z == 0)%Q -> (inject_Z p * x' + inject_Z q * y' + inject_Z r * z' == 0)%Q) by (intros p q r E; rewrite <- E; unfold x', y', z'; field; auto).
  apply K in H0, H1, H2. clear K.
  assert (X : (x' == 0)%Q). { transitivity ((inject_Z i00 * inject_Z a00 + inject_Z i01 * inject_Z a10 + inject_Z i02 * inject_Z a20) * x' + (inject_Z i00 * inject_Z a01 + inject_Z i01 * inject_Z a11 + inject_Z i02 * inject_Z a21) * y' + (inject_Z i00 * inject_Z a02 + inject_Z i01 * inject_Z a12 + inject_Z i02 * inject_Z a22) * z')%Q; [rewrite E00, E01, E02; ring|].
    transitivity (inject_Z i00 * (inject_Z a00 * x' + inject_Z a01 * y' + inject_Z a02 * z') + inject_Z i01 * (inject_Z a10 * x' + inject_Z a11 * y' + inject_Z a12 * z') + inject_Z i02 * (inject_Z a20 * x' + inject_Z a21 * y' + inject_Z a22 * z'))%Q; [ring|]. rewrite H0, H1, H2. ring. }
  assert (Y : (y' == 0)%Q). { transitivity ((inject_Z i10 * inject_Z a00 + inject_Z i11 * inject_Z a10 + inject_Z i12 * inject_Z a20) * x' + (inject_Z i10 * inject_Z a01 + inject_Z i11 * inject_Z a11 + inject_Z i12 * inject_Z a21) * y' + (inject_Z i10 * inject_Z a02 + inject_Z i11 * inject_Z a12 + inject_Z i12 * inject_Z a22) * z')%Q; [rewrite E10, E11, E12; ring|].
    transitivity (inject_Z i10 * (inject_Z a00 * x' + inject_Z a01 * y' + inject_Z a02 * z') + inject_Z i11 * (inject_Z a10 * x' + inject_Z a11 * y' + inject_Z a12 * z') + inject_Z i12 * (inject_Z a20 * x' + inject_Z a21 * y' + inject_Z a22 * z'))%Q; [ring|]. rewrite H0, H1, H2. ring. }
  assert (W : (z' == 0)%Q). { transitivity ((inject_Z i20 * inject_Z a00 + inject_Z i21 * inject_Z a10 + inject_Z i22 * inject_Z a20) * x' + (inject_Z i20 * inject_Z a01 + inject_Z i21 * inject_Z a11 + inject_Z i22 * inject_Z a21) * y' + (inject_Z i20 * inject_Z a02 + inject_Z i21 * inject_Z a12 + inject_Z i22 * inject_Z a22) * z')%Q; [rewrite E20, E21, E22; ring|].
    transitivity (inject_Z i20 * (inject_Z a00 * x' + inject_Z a01 * y' + inject_Z a02 * z') + inject_Z i21 * (inject_Z a10 * x' + inject_Z a11 * y' + inject_Z a12 * z') + inject_Z i22 * (inject_Z a20 * x' + inject_Z a21 * y' + inject_Z a22 * z'))%Q; [ring|]. rewrite H0, H1, H2. ring. }
  assert (Zr : forall m d, ~ (inject_Z d == 0)%Q -> (inject_Z m / inject_Z d == 0)%Q -> m = 0).
  { intros m d Nd E. assert (E2 : (inject_Z m == 0)%Q) by (transitivity (inject_Z m / inject_Z d * inject_Z d)%Q; [field; exact Nd|rewrite E; ring]). unfold inject_Z, Qeq in E2. cbn [Qnum Qden] in E2. lia. }
  apply Zr in X, Y, W; auto. subst. reflexivity.
Qed.
Lemma turned_transp : forall rec (q q' : Z -> Q), (forall j, 0 <= j < 3 -> (q j == inject_Z (mentry rec j 0) * q' 0%Z + inject_Z (mentry rec j 1) * q' 1%Z + inject_Z (mentry rec j 2) * q' 2%Z)%Q) -> turned_q (mentry (transp rec)) q q'.
Proof.
  intros rec q q' H v. unfold vdot, mapply. rewrite !H by lia. destruct rec. cbn [transp mentry]. ring.
Qed.
(** ** the rotation in Cartesian coordinates *)
Lemma similarity_transp : forall L rec R, ~ (qdet L == 0)%Q -> orthogonal R -> cartesian (mentry (transp rec)) R (qmentry L) -> forall a b, 0 <= a < 3 -> 0 <= b < 3 -> (qmentry (similarity L rec) a b == R b a)%Q.
Proof.
  intros L rec R HL Ho HC.
  set (S := qmentry (similarity L rec)).
  assert (RS : forall c k, 0 <= c < 3 -> 0 <= k < 3 -> (R c 0%Z * S 0%Z k + R c 1%Z * S 1%Z k + R c 2%Z * S 2%Z k == if (c =? k)%Z then 1 else 0)%Q).
  { intros c k Hc Hk. set (q' := fun j => qmentry (qinv L) j k). set (q := fun j => (inject_Z (mentry rec j 0) * q' 0%Z + inject_Z (mentry rec j 1) * q' 1%Z + inject_Z (mentry rec j 2) * q' 2%Z)%Q).
    pose proof (HC q q' (turned_transp rec q q' (fun _ _ => Qeq_refl _)) c Hc) as E.
    assert (A : forall d, 0 <= d < 3 -> (to_cart (qmentry L) q d == S d k)%Q).
    { intros d Hd. unfold to_cart. rewrite sum3_eq. unfold q, q', S, similarity. generalize (qinv L). intros Li. clear HL HC E q q' S. destruct L, Li, rec. assert (D3 : d = 0 \/ d = 1 \/ d = 2) by lia. assert (K3 : k = 0 \/ k = 1 \/ k = 2) by lia. destruct D3 as [-> | [-> | -> ]], K3 as [-> | [-> | -> ]]; cbn [qmentry mentry qmulMM qm_of]; unfold qz; ring. }
    rewrite !A in E by lia. rewrite <- E. unfold to_cart. rewrite sum3_eq. unfold q'. clear -HL Hc Hk. destruct L as [a00 a01 a02 a10 a11 a12 a20 a21 a22].
    assert (C3 : c = 0 \/ c = 1 \/ c = 2) by lia. assert (K3 : k = 0 \/ k = 1 \/ k = 2) by lia. destruct C3 as [-> | [-> | -> ]], K3 as [-> | [-> | -> ]]; cbn [qmentry qinv Z.eqb Pos.eqb]; cbn [qdet] in *; field; intros X; apply HL; rewrite <- X; ring. }
  intros a b Ha Hb.
  transitivity ((if (a =? 0)%Z then 1 else 0) * S 0%Z b + (if (a =? 1)%Z then 1 else 0) * S 1%Z b + (if (a =? 2)%Z then 1 else 0) * S 2%Z b)%Q; [assert (A3 : a = 0 \/ a = 1 \/ a = 2) by lia; destruct A3 as [-> | [-> | -> ]]; cbn [Z.eqb Pos.eqb]; ring|].
  rewrite <- (Ho a 0 Ha ltac:(lia)), <- (Ho a 1 Ha ltac:(lia)), <- (Ho a 2 Ha ltac:(lia)).
  transitivity (R 0%Z a * (R 0%Z 0%Z * S 0%Z b + R 0%Z 1%Z * S 1%Z b + R 0%Z 2%Z * S 2%Z b) + R 1%Z a * (R 1%Z 0%Z * S 0%Z b + R 1%Z 1%Z * S 1%Z b + R 1%Z 2%Z * S 2%Z b) + R 2%Z a * (R 2%Z 0%Z * S 0%Z b + R 2%Z 1%Z * S 1%Z b + R 2%Z 2%Z * S 2%Z b))%Q; [ring|].
  rewrite !RS by lia. assert (B3 : b = 0 \/ b = 1 \/ b = 2) by lia. destruct B3 as [-> | [-> | -> ]]; cbn [Z.eqb Pos.eqb]; ring.
Qed.

(** ** C118 *)
(** rotating a stored address gives a stored address and the index function finds it (C13_stored_points_closed_under_symmetry, below) *)
Definition keeps_points (B : BzIn) (o : BzOut) (ty : Z) (T : M3) : Prop :=
  forall x, 0 <= x < o_size o -> let y := bz_rotate_grid_index B o ty x T in 0 <= y < o_size o /\ o_addr o y = mulMV T (o_addr o x).
Lemma C118_points_kept : forall B ty init o T S, good_in B -> ty = 1 \/ ty = 2 -> get_bz_grid_addresses B ty init = Some o -> bPS B = vzero ->
  no_band B (bz_tolerance B) -> search_complete B (bz_tolerance B) -> mulMM T S = I3 -> compat (bD B) T -> compat (bD B) S -> isometry B T -> isometry B S -> keeps_points B o ty T.
Proof.
  intros B ty init o T S HB Hty H HPS Hb Hs E CT CS IT IS x Hx. assert (Sh : forall R, shift_ok (bPS B) R) by (intros R; rewrite HPS; exists vzero; destruct R; unfold vzero; cbn; f_equal; ring).
  destruct (C13_stored_points_closed_under_symmetry B ty init o T S HB Hty H Hb Hs E CT CS (Sh _) (Sh _) IT IS x Hx) as [H1 H2]. split; [exact H1|].
  rewrite HPS in H2. unfold dbl in H2. destruct (o_addr o _) as [a b c]. destruct (o_addr o x) as [d e f]. destruct T. unfold vzero in H2. cbn in H2. cbn. injection H2. intros. f_equal; lia.
Qed.
(** phonopy's eigenvalue solver at every grid point: the eigenvalues in ascending order, turned into frequencies by [conv], and an orthonormal basis of eigenvectors *)
Definition solves (np size : Z) (Mat : Z -> Z -> Z -> cplx) (conv : Q -> Q) (s : Z -> (Z -> Q) * (Z -> Z -> cplx)) : Prop :=
  forall gp, 0 <= gp < size -> phonon_at np Mat conv gp (fst (s gp)) (snd (s gp)).

Section T.
Variable cis : Q -> cplx.
Variable sq : Q -> Q.
Variable x : Z -> Z -> Q.
Variable Ms : Z -> Z -> Z.
Variable len : (Z -> Q) -> Q.
Variable tol : Q.
Variable np ns ntrans : Z.
Variable tperms : Z -> Z -> Z.
Variable svecs : Z -> Z -> Q.
Variable multi : Z -> Z * Z.
Variable p2s s2p p2p nsym : Z -> Z.
Variable fc : Z -> Q.
Variable F : Z * Z -> Z * Z -> Q.
Variable mass : Z -> Q.
Hypothesis Hcis : even_odd cis.
Hypothesis Hsq : respects sq.
Hypothesis Cr : crystal x Ms len tol np ns ntrans tperms svecs multi p2s s2p p2p nsym.
Hypothesis Rep : represents2 np ns p2s fc F.
Hypothesis Inv : invariant2 ns ntrans tperms F.
(** the grid *)
Variable B : BzIn.
Variable o : BzOut.
Variable ty : Z.
Variable L : QM.
Variable QDinv : Z -> Z -> Q.
Variable rots recs grots : list M3.
Variable tr : bool.
Hypothesis HD : pos_mesh (bD B).
Hypothesis HDb : mesh_below 100000 (bD B).
Hypothesis HQ : unimod (bQ B).
Hypothesis HQD : QDinv_of (bD B) (bQ B) QDinv.
Hypothesis HL : ~ (qdet L == 0)%Q.
Hypothesis Hrecs : reciprocal_point_group rots tr true = Some recs.
Hypothesis Hgrots : transform_rotations (bD B) (bQ B) recs = Some grots.
Hypothesis Hkeep : forall T, In T grots -> keeps_points B o ty T.
Hypothesis Hkeepm : keeps_points B o ty (mneg I3).
(** the operations of the crystal *)
Variable tau : Z -> Z -> Q.
Variable perms : Z -> Z -> Z.
Variable born : option (Z -> Z -> Z -> Q).
Variable eps : Z -> Z -> Q.
Definition charges : Z -> Z -> Z -> Q := match born with Some b => b | None => fun _ _ _ => 0%Q end.
Definition symmetry_of (W : Z -> Z -> Z) (pm : Z -> Z) (G : (Z -> Z -> Q) -> Prop) : Prop :=
  exists Wi R pi pi' pm', operation x Ms len np ns (fun s => p2p (s2p s)) W Wi R pi pi' pm pm' /\ covariant2 ns R pi F /\ (forall i, 0 <= i < np -> (mass (pm i) == mass i)%Q) /\ cartesian W R (qmentry L) /\
    (forall i k l, 0 <= i < np -> 0 <= k < 3 -> 0 <= l < 3 -> (charges (pm i) k l == Rturn2 R (charges i) k l)%Q) /\ (forall k l, 0 <= k < 3 -> 0 <= l < 3 -> (eps k l == Rturn2 R eps k l)%Q) /\ G R.
Variable conv : Q -> Q.
Hypothesis Hconv : respects conv.
Variable solve : Z -> (Z -> Q) * (Z -> Z -> cplx).
Variable other : phonons -> Z -> (Z -> Q) * (Z -> Z -> cplx).
Variable irs : list Z.
Hypothesis Hirs : forall ir, In ir irs -> 0 <= ir < o_size o.
Hypothesis Hunit : forall y, unit_phase (cis y).
Let run := run_phonon_solver_with_eigvec_rotation cis solve other B o ty grots recs L QDinv rots tau perms irs.
Let Hnp : 0 <= np. Proof. pose proof (cr_np _ _ _ _ _ _ _ _ _ _ _ _ _ _ Cr). lia. Qed.
Let adr gp := ventry (o_addr o gp).
(** what the theorems say: the run ends, every grid point is done, frequencies are those solved directly, eigenvectors are an orthonormal basis of eigenvectors *)
Definition same_phonons (Mat : Z -> Z -> Z -> cplx) (s : phonons) : Prop :=
  exists s', run s = Some s' /\ forall gp, 0 <= gp < o_size o -> done s' gp = true /\ phonon_at np Mat conv gp (freq s' gp) (eig s' gp) /\ forall b, 0 <= b < np * 3 -> (freq s' gp b == fst (solve gp) b)%Q.
(** the pieces used by both treatments of the non-analytical term *)
Lemma pieces : exists map, d2r_map recs rots = Some map /\ length map = length rots /\
  forall k ir, (k < length rots)%nat -> 0 <= ir < o_size o -> let y := bz_rotate_grid_index B o ty ir (nth (Z.to_nat (nth k map 0)) grots I3) in
    transp (nth (Z.to_nat (nth k map 0)) recs I3) = nth k rots I3 /\ 0 <= y < o_size o /\ turned_q (mentry (nth k rots I3)) (grid_q QDinv (adr y)) (grid_q QDinv (adr ir)).
Proof.
  destruct (C118_operations_found _ _ _ Hrecs) as [map [Hm [Hl Hk]]]. exists map. split; [exact Hm|]. split; [exact Hl|]. intros k ir Hk1 Hir y. destruct (Hk k Hk1) as [H1 H2]. split; [exact H2|].
  pose proof (C10_transformed_rotations_exact _ _ _ _ HD HDb HQ Hgrots) as Ex. set (i := Z.to_nat (nth k map 0)) in *. assert (Hi : (i < length recs)%nat) by (unfold i; lia).
  assert (Lg : length recs = length grots) by (clear -Ex; induction Ex; cbn; congruence).
  assert (E : exact_transform (bD B) (bQ B) (nth i recs I3) (nth i grots I3)).
  { clear -Ex Hi. clearbody i. clear map k. revert i Hi. induction Ex as [|r t l l' E _ IH]; intros i Hi; [cbn in Hi; lia|]. destruct i as [|i]; [exact E|]. cbn [nth]. apply IH. cbn in Hi. lia. }
  destruct (Hkeep (nth i grots I3) ltac:(apply nth_In; lia) ir Hir) as [Hy Ay]. fold y in Hy, Ay. split; [exact Hy|].
  rewrite <- H2. apply turned_transp. intros j Hj. unfold adr. rewrite Ay. now apply (grid_q_rotated (bD B) (bQ B)).
Qed.
Lemma run_same : forall (Mat : Z -> Z -> Z -> cplx) (G : Z -> (Z -> Z -> Q) -> Prop) s,
  (forall d, 0 <= d < Z.of_nat (length rots) -> symmetry_of (mentry (nth (Z.to_nat d) rots I3)) (perms d) (G d)) ->
  (forall d Wi R pi pi' pm' gp ir, 0 <= d < Z.of_nat (length rots) -> 0 <= gp < o_size o -> 0 <= ir < o_size o -> let W := mentry (nth (Z.to_nat d) rots I3) in
    operation x Ms len np ns (fun s => p2p (s2p s)) W Wi R pi pi' (perms d) pm' -> covariant2 ns R pi F -> (forall i, 0 <= i < np -> (mass (perms d i) == mass i)%Q) -> cartesian W R (qmentry L) ->
    (forall i k l, 0 <= i < np -> 0 <= k < 3 -> 0 <= l < 3 -> (charges (perms d i) k l == Rturn2 R (charges i) k l)%Q) -> (forall k l, 0 <= k < 3 -> 0 <= l < 3 -> (eps k l == Rturn2 R eps k l)%Q) -> G d R ->
    turned_q W (grid_q QDinv (adr gp)) (grid_q QDinv (adr ir)) ->
    forall e e' lambda, carried np R (perms d) e e' -> (eigen (np * 3) (Mat gp) lambda e <-> eigen (np * 3) (Mat ir) lambda e')) ->
  (forall gp gp', 0 <= gp < o_size o -> 0 <= gp' < o_size o -> (forall m, 0 <= m < 3 -> adr gp m = - adr gp' m) -> forall a b, 0 <= a < np * 3 -> 0 <= b < np * 3 -> Mat gp a b =c= conj (Mat gp' a b)) ->
  solves np (o_size o) Mat conv solve -> same_phonons Mat s.
Proof.
  intros Mat G s Hsym Htm Hneg Hs. destruct pieces as [map [Hm [Hl Hp]]].
  assert (Neg : forall y, 0 <= y < o_size o -> let y' := bz_rotate_grid_index B o ty y (mneg I3) in 0 <= y' < o_size o /\ forall a b, 0 <= a < np * 3 -> 0 <= b < np * 3 -> Mat y a b =c= conj (Mat y' a b)).
  { intros y Hy y'. destruct (Hkeepm y Hy) as [H1 H2]. fold y' in H1, H2. split; [exact H1|]. apply Hneg; [exact Hy|exact H1|]. intros m Hm3. unfold adr. rewrite H2. destruct (o_addr o y) as [a b c]. assert (M3 : m = 0 \/ m = 1 \/ m = 2) by lia. unfold mneg, I3. destruct M3 as [-> | [-> | -> ]]; cbn [mulMV ventry]; lia. }
  destruct (run_good cis solve other B o ty grots recs L QDinv rots tau perms np Mat conv irs Hnp Hunit Hs Hirs Neg map s Hm) as [s' [R1 R2]].
  - intros k ir Hk Hir. rewrite Hl in Hk. destruct (Hp k ir Hk (Hirs ir Hir)) as [E1 [E2 E3]]. set (d := Z.of_nat k). assert (Hd : 0 <= d < Z.of_nat (length rots)) by (unfold d; lia).
    assert (Ed : nth (Z.to_nat d) rots I3 = nth k rots I3) by (unfold d; now rewrite Nat2Z.id).
    destruct (Hsym d Hd) as [Wi [R [pi [pi' [pm' [Op [Cov [Ms' [Ct [Cb [Ce Cg]]]]]]]]]]]. exists R, pm'. split; [exact (op_orth _ _ _ _ _ _ _ _ _ _ _ _ _ Op)|]. split; [exact (op_pm _ _ _ _ _ _ _ _ _ _ _ _ _ Op)|]. split.
    + apply similarity_transp; [exact HL|exact (op_orth _ _ _ _ _ _ _ _ _ _ _ _ _ Op)|]. rewrite E1, <- Ed. exact Ct.
    + apply (Htm d Wi R pi pi' pm' _ _ Hd E2 (Hirs ir Hir) Op Cov Ms' Ct Cb Ce Cg). rewrite Ed. exact E3.
  - exists s'. split; [exact R1|]. intros gp Hgp. destruct (R2 gp Hgp) as [D P]. split; [exact D|]. split; [exact P|]. intros b Hb. destruct P as [w [S1 F1]]. destruct (Hs gp Hgp) as [w' [S2 F2]].
    rewrite (F1 b Hb), (F2 b Hb). apply Hconv. apply (same_spectrum (np * 3) (Mat gp) w w' _ _ S1 S2 b Hb).
Qed.
Lemma same_nac : forall d Wi R pi pi' pm' gp ir, operation x Ms len np ns (fun s => p2p (s2p s)) (mentry (nth (Z.to_nat d) rots I3)) Wi R pi pi' (perms d) pm' ->
  turned_q (mentry (nth (Z.to_nat d) rots I3)) (grid_q QDinv (adr gp)) (grid_q QDinv (adr ir)) -> forall b, needs_nac b (adr gp) None = needs_nac b (adr ir) None.
Proof.
  intros d Wi R pi pi' pm' gp ir Op Tq b. set (W := mentry _) in *.
  assert (Zq : (forall j, 0 <= j < 3 -> (grid_q QDinv (adr gp) j == 0)%Q) <-> (forall j, 0 <= j < 3 -> (grid_q QDinv (adr ir) j == 0)%Q)).
  { assert (Tv : forall (q : Z -> Q), (forall v, (vdot q v == 0)%Q) <-> (forall j, 0 <= j < 3 -> (q j == 0)%Q)).
    { intros q. split; [|intros H v; unfold vdot; rewrite !H by lia; ring]. intros H j Hj. pose proof (H (fun k => if k =? j then 1 else 0)%Q) as E. unfold vdot in E. assert (J3 : j = 0 \/ j = 1 \/ j = 2) by lia. destruct J3 as [-> | [-> | -> ]]; cbn [Z.eqb Pos.eqb] in E; lra. }
    rewrite <- !Tv. split; intros H v.
    - destruct (op_inv _ _ _ _ _ _ _ _ _ _ _ _ _ Op v) as [_ Ev]. rewrite <- (H (mapply Wi v)), <- (Tq (mapply Wi v)). unfold vdot. unfold veq in Ev. rewrite !Ev by lia. reflexivity.
    - rewrite <- (Tq v). apply H. }
  assert (Za : forall g, (forall j, 0 <= j < 3 -> (grid_q QDinv (adr g) j == 0)%Q) <-> o_addr o g = vzero).
  { intros g. split; [apply (grid_q_zero (bD B) (bQ B)); assumption|]. intros E j Hj. unfold adr, grid_q. rewrite E. cbn [ventry vzero]. change (inject_Z 0) with 0%Q. ring. }
  rewrite !Za in Zq. unfold needs_nac, adr. destruct b; [|reflexivity]. f_equal. rewrite !andb_true_r.
  assert (T : forall g, ((ventry (o_addr o g) 0 =? 0) && (ventry (o_addr o g) 1 =? 0) && (ventry (o_addr o g) 2 =? 0)) = true <-> o_addr o g = vzero).
  { intros g. rewrite !andb_true_iff, !Z.eqb_eq. destruct (o_addr o g) as [a b c]. cbn [ventry]. unfold vzero. split; [intros [[-> ->] ->]; reflexivity|intros E; injection E; auto]. }
  apply eq_true_iff_eq. rewrite !T. exact Zq.
Qed.
(** without non-analytical term or with that of Wang et al. *)
Theorem C118_wang : forall nac D s, let Mat gp := elem (np * 3) (undone_matrix cis sq np ns fc svecs multi mass s2p p2s QDinv (adr gp) born eps (qmentry L) None nac D) in
  (forall d, 0 <= d < Z.of_nat (length rots) -> symmetry_of (mentry (nth (Z.to_nat d) rots I3)) (perms d) (fun _ => True)) ->
  solves np (o_size o) Mat conv solve -> same_phonons Mat s.
Proof.
  intros nac D s Mat Hsym Hs. apply (run_same Mat (fun _ _ => True) s Hsym); [| |exact Hs].
  - intros d Wi R pi pi' pm' gp ir Hd Hgp Hir W Op Cov Ma Ct Cb Ce _ Tq.
    assert (Eq : forall g, Mat g = elem (np * 3) (wang_matrix cis sq np ns fc svecs multi mass s2p p2s (needs_nac (match born with Some _ => true | None => false end) (adr g) None) (grid_q QDinv (adr g)) charges eps (qmentry L) None nac D)).
    { intros g. unfold Mat, undone_matrix, charges. destruct born; reflexivity. }
    rewrite !Eq, (same_nac d Wi R pi pi' pm' gp ir Op Tq). intros e e' lambda.
    apply (proj2 (C88_frequencies cis sq x Ms len tol np ns ntrans tperms svecs multi p2s s2p p2p nsym W Wi R pi pi' (perms d) pm' fc F mass (proj1 Hcis) Hsq Cr Op Rep Inv Cov Ma (qmentry L) charges eps Ct Cb Ce _ _ _ None None nac D D Tq I) e e' lambda).
  - intros gp gp' Hgp Hgp' Ha a b Hra Hrb. destruct (split3 np a Hra) as [i [k [Hi [Hk ->]]]]. destruct (split3 np b Hrb) as [j [l [Hj [Hl ->]]]]. unfold Mat. now apply C73_wang.
Qed.
(** with the non-analytical term of Gonze et al. *)
Variable ex : Q -> Q.
Hypothesis Hex : respects ex.
Hypothesis Period : forall a n, cis (a + inject_Z n)%Q =c= cis a.
Variable pos : Z -> Z -> Q.
Theorem C118_gonze : forall b nac Gs0 Gs lambda0 tol0 lambda tolr D s, born = Some b -> neg_closed Gs0 -> neg_closed Gs ->
  let q0 := recip_dd_q0 cis sq ex np Gs0 b eps pos lambda0 tol0 in
  let Mat gp := elem (np * 3) (gonze_undone_matrix cis sq ex np ns fc svecs multi mass s2p p2s QDinv (adr gp) b eps (qmentry L) None nac q0 Gs pos lambda tolr D) in
  (forall d, 0 <= d < Z.of_nat (length rots) -> symmetry_of (mentry (nth (Z.to_nat d) rots I3)) (perms d) (fun R => turned_positions np R (perms d) pos Gs0 /\ turned_set R Gs0 /\ turned_positions np R (perms d) pos Gs /\ turned_set R Gs)) ->
  solves np (o_size o) Mat conv solve -> same_phonons Mat s.
Proof.
  intros b nac Gs0 Gs lambda0 tol0 lambda tolr D s Hb N0 N1 q0 Mat Hsym Hs. apply (run_same Mat (fun d R => turned_positions np R (perms d) pos Gs0 /\ turned_set R Gs0 /\ turned_positions np R (perms d) pos Gs /\ turned_set R Gs) s Hsym); [| |exact Hs].
  - intros d Wi R pi pi' pm' gp ir Hd Hgp Hir W Op Cov Ma Ct Cb Ce [P0 [T0 [P1 T1]]] Tq. unfold charges in Cb. rewrite Hb in Cb. intros e e' lam.
    apply (proj2 (C88_gonze cis sq x Ms len tol np ns ntrans tperms svecs multi p2s s2p p2p nsym W Wi R pi pi' (perms d) pm' fc F mass (proj1 Hcis) Hsq Cr Op Rep Inv Cov Ma (qmentry L) b eps Ct Cb Ce ex Hex Period pos _ _ None None nac Gs0 Gs lambda0 tol0 lambda tolr D D Tq I P0 T0 P1 T1) e e' lam).
  - intros gp gp' Hgp Hgp' Ha z z' Hra Hrb. destruct (split3 np z Hra) as [i [k [Hi [Hk ->]]]]. destruct (split3 np z' Hrb) as [j [l [Hj [Hl ->]]]]. unfold Mat, q0. now apply C73_gonze.
Qed.
End T.
Print Assumptions C118_operations_found. Print Assumptions C118_points_kept. Print Assumptions C118_wang. Print Assumptions C118_gonze.
