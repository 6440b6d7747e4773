(** Dynamical matrices at equivalent q-points: examples for C88 *)
From Coq Require Import ZArith QArith List Bool Lia Lqa Setoid Permutation.
From Verif Require Import Base BaseProofs QMat Par Par2 IseSpec IseProofs Cplx DynModel DynProofs DynProps R2nProps Fc3Spec R2rModel R2rProofs R2rShort R2rProps R2rProps2 R2rSym R2rEx DynSym.
Import ListNotations.
Open Scope Z_scope.

(** the chain of R2rEx.v; Wc reverses the chain and exchanges the other two axes *)
Definition T1 (k l : Z) : Q := match k, l with 0, 0 => (-(1))%Q | 0, 1 => (1)%Q | 0, 2 => (2)%Q | 1, 0 => (-(2))%Q | 2, 0 => (-(1))%Q | 1, 2 => (3)%Q | 2, 1 => (5)%Q | _, _ => (-(2))%Q end.
Definition T0 (k l : Z) : Q := match k, l with 0, 0 => (2)%Q | 1, 1 => (4)%Q | 2, 2 => (4)%Q | 1, 2 => (1)%Q | 2, 1 => (1)%Q | _, _ => (0)%Q end.
Definition F2 (x y : Z * Z) : Q := match (fst y - fst x) mod 3 with 0 => T0 (snd x) (snd y) | 1 => T1 (snd x) (snd y) | _ => T1 (snd y) (snd x) end.
Definition fc2c (r : Z) : Q := F2 (0, r / 3 mod 3) (r / 9 mod 3, r mod 3).
Lemma fc2c_represents : represents2 1 3 zero fc2c F2.
Proof. intros i s k l Hi Hs Hk Hl. assert (i = 0) as -> by lia. three s; three k; three l; reflexivity. Qed.
Lemma F2_invariant : invariant2 3 3 shift3 F2.
Proof. intros u a b k l Hu Ha Hb Hk Hl. unfold F2. cbn [fst snd]. replace ((shift3 u b - shift3 u a) mod 3) with ((b - a) mod 3); [reflexivity|]. unfold shift3. rewrite <- Zminus_mod. f_equal. lia. Qed.
Lemma F2_covariant : covariant2 3 Rc home3 F2.
Proof. intros a b k l Ha Hb Hk Hl. three a; three b; three k; three l; reflexivity. Qed.
Definition bornc (i k l : Z) : Q := match k, l with 0, 0 => (1)%Q | 1, 1 => (2)%Q | 2, 2 => (2)%Q | _, _ => (0)%Q end.
Definition epsc (k l : Z) : Q := match k, l with 0, 0 => (3)%Q | 1, 1 => (5)%Q | 2, 2 => (5)%Q | 1, 2 => (1)%Q | 2, 1 => (1)%Q | _, _ => (0)%Q end.
Definition idc (k l : Z) : Q := if k =? l then 1%Q else 0%Q.
Definition massc (_ : Z) : Q := 2%Q.
Definition idq (x : Q) : Q := x.
Definition posc (_ : Z) : Z -> Q := v3 (1 # 4) 0 0.
Definition Gc : list (Z -> Q) := [v3 0 0 0; v3 1 0 0; v3 (-1) 0 0; v3 0 1 0; v3 0 0 1].
Definition qa := v3 (1 # 4) (1 # 4) 0.
Definition qb := v3 (-1 # 4) 0 (1 # 4).
Lemma q_turned : turned_q Wc qa qb.
Proof. intros v. exact (q3_rotated 0 v ltac:(lia)). Qed.
Lemma Wc_apply : forall v, (mapply Wc v 0%Z == - v 0%Z /\ mapply Wc v 1%Z == v 2%Z /\ mapply Wc v 2%Z == v 1%Z)%Q.
Proof. intros v. unfold mapply. change (Wc 0 0) with (-1); change (Wc 0 1) with 0; change (Wc 0 2) with 0; change (Wc 1 0) with 0; change (Wc 1 1) with 0; change (Wc 1 2) with 1; change (Wc 2 0) with 0; change (Wc 2 1) with 1; change (Wc 2 2) with 0. change (inject_Z 1) with 1%Q. change (inject_Z 0) with 0%Q. change (inject_Z (-1)) with (-1)%Q. repeat split; ring. Qed.
Lemma chain_cartesian : cartesian Wc Rc idc.
Proof.
  intros q q' H c Hc. assert (S : forall p a, 0 <= a < 3 -> (to_cart idc p a == p a)%Q) by (intros p a Ha; unfold to_cart; rewrite sum3_eq; three a; cbn [idc Z.eqb Pos.eqb]; unfold idc; cbn [Z.eqb Pos.eqb]; ring). rewrite !S by lia.
  pose proof (H (v3 1 0 0)) as H0. pose proof (H (v3 0 1 0)) as H1. pose proof (H (v3 0 0 1)) as H2. unfold vdot in *.
  destruct (Wc_apply (v3 1 0 0)) as [A0 [A1 A2]]. destruct (Wc_apply (v3 0 1 0)) as [B0 [B1 B2]]. destruct (Wc_apply (v3 0 0 1)) as [C0 [C1 C2]]. rewrite A0, A1, A2 in H0. rewrite B0, B1, B2 in H1. rewrite C0, C1, C2 in H2. cbn [v3] in *.
  unfold Rc. three c; [change (Wc 0 0) with (-1); change (Wc 0 1) with 0; change (Wc 0 2) with 0|change (Wc 1 0) with 0; change (Wc 1 1) with 0; change (Wc 1 2) with 1|change (Wc 2 0) with 0; change (Wc 2 1) with 1; change (Wc 2 2) with 0]; change (inject_Z 1) with 1%Q; change (inject_Z 0) with 0%Q; change (inject_Z (-1)) with (-1)%Q; lra.
Qed.
Lemma bornc_turned : forall i k l, 0 <= i < 1 -> 0 <= k < 3 -> 0 <= l < 3 -> (bornc (idz i) k l == Rturn2 Rc (bornc i) k l)%Q.
Proof. intros i k l Hi Hk Hl. three k; three l; reflexivity. Qed.
Lemma epsc_turned : forall k l, 0 <= k < 3 -> 0 <= l < 3 -> (epsc k l == Rturn2 Rc epsc k l)%Q.
Proof. intros k l Hk Hl. three k; three l; reflexivity. Qed.
Lemma Gc_turned : turned_set Rc Gc.
Proof.
  exists [v3 0 0 0; v3 (-1) 0 0; v3 1 0 0; v3 0 0 1; v3 0 1 0]. split.
  - unfold Gc. apply perm_skip. eapply perm_trans; [apply perm_swap|]. apply perm_skip, perm_skip, perm_swap.
  - repeat constructor; intros c Hc; three c; reflexivity.
Qed.
Lemma posc_turned : turned_positions 1 Rc idz posc Gc.
Proof.
  exists (v3 (1 # 2) 0 0), (fun _ => v3 0 0 0). split.
  - intros i Hi c Hc. three c; reflexivity.
  - intros i G Hi HG. exists 0. unfold vdot. cbn [v3]. change (inject_Z 0) with 0%Q. ring.
Qed.
Lemma qcis_period : forall a n, qcis (a + inject_Z n)%Q =c= qcis a.
Proof.
  intros a n. assert (E : forall z, qcis (Qred z) = qcis z) by (intros z; unfold qcis; rewrite (Qred_complete (4 * Qred z) (4 * z)) by (rewrite Qred_correct; reflexivity); reflexivity).
  assert (D : forall z m, Qden (Qred (z + inject_Z m)) = Qden (Qred z) /\ Qnum (Qred (z + inject_Z m)) = Qnum (Qred z) + m * Zpos (Qden (Qred z))).
  { intros z m. rewrite (Qred_complete (z + inject_Z m) (Qmake (Qnum (Qred z) + m * Zpos (Qden (Qred z))) (Qden (Qred z)))).
    - rewrite Qcanon.Qred_identity; [split; reflexivity|]. cbn [Qnum Qden]. rewrite Z.add_comm, Z.gcd_comm, (Z.add_comm), Z.gcd_add_mult_diag_r, Z.gcd_comm. apply Qcanon.Qred_iff. apply Qcanon.Qred_involutive.
    - rewrite <- (Qred_correct z) at 1. destruct (Qred z) as [u d]. unfold Qeq, Qplus, inject_Z. cbn [Qnum Qden]. rewrite !Pos2Z.inj_mul. ring. }
  unfold qcis. rewrite (Qred_complete (4 * (a + inject_Z n)) (4 * a + inject_Z (4 * n))) by (rewrite inject_Z_mult; change (inject_Z 4) with 4%Q; ring).
  destruct (D (4 * a)%Q (4 * n)) as [-> ->]. destruct (Pos.eqb_spec (Qden (Qred (4 * a))) 1) as [->|]; [|reflexivity]. rewrite (quarter_eq _ (Qnum (Qred (4 * a)))); [reflexivity|]. rewrite Z.mul_1_r, (Z.mul_comm 4), Z.mod_add by lia. reflexivity.
Qed.
Definition wangc (nac : bool) q := elem (1 * 3) (wang_matrix qcis idq 1 3 fc2c xc mu3 massc zero zero nac q bornc epsc idc None 2 garbage).
Definition q0c := recip_dd_q0 qcis idq Qinv 1 Gc bornc epsc posc 1 (1 # 10).
Definition gonzec q := elem (1 * 3) (gonze_matrix qcis idq Qinv 1 3 fc2c xc mu3 massc zero zero q bornc epsc idc None 2 q0c Gc posc 1 (1 # 10) garbage).
Example C88_ex : proper_cis qcis /\ respects idq /\ respects Qinv /\ crystal xc Mc len2 (1 # 10) 1 3 3 shift3 xc mu3 zero zero zero home3 /\ operation xc Mc len2 1 3 (fun s => zero (zero s)) Wc Wc Rc home3 home3 idz idz /\
  represents2 1 3 zero fc2c F2 /\ invariant2 3 3 shift3 F2 /\ covariant2 3 Rc home3 F2 /\ (forall i, 0 <= i < 1 -> (massc (idz i) == massc i)%Q) /\ cartesian Wc Rc idc /\ turned_q Wc qa qb /\ turned_dir Wc None None /\
  (forall i k l, 0 <= i < 1 -> 0 <= k < 3 -> 0 <= l < 3 -> (bornc (idz i) k l == Rturn2 Rc (bornc i) k l)%Q) /\ (forall k l, 0 <= k < 3 -> 0 <= l < 3 -> (epsc k l == Rturn2 Rc epsc k l)%Q) /\
  (forall a n, qcis (a + inject_Z n)%Q =c= qcis a) /\ turned_positions 1 Rc idz posc Gc /\ turned_set Rc Gc /\
  map (fun z => show (wangc true qa (fst z) (snd z))) [(0, 1); (0, 2); (1, 1); (2, 2)] = [(1 # 24, 3 # 4); (0, 3 # 4); (13 # 12, 0); (1, 0)]%Q /\
  map (fun z => show (wangc true qb (fst z) (snd z))) [(0, 1); (0, 2); (1, 1); (2, 2)] = [(0, -3 # 4); (-1 # 24, -3 # 4); (1, 0); (13 # 12, 0)]%Q /\
  map (fun z => show (gonzec qa (fst z) (snd z))) [(0, 1); (1, 2)] = [(-10241 # 11520, 3 # 4); (7 # 36, -1 # 2)]%Q /\
  map (fun z => show (gonzec qb (fst z) (snd z))) [(0, 2); (1, 2)] = [(10241 # 11520, -3 # 4); (7 # 36, 1 # 2)]%Q.
Proof.
  split; [exact qcis_proper|]. split; [intros a b H; exact H|]. split; [intros a b H; now apply Qinv_comp|]. split; [exact chain_crystal|]. split; [exact chain_operation|]. split; [exact fc2c_represents|]. split; [exact F2_invariant|]. split; [exact F2_covariant|]. split; [reflexivity|]. split; [exact chain_cartesian|]. split; [exact q_turned|]. split; [exact I|]. split; [exact bornc_turned|]. split; [exact epsc_turned|]. split; [exact qcis_period|]. split; [exact posc_turned|]. split; [exact Gc_turned|].
  split; [|split; [|split]]; vm_compute; reflexivity.
Qed.
Print Assumptions C88_matrix. Print Assumptions C88_frequencies. Print Assumptions C88_gonze.
