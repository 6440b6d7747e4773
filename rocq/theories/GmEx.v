(** Examples for C119. *)
From Coq Require Import ZArith QArith Qabs List Lia Lqa Bool.
From Verif Require Import Base BaseProofs Mat3 QMat GridSpec GridProofs SnfModel SnfProofs SnfProps RotModel RotProps GmModel GmProps.
Import ListNotations.
Open Scope Z_scope.

(** a body-centred type of cell made of a face-centred tetragonal one: rows of the lattice are (c2 + c3) / 2, (c1 + c3) / 2, (c1 + c2) / 2 of
    the conventional vectors c1, c2 of length 1 and c3 of length 2 *)
Definition Lf : QM := qm 0 (1#2) 1 (1#2) 0 1 (1#2) (1#2) 0.
Definition Tf : QM := qm 0 (1#2) (1#2) (1#2) 0 (1#2) (1#2) (1#2) 0.
Definition Cf : QM := qm 1 0 0 0 1 0 0 0 2.
Definition Zf : M3 := m3 (-1) 1 1 1 (-1) 1 1 1 (-1).
(** the fourfold rotation about c3, on q *)
Definition R4 : M3 := m3 0 1 0 0 1 (-1) (-1) 1 0.
Definition sf : dataset := Ds [I3] Tf Cf 1.
Definition gf : grid := match grid_matrix l2m_ex est_ex Lf (One 2) (Some sf) None true false true false with Ok g => g | _ => default end.
Lemma by_lengths_ex : by_lengths l2m_ex.
Proof.
  exists (fun x l => Z.max 1 (rint (x * x * l))). split; [|split].
  - intros x l l' H. f_equal. unfold rint. assert (E : Qround.Qfloor (x * x * l) = Qround.Qfloor (x * x * l')) by (apply Qround.Qfloor_comp; rewrite H; reflexivity). rewrite E.
    assert (B : forall a b c d, (a == c)%Q -> (b == d)%Q -> qltb a b = qltb c d). { intros a b c d H1 H2. destruct (qltb c d) eqn:K; [apply qltb_lt in K; apply qltb_lt|apply qltb_ge in K; apply qltb_ge]; lra. }
    rewrite (B _ (1#2) (x * x * l' - inject_Z (Qround.Qfloor (x * x * l'))) (1#2))%Q, (B (1#2) _ (1#2) (x * x * l' - inject_Z (Qround.Qfloor (x * x * l'))))%Q by (reflexivity || (rewrite H; reflexivity)). reflexivity.
  - intros. lia.
  - reflexivity.
Qed.
Lemma near_int : forall x z k, (Qabs (x - qz z) < 1 # 100000)%Q -> (x == qz k)%Q -> z = k.
Proof.
  intros x z k H E. apply Qabs_Qlt_condition in H. destruct H as [H1 H2]. rewrite E, <- qz_sub in H1, H2. assert (k - z < 1) by (apply qz_lt; eapply Qlt_trans; [exact H2|reflexivity]).
  assert (-1 < k - z) by (apply qz_lt; eapply Qlt_trans; [|exact H1]; reflexivity). lia.
Qed.
Lemma Zf_unique : forall C Zc, (C = Cf \/ C = qmulMM (qtransp (qinv Tf)) Lf) -> conventional_cell Lf C Zc -> Zc = Zf.
Proof.
  intros C Zc HC [X [H N]]. assert (E : qmeq (qmulMM (qtransp X) Lf) Cf).
  { destruct HC as [-> | -> ]; [exact H|]. eapply qmeq_trans; [exact H|]. vm_compute. repeat split; reflexivity. }
  destruct X as [a b c d e f g h i], Zc as [z1 z2 z3 z4 z5 z6 z7 z8 z9]. cbn -[Qplus Qmult qz] in E, N. unfold Zf.
  destruct E as [E1 [E2 [E3 [E4 [E5 [E6 [E7 [E8 E9]]]]]]]], N as [N1 [N2 [N3 [N4 [N5 [N6 [N7 [N8 N9]]]]]]]].
  f_equal; (eapply near_int; [eassumption|]); unfold qz, inject_Z; lra.
Qed.
Lemma norms : forall C, (C = Cf \/ C = qmulMM (qtransp (qinv Tf)) Lf) -> (reciprocal_norm2 C 0 == reciprocal_norm2 C 1)%Q.
Proof. intros C [-> | -> ]; vm_compute; reflexivity. Qed.
(** 4 x 4 x 1 conventional cells: 64 points; the fourfold rotation is accepted; a 4 x 4 x 4 grid of the primitive cell has it too, 4 x 2 x 4 not *)
Example C119_ex_grg : g_matrix gf = Some (m3 (-4) 4 4 4 (-4) 4 1 1 (-1)) /\ g_D gf = v3 1 8 8 /\ samples (mulMM (diag3 (v3 4 4 1)) (transp Zf)) gf /\
  (exists ts, transform_rotations (g_D gf) (g_Q gf) [I3; R4] = Some ts) /\ (exists ts, transform_rotations (v3 4 4 4) I3 [I3; R4] = Some ts) /\ transform_rotations (v3 4 2 4) I3 [I3; R4] = None.
Proof.
  assert (Hg : grid_matrix l2m_ex est_ex Lf (One 2) (Some sf) None true false true false = Ok gf) by (vm_compute; reflexivity).
  assert (HL : ~ (qdet Lf == 0)%Q) by (vm_compute; discriminate). assert (HS : ~ (qdet (ds_std sf) == 0)%Q) by (vm_compute; discriminate).
  split; [vm_compute; reflexivity|]. split; [vm_compute; reflexivity|]. split; [|split; [|split; [eexists; vm_compute; reflexivity|vm_compute; reflexivity]]].
  - destruct (C119_length l2m_ex est_ex Lf 2 sf None false false gf eq_refl HL HS Hg) as [C [Zc [HC [Hcell HA]]]]. cbv zeta in HA. rewrite (Zf_unique C Zc HC Hcell) in HA.
    assert (En : numbers_of l2m_ex est_ex sf 2 false C = v3 4 4 1) by (destruct HC as [-> | -> ]; vm_compute; reflexivity). rewrite En in HA. apply HA. intros _ K. vm_compute in K. discriminate.
  - apply (C119_grg_symmetry l2m_ex est_ex Lf by_lengths_ex 2 sf None false gf [I3; R4] eq_refl HL HS Hg); [intros _; vm_compute; repeat split; reflexivity|].
    intros C Zc R HC Hcell HR. rewrite (Zf_unique C Zc HC Hcell). pose proof (norms C HC) as N. destruct HR as [<- |[<- |[]]].
    + exists I3. split; [reflexivity|]. intros i j Hi Hj Hn. assert (i = j) as ->; [|reflexivity]. assert (i = 0 \/ i = 1 \/ i = 2) as [-> | [-> | -> ]] by lia; assert (j = 0 \/ j = 1 \/ j = 2) as [-> | [-> | -> ]] by lia; cbn in Hn; congruence.
    + exists (m3 0 (-1) 0 1 0 0 0 0 1). split; [reflexivity|]. intros i j Hi Hj Hn. assert (i = 0 \/ i = 1 \/ i = 2) as [-> | [-> | -> ]] by lia; assert (j = 0 \/ j = 1 \/ j = 2) as [-> | [-> | -> ]] by lia; cbn in Hn; try congruence; try reflexivity; try exact N; try (symmetry; exact N).
Qed.
(** the same matrix given as nine numbers, with and without a symmetry dataset; three numbers; the cases that are not as asked for *)
Definition Ag : M3 := m3 (-4) 4 4 4 (-4) 4 1 1 (-1).
Example C119_ex_matrix : (forall sym t, (sym, t) = (Some sf, None) \/ (sym, t) = (None, Some Tf) -> exists g, grid_matrix l2m_ex est_ex Lf (Nine Ag) sym t false false true false = Ok g /\ samples Ag g) /\
  (exists g, grid_matrix l2m_ex est_ex Lf (Nine (diag3 (v3 2 3 4))) (Some sf) None false true true false = Ok g /\ samples (diag3 (v3 2 3 4)) g) /\
  (exists g, grid_matrix l2m_ex est_ex Lf (Three (v3 2 3 4)) (Some sf) None false true true false = Ok g /\ samples (diag3 (v3 2 3 4)) g) /\
  is_primitive_cell [I3; I3; R4; R4] = false /\ grid_matrix l2m_ex est_ex Lf (One 2) (Some (Ds [I3; I3; R4; R4] Tf Cf 1)) None true false true false = Ok (Grid None (v3 9 9 9) I3 I3).
Proof.
  split; [|split; [|split; [|split; [reflexivity|vm_compute; reflexivity]]]].
  - intros sym t K. assert (E : exists g, grid_matrix l2m_ex est_ex Lf (Nine Ag) sym t false false true false = Ok g) by (destruct K as [K|K]; injection K as -> ->; eexists; vm_compute; reflexivity).
    destruct E as [g Hg]. exists g. split; [exact Hg|]. refine (C119_matrix l2m_ex est_ex Lf Ag sym t false false true false g _ _ Hg); [destruct K as [K|K]; injection K as -> ->; reflexivity|]. intros _ X. discriminate X.
  - assert (E : exists g, grid_matrix l2m_ex est_ex Lf (Nine (diag3 (v3 2 3 4))) (Some sf) None false true true false = Ok g) by (eexists; vm_compute; reflexivity). destruct E as [g Hg]. exists g. split; [exact Hg|].
    refine (C119_matrix l2m_ex est_ex Lf _ (Some sf) None false true true false g eq_refl _ Hg). discriminate.
  - apply C119_three_numbers. cbn. lia.
Qed.
