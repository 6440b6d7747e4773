(** Rotated eigenvectors: an example for C118 *)
From Coq Require Import ZArith QArith List Bool Lia Lqa Setoid Permutation.
From Verif Require Import Base BaseProofs Mat3 QMat Cplx IseSpec IsoSym GridSpec GridModel GridProofs GridProps SnfModel SnfProofs RotModel RotProps BzModel BzProofs BzProps Par Par2 IseProofs DynModel DynProofs DynProps R2nProps Fc3Spec R2rModel R2rProofs R2rShort R2rProps R2rProps2 R2rSym R2rEx DynSym DynSymEx EvrModel EvrSpectrum EvrProofs EvrProps.
Import ListNotations.
Open Scope Z_scope.

(** the chain of R2rEx.v; force constants are diagonal *)
Definition WM : M3 := m3 (-1) 0 0 0 0 1 0 1 0.
Definition U1 (k l : Z) : Q := if k =? l then (-1)%Q else 0%Q.
Definition U0 (k l : Z) : Q := if k =? l then (if k =? 0 then 2 else 8)%Q else 0%Q.
Definition Fd (x y : Z * Z) : Q := match (fst y - fst x) mod 3 with 0 => U0 (snd x) (snd y) | _ => U1 (snd x) (snd y) end.
Definition fcd (r : Z) : Q := Fd (0, r / 3 mod 3) (r / 9 mod 3, r mod 3).
Lemma fcd_represents : represents2 1 3 zero fcd Fd.
Proof. intros i s k l Hi Hs Hk Hl. assert (i = 0) as -> by lia. three s; three k; three l; reflexivity. Qed.
Lemma Fd_invariant : invariant2 3 3 shift3 Fd.
Proof. intros u a b k l Hu Ha Hb Hk Hl. unfold Fd. cbn [fst snd]. replace ((shift3 u b - shift3 u a) mod 3) with ((b - a) mod 3); [reflexivity|]. unfold shift3. rewrite <- Zminus_mod. f_equal. lia. Qed.
Lemma Fd_covariant : covariant2 3 Rc home3 Fd.
Proof. intros a b k l Ha Hb Hk Hl. three a; three b; three k; three l; reflexivity. Qed.
Lemma Fd_covariant1 : covariant2 3 idc idz Fd.
Proof. intros a b k l Ha Hb Hk Hl. three a; three b; three k; three l; reflexivity. Qed.
Lemma WM_Wc : forall v c, 0 <= c < 3 -> mapply (mentry WM) v c = mapply Wc v c.
Proof. intros v c Hc. unfold mapply. three c; reflexivity. Qed.
Lemma WM_operation : operation xc Mc len2 1 3 (fun s => zero (zero s)) (mentry WM) (mentry WM) Rc home3 home3 idz idz.
Proof.
  destruct chain_operation as [H1 H2 H3 H4 H5 H6 H7]. constructor; try assumption.
  - intros v. assert (E : veq (mapply (mentry WM) (mapply (mentry WM) v)) v); [|now split]. intros c Hc. destruct (H1 v) as [_ H]. rewrite <- (H c Hc). rewrite (WM_Wc _ c Hc). unfold mapply at 1 3. rewrite !WM_Wc by lia. reflexivity.
  - intros a b v Ha Hb. rewrite (H6 a b v Ha Hb). unfold image. split; intros [n Hn]; exists n; intros c Hc; [rewrite WM_Wc|rewrite <- WM_Wc]; auto.
Qed.
Lemma one_apply : forall v c, 0 <= c < 3 -> (mapply (mentry I3) v c == v c)%Q.
Proof. intros v c Hc. unfold mapply. three c; cbn [mentry I3]; change (inject_Z 1) with 1%Q; change (inject_Z 0) with 0%Q; ring. Qed.
Lemma one_operation : operation xc Mc len2 1 3 (fun s => zero (zero s)) (mentry I3) (mentry I3) idc idz idz idz idz.
Proof.
  constructor; unfold idz; auto.
  - intros v. split; intros c Hc; rewrite !one_apply by lia; reflexivity.
  - intros v. unfold len2. rewrite !one_apply by lia. reflexivity.
  - intros a b v Ha Hb. unfold image. split; intros [n Hn]; exists n; intros c Hc; rewrite <- (Hn c Hc); [|symmetry]; now rewrite one_apply.
  - intros a b Ha Hb. three a; three b; reflexivity.
Qed.
Definition Ld : QM := qm 1 0 0 0 1 0 0 0 1.
Lemma Ld_idc : forall q c, 0 <= c < 3 -> (to_cart (qmentry Ld) q c == q c)%Q.
Proof. intros q c Hc. unfold to_cart. rewrite sum3_eq. three c; cbn [qmentry Ld]; ring. Qed.
Lemma WM_cartesian : cartesian (mentry WM) Rc (qmentry Ld).
Proof.
  intros q q' H c Hc. assert (H' : turned_q Wc q q') by (intros v; rewrite <- (H v); unfold vdot; rewrite !WM_Wc by lia; reflexivity).
  pose proof (chain_cartesian q q' H' c Hc) as E. assert (S : forall p a, 0 <= a < 3 -> (to_cart idc p a == p a)%Q) by (intros p a Ha; unfold to_cart; rewrite sum3_eq; three a; unfold idc; cbn [Z.eqb Pos.eqb]; ring). rewrite !S in E by lia. rewrite !Ld_idc by lia. exact E.
Qed.
Lemma one_cartesian : cartesian (mentry I3) idc (qmentry Ld).
Proof.
  intros q q' H c Hc. rewrite !Ld_idc by lia. pose proof (H (v3 1 0 0)) as H0. pose proof (H (v3 0 1 0)) as H1. pose proof (H (v3 0 0 1)) as H2. unfold vdot in *. rewrite !one_apply in H0, H1, H2 by lia. cbn [v3] in *. unfold idc. three c; cbn [Z.eqb Pos.eqb]; lra.
Qed.
(** a 4x1x1 mesh: addresses 0, 1, -2, 2, -1 *)
Definition Bd : BzIn := mkBzIn (Mat3.v3 4 1 1) I3 vzero Ld.
Definition od : BzOut := match get_bz_grid_addresses Bd 2 (mkBzOut (fun _ => vzero) (fun _ => 0) (fun _ => 0) 0) with Some o => o | None => mkBzOut (fun _ => vzero) (fun _ => 0) (fun _ => 0) 0 end.
Definition QDd (j c : Z) : Q := if j =? c then (if j =? 0 then 1 # 4 else 1)%Q else 0%Q.
Definition rotsd : list M3 := [I3; WM].
Definition recsd : list M3 := [I3; WM; mneg I3; mneg WM].
Definition permsd (_ : Z) : Z -> Z := idz.
Definition taud (d : Z) : Z -> Q := if d =? 0 then v3 0 0 0 else v3 1 0 0.
Definition Vd (z b : Z) : cplx := match z, b with 0, 0 => C 1 0 | 1, 1 => C (3 # 5) 0 | 2, 1 => C (4 # 5) 0 | 1, 2 => C 0 (4 # 5) | 2, 2 => C 0 (-3 # 5) | _, _ => C 0 0 end.
Definition cosd (gp : Z) : Q := match ventry (o_addr od gp) 0 with 0 => 1%Q | 2 => (-1)%Q | -2 => (-1)%Q | _ => 0%Q end.
Definition lamd (gp b : Z) : Q := if b =? 0 then ((1 - cosd gp) * (1 # 2))%Q else ((4 - cosd gp) * (1 # 2))%Q.
Definition convd (w : Q) : Q := (3 * w)%Q.
Definition solved (gp : Z) : (Z -> Q) * (Z -> Z -> cplx) := (fun b => convd (lamd gp b), Vd).
Definition otherd (_ : phonons) (_ : Z) : (Z -> Q) * (Z -> Z -> cplx) := (fun _ => 7%Q, fun _ _ => C 5 5).
Definition Matd gp := elem (1 * 3) (undone_matrix qcis idq 1 3 fcd xc mu3 massc zero zero QDd (ventry (o_addr od gp)) None epsc (qmentry Ld) None 2 garbage).
Lemma od_size : o_size od = 5 /\ map (o_addr od) (zrange 5) = [Mat3.v3 0 0 0; Mat3.v3 1 0 0; Mat3.v3 (-2) 0 0; Mat3.v3 2 0 0; Mat3.v3 (-1) 0 0].
Proof. split; vm_compute; reflexivity. Qed.

Lemma Matd_check : forallb (fun g => forallb (fun x => forallb (fun y => let m := Matd g x y in Qeq_bool (re m) (if x =? y then lamd g x else 0%Q) && Qeq_bool (im m) 0%Q) (zrange 3)) (zrange 3)) (zrange 5) = true.
Proof. vm_compute. reflexivity. Qed.
Lemma Matd_at : forall g x y, 0 <= g < 5 -> 0 <= x < 3 -> 0 <= y < 3 -> Matd g x y =c= if x =? y then C (lamd g x) 0 else c0.
Proof.
  intros g x y Hg Hx Hy. pose proof Matd_check as H. rewrite forallb_forall in H. specialize (H g (proj2 (in_zrange _ _) Hg)). rewrite forallb_forall in H. specialize (H x (proj2 (in_zrange _ _) Hx)). rewrite forallb_forall in H. specialize (H y (proj2 (in_zrange _ _) Hy)). cbv zeta in H.
  apply andb_true_iff in H. destruct H as [H1 H2]. apply Qeq_bool_iff in H1, H2. split; [rewrite H1|rewrite H2]; destruct (x =? y); reflexivity.
Qed.
Lemma solved_ok : solves 1 (o_size od) Matd convd solved.
Proof.
  intros g Hg. rewrite (proj1 od_size) in Hg. exists (lamd g). split; [|reflexivity]. split.
  - intros b Hb z Hz. change (1 * 3) with 3 in *. rewrite CSum3, !Matd_at by lia. cbn [solved snd]. unfold lamd. generalize (cosd g). intros c. three b; three z; cbn [Z.eqb Pos.eqb]; split; cbn; ring.
  - change (1 * 3) with 3. split; intros a b Ha Hb; rewrite CSum3; cbn [solved snd]; three a; three b; vm_compute; split; reflexivity.
  - intros a b Ha Hab Hb. unfold lamd. destruct (Z.eqb_spec a 0), (Z.eqb_spec b 0); try lia; lra.
Qed.
Lemma kept : forall T, In T [I3; WM; mneg I3; mneg WM] -> keeps_points Bd od 2 T.
Proof.
  assert (X : forallb (fun T => forallb (fun x => let y := bz_rotate_grid_index Bd od 2 x T in (0 <=? y) && (y <? 5) && veqb (o_addr od y) (mulMV T (o_addr od x))) (zrange 5)) [I3; WM; mneg I3; mneg WM] = true) by (vm_compute; reflexivity).
  intros T HT x Hx. rewrite (proj1 od_size) in *. rewrite forallb_forall in X. specialize (X T HT). rewrite forallb_forall in X. specialize (X x (proj2 (in_zrange _ _) Hx)). cbv zeta in *. rewrite !andb_true_iff in X. destruct X as [[X1 X2] X3]. apply Z.leb_le in X1. apply Z.ltb_lt in X2. apply veqb_eq in X3. split; [lia|exact X3].
Qed.
Lemma symmetric_ex : forall d, 0 <= d < Z.of_nat (length rotsd) -> symmetry_of xc Mc len2 1 3 zero zero Fd massc Ld None epsc (mentry (nth (Z.to_nat d) rotsd I3)) (permsd d) (fun _ => True).
Proof.
  intros d Hd. cbn [length rotsd] in Hd. assert (E : d = 0 \/ d = 1) by lia. destruct E as [-> | -> ].
  - exists (mentry I3), idc, idz, idz, idz. split; [exact one_operation|]. split; [exact Fd_covariant1|]. split; [reflexivity|]. split; [exact one_cartesian|]. split; [intros i k l _ Hk Hl; three k; three l; reflexivity|]. split; [intros k l Hk Hl; three k; three l; reflexivity|exact I].
  - exists (mentry WM), Rc, home3, home3, idz. split; [exact WM_operation|]. split; [exact Fd_covariant|]. split; [reflexivity|]. split; [exact WM_cartesian|]. split; [intros i k l _ Hk Hl; three k; three l; reflexivity|]. split; [intros k l Hk Hl; three k; three l; reflexivity|exact I].
Qed.
Lemma qcis_unit : forall y, unit_phase (qcis y).
Proof.
  intros y. unfold unit_phase, qcis. destruct (_ =? _)%positive; [|split; reflexivity]. destruct (quarter_cases (Qnum (Qred (4 * y)))) as [[_ ->]|[[_ ->]|[[_ ->]|[_ ->]]]]; split; reflexivity.
Qed.
Definition blank : phonons := mkph (fun _ => true) (fun _ _ => 9%Q) (fun _ _ _ => C 8 8).
Definition rund recs grots rots s := run_phonon_solver_with_eigvec_rotation qcis solved otherd Bd od 2 grots recs Ld QDd rots taud permsd [0; 1; 2] s.
Definition seen (r : option phonons) g := match r with None => [] | Some s => map (fun b => (Qred (freq s g b), map (fun z => show (eig s g z b)) [0; 1; 2])) [0; 1; 2] end.
(** point 3 (address 2) from point 2 (address -2) and point 4 (address -1) from point 1 by the second operation; by the reversal of q when the only operation is the identity *)
Example C118_ex : same_phonons qcis 1 Bd od 2 Ld QDd rotsd recsd recsd taud permsd convd solved otherd [0; 1; 2] Matd blank /\
  seen (rund recsd recsd rotsd blank) 4 = [(3 # 2, [(0, -1); (0, 0); (0, 0)]); (6, [(0, 0); (0, 4 # 5); (0, 3 # 5)]); (6, [(0, 0); (3 # 5, 0); (-4 # 5, 0)])]%Q /\
  seen (rund [I3; mneg I3] [I3; mneg I3] [I3] blank) 4 = [(3 # 2, [(1, 0); (0, 0); (0, 0)]); (6, [(0, 0); (3 # 5, 0); (4 # 5, 0)]); (6, [(0, 0); (0, -4 # 5); (0, 3 # 5)])]%Q.
Proof.
  split; [|split; vm_compute; reflexivity].
  apply (C118_wang qcis idq xc Mc len2 (1 # 10) 1 3 3 shift3 xc mu3 zero zero zero home3 fcd Fd massc qcis_even_odd) with (tr := true).
  - intros a b H; exact H.
  - exact chain_crystal.
  - exact fcd_represents.
  - exact Fd_invariant.
  - cbn. lia.
  - cbn. lia.
  - left. reflexivity.
  - intros j c Hj Hc. three j; three c; reflexivity.
  - vm_compute. discriminate.
  - vm_compute. reflexivity.
  - vm_compute. reflexivity.
  - exact kept.
  - apply kept. right. right. left. reflexivity.
  - intros a b H. unfold convd. now rewrite H.
  - intros ir Hir. rewrite (proj1 od_size). cbn in Hir. lia.
  - exact qcis_unit.
  - exact symmetric_ex.
  - exact solved_ok.
Qed.
