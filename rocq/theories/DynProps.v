(** Dynamical matrices: C53, C66, C71-C74 *)
From Coq Require Import ZArith QArith List Bool Lia Lqa Setoid Permutation.
From Coq Require Qcanon.
From Verif Require Import Base BaseProofs QMat Par Par2 IseSpec IseProofs Cplx DynModel DynProofs.
Import ListNotations.
Open Scope Z_scope.

(** ** Specification *)
(** element of a square matrix stored row by row *)
Definition elem (n : Z) (M : Z -> cplx) (x y : Z) : cplx := M (x * n + y).
Definition hermitian (n : Z) (M : Z -> cplx) : Prop := forall x y, 0 <= x < n -> 0 <= y < n -> elem n M x y =c= conj (elem n M y x).
(** row or column of atom i, direction k *)
Definition ix (i k : Z) : Z := i * 3 + k.
(** requirements on cos, sin, sqrt and exp taken as arguments *)
Definition even_odd (cis : Q -> cplx) : Prop := (forall x y, x == y -> cis x =c= cis y)%Q /\ (forall x, cis (- x)%Q =c= conj (cis x)).
Definition respects (f : Q -> Q) : Prop := forall x y, (x == y -> f x == f y)%Q.
(** exp(2 pi i x) on a set of phases closed under addition *)
Definition turns (A : Q -> Prop) (cis : Q -> cplx) : Prop :=
  (forall x y, x == y -> A x -> A y /\ cis x =c= cis y)%Q /\ (forall x y, A x -> A y -> A (x + y)%Q /\ cis (x + y)%Q =c= cmul (cis x) (cis y)) /\
  (forall n, A (inject_Z n) /\ cis (inject_Z n) =c= c1).
Definition vdot (a b : Z -> Q) : Q := (a 0%Z * b 0%Z + a 1%Z * b 1%Z + a 2%Z * b 2%Z)%Q.

Lemma csum_conj' : forall X (f : X -> cplx) l, conj (csum (map f l)) =c= csum (map (fun x => conj (f x)) l). Proof. intros. apply csum_conj. Qed.
Lemma conj_cscale : forall x a, conj (cscale x a) =c= cscale x (conj a). Proof. intros. split; cbn; ring. Qed.
Lemma sum3_ext : forall f g, (forall m, 0 <= m < 3 -> (f m == g m)%Q) -> (sum3 f == sum3 g)%Q.
Proof. intros f g H. rewrite !sum3_eq. rewrite !H by lia. reflexivity. Qed.
Lemma split3 : forall np x, 0 <= x < np * 3 -> exists i k, 0 <= i < np /\ 0 <= k < 3 /\ x = ix i k.
Proof. intros np x H. destruct (flat_split 3 np x H ltac:(lia)) as [i [k [Hi [Hk E]]]]. exists i, k. auto. Qed.
Lemma elem_adr : forall np M i k j l, elem (np * 3) M (ix i k) (ix j l) = M (adr np i k j l). Proof. reflexivity. Qed.
Lemma hermitian_adr : forall np M, (forall i k j l, 0 <= i < np -> 0 <= k < 3 -> 0 <= j < np -> 0 <= l < 3 -> M (adr np i k j l) =c= conj (M (adr np j l i k))) -> hermitian (np * 3) M.
Proof. intros np M H x y Hx Hy. destruct (split3 np x Hx) as [i [k [Hi [Hk ->]]]]. destruct (split3 np y Hy) as [j [l [Hj [Hl ->]]]]. rewrite !elem_adr. now apply H. Qed.

Section P.
Variable cis : Q -> cplx.
Variable sq ex : Q -> Q.
Variable np ns : Z.
Variable fc : Z -> Q.
Variable svecs : Z -> Z -> Q.
Variable multi : Z -> Z * Z.
Variable mass : Z -> Q.
Variable s2p p2s : Z -> Z.
Hypothesis Hnp : 0 <= np.
Local Notation lsum := (lattice_sum cis sq np ns fc svecs multi mass s2p p2s).

(** *** C53 *)
(** whatever the memory held before, with or without the non-analytical term of Wang et al. *)
Theorem C53_hermitian : forall q charge D, hermitian (np * 3) (dym_at_q cis sq np ns fc svecs multi mass s2p p2s q charge D).
Proof. intros q charge D. apply hermitian_adr. intros i k j l Hi Hk Hj Hl. rewrite !dym_value by assumption. split; cbn; ring. Qed.
(** it is the Hermitian part of the lattice sum of force constants with phase factors averaged over equivalent shortest vectors;
    the parallel loop of every schedule gives the same lattice sum *)
Theorem C53_value : forall q charge D i k j l, 0 <= i < np -> 0 <= k < 3 -> 0 <= j < np -> 0 <= l < 3 ->
  elem (np * 3) (dym_at_q cis sq np ns fc svecs multi mass s2p p2s q charge D) (ix i k) (ix j l) =c= half (cadd (lsum charge q i k j l) (conj (lsum charge q j l i k))) /\
  forall D' D'', finishes Z.eq_dec (dym_progs cis sq np ns fc svecs multi mass s2p p2s q charge) D' D'' -> elem (np * 3) D'' (ix i k) (ix j l) =c= lsum charge q i k j l.
Proof.
  intros q charge D i k j l Hi Hk Hj Hl. rewrite elem_adr. split; [apply dym_value; assumption|]. intros D' D'' F. rewrite elem_adr. eapply par_matrix; eassumption.
Qed.
Lemma KK_sym : forall G q_cart dir eps lambda tol m n, (get_KK sq ex G q_cart dir eps lambda tol m n == get_KK sq ex G q_cart dir eps lambda tol n m)%Q.
Proof.
  intros. unfold get_KK. cbv zeta. destruct (qltb _ _); [destruct dir as [d|]; [|reflexivity]|].
  - apply Qdiv_comp; [apply Qmult_comm|reflexivity].
  - apply Qmult_comp; [|reflexivity]. apply Qdiv_comp; [apply Qmult_comm|reflexivity].
Qed.
(** what a direction adds *)
Lemma KK_dir : forall G q_cart d eps lambda tol m n, (get_KK sq ex G q_cart (Some d) eps lambda tol m n ==
  get_KK sq ex G q_cart None eps lambda tol m n + if qltb (sq (sum3 (fun x => (G x + q_cart x) * (G x + q_cart x))%Q)) tol then d m * d n / dielectric_part d eps else 0)%Q.
Proof.
  intros. unfold get_KK. cbv zeta. destruct (qltb _ _).
  - symmetry. apply Qplus_0_l.
  - symmetry. apply Qplus_0_r.
Qed.
Lemma dd_sum_herm : forall G_list q_cart dir eps born pos lambda tol i k j l, even_odd cis ->
  dd_sum cis sq ex G_list q_cart dir eps born pos lambda tol i k j l =c= conj (dd_sum cis sq ex G_list q_cart dir eps born pos lambda tol j l i k).
Proof.
  intros G_list q_cart dir eps born pos lambda tol i k j l [E1 E2]. unfold dd_sum. rewrite CSum_swap, CSum_conj. apply CSum_ext. intros m Hm. rewrite CSum_conj. apply CSum_ext. intros n Hn.
  rewrite conj_cscale, csum_conj'. apply cscale_proper; [ring|]. apply csum_ext. intros G _. rewrite conj_cscale. apply cscale_proper; [apply KK_sym|]. rewrite <- E2. apply E1. rewrite !sum3_eq. ring.
Qed.
(** the method of Gonze and Lee; dd_q0 made by dym_get_recip_dipole_dipole_q0 from any (other) list of G *)
Theorem C53_gonze : forall q born eps rl dir nac G0 eps0 born0 pos0 lambda0 tol0 G_list pos lambda tol D, even_odd cis -> respects sq ->
  hermitian (np * 3) (gonze_matrix cis sq ex np ns fc svecs multi mass s2p p2s q born eps rl dir nac (recip_dd_q0 cis sq ex np G0 born0 eps0 pos0 lambda0 tol0) G_list pos lambda tol D).
Proof.
  intros q born eps rl dir nac G0 eps0 born0 pos0 lambda0 tol0 G_list pos lambda tol D E R. apply hermitian_adr. intros i k j l Hi Hk Hj Hl. rewrite !gonze_value by assumption.
  rewrite conj_add. apply cadd_proper; [split; cbn; ring|]. rewrite !conj_cscale. apply cscale_proper; [apply Qinv_comp, R; ring|]. apply cscale_proper; [reflexivity|].
  rewrite (dd_sum_herm _ _ _ _ _ _ _ _ i k j l E). destruct (Z.eqb_spec i j) as [->|N].
  - rewrite Z.eqb_refl. rewrite (q0_hermitian cis sq ex np G0 born0 eps0 pos0 lambda0 tol0 j k l) by assumption. split; cbn; ring.
  - destruct (Z.eqb_spec j i); [congruence|]. split; cbn; ring.
Qed.

(** *** C66 *)
(** the direction given does not matter at points that are not reciprocal lattice points (of the list) *)
Theorem C66_gonze : forall q born eps rl dir dir' nac dd_q0 G_list pos lambda tol D i k j l, 0 <= i < np -> 0 <= k < 3 -> 0 <= j < np -> 0 <= l < 3 ->
  (forall G, In G G_list -> Qle tol (sq (sum3 (fun x => (G x + to_cart rl q x) * (G x + to_cart rl q x))%Q))) ->
  elem (np * 3) (gonze_matrix cis sq ex np ns fc svecs multi mass s2p p2s q born eps rl dir nac dd_q0 G_list pos lambda tol D) (ix i k) (ix j l) =c=
  elem (np * 3) (gonze_matrix cis sq ex np ns fc svecs multi mass s2p p2s q born eps rl dir' nac dd_q0 G_list pos lambda tol D) (ix i k) (ix j l).
Proof.
  intros q born eps rl dir dir' nac dd_q0 G_list pos lambda tol D i k j l Hi Hk Hj Hl HG. rewrite !elem_adr, !gonze_value by assumption. apply cadd_proper; [reflexivity|]. apply cscale_proper; [reflexivity|]. apply cscale_proper; [reflexivity|]. apply csub_proper; [|reflexivity].
  unfold dd_sum. apply CSum_ext. intros m _. apply CSum_ext. intros n _. apply cscale_proper; [reflexivity|]. apply csum_ext. intros G HGl. apply cscale_proper; [|reflexivity]. unfold get_KK. specialize (HG G HGl). apply qltb_ge in HG. rewrite HG. reflexivity.
Qed.
Lemma dir_add : forall (X : Z -> Z -> cplx) (a b d : Z -> Q) e S, CSum 3 (fun m => CSum 3 (fun n => cscale (a m * b n) (cadd (X m n) (cscale (d m * d n / e) S)))) =c=
  cadd (CSum 3 (fun m => CSum 3 (fun n => cscale (a m * b n) (X m n)))) (cscale (vdot d a * vdot d b / e) S).
Proof. intros. unfold CSum. change (zrange 3) with [0; 1; 2]. cbn [map]. rewrite !csum_cons, !csum_nil. unfold vdot, Qdiv. split; cbn [re im cadd cscale c0]; ring. Qed.
(** Elsewhere (Gamma) the direction d adds (Z_i d)_k (Z_j d)_l / (d eps d) once for each G cancelling q. *)
Theorem C66_gonze_gamma : forall q born eps rl d nac dd_q0 G_list pos lambda tol D i k j l, 0 <= i < np -> 0 <= k < 3 -> 0 <= j < np -> 0 <= l < 3 ->
  let dc := to_cart rl d in
  let near := filter (fun G => qltb (sq (sum3 (fun x => (G x + to_cart rl q x) * (G x + to_cart rl q x))%Q)) tol) G_list in
  let zd := fun a c => vdot dc (fun m => born a m c) in
  elem (np * 3) (gonze_matrix cis sq ex np ns fc svecs multi mass s2p p2s q born eps rl (Some d) nac dd_q0 G_list pos lambda tol D) (ix i k) (ix j l) =c=
  cadd (elem (np * 3) (gonze_matrix cis sq ex np ns fc svecs multi mass s2p p2s q born eps rl None nac dd_q0 G_list pos lambda tol D) (ix i k) (ix j l))
    (cscale (nac * zd i k * zd j l / dielectric_part dc eps / sq (mass i * mass j)) (csum (map (fun G => cis (sum3 (fun x => ((pos i x - pos j x) * G x)%Q))) near))).
Proof.
  intros q born eps rl d nac dd_q0 G_list pos lambda tol D i k j l Hi Hk Hj Hl dc near zd. rewrite !elem_adr, !gonze_value by assumption. fold dc.
  set (F := fun G => qltb (sq (sum3 (fun x => (G x + to_cart rl q x) * (G x + to_cart rl q x))%Q)) tol) in near. set (ph := fun G => cis (sum3 (fun x => ((pos i x - pos j x) * G x)%Q))).
  assert (K : dd_sum cis sq ex G_list (to_cart rl q) (Some dc) eps born pos lambda tol i k j l =c= cadd (dd_sum cis sq ex G_list (to_cart rl q) None eps born pos lambda tol i k j l)
    (cscale (zd i k * zd j l / dielectric_part dc eps) (csum (map ph near)))).
  { unfold dd_sum. assert (K1 : forall m n, csum (map (fun G => cscale (get_KK sq ex G (to_cart rl q) (Some dc) eps lambda tol m n) (ph G)) G_list) =c= cadd (csum (map (fun G => cscale (get_KK sq ex G (to_cart rl q) None eps lambda tol m n) (ph G)) G_list)) (cscale (dc m * dc n / dielectric_part dc eps) (csum (map ph near)))).
    { intros m n. unfold near. clear near. induction G_list as [|G L IH]; [split; cbn; ring|]. cbn [map filter]. rewrite !csum_cons, IH. rewrite (KK_dir G (to_cart rl q) dc eps lambda tol m n). fold (F G). generalize (get_KK sq ex G (to_cart rl q) None eps lambda tol m n) (dielectric_part dc eps). intros K0 dp.
      destruct (F G); [cbn [map]; rewrite csum_cons|]; unfold Qdiv; split; cbn [re im cadd cscale]; ring. }
    etransitivity; [apply CSum_ext; intros m _; apply CSum_ext; intros n _; apply cscale_proper; [reflexivity|apply (K1 m n)]|]. apply (dir_add (fun m n => csum (map (fun G => cscale (get_KK sq ex G (to_cart rl q) None eps lambda tol m n) (ph G)) G_list)) (fun m => born i m k) (fun n => born j n l)). }
  rewrite K. match goal with |- cadd (half ?h) (cscale (/ ?mm) (cscale nac (csub (cadd ?b (cscale (?x * ?y / ?e) ?s)) ?c))) =c= _ => generalize (half h) mm b x y e s c end.
  intros h mm b x y e s c. unfold Qdiv. split; cbn [re im cadd csub cscale]; ring.
Qed.
(** Wang et al.: charges at the Gamma point with direction d *)
Theorem C66_wang_gamma : forall QDinv born eps rl d nac D adr i k j l, (forall m, 0 <= m < 3 -> adr m = 0) -> 0 <= i < np -> 0 <= k < 3 -> 0 <= j < np -> 0 <= l < 3 ->
  let dc := to_cart rl d in let zd := fun a c => vdot dc (fun m => born a m c) in
  let eps_d := (vdot dc (fun x => vdot (eps x) dc)) in
  let charge := fun ij a b => (zd (Z.quot ij np) a * zd (Z.rem ij np) b * (nac / eps_d / inject_Z ns * inject_Z np))%Q in
  elem (np * 3) (undone_matrix cis sq np ns fc svecs multi mass s2p p2s QDinv adr (Some born) eps rl (Some d) nac D) (ix i k) (ix j l) =c=
  half (cadd (lsum (Some charge) (grid_q QDinv adr) i k j l) (conj (lsum (Some charge) (grid_q QDinv adr) j l i k))).
Proof.
  intros QDinv born eps rl d nac D ad i k j l Ha Hi Hk Hj Hl dc zd eps_d charge. unfold undone_matrix, wang_matrix, needs_nac. rewrite !Ha by lia. cbn [andb negb Z.eqb]. rewrite elem_adr, dym_value by assumption.
  assert (K : forall i k j l, lattice_sum cis sq np ns fc svecs multi mass s2p p2s (Some (charge_sum np ns (grid_q QDinv ad) born eps rl (Some d) nac)) (grid_q QDinv ad) i k j l =c= lsum (Some charge) (grid_q QDinv ad) i k j l).
  { intros. unfold lattice_sum. apply cscale_proper; [reflexivity|]. apply CSum_ext. intros s _. destruct (_ =? _); [|reflexivity]. apply cscale_proper; [|reflexivity]. unfold fc_at. apply Qplus_comp; [reflexivity|].
    unfold charge_sum, dym_charge_sum, charge, zd, eps_d, vdot. fold dc. rewrite !sum3_eq. unfold Qdiv. repeat apply Qmult_comp; try reflexivity. apply Qinv_comp. rewrite ?sum3_eq. ring. }
  rewrite !K. reflexivity.
Qed.

(** *** C71 *)
Definition scale_dir (t : Q) (d : Z -> Q) (m : Z) : Q := (t * d m)%Q.
Lemma cart_scale : forall rl t d x, (to_cart rl (scale_dir t d) x == t * to_cart rl d x)%Q.
Proof. intros. unfold to_cart, scale_dir. rewrite !sum3_eq. ring. Qed.
Lemma dielectric_eq : forall d eps, (dielectric_part d eps == d 0%Z * eps 0%Z 0%Z * d 0%Z + d 0%Z * eps 0%Z 1%Z * d 1%Z + d 0%Z * eps 0%Z 2%Z * d 2%Z + d 1%Z * eps 1%Z 0%Z * d 0%Z + d 1%Z * eps 1%Z 1%Z * d 1%Z + d 1%Z * eps 1%Z 2%Z * d 2%Z + d 2%Z * eps 2%Z 0%Z * d 0%Z + d 2%Z * eps 2%Z 1%Z * d 1%Z + d 2%Z * eps 2%Z 2%Z * d 2%Z)%Q.
Proof. intros. unfold dielectric_part. change (zrange 3) with [0; 1; 2]. cbn [fold_left]. ring. Qed.

Lemma dielectric_scale : forall t d d' eps, (forall m, 0 <= m < 3 -> (d' m == t * d m)%Q) -> (dielectric_part d' eps == t * t * dielectric_part d eps)%Q.
Proof. intros t d d' eps H. rewrite !dielectric_eq, !H by lia. ring. Qed.
Lemma inv_sq : forall t e, ~ (t == 0)%Q -> (t * t * / (t * t * e) == / e)%Q.
Proof. intros t e H. rewrite !Qinv_mult_distr. transitivity ((t * / t) * (t * / t) * / e)%Q; [ring|]. rewrite Qmult_inv_r by exact H. ring. Qed.
Lemma lsum_charge : forall c c' q i k j l, (forall i j k l, (c (i * np + j)%Z k l == c' (i * np + j)%Z k l)%Q) -> lsum (Some c) q i k j l =c= lsum (Some c') q i k j l.
Proof.
  intros c c' q i k j l H. unfold lattice_sum. apply cscale_proper; [reflexivity|]. apply CSum_ext. intros s _. destruct (_ =? _); [|reflexivity]. apply cscale_proper; [|reflexivity]. unfold fc_at. apply Qplus_comp; [reflexivity|]. apply H.
Qed.
Theorem C71_wang : forall QDinv ad born eps rl d t nac D i k j l, ~ (t == 0)%Q -> 0 <= i < np -> 0 <= k < 3 -> 0 <= j < np -> 0 <= l < 3 ->
  elem (np * 3) (undone_matrix cis sq np ns fc svecs multi mass s2p p2s QDinv ad born eps rl (Some (scale_dir t d)) nac D) (ix i k) (ix j l) =c=
  elem (np * 3) (undone_matrix cis sq np ns fc svecs multi mass s2p p2s QDinv ad born eps rl (Some d) nac D) (ix i k) (ix j l).
Proof.
  intros QDinv ad born eps rl d t nac D i k j l Ht Hi Hk Hj Hl. rewrite !elem_adr. unfold undone_matrix, wang_matrix, needs_nac. destruct born as [b|]; [|reflexivity]. rewrite !andb_false_r. cbn [negb]. rewrite !dym_value by assumption.
  assert (K : forall i j k l, (charge_sum np ns (grid_q QDinv ad) b eps rl (Some (scale_dir t d)) nac (i * np + j)%Z k l == charge_sum np ns (grid_q QDinv ad) b eps rl (Some d) nac (i * np + j)%Z k l)%Q).
  { intros. unfold charge_sum, dym_charge_sum. cbv zeta. generalize (Z.quot (i0 * np + j0) np) (Z.rem (i0 * np + j0) np). intros a c. rewrite !sum3_eq, !cart_scale.
    set (x := to_cart rl d 0). set (y := to_cart rl d 1). set (z := to_cart rl d 2).
    set (e := ((eps 0%Z 0%Z * x + eps 0%Z 1%Z * y + eps 0%Z 2%Z * z) * x + (eps 1%Z 0%Z * x + eps 1%Z 1%Z * y + eps 1%Z 2%Z * z) * y + (eps 2%Z 0%Z * x + eps 2%Z 1%Z * y + eps 2%Z 2%Z * z) * z)%Q).
    set (P := (x * b a 0%Z k0 + y * b a 1%Z k0 + z * b a 2%Z k0)%Q). set (R := (x * b c 0%Z l0 + y * b c 1%Z l0 + z * b c 2%Z l0)%Q).
    transitivity (P * R * nac * (t * t * / (t * t * e)) * / inject_Z ns * inject_Z np)%Q.
    - unfold Qdiv. match goal with |- (_ * (_ * / ?u * _ * _) == _)%Q => assert (E : (u == t * t * e)%Q) by (unfold e; ring); rewrite E end. unfold P, R. generalize (/ (t * t * e))%Q. intros v. ring.
    - rewrite inv_sq by exact Ht. unfold Qdiv. fold e P R. generalize (/ e)%Q. intros v. ring. }
  rewrite !(lsum_charge _ _ _ _ _ _ _ K). reflexivity.
Qed.
Lemma gonze_dd : forall q born eps rl dir dir' nac dd_q0 G_list pos lambda tol D i k j l, 0 <= i < np -> 0 <= k < 3 -> 0 <= j < np -> 0 <= l < 3 ->
  dd_sum cis sq ex G_list (to_cart rl q) (match dir with Some d => Some (to_cart rl d) | None => None end) eps born pos lambda tol i k j l =c= dd_sum cis sq ex G_list (to_cart rl q) (match dir' with Some d => Some (to_cart rl d) | None => None end) eps born pos lambda tol i k j l ->
  gonze_matrix cis sq ex np ns fc svecs multi mass s2p p2s q born eps rl dir nac dd_q0 G_list pos lambda tol D (adr np i k j l) =c= gonze_matrix cis sq ex np ns fc svecs multi mass s2p p2s q born eps rl dir' nac dd_q0 G_list pos lambda tol D (adr np i k j l).
Proof. intros q born eps rl dir dir' nac dd_q0 G_list pos lambda tol D i k j l Hi Hk Hj Hl H. rewrite !gonze_value by assumption. rewrite H. reflexivity. Qed.
Theorem C71_gonze : forall QDinv ad born eps rl d t nac dd_q0 G_list pos lambda tol D i k j l, ~ (t == 0)%Q -> 0 <= i < np -> 0 <= k < 3 -> 0 <= j < np -> 0 <= l < 3 ->
  elem (np * 3) (gonze_undone_matrix cis sq ex np ns fc svecs multi mass s2p p2s QDinv ad born eps rl (Some (scale_dir t d)) nac dd_q0 G_list pos lambda tol D) (ix i k) (ix j l) =c=
  elem (np * 3) (gonze_undone_matrix cis sq ex np ns fc svecs multi mass s2p p2s QDinv ad born eps rl (Some d) nac dd_q0 G_list pos lambda tol D) (ix i k) (ix j l).
Proof.
  intros QDinv ad born eps rl d t nac dd_q0 G_list pos lambda tol D i k j l Ht Hi Hk Hj Hl. rewrite !elem_adr. unfold gonze_undone_matrix. apply gonze_dd; auto. unfold dd_sum. apply CSum_ext. intros m _. apply CSum_ext. intros n _. apply cscale_proper; [reflexivity|]. apply csum_ext. intros G _. apply cscale_proper; [|reflexivity].
  rewrite !KK_dir. apply Qplus_comp; [reflexivity|]. destruct (qltb _ _); [|reflexivity]. rewrite !cart_scale, (dielectric_scale t (to_cart rl d)) by (intros; apply cart_scale). set (e := dielectric_part (to_cart rl d) eps). unfold Qdiv.
  transitivity (to_cart rl d m * to_cart rl d n * (t * t * / (t * t * e)))%Q; [generalize (/ (t * t * e))%Q; intros; ring|]. rewrite inv_sq by exact Ht. reflexivity.
Qed.

(** *** C72 *)
Lemma CSum_const1 : forall n, 0 <= n -> CSum n (fun _ => c1) =c= C (inject_Z n) 0.
Proof.
  intros n H. apply (natlike_ind (fun n => CSum n (fun _ => c1) =c= C (inject_Z n) 0)); [reflexivity| |exact H]. intros x Hx IH. unfold CSum in *. unfold Z.succ.
  rewrite zrange_succ by lia. rewrite map_app, csum_app, IH. rewrite inject_Z_plus. split; cbn [re im cadd csum map fold_right c1 c0]; ring.
Qed.
Lemma CSum_real : forall n f, CSum n (fun s => C (f s) 0) =c= C (Sum n f) 0.
Proof. intros n f. unfold CSum, Sum. induction (zrange n) as [|x L IH]; [reflexivity|]. cbn [map]. rewrite csum_cons, IH. unfold qsum. cbn [fold_right]. split; cbn [re im cadd]; [reflexivity|ring]. Qed.
Lemma Sum_swap : forall n m (f : Z -> Z -> Q), Qeq (Sum n (fun i => Sum m (f i))) (Sum m (fun j => Sum n (fun i => f i j))).
Proof.
  intros n m f. assert (H : C (Sum n (fun i => Sum m (f i))) 0 =c= C (Sum m (fun j => Sum n (fun i => f i j))) 0).
  { rewrite <- !CSum_real. etransitivity; [apply CSum_ext; intros i _; symmetry; apply CSum_real|]. rewrite CSum_swap. apply CSum_ext. intros j _. apply CSum_real. }
  apply H.
Qed.
Lemma mean_phase_gamma : forall q i s, (forall m, 0 <= m < 3 -> (q m == 0)%Q) -> (forall x, (x == 0)%Q -> cis x =c= c1) -> 0 < fst (multi (s * np + i)) -> mean_phase cis np svecs multi q i s =c= c1.
Proof.
  intros q i s Hq Hc Hm. unfold mean_phase. rewrite (CSum_ext _ _ (fun _ => c1)).
  - rewrite CSum_const1 by lia. assert (~ (inject_Z (fst (multi (s * np + i))) == 0)%Q) by (intros X; unfold Qeq in X; cbn in X; lia). split; cbn [re im cscale c1]; [|ring]. rewrite Qmult_comm. now apply Qmult_inv_r.
  - intros l _. apply Hc. rewrite sum3_eq, !Hq by lia. ring.
Qed.
(** fc summed over the second atom; and over the first atom with the second one fixed, folded into the primitive cell *)
Definition fc_elem (i s k l : Z) : Q := fc (p2s i * ns * 9 + s * 9 + k * 3 + l).
Definition sum_rules : Prop :=
  (forall i k l, 0 <= i < np -> 0 <= k < 3 -> 0 <= l < 3 -> (Sum ns (fun s => fc_elem i s k l) == 0)%Q) /\
  (forall i k l, 0 <= i < np -> 0 <= k < 3 -> 0 <= l < 3 -> (Sum np (fun j => Sum ns (fun s => if s2p s =? p2s i then fc_elem j s l k else 0)) == 0)%Q).
Theorem C72_acoustic : forall q D r u i k, (forall m, 0 <= m < 3 -> (q m == 0)%Q) -> (forall x, (x == 0)%Q -> cis x =c= c1) -> (forall s i, 0 <= s < ns -> 0 <= i < np -> 0 < fst (multi (s * np + i))) ->
  (forall i j, 0 <= i < np -> 0 <= j < np -> (sq (mass i * mass j) == r i * r j /\ ~ r i == 0)%Q) ->
  (forall s, 0 <= s < ns -> exists j, 0 <= j < np /\ p2s j = s2p s) -> (forall j j', 0 <= j < np -> 0 <= j' < np -> p2s j = p2s j' -> j = j') -> sum_rules ->
  0 <= i < np -> 0 <= k < 3 ->
  CSum np (fun j => CSum 3 (fun l => cmul (elem (np * 3) (dym_at_q cis sq np ns fc svecs multi mass s2p p2s q None D) (ix i k) (ix j l)) (C (r j * u l) 0))) =c= c0.
Proof.
  intros q D r u i k Hq Hc Hm Hr Hs Hinj [R1 R2] Hi Hk.
  assert (LS : forall i k j l, 0 <= i < np -> 0 <= j < np -> lsum None q i k j l =c= C (/ (r i * r j) * Sum ns (fun s => if s2p s =? p2s j then fc_elem i s k l else 0%Q)) 0).
  { clear i k Hi Hk. intros i k j l Hi Hj. unfold lattice_sum. rewrite (CSum_ext _ _ (fun s => C (if s2p s =? p2s j then fc_elem i s k l else 0%Q) 0)).
    - rewrite CSum_real. split; cbn [re im cscale]; [|ring]. destruct (Hr i j Hi Hj) as [E _]. now rewrite E.
    - intros s Hs'. destruct (_ =? _); [|reflexivity]. rewrite mean_phase_gamma by auto. split; cbn [re im cscale c1 fc_at]; unfold fc_elem; ring. }
  rewrite (CSum_ext np _ (fun j => CSum 3 (fun l => C ((1 # 2) * u l * / r i * Sum ns (fun s => if s2p s =? p2s j then fc_elem i s k l else 0%Q) + (1 # 2) * u l * / r i * Sum ns (fun s => if s2p s =? p2s i then fc_elem j s l k else 0%Q)) 0))).
  - rewrite CSum_swap. rewrite (CSum_ext 3 _ (fun l => c0)); [reflexivity|]. intros l Hl. rewrite CSum_real.
    assert (Z0 : (Sum np (fun j => (1 # 2) * u l * / r i * Sum ns (fun s => if s2p s =? p2s j then fc_elem i s k l else 0%Q) + (1 # 2) * u l * / r i * Sum ns (fun s => if s2p s =? p2s i then fc_elem j s l k else 0%Q)) == 0)%Q).
    { rewrite Sum_add, !Sum_scale. rewrite R2 by assumption.
      assert (E : (Sum np (fun j => Sum ns (fun s => if s2p s =? p2s j then fc_elem i s k l else 0%Q)) == 0)%Q).
      { rewrite Sum_swap. rewrite <- (R1 i k l Hi Hk Hl). apply Sum_ext. intros s Hs'. destruct (Hs s Hs') as [j0 [Hj0 Ej]]. rewrite <- (Sum_delta np j0 (fun _ => fc_elem i s k l) Hj0). apply Sum_ext. intros j Hj.
        destruct (Z.eqb_spec j j0) as [->|N]; [rewrite Ej, Z.eqb_refl; reflexivity|]. destruct (Z.eqb_spec (s2p s) (p2s j)) as [X|_]; [|reflexivity]. exfalso. apply N. apply Hinj; auto. congruence. }
      rewrite E. ring. }
    split; cbn [re im c0]; [exact Z0|reflexivity].
  - intros j Hj. apply CSum_ext. intros l Hl. rewrite elem_adr, dym_value by assumption. rewrite !LS by assumption. set (X := Sum ns (fun s => if s2p s =? p2s j then fc_elem i s k l else 0%Q)). set (Y := Sum ns (fun s => if s2p s =? p2s i then fc_elem j s l k else 0%Q)).
    destruct (Hr i j Hi Hj) as [_ Ni]. destruct (Hr j i Hj Hi) as [_ Nj]. split; cbn [re im cmul half cscale cadd conj]; [field; auto|ring].
Qed.

(** *** C73 *)
Definition neg (a : Z -> Q) (b : Z -> Q) : Prop := forall m, 0 <= m < 3 -> (a m == - b m)%Q.
Definition neg_closed (L : list (Z -> Q)) : Prop := exists L', Permutation L L' /\ Forall2 neg L' L.
Lemma csum_perm : forall l l', Permutation l l' -> csum l =c= csum l'.
Proof. induction 1; [reflexivity| | |etransitivity; eassumption]; rewrite ?csum_cons; [now rewrite IHPermutation|]. ring. Qed.
Lemma KK_neg : forall G G' q q' dir eps lambda tol m n, respects sq -> respects ex -> neg G G' -> neg q q' -> 0 <= m < 3 -> 0 <= n < 3 -> (get_KK sq ex G q dir eps lambda tol m n == get_KK sq ex G' q' dir eps lambda tol m n)%Q.
Proof.
  intros G G' q q' dir eps lambda tol m n Rs Re HG Hq Hm Hn. unfold get_KK. cbv zeta.
  assert (S : (sq (sum3 (fun i => (G i + q i) * (G i + q i))) == sq (sum3 (fun i => (G' i + q' i) * (G' i + q' i))))%Q) by (apply Rs; apply sum3_ext; intros x Hx; rewrite (HG x Hx), (Hq x Hx); ring).
  assert (B : qltb (sq (sum3 (fun i => (G i + q i) * (G i + q i))%Q)) tol = qltb (sq (sum3 (fun i => (G' i + q' i) * (G' i + q' i))%Q)) tol).
  { apply eq_true_iff_eq. rewrite !qltb_lt, S. reflexivity. }
  rewrite B. match goal with |- Qeq (if ?b then ?x else ?y) (if _ then _ else ?z) => change (Qeq (if b then x else y) (if b then x else z)); generalize b; intros bb end. destruct bb; [reflexivity|].
  assert (DP : (dielectric_part (fun i => G i + q i) eps == dielectric_part (fun i => G' i + q' i) eps)%Q). { rewrite (dielectric_scale (-1) (fun i => G' i + q' i)%Q); [ring|]. intros x Hx. rewrite (HG x Hx), (Hq x Hx). ring. }
  apply Qmult_comp.
  - rewrite DP. apply Qdiv_comp; [|reflexivity]. rewrite (HG m Hm), (Hq m Hm), (HG n Hn), (Hq n Hn). ring.
  - apply Re. now rewrite DP.
Qed.
Lemma dd_sum_reverse : forall G_list q q' dir eps born pos lambda tol i k j l, even_odd cis -> respects sq -> respects ex -> neg_closed G_list -> neg q q' ->
  dd_sum cis sq ex G_list q dir eps born pos lambda tol i k j l =c= conj (dd_sum cis sq ex G_list q' dir eps born pos lambda tol i k j l).
Proof.
  intros G_list q q' dir eps born pos lambda tol i k j l [E1 E2] Rs Re [L' [P F]] Hq. unfold dd_sum. rewrite CSum_conj. apply CSum_ext. intros m Hm. rewrite CSum_conj. apply CSum_ext. intros n Hn. rewrite conj_cscale. apply cscale_proper; [reflexivity|].
  rewrite csum_conj'. rewrite (csum_perm _ _ (Permutation_map _ P)). clear P. induction F as [|G G' L1 L2 HG F IH]; [reflexivity|]. cbn [map]. rewrite !csum_cons, IH. apply cadd_proper; [|reflexivity]. rewrite conj_cscale. apply cscale_proper; [now apply KK_neg|].
  rewrite <- E2. apply E1. rewrite !sum3_eq, (HG 0), (HG 1), (HG 2) by lia. ring.
Qed.
Lemma mean_phase_neg : forall q q' i s, even_odd cis -> neg q q' -> mean_phase cis np svecs multi q i s =c= conj (mean_phase cis np svecs multi q' i s).
Proof. intros q q' i s [E1 E2] H. unfold mean_phase. rewrite conj_cscale. apply cscale_proper; [reflexivity|]. rewrite CSum_conj. apply CSum_ext. intros l _. rewrite <- E2. apply E1. rewrite !sum3_eq, (H 0), (H 1), (H 2) by lia. ring. Qed.
Lemma lsum_neg : forall c c' q q' i k j l, even_odd cis -> neg q q' -> match c, c' with Some c, Some c' => forall i j k l, (c (i * np + j)%Z k l == c' (i * np + j)%Z k l)%Q | None, None => True | _, _ => False end ->
  lsum c q i k j l =c= conj (lsum c' q' i k j l).
Proof.
  intros c c' q q' i k j l E H Hc. unfold lattice_sum. rewrite conj_cscale. apply cscale_proper; [reflexivity|]. rewrite CSum_conj. apply CSum_ext. intros s _. destruct (_ =? _); [|split; cbn; ring]. rewrite conj_cscale. apply cscale_proper; [|now apply mean_phase_neg].
  unfold fc_at. destruct c, c'; try contradiction; [|reflexivity]. apply Qplus_comp; [reflexivity|]. apply Hc.
Qed.
Lemma cart_neg : forall rl q q', neg q q' -> neg (to_cart rl q) (to_cart rl q'). Proof. intros rl q q' H m Hm. unfold to_cart. rewrite !sum3_eq, (H 0), (H 1), (H 2) by lia. ring. Qed.
Lemma grid_q_neg : forall QDinv ad ad', (forall m, 0 <= m < 3 -> ad m = - ad' m) -> neg (grid_q QDinv ad) (grid_q QDinv ad').
Proof. intros QDinv ad ad' H m Hm. unfold grid_q. rewrite !H by lia. rewrite !inject_Z_opp. ring. Qed.
Theorem C73_wang : forall QDinv ad ad' born eps rl dir nac D D' i k j l, even_odd cis -> (forall m, 0 <= m < 3 -> ad m = - ad' m) -> 0 <= i < np -> 0 <= k < 3 -> 0 <= j < np -> 0 <= l < 3 ->
  elem (np * 3) (undone_matrix cis sq np ns fc svecs multi mass s2p p2s QDinv ad born eps rl dir nac D) (ix i k) (ix j l) =c=
  conj (elem (np * 3) (undone_matrix cis sq np ns fc svecs multi mass s2p p2s QDinv ad' born eps rl dir nac D') (ix i k) (ix j l)).
Proof.
  intros QDinv ad ad' born eps rl dir nac D D' i k j l E Ha Hi Hk Hj Hl. rewrite !elem_adr. pose proof (grid_q_neg QDinv ad ad' Ha) as Hq.
  assert (W : forall is_nac b, wang_matrix cis sq np ns fc svecs multi mass s2p p2s is_nac (grid_q QDinv ad) b eps rl dir nac D (adr np i k j l) =c= conj (wang_matrix cis sq np ns fc svecs multi mass s2p p2s is_nac (grid_q QDinv ad') b eps rl dir nac D' (adr np i k j l))).
  { intros is_nac b. unfold wang_matrix. rewrite !dym_value by assumption.
    assert (L : forall i k j l, lsum (if is_nac then Some (charge_sum np ns (grid_q QDinv ad) b eps rl dir nac) else None) (grid_q QDinv ad) i k j l =c= conj (lsum (if is_nac then Some (charge_sum np ns (grid_q QDinv ad') b eps rl dir nac) else None) (grid_q QDinv ad') i k j l)).
    { intros. apply lsum_neg; auto. destruct is_nac; [|exact I]. intros. unfold charge_sum. destruct dir as [d|]; [reflexivity|]. unfold dym_charge_sum. cbv zeta. generalize (Z.quot (i1 * np + j1) np) (Z.rem (i1 * np + j1) np). intros a c. pose proof (cart_neg rl _ _ Hq) as Hc.
      rewrite !sum3_eq, (Hc 0), (Hc 1), (Hc 2) by lia. generalize (to_cart rl (grid_q QDinv ad') 0) (to_cart rl (grid_q QDinv ad') 1) (to_cart rl (grid_q QDinv ad') 2). intros x y z. unfold Qdiv.
      match goal with |- (_ * (_ * / ?u * _ * _) == _ * (_ * / ?v * _ * _))%Q => assert (X : (u == v)%Q) by ring; rewrite X; generalize (/ v)%Q end. intros w. ring. }
    rewrite !L. split; cbn [re im half cscale cadd conj]; ring. }
  unfold undone_matrix. assert (N : forall b, needs_nac b ad dir = needs_nac b ad' dir).
  { intros b. unfold needs_nac. rewrite !Ha by lia. assert (O : forall z, (- z =? 0) = (z =? 0)) by (intros z; destruct (Z.eqb_spec z 0), (Z.eqb_spec (- z) 0); lia). rewrite !O. reflexivity. }
  destruct born; rewrite N; apply W.
Qed.
Theorem C73_gonze : forall QDinv ad ad' born eps rl dir nac G0 born0 eps0 pos0 lambda0 tol0 G_list pos lambda tol D D' i k j l, even_odd cis -> respects sq -> respects ex -> neg_closed G0 -> neg_closed G_list ->
  (forall m, 0 <= m < 3 -> ad m = - ad' m) -> 0 <= i < np -> 0 <= k < 3 -> 0 <= j < np -> 0 <= l < 3 ->
  let dd_q0 := recip_dd_q0 cis sq ex np G0 born0 eps0 pos0 lambda0 tol0 in
  elem (np * 3) (gonze_undone_matrix cis sq ex np ns fc svecs multi mass s2p p2s QDinv ad born eps rl dir nac dd_q0 G_list pos lambda tol D) (ix i k) (ix j l) =c=
  conj (elem (np * 3) (gonze_undone_matrix cis sq ex np ns fc svecs multi mass s2p p2s QDinv ad' born eps rl dir nac dd_q0 G_list pos lambda tol D') (ix i k) (ix j l)).
Proof.
  intros QDinv ad ad' born eps rl dir nac G0 born0 eps0 pos0 lambda0 tol0 G_list pos lambda tol D D' i k j l E Rs Re N0 N1 Ha Hi Hk Hj Hl dd_q0. rewrite !elem_adr. pose proof (grid_q_neg QDinv ad ad' Ha) as Hq. unfold gonze_undone_matrix. rewrite !gonze_value by assumption.
  assert (Q0 : dd_q0 (i * 9 + k * 3 + l) =c= conj (dd_q0 (i * 9 + k * 3 + l))).
  { unfold dd_q0. rewrite !q0_value by assumption. assert (S : forall y z, q0_sum cis sq ex np G0 born0 eps0 pos0 lambda0 tol0 i y z =c= conj (q0_sum cis sq ex np G0 born0 eps0 pos0 lambda0 tol0 i y z)).
    { intros y z. unfold q0_sum. rewrite CSum_conj. apply CSum_ext. intros j' _. apply dd_sum_reverse; auto. intros x _. reflexivity. }
    rewrite (S k l) at 1. rewrite (S l k) at 1. split; cbn [re im half cscale cadd conj]; ring. }
  rewrite !(lsum_neg None None _ _ _ _ _ _ E Hq I). rewrite (dd_sum_reverse G_list _ _ _ eps born pos lambda tol i k j l E Rs Re N1 (cart_neg rl _ _ Hq)).
  assert (B : (if i =? j then dd_q0 (i * 9 + k * 3 + l) else c0) =c= conj (if i =? j then dd_q0 (i * 9 + k * 3 + l) else c0)) by (destruct (i =? j); [exact Q0|split; cbn; ring]).
  rewrite B at 1. match goal with |- cadd (half (cadd (conj ?a) (conj (conj ?b)))) (cscale ?m (cscale _ (csub (conj ?d) (conj ?e)))) =c= _ => generalize a b m d e end. intros a b m d e. split; cbn [re im half cscale cadd csub conj]; ring.
Qed.

(** *** C74 *)
Theorem C74_periodic : forall (A : Q -> Prop) q q' (g : Z -> Z) (x : Z -> Z -> Q) D D' i k j l, turns A cis -> even_odd cis ->
  (forall m, 0 <= m < 3 -> (q' m == q m + inject_Z (g m))%Q) ->
  (forall i s j a, 0 <= i < np -> 0 <= s < ns -> 0 <= j < np -> s2p s = p2s j -> let '(mu, a0) := multi (s * np + i) in 0 <= a < mu ->
     A (vdot q (svecs (a0 + a))) /\ exists n : Z -> Z, forall m, 0 <= m < 3 -> (svecs (a0 + a)%Z m == x j m - x i m + inject_Z (n m))%Q) ->
  (forall i j, 0 <= i < np -> 0 <= j < np -> A (vdot (fun m => inject_Z (g m)) (fun m => x j m - x i m)%Q)) ->
  0 <= i < np -> 0 <= k < 3 -> 0 <= j < np -> 0 <= l < 3 ->
  elem (np * 3) (dym_at_q cis sq np ns fc svecs multi mass s2p p2s q' None D') (ix i k) (ix j l) =c=
  cmul (cis (vdot (fun m => inject_Z (g m)) (fun m => x j m - x i m)%Q)) (elem (np * 3) (dym_at_q cis sq np ns fc svecs multi mass s2p p2s q None D) (ix i k) (ix j l)).
Proof.
  intros A q q' g x D D' i k j l [T1 [T2 T3]] [E1 E2] Hq HS HA Hi Hk Hj Hl. rewrite !elem_adr, !dym_value by assumption.
  assert (L : forall i k j l, 0 <= i < np -> 0 <= j < np -> lsum None q' i k j l =c= cmul (cis (vdot (fun m => inject_Z (g m)) (fun m => x j m - x i m)%Q)) (lsum None q i k j l)).
  { clear i k j l Hi Hk Hj Hl. intros i k j l Hi Hj. set (th := vdot _ _). unfold lattice_sum.
    transitivity (cscale (/ sq (mass i * mass j)) (cmul (cis th) (CSum ns (fun s => if s2p s =? p2s j then cscale (fc_at np ns fc p2s None i j s k l) (mean_phase cis np svecs multi q i s) else c0)))); [|split; cbn [re im cscale cmul]; ring].
    apply cscale_proper; [reflexivity|]. rewrite <- CSum_scale. apply CSum_ext. intros s Hs. destruct (Z.eqb_spec (s2p s) (p2s j)) as [Es|_]; [|split; cbn; ring].
    transitivity (cscale (fc_at np ns fc p2s None i j s k l) (cmul (cis th) (mean_phase cis np svecs multi q i s))); [|split; cbn [re im cscale cmul]; ring]. apply cscale_proper; [reflexivity|].
    unfold mean_phase. transitivity (cscale (/ inject_Z (fst (multi (s * np + i)))) (cmul (cis th) (CSum (fst (multi (s * np + i))) (fun l => cis (sum3 (fun m => (q m * svecs (snd (multi (s * np + i)%Z) + l)%Z m)%Q)))))); [|split; cbn [re im cscale cmul]; ring].
    apply cscale_proper; [reflexivity|]. rewrite <- CSum_scale. apply CSum_ext. intros a Ha. specialize (HS i s j a Hi Hs Hj Es). destruct (multi (s * np + i)) as [mu a0]. cbn [fst snd] in *. destruct (HS Ha) as [Aq [n Hn]].
    pose proof (HA i j Hi Hj) as Ath. fold th in Ath. set (N := g 0%Z * n 0%Z + g 1%Z * n 1%Z + g 2%Z * n 2%Z). destruct (T3 N) as [AN CN]. destruct (T2 th _ Ath AN) as [AtN CtN]. destruct (T2 _ _ AtN Aq) as [_ Call].
    transitivity (cis ((th + inject_Z N) + vdot q (svecs (a0 + a)))%Q).
    - apply E1. rewrite sum3_eq, !Hq by lia. unfold th, vdot, N. rewrite !inject_Z_plus, !inject_Z_mult, !Hn by lia. ring.
    - rewrite Call, CtN, CN. assert (V : cis (vdot q (svecs (a0 + a))) =c= cis (sum3 (fun m => (q m * svecs (a0 + a)%Z m)%Q))) by (apply E1; rewrite sum3_eq; unfold vdot; ring). rewrite V. ring. }
  rewrite !L by assumption. set (th := vdot _ (fun m => x j m - x i m)%Q). set (th' := vdot _ (fun m => x i m - x j m)%Q).
  assert (H : cis th' =c= conj (cis th)) by (rewrite <- E2; apply E1; unfold th, th', vdot; ring). rewrite conj_mul, H. split; cbn [re im half cscale cadd cmul conj]; ring.
Qed.
End P.

(** ** Examples *)
(** quarter turns: a function meeting the requirements on cos and sin *)
Definition quarter (n : Z) : cplx := match n mod 4 with 0 => c1 | 1 => C 0 1 | 2 => C (-1) 0 | _ => C 0 (-1) end.
Definition qcis (x : Q) : cplx := let y := Qred (4 * x) in if (Qden y =? 1)%positive then quarter (Qnum y) else c1.
Definition quarters (x : Q) : Prop := exists n, (4 * x == inject_Z n)%Q.
Lemma qcis_quarter : forall x n, (4 * x == inject_Z n)%Q -> qcis x = quarter n.
Proof. intros x n H. unfold qcis. rewrite (Qred_complete _ _ H). rewrite Qcanon.Qred_identity; [reflexivity|]. cbn. apply Z.gcd_1_r. Qed.
Lemma quarter_cases : forall n, (n mod 4 = 0 /\ quarter n = c1) \/ (n mod 4 = 1 /\ quarter n = C 0 1) \/ (n mod 4 = 2 /\ quarter n = C (-1) 0) \/ (n mod 4 = 3 /\ quarter n = C 0 (-1)).
Proof. intros n. pose proof (Z.mod_pos_bound n 4 ltac:(lia)). unfold quarter. assert (E : n mod 4 = 0 \/ n mod 4 = 1 \/ n mod 4 = 2 \/ n mod 4 = 3) by lia. destruct E as [E|[E|[E|E]]]; rewrite E; auto. Qed.
Lemma quarter_eq : forall n a, n mod 4 = a mod 4 -> quarter n = quarter a. Proof. intros n a H. unfold quarter. now rewrite H. Qed.
Lemma quarter_add : forall n m, quarter (n + m) =c= cmul (quarter n) (quarter m).
Proof.
  intros n m. rewrite (quarter_eq (n + m) (n mod 4 + m mod 4)) by apply Zplus_mod.
  destruct (quarter_cases n) as [[-> ->]|[[-> ->]|[[-> ->]|[-> ->]]]]; destruct (quarter_cases m) as [[-> ->]|[[-> ->]|[[-> ->]|[-> ->]]]]; split; reflexivity.
Qed.
Lemma quarter_opp : forall n, quarter (- n) =c= conj (quarter n).
Proof.
  intros n. rewrite (quarter_eq (- n) (- (n mod 4))). 2:{ pose proof (Z.div_mod n 4 ltac:(lia)). replace (- n) with (- (n mod 4) + (- (n / 4)) * 4) by lia. apply Z_mod_plus_full. }
  destruct (quarter_cases n) as [[-> ->]|[[-> ->]|[[-> ->]|[-> ->]]]]; split; reflexivity.
Qed.
Lemma qcis_even_odd : even_odd qcis.
Proof.
  split.
  - intros x y H. unfold qcis. rewrite (Qred_complete (4 * x) (4 * y)) by (now rewrite H). reflexivity.
  - intros x. unfold qcis. rewrite (Qred_complete (4 * - x) (- (4 * x))) by ring. rewrite Qred_opp. cbn [Qopp Qden Qnum]. destruct (_ =? _)%positive; [apply quarter_opp|split; reflexivity].
Qed.
Lemma qcis_turns : turns quarters qcis.
Proof.
  split; [|split].
  - intros x y H [n Hn]. split; [exists n; now rewrite <- H|now apply qcis_even_odd].
  - intros x y [n Hn] [m Hm]. assert (E : (4 * (x + y) == inject_Z (n + m))%Q) by (rewrite inject_Z_plus, <- Hn, <- Hm; ring). split; [now exists (n + m)|]. rewrite (qcis_quarter _ _ Hn), (qcis_quarter _ _ Hm), (qcis_quarter _ _ E). apply quarter_add.
  - intros n. assert (E : (4 * inject_Z n == inject_Z (4 * n))%Q) by (rewrite inject_Z_mult; reflexivity). split; [now exists (4 * n)|]. rewrite (qcis_quarter _ _ E). rewrite (quarter_eq (4 * n) 0) by (rewrite Z.mul_comm; apply Z_mod_mult). reflexivity.
Qed.
Definition v3 (a b c : Q) (m : Z) : Q := match m with 0 => a | 1 => b | _ => c end.
Definition w3 (a b c : Z) (m : Z) : Z := match m with 0 => a | 1 => b | _ => c end.
Definition unit3 (k l : Z) : Q := if k =? l then 1%Q else 0%Q.
Definition born1 (i k l : Z) : Q := unit3 k l.
(** two atoms at 0 and a/2 with masses 1 and 4 *)
Definition fc2 (x : Z) : Q := let i := x / 18 in let s := x / 9 mod 2 in let k := x / 3 mod 3 in let l := x mod 3 in if k =? l then (if i =? s then 1 else -1)%Q else 0%Q.
Definition sv2 (a : Z) : Z -> Q := match a with 1 => v3 (-1 # 2) 0 0 | 2 => v3 (1 # 2) 0 0 | _ => v3 0 0 0 end.
Definition mu2 (a : Z) : Z * Z := (1, a).
Definition mass2 (i : Z) : Q := if i =? 0 then 1%Q else 4%Q.
Definition sq2 (x : Q) : Q := if Qeq_bool x 1 then 1%Q else if Qeq_bool x 4 then 2%Q else if Qeq_bool x 16 then 4%Q else x.
Definition id2 (i : Z) : Z := i.
Definition dm2 (q : Z -> Q) := dym_at_q qcis sq2 2 2 fc2 sv2 mu2 mass2 id2 id2 q None (fun _ => C 7 7).
Definition show (a : cplx) : Q * Q := (Qred (re a), Qred (im a)).
Lemma sq2_respects : respects sq2.
Proof. intros x y H. unfold sq2. rewrite (Qeqb_comp x y H 1%Q 1%Q), (Qeqb_comp x y H 4%Q 4%Q), (Qeqb_comp x y H 16%Q 16%Q) by reflexivity. destruct (Qeq_bool y 1), (Qeq_bool y 4), (Qeq_bool y 16); try reflexivity; exact H. Qed.
Definition ex2 (x : Q) : Q := (1 + x)%Q.
Lemma ex2_respects : respects ex2. Proof. intros x y H. unfold ex2. now rewrite H. Qed.

Example C53_ex : show (elem 6 (dm2 (v3 (1 # 2) 0 0)) (ix 0 0) (ix 1 0)) = (0, -1 # 2)%Q /\ show (elem 6 (dm2 (v3 (1 # 2) 0 0)) (ix 1 0) (ix 0 0)) = (0, 1 # 2)%Q /\ show (elem 6 (dm2 (v3 (1 # 2) 0 0)) (ix 1 2) (ix 1 2)) = (1 # 4, 0)%Q.
Proof. vm_compute. auto. Qed.
Definition gz (q : Z -> Q) dir := gonze_matrix qcis sq2 ex2 2 2 fc2 sv2 mu2 mass2 id2 id2 q born1 unit3 unit3 dir 1 (recip_dd_q0 qcis sq2 ex2 2 [v3 0 0 0; v3 1 0 0; v3 (-1) 0 0] born1 unit3 (fun i m => sv2 (i * 2) m) 1 (1 # 100)) [v3 0 0 0; v3 1 0 0; v3 (-1) 0 0] (fun i m => sv2 (i * 2) m) 1 (1 # 100) (fun _ => C 7 7).
Example C53_gonze_ex : even_odd qcis /\ respects sq2 /\ show (elem 6 (gz (v3 (1 # 2) 0 0) None) (ix 0 0) (ix 1 0)) = show (conj (elem 6 (gz (v3 (1 # 2) 0 0) None) (ix 1 0) (ix 0 0))) /\ show (elem 6 (gz (v3 (1 # 2) 0 0) None) (ix 0 0) (ix 1 0)) = (-7 # 32, -1 # 2)%Q.
Proof. split; [apply qcis_even_odd|]. split; [apply sq2_respects|]. vm_compute. auto. Qed.
(** at Gamma the direction counts, elsewhere it does not *)
Example C66_ex : show (elem 6 (gz (v3 0 0 0) None) (ix 0 2) (ix 0 2)) = (1, 0)%Q /\ show (elem 6 (gz (v3 0 0 0) (Some (v3 0 0 3))) (ix 0 2) (ix 0 2)) = (2, 0)%Q /\
  show (elem 6 (gz (v3 (1 # 2) 0 0) None) (ix 0 0) (ix 0 0)) = show (elem 6 (gz (v3 (1 # 2) 0 0) (Some (v3 0 0 3))) (ix 0 0) (ix 0 0)) /\
  (forall G, In G [v3 0 0 0; v3 1 0 0; v3 (-1) 0 0] -> Qle (1 # 100) (sq2 (sum3 (fun x => (G x + to_cart unit3 (v3 (1 # 2) 0 0) x) * (G x + to_cart unit3 (v3 (1 # 2) 0 0) x))%Q))).
Proof. split; [vm_compute; reflexivity|]. split; [vm_compute; reflexivity|]. split; [vm_compute; reflexivity|]. intros G [<-|[<-|[<-|[]]]]; vm_compute; discriminate. Qed.

(** Wang et al.: the same claim fails. ph_get_phonons_at_gridpoints gives the direction to every point; at (1/2, 0, 0) the direction (0, 0, 1) removes
    the term the matrix has without it. *)
Definition wang1 (ad : Z -> Z) dir := undone_matrix qcis sq2 1 1 (fun _ => 0%Q) (fun _ _ => 0%Q) (fun _ => (1, 0)) (fun _ => 1%Q) id2 id2 (fun k l => ((1 # 2) * unit3 k l)%Q) ad (Some born1) unit3 unit3 dir 1 (fun _ => c0).
Theorem C66_wang_refuted : exists ad d, ~ (ad 0 = 0) /\ (forall m, 0 <= m < 3 -> -1 <= ad m <= 1) /\ ~ (elem 3 (wang1 ad (Some d)) (ix 0 0) (ix 0 0) =c= elem 3 (wang1 ad None) (ix 0 0) (ix 0 0)).
Proof.
  exists (w3 1 0 0), (v3 0 0 1). split; [cbn; lia|]. split; [intros m Hm; assert (M : m = 0 \/ m = 1 \/ m = 2) by lia; destruct M as [-> | [-> | ->]]; cbn; lia|]. intros [H _]. vm_compute in H. discriminate.
Qed.
Example C66_wang_ex : show (elem 3 (wang1 (w3 0 0 0) (Some (v3 1 1 0))) (ix 0 0) (ix 0 1)) = (1 # 2, 0)%Q /\ show (elem 3 (wang1 (w3 0 0 0) None) (ix 0 0) (ix 0 1)) = (0, 0)%Q.
Proof. vm_compute. auto. Qed.
Example C71_ex : ~ (5 == 0)%Q /\ show (elem 3 (wang1 (w3 0 0 0) (Some (scale_dir 5 (v3 1 1 0)))) (ix 0 0) (ix 0 1)) = (1 # 2, 0)%Q /\ show (elem 6 (gz (v3 0 0 0) (Some (scale_dir 5 (v3 0 0 3)))) (ix 0 2) (ix 0 2)) = (2, 0)%Q.
Proof. split; [discriminate|]. vm_compute. auto. Qed.
Example C72_ex : exists r : Z -> Q, (forall x, (x == 0)%Q -> qcis x =c= c1) /\ (forall i j, 0 <= i < 2 -> 0 <= j < 2 -> (sq2 (mass2 i * mass2 j) == r i * r j /\ ~ r i == 0)%Q) /\ sum_rules 2 2 fc2 id2 id2 /\
  show (elem 6 (dm2 (v3 0 0 0)) (ix 0 0) (ix 1 0)) = (-1 # 2, 0)%Q /\ (forall s i, 0 <= s < 2 -> 0 <= i < 2 -> 0 < fst (mu2 (s * 2 + i))) /\ (forall s, 0 <= s < 2 -> exists j, 0 <= j < 2 /\ id2 j = id2 s).
Proof.
  exists (fun i => if i =? 0 then 1%Q else 2%Q). split; [|split; [|split; [|split; [|split]]]].
  - intros x H. assert (E : (4 * x == inject_Z 0)%Q) by (rewrite H; reflexivity). rewrite (qcis_quarter _ _ E). reflexivity.
  - intros i j Hi Hj. assert (I : i = 0 \/ i = 1) by lia. assert (J : j = 0 \/ j = 1) by lia. destruct I as [-> | ->], J as [-> | ->]; split; vm_compute; congruence.
  - split; intros i k l Hi Hk Hl; assert (I : i = 0 \/ i = 1) by lia; assert (K : k = 0 \/ k = 1 \/ k = 2) by lia; assert (L : l = 0 \/ l = 1 \/ l = 2) by lia; destruct I as [-> | ->], K as [-> | [-> | ->]], L as [-> | [-> | ->]]; vm_compute; reflexivity.
  - vm_compute. reflexivity.
  - intros. cbn. lia.
  - intros s Hs. now exists s.
Qed.
Example C73_ex : even_odd qcis /\ respects sq2 /\ respects ex2 /\ neg_closed [v3 0 0 0; v3 1 0 0; v3 (-1) 0 0] /\
  show (elem 6 (gz (v3 (-1 # 2) 0 0) None) (ix 0 0) (ix 1 0)) = show (conj (elem 6 (gz (v3 (1 # 2) 0 0) None) (ix 0 0) (ix 1 0))).
Proof.
  split; [apply qcis_even_odd|]. split; [apply sq2_respects|]. split; [apply ex2_respects|]. split; [|vm_compute; reflexivity].
  exists [v3 0 0 0; v3 (-1) 0 0; v3 1 0 0]. split; [apply perm_skip, perm_swap|]. repeat (constructor; [intros m Hm; assert (M : m = 0 \/ m = 1 \/ m = 2) by lia; destruct M as [-> | [-> | ->]]; reflexivity|]). constructor.
Qed.
Example C74_ex : let x := fun i : Z => v3 (inject_Z i / 2)%Q 0 0 in let g := w3 1 0 0 in
  (forall i s j a, 0 <= i < 2 -> 0 <= s < 2 -> 0 <= j < 2 -> id2 s = id2 j -> let '(mu, a0) := mu2 (s * 2 + i) in 0 <= a < mu ->
     quarters (vdot (v3 (1 # 2) 0 0) (sv2 (a0 + a))) /\ exists n : Z -> Z, forall m, 0 <= m < 3 -> (sv2 (a0 + a)%Z m == x j m - x i m + inject_Z (n m))%Q) /\
  (forall i j, 0 <= i < 2 -> 0 <= j < 2 -> quarters (vdot (fun m => inject_Z (g m)) (fun m => x j m - x i m)%Q)) /\
  show (elem 6 (dm2 (v3 (3 # 2) 0 0)) (ix 0 0) (ix 1 0)) = (0, 1 # 2)%Q.
Proof.
  cbv zeta. split; [|split; [|vm_compute; reflexivity]].
  - intros i s j a Hi Hs Hj E. unfold id2 in E. subst j. unfold mu2. intros Ha. assert (a = 0) by lia. subst a. assert (I : i = 0 \/ i = 1) by lia. assert (S : s = 0 \/ s = 1) by lia.
    destruct I as [-> | ->], S as [-> | ->]; (split; [first [exists 0; vm_compute; reflexivity|exists 1; vm_compute; reflexivity|exists (-1); vm_compute; reflexivity]|exists (fun _ => 0); intros m Hm; assert (M : m = 0 \/ m = 1 \/ m = 2) by lia; destruct M as [-> | [-> | ->]]; vm_compute; reflexivity]).
  - intros i j Hi Hj. assert (I : i = 0 \/ i = 1) by lia. assert (S : j = 0 \/ j = 1) by lia.
    destruct I as [-> | ->], S as [-> | ->]; first [exists 0; vm_compute; reflexivity|exists 2; vm_compute; reflexivity|exists (-2); vm_compute; reflexivity].
Qed.
(** The term of Wang et al. is computed from the address as it is: at the equivalent points (1/2, 1/2, 0) and (-1/2, 1/2, 0) of one atom at the origin the matrices differ. *)
Theorem C74_wang_refuted : exists ad ad' (g : Z -> Z), (forall m, 0 <= m < 3 -> ad' m = ad m + 2 * g m) /\ ~ (elem 3 (wang1 ad None) (ix 0 0) (ix 0 1) =c= elem 3 (wang1 ad' None) (ix 0 0) (ix 0 1)).
Proof.
  exists (w3 1 1 0), (w3 (-1) 1 0), (w3 (-1) 0 0). split; [intros m Hm; assert (M : m = 0 \/ m = 1 \/ m = 2) by lia; destruct M as [-> | [-> | ->]]; reflexivity|]. intros [H _]. vm_compute in H. discriminate.
Qed.
Print Assumptions C53_hermitian. Print Assumptions C53_value. Print Assumptions C53_gonze.
Print Assumptions C66_gonze. Print Assumptions C66_gonze_gamma. Print Assumptions C66_wang_gamma. Print Assumptions C66_wang_refuted.
Print Assumptions C71_wang. Print Assumptions C71_gonze. Print Assumptions C72_acoustic. Print Assumptions C73_wang. Print Assumptions C73_gonze.
Print Assumptions C74_periodic. Print Assumptions C74_wang_refuted.
