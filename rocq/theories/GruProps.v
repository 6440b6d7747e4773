(** Mode Grueneisen parameters (C100) *)
From Coq Require Import ZArith QArith List Bool Lia Lqa Qfield.
From Verif Require Import Base BaseProofs QMat Cplx Fc3Trans IseSpec IseProofs IseProps KapProofs KkProps DynProps GruModel GruProofs.
Import ListNotations.
Open Scope Z_scope.

Section GruP.
Variable cis : Q -> cplx.
Variable sq : Q -> Q.
Variable np ns : Z.
Variable fc2 : Z -> Z -> Z -> Z -> Q.
Variable fc3 : Z -> Z -> Z -> Z -> Z -> Z -> Q.
Variable svecs : Z -> Z -> Q.
Variable multi : Z -> Z -> Z * Z.
Variable lat : Z -> Z -> Q.
Variable mass : Z -> Q.
Variable p2s s2p p2p : Z -> Z.

Local Notation R := (get_R svecs multi lat).

(** ** Specification *)
(** displacement along [m] of the supercell atom [M], as seen from the primitive atom [nu], when the crystal is deformed by the
    displacement gradient [E] and the atoms of the cell move by [xi] in addition *)
Definition moved (E : Z -> Z -> Q) (xi : Z -> Z -> Q) (nu M m : Z) : Q := (QS 3 (fun l => E m l * R nu M l) + xi (p2p (s2p M)) m)%Q.
(** harmonic force constants of the deformed crystal to first order *)
Definition fc2_deformed (E xi : Z -> Z -> Q) (nu P i j : Z) : Q :=
  (fc2 (p2s nu) P i j + QS ns (fun M => QS 3 (fun m => fc3 (p2s nu) P M i j m * moved E xi nu M m)))%Q.
(** the element (nu i, pi j) of a dynamical matrix with force constants [f] *)
Definition dyn_elem (f : Z -> Z -> Z -> Z -> Q) (q : Z -> Q) (nu pi i j : Z) : cplx :=
  cscale (/ sq (mass nu * mass pi)) (csum (map (fun P => cmul (gru_phase cis svecs multi q P nu) (C (f nu P i j) 0)) (filter (fun P => s2p P =? p2s pi) (zrange ns)))).
(** real part of <w|D|w> *)
Definition expectation (f : Z -> Z -> Z -> Z -> Q) (q : Z -> Q) (w : Z -> cplx) : Q :=
  QS 3 (fun i => QS 3 (fun j => QS np (fun nu => QS np (fun pi => re (cmul (cmul (conj (w (nu * 3 + i)%Z)) (dyn_elem f q nu pi i j)) (w (pi * 3 + j)%Z)))))).
Definition relaxation (X : Z -> Z -> Z -> Z -> Q) (E : Z -> Z -> Q) (mu m : Z) : Q := QS 3 (fun k => QS 3 (fun l => X mu m k l * E k l))%Q.
(** minus the force on atom [mu] along [i] to first order in the displacements *)
Definition force (E xi : Z -> Z -> Q) (mu i : Z) : Q := QS ns (fun N => QS 3 (fun j => fc2 (p2s mu) N i j * moved E xi mu N j))%Q.
(** the maps between the two cells *)
Definition cells : Prop := (forall N, 0 <= N < ns -> 0 <= p2p (s2p N) < np /\ p2s (p2p (s2p N)) = s2p N) /\ (forall nu, 0 <= nu < np -> p2p (p2s nu) = nu).
(** np.sqrt on products of masses *)
Definition roots (rt : Z -> Q) : Prop :=
  (forall mu, 0 <= mu < np -> (0 < rt mu /\ rt mu * rt mu == mass mu)%Q) /\ (forall mu nu, 0 <= mu < np -> 0 <= nu < np -> (sq (mass mu * mass nu) == rt mu * rt nu)%Q).
(** the dynamical matrix at q = 0 *)
Definition dyn_gamma (a b : Z) : Q :=
  (QS ns (fun N => if s2p N =? p2s (b / 3) then fc2 (p2s (a / 3)) N (a mod 3) (b mod 3) else 0) / sq (mass (a / 3) * mass (b / 3)))%Q.
(** what np.linalg.eigh returns for a real symmetric matrix *)
Definition eigh (n : Z) (D : Z -> Z -> Q) (vals : Z -> Q) (vecs : Z -> Z -> Q) : Prop :=
  (forall a s, 0 <= a < n -> 0 <= s < n -> (QS n (fun b => D a b * vecs b s) == vals s * vecs a s)%Q) /\
  (forall a b, 0 <= a < n -> 0 <= b < n -> (QS n (fun s => vecs a s * vecs b s) == delta a b)%Q) /\
  (forall s t, 0 <= s < n -> 0 <= t < n -> (QS n (fun a => vecs a s * vecs a t) == delta s t)%Q).

(** ** linear functionals *)
Definition coef (q : Z -> Q) (w : Z -> cplx) (i j nu pi P : Z) : Q :=
  if s2p P =? p2s pi then re (cmul (cmul (conj (w (nu * 3 + i)%Z)) (cscale (/ sq (mass nu * mass pi)) (gru_phase cis svecs multi q P nu))) (w (pi * 3 + j)%Z)) else 0%Q.
Definition lin (q : Z -> Q) (w : Z -> cplx) (f : Z -> Z -> Z -> Z -> Q) : Q :=
  QS 3 (fun i => QS 3 (fun j => QS np (fun nu => QS np (fun pi => QS ns (fun P => coef q w i j nu pi P * f nu P i j)))))%Q.
Lemma re_csum : forall X (f : X -> cplx) l, (re (csum (map f l)) == qsum (map (fun x => re (f x)) l))%Q.
Proof. intros. rewrite (proj1 (csum_parts _)), map_map. reflexivity. Qed.
Lemma im_csum : forall X (f : X -> cplx) l, (im (csum (map f l)) == qsum (map (fun x => im (f x)) l))%Q.
Proof. intros. rewrite (proj2 (csum_parts _)), map_map. reflexivity. Qed.
Lemma elem_lin : forall f q w i j nu pi,
  (re (cmul (cmul (conj (w (nu * 3 + i)%Z)) (dyn_elem f q nu pi i j)) (w (pi * 3 + j)%Z)) == QS ns (fun P => coef q w i j nu pi P * f nu P i j))%Q.
Proof.
  intros f q w i j nu pi. unfold dyn_elem, coef. set (a := w (nu * 3 + i)). set (b := w (pi * 3 + j)). set (c := (/ sq _)%Q).
  transitivity (re (csum (map (fun P => cmul (cmul (cmul (conj a) b) (C c 0)) (cmul (gru_phase cis svecs multi q P nu) (C (f nu P i j) 0))) (filter (fun P => s2p P =? p2s pi) (zrange ns))))).
  - apply re_proper. rewrite csum_scale, cscale_mul. ring.
  - rewrite re_csum, qs_filter. apply qs_ext. intros P _. destruct (s2p P =? p2s pi); [cbn; ring|ring].
Qed.
Lemma expectation_lin : forall f q w, (expectation f q w == lin q w f)%Q.
Proof.
  intros f q w. unfold expectation, lin. apply qs_ext. intros i _. apply qs_ext. intros j _. apply qs_ext. intros nu _. apply qs_ext. intros pi _. apply elem_lin.
Qed.
Lemma lin_ext : forall q w f g, (forall nu P i j, 0 <= nu < np -> 0 <= P < ns -> 0 <= i < 3 -> 0 <= j < 3 -> (f nu P i j == g nu P i j)%Q) -> (lin q w f == lin q w g)%Q.
Proof.
  intros q w f g H. unfold lin. apply qs_ext. intros i Hi. apply qs_ext. intros j Hj. apply qs_ext. intros nu Hn. apply qs_ext. intros pi _. apply qs_ext. intros P HP.
  apply in_zrange in Hi, Hj, Hn, HP. rewrite H by assumption. reflexivity.
Qed.
Lemma lin_add : forall q w f g, (lin q w (fun nu P i j => f nu P i j + g nu P i j) == lin q w f + lin q w g)%Q.
Proof.
  intros q w f g. unfold lin. rewrite <- qs_add. apply qs_ext. intros i _. rewrite <- qs_add. apply qs_ext. intros j _. rewrite <- qs_add. apply qs_ext. intros nu _.
  rewrite <- qs_add. apply qs_ext. intros pi _. rewrite <- qs_add. apply qs_ext. intros P _. ring.
Qed.
Lemma lin_scale : forall q w c f, (lin q w (fun nu P i j => c * f nu P i j) == c * lin q w f)%Q.
Proof.
  intros q w c f. unfold lin. rewrite <- qs_scale. apply qs_ext. intros i _. rewrite <- qs_scale. apply qs_ext. intros j _. rewrite <- qs_scale. apply qs_ext. intros nu _.
  rewrite <- qs_scale. apply qs_ext. intros pi _. rewrite <- qs_scale. apply qs_ext. intros P _. ring.
Qed.
Lemma lin_sum : forall q w X (F : X -> Z -> Z -> Z -> Z -> Q) l, (lin q w (fun nu P i j => qsum (map (fun x => F x nu P i j) l)) == qsum (map (fun x => lin q w (F x)) l))%Q.
Proof.
  intros q w X F. induction l as [|x l IH].
  - cbn [map]. transitivity (lin q w (fun nu P i j => 0 * 0)%Q); [apply lin_ext; intros; rewrite qs_nil; ring|]. rewrite (lin_scale q w 0 (fun _ _ _ _ => 0%Q)), qs_nil. ring.
  - cbn [map]. rewrite qs_cons, <- IH, <- lin_add. apply lin_ext. intros. rewrite qs_cons. reflexivity.
Qed.
Lemma coef_ext : forall q q' w w' f, (forall i j nu pi P, 0 <= i < 3 -> 0 <= j < 3 -> 0 <= nu < np -> 0 <= pi < np -> (coef q w i j nu pi P == coef q' w' i j nu pi P)%Q) -> (lin q w f == lin q' w' f)%Q.
Proof.
  intros q q' w w' f H. unfold lin. apply qs_ext. intros i Hi. apply qs_ext. intros j Hj. apply qs_ext. intros nu Hn. apply qs_ext. intros pi Hp. apply qs_ext. intros P _.
  apply in_zrange in Hi, Hj, Hn, Hp. rewrite H by assumption. reflexivity.
Qed.

Local Notation dPhi X k l := (fun nu P i j => get_dPhidu ns fc3 svecs multi lat p2s s2p p2p X nu P i j k l).
Local Notation gruneisen X := (get_gruneisen cis sq np ns fc3 svecs multi lat mass p2s s2p p2p X).
Lemma gru_lin : forall X q at_gamma omega2 w s k l, at_gamma && (s <? 3) = false ->
  (gruneisen X q at_gamma omega2 w s k l == lin q (fun a => w a s) (dPhi X k l) * (-1 / 2 / omega2 s))%Q.
Proof.
  intros X q at_gamma omega2 w s k l H. unfold get_gruneisen. rewrite H. rewrite <- expectation_lin. reflexivity.
Qed.
Lemma dPhi_E : forall X E nu P i j,
  (QS ns (fun M => QS 3 (fun m => fc3 (p2s nu) P M i j m * moved E (relaxation X E) nu M m)) == QS 3 (fun k => QS 3 (fun l => E k l * get_dPhidu ns fc3 svecs multi lat p2s s2p p2p X nu P i j k l)))%Q.
Proof.
  intros X E nu P i j. unfold get_dPhidu.
  transitivity (QS ns (fun M => QS 3 (fun m => fc3 (p2s nu) P M i j m * QS 3 (fun k => QS 3 (fun l => E k l * get_Y svecs multi lat s2p p2p X nu M m k l))))%Q).
  - apply qs_ext. intros M _. apply qs_ext. intros m Hm. apply in_zrange in Hm. apply Qmult_comp; [reflexivity|]. unfold moved, relaxation, get_Y.
    transitivity (QS 3 (fun k => delta m k * QS 3 (fun l => E k l * R nu M l)) + QS 3 (fun k => QS 3 (fun l => X (p2p (s2p M)) m k l * E k l)))%Q.
    + rewrite (delta_sum 3 m (fun k => QS 3 (fun l => E k l * R nu M l))%Q Hm). reflexivity.
    + rewrite <- qs_add. apply qs_ext. intros k _. rewrite <- qs_scale, <- qs_add. apply qs_ext. intros l _. unfold delta. destruct (m =? k); ring.
  - assert (S : forall (h : Z -> Z -> Z -> Z -> Q), (QS ns (fun M => QS 3 (fun m => QS 3 (fun k => QS 3 (fun l => h M m k l)))) == QS 3 (fun k => QS 3 (fun l => QS ns (fun M => QS 3 (fun m => h M m k l)))))%Q).
    { intros h. transitivity (QS ns (fun M => QS 3 (fun k => QS 3 (fun l => QS 3 (fun m => h M m k l))))).
      - apply qs_ext. intros M _. rewrite qs_swap. apply qs_ext. intros k _. rewrite qs_swap. reflexivity.
      - rewrite qs_swap. apply qs_ext. intros k _. rewrite qs_swap. reflexivity. }
    transitivity (QS ns (fun M => QS 3 (fun m => QS 3 (fun k => QS 3 (fun l => E k l * (fc3 (p2s nu) P M i j m * get_Y svecs multi lat s2p p2p X nu M m k l)))))%Q).
    + apply qs_ext. intros M _. apply qs_ext. intros m _. rewrite <- qs_scale. apply qs_ext. intros k _. rewrite <- qs_scale. apply qs_ext. intros l _. ring.
    + rewrite S. apply qs_ext. intros k _. apply qs_ext. intros l _. rewrite <- qs_scale. apply qs_ext. intros M _. rewrite <- qs_scale. reflexivity.
Qed.
(** C100: the tensor is minus half the relative change of the squared frequency per unit of deformation *)
Theorem C100_meaning : forall X q at_gamma omega2 w s E, at_gamma && (s <? 3) = false -> ~ (omega2 s == 0)%Q ->
  (expectation (fc2_deformed E (relaxation X E)) q (fun a => w a s) ==
   expectation (fun nu => fc2 (p2s nu)) q (fun a => w a s) - 2 * omega2 s * QS 3 (fun k => QS 3 (fun l => gruneisen X q at_gamma omega2 w s k l * E k l)))%Q.
Proof.
  intros X q at_gamma omega2 w s E H H0. rewrite !expectation_lin.
  transitivity (lin q (fun a => w a s) (fun nu P i j => fc2 (p2s nu) P i j + QS 3 (fun k => QS 3 (fun l => E k l * get_dPhidu ns fc3 svecs multi lat p2s s2p p2p X nu P i j k l)))%Q).
  - apply lin_ext. intros nu P i j _ _ _ _. unfold fc2_deformed. rewrite dPhi_E. reflexivity.
  - rewrite (lin_add q _ (fun nu P i j => fc2 (p2s nu) P i j) (fun nu P i j => QS 3 (fun k => QS 3 (fun l => E k l * get_dPhidu ns fc3 svecs multi lat p2s s2p p2p X nu P i j k l)))%Q).
    rewrite (lin_sum q _ Z (fun k nu P i j => QS 3 (fun l => E k l * get_dPhidu ns fc3 svecs multi lat p2s s2p p2p X nu P i j k l))%Q).
    apply Qplus_comp; [reflexivity|]. setoid_replace (- (2 * omega2 s * QS 3 (fun k => QS 3 (fun l => gruneisen X q at_gamma omega2 w s k l * E k l))))%Q with ((-2 * omega2 s) * QS 3 (fun k => QS 3 (fun l => gruneisen X q at_gamma omega2 w s k l * E k l)))%Q by ring.
    rewrite <- qs_scale. apply qs_ext. intros k _. rewrite (lin_sum q _ Z (fun l nu P i j => E k l * get_dPhidu ns fc3 svecs multi lat p2s s2p p2p X nu P i j k l)%Q).
    rewrite <- qs_scale. apply qs_ext. intros l _. rewrite lin_scale, gru_lin by exact H. field. exact H0.
Qed.
(** a common displacement of all atoms of the cell changes nothing *)
Theorem C100_origin : forall X X' (c : Z -> Z -> Z -> Q) q at_gamma omega2 w s k l,
  (forall M, 0 <= M < ns -> 0 <= p2p (s2p M) < np) ->
  (forall mu i, 0 <= mu < np -> 0 <= i < 3 -> (X' mu i k l == X mu i k l + c i k l)%Q) ->
  (forall nu P i j m, 0 <= nu < np -> 0 <= P < ns -> 0 <= i < 3 -> 0 <= j < 3 -> 0 <= m < 3 -> (QS ns (fun M => fc3 (p2s nu) P M i j m) == 0)%Q) ->
  (gruneisen X' q at_gamma omega2 w s k l == gruneisen X q at_gamma omega2 w s k l)%Q.
Proof.
  intros X X' c q at_gamma omega2 w s k l Hc HX A. destruct (at_gamma && (s <? 3)) eqn:G; [unfold get_gruneisen; rewrite G; reflexivity|].
  rewrite !gru_lin by exact G. apply Qmult_comp; [|reflexivity]. apply lin_ext. intros nu P i j Hn HP Hi Hj. unfold get_dPhidu, get_Y.
  transitivity (QS ns (fun M => QS 3 (fun m => fc3 (p2s nu) P M i j m * ((if (m =? k)%Z then R nu M l else 0) + X (p2p (s2p M)) m k l))) + QS ns (fun M => QS 3 (fun m => fc3 (p2s nu) P M i j m * c m k l)))%Q.
  - rewrite <- qs_add. apply qs_ext. intros M HM. rewrite <- qs_add. apply qs_ext. intros m Hm. apply in_zrange in HM, Hm. rewrite HX by (auto; apply Hc; assumption). ring.
  - rewrite (qs_swap _ _ (fun M m => fc3 (p2s nu) P M i j m * c m k l)%Q). rewrite (qs_zero _ (fun m => QS ns (fun M => fc3 (p2s nu) P M i j m * c m k l))%Q); [ring|].
    intros m Hm. apply in_zrange in Hm. rewrite qs_scale_r, A by assumption. ring.
Qed.
(** opposite wave vectors, with the conjugate eigenvectors, have the same tensor *)
Theorem C100_opposite : forall X q q' at_gamma omega2 w w' s k l, even_odd cis -> (forall m, 0 <= m < 3 -> (q' m == - q m)%Q) ->
  (forall a, 0 <= a < 3 * np -> w' a s =c= conj (w a s)) ->
  (gruneisen X q' at_gamma omega2 w' s k l == gruneisen X q at_gamma omega2 w s k l)%Q.
Proof.
  intros X q q' at_gamma omega2 w w' s k l [HC HO] Hq Hw. destruct (at_gamma && (s <? 3)) eqn:G; [unfold get_gruneisen; rewrite G; reflexivity|].
  rewrite !gru_lin by exact G. apply Qmult_comp; [|reflexivity]. apply coef_ext. intros i j nu pi P Hi Hj Hn Hp. unfold coef. destruct (s2p P =? p2s pi); [|reflexivity].
  assert (E : gru_phase cis svecs multi q' P nu =c= conj (gru_phase cis svecs multi q P nu)).
  { unfold gru_phase. destruct (multi P nu) as [m adrs].
    assert (E : CSum m (fun v => cis (QS 3 (fun l => svecs (adrs + v)%Z l * q' l)%Q)) =c= conj (CSum m (fun v => cis (QS 3 (fun l => svecs (adrs + v)%Z l * q l)%Q)))).
    { unfold CSum. rewrite csum_conj. apply csum_ext. intros v _. rewrite <- HO. apply HC. rewrite !qs_3, !Hq by lia. ring. }
    rewrite E. split; cbn; ring. }
  rewrite E, !Hw by lia. cbn. ring.
Qed.
(** the phase of an eigenvector does not matter *)
Theorem C100_gauge : forall X q at_gamma omega2 w w' s k l u, (cnorm2 u == 1)%Q -> (forall a, 0 <= a < 3 * np -> w' a s =c= cmul u (w a s)) ->
  (gruneisen X q at_gamma omega2 w' s k l == gruneisen X q at_gamma omega2 w s k l)%Q.
Proof.
  intros X q at_gamma omega2 w w' s k l u U Hw. destruct (at_gamma && (s <? 3)) eqn:G; [unfold get_gruneisen; rewrite G; reflexivity|].
  rewrite !gru_lin by exact G. apply Qmult_comp; [|reflexivity]. apply coef_ext. intros i j nu pi P Hi Hj Hn Hp. unfold coef. destruct (s2p P =? p2s pi); [|reflexivity].
  rewrite !Hw by lia. set (a := w (nu * 3 + i) s). set (b := w (pi * 3 + j) s). set (z := cscale _ _).
  transitivity (cnorm2 u * re (cmul (cmul (conj a) z) b))%Q; [unfold cnorm2; cbn; ring|]. rewrite U. ring.
Qed.

(** ** internal relaxation *)
Lemma by_cell : cells -> forall g : Z -> Z -> Q, (QS ns (fun N => g N (p2p (s2p N))) == QS np (fun nu => QS ns (fun N => if s2p N =? p2s nu then g N nu else 0)))%Q.
Proof.
  intros [C1 C2] g. rewrite qs_swap. apply qs_ext. intros N HN. apply in_zrange in HN. destruct (C1 N HN) as [B E].
  rewrite <- (delta_sum np (p2p (s2p N)) (g N) B). apply qs_ext. intros nu Hn. apply in_zrange in Hn. unfold delta.
  destruct (p2p (s2p N) =? nu) eqn:Ea.
  - apply Z.eqb_eq in Ea. rewrite <- E, Ea, Z.eqb_refl. ring.
  - replace (s2p N =? p2s nu) with false; [ring|]. symmetry. apply Z.eqb_neq. intros K. apply Z.eqb_neq in Ea. apply Ea. rewrite K. now apply C2.
Qed.
Variable vals : Z -> Q.
Variable vecs : Z -> Z -> Q.
Local Notation X := (get_X sq np ns fc2 svecs multi lat mass p2s vals vecs).
Lemma fold_sub : forall A (f : A -> Q) l x, (fold_left (fun x a => x - f a) l x == x - qsum (map f l))%Q.
Proof. intros A f. induction l as [|a l IH]; intros x; cbn [fold_left map]; rewrite ?qs_nil, ?qs_cons; [ring|]. rewrite IH. ring. Qed.
Lemma X_value : forall mu i j k, (X mu i j k == - QS np (fun nu => QS 3 (fun l => get_Gamma sq np mass vals vecs mu nu i l * QS ns (fun N => fc2 (p2s nu) N l j * R nu N k))))%Q.
Proof.
  intros mu i j k. unfold get_X.
  assert (E : forall l x, (fold_left (fun x nu => fold_left (fun x l => x - get_Gamma sq np mass vals vecs mu nu i l * QS ns (fun N => fc2 (p2s nu) N l j * R nu N k)) (zrange 3) x) l x == x - qsum (map (fun nu => QS 3 (fun l => get_Gamma sq np mass vals vecs mu nu i l * QS ns (fun N => fc2 (p2s nu) N l j * R nu N k))) l))%Q).
  { induction l as [|nu l IH]; intros x; cbn [fold_left map]; rewrite ?qs_nil, ?qs_cons; [ring|]. rewrite IH.
    rewrite (fold_sub Z (fun l => get_Gamma sq np mass vals vecs mu nu i l * QS ns (fun N => fc2 (p2s nu) N l j * R nu N k))%Q (zrange 3) x). ring. }
  rewrite E. ring.
Qed.
Lemma flat3 : forall (h : Z -> Z -> Q), 0 <= np -> (QS np (fun nu => QS 3 (fun l => h nu l)) == QS (3 * np) (fun b => h (b / 3)%Z (b mod 3)%Z))%Q.
Proof.
  intros h Hn. rewrite (Z.mul_comm 3 np), qs_flat by lia. apply qs_ext. intros nu _. apply qs_ext. intros l Hl. apply in_zrange in Hl.
  replace ((nu * 3 + l) / 3) with nu by (rewrite Z.add_comm, Z.div_add, Z.div_small by lia; ring). replace ((nu * 3 + l) mod 3) with l by (rewrite Z.add_comm, Z_mod_plus_full, Z.mod_small by lia; ring). reflexivity.
Qed.
Section Relax.
Variable rt : Z -> Q.
Hypothesis np1 : 1 <= np.
Hypothesis HC : cells.
Hypothesis HR : roots rt.
Hypothesis HE : eigh (3 * np) dyn_gamma vals vecs.
Hypothesis opt : forall s, 3 <= s < 3 * np -> ~ (vals s == 0)%Q.
Hypothesis asr : forall mu i j, 0 <= mu < np -> 0 <= i < 3 -> 0 <= j < 3 -> (QS ns (fun N => fc2 (p2s mu) N i j) == 0)%Q.
Local Notation Mt := (qsum (map mass (zrange np))).
Local Notation fl b := (0 <= b / 3 < np /\ 0 <= b mod 3 < 3).
Lemma flr : forall b, 0 <= b < 3 * np -> fl b.
Proof. clear - np1. intros b Hb. split; [split; [apply Z.div_pos; lia|apply Z.div_lt_upper_bound; lia]|apply Z.mod_pos_bound; lia]. Qed.
Lemma rt0 : forall mu, 0 <= mu < np -> ~ (rt mu == 0)%Q.
Proof. intros mu H K. destruct (proj1 HR mu H) as [P _]. lra. Qed.
Lemma M_pos : (0 < Mt)%Q.
Proof.
  assert (P : forall mu, 0 <= mu < np -> (0 < mass mu)%Q). { intros mu H. destruct (proj1 HR mu H) as [A B]. rewrite <- B. nra. }
  replace np with (np - 1 + 1) by ring. rewrite zrange_succ, map_app, qs_app by lia. cbn [map]. rewrite qs_cons, qs_nil.
  assert (N : (0 <= qsum (map mass (zrange (np - 1))))%Q).
  { assert (N : forall l, (forall x, In x l -> 0 <= x < np) -> (0 <= qsum (map mass l))%Q).
    { induction l as [|x l IH]; intros H; cbn [map]; [rewrite qs_nil; lra|]. rewrite qs_cons. pose proof (P x (H x (or_introl eq_refl))). pose proof (IH (fun y Hy => H y (or_intror Hy))). lra. }
    apply N. intros x Hx. apply in_zrange in Hx. lia. }
  pose proof (P (np - 1) ltac:(lia)). lra.
Qed.
(** mass-weighted translations *)
Definition tr (c b : Z) : Q := (rt (b / 3) * delta c (b mod 3))%Q.
Lemma tr_null : forall c a, 0 <= c < 3 -> 0 <= a < 3 * np -> (QS (3 * np) (fun b => dyn_gamma a b * tr c b) == 0)%Q.
Proof.
  intros c a Hc Ha. destruct (flr a Ha) as [A1 A2]. unfold dyn_gamma, tr.
  rewrite <- (flat3 (fun nu l => QS ns (fun N => if s2p N =? p2s nu then fc2 (p2s (a / 3)) N (a mod 3) l else 0) / sq (mass (a / 3) * mass nu) * (rt nu * delta c l))%Q) by lia.
  transitivity (QS np (fun nu => QS ns (fun N => if s2p N =? p2s nu then fc2 (p2s (a / 3)) N (a mod 3) c else 0)) / rt (a / 3)%Z)%Q.
  - unfold Qdiv at 2. rewrite <- qs_scale_r. apply qs_ext. intros nu Hn. apply in_zrange in Hn.
    rewrite (qs_ext _ _ (fun l => delta c l * (QS ns (fun N => if s2p N =? p2s nu then fc2 (p2s (a / 3)) N (a mod 3) l else 0) / rt (a / 3)%Z))%Q).
    + rewrite (delta_sum 3 c (fun l => QS ns (fun N => if s2p N =? p2s nu then fc2 (p2s (a / 3)) N (a mod 3) l else 0) / rt (a / 3)%Z)%Q Hc). reflexivity.
    + intros l _. rewrite (proj2 HR) by assumption. field. split; apply rt0; assumption.
  - rewrite <- (by_cell HC (fun N _ => fc2 (p2s (a / 3)) N (a mod 3) c)). rewrite asr by assumption. field. apply rt0; assumption.
Qed.
Lemma tr_norm : forall c d, 0 <= c < 3 -> 0 <= d < 3 -> (QS (3 * np) (fun a => tr c a * tr d a) == Mt * delta c d)%Q.
Proof.
  intros c d Hc Hd. unfold tr. rewrite <- (flat3 (fun nu l => rt nu * delta c l * (rt nu * delta d l))%Q) by lia. rewrite <- qs_scale_r. apply qs_ext. intros nu Hn. apply in_zrange in Hn.
  rewrite <- (proj2 (proj1 HR nu Hn)). rewrite (qs_ext _ _ (fun l => delta c l * (rt nu * rt nu * delta d l))%Q) by (intros; ring).
  rewrite (delta_sum 3 c (fun l => rt nu * rt nu * delta d l)%Q Hc). unfold delta. rewrite Z.eqb_sym. ring.
Qed.
(** one component of the deformation *)
Lemma relax_jk : forall mu i j k, 0 <= mu < np -> 0 <= i < 3 -> 0 <= j < 3 ->
  (QS ns (fun N => fc2 (p2s mu) N i j * R mu N k) + QS ns (fun N => QS 3 (fun m => fc2 (p2s mu) N i m * X (p2p (s2p N)) m j k)) ==
   mass mu / Mt * QS np (fun nu => QS ns (fun N => fc2 (p2s nu) N i j * R nu N k)))%Q.
Proof.
  intros mu i j k Hm Hi Hj. pose (F := fun nu l => QS ns (fun N => fc2 (p2s nu) N l j * R nu N k)%Q). pose (f := fun b => (F (b / 3)%Z (b mod 3)%Z / rt (b / 3)%Z)%Q).
  set (a := mu * 3 + i). assert (Ha : 0 <= a < 3 * np) by (unfold a; lia).
  assert (Ea : a / 3 = mu) by (unfold a; rewrite Z.add_comm, Z.div_add, Z.div_small by lia; ring). assert (Em : a mod 3 = i) by (unfold a; rewrite Z.add_comm, Z_mod_plus_full, Z.mod_small by lia; ring).
  assert (Xf : forall b', 0 <= b' < 3 * np -> (X (b' / 3) (b' mod 3) j k == - (1 / rt (b' / 3)%Z) * QS (3 * np) (fun b => QS (3 * np - 3) (fun s => vecs b' (3 + s)%Z * vecs b (3 + s)%Z / vals (3 + s)%Z) * f b))%Q).
  { intros b' Hb. destruct (flr b' Hb) as [B1 B2]. rewrite X_value. rewrite (flat3 (fun nu l => get_Gamma sq np mass vals vecs (b' / 3) nu (b' mod 3) l * QS ns (fun N => fc2 (p2s nu) N l j * R nu N k))%Q) by lia.
    setoid_replace (- (1 / rt (b' / 3)%Z) * QS (3 * np) (fun b => QS (3 * np - 3) (fun s => vecs b' (3 + s)%Z * vecs b (3 + s)%Z / vals (3 + s)%Z) * f b))%Q with (- ((1 / rt (b' / 3)%Z) * QS (3 * np) (fun b => QS (3 * np - 3) (fun s => vecs b' (3 + s)%Z * vecs b (3 + s)%Z / vals (3 + s)%Z) * f b)))%Q by ring.
    apply Qopp_comp. rewrite <- qs_scale. apply qs_ext. intros b Hb'. apply in_zrange in Hb'. destruct (flr b Hb') as [D1 D2]. unfold get_Gamma, f, F.
    rewrite (proj2 HR) by assumption. replace (b' / 3 * 3 + b' mod 3) with b' by (pose proof (Z.div_mod b' 3); lia). replace (b / 3 * 3 + b mod 3) with b by (pose proof (Z.div_mod b 3); lia).
    field. split; apply rt0; assumption. }
  assert (B : (QS ns (fun N => QS 3 (fun m => fc2 (p2s mu) N i m * X (p2p (s2p N)) m j k)) == - rt mu * QS (3 * np) (fun b' => dyn_gamma a b' * QS (3 * np) (fun b => QS (3 * np - 3) (fun s => vecs b' (3 + s)%Z * vecs b (3 + s)%Z / vals (3 + s)%Z) * f b)))%Q).
  { rewrite (by_cell HC (fun N nu => QS 3 (fun m => fc2 (p2s mu) N i m * X nu m j k)%Q)).
    transitivity (QS np (fun nu => QS 3 (fun m => QS ns (fun N => if s2p N =? p2s nu then fc2 (p2s mu) N i m else 0) * X nu m j k)))%Q.
    - apply qs_ext. intros nu _. rewrite (qs_ext _ _ (fun N => QS 3 (fun m => (if s2p N =? p2s nu then fc2 (p2s mu) N i m else 0) * X nu m j k))%Q).
      + rewrite qs_swap. apply qs_ext. intros m _. rewrite qs_scale_r. reflexivity.
      + intros N _. destruct (s2p N =? p2s nu); [reflexivity|]. symmetry. apply qs_zero. intros; ring.
    - rewrite (flat3 (fun nu m => QS ns (fun N => if s2p N =? p2s nu then fc2 (p2s mu) N i m else 0) * X nu m j k)%Q) by lia. rewrite <- qs_scale. apply qs_ext. intros b' Hb. apply in_zrange in Hb. destruct (flr b' Hb) as [B1 B2].
      rewrite (Xf b' Hb). unfold dyn_gamma. rewrite Ea, Em, (proj2 HR) by assumption. field. split; apply rt0; assumption. }
  destruct HE as (E1 & E2 & E3). rewrite B. assert (n3 : 3 <= 3 * np) by (clear - np1; lia). rewrite (pseudo_inverse (3 * np) n3 dyn_gamma vecs vals E1 E2 opt f a Ha).
  transitivity (rt mu * QS 3 (fun s => vecs a s * QS (3 * np) (fun b => vecs b s * f b)))%Q.
  - unfold f at 1. rewrite Ea, Em. unfold F. set (u := QS ns (fun N => fc2 (p2s mu) N i j * R mu N k)%Q). set (v := QS 3 _). field. now apply rt0.
  - (* the projection on the translations *)
    transitivity (rt mu * QS (3 * np) (fun b => QS 3 (fun c => tr c a * tr c b) / Mt * f b))%Q.
    + apply Qmult_comp; [reflexivity|]. rewrite (qs_ext _ _ (fun s => QS (3 * np) (fun b => vecs a s * vecs b s * f b))%Q) by (intros s _; rewrite <- qs_scale; apply qs_ext; intros; ring).
      rewrite qs_swap. apply qs_ext. intros b Hb. apply in_zrange in Hb. rewrite qs_scale_r.
      assert (M0 : ~ (Mt == 0)%Q) by (pose proof M_pos; lra).
      rewrite (acoustic (3 * np) n3 dyn_gamma vecs vals E1 E2 E3 opt tr Mt M0 tr_null tr_norm a b Ha Hb). reflexivity.
    + assert (M0 : ~ (Mt == 0)%Q) by (pose proof M_pos; lra).
      transitivity (rt mu * (rt mu / Mt) * QS (3 * np) (fun b => rt (b / 3)%Z * delta i (b mod 3) * f b))%Q.
      * rewrite <- !qs_scale. apply qs_ext. intros b Hb. apply in_zrange in Hb. unfold tr. rewrite Ea, Em.
        rewrite (qs_ext _ _ (fun c => delta i c * (rt mu * (rt (b / 3)%Z * delta c (b mod 3))))%Q) by (intros c _; unfold delta; rewrite (Z.eqb_sym c i); ring).
        rewrite (delta_sum 3 i (fun c => rt mu * (rt (b / 3)%Z * delta c (b mod 3)))%Q Hi). field. exact M0.
      * rewrite <- (proj2 (proj1 HR mu Hm)). transitivity (rt mu * rt mu / Mt * QS np (fun nu => F nu i))%Q; [|reflexivity].
        apply Qmult_comp; [field; exact M0|]. unfold f.
        rewrite <- (flat3 (fun nu l => rt nu * delta i l * (F nu l / rt nu))%Q) by lia. apply qs_ext. intros nu Hn. apply in_zrange in Hn.
        rewrite (qs_ext _ _ (fun l => delta i l * F nu l)%Q) by (intros l _; field; now apply rt0). apply (delta_sum 3 i (F nu) Hi).
Qed.
End Relax.
(** C100: with the computed internal displacements the forces caused by any deformation are those of a rigid acceleration of the
    cell: on every atom its share, by mass, of the total force, which the displacements do not change *)
Theorem C100_relaxed : forall rt E mu i, 1 <= np -> cells -> roots rt -> eigh (3 * np) dyn_gamma vals vecs ->
  (forall s, 3 <= s < 3 * np -> ~ (vals s == 0)%Q) ->
  (forall mu i j, 0 <= mu < np -> 0 <= i < 3 -> 0 <= j < 3 -> (QS ns (fun N => fc2 (p2s mu) N i j) == 0)%Q) ->
  0 <= mu < np -> 0 <= i < 3 ->
  (force E (relaxation X E) mu i == mass mu / qsum (map mass (zrange np)) * QS np (fun nu => force E (fun _ _ => 0) nu i))%Q.
Proof.
  intros rt E mu i np1 HC HR HE opt asr Hm Hi.
  assert (A : forall nu, (force E (fun _ _ => 0) nu i == QS 3 (fun j => QS 3 (fun k => E j k * QS ns (fun N => fc2 (p2s nu) N i j * R nu N k))))%Q).
  { intros nu. unfold force, moved. rewrite qs_swap. apply qs_ext. intros j _.
    rewrite (qs_ext _ _ (fun N => QS 3 (fun k => E j k * (fc2 (p2s nu) N i j * R nu N k)))%Q).
    - rewrite qs_swap. apply qs_ext. intros k _. rewrite qs_scale. reflexivity.
    - intros N _. rewrite Qplus_0_r, <- qs_scale. apply qs_ext. intros; ring. }
  transitivity (QS 3 (fun j => QS 3 (fun k => E j k * (QS ns (fun N => fc2 (p2s mu) N i j * R mu N k) + QS ns (fun N => QS 3 (fun m => fc2 (p2s mu) N i m * X (p2p (s2p N)) m j k))))))%Q.
  - transitivity (force E (fun _ _ => 0) mu i + QS ns (fun N => QS 3 (fun m => fc2 (p2s mu) N i m * relaxation X E (p2p (s2p N)) m)))%Q.
    + unfold force, moved. rewrite <- qs_add. apply qs_ext. intros N _. rewrite <- qs_add. apply qs_ext. intros m _. ring.
    + rewrite A. transitivity (QS 3 (fun j => QS 3 (fun k => E j k * QS ns (fun N => fc2 (p2s mu) N i j * R mu N k))) + QS 3 (fun j => QS 3 (fun k => E j k * QS ns (fun N => QS 3 (fun m => fc2 (p2s mu) N i m * X (p2p (s2p N)) m j k)))))%Q.
      2:{ rewrite <- qs_add. apply qs_ext. intros j _. rewrite <- qs_add. apply qs_ext. intros k _. ring. }
      apply Qplus_comp; [reflexivity|]. unfold relaxation.
      transitivity (QS ns (fun N => QS 3 (fun j => QS 3 (fun k => QS 3 (fun m => E j k * (fc2 (p2s mu) N i m * X (p2p (s2p N)) m j k))))))%Q.
      * apply qs_ext. intros N _. rewrite (qs_ext _ _ (fun m => QS 3 (fun j => QS 3 (fun k => E j k * (fc2 (p2s mu) N i m * X (p2p (s2p N)) m j k))))%Q).
        -- rewrite qs_swap. apply qs_ext. intros j _. rewrite qs_swap. reflexivity.
        -- intros m _. rewrite <- qs_scale. apply qs_ext. intros j _. rewrite <- qs_scale. apply qs_ext. intros k _. ring.
      * rewrite qs_swap. apply qs_ext. intros j _. rewrite qs_swap. apply qs_ext. intros k _. rewrite <- qs_scale. apply qs_ext. intros N _. rewrite <- qs_scale. reflexivity.
  - transitivity (QS 3 (fun j => QS 3 (fun k => E j k * (mass mu / qsum (map mass (zrange np)) * QS np (fun nu => QS ns (fun N => fc2 (p2s nu) N i j * R nu N k))))))%Q.
    + apply qs_ext. intros j Hj. apply qs_ext. intros k _. apply in_zrange in Hj. rewrite (relax_jk rt np1 HC HR HE opt asr mu i j k Hm Hi Hj). reflexivity.
    + rewrite <- qs_scale. rewrite (qs_ext _ (fun nu => _ * force E _ nu i)%Q (fun nu => QS 3 (fun j => QS 3 (fun k => E j k * (mass mu / qsum (map mass (zrange np)) * QS ns (fun N => fc2 (p2s nu) N i j * R nu N k)))))%Q).
      * symmetry. rewrite qs_swap. apply qs_ext. intros j _. rewrite qs_swap. apply qs_ext. intros k _. rewrite <- !qs_scale. apply qs_ext. intros nu _. reflexivity.
      * intros nu _. rewrite A, <- qs_scale. apply qs_ext. intros j _. rewrite <- qs_scale. apply qs_ext. intros k _. ring.
Qed.
(** a crystal with one atom per cell has nothing to relax *)
Theorem C100_monatomic : forall mu i j k, np = 1 -> (the_X sq np ns fc2 svecs multi lat mass p2s vals vecs false mu i j k == the_X sq np ns fc2 svecs multi lat mass p2s vals vecs true mu i j k)%Q.
Proof.
  intros mu i j k H. unfold the_X. rewrite X_value. unfold get_Gamma. rewrite H. change (zrange (3 * 1 - 3)) with (@nil Z). cbn [map]. rewrite qs_zero; [ring|].
  intros nu _. apply qs_zero. intros l _. rewrite qs_nil. ring.
Qed.
End GruP.

(** multiplying all force constants by the same factor, which multiplies the squared frequencies by it, changes nothing *)
Theorem C100_scale : forall cis sq np ns fc2 fc2' fc3 fc3' svecs multi lat mass p2s s2p p2p vals vals' vecs q at_gamma omega2 omega2' w s k l clamped (c : Q),
  ~ (c == 0)%Q -> ~ (omega2 s == 0)%Q -> (forall t, 3 <= t < 3 * np -> ~ (vals t == 0)%Q) ->
  (forall a b i j, (fc2' a b i j == c * fc2 a b i j)%Q) -> (forall a b d i j m, (fc3' a b d i j m == c * fc3 a b d i j m)%Q) ->
  (forall t, (vals' t == c * vals t)%Q) -> (omega2' s == c * omega2 s)%Q ->
  (get_gruneisen cis sq np ns fc3' svecs multi lat mass p2s s2p p2p (the_X sq np ns fc2' svecs multi lat mass p2s vals' vecs clamped) q at_gamma omega2' w s k l ==
   get_gruneisen cis sq np ns fc3 svecs multi lat mass p2s s2p p2p (the_X sq np ns fc2 svecs multi lat mass p2s vals vecs clamped) q at_gamma omega2 w s k l)%Q.
Proof.
  intros cis sq np ns fc2 fc2' fc3 fc3' svecs multi lat mass p2s s2p p2p vals vals' vecs q at_gamma omega2 omega2' w s k l clamped c Hc H0 Hv H2 H3 Hl Ho.
  destruct (at_gamma && (s <? 3)) eqn:G; [unfold get_gruneisen; rewrite G; reflexivity|]. rewrite !gru_lin by exact G. rewrite Ho.
  assert (EX : forall mu i j k, (the_X sq np ns fc2' svecs multi lat mass p2s vals' vecs clamped mu i j k == the_X sq np ns fc2 svecs multi lat mass p2s vals vecs clamped mu i j k)%Q).
  { intros mu i j k'. unfold the_X. destruct clamped; [reflexivity|]. rewrite !X_value. apply Qopp_comp. apply qs_ext. intros nu _. apply qs_ext. intros m _.
    assert (EG : (get_Gamma sq np mass vals' vecs mu nu i m == get_Gamma sq np mass vals vecs mu nu i m / c)%Q).
    { unfold get_Gamma.
      rewrite (qs_ext _ (fun t => _ / vals' (3 + t)%Z)%Q (fun t => (vecs (mu * 3 + i)%Z (3 + t)%Z * vecs (nu * 3 + m)%Z (3 + t)%Z / vals (3 + t)%Z) * (/ c))%Q).
      - rewrite qs_scale_r. unfold Qdiv. ring.
      - intros t Ht. apply in_zrange in Ht. rewrite Hl. assert (V0 := Hv (3 + t) ltac:(lia)). field. split; assumption. }
    rewrite EG. rewrite (qs_ext _ (fun N => fc2' _ N m j * _)%Q (fun N => c * (fc2 (p2s nu) N m j * get_R svecs multi lat nu N k'))%Q) by (intros N _; rewrite H2; ring). rewrite qs_scale. field. exact Hc. }
  transitivity (lin cis sq np ns svecs multi mass p2s s2p q (fun a => w a s) (fun nu P i j => c * get_dPhidu ns fc3 svecs multi lat p2s s2p p2p (the_X sq np ns fc2 svecs multi lat mass p2s vals vecs clamped) nu P i j k l)%Q * (-1 / 2 / (c * omega2 s)))%Q.
  - apply Qmult_comp; [|reflexivity]. apply lin_ext. intros nu P i j _ _ _ _. unfold get_dPhidu. rewrite <- qs_scale. apply qs_ext. intros M _. rewrite <- qs_scale. apply qs_ext. intros m _. unfold get_Y. rewrite H3, EX. ring.
  - rewrite lin_scale. field. split; assumption.
Qed.

(** ** the rows that are read *)
(** full force constants have all the rows; compact ones do only if the primitive atoms are the first atoms of the supercell *)
Theorem C100_rows : forall np ns p2s, (forall nu, 0 <= nu < np -> 0 <= p2s nu < ns) ->
  gru_accepted ns ns = true /\ gru_rows np p2s ns ns = true /\
  ((forall nu mu, 0 <= nu -> nu < mu -> mu < np -> p2s nu < p2s mu) -> (gru_rows np p2s np np = true <-> forall nu, 0 <= nu < np -> p2s nu = nu)).
Proof.
  intros np ns p2s H. split; [apply Z.eqb_refl|]. split.
  - apply forallb_forall. intros nu Hn. apply in_zrange in Hn. pose proof (H nu Hn). rewrite (proj2 (Z.ltb_lt _ _)) by lia. reflexivity.
  - intros Inc. split.
    + intros E.
      assert (B : forall nu, 0 <= nu < np -> p2s nu < np). { intros nu Hn. unfold gru_rows in E. rewrite forallb_forall in E. assert (I : In nu (zrange np)) by (now apply in_zrange). apply E in I. apply andb_true_iff in I. destruct I as [I _]. now apply Z.ltb_lt in I. }
      assert (L : forall nu, 0 <= nu -> nu < np -> nu <= p2s nu).
      { apply (natlike_ind (fun nu => nu < np -> nu <= p2s nu)); [intros H1; apply H; lia|]. intros x Hx IH H1. unfold Z.succ in *. pose proof (Inc x (x + 1) Hx ltac:(lia) H1). lia. }
      assert (U : forall d, 0 <= d -> forall nu, nu = np - 1 - d -> 0 <= nu -> p2s nu <= nu).
      { apply (natlike_ind (fun d => forall nu, nu = np - 1 - d -> 0 <= nu -> p2s nu <= nu)).
        - intros nu E1 E2. pose proof (B nu ltac:(lia)). lia.
        - intros d Hd IH nu E1 E2. pose proof (IH (nu + 1) ltac:(lia) ltac:(lia)). pose proof (Inc nu (nu + 1) E2 ltac:(lia) ltac:(lia)). lia. }
      intros nu Hn. pose proof (L nu ltac:(lia) ltac:(lia)). pose proof (U (np - 1 - nu) ltac:(lia) nu ltac:(lia) ltac:(lia)). lia.
    + intros E. apply forallb_forall. intros nu Hn. apply in_zrange in Hn. rewrite (E nu Hn). rewrite (proj2 (Z.ltb_lt _ _)) by lia. reflexivity.
Qed.
(** compact force constants (as made with is_compact_fc=True) pass the check of the script and then fail with an IndexError *)
Theorem C100_compact_refuted : exists np p2s, gru_accepted np np = true /\ gru_rows np p2s np np = false.
Proof. exists 2, (fun nu => 4 * nu). split; reflexivity. Qed.
(** the check is meant to refuse different supercells of fc2 and fc3; with compact arrays it never does: the numbers of rows are those of
    the primitive cell *)
Theorem C100_supercells_refuted : exists np ns2 ns3, ns2 <> ns3 /\ (let rows_compact ns := if np <? ns then np else ns in gru_accepted (rows_compact ns2) (rows_compact ns3) = true).
Proof. exists 2, 16, 64. split; [discriminate|reflexivity]. Qed.

(** ** Example: two atoms (masses 9 and 16) joined by a spring *)
Definition gx_fc2 (a b i j : Z) : Q := if i =? j then (if a =? b then 144 else -144)%Q else 0%Q.
Definition gx_sv (n l : Z) : Q := if n =? 1 then 1 # 4 else if n =? 2 then -1 # 4 else 0%Q.
Definition gx_multi (N nu : Z) : Z * Z := (1, if N =? nu then 0 else if N =? 1 then 1 else 2).
Definition gx_lat (i j : Z) : Q := if i =? j then 4%Q else 0%Q.
Definition gx_mass (nu : Z) : Q := if nu =? 0 then 9%Q else 16%Q.
Definition gx_rt (nu : Z) : Q := if nu =? 0 then 3%Q else 4%Q.
Definition gx_sq (x : Q) : Q := inject_Z (Z.sqrt (Qnum x)).
Definition gx_vals (s : Z) : Q := if s <? 3 then 0%Q else 25%Q.
Definition gx_vecs (a s : Z) : Q :=
  if a mod 3 =? s mod 3 then (if s <? 3 then if a <? 3 then 3 # 5 else 4 # 5 else if a <? 3 then 4 # 5 else -3 # 5)%Q else 0%Q.
Definition gx_fc3 (a b c i j m : Z) : Q := if (i =? j) && (j =? m) then inject_Z ((if a =? 0 then 1 else -1) * (if b =? 0 then 1 else -1) * (if c =? 0 then 1 else -1)) else 0%Q.
Definition qall (n : Z) (p : Z -> bool) : bool := forallb p (zrange n).
Lemma qall_in : forall n p, qall n p = true -> forall x, 0 <= x < n -> p x = true.
Proof. intros n p H x Hx. unfold qall in H. rewrite forallb_forall in H. apply H. now apply in_zrange. Qed.
Example C100_relaxed_example : let X := get_X gx_sq 2 2 gx_fc2 gx_sv gx_multi gx_lat gx_mass (fun x => x) gx_vals gx_vecs in let E := fun i j : Z => (if i =? j then 1 # 10 else 0)%Q in
  cells 2 2 (fun x => x) (fun x => x) (fun x => x) /\ roots gx_sq 2 gx_mass gx_rt /\ eigh (3 * 2) (dyn_gamma gx_sq 2 gx_fc2 gx_mass (fun x => x) (fun x => x)) gx_vals gx_vecs /\
  (forall s, 3 <= s < 3 * 2 -> ~ (gx_vals s == 0)%Q) /\
  (forall mu i j, 0 <= mu < 2 -> 0 <= i < 3 -> 0 <= j < 3 -> (QS 2 (fun N => gx_fc2 mu N i j) == 0)%Q) /\
  (force 2 gx_fc2 gx_sv gx_multi gx_lat (fun x => x) (fun x => x) (fun x => x) E (fun _ _ => 0) 0 1 == -144 # 10)%Q /\
  (force 2 gx_fc2 gx_sv gx_multi gx_lat (fun x => x) (fun x => x) (fun x => x) E (relaxation X E) 0 1 == 0)%Q.
Proof.
  cbv zeta. split; [split; intros; split; lia || reflexivity|]. split; [|split; [|split; [|split; [|split]]]].
  - split.
    + intros mu H. assert (K : qall 2 (fun mu => qltb 0 (gx_rt mu) && Qeq_bool (gx_rt mu * gx_rt mu) (gx_mass mu)) = true) by (vm_compute; reflexivity).
      pose proof (qall_in _ _ K mu H) as P. cbn beta in P. apply andb_true_iff in P. destruct P as [P1 P2]. split; [now apply qltb_lt|now apply Qeq_bool_iff].
    + intros mu nu H1 H2. assert (K : qall 2 (fun mu => qall 2 (fun nu => Qeq_bool (gx_sq (gx_mass mu * gx_mass nu)) (gx_rt mu * gx_rt nu))) = true) by (vm_compute; reflexivity).
      pose proof (qall_in _ _ (qall_in _ _ K mu H1) nu H2) as P. now apply Qeq_bool_iff.
  - split; [|split]; intros a s Ha Hs.
    + assert (K : qall 6 (fun a => qall 6 (fun s => Qeq_bool (QS 6 (fun b => dyn_gamma gx_sq 2 gx_fc2 gx_mass (fun x => x) (fun x => x) a b * gx_vecs b s)%Q) (gx_vals s * gx_vecs a s))) = true) by (vm_compute; reflexivity).
      pose proof (qall_in _ _ (qall_in _ _ K a Ha) s Hs) as P. now apply Qeq_bool_iff.
    + assert (K : qall 6 (fun a => qall 6 (fun b => Qeq_bool (QS 6 (fun s => gx_vecs a s * gx_vecs b s)%Q) (delta a b))) = true) by (vm_compute; reflexivity).
      pose proof (qall_in _ _ (qall_in _ _ K a Ha) s Hs) as P. now apply Qeq_bool_iff.
    + assert (K : qall 6 (fun s => qall 6 (fun t => Qeq_bool (QS 6 (fun a => gx_vecs a s * gx_vecs a t)%Q) (delta s t))) = true) by (vm_compute; reflexivity).
      pose proof (qall_in _ _ (qall_in _ _ K a Ha) s Hs) as P. now apply Qeq_bool_iff.
  - intros s H. unfold gx_vals. rewrite (proj2 (Z.ltb_ge _ _)) by lia. discriminate.
  - intros mu i j H1 H2 H3. assert (K : qall 2 (fun mu => qall 3 (fun i => qall 3 (fun j => Qeq_bool (QS 2 (fun N => gx_fc2 mu N i j)) 0))) = true) by (vm_compute; reflexivity).
    pose proof (qall_in _ _ (qall_in _ _ (qall_in _ _ K mu H1) i H2) j H3) as P. now apply Qeq_bool_iff.
  - vm_compute. reflexivity.
  - vm_compute. reflexivity.
Qed.
(** the tensor of an optical mode of that crystal at q = (1/2, 0, 0) *)
Example C100_meaning_example : let X := fun mu i j k : Z => if (mu =? 1) && (i =? j) then (-1 # 2)%Q else 0%Q in
  let q := fun l : Z => if l =? 0 then 1 # 2 else 0%Q in let w := fun a s => C (gx_vecs a s) 0 in
  (false && (3 <? 3) = false) /\ ~ (gx_vals 3 == 0)%Q /\
  ~ (get_gruneisen qcis gx_sq 2 2 gx_fc3 gx_sv gx_multi gx_lat gx_mass (fun x => x) (fun x => x) (fun x => x) X q false gx_vals w 3 0 1 == 0)%Q.
Proof. cbv zeta. split; [reflexivity|]. split; [discriminate|]. vm_compute. discriminate. Qed.
Example C100_rows_example : let p2s := fun nu => 4 * nu in (forall nu, 0 <= nu < 2 -> 0 <= p2s nu < 8) /\ (forall nu mu, 0 <= nu -> nu < mu -> mu < 2 -> p2s nu < p2s mu).
Proof. split; intros; lia. Qed.
Print Assumptions C100_meaning. Print Assumptions C100_origin. Print Assumptions C100_opposite. Print Assumptions C100_gauge.
Print Assumptions C100_relaxed. Print Assumptions C100_monatomic. Print Assumptions C100_scale. Print Assumptions C100_rows. Print Assumptions C100_compact_refuted. Print Assumptions C100_supercells_refuted.
