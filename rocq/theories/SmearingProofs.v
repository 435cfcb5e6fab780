(** Facts about the smearing functions. *)
From Coq Require Import Reals Lra Psatz ZArith List Bool Lia.
From Coquelicot Require Import Coquelicot.
From Verif Require Import Arith Erf MVector Containers Newton Occupation Smearing.
Import ListNotations.
Local Open Scope R_scope.

Ltac rcases := repeat match goal with
  | |- context [Rltb ?a ?b] => let E := fresh "E" in destruct (Rltb a b) eqn:E; [apply Rltb_true in E|apply Rltb_false in E]
  | |- context [Rleb ?a ?b] => let E := fresh "E" in destruct (Rleb a b) eqn:E; [apply Rleb_true in E|apply Rleb_false in E]
  end.

Lemma sq2_sq : sq2 * sq2 = 2. Proof. apply sqrt_sqrt. lra. Qed.
Lemma sq2_pos : 0 < sq2. Proof. apply sqrt_lt_R0. lra. Qed.
Lemma sqpi_pos : 0 < sqpi. Proof. exact sqrt_pi_pos. Qed.
Lemma sqpi_sq : sqpi * sqpi = PI. Proof. exact sqrt_pi_sq. Qed.
Lemma sq2_bounds : 1.4 < sq2 < 1.5.
Proof. pose proof sq2_sq. pose proof sq2_pos. nra. Qed.
Lemma inv_sq2 : 1 / sq2 = sq2 / 2.
Proof. pose proof sq2_sq. pose proof sq2_pos. field_simplify; [|lra]. replace (sq2 / 2) with (sq2 * sq2 / 2 / sq2) by (field; lra). rewrite H. field. lra. Qed.

Lemma exp_le a b : a <= b -> exp a <= exp b.
Proof. intros [H| ->]; [apply Rlt_le, exp_increasing, H|lra]. Qed.

(** Derivatives of functions that agree near the point, and of functions glued at a point. *)
Lemma derive_local (f g : R -> R) x l eps : 0 < eps -> (forall y, Rabs (y - x) < eps -> g y = f y) ->
  is_derive g x l -> is_derive f x l.
Proof.
  intros He H D. apply (is_derive_ext_loc g f); [|exact D].
  exists (mkposreal eps He). intros y Hy. apply H. exact Hy.
Qed.

Lemma derive_glue (f g h : R -> R) x l :
  (forall y, y <= x -> f y = g y) -> (forall y, x < y -> f y = h y) -> g x = h x ->
  is_derive g x l -> is_derive h x l -> is_derive f x l.
Proof.
  intros Hg Hh E Dg Dh. apply is_derive_Reals in Dg. apply is_derive_Reals in Dh. apply is_derive_Reals.
  intros eps He. destruct (Dg eps He) as (d1 & D1). destruct (Dh eps He) as (d2 & D2).
  exists (mkposreal (Rmin d1 d2) (Rmin_stable_in_posreal d1 d2)). intros k Hk Hd. cbn in Hd.
  pose proof (Rmin_l d1 d2). pose proof (Rmin_r d1 d2).
  rewrite (Hg x) by lra. destruct (Rle_dec k 0) as [H1|H1].
  - rewrite (Hg (x + k)) by lra. apply D1; [exact Hk|lra].
  - rewrite (Hh (x + k)) by lra. rewrite E. apply D2; [exact Hk|lra].
Qed.

(** Strict monotonicity from the sign of the derivative. *)
Lemma decr_of_derive (f f' : R -> R) a b : a < b -> (forall x, a <= x <= b -> is_derive f x (f' x)) ->
  (forall x, a <= x <= b -> f' x < 0) -> f b < f a.
Proof.
  intros Hab D N. destruct (MVT_gen f a b f') as (c & Hc & E).
  - intros x. rewrite Rmin_left, Rmax_right by lra. intros Hx. apply D. lra.
  - intros x. rewrite Rmin_left, Rmax_right by lra. intros Hx. apply derivable_continuous_pt. eexists. apply is_derive_Reals, D. lra.
  - rewrite Rmin_left, Rmax_right in Hc by lra. specialize (N c Hc). nra.
Qed.

(** ** Bounds and monotonicity *)
Lemma fd_core mo x : mo - mo / (1 + exp x) = mo * (exp x / (1 + exp x)).
Proof. pose proof (exp_pos x). field. lra. Qed.
Lemma fd_core_bounds x : 0 < exp x / (1 + exp x) < 1.
Proof.
  pose proof (exp_pos x). split; [apply Rdiv_lt_0_compat; lra|].
  apply (Rmult_lt_reg_r (1 + exp x)); [lra|]. unfold Rdiv. rewrite Rmult_assoc, Rinv_l; lra.
Qed.
Lemma fd_core_incr x y : x <= y -> exp x / (1 + exp x) <= exp y / (1 + exp y).
Proof.
  intros H. pose proof (exp_pos x). pose proof (exp_pos y). pose proof (exp_le x y H).
  apply (Rmult_le_reg_r ((1 + exp x) * (1 + exp y))); [nra|].
  replace (exp x / (1 + exp x) * ((1 + exp x) * (1 + exp y))) with (exp x * (1 + exp y)) by (field; lra).
  replace (exp y / (1 + exp y) * ((1 + exp x) * (1 + exp y))) with (exp y * (1 + exp x)) by (field; lra).
  nra.
Qed.

Lemma fd_bounds x mo : 0 <= mo -> 0 <= fd_fn x mo <= mo.
Proof.
  intros Hm. unfold fd_fn. rcases; try lra.
  rewrite fd_core. pose proof (fd_core_bounds x). nra.
Qed.
Lemma fd_mono x y mo : 0 <= mo -> x <= y -> fd_fn x mo <= fd_fn y mo.
Proof.
  intros Hm H. unfold fd_fn. rcases; try lra; rewrite ?fd_core;
    try (pose proof (fd_core_bounds x)); try (pose proof (fd_core_bounds y)); try nra.
  pose proof (fd_core_incr x y H). nra.
Qed.

Lemma gs_left x : x <= 0 -> 0 < exp (x * (sq2 - x)) <= 1.
Proof.
  intros H. split; [apply exp_pos|]. rewrite <- exp_0. apply exp_le. pose proof sq2_pos. nra.
Qed.
Lemma gs_right x : 0 <= x -> 0 < exp (- x * (sq2 + x)) <= 1.
Proof.
  intros H. split; [apply exp_pos|]. rewrite <- exp_0. apply exp_le. pose proof sq2_pos. nra.
Qed.
Lemma gs_bounds x mo : 0 <= mo -> 0 <= gs_fn x mo <= mo.
Proof.
  intros Hm. unfold gs_fn. rcases; try lra.
  - pose proof (gs_left x E1). nra.
  - pose proof (gs_right x (Rlt_le _ _ E1)). nra.
Qed.
Lemma gs_mono x y mo : 0 <= mo -> x <= y -> gs_fn x mo <= gs_fn y mo.
Proof.
  intros Hm H. pose proof sq2_pos as S2. pose proof (gs_bounds x mo Hm) as Bx. pose proof (gs_bounds y mo Hm) as By.
  unfold gs_fn in *. revert Bx By. rcases; intros Bx By; try lra.
  - apply Rmult_le_compat_l; [lra|]. apply exp_le. nra.
  - pose proof (gs_left x E3). pose proof (gs_right y (Rlt_le _ _ E4)). nra.
  - apply Rmult_le_compat_l; [lra|]. assert (exp (- y * (sq2 + y)) <= exp (- x * (sq2 + x))); [|lra]. apply exp_le. nra.
Qed.

Lemma gauss_bounds x mo : 0 <= mo -> 0 <= gauss_fn x mo <= mo.
Proof. intros Hm. unfold gauss_fn. pose proof (erf_bounds x). nra. Qed.
Lemma gauss_mono x y mo : 0 <= mo -> x <= y -> gauss_fn x mo <= gauss_fn y mo.
Proof.
  intros Hm [H| ->]; [|lra]. unfold gauss_fn. pose proof (erf_incr x y H). nra.
Qed.

(** ** delta = d fn / dx *)
Lemma fd_core_derive x mo : is_derive (fun x => mo - mo / (1 + exp x)) x (mo * exp x / ((1 + exp x) * (1 + exp x))).
Proof. auto_derive; [pose proof (exp_pos x); lra|]. pose proof (exp_pos x). field. lra. Qed.
Lemma fd_denom x : (exp (- x / 2) + exp (x / 2)) * (exp (- x / 2) + exp (x / 2)) = (1 + exp x) * (1 + exp x) / exp x.
Proof.
  pose proof (exp_pos (x / 2)) as P. pose proof (exp_pos x).
  replace (exp x) with (exp (x / 2) * exp (x / 2)) by (rewrite <- exp_plus; f_equal; field).
  replace (- x / 2) with (- (x / 2)) by field. rewrite exp_Ropp. field. lra.
Qed.
Lemma fd_delta_core x mo : Rabs x <= 35 -> fd_delta x mo = mo * exp x / ((1 + exp x) * (1 + exp x)).
Proof.
  intros H. unfold fd_delta. rcases; [lra|]. cbv zeta. rewrite fd_denom. pose proof (exp_pos x). field. lra.
Qed.

Lemma fd_fn_derive_core x mo : -35 < x < 40 -> is_derive (fun x => fd_fn x mo) x (mo * exp x / ((1 + exp x) * (1 + exp x))).
Proof.
  intros H. apply (derive_local _ (fun x => mo - mo / (1 + exp x)) x _ (Rmin (x + 35) (40 - x))).
  - apply Rmin_pos; lra.
  - intros y Hy. pose proof (Rmin_l (x + 35) (40 - x)). pose proof (Rmin_r (x + 35) (40 - x)).
    assert (-35 < y < 40) by (revert Hy; unfold Rabs; destruct (Rcase_abs (y - x)); lra).
    unfold fd_fn. rcases; lra.
  - apply fd_core_derive.
Qed.
Lemma fd_derive x mo : Rabs x < 35 -> is_derive (fun x => fd_fn x mo) x (fd_delta x mo).
Proof.
  intros H. rewrite fd_delta_core by lra. apply fd_fn_derive_core. revert H. unfold Rabs; destruct (Rcase_abs x); lra.
Qed.
(** between the windows *)
Lemma fd_gap x mo : 35 < x < 40 -> 0 < mo -> fd_delta x mo = 0 /\ exists d, is_derive (fun x => fd_fn x mo) x d /\ 0 < d.
Proof.
  intros H Hm. split.
  - unfold fd_delta. rcases; [reflexivity|]. rewrite Rabs_pos_eq in E by lra. lra.
  - eexists. split; [apply fd_fn_derive_core; lra|]. pose proof (exp_pos x). apply Rdiv_lt_0_compat; nra.
Qed.

Definition gs_l (mo x : R) : R := mo / 2 * exp (x * (sq2 - x)).
Definition gs_r (mo x : R) : R := mo * (1 - / 2 * exp (- x * (sq2 + x))).
Lemma gs_l_derive mo x : is_derive (gs_l mo) x (mo * / 2 * exp ((sq2 - x) * x) * (sq2 - 2 * x)).
Proof. unfold gs_l. auto_derive; [exact I|]. replace ((sq2 - x) * x) with (x * (sq2 - x)) by ring. replace (sq2 + - x) with (sq2 - x) by ring. field. Qed.
Lemma gs_r_derive mo x : is_derive (gs_r mo) x (mo * / 2 * exp (- x * (sq2 + x)) * (sq2 + 2 * x)).
Proof. unfold gs_r. auto_derive; [exact I|]. field. Qed.

Definition gs_core (mo x : R) : R := if Rleb x 0 then gs_l mo x else gs_r mo x.
Definition gs_dcore (mo x : R) : R :=
  if Rleb x 0 then mo * / 2 * exp ((sq2 - x) * x) * (sq2 - 2 * x) else mo * / 2 * exp (- x * (sq2 + x)) * (sq2 + 2 * x).
Lemma gs_core_derive mo x : is_derive (gs_core mo) x (gs_dcore mo x).
Proof.
  destruct (Rtotal_order x 0) as [H|[H|H]].
  - apply (derive_local _ (gs_l mo) x _ (- x)); [lra| |].
    + intros y Hy. unfold gs_core. rcases; [reflexivity|]. revert Hy. unfold Rabs; destruct (Rcase_abs (y - x)); lra.
    + unfold gs_dcore. rcases; [apply gs_l_derive|lra].
  - subst x. apply (derive_glue _ (gs_l mo) (gs_r mo)).
    + intros y Hy. unfold gs_core. rcases; [reflexivity|lra].
    + intros y Hy. unfold gs_core. rcases; [lra|reflexivity].
    + unfold gs_l, gs_r. replace (0 * (sq2 - 0)) with 0 by ring. replace (- 0 * (sq2 + 0)) with 0 by ring. rewrite exp_0. field.
    + unfold gs_dcore. rcases; [apply gs_l_derive|lra].
    + unfold gs_dcore. rcases; [|lra].
      replace (mo * / 2 * exp ((sq2 - 0) * 0) * (sq2 - 2 * 0)) with (mo * / 2 * exp (- 0 * (sq2 + 0)) * (sq2 + 2 * 0)); [apply gs_r_derive|].
      replace ((sq2 - 0) * 0) with (- 0 * (sq2 + 0)) by ring. ring.
  - apply (derive_local _ (gs_r mo) x _ x); [lra| |].
    + intros y Hy. unfold gs_core. rcases; [|reflexivity]. revert Hy. unfold Rabs; destruct (Rcase_abs (y - x)); lra.
    + unfold gs_dcore. rcases; [lra|apply gs_r_derive].
Qed.
Lemma gs_fn_derive_core x mo : -8 < x < 8 -> is_derive (fun x => gs_fn x mo) x (gs_dcore mo x).
Proof.
  intros H. apply (derive_local _ (gs_core mo) x _ (Rmin (x + 8) (8 - x))).
  - apply Rmin_pos; lra.
  - intros y Hy. pose proof (Rmin_l (x + 8) (8 - x)). pose proof (Rmin_r (x + 8) (8 - x)).
    assert (-8 < y < 8) by (revert Hy; unfold Rabs; destruct (Rcase_abs (y - x)); lra).
    unfold gs_fn, gs_core, gs_l, gs_r. rcases; lra.
  - apply gs_core_derive.
Qed.
Lemma gs_delta_core x mo : Rabs x <= 7 -> gs_delta x mo = gs_dcore mo x.
Proof. intros H. unfold gs_delta, gs_dcore. destruct (Rltb 7 (Rabs x)) eqn:E; [apply Rltb_true in E; lra|reflexivity]. Qed.
Lemma gs_derive x mo : Rabs x < 7 -> is_derive (fun x => gs_fn x mo) x (gs_delta x mo).
Proof.
  intros H. rewrite gs_delta_core by lra. apply gs_fn_derive_core. revert H. unfold Rabs; destruct (Rcase_abs x); lra.
Qed.
Lemma gs_gap x mo : 7 < Rabs x < 8 -> 0 < mo -> gs_delta x mo = 0 /\ exists d, is_derive (fun x => gs_fn x mo) x d /\ 0 < d.
Proof.
  intros H Hm. split.
  - unfold gs_delta. destruct (Rltb 7 (Rabs x)) eqn:E; [reflexivity|]. apply Rltb_false in E. lra.
  - eexists. split; [apply gs_fn_derive_core; revert H; unfold Rabs; destruct (Rcase_abs x); lra|].
    pose proof sq2_pos. unfold gs_dcore. rcases.
    + pose proof (exp_pos ((sq2 - x) * x)). repeat apply Rmult_lt_0_compat; lra.
    + pose proof (exp_pos (- x * (sq2 + x))). repeat apply Rmult_lt_0_compat; lra.
Qed.

Definition cold_core (mo x : R) : R := mo * (exp (- / 2 + (sq2 - x) * x) / sq2 / sqpi + / 2 * erfc (1 / sq2 - x)).
Lemma cold_z x : - (x - 1 / sq2) * (x - 1 / sq2) = - / 2 + (sq2 - x) * x.
Proof. rewrite inv_sq2. pose proof sq2_sq. nra. Qed.
Lemma cold_core_derive mo x : is_derive (cold_core mo) x (mo * exp (- (x - 1 / sq2) * (x - 1 / sq2)) * (2 - sq2 * x) / sqpi).
Proof.
  pose proof sq2_pos as P. pose proof sqpi_pos as Q. rewrite cold_z.
  assert (De : is_derive (fun x => erfc (1 / sq2 - x)) x (2 / sqpi * exp (- / 2 + (sq2 - x) * x))).
  { replace (2 / sqpi * exp (- / 2 + (sq2 - x) * x)) with (scal (- 1) (- (2 / sqrt PI * exp (- ((1 / sq2 - x) * (1 / sq2 - x)))))).
    - apply (is_derive_comp erfc (fun x => 1 / sq2 - x) x); [apply erfc_derive|]. auto_derive; [exact I|]. ring.
    - rewrite <- cold_z. change scal with Rmult. fold sqpi.
      replace (- ((1 / sq2 - x) * (1 / sq2 - x))) with (- (x - 1 / sq2) * (x - 1 / sq2)) by ring. eqR. ring. }
  unfold cold_core. set (E := exp (- / 2 + (sq2 - x) * x)) in *.
  assert (D1 : is_derive (fun x => exp (- / 2 + (sq2 - x) * x) / sq2 / sqpi) x (E * (sq2 - 2 * x) / sq2 / sqpi)).
  { auto_derive; [exact I|]. unfold E. replace (sq2 + - x) with (sq2 - x) by ring. field. lra. }
  replace (mo * E * (2 - sq2 * x) / sqpi) with (scal mo (plus (E * (sq2 - 2 * x) / sq2 / sqpi) (scal (/ 2) (2 / sqpi * E)))).
  - apply (is_derive_scal (fun x => exp (- / 2 + (sq2 - x) * x) / sq2 / sqpi + / 2 * erfc (1 / sq2 - x)) x mo).
    apply (is_derive_plus (fun x => exp (- / 2 + (sq2 - x) * x) / sq2 / sqpi) (fun x => / 2 * erfc (1 / sq2 - x)) x _ _ D1).
    apply (is_derive_scal (fun x => erfc (1 / sq2 - x)) x (/ 2)). exact De.
  - change (mo * (E * (sq2 - 2 * x) / sq2 / sqpi + / 2 * (2 / sqpi * E)) = mo * E * (2 - sq2 * x) / sqpi).
    apply (Rmult_eq_reg_r (sq2 * sqpi)); [|nra]. field_simplify; [|lra|lra].
    pose proof sq2_sq as S. replace (sq2 ^ 2) with 2 by (replace (sq2 ^ 2) with (sq2 * sq2) by ring; lra). ring.
Qed.
Lemma cold_derive x mo : Rabs x < 8 -> is_derive (fun x => cold_fn x mo) x (cold_delta x mo).
Proof.
  intros H. assert (H' : -8 < x < 8) by (revert H; unfold Rabs; destruct (Rcase_abs x); lra).
  apply (derive_local _ (cold_core mo) x _ (Rmin (x + 8) (8 - x))).
  - apply Rmin_pos; lra.
  - intros y Hy. pose proof (Rmin_l (x + 8) (8 - x)). pose proof (Rmin_r (x + 8) (8 - x)).
    assert (-8 < y < 8) by (revert Hy; unfold Rabs; destruct (Rcase_abs (y - x)); lra).
    unfold cold_fn, cold_core. rcases; lra.
  - unfold cold_delta. rcases; try lra. apply cold_core_derive.
Qed.
(** beyond 8 the occupation is constant but delta is not zero *)
Lemma cold_gap x mo : 8 < x <= 10 -> 0 < mo -> cold_delta x mo < 0 /\ is_derive (fun x => cold_fn x mo) x 0.
Proof.
  intros H Hm. pose proof sq2_bounds. pose proof sqpi_pos. split.
  - unfold cold_delta. rcases; try lra. cbv zeta. pose proof (exp_pos (- (x - 1 / sq2) * (x - 1 / sq2))) as P.
    set (e := exp _) in *. unfold Rdiv. rewrite Rmult_comm. assert (0 < / sqpi) by (apply Rinv_0_lt_compat; lra).
    assert (2 - sq2 * x < 0) by nra. assert (0 < mo * e) by nra. assert (mo * e * (2 - sq2 * x) < 0) by nra. nra.
  - apply (derive_local _ (fun _ => mo) x _ (x - 8)); [lra| |apply @is_derive_const].
    intros y Hy. unfold cold_fn. rcases; [reflexivity| |]; revert Hy; unfold Rabs; destruct (Rcase_abs (y - x)); lra.
Qed.

Lemma mp_derive x mo : is_derive (fun x => mp_fn x mo) x (mp_delta x mo).
Proof.
  pose proof sqpi_pos as Q. unfold mp_fn, mp_delta.
  assert (D1 : is_derive (fun x => 1 + exp (- (x * x)) * x / sqpi) x (exp (- (x * x)) * (1 - 2 * (x * x)) / sqpi)).
  { auto_derive; [exact I|]. field. lra. }
  replace (mo * exp (- (x * x)) * (1 + / 4 * (2 - 4 * (x * x))) / sqpi)
    with (scal (mo / 2) (plus (exp (- (x * x)) * (1 - 2 * (x * x)) / sqpi) (2 / sqrt PI * exp (- (x * x))))).
  - apply (is_derive_scal (fun x => 1 + exp (- (x * x)) * x / sqpi + erf x) x (mo / 2)).
    apply (is_derive_plus (fun x => 1 + exp (- (x * x)) * x / sqpi) erf x _ _ D1). apply erf_derive.
  - fold sqpi. change (mo / 2 * (exp (- (x * x)) * (1 - 2 * (x * x)) / sqpi + 2 / sqpi * exp (- (x * x))) = mo * exp (- (x * x)) * (1 + / 4 * (2 - 4 * (x * x))) / sqpi).
    field. lra.
Qed.

Lemma gauss_derive x mo : is_derive (fun x => gauss_fn x mo) x (gauss_delta x mo).
Proof.
  pose proof sqpi_pos as Q. unfold gauss_fn, gauss_delta.
  replace (mo * exp (- x * x) / sqpi) with (scal (mo / 2) (plus 0 (2 / sqrt PI * exp (- (x * x))))).
  - apply (is_derive_scal (fun x => 1 + erf x) x (mo / 2)). apply (is_derive_plus (fun _ => 1) erf x); [apply @is_derive_const|apply erf_derive].
  - fold sqpi. change (mo / 2 * (0 + 2 / sqpi * exp (- (x * x))) = mo * exp (- x * x) / sqpi).
    replace (- x * x) with (- (x * x)) by ring. field. lra.
Qed.
