(** Entropy, second derivative, truncation, symmetry, and what fails for Methfessel-Paxton and cold smearing. *)
From Coq Require Import Reals Lra Psatz ZArith List Bool Lia.
From Coquelicot Require Import Coquelicot.
From Verif Require Import Arith Erf MVector Containers Newton Occupation Smearing SmearingProofs.
Import ListNotations.
Local Open Scope R_scope.

Lemma abs_window x c : Rabs x < c -> - c < x < c.
Proof. unfold Rabs. destruct (Rcase_abs x); lra. Qed.
Lemma window_abs x c : - c < x < c -> Rabs x < c.
Proof. unfold Rabs. destruct (Rcase_abs x); lra. Qed.

(** A function given by [core] where |x| <= c has the derivative of [core] inside. *)
Lemma window_derive (f core : R -> R) c x l : Rabs x < c -> (forall y, Rabs y < c -> f y = core y) ->
  is_derive core x l -> is_derive f x l.
Proof.
  intros H E D. apply (derive_local f core x l (c - Rabs x)); [lra| |exact D].
  intros y Hy. symmetry. apply E. pose proof (Rabs_triang (y - x) x) as T. replace (y - x + x) with y in T by ring. lra.
Qed.

(** ** Entropy *)
Lemma fd_entropy_derive x mo : Rabs x < 35 -> is_derive (fun x => fd_entropy x mo) x (- x * fd_delta x mo).
Proof.
  intros H. rewrite fd_delta_core by lra.
  apply (window_derive _ (fun x => mo * (ln (1 + exp x) - exp x * x / (1 + exp x))) 35); [exact H| |].
  - intros y Hy. unfold fd_entropy. rcases; [lra|reflexivity].
  - auto_derive; [pose proof (exp_pos x); repeat split; lra|]. pose proof (exp_pos x). field. lra.
Qed.

Definition gs_er (x : R) : R := / 4 * (2 * exp (- x * (sq2 + x)) * x + exp (/ 2) * sqpi * erfc (1 / sq2 + x)).
Definition gs_el (x : R) : R := / 4 * (- 2 * exp (x * (sq2 - x)) * x + exp (/ 2) * sqpi * erfc (1 / sq2 - x)).
Lemma gs_er_derive x : is_derive gs_er x (- x * (1 * / 2 * exp (- x * (sq2 + x)) * (sq2 + 2 * x))).
Proof.
  pose proof sqpi_pos as Q.
  assert (De : is_derive (fun x => erfc (1 / sq2 + x)) x (- (2 / sqpi * exp (- ((1 / sq2 + x) * (1 / sq2 + x)))))).
  { replace (- (2 / sqpi * exp (- ((1 / sq2 + x) * (1 / sq2 + x))))) with (scal 1 (- (2 / sqrt PI * exp (- ((1 / sq2 + x) * (1 / sq2 + x)))))).
    - apply (is_derive_comp erfc (fun x => 1 / sq2 + x) x); [apply erfc_derive|]. auto_derive; [exact I|]. ring.
    - change scal with Rmult. fold sqpi. eqR. ring. }
  assert (D1 : is_derive (fun x => 2 * exp (- x * (sq2 + x)) * x) x (2 * exp (- x * (sq2 + x)) + 2 * x * exp (- x * (sq2 + x)) * (- sq2 - 2 * x))).
  { auto_derive; [exact I|]. ring. }
  assert (Z : exp (/ 2) * exp (- ((1 / sq2 + x) * (1 / sq2 + x))) = exp (- x * (sq2 + x))).
  { rewrite <- exp_plus. f_equal. rewrite inv_sq2. pose proof sq2_sq. nra. }
  unfold gs_er. set (E := exp (- x * (sq2 + x))) in *.
  replace (- x * (1 * / 2 * E * (sq2 + 2 * x)))
    with (scal (/ 4) (plus (2 * E + 2 * x * E * (- sq2 - 2 * x)) (scal (exp (/ 2) * sqpi) (- (2 / sqpi * exp (- ((1 / sq2 + x) * (1 / sq2 + x)))))))).
  - apply (is_derive_scal (fun x => 2 * exp (- x * (sq2 + x)) * x + exp (/ 2) * sqpi * erfc (1 / sq2 + x)) x (/ 4)).
    apply (is_derive_plus (fun x => 2 * exp (- x * (sq2 + x)) * x) (fun x => exp (/ 2) * sqpi * erfc (1 / sq2 + x)) x _ _ D1).
    apply (is_derive_scal (fun x => erfc (1 / sq2 + x)) x (exp (/ 2) * sqpi)). exact De.
  - change (/ 4 * (2 * E + 2 * x * E * (- sq2 - 2 * x) + exp (/ 2) * sqpi * (- (2 / sqpi * exp (- ((1 / sq2 + x) * (1 / sq2 + x)))))) = - x * (1 * / 2 * E * (sq2 + 2 * x))).
    replace (exp (/ 2) * sqpi * - (2 / sqpi * exp (- ((1 / sq2 + x) * (1 / sq2 + x))))) with (- 2 * (exp (/ 2) * exp (- ((1 / sq2 + x) * (1 / sq2 + x))))) by (field; lra).
    rewrite Z. field.
Qed.
Lemma gs_el_eq x : gs_el x = gs_er (- x).
Proof. unfold gs_el, gs_er. replace (- - x * (sq2 + - x)) with (x * (sq2 - x)) by ring. replace (1 / sq2 + - x) with (1 / sq2 - x) by ring. field. Qed.
Lemma gs_el_derive x : is_derive gs_el x (- x * (1 * / 2 * exp ((sq2 - x) * x) * (sq2 - 2 * x))).
Proof.
  apply (is_derive_ext (fun x => gs_er (- x))); [intros t; symmetry; apply gs_el_eq|].
  replace (- x * (1 * / 2 * exp ((sq2 - x) * x) * (sq2 - 2 * x))) with (scal (- 1) (- (- x) * (1 * / 2 * exp (- (- x) * (sq2 + - x)) * (sq2 + 2 * - x)))).
  - apply (is_derive_comp gs_er (fun x => - x) x); [apply gs_er_derive|]. auto_derive; [exact I|]. ring.
  - change scal with Rmult. replace (- - x * (sq2 + - x)) with ((sq2 - x) * x) by ring. eqR. ring.
Qed.
Lemma gs_entropy_derive x mo : Rabs x < 7 -> is_derive (fun x => gs_entropy x mo) x (- x * gs_delta x 1).
Proof.
  intros H. rewrite gs_delta_core by lra.
  apply (window_derive _ (fun x => if Rltb 0 x then gs_er x else gs_el x) 7); [exact H| |].
  - intros y Hy. unfold gs_entropy. destruct (Rltb 7 (Rabs y)) eqn:E; [apply Rltb_true in E; lra|]. reflexivity.
  - unfold gs_dcore. destruct (Rtotal_order x 0) as [N|[Z|P]].
    + apply (derive_local _ gs_el x _ (- x)); [lra| |].
      * intros y Hy. rcases; [|reflexivity]. revert Hy. unfold Rabs; destruct (Rcase_abs (y - x)); lra.
      * rcases; [apply gs_el_derive|lra].
    + subst x. apply (derive_glue _ gs_el gs_er).
      * intros y Hy. rcases; [lra|reflexivity].
      * intros y Hy. rcases; [reflexivity|lra].
      * rewrite gs_el_eq. f_equal. ring.
      * rcases; [apply gs_el_derive|lra].
      * rcases; [|lra]. replace (- 0 * (1 * / 2 * exp ((sq2 - 0) * 0) * (sq2 - 2 * 0))) with (- 0 * (1 * / 2 * exp (- 0 * (sq2 + 0)) * (sq2 + 2 * 0))) by ring.
        apply gs_er_derive.
    + apply (derive_local _ gs_er x _ x); [lra| |].
      * intros y Hy. rcases; [reflexivity|]. revert Hy. unfold Rabs; destruct (Rcase_abs (y - x)); lra.
      * rcases; [lra|apply gs_er_derive].
Qed.
Lemma gs_entropy_mo x mo mo' : gs_entropy x mo = gs_entropy x mo'.
Proof. reflexivity. Qed.

(** exp (- z * z) with z = x - 1/sqrt 2 *)
Lemma cold_entropy_derive x mo : -8 < x < 10 -> is_derive (fun x => cold_entropy x mo) x (- x * cold_delta x mo).
Proof.
  intros H. pose proof sqpi_pos as Q.
  apply (derive_local _ (fun x => mo * exp (- (x - 1 / sq2) * (x - 1 / sq2)) * (1 - sq2 * x) / 2 / sqpi) x _ (Rmin (x + 8) (10 - x))).
  - apply Rmin_pos; lra.
  - intros y Hy. pose proof (Rmin_l (x + 8) (10 - x)). pose proof (Rmin_r (x + 8) (10 - x)).
    assert (-8 < y < 10) by (revert Hy; unfold Rabs; destruct (Rcase_abs (y - x)); lra).
    unfold cold_entropy. rcases; lra.
  - unfold cold_delta. rcases; try lra. cbv zeta. rewrite inv_sq2. pose proof sq2_sq as S.
    auto_derive; [exact I|]. replace (x + - (sq2 / 2)) with (x - sq2 / 2) by ring. replace (sq2 * / 2) with (sq2 / 2) by reflexivity.
    set (ee := exp _). apply (Rmult_eq_reg_r (2 * sqpi)); [|lra]. field_simplify; [|lra|lra].
    replace (sq2 ^ 3) with (2 * sq2) by (replace (sq2 ^ 3) with (sq2 * sq2 * sq2) by ring; rewrite S; ring).
    replace (sq2 ^ 2) with 2 by (replace (sq2 ^ 2) with (sq2 * sq2) by ring; lra). field.
Qed.
Lemma mp_entropy_derive x mo : is_derive (fun x => mp_entropy x mo) x (- x * mp_delta x mo).
Proof. pose proof sqpi_pos as Q. unfold mp_entropy, mp_delta. auto_derive; [exact I|]. field. lra. Qed.
Lemma gauss_entropy_derive x mo : is_derive (fun x => gauss_entropy x mo) x (- x * gauss_delta x mo).
Proof. pose proof sqpi_pos as Q. unfold gauss_entropy, gauss_delta. auto_derive; [exact I|]. field. lra. Qed.

(** ** dxdelta *)
Lemma fd_delta_derive x mo : Rabs x < 35 -> is_derive (fun x => fd_delta x mo) x (fd_dxdelta x mo).
Proof.
  intros H. apply (window_derive _ (fun x => mo * exp x / ((1 + exp x) * (1 + exp x))) 35); [exact H| |].
  - intros y Hy. apply fd_delta_core. lra.
  - unfold fd_dxdelta. rcases; [lra|]. cbv zeta. pose proof (exp_pos x).
    auto_derive; [nra|]. field. lra.
Qed.
Lemma gauss_delta_derive x mo : is_derive (fun x => gauss_delta x mo) x (gauss_dxdelta x mo).
Proof. pose proof sqpi_pos as Q. unfold gauss_delta, gauss_dxdelta. auto_derive; [exact I|]. field. lra. Qed.
Lemma cold_delta_derive x mo : -8 < x < 10 -> is_derive (fun x => cold_delta x mo) x (cold_dxdelta x mo).
Proof.
  intros H. pose proof sqpi_pos as Q.
  apply (derive_local _ (fun x => mo * exp (- (x - 1 / sq2) * (x - 1 / sq2)) * (2 - sq2 * x) / sqpi) x _ (Rmin (x + 8) (10 - x))).
  - apply Rmin_pos; lra.
  - intros y Hy. pose proof (Rmin_l (x + 8) (10 - x)). pose proof (Rmin_r (x + 8) (10 - x)).
    assert (-8 < y < 10) by (revert Hy; unfold Rabs; destruct (Rcase_abs (y - x)); lra).
    unfold cold_delta. rcases; lra.
  - unfold cold_dxdelta. rcases; try lra. cbv zeta. rewrite inv_sq2. pose proof sq2_sq as S.
    auto_derive; [exact I|]. replace (x + - (sq2 / 2)) with (x - sq2 / 2) by ring. replace (sq2 * / 2) with (sq2 / 2) by reflexivity.
    set (ee := exp _). apply (Rmult_eq_reg_r sqpi); [|lra]. field_simplify; [|lra|lra].
    replace (sq2 ^ 2) with 2 by (replace (sq2 ^ 2) with (sq2 * sq2) by ring; lra). field.
Qed.
(** the true derivatives where the code is wrong *)
Lemma mp_delta_derive x mo : is_derive (fun x => mp_delta x mo) x (x * mp_dxdelta x mo).
Proof. pose proof sqpi_pos as Q. unfold mp_delta, mp_dxdelta. auto_derive; [exact I|]. replace (- x * x) with (- (x * x)) by ring. field. lra. Qed.
Lemma gs_delta_derive x mo : Rabs x < 7 -> is_derive (fun x => gs_delta x mo) x (if Rleb x 0 then x * gs_dxdelta x mo else gs_dxdelta x mo).
Proof.
  intros H. pose proof (abs_window _ _ H) as H'. pose proof sq2_sq as S.
  set (dl := fun x => mo * / 2 * exp ((sq2 - x) * x) * (sq2 - 2 * x)).
  set (dr := fun x => mo * / 2 * exp (- x * (sq2 + x)) * (sq2 + 2 * x)).
  assert (Dl : forall y, is_derive dl y (y * (- 2 * mo * exp ((sq2 - y) * y) * (sq2 - y)))).
  { intros y. unfold dl. auto_derive; [exact I|]. replace (sq2 + - y) with (sq2 - y) by ring. set (ee := exp _).
    field_simplify. replace (sq2 ^ 2) with 2 by (replace (sq2 ^ 2) with (sq2 * sq2) by ring; lra). field. }
  assert (Dr : forall y, is_derive dr y (- 2 * mo * exp (- y * (sq2 + y)) * y * (sq2 + y))).
  { intros y. unfold dr. auto_derive; [exact I|]. set (ee := exp _).
    field_simplify. replace (sq2 ^ 2) with 2 by (replace (sq2 ^ 2) with (sq2 * sq2) by ring; lra). field. }
  apply (window_derive _ (fun x => if Rleb x 0 then dl x else dr x) 7); [exact H| |].
  - intros y Hy. unfold gs_delta. destruct (Rltb 7 (Rabs y)) eqn:E; [apply Rltb_true in E; lra|]. reflexivity.
  - unfold gs_dxdelta. replace (Rltb 8 x || Rltb x (-8))%bool with false.
    2:{ symmetry. apply Bool.orb_false_intro; apply Rltb_false; lra. }
    destruct (Rtotal_order x 0) as [N|[Z|P]].
    + apply (derive_local _ dl x _ (- x)); [lra| |].
      * intros y Hy. rcases; [reflexivity|]. revert Hy. unfold Rabs; destruct (Rcase_abs (y - x)); lra.
      * rcases; [apply Dl|lra].
    + subst x. apply (derive_glue _ dl dr).
      * intros y Hy. rcases; [reflexivity|lra].
      * intros y Hy. rcases; [lra|reflexivity].
      * unfold dl, dr. replace ((sq2 - 0) * 0) with (- 0 * (sq2 + 0)) by ring. ring.
      * rcases; [apply Dl|lra].
      * rcases; [|lra]. replace (0 * (- 2 * mo * exp ((sq2 - 0) * 0) * (sq2 - 0))) with (- 2 * mo * exp (- 0 * (sq2 + 0)) * 0 * (sq2 + 0)) by ring. apply Dr.
    + apply (derive_local _ dr x _ x); [lra| |].
      * intros y Hy. rcases; [|reflexivity]. revert Hy. unfold Rabs; destruct (Rcase_abs (y - x)); lra.
      * rcases; [lra|apply Dr].
Qed.

Lemma mp_dxdelta_wrong x mo : 0 < mo -> x <> 1 -> 2 * x * x <> 5 -> ~ is_derive (fun x => mp_delta x mo) x (mp_dxdelta x mo).
Proof.
  intros Hm H1 H2 D. pose proof (is_derive_unique _ _ _ D) as E1. pose proof (is_derive_unique _ _ _ (mp_delta_derive x mo)) as E2.
  rewrite E1 in E2. unfold mp_dxdelta in E2. pose proof sqpi_pos as Q. pose proof (exp_pos (- x * x)) as P.
  set (e := exp (- x * x)) in *. assert (Hz : mo * e * (2 * x * x - 5) / sqpi = 0) by nra.
  assert (K : mo * e * (2 * x * x - 5) = 0).
  { replace (mo * e * (2 * x * x - 5)) with (mo * e * (2 * x * x - 5) / sqpi * sqpi) by (field; lra). rewrite Hz. ring. }
  apply Rmult_integral in K. destruct K as [K|K]; [nra|lra].
Qed.
Lemma gs_dxdelta_wrong x mo : 0 < mo -> -7 < x <= 0 -> ~ is_derive (fun x => gs_delta x mo) x (gs_dxdelta x mo).
Proof.
  intros Hm H D. assert (Ha : Rabs x < 7) by (apply window_abs; lra).
  pose proof (is_derive_unique _ _ _ D) as E1. pose proof (is_derive_unique _ _ _ (gs_delta_derive x mo Ha)) as E2.
  rewrite E1 in E2. unfold gs_dxdelta in E2. replace (Rltb 8 x || Rltb x (-8))%bool with false in E2.
  2:{ symmetry. apply Bool.orb_false_intro; apply Rltb_false; lra. }
  destruct (Rleb x 0) eqn:E; [|apply Rleb_false in E; lra].
  pose proof (exp_pos ((sq2 - x) * x)) as P. pose proof sq2_pos. set (e := exp _) in *.
  assert (0 < mo * e * (sq2 - x)) by (repeat apply Rmult_lt_0_compat; lra). nra.
Qed.

(** ** Truncation *)
Lemma fd_trunc x mo : 0 <= mo -> Rabs (fd_fn x mo - (mo - mo / (1 + exp x))) <= mo * exp (-35).
Proof.
  intros Hm. rewrite fd_core. unfold fd_fn. pose proof (exp_pos (-35)) as P. pose proof (exp_pos x) as Px. pose proof (fd_core_bounds x) as B. rcases.
  - replace (0 - mo * (exp x / (1 + exp x))) with (- (mo * (exp x / (1 + exp x)))) by ring.
    rewrite Rabs_Ropp, Rabs_pos_eq by nra. apply Rmult_le_compat_l; [lra|].
    apply Rle_trans with (exp x); [|apply exp_le; lra].
    apply (Rmult_le_reg_r (1 + exp x)); [lra|]. unfold Rdiv. rewrite Rmult_assoc, Rinv_l by lra. nra.
  - replace (mo - mo * (exp x / (1 + exp x))) with (mo * (/ (1 + exp x))) by (field; lra).
    assert (0 < / (1 + exp x)) by (apply Rinv_0_lt_compat; lra).
    rewrite Rabs_pos_eq by nra. apply Rmult_le_compat_l; [lra|].
    apply Rle_trans with (/ exp x); [apply Rinv_le_contravar; lra|]. rewrite <- exp_Ropp. apply exp_le. lra.
  - rewrite fd_core. replace (mo * (exp x / (1 + exp x)) - mo * (exp x / (1 + exp x))) with 0 by ring. rewrite Rabs_R0. nra.
Qed.
Lemma gs_trunc x mo : 0 <= mo -> Rabs (gs_fn x mo - gs_core mo x) <= mo / 2 * exp (-64).
Proof.
  intros Hm. unfold gs_fn, gs_core, gs_l, gs_r. pose proof (exp_pos (-64)) as P. pose proof sq2_pos as S. rcases; try lra.
  - replace (mo - mo * (1 - / 2 * exp (- x * (sq2 + x)))) with (mo / 2 * exp (- x * (sq2 + x))) by field.
    pose proof (exp_pos (- x * (sq2 + x))). rewrite Rabs_pos_eq by nra. apply Rmult_le_compat_l; [lra|]. apply exp_le. nra.
  - replace (0 - mo / 2 * exp (x * (sq2 - x))) with (- (mo / 2 * exp (x * (sq2 - x)))) by ring.
    pose proof (exp_pos (x * (sq2 - x))). rewrite Rabs_Ropp, Rabs_pos_eq by nra. apply Rmult_le_compat_l; [lra|]. apply exp_le. nra.
  - replace (mo / 2 * exp (x * (sq2 - x)) - mo / 2 * exp (x * (sq2 - x))) with 0 by ring. rewrite Rabs_R0. nra.
  - replace (mo * (1 - / 2 * exp (- x * (sq2 + x))) - mo * (1 - / 2 * exp (- x * (sq2 + x)))) with 0 by ring. rewrite Rabs_R0. nra.
Qed.

(** ** Symmetry *)
Lemma gauss_sym x mo : gauss_fn x mo + gauss_fn (- x) mo = mo.
Proof. unfold gauss_fn. rewrite erf_odd. field. Qed.
Lemma mp_sym x mo : mp_fn x mo + mp_fn (- x) mo = mo.
Proof. unfold mp_fn. rewrite erf_odd. replace (- x * - x) with (x * x) by ring. pose proof sqpi_pos. field. lra. Qed.
Lemma gs_sym x mo : gs_fn x mo + gs_fn (- x) mo = mo.
Proof.
  unfold gs_fn. rcases; try lra.
  - assert (x = 0) by lra. subst x. replace (0 * (sq2 - 0)) with 0 by ring. replace (- 0 * (sq2 - - 0)) with 0 by ring. rewrite exp_0. field.
  - replace (- - x * (sq2 + - x)) with (x * (sq2 - x)) by ring. field.
  - replace (- x * (sq2 - - x)) with (- x * (sq2 + x)) by ring. field.
Qed.
Lemma fd_sym x mo : Rabs x <= 35 -> fd_fn x mo + fd_fn (- x) mo = mo.
Proof.
  intros H. assert (-35 <= x <= 35) by (revert H; unfold Rabs; destruct (Rcase_abs x); lra).
  unfold fd_fn. rcases; try lra. rewrite exp_Ropp. pose proof (exp_pos x). field. lra.
Qed.
(** outside: the two truncation points of Fermi-Dirac differ *)
Lemma fd_asym mo : 0 < mo -> fd_fn 36 mo + fd_fn (-36) mo < mo.
Proof.
  intros Hm. unfold fd_fn. rcases; try lra. rewrite fd_core. pose proof (fd_core_bounds 36). nra.
Qed.
Lemma fd_even x mo : fd_delta (- x) mo = fd_delta x mo.
Proof.
  unfold fd_delta. rewrite Rabs_Ropp. destruct (Rltb 35 (Rabs x)); [reflexivity|]. cbv zeta.
  replace (- - x / 2) with (x / 2) by field. replace ((exp (x / 2) + exp (- x / 2))) with (exp (- x / 2) + exp (x / 2)) by ring. reflexivity.
Qed.
Lemma gs_even x mo : gs_delta (- x) mo = gs_delta x mo.
Proof.
  unfold gs_delta. rewrite Rabs_Ropp. destruct (Rltb 7 (Rabs x)); [reflexivity|]. rcases; try lra.
  - assert (x = 0) by lra. subst x. replace (- 0) with 0 by ring. reflexivity.
  - replace ((sq2 - - x) * - x) with (- x * (sq2 + x)) by ring. replace (sq2 - 2 * - x) with (sq2 + 2 * x) by ring. reflexivity.
  - replace (- - x * (sq2 + - x)) with ((sq2 - x) * x) by ring. replace (sq2 + 2 * - x) with (sq2 - 2 * x) by ring. reflexivity.
Qed.
Lemma mp_even x mo : mp_delta (- x) mo = mp_delta x mo.
Proof. unfold mp_delta. replace (- x * - x) with (x * x) by ring. reflexivity. Qed.
Lemma gauss_even x mo : gauss_delta (- x) mo = gauss_delta x mo.
Proof. unfold gauss_delta. replace (- - x * - x) with (- x * x) by ring. reflexivity. Qed.
Lemma cold_not_even mo : 0 < mo -> cold_delta (-2) mo > 0 /\ cold_delta 2 mo < 0.
Proof.
  intros Hm. pose proof sq2_bounds. pose proof sqpi_pos. unfold cold_delta. rcases; try lra. cbv zeta.
  pose proof (exp_pos (- (2 - 1 / sq2) * (2 - 1 / sq2))) as P1. pose proof (exp_pos (- (-2 - 1 / sq2) * (-2 - 1 / sq2))) as P2.
  set (e1 := exp (- (2 - 1 / sq2) * (2 - 1 / sq2))) in *. set (e2 := exp (- (-2 - 1 / sq2) * (-2 - 1 / sq2))) in *.
  assert (I : 0 < / sqpi) by (apply Rinv_0_lt_compat; lra). unfold Rdiv. split.
  - assert (0 < mo * e2 * (2 - sq2 * -2)) by (repeat apply Rmult_lt_0_compat; lra). nra.
  - assert (0 < mo * e1) by nra. assert (mo * e1 * (2 - sq2 * 2) < 0) by nra. nra.
Qed.

(** ** Signs of delta and entropy *)
Lemma fd_delta_pos x mo : 0 <= mo -> 0 <= fd_delta x mo.
Proof.
  intros Hm. unfold fd_delta. rcases; [lra|]. cbv zeta. pose proof (exp_pos (- x / 2)). pose proof (exp_pos (x / 2)).
  apply Rmult_le_pos; [lra|]. apply Rlt_le, Rinv_0_lt_compat. nra.
Qed.
Lemma gs_delta_pos x mo : 0 <= mo -> 0 <= gs_delta x mo.
Proof.
  intros Hm. pose proof sq2_pos. unfold gs_delta. destruct (Rltb 7 (Rabs x)); [lra|]. rcases.
  - pose proof (exp_pos ((sq2 - x) * x)). repeat apply Rmult_le_pos; lra.
  - pose proof (exp_pos (- x * (sq2 + x))). repeat apply Rmult_le_pos; lra.
Qed.
Lemma gauss_delta_pos x mo : 0 <= mo -> 0 <= gauss_delta x mo.
Proof.
  intros Hm. pose proof sqpi_pos. pose proof (exp_pos (- x * x)). unfold gauss_delta.
  repeat apply Rmult_le_pos; try lra. apply Rlt_le, Rinv_0_lt_compat. lra.
Qed.

Lemma fd_entropy_pos x mo : 0 <= mo -> 0 <= fd_entropy x mo.
Proof.
  intros Hm. unfold fd_entropy. rcases; [lra|]. cbv zeta. apply Rmult_le_pos; [exact Hm|].
  pose proof (exp_pos x) as P. pose proof (fd_core_bounds x) as B.
  assert (L0 : 0 < ln (1 + exp x)) by (rewrite <- ln_1; apply ln_increasing; lra).
  assert (Lx : x < ln (1 + exp x)) by (rewrite <- (ln_exp x) at 1; apply ln_increasing; lra).
  replace (exp x * x / (1 + exp x)) with (exp x / (1 + exp x) * x) by (field; lra). nra.
Qed.
Lemma gs_entropy_pos x mo : 0 <= gs_entropy x mo.
Proof.
  unfold gs_entropy. destruct (Rltb 7 (Rabs x)); [lra|]. cbv zeta. pose proof sqpi_pos. pose proof (exp_pos (/ 2)). rcases.
  - pose proof (erfc_pos (1 / sq2 + x)). pose proof (exp_pos (- x * (sq2 + x))).
    assert (0 < exp (/ 2) * sqpi * erfc (1 / sq2 + x)) by (repeat apply Rmult_lt_0_compat; lra). nra.
  - pose proof (erfc_pos (1 / sq2 - x)). pose proof (exp_pos (x * (sq2 - x))).
    assert (0 < exp (/ 2) * sqpi * erfc (1 / sq2 - x)) by (repeat apply Rmult_lt_0_compat; lra). nra.
Qed.
Lemma gauss_entropy_pos x mo : 0 <= mo -> 0 <= gauss_entropy x mo.
Proof.
  intros Hm. pose proof sqpi_pos. pose proof (exp_pos (- x * x)). unfold gauss_entropy.
  repeat apply Rmult_le_pos; try lra. apply Rlt_le, Rinv_0_lt_compat. lra.
Qed.
Lemma mp_entropy_neg mo : 0 < mo -> mp_entropy 1 mo < 0.
Proof.
  intros Hm. pose proof sqpi_pos. pose proof (exp_pos (- (1 * 1))) as P. unfold mp_entropy. set (e := exp _) in *.
  replace (mo * e * (1 - 2 * (1 * 1)) / 4 / sqpi) with (- (mo * e / 4 / sqpi)) by (field; lra).
  assert (0 < mo * e / 4 / sqpi); [|lra]. repeat apply Rdiv_lt_0_compat; nra.
Qed.
Lemma cold_entropy_neg mo : 0 < mo -> cold_entropy 1 mo < 0.
Proof.
  intros Hm. pose proof sq2_bounds. pose proof sqpi_pos. unfold cold_entropy. rcases; try lra. cbv zeta.
  pose proof (exp_pos (- (1 - 1 / sq2) * (1 - 1 / sq2))) as P. set (e := exp _) in *.
  replace (mo * e * (1 - sq2 * 1) / 2 / sqpi) with (- (mo * e * (sq2 - 1) / 2 / sqpi)) by (field; lra).
  assert (0 < mo * e * (sq2 - 1) / 2 / sqpi); [|lra]. assert (0 < mo * e) by nra. repeat apply Rdiv_lt_0_compat; nra.
Qed.

(** ** Occupations outside [0, mo], not increasing *)
Lemma PI_lt_33 : PI < 3.3.
Proof. destruct (PI_ineq 3) as [_ H]. unfold tg_alt, PI_tg in H. cbn in H. lra. Qed.
Lemma mp_negative mo : 0 < mo -> mp_fn (-2) mo < 0.
Proof.
  intros Hm. unfold mp_fn. replace (-2) with (- (2)) by ring. rewrite erf_odd. replace (- (2) * - (2)) with (2 * 2) by ring.
  pose proof (erf_lower 2 ltac:(lra)) as L. pose proof sqpi_pos as Q. pose proof sqpi_sq as QS.
  pose proof (exp_pos (- (2 * 2))) as P. set (e := exp _) in *.
  assert (Q2 : sqpi < 2).
  { pose proof PI_lt_33. nra. }
  assert (K : 1 < 2 / sqpi) by (apply (Rmult_lt_reg_r sqpi); [lra|]; unfold Rdiv; rewrite Rmult_assoc, Rinv_l; lra).
  replace (e * - (2) / sqpi) with (- (e * (2 / sqpi))) by (field; lra). assert (HH : 0 < e * (2 / sqpi - 1)) by nra. assert (1 + - (e * (2 / sqpi)) + - erf 2 < 0) by lra. nra.
Qed.
Lemma mp_above mo : 0 < mo -> mo < mp_fn 2 mo.
Proof. intros Hm. pose proof (mp_negative mo Hm). pose proof (mp_sym 2 mo). replace (- (2)) with (-2) in * by ring. lra. Qed.
Lemma mp_decreasing mo : 0 < mo -> mp_fn 3 mo < mp_fn 2 mo.
Proof.
  intros Hm. apply (decr_of_derive (fun x => mp_fn x mo) (fun x => mp_delta x mo)); [lra|intros; apply mp_derive|].
  intros x Hx. unfold mp_delta. pose proof sqpi_pos. pose proof (exp_pos (- (x * x))) as P. set (e := exp _) in *.
  replace (mo * e * (1 + / 4 * (2 - 4 * (x * x))) / sqpi) with (- (mo * e * (x * x - 3 / 2) / sqpi)) by (field; lra).
  assert (0 < mo * e * (x * x - 3 / 2) / sqpi); [|lra]. apply Rdiv_lt_0_compat; [|lra]. assert (0 < mo * e) by nra. apply Rmult_lt_0_compat; [lra|nra].
Qed.
Lemma cold_decreasing mo : 0 < mo -> cold_fn 3 mo < cold_fn 2 mo.
Proof.
  intros Hm. apply (decr_of_derive (fun x => cold_fn x mo) (fun x => cold_delta x mo)); [lra| |].
  - intros x Hx. apply cold_derive. apply window_abs. lra.
  - intros x Hx. unfold cold_delta. rcases; try lra. cbv zeta. pose proof sq2_bounds. pose proof sqpi_pos.
    pose proof (exp_pos (- (x - 1 / sq2) * (x - 1 / sq2))) as P. set (e := exp _) in *.
    replace (mo * e * (2 - sq2 * x) / sqpi) with (- (mo * e * (sq2 * x - 2) / sqpi)) by (field; lra).
    assert (0 < mo * e * (sq2 * x - 2) / sqpi); [|lra]. apply Rdiv_lt_0_compat; [|lra]. assert (0 < mo * e) by nra. apply Rmult_lt_0_compat; [lra|nra].
Qed.
(** a sharper tail bound *)
Lemma erfc_upper2 x : 0 <= x -> erfc x <= exp (- (x * x)) / (2 - exp (- (x * x))).
Proof.
  intros Hx. pose proof (erf_lower x Hx) as L. pose proof (erf_bounds x) as B. pose proof (comp_le x) as C. pose proof (erf_sq x) as Sq.
  pose proof PI_RGT_0 as P. pose proof (exp_pos (- (x * x))) as Pe.
  assert (E1 : exp (- (x * x)) <= 1) by (rewrite <- exp_0; apply exp_le; nra).
  assert (E2 : 1 - exp (- (x * x)) <= erf x * erf x).
  { rewrite Sq. assert (4 / PI * comp x <= exp (- (x * x))); [|lra].
    replace (exp (- (x * x))) with (4 / PI * (exp (- (x * x)) * (PI / 4))) by (field; lra).
    apply Rmult_le_compat_l; [apply Rlt_le, Rdiv_lt_0_compat; lra|exact C]. }
  unfold erfc. set (e := exp _) in *. apply (Rmult_le_reg_r (2 - e)); [lra|].
  replace (e / (2 - e) * (2 - e)) with e by (field; lra). nra.
Qed.
Lemma cold_above mo : 0 < mo -> mo < cold_fn 2 mo.
Proof.
  intros Hm. pose proof sq2_bounds as B. pose proof sqpi_pos as Q. pose proof sq2_sq as S.
  unfold cold_fn. rcases; try lra.
  assert (G : 1 < exp (- / 2 + (sq2 - 2) * 2) / sq2 / sqpi + / 2 * erfc (1 / sq2 - 2)); [|nra].
  assert (Hz : 1.25 < 2 - 1 / sq2) by (rewrite inv_sq2; lra).
  pose proof (erfc_upper2 (2 - 1 / sq2) ltac:(lra)) as L.
  assert (R : erfc (1 / sq2 - 2) = 2 - erfc (2 - 1 / sq2)).
  { unfold erfc. replace (1 / sq2 - 2) with (- (2 - 1 / sq2)) by ring. rewrite erf_odd. ring. }
  rewrite R. clear R. set (ec := erfc (2 - 1 / sq2)) in *.
  assert (Ez : - ((2 - 1 / sq2) * (2 - 1 / sq2)) = - / 2 + (sq2 - 2) * 2) by (rewrite <- cold_z; ring).
  assert (Hexp : exp (- ((2 - 1 / sq2) * (2 - 1 / sq2))) <= 0.4).
  { rewrite exp_Ropp. set (z := 2 - 1 / sq2) in *. assert (1.5 < z * z) by nra. pose proof (exp_ineq1 (z * z) ltac:(lra)) as I.
    apply Rle_trans with (/ 2.5); [apply Rinv_le_contravar; lra|lra]. }
  rewrite Ez in *. pose proof (exp_pos (- / 2 + (sq2 - 2) * 2)) as P. set (e := exp _) in *.
  assert (Q2 : sq2 * sqpi < 2.7).
  { pose proof sqpi_sq. pose proof PI_lt_33. assert (sqpi < 1.82) by nra. assert (sq2 < 1.42) by nra. nra. }
  assert (Hd : e / (2 - e) <= e / 1.6).
  { unfold Rdiv. apply Rmult_le_compat_l; [lra|]. apply Rinv_le_contravar; lra. }
  assert (Hs : e / 2.7 <= e / sq2 / sqpi).
  { replace (e / sq2 / sqpi) with (e / (sq2 * sqpi)) by (field; lra). unfold Rdiv. apply Rmult_le_compat_l; [lra|]. apply Rinv_le_contravar; nra. }
  lra.
Qed.
