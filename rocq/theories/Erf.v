(** The error function over the reals: [std::erf] and [std::erfc] as used in src/smearing.hpp
    (195-200, 227, 270, 298) are modelled by the exact functions below.
    Facts: derivative, symmetry, -1 < erf < 1 and 1 - exp(-x^2) <= erf x for x >= 0. *)
From Coq Require Import Reals Lra Lia.
From Coquelicot Require Import Coquelicot.
Local Open Scope R_scope.

Ltac eqR := match goal with |- @eq _ ?a ?b => change (@eq R a b) end.

(** integral of exp(-t^2) *)
Definition gint (x : R) : R := RInt (fun t => exp (- (t * t))) 0 x.
(** std::erf, std::erfc *)
Definition erf (x : R) : R := 2 / sqrt PI * gint x.
Definition erfc (x : R) : R := 1 - erf x.

Lemma gauss_cont : forall x, continuous (fun t => exp (- (t * t))) x.
Proof. intros x. apply (ex_derive_continuous (fun t => exp (- (t * t)))). auto_derive. exact I. Qed.

Lemma gauss_int a b : ex_RInt (fun t => exp (- (t * t))) a b.
Proof. apply (@ex_RInt_continuous R_CompleteNormedModule). intros z _. apply gauss_cont. Qed.

Lemma gint_derive x : is_derive gint x (exp (- (x * x))).
Proof.
  unfold gint. apply (is_derive_RInt (fun t => exp (- (t * t))) (fun y => RInt (fun t => exp (- (t * t))) 0 y) 0 x).
  - exists (mkposreal 1 Rlt_0_1). intros y _. apply (@RInt_correct R_CompleteNormedModule), gauss_int.
  - apply gauss_cont.
Qed.

Lemma gint_0 : gint 0 = 0.
Proof. unfold gint. rewrite RInt_point. reflexivity. Qed.

Lemma gint_pos x : 0 < x -> 0 < gint x.
Proof.
  intros Hx. unfold gint. apply RInt_gt_0; [exact Hx| |].
  - intros t _. apply exp_pos.
  - intros t _. apply gauss_cont.
Qed.

(** the companion integral of the classical proof *)
Definition comp (x : R) : R := RInt (fun t => exp (- (x * x * (1 + t * t))) / (1 + t * t)) 0 1.

Lemma one_sq t : 0 < 1 + t * t.
Proof. pose proof (Rle_0_sqr t) as H. unfold Rsqr in H. lra. Qed.

Lemma comp_cont x t : continuous (fun t => exp (- (x * x * (1 + t * t))) / (1 + t * t)) t.
Proof.
  apply (ex_derive_continuous (fun t => exp (- (x * x * (1 + t * t))) / (1 + t * t))).
  auto_derive. pose proof (one_sq t). lra.
Qed.
Lemma comp_int x a b : ex_RInt (fun t => exp (- (x * x * (1 + t * t))) / (1 + t * t)) a b.
Proof. apply (@ex_RInt_continuous R_CompleteNormedModule). intros z _. apply comp_cont. Qed.

Lemma comp_derive x : is_derive comp x (RInt (fun t => - 2 * x * exp (- (x * x * (1 + t * t)))) 0 1).
Proof.
  unfold comp.
  assert (D : forall y t, is_derive (fun z => exp (- (z * z * (1 + t * t))) / (1 + t * t)) y (- 2 * y * exp (- (y * y * (1 + t * t))))).
  { intros y t. auto_derive; [pose proof (one_sq t); lra|]. field. pose proof (one_sq t). lra. }
  replace (RInt (fun t => - 2 * x * exp (- (x * x * (1 + t * t)))) 0 1)
    with (RInt (fun t => Derive (fun z => exp (- (z * z * (1 + t * t))) / (1 + t * t)) x) 0 1).
  2:{ apply RInt_ext. intros t _. apply is_derive_unique, D. }
  apply (is_derive_RInt_param (fun z t => exp (- (z * z * (1 + t * t))) / (1 + t * t)) 0 1 x).
  - apply filter_forall. intros y t _. eexists. apply D.
  - intros t _.
    apply (continuity_2d_pt_ext (fun u v => - 2 * u * exp (- (u * u * (1 + v * v))))).
    + intros u v. symmetry. apply is_derive_unique, D.
    + apply continuity_2d_pt_mult.
      * apply continuity_2d_pt_mult; [apply continuity_2d_pt_const|apply continuity_2d_pt_id1].
      * apply (continuity_1d_2d_pt_comp exp (fun u v => - (u * u * (1 + v * v)))).
        -- apply derivable_continuous_pt, derivable_pt_exp.
        -- apply continuity_2d_pt_opp. apply continuity_2d_pt_mult.
           ++ apply continuity_2d_pt_mult; apply continuity_2d_pt_id1.
           ++ apply continuity_2d_pt_plus; [apply continuity_2d_pt_const|].
              apply continuity_2d_pt_mult; apply continuity_2d_pt_id2.
  - apply filter_forall. intros y. apply comp_int.
Qed.

Lemma comp_derive' (x : R) : is_derive comp x (- 2 * exp (- (x * x)) * gint x).
Proof.
  replace (- 2 * exp (- (x * x)) * gint x) with (RInt (fun t => - 2 * x * exp (- (x * x * (1 + t * t)))) 0 1).
  { apply comp_derive. }
  assert (E : is_RInt (fun t => scal x (exp (- ((x * t + 0) * (x * t + 0))))) 0 1 (gint x)).
  { apply (is_RInt_comp_lin (fun t => exp (- (t * t))) x 0 0 1).
    change (is_RInt (fun t => exp (- (t * t))) (x * 0 + 0) (x * 1 + 0) (gint x)). rewrite Rmult_0_r, Rmult_1_r, !Rplus_0_r. apply (@RInt_correct R_CompleteNormedModule), gauss_int. }
  transitivity (RInt (fun t => scal (- 2 * exp (- (x * x))) (scal x (exp (- ((x * t + 0) * (x * t + 0)))))) 0 1).
  - apply RInt_ext. intros t _. change (- 2 * x * exp (- (x * x * (1 + t * t))) = - 2 * exp (- (x * x)) * (x * exp (- ((x * t + 0) * (x * t + 0))))).
    replace (- (x * x * (1 + t * t))) with (- (x * x) + - ((x * t + 0) * (x * t + 0))) by ring.
    rewrite exp_plus. ring.
  - apply is_RInt_unique. apply (is_RInt_scal (fun t => scal x (exp (- ((x * t + 0) * (x * t + 0)))))). exact E.
Qed.

Lemma comp_0 : comp 0 = PI / 4.
Proof.
  unfold comp. rewrite (RInt_ext _ (fun t => / (1 + t ^ 2))).
  2:{ intros t _. replace (- (0 * 0 * (1 + t * t))) with 0 by ring. rewrite exp_0.
      replace (t ^ 2) with (t * t) by ring. eqR. unfold Rdiv. ring. }
  apply is_RInt_unique.
  replace (PI / 4) with (atan 1 - atan 0) by (rewrite atan_1, atan_0; ring).
  apply (is_RInt_derive atan (fun t => / (1 + t ^ 2))).
  - intros t _. apply is_derive_Reals. apply derivable_pt_lim_atan.
  - intros t _. apply (ex_derive_continuous (fun t => / (1 + t ^ 2))). auto_derive. pose proof (one_sq t). lra.
Qed.

(** The Gaussian integral with an explicit remainder. *)
Lemma gint_comp x : gint x * gint x + comp x = PI / 4.
Proof.
  assert (C : forall a b, a < b -> gint a * gint a + comp a = gint b * gint b + comp b).
  { intros a b Hab.
    assert (D : forall y, is_derive (fun y => gint y * gint y + comp y) y 0).
    { intros y.
      replace 0 with (plus (plus (mult (exp (- (y * y))) (gint y)) (mult (gint y) (exp (- (y * y))))) (- 2 * exp (- (y * y)) * gint y))
        by (unfold plus, mult; cbn; unfold mult; cbn; ring).
      apply (is_derive_plus (fun y => gint y * gint y) comp y).
      - apply (is_derive_mult gint gint y); [apply gint_derive|apply gint_derive|]. intros; apply Rmult_comm.
      - apply comp_derive'. }
    destruct (MVT_gen (fun y => gint y * gint y + comp y) a b (fun _ => 0)) as (c & _ & H).
    - intros y _. apply D.
    - intros y _. apply derivable_continuous_pt. exists 0. apply is_derive_Reals, D.
    - lra. }
  pose proof gint_0 as G. pose proof comp_0 as K.
  destruct (Rtotal_order x 0) as [H|[H|H]].
  - rewrite (C x 0 H), G, K. ring.
  - rewrite H, G, K. ring.
  - rewrite <- (C 0 x H), G, K. ring.
Qed.

Lemma comp_pos x : 0 < comp x.
Proof.
  unfold comp. apply RInt_gt_0; [lra| |].
  - intros t _. apply Rdiv_lt_0_compat; [apply exp_pos|apply one_sq].
  - intros t _. apply comp_cont.
Qed.

Lemma comp_le x : comp x <= exp (- (x * x)) * (PI / 4).
Proof.
  rewrite <- comp_0. unfold comp.
  change (exp (- (x * x)) * RInt (fun t => exp (- (0 * 0 * (1 + t * t))) / (1 + t * t)) 0 1)
    with (scal (exp (- (x * x))) (RInt (fun t => exp (- (0 * 0 * (1 + t * t))) / (1 + t * t)) 0 1)).
  rewrite <- RInt_scal by apply comp_int.
  apply RInt_le; [lra|apply comp_int| |].
  - apply (ex_RInt_scal (fun t => exp (- (0 * 0 * (1 + t * t))) / (1 + t * t))). apply comp_int.
  - intros t _. unfold scal; cbn; unfold mult; cbn.
    replace (- (0 * 0 * (1 + t * t))) with 0 by ring. rewrite exp_0.
    unfold Rdiv. rewrite Rmult_1_l. apply Rmult_le_compat_r.
    + apply Rlt_le, Rinv_0_lt_compat, one_sq.
    + assert (H : - (x * x * (1 + t * t)) <= - (x * x)).
      { pose proof (Rle_0_sqr (x * t)) as H. unfold Rsqr in H. nra. }
      destruct H as [H|H]; [apply Rlt_le, exp_increasing, H|rewrite H; lra].
Qed.

Lemma sqrt_pi_pos : 0 < sqrt PI.
Proof. apply sqrt_lt_R0, PI_RGT_0. Qed.
Lemma sqrt_pi_sq : sqrt PI * sqrt PI = PI.
Proof. apply sqrt_sqrt, Rlt_le, PI_RGT_0. Qed.

Lemma erf_sq x : erf x * erf x = 1 - 4 / PI * comp x.
Proof.
  unfold erf. pose proof (gint_comp x) as H. pose proof sqrt_pi_sq as S. pose proof PI_RGT_0 as P. pose proof sqrt_pi_pos as SP.
  replace (2 / sqrt PI * gint x * (2 / sqrt PI * gint x)) with (4 / (sqrt PI * sqrt PI) * (gint x * gint x)) by (field; lra).
  rewrite S. replace (gint x * gint x) with (PI / 4 - comp x) by lra. field. lra.
Qed.

Lemma erf_derive x : is_derive erf x (2 / sqrt PI * exp (- (x * x))).
Proof. apply (is_derive_scal gint x). apply gint_derive. Qed.

Lemma erfc_derive x : is_derive erfc x (- (2 / sqrt PI * exp (- (x * x)))).
Proof.
  unfold erfc. replace (- (2 / sqrt PI * exp (- (x * x)))) with (minus 0 (2 / sqrt PI * exp (- (x * x)))).
  - apply (is_derive_minus (fun _ => 1) erf x); [apply @is_derive_const|apply erf_derive].
  - unfold minus, plus, opp; cbn. ring.
Qed.

Lemma erf_0 : erf 0 = 0.
Proof. unfold erf. rewrite gint_0. ring. Qed.

Lemma erf_incr a b : a < b -> erf a < erf b.
Proof.
  intros H. pose proof sqrt_pi_pos as SP.
  assert (L : exists c, erf b - erf a = 2 / sqrt PI * exp (- (c * c)) * (b - a)).
  { destruct (MVT_gen erf a b (fun c => 2 / sqrt PI * exp (- (c * c)))) as (c & _ & E).
    - intros y _. apply erf_derive.
    - intros y _. apply derivable_continuous_pt. eexists. apply is_derive_Reals, erf_derive.
    - exists c. exact E. }
  destruct L as (c & E). pose proof (exp_pos (- (c * c))) as EP.
  assert (0 < 2 / sqrt PI * exp (- (c * c)) * (b - a)); [|lra].
  apply Rmult_lt_0_compat; [apply Rmult_lt_0_compat; [apply Rdiv_lt_0_compat; lra|exact EP]|lra].
Qed.

Lemma gint_odd (x : R) : gint (- x) = - gint x.
Proof.
  unfold gint.
  assert (E : is_RInt (fun t => scal (-1) (exp (- ((-1 * t + 0) * (-1 * t + 0))))) 0 x (RInt (fun t => exp (- (t * t))) 0 (- x))).
  { apply (is_RInt_comp_lin (fun t => exp (- (t * t))) (-1) 0 0 x).
    change (is_RInt (fun t => exp (- (t * t))) (-1 * 0 + 0) (-1 * x + 0) (RInt (fun t => exp (- (t * t))) 0 (- x))).
    replace (-1 * 0 + 0) with 0 by (change (0 = -1 * 0 + 0); ring). replace (-1 * x + 0) with (- x) by (change (- x = -1 * x + 0); ring). apply (@RInt_correct R_CompleteNormedModule), gauss_int. }
  rewrite <- (is_RInt_unique _ _ _ _ E).
  transitivity (RInt (fun t => scal (-1) (exp (- (t * t)))) 0 x).
  - apply RInt_ext. intros t _. replace ((-1 * t + 0) * (-1 * t + 0)) with (t * t) by ring. reflexivity.
  - etransitivity; [apply (@RInt_scal R_CompleteNormedModule (fun t => exp (- (t * t)))); apply gauss_int|].
    change (-1 * RInt (fun t => exp (- (t * t))) 0 x = - RInt (fun t => exp (- (t * t))) 0 x). ring.
Qed.

Lemma erf_odd x : erf (- x) = - erf x.
Proof. unfold erf. rewrite gint_odd. ring. Qed.

Lemma erf_bounds x : -1 < erf x < 1.
Proof.
  pose proof (erf_sq x) as H. pose proof (comp_pos x) as C. pose proof PI_RGT_0 as P.
  assert (H' : erf x * erf x < 1).
  { rewrite H. assert (0 < 4 / PI * comp x); [|lra]. apply Rmult_lt_0_compat; [apply Rdiv_lt_0_compat; lra|exact C]. }
  nra.
Qed.

Lemma erfc_pos x : 0 < erfc x.
Proof. unfold erfc. pose proof (erf_bounds x). lra. Qed.
Lemma erfc_lt_2 x : erfc x < 2.
Proof. unfold erfc. pose proof (erf_bounds x). lra. Qed.

(** tail bound *)
Lemma erf_lower x : 0 <= x -> 1 - exp (- (x * x)) <= erf x.
Proof.
  intros Hx. pose proof (erf_sq x) as H. pose proof (comp_le x) as C. pose proof PI_RGT_0 as P.
  assert (E : erf x * erf x >= 1 - exp (- (x * x))).
  { rewrite H. assert (4 / PI * comp x <= exp (- (x * x))); [|lra].
    replace (exp (- (x * x))) with (4 / PI * (exp (- (x * x)) * (PI / 4))) by (field; lra).
    apply Rmult_le_compat_l; [apply Rlt_le, Rdiv_lt_0_compat; lra|exact C]. }
  assert (E0 : 0 <= erf x).
  { destruct Hx as [Hx|<-]; [rewrite <- erf_0; apply Rlt_le, erf_incr, Hx|rewrite erf_0; lra]. }
  pose proof (erf_bounds x). nra.
Qed.

Lemma erfc_upper x : 0 <= x -> erfc x <= exp (- (x * x)).
Proof. intros H. unfold erfc. pose proof (erf_lower x H). lra. Qed.
