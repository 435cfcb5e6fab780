(** The chemical potential search succeeds for Fermi-Dirac and Gaussian-spline smearing. *)
From Coq Require Import Reals Lra Psatz ZArith List Bool Lia.
From Coquelicot Require Import Coquelicot.
From Verif Require Import Arith Erf MVector Mpi MpiProofs Containers ChemPot ChemPotProofs Newton Occupation Smearing SmearingProofs SmearingProofs2 SmearingUse.
Import ListNotations.
Local Open Scope R_scope.

Lemma rsum_le {X} (f g : X -> R) l : (forall x, In x l -> f x <= g x) -> rsum (map f l) <= rsum (map g l).
Proof.
  induction l as [|x l IH]; intros H; [apply Rle_refl|]. change (f x + rsum (map f l) <= g x + rsum (map g l)).
  pose proof (H x (or_introl eq_refl)). pose proof (IH (fun y Hy => H y (or_intror Hy))). lra.
Qed.
Lemma rsum_minus {X} (f g : X -> R) l : rsum (map f l) - rsum (map g l) = rsum (map (fun x => f x - g x) l).
Proof.
  induction l as [|x l IH]; [cbn; lra|]. change (f x + rsum (map f l) - (g x + rsum (map g l)) = (f x - g x) + rsum (map (fun x => f x - g x) l)).
  rewrite <- IH. ring.
Qed.
Lemma rsum_abs {X} (f : X -> R) l : Rabs (rsum (map f l)) <= rsum (map (fun x => Rabs (f x)) l).
Proof.
  induction l as [|x l IH]; [cbn; rewrite Rabs_R0; lra|].
  change (Rabs (f x + rsum (map f l)) <= Rabs (f x) + rsum (map (fun x => Rabs (f x)) l)).
  eapply Rle_trans; [apply Rabs_triang|lra].
Qed.
Lemma rsum_scal {X} c (f : X -> R) l : rsum (map (fun x => c * f x) l) = c * rsum (map f l).
Proof. induction l as [|x l IH]; [cbn; lra|]. change (c * f x + rsum (map (fun x => c * f x) l) = c * (f x + rsum (map f l))). rewrite IH. ring. Qed.

Definition nonneg_weights (wk : smap R) : Prop := forall kw, In kw wk -> 0 <= snd kw.
(** every band energy that is counted *)
Definition all_bands (P : R -> Prop) (x : smap (list R)) (wk : smap R) : Prop := forall kw e, In kw wk -> In e (bands_at x (fst kw)) -> P e.

Lemma weighted_le g1 g2 x wk : nonneg_weights wk -> all_bands (fun e => g1 e <= g2 e) x wk -> weighted g1 x wk <= weighted g2 x wk.
Proof.
  intros Hw Hg. unfold weighted. apply rsum_le. intros kw Hin. apply Rmult_le_compat_l; [apply Hw; exact Hin|].
  apply rsum_le. intros e He. exact (Hg kw e Hin He).
Qed.
Lemma weighted_minus g1 g2 x wk : weighted g1 x wk - weighted g2 x wk = weighted (fun e => g1 e - g2 e) x wk.
Proof.
  unfold weighted. rewrite rsum_minus. f_equal. apply map_ext. intros kw. rewrite <- rsum_minus. ring.
Qed.
Lemma weighted_abs g x wk : nonneg_weights wk -> Rabs (weighted g x wk) <= weighted (fun e => Rabs (g e)) x wk.
Proof.
  intros Hw. unfold weighted. eapply Rle_trans; [apply rsum_abs|]. apply rsum_le. intros kw Hin.
  rewrite Rabs_mult, (Rabs_pos_eq (snd kw)) by (apply Hw; exact Hin). apply Rmult_le_compat_l; [apply Hw; exact Hin|]. apply rsum_abs.
Qed.
Lemma weighted_scal c g x wk : weighted (fun e => c * g e) x wk = c * weighted g x wk.
Proof. unfold weighted. rewrite <- rsum_scal. f_equal. apply map_ext. intros kw. rewrite rsum_scal. ring. Qed.
Lemma weighted_ext g1 g2 x wk : all_bands (fun e => g1 e = g2 e) x wk -> weighted g1 x wk = weighted g2 x wk.
Proof.
  intros H. unfold weighted. f_equal. apply map_ext_in. intros kw Hin. f_equal. f_equal. apply map_ext_in. intros e He. exact (H kw e Hin He).
Qed.

(** the number of states, weighted *)
Definition states (x : smap (list R)) (wk : smap R) : R := weighted (fun _ => 1) x wk.
Lemma states_nonneg x wk : nonneg_weights wk -> 0 <= states x wk.
Proof. intros H. apply weighted_nonneg; [exact H|]. intros; lra. Qed.
Lemma weighted_const c x wk : weighted (fun _ => c) x wk = c * states x wk.
Proof. unfold states. rewrite <- weighted_scal. apply weighted_ext. intros kw e _ _. ring. Qed.

Lemma residual_weighted Ne T occ (S : smear Rarith) x wk mu :
  residual Rarith Ne T occ S x wk mu = Ne - weighted (fun e => sfn S ((mu - e) / (kb Rarith * T)) occ) x wk.
Proof.
  unfold residual. cbn [asub Rarith]. eqR. f_equal.
  etransitivity; [exact (wsum_R (fun ek => sum_func Rarith (sfn S) ek mu T occ) x wk)|].
  unfold weighted. f_equal. apply map_ext. intros kw. f_equal. exact (sum_func_R (sfn S) _ mu T occ).
Qed.

(** *** Search for a saturating, almost Lipschitz smearing function *)
Section Find.
  Context (S : smear Rarith) (Ne T occ tol B l j c : R) (x : smap (list R)) (wk : smap R).
  Hypothesis HT : 0 < T.
  Hypothesis Hocc : 0 < occ.
  Hypothesis Hw : nonneg_weights wk.
  Hypothesis Hx : all_bands (fun e => Rabs e <= B) x wk.
  Hypothesis HB : 0 <= B.
  Hypothesis HN : 0 <= Ne <= occ * states x wk.
  Hypothesis Hmono : forall a b, a <= b -> sfn S a occ <= sfn S b occ.
  Hypothesis Hlip : forall a b, Rabs (sfn S a occ - sfn S b occ) <= occ * (l * Rabs (a - b) + j).
  Hypothesis Hsat : forall a, c <= a -> sfn S a occ = occ.
  Hypothesis Hzero : forall a, a <= - c -> sfn S a occ = 0.
  Hypothesis Hl : 0 < l.
  Hypothesis Hj : 0 <= j.
  Hypothesis Hc : 0 <= c.
  Hypothesis Hstates : 0 < states x wk.

  Let kT := kb Rarith * T.
  Let f := residual Rarith Ne T occ S x wk.
  Let D := B + c * kT.

  Lemma kT_pos : 0 < kT. Proof. unfold kT. pose proof kb_pos. nra. Qed.

  Lemma find_mono : forall m1 m2, m1 <= m2 -> f m2 <= f m1.
  Proof.
    intros m1 m2 H. unfold f. rewrite !residual_weighted. pose proof kT_pos as K. fold kT.
    assert (weighted (fun e => sfn S ((m1 - e) / kT) occ) x wk <= weighted (fun e => sfn S ((m2 - e) / kT) occ) x wk); [|lra].
    apply weighted_le; [exact Hw|]. intros kw e _ _. apply Hmono. unfold Rdiv. apply Rmult_le_compat_r; [apply Rlt_le, Rinv_0_lt_compat; lra|lra].
  Qed.

  Lemma find_lip : forall m1 m2, Rabs (f m1 - f m2) <= (occ * states x wk * l / kT) * Rabs (m1 - m2) + occ * states x wk * j.
  Proof.
    intros m1 m2. unfold f. rewrite !residual_weighted. pose proof kT_pos as K. fold kT.
    match goal with |- Rabs (Ne - ?a - (Ne - ?b)) <= _ => replace (Ne - a - (Ne - b)) with (b - a) by ring end.
    rewrite weighted_minus. eapply Rle_trans; [apply weighted_abs; exact Hw|].
    eapply Rle_trans; [apply (weighted_le _ (fun _ => occ * (l * (Rabs (m1 - m2) / kT) + j))); [exact Hw|]|].
    - intros kw e _ _. eapply Rle_trans; [apply Hlip|]. apply Rmult_le_compat_l; [lra|]. apply Rplus_le_compat_r. apply Rmult_le_compat_l; [lra|].
      replace ((m2 - e) / kT - (m1 - e) / kT) with (- ((m1 - m2) / kT)) by (field; lra).
      rewrite Rabs_Ropp. unfold Rdiv. rewrite Rabs_mult, (Rabs_pos_eq (/ kT)); [lra|]. apply Rlt_le, Rinv_0_lt_compat. lra.
    - rewrite weighted_const. apply Req_le. field. lra.
  Qed.

  Lemma find_ends : 0 <= f (- D) /\ f D <= 0.
  Proof.
    unfold f. rewrite !residual_weighted. pose proof kT_pos as K. fold kT. unfold D. split.
    - rewrite (weighted_ext _ (fun _ => 0)); [rewrite weighted_const; lra|].
      intros kw e Hk He. apply Hzero. pose proof (Hx kw e Hk He) as E. cbn beta in E.
      apply (Rmult_le_reg_r kT); [exact K|]. unfold Rdiv. rewrite Rmult_assoc, Rinv_l by lra. revert E. unfold Rabs. destruct (Rcase_abs e); lra.
    - rewrite (weighted_ext _ (fun _ => occ)); [rewrite weighted_const; lra|].
      intros kw e Hk He. apply Hsat. pose proof (Hx kw e Hk He) as E. cbn beta in E.
      apply (Rmult_le_reg_r kT); [exact K|]. unfold Rdiv. rewrite Rmult_assoc, Rinv_l by lra. revert E. unfold Rabs. destruct (Rcase_abs e); lra.
  Qed.

  Lemma find_success k m :
    occ * states x wk * j < tol ->
    (k + 4 * m <= 1000)%nat -> D <= 1/10 * ((5/4) ^ k - 1) ->
    (D / 4 + 1/8) * (125/256) ^ m <= 2 * (tol - occ * states x wk * j) / (occ * states x wk * l / kT) ->
    exists mu, (Rabs (f mu) < tol /\ find_mu Rarith Ne T occ tol S x wk = Ret mu) \/
               (Rabs (f mu) = tol /\ find_mu Rarith Ne T occ tol S x wk = Throw RuntimeError).
  Proof.
    intros Ht Hn Hk Hm. pose proof kT_pos as K. destruct find_ends as (E1 & E2).
    assert (L : 0 < occ * states x wk * l / kT) by (apply Rdiv_lt_0_compat; [|lra]; repeat apply Rmult_lt_0_compat; lra).
    destruct (search_lipschitz f tol (occ * states x wk * l / kT) (occ * states x wk * j) D k m) as (mu & vis & cc & H); auto.
    - exact find_mono.
    - repeat apply Rmult_le_pos; lra.
    - exact find_lip.
    - unfold D. assert (0 <= c * kT) by (apply Rmult_le_pos; lra). lra.
    - exists mu. unfold find_mu. change (alit Rarith 0 1) with (Rlit 0 1). replace (Rlit 0 1) with 0 by (unfold Rlit; field).
      fold f. destruct H as [(H1 & H2)|(H1 & H2)].
      + left. split; [exact H1|]. exact (f_equal (fun r => match r with (Ret mu, _, _) => Ret mu | (Throw _, _, _) => Throw RuntimeError | (UB, _, _) => UB | (NoFuel, _, _) => NoFuel end) H2).
      + right. split; [exact H1|]. exact (f_equal (fun r => match r with (Ret mu, _, _) => Ret mu | (Throw _, _, _) => Throw RuntimeError | (UB, _, _) => UB | (NoFuel, _, _) => NoFuel end) H2).
  Qed.
End Find.

(** *** Fermi-Dirac and Gaussian-spline *)
Lemma lip_of_derive (g g' : R -> R) L : (forall y, is_derive g y (g' y)) -> (forall y, Rabs (g' y) <= L) ->
  forall a b, Rabs (g a - g b) <= L * Rabs (a - b).
Proof.
  intros D B a b. destruct (MVT_gen g b a g') as (z & _ & E).
  - intros y _. apply D.
  - intros y _. apply derivable_continuous_pt. eexists. apply is_derive_Reals, D.
  - rewrite E, Rabs_mult. apply Rmult_le_compat_r; [apply Rabs_pos|apply B].
Qed.

Lemma fd_almost_lip occ a b : 0 <= occ -> Rabs (fd_fn a occ - fd_fn b occ) <= occ * (/ 4 * Rabs (a - b) + 2 * exp (-35)).
Proof.
  intros Ho. pose proof (fd_trunc a occ Ho) as Ta. pose proof (fd_trunc b occ Ho) as Tb.
  assert (C : Rabs ((occ - occ / (1 + exp a)) - (occ - occ / (1 + exp b))) <= occ * / 4 * Rabs (a - b)).
  { apply (lip_of_derive (fun x => occ - occ / (1 + exp x)) (fun x => occ * exp x / ((1 + exp x) * (1 + exp x)))).
    - intros y. apply fd_core_derive.
    - intros y. pose proof (exp_pos y) as P. rewrite Rabs_pos_eq.
      + unfold Rdiv. rewrite Rmult_assoc. apply Rmult_le_compat_l; [lra|].
        apply (Rmult_le_reg_r ((1 + exp y) * (1 + exp y))); [nra|]. rewrite Rmult_assoc, Rinv_l by (apply Rgt_not_eq; nra). pose proof (Rle_0_sqr (1 - exp y)) as Q. unfold Rsqr in Q. nra.
      + apply Rmult_le_pos; [nra|]. apply Rlt_le, Rinv_0_lt_compat. nra. }
  set (ca := occ - occ / (1 + exp a)) in *. set (cb := occ - occ / (1 + exp b)) in *.
  replace (fd_fn a occ - fd_fn b occ) with ((fd_fn a occ - ca) + ((ca - cb) + - (fd_fn b occ - cb))) by ring.
  eapply Rle_trans; [apply Rabs_triang|]. eapply Rle_trans; [apply Rplus_le_compat_l; apply Rabs_triang|]. rewrite Rabs_Ropp. lra.
Qed.

Lemma gs_dcore_bound occ y : 0 <= occ -> Rabs (gs_dcore occ y) <= occ * (sq2 / 2).
Proof.
  intros Ho. pose proof sq2_pos as S. pose proof sq2_sq as S2.
  assert (K : forall t, 0 <= t -> 0 <= exp (- t * (sq2 + t)) * (sq2 + 2 * t) <= sq2).
  { intros t Ht. pose proof (exp_pos (- t * (sq2 + t))) as P. split; [nra|].
    replace (- t * (sq2 + t)) with (- (t * (sq2 + t))) by ring. rewrite exp_Ropp.
    assert (I : 1 + t * (sq2 + t) <= exp (t * (sq2 + t))).
    { destruct (Req_dec (t * (sq2 + t)) 0) as [E|E]; [rewrite E, exp_0; lra|]. apply Rlt_le, exp_ineq1. exact E. }
    apply (Rmult_le_reg_l (exp (t * (sq2 + t)))); [apply exp_pos|]. rewrite <- Rmult_assoc, Rinv_r by (pose proof (exp_pos (t * (sq2 + t))); lra).
    nra. }
  unfold gs_dcore. rcases.
  - pose proof (K (- y) ltac:(lra)) as B. replace (- - y * (sq2 + - y)) with ((sq2 - y) * y) in B by ring. replace (sq2 + 2 * - y) with (sq2 - 2 * y) in B by ring.
    rewrite Rmult_assoc, Rabs_pos_eq by (apply Rmult_le_pos; lra). nra.
  - pose proof (K y ltac:(lra)) as B. rewrite Rmult_assoc, Rabs_pos_eq by (apply Rmult_le_pos; lra). nra.
Qed.
Lemma gs_almost_lip occ a b : 0 <= occ -> Rabs (gs_fn a occ - gs_fn b occ) <= occ * (sq2 / 2 * Rabs (a - b) + exp (-64)).
Proof.
  intros Ho. pose proof (gs_trunc a occ Ho) as Ta. pose proof (gs_trunc b occ Ho) as Tb.
  assert (C : Rabs (gs_core occ a - gs_core occ b) <= occ * (sq2 / 2) * Rabs (a - b)).
  { apply (lip_of_derive (gs_core occ) (gs_dcore occ)); [intros y; apply gs_core_derive|intros y; apply gs_dcore_bound; exact Ho]. }
  set (ca := gs_core occ a) in *. set (cb := gs_core occ b) in *.
  replace (gs_fn a occ - gs_fn b occ) with ((gs_fn a occ - ca) + ((ca - cb) + - (gs_fn b occ - cb))) by ring.
  eapply Rle_trans; [apply Rabs_triang|]. eapply Rle_trans; [apply Rplus_le_compat_l; apply Rabs_triang|]. rewrite Rabs_Ropp. lra.
Qed.

(** *** Numbers *)
Lemma pow_q (p q : Z) (n : nat) : (IZR p / IZR q) ^ n = IZR (p ^ Z.of_nat n) / IZR (q ^ Z.of_nat n).
Proof.
  unfold Rdiv. rewrite Rpow_mult_distr, pow_inv, !pow_IZR. reflexivity.
Qed.
Lemma exp_mult_nat (n : nat) (y : R) : exp (INR n * y) = exp y ^ n.
Proof.
  induction n as [|n IH]; [cbn; rewrite Rmult_0_l; apply exp_0|].
  rewrite S_INR. replace ((INR n + 1) * y) with (INR n * y + y) by ring. rewrite exp_plus, IH. cbn [pow]. ring.
Qed.
Lemma exp_1_lower : 27 / 10 <= exp 1.
Proof.
  replace 1 with (INR 100 * (1 / 100)) by (rewrite INR_IZR_INZ; cbn; field). rewrite exp_mult_nat.
  apply Rle_trans with ((101 / 100) ^ 100).
  - rewrite pow_q. apply (Rmult_le_reg_r (IZR (100 ^ Z.of_nat 100))); [apply IZR_lt; reflexivity|].
    unfold Rdiv at 2. rewrite Rmult_assoc, Rinv_l by (apply Rgt_not_eq, IZR_lt; reflexivity). rewrite Rmult_1_r.
    apply (Rmult_le_reg_l 10); [lra|]. replace (10 * (27 / 10 * IZR (100 ^ Z.of_nat 100))) with (27 * IZR (100 ^ Z.of_nat 100)) by field.
    rewrite <- !mult_IZR. apply IZR_le. vm_compute. discriminate.
  - apply pow_incr. split; [lra|]. pose proof (exp_ineq1 (1 / 100) ltac:(lra)). lra.
Qed.
Lemma exp_35 : exp (-35) <= 8 / 10000000000000000.
Proof.
  replace (-35) with (- (35)) by ring. rewrite exp_Ropp.
  assert (H : 10000000000000000 / 8 <= exp 35).
  { replace 35 with (INR 35 * 1) by (rewrite INR_IZR_INZ; cbn; ring). rewrite exp_mult_nat.
    apply Rle_trans with ((27 / 10) ^ 35); [|apply pow_incr; split; [lra|apply exp_1_lower]].
    rewrite pow_q. apply (Rmult_le_reg_r (IZR (10 ^ Z.of_nat 35))); [apply IZR_lt; reflexivity|].
    unfold Rdiv at 2. rewrite Rmult_assoc, Rinv_l by (apply Rgt_not_eq, IZR_lt; reflexivity). rewrite Rmult_1_r.
    apply (Rmult_le_reg_l 8); [lra|]. replace (8 * (10000000000000000 / 8 * IZR (10 ^ Z.of_nat 35))) with (10000000000000000 * IZR (10 ^ Z.of_nat 35)) by field.
    rewrite <- !mult_IZR. apply IZR_le. vm_compute. discriminate. }
  apply Rle_trans with (/ (10000000000000000 / 8)); [apply Rinv_le_contravar; lra|]. lra.
Qed.

(** Fermi-Dirac with the tolerance 1e-11 of the code: any spectrum within 1000 Ha, at least 1 K, at most
    5000 states. *)
Section FD.
  Context (Ne T occ : R) (x : smap (list R)) (wk : smap R).
  Hypothesis HT : 1 <= T <= 1000000.
  Hypothesis Hocc : 0 < occ.
  Hypothesis Hw : nonneg_weights wk.
  Hypothesis Hx : all_bands (fun e => Rabs e <= 1000) x wk.
  Hypothesis HN : 0 <= Ne <= occ * states x wk.
  Hypothesis Hs : 0 < occ * states x wk <= 5000.

  Let tol := / 100000000000.

  Lemma kT_range : 316681156340226 / 100000000000000000000 <= kb Rarith * T <= 4.
  Proof. unfold kb. cbn [alit Rarith]. unfold Rlit. change (Z.pos 100000000000000000000) with 100000000000000000000%Z. lra. Qed.

  Lemma fd_found : exists mu,
    (Rabs (residual Rarith Ne T occ fermi_dirac x wk mu) < tol /\ find_mu Rarith Ne T occ tol fermi_dirac x wk = Ret mu) \/
    (Rabs (residual Rarith Ne T occ fermi_dirac x wk mu) = tol /\ find_mu Rarith Ne T occ tol fermi_dirac x wk = Throw RuntimeError).
  Proof.
    pose proof kT_range as K. pose proof exp_35 as E. pose proof (exp_pos (-35)) as P.
    assert (Hst : 0 < states x wk) by nra.
    apply (find_success fermi_dirac Ne T occ tol 1000 (/ 4) (2 * exp (-35)) 41 x wk) with (k := 46%nat) (m := 75%nat);
      try assumption; try lra; try lia; cbn [sfn fermi_dirac].
    - intros a b H. apply fd_mono; lra.
    - intros a b. apply fd_almost_lip. lra.
    - intros a H. unfold fd_fn. rcases; lra.
    - intros a H. unfold fd_fn. rcases; lra.
    - unfold tol. set (c := occ * states x wk) in *. set (e := exp (-35)) in *. nra.
    - set (c := occ * states x wk) in *. set (e := exp (-35)) in *. set (kT := kb Rarith * T) in *.
      assert (Hn : 1.9 / 1000000000000 <= tol - c * (2 * e)) by (unfold tol; nra).
      replace (2 * (tol - c * (2 * e)) / (c * / 4 / kT)) with (8 * (tol - c * (2 * e)) * (kT / c)) by (field; lra).
      assert (Hr : 316681156340226 / 100000000000000000000 / 5000 <= kT / c).
      { unfold Rdiv at 1. apply Rmult_le_compat; try lra. apply Rinv_le_contravar; lra. }
      apply Rle_trans with (8 * (1.9 / 1000000000000) * (316681156340226 / 100000000000000000000 / 5000)); [|nra].
      apply Rle_trans with ((1164 / 4 + 1 / 8) * (125 / 256) ^ 75); [apply Rmult_le_compat_r; [apply pow_le; lra|lra]|]. lra.
  Qed.
End FD.

Lemma exp_64 : exp (-64) <= / 1000000000000000000000000000.
Proof.
  replace (-64) with (- (64)) by ring. rewrite exp_Ropp.
  assert (H : 1000000000000000000000000000 <= exp 64).
  { replace 64 with (INR 64 * 1) by (rewrite INR_IZR_INZ; cbn; ring). rewrite exp_mult_nat.
    apply Rle_trans with ((27 / 10) ^ 64); [|apply pow_incr; split; [lra|apply exp_1_lower]].
    rewrite pow_q. apply (Rmult_le_reg_r (IZR (10 ^ Z.of_nat 64))); [apply IZR_lt; reflexivity|].
    unfold Rdiv at 1. rewrite Rmult_assoc, Rinv_l by (apply Rgt_not_eq, IZR_lt; reflexivity). rewrite Rmult_1_r.
    rewrite <- !mult_IZR. apply IZR_le. vm_compute. discriminate. }
  apply Rinv_le_contravar; [lra|exact H].
Qed.

(** Gaussian spline: up to a million states. *)
Section GS.
  Context (Ne T occ : R) (x : smap (list R)) (wk : smap R).
  Hypothesis HT : 1 <= T <= 1000000.
  Hypothesis Hocc : 0 < occ.
  Hypothesis Hw : nonneg_weights wk.
  Hypothesis Hx : all_bands (fun e => Rabs e <= 1000) x wk.
  Hypothesis HN : 0 <= Ne <= occ * states x wk.
  Hypothesis Hs : 0 < occ * states x wk <= 1000000.

  Let tol := / 100000000000.

  Lemma gs_found : exists mu,
    (Rabs (residual Rarith Ne T occ gaussian_spline x wk mu) < tol /\ find_mu Rarith Ne T occ tol gaussian_spline x wk = Ret mu) \/
    (Rabs (residual Rarith Ne T occ gaussian_spline x wk mu) = tol /\ find_mu Rarith Ne T occ tol gaussian_spline x wk = Throw RuntimeError).
  Proof.
    pose proof (kT_range T HT) as K. pose proof exp_64 as E. pose proof (exp_pos (-64)) as P. pose proof sq2_bounds as Q.
    assert (Hst : 0 < states x wk) by nra.
    apply (find_success gaussian_spline Ne T occ tol 1000 (sq2 / 2) (exp (-64)) 9 x wk) with (k := 46%nat) (m := 82%nat);
      try assumption; try lra; try lia; cbn [sfn gaussian_spline].
    - intros a b H. apply gs_mono; lra.
    - intros a b. apply gs_almost_lip. lra.
    - intros a H. unfold gs_fn. rcases; lra.
    - intros a H. unfold gs_fn. rcases; lra.
    - unfold tol. set (c := occ * states x wk) in *. set (e := exp (-64)) in *. nra.
    - set (c := occ * states x wk) in *. set (e := exp (-64)) in *. set (kT := kb Rarith * T) in *.
      assert (Hn : 9 / 1000000000000 <= tol - c * e) by (unfold tol; nra).
      replace (2 * (tol - c * e) / (c * (sq2 / 2) / kT)) with (4 * (tol - c * e) * (kT / c) * / sq2) by (field; lra).
      assert (Hr : 316681156340226 / 100000000000000000000 / 1000000 <= kT / c).
      { unfold Rdiv at 1. apply Rmult_le_compat; try lra. apply Rinv_le_contravar; lra. }
      assert (Hq : / 1.5 <= / sq2) by (apply Rinv_le_contravar; lra).
      apply Rle_trans with (4 * (9 / 1000000000000) * (316681156340226 / 100000000000000000000 / 1000000) * / 1.5).
      + apply Rle_trans with ((1036 / 4 + 1 / 8) * (125 / 256) ^ 82); [apply Rmult_le_compat_r; [apply pow_le; lra|lra]|]. lra.
      + apply Rmult_le_compat; try lra. nra.
  Qed.
End GS.

(** *** On all ranks *)
Section World.
  Implicit Types world : list (smap (list R) * smap R).

  Definition keyed world : Prop :=
    NoDup (keys (concat (map fst world))) /\ NoDup (keys (concat (map snd world))) /\
    (forall xw, In xw world -> keys (fst xw) = keys (snd xw)).

  Lemma bands_union world xw k : keyed world -> In xw world -> In k (keys (fst xw)) ->
    bands_at (xunion Rarith world) k = bands_at (fst xw) k.
  Proof.
    intros (Nx & _ & _) Hin Hk. unfold bands_at.
    assert (Ef : mfind k (xunion Rarith world) = mfind k (fst xw)); [|exact (f_equal (fun o => match o with Some v => v | None => [] end) Ef)].
    unfold xunion. rewrite mfind_of_assignments. etransitivity; [apply (mfind_perm k _ (concat (map fst world)))|].
    - unfold keys in *. rewrite map_rev. apply NoDup_rev. exact Nx.
    - exact Nx.
    - intros kv. rewrite <- in_rev. reflexivity.
    - apply mfind_concat; [exact Nx| |exact Hk]. apply in_map. exact Hin.
  Qed.

  Lemma weighted_union g world : keyed world ->
    weighted g (xunion Rarith world) (wunion Rarith world) = rsum (map (fun xw => weighted g (fst xw) (snd xw)) world).
  Proof.
    intros Hkd. pose proof Hkd as (Nx & Nw & Hk). unfold weighted at 1.
    set (h := fun kw : key * R => snd kw * rsum (map g (bands_at (xunion Rarith world) (fst kw)))).
    etransitivity; [apply (rsum_perm _ (map h (concat (map snd world)))); apply Permutation.Permutation_map; apply range_perm; exact Nw|].
    rewrite <- (rsum_concat h). rewrite map_map. f_equal. apply map_ext_in. intros xw Hin. unfold weighted. f_equal.
    apply map_ext_in. intros kw Hkw. unfold h. f_equal. f_equal. f_equal. apply (bands_union world); try assumption.
    rewrite (Hk _ Hin). apply (in_map fst) in Hkw. exact Hkw.
  Qed.

  Lemma in_wunion world kw : keyed world -> In kw (wunion Rarith world) -> exists xw, In xw world /\ In kw (snd xw).
  Proof.
    intros (_ & Nw & _) H. unfold wunion in H.
    assert (H' : In kw (concat (map snd world))) by (eapply Permutation.Permutation_in; [apply range_perm; exact Nw|exact H]).
    apply in_concat in H'. destruct H' as (l & Hl & Hkw). apply in_map_iff in Hl. destruct Hl as (xw & <- & Hin). eauto.
  Qed.

  (** Number of states over all ranks: each weight times the number of its bands. *)
  Definition capacity world : R := rsum (map (fun xw => rsum (map (fun kw => snd kw * INR (length (bands_at (fst xw) (fst kw)))) (snd xw))) world).

  Lemma rsum_ones {X} (l : list X) : rsum (map (fun _ => 1) l) = INR (length l).
  Proof. induction l as [|a l IH]; [reflexivity|]. cbn [length]. rewrite S_INR. change (1 + rsum (map (fun _ => 1) l) = INR (length l) + 1). lra. Qed.

  Lemma states_union world : keyed world -> states (xunion Rarith world) (wunion Rarith world) = capacity world.
  Proof.
    intros H. unfold states. rewrite weighted_union by exact H. unfold capacity. f_equal. apply map_ext. intros xw. unfold weighted. f_equal.
    apply map_ext. intros kw. rewrite rsum_ones. reflexivity.
  Qed.

  Definition smooth_smearing (S : smear Rarith) (cap : R) : Prop := (S = fermi_dirac /\ cap <= 5000) \/ (S = gaussian_spline /\ cap <= 1000000).

  Lemma occupation_found (Ne T occ : R) (skip : bool) (Sg S : smear Rarith) world :
    keyed world -> 1 <= T <= 1000000 -> 0 < occ -> 0 <= Ne <= occ * capacity world -> 0 < capacity world ->
    smooth_smearing S (occ * capacity world) ->
    (forall xw kw, In xw world -> In kw (snd xw) -> 0 <= snd kw) ->
    (forall xw kv e, In xw world -> In kv (fst xw) -> In e (snd kv) -> Rabs e <= 1000) ->
    world <> [] ->
    exists (mu : R),
    let fs := map (fun xw => occupations Rarith occ S (kb Rarith * T) mu (fst xw)) world in
    (Rabs (Ne - electrons (map snd world) fs) < / 100000000000 /\
       occupation Rarith Ne T occ (/ 100000000000) skip Sg S world = Some (map (fun f => Ret (mu, f)) fs)) \/
    (Rabs (Ne - electrons (map snd world) fs) = / 100000000000 /\
       occupation Rarith Ne T occ (/ 100000000000) skip Sg S world = Some (map (fun _ => Throw RuntimeError) world)).
  Proof.
    intros Hkd HT Ho HN Hc HS Hw He Hn. pose proof Hkd as (Nx & Nw & Hk).
    assert (Hw' : nonneg_weights (wunion Rarith world)).
    { intros kw Hin. destruct (in_wunion world kw Hkd Hin) as (xw & H1 & H2). exact (Hw xw kw H1 H2). }
    assert (He' : all_bands (fun e => Rabs e <= 1000) (xunion Rarith world) (wunion Rarith world)).
    { intros kw e Hin. destruct (in_wunion world kw Hkd Hin) as (xw & H1 & H2).
      rewrite (bands_union world xw); try assumption; [|rewrite (Hk _ H1); apply (in_map fst) in H2; exact H2].
      unfold bands_at. destruct (mfind (fst kw) (fst xw)) as [v|] eqn:E; [|intros []]. intros Hev.
      apply (He xw (fst kw, v) e H1); [|exact Hev].
      clear -E. induction (fst xw) as [|[k' v'] m IH]; cbn in *; [discriminate|]. destruct (keqb (fst kw) k') eqn:Q.
      - apply keqb_eq in Q. inversion E. subst. left. destruct kw. reflexivity.
      - right. auto. }
    pose proof (states_union world Hkd) as Hst. rewrite <- Hst in HN, HS, Hc.
    set (X := xunion Rarith world) in *. set (W := wunion Rarith world) in *.
    assert (F : exists mu, (Rabs (residual Rarith Ne T occ S X W mu) < / 100000000000 /\ find_mu Rarith Ne T occ (/ 100000000000) S X W = Ret mu) \/
                           (Rabs (residual Rarith Ne T occ S X W mu) = / 100000000000 /\ find_mu Rarith Ne T occ (/ 100000000000) S X W = Throw RuntimeError)).
    { assert (0 < occ * states X W) by nra.
      destruct HS as [(-> & HS)|(-> & HS)]; [apply fd_found|apply gs_found]; try assumption; lra. }
    destruct F as (mu & F). exists mu. cbv zeta.
    assert (Hm : mu_of Rarith Ne T occ (/ 100000000000) skip Sg S X W = find_mu Rarith Ne T occ (/ 100000000000) S X W).
    { unfold mu_of. replace (non_monotonous S) with false by (destruct HS as [(-> & _)|(-> & _)]; reflexivity). destruct skip; reflexivity. }
    pose proof (count_electrons T occ S world mu Nx Nw Hk) as Hcnt.
    assert (Hr : Rabs (Ne - electrons (map snd world) (map (fun xw => occupations Rarith occ S (kb Rarith * T) mu (fst xw)) world)) = Rabs (residual Rarith Ne T occ S X W mu)).
    { f_equal. unfold residual. cbn [asub Rarith]. eqR. f_equal. symmetry. exact Hcnt. }
    rewrite Hr. destruct F as [(F1 & F2)|(F1 & F2)]; [left|right]; (split; [exact F1|]).
    - rewrite occupation_spec by exact Hn. f_equal. rewrite map_map. apply map_ext. intros xw. fold X W. rewrite Hm, F2. reflexivity.
    - rewrite occupation_spec by exact Hn. f_equal. apply map_ext. intros xw. fold X W. rewrite Hm, F2. reflexivity.
  Qed.
End World.
