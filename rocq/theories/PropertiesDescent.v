(** Properties C37-C39, C41, C43: descent directions, slopes and the gradient of the pseudo-Hamiltonian.
    Exact real / complex arithmetic; matrices of every size. *)
From Coq Require Import Reals Lra Psatz Arith Lia List Bool.
From Coquelicot Require Import Coquelicot.
From Verif Require Import Arith Erf LinAlg Containers Newton Occupation Smearing SmearingProofs SmearingUse SmearingFacts Descent DescentProofs DescentFacts GradEtaFacts.
Import ListNotations.
Local Open Scope R_scope.

(** ** C37 *)
(** [world]: k-points of every rank with paths of their pseudo-eigenvalues ([snd (fst p) i]) and the
    velocities at 0 ([snd p i]); [mu] follows the paths so that the electron count stays fixed. *)
Theorem C37_diagonal_gradient_is_derivative :
  forall s T mo (mu : R -> R) (world : list (list kpath)),
  0 < T -> s <> COLD -> s <> GAUSSIAN_SPLINE \/ mo = 1 -> continuous mu 0 ->
  (forall r p i, In r world -> In p r -> (i < km (fst (fst p)))%nat ->
     snd (fst p) i 0 = ke (fst (fst p)) i /\ is_derive (snd (fst p) i) 0 (snd p i) /\ inside s (arg T mu p i 0)) ->
  (forall r p, In r world -> In p r -> let k := fst (fst p) in
     hermitian (km k) (mmul (kn k) (adj (kX k)) (kHX k)) /\
     forall i, (i < km k)%nat -> kh k i = Re (mmul (kn k) (adj (kX k)) (kHX k) i i)) ->
  locally 0 (fun t => electrons s T mo mu world t = electrons s T mo mu world 0) ->
  let ks := map (map (fun p : kpath => fst (fst p))) world in
  let dmu := dmu_deta s T mo ks (mu 0) in
  let dF := dFdmu s T mo ks (mu 0) in
  1 / 10 ^ 12 <= Rabs dmu ->
  is_derive (free_energy s T mo mu world) 0
    (total (fun p : kpath => let k := fst (fst p) in
       rsumn (km k) (fun i => snd p i * Re (g_eta s T mo k (inner_ (kn k) (kX k) (kHX k) (kw k)) (mu 0) dmu dF i i))) world).
Proof. exact diag_gradient. Qed.
Print Assumptions C37_diagonal_gradient_is_derivative.

(** Two bands at 1 and -1 moving apart, mu = 0, kT = 1, Fermi-Dirac, two electrons. *)
Definition apart_k : kpt :=
  MkKpt 2 2 1 mid mid mid (diag2 3 5) (fun i => if Nat.eqb i 0 then 1 else -1)
    (fun i => sfn (smearing_class FERMI_DIRAC) (if Nat.eqb i 0 then -1 else 1) 2) (fun i => if Nat.eqb i 0 then 3 else 5).
Definition apart_p : kpath := (apart_k, fun i t => if Nat.eqb i 0 then 1 + t else -1 - t, fun i => if Nat.eqb i 0 then 1 else -1).
Example C37_example :
  (forall i, (i < 2)%nat -> snd (fst apart_p) i 0 = ke apart_k i /\ is_derive (snd (fst apart_p) i) 0 (snd apart_p i) /\
     inside FERMI_DIRAC (arg unit_T (fun _ => 0) apart_p i 0)) /\
  hermitian 2 (mmul 2 (adj (kX apart_k)) (kHX apart_k)) /\
  (forall i, (i < 2)%nat -> kh apart_k i = Re (mmul 2 (adj (kX apart_k)) (kHX apart_k) i i)) /\
  locally 0 (fun t => electrons FERMI_DIRAC unit_T 2 (fun _ => 0) [[apart_p]] t = electrons FERMI_DIRAC unit_T 2 (fun _ => 0) [[apart_p]] 0) /\
  1 / 10 ^ 12 <= Rabs (dmu_deta FERMI_DIRAC unit_T 2 [[apart_k]] 0).
Proof.
  assert (HX : meq 2 2 (mmul 2 (adj (kX apart_k)) (kHX apart_k)) (diag2 3 5)).
  { cbn [apart_k kX kHX]. rewrite adj_mid. apply mmul_id_l. }
  split; [|split; [|split; [|split]]].
  - intros i Hi. assert (i = 0 \/ i = 1)%nat as [->| ->] by lia; unfold apart_p, arg; cbn [snd fst Nat.eqb apart_k ke]; rewrite unit_kT; (split; [lra|split]).
    + auto_derive; [trivial|lra].
    + cbn [inside]. replace ((0 - (1 + 0)) / 1) with (- 1) by field. rewrite Rabs_left; lra.
    + auto_derive; [trivial|lra].
    + cbn [inside]. replace ((0 - (-1 - 0)) / 1) with 1 by field. rewrite Rabs_pos_eq; lra.
  - apply (hermitian_ext 2 (diag2 3 5)); [apply meq_sym, HX|]. unfold hermitian, diag2. rewrite adj_mdiag. apply meq_refl.
  - intros i Hi. rewrite (HX i i Hi Hi). unfold diag2, mdiag. rewrite Nat.eqb_refl. reflexivity.
  - exists (mkposreal 1 Rlt_0_1). intros t Ht.
    assert (Ha : Rabs t < 1). { change (Rabs (t + - 0) < 1) in Ht. rewrite Ropp_0, Rplus_0_r in Ht. exact Ht. }
    apply Rabs_def2 in Ha.
    assert (E : forall u, -1 < u < 1 -> electrons FERMI_DIRAC unit_T 2 (fun _ => 0) [[apart_p]] u = 2).
    { intros u Hu. unfold electrons, total, arg, apart_p. cbn [map fold_right fst snd apart_k km kw rsumn Nat.eqb]. rewrite unit_kT.
      replace ((0 - (1 + u)) / 1) with (- ((1 + u))) by field. replace ((0 - (-1 - u)) / 1) with (1 + u) by field.
      pose proof (symmetric FERMI_DIRAC (1 + u) 2) as Sy. cbn [num Rarith] in Sy. rewrite Rabs_pos_eq in Sy by lra. specialize (Sy ltac:(lra)). lra. }
    rewrite !E by lra. reflexivity.
  - unfold dmu_deta, total. cbn [map fold_right apart_k km kw ke rsumn Nat.eqb]. rewrite unit_kT.
    replace ((1 - 0) / 1) with 1 by field. replace ((-1 - 0) / 1) with (- (1)) by field.
    rewrite (even FERMI_DIRAC 1 2) by discriminate.
    assert (D : 1 / 8 <= sdelta (smearing_class FERMI_DIRAC) 1 2).
    { cbn [smearing_class sdelta fermi_dirac]. unfold fd_delta. rewrite Rabs_pos_eq by lra.
      replace (Rltb 35 1) with false by (symmetry; apply Rltb_false; lra). cbv zeta.
      pose proof exp_le_3 as E3.
      assert (E1 : exp (1 / 2) <= 2). { assert (exp (1 / 2) * exp (1 / 2) = exp 1) by (rewrite <- exp_plus; f_equal; lra). pose proof (exp_pos (1 / 2)). nra. }
      assert (E2 : exp (- (1) / 2) <= 1). { pose proof (exp_increasing (- (1) / 2) 0 ltac:(lra)) as L. rewrite exp_0 in L. lra. }
      pose proof (exp_pos (1 / 2)). pose proof (exp_pos (- (1) / 2)).
      set (a := exp (1 / 2)) in *. set (b := exp (- (1) / 2)) in *.
      match goal with |- _ <= 2 / ?d => assert (Hd : 0 < d <= 16) by nra; apply (Rmult_le_reg_r d); [lra|]; unfold Rdiv; rewrite (Rmult_assoc 2), Rinv_l by lra; lra end. }
    cbn [num Rarith] in D. rewrite Rabs_pos_eq by lra. lra.
Qed.

(** ** C38 *)
Theorem C38_restarted_slope_not_positive :
  forall solve s T kappa mo mu, s = FERMI_DIRAC \/ s = GAUSS \/ s = GAUSSIAN_SPLINE -> 0 < T -> 0 <= kappa -> 0 <= mo ->
  forall world : list (list kpt), (forall r k, In r world -> In k r -> kpt_ok solve s T mo mu k) ->
  fst (restarted solve s T kappa mo world mu) <= 0.
Proof. exact restarted_descends. Qed.
Print Assumptions C38_restarted_slope_not_positive.

(** With delta negative somewhere the direction can go uphill. *)
Theorem C38_negative_delta_refuted :
  forall s mo kappa, s = METHFESSEL_PAXTON \/ s = COLD -> 1 <= mo -> 0 < kappa ->
  exists solve T mu k, 0 < T /\ kpt_ok solve s T mo mu k /\ 0 < fst (restarted solve s T kappa mo [[k]] mu).
Proof.
  exact (fun s mo kappa Hs Hm Hk => ex_intro _ solve2 (ex_intro _ unit_T (ex_intro _ 0 (ex_intro _ (uphill s mo)
    (conj unit_T_pos (conj (uphill_ok s mo) (uphill_slope s mo kappa Hs Hm Hk))))))).
Qed.
Print Assumptions C38_negative_delta_refuted.

Example C38_example : kpt_ok solve2 FERMI_DIRAC unit_T 2 0 (uphill FERMI_DIRAC 2).
Proof. exact (uphill_ok FERMI_DIRAC 2). Qed.

(** ** C39 *)
(** [tangent k z]: (S X)^H z = 0. *)
Theorem C39_restarted_directions_tangent :
  forall solve s T kappa mo mu (world : list (list kpt)), (forall r k, In r world -> In k r -> systems_ok solve k) ->
  Forall2 (Forall2 (fun k d => tangent k (fst d))) world (snd (restarted solve s T kappa mo world mu)).
Proof. exact restarted_tangent. Qed.
Print Assumptions C39_restarted_directions_tangent.

Theorem C39_conjugate_directions_tangent :
  forall solve s T kappa mo mu fr_old world, (forall r kz, In r world -> In kz r -> systems_ok solve (fst kz)) ->
  Forall2 (Forall2 (fun kz d => tangent (fst kz) (fst d))) world (snd (conjugated solve s T kappa mo fr_old world mu)).
Proof. exact conjugated_tangent. Qed.
Print Assumptions C39_conjugate_directions_tangent.

Example C39_example : systems_ok solve2 (uphill FERMI_DIRAC 2).
Proof.
  destruct (uphill_ok FERMI_DIRAC 2) as [_ H1 H2 _ H3 _ _ _]. constructor; try assumption.
  cbv zeta. cbn [uphill kn km kS kX]. apply (posdef_ext 2 mid); [|apply posdef_mid]. apply meq_sym.
  apply (meq_trans 2 2 _ _ _ (mid_products 2 2 _)). apply mmul_id_l.
Qed.

(** ** C41 *)
Theorem C41_conjugate_slope :
  forall solve s T kappa mo mu fr_old world,
  let ks := map (map fst) world in
  let gx := grad_x solve in let ge := grad_e s T mo mu (dmu_deta s T mo ks mu) (dFdmu s T mo ks mu) in
  match conjugated solve s T kappa mo fr_old world mu with
  | (fr, slope, z) =>
    slope = total (fun kd : kpt * (mat * mat) => let (k, d) := kd in
              2 * Re (ip (kn k) (km k) (gx k) (fst d)) + Re (ip (km k) (km k) (ge k) (snd d)))
            (map (fun p => combine (map fst (fst p)) (snd p)) (combine world z)) /\
    fr = fst (restarted solve s T kappa mo ks mu)
  end.
Proof. exact conjugated_slope. Qed.
Print Assumptions C41_conjugate_slope.

(** The new direction is delta + (fr / fr_old) Z' with Z'_x = Z_x U - S X l, Z'_eta = U^H Z_eta U. *)
Theorem C41_conjugate_direction :
  forall solve s T kappa mo mu fr_old world,
  match conjugated solve s T kappa mo fr_old world mu with
  | (fr, _, z) =>
    Forall2 (Forall2 (fun (kzd : kpt * (mat * mat * mat) * (mat * mat)) (z : mat * mat) =>
      match kzd with (k, (zxp, zetap, ul), (dx, de)) =>
        (exists ll, forall i j, fst z i j =
           Cplus (dx i j) (Cmult (RtoC (fr / fr_old)) (Cminus (mmul (km k) zxp ul i j) (mmul (km k) (mmul (kn k) (kS k) (kX k)) ll i j)))) /\
        (forall i j, snd z i j = Cplus (de i j) (Cmult (RtoC (fr / fr_old)) (mmul (km k) (adj ul) (mmul (km k) zetap ul) i j)))
      end))
      (map (fun p => combine (fst p) (snd p)) (combine world (snd (restarted solve s T kappa mo (map (map fst) world) mu)))) z
  end.
Proof. exact conjugated_shape. Qed.
Print Assumptions C41_conjugate_direction.

(** No hypotheses; one k-point gives one direction. *)
Example C41_example : length (snd (conjugated solve2 FERMI_DIRAC unit_T 1 2 (-1) [[(uphill FERMI_DIRAC 2, (mzero, mid, mid))]] 0)) = 1%nat.
Proof. reflexivity. Qed.

(** ** C43 *)
Theorem C43_off_diagonal_gradient :
  forall s T mo k hij mu dmu dF i j, i <> j ->
  (Rabs (ke k j - ke k i) < 1 / 10 ^ 10 -> g_eta s T mo k hij mu dmu dF i j = RtoC 0) /\
  (1 / 10 ^ 10 <= Rabs (ke k j - ke k i) ->
   g_eta s T mo k hij mu dmu dF i j = Cmult (RtoC ((kf k j - kf k i) / (ke k j - ke k i))) (hij i j)).
Proof. exact (fun s T mo k hij mu dmu dF i j H => conj (degenerate_zero s T mo k hij mu dmu dF i j H) (apart_value s T mo k hij mu dmu dF i j H)). Qed.
Print Assumptions C43_off_diagonal_gradient.

Theorem C43_limit_not_zero :
  forall s mu e kT mo, s = FERMI_DIRAC \/ s = GAUSS \/ s = GAUSSIAN_SPLINE -> 0 < mo -> 0 < kT -> inside s ((mu - e) / kT) ->
  let f := fun y => sfn (smearing_class s) ((mu - y) / kT) mo in
  exists l, l < 0 /\ filterlim (fun y => (f y - f e) / (y - e)) (locally' e) (locally l).
Proof. exact quotient_limit. Qed.
Print Assumptions C43_limit_not_zero.

Theorem C43_gradient_continuous_refuted :
  forall s mo mu dmu dF, s = FERMI_DIRAC \/ s = GAUSS \/ s = GAUSSIAN_SPLINE -> 0 < mo ->
  exists (k : R -> kpt) (hij : mat),
    (forall y, km (k y) = 2%nat /\ ke (k y) 0%nat = 0 /\ ke (k y) 1%nat = y /\
       forall i, (i < 2)%nat -> kf (k y) i = sfn (smearing_class s) ((0 - ke (k y) i) / (kb Rarith * unit_T)) mo) /\
    ~ continuous (fun y => Re (g_eta s unit_T mo (k y) hij mu dmu dF 0%nat 1%nat)) (1 / 10 ^ 10).
Proof. exact jump_exists. Qed.
Print Assumptions C43_gradient_continuous_refuted.

Example C43_example : inside FERMI_DIRAC ((0 - 1) / 2) /\ Rabs (ke (two_bands FERMI_DIRAC 2 0) 1%nat - ke (two_bands FERMI_DIRAC 2 0) 0%nat) < 1 / 10 ^ 10.
Proof. cbn [inside two_bands ke Nat.eqb]. split; [rewrite Rabs_left; lra|]. rewrite Rminus_0_r, Rabs_R0. lra. Qed.
