(** Properties C70-C72: the slopes reported by the descent directions and the free energy along the trial curve.
    Exact real / complex arithmetic; matrices of every size, any number of ranks and k-points; the Hamiltonian is kept fixed
    along the curve.  [curve_energy] is the band energy minus the entropy term at the trial points geodesic_us returns;
    [count_at] is the electron count there; [dropped] is the part of the derivative that belongs to pairs of levels closer
    than 10^-10. *)
From Coq Require Import Reals Lra Psatz Arith Lia List Bool.
From Coquelicot Require Import Coquelicot.
From Verif Require Import Arith Erf LinAlg Containers Newton Occupation Smearing SmearingProofs SmearingUse SmearingFacts Descent DescentProofs DescentFacts GradEtaFacts Geodesic GeodesicProofs MatFun Curve CurveProofs CurveMain CurveMu Cholesky Spectral Stationary CurveExample.
Import ListNotations.
Local Open Scope R_scope.

(** ** C70 *)
(** Directional derivative: the gradient of the library plus the part of the dropped pairs. *)
Theorem C70_directional_derivative :
  forall eigh solve s T mo (mu : R -> R) (world : list (list moving)),
  eigh_ok eigh -> 0 < T -> s <> COLD -> s <> GAUSSIAN_SPLINE \/ mo = 1 -> continuous mu 0 ->
  (forall r p, In r world -> In p r -> moving_ok eigh s T mo (mu 0) p) ->
  locally 0 (fun t => count_at eigh s T mo world (mu t) t = count_at eigh s T mo world (mu 0) 0) ->
  let ks := map (map mk) world in
  let dmu := dmu_deta s T mo ks (mu 0) in
  let dF := dFdmu s T mo ks (mu 0) in
  1 / 10 ^ 12 <= Rabs dmu ->
  is_derive (curve_energy eigh s T mo world mu) 0
    (total (fun p => 2 * Re (ip (kn (mk p)) (km (mk p)) (grad_x solve (mk p)) (mzx p)) +
                     Re (ip (km (mk p)) (km (mk p)) (grad_e s T mo (mu 0) dmu dF (mk p)) (mze p)) +
                     dropped s T mo (mu 0) p) world).
Proof. exact (fun eigh solve s T mo mu world He HT Hs Hm Hc Hw Hn Hd => curve_derivative_exact eigh solve s T mo mu world He HT Hs Hm Hc Hw Hn Hd). Qed.
Print Assumptions C70_directional_derivative.

Theorem C70_separated_levels :
  forall eigh solve s T mo (mu : R -> R) (world : list (list moving)),
  eigh_ok eigh -> 0 < T -> s <> COLD -> s <> GAUSSIAN_SPLINE \/ mo = 1 -> continuous mu 0 ->
  (forall r p, In r world -> In p r -> moving_ok eigh s T mo (mu 0) p) ->
  locally 0 (fun t => count_at eigh s T mo world (mu t) t = count_at eigh s T mo world (mu 0) 0) ->
  let ks := map (map mk) world in
  let dmu := dmu_deta s T mo ks (mu 0) in
  let dF := dFdmu s T mo ks (mu 0) in
  1 / 10 ^ 12 <= Rabs dmu ->
  (forall r p, In r world -> In p r -> gapped p) ->
  is_derive (curve_energy eigh s T mo world mu) 0
    (total (fun p => 2 * Re (ip (kn (mk p)) (km (mk p)) (grad_x solve (mk p)) (mzx p)) +
                     Re (ip (km (mk p)) (km (mk p)) (grad_e s T mo (mu 0) dmu dF (mk p)) (mze p))) world).
Proof. exact (fun eigh solve s T mo mu world He HT Hs Hm Hc Hw Hn Hd Hg => curve_derivative eigh solve s T mo mu world He HT Hs Hm Hc Hw Hn Hd Hg). Qed.
Print Assumptions C70_separated_levels.

(** The chemical potential that keeps the electron count exists. *)
Theorem C70_chemical_potential_exists :
  forall eigh s T mo mu0 (world : list (list moving)),
  eigh_ok eigh -> 0 < T -> s <> COLD ->
  (forall r p, In r world -> In p r -> moving_ok eigh s T mo mu0 p) ->
  dmu_deta s T mo (map (map mk) world) mu0 <> 0 ->
  exists mu : R -> R, mu 0 = mu0 /\ continuous mu 0 /\
    locally 0 (fun t => count_at eigh s T mo world (mu t) t = count_at eigh s T mo world mu0 0).
Proof. exact mu_exists. Qed.
Print Assumptions C70_chemical_potential_exists.

(** An eigensolver that meets the contract and never fails exists. *)
Theorem C70_eigensolver_exists : exists eigh, eigh_ok eigh /\ forall m M, eigh m M <> None.
Proof. exact (ex_intro _ eigh_full (conj eigh_full_ok eigh_full_total)). Qed.
Print Assumptions C70_eigensolver_exists.

Example C70_example :
  eigh_ok eigh_full /\ moving_ok eigh_full FERMI_DIRAC unit_T 2 0 (MkMoving three couple3 dir3 flip) /\
  gapped (MkMoving three couple3 dir3 flip) /\
  1 / 10 ^ 12 <= Rabs (dmu_deta FERMI_DIRAC unit_T 2 [[three]] 0) /\
  exists mu : R -> R, mu 0 = 0 /\ continuous mu 0 /\
    locally 0 (fun t => count_at eigh_full FERMI_DIRAC unit_T 2 [[MkMoving three couple3 dir3 flip]] (mu t) t =
                        count_at eigh_full FERMI_DIRAC unit_T 2 [[MkMoving three couple3 dir3 flip]] 0 0).
Proof.
  split; [exact eigh_full_ok|split; [exact three_direction|split; [apply three_gapped|split; [exact three_dmu|]]]].
  apply mu_exists; [exact eigh_full_ok|exact unit_T_pos|discriminate| |].
  - intros r p [<-|[]] [<-|[]]. exact three_direction.
  - change (map (map mk) [[MkMoving three couple3 dir3 flip]]) with [[three]]. intros X. pose proof three_dmu as D. rewrite X, Rabs_R0 in D.
    assert (0 < 1 / 10 ^ 12) by (apply Rdiv_lt_0_compat; [lra|apply pow_lt; lra]). lra.
Qed.

(** Slope of the restarted direction. *)
Theorem C70_restarted_slope :
  forall eigh solve s T kappa mo (mu : R -> R), eigh_ok eigh -> 0 < T -> s <> COLD -> s <> GAUSSIAN_SPLINE \/ mo = 1 -> continuous mu 0 ->
  forall world : list (list (kpt * mat)),
  (forall r kH, In r world -> In kH r -> point_ok s T mo (mu 0) (fst kH) (snd kH) /\ systems_ok solve (fst kH)) ->
  let ks := map (map fst) world in
  1 / 10 ^ 12 <= Rabs (dmu_deta s T mo ks (mu 0)) ->
  let (slope, dirs) := restarted solve s T kappa mo ks (mu 0) in
  let W := with_dirs world dirs in
  (forall r p, In r W -> In p r -> locally 0 (fun t => trial eigh p t <> None)) ->
  locally 0 (fun t => count_at eigh s T mo W (mu t) t = count_at eigh s T mo W (mu 0) 0) ->
  is_derive (curve_energy eigh s T mo W mu) 0 (slope + total (dropped s T mo (mu 0)) W).
Proof. exact restart_slope_exact. Qed.
Print Assumptions C70_restarted_slope.

(** Slope of the conjugate direction. *)
Theorem C70_conjugate_slope :
  forall eigh solve s T kappa mo (mu : R -> R), eigh_ok eigh -> 0 < T -> s <> COLD -> s <> GAUSSIAN_SPLINE \/ mo = 1 -> continuous mu 0 ->
  forall fr_old (world : list (list ((kpt * (mat * mat * mat)) * mat))),
  (forall r y, In r world -> In y r ->
     point_ok s T mo (mu 0) (fst (fst y)) (snd y) /\ systems_ok solve (fst (fst y)) /\
     (let '(_, zetap, _) := snd (fst y) in hermitian (km (fst (fst y))) zetap)) ->
  let kz := map (map fst) world in
  let ks := map (map fst) kz in
  1 / 10 ^ 12 <= Rabs (dmu_deta s T mo ks (mu 0)) ->
  let '(_, slope, dirs) := conjugated solve s T kappa mo fr_old kz (mu 0) in
  let W := with_dirs (map (map (fun y => (fst (fst y), snd y))) world) dirs in
  (forall r p, In r W -> In p r -> locally 0 (fun t => trial eigh p t <> None)) ->
  locally 0 (fun t => count_at eigh s T mo W (mu t) t = count_at eigh s T mo W (mu 0) 0) ->
  is_derive (curve_energy eigh s T mo W mu) 0 (slope + total (dropped s T mo (mu 0)) W).
Proof. exact conjugate_slope_exact. Qed.
Print Assumptions C70_conjugate_slope.

(** Without close levels there is no dropped part. *)
Theorem C70_no_dropped_part :
  forall s T mo mu p, hermitian (km (mk p)) (mze p) -> gapped p -> dropped s T mo mu p = 0.
Proof. exact gapped_dropped. Qed.
Print Assumptions C70_no_dropped_part.

Example C70_slope_example :
  (forall r kH, In r [[(three, couple3)]] -> In kH r -> point_ok FERMI_DIRAC unit_T 2 0 (fst kH) (snd kH) /\ systems_ok chol_solver (fst kH)) /\
  hermitian 2 flip.
Proof. split; [|exact flip_hermitian]. intros r kH [<-|[]] [<-|[]]. destruct three_ok as [P [Q _]]. split; assumption. Qed.

(** ** C71 *)
Theorem C71_steepest_descent_lowers :
  forall eigh solve s T kappa mo mu0 (world : list (list (kpt * mat))),
  eigh_ok eigh -> (forall m M, eigh m M <> None) -> s = FERMI_DIRAC \/ s = GAUSS \/ s = GAUSSIAN_SPLINE -> s <> GAUSSIAN_SPLINE \/ mo = 1 ->
  0 < T -> 0 < kappa -> 0 < mo ->
  (forall r kH, In r world -> In kH r -> point_ok s T mo mu0 (fst kH) (snd kH) /\ systems_ok solve (fst kH) /\ 0 < kw (fst kH) /\ posdef (kn (fst kH)) (kP (fst kH))) ->
  let ks := map (map fst) world in
  1 / 10 ^ 12 <= Rabs (dmu_deta s T mo ks mu0) ->
  ~ (exists c, forall r k, In r ks -> In k r -> stationary_k c k) ->
  let (slope, dirs) := restarted solve s T kappa mo ks mu0 in
  let W := with_dirs world dirs in
  slope < 0 /\
  exists (mu : R -> R) (t0 : R), 0 < t0 /\ mu 0 = mu0 /\
    forall t, 0 < t < t0 -> count_at eigh s T mo W (mu t) t = count_at eigh s T mo W mu0 0 /\
                            curve_energy eigh s T mo W mu t < curve_energy eigh s T mo W mu 0.
Proof. exact steepest_lowers. Qed.
Print Assumptions C71_steepest_descent_lowers.

Example C71_example :
  (forall r kH, In r [[(three, couple3)]] -> In kH r ->
     point_ok FERMI_DIRAC unit_T 2 0 (fst kH) (snd kH) /\ systems_ok chol_solver (fst kH) /\ 0 < kw (fst kH) /\ posdef (kn (fst kH)) (kP (fst kH))) /\
  1 / 10 ^ 12 <= Rabs (dmu_deta FERMI_DIRAC unit_T 2 [[three]] 0) /\
  ~ exists c, forall r k, In r [[three]] -> In k r -> stationary_k c k.
Proof. split; [intros r kH [<-|[]] [<-|[]]; exact three_ok|split; [exact three_dmu|exact three_moves]]. Qed.

Theorem C71_conjugate_direction_lowers :
  forall eigh solve s T kappa mo mu0 fr_old (world : list (list ((kpt * (mat * mat * mat)) * mat))),
  eigh_ok eigh -> (forall m M, eigh m M <> None) -> s <> COLD -> s <> GAUSSIAN_SPLINE \/ mo = 1 -> 0 < T ->
  (forall r y, In r world -> In y r ->
     point_ok s T mo mu0 (fst (fst y)) (snd y) /\ systems_ok solve (fst (fst y)) /\
     (let '(_, zetap, _) := snd (fst y) in hermitian (km (fst (fst y))) zetap)) ->
  let kz := map (map fst) world in
  let ks := map (map fst) kz in
  1 / 10 ^ 12 <= Rabs (dmu_deta s T mo ks mu0) ->
  let '(_, slope, dirs) := conjugated solve s T kappa mo fr_old kz mu0 in
  let W := with_dirs (map (map (fun y => (fst (fst y), snd y))) world) dirs in
  slope + total (dropped s T mo mu0) W < 0 ->
  exists (mu : R -> R) (t0 : R), 0 < t0 /\ mu 0 = mu0 /\
    forall t, 0 < t < t0 -> count_at eigh s T mo W (mu t) t = count_at eigh s T mo W mu0 0 /\
                            curve_energy eigh s T mo W mu t < curve_energy eigh s T mo W mu 0.
Proof. exact conjugate_lowers. Qed.
Print Assumptions C71_conjugate_direction_lowers.

(** The conjugate direction of [three] after the previous direction (dir3, flip), for every kappa. *)
Example C71_conjugate_example :
  (forall r y, In r three_conj -> In y r ->
     point_ok FERMI_DIRAC unit_T 2 0 (fst (fst y)) (snd y) /\ systems_ok chol_solver (fst (fst y)) /\
     (let '(_, zetap, _) := snd (fst y) in hermitian (km (fst (fst y))) zetap)) /\
  exists fr_old,
    let '(_, slope, dirs) := conjugated chol_solver FERMI_DIRAC unit_T 1 2 fr_old (map (map fst) three_conj) 0 in
    slope + total (dropped FERMI_DIRAC unit_T 2 0) (with_dirs (map (map (fun y => (fst (fst y), snd y))) three_conj) dirs) < 0.
Proof.
  split; [|exact (three_conj_slope 1 Rlt_0_1)].
  intros r y [<-|[]] [<-|[]]. destruct three_ok as [P [Q _]]. cbn [fst snd]. split; [exact P|split; [exact Q|exact flip_hermitian]].
Qed.

(** ** C72 *)
Theorem C72_zero_slope_means_stationary :
  forall solve s T kappa mo mu, s = FERMI_DIRAC \/ s = GAUSS \/ s = GAUSSIAN_SPLINE -> 0 < T -> 0 < kappa -> 0 < mo ->
  forall world : list (list kpt), (forall r k, In r world -> In k r -> kpt_ok solve s T mo mu k) ->
  (forall r k, In r world -> In k r -> posdef (kn k) (kP k)) ->
  (forall r k i, In r world -> In k r -> (i < km k)%nat -> inside s ((mu - ke k i) / (kb Rarith * T))) ->
  1 / 10 ^ 12 <= Rabs (dmu_deta s T mo world mu) ->
  fst (restarted solve s T kappa mo world mu) = 0 <->
  exists c, forall r k, In r world -> In k r ->
    (exists L, meq (kn k) (km k) (kHX k) (mmul (km k) (mmul (kn k) (kS k) (kX k)) L)) /\
    (forall i, (i < km k)%nat -> kh k i - ke k i = c) /\
    (forall i j, (i < km k)%nat -> (j < km k)%nat -> i <> j -> 1 / 10 ^ 10 <= Rabs (ke k j - ke k i) ->
       mmul (kn k) (adj (kX k)) (kHX k) i j = RtoC 0).
Proof. exact zero_slope. Qed.
Print Assumptions C72_zero_slope_means_stationary.

(** At such a point no direction has a first order effect, except through the dropped pairs. *)
Theorem C72_stationary_points_are_flat :
  forall eigh, (nat -> mat -> mat -> mat) -> forall s T mo (mu : R -> R) (world : list (list moving)),
  eigh_ok eigh -> 0 < T -> s <> COLD -> s <> GAUSSIAN_SPLINE \/ mo = 1 -> continuous mu 0 ->
  (forall r p, In r world -> In p r -> moving_ok eigh s T mo (mu 0) p) ->
  locally 0 (fun t => count_at eigh s T mo world (mu t) t = count_at eigh s T mo world (mu 0) 0) ->
  1 / 10 ^ 12 <= Rabs (dmu_deta s T mo (map (map mk) world) (mu 0)) ->
  forall c, (forall r p, In r world -> In p r -> stationary_k c (mk p)) ->
  is_derive (curve_energy eigh s T mo world mu) 0 (total (dropped s T mo (mu 0)) world).
Proof. exact stationary_flat. Qed.
Print Assumptions C72_stationary_points_are_flat.

Example C72_example : stationary_k 0 pair /\ kpt_ok chol_solver FERMI_DIRAC unit_T 2 0 pair /\ posdef (kn pair) (kP pair) /\
  1 / 10 ^ 12 <= Rabs (dmu_deta FERMI_DIRAC unit_T 2 [[pair]] 0).
Proof.
  destruct pair_ok as [P [Q [Pw Pp]]]. split; [exact pair_stationary|split; [apply (point_kpt_ok _ _ _ _ _ _ flip); assumption|split; [exact Pp|]]].
  apply dmu_plain. intros i _. rewrite Rabs_R0. lra.
Qed.

(** A zero slope is not a stationary point of the free energy: two bands at the same energy that the Hamiltonian couples.
    The slope is zero (the run stops as converged), yet the free energy goes down along the very direction returned. *)
Theorem C72_degenerate_levels_refuted :
  forall kappa eigh, 0 < kappa -> eigh_ok eigh -> (forall m M, eigh m M <> None) ->
  exists k H, point_ok FERMI_DIRAC unit_T 2 0 k H /\ systems_ok chol_solver k /\
  let (slope, dirs) := restarted chol_solver FERMI_DIRAC unit_T kappa 2 [[k]] 0 in
  let W := with_dirs [[(k, H)]] dirs in
  slope = 0 /\
  exists (mu : R -> R) (t0 : R), 0 < t0 /\ mu 0 = 0 /\
    forall t, 0 < t < t0 -> count_at eigh FERMI_DIRAC unit_T 2 W (mu t) t = count_at eigh FERMI_DIRAC unit_T 2 W 0 0 /\
      curve_energy eigh FERMI_DIRAC unit_T 2 W mu t < curve_energy eigh FERMI_DIRAC unit_T 2 W mu 0.
Proof. exact (fun kappa eigh Hk He Ht => ex_intro _ pair (ex_intro _ flip (degenerate_stop kappa eigh Hk He Ht))). Qed.
Print Assumptions C72_degenerate_levels_refuted.
