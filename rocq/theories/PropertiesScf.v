(** Property C89: slopes of the descent directions when the Hamiltonian follows the density.
    Exact real / complex arithmetic; matrices of every size, any number of ranks and k-points.  [E] is the caller's total energy
    as a function of the density matrices of all k-points, [hamiltonian_of E] says that the Hamiltonians are its derivative at
    the current densities; nothing is assumed about [E] elsewhere.  [scf_energy] is the energy of the densities at the trial
    points geodesic_us returns, minus the entropy term. *)
From Coq Require Import Reals Lra Psatz Arith Lia List Bool.
From Coquelicot Require Import Coquelicot.
From Verif Require Import Arith Erf LinAlg Containers Newton Occupation Smearing SmearingProofs SmearingUse SmearingFacts Descent DescentProofs DescentFacts GradEtaFacts Geodesic GeodesicProofs MatFun Curve CurveProofs CurveMain CurveMu Cholesky Spectral Stationary CurveExample SelfConsistent.
Import ListNotations.
Local Open Scope R_scope.

(** ** C89 *)
Theorem C89_directional_derivative :
  forall eigh solve s T mo, eigh_ok eigh -> 0 < T -> s <> COLD -> s <> GAUSSIAN_SPLINE \/ mo = 1 ->
  forall (E : list (list mat) -> R) (mu : R -> R) (world : list (list moving)), continuous mu 0 ->
  (forall r p, In r world -> In p r -> moving_ok eigh s T mo (mu 0) p) ->
  locally 0 (fun t => count_at eigh s T mo world (mu t) t = count_at eigh s T mo world (mu 0) 0) ->
  hamiltonian_of E (map (map (fun p => (mk p, mH p))) world) ->
  let ks := map (map mk) world in
  let dmu := dmu_deta s T mo ks (mu 0) in
  let dF := dFdmu s T mo ks (mu 0) in
  1 / 10 ^ 12 <= Rabs dmu ->
  is_derive (scf_energy eigh s T mo E world mu) 0
    (total (fun p => 2 * Re (ip (kn (mk p)) (km (mk p)) (grad_x solve (mk p)) (mzx p)) +
                     Re (ip (km (mk p)) (km (mk p)) (grad_e s T mo (mu 0) dmu dF (mk p)) (mze p)) +
                     dropped s T mo (mu 0) p) world).
Proof. exact (fun eigh solve s T mo He HT Hs Hm E => scf_gradient eigh solve s T mo He HT Hs Hm E). Qed.
Print Assumptions C89_directional_derivative.

(** The energy at the start of the curve is that of the current densities. *)
Theorem C89_energy_at_start :
  forall eigh s T mo E mu (W : list (list moving)), eigh_ok eigh -> 0 < T ->
  (forall r p, In r W -> In p r -> moving_ok eigh s T mo (mu 0) p) -> hamiltonian_of E (map (map (fun p => (mk p, mH p))) W) ->
  E (map (map (density_at eigh s T mo (mu 0) 0)) W) = E (map (map (fun p => density_of (mk p))) W).
Proof. exact scf_start. Qed.
Print Assumptions C89_energy_at_start.

Theorem C89_steepest_descent_lowers :
  forall eigh solve s T kappa mo, eigh_ok eigh -> 0 < T -> s <> COLD -> s <> GAUSSIAN_SPLINE \/ mo = 1 ->
  forall (E : list (list mat) -> R) mu0 (world : list (list (kpt * mat))), (forall m M, eigh m M <> None) ->
  s = FERMI_DIRAC \/ s = GAUSS \/ s = GAUSSIAN_SPLINE -> 0 < kappa -> 0 < mo ->
  (forall r kH, In r world -> In kH r -> point_ok s T mo mu0 (fst kH) (snd kH) /\ systems_ok solve (fst kH) /\ 0 < kw (fst kH) /\ posdef (kn (fst kH)) (kP (fst kH))) ->
  hamiltonian_of E world ->
  let ks := map (map fst) world in
  1 / 10 ^ 12 <= Rabs (dmu_deta s T mo ks mu0) ->
  ~ (exists c, forall r k, In r ks -> In k r -> stationary_k c k) ->
  let (slope, dirs) := restarted solve s T kappa mo ks mu0 in
  let W := with_dirs world dirs in
  slope < 0 /\
  exists (mu : R -> R) (t0 : R), 0 < t0 /\ mu 0 = mu0 /\
    is_derive (scf_energy eigh s T mo E W mu) 0 (slope + total (dropped s T mo mu0) W) /\ total (dropped s T mo mu0) W <= 0 /\
    forall t, 0 < t < t0 -> count_at eigh s T mo W (mu t) t = count_at eigh s T mo W mu0 0 /\
                            scf_energy eigh s T mo E W mu t < scf_energy eigh s T mo E W mu 0.
Proof. exact scf_steepest. Qed.
Print Assumptions C89_steepest_descent_lowers.

Theorem C89_conjugate_direction :
  forall eigh solve s T kappa mo, eigh_ok eigh -> 0 < T -> s <> COLD -> s <> GAUSSIAN_SPLINE \/ mo = 1 ->
  forall (E : list (list mat) -> R) mu0 fr_old (world : list (list ((kpt * (mat * mat * mat)) * mat))), (forall m M, eigh m M <> None) ->
  (forall r y, In r world -> In y r ->
     point_ok s T mo mu0 (fst (fst y)) (snd y) /\ systems_ok solve (fst (fst y)) /\
     (let '(_, zetap, _) := snd (fst y) in hermitian (km (fst (fst y))) zetap)) ->
  hamiltonian_of E (map (map (fun y => (fst (fst y), snd y))) world) ->
  let kz := map (map fst) world in
  let ks := map (map fst) kz in
  1 / 10 ^ 12 <= Rabs (dmu_deta s T mo ks mu0) ->
  let '(_, slope, dirs) := conjugated solve s T kappa mo fr_old kz mu0 in
  let W := with_dirs (map (map (fun y => (fst (fst y), snd y))) world) dirs in
  exists mu : R -> R, mu 0 = mu0 /\
    locally 0 (fun t => count_at eigh s T mo W (mu t) t = count_at eigh s T mo W mu0 0) /\
    is_derive (scf_energy eigh s T mo E W mu) 0 (slope + total (dropped s T mo mu0) W) /\
    (slope + total (dropped s T mo mu0) W < 0 -> exists t0, 0 < t0 /\
       forall t, 0 < t < t0 -> scf_energy eigh s T mo E W mu t < scf_energy eigh s T mo E W mu 0).
Proof. exact scf_conjugate. Qed.
Print Assumptions C89_conjugate_direction.

(** A mean-field energy, quadratic in the densities of all k-points, with its Hamiltonian. *)
Theorem C89_mean_field : forall sys, hamiltonian_of (mean_field sys) (mean_hamiltonian sys).
Proof. exact mean_field_hamiltonian. Qed.
Print Assumptions C89_mean_field.

(** *** Example: the occupation of the first basis function shifts its level *)
Definition first_site : mat := fun i j => if andb (Nat.eqb i 0) (Nat.eqb j 0) then RtoC 1 else RtoC 0.
Definition bare : mat := fun i j => Cminus (couple3 i j) (Cmult (RtoC (kf three 0)) (first_site i j)).
Definition sys3 : list (list (kpt * (mat * mat))) := [[(three, (bare, first_site))]].
Lemma sys3_field : field sys3 = kf three 0.
Proof.
  unfold field, sys3, total. cbn [map fold_right fst snd]. unfold tr_of, first_site, density_of. cbn [three plain kw kn km kX kf csum Nat.eqb andb].
  unfold mid. cbn [Nat.eqb]. set (f := sfn _ _ _). set (g := sfn _ _ _). cbn. ring.
Qed.
Lemma sys3_occupied : 0 < kf three 0.
Proof.
  change (0 < fd_fn ((0 - levels 0) / (kb Rarith * unit_T)) 2). rewrite unit_kT. unfold levels. cbn [Nat.eqb]. replace ((0 - 1) / 1) with (-1) by field.
  unfold fd_fn. rewrite (proj2 (Rltb_false (-1) (-35))) by lra. rewrite (proj2 (Rltb_false 40 (-1))) by lra. pose proof (exp_pos (-1)) as P.
  replace (2 - 2 / (1 + exp (-1))) with (2 * exp (-1) / (1 + exp (-1))) by (field; lra). apply Rdiv_lt_0_compat; lra.
Qed.
Lemma sys3_point : point_ok FERMI_DIRAC unit_T 2 0 three (madd bare (mscal (RtoC (field sys3)) first_site)).
Proof.
  assert (M : meq 3 3 (madd bare (mscal (RtoC (field sys3)) first_site)) couple3).
  { intros i j _ _. rewrite sys3_field. unfold madd, mscal, bare. ring. }
  destruct three_ok as [P _]. destruct P as [P1 P2 P3 P4 P5 P6 P7]. constructor; try assumption.
  - intros i j Hi Hj. unfold adj. rewrite (M j i Hj Hi), (M i j Hi Hj). exact (P1 i j Hi Hj).
  - intros i j Hi Hj. rewrite (P4 i j Hi Hj). unfold mmul. apply csum_ext. intros l Hl. rewrite (M i l Hi Hl). reflexivity.
Qed.
Example C89_example :
  (forall r kH, In r (mean_hamiltonian sys3) -> In kH r ->
     point_ok FERMI_DIRAC unit_T 2 0 (fst kH) (snd kH) /\ systems_ok chol_solver (fst kH) /\ 0 < kw (fst kH) /\ posdef (kn (fst kH)) (kP (fst kH))) /\
  0 < field sys3 /\ hamiltonian_of (mean_field sys3) (mean_hamiltonian sys3) /\
  1 / 10 ^ 12 <= Rabs (dmu_deta FERMI_DIRAC unit_T 2 (map (map fst) (mean_hamiltonian sys3)) 0) /\
  ~ (exists c, forall r k, In r (map (map fst) (mean_hamiltonian sys3)) -> In k r -> stationary_k c k).
Proof.
  split; [|split; [|split; [apply mean_field_hamiltonian|split; [exact three_dmu|exact three_moves]]]].
  - intros r kH [<-|[]] [<-|[]]. cbn [fst snd]. split; [exact sys3_point|exact (proj2 three_ok)].
  - rewrite sys3_field. exact sys3_occupied.
Qed.
Example C89_conjugate_example :
  (forall r y, In r [[((three, (dir3, flip, flip)), madd bare (mscal (RtoC (field sys3)) first_site))]] -> In y r ->
     point_ok FERMI_DIRAC unit_T 2 0 (fst (fst y)) (snd y) /\ systems_ok chol_solver (fst (fst y)) /\
     (let '(_, zetap, _) := snd (fst y) in hermitian (km (fst (fst y))) zetap)) /\
  hamiltonian_of (mean_field sys3) [[(three, madd bare (mscal (RtoC (field sys3)) first_site))]].
Proof.
  split; [|apply (mean_field_hamiltonian sys3)].
  intros r y [<-|[]] [<-|[]]. cbn [fst snd]. split; [exact sys3_point|split; [exact (proj1 (proj2 three_ok))|exact flip_hermitian]].
Qed.
