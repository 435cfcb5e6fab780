(** Concrete k-points for the properties of the trial curve; a degenerate k-point where the library stops too early. *)
From Coq Require Import Reals Lra Psatz Arith Lia List Bool.
From Coquelicot Require Import Coquelicot.
From Verif Require Import Arith Erf LinAlg Containers Newton Occupation Smearing SmearingProofs SmearingUse SmearingFacts Descent DescentProofs DescentFacts GradEtaFacts Geodesic GeodesicProofs MatFun Curve CurveProofs CurveMain CurveMu Cholesky Spectral Stationary.
Import ListNotations.
Local Open Scope R_scope.

(** the k-point with Hamiltonian H at chemical potential mu, Fermi-Dirac, kT = 1, two electrons per band, weight 1, S = P = 1 *)
Definition plain (n m : nat) (X H : mat) (e : nat -> R) : kpt :=
  MkKpt n m 1 mid mid X (mmul n H X) e (fun i => sfn (smearing_class FERMI_DIRAC) ((0 - e i) / (kb Rarith * unit_T)) 2)
    (fun i => Re (mmul n (adj X) (mmul n H X) i i)).

Lemma hermitian_mid n : hermitian n mid.
Proof. unfold hermitian. rewrite adj_mid. apply meq_refl. Qed.
Lemma plain_ok n m X H e : hermitian n H -> meq m m (mmul n (adj X) X) mid -> (forall i, (i < m)%nat -> Rabs (e i) < 35) ->
  point_ok FERMI_DIRAC unit_T 2 0 (plain n m X H e) H /\ systems_ok chol_solver (plain n m X H e) /\ 0 < kw (plain n m X H e) /\
  posdef (kn (plain n m X H e)) (kP (plain n m X H e)).
Proof.
  intros HH HX He.
  assert (Ho : orthonormal n m mid X). { unfold orthonormal. apply (meq_trans m m _ (mmul n (adj X) X)); [|exact HX]. apply mmul_ext_r, mmul_id_l. }
  split; [|split; [|split]].
  - constructor; cbn [plain kn km kS kX kHX kh kf ke].
    + exact HH.
    + apply hermitian_mid.
    + exact Ho.
    + apply meq_refl.
    + intros; reflexivity.
    + intros; reflexivity.
    + intros i Hi. cbn [inside]. rewrite unit_kT. replace ((0 - e i) / 1) with (- e i) by field. rewrite Rabs_Ropp. specialize (He i Hi). lra.
  - constructor; cbn [plain kn km kS kP kX].
    + apply chol_solver_ok.
    + apply hermitian_mid.
    + apply sx_posdef; [exact Ho|apply posdef_mid].
    + apply sx_full, Ho.
  - cbn. lra.
  - cbn [plain kn kP]. apply posdef_mid.
Qed.

Lemma fd_delta_low x : Rabs x <= 1 -> 1 / 8 <= sdelta (smearing_class FERMI_DIRAC) x 2.
Proof.
  intros Hx. apply Rabs_le_between in Hx. cbn [smearing_class sdelta fermi_dirac]. unfold fd_delta.
  replace (Rltb 35 (Rabs x)) with false by (symmetry; apply Rltb_false; apply Rabs_le; lra). cbv zeta.
  pose proof exp_le_3 as E3.
  assert (E0 : exp (1 / 2) <= 2). { assert (exp (1 / 2) * exp (1 / 2) = exp 1) by (rewrite <- exp_plus; f_equal; lra). pose proof (exp_pos (1 / 2)). nra. }
  assert (E : forall y, y <= 1 / 2 -> exp y <= 2). { intros y Hy. destruct Hy as [Hy|Hy]; [left; eapply Rlt_le_trans; [apply exp_increasing, Hy|exact E0]|rewrite Hy; exact E0]. }
  pose proof (E (x / 2) ltac:(lra)) as E1. pose proof (E (- x / 2) ltac:(lra)) as E2.
  pose proof (exp_pos (x / 2)). pose proof (exp_pos (- x / 2)).
  set (a := exp (x / 2)) in *. set (b := exp (- x / 2)) in *.
  match goal with |- _ <= 2 / ?d => assert (Hd : 0 < d <= 16) by nra; apply (Rmult_le_reg_r d); [lra|]; unfold Rdiv; rewrite (Rmult_assoc 2), Rinv_l by lra; lra end.
Qed.

Lemma dmu_plain n X H e : (forall i, (i < 2)%nat -> Rabs (e i) <= 1) -> 1 / 10 ^ 12 <= Rabs (dmu_deta FERMI_DIRAC unit_T 2 [[plain n 2 X H e]] 0).
Proof.
  intros He. unfold dmu_deta, total. cbn [map fold_right plain km kw ke rsumn]. rewrite unit_kT.
  pose proof (fd_delta_low ((e 0%nat - 0) / 1)) as D0. pose proof (fd_delta_low ((e 1%nat - 0) / 1)) as D1.
  replace ((e 0%nat - 0) / 1) with (e 0%nat) in * by field. replace ((e 1%nat - 0) / 1) with (e 1%nat) in * by field.
  specialize (D0 (He 0%nat ltac:(lia))). specialize (D1 (He 1%nat ltac:(lia))). cbn [num Rarith] in *. rewrite Rabs_pos_eq by lra. lra.
Qed.

(** *** Three basis functions, two bands at 1 and -1; the first band couples to the unoccupied function *)
Definition couple3 : mat := fun i j =>
  match i, j with
  | 0%nat, 0%nat => RtoC 3 | 1%nat, 1%nat => RtoC 5 | 2%nat, 2%nat => RtoC 7
  | 0%nat, 2%nat | 2%nat, 0%nat => RtoC 1
  | _, _ => RtoC 0
  end.
Definition levels (i : nat) : R := if Nat.eqb i 0 then 1 else -1.
Definition three : kpt := plain 3 2 mid couple3 levels.
Lemma couple3_hermitian : hermitian 3 couple3.
Proof. intros i j Hi Hj. unfold adj.
  assert (Di : (i = 0 \/ i = 1 \/ i = 2)%nat) by lia. assert (Dj : (j = 0 \/ j = 1 \/ j = 2)%nat) by lia.
  destruct Di as [->|[->| ->]]; destruct Dj as [->|[->| ->]]; cbn [couple3]; rewrite Cconj_R; reflexivity.
Qed.
Lemma mid_columns n m : (m <= n)%nat -> meq m m (mmul n (adj mid) mid) mid.
Proof.
  intros Hm i j Hi Hj. unfold mmul, adj, mid. rewrite (csum_one n i _ ltac:(lia)); [cbv beta; rewrite Nat.eqb_refl, Cconj_R; ring|].
  intros l _ Hl. destruct (Nat.eqb_spec l i); [congruence|rewrite Cconj_R; ring].
Qed.
Lemma levels_in i : Rabs (levels i) <= 1.
Proof. unfold levels. destruct (Nat.eqb i 0); [rewrite Rabs_pos_eq; lra|rewrite Rabs_left; lra]. Qed.
Lemma three_ok : point_ok FERMI_DIRAC unit_T 2 0 three couple3 /\ systems_ok chol_solver three /\ 0 < kw three /\ posdef (kn three) (kP three).
Proof. apply plain_ok; [exact couple3_hermitian|apply mid_columns; lia|]. intros i _. pose proof (levels_in i). lra. Qed.
Lemma three_moves : ~ exists c, forall r k, In r [[three]] -> In k r -> stationary_k c k.
Proof.
  intros [c H]. destruct (H _ _ (or_introl eq_refl) (or_introl eq_refl)) as [[L E] _].
  specialize (E 2%nat 0%nat ltac:(cbn; lia) ltac:(cbn; lia)). cbn [three plain kn km kHX kS kX] in E.
  rewrite (mmul_id_r 3 3 couple3 2%nat 0%nat ltac:(lia) ltac:(lia)) in E. cbn [couple3] in E.
  assert (Z : mmul 2 (mmul 3 mid mid) L 2%nat 0%nat = RtoC 0).
  { unfold mmul at 1. apply csum_0. intros q Hq. rewrite (mmul_id_l 3 3 mid 2%nat q ltac:(lia) ltac:(lia)). unfold mid. destruct (Nat.eqb_spec 2 q); [lia|ring]. }
  rewrite Z in E. apply RtoC_inj in E. lra.
Qed.

(** *** Two bands at the same energy coupled by the Hamiltonian *)
Definition flip : mat := fun i j => if Nat.eqb i j then RtoC 0 else RtoC 1.
Definition pair : kpt := plain 2 2 mid flip (fun _ => 0).
Lemma flip_hermitian : hermitian 2 flip.
Proof. intros i j Hi Hj. unfold adj, flip. rewrite (Nat.eqb_sym j i). destruct (Nat.eqb i j); rewrite Cconj_R; reflexivity. Qed.
Lemma pair_ok : point_ok FERMI_DIRAC unit_T 2 0 pair flip /\ systems_ok chol_solver pair /\ 0 < kw pair /\ posdef (kn pair) (kP pair).
Proof. apply plain_ok; [exact flip_hermitian|apply mid_columns; lia|]. intros i _. rewrite Rabs_R0. lra. Qed.
Lemma pair_XHX : meq 2 2 (mmul 2 (adj (kX pair)) (kHX pair)) flip.
Proof.
  cbn [pair plain kX kHX]. rewrite adj_mid. apply (meq_trans 2 2 _ (mmul 2 flip mid)); [apply mmul_id_l|apply mmul_id_r].
Qed.
Lemma pair_stationary : stationary_k 0 pair.
Proof.
  split; [|split].
  - exists (kHX pair). apply meq_sym. cbn [pair plain kn km kS kX]. apply (meq_trans 2 2 _ (mmul 2 mid (kHX pair))); [|apply mmul_id_l].
    apply (mmul_ext 2 2 2); [apply mmul_id_l|apply meq_refl].
  - intros i Hi. pose proof (pair_XHX i i Hi Hi) as E. change (kh pair i) with (Re (mmul 2 (adj (kX pair)) (kHX pair) i i)). rewrite E. unfold flip. rewrite Nat.eqb_refl. cbn. ring.
  - intros i j _ _ _ G. exfalso. cbn [pair plain ke] in G. rewrite Rminus_eq_0, Rabs_R0 in G. assert (0 < 1 / 10 ^ 10) by (apply Rdiv_lt_0_compat; [lra|apply pow_lt; lra]). lra.
Qed.
Lemma pair_slope kappa : 0 < kappa -> fst (restarted chol_solver FERMI_DIRAC unit_T kappa 2 [[pair]] 0) = 0.
Proof.
  intros Hk. destruct pair_ok as [P [Q [Pw Pp]]].
  apply (zero_slope chol_solver FERMI_DIRAC unit_T kappa 2 0 (or_introl eq_refl) unit_T_pos Hk ltac:(lra) [[pair]]).
  - intros r k [<-|[]] [<-|[]]. apply (point_kpt_ok _ _ _ _ _ _ flip); assumption.
  - intros r k [<-|[]] [<-|[]]. exact Pp.
  - intros r k i [<-|[]] [<-|[]] Hi. exact (pt_in _ _ _ _ _ _ P i Hi).
  - apply dmu_plain. intros i _. rewrite Rabs_R0. lra.
  - exists 0. intros r k [<-|[]] [<-|[]]. exact pair_stationary.
Qed.
Lemma pair_dropped kappa : 0 < kappa -> dropped FERMI_DIRAC unit_T 2 0 (steepest chol_solver kappa (pair, flip)) < 0.
Proof.
  intros Hk. unfold dropped, steepest. cbn [fst snd mk mze].
  assert (D : forall zx ze, forall i j, divided FERMI_DIRAC unit_T 2 0 (MkMoving pair flip zx ze) i j <= - (1 / 8)).
  { intros zx ze i j. unfold divided. cbn [mk pair plain ke]. destruct (Req_EM_T 0 0) as [_|N]; [|congruence]. rewrite unit_kT.
    pose proof (fd_delta_low ((0 - 0) / 1)) as L. replace ((0 - 0) / 1) with 0 in * by field. specialize (L ltac:(rewrite Rabs_R0; lra)).
    set (d := sdelta _ _ _) in *. replace (- d / 1) with (- d) by (eqR; field). cbn [num Rarith] in L. lra. }
  set (ze := delta_eta kappa pair (inner_ (kn pair) (kX pair) (kHX pair) (kw pair))).
  assert (E : forall i j, (i < 2)%nat -> (j < 2)%nat -> i <> j -> Re (Cmult (mmul (kn pair) (adj (kX pair)) (kHX pair) i j) (ze j i)) = kappa).
  { intros i j Hi Hj N. unfold ze, delta_eta, scale, inner_, mscal. change (kn pair) with 2%nat. rewrite (pair_XHX i j Hi Hj), (pair_XHX j i Hj Hi). unfold flip.
    rewrite (proj2 (Nat.eqb_neq i j) N), (proj2 (Nat.eqb_neq j i)) by congruence. change (kw pair) with 1. unfold Cmult, RtoC, Re. cbn [fst snd]. field. }
  change (km pair) with 2%nat. change (kw pair) with 1. rewrite Rmult_1_l. cbn [rsumn Nat.eqb]. change (ke pair 1%nat - ke pair 0%nat) with (0 - 0). change (ke pair 0%nat - ke pair 1%nat) with (0 - 0).
  assert (Z : 0 < 1 / 10 ^ 10) by (apply Rdiv_lt_0_compat; [lra|apply pow_lt; lra]).
  destruct (Rlt_dec (Rabs (0 - 0)) (1 / 10 ^ 10)) as [_|N]; [|exfalso; apply N; rewrite Rminus_eq_0, Rabs_R0; exact Z].
  rewrite (E 0%nat 1%nat), (E 1%nat 0%nat) by lia.
  match goal with |- context [divided FERMI_DIRAC unit_T 2 0 (MkMoving pair flip ?zx ze) 0 1] => pose proof (D zx ze 0%nat 1%nat); pose proof (D zx ze 1%nat 0%nat) end.
  nra.
Qed.

(** the slope of the library is zero, the free energy decreases along the direction it returns *)
Theorem degenerate_stop kappa eigh : 0 < kappa -> eigh_ok eigh -> (forall m M, eigh m M <> None) ->
  point_ok FERMI_DIRAC unit_T 2 0 pair flip /\ systems_ok chol_solver pair /\
  let (slope, dirs) := restarted chol_solver FERMI_DIRAC unit_T kappa 2 [[pair]] 0 in
  let W := with_dirs [[(pair, flip)]] dirs in
  slope = 0 /\
  exists (mu : R -> R) (t0 : R), 0 < t0 /\ mu 0 = 0 /\
    forall t, 0 < t < t0 -> count_at eigh FERMI_DIRAC unit_T 2 W (mu t) t = count_at eigh FERMI_DIRAC unit_T 2 W 0 0 /\
      curve_energy eigh FERMI_DIRAC unit_T 2 W mu t < curve_energy eigh FERMI_DIRAC unit_T 2 W mu 0.
Proof.
  intros Hk He Ht. assert (Nc : FERMI_DIRAC <> COLD) by discriminate. assert (Ns : FERMI_DIRAC <> GAUSSIAN_SPLINE) by discriminate.
  destruct pair_ok as [P [Q [Pw Pp]]]. split; [exact P|split; [exact Q|]].
  pose proof (pair_slope kappa Hk) as S0. pose proof (restart_dirs chol_solver FERMI_DIRAC unit_T kappa 2 0 [[(pair, flip)]]) as Ed. cbn [map fst] in Ed.
  pose proof (fun mu => restart_slope_exact eigh chol_solver FERMI_DIRAC unit_T kappa 2 mu He unit_T_pos Nc (or_introl Ns)) as Sl.
  destruct (restarted chol_solver FERMI_DIRAC unit_T kappa 2 [[pair]] 0) as [slope dirs] eqn:E. cbn [fst snd] in *. cbv zeta. rewrite Ed.
  split; [exact S0|]. set (W := [[steepest chol_solver kappa (pair, flip)]]) in *.
  assert (Hd : 1 / 10 ^ 12 <= Rabs (dmu_deta FERMI_DIRAC unit_T 2 [[pair]] 0)) by (apply dmu_plain; intros i _; rewrite Rabs_R0; lra).
  assert (Hmov : forall r p, In r W -> In p r -> moving_ok eigh FERMI_DIRAC unit_T 2 0 p).
  { intros r p [<-|[]] [<-|[]]. apply point_moving; [exact P|exact (delta_tangent_k chol_solver pair Q)|exact (delta_eta_hermitian kappa _ (point_HX_herm _ _ _ _ _ _ P))|].
    apply filter_forall. intros t. apply trial_total, Ht. }
  assert (Hd0 : dmu_deta FERMI_DIRAC unit_T 2 (map (map mk) W) 0 <> 0).
  { change (map (map mk) W) with [[pair]]. intros X. rewrite X, Rabs_R0 in Hd. assert (0 < 1 / 10 ^ 12) by (apply Rdiv_lt_0_compat; [lra|apply pow_lt; lra]). lra. }
  destruct (mu_exists eigh FERMI_DIRAC unit_T 2 0 W He unit_T_pos Nc Hmov Hd0) as [mu [M0 [Mc Mn]]].
  specialize (Sl mu Mc [[(pair, flip)]]). rewrite M0 in Sl. cbn [map fst] in Sl.
  specialize (Sl ltac:(intros r kH [<-|[]] [<-|[]]; split; assumption) Hd). rewrite E in Sl. cbv zeta in Sl. rewrite Ed in Sl. fold W in Sl.
  specialize (Sl (fun r p _ _ => filter_forall _ (fun t => trial_total eigh p t Ht)) Mn).
  assert (Neg : slope + total (dropped FERMI_DIRAC unit_T 2 0) W < 0).
  { rewrite S0. unfold W, total. cbn [map fold_right]. pose proof (pair_dropped kappa Hk). lra. }
  destruct (negative_slope _ _ Sl Neg) as [t1 [Ht1 Dn]]. destruct Mn as [eps Mn].
  exists mu, (Rmin t1 eps). split; [apply Rmin_glb_lt; [exact Ht1|apply cond_pos]|split; [exact M0|]]. intros t [Tp Tl].
  pose proof (Rmin_l t1 eps). pose proof (Rmin_r t1 eps). split; [|apply Dn; lra].
  apply Mn. change (Rabs (t + - 0) < eps). rewrite Ropp_0, Rplus_0_r, Rabs_pos_eq; lra.
Qed.

(** *** Directions for the three-function k-point *)
Lemma levels_gap i j : (i < 2)%nat -> (j < 2)%nat -> i <> j -> 1 / 10 ^ 10 <= Rabs (levels j - levels i).
Proof.
  intros Hi Hj N. assert (D : ((i = 0 /\ j = 1) \/ (i = 1 /\ j = 0))%nat) by lia.
  assert (P : 1 <= 10 ^ 10) by (apply pow_R1_Rle; lra).
  assert (Q : 1 / 10 ^ 10 <= 1). { apply (Rmult_le_reg_r (10 ^ 10)); [lra|]. unfold Rdiv. rewrite Rmult_assoc, Rinv_l by lra. lra. }
  destruct D as [[-> ->]|[-> ->]]; unfold levels; cbn [Nat.eqb]; [rewrite Rabs_left; lra|rewrite Rabs_pos_eq; lra].
Qed.
Lemma three_gapped H zx ze : gapped (MkMoving three H zx ze).
Proof. intros i j Hi Hj N. left. exact (levels_gap i j Hi Hj N). Qed.
Lemma three_dmu : 1 / 10 ^ 12 <= Rabs (dmu_deta FERMI_DIRAC unit_T 2 [[three]] 0).
Proof. apply dmu_plain. intros i _. apply levels_in. Qed.

(** a direction that couples the second band to the third function and mixes the bands *)
Definition dir3 : mat := fun i j => if Nat.eqb i 2 then (if Nat.eqb j 1 then RtoC 1 else RtoC 0) else RtoC 0.
Lemma three_direction : moving_ok eigh_full FERMI_DIRAC unit_T 2 0 (MkMoving three couple3 dir3 flip).
Proof.
  destruct three_ok as [P _]. apply point_moving; [exact P| |exact flip_hermitian|].
  - apply tangent_meq. cbn [three plain kn km kS kX]. intros i j Hi Hj. unfold mmul at 1. unfold mzero. apply csum_0. intros l Hl. unfold adj.
    rewrite (mmul_id_l 3 3 mid l i ltac:(lia) ltac:(lia)). unfold dir3, mid. destruct (Nat.eqb_spec l 2) as [->|]; [|ring].
    destruct (Nat.eqb_spec 2 i) as [|]; [lia|]. rewrite Cconj_R. ring.
  - apply filter_forall. intros t. apply trial_total. exact eigh_full_total.
Qed.

(** previous direction (dir3, flip) with a rotation that swaps the bands *)
Definition three_conj : list (list ((kpt * (mat * mat * mat)) * mat)) := [[((three, (dir3, flip, flip)), couple3)]].
Lemma three_conj_slope kappa : 0 < kappa -> exists fr_old,
  let '(_, slope, dirs) := conjugated chol_solver FERMI_DIRAC unit_T kappa 2 fr_old (map (map fst) three_conj) 0 in
  slope + total (dropped FERMI_DIRAC unit_T 2 0) (with_dirs (map (map (fun y => (fst (fst y), snd y))) three_conj) dirs) < 0.
Proof.
  intros Hk. destruct three_ok as [P [Q [Pw Pp]]]. assert (Ns : FERMI_DIRAC <> GAUSSIAN_SPLINE) by discriminate.
  assert (Fr : forall fr_old, let '(fr, _, _) := conjugated chol_solver FERMI_DIRAC unit_T kappa 2 fr_old (map (map fst) three_conj) 0 in fr < 0).
  { intros fr_old. pose proof (conjugated_slope chol_solver FERMI_DIRAC unit_T kappa 2 0 fr_old (map (map fst) three_conj)) as CS. cbv zeta in CS.
    destruct (conjugated chol_solver FERMI_DIRAC unit_T kappa 2 fr_old (map (map fst) three_conj) 0) as [[fr sl] z]. destruct CS as [_ ->].
    change (map (map fst) (map (map fst) three_conj)) with [[three]].
    pose proof (steepest_lowers eigh_full chol_solver FERMI_DIRAC unit_T kappa 2 0 [[(three, couple3)]] eigh_full_ok eigh_full_total (or_introl eq_refl)
      (or_introl Ns) unit_T_pos Hk ltac:(lra) ltac:(intros r kH [<-|[]] [<-|[]]; exact three_ok) three_dmu three_moves) as L.
    cbn [map fst] in L. destruct (restarted chol_solver FERMI_DIRAC unit_T kappa 2 [[three]] 0) as [a b]. cbn [fst]. exact (proj1 L). }
  set (ks := map (map fst) (map (map fst) three_conj)).
  set (szp := total (fun r : R * mat * mat * mat * mat * R => match r with (_, _, _, _, _, sl) => sl end)
    (map (map (fun kz : kpt * (mat * mat * mat) => match kz with (k, (zxp, zetap, ul)) => exec_cg chol_solver FERMI_DIRAC unit_T kappa 2 0 (dmu_deta FERMI_DIRAC unit_T 2 ks 0) (dFdmu FERMI_DIRAC unit_T 2 ks 0) k zxp zetap ul end)) (map (map fst) three_conj))).
  exists (- (Rabs szp + 1)). specialize (Fr (- (Rabs szp + 1))).
  destruct (conjugated chol_solver FERMI_DIRAC unit_T kappa 2 (- (Rabs szp + 1)) (map (map fst) three_conj) 0) as [[fr slope] dirs] eqn:E.
  assert (Es : slope = fr + fr / (- (Rabs szp + 1)) * szp). { unfold conjugated in E. cbv zeta in E. fold ks in E. assert (E1 := f_equal (fun x => snd (fst x)) E). assert (E0 := f_equal (fun x => fst (fst x)) E). cbn [fst snd] in E0, E1. rewrite <- E1, <- E0. reflexivity. }
  assert (Ew : exists zx ze, with_dirs (map (map (fun y => (fst (fst y), snd y))) three_conj) dirs = [[MkMoving three couple3 zx ze]]).
  { unfold conjugated in E. cbv zeta in E. fold ks in E. assert (E1 := f_equal snd E). cbn [snd] in E1. rewrite <- E1. unfold three_conj. cbn [map fst snd].
    destruct (exec_cg chol_solver FERMI_DIRAC unit_T kappa 2 0 (dmu_deta FERMI_DIRAC unit_T 2 ks 0) (dFdmu FERMI_DIRAC unit_T 2 ks 0) three dir3 flip flip) as [[[[[a b] c] d] e] f]. unfold with_dirs. cbn [combine map fst snd]. eauto. }
  assert (Z : total (dropped FERMI_DIRAC unit_T 2 0) (with_dirs (map (map (fun y => (fst (fst y), snd y))) three_conj) dirs) = 0).
  { pose proof (conjugate_moving eigh_full chol_solver FERMI_DIRAC unit_T kappa 2 0 (- (Rabs szp + 1)) three_conj eigh_full_total) as M.
    specialize (M ltac:(intros r y [<-|[]] [<-|[]]; cbn [fst snd]; split; [exact P|split; [exact Q|exact flip_hermitian]])). cbv zeta in M. rewrite E in M. cbn [snd] in M. destruct M as [M _].
    destruct Ew as [zx [ze Ew]]. rewrite Ew in *. unfold total. cbn [map fold_right].
    rewrite (gapped_dropped FERMI_DIRAC unit_T 2 0 (MkMoving three couple3 zx ze)); [ring| |apply three_gapped].
    exact (mv_ze _ _ _ _ _ _ (M _ _ (or_introl eq_refl) (or_introl eq_refl))). }
  match goal with |- slope + ?t < 0 => assert (Z' : t = 0) by exact Z end. rewrite Z', Es.
  pose proof (Rabs_pos szp). pose proof (Rle_abs szp). pose proof (Rle_abs (- szp)) as A. rewrite Rabs_Ropp in A.
  replace (fr + fr / - (Rabs szp + 1) * szp + 0) with (fr * ((Rabs szp + 1 - szp) / (Rabs szp + 1))) by (field; lra).
  assert (0 < (Rabs szp + 1 - szp) / (Rabs szp + 1)) by (apply Rdiv_lt_0_compat; lra). nra.
Qed.
