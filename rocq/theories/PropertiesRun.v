(** Properties C42 and C64-C67: whole runs of nlcg_us with the library's own trial points, occupations, entropy and
    descent directions; the solvers and the caller's functional are arbitrary subject to [system_ok]. *)
From Coq Require Import Reals Lra ZArith List Bool Arith Lia Sorting.Sorted.
From Coquelicot Require Import Complex.
From Verif Require Import Arith LinAlg MVector Mpi Containers ChemPot Newton Occupation Smearing SmearingUse SmearingFacts
  Descent DescentProofs DescentFacts Geodesic GeodesicProofs LineSearch Driver DriverProofs DriverProofs2 DriverProofs3 DriverInv UsRun UsRunProofs UsCount UsRunFacts UsExample.
Import ListNotations.
Local Open Scope R_scope.

(** ** C42: every matrix handed to the Hermitian eigensolver is Hermitian. *)
Theorem C42_eigensolver_arguments_hermitian :
  forall solve eigh En Ex ecompute C junk, system_ok solve eigh En Ex ecompute C ->
  forall maxiter tol tau restart fq fb s0 r st evs, s_log s0 = [] -> ortho C (s_X s0) ->
  nlcg_us Rarith (us_problem solve eigh En Ex ecompute C junk) maxiter tol tau restart fq fb s0 = (r, st, evs) ->
  forall c M, In c (s_log st) -> In M (g_args c) ->
  forall i j, (i < ncol C (g_key c))%nat -> (j < ncol C (g_key c))%nat -> M i j = Cconj (M j i).
Proof. exact run_hermitian. Qed.
Print Assumptions C42_eigensolver_arguments_hermitian.

(** The log has an entry for k-points of the run only, with at least one eigensolver call. *)
Theorem C42_log_entries :
  forall solve eigh En Ex ecompute C junk, system_ok solve eigh En Ex ecompute C ->
  forall maxiter tol tau restart fq fb s0 r st evs, s_log s0 = [] -> ortho C (s_X s0) ->
  nlcg_us Rarith (us_problem solve eigh En Ex ecompute C junk) maxiter tol tau restart fq fb s0 = (r, st, evs) ->
  forall c, In c (s_log st) -> In (g_key c) (concat (ranks C)) /\ g_args c <> [].
Proof. exact run_logged. Qed.
Print Assumptions C42_log_entries.

(** One band mixing with an empty basis function: the hypotheses hold and the run starts with a negative slope. *)
Example C42_example :
  system_ok solve2 eigh2 unit unit mix_compute mix_set /\ ortho mix_set (s_X mix_start) /\ s_log mix_start = [] /\
  exists d sl s, us_setup solve2 unit unit mix_compute mix_set (fun _ => mzero) mix_start = (inl (d, sl), s) /\ sl < 0.
Proof. exact (Logic.conj mix_ok (Logic.conj mix_ortho (Logic.conj eq_refl (mix_setup (fun _ => mzero))))). Qed.

(** ** C64: every trial point of a run is S-orthonormal, and its overlap matrix is positive definite. *)
Theorem C64_trial_points_orthonormal :
  forall solve eigh En Ex ecompute C junk, system_ok solve eigh En Ex ecompute C ->
  forall maxiter tol tau restart fq fb s0 r st evs, s_log s0 = [] -> ortho C (s_X s0) ->
  nlcg_us Rarith (us_problem solve eigh En Ex ecompute C junk) maxiter tol tau restart fq fb s0 = (r, st, evs) ->
  forall c X', In c (s_log st) -> g_out c = Some X' -> let k := g_key c in
  forall i j, (i < ncol C k)%nat -> (j < ncol C k)%nat ->
  csum (nrow C k) (fun a => Cmult (Cconj (X' a i)) (csum (nrow C k) (fun b => Cmult (ovl C k a b) (X' b j)))) = if Nat.eqb i j then RtoC 1 else RtoC 0.
Proof. exact run_orthonormal. Qed.
Print Assumptions C64_trial_points_orthonormal.

Theorem C64_overlap_positive_definite :
  forall solve eigh En Ex ecompute C junk, system_ok solve eigh En Ex ecompute C ->
  forall maxiter tol tau restart fq fb s0 r st evs, s_log s0 = [] -> ortho C (s_X s0) ->
  nlcg_us Rarith (us_problem solve eigh En Ex ecompute C junk) maxiter tol tau restart fq fb s0 = (r, st, evs) ->
  forall c M, In c (s_log st) -> nth_error (g_args c) 1 = Some M -> let k := g_key c in
  forall v : nat -> Complex.C, (exists i, (i < ncol C k)%nat /\ v i <> RtoC 0) ->
  0 < Re (csum (ncol C k) (fun i => csum (ncol C k) (fun j => Cmult (Cmult (Cconj (v i)) (M i j)) (v j)))).
Proof. exact run_overlap_positive. Qed.
Print Assumptions C64_overlap_positive_definite.

Example C64_example :
  system_ok solve2 eigh2 unit unit mix_compute mix_set /\ ortho mix_set (s_X mix_start) /\ s_log mix_start = [].
Proof. exact (Logic.conj mix_ok (Logic.conj mix_ortho eq_refl)). Qed.

(** ** C65: with a monotone smearing no steepest descent direction goes uphill and no line search is refused. *)
Theorem C65_no_slope_error :
  forall solve eigh En Ex ecompute C junk, system_ok solve eigh En Ex ecompute C ->
  forall maxiter tol tau restart fq fb s0 r st evs, s_log s0 = [] -> ortho C (s_X s0) ->
  nlcg_us Rarith (us_problem solve eigh En Ex ecompute C junk) maxiter tol tau restart fq fb s0 = (r, st, evs) ->
  monotone_type (smt C) -> 0 < temp C -> 0 <= kappa_ C -> 0 <= occ_ C ->
  (forall sl, In (EvSteepest sl) evs -> sl <= 0) /\ (forall l, ~ In (EvLs l LsSlope) evs).
Proof. exact run_downhill. Qed.
Print Assumptions C65_no_slope_error.

(** Not so with Methfessel-Paxton or cold smearing: a run under the same assumptions, for every kappa > 0, every
    iteration limit, every small enough tolerance and all other parameters, gives up in its first line search. *)
Theorem C65_nonmonotone_smearing_refuted :
  forall s mo kappa, s = METHFESSEL_PAXTON \/ s = COLD -> 1 <= mo -> 0 < kappa ->
  exists (ecompute : unit -> (key -> mat) -> (key -> nat -> R) -> ((R * (key -> mat) * (key -> nat -> R)) + unit) * unit) C s0,
  smt C = s /\ occ_ C = mo /\ kappa_ C = kappa /\ 0 < temp C /\
  system_ok solve2 eigh2 unit unit ecompute C /\ ortho C (s_X s0) /\ s_log s0 = [] /\
  forall junk, exists eps, 0 < eps /\ forall maxiter tol tau restart fq fb r st evs, (0 < maxiter)%Z -> tol <= eps ->
  nlcg_us Rarith (us_problem solve2 eigh2 unit unit ecompute C junk) maxiter tol tau restart fq fb s0 = (r, st, evs) ->
  In (EvLs [] LsSlope) evs /\ exists i, r = Ret i /\ iConv i = false.
Proof.
  intros s mo kappa Hs Hm Hk. exists (up_compute s mo), (up_set s mo kappa), (up_start s mo).
  repeat (split; [first [reflexivity|exact unit_T_pos|apply up_ok|apply up_ortho]|]).
  intros junk. exact (up_run s mo kappa junk Hs Hm Hk).
Qed.
Print Assumptions C65_nonmonotone_smearing_refuted.

Example C65_example :
  monotone_type (smt mix_set) /\ 0 < temp mix_set /\ 0 <= kappa_ mix_set /\ 0 <= occ_ mix_set /\
  exists d sl s, us_setup solve2 unit unit mix_compute mix_set (fun _ => mzero) mix_start = (inl (d, sl), s) /\ sl < 0.
Proof.
  split; [left; reflexivity|]. split; [exact unit_T_pos|]. cbn [kappa_ occ_ mix_set]. split; [lra|]. split; [lra|]. exact (mix_setup (fun _ => mzero)).
Qed.

(** ** C66: the recorded free energies never increase if the caller's energy depends on the density matrices only. *)
Theorem C66_free_energy_never_increases :
  forall solve eigh En Ex ecompute C junk, system_ok solve eigh En Ex ecompute C -> energy_of_density En Ex ecompute C ->
  forall maxiter tol tau restart fq fb s0 r st evs, s_log s0 = [] -> ortho C (s_X s0) ->
  nlcg_us Rarith (us_problem solve eigh En Ex ecompute C junk) maxiter tol tau restart fq fb s0 = (r, st, evs) ->
  StronglySorted (fun x y => (y <= x)%R) (map (@rF (num Rarith)) (records evs)) /\
  (Forall (fun x => ls_returned x = true) (searches evs) -> Forall (fun x => (s_F st <= x)%R) (map (@rF (num Rarith)) (records evs))).
Proof. exact run_decreases. Qed.
Print Assumptions C66_free_energy_never_increases.

Example C66_example :
  system_ok solve2 eigh2 unit unit mix_compute mix_set /\ energy_of_density unit unit mix_compute mix_set /\
  ortho mix_set (s_X mix_start) /\ s_log mix_start = [].
Proof. exact (Logic.conj mix_ok (Logic.conj mix_density (Logic.conj mix_ortho eq_refl))). Qed.

(** ** C67: the number of electrons of every energy evaluation.
    [recorded] is the caller's functional together with the list of occupations it was called with (newest first). *)
Theorem C67_every_evaluation_has_the_electrons :
  forall solve eigh En Ex ecompute C junk f0, NoDup (concat (ranks C)) ->
  forall maxiter tol tau restart fq fb s0 r st evs, snd (s_en s0) = [] -> s_fn s0 = f0 ->
  nlcg_us Rarith (us_problem solve eigh (En * list (key -> nat -> R)) Ex (recorded En Ex ecompute) C junk) maxiter tol tau restart fq fb s0 = (r, st, evs) ->
  exists l, snd (s_en st) = l ++ [f0] /\ forall fn, In fn l ->
  let ne := rsum (map (fun k => wgt C k * rsum (map (fn k) (seq 0 (ncol C k)))) (concat (ranks C))) in
  Rabs (nel C - ne) < mu_tol C \/
  (skip_nt C = false /\ (smt C = METHFESSEL_PAXTON \/ smt C = COLD) /\ Rabs (nel C - ne) <= 1 / 100).
Proof. exact run_counts_spec. Qed.
Print Assumptions C67_every_evaluation_has_the_electrons.

(** The chemical potential and occupations of the run model are those of the multi-rank model. *)
Theorem C67_occupations_of_all_ranks :
  forall C ek, ranks C <> [] ->
  occupation Rarith (nel C) (temp C) (occ_ C) (mu_tol C) (skip_nt C) gauss_smearing (smearing_class (smt C)) (band_world C ek) =
  Some (map (fun r => match us_mu C ek with
    | Some mu => Ret (mu, map (fun k => (k, map (us_fn C ek mu k) (seq 0 (ncol C k)))) r)
    | None => Throw RuntimeError end) (ranks C)).
Proof. exact us_occupation. Qed.
Print Assumptions C67_occupations_of_all_ranks.

Theorem C67_entropy_of_all_ranks :
  forall C ek mu (red : list (num Rarith) -> num Rarith), (forall l, red l = rsum l) ->
  (forall r, In r (ranks C) -> StronglySorted klt r) ->
  smearing_entropy Rarith (length (ranks C)) red (smearing_class (smt C)) (temp C) (occ_ C) mu
    (map (fun xw => (MkMvec (fst xw) CK, MkMvec (snd xw) CK)) (band_world C ek)) =
  Some (map (fun _ => Ret (us_entropy C ek mu)) (ranks C)).
Proof. exact us_entropy_all. Qed.
Print Assumptions C67_entropy_of_all_ranks.

(** Set-up of the example finds mu = 0 and evaluates the functional with one electron. *)
Example C67_example :
  NoDup (concat (ranks mix_set)) /\ ranks mix_set <> [] /\ us_mu mix_set (fun _ _ => 0) = Some 0 /\ us_fn mix_set (fun _ _ => 0) 0 k0 0%nat = 1.
Proof.
  split; [constructor; [intros []|constructor]|]. split; [discriminate|]. split; [apply mix_mu; reflexivity|].
  unfold us_fn. cbn [smt temp occ_ mix_set smearing_class]. rewrite unit_kT. replace ((0 - 0) / 1) with 0 by field.
  change (sfn fermi_dirac) with fd_fn. rewrite fd_at0. field.
Qed.
