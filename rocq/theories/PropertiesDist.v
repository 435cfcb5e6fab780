(** Property C88: how the k-points are distributed over the MPI ranks. *)
From Coq Require Import Reals Lra ZArith List Bool Arith Lia Permutation.
From Flocq Require Import Core.Core IEEE754.BinarySingleNaN.
From Coquelicot Require Import Complex.
From Verif Require Import Arith Float64 LinAlg MVector Mpi Containers ChemPot Newton Occupation Smearing SmearingUse SmearingFacts
  Descent DescentProofs DescentFacts Geodesic GeodesicProofs LineSearch Driver UsRun UsRunProofs UsExample CountError Distribution SumOrder.
Import ListNotations.
Local Open Scope R_scope.

(** ** Exact arithmetic: whole runs
    The same system on other ranks: outcome, records and direction events are equal, and so is everything that can be read from the
    functional afterwards ([same_state]). *)
Theorem C88_run_independent_of_distribution :
  forall solve eigh En Ex ecompute C rs junk, NoDup (concat (ranks C)) -> Permutation (concat (ranks C)) (concat rs) ->
  forall maxiter tol tau restart fq fb s t r1 st1 ev1 r2 st2 ev2, same_state s t ->
  nlcg_us Rarith (us_problem solve eigh En Ex ecompute C junk) maxiter tol tau restart fq fb s = (r1, st1, ev1) ->
  nlcg_us Rarith (us_problem solve eigh En Ex ecompute (redistribute C rs) junk) maxiter tol tau restart fq fb t = (r2, st2, ev2) ->
  r1 = r2 /\ ev1 = ev2 /\ same_state st1 st2.
Proof. exact run_dist. Qed.
Print Assumptions C88_run_independent_of_distribution.

(** A second rank without k-points; the run gets past its set-up with a negative slope. *)
Example C88_run_example :
  NoDup (concat (ranks mix_set)) /\ Permutation (concat (ranks mix_set)) (concat [[]; [k0]]) /\ same_state mix_start mix_start /\
  exists d sl s, us_setup solve2 unit unit mix_compute mix_set (fun _ => mzero) mix_start = (inl (d, sl), s) /\ sl < 0.
Proof.
  split; [constructor; [intros []|constructor]|]. split; [apply Permutation_refl|]. split; [exact (same_refl unit mix_start)|]. exact (mix_setup (fun _ => mzero)).
Qed.

(** Two k-points, both on one rank, or one on each. *)
Example C88_two_points_example :
  let k1 := (1, 0)%Z : key in
  let C := redistribute mix_set [[k0; k1]] in
  NoDup (concat (ranks C)) /\ Permutation (concat (ranks C)) (concat [[k1]; [k0]]).
Proof.
  cbn. split; [constructor; [intros [H|[]]; discriminate H|constructor; [intros []|constructor]]|apply perm_swap].
Qed.

(** ** Exact arithmetic: the sums and directions one by one *)
Theorem C88_dFdmu_independent :
  forall sm T mo (w w' : list (list kpt)) mu, Permutation (concat w) (concat w') -> dFdmu sm T mo w mu = dFdmu sm T mo w' mu.
Proof. exact dFdmu_perm. Qed.
Print Assumptions C88_dFdmu_independent.

Theorem C88_dmu_deta_independent :
  forall sm T mo (w w' : list (list kpt)) mu, Permutation (concat w) (concat w') -> dmu_deta sm T mo w mu = dmu_deta sm T mo w' mu.
Proof. exact dmu_deta_perm. Qed.
Print Assumptions C88_dmu_deta_independent.

(** Slopes are equal; one rule gives the directions of the k-points in both distributions. *)
Theorem C88_restarted_independent :
  forall solve sm T kappa mo (w w' : list (list kpt)) mu, Permutation (concat w) (concat w') -> exists dir : kpt -> mat * mat,
  restarted solve sm T kappa mo w mu = (fst (restarted solve sm T kappa mo w' mu), map (map dir) w) /\
  snd (restarted solve sm T kappa mo w' mu) = map (map dir) w'.
Proof. exact restarted_perm. Qed.
Print Assumptions C88_restarted_independent.

Theorem C88_conjugated_independent :
  forall solve sm T kappa mo fr (w w' : list (list (kpt * (mat * mat * mat)))) mu, Permutation (concat w) (concat w') ->
  exists dir : kpt * (mat * mat * mat) -> mat * mat,
  conjugated solve sm T kappa mo fr w mu = (fst (conjugated solve sm T kappa mo fr w' mu), map (map dir) w) /\
  snd (conjugated solve sm T kappa mo fr w' mu) = map (map dir) w'.
Proof. exact conjugated_perm. Qed.
Print Assumptions C88_conjugated_independent.

Theorem C88_entropy_independent :
  forall C rs ek mu, Permutation (concat (ranks C)) (concat rs) -> us_entropy C ek mu = us_entropy (redistribute C rs) ek mu.
Proof. exact (fun C rs ek mu H => entropy_dist C rs H ek mu). Qed.
Print Assumptions C88_entropy_independent.

Example C88_sums_example :
  forall a b c : kpt, Permutation (concat [[a; b]; [c]]) (concat [[c]; []; [b]; [a]]).
Proof.
  intros a b c. cbn. apply Permutation_sym. apply (perm_trans (perm_skip c (perm_swap a b []))). apply (perm_trans (perm_swap a c [b])). apply perm_skip. apply perm_swap.
Qed.

(** ** Binary64
    [reduced t] is the sum as computed, the ranks' sums being added in an arbitrary order [t].  Its error is bounded ... *)
Theorem C88_sum_error :
  forall t, is_finite (reduced t) = true ->
  Forall (fun x => is_finite x = true) (entries t) /\
  Rabs (B2R (reduced t) - exact_sum (entries t)) <= ((1 + / 2 ^ 53) ^ depth t - 1) * magnitude (entries t).
Proof.
  intros t. replace (/ 2 ^ 53) with uu by (unfold uu; f_equal; lra). exact (reduced_error t).
Qed.
Print Assumptions C88_sum_error.

(** ... two distributions differ by no more than the two bounds ... *)
Theorem C88_distributions_close :
  forall t t', Permutation (entries t) (entries t') -> is_finite (reduced t) = true -> is_finite (reduced t') = true ->
  Rabs (B2R (reduced t) - B2R (reduced t')) <= ((1 + / 2 ^ 53) ^ depth t + (1 + / 2 ^ 53) ^ depth t' - 2) * magnitude (entries t).
Proof.
  intros t t'. replace (/ 2 ^ 53) with uu by (unfold uu; f_equal; lra). exact (orders_close t t').
Qed.
Print Assumptions C88_distributions_close.

(** ... there is no overflow if the values are not huge ... *)
Theorem C88_sum_finite :
  forall t, Forall (fun x => is_finite x = true) (entries t) ->
  (1 + / 2 ^ 53) ^ depth t * magnitude (entries t) < bpow radix2 1024 -> is_finite (reduced t) = true.
Proof.
  intros t. replace (/ 2 ^ 53) with uu by (unfold uu; f_equal; lra). exact (reduced_finite t).
Qed.
Print Assumptions C88_sum_finite.

(** ... and the sign of the sum is right if the exact sum is larger than the bound. *)
Theorem C88_sum_sign :
  forall t, is_finite (reduced t) = true ->
  ((1 + / 2 ^ 53) ^ depth t - 1) * magnitude (entries t) < Rabs (exact_sum (entries t)) ->
  (0 < B2R (reduced t) <-> 0 < exact_sum (entries t)) /\ (B2R (reduced t) < 0 <-> exact_sum (entries t) < 0).
Proof.
  intros t. replace (/ 2 ^ 53) with uu by (unfold uu; f_equal; lra). exact (order_sign t).
Qed.
Print Assumptions C88_sum_sign.

(** In binary64 the distribution does matter: the same five contributions give the slope 1 on one rank, which every line
    search refuses, and -1 (their exact sum) on two ranks. *)
Theorem C88_binary64_refuted :
  exists t t' : order, Permutation (entries t) (entries t') /\
  reduced t = fofZ 1 /\ reduced t' = fofZ (-1) /\ exact_sum (entries t) = -1 /\
  (forall St P E getF G fuelq fuelb t_trial tau m, line_search F64 St P E getF G fuelq fuelb t_trial tau (reduced t) m = (Throw SlopeError, m)) /\
  agtb F64 (reduced t') (alit F64 0 1) = false.
Proof.
  exists one_rank, two_ranks. split; [exact same_entries|]. split; [exact one_rank_sum|]. split; [exact two_ranks_sum|].
  split; [exact one_rank_exact|]. split; [|vm_compute; reflexivity].
  intros St P E getF G fuelq fuelb t_trial tau m. unfold line_search.
  replace (agtb F64 (reduced one_rank) (alit F64 0 1)) with true by (vm_compute; reflexivity). reflexivity.
Qed.
Print Assumptions C88_binary64_refuted.

(** The hypotheses on sums hold for the witness and for a harmless case. *)
Example C88_float_example :
  is_finite (reduced one_rank) = true /\ is_finite (reduced two_ranks) = true /\ depth one_rank = 5%nat /\ depth two_ranks = 4%nat.
Proof. vm_compute. repeat split. Qed.
Example C88_sign_example :
  let t := Join (Rank [fofZ 1; fofZ 2]) (Rank [fofZ (-1)]) in
  Forall (fun x => is_finite x = true) (entries t) /\ (1 + / 2 ^ 53) ^ depth t * magnitude (entries t) < bpow radix2 1024 /\
  is_finite (reduced t) = true /\ ((1 + / 2 ^ 53) ^ depth t - 1) * magnitude (entries t) < Rabs (exact_sum (entries t)).
Proof. exact small_sum. Qed.
