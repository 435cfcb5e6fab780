(** Property C90: when the line search succeeds.
    Exact real arithmetic; any functional whose energy along the direction is a function [F] of the step length ([landscape]),
    any fuel that suffices ([r <> NoFuel]; sufficient fuel exists by C04, C05 and C09). *)
From Coq Require Import ZArith List Bool Lia Reals Lra Psatz.
From Coquelicot Require Import Coquelicot.
From Verif Require Import Arith LineSearch LineSearchSpec LineSearchProofs LineSearchReal Driver Success.
Import ListNotations.
Local Open Scope R_scope.

(** ** C90 *)
(** If the energy is below its start at all steps shorter than [d] and 1e-8 < tau d, the search returns a point: no
    SlopeError, no DescentError, no request for a restart; the functional is left at that point, whose energy is not higher. *)
Theorem C90_line_search_succeeds :
  forall (St P E : Type) (getF : St -> R) (G : R -> St -> (P + E) * St) (F : R -> R), landscape St P E getF G F ->
  forall n n' tt tau slope d (m : lsmem R St P) r m',
  slope <= 0 -> 0 < tau < 1 -> / 100000000 < tt -> (forall t, 0 < t < d -> F t < getF (fst_ m)) -> / 100000000 < tau * d ->
  line_search Rarith St P E getF G n n' tt tau slope m = (r, m') -> r <> NoFuel ->
  exists p k t, r = Ret (p, k) /\ frestart m' = false /\ getF (fst_ m') = F t /\
    (exists l, evals m' = (t, Some p, F t) :: l) /\ (exists s1, G t s1 = (inl p, fst_ m')) /\
    match k with Qline => F t <= getF (fst_ m) | Btsearch => F t < getF (fst_ m) /\ Rmin tt (tau * d) <= t <= tt end.
Proof. exact line_search_succeeds. Qed.
Print Assumptions C90_line_search_succeeds.

(** For a smooth energy whose derivative starts at the slope and grows at most at the rate [K] on [0, D], [d] may be taken as
    the smaller of D and 2 |slope| / K. *)
Theorem C90_smooth_energies_fall :
  forall (F f : R -> R) (slope K D : R), 0 < K -> slope < 0 ->
  (forall t, 0 <= t <= D -> is_derive F t (f t) /\ f t <= slope + K * t) ->
  forall t, 0 < t < Rmin D (2 * - slope / K) -> F t < F 0.
Proof. exact smooth_falls. Qed.
Print Assumptions C90_smooth_energies_fall.

(** The hypotheses are met by t^2 - t with tau = 1/10. *)
Example C90_smooth_example : (forall t, 0 <= t <= 1 -> is_derive (fun t => t ^ 2 - t) t (2 * t - 1) /\ 2 * t - 1 <= -1 + 2 * t) /\
  / 100000000 < / 10 * Rmin 1 (2 * - -1 / 2).
Proof.
  split.
  - intros t Ht. split; [|lra]. auto_derive; [exact I|ring].
  - unfold Rmin. destruct (Rle_dec _ _); lra.
Qed.
Example C90_success_example : landscape R unit Empty_set (fun t => t ^ 2 - t) stay (fun t => t ^ 2 - t) /\
  forall t, 0 < t < Rmin 1 (2 * - -1 / 2) -> t ^ 2 - t < 0 ^ 2 - 0.
Proof.
  split; [apply stay_landscape|].
  exact (C90_smooth_energies_fall (fun t => t ^ 2 - t) (fun t => 2 * t - 1) (-1) 2 1 ltac:(lra) ltac:(lra) (proj1 C90_smooth_example)).
Qed.

(** Whole runs: if along every direction that is followed the energy falls for long enough, no search of the run fails. *)
Theorem C90_runs_without_failed_search :
  forall (Pb : problem Rarith) (maxiter : Z) (tol tau : R) (restart : Z) (fq fb : nat) (I : Dat Pb -> Stt Pb -> R -> Prop),
  0 < tau < 1 ->
  (forall d s sl, I d s sl -> tol <= Rabs sl -> sl <= 0 ->
     exists F len, landscape (Stt Pb) (Pnt Pb) (Exc Pb) (getF Pb) (curve Pb d) F /\
       (forall t, 0 < t < len -> F t < getF Pb s) /\ / 100000000 < tau * len) ->
  (forall s d sl s', setup Pb s = (inl (d, sl), s') -> I d s' sl) ->
  (forall d s sl t s1 p s', I d s sl -> curve Pb d t s1 = (inl p, s') ->
     (forall sl' d', steepest Pb (accept Pb d p s') s' = inl (sl', d') -> I d' s' sl') /\
     (forall fr fr' sl' d', Driver.conj Pb fr (accept Pb d p s') s' = inl (fr', sl', d') -> I d' s' sl' /\
        forall sl2 d2, steepest Pb d' s' = inl (sl2, d2) -> I d2 s' sl2)) ->
  forall s0 r st evs, nlcg_us Rarith Pb maxiter tol tau restart fq fb s0 = (r, st, evs) ->
  forall l e, In (EvLs l e) evs -> e <> LsBack /\ e <> LsDescent.
Proof. exact run_succeeds. Qed.
Print Assumptions C90_runs_without_failed_search.

(** Minimising x^2 by steepest descent meets the hypotheses for every tolerance and every tau above 1e-8. *)
Example C90_runs_example : forall maxiter tol tau restart fq fb s0 r st evs, 0 < tol -> / 100000000 < tau < 1 ->
  nlcg_us Rarith parabola maxiter tol tau restart fq fb s0 = (r, st, evs) ->
  forall l e, In (EvLs l e) evs -> e <> LsBack /\ e <> LsDescent.
Proof.
  intros maxiter tol tau restart fq fb s0 r st evs Ht [H1 H2] H.
  refine (C90_runs_without_failed_search parabola maxiter tol tau restart fq fb on_track _ _ parabola_setup parabola_step s0 r st evs H); [lra|].
  intros d s sl Hi. exact (parabola_falls tol tau d s sl Ht H1 Hi).
Qed.

(** Finding: the quadratic search accepts a step that leaves the energy where it was, although the trial point it had
    just evaluated was lower. *)
Theorem C90_accepts_without_decrease_refuted :
  exists F : R -> R, is_derive F 0 (-1) /\ F (1 / 5) < F 0 /\
  forall n n' tau b, exists m', line_search Rarith R unit Empty_set F stay (S n) n' (1 / 5) tau (-1) (MkMem 0 b []) = (Ret (tt, Qline), m') /\
    evals m' = [(1 / 2, Some tt, F 0); (1 / 5, Some tt, F (1 / 5))] /\ frestart m' = false.
Proof. exact (ex_intro _ stall (Logic.conj stall_derive (Logic.conj stall_lower stall_search))). Qed.
Print Assumptions C90_accepts_without_decrease_refuted.

(** Finding: a negative slope is not enough; on this smooth energy every search after a restart ends in a DescentError,
    whatever tau. *)
Theorem C90_negative_slope_refuted :
  exists F : R -> R, is_derive F 0 (-1) /\ (exists d, 0 < d /\ forall t, 0 < t < d -> F t < F 0) /\
  forall tau, 0 < tau < 1 -> exists N, forall n n', (1 <= n)%nat -> (N <= n')%nat ->
    fst (line_search Rarith R unit Empty_set F stay n n' (1 / 5) tau (-1) (MkMem 0 true [])) = Throw DescentError.
Proof. exact (ex_intro _ steep (Logic.conj steep_derive (Logic.conj steep_falls steep_run))). Qed.
Print Assumptions C90_negative_slope_refuted.
