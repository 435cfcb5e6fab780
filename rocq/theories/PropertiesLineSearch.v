(** Properties C01-C09: the line search. *)
From Coq Require Import ZArith List Bool Reals Lra Lia.
From Flocq Require Import IEEE754.BinarySingleNaN.
From Verif Require Import Arith LineSearch LineSearchSpec LineSearchProofs LineSearchReal Float64
  LineSearchFloat LineSearchRun Toys Driver DriverProofs DriverRun.
Import ListNotations.

(** Shorthand for the examples: searches on the double parabola x^2 from x = 1 with direction z. *)
Definition ls_parabola (z slope : f64) (fr : bool) :=
  line_search F64 f64 f64 unit (getF parabola) (curve parabola (f1, z)) 223 20 (flit 1 5) (flit 1 10) slope
    (MkMem f1 fr []).
Definition ls_climbing (fr : bool) (tau : f64) :=
  line_search F64 f64 f64 unit (fun x => x) (curve (climbing (flit (-1) 1) f1) tt) 223 20 (flit 1 5) tau (flit (-1) 1)
    (MkMem f0 fr []).

(** ** C01 *)
Theorem C01_never_accepts_higher_energy :
  forall (A : arith) (St P E : Type) (getF : St -> num A) (G : num A -> St -> (P + E) * St)
    fq fb t_trial tau slope (m m' : lsmem (num A) St P) p k,
  line_search A St P E getF G fq fb t_trial tau slope m = (Ret (p, k), m') ->
  (k = Qline /\ frestart m' = false /\ altb A (getF (fst_ m)) (getF (fst_ m')) = false) \/
  (k = Btsearch /\ frestart m' = false /\ altb A (getF (fst_ m')) (getF (fst_ m)) = true) \/
  (k = Btsearch /\ frestart m' = true /\ exists s, G (alit A 0 1) s = (inl p, fst_ m')).
Proof. intros A St P E getF G fq fb t_trial tau slope m m' p k. exact (ls_never_higher A St P E getF G fq fb t_trial tau slope m p k m'). Qed.
Print Assumptions C01_never_accepts_higher_energy.

Example C01_example :
  match ls_parabola (flit (-2) 1) (flit (-4) 1) true, ls_climbing false (flit 1 10) with
  | (Ret (_, Qline), m1), (Ret (_, Btsearch), m2) =>
      (frestart m1, Bltb (fmul (fst_ m1) (fst_ m1)) f1, frestart m2) = (false, true, true)
  | _, _ => False
  end.
Proof. vm_compute. reflexivity. Qed.

(** ** C02 *)
Theorem C02_uphill_refused :
  forall (A : arith) (St P E : Type) (getF : St -> num A) (G : num A -> St -> (P + E) * St)
    fq fb t_trial tau slope (m : lsmem (num A) St P),
  altb A (alit A 0 1) slope = true ->
  line_search A St P E getF G fq fb t_trial tau slope m = (Throw SlopeError, m).
Proof. exact line_search_uphill. Qed.
Print Assumptions C02_uphill_refused.

Theorem C02_only_uphill_refused :
  forall (A : arith) (St P E : Type) (getF : St -> num A) (G : num A -> St -> (P + E) * St)
    fq fb t_trial tau slope (m m' : lsmem (num A) St P),
  line_search A St P E getF G fq fb t_trial tau slope m = (Throw SlopeError, m') ->
  altb A (alit A 0 1) slope = true.
Proof. exact line_search_slope_error. Qed.
Print Assumptions C02_only_uphill_refused.

Example C02_example :
  altb F64 (alit F64 0 1) f1 = true /\ altb F64 (alit F64 0 1) B754_nan = false /\
  match ls_parabola (flit 2 1) (flit 4 1) false with (Throw SlopeError, m) => evals m = [] | _ => False end.
Proof. vm_compute. auto. Qed.

(** ** C03 *)
Theorem C03_exact_on_quadratics :
  forall (St P E : Type) (getF : St -> R) (G : R -> St -> (P + E) * St)
    fq fb t_trial tau slope a (m : lsmem R St P),
  (slope <= 0)%R -> (0 < a)%R -> t_trial <> 0%R ->
  (forall t s, exists p s', G t s = (inl p, s') /\ getF s' = (getF (fst_ m) + slope * t + a * t * t)%R) ->
  exists p q s m',
    line_search Rarith St P E getF G (S fq) fb t_trial tau slope m = (Ret (p, Qline), m') /\
    frestart m' = false /\
    G (- slope / (2 * a))%R s = (inl p, fst_ m') /\
    evals m' = ((- slope / (2 * a))%R, Some p, getF (fst_ m')) ::
               (t_trial, Some q, (getF (fst_ m) + slope * t_trial + a * t_trial * t_trial)%R) :: evals m.
Proof. exact line_search_quadratic. Qed.
Print Assumptions C03_exact_on_quadratics.

Theorem C03_point_is_global_minimum :
  forall F0 slope a t : R, (0 < a)%R ->
  (F0 + slope * (- slope / (2 * a)) + a * (- slope / (2 * a)) * (- slope / (2 * a)) <= F0 + slope * t + a * t * t)%R.
Proof. exact quadratic_minimum. Qed.
Print Assumptions C03_point_is_global_minimum.

Example C03_example :
  let G (t : R) (s : R) : (unit + unit) * R := (inl tt, t) in
  let getF (s : R) := (1 - 4 * s + 4 * s * s)%R in
  let m : lsmem R R unit := MkMem 0%R true [] in
  (-4 <= 0)%R /\ (0 < 4)%R /\ (1/5)%R <> 0%R /\
  (forall t s, exists p s', G t s = (inl p, s') /\ getF s' = (getF (fst_ m) + -4 * t + 4 * t * t)%R).
Proof.
  cbv zeta. cbn [fst_]. repeat split; try lra.
  intros t s. exists tt, t. split; [reflexivity|]. ring.
Qed.

(** ** C04 *)
Theorem C04_growth_stops_in_doubles :
  forall (St P E : Type) (getF : St -> f64) (G : f64 -> St -> (P + E) * St) slope (m : lsmem f64 St P),
  exists o m', qline F64 St P E getF G 223 (flit 1 5) slope m = (o, m') /\ o <> NoFuel /\
               (length (evals m') <= length (evals m) + 224)%nat.
Proof. exact qline_f64_02. Qed.
Print Assumptions C04_growth_stops_in_doubles.

Theorem C04_growth_stops_any_trial_step :
  forall (St P E : Type) (getF : St -> f64) (G : f64 -> St -> (P + E) * St) t slope (m : lsmem f64 St P),
  is_finite_strict t = true ->
  exists o m', qline F64 St P E getF G 795 t slope m = (o, m') /\ o <> NoFuel /\
               (length (evals m') <= length (evals m) + 796)%nat.
Proof. exact qline_f64_any. Qed.
Print Assumptions C04_growth_stops_any_trial_step.

Theorem C04_stops_if_bounded_below :
  forall (St P E : Type) (getF : St -> R) (G : R -> St -> (P + E) * St) t_trial tau slope (m : lsmem R St P) lo,
  (forall t s, (lo <= getF (snd (G t s)))%R) -> (0 < t_trial)%R -> (slope < 0)%R ->
  exists fq fb, fst (line_search Rarith St P E getF G fq fb t_trial tau slope m) <> NoFuel.
Proof. exact line_search_real_stops. Qed.
Print Assumptions C04_stops_if_bounded_below.

(** In exact arithmetic the loop does not stop on F(t) = -t - t^2. *)
Theorem C04_exact_arithmetic_diverges_refuted :
  exists (getF : R -> R) (G : R -> R -> (unit + Empty_set) * R) (m : lsmem R R unit) slope,
  (slope < 0)%R /\
  forall fq fb tau, fst (line_search Rarith R unit Empty_set getF G fq fb (1/5)%R tau slope m) = NoFuel.
Proof.
  exact (ex_intro _ fall_F (ex_intro _ fall_G (ex_intro _ (MkMem 0%R false []) (ex_intro _ (-1)%R
    (Logic.conj (ltac:(lra) : (-1 < 0)%R) line_search_diverges))))).
Qed.
Print Assumptions C04_exact_arithmetic_diverges_refuted.

(** The bound is attained on F(t) = - t^2 with slope -1/1000: 224 evaluations. *)
Example C04_example :
  (match qline F64 f64 f64 unit (fun x => fsub f0 (fmul x x)) (fun t _ => (inl t, t)) 223 (flit 1 5) (flit (-1) 1000)
          (MkMem f0 false []) with
  | (Ret _, m) => length (evals m)
  | _ => O end) = 224%nat
  /\ is_finite_strict (flit 1 5) = true.
Proof. vm_compute. auto. Qed.

(** ** C05 *)
Theorem C05_backtracking_stops_exact :
  forall (St P E : Type) (getF : St -> R) (G : R -> St -> (P + E) * St) tau F0 t_trial (m : lsmem R St P),
  exists fb r m', bt_search Rarith St P E getF G fb t_trial tau F0 m = (r, m') /\ r <> NoFuel.
Proof. exact bt_search_stops. Qed.
Print Assumptions C05_backtracking_stops_exact.

Theorem C05_backtracking_bound :
  forall (St P E : Type) (getF : St -> R) (G : R -> St -> (P + E) * St) n tau F0 t_trial (m : lsmem R St P),
  (0 < tau)%R -> (t_trial * tau ^ n <= / 100000000)%R ->
  exists r m', bt_loop Rarith St P E getF G n tau F0 t_trial m = (r, m') /\ r <> NoFuel.
Proof. exact bt_loop_stops. Qed.
Print Assumptions C05_backtracking_bound.

Theorem C05_backtracking_stops_doubles :
  forall (St P E : Type) (getF : St -> f64) (G : f64 -> St -> (P + E) * St) n t tau F0 (m : lsmem f64 St P),
  is_finite t = true -> (units t <= Z.of_nat n)%Z ->
  fst (bt_search F64 St P E getF G (S n) t tau F0 m) <> NoFuel.
Proof. exact bt_search_f64. Qed.
Print Assumptions C05_backtracking_stops_doubles.

Example C05_example :
  (0 < 1/10)%R /\ (1/5 * (1/10) ^ 8 <= / 100000000)%R /\ is_finite (flit 1 5) = true /\
  (units (flit 1 5) <= Z.of_nat (Z.to_nat (units (flit 1 5))))%Z.
Proof.
  split; [lra|]. split; [cbn; lra|]. split; [vm_compute; reflexivity|].
  generalize (units (flit 1 5)). intros u. lia.
Qed.

(** ** C06 *)
Theorem C06_invalid_tau_reported :
  forall (A : arith) (St P E : Type) (getF : St -> num A) (G : num A -> St -> (P + E) * St)
    fq fb t_trial tau slope (m m' : lsmem (num A) St P) r,
  ageb A tau (alit A 1 1) = true ->
  line_search A St P E getF G fq fb t_trial tau slope m = (r, m') ->
  altb A (alit A 0 1) slope = false ->
  r = NoFuel \/ (exists e, r = Throw (OtherExn e)) \/
  (exists p, r = Ret (p, Qline) /\ altb A (getF (fst_ m)) (getF (fst_ m')) = false) \/
  (r = Throw RuntimeError /\ altb A (getF (fst_ m)) (getF (fst_ m')) = true /\
   frestart m' = frestart m /\ exists p, quad_trace A St P E getF G (getF (fst_ m)) slope t_trial m m' p).
Proof. intros A St P E getF G fq fb t_trial tau slope m m' r. exact (ls_bad_tau A St P E getF G fq fb t_trial tau slope m r m'). Qed.
Print Assumptions C06_invalid_tau_reported.

Theorem C06_valid_tau_never_reported :
  forall (A : arith) (St P E : Type) (getF : St -> num A) (G : num A -> St -> (P + E) * St)
    fq fb t_trial tau slope (m m' : lsmem (num A) St P),
  ageb A tau (alit A 1 1) = false ->
  line_search A St P E getF G fq fb t_trial tau slope m <> (Throw RuntimeError, m').
Proof. exact ls_good_tau. Qed.
Print Assumptions C06_valid_tau_never_reported.

(** A runtime error raised by the line search of any iteration of a run is the result of the run. *)
Theorem C06_reaches_the_caller :
  forall (A : arith) (Pb : problem A) tol tau restart fq fb n i s n' i' s' m,
  head A Pb tol tau restart fq fb n i s (S n') i' s' ->
  altb A (aabs A (d_slope s')) tol = false ->
  the_ls A Pb tau fq fb s' = (Throw RuntimeError, m) ->
  fst (fst (cg_loop A Pb tol tau restart fq fb n i s)) = Throw RuntimeError.
Proof. exact run_runtime. Qed.
Print Assumptions C06_reaches_the_caller.

Example C06_example :
  ageb F64 f1 (alit F64 1 1) = true /\
  (match ls_climbing false f1 with (Throw RuntimeError, m) => length (evals m) = 2%nat | _ => False end) /\
  kind_of (fst (fst (nlcg_us F64 (climbing (flit (-1) 1) f1) 3 (flit 1 1000) f1 1 223 20 f0))) = 1%Z.
Proof. vm_compute. auto. Qed.

(** ** C07 *)
Theorem C07_returned_point_is_functional_state :
  forall (A : arith) (St P E : Type) (getF : St -> num A) (G : num A -> St -> (P + E) * St)
    fq fb t_trial tau slope (m m' : lsmem (num A) St P) p k,
  line_search A St P E getF G fq fb t_trial tau slope m = (Ret (p, k), m') ->
  exists t l s, G t s = (inl p, fst_ m') /\ evals m' = (t, Some p, getF (fst_ m')) :: l ++ evals m.
Proof. intros A St P E getF G fq fb t_trial tau slope m m' p k. exact (ls_point_is_state A St P E getF G fq fb t_trial tau slope m p k m'). Qed.
Print Assumptions C07_returned_point_is_functional_state.

Example C07_example :
  match ls_parabola (flit (-2) 1) (flit (-4) 1) false with
  | (Ret (p, _), m) => Beqb p (fst_ m) = true /\ length (evals m) = 2%nat
  | _ => False end.
Proof. vm_compute. auto. Qed.

(** ** C08 (one search; runs are in PropertiesDriver.v) *)
Theorem C08_failed_search :
  forall (A : arith) (St P E : Type) (getF : St -> num A) (G : num A -> St -> (P + E) * St)
    fq fb t_trial tau slope (m m' : lsmem (num A) St P) r,
  ageb A tau (alit A 1 1) = false ->
  line_search A St P E getF G fq fb t_trial tau slope m = (r, m') ->
  altb A (alit A 0 1) slope = false ->
  (forall e, r <> Throw (OtherExn e)) -> r <> NoFuel ->
  (exists p k, r = Ret (p, k) /\ frestart m' = false) \/
  (exists p1 m1 l u,
    quad_trace A St P E getF G (getF (fst_ m)) slope t_trial m m1 p1 /\
    altb A (getF (fst_ m)) (getF (fst_ m1)) = true /\
    bt_trials A P (getF (fst_ m)) tau t_trial l u /\ altb A (alit A 1 100000000) u = false /\
    ((frestart m = true /\ r = Throw DescentError /\ evals m' = l ++ evals m1) \/
     (frestart m = false /\ frestart m' = true /\ exists p s, r = Ret (p, Btsearch) /\
        G (alit A 0 1) s = (inl p, fst_ m') /\
        evals m' = (alit A 0 1, Some p, getF (fst_ m')) :: l ++ evals m1))).
Proof. intros A St P E getF G fq fb t_trial tau slope m m' r. exact (ls_failed A St P E getF G fq fb t_trial tau slope m r m'). Qed.
Print Assumptions C08_failed_search.

Example C08_example :
  match ls_climbing false (flit 1 10), ls_climbing true (flit 1 10) with
  | (Ret (_, Btsearch), m1), (Throw DescentError, m2) =>
      frestart m1 = true /\ length (evals m1) = 11%nat /\ length (evals m2) = 10%nat
  | _, _ => False
  end.
Proof. vm_compute. auto. Qed.

(** ** C09 *)
Theorem C09_nan_energy_accepted_refuted :
  exists (G : f64 -> f64 -> (f64 + Empty_set) * f64) slope (m : lsmem f64 f64 f64),
  let r := line_search F64 f64 f64 Empty_set (fun s => s) G 1 0 (flit 1 5) (flit 1 10) slope m in
  (exists p, fst r = Ret (p, Qline)) /\ is_nan (fst_ (snd r)) = true /\
  frestart (snd r) = false /\ is_finite (fst_ m) = true.
Proof. exact (ex_intro _ nan_G (ex_intro _ (flit (-1) 1) (ex_intro _ (MkMem zero64 true nil) nan_accepted))). Qed.
Print Assumptions C09_nan_energy_accepted_refuted.

Theorem C09_nan_reference_accepts_everything :
  forall (St P E : Type) (getF : St -> f64) (G : f64 -> St -> (P + E) * St) fq fb t tau slope (m : lsmem f64 St P),
  altb F64 (alit F64 0 1) slope = false ->
  (forall u s, exists p s', G u s = (inl p, s')) ->
  getF (fst_ m) = B754_nan \/ (forall u s p s', G u s = (inl p, s') -> getF s' = B754_nan) ->
  exists p m', line_search F64 St P E getF G (S fq) fb t tau slope m = (Ret (p, Qline), m') /\ frestart m' = false.
Proof. exact line_search_nan. Qed.
Print Assumptions C09_nan_reference_accepts_everything.

Example C09_example :
  altb F64 (alit F64 0 1) (flit (-1) 1) = false /\
  (forall u s, exists p s', (fun (_ s : f64) => (inl s, s) : (f64 + unit) * f64) u s = (inl p, s')).
Proof. split; [vm_compute; reflexivity|]. intros u s. exists s, s. reflexivity. Qed.
