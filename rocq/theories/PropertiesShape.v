(** Memory safety of whole runs for everything the matrices may contain: theorems C94. *)
From Coq Require Import ZArith Reals List Bool.
From Flocq Require Import IEEE754.BinarySingleNaN.
From Verif Require Import Arith Float64 SmearFloat MVector LapackMem Exchange Newton ChemPot Occupation Smearing LineSearch Driver UsRun StepMem DeviceStep MemRun
  NumStep NumRun ShapeStep ShapeRun ShapeMain ShapeExample NumExact NumValues.
From Verif Require Import LapackElt.
From Verif Require Device.
Import ListNotations.

(** In any arithmetic: if loops stay in their index ranges, LAPACK and the operators in the memory they are given, sizes fit into int
    and the functional returns matrices and vectors of the agreed extents, no run reaches undefined behaviour in a kernel or a call
    that BLAS rejects, whatever the numbers are. *)
Theorem C94_memory_safe_in_any_arithmetic :
  forall N sp ord ord1 junk red ordk ord1k junkk heevd potrf potrs opS opP En Ex ncompute C nr nc,
  shapes_ok N ord ord1 red ordk ord1k heevd potrf potrs opS opP En Ex ncompute C nr nc ->
  forall maxiter tol tau restart fq fb s0 r t evs, talls N C nr nc (b_X s0) -> long N C nc (b_fn s0) ->
  nlcg_us (nA N) (num_problem N sp ord ord1 junk red ordk ord1k junkk heevd potrf potrs opS opP En Ex ncompute C)
    maxiter tol tau restart fq fb s0 = (r, t, evs) ->
  r <> Throw (OtherExn MUndefined) /\ r <> Throw (OtherExn MBadArg) /\ (r = Throw (OtherExn MRuntime) -> sp = Device.SHost) /\
  (r = UB -> restart = 0%Z) /\ talls N C nr nc (b_X t) /\ long N C nc (b_fn t).
Proof. exact run_safe. Qed.
Print Assumptions C94_memory_safe_in_any_arithmetic.

(** In binary64 every such run ends, and [ends_well] lists all the ways: for all starting numbers, tolerances, tau and maxiter,
    NaN and infinities included. *)
Theorem C94_every_binary64_run_ends_well :
  forall sp ord ord1 junk red ordk ord1k junkk heevd potrf potrs opS opP En Ex ncompute C nr nc,
  shapes_ok binaryN ord ord1 red ordk ord1k heevd potrf potrs opS opP En Ex ncompute C nr nc ->
  exists fb, forall maxiter tol tau restart s0 r t evs, talls binaryN C nr nc (b_X s0) -> long binaryN C nc (b_fn s0) ->
  nlcg_us F64 (num_problem binaryN sp ord ord1 junk red ordk ord1k junkk heevd potrf potrs opS opP En Ex ncompute C)
    maxiter tol tau restart 223 fb s0 = (r, t, evs) ->
  ends_well binaryN sp Ex tau restart r /\ talls binaryN C nr nc (b_X t) /\ long binaryN C nc (b_fn t).
Proof. exact binary_run_ends. Qed.
Print Assumptions C94_every_binary64_run_ends_well.

(** The search for the chemical potential inside a run returns or throws in every arithmetic: [MMuFail] hides nothing else. *)
Theorem C94_chemical_potential_returns_or_throws :
  forall A Ne T occ tol skip Sg S x w,
  (exists mu, mu_of A Ne T occ tol skip Sg S x w = Ret mu) \/ (exists e, mu_of A Ne T occ tol skip Sg S x w = Throw e).
Proof. exact mu_of_ends. Qed.
Print Assumptions C94_chemical_potential_returns_or_throws.

(** With exact numbers this is the run of C93: same numbers, same end, same memory. *)
Theorem C94_exact_run_is_the_run_in_memory :
  forall sp ord ord1 junk red ordk ord1k junkk heevd potrf potrs opS opP En Ex mcompute C maxiter tol tau restart fq fb s0,
  let rm := nlcg_us Rarith (mem_problem sp ord ord1 junk red ordk ord1k junkk heevd potrf potrs opS opP En Ex mcompute C)
    maxiter tol tau restart fq fb s0 in
  nlcg_us Rarith (num_problem exactN sp ord ord1 junk red ordk ord1k junkk heevd potrf potrs opS opP En Ex mcompute (exact_set C))
    maxiter tol tau restart fq fb (st_of s0) = (fst (fst rm), st_of (snd (fst rm)), snd rm).
Proof. exact run_exact. Qed.
Print Assumptions C94_exact_run_is_the_run_in_memory.

(** The numbers of the binary64 run: constants have the values written in the code, operations are IEEE operations on the parts. *)
Theorem C94_binary_numbers :
  (B2R (n_0 binaryN : f64) = 0 /\ B2R (n_1 binaryN : f64) = 1 /\ B2R (n_m1 binaryN : f64) = -1 /\ B2R (n_2 binaryN : f64) = 2 /\
  Rabs (B2R (n_tinymu binaryN : f64) - 1 / 10 ^ 12) <= / 2 ^ 53 * (1 / 10 ^ 12) /\ Rabs (B2R (n_tinye binaryN : f64) - 1 / 10 ^ 10) <= / 2 ^ 53 * (1 / 10 ^ 10) /\
  (forall x : f64, n_r binaryN x = x /\ n_re binaryN (n_c binaryN x) = x /\ B2R (snd (n_c binaryN x : f64 * f64)) = 0 /\ n_sqrt binaryN x = Bsqrt mode_NE x) /\
  (forall (a b x : f64), n_re binaryN (a, b) = a /\ n_sub binaryN (a, b) x = (Bminus mode_NE a x, b) /\ n_add binaryN (a, b) x = (Bplus mode_NE a x, b) /\
    n_mul binaryN (a, b) x = (Bmult mode_NE a x, Bmult mode_NE b x)))%R.
Proof. exact binary_numbers. Qed.
Print Assumptions C94_binary_numbers.

(** NaN is not noticed by a run (finding): two k-points on two ranks with NaN wave functions, an eigensolver and a Cholesky solver
    that fill their matrices with NaN and report success, a functional that returns NaN.  Two iterations run, all line searches
    succeed, and the run returns normally with NaN as free energy, in every space. *)
Theorem C94_nan_noticed_refuted :
  forall sp, exists info t evs, nan_run sp 2 = (Ret info, t, evs) /\ iF info = Some qn /\ b_F t = qn /\ forallb nan_ok evs = true /\ length evs = 7.
Proof. exact nan_returns. Qed.
Print Assumptions C94_nan_noticed_refuted.

(** The lengths of what the functional returns are not checked (finding): one band energy too many is undefined behaviour. *)
Theorem C94_extents_checked_refuted :
  exists comp : unit -> (key -> view (nE binaryN)) -> (key -> nvec binaryN) ->
      ((f64 * (key -> view (nE binaryN)) * (key -> nvec binaryN)) + unit) * unit,
  (forall en X f, exists e hx ek, fst (comp en X f) = inl (e, hx, ek) /\ talls binaryN (nan_set FERMI_DIRAC) nan_rows nan_cols hx /\
     forall k, fst (ek k) = S (nan_cols k)) /\
  forall sp, fst (fst (nlcg_us F64 (nan_problem sp comp FERMI_DIRAC) 2 (flit 1 1000000000) (flit 1 10) 10 10 10 nan_start)) = Throw (OtherExn MUndefined).
Proof. exact long_energies. Qed.
Print Assumptions C94_extents_checked_refuted.

(** The hypotheses hold for the run of NaN above, with loops that run backwards. *)
Example C94_example :
  forall s, shapes_ok binaryN (fun _ _ _ => back) (fun _ _ _ => back1) (fun _ _ _ => line) (fun _ _ => back) (fun _ _ => back1)
    nan_heevd nan_potrf nan_potrs nan_op nan_op unit unit nan_compute (nan_set s) nan_rows nan_cols /\
  talls binaryN (nan_set s) nan_rows nan_cols (b_X nan_start) /\ long binaryN (nan_set s) nan_cols (b_fn nan_start).
Proof. intros s. split; [apply nan_shapes|apply nan_start_ok]. Qed.
