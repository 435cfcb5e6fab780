(** Occupations, electron count and chemical potential in IEEE binary64 (C73 - C76).
    Only statements, their one-line proofs, the assumptions, and examples. *)
From Coq Require Import ZArith Reals Lra Lia Bool List.
From Flocq Require Import Core.Core IEEE754.BinarySingleNaN.
From Verif Require Import Arith Float64 FloatMono MVector Containers Newton ChemPot Occupation Smearing SmearFloat SmearFloatProofs CountFloat FloatSearch FloatLive FloatMain FloatLibm CountError.
Import ListNotations.
Local Open Scope R_scope.
Local Notation bp := (bpow radix2).

(** ** C73 *)
(** Between 0 and mo, and non-decreasing, for every argument that is not a NaN, infinities included. *)
Theorem C73_occupations_in_range_and_monotone :
  forall (L : libm) (s : smearing_type) (mo : f64), libm_ok L -> monotone_class s -> mo_ok mo ->
  forall x, is_nan x = false ->
  let f := sfn (smearing_classF L s) in
  is_finite (f x mo) = true /\ Bleb (fz 0) (f x mo) = true /\ Bleb (f x mo) mo = true /\
  forall y, Bleb x y = true -> Bleb (f x mo) (f y mo) = true.
Proof. exact float_occupations. Qed.
Print Assumptions C73_occupations_in_range_and_monotone.

Theorem C73_deltas_finite_and_nonnegative :
  forall (L : libm) (s : smearing_type) (mo : f64), libm_ok L -> monotone_class s -> mo_ok mo -> B2R mo <= bp 1000 ->
  forall x, is_nan x = false ->
  is_finite (sdelta (smearing_classF L s) x mo) = true /\ Bleb (fz 0) (sdelta (smearing_classF L s) x mo) = true.
Proof. exact float_deltas. Qed.
Print Assumptions C73_deltas_finite_and_nonnegative.

(** A positive temperature that the constructor accepts can make kT underflow to 0; the occupation of a band at
    the chemical potential is then a NaN. *)
Theorem C73_positive_temperature_refuted :
  exists T kT mu e mo : f64, is_finite T = true /\ Bltb (fz 0) T = true /\ smearing_ctor F64 T = Ret kT /\
  is_finite mu = true /\ is_finite e = true /\ mo_ok mo /\
  forall L, lexp L B754_nan = B754_nan -> sfn (smearing_classF L FERMI_DIRAC) (fdiv (fsub mu e) kT) mo = B754_nan.
Proof. exact tiny_T. Qed.
Print Assumptions C73_positive_temperature_refuted.

(** Methfessel-Paxton: 0 * inf for a finite argument. *)
Theorem C73_methfessel_paxton_delta_refuted :
  exists x mo : f64, is_finite x = true /\ mo_ok mo /\
  forall L, lexp L (B754_infinity true) = fz 0 -> sdelta (smearing_classF L METHFESSEL_PAXTON) x mo = B754_nan.
Proof. exact mp_nan. Qed.
Print Assumptions C73_methfessel_paxton_delta_refuted.

(** A library with correctly rounded exp and erf meets the hypotheses. *)
Example C73_example : libm_ok cr_libm /\ monotone_class GAUSS /\ mo_ok exmo /\ is_nan (B754_infinity true : f64) = false.
Proof. split; [exact cr_libm_ok|]. split; [right; right; reflexivity|]. split; [apply ex_setting|reflexivity]. Qed.

(** ** C74 *)
(** The residual Ne - N(mu) that the search evaluates is finite and non-increasing in mu. *)
Theorem C74_residual_monotone :
  forall (L : libm) (s : smearing_type) (T mo Ne : f64) (world : list (smap (list f64) * smap f64)),
  libm_ok L -> monotone_class s -> setting_ok T mo Ne -> world_ok world ->
  let f := residual F64 Ne T mo (smearing_classF L s) (xunion F64 world) (wunion F64 world) in
  (forall x, is_finite x = true -> is_finite (f x) = true) /\
  (forall x y, is_finite x = true -> is_finite y = true -> Bleb x y = true -> Bleb (f y) (f x) = true).
Proof. exact res_antitone. Qed.
Print Assumptions C74_residual_monotone.

(** Every update moves towards every acceptable chemical potential, or is absorbed by rounding. *)
Theorem C74_every_step_towards :
  forall (f : f64 -> f64) (tol r : f64),
  antitone f -> is_finite tol = true /\ 0 <= B2R tol -> is_finite r = true -> Bleb (Babs (f r)) tol = true ->
  ftowards r (rev (snd (fst (find_chemical_potential F64 f tol (fz 0))))).
Proof. exact (fun f tol r Hf Ht => search_dir f tol Hf Ht r). Qed.
Print Assumptions C74_every_step_towards.

(** The two together, for the walk of a run. *)
Theorem C74_steps_of_a_run :
  forall (L : libm) (s : smearing_type) (T mo Ne tol r : f64) (world : list (smap (list f64) * smap f64)),
  libm_ok L -> monotone_class s -> setting_ok T mo Ne -> world_ok world ->
  is_finite tol = true /\ 0 <= B2R tol -> is_finite r = true ->
  let f := residual F64 Ne T mo (smearing_classF L s) (xunion F64 world) (wunion F64 world) in
  Bleb (Babs (f r)) tol = true -> ftowards r (rev (snd (fst (find_chemical_potential F64 f tol (fz 0))))).
Proof. exact (fun L s T mo Ne tol r world HL Hs HT HW Ht Fr => search_dir _ tol (res_antitone L s T mo Ne world HL Hs HT HW) Ht r Fr). Qed.
Print Assumptions C74_steps_of_a_run.

Example C74_example :
  libm_ok cr_libm /\ monotone_class FERMI_DIRAC /\ setting_ok exT exmo exNe /\ world_ok exworld /\
  is_finite exhi = true /\
  Bleb (Babs (residual F64 exNe exT exmo (smearing_classF cr_libm FERMI_DIRAC) (xunion F64 exworld) (wunion F64 exworld) exhi)) extol = true.
Proof.
  split; [exact cr_libm_ok|]. split; [left; reflexivity|]. split; [exact ex_setting|]. split; [exact ex_world|].
  split; [vm_compute; reflexivity|]. generalize cr_libm. intros L. vm_compute. reflexivity.
Qed.

(** ** C75 *)
(** A finite, non-increasing residual that is at most tol at [lo] and at least -tol at [hi], with [lo] and [hi]
    within +-2^(j-1) and 2^(j-50) apart: at most 371 updates reach |residual| <= tol.  Only an exact tie fails. *)
Theorem C75_search_succeeds_in_double :
  forall (f : f64 -> f64) (tol lo hi : f64) (j : Z),
  antitone f -> is_finite tol = true -> Bleb (fz 0) tol = true ->
  is_finite lo = true -> is_finite hi = true -> (1 <= j <= 40)%Z ->
  Rabs (B2R lo) <= bp (j - 1) -> Rabs (B2R hi) <= bp (j - 1) -> bp (j - 50) <= B2R hi - B2R lo ->
  Bleb (f lo) tol = true -> Bleb (Bopp tol) (f hi) = true ->
  exists mu vis c, is_finite mu = true /\ (length vis <= 372)%nat /\
  ((Bltb (Babs (f mu)) tol = true /\ find_chemical_potential F64 f tol (fz 0) = (Ret mu, vis, c)) \/
   (Rabs (B2R (f mu)) = B2R tol /\ find_chemical_potential F64 f tol (fz 0) = (Throw RuntimeError, vis, c))).
Proof. exact float_search. Qed.
Print Assumptions C75_search_succeeds_in_double.

(** All ranks of a run. *)
Theorem C75_occupations_of_a_run :
  forall (L : libm) (s : smearing_type) (T mo Ne tol : f64) (skip : bool) (Sg : smear F64)
         (world : list (smap (list f64) * smap f64)) (lo hi : f64) (j : Z),
  libm_ok L -> monotone_class s -> setting_ok T mo Ne -> world_ok world -> world <> [] ->
  is_finite tol = true -> Bleb (fz 0) tol = true ->
  is_finite lo = true -> is_finite hi = true -> (1 <= j <= 40)%Z ->
  Rabs (B2R lo) <= bp (j - 1) -> Rabs (B2R hi) <= bp (j - 1) -> bp (j - 50) <= B2R hi - B2R lo ->
  let f := residual F64 Ne T mo (smearing_classF L s) (xunion F64 world) (wunion F64 world) in
  Bleb (f lo) tol = true -> Bleb (Bopp tol) (f hi) = true ->
  exists mu, is_finite mu = true /\
  let fs := map (fun xw => occupations F64 mo (smearing_classF L s) (fmul (kb F64) T) mu (fst xw)) world in
  ((Bltb (Babs (f mu)) tol = true /\
     occupation F64 Ne T mo tol skip Sg (smearing_classF L s) world = Some (map (fun o => Ret (mu, o)) fs)) \/
   (Rabs (B2R (f mu)) = B2R tol /\
     occupation F64 Ne T mo tol skip Sg (smearing_classF L s) world = Some (map (fun _ => Throw RuntimeError) world))) /\
  (forall xw k v o, In xw world -> In (k, v) (occupations F64 mo (smearing_classF L s) (fmul (kb F64) T) mu (fst xw)) -> In o v ->
    is_finite o = true /\ Bleb (fz 0) o = true /\ Bleb o mo = true).
Proof. exact float_occupation. Qed.
Print Assumptions C75_occupations_of_a_run.

Example C75_example :
  setting_ok exT exmo exNe /\ world_ok exworld /\ exworld <> [] /\
  (is_finite exlo = true /\ is_finite exhi = true /\
   Rabs (B2R exlo) <= bp (1 - 1) /\ Rabs (B2R exhi) <= bp (1 - 1) /\ bp (1 - 50) <= B2R exhi - B2R exlo) /\
  let f := residual F64 exNe exT exmo (smearing_classF cr_libm FERMI_DIRAC) (xunion F64 exworld) (wunion F64 exworld) in
  Bleb (f exlo) extol = true /\ Bleb (Bopp extol) (f exhi) = true.
Proof.
  split; [exact ex_setting|]. split; [exact ex_world|]. split; [discriminate|]. split; [exact ex_bounds|exact (ex_residual cr_libm)].
Qed.

(** ** C76 *)
(** The occupations returned, weighted and summed without rounding, hold Ne electrons up to the tolerance and
    the rounding errors of the count: 2^-53 per band of a k-point and per k-point, relative to the total. *)
Theorem C76_electrons_in_double :
  forall (L : libm) (s : smearing_type) (T mo Ne tol : f64) (skip : bool) (Sg : smear F64)
         (world : list (smap (list f64) * smap f64)) outs (nb : nat),
  libm_ok L -> monotone_class s -> setting_ok T mo Ne -> world_ok world -> world <> [] ->
  NoDup (keys (concat (map fst world))) -> NoDup (keys (concat (map snd world))) ->
  (forall xw, In xw world -> keys (fst xw) = keys (snd xw)) ->
  (forall x w k ek, In (x, w) world -> In (k, ek) x -> (length ek <= nb)%nat) ->
  INR (nb + length (concat (map snd world)) + 1) * uu <= / 4 ->
  is_finite tol = true ->
  occupation F64 Ne T mo tol skip Sg (smearing_classF L s) world = Some outs ->
  (forall o, In o outs -> o = Throw RuntimeError) \/
  exists mu fs, outs = map (fun f => Ret (mu, f)) fs /\ is_finite mu = true /\
    let E := electrons_exact (map snd world) fs in
    Rabs (B2R Ne - E) <= (1 + uu) * B2R tol + 2 * (INR (nb + length (concat (map snd world)) + 1) * uu) * E + bp (-1000).
Proof. exact float_electrons. Qed.
Print Assumptions C76_electrons_in_double.

Example C76_example :
  NoDup (keys (concat (map fst exworld))) /\ NoDup (keys (concat (map snd exworld))) /\
  (forall xw, In xw exworld -> keys (fst xw) = keys (snd xw)) /\
  INR (2 + length (concat (map snd exworld)) + 1) * uu <= / 4 /\
  match occupation F64 exNe exT exmo extol true (smearing_classF cr_libm GAUSS) (smearing_classF cr_libm FERMI_DIRAC) exworld with
  | Some [Ret (mu, _); Ret (mu', _)] => Bleb mu mu' = true /\ Bleb (Babs mu) (fz 1) = true
  | _ => False
  end.
Proof.
  assert (N : NoDup [(0, 0)%Z; (1, 0)%Z]) by (constructor; [intros [H|[]]; discriminate|constructor; [intros []|constructor]]).
  split; [exact N|]. split; [exact N|]. split; [intros xw [<-|[<-|[]]]; reflexivity|]. split; [cbn; unfold uu; lra|].
  generalize cr_libm. intros L. vm_compute. split; reflexivity.
Qed.
