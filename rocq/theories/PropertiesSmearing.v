(** Properties C29-C36, C62: the smearing functions, entropy, free energy, temperature check and the
    success of the chemical potential search.  Exact real arithmetic. *)
From Coq Require Import Reals Lra Psatz ZArith List Bool Lia Sorted.
From Flocq Require Import IEEE754.BinarySingleNaN.
From Coquelicot Require Import Coquelicot.
From Verif Require Import Arith Float64 Erf MVector Mpi MpiProofs Containers ChemPot Newton Occupation Smearing SmearingProofs SmearingUse SmearingFind SmearingFacts.
Import ListNotations.
Local Open Scope R_scope.

(** ** C29 *)
Theorem C29_bounds_and_monotone :
  forall (s : smearing_type) (mo : R), s = FERMI_DIRAC \/ s = GAUSS \/ s = GAUSSIAN_SPLINE -> 0 <= mo ->
  (forall x, 0 <= sfn (smearing_class s) x mo <= mo) /\
  (forall x y, x <= y -> sfn (smearing_class s) x mo <= sfn (smearing_class s) y mo).
Proof. exact bounds_mono. Qed.
Print Assumptions C29_bounds_and_monotone.

Theorem C29_methfessel_paxton_refuted :
  forall mo, 0 < mo -> exists x y z t, sfn methfessel_paxton x mo < 0 /\ mo < sfn methfessel_paxton y mo /\
  z < t /\ sfn methfessel_paxton t mo < sfn methfessel_paxton z mo.
Proof. exact mp_refute. Qed.
Print Assumptions C29_methfessel_paxton_refuted.

Theorem C29_cold_refuted :
  forall mo, 0 < mo -> exists y z t, mo < sfn cold_smearing y mo /\ z < t /\ sfn cold_smearing t mo < sfn cold_smearing z mo.
Proof. exact cold_refute. Qed.
Print Assumptions C29_cold_refuted.

Example C29_example : sfn fermi_dirac 0 2 = 1 /\ sfn fermi_dirac 41 2 = 2 /\ sfn gaussian_spline (-9) 2 = 0 /\ sfn gauss_smearing 0 1 = / 2.
Proof.
  cbn [sfn fermi_dirac gaussian_spline gauss_smearing]. unfold fd_fn, gs_fn, gauss_fn. rewrite exp_0, erf_0. repeat split; rcases; lra.
Qed.

(** ** C30 *)
Theorem C30_delta_is_the_derivative :
  forall (s : smearing_type) (x mo : R),
  match s with FERMI_DIRAC => Rabs x < 35 | GAUSSIAN_SPLINE => Rabs x < 7 | COLD => Rabs x < 8 | GAUSS | METHFESSEL_PAXTON => True end ->
  is_derive (fun y => sfn (smearing_class s) y mo) x (sdelta (smearing_class s) x mo).
Proof. exact delta_derive. Qed.
Print Assumptions C30_delta_is_the_derivative.

(** Between the windows of fn and delta. *)
Theorem C30_windows_differ :
  forall mo, 0 < mo ->
  (forall x, 35 < x < 40 -> sdelta fermi_dirac x mo = 0 /\ exists d, is_derive (fun y => sfn fermi_dirac y mo) x d /\ 0 < d) /\
  (forall x, 7 < Rabs x < 8 -> sdelta gaussian_spline x mo = 0 /\ exists d, is_derive (fun y => sfn gaussian_spline y mo) x d /\ 0 < d) /\
  (forall x, 8 < x <= 10 -> sdelta cold_smearing x mo < 0 /\ is_derive (fun y => sfn cold_smearing y mo) x 0).
Proof. exact gaps. Qed.
Print Assumptions C30_windows_differ.

Example C30_example : sdelta fermi_dirac 0 2 = / 2 /\ sdelta fermi_dirac 36 2 = 0.
Proof.
  cbn [sdelta fermi_dirac]. unfold fd_delta. split.
  - rewrite Rabs_R0. rcases; [lra|]. replace (- 0 / 2) with 0 by field. replace (0 / 2) with 0 by field. rewrite exp_0. eqR. field.
  - rewrite (Rabs_pos_eq 36) by lra. rcases; lra.
Qed.

(** ** C31 *)
Theorem C31_entropy_consistent :
  forall (s : smearing_type) (x mo : R),
  match s with FERMI_DIRAC => Rabs x < 35 | GAUSSIAN_SPLINE => Rabs x < 7 | COLD => Rabs x < 8 | GAUSS | METHFESSEL_PAXTON => True end ->
  s <> GAUSSIAN_SPLINE \/ mo = 1 ->
  is_derive (fun y => sentropy (smearing_class s) y mo) x (- x * sdelta (smearing_class s) x mo).
Proof. exact entropy_derive. Qed.
Print Assumptions C31_entropy_consistent.

(** Spline entropy with any other maximal occupation. *)
Theorem C31_spline_refuted :
  forall x mo, 0 < Rabs x < 7 -> mo <> 1 ->
  ~ is_derive (fun y => sentropy gaussian_spline y mo) x (- x * sdelta gaussian_spline x mo).
Proof. exact spline_entropy_refute. Qed.
Print Assumptions C31_spline_refuted.

Example C31_example : (0 < Rabs 1 < 7) /\ 2 <> 1 /\ sentropy gauss_smearing 0 2 = / sqrt PI.
Proof.
  rewrite Rabs_pos_eq by lra. split; [lra|]. split; [lra|]. cbn [sentropy gauss_smearing]. unfold gauss_entropy.
  replace (- 0 * 0) with 0 by ring. rewrite exp_0. unfold sqpi. eqR. field. apply Rgt_not_eq, sqrt_lt_R0, PI_RGT_0.
Qed.

(** ** C32 *)
Theorem C32_dxdelta_is_the_derivative :
  forall (s : smearing_type) (x mo : R),
  match s with FERMI_DIRAC => Rabs x < 35 | GAUSSIAN_SPLINE => Rabs x < 7 | COLD => Rabs x < 8 | GAUSS | METHFESSEL_PAXTON => True end ->
  s = FERMI_DIRAC \/ s = GAUSS \/ s = COLD \/ (s = GAUSSIAN_SPLINE /\ 0 < x) ->
  is_derive (fun y => sdelta (smearing_class s) y mo) x (sdxdelta (smearing_class s) x mo).
Proof. exact dxdelta_derive. Qed.
Print Assumptions C32_dxdelta_is_the_derivative.

(** The true derivative has one more factor x. *)
Theorem C32_missing_factor :
  forall x mo,
  is_derive (fun y => sdelta methfessel_paxton y mo) x (x * sdxdelta methfessel_paxton x mo) /\
  (-7 < x <= 0 -> is_derive (fun y => sdelta gaussian_spline y mo) x (x * sdxdelta gaussian_spline x mo)).
Proof. exact dxdelta_missing_factor. Qed.
Print Assumptions C32_missing_factor.

Theorem C32_methfessel_paxton_refuted :
  forall x mo, 0 < mo -> x <> 1 -> 2 * x * x <> 5 -> ~ is_derive (fun y => sdelta methfessel_paxton y mo) x (sdxdelta methfessel_paxton x mo).
Proof. exact SmearingProofs2.mp_dxdelta_wrong. Qed.
Print Assumptions C32_methfessel_paxton_refuted.

Theorem C32_spline_refuted :
  forall x mo, 0 < mo -> -7 < x <= 0 -> ~ is_derive (fun y => sdelta gaussian_spline y mo) x (sdxdelta gaussian_spline x mo).
Proof. exact SmearingProofs2.gs_dxdelta_wrong. Qed.
Print Assumptions C32_spline_refuted.

Example C32_example : 0 < 2 /\ 0 <> 1 /\ 2 * 0 * 0 <> 5 /\ -7 < -1 <= 0 /\ sdxdelta methfessel_paxton 0 1 = - 5 / sqrt PI.
Proof.
  repeat split; try lra. cbn [sdxdelta methfessel_paxton]. unfold mp_dxdelta. replace (- 0 * 0) with 0 by ring. rewrite exp_0. unfold sqpi.
  eqR. field. apply Rgt_not_eq, sqrt_lt_R0, PI_RGT_0.
Qed.

(** ** C33 *)
Theorem C33_truncation_error :
  forall x mo, 0 <= mo ->
  Rabs (sfn fermi_dirac x mo - mo / (1 + exp (- x))) <= mo * exp (-35) /\
  Rabs (sfn gaussian_spline x mo -
        (if Rle_dec x 0 then mo / 2 * exp (x * (sqrt 2 - x)) else mo * (1 - / 2 * exp (- x * (sqrt 2 + x))))) <= mo * exp (-64) / 2.
Proof. exact trunc. Qed.
Print Assumptions C33_truncation_error.

Example C33_example : sfn fermi_dirac (-36) 1 = 0 /\ 0 < 1 / (1 + exp (- (-36))).
Proof.
  cbn [sfn fermi_dirac]. unfold fd_fn. split; [rcases; lra|]. pose proof (exp_pos (- (-36))). apply Rdiv_lt_0_compat; lra.
Qed.

(** ** C34 *)
(** One (energies, weights) pair per rank; every rank obtains the same entropy. *)
Theorem C34_free_energy_below_energy :
  forall (s : smearing_type) (T occ mu etot : R) n (red : list (num Rarith) -> num Rarith) world,
  s = FERMI_DIRAC \/ s = GAUSS \/ s = GAUSSIAN_SPLINE -> 0 <= T -> 0 <= occ ->
  (forall l, red l = rsum l) -> n = length world -> (forall r, In r world -> rank_ok r) ->
  (forall r kw, In r world -> In kw (mdata (snd r)) -> 0 <= snd kw) ->
  exists S : R, smearing_entropy Rarith n red (smearing_class s) T occ mu world = Some (map (fun _ => Ret S) world) /\
    S = - rsum (map (fun r => weighted (fun e => sentropy (smearing_class s) ((mu - e) / (kb Rarith * T)) occ) (mdata (fst r)) (mdata (snd r))) world) /\
    free_energy_of Rarith T etot S <= etot.
Proof. exact free_energy_below. Qed.
Print Assumptions C34_free_energy_below_energy.

Theorem C34_methfessel_paxton_and_cold_refuted :
  forall (s : smearing_type) (occ etot : R), s = METHFESSEL_PAXTON \/ s = COLD -> 0 < occ ->
  exists T mu e S : R, 0 < T /\
    smearing_entropy Rarith 1 rsum (smearing_class s) T occ mu (one_state e) = Some [Ret S] /\
    etot < free_energy_of Rarith T etot S.
Proof. exact free_energy_above. Qed.
Print Assumptions C34_methfessel_paxton_and_cold_refuted.

Definition two_ranks : list (mvec (list (num Rarith)) * mvec (num Rarith)) :=
  [(MkMvec [((0, 0)%Z, [(-1) : num Rarith; 2]); ((0, 1)%Z, [0 : num Rarith])] CK, MkMvec [((0, 0)%Z, (1 / 2) : num Rarith); ((0, 1)%Z, (1 / 4) : num Rarith)] CK);
   (MkMvec [((1, 0)%Z, [(-1) : num Rarith])] CK, MkMvec [((1, 0)%Z, (1 / 4) : num Rarith)] CK)].
Example C34_example : (forall r, In r two_ranks -> rank_ok r) /\ (forall r kw, In r two_ranks -> In kw (mdata (snd r)) -> 0 <= snd kw) /\ 2%nat = length two_ranks.
Proof.
  split; [|split; [|reflexivity]].
  - assert (S1 : StronglySorted klt [(0, 0)%Z; (0, 1)%Z]) by (constructor; [constructor; [constructor|constructor]|constructor; [reflexivity|constructor]]).
    assert (S2 : StronglySorted klt [(1, 0)%Z]) by (constructor; constructor).
    intros r [<-|[<-|[]]]; (split; [|split; [|split; [|reflexivity]]]); cbn [fst snd mdata]; assumption || (intros k H; exact H).
  - intros r kw [<-|[<-|[]]]; cbn [fst snd mdata].
    + intros [<-|[<-|[]]]; [change (0 <= 1 / 2)|change (0 <= 1 / 4)]; lra.
    + intros [<-|[]]. change (0 <= 1 / 4). lra.
Qed.

(** ** C35 *)
Theorem C35_constructor :
  forall T : R, smearing_ctor Rarith T = if Req_EM_T T 0 then Throw RuntimeError else Ret (T * kb Rarith).
Proof. exact ctor_spec. Qed.
Print Assumptions C35_constructor.

Lemma negative_accepted : exists T kT : R, T < 0 /\ smearing_ctor Rarith T = Ret kT.
Proof.
  exists (-1), (-1 * kb Rarith). split; [lra|]. rewrite ctor_spec. destruct (Req_EM_T (-1) 0) as [E|E]; [lra|reflexivity].
Qed.
Theorem C35_negative_temperature_raises_refuted : exists T kT : R, T < 0 /\ smearing_ctor Rarith T = Ret kT.
Proof. exact negative_accepted. Qed.
Print Assumptions C35_negative_temperature_raises_refuted.

Theorem C35_negative_temperature_inverts :
  forall (s : smearing_type) (T occ e mu1 mu2 : R), T < 0 -> 0 <= occ -> s = FERMI_DIRAC \/ s = GAUSS \/ s = GAUSSIAN_SPLINE -> mu1 <= mu2 ->
  sfn (smearing_class s) ((mu2 - e) / (kb Rarith * T)) occ <= sfn (smearing_class s) ((mu1 - e) / (kb Rarith * T)) occ.
Proof. exact negative_T. Qed.
Print Assumptions C35_negative_temperature_inverts.

(** Doubles: both zeros raise, a negative temperature and NaN do not. *)
Example C35_example :
  match smearing_ctor F64 (flit 0 1), smearing_ctor F64 (B754_zero true), smearing_ctor F64 (flit (-300) 1), smearing_ctor F64 B754_nan with
  | Throw RuntimeError, Throw RuntimeError, Ret _, Ret _ => True
  | _, _, _, _ => False
  end.
Proof. vm_compute. exact I. Qed.

(** ** C36 *)
Theorem C36_particle_hole :
  forall (s : smearing_type) (x mo : R),
  match s with FERMI_DIRAC => Rabs x <= 35 | COLD => False | _ => True end ->
  sfn (smearing_class s) x mo + sfn (smearing_class s) (- x) mo = mo.
Proof. exact symmetric. Qed.
Print Assumptions C36_particle_hole.

Theorem C36_even_delta :
  forall (s : smearing_type) (x mo : R), s <> COLD -> sdelta (smearing_class s) (- x) mo = sdelta (smearing_class s) x mo.
Proof. exact even. Qed.
Print Assumptions C36_even_delta.

(** delta at (e-mu)/kT, the argument used by grad_eta.hpp, gives the slope of the occupation in e. *)
Theorem C36_slope_in_energy :
  forall (s : smearing_type) (mu e kT mo : R), kT <> 0 -> s <> COLD ->
  match s with FERMI_DIRAC => Rabs ((mu - e) / kT) < 35 | GAUSSIAN_SPLINE => Rabs ((mu - e) / kT) < 7 | COLD => Rabs ((mu - e) / kT) < 8 | GAUSS | METHFESSEL_PAXTON => True end ->
  is_derive (fun y => sfn (smearing_class s) ((mu - y) / kT) mo) e (- sdelta (smearing_class s) ((e - mu) / kT) mo / kT).
Proof. exact occupation_slope. Qed.
Print Assumptions C36_slope_in_energy.

Theorem C36_cold_refuted :
  forall mo, 0 < mo -> exists mu e kT, 0 < kT /\
  ~ is_derive (fun y => sfn cold_smearing ((mu - y) / kT) mo) e (- sdelta cold_smearing ((e - mu) / kT) mo / kT).
Proof. exact cold_slope. Qed.
Print Assumptions C36_cold_refuted.

Theorem C36_fermi_dirac_outside_refuted : forall mo, 0 < mo -> exists x, sfn fermi_dirac x mo + sfn fermi_dirac (- x) mo < mo.
Proof. exact (fun mo H => ex_intro _ 36 (SmearingProofs2.fd_asym mo H)). Qed.
Print Assumptions C36_fermi_dirac_outside_refuted.

Example C36_example : Rabs ((1 - 2) / (1 / 10)) < 35 /\ 1 / 10 <> 0 /\ FERMI_DIRAC <> COLD.
Proof. split; [|split; [lra|discriminate]]. apply Rabs_def1; lra. Qed.

(** ** C62 *)
(** Every rank gets a chemical potential that meets the tolerance; only an exact tie |error| = tol fails. *)
Theorem C62_search_succeeds :
  forall (Ne T occ : R) (skip : bool) (Sg S : smear Rarith) (world : list (smap (list R) * smap R)),
  NoDup (keys (concat (map fst world))) /\ NoDup (keys (concat (map snd world))) /\
    (forall xw, In xw world -> keys (fst xw) = keys (snd xw)) ->
  1 <= T <= 1000000 -> 0 < occ -> 0 <= Ne <= occ * capacity world -> 0 < capacity world ->
  (S = fermi_dirac /\ occ * capacity world <= 5000) \/ (S = gaussian_spline /\ occ * capacity world <= 1000000) ->
  (forall xw kw, In xw world -> In kw (snd xw) -> 0 <= snd kw) ->
  (forall xw kv e, In xw world -> In kv (fst xw) -> In e (snd kv) -> Rabs e <= 1000) ->
  world <> [] ->
  exists (mu : R),
  let fs := map (fun xw => occupations Rarith occ S (kb Rarith * T) mu (fst xw)) world in
  (Rabs (Ne - electrons (map snd world) fs) < / 100000000000 /\
     occupation Rarith Ne T occ (/ 100000000000) skip Sg S world = Some (map (fun f => Ret (mu, f)) fs)) \/
  (Rabs (Ne - electrons (map snd world) fs) = / 100000000000 /\
     occupation Rarith Ne T occ (/ 100000000000) skip Sg S world = Some (map (fun _ => Throw RuntimeError) world)).
Proof. exact occupation_found. Qed.
Print Assumptions C62_search_succeeds.

Definition metal : list (smap (list R) * smap R) :=
  [([((0, 0)%Z, [- 1 / 2; 0; 3])], [((0, 0)%Z, 1 / 2)]); ([((1, 0)%Z, [- 1 / 2; 1 / 10])], [((1, 0)%Z, 1 / 2)])].
Example C62_example :
  (NoDup (keys (concat (map fst metal))) /\ NoDup (keys (concat (map snd metal))) /\ (forall xw, In xw metal -> keys (fst xw) = keys (snd xw))) /\
  capacity metal = 5 / 2 /\
  (forall xw kw, In xw metal -> In kw (snd xw) -> 0 <= snd kw) /\
  (forall xw kv e, In xw metal -> In kv (fst xw) -> In e (snd kv) -> Rabs e <= 1000) /\ metal <> [].
Proof.
  assert (N : NoDup [(0, 0)%Z; (1, 0)%Z]) by (constructor; [intros [H|[]]; discriminate|constructor; [intros []|constructor]]).
  split; [split; [exact N|split; [exact N|intros xw [<-|[<-|[]]]; reflexivity]]|].
  split; [unfold capacity, bands_at; cbn; lra|]. split; [|split; [|discriminate]].
  - intros xw kw [<-|[<-|[]]] [<-|[]]; cbn [snd]; lra.
  - intros xw kv e [<-|[<-|[]]] [<-|[]]; cbn [snd]; intros H; repeat (destruct H as [<-|H]; [apply Rabs_le; lra|]); destruct H.
Qed.
