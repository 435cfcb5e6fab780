(** Properties C08, C10-C20, C61: the minimiser nlcg_us and the API dispatch. *)
From Coq Require Import ZArith List Bool Reals Lra Lia Sorted.
From Flocq Require Import IEEE754.BinarySingleNaN.
From Verif Require Import Arith LineSearch LineSearchSpec LineSearchProofs LineSearchReal Float64
  LineSearchFloat Toys Driver DriverProofs DriverProofs2 DriverProofs3 DriverRun Dispatch DriverWitness.
Import ListNotations.
Local Open Scope Z_scope.

(** ** C08 *)
Theorem C08_failed_search_in_a_run :
  forall (A : arith) (Pb : problem A) maxiter tol tau restart fq fb s0 r st evs,
  nlcg_us A Pb maxiter tol tau restart fq fb s0 = (r, st, evs) ->
  give_up_ok false evs /\ no_double_back (searches evs).
Proof. exact run_give_up. Qed.
Print Assumptions C08_failed_search_in_a_run.

Example C08_run_example :
  map event_code (snd (run_climbing (flit (-1) 1) 5 3)) = [7; 0; 3; 7; 0; 4] /\
  conv_iter (fst (fst (run_climbing (flit (-1) 1) 5 3))) = Some (false, Some 1).
Proof. vm_compute. auto. Qed.

(** ** C10 *)
Theorem C10_convergence_flag :
  forall (A : arith) (Pb : problem A) maxiter tol tau restart fq fb s0 info st evs,
  nlcg_us A Pb maxiter tol tau restart fq fb s0 = (Ret info, st, evs) ->
  (iConv info = true <-> exists rs x, records evs = rs ++ [x] /\ altb A (aabs A (rSlope x)) tol = true) /\
  (forall rs x rs', records evs = rs ++ x :: rs' -> altb A (aabs A (rSlope x)) tol = true -> rs' = []) /\
  (iConv info = true -> exists evs0 step F Sx KS mu sl b,
      evs = evs0 ++ [EvJson step F Sx KS mu sl b] /\ iIter info = Some step /\
      iF info = Some F /\ F = getF Pb st /\ altb A (aabs A sl) tol = true).
Proof. exact run_conv. Qed.
Print Assumptions C10_convergence_flag.

Example C10_example :
  conv_iter (fst (fst (run_quartic 15 3))) = Some (true, Some 3) /\
  conv_iter (fst (fst (run_quartic 3 3))) = Some (false, Some 2).
Proof. vm_compute. auto. Qed.

(** ** C11 *)
Theorem C11_budget_and_records :
  forall (A : arith) (Pb : problem A) maxiter tol tau restart fq fb s0 r st evs,
  nlcg_us A Pb maxiter tol tau restart fq fb s0 = (r, st, evs) ->
  exists k, Z.of_nat k <= Z.max maxiter 0 /\ map rStep (records evs) = map Z.of_nat (seq 0 k) /\
    Forall (fun x => rBands x = (Z.rem (rStep x) 10 =? 0)) (records evs) /\
    (length (searches evs) <= k)%nat.
Proof. exact run_records. Qed.
Print Assumptions C11_budget_and_records.

Example C11_example :
  map rStep (records (snd (run_quartic 15 3))) = [0; 1; 2; 3] /\
  map rBands (records (snd (run_quartic 15 3))) = [true; false; false; false].
Proof. vm_compute. auto. Qed.

(** ** C12 *)
Theorem C12_free_energy_non_increasing :
  forall (Pb : problem Rarith) tol tau restart fq fb (Fc : Dat Pb -> R -> R),
  curve_energy Pb Fc ->
  forall maxiter s0 r st evs,
  nlcg_us Rarith Pb maxiter tol tau restart fq fb s0 = (r, st, evs) ->
  StronglySorted (fun x y => (y <= x)%R) (map (@rF (num Rarith)) (records evs)) /\
  (Forall (fun x => ls_returned x = true) (searches evs) ->
   Forall (fun x => (getF Pb st <= x)%R) (map (@rF (num Rarith)) (records evs))).
Proof. exact nlcg_us_mono. Qed.
Print Assumptions C12_free_energy_non_increasing.

Example C12_example :
  curve_energy parabolaR (fun d t => ((fst d + t * snd d) * (fst d + t * snd d))%R).
Proof. exact parabolaR_curve. Qed.

(** ** C13 *)
Theorem C13_exit_classification :
  forall (A : arith) (Pb : problem A) maxiter tol tau restart fq fb s0 r st evs,
  nlcg_us A Pb maxiter tol tau restart fq fb s0 = (r, st, evs) ->
  match r with
  | Ret info =>
    (iConv info = true) \/
    (Z.of_nat (length (records evs)) = Z.max maxiter 0 /\
      Forall (fun x => ls_returned x = true) (searches evs) /\ iConv info = false) \/
    ((exists evs0 l, evs = evs0 ++ [EvLs l LsDescent]) /\ iConv info = false) \/
    ((exists evs0 l, evs = evs0 ++ [EvLs l LsSlope]) /\ iConv info = false)
  | Throw e => (e = RuntimeError /\ ageb A tau (alit A 1 1) = true) \/ exists x, e = OtherExn x
  | UB => restart = 0 /\ exists evs0 l x, evs = evs0 ++ [EvLs l x] /\ ls_returned x = true
  | NoFuel => True
  end.
Proof. exact run_exit. Qed.
Print Assumptions C13_exit_classification.

(** All exits occur: converged, maxiter, no descent, positive slope, UB. *)
Example C13_example :
  map event_code (snd (run_parabola 5 3)) = [7; 0; 1; 7; 0] /\
  map event_code (snd (run_parabola 1 3)) = [7; 0; 1; 7] /\
  map event_code (snd (run_climbing (flit (-1) 1) 5 3)) = [7; 0; 3; 7; 0; 4] /\
  map event_code (snd (run_climbing (flit 1 1) 5 3)) = [7; 0; 5] /\
  kind_of (fst (fst (run_parabola 5 0))) = 3.
Proof. vm_compute. auto. Qed.

(** ** C14 *)
Theorem C14_restart_zero_is_UB :
  forall (A : arith) (Pb : problem A) maxiter tol tau restart fq fb s0 r st evs x,
  restart = 0 -> nlcg_us A Pb maxiter tol tau restart fq fb s0 = (r, st, evs) ->
  In x (searches evs) -> ls_returned x = true -> r = UB /\ length (records evs) = 1%nat.
Proof. exact run_restart0. Qed.
Print Assumptions C14_restart_zero_is_UB.

Theorem C14_restart_zero_defined_refuted :
  exists (Pb : problem F64) maxiter tol tau s0,
  fst (fst (nlcg_us F64 Pb maxiter tol tau 0 223 20 s0)) = UB.
Proof. exact (ex_intro _ parabola (ex_intro _ 5 (ex_intro _ (flit 1 1000) (ex_intro _ (flit 1 10) (ex_intro _ f1 restart0_witness))))). Qed.
Print Assumptions C14_restart_zero_defined_refuted.

Theorem C14_direction_schedule :
  forall (A : arith) (Pb : problem A) maxiter tol tau restart fq fb s0 r st evs,
  restart <> 0 -> nlcg_us A Pb maxiter tol tau restart fq fb s0 = (r, st, evs) ->
  schedule_ok A restart evs.
Proof. exact run_schedule. Qed.
Print Assumptions C14_direction_schedule.

Example C14_example :
  map event_code (snd (run_quartic 15 3)) = [7; 0; 1; 7; 0; 1; 8; 0; 1; 8; 0] /\
  map event_code (snd (run_parabola 5 0)) = [7; 0; 1].
Proof. vm_compute. auto. Qed.

(** ** C63 *)
Theorem C63_fletcher_reeves_chain :
  forall (A : arith) (Pb : problem A) maxiter tol tau restart fq fb s0 r st evs,
  nlcg_us A Pb maxiter tol tau restart fq fb s0 = (r, st, evs) ->
  evs = [] \/ exists sl rest, evs = EvSteepest sl :: rest /\ fr_chain sl rest.
Proof. exact run_fr. Qed.
Print Assumptions C63_fletcher_reeves_chain.

(** A run with two consecutive conjugate steps. *)
Example C63_example : filter (fun c => 7 <=? c) (map event_code (snd (run_quartic 15 3))) = [7; 7; 8; 8].
Proof. vm_compute. reflexivity. Qed.

(** ** C15, C16 *)
Theorem C15_C16_info_fields :
  forall (A : arith) (Pb : problem A) maxiter tol tau restart fq fb s0 info st evs,
  nlcg_us A Pb maxiter tol tau restart fq fb s0 = (Ret info, st, evs) ->
  (records evs = [] /\ info = info_uninit /\ maxiter <= 0) \/
  (0 < maxiter /\ exists rs x, records evs = rs ++ [x] /\ iF info = Some (rF x) /\
    iTol info = Some (aadd A (rSlope x) (alit A (-1) 1)) /\ iIter info = Some (rStep x) /\
    exists sx, iS info = Some sx).
Proof. exact run_info. Qed.
Print Assumptions C15_C16_info_fields.

(** A converged run reports a tolerance of about -1 although the residual is below tol = 1e-3. *)
Theorem C15_tolerance_is_residual_refuted :
  exists (Pb : problem F64) maxiter tol tau s0 info st evs t,
  nlcg_us F64 Pb maxiter tol tau 3 223 20 s0 = (Ret info, st, evs) /\
  iConv info = true /\ iTol info = Some t /\ Bltb t f0 = true /\ altb F64 (aabs F64 t) tol = false.
Proof. exact tolerance_witness. Qed.
Print Assumptions C15_tolerance_is_residual_refuted.

Theorem C16_fields_initialised_refuted :
  exists (Pb : problem F64) maxiter tol tau s0 info st evs,
  nlcg_us F64 Pb maxiter tol tau 3 223 20 s0 = (Ret info, st, evs) /\
  iF info = None /\ iS info = None /\ iTol info = None /\ iIter info = None /\ iConv info = false.
Proof. exact uninit_witness. Qed.
Print Assumptions C16_fields_initialised_refuted.

Example C15_C16_example :
  conv_iter (fst (fst (run_parabola 5 3))) = Some (true, Some 1) /\
  conv_iter (fst (fst (run_parabola (-2) 3))) = Some (false, None).
Proof. vm_compute. auto. Qed.

(** ** C17 (the converged exit is in C10) *)
Theorem C17_slope_exit_agrees :
  forall (A : arith) (Pb : problem A) maxiter tol tau restart fq fb s0 info st evs l evs0,
  nlcg_us A Pb maxiter tol tau restart fq fb s0 = (Ret info, st, evs) ->
  evs = evs0 ++ [EvLs l LsSlope] -> iF info = Some (getF Pb st) /\ l = [].
Proof. exact run_slope_exit. Qed.
Print Assumptions C17_slope_exit_agrees.

Theorem C17_descent_exit_not_lower :
  forall (A : arith) (Pb : problem A) maxiter tol tau restart fq fb s0 info st evs l evs0,
  altb A (alit A 1 100000000) (alit A 1 5) = true ->
  nlcg_us A Pb maxiter tol tau restart fq fb s0 = (Ret info, st, evs) ->
  evs = evs0 ++ [EvLs l LsDescent] -> exists F, iF info = Some F /\ altb A (getF Pb st) F = false.
Proof. exact run_descent_exit. Qed.
Print Assumptions C17_descent_exit_not_lower.

Theorem C17_maxiter_exit_agrees_refuted :
  exists (Pb : problem F64) maxiter tol tau s0 info st evs F,
  nlcg_us F64 Pb maxiter tol tau 3 223 20 s0 = (Ret info, st, evs) /\
  iConv info = false /\ iF info = Some F /\ Bltb (getF Pb st) F = true.
Proof. exact maxiter_stale_witness. Qed.
Print Assumptions C17_maxiter_exit_agrees_refuted.

Theorem C17_descent_exit_agrees_refuted :
  exists (Pb : problem F64) maxiter tol tau s0 info st evs0 l F,
  nlcg_us F64 Pb maxiter tol tau 3 223 20 s0 = (Ret info, st, evs0 ++ [EvLs l LsDescent]) /\
  iF info = Some F /\ Bltb F (getF Pb st) = true.
Proof. exact descent_stale_witness. Qed.
Print Assumptions C17_descent_exit_agrees_refuted.

Example C17_example :
  altb F64 (alit F64 1 100000000) (alit F64 1 5) = true /\
  map event_code (snd (run_climbing (flit 1 1) 5 3)) = [7; 0; 5] /\
  map event_code (snd (run_climbing (flit (-1) 1) 5 3)) = [7; 0; 3; 7; 0; 4].
Proof. vm_compute. auto. Qed.

(** ** C18 *)
Theorem C18_last_iteration_tested_refuted :
  exists (Pb : problem F64) maxiter tol tau s0 info st evs0 sl,
  nlcg_us F64 Pb maxiter tol tau 3 223 20 s0 = (Ret info, st, evs0 ++ [EvSteepest sl]) /\
  altb F64 (aabs F64 sl) tol = true /\ iConv info = false /\
  exists info', fst (fst (nlcg_us F64 Pb (maxiter + 1) tol tau 3 223 20 s0)) = Ret info' /\ iConv info' = true.
Proof. exact last_untested_witness. Qed.
Print Assumptions C18_last_iteration_tested_refuted.

(** The slope computed by the last allowed iteration is never tested: whatever it is, the run
    returns without the flag. *)
Theorem C18_last_slope_never_tested :
  forall (A : arith) (Pb : problem A) maxiter tol tau restart fq fb s0 info st evs0 fr fr' sl,
  (nlcg_us A Pb maxiter tol tau restart fq fb s0 = (Ret info, st, evs0 ++ [EvSteepest sl]) \/
   nlcg_us A Pb maxiter tol tau restart fq fb s0 = (Ret info, st, evs0 ++ [EvConj fr fr' sl])) ->
  iConv info = false.
Proof. exact run_last_untested. Qed.
Print Assumptions C18_last_slope_never_tested.

Example C18_example : map event_code (snd (run_parabola 1 3)) = [7; 0; 1; 7].
Proof. vm_compute. reflexivity. Qed.

(** ** C19 *)
Theorem C19_same_collectives :
  forall (A : arith) (P1 P2 : problem A) RS RD RP tol tau restart fq fb,
  same_scalars A P1 P2 RS RD RP ->
  forall maxiter s1 s2, RS s1 s2 ->
  let a := nlcg_us A P1 maxiter tol tau restart fq fb s1 in
  let b := nlcg_us A P2 maxiter tol tau restart fq fb s2 in
  rel_out eq (fst (fst a)) (fst (fst b)) /\
  concat (map collectives_of (snd a)) = concat (map collectives_of (snd b)) /\
  (forall rank, rank <> 0 -> json_lines rank (snd b) = []) /\
  json_lines 0 (snd a) = map rStep (records (snd b)).
Proof. exact run_ranks. Qed.
Print Assumptions C19_same_collectives.

Example C19_example :
  same_scalars F64 (parabola_tag 1) (parabola_tag 2) eq (fun a b => fst a = fst b) eq /\
  concat (map collectives_of (snd (nlcg_us F64 (parabola_tag 2) 5 (flit 1 1000) (flit 1 10) 3 223 20 f1))) =
    [CGradMu; CGradMu; CSlope; CBands; CBands; CFn; CEnergy; CEntropy; CFn; CEnergy; CEntropy; CGradMu; CGradMu; CSlope].
Proof. split; [exact parabola_tag_same|vm_compute; reflexivity]. Qed.

(** ** C20 *)
Theorem C20_cpu_entry :
  forall (N : Type) smearing (temp tol kappa tau : N) maxiter restart,
  wanted HostSpace smearing temp tol kappa tau maxiter restart
    (nlcg_us_cpu smearing temp tol kappa tau maxiter restart) /\
  nlcg_us_device_cpu smearing temp tol kappa tau maxiter restart =
    nlcg_us_cpu smearing temp tol kappa tau maxiter restart.
Proof. exact dispatch_cpu. Qed.
Print Assumptions C20_cpu_entry.

Theorem C20_device_entry :
  forall (N : Type) g smearing (temp tol kappa tau : N) maxiter restart,
  match g with
  | NoGpu => nlcg_us_device g smearing temp tol kappa tau maxiter restart = Raise
  | Cuda => wanted CudaSpace smearing temp tol kappa tau maxiter restart
              (nlcg_us_device g smearing temp tol kappa tau maxiter restart)
  | Rocm => wanted HIPSpace smearing temp tol kappa tau maxiter restart
              (nlcg_us_device g smearing temp tol kappa tau maxiter restart)
  end /\
  nlcg_us_cpu_device g smearing temp tol kappa tau maxiter restart =
    nlcg_us_device g smearing temp tol kappa tau maxiter restart.
Proof. exact dispatch_device. Qed.
Print Assumptions C20_device_entry.

Theorem C20_mvp2_entries_raise :
  forall (N : Type) smearing (temp tol kappa tau : N) maxiter restart,
  nlcg_mvp2_cpu smearing temp tol kappa tau maxiter restart = Raise /\
  nlcg_mvp2_device smearing temp tol kappa tau maxiter restart = Raise /\
  nlcg_mvp2_cpu_device smearing temp tol kappa tau maxiter restart = Raise /\
  nlcg_mvp2_device_cpu smearing temp tol kappa tau maxiter restart = Raise.
Proof. exact dispatch_mvp2. Qed.
Print Assumptions C20_mvp2_entries_raise.

Example C20_example :
  nlcg_us_cpu 4 1%nat 2%nat 3%nat 4%nat 10 20 = Run (MkReq HostSpace COLD 1%nat 10 2%nat 3%nat 4%nat 20) /\
  nlcg_us_cpu 5 1%nat 2%nat 3%nat 4%nat 10 20 = Raise.
Proof. auto. Qed.

(** ** C61 *)
Theorem C61_runs_terminate_in_doubles :
  forall (Pb : problem F64), exists fb, forall maxiter tol tau restart s0,
  fst (fst (nlcg_us F64 Pb maxiter tol tau restart 223 fb s0)) <> NoFuel.
Proof. exact run_f64_ends. Qed.
Print Assumptions C61_runs_terminate_in_doubles.

Example C61_example : kind_of (fst (fst (run_climbing (flit (-1) 1) 5 3))) = 0.
Proof. vm_compute. reflexivity. Qed.
