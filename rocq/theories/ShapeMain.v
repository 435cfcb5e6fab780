(** How a run in memory ends (NumRun.v), in any arithmetic and in binary64. *)
From Coq Require Import ZArith List Bool.
From Verif Require Import Arith Float64 MVector LapackMem Exchange LineSearch Driver DriverRun StepMem DeviceStep MemRun NumStep NumRun ShapeStep ShapeRun.
From Verif Require Device.

Section Ends.
  Context (N : numbers) (sp : space).
  Context (Ex : Type) (tau : num (nA N)) (restart : Z).
  (** the ways a run may end: normally; with the exception of the backtracking search for tau >= 1; with the one of the search for the
      chemical potential; with an exception of the calling program; with the one of the eigensolver on the host; in undefined
      behaviour only for restart = 0 *)
  Definition ends_well {I} (r : outcome (mem_exn Ex) I) : Prop :=
    match r with
    | Ret _ => True
    | Throw RuntimeError => ageb (nA N) tau (alit (nA N) 1 1) = true
    | Throw (OtherExn e) => match e with MUndefined | MBadArg => False | MRuntime => sp = Device.SHost | MMuFail | MEnergyFail _ => True end
    | Throw SlopeError | Throw StepError | Throw DescentError => False
    | UB => restart = 0%Z
    | NoFuel => False
    end.
End Ends.

Lemma run_ends_well N sp ord ord1 junk red ordk ord1k junkk heevd potrf potrs opS opP En Ex ncompute C nr nc :
  shapes_ok N ord ord1 red ordk ord1k heevd potrf potrs opS opP En Ex ncompute C nr nc ->
  forall maxiter tol tau restart fq fb s0 r t evs, talls N C nr nc (b_X s0) -> long N C nc (b_fn s0) ->
  nlcg_us (nA N) (num_problem N sp ord ord1 junk red ordk ord1k junkk heevd potrf potrs opS opP En Ex ncompute C) maxiter tol tau restart fq fb s0 = (r, t, evs) ->
  r <> NoFuel -> ends_well N sp Ex tau restart r /\ talls N C nr nc (b_X t) /\ long N C nc (b_fn t).
Proof.
  intros H maxiter tol tau restart fq fb s0 r t evs HX HF Er Hn.
  destruct (run_safe N sp ord ord1 junk red ordk ord1k junkk heevd potrf potrs opS opP En Ex ncompute C nr nc H
    maxiter tol tau restart fq fb s0 r t evs HX HF Er) as (H1 & H2 & H3 & H4 & H5).
  split; [|exact H5]. pose proof (run_exit _ _ _ _ _ _ _ _ _ _ _ _ Er) as Hx.
  destruct r as [info|e| |]; cbn.
  - exact Logic.I.
  - destruct Hx as [(-> & Ht)|(x & ->)]; [exact Ht|]. destruct x; try exact Logic.I; [apply H3|apply H2|apply H1]; reflexivity.
  - apply H4. reflexivity.
  - apply Hn. reflexivity.
Qed.
Lemma binary_run_ends sp ord ord1 junk red ordk ord1k junkk heevd potrf potrs opS opP En Ex ncompute C nr nc :
  shapes_ok binaryN ord ord1 red ordk ord1k heevd potrf potrs opS opP En Ex ncompute C nr nc ->
  exists fb, forall maxiter tol tau restart s0 r t evs, talls binaryN C nr nc (b_X s0) -> long binaryN C nc (b_fn s0) ->
  nlcg_us F64 (num_problem binaryN sp ord ord1 junk red ordk ord1k junkk heevd potrf potrs opS opP En Ex ncompute C) maxiter tol tau restart 223 fb s0 = (r, t, evs) ->
  ends_well binaryN sp Ex tau restart r /\ talls binaryN C nr nc (b_X t) /\ long binaryN C nc (b_fn t).
Proof.
  intros H.
  destruct (run_f64_ends (num_problem binaryN sp ord ord1 junk red ordk ord1k junkk heevd potrf potrs opS opP En Ex ncompute C)) as (fb & Hfb).
  exists fb. intros maxiter tol tau restart s0 r t evs HX HF Er.
  apply (run_ends_well binaryN sp ord ord1 junk red ordk ord1k junkk heevd potrf potrs opS opP En Ex ncompute C nr nc H
    maxiter tol tau restart 223 fb s0 r t evs HX HF Er).
  specialize (Hfb maxiter tol tau restart s0). rewrite Er in Hfb. exact Hfb.
Qed.
