(** Property C93: whole runs of nlcg_us in memory, on the host, on a CUDA device and on a ROCm device (MemRun.v).
    Exact real and complex numbers; every number of ranks and k-points, every size that fits into int, every leading dimension;
    every order of every parallel loop, every shape of the device reductions, every contents of uninitialised memory; every LAPACK
    within its contract; every functional and operator of the calling program that does in memory what it should do to matrices
    ([machine_ok], [system_ok]). *)
From Coq Require Import ZArith Reals Lra Arith Lia List Bool Sorting.Sorted.
From Coquelicot Require Import Complex.
From Verif Require Import Arith LinAlg MVector LapackMem LapackElt Exchange Smearing SmearingFacts StepMem StepProofs StepTrial.
From Verif Require Import Descent DescentFacts Geodesic LineSearch Driver DriverProofs DriverProofs2 UsRun UsRunProofs UsExample.
From Verif Require Import DeviceStep SimulateRel MemRun MemGeo MemRunProofs MemRunMain MemExample.
Import ListNotations.
Local Open Scope R_scope.

(** The run in memory prints the same numbers, ends in the same way and leaves the matrices of the run on matrices (UsRun.v)
    behind.  [same_end] pairs std::runtime_error of a kernel with a failed eigensolver. *)
Theorem C93_run_in_memory :
  forall sp ord ord1 junk red ordk ord1k junkk heevd potrf potrs opS opP En Ex mcompute C solve meigh ecompute,
  machine_ok sp ord ord1 red ordk ord1k heevd potrf potrs opS opP En Ex mcompute C meigh ecompute ->
  system_ok solve meigh En Ex ecompute C ->
  forall mjunk maxiter tol tau restart fq fb s0 t0 r s evs, s_log s0 = [] -> ortho C (s_X s0) -> mem_holds C s0 t0 ->
  nlcg_us Rarith (us_problem solve meigh En Ex ecompute C mjunk) maxiter tol tau restart fq fb s0 = (r, s, evs) ->
  exists r' t, nlcg_us Rarith (mem_problem sp ord ord1 junk red ordk ord1k junkk heevd potrf potrs opS opP En Ex mcompute C)
                 maxiter tol tau restart fq fb t0 = (r', t, evs) /\ same_end r r' /\ mem_holds C s t.
Proof. exact mem_run_agrees. Qed.
Print Assumptions C93_run_in_memory.

(** No run reaches undefined behaviour in a kernel or a call rejected by BLAS; what is left of undefined behaviour is restart = 0 (C14). *)
Theorem C93_no_undefined_behaviour :
  forall sp ord ord1 junk red ordk ord1k junkk heevd potrf potrs opS opP En Ex mcompute C solve meigh ecompute,
  machine_ok sp ord ord1 red ordk ord1k heevd potrf potrs opS opP En Ex mcompute C meigh ecompute ->
  system_ok solve meigh En Ex ecompute C ->
  forall maxiter tol tau restart fq fb s0 t0 r t evs, s_log s0 = [] -> ortho C (s_X s0) -> mem_holds C s0 t0 ->
  nlcg_us Rarith (mem_problem sp ord ord1 junk red ordk ord1k junkk heevd potrf potrs opS opP En Ex mcompute C)
    maxiter tol tau restart fq fb t0 = (r, t, evs) ->
  r <> Throw (OtherExn MUndefined) /\ r <> Throw (OtherExn MBadArg) /\ (r = UB -> restart = 0%Z).
Proof. exact mem_run_safe. Qed.
Print Assumptions C93_no_undefined_behaviour.

(** Two runs with different memory spaces, loop orders, reductions, leading dimensions, LAPACK libraries (with the same
    eigenvectors) and garbage in fresh memory: same numbers, same end, same matrices. *)
Theorem C93_same_on_every_machine :
  forall sp ord ord1 junk red ordk ord1k junkk heevd potrf potrs opS opP sp' ord' ord1' junk' red' ordk' ord1k' junkk' heevd' potrf' potrs' opS' opP'
    En Ex mcompute mcompute' C solve meigh ecompute,
  machine_ok sp ord ord1 red ordk ord1k heevd potrf potrs opS opP En Ex mcompute C meigh ecompute ->
  machine_ok sp' ord' ord1' red' ordk' ord1k' heevd' potrf' potrs' opS' opP' En Ex mcompute' C meigh ecompute ->
  system_ok solve meigh En Ex ecompute C ->
  forall maxiter tol tau restart fq fb s0 t0 t0' r t evs r' t' evs', s_log s0 = [] -> ortho C (s_X s0) -> mem_holds C s0 t0 -> mem_holds C s0 t0' ->
  nlcg_us Rarith (mem_problem sp ord ord1 junk red ordk ord1k junkk heevd potrf potrs opS opP En Ex mcompute C) maxiter tol tau restart fq fb t0 = (r, t, evs) ->
  nlcg_us Rarith (mem_problem sp' ord' ord1' junk' red' ordk' ord1k' junkk' heevd' potrf' potrs' opS' opP' En Ex mcompute' C) maxiter tol tau restart fq fb t0' = (r', t', evs') ->
  r = r' /\ evs = evs' /\ exists s, mem_holds C s t /\ mem_holds C s t'.
Proof. exact mem_run_same. Qed.
Print Assumptions C93_same_on_every_machine.

(** The free energies recorded by a run in memory never increase if the total energy depends on the density matrices only; the
    value left in memory is at most every recorded one if all line searches succeeded. *)
Theorem C93_free_energy_never_increases :
  forall sp ord ord1 junk red ordk ord1k junkk heevd potrf potrs opS opP En Ex mcompute C solve meigh ecompute,
  machine_ok sp ord ord1 red ordk ord1k heevd potrf potrs opS opP En Ex mcompute C meigh ecompute ->
  system_ok solve meigh En Ex ecompute C ->
  forall maxiter tol tau restart fq fb s0 t0 r t evs, energy_of_density En Ex ecompute C ->
  s_log s0 = [] -> ortho C (s_X s0) -> mem_holds C s0 t0 ->
  nlcg_us Rarith (mem_problem sp ord ord1 junk red ordk ord1k junkk heevd potrf potrs opS opP En Ex mcompute C)
    maxiter tol tau restart fq fb t0 = (r, t, evs) ->
  StronglySorted (fun x y => (y <= x)%R) (map (@rF (num Rarith)) (records evs)) /\
  (List.Forall (fun x => ls_returned x = true) (searches evs) -> List.Forall (fun x => (m_F t <= x)%R) (map (@rF (num Rarith)) (records evs))).
Proof. exact mem_run_decreases. Qed.
Print Assumptions C93_free_energy_never_increases.

(** Every eigensolver within its contract whose results depend on the n x n block only is one of [machine_ok] and [system_ok]. *)
Theorem C93_eigensolver :
  forall heevd, heevd_ok heevd -> block_determined heevd -> heevd_is heevd (eigh_of heevd) /\ eigh_ok (eigh_of heevd).
Proof. exact eigh_of_is. Qed.
Print Assumptions C93_eigensolver.

(** One band mixing with an empty basis function, with leading dimensions 3, 2 and 5 and loops that run backwards, in every space:
    the hypotheses hold, and set-up in memory succeeds with a negative slope. *)
Example C93_example :
  forall sp, mix_machine sp /\ system_ok solve2 (eigh_of heevd_cut) unit unit mix_compute mix_set /\ energy_of_density unit unit mix_compute mix_set /\
  s_log mix_start = [] /\ ortho mix_set (s_X mix_start) /\ mem_holds mix_set mix_start mix_mstart /\
  (heevd_ok heevd_cut /\ block_determined heevd_cut) /\
  exists d sl t, setup (mix_memory sp) mix_mstart = (inl (d, sl), t) /\ sl < 0.
Proof.
  intros sp. split; [apply mix_machine_ok|]. split; [exact mix_ok_cut|]. split; [exact mix_density|]. split; [reflexivity|]. split; [exact mix_ortho|].
  split; [exact mix_start_held|]. split; [exact (Logic.conj (proj1 heevd_cut_ok) (proj1 (proj2 heevd_cut_ok)))|].
  exact (mix_mem_setup sp).
Qed.
