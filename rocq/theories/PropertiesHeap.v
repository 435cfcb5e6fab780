(** Memory of the solver: who writes what. Statements only. *)
From Coq Require Import ZArith Reals Lra Arith Lia List Bool Permutation.
From Coquelicot Require Import Complex.
From Verif Require Import Arith LinAlg MVector LapackMem LapackMemProofs LapackElt LapackFacts Exchange Smearing Newton Occupation StepMem StepProofs StepMain StepTrial StepLine.
From Verif Require Import Descent DescentProofs DescentFacts Geodesic GeodesicProofs CurveExample Cholesky StepExample.
From Verif Require Import HeapStep HeapProofs HeapRun HeapTrial HeapExample.
Import ListNotations.
Local Open Scope R_scope.
Local Notation restarted := StepMem.restarted.
Local Notation conjugated := StepMem.conjugated.
Local Notation dFdmu := StepMem.dFdmu.
Local Notation dmu_deta := StepMem.dmu_deta.

(** ** C86 *)
(** restarted, with shared memory: every rank gets the directions of StepMem.restarted (C77) in new memory, and everything that
    existed before, reached through whatever reference, is unchanged. *)
Theorem C86_restarted_writes_nothing_old :
  forall ord ord1 junk potrf potrs opS opP, keeps opS -> keeps opP ->
  forall s T kappa mo (w : list (heap * list hk)) mu fr zs,
  (forall h ks, In (h, ks) w -> Forall (bound kviews h) ks) ->
  let world := map (fun hks => map (kderef (fst hks)) (snd hks)) w in
  restarted ord ord1 junk potrf potrs opS opP s T kappa mo world mu = KOk (fr, zs) ->
  exists dF, dFdmu s T mo world mu = KOk dF /\ forall r h ks, nth_error w r = Some (h, ks) ->
  exists res h', h_restarted ord ord1 junk potrf potrs opS opP s T kappa mo (32 * length (concat (firstn r (map snd w)))) mu (dmu_deta s T mo world mu) dF ks h = KOk (res, h') /\
    frame nowhere h h' /\ nth_error zs r = Some (map (fun a => zder h' (snd (fst a), snd a)) res) /\
    Forall (fun a => (hnext h <= hloc (snd (fst a)) < hnext h' /\ hnext h <= hloc (snd a) < hnext h')%nat) res.
Proof.
  exact (fun ord ord1 junk potrf potrs opS opP HS HP s T kappa mo w mu fr zs Hb E =>
    restarted_on_heaps ord ord1 junk potrf potrs opS opP HS HP s T kappa mo w mu fr zs Hb E).
Qed.
Print Assumptions C86_restarted_writes_nothing_old.

Theorem C86_conjugated_writes_nothing_old :
  forall ord ord1 junk potrf potrs opS opP, keeps opS -> keeps opP ->
  forall s T kappa mo (w : list (heap * list (hk * (hview * hview * hview)))) fr_old mu fr slope zs,
  (forall h ks, In (h, ks) w -> Forall (bound czviews h) ks) ->
  conjugated ord ord1 junk potrf potrs opS opP s T kappa mo fr_old (map (fun hks => map (czderef (fst hks)) (snd hks)) w) mu = KOk (fr, slope, zs) ->
  let world := map (fun hks => map (fun kz => kderef (fst hks) (fst kz)) (snd hks)) w in
  exists dF, dFdmu s T mo world mu = KOk dF /\ forall r h ks, nth_error w r = Some (h, ks) ->
  let t := (32 * length (concat (firstn r (map snd w))))%nat in
  exists zv h', h_conjugated ord ord1 junk potrf potrs opS opP s T kappa mo t (32 * length (concat (map snd w)) + t) fr_old mu (dmu_deta s T mo world mu) dF fr ks h = KOk (zv, h') /\
    frame nowhere h h' /\ nth_error zs r = Some (map (zder h') zv) /\
    Forall (fun z => (hnext h <= hloc (fst z) < hnext h' /\ hnext h <= hloc (snd z) < hnext h')%nat) zv.
Proof.
  exact (fun ord ord1 junk potrf potrs opS opP HS HP s T kappa mo w fr_old mu fr slope zs Hb E =>
    conjugated_on_heaps ord ord1 junk potrf potrs opS opP HS HP s T kappa mo w fr_old mu fr slope zs Hb E).
Qed.
Print Assumptions C86_conjugated_writes_nothing_old.

(** One trial evaluation. When the calling program runs ([hc]) its buffers hold the trial wave functions; nothing else of what
    existed before was written. *)
Theorem C86_evaluation :
  forall ord junk heevd opS, keeps opS -> (forall t, fair (ord t)) -> heevd_ok heevd ->
  forall own caller, (forall h, frame own h (caller h)) ->
  forall cs ks Ks t step h,
  Forall (fun c => own (hloc c)) cs -> NoDup (map hloc cs) -> own_below own (hnext h) ->
  Forall (bound sviews h) ks -> Forall2 (state opS h) ks Ks -> Forall (admissible step) Ks -> Forall2 (target h) cs Ks ->
  (h_eval ord junk heevd opS caller cs t step ks h = KThrow /\ ~ never_fails heevd) \/
  exists res hc, h_eval ord junk heevd opS caller cs t step ks h = KOk (res, caller hc) /\ frame own h hc /\ same_sizes h hc /\
    Forall2 (good_trial hc step) Ks res /\ Forall2 (good_trial (caller hc) step) Ks res /\
    Forall2 (fun c Kr => holds (tn (fst Kr)) (tm (fst Kr)) (vof hc c) (mat_of (vof hc (snd (snd Kr))))) cs (combine Ks res).
Proof. exact eval_runs. Qed.
Print Assumptions C86_evaluation.

(** Any number of trial evaluations: all start from the same X and eta, and their results stay intact. *)
Theorem C86_evaluations_from_the_same_point :
  forall ord junk heevd opS, keeps opS -> (forall t, fair (ord t)) -> heevd_ok heevd ->
  forall own caller, (forall h, frame own h (caller h)) -> (forall h, same_sizes h (caller h)) ->
  forall cs ks Ks trials h,
  Forall (fun c => own (hloc c)) cs -> NoDup (map hloc cs) -> own_below own (hnext h) ->
  Forall (bound sviews h) ks -> Forall (apart_from_own own) ks -> Forall2 (state opS h) ks Ks ->
  (forall trial, In trial trials -> Forall (admissible (snd trial)) Ks) -> Forall2 (target h) cs Ks ->
  (h_evals ord junk heevd opS caller cs trials ks h = KThrow /\ ~ never_fails heevd) \/
  exists ress h', h_evals ord junk heevd opS caller cs trials ks h = KOk (ress, h') /\ frame own h h' /\
    Forall2 (state opS h') ks Ks /\ Forall2 (fun trial res => Forall2 (good_trial h' (snd trial)) Ks res) trials ress.
Proof. exact evals_run. Qed.
Print Assumptions C86_evaluations_from_the_same_point.

(** copy gives new memory with the same contents. *)
Theorem C86_copy :
  forall h o j x, (hloc x < hnext h)%nat ->
  spec nowhere h (h_copy o j x) (deep_copy Celt o (alloc_uninit Celt (hrows x) (hcols x) (hlocal x) j) (vof h x)) (fresh h).
Proof. exact spec_copy. Qed.
Print Assumptions C86_copy.

(** Two ranks, different sizes and leading dimensions; a calling program that fills its memory with 99. *)
Example C86_example :
  keeps exOpS /\ keeps exOpP /\
  (forall h ks, In (h, ks) exHeaps -> Forall (bound kviews h) ks) /\ (forall h ks, In (h, ks) exRanks -> Forall (bound czviews h) ks) /\
  (exists fr zs, restarted bwd bwd1 (fun _ _ => RtoC 77) potrf_ref potrs_ref exOpS exOpP FERMI_DIRAC unit_T 1 2 (map (fun hks => map (kderef (fst hks)) (snd hks)) exHeaps) 0 = KOk (fr, zs)) /\
  (exists fr slope zs, conjugated bwd bwd1 (fun _ _ => RtoC 77) potrf_ref potrs_ref exOpS exOpP FERMI_DIRAC unit_T 1 2 3 (map (fun hks => map (czderef (fst hks)) (snd hks)) exRanks) 0 = KOk (fr, slope, zs)) /\
  (forall h, frame exOwn h (exCaller h)) /\ (forall h, same_sizes h (exCaller h)) /\ own_below exOwn (hnext exH) /\
  Forall (bound sviews exH) [exSk] /\ Forall (apart_from_own exOwn) [exSk] /\ Forall2 (state exOpS exH) [exSk] [exSkm] /\
  (forall t, Forall (admissible t) [exSkm]) /\ Forall2 (target exH) [ref exCells 0] [exSkm] /\
  exists ress h', h_evals bwd (fun _ _ => RtoC 7) heevd_ref exOpS exCaller [ref exCells 0] [(0%nat, 3); (32%nat, 1); (64%nat, 1 / 2)] [exSk] exH = KOk (ress, h') /\
    length ress = 3%nat /\ vof h' (sk_x exSk) = vof exH (sk_x exSk).
Proof.
  split; [apply mat_op_keeps|]. split; [apply mat_op_keeps|]. split; [exact exHeaps_bound|]. split; [exact exRanks_bound|].
  split.
  { rewrite exHeaps_world.
    destruct (restarted_steepest bwd bwd1 (fun _ _ => RtoC 77) potrf_ref potrs_ref exOpS exOpP FERMI_DIRAC unit_T 1 2 0 exMem exKs
      bwd_fair bwd1_fair potrf_ref_ok potrs_ref_ok exMem_represents exKs_physical) as (slope & dirs & E & _). exists slope, dirs. exact E. }
  split.
  { rewrite exRanks_world.
    destruct (conjugated_then_trial bwd bwd1 (fun _ _ => RtoC 77) potrf_ref potrs_ref exOpS exOpP FERMI_DIRAC unit_T 1 2
      bwd_fair bwd1_fair potrf_ref_ok potrs_ref_ok 3 0 exCg exCgM exCg_represents exCg_physical) as (fr & slope & dirs & E & _). exists fr, slope, dirs. exact E. }
  split; [exact exCaller_own|]. split; [exact exCaller_sizes|]. split; [exact exOwn_below|]. split; [exact exSk_bound|]. split; [exact exSk_apart|].
  split; [exact exSk_state|]. split; [exact exSk_admissible|]. split; [exact exC_target|].
  destruct (C86_evaluations_from_the_same_point bwd (fun _ _ => RtoC 7) heevd_ref exOpS (mat_op_keeps _) bwd_fair (proj1 heevd_ref_ok) exOwn exCaller exCaller_own exCaller_sizes
    [ref exCells 0] [exSk] [exSkm] [(0%nat, 3); (32%nat, 1); (64%nat, 1 / 2)] exH) as [[_ N] | (ress & h' & E & F & _ & G)].
  - repeat constructor.
  - repeat constructor. intros [].
  - exact exOwn_below.
  - exact exSk_bound.
  - exact exSk_apart.
  - exact exSk_state.
  - intros trial _. apply exSk_admissible.
  - exact exC_target.
  - exfalso. exact (N (proj2 heevd_ref_ok)).
  - exists ress, h'. split; [exact E|]. split; [clear -G; inversion G as [|? ? ? ? _ G1]; subst; inversion G1 as [|? ? ? ? _ G2]; subst; inversion G2 as [|? ? ? ? _ G3]; subst; inversion G3; subst; reflexivity|].
    apply (frame_vof _ _ _ _ F); [cbn; lia | intros Q; discriminate Q].
Qed.

(** The copy is needed: with X a reference to the calling program's memory, one evaluation changes X. *)
Theorem C86_copy_needed :
  exists ord junk heevd opS own caller cs ks Ks step h,
  keeps opS /\ (forall t, fair (ord t)) /\ heevd_ok heevd /\ (forall h, frame own h (caller h)) /\ Forall (fun c => own (hloc c)) cs /\
  Forall (bound sviews h) ks /\ Forall2 (state opS h) ks Ks /\ Forall (admissible step) Ks /\
  exists k res h', In k ks /\ h_eval ord junk heevd opS caller cs 0 step ks h = KOk (res, h') /\ mat_of (vof h' (sk_x k)) 0%nat 0%nat <> mat_of (vof h (sk_x k)) 0%nat 0%nat.
Proof. exact alias_disturbed. Qed.
Print Assumptions C86_copy_needed.
