(** What follows for whole runs in memory (MemRun.v).  Nothing here models code of its own. *)
From Coq Require Import ZArith Reals Lra Arith Lia List Bool Sorting.Sorted.
From Coquelicot Require Import Complex.
From Verif Require Import Arith LinAlg MVector LapackMem LapackElt Exchange Smearing SmearingFacts StepMem StepProofs.
From Verif Require Import Descent Geodesic LineSearch LineSearchProofs Driver DriverProofs DriverProofs2 DriverProofs3 DriverRun UsRun UsRunProofs UsRunFacts.
From Verif Require Import DeviceStep SimulateRel MemRun MemGeo MemRunProofs.
Import ListNotations.
Local Open Scope R_scope.

(** The run in memory ends like the run on matrices. *)
Definition same_end {Ex I : Type} (r : outcome (us_exn Ex) I) (r' : outcome (mem_exn Ex) I) : Prop :=
  r' = match r with
       | Ret i => Ret i
       | UB => UB
       | NoFuel => NoFuel
       | Throw SlopeError => Throw SlopeError
       | Throw StepError => Throw StepError
       | Throw DescentError => Throw DescentError
       | Throw RuntimeError => Throw RuntimeError
       | Throw (OtherExn EigenFail) => Throw (OtherExn MRuntime)
       | Throw (OtherExn MuFail) => Throw (OtherExn MMuFail)
       | Throw (OtherExn (EnergyFail e)) => Throw (OtherExn (MEnergyFail e))
       end.

Section Main.
  Context (sp : space).
  Context (ord : phase -> nat -> nat -> orders) (ord1 : phase -> nat -> nat -> nat -> list nat) (junk : phase -> nat -> nat -> nat -> ev Celt)
          (red : phase -> nat -> nat -> nat -> rtree)
          (ordk : nat -> key -> orders) (ord1k : nat -> key -> nat -> list nat) (junkk : nat -> key -> nat -> ev Celt).
  Context (heevd : nat -> buf Celt -> nat -> Z * buf Celt * (nat -> R)) (potrf : nat -> buf Celt -> nat -> Z * buf Celt)
          (potrs : nat -> nat -> buf Celt -> nat -> buf Celt -> nat -> Z * buf Celt).
  Context (opS opP : operator_fn Celt).
  Context (En Ex : Type).
  Context (mcompute : En -> (key -> view Celt) -> (key -> rvec) -> ((R * (key -> view Celt) * (key -> rvec)) + Ex) * En).
  Context (C : setting).
  Context (solve : nat -> mat -> mat -> mat) (meigh : nat -> mat -> option (mat * (nat -> R))).
  Context (ecompute : En -> (key -> mat) -> (key -> nat -> R) -> ((R * (key -> mat) * (key -> nat -> R)) + Ex) * En).
  Hypothesis Hmo : machine_ok sp ord ord1 red ordk ord1k heevd potrf potrs opS opP En Ex mcompute C meigh ecompute.
  Hypothesis Hsys : system_ok solve meigh En Ex ecompute C.
  Notation Pm := (mem_problem sp ord ord1 junk red ordk ord1k junkk heevd potrf potrs opS opP En Ex mcompute C).
  Notation Pu j := (us_problem solve meigh En Ex ecompute C j).

  Theorem mem_run_agrees mjunk maxiter tol tau restart fq fb s0 t0 r s evs : s_log s0 = [] -> ortho C (s_X s0) -> mem_holds C s0 t0 ->
    nlcg_us Rarith (Pu mjunk) maxiter tol tau restart fq fb s0 = (r, s, evs) ->
    exists r' t, nlcg_us Rarith Pm maxiter tol tau restart fq fb t0 = (r', t, evs) /\ same_end r r' /\ mem_holds C s t.
  Proof.
    intros Hl HX Hs E.
    pose proof (mem_run sp ord ord1 junk red ordk ord1k junkk heevd potrf potrs opS opP En Ex mcompute C solve meigh ecompute mjunk Hmo Hsys
                  maxiter tol tau restart fq fb s0 t0 Hl HX Hs) as H.
    rewrite E in H. destruct (nlcg_us Rarith Pm maxiter tol tau restart fq fb t0) as [[r' t] evs']. destruct H as (H1 & H2 & H3 & _).
    cbn [fst snd] in *. subst evs'. exists r', t. split; [reflexivity|]. split; [|exact H3].
    unfold same_end. unfold rout in H1. change (Exc (Pu mjunk)) with (us_exn Ex) in *. change (Exc Pm) with (mem_exn Ex) in *.
    destruct r as [i|x| |], r' as [i'|x'| |]; try contradiction; try reflexivity; [rewrite H1; reflexivity|].
    unfold rexn in H1. change (Exc (Pu mjunk)) with (us_exn Ex) in *. change (Exc Pm) with (mem_exn Ex) in *.
    destruct x as [| | | |x], x' as [| | | |x']; try contradiction; try reflexivity.
    destruct x; cbn [RE] in H1; unfold RE in H1; rewrite H1; reflexivity.
  Qed.

  Theorem mem_run_safe maxiter tol tau restart fq fb s0 t0 r' t evs : s_log s0 = [] -> ortho C (s_X s0) -> mem_holds C s0 t0 ->
    nlcg_us Rarith Pm maxiter tol tau restart fq fb t0 = (r', t, evs) ->
    r' <> Throw (OtherExn MUndefined) /\ r' <> Throw (OtherExn MBadArg) /\ (r' = UB -> restart = 0%Z).
  Proof.
    intros Hl HX Hs E. destruct (nlcg_us Rarith (Pu (fun _ => mzero)) maxiter tol tau restart fq fb s0) as [[r s] evs1] eqn:E1.
    destruct (mem_run_agrees (fun _ => mzero) maxiter tol tau restart fq fb s0 t0 r s evs1 Hl HX Hs E1) as (r1 & t1 & E2 & H & _).
    rewrite E in E2. injection E2 as <- <- <-. unfold same_end in H. subst r'.
    split; [|split].
    - destruct r as [i|[| | | |[| |]]| |]; discriminate.
    - destruct r as [i|[| | | |[| |]]| |]; discriminate.
    - intros HU. pose proof (run_exit Rarith (Pu (fun _ => mzero)) maxiter tol tau restart fq fb s0 r s evs E1) as Hx.
      destruct r as [i|[| | | |[| |]]| |]; try discriminate. exact (proj1 Hx).
  Qed.

  Theorem mem_run_decreases maxiter tol tau restart fq fb s0 t0 r' t evs : energy_of_density En Ex ecompute C ->
    s_log s0 = [] -> ortho C (s_X s0) -> mem_holds C s0 t0 ->
    nlcg_us Rarith Pm maxiter tol tau restart fq fb t0 = (r', t, evs) ->
    StronglySorted (fun x y => (y <= x)%R) (map (@rF (num Rarith)) (records evs)) /\
    (List.Forall (fun x => ls_returned x = true) (searches evs) -> List.Forall (fun x => (m_F t <= x)%R) (map (@rF (num Rarith)) (records evs))).
  Proof.
    intros Hd Hl HX Hs E. destruct (nlcg_us Rarith (Pu (fun _ => mzero)) maxiter tol tau restart fq fb s0) as [[r s] evs1] eqn:E1.
    destruct (mem_run_agrees (fun _ => mzero) maxiter tol tau restart fq fb s0 t0 r s evs1 Hl HX Hs E1) as (r1 & t1 & E2 & _ & H).
    rewrite E in E2. injection E2 as <- <- <-. rewrite (mh_F _ _ _ H).
    exact (run_decreases solve meigh En Ex ecompute C (fun _ => mzero) Hsys Hd maxiter tol tau restart fq fb s0 r s evs Hl HX E1).
  Qed.

  Theorem mem_setup_agrees mjunk s0 t0 d sl s : s_log s0 = [] -> ortho C (s_X s0) -> mem_holds C s0 t0 ->
    us_setup solve En Ex ecompute C mjunk s0 = (inl (d, sl), s) -> exists d' t, setup Pm t0 = (inl (d', sl), t) /\ mem_holds C s t.
  Proof.
    intros Hl HX Hs E.
    pose proof (setup_held sp ord ord1 junk red ordk ord1k junkk heevd potrf potrs opS opP En Ex mcompute C solve meigh ecompute mjunk Hmo Hsys
                  s0 t0 Hl HX Hs) as (H1 & H2).
    change (setup (Pu mjunk) s0) with (us_setup solve En Ex ecompute C mjunk s0) in H1, H2. rewrite E in H1, H2. cbn [fst snd] in H1, H2.
    destruct (setup Pm t0) as [[[d' sl']|x] t]; cbn [fst snd rsum_] in H1, H2; [|contradiction].
    exists d', t. destruct H2 as (<- & _). split; [reflexivity|exact (proj1 H1)].
  Qed.
End Main.

Theorem mem_run_same :
  forall sp ord ord1 junk red ordk ord1k junkk heevd potrf potrs opS opP sp' ord' ord1' junk' red' ordk' ord1k' junkk' heevd' potrf' potrs' opS' opP'
    En Ex mcompute mcompute' C solve meigh ecompute,
  machine_ok sp ord ord1 red ordk ord1k heevd potrf potrs opS opP En Ex mcompute C meigh ecompute ->
  machine_ok sp' ord' ord1' red' ordk' ord1k' heevd' potrf' potrs' opS' opP' En Ex mcompute' C meigh ecompute ->
  system_ok solve meigh En Ex ecompute C ->
  forall maxiter tol tau restart fq fb s0 t0 t0' r t evs r' t' evs', s_log s0 = [] -> ortho C (s_X s0) -> mem_holds C s0 t0 -> mem_holds C s0 t0' ->
  nlcg_us Rarith (mem_problem sp ord ord1 junk red ordk ord1k junkk heevd potrf potrs opS opP En Ex mcompute C) maxiter tol tau restart fq fb t0 = (r, t, evs) ->
  nlcg_us Rarith (mem_problem sp' ord' ord1' junk' red' ordk' ord1k' junkk' heevd' potrf' potrs' opS' opP' En Ex mcompute' C) maxiter tol tau restart fq fb t0' = (r', t', evs') ->
  r = r' /\ evs = evs' /\ exists s, mem_holds C s t /\ mem_holds C s t'.
Proof.
  intros sp ord ord1 junk red ordk ord1k junkk heevd potrf potrs opS opP sp' ord' ord1' junk' red' ordk' ord1k' junkk' heevd' potrf' potrs' opS' opP'
    En Ex mcompute mcompute' C solve meigh ecompute M M' Hsys maxiter tol tau restart fq fb s0 t0 t0' r t evs r' t' evs' Hl HX Hs Hs' E E'.
  destruct (nlcg_us Rarith (us_problem solve meigh En Ex ecompute C (fun _ => mzero)) maxiter tol tau restart fq fb s0) as [[q s] ev] eqn:E1.
  destruct (mem_run_agrees _ _ _ junk _ _ _ junkk _ _ _ _ _ _ _ _ _ _ _ _ M Hsys (fun _ => mzero) _ _ _ _ _ _ _ _ _ _ _ Hl HX Hs E1) as (r1 & t1 & F1 & G1 & H1).
  destruct (mem_run_agrees _ _ _ junk' _ _ _ junkk' _ _ _ _ _ _ _ _ _ _ _ _ M' Hsys (fun _ => mzero) _ _ _ _ _ _ _ _ _ _ _ Hl HX Hs' E1) as (r2 & t2 & F2 & G2 & H2).
  rewrite E in F1. rewrite E' in F2. injection F1 as <- <- <-. injection F2 as <- <- <-.
  split; [unfold same_end in G1, G2; congruence|]. split; [reflexivity|]. exists s. split; assumption.
Qed.
