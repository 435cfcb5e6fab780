(** The state of StepExample.v on heaps: two ranks, each with memory of its own. *)
From Coq Require Import ZArith Reals Lra Psatz Arith Lia List Bool Permutation.
From Coquelicot Require Import Complex.
From Verif Require Import Arith LinAlg MVector LapackMem LapackMemProofs LapackElt LapackFacts Exchange Smearing Newton Occupation StepMem StepProofs StepMain StepTrial StepLine.
From Verif Require Import Descent DescentProofs DescentFacts Geodesic GeodesicProofs Curve CurveProofs CurveExample Cholesky StepExample.
From Verif Require Import HeapStep HeapProofs HeapRun HeapTrial.
Import ListNotations.
Local Open Scope R_scope.

(** a heap with the allocations of the given views, and references to them *)
Definition no_view : view Celt := mkview 0 0 1 mzero.
Definition heap_of (l : list (view Celt)) : heap := MkHeap (length l) (fun q => vbuf (nth q l no_view)).
Definition ref (l : list (view Celt)) (q : nat) : hview :=
  let v := nth q l no_view in MkHview q (vrows v) (vcols v) (vs0 v) (vs1 v) (vlocal v).
Lemma vof_ref l q : vof (heap_of l) (ref l q) = nth q l no_view.
Proof. unfold vof, heap_of, ref. cbn. destruct (nth q l no_view). reflexivity. Qed.

(** allocations of a rank: X, H X, previous Z_X, previous Z_eta, U *)
Definition cells (m : memk) (z : view Celt * view Celt * view Celt) : list (view Celt) :=
  [mk_x m; mk_hx m; fst (fst z); snd (fst z); snd z].
Definition hk_of (m : memk) (l : list (view Celt)) : hk := MkHk (mk_key m) (ref l 0) (mk_e m) (mk_f m) (mk_h m) (ref l 1) (mk_wk m).
Definition rank_of (m : memk) (z : view Celt * view Celt * view Celt) : heap * list (hk * (hview * hview * hview)) :=
  let l := cells m z in (heap_of l, [(hk_of m l, (ref l 2, ref l 3, ref l 4))]).
Definition exRanks : list (heap * list (hk * (hview * hview * hview))) :=
  [rank_of (mem_of k0 5 three) (exPrev three 4); rank_of (mem_of k1 2 soft) (exPrev soft 2)].
Definition exHeaps : list (heap * list hk) := map (fun r => (fst r, map fst (snd r))) exRanks.
Lemma exRanks_bound h ks : In (h, ks) exRanks -> Forall (bound czviews h) ks.
Proof.
  intros [E | [E | []]]; injection E as <- <-; (apply Forall_cons; [|apply Forall_nil]); intros x [<- | [<- | [<- | [<- | [<- | []]]]]]; cbn; lia.
Qed.
Lemma exHeaps_bound h ks : In (h, ks) exHeaps -> Forall (bound kviews h) ks.
Proof.
  intros [E | [E | []]]; injection E as <- <-; (apply Forall_cons; [|apply Forall_nil]); intros x [<- | [<- | []]]; cbn; lia.
Qed.
Lemma exHeaps_world : map (fun hks => map (kderef (fst hks)) (snd hks)) exHeaps = exMem.
Proof. reflexivity. Qed.
Lemma exRanks_world : map (fun hks => map (czderef (fst hks)) (snd hks)) exRanks = exCg.
Proof. reflexivity. Qed.

Lemma mat_op_keeps M : keeps (mat_op M).
Proof. intros k dy by_ dx bx. unfold mat_op, fun_op. destruct dy as [[m n] [s0 s1]], dx as [q [t0 t1]]. reflexivity. Qed.

Lemma posdef_1 a : 0 < a -> posdef 1 (fun _ _ => RtoC a).
Proof.
  intros Ha v (i & Hi & Hv). replace i with 0%nat in Hv by lia.
  assert (E : quad 1 (fun _ _ => RtoC a) v = quad 1 (mdiag (fun _ => a)) v).
  { unfold quad. cbn. reflexivity. }
  rewrite E, quad_mdiag. cbn [rsumn].
  assert (P : 0 < nsq (v 0%nat)).
  { unfold nsq. destruct (v 0%nat) as [x y]. cbn [fst snd Re Im] in *. destruct (Req_dec x 0) as [-> | Hx].
    - assert (y <> 0) by (intros ->; apply Hv; reflexivity). nra.
    - nra. }
  nra.
Qed.

(** ** Trials of the second k-point *)
(** allocations: the calling program's wave functions (leading dimension 3), X, eta, Z_X, Z_eta *)
Definition exCells : list (view Celt) :=
  [mkview 2 1 3 (fun _ _ => RtoC 8); mkview 2 1 2 (kX soft); mkview 1 1 1 (fun _ _ => RtoC 2);
   mkview 2 1 2 (fun i _ => if Nat.eqb i 0 then RtoC 0 else RtoC (- (1 / 2))); mkview 1 1 1 (fun _ _ => RtoC 3)].
Definition exH : heap := heap_of exCells.
Definition exSk : sk := MkSk k1 (ref exCells 1) (ref exCells 2) (ref exCells 3) (ref exCells 4).
Definition exSkm : skm :=
  MkSkm 2 1 (diag2 1 3) (kX soft) (fun _ _ => RtoC 2) (fun i _ => if Nat.eqb i 0 then RtoC 0 else RtoC (- (1 / 2))) (fun _ _ => RtoC 3).
(** the calling program fills its memory with 99 after every evaluation *)
Definition exOwn : nat -> Prop := eq 0%nat.
Definition exCaller (h : heap) : heap := hset h 0 (MkBuf (E := Celt) (bsz (hbuf h 0)) (fun _ => RtoC 99)).
Lemma exCaller_own h : frame exOwn h (exCaller h).
Proof. apply frame_hset. Qed.
Lemma exCaller_sizes h : same_sizes h (exCaller h).
Proof. intros l _. cbn. destruct (Nat.eqb_spec l 0) as [->|]; reflexivity. Qed.
Lemma exOwn_below : own_below exOwn (hnext exH).
Proof. intros l <-. cbn. lia. Qed.
Lemma exSk_bound : Forall (bound sviews exH) [exSk].
Proof. apply Forall_cons; [|apply Forall_nil]. intros x [<- | [<- | [<- | [<- | []]]]]; cbn; lia. Qed.
Lemma exSk_apart : Forall (apart_from_own exOwn) [exSk].
Proof. apply Forall_cons; [|apply Forall_nil]. intros x [<- | [<- | [<- | [<- | []]]]] E; discriminate E. Qed.
Lemma exSk_state : Forall2 (state exOpS exH) [exSk] [exSkm].
Proof.
  apply Forall2_cons; [|apply Forall2_nil]. constructor; cbn [exSkm tn tm tS tX tE tZ tZE exSk sk_key sk_x sk_eta sk_zx sk_ze]; unfold small; try lia.
  - exact (mat_op_acts (fun k => if is_k0 k then mid else diag2 1 3) k1 2).
  - apply diag2_hermitian.
  - unfold exH. rewrite vof_ref. apply mkview_holds; lia.
  - unfold exH. rewrite vof_ref. apply mkview_holds; lia.
  - unfold exH. rewrite vof_ref. apply mkview_holds; lia.
  - unfold exH. rewrite vof_ref. apply mkview_holds; lia.
Qed.
(** every step is admissible: the norm of X + t Z is 1 + 3 t^2 / 4 *)
Lemma exSk_admissible t : Forall (admissible t) [exSkm].
Proof.
  constructor; [|constructor]. split.
  - intros i j _ _. unfold at_e, Descent.add, adj. cbn [exSkm tE tZE]. apply Ceq; cbn; ring.
  - assert (E : meq 1 1 (mmul 2 (adj (at_x exSkm t)) (mmul 2 (diag2 1 3) (at_x exSkm t))) (fun _ _ => RtoC (1 + 3 * (t * t) / 4))).
    { intros i j Hi Hj. replace i with 0%nat by lia. replace j with 0%nat by lia.
      unfold at_x, Descent.add, mmul, adj, diag2, mdiag. cbn. apply Ceq; cbn; field. }
    cbn [exSkm tn tm tS]. apply (posdef_ext 1 (fun _ _ => RtoC (1 + 3 * (t * t) / 4))); [intros i j Hi Hj; symmetry; apply E; assumption|].
    pose proof (Rle_0_sqr t) as Sq. unfold Rsqr in Sq. apply posdef_1. lra.
Qed.
Lemma exC_target : Forall2 (target exH) [ref exCells 0] [exSkm].
Proof.
  apply Forall2_cons; [|apply Forall2_nil]. split; [|split; [cbn; lia | split; [cbn; lia | unfold small; cbn; lia]]].
  exists (fun _ _ => RtoC 8). unfold exH. rewrite vof_ref. apply mkview_holds; cbn; lia.
Qed.
(** the same with X a reference to the calling program's memory, as it would be without the copy *)
Definition exSkAlias : sk := MkSk k1 (ref exCells 0) (ref exCells 2) (ref exCells 3) (ref exCells 4).
Definition exSkmAlias : skm :=
  MkSkm 2 1 (diag2 1 3) (fun _ _ => RtoC 8) (fun _ _ => RtoC 2) (fun i _ => if Nat.eqb i 0 then RtoC 0 else RtoC (- (1 / 2))) (fun _ _ => RtoC 3).
Lemma exAlias_bound : Forall (bound sviews exH) [exSkAlias].
Proof. apply Forall_cons; [|apply Forall_nil]. intros x [<- | [<- | [<- | [<- | []]]]]; cbn; lia. Qed.
Lemma exAlias_state : Forall2 (state exOpS exH) [exSkAlias] [exSkmAlias].
Proof.
  apply Forall2_cons; [|apply Forall2_nil]. constructor; cbn [exSkmAlias tn tm tS tX tE tZ tZE exSkAlias sk_key sk_x sk_eta sk_zx sk_ze]; unfold small; try lia.
  - exact (mat_op_acts (fun k => if is_k0 k then mid else diag2 1 3) k1 2).
  - apply diag2_hermitian.
  - unfold exH. rewrite vof_ref. apply mkview_holds; lia.
  - unfold exH. rewrite vof_ref. apply mkview_holds; lia.
  - unfold exH. rewrite vof_ref. apply mkview_holds; lia.
  - unfold exH. rewrite vof_ref. apply mkview_holds; lia.
Qed.
Lemma exAlias_admissible t : Forall (admissible t) [exSkmAlias].
Proof.
  constructor; [|constructor]. split.
  - intros i j _ _. unfold at_e, Descent.add, adj. cbn [exSkmAlias tE tZE]. apply Ceq; cbn; ring.
  - assert (E : meq 1 1 (mmul 2 (adj (at_x exSkmAlias t)) (mmul 2 (diag2 1 3) (at_x exSkmAlias t))) (fun _ _ => RtoC (64 + 3 * ((8 - t / 2) * (8 - t / 2))))).
    { intros i j Hi Hj. replace i with 0%nat by lia. replace j with 0%nat by lia.
      unfold at_x, Descent.add, mmul, adj, diag2, mdiag. cbn. apply Ceq; cbn; field. }
    cbn [exSkmAlias tn tm tS]. apply (posdef_ext 1 (fun _ _ => RtoC (64 + 3 * ((8 - t / 2) * (8 - t / 2))))); [intros i j Hi Hj; symmetry; apply E; assumption|].
    pose proof (Rle_0_sqr (8 - t / 2)) as Sq. unfold Rsqr in Sq. apply posdef_1. lra.
Qed.
Lemma exAlias_target : Forall2 (target exH) [ref exCells 0] [exSkmAlias].
Proof.
  apply Forall2_cons; [|apply Forall2_nil]. split; [|split; [cbn; lia | split; [cbn; lia | unfold small; cbn; lia]]].
  exists (fun _ _ => RtoC 8). unfold exH. rewrite vof_ref. apply mkview_holds; cbn; lia.
Qed.
Lemma exAlias_disturbed : exists res h', h_eval bwd (fun _ _ => RtoC 7) heevd_ref exOpS exCaller [ref exCells 0] 0 3 [exSkAlias] exH = KOk (res, h') /\
  mat_of (vof exH (sk_x exSkAlias)) 0%nat 0%nat = RtoC 8 /\ mat_of (vof h' (sk_x exSkAlias)) 0%nat 0%nat = RtoC 99.
Proof.
  destruct (eval_runs bwd (fun _ _ => RtoC 7) heevd_ref exOpS (mat_op_keeps _) bwd_fair (proj1 heevd_ref_ok) exOwn exCaller exCaller_own
    [ref exCells 0] [exSkAlias] [exSkmAlias] 0 3 exH) as [[_ N] | (res & hc & E & _)].
  - repeat constructor.
  - repeat constructor. intros [].
  - exact exOwn_below.
  - exact exAlias_bound.
  - exact exAlias_state.
  - exact (exAlias_admissible 3).
  - exact exAlias_target.
  - exfalso. exact (N (proj2 heevd_ref_ok)).
  - exists res, (exCaller hc). split; [exact E|]. split; reflexivity.
Qed.
Lemma alias_disturbed :
  exists ord junk heevd opS own caller cs ks Ks step h,
  keeps opS /\ (forall t, fair (ord t)) /\ heevd_ok heevd /\ (forall h, frame own h (caller h)) /\ Forall (fun c => own (hloc c)) cs /\
  Forall (bound sviews h) ks /\ Forall2 (state opS h) ks Ks /\ Forall (admissible step) Ks /\
  exists k res h', In k ks /\ h_eval ord junk heevd opS caller cs 0 step ks h = KOk (res, h') /\ mat_of (vof h' (sk_x k)) 0%nat 0%nat <> mat_of (vof h (sk_x k)) 0%nat 0%nat.
Proof.
  exists bwd, (fun _ _ => RtoC 7), heevd_ref, exOpS, exOwn, exCaller, [ref exCells 0], [exSkAlias], [exSkmAlias], 3, exH.
  split; [apply mat_op_keeps|]. split; [exact bwd_fair|]. split; [exact (proj1 heevd_ref_ok)|]. split; [exact exCaller_own|]. split; [repeat constructor|].
  split; [exact exAlias_bound|]. split; [exact exAlias_state|]. split; [exact (exAlias_admissible 3)|].
  destruct exAlias_disturbed as (res & h' & E & A & B). exists exSkAlias, res, h'. split; [left; reflexivity|]. split; [exact E|].
  rewrite A, B. intros Q. apply (f_equal fst) in Q. cbn in Q. lra.
Qed.
