(** Property C91: one step of the solver on the host, on a CUDA device and on a ROCm device (DeviceStep.v).
    Exact complex numbers; every size that fits into int, every leading dimension; every order of every parallel loop and every
    shape of the device reductions; every contents of uninitialised memory; every LAPACK, cuSOLVER and host LAPACK of the ROCm
    path within its contract. *)
From Coq Require Import ZArith Reals Lra Arith Lia List Bool Permutation.
From Coquelicot Require Import Complex.
From Flocq Require Import IEEE754.BinarySingleNaN.
From Verif Require Import Arith LinAlg MVector LapackMem LapackMemProofs LapackElt LapackFacts LapackFloat Float64 Exchange Smearing SmearingFacts Newton Occupation StepMem StepProofs StepMain StepTrial StepLine.
From Verif Require Import Descent DescentProofs DescentFacts Geodesic GeodesicProofs CurveExample Cholesky StepExample.
From Verif Require Import DeviceStep DeviceStepProofs DeviceSpaces.
From Verif Require Device.
Import ListNotations.
Local Open Scope R_scope.
Local Notation SHost := Device.SHost.
Local Notation SCuda := Device.SCuda.
Local Notation SRocm := Device.SRocm.

(** In every space, restarted leaves the preconditioned steepest descent direction in memory. *)
Theorem C91_restarted_directions :
  forall sp ord ord1 junk red potrf potrs opS opP s T kappa mo mu w ks,
  (forall t, fair (ord t)) -> (forall t, fair1 (ord1 t)) -> (forall t, fair_red (red t)) -> potrf_ok potrf -> potrs_ok potrs ->
  Forall2 (Forall2 (represents opS opP)) w ks -> (forall r kp, In r ks -> In kp r -> physical kp /\ kw kp <> 0) ->
  exists slope dirs, restarted_at sp ord ord1 junk red potrf potrs opS opP s T kappa mo w mu = KOk (slope, dirs) /\
    Forall2 (Forall2 (fun kp d => held kp d (mat_of (fst d), mat_of (snd d)) /\ steepest kappa kp (mat_of (fst d)) (mat_of (snd d)))) ks dirs.
Proof. exact restarted_space. Qed.
Print Assumptions C91_restarted_directions.

(** Two spaces: same slope, same directions, element by element. *)
Theorem C91_restarted_same :
  forall sp sp' ord ord' ord1 ord1' junk junk' red red' potrf potrf' potrs potrs' opS opS' opP opP' s T kappa mo mu w w' ks,
  (forall t, fair (ord t)) -> (forall t, fair (ord' t)) -> (forall t, fair1 (ord1 t)) -> (forall t, fair1 (ord1' t)) ->
  (forall t, fair_red (red t)) -> (forall t, fair_red (red' t)) ->
  potrf_ok potrf -> potrf_ok potrf' -> potrs_ok potrs -> potrs_ok potrs' ->
  Forall2 (Forall2 (represents opS opP)) w ks -> Forall2 (Forall2 (represents opS' opP')) w' ks ->
  (forall r kp, In r ks -> In kp r -> physical kp) ->
  exists slope dirs dirs', restarted_at sp ord ord1 junk red potrf potrs opS opP s T kappa mo w mu = KOk (slope, dirs) /\
    restarted_at sp' ord' ord1' junk' red' potrf' potrs' opS' opP' s T kappa mo w' mu = KOk (slope, dirs') /\
    Forall3 (Forall3 same_elements) ks dirs dirs'.
Proof. exact restarted_spaces. Qed.
Print Assumptions C91_restarted_same.

Theorem C91_conjugated_same :
  forall sp sp' ord ord' ord1 ord1' junk junk' red red' potrf potrf' potrs potrs' opS opS' opP opP' s T kappa mo fr_old mu w w' ks,
  (forall t, fair (ord t)) -> (forall t, fair (ord' t)) -> (forall t, fair1 (ord1 t)) -> (forall t, fair1 (ord1' t)) ->
  (forall t, fair_red (red t)) -> (forall t, fair_red (red' t)) ->
  potrf_ok potrf -> potrf_ok potrf' -> potrs_ok potrs -> potrs_ok potrs' ->
  Forall2 (Forall2 (cg_pair opS opP)) w ks -> Forall2 (Forall2 (cg_pair opS' opP')) w' ks ->
  (forall r kZ, In r ks -> In kZ r -> physical (fst kZ)) ->
  exists fr slope dirs dirs', conjugated_at sp ord ord1 junk red potrf potrs opS opP s T kappa mo fr_old w mu = KOk (fr, slope, dirs) /\
    conjugated_at sp' ord' ord1' junk' red' potrf' potrs' opS' opP' s T kappa mo fr_old w' mu = KOk (fr, slope, dirs') /\
    Forall3 (Forall3 (fun kZ => same_elements (fst kZ))) ks dirs dirs'.
Proof. exact conjugated_spaces. Qed.
Print Assumptions C91_conjugated_same.

(** In every space, geodesic_us leaves a trial point in memory if the eigensolver does not fail. *)
Theorem C91_trial_point :
  forall sp ord junk heevd opS, (forall t, fair (ord t)) -> heevd_ok heevd -> never_fails heevd ->
  forall t k n m S step X eta zx ze MX ME MZ MZE,
  (1 <= n)%nat -> (1 <= m)%nat -> small n m -> small m m -> acts_as opS k n S -> hermitian n S ->
  holds n m X MX -> holds m m eta ME -> holds n m zx MZ -> holds m m ze MZE ->
  let Xt := add MX MZ step 1 in
  let Et := add ME MZE step 1 in
  hermitian m Et -> posdef m (mmul n (adj Xt) (mmul n S Xt)) ->
  exists ek Ul X', geodesic_us_at sp ord junk heevd opS t k step X eta zx ze = KOk (ek, Ul, X') /\ trial_point n m S Xt Et ek Ul X'.
Proof. exact trial_point_space. Qed.
Print Assumptions C91_trial_point.

Example C91_example :
  (forall t, fair_red (backwards t)) /\ leaves (backwards 0 3) = [2; 1; 0]%nat /\
  (forall sp, exists slope dirs dirs',
     restarted_at SHost fwd fwd1 (fun _ _ => RtoC 5) backwards potrf_ref potrs_ref exOpS exOpP FERMI_DIRAC unit_T 1 2 exMem 0 = KOk (slope, dirs) /\
     restarted_at sp bwd bwd1 (fun _ _ => RtoC 77) backwards potrf_ref potrs_ref exOpS exOpP FERMI_DIRAC unit_T 1 2 exMem 0 = KOk (slope, dirs') /\
     Forall3 (Forall3 same_elements) exKs dirs dirs') /\
  (forall sp, exists fr slope dirs dirs',
     conjugated_at SHost fwd fwd1 (fun _ _ => RtoC 5) backwards potrf_ref potrs_ref exOpS exOpP FERMI_DIRAC unit_T 1 2 3 exCg 0 = KOk (fr, slope, dirs) /\
     conjugated_at sp bwd bwd1 (fun _ _ => RtoC 77) backwards potrf_ref potrs_ref exOpS exOpP FERMI_DIRAC unit_T 1 2 3 exCg 0 = KOk (fr, slope, dirs') /\
     Forall3 (Forall3 (fun kZ => same_elements (fst kZ))) exCgM dirs dirs') /\
  (forall sp, exists ek Ul X',
     geodesic_us_at sp bwd (fun _ _ => RtoC 7) heevd_ref exOpS 0 k1 0 (mk_x (mem_of k1 2 soft)) (mkview 1 1 1 (fun _ _ => RtoC 2))
       (mkview 2 1 3 (fun i _ => RtoC (INR i))) (mkview 1 1 2 (fun _ _ => RtoC 4)) = KOk (ek, Ul, X') /\
     meq 1 1 (mmul 2 (adj (mat_of X')) (mmul 2 (diag2 1 3) (mat_of X'))) mid).
Proof.
  split; [exact backwards_fair|]. split; [reflexivity|].
  split; [|split].
  - intro sp. apply C91_restarted_same; try exact fwd_fair; try exact bwd_fair; try exact fwd1_fair; try exact bwd1_fair;
      try exact backwards_fair; try exact potrf_ref_ok; try exact potrs_ref_ok; try exact exMem_represents.
    intros r kp Hr Hk. exact (proj1 (exKs_physical r kp Hr Hk)).
  - intro sp. apply C91_conjugated_same; try exact fwd_fair; try exact bwd_fair; try exact fwd1_fair; try exact bwd1_fair;
      try exact backwards_fair; try exact potrf_ref_ok; try exact potrs_ref_ok; try exact exCg_represents.
    intros r kZ Hr Hk. exact (proj1 (exCg_physical r kZ Hr Hk)).
  - intro sp. pose proof exMem_represents as R. inversion R as [|? ? ? ? _ R']; subst. inversion R' as [|? ? ? ? R2 _]; subst.
    inversion R2 as [|? ? ? ? R1 _]; subst.
    destruct (C91_trial_point sp bwd (fun _ _ => RtoC 7) heevd_ref exOpS bwd_fair (proj1 heevd_ref_ok) (proj2 heevd_ref_ok)
      0%nat k1 2%nat 1%nat (diag2 1 3) 0 (mk_x (mem_of k1 2 soft)) (mkview 1 1 1 (fun _ _ => RtoC 2)) (mkview 2 1 3 (fun i _ => RtoC (INR i)))
      (mkview 1 1 2 (fun _ _ => RtoC 4)) (kX soft) (fun _ _ => RtoC 2) (fun i _ => RtoC (INR i)) (fun _ _ => RtoC 4))
      as (ek & Ul & X' & E & H); try (unfold small; cbn; lia).
    + exact (rp_S _ _ _ _ R1).
    + apply diag2_hermitian.
    + exact (rp_x _ _ _ _ R1).
    + apply mkview_holds; lia.
    + apply mkview_holds; lia.
    + apply mkview_holds; lia.
    + intros i j _ _. unfold adj, add, madd, mscal. rewrite <- !RtoC_mult, <- !RtoC_plus. apply Cconj_R.
    + pose proof (ph_orth _ soft_physical) as O.
      assert (meq 2 1 (add (kX soft) (fun i _ => RtoC (INR i)) 0 1) (kX soft)) as Q.
      { intros i j _ _. unfold add, madd, mscal. ring. }
      apply (posdef_meq 1 (mmul 2 (adj (kX soft)) (mmul 2 (diag2 1 3) (kX soft)))).
      * intros i j Hi Hj. unfold mmul, adj. apply csum_ext. intros a Ha. rewrite (Q a i Ha Hi). f_equal. apply csum_ext. intros b Hb. rewrite (Q b j Hb Hj). reflexivity.
      * apply (posdef_meq 1 mid); [|apply posdef_mid]. intros i j Hi Hj. symmetry. exact (O i j Hi Hj).
    + exists ek, Ul, X'. split; [exact E|]. exact (tp_orth _ _ _ _ _ _ _ _ H).
Qed.

(** Whatever the step on the host returns, the device returns, for inputs of any contents; no contract of LAPACK is used. *)
Theorem C91_host_results_kept :
  forall sp ord ord1 junk red heevd potrf potrs opS opP s T kappa mo,
  (forall t, fair (ord t)) -> (forall t, fair_red (red t)) ->
  (forall t k step (X eta zx ze : view Celt) r,
     (vrows zx <= vs1 zx)%nat -> (vrows zx <= vrows X)%nat -> (vrows ze <= vs1 ze)%nat -> vrows ze = vcols ze ->
     StepMem.geodesic_us ord junk heevd opS t k step X eta zx ze = KOk r -> geodesic_us_at sp ord junk heevd opS t k step X eta zx ze = KOk r) /\
  (forall w mu r, (forall l k, In l w -> In k l -> (vrows (mk_hx k) <= vs1 (mk_hx k))%nat /\ (vrows (mk_hx k) <= vrows (mk_x k))%nat) ->
     StepMem.restarted ord ord1 junk potrf potrs opS opP s T kappa mo w mu = KOk r ->
     restarted_at sp ord ord1 junk red potrf potrs opS opP s T kappa mo w mu = KOk r) /\
  (forall fr_old w mu r,
     (forall l k zx ze ul, In l w -> In (k, (zx, ze, ul)) l ->
        ((vrows (mk_hx k) <= vs1 (mk_hx k))%nat /\ (vrows (mk_hx k) <= vrows (mk_x k))%nat) /\
        (vrows (mk_x k) <= vrows zx)%nat /\ (vcols (mk_x k) <= vcols ul)%nat) ->
     StepMem.conjugated ord ord1 junk potrf potrs opS opP s T kappa mo fr_old w mu = KOk r ->
     conjugated_at sp ord ord1 junk red potrf potrs opS opP s T kappa mo fr_old w mu = KOk r).
Proof.
  exact (fun sp ord ord1 junk red heevd potrf potrs opS opP s T kappa mo F FR =>
    Logic.conj (fun t k step X eta zx ze r a b c d => geodesic_refines sp ord junk heevd opS F t k step X eta zx ze a b c d r)
   (Logic.conj (fun w mu r H => DeviceStepProofs.restarted_refines sp ord ord1 junk red potrf potrs opS opP s T kappa mo F FR w mu H r)
               (fun fr_old w mu r H => DeviceStepProofs.conjugated_refines sp ord ord1 junk red potrf potrs opS opP s T kappa mo F FR fr_old w mu H r))).
Qed.
Print Assumptions C91_host_results_kept.

(** Finding: the converse fails.  If the eigensolver reports failure, the host throws and both devices return what is in memory. *)
Theorem C91_failed_eigensolver_refuted :
  exists heevd (Sv : view Celt), heevd_ok heevd /\ holds 1 1 Sv (fun _ _ => RtoC 2) /\
    eigh_at SHost fwd heevd 0 (empty_like Sv (fun _ => RtoC 0)) 1 Sv = KThrow /\
    forall sp, sp <> SHost -> exists U w, eigh_at sp fwd heevd 0 (empty_like Sv (fun _ => RtoC 0)) 1 Sv = KOk (U, (1%nat, w)) /\
      ~ unitary 1 (mat_of U) /\ w 0%nat <> 2.
Proof.
  exists gives_up, (mkview 1 1 1 (fun _ _ => RtoC 2)). split; [exact gives_up_ok|]. split; [apply mkview_holds; lia|].
  split; [reflexivity|]. intros sp N.
  assert (U : forall M : mat, M 0%nat 0%nat = RtoC 2 -> ~ unitary 1 M).
  { intros M HM [H _]. specialize (H 0%nat 0%nat Nat.lt_0_1 Nat.lt_0_1). unfold mmul, adj, mid in H. cbn [csum Nat.eqb] in H. rewrite HM in H.
    apply (f_equal fst) in H. cbn in H. lra. }
  destruct sp; [exfalso; apply N; reflexivity | |]; (eexists; eexists; split; [reflexivity|]; split; [apply U; reflexivity|cbn; lra]).
Qed.
Print Assumptions C91_failed_eigensolver_refuted.

(** Finding: so does it for arguments that zgemm rejects, such as the leading dimension 0 of a matrix without rows. *)
Theorem C91_rejected_arguments_refuted :
  exists X : view Celt, vlocal X = true /\ vrows X = 0%nat /\
    inner__on SHost (pairs 1 1) X X (RtoC 1 : ev Celt) (RtoC 0 : ev Celt) = KBadArg /\
    forall sp, sp <> SHost -> exists Y, inner__on sp (pairs 1 1) X X (RtoC 1 : ev Celt) (RtoC 0 : ev Celt) = KOk Y.
Proof.
  exists (alloc Celt 0 1 true). split; [reflexivity|]. split; [reflexivity|]. split; [reflexivity|].
  intros [ | | ] N; [exfalso; apply N; reflexivity | |]; eexists; reflexivity.
Qed.
Print Assumptions C91_rejected_arguments_refuted.

(** On a device, add with beta = 0 does not depend on the old contents, in every arithmetic: the unary minus is right there,
    whatever the uninitialised memory holds (on the host it is not, C46). *)
Theorem C91_device_unary_minus :
  forall (E : elt) sp order junk m1 zero (X : view E), sp <> SHost ->
  Permutation order (pairs (vrows X) (vcols X)) -> vlocal X = true -> col_major X -> (1 <= vrows X)%nat -> allocated X -> eis0 E zero = true ->
  exists Y, minus_on sp order junk m1 zero X = KOk Y /\
    forall i j, (i < vrows X)%nat -> (j < vcols X)%nat -> vat Y i j = emul E m1 (vat X i j).
Proof. exact @minus_device. Qed.
Print Assumptions C91_device_unary_minus.

Example C91_minus_example :
  eis0 Felt (fzero, fzero) = true /\
  forall sp, sp <> SHost -> exists Y,
    minus_on sp (pairs 1 1) (fun _ => (B754_nan, fzero) : ev Felt) ((Bopp (fofZ 1), fzero) : ev Felt) (fzero, fzero) (MkView 1 1 1 1 true (MkBuf (E := Felt) 1 (fun _ => (fofZ 1, fzero)))) = KOk Y /\
    B2SF (fst (vat Y 0 0 : fc)) = B2SF (Bopp (fofZ 1)).
Proof.
  split; [reflexivity|]. intros sp N.
  destruct (C91_device_unary_minus Felt sp (pairs 1 1) (fun _ => (B754_nan, fzero) : ev Felt) ((Bopp (fofZ 1), fzero) : ev Felt) (fzero, fzero)
    (MkView 1 1 1 1 true (MkBuf (E := Felt) 1 (fun _ => (fofZ 1, fzero)))) N) as (Y & E & V); try reflexivity.
  - unfold col_major. cbn. lia.
  - intros i j. cbn. lia.
  - exists Y. split; [exact E|]. rewrite (V 0%nat 0%nat) by (cbn; lia). vm_compute. reflexivity.
Qed.
