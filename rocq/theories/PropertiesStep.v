(** Properties C77-C80: one step of the solver at the level of memory (StepMem.v): the descent direction of every
    k-point and a trial point along it.  Exact complex numbers; matrices of every size that fits into int, every leading
    dimension; every order of every parallel loop; every contents of uninitialised memory; every LAPACK within its
    contract; every implementation of the operators of the calling program that multiplies by S and by the preconditioner.
    [KOk] excludes undefined behaviour, exceptions and rejected arguments. *)
From Coq Require Import ZArith Reals Lra Psatz Arith Lia List Bool Permutation.
From Coquelicot Require Import Complex.
From Verif Require Import Arith LinAlg MVector LapackMem LapackMemProofs LapackElt LapackFacts Exchange Smearing SmearingFacts Newton Occupation StepMem StepProofs StepMain StepTrial StepLine.
From Verif Require Import Descent DescentProofs DescentFacts Geodesic GeodesicProofs CurveExample Cholesky StepExample.
From Verif Require HeapExample.
Import ListNotations.
Local Open Scope R_scope.
Local Notation restarted := StepMem.restarted.
Local Notation conjugated := StepMem.conjugated.
Local Notation geodesic_us := StepMem.geodesic_us.
Local Notation diag := StepMem.diag.
Local Notation make_diag := StepMem.make_diag.

(** ** C77 *)
(** The directions that restarted leaves in memory. *)
Theorem C77_restarted_directions :
  forall ord ord1 junk potrf potrs opS opP s T kappa mo mu w ks,
  (forall t, fair (ord t)) -> (forall t, fair1 (ord1 t)) -> potrf_ok potrf -> potrs_ok potrs ->
  Forall2 (Forall2 (represents opS opP)) w ks -> (forall r kp, In r ks -> In kp r -> physical kp /\ kw kp <> 0) ->
  exists slope dirs, restarted ord ord1 junk potrf potrs opS opP s T kappa mo w mu = KOk (slope, dirs) /\
    Forall2 (Forall2 (fun kp d => held kp d (mat_of (fst d), mat_of (snd d)) /\ steepest kappa kp (mat_of (fst d)) (mat_of (snd d)))) ks dirs.
Proof. exact restarted_steepest. Qed.
Print Assumptions C77_restarted_directions.

(** [steepest] determines the directions. *)
Theorem C77_directions_determined :
  forall kappa kp zx ze zx' ze', physical kp -> steepest kappa kp zx ze -> steepest kappa kp zx' ze' ->
  meq (kn kp) (km kp) zx zx' /\ meq (km kp) (km kp) ze ze'.
Proof. exact (fun kappa kp zx ze zx' ze' H => steepest_unique kappa kp zx ze zx' ze' (sx_posdef _ _ _ _ _ (ph_orth _ H) (ph_Ppos _ H))). Qed.
Print Assumptions C77_directions_determined.

(** Slope and directions are those of the matrix formulas of Descent.v, to which C38, C39, C41, C70-C72 apply. *)
Theorem C77_restarted_agrees :
  forall ord ord1 junk potrf potrs opS opP s T kappa mo solve,
  (forall t, fair (ord t)) -> (forall t, fair1 (ord1 t)) -> potrf_ok potrf -> potrs_ok potrs ->
  forall mu w ks, Forall2 (Forall2 (represents opS opP)) w ks -> (forall r kp, In r ks -> In kp r -> systems_ok solve kp) ->
  exists slope dirs, restarted ord ord1 junk potrf potrs opS opP s T kappa mo w mu = KOk (slope, dirs) /\
    slope = fst (Descent.restarted solve s T kappa mo ks mu) /\
    Forall3 (Forall3 held) ks dirs (snd (Descent.restarted solve s T kappa mo ks mu)).
Proof. exact restarted_refines. Qed.
Print Assumptions C77_restarted_agrees.

Theorem C77_conjugated_agrees :
  forall ord ord1 junk potrf potrs opS opP s T kappa mo solve,
  (forall t, fair (ord t)) -> (forall t, fair1 (ord1 t)) -> potrf_ok potrf -> potrs_ok potrs ->
  forall fr_old mu w ks, Forall2 (Forall2 (cg_pair opS opP)) w ks -> (forall r kZ, In r ks -> In kZ r -> systems_ok solve (fst kZ)) ->
  exists fr slope dirs, conjugated ord ord1 junk potrf potrs opS opP s T kappa mo fr_old w mu = KOk (fr, slope, dirs) /\
    (fr, slope) = fst (Descent.conjugated solve s T kappa mo fr_old ks mu) /\
    Forall3 (Forall3 (fun kZ => held (fst kZ))) ks dirs (snd (Descent.conjugated solve s T kappa mo fr_old ks mu)).
Proof. exact conjugated_refines. Qed.
Print Assumptions C77_conjugated_agrees.

Example C77_example :
  (forall t, fair (bwd t)) /\ (forall t, fair1 (bwd1 t)) /\ potrf_ok potrf_ref /\ potrs_ok potrs_ref /\
  Forall2 (Forall2 (represents exOpS exOpP)) exMem exKs /\ (forall r kp, In r exKs -> In kp r -> physical kp /\ kw kp <> 0) /\
  (forall r kp, In r exKs -> In kp r -> systems_ok chol_solver kp) /\
  Forall2 (Forall2 (cg_pair exOpS exOpP)) exCg exCgM /\ (forall r kZ, In r exCgM -> In kZ r -> systems_ok chol_solver (fst kZ)) /\
  exists slope d0 d1, restarted bwd bwd1 (fun _ _ => RtoC 77) potrf_ref potrs_ref exOpS exOpP FERMI_DIRAC unit_T 1 2 exMem 0 = KOk (slope, [[d0]; [d1]]) /\
    mat_of (fst d1) 0%nat 0%nat = RtoC 0 /\ mat_of (fst d1) 1%nat 0%nat = RtoC (- (1 / 2)) /\ mat_of (snd d1) 0%nat 0%nat = RtoC (3 * 1).
Proof.
  assert (S1 : forall kp, physical kp -> systems_ok chol_solver kp) by (intros kp H; apply physical_systems; [exact H | apply chol_solver_ok]).
  split; [exact bwd_fair|]. split; [exact bwd1_fair|]. split; [exact potrf_ref_ok|]. split; [exact potrs_ref_ok|].
  split; [exact exMem_represents|]. split; [exact exKs_physical|].
  split; [intros r kp Hr Hk; apply S1; exact (proj1 (exKs_physical r kp Hr Hk))|].
  split; [exact exCg_represents|]. split; [intros r kp Hr Hk; apply S1; exact (proj1 (exCg_physical r kp Hr Hk))|].
  destruct (C77_restarted_directions bwd bwd1 (fun _ _ => RtoC 77) potrf_ref potrs_ref exOpS exOpP FERMI_DIRAC unit_T 1 2 0 exMem exKs
    bwd_fair bwd1_fair potrf_ref_ok potrs_ref_ok exMem_represents exKs_physical) as (slope & dirs & E & H).
  inversion H as [|? l0 ? r1 H0 H1]; subst. inversion H0 as [|? d0 ? e0 _ Hn]; subst. inversion Hn; subst.
  inversion H1 as [|? l1 ? r2 H2 H3]; subst. inversion H3; subst. inversion H2 as [|? d1 ? e1 H4 Hn1]; subst. inversion Hn1; subst.
  exists slope, d0, d1. split; [exact E|]. apply soft_steepest. exact (proj2 H4).
Qed.

(** Neither the order of the loops, nor uninitialised memory, nor the strides, nor the routines of LAPACK, nor the way the
    operators are implemented matter. *)
Theorem C77_restarted_reproducible :
  forall ord ord' ord1 ord1' junk junk' potrf potrf' potrs potrs' opS opS' opP opP' s T kappa mo mu w w' ks,
  (forall t, fair (ord t)) -> (forall t, fair (ord' t)) -> (forall t, fair1 (ord1 t)) -> (forall t, fair1 (ord1' t)) ->
  potrf_ok potrf -> potrf_ok potrf' -> potrs_ok potrs -> potrs_ok potrs' ->
  Forall2 (Forall2 (represents opS opP)) w ks -> Forall2 (Forall2 (represents opS' opP')) w' ks ->
  (forall r kp, In r ks -> In kp r -> physical kp) ->
  exists slope dirs dirs', restarted ord ord1 junk potrf potrs opS opP s T kappa mo w mu = KOk (slope, dirs) /\
    restarted ord' ord1' junk' potrf' potrs' opS' opP' s T kappa mo w' mu = KOk (slope, dirs') /\
    Forall3 (Forall3 same_elements) ks dirs dirs'.
Proof. exact restarted_same. Qed.
Print Assumptions C77_restarted_reproducible.

Theorem C77_conjugated_reproducible :
  forall ord ord' ord1 ord1' junk junk' potrf potrf' potrs potrs' opS opS' opP opP' s T kappa mo fr_old mu w w' ks,
  (forall t, fair (ord t)) -> (forall t, fair (ord' t)) -> (forall t, fair1 (ord1 t)) -> (forall t, fair1 (ord1' t)) ->
  potrf_ok potrf -> potrf_ok potrf' -> potrs_ok potrs -> potrs_ok potrs' ->
  Forall2 (Forall2 (cg_pair opS opP)) w ks -> Forall2 (Forall2 (cg_pair opS' opP')) w' ks ->
  (forall r kZ, In r ks -> In kZ r -> physical (fst kZ)) ->
  exists fr slope dirs dirs', conjugated ord ord1 junk potrf potrs opS opP s T kappa mo fr_old w mu = KOk (fr, slope, dirs) /\
    conjugated ord' ord1' junk' potrf' potrs' opS' opP' s T kappa mo fr_old w' mu = KOk (fr, slope, dirs') /\
    Forall3 (Forall3 (fun kZ => same_elements (fst kZ))) ks dirs dirs'.
Proof. exact conjugated_same. Qed.
Print Assumptions C77_conjugated_reproducible.

(** Every k-point, with every leading dimension, has a representation in memory, and every matrix an operator. *)
Theorem C77_every_point_representable :
  forall opS opP k ld kp, (1 <= km kp)%nat -> (1 <= kn kp)%nat -> (kn kp <= ld)%nat ->
  (Z.of_nat ld + Z.of_nat ld * Z.of_nat (km kp) <= 2147483647)%Z -> small (km kp) (km kp) ->
  acts_as opS k (kn kp) (kS kp) -> acts_as opP k (kn kp) (kP kp) ->
  represents opS opP (mem_of k ld kp) kp.
Proof. exact mem_of_represents. Qed.
Print Assumptions C77_every_point_representable.

Theorem C77_every_matrix_an_operator : forall M k n, acts_as (mat_op M) k n (M k).
Proof. exact mat_op_acts. Qed.
Print Assumptions C77_every_matrix_an_operator.

(** ** C78 *)
(** The trial point that geodesic_us leaves in memory. *)
Theorem C78_trial_point :
  forall ord junk heevd opS, (forall t, fair (ord t)) -> heevd_ok heevd ->
  forall t k n m S step X eta zx ze MX ME MZ MZE,
  (1 <= n)%nat -> (1 <= m)%nat -> small n m -> small m m -> acts_as opS k n S -> hermitian n S ->
  holds n m X MX -> holds m m eta ME -> holds n m zx MZ -> holds m m ze MZE ->
  let Xt := add MX MZ step 1 in
  let Et := add ME MZE step 1 in
  hermitian m Et -> posdef m (mmul n (adj Xt) (mmul n S Xt)) ->
  (geodesic_us ord junk heevd opS t k step X eta zx ze = KThrow /\ ~ never_fails heevd) \/
  exists ek Ul X', geodesic_us ord junk heevd opS t k step X eta zx ze = KOk (ek, Ul, X') /\ trial_point n m S Xt Et ek Ul X'.
Proof. exact geodesic_ok. Qed.
Print Assumptions C78_trial_point.

(** the contract of zheevd can be met, for every Hermitian matrix of every order *)
Theorem C78_contract_realisable : exists heevd, heevd_ok heevd /\ never_fails heevd.
Proof. exact (ex_intro _ heevd_ref heevd_ref_ok). Qed.
Print Assumptions C78_contract_realisable.

(** Two plane waves, one band, overlap diag(1, 3), X = (1, 0), direction (0, -1/2), step 3: the hypotheses are met and a trial point is found. *)
Example C78_example :
  let X := mkview 2 1 2 (kX soft) in let Z := fun i j : nat => if Nat.eqb i 0 then RtoC 0 else RtoC (- (1 / 2)) in
  let Xt := add (kX soft) Z 3 1 in
  heevd_ok heevd_ref /\ never_fails heevd_ref /\ small 2 1 /\ acts_as exOpS k1 2 (diag2 1 3) /\ hermitian 2 (diag2 1 3) /\
  holds 2 1 X (kX soft) /\ holds 2 1 (mkview 2 1 2 Z) Z /\ posdef 1 (mmul 2 (adj Xt) (mmul 2 (diag2 1 3) Xt)) /\
  exists ek Ul X', geodesic_us bwd (fun _ _ => RtoC 7) heevd_ref exOpS 0 k1 3 X (mkview 1 1 1 (fun _ _ => RtoC 2)) (mkview 2 1 2 Z) (mkview 1 1 1 (fun _ _ => RtoC 3)) = KOk (ek, Ul, X') /\
    trial_point 2 1 (diag2 1 3) Xt (add (fun _ _ => RtoC 2) (fun _ _ => RtoC 3) 3 1) ek Ul X'.
Proof.
  intros X Z Xt. pose proof (HeapExample.exSk_admissible 3) as A. inversion A as [|? ? (Ah & Ap) _]; subst. clear A.
  assert (H1 : acts_as exOpS k1 2 (diag2 1 3)) by exact (mat_op_acts (fun k => if is_k0 k then mid else diag2 1 3) k1 2).
  assert (H2 : hermitian 2 (diag2 1 3)) by apply diag2_hermitian.
  assert (H3 : holds 2 1 X (kX soft)) by (apply mkview_holds; lia). assert (H4 : holds 2 1 (mkview 2 1 2 Z) Z) by (apply mkview_holds; lia).
  do 2 (split; [apply heevd_ref_ok|]). split; [unfold small; lia|]. do 5 (split; [assumption|]).
  destruct (C78_trial_point bwd (fun _ _ => RtoC 7) heevd_ref exOpS bwd_fair (proj1 heevd_ref_ok) 0%nat k1 2%nat 1%nat (diag2 1 3) 3 X (mkview 1 1 1 (fun _ _ => RtoC 2))
    (mkview 2 1 2 Z) (mkview 1 1 1 (fun _ _ => RtoC 3)) (kX soft) (fun _ _ => RtoC 2) Z (fun _ _ => RtoC 3)) as [(_ & N)|R];
    try assumption; try (unfold small; lia); try (apply mkview_holds; lia).
  exfalso. exact (N (proj2 heevd_ref_ok)).
Qed.

(** ** C79 *)
(** A direction followed by a trial point with any step. *)
Theorem C79_restarted_then_trial :
  forall ord ord1 junk potrf potrs opS opP s T kappa mo,
  (forall t, fair (ord t)) -> (forall t, fair1 (ord1 t)) -> potrf_ok potrf -> potrs_ok potrs ->
  forall mu w ks, Forall2 (Forall2 (represents opS opP)) w ks -> (forall r kp, In r ks -> In kp r -> physical kp) ->
  exists slope dirs, restarted ord ord1 junk potrf potrs opS opP s T kappa mo w mu = KOk (slope, dirs) /\
    Forall3 (Forall3 (stepable opS)) w ks dirs.
Proof. exact restarted_then_trial. Qed.
Print Assumptions C79_restarted_then_trial.

Theorem C79_conjugated_then_trial :
  forall ord ord1 junk potrf potrs opS opP s T kappa mo,
  (forall t, fair (ord t)) -> (forall t, fair1 (ord1 t)) -> potrf_ok potrf -> potrs_ok potrs ->
  forall fr_old mu w ks, Forall2 (Forall2 (cg_pair opS opP)) w ks ->
  (forall r kZ, In r ks -> In kZ r -> physical (fst kZ) /\ hermitian (km (fst kZ)) (snd (fst (snd kZ)))) ->
  exists fr slope dirs, conjugated ord ord1 junk potrf potrs opS opP s T kappa mo fr_old w mu = KOk (fr, slope, dirs) /\
    Forall3 (Forall3 (fun kz kZ => stepable opS (fst kz) (fst kZ))) w ks dirs.
Proof. exact conjugated_then_trial. Qed.
Print Assumptions C79_conjugated_then_trial.

(** On the two ranks of the example, with a pseudo-Hamiltonian diag(2) at the second k-point and step 3: a trial point. *)
Example C79_example :
  Forall2 (Forall2 (cg_pair exOpS exOpP)) exCg exCgM /\
  (forall r kZ, In r exCgM -> In kZ r -> physical (fst kZ) /\ hermitian (km (fst kZ)) (snd (fst (snd kZ)))) /\
  exists slope d0 d1 ek Ul X', restarted fwd fwd1 (fun _ _ => RtoC 5) potrf_ref potrs_ref exOpS exOpP FERMI_DIRAC unit_T 1 2 exMem 0 = KOk (slope, [[d0]; [d1]]) /\
    geodesic_us bwd (fun _ _ => RtoC 7) heevd_ref exOpS 0 k1 3 (mk_x (mem_of k1 2 soft)) (mkview 1 1 1 (fun _ _ => RtoC 2)) (fst d1) (snd d1) = KOk (ek, Ul, X') /\
    meq 1 1 (mmul 2 (adj (mat_of X')) (mmul 2 (diag2 1 3) (mat_of X'))) mid.
Proof.
  split; [exact exCg_represents|]. split; [exact exCg_physical|].
  destruct (C79_restarted_then_trial fwd fwd1 (fun _ _ => RtoC 5) potrf_ref potrs_ref exOpS exOpP FERMI_DIRAC unit_T 1 2
    fwd_fair fwd1_fair potrf_ref_ok potrs_ref_ok 0 exMem exKs exMem_represents (fun r kp Hr Hk => proj1 (exKs_physical r kp Hr Hk))) as (slope & dirs & E & H).
  inversion H as [|? ? l0 ? ? r1 H0 H1]; subst. inversion H0 as [|? ? d0 ? ? e0 _ Hn]; subst. inversion Hn; subst.
  inversion H1 as [|? ? l1 ? ? r2 H2 H3]; subst. inversion H3; subst. inversion H2 as [|? ? d1 ? ? e1 H4 Hn1]; subst. inversion Hn1; subst.
  destruct (H4 bwd (fun _ _ => RtoC 7) heevd_ref 0%nat 3 (mkview 1 1 1 (fun _ _ => RtoC 2)) (fun _ _ => RtoC 2) bwd_fair (proj1 heevd_ref_ok)) as [[_ N] | (ek & Ul & X' & E' & Ht)].
  - apply mkview_holds; cbn [soft km]; lia.
  - intros i j _ _. unfold adj. apply Cconj_R.
  - exfalso. exact (N (proj2 heevd_ref_ok)).
  - exists slope, d0, d1, ek, Ul, X'. split; [exact E|]. split; [exact E'|]. exact (tp_orth _ _ _ _ _ _ _ _ Ht).
Qed.

(** ** C80 *)
Theorem C80_diag : forall r c X M, holds r c X M -> diag X = KOk (map (fun i => M i i) (seq 0 (Nat.min r c))).
Proof. exact diag_ok. Qed.
Print Assumptions C80_diag.

Theorem C80_make_diag :
  forall o n x, (1 <= n)%nat -> small n n -> Permutation o (seq 0 n) ->
  exists D, make_diag (E := Celt) o n x = KOk D /\ holds n n D (fun i j => if Nat.eqb i j then x i else RtoC 0).
Proof. exact make_diag_ok. Qed.
Print Assumptions C80_make_diag.

Theorem C80_diag_of_make_diag :
  forall o n x, (1 <= n)%nat -> small n n -> Permutation o (seq 0 n) ->
  exists D, make_diag (E := Celt) o n x = KOk D /\ diag D = KOk (map x (seq 0 n)).
Proof. exact diag_make_diag. Qed.
Print Assumptions C80_diag_of_make_diag.

Example C80_example :
  small 3 3 /\ Permutation (rev (seq 0 3)) (seq 0 3) /\
  holds 2 3 (mkview 2 3 4 (fun i j => RtoC (INR (i + 10 * j)))) (fun i j => RtoC (INR (i + 10 * j))) /\
  diag (mkview 2 3 4 (fun i j => RtoC (INR (i + 10 * j)))) = KOk [RtoC (INR 0); RtoC (INR 11)].
Proof.
  assert (H : holds 2 3 (mkview 2 3 4 (fun i j => RtoC (INR (i + 10 * j)))) (fun i j => RtoC (INR (i + 10 * j)))) by (apply mkview_holds; lia).
  split; [unfold small; lia|]. split; [apply Permutation_sym, Permutation_rev|]. split; [exact H|].
  rewrite (C80_diag 2 3 _ _ H). reflexivity.
Qed.
