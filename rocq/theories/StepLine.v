(** A direction followed by a trial point, in memory; every k-point has a representation in memory. *)
From Coq Require Import ZArith Reals Lra Psatz Arith Lia List Bool Permutation.
From Coquelicot Require Import Complex.
From Verif Require Import Arith LinAlg MVector LapackMem LapackMemProofs LapackElt LapackFacts Exchange Smearing Newton Occupation StepMem StepProofs StepMain StepTrial.
From Verif Require Descent DescentProofs DescentFacts Geodesic GeodesicProofs UsRunProofs Cholesky.
Import ListNotations.
Local Open Scope R_scope.

(** ** Merging statements about lists *)
Lemma merge1 {A K D E} (P : A -> K -> Prop) (Q : K -> D -> E -> Prop) (G : K -> E -> Prop) w ks ds es :
  Forall2 P w ks -> Forall3 Q ks ds es -> Forall2 G ks es -> Forall3 (fun a k d => P a k /\ exists e, Q k d e /\ G k e) w ks ds.
Proof.
  intros H. revert ds es. induction H as [|a k w ks Ha Hw IH]; intros ds es H3 H2; inversion H3; subst; inversion H2; subst; constructor.
  - split; [assumption|]. eexists; split; eassumption.
  - eapply IH; eassumption.
Qed.
Lemma merge2 {A K D E} (P : A -> K -> Prop) (Q : K -> D -> E -> Prop) (G : K -> E -> Prop) w ks ds es :
  Forall2 (Forall2 P) w ks -> Forall3 (Forall3 Q) ks ds es -> Forall2 (Forall2 G) ks es ->
  Forall3 (Forall3 (fun a k d => P a k /\ exists e, Q k d e /\ G k e)) w ks ds.
Proof.
  intros H. revert ds es. induction H as [|a k w ks Ha Hw IH]; intros ds es H3 H2; inversion H3; subst; inversion H2; subst; constructor.
  - eapply merge1; eassumption.
  - eapply IH; eassumption.
Qed.
Lemma Forall3_impl2 {A B D} (P Q : A -> B -> D -> Prop) w v u : (forall a b d, P a b d -> Q a b d) -> Forall3 (Forall3 P) w v u -> Forall3 (Forall3 Q) w v u.
Proof.
  intros H. induction 1 as [|l l' l'' w v u Hl Hw IH]; constructor; [|exact IH].
  clear - Hl H. induction Hl; constructor; auto.
Qed.
Lemma Forall2_and2 {A B} (P Q : A -> B -> Prop) w v : Forall2 (Forall2 P) w v -> Forall2 (Forall2 Q) w v -> Forall2 (Forall2 (fun a b => P a b /\ Q a b)) w v.
Proof.
  intros H. induction H as [|l l' w v Hl Hw IH]; intros H2; inversion H2 as [|? ? ? ? G1 G2]; subst; constructor.
  - clear - Hl G1. induction Hl; inversion G1; subst; constructor; [split; assumption | auto].
  - apply IH. exact G2.
Qed.

(** ** Specification vocabulary *)
(** What is assumed of the data of a k-point: Hermitian overlap and preconditioner, the former positive
    semi-definite, the latter positive definite; orthonormal wave functions; Hermitian Hamiltonian. *)
Record physical (kp : Descent.kpt) : Prop := MkPhys {
  ph_S : hermitian (Descent.kn kp) (Descent.kS kp); ph_Spos : psd (Descent.kn kp) (Descent.kS kp);
  ph_P : hermitian (Descent.kn kp) (Descent.kP kp); ph_Ppos : posdef (Descent.kn kp) (Descent.kP kp);
  ph_orth : Geodesic.orthonormal (Descent.kn kp) (Descent.km kp) (Descent.kS kp) (Descent.kX kp);
  ph_H : hermitian (Descent.km kp) (mmul (Descent.kn kp) (adj (Descent.kX kp)) (Descent.kHX kp))
}.
(** From the k-point [k], which holds the data [kp], every trial point along the directions [d] can be computed: for every
    step, every eigensolver within its contract, every order of the loops, every contents of fresh memory. *)
Definition stepable (opS : operator_fn Celt) (k : memk) (kp : Descent.kpt) (d : view Celt * view Celt) : Prop :=
  forall ord junk heevd t step eta ME, (forall t, fair (ord t)) -> heevd_ok heevd ->
  holds (Descent.km kp) (Descent.km kp) eta ME -> hermitian (Descent.km kp) ME ->
  (geodesic_us ord junk heevd opS t (mk_key k) step (mk_x k) eta (fst d) (snd d) = KThrow /\ ~ never_fails heevd) \/
  exists ek Ul X', geodesic_us ord junk heevd opS t (mk_key k) step (mk_x k) eta (fst d) (snd d) = KOk (ek, Ul, X') /\
    trial_point (Descent.kn kp) (Descent.km kp) (Descent.kS kp)
      (fun i j => Cplus (Descent.kX kp i j) (Cmult (RtoC step) (mat_of (fst d) i j)))
      (fun i j => Cplus (ME i j) (Cmult (RtoC step) (mat_of (snd d) i j))) ek Ul X'.

Lemma physical_systems solve kp : physical kp -> DescentProofs.solver_ok solve (Descent.km kp) -> DescentFacts.systems_ok solve kp.
Proof.
  intros [H1 H2 H3 H4 H5 H6] Hs. constructor; [exact Hs | exact H3 | |]; cbv zeta.
  - apply GeodesicProofs.sx_posdef; assumption.
  - apply (GeodesicProofs.sx_full _ _ _ _ H5).
Qed.

Lemma trial_point_ext n m S Xt Xt' Et Et' ek Ul X' : meq n m Xt Xt' -> meq m m Et Et' -> trial_point n m S Xt Et ek Ul X' -> trial_point n m S Xt' Et' ek Ul X'.
Proof.
  intros HX HE [A1 A2 A3 A4 A5 A6 A7 (Rm & B1 & B2 & B3)]. constructor; try assumption.
  - apply meq_trans with (2 := A5). apply mmul_ext; [apply meq_refl|]. apply mmul_ext; [apply meq_sym; exact HE | apply meq_refl].
  - exists Rm. split; [exact B1|]. split; [exact B2|]. apply meq_trans with (1 := B3). apply mmul_ext; [exact HX | apply meq_refl].
Qed.

Lemma stepable_ok opS opP k kp d D : represents opS opP k kp -> physical kp -> held kp d D ->
  DescentFacts.tangent kp (fst D) -> hermitian (Descent.km kp) (snd D) -> stepable opS k kp d.
Proof.
  intros [Hn Hm Hnm Hmm Hx Hhx He Hf Hh Hw HS HP] [H1 H2 H3 H4 H5 H6] [Hd1 Hd2] Ht Hz.
  intros ord junk heevd t step eta ME Hord Hev Heta HME.
  assert (E : forall r c A B, meq r c (Descent.add A B step 1) (fun i j => Cplus (A i j) (Cmult (RtoC step) (B i j)))).
  { intros r c A B i j _ _. unfold Descent.add. rewrite Cmult_1_l. apply Cplus_comm. }
  assert (EX : meq (Descent.kn kp) (Descent.km kp) (Descent.add (Descent.kX kp) (fst D) step 1)
                 (fun i j => Cplus (Descent.kX kp i j) (Cmult (RtoC step) (mat_of (fst d) i j)))).
  { apply meq_trans with (1 := E _ _ _ _). intros i j Hi Hj. rewrite (h_mat _ _ _ _ Hd1 i j Hi Hj). reflexivity. }
  assert (EE : meq (Descent.km kp) (Descent.km kp) (Descent.add ME (snd D) step 1)
                 (fun i j => Cplus (ME i j) (Cmult (RtoC step) (mat_of (snd d) i j)))).
  { apply meq_trans with (1 := E _ _ _ _). intros i j Hi Hj. rewrite (h_mat _ _ _ _ Hd2 i j Hi Hj). reflexivity. }
  destruct (geodesic_ok ord junk heevd opS Hord Hev t (mk_key k) _ _ (Descent.kS kp) step (mk_x k) eta (fst d) (snd d) _ _ _ _ Hn Hm Hnm Hmm HS H1 Hx Heta Hd1 Hd2)
    as [Hthrow | (ek & Ul & X' & EQ & HT)].
  - apply (hermitian_meq (Descent.km kp) (fun i j => Cplus (ME i j) (Cmult (RtoC step) (snd D i j)))); [apply meq_sym, E|].
    intros i j Hi Hj. unfold adj. rewrite Cconj_plus, Cconj_mult, Cconj_R. f_equal; [apply (HME i j Hi Hj)|]. f_equal. apply (Hz i j Hi Hj).
  - apply (posdef_meq _ (let Xt := fun i j => Cplus (Descent.kX kp i j) (Cmult (RtoC step) (fst D i j)) in mmul (Descent.kn kp) (adj Xt) (mmul (Descent.kn kp) (Descent.kS kp) Xt))).
    { cbv zeta. pose proof (meq_sym _ _ _ _ (E (Descent.kn kp) (Descent.km kp) (Descent.kX kp) (fst D))) as E'.
      apply mmul_ext; [apply adj_ext; exact E' | apply mmul_ext; [apply meq_refl | exact E']]. }
    apply GeodesicProofs.gram_posdef; assumption.
  - left. exact Hthrow.
  - right. exists ek, Ul, X'. split; [exact EQ|]. exact (trial_point_ext _ _ _ _ _ _ _ _ _ _ EX EE HT).
Qed.

Section Line.
  Notation V := (ev Celt).
  Context (ord : nat -> orders) (ord1 : nat -> nat -> list nat) (junk : nat -> nat -> V).
  Context (potrf : nat -> buf Celt -> nat -> Z * buf Celt)
          (potrs : nat -> nat -> buf Celt -> nat -> buf Celt -> nat -> Z * buf Celt).
  Context (opS opP : operator_fn Celt).
  Context (s : smearing_type) (T kappa mo : R).
  Hypothesis Hord : forall t, fair (ord t).
  Hypothesis Hord1 : forall t, fair1 (ord1 t).
  Hypothesis Hpotrf : potrf_ok potrf.
  Hypothesis Hpotrs : potrs_ok potrs.

  Theorem restarted_then_trial mu w ks : Forall2 (Forall2 (represents opS opP)) w ks -> (forall r kp, In r ks -> In kp r -> physical kp) ->
    exists slope dirs, restarted ord ord1 junk potrf potrs opS opP s T kappa mo w mu = KOk (slope, dirs) /\
      Forall3 (Forall3 (stepable opS)) w ks dirs.
  Proof.
    intros H Hp.
    assert (Hsys : forall r kp, In r ks -> In kp r -> DescentFacts.systems_ok Cholesky.chol_solver kp).
    { intros r kp Hr Hk. apply physical_systems; [exact (Hp r kp Hr Hk) | apply Cholesky.chol_solver_ok]. }
    destruct (restarted_refines ord ord1 junk potrf potrs opS opP s T kappa mo Cholesky.chol_solver Hord Hord1 Hpotrf Hpotrs mu w ks H Hsys)
      as (slope & dirs & E & _ & H3).
    exists slope, dirs. split; [exact E|].
    pose proof (DescentFacts.restarted_tangent Cholesky.chol_solver s T kappa mo mu ks Hsys) as HT.
    pose proof (UsRunProofs.restarted_zeta Cholesky.chol_solver s T kappa mo mu ks (fun r kp Hr Hk => ph_H _ (Hp r kp Hr Hk))) as HZ.
    assert (HP : Forall2 (Forall2 (fun a kp => represents opS opP a kp /\ physical kp)) w ks).
    { clear - H Hp. induction H as [|l l' w v Hl Hw IH]; constructor.
      - assert (Hs : forall kp, In kp l' -> physical kp) by (intros kp Hk; apply (Hp l'); [left; reflexivity | exact Hk]).
        clear - Hl Hs. induction Hl; constructor.
        + split; [assumption | apply Hs; left; reflexivity].
        + apply IHHl. intros; apply Hs; right; assumption.
      - apply IH. intros r kp Hr. apply Hp. right. exact Hr. }
    pose proof (merge2 _ _ _ _ _ _ _ HP H3 (Forall2_and2 _ _ _ _ HT HZ)) as HM.
    apply (Forall3_impl2 _ _ _ _ _) with (2 := HM). cbv beta.
    intros a kp d [[Hr Hphys] (D & Hh & HT' & HZ')]. exact (stepable_ok opS opP a kp d D Hr Hphys Hh HT' HZ').
  Qed.

  Theorem conjugated_then_trial fr_old mu w ks : Forall2 (Forall2 (cg_pair opS opP)) w ks ->
    (forall r kZ, In r ks -> In kZ r -> physical (fst kZ) /\ hermitian (Descent.km (fst kZ)) (snd (fst (snd kZ)))) ->
    exists fr slope dirs, conjugated ord ord1 junk potrf potrs opS opP s T kappa mo fr_old w mu = KOk (fr, slope, dirs) /\
      Forall3 (Forall3 (fun kz kZ => stepable opS (fst kz) (fst kZ))) w ks dirs.
  Proof.
    intros H Hp.
    assert (Hsys : forall r kZ, In r ks -> In kZ r -> DescentFacts.systems_ok Cholesky.chol_solver (fst kZ)).
    { intros r kp Hr Hk. apply physical_systems; [exact (proj1 (Hp r kp Hr Hk)) | apply Cholesky.chol_solver_ok]. }
    destruct (conjugated_refines ord ord1 junk potrf potrs opS opP s T kappa mo Cholesky.chol_solver Hord Hord1 Hpotrf Hpotrs fr_old mu w ks H Hsys)
      as (fr & slope & dirs & E & _ & H3).
    exists fr, slope, dirs. split; [exact E|].
    pose proof (DescentFacts.conjugated_tangent Cholesky.chol_solver s T kappa mo mu fr_old ks Hsys) as HT.
    pose proof (UsRunProofs.conjugated_zeta Cholesky.chol_solver s T kappa mo mu fr_old ks) as HZ.
    assert (HZ' : Forall2 (Forall2 (fun kz d => hermitian (Descent.km (fst kz)) (snd d))) ks (snd (Descent.conjugated Cholesky.chol_solver s T kappa mo fr_old ks mu))).
    { apply HZ. intros r kZ Hr Hk. destruct (Hp r kZ Hr Hk) as [P1 P2]. split; [exact (ph_H _ P1) | exact P2]. }
    assert (HP : Forall2 (Forall2 (fun a kZ => cg_pair opS opP a kZ /\ physical (fst kZ))) w ks).
    { clear - H Hp. induction H as [|l l' w v Hl Hw IH]; constructor.
      - assert (Hs : forall kp, In kp l' -> physical (fst kp)) by (intros kp Hk; apply (Hp l'); [left; reflexivity | exact Hk]).
        clear - Hl Hs. induction Hl; constructor.
        + split; [assumption | apply Hs; left; reflexivity].
        + apply IHHl. intros; apply Hs; right; assumption.
      - apply IH. intros r kp Hr. apply Hp. right. exact Hr. }
    pose proof (merge2 _ _ _ _ _ _ _ HP H3 (Forall2_and2 _ _ _ _ HT HZ')) as HM.
    apply (Forall3_impl2 _ _ _ _ _) with (2 := HM). cbv beta.
    intros a kZ d [[[Hr _] Hphys] (D & Hh & HT1 & HZ1)]. exact (stepable_ok opS opP (fst a) (fst kZ) d D Hr Hphys Hh HT1 HZ1).
  Qed.
End Line.

(** ** Every k-point can be held in memory *)
(** an operator of the calling program computing any function of the elements of X *)
Definition fun_op (f : key -> nat -> nat -> (nat -> nat -> C) -> nat -> nat -> C) : operator_fn Celt := fun k dy by_ dx bx =>
  let '((m, n), (s0, s1)) := dy in let '(_, (t0, t1)) := dx in
  let N := Z.to_nat in
  (MkBuf (E := Celt) (bsz by_) (fun a =>
     match find (fun ij => Nat.eqb a (fst ij * N s0 + snd ij * N s1)) (pairs (N m) (N n)) with
     | Some (i, j) => f k (N m) (N n) (fun a b => bget bx (a * N t0 + b * N t1)%nat) i j
     | None => bget by_ a
     end), bx).
Lemma fun_op_honours f : honours Celt (fun_op f) f.
Proof.
  intros k m n s0 s1 t0 t1 by_ bx J. unfold fun_op. rewrite !Nat2Z.id. split; [reflexivity|]. split; [reflexivity|].
  intros i j Hi Hj. cbn [bget].
  destruct (find _ (pairs m n)) as [[i' j']|] eqn:F.
  - apply find_some in F. destruct F as [F1 F2]. apply in_pairs in F1. apply Nat.eqb_eq in F2. cbn [fst snd] in F2.
    destruct (J i j i' j' Hi Hj (proj1 F1) (proj2 F1) F2) as [-> ->]. reflexivity.
  - exfalso. pose proof (find_none _ _ F (i, j) (proj2 (in_pairs m n i j) (Logic.conj Hi Hj))) as Q.
    cbn [fst snd] in Q. rewrite Nat.eqb_refl in Q. discriminate.
Qed.
Definition mat_op (M : key -> mat) : operator_fn Celt := fun_op (fun k m n x => mmul m (M k) x).
Lemma mat_op_acts M k n : acts_as (mat_op M) k n (M k).
Proof. exists (fun k m n x => mmul m (M k) x). split; [apply fun_op_honours | reflexivity]. Qed.

(** leading dimension [ld] *)
Definition mem_of (k : key) (ld : nat) (kp : Descent.kpt) : memk :=
  MkMemk k (mkview (Descent.kn kp) (Descent.km kp) ld (Descent.kX kp)) (Descent.km kp, Descent.ke kp) (Descent.km kp, Descent.kf kp)
    (Descent.km kp, Descent.kh kp) (mkview (Descent.kn kp) (Descent.km kp) ld (Descent.kHX kp)) (Descent.kw kp).
Lemma mkview_holds r c ld f : (1 <= r)%nat -> (r <= ld)%nat -> (Z.of_nat r + Z.of_nat ld * Z.of_nat c <= 2147483647)%Z -> holds r c (mkview r c ld f) f.
Proof.
  intros Hr Hld Hs. constructor; try reflexivity.
  - apply mkview_col_major; lia.
  - apply mkview_allocated; lia.
  - exact Hs.
  - intros i j Hi Hj. apply mkview_mat; lia.
Qed.
Lemma mem_of_represents opS opP k ld kp : (1 <= Descent.km kp)%nat -> (1 <= Descent.kn kp)%nat -> (Descent.kn kp <= ld)%nat ->
  (Z.of_nat ld + Z.of_nat ld * Z.of_nat (Descent.km kp) <= 2147483647)%Z -> small (Descent.km kp) (Descent.km kp) ->
  acts_as opS k (Descent.kn kp) (Descent.kS kp) -> acts_as opP k (Descent.kn kp) (Descent.kP kp) ->
  represents opS opP (mem_of k ld kp) kp.
Proof.
  intros Hm Hn Hld Hs Hmm HS HP.
  assert (Z.of_nat (Descent.kn kp) <= Z.of_nat ld)%Z by lia.
  constructor; cbn [mem_of mk_x mk_e mk_f mk_h mk_hx mk_wk mk_key]; try assumption.
  - unfold small. nia.
  - apply mkview_holds; try assumption. nia.
  - apply mkview_holds; try assumption. nia.
  - split; reflexivity.
  - split; reflexivity.
  - split; reflexivity.
  - reflexivity.
Qed.

(** ** The directions in memory, without reference to the functions of the matrix model *)
(** The steepest descent directions of a k-point: Z_X = P (S X L - H X) where L solves (S X)^H P S X L = (S X)^H P H X,
    Z_eta = kappa (X^H H X - diag(e)). *)
Definition steepest (kappa : R) (kp : Descent.kpt) (zx ze : mat) : Prop :=
  let n := Descent.kn kp in let m := Descent.km kp in
  let sx := mmul n (Descent.kS kp) (Descent.kX kp) in
  let hx := Descent.kHX kp in
  (exists L, meq m m (mmul m (mmul n (adj sx) (mmul n (Descent.kP kp) sx)) L) (mmul n (adj sx) (mmul n (Descent.kP kp) hx)) /\
             meq n m zx (mmul n (Descent.kP kp) (fun i j => Cminus (mmul m sx L i j) (hx i j)))) /\
  forall i j, (i < m)%nat -> (j < m)%nat ->
    ze i j = Cmult (RtoC kappa) (Cminus (mmul n (adj (Descent.kX kp)) hx i j) (if Nat.eqb i j then RtoC (Descent.ke kp i) else RtoC 0)).

Lemma exec_restart_steepest solve s T kappa mo mu dmu dF kp : DescentFacts.systems_ok solve kp -> Descent.kw kp <> 0 ->
  let r := Descent.exec_restart solve s T kappa mo mu dmu dF kp in steepest kappa kp (snd (fst r)) (snd r).
Proof.
  intros [H1 H2 H3 _] Hw. cbv zeta in H3. cbn [Descent.exec_restart fst snd]. split.
  - set (sx := mmul (Descent.kn kp) (Descent.kS kp) (Descent.kX kp)) in *.
    exists (solve (Descent.km kp) (Descent.inner_ (Descent.kn kp) sx (mmul (Descent.kn kp) (Descent.kP kp) sx) 1)
              (Descent.inner_ (Descent.kn kp) sx (mmul (Descent.kn kp) (Descent.kP kp) (Descent.kHX kp)) 1)).
    rewrite !DescentProofs.inner_1. split.
    + apply H1; [|exact H3]. apply DescentProofs.gram_hermitian. exact H2.
    + rewrite DescentProofs.precond_eq. unfold Descent.lmult. cbv zeta. rewrite !DescentProofs.inner_1. apply meq_refl.
  - intros i j Hi Hj. unfold Descent.delta_eta. cbv zeta. unfold Descent.scale, Descent.inner_, mscal.
    set (z := mmul (Descent.kn kp) (adj (Descent.kX kp)) (Descent.kHX kp) i j).
    assert (E : Cmult (RtoC (kappa / Descent.kw kp)) (Cmult (RtoC (Descent.kw kp)) z) = Cmult (RtoC kappa) z).
    { rewrite Cmult_assoc, <- RtoC_mult. f_equal. f_equal. field. exact Hw. }
    rewrite E. destruct (Nat.eqb i j).
    + rewrite RtoC_mult. ring.
    + ring.
Qed.

Lemma steepest_unique kappa kp zx ze zx' ze' : posdef (Descent.km kp) (let sx := mmul (Descent.kn kp) (Descent.kS kp) (Descent.kX kp) in
    mmul (Descent.kn kp) (adj sx) (mmul (Descent.kn kp) (Descent.kP kp) sx)) ->
  steepest kappa kp zx ze -> steepest kappa kp zx' ze' ->
  meq (Descent.kn kp) (Descent.km kp) zx zx' /\ meq (Descent.km kp) (Descent.km kp) ze ze'.
Proof.
  intros Hp [(L & E1 & E2) E3] [(L' & E1' & E2') E3']. cbv zeta in *. split.
  - assert (EL : meq (Descent.km kp) (Descent.km kp) L L').
    { apply (posdef_unique _ _ _ _ _ _ Hp E1 E1'). }
    apply meq_trans with (1 := E2). apply meq_trans with (2 := meq_sym _ _ _ _ E2'). apply GeodesicProofs.mmul_ext_r.
    intros i j Hi Hj. f_equal. apply (GeodesicProofs.mmul_ext_r (Descent.kn kp) _ _ _ _ _ EL i j Hi Hj).
  - intros i j Hi Hj. rewrite E3, E3' by assumption. reflexivity.
Qed.

Lemma Forall3_join {K D E} (Q : K -> D -> E -> Prop) (G : K -> E -> Prop) ks ds es :
  Forall3 (Forall3 Q) ks ds es -> Forall2 (Forall2 G) ks es -> Forall2 (Forall2 (fun k d => exists e, Q k d e /\ G k e)) ks ds.
Proof.
  induction 1 as [|l l' l'' w v u Hl Hw IH]; intros H2; inversion H2 as [|? ? ? ? G1 G2]; subst; constructor.
  - clear - Hl G1. revert G1. induction Hl; intros G1; inversion G1; subst; constructor; [eexists; split; eassumption | auto].
  - apply IH. exact G2.
Qed.
Lemma Forall3_both {K D D' E} (Q : K -> D -> E -> Prop) (Q' : K -> D' -> E -> Prop) ks ds ds' es :
  Forall3 (Forall3 Q) ks ds es -> Forall3 (Forall3 Q') ks ds' es -> Forall3 (Forall3 (fun k d d' => exists e, Q k d e /\ Q' k d' e)) ks ds ds'.
Proof.
  intros H. revert ds'. induction H as [|l l' l'' w v u Hl Hw IH]; intros ds' H2; inversion H2 as [|? ? ? ? ? ? G1 G2]; subst; constructor.
  - clear - Hl G1. match type of G1 with Forall3 _ _ ?b _ => revert b G1 end. induction Hl; intros l2 G1; inversion G1; subst; constructor; [eexists; split; eassumption | auto].
  - apply IH. exact G2.
Qed.

(** the elements of two pairs of views are the same *)
Definition same_elements (kp : Descent.kpt) (d d' : view Celt * view Celt) : Prop :=
  meq (Descent.kn kp) (Descent.km kp) (mat_of (fst d)) (mat_of (fst d')) /\
  meq (Descent.km kp) (Descent.km kp) (mat_of (snd d)) (mat_of (snd d')).
Lemma held_same kp d d' D : held kp d D -> held kp d' D -> same_elements kp d d'.
Proof.
  intros [A B] [A' B']. split; eapply meq_trans; try (eapply h_mat; eassumption); apply meq_sym; eapply h_mat; eassumption.
Qed.

Theorem restarted_same ord ord' ord1 ord1' junk junk' potrf potrf' potrs potrs' opS opS' opP opP' s T kappa mo mu w w' ks :
  (forall t, fair (ord t)) -> (forall t, fair (ord' t)) -> (forall t, fair1 (ord1 t)) -> (forall t, fair1 (ord1' t)) ->
  potrf_ok potrf -> potrf_ok potrf' -> potrs_ok potrs -> potrs_ok potrs' ->
  Forall2 (Forall2 (represents opS opP)) w ks -> Forall2 (Forall2 (represents opS' opP')) w' ks ->
  (forall r kp, In r ks -> In kp r -> physical kp) ->
  exists slope dirs dirs', restarted ord ord1 junk potrf potrs opS opP s T kappa mo w mu = KOk (slope, dirs) /\ restarted ord' ord1' junk' potrf' potrs' opS' opP' s T kappa mo w' mu = KOk (slope, dirs') /\ Forall3 (Forall3 same_elements) ks dirs dirs'.
Proof.
  intros H1 H2 H3 H4 H5 H6 H7 H8 H9 H10 Hp.
  assert (Hsys : forall r kp, In r ks -> In kp r -> DescentFacts.systems_ok Cholesky.chol_solver kp).
  { intros r kp Hr Hk. apply physical_systems; [exact (Hp r kp Hr Hk) | apply Cholesky.chol_solver_ok]. }
  destruct (restarted_refines ord ord1 junk potrf potrs opS opP s T kappa mo Cholesky.chol_solver H1 H3 H5 H7 mu w ks H9 Hsys) as (sl & d & E & Es & Hd).
  destruct (restarted_refines ord' ord1' junk' potrf' potrs' opS' opP' s T kappa mo Cholesky.chol_solver H2 H4 H6 H8 mu w' ks H10 Hsys) as (sl' & d' & E' & Es' & Hd').
  exists sl, d, d'. split; [exact E|]. split; [rewrite E', Es', <- Es; reflexivity|].
  apply (Forall3_impl2 _ _ _ _ _) with (2 := Forall3_both _ _ _ _ _ _ Hd Hd'). cbv beta.
  intros kp a b (D & A & B). exact (held_same _ _ _ _ A B).
Qed.
Theorem conjugated_same ord ord' ord1 ord1' junk junk' potrf potrf' potrs potrs' opS opS' opP opP' s T kappa mo fr_old mu w w' ks :
  (forall t, fair (ord t)) -> (forall t, fair (ord' t)) -> (forall t, fair1 (ord1 t)) -> (forall t, fair1 (ord1' t)) ->
  potrf_ok potrf -> potrf_ok potrf' -> potrs_ok potrs -> potrs_ok potrs' ->
  Forall2 (Forall2 (cg_pair opS opP)) w ks -> Forall2 (Forall2 (cg_pair opS' opP')) w' ks ->
  (forall r kZ, In r ks -> In kZ r -> physical (fst kZ)) ->
  exists fr slope dirs dirs', conjugated ord ord1 junk potrf potrs opS opP s T kappa mo fr_old w mu = KOk (fr, slope, dirs) /\ conjugated ord' ord1' junk' potrf' potrs' opS' opP' s T kappa mo fr_old w' mu = KOk (fr, slope, dirs') /\ Forall3 (Forall3 (fun kZ => same_elements (fst kZ))) ks dirs dirs'.
Proof.
  intros H1 H2 H3 H4 H5 H6 H7 H8 H9 H10 Hp.
  assert (Hsys : forall r kZ, In r ks -> In kZ r -> DescentFacts.systems_ok Cholesky.chol_solver (fst kZ)).
  { intros r kp Hr Hk. apply physical_systems; [exact (Hp r kp Hr Hk) | apply Cholesky.chol_solver_ok]. }
  destruct (conjugated_refines ord ord1 junk potrf potrs opS opP s T kappa mo Cholesky.chol_solver H1 H3 H5 H7 fr_old mu w ks H9 Hsys) as (fr & sl & d & E & Es & Hd).
  destruct (conjugated_refines ord' ord1' junk' potrf' potrs' opS' opP' s T kappa mo Cholesky.chol_solver H2 H4 H6 H8 fr_old mu w' ks H10 Hsys) as (fr' & sl' & d' & E' & Es' & Hd').
  exists fr, sl, d, d'. split; [exact E|]. rewrite <- Es in Es'. injection Es' as -> ->. split; [exact E'|].
  apply (Forall3_impl2 _ _ _ _ _) with (2 := Forall3_both _ _ _ _ _ _ Hd Hd'). cbv beta.
  intros kp a b (D & A & B). exact (held_same _ _ _ _ A B).
Qed.

(** the directions hold what [steepest] says; the slope is not positive for the smearing types with a monotone occupation *)
Theorem restarted_steepest ord ord1 junk potrf potrs opS opP s T kappa mo mu w ks :
  (forall t, fair (ord t)) -> (forall t, fair1 (ord1 t)) -> potrf_ok potrf -> potrs_ok potrs ->
  Forall2 (Forall2 (represents opS opP)) w ks -> (forall r kp, In r ks -> In kp r -> physical kp /\ Descent.kw kp <> 0) ->
  exists slope dirs, restarted ord ord1 junk potrf potrs opS opP s T kappa mo w mu = KOk (slope, dirs) /\ Forall2 (Forall2 (fun kp d => held kp d (mat_of (fst d), mat_of (snd d)) /\ steepest kappa kp (mat_of (fst d)) (mat_of (snd d)))) ks dirs.
Proof.
  intros H1 H2 H3 H4 H5 Hp.
  assert (Hsys : forall r kp, In r ks -> In kp r -> DescentFacts.systems_ok Cholesky.chol_solver kp).
  { intros r kp Hr Hk. apply physical_systems; [exact (proj1 (Hp r kp Hr Hk)) | apply Cholesky.chol_solver_ok]. }
  destruct (restarted_refines ord ord1 junk potrf potrs opS opP s T kappa mo Cholesky.chol_solver H1 H2 H3 H4 mu w ks H5 Hsys) as (sl & d & E & Es & Hd).
  exists sl, d. split; [exact E|].
  assert (HS : Forall2 (Forall2 (fun kp D => steepest kappa kp (fst D) (snd D))) ks (snd (Descent.restarted Cholesky.chol_solver s T kappa mo ks mu))).
  { unfold Descent.restarted. cbn [snd]. rewrite map_map.
    erewrite map_ext; [|intros; apply map_map]. apply DescentFacts.forall2_map2. intros r kp Hr Hk. cbn [fst snd].
    apply exec_restart_steepest; [exact (Hsys r kp Hr Hk) | exact (proj2 (Hp r kp Hr Hk))]. }
  apply (Forall2_impl2 _ _ _ _) with (2 := Forall3_join _ _ _ _ _ Hd HS). cbv beta.
  intros kp v ([X Y] & [A B] & [(L & C1 & C2) C3]). cbn [fst snd] in *. split.
  - split; cbn [fst snd]; eapply holds_self; eassumption.
  - split.
    + exists L. split; [exact C1|]. apply meq_trans with (2 := C2). exact (h_mat _ _ _ _ A).
    + intros i j Hi Hj. rewrite (h_mat _ _ _ _ B i j Hi Hj). apply C3; assumption.
Qed.

(** ** diag and make_diag *)
Lemma diag_ok r c X M : holds r c X M -> diag X = KOk (map (fun i => M i i) (seq 0 (Nat.min r c))).
Proof.
  intros [X1 X2 X3 X4 X5 X6 X7]. unfold diag. rewrite X1, X2.
  assert (G : forall k, (k <= Nat.min r c)%nat -> diag_loop X k = KOk (map (fun i => M i i : ev Celt) (seq 0 k))).
  { induction k as [|k IH]; intros Hk; [reflexivity|].
    cbn [diag_loop]. rewrite IH by lia. cbn [kbind].
    rewrite load_in by (apply X5; [rewrite X1; lia | rewrite X2; lia]).
    rewrite seq_S, map_app. cbn [map Nat.add]. f_equal. f_equal. f_equal. apply (X7 k k); lia. }
  apply G. lia.
Qed.
Lemma make_diag_ok o n x : (1 <= n)%nat -> small n n -> Permutation o (seq 0 n) ->
  exists D, make_diag (E := Celt) o n x = KOk D /\ holds n n D (fun i j => if Nat.eqb i j then x i else RtoC 0).
Proof.
  intros Hn Hs Ho. unfold make_diag. cbv zeta.
  destruct (diag_loop_spec n (alloc Celt n n true) mzero (fun i _ => x i)
    (fun i c => if Nat.ltb i n then store c (addr (alloc Celt n n true) i i) (x i) else KUB) o n (zeros_holds n n Hn Hs) (le_n n) Ho) as (b & E & Hb).
  - intros i c Hi Hc. rewrite (proj2 (Nat.ltb_lt i n) Hi). rewrite store_in; [reflexivity|]. rewrite Hc.
    apply (h_alloc _ _ _ _ (zeros_holds n n Hn Hs)); assumption.
  - rewrite E. cbn [kbind]. eexists. split; [reflexivity|]. apply (holds_ext _ _ _ _ _ Hb).
    intros i j Hi Hj. rewrite (proj2 (Nat.ltb_lt i n) Hi), andb_true_r. reflexivity.
Qed.
Lemma diag_make_diag o n x : (1 <= n)%nat -> small n n -> Permutation o (seq 0 n) ->
  exists D, make_diag (E := Celt) o n x = KOk D /\ diag D = KOk (map x (seq 0 n)).
Proof.
  intros Hn Hs Ho. destruct (make_diag_ok o n x Hn Hs Ho) as (D & E & HD). exists D. split; [exact E|].
  rewrite (diag_ok _ _ _ _ HD), Nat.min_id.
  assert (M : map (fun i => if Nat.eqb i i then x i else RtoC 0) (seq 0 n) = map x (seq 0 n)).
  { apply map_ext. intros i. rewrite Nat.eqb_refl. reflexivity. }
  exact (f_equal KOk M).
Qed.
