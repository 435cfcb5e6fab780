(** Trial points computed in memory: eigh, loewdin, advance_x, geodesic_us of StepMem.v. *)
From Coq Require Import ZArith Reals Lra Psatz Arith Lia List Bool Permutation.
From Coquelicot Require Import Complex.
From Verif Require Import Arith LinAlg MVector LapackMem LapackMemProofs LapackElt LapackFacts Exchange Smearing Newton Occupation StepMem StepProofs StepMain.
From Verif Require Descent DescentProofs DescentFacts Geodesic GeodesicProofs Spectral.
Import ListNotations.
Local Open Scope R_scope.

(** ** Specification vocabulary *)
(** Contract of zheevd('V', 'U', n, a, lda, w): the matrix is overwritten by eigenvectors of the Hermitian matrix given
    by its upper triangle, w by the eigenvalues in ascending order, provided info = 0. *)
Record heevd_ok (heevd : nat -> buf Celt -> nat -> Z * buf Celt * (nat -> R)) : Prop := {
  hev_size : forall n b ld, LapackElt.fits n n b ld -> bsz (snd (fst (heevd n b ld))) = bsz b;
  hev_frame : forall n b ld, LapackElt.fits n n b ld ->
    forall a, (forall i j, (i < n)%nat -> (j < n)%nat -> a <> (i + ld * j)%nat) -> bget (snd (fst (heevd n b ld))) a = bget b a;
  hev_result : forall n b ld, LapackElt.fits n n b ld -> fst (fst (heevd n b ld)) = 0%Z ->
    let U := stored (snd (fst (heevd n b ld))) ld in
    let w := snd (heevd n b ld) in
    unitary n U /\ meq n n (mmul n (Geodesic.upper (stored b ld)) U) (mmul n U (mdiag w)) /\
    forall i j, (i <= j)%nat -> (j < n)%nat -> w i <= w j
}.
Definition never_fails (heevd : nat -> buf Celt -> nat -> Z * buf Celt * (nat -> R)) : Prop :=
  forall n b ld, LapackElt.fits n n b ld -> fst (fst (heevd n b ld)) = 0%Z.

(** [X'], [Ul], [ek] are a trial point for the matrices X + t Z and eta + t Z_eta: Ul and ek diagonalise the latter,
    X' is orthonormal and equals (X + t Z) R Ul with a Hermitian positive definite R. *)
Record trial_point (n m : nat) (S Xt Et : mat) (ek : rvec) (Ul X' : view Celt) : Prop := MkTrial {
  tp_ul : holds m m Ul (mat_of Ul);
  tp_x : holds n m X' (mat_of X');
  tp_len : fst ek = m;
  tp_unitary : unitary m (mat_of Ul);
  tp_diag : meq m m (mmul m (adj (mat_of Ul)) (mmul m Et (mat_of Ul))) (mdiag (snd ek));
  tp_sorted : forall i j, (i <= j)%nat -> (j < m)%nat -> snd ek i <= snd ek j;
  tp_orth : meq m m (mmul n (adj (mat_of X')) (mmul n S (mat_of X'))) mid;
  tp_span : exists R, hermitian m R /\ posdef m R /\ meq n m (mat_of X') (mmul m Xt (mmul m R (mat_of Ul)))
}.

(** ** eigh *)
Lemma holds_fits m X M : holds m m X M -> LapackElt.fits m m (vbuf X) (vs1 X).
Proof.
  intros [E1 E2 _ (C1 & C2 & C3) Ha _ _]. repeat split; try lia.
  intros i j Hi Hj. specialize (Ha i j). rewrite E1, E2, C1 in Ha. specialize (Ha Hi Hj). lia.
Qed.
Lemma upper_ext m A B : meq m m A B -> meq m m (Geodesic.upper A) (Geodesic.upper B).
Proof.
  intros H i j Hi Hj. unfold Geodesic.upper. rewrite (H i j Hi Hj), (H j i Hj Hi), (H i i Hi Hi). reflexivity.
Qed.

Section Trial.
  Notation V := (ev Celt).
  Context (ord : nat -> orders) (ord1 : nat -> nat -> list nat) (junk : nat -> nat -> V).
  Context (heevd : nat -> buf Celt -> nat -> Z * buf Celt * (nat -> R)).
  Context (opS : operator_fn Celt).
  Hypothesis Hord : forall t, fair (ord t).
  Hypothesis Hheevd : heevd_ok heevd.

  Lemma k_eigh t m U wn Sv MU MS : holds m m U MU -> holds m m Sv MS -> (m <= wn)%nat ->
    (eigh ord heevd t U wn Sv = KThrow /\ ~ never_fails heevd) \/
    exists U' w, eigh ord heevd t U wn Sv = KOk (U', (wn, w)) /\ holds m m U' (mat_of U') /\ unitary m (mat_of U') /\
      meq m m (mmul m (Geodesic.upper MS) (mat_of U')) (mmul m (mat_of U') (mdiag w)) /\
      forall i j, (i <= j)%nat -> (j < m)%nat -> w i <= w j.
  Proof.
    intros HU HS Hw. unfold eigh.
    destruct (k_deep_copy (ord t) m m U Sv _ _ (Hord t) HU HS) as (U1 & -> & HU1). cbn [kbind].
    rewrite (h_local _ _ _ _ HS). rewrite (h_cols _ _ _ _ HU1). rewrite (proj2 (Nat.leb_le m wn) Hw).
    pose proof (holds_fits _ _ _ HU1) as Hfit.
    pose proof (hev_size _ Hheevd m (vbuf U1) (vs1 U1) Hfit) as Hsz.
    pose proof (hev_frame _ Hheevd m (vbuf U1) (vs1 U1) Hfit) as Hfr.
    pose proof (hev_result _ Hheevd m (vbuf U1) (vs1 U1) Hfit) as Hres.
    assert (Hnf : fst (fst (heevd m (vbuf U1) (vs1 U1))) <> 0%Z -> ~ never_fails heevd) by (intros H1 H2; apply H1, H2, Hfit).
    destruct (heevd m (vbuf U1) (vs1 U1)) as [[info b] w]. cbn [fst snd] in *.
    destruct (Z.eqb_spec info 0) as [-> | Hinfo].
    - right. exists (with_buf U1 b), w. split; [reflexivity|]. specialize (Hres eq_refl). cbv zeta in Hres. destruct Hres as (R1 & R2 & R3).
      destruct HU1 as [E1 E2 E3 E4 E5 E6 E7].
      assert (EM : mat_of (with_buf U1 b) = stored b (vs1 U1)) by (exact (mat_of_stored (with_buf U1 b) (proj1 E4))).
      assert (EM1 : mat_of U1 = stored (vbuf U1) (vs1 U1)) by (apply mat_of_stored; exact (proj1 E4)).
      split.
      { constructor; try assumption.
        - unfold allocated in *. cbn [with_buf vrows vcols vs0 vs1 vbuf]. rewrite Hsz. exact E5.
        - apply meq_refl. }
      rewrite EM. split; [exact R1|]. split; [|exact R3].
      apply meq_trans with (2 := R2). apply mmul_ext; [|apply meq_refl]. apply upper_ext. rewrite <- EM1. apply meq_sym. exact E7.
    - left. split; [reflexivity | apply Hnf; exact Hinfo].
  Qed.

  (** the inverse root is positive definite *)
  Lemma inv_root_hermitian m U w : unitary m U -> hermitian m (GeodesicProofs.inv_root m U w).
  Proof. intros HU. unfold hermitian. apply GeodesicProofs.inv_root_adj. Qed.
  Lemma unitary_zero m U v : unitary m U -> (forall i, (i < m)%nat -> csum m (fun j => Cmult (adj U i j) (v j)) = RtoC 0) ->
    forall i, (i < m)%nat -> v i = RtoC 0.
  Proof.
    intros [_ H2] Hz i Hi.
    assert (E : mmul m (mmul m U (adj U)) (fun a _ => v a) i 0%nat = v i).
    { rewrite (mmul_ext m m 1 _ mid (fun a _ => v a) (fun a _ => v a) H2 (meq_refl _ _ _) i 0%nat Hi) by lia.
      apply (mmul_id_l m 1 (fun a _ => v a) i 0%nat); [exact Hi | lia]. }
    rewrite <- E. rewrite mmul_assoc. unfold mmul at 1. apply csum_0. intros l Hl. unfold mmul. rewrite (Hz l Hl). apply Cmult_0_r.
  Qed.
  Lemma inv_root_posdef m U w : unitary m U -> (forall i, (i < m)%nat -> 0 < w i) -> posdef m (GeodesicProofs.inv_root m U w).
  Proof.
    intros HU Hw.
    apply (posdef_meq m (mmul m U (mmul m (mdiag (Geodesic.loewdin_aux w)) (adj U)))).
    { apply meq_sym. apply GeodesicProofs.inv_root_eq. }
    intros v (i & Hi & Hv).
    pose proof (GeodesicProofs.quad_congr m m (mdiag (Geodesic.loewdin_aux w)) (adj U) v) as Q. rewrite adj_adj in Q. rewrite Q.
    rewrite GeodesicProofs.quad_mdiag.
    assert (Hpos : forall a, (a < m)%nat -> 0 < Geodesic.loewdin_aux w a).
    { intros a Ha. unfold Geodesic.loewdin_aux. apply Rdiv_lt_0_compat; [lra | apply sqrt_lt_R0, Hw, Ha]. }
    destruct (Rle_lt_or_eq_dec 0 (rsumn m (fun a => Geodesic.loewdin_aux w a * nsq (csum m (fun j => Cmult (adj U a j) (v j)))))) as [H | H].
    - apply rsumn_nonneg. intros a Ha. apply Rmult_le_pos; [left; apply Hpos, Ha | apply nsq_pos].
    - exact H.
    - exfalso. apply Hv. apply (unitary_zero m U v HU) with (i := i); [|exact Hi].
      intros a Ha. apply nsq_0.
      assert (Z0 : Geodesic.loewdin_aux w a * nsq (csum m (fun j => Cmult (adj U a j) (v j))) = 0).
      { refine (rsumn_zero_terms m (fun a => Geodesic.loewdin_aux w a * nsq (csum m (fun j => Cmult (adj U a j) (v j)))) _ (eq_sym H) a Ha).
        intros b Hb. apply Rmult_le_pos; [left; apply Hpos, Hb | apply nsq_pos]. }
      apply Rmult_integral in Z0. destruct Z0 as [Z0 | Z0]; [|exact Z0]. pose proof (Hpos a Ha). lra.
  Qed.

  (** ** loewdin *)
  Lemma k_loewdin t n m X SX MX MSX : (1 <= n)%nat -> (1 <= m)%nat -> small n m -> small m m ->
    holds n m X MX -> holds n m SX MSX ->
    hermitian m (mmul n (adj MX) MSX) -> posdef m (mmul n (adj MX) MSX) ->
    (loewdin ord junk heevd t X SX = KThrow /\ ~ never_fails heevd) \/
    exists Y Rm, loewdin ord junk heevd t X SX = KOk Y /\ holds n m Y (mmul m MX Rm) /\
      hermitian m Rm /\ posdef m Rm /\ meq m m (mmul m (adj Rm) (mmul m (mmul n (adj MX) MSX) Rm)) mid.
  Proof.
    intros Hn Hm Hnm Hmm HX HSX Hh Hp. unfold loewdin.
    destruct (k_inner_ (ord t) n m m X SX _ _ 1 (Hord _) Hm Hmm HX HSX) as (M & -> & HM). cbn [kbind].
    rewrite DescentProofs.inner_1 in HM.
    destruct (k_eigh (t + 1) m (empty_like M (junk t)) (vcols X) M _ _ (empty_like_holds _ _ _ _ (junk t) Hm Hmm HM) HM) as [[-> Hnf] | (U & w & -> & HU & UU & UE & _)].
    { rewrite (h_cols _ _ _ _ HX). lia. }
    { left. split; [reflexivity | exact Hnf]. }
    right. cbn [kbind fst snd]. unfold loewdin_aux. cbn [fst snd].
    assert (UE' : meq m m (mmul m (mmul n (adj MX) MSX) (mat_of U)) (mmul m (mat_of U) (mdiag w))).
    { apply meq_trans with (2 := UE). apply mmul_ext; [|apply meq_refl]. apply meq_sym. apply GeodesicProofs.upper_hermitian. exact Hh. }
    assert (Hw : forall i, (i < m)%nat -> 0 < w i) by (exact (GeodesicProofs.eig_pos m _ _ w UU UE' Hp)).
    destruct (k_scale_cols (ord (t + 2)%nat) m m M U _ _ (vcols X) (fun i => 1 / sqrt (w i)) 1 (Hord _) HM HU) as (M' & -> & HM').
    { rewrite (h_cols _ _ _ _ HX). lia. }
    cbn [kbind].
    destruct (k_outer (ord (t + 3)%nat) m M' U (zeros_like U) _ _ _ (Hord _) HM' HU (zeros_like_holds _ _ _ _ Hm Hmm HU)) as (Rm & -> & HRm). cbn [kbind].
    destruct (k_transform (ord (t + 4)%nat) n m m X Rm (zeros_like X) _ _ _ 1 0 (Hord _) HX HRm (zeros_like_holds _ _ _ _ Hn Hnm HX)) as (Y & -> & HY).
    change (Descent.outer m (Descent.scale_cols (mat_of U) (fun i => 1 / sqrt (w i)) 1) (mat_of U)) with (GeodesicProofs.inv_root m (mat_of U) w) in HY.
    exists Y, (GeodesicProofs.inv_root m (mat_of U) w). split; [reflexivity|]. split.
    { apply (holds_ext _ _ _ _ _ HY). eapply meq_trans; [apply madd_0, mscal_0|]. rewrite mscal_1. apply meq_refl. }
    split; [apply inv_root_hermitian; exact UU|]. split; [apply inv_root_posdef; assumption|].
    apply GeodesicProofs.inv_root_spec; assumption.
  Qed.

  (** ** The trial point *)
  Theorem geodesic_ok t k n m S step X eta zx ze MX ME MZ MZE :
    (1 <= n)%nat -> (1 <= m)%nat -> small n m -> small m m ->
    acts_as opS k n S -> hermitian n S ->
    holds n m X MX -> holds m m eta ME -> holds n m zx MZ -> holds m m ze MZE ->
    let Xt := Descent.add MX MZ step 1 in
    let Et := Descent.add ME MZE step 1 in
    hermitian m Et -> posdef m (mmul n (adj Xt) (mmul n S Xt)) ->
    (geodesic_us ord junk heevd opS t k step X eta zx ze = KThrow /\ ~ never_fails heevd) \/
    exists ek Ul X', geodesic_us ord junk heevd opS t k step X eta zx ze = KOk (ek, Ul, X') /\ trial_point n m S Xt Et ek Ul X'.
  Proof.
    intros Hn Hm Hnm Hmm HS HSh HX HE HZ HZE Xt Et HEt Hpos. unfold geodesic_us, advance_eta.
    destruct (k_deep_copy (ord t) m m (empty_like ze (junk t)) eta _ _ (Hord _) (empty_like_holds _ _ _ _ (junk t) Hm Hmm HZE) HE) as (e1 & -> & He1). cbn [kbind].
    destruct (k_add (ord (t + 1)%nat) m m e1 ze _ _ step 1 (Hord _) He1 HZE) as (en & -> & Hen). cbn [kbind].
    unfold eigvals_and_vectors.
    destruct (k_eigh (t + 2) m (empty_like en (junk (t + 2)%nat)) (vcols en) en _ _ (empty_like_holds _ _ _ _ _ Hm Hmm Hen) Hen) as [[-> Hnf] | (Ul & ek & -> & HU & UU & UE & US)].
    { rewrite (h_cols _ _ _ _ Hen). lia. }
    { left. split; [reflexivity | exact Hnf]. }
    cbn [kbind fst snd]. unfold advance_x.
    destruct (k_deep_copy (ord (t + 4)%nat) n m (empty_like X (junk (t + 4)%nat)) X _ _ (Hord _) (empty_like_holds _ _ _ _ _ Hn Hnm HX) HX) as (x1 & -> & Hx1). cbn [kbind].
    destruct (k_add (ord (t + 4 + 1)%nat) n m x1 zx _ _ step 1 (Hord _) Hx1 HZ) as (x2 & -> & Hx2). cbn [kbind].
    destruct (k_apply opS k n m S (junk (t + 4 + 1)%nat) x2 _ Hn Hm Hnm HS Hx2) as (sx & -> & Hsx).
    fold Xt in Hx2, Hsx.
    destruct (k_loewdin (t + 4 + 2) n m x2 sx _ _ Hn Hm Hnm Hmm Hx2 Hsx) as [[-> Hnf] | (Y & Rm & -> & HY & R1 & R2 & R3)].
    { apply GeodesicProofs.gram_hermitian. exact HSh. }
    { exact Hpos. }
    { left. split; [reflexivity | exact Hnf]. }
    right. cbn [kbind].
    destruct (k_transform_alloc (ord (t + 4 + 7)%nat) n m Y Ul _ _ (Hord _) Hn Hnm HY HU) as (X' & -> & HX'). cbn [kbind].
    exists (vcols en, ek), Ul, X'. split; [reflexivity|].
    assert (EX : meq n m (mat_of X') (mmul m (mmul m Xt Rm) (mat_of Ul))) by (exact (h_mat _ _ _ _ HX')).
    constructor.
    - exact HU.
    - exact (holds_self _ _ _ _ HX').
    - exact (h_cols _ _ _ _ Hen).
    - exact UU.
    - cbn [snd]. apply (GeodesicProofs.eig_diag m Et (mat_of Ul) ek UU).
      apply meq_trans with (2 := UE). apply mmul_ext; [|apply meq_refl]. apply meq_sym. apply GeodesicProofs.upper_hermitian. exact HEt.
    - exact US.
    - change (Geodesic.orthonormal n m S (mat_of X')).
      assert (OY : Geodesic.orthonormal n m S (mmul m Xt Rm)).
      { unfold Geodesic.orthonormal. apply meq_trans with (2 := R3).
        rewrite adj_mmul. rewrite !mmul_assoc. apply meq_refl. }
      pose proof (GeodesicProofs.rotate_orthonormal n m S _ _ UU OY) as OX.
      unfold Geodesic.orthonormal in *. apply meq_trans with (2 := OX).
      apply mmul_ext; [apply adj_ext; exact EX | apply mmul_ext; [apply meq_refl | exact EX]].
    - exists Rm. split; [exact R1|]. split; [exact R2|]. rewrite <- mmul_assoc. exact EX.
  Qed.
End Trial.

(** ** An eigensolver meeting the contract *)
Definition eig_pair (n : nat) (M : mat) : mat * (nat -> R) :=
  match Spectral.eigh_full n M with Some p => p | None => (mid, fun _ => 0) end.
Definition heevd_ref (n : nat) (b : buf Celt) (ld : nat) : Z * buf Celt * (nat -> R) :=
  (0%Z, LapackElt.put n n false b ld (fst (eig_pair n (stored b ld))), snd (eig_pair n (stored b ld))).
Lemma eig_pair_ok n M : Spectral.diagonalises n (Geodesic.upper M) (fst (eig_pair n M)) (snd (eig_pair n M)).
Proof.
  unfold eig_pair. destruct (Spectral.eigh_full n M) as [[U w]|] eqn:E.
  - exact (Spectral.eigh_full_ok n M U w E).
  - exfalso. exact (Spectral.eigh_full_total n M E).
Qed.
Lemma unitary_meq n U U' : meq n n U U' -> unitary n U -> unitary n U'.
Proof.
  intros H [H1 H2]. split.
  - apply meq_trans with (2 := H1). apply mmul_ext; [apply adj_ext|]; apply meq_sym; exact H.
  - apply meq_trans with (2 := H2). apply mmul_ext; [|apply adj_ext]; apply meq_sym; exact H.
Qed.
Lemma heevd_ref_ok : heevd_ok heevd_ref /\ never_fails heevd_ref.
Proof.
  split.
  - constructor.
    + intros n b ld _. reflexivity.
    + intros n b ld (H1 & H2 & H3) a Ha. cbn [heevd_ref fst snd]. apply put_frame; [exact H1|]. intros i j Hi Hj _. apply Ha; assumption.
    + intros n b ld (H1 & H2 & H3) _. cbv zeta. cbn [heevd_ref fst snd].
      destruct (eig_pair_ok n (stored b ld)) as (E1 & E2 & E3).
      assert (EU : meq n n (fst (eig_pair n (stored b ld))) (stored (LapackElt.put n n false b ld (fst (eig_pair n (stored b ld)))) ld)).
      { intros i j Hi Hj. unfold stored at 2. symmetry. apply put_in; try assumption. discriminate. }
      split; [exact (unitary_meq _ _ _ EU E1)|]. split; [|exact E3].
      apply meq_trans with (mmul n (Geodesic.upper (stored b ld)) (fst (eig_pair n (stored b ld)))).
      { apply mmul_ext; [apply meq_refl | apply meq_sym; exact EU]. }
      apply meq_trans with (1 := E2). apply mmul_ext; [exact EU | apply meq_refl].
  - intros n b ld _. reflexivity.
Qed.
