(** Trial points computed in memory, compared with those of Geodesic.v: eigh, loewdin, advance_x, geodesic_us of StepMem.v compute
    exactly the matrices of Geodesic.v, when the LAPACK routine computes the eigensolver of Geodesic.v. *)
From Coq Require Import ZArith Reals Lra Psatz Arith Lia List Bool Permutation.
From Coquelicot Require Import Complex.
From Verif Require Import Arith LinAlg MVector LapackMem LapackMemProofs LapackElt LapackFacts Exchange Smearing Newton Occupation StepMem StepProofs StepMain StepTrial.
From Verif Require Descent DescentProofs DescentFacts Geodesic GeodesicProofs.
Import ListNotations.
Local Open Scope R_scope.

(** ** Specification vocabulary *)
(** zheevd('V', 'U', n, a, lda, w) overwrites the n x n block at [a] and nothing else; what it does is determined by the elements of
    this block: info = 0, eigenvectors and eigenvalues are those of [eigh], or info <> 0 where [eigh] fails. *)
Record heevd_is (heevd : nat -> buf Celt -> nat -> Z * buf Celt * (nat -> R)) (eigh : nat -> mat -> option (mat * (nat -> R))) : Prop := {
  his_size : forall n b ld, LapackElt.fits n n b ld -> bsz (snd (fst (heevd n b ld))) = bsz b;
  his_result : forall n b ld M, LapackElt.fits n n b ld -> meq n n (stored b ld) M ->
    match eigh n M with
    | Some (U, w) =>
      fst (fst (heevd n b ld)) = 0%Z /\ meq n n (stored (snd (fst (heevd n b ld))) ld) U /\
      forall i, (i < n)%nat -> snd (heevd n b ld) i = w i
    | None => fst (fst (heevd n b ld)) <> 0%Z
    end
}.
(** [v] has m elements, the first m of [x] *)
Definition holds_vec (m : nat) (v : rvec) (x : nat -> R) : Prop := fst v = m /\ forall i, (i < m)%nat -> snd v i = x i.

Section Geo.
  Notation V := (ev Celt).
  Context (ord : nat -> orders) (junk : nat -> nat -> V).
  Context (heevd : nat -> buf Celt -> nat -> Z * buf Celt * (nat -> R)) (meigh : nat -> mat -> option (mat * (nat -> R))).
  Context (opS : operator_fn Celt).
  Hypothesis Hord : forall t, fair (ord t).
  Hypothesis Hev : heevd_is heevd meigh.

  Lemma g_eigh t m U Sv MU MS : holds m m U MU -> holds m m Sv MS ->
    match meigh m MS with
    | Some (Um, w) => exists U' w', eigh ord heevd t U (vcols Sv) Sv = KOk (U', w') /\ holds m m U' Um /\ holds_vec m w' w
    | None => eigh ord heevd t U (vcols Sv) Sv = KThrow
    end.
  Proof.
    intros HU HS. unfold eigh.
    destruct (k_deep_copy (ord t) m m U Sv _ _ (Hord t) HU HS) as (U1 & E1 & HU1). rewrite E1. cbn [kbind].
    rewrite (h_local _ _ _ _ HS), (h_cols _ _ _ _ HU1), (h_cols _ _ _ _ HS), Nat.leb_refl.
    pose proof (holds_fits _ _ _ HU1) as Hfit.
    pose proof (his_size _ _ Hev m (vbuf U1) (vs1 U1) Hfit) as Hsz.
    assert (EM1 : mat_of U1 = stored (vbuf U1) (vs1 U1)) by (apply mat_of_stored; exact (proj1 (h_cm _ _ _ _ HU1))).
    assert (HM : meq m m (stored (vbuf U1) (vs1 U1)) MS) by (rewrite <- EM1; exact (h_mat _ _ _ _ HU1)).
    pose proof (his_result _ _ Hev m (vbuf U1) (vs1 U1) MS Hfit HM) as Hres.
    destruct (heevd m (vbuf U1) (vs1 U1)) as [[info b] w1]. cbn [fst snd] in *.
    destruct (meigh m MS) as [[Um w]|].
    - destruct Hres as (-> & R2 & R3). rewrite Z.eqb_refl. exists (with_buf U1 b), (m, w1). split; [reflexivity|].
      split; [|split; [reflexivity|exact R3]].
      assert (EM : mat_of (with_buf U1 b) = stored b (vs1 U1)) by (exact (mat_of_stored (with_buf U1 b) (proj1 (h_cm _ _ _ _ HU1)))).
      destruct HU1 as [F1 F2 F3 F4 F5 F6 F7]. constructor; try assumption.
      + unfold allocated in *. cbn [with_buf vrows vcols vs0 vs1 vbuf]. rewrite Hsz. exact F5.
      + rewrite EM. exact R2.
    - destruct (Z.eqb_spec info 0) as [H|_]; [contradiction|reflexivity].
  Qed.

  Lemma g_loewdin t n m X SX MX MSX : (1 <= n)%nat -> (1 <= m)%nat -> small n m -> small m m ->
    holds n m X MX -> holds n m SX MSX ->
    match Geodesic.loewdin meigh n m MX MSX with
    | Some MY => exists Y, loewdin ord junk heevd t X SX = KOk Y /\ holds n m Y MY
    | None => loewdin ord junk heevd t X SX = KThrow
    end.
  Proof.
    intros Hn Hm Hnm Hmm HX HSX. unfold loewdin, Geodesic.loewdin.
    destruct (k_inner_ (ord t) n m m X SX _ _ 1 (Hord _) Hm Hmm HX HSX) as (M & E1 & HM). rewrite E1. cbn [kbind].
    replace (vcols X) with (vcols M) by (rewrite (h_cols _ _ _ _ HM), (h_cols _ _ _ _ HX); reflexivity).
    pose proof (g_eigh (t + 1) m (empty_like M (junk t)) M _ _ (empty_like_holds _ _ _ _ (junk t) Hm Hmm HM) HM) as HE.
    destruct (meigh m (Descent.inner_ n MX MSX 1)) as [[Um w]|]; [|rewrite HE; reflexivity].
    destruct HE as (U & w' & E2 & HU & (Hl & Hw)). rewrite E2. cbn [kbind fst snd].
    unfold loewdin_aux. cbn [fst snd].
    destruct (k_scale_cols (ord (t + 2)%nat) m m M U _ _ (fst w') (fun i => 1 / sqrt (snd w' i)) 1 (Hord _) HM HU) as (M' & E3 & HM'); [rewrite Hl; lia|].
    rewrite E3. cbn [kbind].
    destruct (k_outer (ord (t + 3)%nat) m M' U (zeros_like U) _ _ _ (Hord _) HM' HU (zeros_like_holds _ _ _ _ Hm Hmm HU)) as (Rm & E4 & HRm).
    rewrite E4. cbn [kbind].
    destruct (k_transform (ord (t + 4)%nat) n m m X Rm (zeros_like X) _ _ _ 1 0 (Hord _) HX HRm (zeros_like_holds _ _ _ _ Hn Hnm HX)) as (Y & E5 & HY).
    rewrite (h_rows _ _ _ _ HX) in E5. exists Y. split; [rewrite (h_rows _ _ _ _ HX); exact E5|].
    apply (holds_ext _ _ _ _ _ HY). eapply meq_trans; [apply madd_0, mscal_0|]. rewrite mscal_1. unfold Descent.transform_alloc.
    apply mmul_ext; [apply meq_refl|]. unfold Descent.outer. apply mmul_ext; [|apply meq_refl].
    intros i j Hi Hj. unfold Descent.scale_cols, Geodesic.loewdin_aux. rewrite (Hw j Hj). reflexivity.
  Qed.

  Theorem g_geodesic t k n m S step X eta zx ze MX ME MZ MZE :
    (1 <= n)%nat -> (1 <= m)%nat -> small n m -> small m m -> acts_as opS k n S ->
    holds n m X MX -> holds m m eta ME -> holds n m zx MZ -> holds m m ze MZE ->
    match Geodesic.geodesic_us meigh n m MX ME MZ MZE S step with
    | Some (e, U, Y) =>
      exists ek Ul X', geodesic_us ord junk heevd opS t k step X eta zx ze = KOk (ek, Ul, X') /\
        holds_vec m ek e /\ holds m m Ul U /\ holds n m X' Y
    | None => geodesic_us ord junk heevd opS t k step X eta zx ze = KThrow
    end.
  Proof.
    intros Hn Hm Hnm Hmm HS HX HE HZ HZE. unfold geodesic_us, advance_eta, Geodesic.geodesic_us, Geodesic.advance_eta.
    destruct (k_deep_copy (ord t) m m (empty_like ze (junk t)) eta _ _ (Hord _) (empty_like_holds _ _ _ _ (junk t) Hm Hmm HZE) HE) as (e1 & E1 & He1).
    rewrite E1. cbn [kbind].
    destruct (k_add (ord (t + 1)%nat) m m e1 ze _ _ step 1 (Hord _) He1 HZE) as (en & E2 & Hen). rewrite E2. cbn [kbind].
    unfold eigvals_and_vectors.
    pose proof (g_eigh (t + 2) m (empty_like en (junk (t + 2)%nat)) en _ _ (empty_like_holds _ _ _ _ _ Hm Hmm Hen) Hen) as HEi.
    destruct (meigh m (Descent.add ME MZE step 1)) as [[U e]|]; [|rewrite HEi; reflexivity].
    destruct HEi as (Ul & ek & E3 & HU & Hek). rewrite E3. cbn [kbind fst snd]. unfold advance_x, Geodesic.advance_x.
    destruct (k_deep_copy (ord (t + 4)%nat) n m (empty_like X (junk (t + 4)%nat)) X _ _ (Hord _) (empty_like_holds _ _ _ _ _ Hn Hnm HX) HX) as (x1 & E4 & Hx1).
    rewrite E4. cbn [kbind].
    destruct (k_add (ord (t + 4 + 1)%nat) n m x1 zx _ _ step 1 (Hord _) Hx1 HZ) as (x2 & E5 & Hx2). rewrite E5. cbn [kbind].
    destruct (k_apply opS k n m S (junk (t + 4 + 1)%nat) x2 _ Hn Hm Hnm HS Hx2) as (sx & E6 & Hsx). rewrite E6.
    pose proof (g_loewdin (t + 4 + 2) n m x2 sx _ _ Hn Hm Hnm Hmm Hx2 Hsx) as HL.
    destruct (Geodesic.loewdin meigh n m (Descent.add MX MZ step 1) (mmul n S (Descent.add MX MZ step 1))) as [MY|]; [|rewrite HL; reflexivity].
    destruct HL as (Y & E7 & HY). rewrite E7. cbn [kbind].
    destruct (k_transform_alloc (ord (t + 4 + 7)%nat) n m Y Ul _ _ (Hord _) Hn Hnm HY HU) as (X' & E8 & HX'). rewrite E8. cbn [kbind].
    exists ek, Ul, X'. split; [reflexivity|]. split; [exact Hek|]. split; [exact HU|exact HX'].
  Qed.

  (** make_diag *)
  Lemma g_make_diag (o : nat -> list nat) m v x : fair1 o -> (1 <= m)%nat -> small m m -> holds_vec m v x ->
    exists e, make_diag (E := Celt) (o (fst v)) (fst v) (fun i => RtoC (snd v i) : V) = KOk e /\ holds m m e (Descent.make_diag x).
  Proof.
    intros Ho Hm Hmm (Hl & Hx). rewrite Hl. unfold make_diag.
    pose proof (zeros_holds m m Hm Hmm) as Hz.
    destruct (diag_loop_spec m (alloc Celt m m true) mzero (fun i _ => RtoC (snd v i) : V)
                (fun i c => if Nat.ltb i m then store c (addr (alloc Celt m m true) i i) (RtoC (snd v i) : V) else KUB) (o m) m Hz (le_n _) (Ho m)) as (b & E & Hb).
    { intros i c Hi Hc. rewrite (proj2 (Nat.ltb_lt i m) Hi). unfold store, wr.
      pose proof (h_alloc _ _ _ _ Hz) as Ha. unfold allocated in Ha.
      assert (L : (addr (alloc Celt m m true) i i < bsz c)%nat) by (rewrite Hc; apply Ha; cbn; exact Hi).
      rewrite (proj2 (Nat.ltb_lt _ _) L). reflexivity. }
    rewrite E. cbn [kbind]. exists (with_buf (alloc Celt m m true) b). split; [reflexivity|].
    apply (holds_ext _ _ _ _ _ Hb). intros i j Hi Hj. unfold Descent.make_diag, mdiag.
    destruct (Nat.eqb_spec i j) as [->|_]; cbn [andb]; [|reflexivity]. rewrite (proj2 (Nat.ltb_lt j m) Hj), (Hx j Hj). reflexivity.
  Qed.
End Geo.

(** ** Every eigensolver that depends on its block only computes some [eigh] *)
(** what zheevd reports and leaves in the block is determined by the elements of the block *)
Definition block_determined (heevd : nat -> buf Celt -> nat -> Z * buf Celt * (nat -> R)) : Prop :=
  forall n b ld b' ld', LapackElt.fits n n b ld -> LapackElt.fits n n b' ld' -> meq n n (stored b ld) (stored b' ld') ->
    fst (fst (heevd n b ld)) = fst (fst (heevd n b' ld')) /\
    meq n n (stored (snd (fst (heevd n b ld))) ld) (stored (snd (fst (heevd n b' ld'))) ld') /\
    forall i, (i < n)%nat -> snd (heevd n b ld) i = snd (heevd n b' ld') i.
(** the matrix [M] in packed memory; the call on it *)
Definition packed (n : nat) (M : mat) : buf Celt := MkBuf (n * n) (fun a => M (a mod n)%nat (a / n)%nat : ev Celt).
Definition eigh_of (heevd : nat -> buf Celt -> nat -> Z * buf Celt * (nat -> R)) (n : nat) (M : mat) : option (mat * (nat -> R)) :=
  match heevd n (packed n M) (Nat.max 1 n) with
  | (info, b, w) => if Z.eqb info 0 then Some (stored b (Nat.max 1 n), w) else None
  end.
Lemma packed_fits n M : LapackElt.fits n n (packed n M) (Nat.max 1 n).
Proof. split; [lia|]. split; [lia|]. intros i j Hi Hj. cbn [packed bsz]. rewrite Nat.max_r by lia. nia. Qed.
Lemma packed_stored n M : meq n n (stored (packed n M) (Nat.max 1 n)) M.
Proof.
  intros i j Hi Hj. unfold stored. cbn [packed bget]. rewrite Nat.max_r by lia.
  rewrite Nat.add_comm, Nat.mul_comm, Nat.div_add_l, (Nat.div_small i n), Nat.add_0_r by lia.
  rewrite Nat.add_comm, Nat.mod_add, Nat.mod_small by lia. reflexivity.
Qed.
Theorem eigh_of_is heevd : heevd_ok heevd -> block_determined heevd ->
  heevd_is heevd (eigh_of heevd) /\ Geodesic.eigh_ok (eigh_of heevd).
Proof.
  intros Hok Hb. split.
  - constructor; [exact (hev_size _ Hok)|]. intros n b ld M Hf HM. unfold eigh_of.
    destruct (Hb n b ld (packed n M) (Nat.max 1 n) Hf (packed_fits n M)) as (B1 & B2 & B3).
    { apply meq_trans with (1 := HM). apply meq_sym, packed_stored. }
    destruct (heevd n (packed n M) (Nat.max 1 n)) as [[info b'] w]. cbn [fst snd] in *.
    destruct (Z.eqb_spec info 0) as [->|H]; [split; [exact B1|split; [exact B2|exact B3]]|rewrite B1; exact H].
  - intros n M U w H. unfold eigh_of in H.
    pose proof (hev_result _ Hok n (packed n M) (Nat.max 1 n) (packed_fits n M)) as Hr. cbv zeta in Hr.
    destruct (heevd n (packed n M) (Nat.max 1 n)) as [[info b'] w']. cbn [fst snd] in *.
    destruct (Z.eqb_spec info 0) as [->|_]; [|discriminate]. injection H as <- <-. destruct (Hr eq_refl) as (R1 & R2 & R3).
    split; [exact R1|]. split; [|exact R3]. apply meq_trans with (2 := R2). apply mmul_ext; [|apply meq_refl].
    apply upper_ext, meq_sym, packed_stored.
Qed.
