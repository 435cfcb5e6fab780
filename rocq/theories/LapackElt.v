(** The kernels of LapackMem.v on exact complex numbers, the Cholesky routines on column-major storage. *)
From Coq Require Import ZArith Reals Lra Psatz Arith Lia List Bool Permutation.
From Coquelicot Require Import Complex.
From Verif Require Import LinAlg LapackMem LapackMemProofs Cholesky.
Import ListNotations.
Local Open Scope R_scope.

Definition Ris0 (x : R) : bool := if Req_EM_T x 0 then true else false.
(** exact complex numbers *)
Definition Celt : elt :=
  MkElt C R (RtoC 0) Cplus Cmult Cmult Cconj (fun a => Ris0 (fst a) && Ris0 (snd a))%bool Rmult Ris0 (fun x a => Cmult (RtoC x) a).

Ltac eqC := match goal with |- @eq _ ?a ?b => change (@eq C a b) end.

(** the matrix held by a view *)
Definition mat_of (X : view Celt) : mat := fun i j => bget (vbuf X) (i * vs0 X + j * vs1 X)%nat.
Lemma mat_of_vat (X : view Celt) i j : vat X i j = mat_of X i j.
Proof. reflexivity. Qed.

Lemma Ris0_true x : Ris0 x = true -> x = 0.
Proof. unfold Ris0. destruct (Req_EM_T x 0); [auto|discriminate]. Qed.
Lemma eis0_true (b : C) : eis0 Celt b = true -> b = RtoC 0.
Proof. cbn. intros H. apply andb_prop in H. destruct H as [H1 H2]. apply Ris0_true in H1, H2. apply Ceq; cbn; assumption. Qed.
(** the old contents does not matter for beta = 0: one formula for all beta *)
Lemma axpby_exact (alpha s beta old : C) :
  axpby (E := Celt) alpha s beta old = Cplus (Cmult alpha s) (Cmult beta old).
Proof.
  unfold axpby. destruct (eis0 Celt beta) eqn:e; [|reflexivity]. apply eis0_true in e. subst. cbn [emul Celt]. eqC. ring.
Qed.
Lemma esum_csum k (f : nat -> C) : esum (E := Celt) k f = csum k f.
Proof. induction k; cbn; [reflexivity|]. rewrite <- IHk. reflexivity. Qed.

(** [Y] is [X] with the matrix replaced by [M], the rest of the allocation unchanged *)
Definition holds_instead (X Y : view Celt) (M : mat) : Prop :=
  vrows Y = vrows X /\ vcols Y = vcols X /\ vs0 Y = vs0 X /\ vs1 Y = vs1 X /\ vlocal Y = vlocal X /\
  bsz (vbuf Y) = bsz (vbuf X) /\
  meq (vrows X) (vcols X) (mat_of Y) M /\
  forall a, (forall i j, (i < vrows X)%nat -> (j < vcols X)%nat -> a <> (i * vs0 X + j * vs1 X)%nat) -> bget (vbuf Y) a = bget (vbuf X) a.

Lemma replaced_holds (X Y : view Celt) (f : nat -> nat -> ev Celt) (M : mat) :
  block_replaced (vrows X) (vcols X) X Y f -> (forall i j, (i < vrows X)%nat -> (j < vcols X)%nat -> f i j = M i j) -> holds_instead X Y M.
Proof.
  intros (h1 & h2 & h3 & h4 & h5 & h6 & h7 & h8) H. unfold holds_instead. repeat (split; [assumption|]). split; [|exact h8].
  intros i j Hi Hj. unfold mat_of. rewrite h3, h4. rewrite <- H by assumption. exact (h7 i j Hi Hj).
Qed.

(** C <- alpha A^H B + beta C *)
Lemma inner_exact order (Cv A B : view Celt) (alpha beta : C) :
  Permutation order (pairs (vcols A) (vcols B)) -> local3 A B Cv ->
  col_major A -> col_major B -> col_major Cv -> allocated A -> allocated B -> allocated Cv ->
  vrows B = vrows A -> vrows Cv = vcols A -> vcols Cv = vcols B ->
  exists C', inner order Cv A B alpha beta = KOk C' /\
    holds_instead Cv C' (madd (mscal alpha (mmul (vrows A) (adj (mat_of A)) (mat_of B))) (mscal beta (mat_of Cv))).
Proof.
  intros P L cA cB cC hA hB hC s1 s2 s3.
  destruct (inner_ok order Cv A B alpha beta P L cA cB cC hA hB hC s1 s2 s3) as [C' [R Q]]. exists C'. split; [exact R|].
  apply (replaced_holds _ _ _ _ Q). intros i j _ _. rewrite axpby_exact, esum_csum. reflexivity.
Qed.
(** C <- alpha A B + beta C *)
Lemma transform_exact order (Cv A B : view Celt) (alpha beta : C) :
  Permutation order (pairs (vrows A) (vcols B)) -> local3 A B Cv ->
  col_major A -> col_major B -> col_major Cv -> allocated A -> allocated B -> allocated Cv ->
  vrows B = vcols A -> vrows Cv = vrows A -> vcols Cv = vcols B ->
  exists C', transform order Cv beta alpha A B = KOk C' /\
    holds_instead Cv C' (madd (mscal alpha (mmul (vcols A) (mat_of A) (mat_of B))) (mscal beta (mat_of Cv))).
Proof.
  intros P L cA cB cC hA hB hC s1 s2 s3.
  destruct (transform_ok order Cv A B alpha beta P L cA cB cC hA hB hC s1 s2 ltac:(lia)) as [C' [R Q]]. exists C'. split; [exact R|].
  rewrite <- s3 in Q. apply (replaced_holds _ _ _ _ Q). intros i j _ _. rewrite axpby_exact, esum_csum. reflexivity.
Qed.
(** C <- alpha A B^H + beta C, square matrices *)
Lemma outer_exact order (Cv A B : view Celt) (alpha beta : C) :
  Permutation order (pairs (vcols A) (vcols B)) -> local3 A B Cv ->
  col_major A -> col_major B -> col_major Cv -> allocated A -> allocated B -> allocated Cv ->
  vrows A = vcols A -> vrows B = vcols A -> vcols B = vcols A -> vrows Cv = vcols A -> vcols Cv = vcols A ->
  exists C', outer order Cv A B alpha beta = KOk C' /\
    holds_instead Cv C' (madd (mscal alpha (mmul (vcols A) (mat_of A) (adj (mat_of B)))) (mscal beta (mat_of Cv))).
Proof.
  intros P L cA cB cC hA hB hC s1 s2 s3 s4 s5.
  destruct (outer_square order Cv A B alpha beta P L cA cB cC hA hB hC s1 s2 s3 s4 s5) as [C' [R Q]]. exists C'. split; [exact R|].
  apply (replaced_holds _ _ _ _ Q). intros i j _ _. rewrite axpby_exact, esum_csum. reflexivity.
Qed.
(** C <- alpha A + beta C *)
Lemma add_exact order (Cv A : view Celt) (alpha beta : C) :
  Permutation order (pairs (vrows A) (vcols Cv)) -> vlocal A = true -> vlocal Cv = true ->
  col_major A -> col_major Cv -> allocated A -> allocated Cv -> int_indexed A -> int_indexed Cv ->
  vrows Cv = vrows A -> vcols Cv = vcols A ->
  exists C', add order Cv A alpha beta = KOk C' /\ holds_instead Cv C' (madd (mscal alpha (mat_of A)) (mscal beta (mat_of Cv))).
Proof.
  intros P l1 l2 cA cC hA hC iA iC s1 s2.
  destruct (add_ok order Cv A alpha beta P l1 l2 cA cC hA hC iA iC s1 s2) as [C' [R Q]]. exists C'. split; [exact R|].
  apply (replaced_holds _ _ _ _ Q). reflexivity.
Qed.
(** dst <- alpha src diag(x) + beta dst *)
Lemma scale_cols_exact order (dst src : view Celt) xn (x : nat -> R) (alpha beta : R) :
  Permutation order (pairs (vrows src) (vcols src)) -> vs0 src = 1%nat -> allocated src -> allocated dst ->
  vrows dst = vrows src -> vcols dst = vcols src -> injective_view (vrows src) (vcols src) dst -> (vcols src <= xn)%nat ->
  exists C', scale_cols order dst src xn x alpha beta = KOk C' /\
    holds_instead dst C' (madd (mscal (RtoC alpha) (mmul (vcols src) (mat_of src) (mdiag x))) (mscal (RtoC beta) (mat_of dst))).
Proof.
  intros P s0 hs hd r1 r2 J hx.
  destruct (scale_cols_ok order dst src xn x alpha beta P s0 hs hd r1 r2 J hx) as [C' [R Q]]. exists C'. split; [exact R|].
  apply (replaced_holds _ _ _ _ Q). intros i j Hi Hj. unfold madd, mscal.
  rewrite (mmul_diag_r (vrows dst) (vcols src) (mat_of src) x i j Hi) by (rewrite <- r2; exact Hj).
  cbn [eris0 Celt erscale ermul eadd]. rewrite (mat_of_vat src), (mat_of_vat dst). destruct (Ris0 beta) eqn:e.
  - apply Ris0_true in e. subst. rewrite RtoC_mult. eqC. ring.
  - rewrite RtoC_mult. eqC. ring.
Qed.
Lemma scale_beta_exact order (dst src : view Celt) (alpha beta : R) :
  Permutation order (pairs (vrows src) (vcols src)) -> vs0 src = 1%nat -> allocated src -> allocated dst ->
  vrows dst = vrows src -> vcols dst = vcols src -> injective_view (vrows src) (vcols src) dst ->
  exists C', scale_beta order dst src alpha beta = KOk C' /\
    holds_instead dst C' (madd (mscal (RtoC alpha) (mat_of src)) (mscal (RtoC beta) (mat_of dst))).
Proof.
  intros P s0 hs hd r1 r2 J.
  destruct (scale_beta_ok order dst src alpha beta P s0 hs hd r1 r2 J) as [C' [R Q]]. exists C'. split; [exact R|].
  apply (replaced_holds _ _ _ _ Q). intros i j Hi Hj. unfold madd, mscal.
  cbn [eris0 Celt erscale ermul eadd]. rewrite (mat_of_vat src), (mat_of_vat dst). destruct (Ris0 beta) eqn:e.
  - apply Ris0_true in e. subst. eqC. ring.
  - eqC. ring.
Qed.
Lemma scale_exact order (dst src : view Celt) (alpha : R) :
  Permutation order (pairs (vrows src) (vcols src)) -> vs0 src = 1%nat -> allocated src -> allocated dst ->
  vrows dst = vrows src -> vcols dst = vcols src -> injective_view (vrows src) (vcols src) dst ->
  exists C', scale order dst src alpha = KOk C' /\ holds_instead dst C' (mscal (RtoC alpha) (mat_of src)).
Proof.
  intros P s0 hs hd r1 r2 J.
  destruct (scale_ok order dst src alpha P s0 hs hd r1 r2 J) as [C' [R Q]]. exists C'. split; [exact R|].
  apply (replaced_holds _ _ _ _ Q). reflexivity.
Qed.

(** ** zpotrf / zpotrs on column-major storage *)
Definition stored (b : buf Celt) (ld : nat) : mat := fun i j => bget b (i + ld * j)%nat.
(** the factor left in the upper triangle *)
Definition upper (b : buf Celt) (ld : nat) : mat := fun i j => if Nat.leb i j then stored b ld i j else RtoC 0.
Definition fits (n m : nat) (b : buf Celt) (ld : nat) : Prop :=
  (1 <= ld)%nat /\ (n <= ld)%nat /\ forall i j, (i < n)%nat -> (j < m)%nat -> (i + ld * j < bsz b)%nat.

(** Contract of zpotrf('U', n, a, lda): only the upper triangle is read and written; info = 0 and a
    factorisation if the matrix is positive definite, info <> 0 otherwise. *)
Record potrf_ok (potrf : nat -> buf Celt -> nat -> Z * buf Celt) : Prop := {
  prf_size : forall n b ld, fits n n b ld -> bsz (snd (potrf n b ld)) = bsz b;
  prf_frame : forall n b ld, fits n n b ld -> forall a, (forall i j, (i <= j)%nat -> (j < n)%nat -> a <> (i + ld * j)%nat) ->
    bget (snd (potrf n b ld)) a = bget b a;
  prf_info : forall n b ld, fits n n b ld -> (fst (potrf n b ld) = 0%Z <-> posdef n (herm_of (stored b ld)));
  prf_factor : forall n b ld, fits n n b ld -> fst (potrf n b ld) = 0%Z ->
    let U := upper (snd (potrf n b ld)) ld in
    meq n n (mmul n (adj U) U) (herm_of (stored b ld)) /\ forall i, (i < n)%nat -> U i i <> RtoC 0
}.
(** Contract of zpotrs('U', n, nrhs, a, lda, b, ldb) for a non-singular factor. *)
Record potrs_ok (potrs : nat -> nat -> buf Celt -> nat -> buf Celt -> nat -> Z * buf Celt) : Prop := {
  prs_size : forall n m f ldf b ldb, fits n n f ldf -> fits n m b ldb -> bsz (snd (potrs n m f ldf b ldb)) = bsz b;
  prs_frame : forall n m f ldf b ldb, fits n n f ldf -> fits n m b ldb ->
    forall a, (forall i j, (i < n)%nat -> (j < m)%nat -> a <> (i + ldb * j)%nat) -> bget (snd (potrs n m f ldf b ldb)) a = bget b a;
  prs_solves : forall n m f ldf b ldb, fits n n f ldf -> fits n m b ldb ->
    (forall i, (i < n)%nat -> upper f ldf i i <> RtoC 0) ->
    meq n m (mmul n (mmul n (adj (upper f ldf)) (upper f ldf)) (stored (snd (potrs n m f ldf b ldb)) ldb)) (stored b ldb)
}.

Lemma mat_of_stored (X : view Celt) : vs0 X = 1%nat -> mat_of X = stored (vbuf X) (vs1 X).
Proof. intros H. apply mat_ext. intros i j. unfold mat_of, stored. rewrite H. f_equal. lia. Qed.

(** A X = B *)
Lemma solve_sym_solution potrf potrs (A RHS : view Celt) :
  potrf_ok potrf -> potrs_ok potrs ->
  vlocal A = true -> vlocal RHS = true -> col_major A -> col_major RHS -> allocated A -> allocated RHS ->
  vcols A = vrows A -> vrows RHS = vrows A ->
  hermitian (vrows A) (mat_of A) -> posdef (vrows A) (mat_of A) ->
  exists A' X, solve_sym potrf potrs A RHS = KOk (A', X) /\
    meq (vrows A) (vcols RHS) (mmul (vrows A) (mat_of A) (mat_of X)) (mat_of RHS) /\
    holds_instead RHS X (mat_of X).
Proof.
  intros Hf Hs lA lR (a0 & a1 & a2) (r0 & r1 & r2) hA hR sq sr HA PA.
  set (n := vrows A) in *. set (m := vcols RHS) in *.
  assert (FA : fits n n (vbuf A) (vs1 A)).
  { split; [exact a1|]. split; [exact a2|]. intros i j Hi Hj. specialize (hA i j Hi ltac:(lia)). rewrite a0 in hA. lia. }
  assert (FR : fits n m (vbuf RHS) (vs1 RHS)).
  { split; [exact r1|]. split; [lia|]. intros i j Hi Hj. specialize (hR i j ltac:(lia) Hj). rewrite r0 in hR. lia. }
  assert (HH : meq n n (herm_of (stored (vbuf A) (vs1 A))) (mat_of A)).
  { rewrite (mat_of_stored A a0) in *. apply herm_of_hermitian. exact HA. }
  assert (PH : posdef n (herm_of (stored (vbuf A) (vs1 A)))).
  { intros v Hv. rewrite (quad_ext n _ _ v HH). apply PA. exact Hv. }
  pose proof (proj2 (prf_info _ Hf n _ _ FA) PH) as I0.
  destruct (prf_factor _ Hf n _ _ FA I0) as [HU HD]. set (fa := snd (potrf n (vbuf A) (vs1 A))) in *.
  assert (FF : fits n n fa (vs1 A)).
  { split; [exact a1|]. split; [exact a2|]. intros i j Hi Hj. unfold fa. rewrite (prf_size _ Hf n _ _ FA). apply FA; assumption. }
  pose proof (prs_solves _ Hs n m fa (vs1 A) (vbuf RHS) (vs1 RHS) FF FR HD) as HS.
  exists (with_buf A fa), (with_buf RHS (snd (potrs n m fa (vs1 A) (vbuf RHS) (vs1 RHS)))).
  split; [apply solve_sym_returns; assumption|]. split.
  - rewrite (mat_of_stored RHS r0), (mat_of_stored (with_buf RHS _)) by exact r0. cbn [vbuf vs1 with_buf].
    etransitivity; [|exact HS]. apply (mmul_ext n n m); [|apply meq_refl]. symmetry. etransitivity; [exact HU|exact HH].
  - unfold holds_instead. cbn [vrows vcols vs0 vs1 vlocal vbuf with_buf]. do 5 (split; [reflexivity|]).
    split; [exact (prs_size _ Hs n m fa (vs1 A) _ _ FF FR)|]. split; [apply meq_refl|].
    intros a Ha. apply (prs_frame _ Hs n m fa (vs1 A) _ _ FF FR). intros i j Hi Hj. specialize (Ha i j ltac:(lia) Hj). rewrite r0 in Ha. lia.
Qed.

(** ** The reference routines meet the contracts *)
Definition chol_left (n : nat) (A : mat) : mat :=
  fun r c => match chol_info n A with
    | O => chol A r c
    | S j => if Nat.ltb r j then chol A r c else if (Nat.eqb r j && Nat.eqb c j)%bool then RtoC (pivot A j) else A r c
    end.
Definition put (n m : nat) (tri : bool) (b : buf Celt) (ld : nat) (M : mat) : buf Celt :=
  MkBuf (E := Celt) (bsz b) (fun a => let r := (a mod ld)%nat in let c := (a / ld)%nat in
    if (Nat.ltb r n && Nat.ltb c m && (negb tri || Nat.leb r c))%bool then M r c else bget b a).
Definition potrf_ref (n : nat) (b : buf Celt) (ld : nat) : Z * buf Celt :=
  (Z.of_nat (chol_info n (stored b ld)), put n n true b ld (chol_left n (stored b ld))).
Definition potrs_ref (n m : nat) (f : buf Celt) (ldf : nat) (b : buf Celt) (ldb : nat) : Z * buf Celt :=
  (0%Z, put n m false b ldb (chol_solve n (upper f ldf) (stored b ldb))).

Lemma put_in n m tri b ld M i j : (1 <= ld)%nat -> (n <= ld)%nat -> (i < n)%nat -> (j < m)%nat -> (tri = true -> (i <= j)%nat) ->
  bget (put n m tri b ld M) (i + ld * j)%nat = M i j.
Proof.
  intros h1 h2 Hi Hj Ht. unfold put. cbn [bget].
  assert (e1 : ((i + ld * j) mod ld = i)%nat) by (rewrite Nat.mul_comm, Nat.mod_add by lia; apply Nat.mod_small; lia).
  assert (e2 : ((i + ld * j) / ld = j)%nat) by (rewrite Nat.mul_comm, Nat.div_add by lia; rewrite Nat.div_small by lia; reflexivity).
  rewrite e1, e2. apply Nat.ltb_lt in Hi, Hj. rewrite Hi, Hj. destruct tri; cbn [negb andb orb]; [|reflexivity].
  assert (e3 : Nat.leb i j = true) by (apply Nat.leb_le; apply Ht; reflexivity). rewrite e3. reflexivity.
Qed.
Lemma put_frame n m tri b ld M a : (1 <= ld)%nat ->
  (forall i j, (i < n)%nat -> (j < m)%nat -> (tri = true -> (i <= j)%nat) -> a <> (i + ld * j)%nat) -> bget (put n m tri b ld M) a = bget b a.
Proof.
  intros h1 H. unfold put. cbn [bget]. destruct (Nat.ltb_spec (a mod ld) n) as [L1|L1]; cbn [andb]; [|reflexivity].
  destruct (Nat.ltb_spec (a / ld) m) as [L2|L2]; cbn [andb]; [|reflexivity].
  destruct (negb tri || Nat.leb (a mod ld) (a / ld))%bool eqn:e; [|reflexivity]. exfalso.
  apply (H (a mod ld)%nat (a / ld)%nat L1 L2); [|rewrite Nat.add_comm; apply Nat.div_mod; lia].
  intros ->. cbn [negb orb] in e. apply Nat.leb_le. exact e.
Qed.
Lemma potrf_ref_ok : potrf_ok potrf_ref.
Proof.
  constructor.
  - reflexivity.
  - intros n b ld (h1 & h2 & _) a Ha. apply put_frame; [exact h1|]. intros i j Hi Hj Ht. apply Ha; [apply Ht; reflexivity|exact Hj].
  - intros n b ld _. cbn [fst potrf_ref]. rewrite <- chol_info_posdef. lia.
  - intros n b ld (h1 & h2 & _) I0. cbn [fst potrf_ref] in I0. cbv zeta.
    assert (I : chol_info n (stored b ld) = 0%nat) by lia.
    pose proof (proj1 (chol_info_0 n (stored b ld)) I) as P.
    assert (HU : meq n n (upper (snd (potrf_ref n b ld)) ld) (chol (stored b ld))).
    { intros i j Hi Hj. unfold upper, stored at 1. destruct (Nat.leb_spec i j) as [L|L].
      - cbn [snd potrf_ref]. rewrite put_in by (try assumption; intros _; exact L). unfold chol_left. rewrite I. reflexivity.
      - symmetry. apply chol_low. exact L. }
    split.
    + etransitivity; [|apply chol_factors; exact P]. apply (mmul_ext n n n); [|exact HU]. apply adj_ext. exact HU.
    + intros i Hi. rewrite (HU i i Hi Hi), chol_diag. apply RtoC_sqrt_neq. apply P. exact Hi.
Qed.
Lemma potrs_ref_ok : potrs_ok potrs_ref.
Proof.
  constructor.
  - reflexivity.
  - intros n m f ldf b ldb _ (h1 & h2 & _) a Ha. apply put_frame; [exact h1|]. intros i j Hi Hj _. apply Ha; assumption.
  - intros n m f ldf b ldb _ (h1 & h2 & _) HD. etransitivity; [|apply (chol_solve_ok n m (upper f ldf) (stored b ldb))].
    + apply (mmul_ext n n m); [apply meq_refl|]. intros i j Hi Hj. unfold stored at 1. cbn [snd potrs_ref].
      apply put_in; try assumption. discriminate.
    + intros r c Hc _. unfold upper. assert (e : Nat.leb r c = false) by (apply Nat.leb_gt; exact Hc). rewrite e. reflexivity.
    + exact HD.
Qed.
