(** Facts about the kernels used by the property file: allocating versions on exact complex numbers, witnesses. *)
From Coq Require Import ZArith Reals Lra Psatz Arith Lia List Bool Permutation.
From Coquelicot Require Import Complex.
From Flocq Require Import IEEE754.BinarySingleNaN.
From Verif Require Import Arith Float64 LinAlg Cholesky LapackMem LapackMemProofs LapackElt LapackFloat.
From Verif Require Descent.
Import ListNotations.
Local Open Scope R_scope.

(** ** The operations of Descent.v are what the kernels compute *)
Lemma inner_refines order (A B : view Celt) (alpha : R) :
  Permutation order (pairs (vcols A) (vcols B)) -> vlocal A = true -> vlocal B = true ->
  col_major A -> col_major B -> allocated A -> allocated B -> (1 <= vcols A)%nat -> vrows B = vrows A ->
  exists X, inner_ order A B (RtoC alpha : ev Celt) (RtoC 0 : ev Celt) = KOk X /\
    vrows X = vcols A /\ vcols X = vcols B /\ col_major X /\ allocated X /\
    meq (vcols A) (vcols B) (mat_of X) (Descent.inner_ (vrows A) (mat_of A) (mat_of B) alpha).
Proof.
  intros P l1 l2 cA cB hA hB N S.
  destruct (inner_alloc_ok order A B (RtoC alpha : ev Celt) (RtoC 0 : ev Celt) P l1 l2 cA cB hA hB N S)
    as [X [R (x1 & x2 & x3 & x4 & x5 & x6)]].
  exists X. split; [exact R|]. split; [exact x1|]. split; [exact x2|]. split; [unfold col_major; rewrite x3, x4, x1; lia|].
  split; [exact x5|]. intros i j Hi Hj. rewrite <- mat_of_vat. etransitivity; [exact (x6 i j Hi Hj)|].
  rewrite axpby_exact, esum_csum. unfold Descent.inner_, mscal, mmul, adj. cbn [e0 Celt emul econj]. eqC.
  rewrite Cmult_0_l, Cplus_0_r. reflexivity.
Qed.
Lemma transform_alloc_refines order (A B : view Celt) :
  Permutation order (pairs (vrows A) (vcols B)) -> vlocal A = true -> vlocal B = true ->
  col_major A -> col_major B -> allocated A -> allocated B -> (1 <= vrows A)%nat ->
  vrows B = vcols A -> vcols B = vcols A ->
  exists X, transform_alloc order A B (RtoC 1 : ev Celt) (RtoC 0 : ev Celt) = KOk X /\
    vrows X = vrows A /\ vcols X = vcols B /\ col_major X /\ allocated X /\
    meq (vrows A) (vcols B) (mat_of X) (Descent.transform_alloc (vcols A) (mat_of A) (mat_of B)).
Proof.
  intros P l1 l2 cA cB hA hB N S1 S2.
  destruct (transform_alloc_ok order A B (RtoC 1 : ev Celt) (RtoC 0 : ev Celt) P l1 l2 cA cB hA hB N S1 ltac:(lia))
    as [X [R (x1 & x2 & x3 & x4 & x5 & x6 & _)]].
  exists X. split; [exact R|]. split; [exact x1|]. split; [congruence|]. split; [unfold col_major; rewrite x3, x4, x1; lia|].
  split; [exact x5|]. intros i j Hi Hj. rewrite <- mat_of_vat. etransitivity; [exact (x6 i j Hi Hj)|].
  rewrite axpby_exact, esum_csum. unfold Descent.transform_alloc, mmul. cbn [e0 Celt emul]. eqC.
  rewrite Cmult_0_l, Cplus_0_r, Cmult_1_l. reflexivity.
Qed.
Lemma transform_alloc_exact order (A B : view Celt) (alpha beta : C) :
  Permutation order (pairs (vrows A) (vcols B)) -> vlocal A = true -> vlocal B = true ->
  col_major A -> col_major B -> allocated A -> allocated B -> (1 <= vrows A)%nat ->
  vrows B = vcols A -> (vcols B <= vcols A)%nat ->
  exists X, transform_alloc order A B (alpha : ev Celt) (beta : ev Celt) = KOk X /\
    vrows X = vrows A /\ vcols X = vcols A /\
    (forall i j, (i < vrows A)%nat -> (j < vcols B)%nat ->
       mat_of X i j = Cmult alpha (mmul (vcols A) (mat_of A) (mat_of B) i j)) /\
    (forall i j, (i < vrows A)%nat -> (vcols B <= j)%nat -> (j < vcols A)%nat -> mat_of X i j = RtoC 0).
Proof.
  intros P l1 l2 cA cB hA hB N S1 S2.
  destruct (transform_alloc_ok order A B (alpha : ev Celt) (beta : ev Celt) P l1 l2 cA cB hA hB N S1 S2)
    as [X [R (x1 & x2 & x3 & x4 & x5 & x6 & x7)]].
  exists X. split; [exact R|]. split; [exact x1|]. split; [exact x2|]. split.
  - intros i j Hi Hj. rewrite <- mat_of_vat. etransitivity; [exact (x6 i j Hi Hj)|].
    rewrite axpby_exact, esum_csum. unfold mmul. cbn [e0 Celt emul]. eqC. rewrite Cmult_0_r, Cplus_0_r. reflexivity.
  - intros i j Hi H1 H2. rewrite <- mat_of_vat. exact (x7 i j Hi H1 H2).
Qed.

Lemma raises order (Cv A B : view Celt) (alpha beta : C) :
  ~ local3 A B Cv \/ vs0 A <> 1%nat \/ vs0 B <> 1%nat \/ vs0 Cv <> 1%nat ->
  inner order Cv A B alpha beta = KThrow /\ outer order Cv A B alpha beta = KThrow /\ transform order Cv beta alpha A B = KThrow.
Proof. intros H. unfold inner, outer, transform. rewrite !checked3_throws by exact H. auto. Qed.

(** ** Concrete matrices *)
(** r x c matrix with leading dimension ld in an allocation of ld * c elements *)
Definition mkview (r c ld : nat) (f : nat -> nat -> C) : view Celt :=
  MkView r c 1 ld true (MkBuf (E := Celt) (ld * c) (fun a => f (a mod ld)%nat (a / ld)%nat)).
Lemma mkview_col_major r c ld f : (1 <= ld)%nat -> (r <= ld)%nat -> col_major (mkview r c ld f).
Proof. intros. unfold col_major. cbn. lia. Qed.
Lemma mkview_allocated r c ld f : (r <= ld)%nat -> allocated (mkview r c ld f).
Proof.
  intros H i j. cbn [vrows vcols vs0 vs1 vbuf bsz mkview]. intros Hi Hj.
  assert (ld * (j + 1) <= ld * c)%nat by (apply Nat.mul_le_mono_l; lia). lia.
Qed.
Lemma mkview_tight r c ld f : tight (mkview r c ld f).
Proof. unfold tight. cbn. lia. Qed.
Lemma mkview_mat r c ld f i j : (1 <= ld)%nat -> (i < ld)%nat -> mat_of (mkview r c ld f) i j = f i j.
Proof.
  intros H Hi. unfold mat_of. cbn [mkview vs0 vs1 vbuf bget].
  replace (i * 1 + j * ld)%nat with (i + j * ld)%nat by lia.
  rewrite Nat.mod_add, Nat.div_add by lia. rewrite Nat.mod_small, Nat.div_small by lia. reflexivity.
Qed.

(** ** A B^H for a 2 x 1 matrix A is not computed *)
Definition tallA : view Celt := mkview 2 1 2 (fun _ _ => RtoC 1).
Definition tallC : view Celt := mkview 2 2 2 (fun _ _ => RtoC 0).
Lemma outer_tall_example : forall alpha beta : C, outer (pairs 1 1) tallC tallA tallA alpha beta = KUB.
Proof.
  intros alpha beta. apply outer_tall.
  - apply Permutation_refl.
  - unfold local3. cbn. auto.
  - apply mkview_col_major; lia.
  - apply mkview_col_major; lia.
  - apply mkview_col_major; lia.
  - apply mkview_tight.
  - cbn. lia.
  - cbn. lia.
  - cbn. lia.
  - cbn. lia.
  - cbn. lia.
Qed.

(** ** A failed factorisation *)
Definition minus1 : view Celt := mkview 1 1 1 (fun _ _ => RtoC (-1)).
Definition one1 : view Celt := mkview 1 1 1 (fun _ _ => RtoC 1).
Lemma pivot_minus1 (b : buf Celt) ld : bget b (0 + ld * 0)%nat = RtoC (-1) -> pivot (stored b ld) 0 = -1.
Proof. intros H. unfold pivot, stored. cbn [rsumn]. rewrite H. cbn. ring. Qed.
Lemma silent_failure :
  exists A' X, solve_sym potrf_ref potrs_ref minus1 one1 = KOk (A', X) /\
    fst (potrf_ref 1 (vbuf minus1) 1) <> 0%Z /\
    mmul 1 (mat_of minus1) (mat_of X) 0%nat 0%nat <> mat_of one1 0%nat 0%nat.
Proof.
  assert (p : pivot (stored (vbuf minus1) 1) 0 = -1) by (apply pivot_minus1; reflexivity).
  assert (I : chol_info 1 (stored (vbuf minus1) 1) = 1%nat).
  { unfold chol_info. cbn [chol_info_from]. unfold bad. rewrite p. destruct (Rle_dec (-1) 0) as [_|N]; [reflexivity|lra]. }
  do 2 eexists. split; [apply solve_sym_returns; reflexivity|]. split.
  - cbn [fst potrf_ref]. rewrite I. discriminate.
  - set (f := snd (potrf_ref (vrows minus1) (vbuf minus1) (vs1 minus1))).
    assert (F : upper f 1 0%nat 0%nat = RtoC (-1)).
    { unfold upper, stored. cbn [Nat.leb]. unfold f. cbn [snd potrf_ref vrows vs1 minus1 mkview].
      rewrite (put_in 1 1 true (vbuf minus1) 1 _ 0 0) by (intros; lia). unfold chol_left. rewrite I. cbn [Nat.ltb Nat.leb Nat.eqb andb].
      rewrite p. reflexivity. }
    assert (X1 : chol_solve 1 (upper f 1) (stored (vbuf one1) 1) 0%nat 0%nat = RtoC 1).
    { unfold chol_solve. cbn [back forw Nat.sub Nat.eqb csum Nat.ltb Nat.leb]. rewrite F. unfold stored. cbn [bget vbuf one1 mkview].
      change (Cdiv (Cminus (Cdiv (Cminus (RtoC 1) (RtoC 0)) (Cconj (RtoC (-1)))) (Cplus (RtoC 0) (RtoC 0))) (RtoC (-1)) = RtoC 1).
      rewrite Cconj_R. replace (RtoC (-1)) with (Copp (RtoC 1)) by (apply Ceq; cbn; ring).
      field. intros E. apply (f_equal fst) in E. cbn in E. lra. }
    set (X := with_buf one1 _).
    assert (XX : mat_of X 0%nat 0%nat = RtoC 1).
    { transitivity (chol_solve 1 (upper f 1) (stored (vbuf one1) 1) 0%nat 0%nat); [|exact X1].
      exact (put_in 1 1 false (vbuf one1) 1 (chol_solve 1 (upper f 1) (stored (vbuf one1) 1)) 0 0 (le_n 1) (le_n 1) (le_n 1) (le_n 1) (fun e => le_n 0)). }
    change (Cplus (RtoC 0) (Cmult (RtoC (-1)) (mat_of X 0%nat 0%nat)) <> RtoC 1). rewrite XX.
    intros E. apply (f_equal fst) in E. cbn in E. lra.
Qed.

Lemma info_ignored (E : elt) (potrf : nat -> buf E -> nat -> Z * buf E) (potrs : nat -> nat -> buf E -> nat -> buf E -> nat -> Z * buf E) (A RHS : view E) :
  vlocal A = true -> vlocal RHS = true -> vs0 A = 1%nat -> vs0 RHS = 1%nat ->
  exists A' X, forall info1 info2 : Z,
    solve_sym (fun n b ld => (info1, snd (potrf n b ld))) (fun n m f ldf b ldb => (info2, snd (potrs n m f ldf b ldb))) A RHS = KOk (A', X).
Proof.
  intros a b c d. do 2 eexists. intros i1 i2. rewrite solve_sym_returns by assumption. cbn [snd]. reflexivity.
Qed.
