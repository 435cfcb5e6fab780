(** Properties C44 - C47: the matrix kernels on memory.
    [order] is the order in which the elements are stored by the library routine or the parallel loop:
    any permutation of the index pairs. *)
From Coq Require Import ZArith Reals Lra Arith Lia List Bool Permutation.
From Coquelicot Require Import Complex.
From Flocq Require Import IEEE754.BinarySingleNaN.
From Verif Require Import Arith Float64 LinAlg DescentProofs Cholesky LapackMem LapackMemProofs LapackElt LapackFloat LapackFacts.
From Verif Require Descent.
Import ListNotations.
Local Open Scope R_scope.

(** ** C44 *)
(** C <- alpha A^H B + beta C *)
Theorem C44_inner :
  forall order (Cv A B : view Celt) (alpha beta : C),
  Permutation order (pairs (vcols A) (vcols B)) -> local3 A B Cv ->
  col_major A -> col_major B -> col_major Cv -> allocated A -> allocated B -> allocated Cv ->
  vrows B = vrows A -> vrows Cv = vcols A -> vcols Cv = vcols B ->
  exists C', inner order Cv A B alpha beta = KOk C' /\
    holds_instead Cv C' (madd (mscal alpha (mmul (vrows A) (adj (mat_of A)) (mat_of B))) (mscal beta (mat_of Cv))).
Proof. exact inner_exact. Qed.
Print Assumptions C44_inner.

(** C <- alpha A B + beta C *)
Theorem C44_transform :
  forall order (Cv A B : view Celt) (alpha beta : C),
  Permutation order (pairs (vrows A) (vcols B)) -> local3 A B Cv ->
  col_major A -> col_major B -> col_major Cv -> allocated A -> allocated B -> allocated Cv ->
  vrows B = vcols A -> vrows Cv = vrows A -> vcols Cv = vcols B ->
  exists C', transform order Cv beta alpha A B = KOk C' /\
    holds_instead Cv C' (madd (mscal alpha (mmul (vcols A) (mat_of A) (mat_of B))) (mscal beta (mat_of Cv))).
Proof. exact transform_exact. Qed.
Print Assumptions C44_transform.

(** C <- alpha A B^H + beta C for square matrices *)
Theorem C44_outer_of_square_matrices :
  forall order (Cv A B : view Celt) (alpha beta : C),
  Permutation order (pairs (vcols A) (vcols B)) -> local3 A B Cv ->
  col_major A -> col_major B -> col_major Cv -> allocated A -> allocated B -> allocated Cv ->
  vrows A = vcols A -> vrows B = vcols A -> vcols B = vcols A -> vrows Cv = vcols A -> vcols Cv = vcols A ->
  exists C', outer order Cv A B alpha beta = KOk C' /\
    holds_instead Cv C' (madd (mscal alpha (mmul (vcols A) (mat_of A) (adj (mat_of B)))) (mscal beta (mat_of Cv))).
Proof. exact outer_exact. Qed.
Print Assumptions C44_outer_of_square_matrices.

(** Finding: A with more rows than columns makes outer read behind the end of A ... *)
Theorem C44_outer_reads_outside_tall_matrices :
  forall (E : elt) order (Cv A B : view E) alpha beta,
  Permutation order (pairs (vcols A) (vcols B)) -> local3 A B Cv ->
  col_major A -> col_major B -> col_major Cv -> tight A ->
  (vcols A < vrows A)%nat -> (1 <= vcols A)%nat -> (1 <= vcols B)%nat -> (vcols B <= vs1 B)%nat -> (vcols A <= vs1 Cv)%nat ->
  outer order Cv A B alpha beta = KUB.
Proof. exact (@outer_tall). Qed.
Print Assumptions C44_outer_reads_outside_tall_matrices.

(** ... and with fewer rows than columns, packed, or a packed destination of the right shape, zgemm rejects the call. *)
Theorem C44_outer_of_wide_matrices_is_rejected :
  forall (E : elt) order (Cv A B : view E) alpha beta,
  local3 A B Cv -> col_major A -> col_major B -> col_major Cv ->
  (vs1 A < vcols A)%nat \/ (vs1 Cv < vcols A)%nat -> outer order Cv A B alpha beta = KBadArg.
Proof. exact (@outer_wide). Qed.
Print Assumptions C44_outer_of_wide_matrices_is_rejected.

(** The documented product of conforming matrices is therefore not always computed. *)
Theorem C44_outer_documented_refuted :
  exists order (Cv A B : view Celt), local3 A B Cv /\ col_major A /\ col_major B /\ col_major Cv /\
    allocated A /\ allocated B /\ allocated Cv /\ vcols A = vcols B /\ vrows Cv = vrows A /\ vcols Cv = vrows B /\
    Permutation order (pairs (vcols A) (vcols B)) /\
    forall alpha beta : C, outer order Cv A B alpha beta = KUB.
Proof.
  exists (pairs 1 1), tallC, tallA, tallA.
  do 3 (split; [first [apply mkview_col_major; lia|unfold local3; cbn; auto]|]). split; [apply mkview_col_major; lia|].
  do 3 (split; [apply mkview_allocated; lia|]). do 3 (split; [reflexivity|]). split; [apply Permutation_refl|].
  exact outer_tall_example.
Qed.
Print Assumptions C44_outer_documented_refuted.

(** C <- alpha A + beta C; any arithmetic of the elements *)
Theorem C44_add :
  forall (E : elt) order (Cv A : view E) alpha beta,
  Permutation order (pairs (vrows A) (vcols Cv)) -> vlocal A = true -> vlocal Cv = true ->
  col_major A -> col_major Cv -> allocated A -> allocated Cv -> int_indexed A -> int_indexed Cv ->
  vrows Cv = vrows A -> vcols Cv = vcols A ->
  exists C', add order Cv A alpha beta = KOk C' /\
    block_replaced (vrows Cv) (vcols Cv) Cv C' (fun i j => eadd E (emul E alpha (vat A i j)) (emul E beta (vat Cv i j))).
Proof. exact (@add_ok). Qed.
Print Assumptions C44_add.

(** Finding: the index arithmetic of add is done in int. *)
Theorem C44_add_overflows_on_large_matrices :
  forall (E : elt) order (Cv A : view E) alpha beta,
  Permutation order (pairs (vrows A) (vcols Cv)) -> vlocal A = true -> vlocal Cv = true ->
  col_major A -> col_major Cv -> vrows Cv = vrows A ->
  (exists i j, (i < vrows A)%nat /\ (j < vcols Cv)%nat /\ (2147483647 < Z.of_nat i + Z.of_nat (vs1 Cv) * Z.of_nat j)%Z) ->
  add order Cv A alpha beta = KUB.
Proof. exact (@add_int_overflow). Qed.
Print Assumptions C44_add_overflows_on_large_matrices.

(** dst <- alpha src diag(x) + beta dst *)
Theorem C44_scale_columns :
  forall order (dst src : view Celt) xn (x : nat -> R) (alpha beta : R),
  Permutation order (pairs (vrows src) (vcols src)) -> vs0 src = 1%nat -> allocated src -> allocated dst ->
  vrows dst = vrows src -> vcols dst = vcols src -> injective_view (vrows src) (vcols src) dst -> (vcols src <= xn)%nat ->
  exists C', scale_cols order dst src xn x alpha beta = KOk C' /\
    holds_instead dst C' (madd (mscal (RtoC alpha) (mmul (vcols src) (mat_of src) (mdiag x))) (mscal (RtoC beta) (mat_of dst))).
Proof. exact scale_cols_exact. Qed.
Print Assumptions C44_scale_columns.

(** dst <- alpha src + beta dst *)
Theorem C44_scale_matrix :
  forall order (dst src : view Celt) (alpha beta : R),
  Permutation order (pairs (vrows src) (vcols src)) -> vs0 src = 1%nat -> allocated src -> allocated dst ->
  vrows dst = vrows src -> vcols dst = vcols src -> injective_view (vrows src) (vcols src) dst ->
  (exists C', scale_beta order dst src alpha beta = KOk C' /\
     holds_instead dst C' (madd (mscal (RtoC alpha) (mat_of src)) (mscal (RtoC beta) (mat_of dst)))) /\
  (exists C', scale order dst src alpha = KOk C' /\ holds_instead dst C' (mscal (RtoC alpha) (mat_of src))).
Proof. exact (fun o d s a b p q r t u v w => Logic.conj (scale_beta_exact o d s a b p q r t u v w) (scale_exact o d s a p q r t u v w)). Qed.
Print Assumptions C44_scale_matrix.

Theorem C44_unsupported_operands_raise :
  forall order (Cv A B : view Celt) (alpha beta : C),
  ~ local3 A B Cv \/ vs0 A <> 1%nat \/ vs0 B <> 1%nat \/ vs0 Cv <> 1%nat ->
  inner order Cv A B alpha beta = KThrow /\ outer order Cv A B alpha beta = KThrow /\ transform order Cv beta alpha A B = KThrow.
Proof. exact raises. Qed.
Print Assumptions C44_unsupported_operands_raise.

Theorem C44_add_and_scale_raise :
  forall (E : elt) order (Cv A : view E) xn x alpha beta a b,
  (vlocal A = false \/ vlocal Cv = false \/ vs0 A <> 1%nat \/ vs0 Cv <> 1%nat -> add order Cv A alpha beta = KThrow) /\
  (vs0 A <> 1%nat -> scale_cols order Cv A xn x a b = KThrow /\ scale_beta order Cv A a b = KThrow /\ scale order Cv A a = KThrow).
Proof. exact (fun E o C A xn x alpha beta a b => Logic.conj (add_throws o C A alpha beta) (scales_throw o C A xn x a b)). Qed.
Print Assumptions C44_add_and_scale_raise.

(** The operations of the descent model (Descent.v) are what the kernels compute. *)
Theorem C44_inner_product_of_the_descent_model :
  forall order (A B : view Celt) (alpha : R),
  Permutation order (pairs (vcols A) (vcols B)) -> vlocal A = true -> vlocal B = true ->
  col_major A -> col_major B -> allocated A -> allocated B -> (1 <= vcols A)%nat -> vrows B = vrows A ->
  exists X, inner_ order A B (RtoC alpha : ev Celt) (RtoC 0 : ev Celt) = KOk X /\
    vrows X = vcols A /\ vcols X = vcols B /\ col_major X /\ allocated X /\
    meq (vcols A) (vcols B) (mat_of X) (Descent.inner_ (vrows A) (mat_of A) (mat_of B) alpha).
Proof. exact inner_refines. Qed.
Print Assumptions C44_inner_product_of_the_descent_model.

(** Padded 2 x 2 matrices with leading dimension 3; the third row is padding. *)
Definition exA : view Celt := mkview 2 2 3 (fun i j => RtoC (INR (i + 2 * j))).
Example C44_example :
  local3 exA exA exA /\ col_major exA /\ allocated exA /\ int_indexed exA /\ injective_view 2 2 exA /\
  Permutation (rev (pairs 2 2)) (pairs (vcols exA) (vcols exA)) /\
  (exists C', transform (rev (pairs 2 2)) exA (RtoC 1 : ev Celt) (RtoC 2 : ev Celt) exA exA = KOk C' /\
     mat_of C' 0%nat 1%nat = RtoC 14 /\ mat_of C' 2%nat 1%nat = RtoC 4) /\
  inner (pairs 2 2) (MkView 2 2 2 3 true (vbuf exA)) exA exA (RtoC 1 : ev Celt) (RtoC 0 : ev Celt) = KThrow.
Proof.
  assert (L : local3 exA exA exA) by (unfold local3; cbn; auto).
  assert (M : col_major exA) by (apply mkview_col_major; lia). assert (A : allocated exA) by (apply mkview_allocated; lia).
  assert (P : Permutation (rev (pairs 2 2)) (pairs (vcols exA) (vcols exA))) by (apply Permutation_sym; apply Permutation_rev).
  split; [exact L|]. split; [exact M|]. split; [exact A|]. split; [unfold int_indexed; cbn; lia|].
  split; [exact (col_major_injective exA 2 M)|]. split; [exact P|]. split.
  - destruct (C44_transform (rev (pairs 2 2)) exA exA exA (RtoC 2) (RtoC 1) P L M M M A A A eq_refl eq_refl eq_refl) as [C' [R Q]].
    exists C'. split; [exact R|]. destruct Q as (_ & _ & q3 & q4 & _ & _ & q7 & q8). split.
    + rewrite (q7 0%nat 1%nat) by (cbn; lia). unfold madd, mscal, mmul. cbn [csum vcols exA mkview].
      fold exA. unfold exA. rewrite !mkview_mat by lia. cbn [INR Nat.add Nat.mul]. apply Ceq; cbn; ring.
    + transitivity (mat_of exA 2%nat 1%nat); [|unfold exA; rewrite mkview_mat by lia; cbn [INR Nat.add Nat.mul]; f_equal; ring].
      unfold mat_of. rewrite q3, q4. apply q8. cbn. intros i j Hi Hj. lia.
  - reflexivity.
Qed.

(** ** C45 *)
Theorem C45_product_with_a_square_matrix :
  forall order (A B : view Celt),
  Permutation order (pairs (vrows A) (vcols B)) -> vlocal A = true -> vlocal B = true ->
  col_major A -> col_major B -> allocated A -> allocated B -> (1 <= vrows A)%nat ->
  vrows B = vcols A -> vcols B = vcols A ->
  exists X, transform_alloc order A B (RtoC 1 : ev Celt) (RtoC 0 : ev Celt) = KOk X /\
    vrows X = vrows A /\ vcols X = vcols B /\ col_major X /\ allocated X /\
    meq (vrows A) (vcols B) (mat_of X) (Descent.transform_alloc (vcols A) (mat_of A) (mat_of B)).
Proof. exact transform_alloc_refines. Qed.
Print Assumptions C45_product_with_a_square_matrix.

(** Fewer columns than A: the result has A's shape, the extra columns are zero. *)
Theorem C45_extra_zero_columns :
  forall order (A B : view Celt) (alpha beta : C),
  Permutation order (pairs (vrows A) (vcols B)) -> vlocal A = true -> vlocal B = true ->
  col_major A -> col_major B -> allocated A -> allocated B -> (1 <= vrows A)%nat ->
  vrows B = vcols A -> (vcols B <= vcols A)%nat ->
  exists X, transform_alloc order A B (alpha : ev Celt) (beta : ev Celt) = KOk X /\
    vrows X = vrows A /\ vcols X = vcols A /\
    (forall i j, (i < vrows A)%nat -> (j < vcols B)%nat ->
       mat_of X i j = Cmult alpha (mmul (vcols A) (mat_of A) (mat_of B) i j)) /\
    (forall i j, (i < vrows A)%nat -> (vcols B <= j)%nat -> (j < vcols A)%nat -> mat_of X i j = RtoC 0).
Proof. exact transform_alloc_exact. Qed.
Print Assumptions C45_extra_zero_columns.

(** Finding: more columns than A. *)
Theorem C45_wider_is_out_of_bounds :
  forall (E : elt) order (A B : view E) alpha beta,
  Permutation order (pairs (vrows A) (vcols B)) -> vlocal A = true -> vlocal B = true ->
  col_major A -> col_major B -> allocated A -> allocated B -> (1 <= vrows A)%nat ->
  vrows B = vcols A -> (vcols A < vcols B)%nat -> transform_alloc order A B alpha beta = KUB.
Proof. exact (@transform_alloc_wide). Qed.
Print Assumptions C45_wider_is_out_of_bounds.

Theorem C45_every_product_refuted :
  exists order (A B : view Celt),
    Permutation order (pairs (vrows A) (vcols B)) /\ vlocal A = true /\ vlocal B = true /\
    col_major A /\ col_major B /\ allocated A /\ allocated B /\ vrows B = vcols A /\
    forall alpha beta, transform_alloc order A B alpha beta = KUB.
Proof.
  exists (pairs 1 2), (mkview 1 1 1 (fun _ _ => RtoC 1)), (mkview 1 2 1 (fun _ _ => RtoC 1)).
  split; [apply Permutation_refl|]. do 2 (split; [reflexivity|]). do 2 (split; [apply mkview_col_major; lia|]).
  do 2 (split; [apply mkview_allocated; lia|]). split; [reflexivity|]. intros alpha beta.
  apply C45_wider_is_out_of_bounds; try reflexivity; try (apply mkview_col_major; lia); try (apply mkview_allocated; lia); cbn; lia.
Qed.
Print Assumptions C45_every_product_refuted.

Example C45_example :
  let A := mkview 2 2 2 (fun i j => RtoC (INR (i + 2 * j))) in let B := mkview 2 1 2 (fun _ _ => RtoC 1) in
  Permutation (pairs 2 1) (pairs (vrows A) (vcols B)) /\ vlocal A = true /\ col_major A /\ col_major B /\ allocated A /\ allocated B /\
  vrows B = vcols A /\ (vcols B < vcols A)%nat /\ mmul 2 (mat_of A) (mat_of B) 1%nat 0%nat = RtoC 4.
Proof.
  cbv zeta. split; [apply Permutation_refl|]. split; [reflexivity|]. do 2 (split; [apply mkview_col_major; lia|]).
  do 2 (split; [apply mkview_allocated; lia|]). split; [reflexivity|]. split; [cbn; lia|].
  unfold mmul. cbn [csum]. rewrite !mkview_mat by lia. cbn [INR Nat.add Nat.mul]. apply Ceq; cbn; ring.
Qed.

(** ** C46 *)
(** binary64: the result of add with beta = 0 is NaN wherever the destination held a NaN or an infinity,
    and alpha A (up to the sign of zeros) elsewhere. *)
Theorem C46_add_with_beta_zero :
  forall order (Cv A : view Felt) (alpha : fc) s1 s2,
  Permutation order (pairs (vrows A) (vcols Cv)) -> vlocal A = true -> vlocal Cv = true ->
  col_major A -> col_major Cv -> allocated A -> allocated Cv -> int_indexed A -> int_indexed Cv ->
  vrows Cv = vrows A -> vcols Cv = vcols A ->
  exists C', add order Cv A alpha ((B754_zero s1, B754_zero s2) : ev Felt) = KOk C' /\
    forall i j, (i < vrows Cv)%nat -> (j < vcols Cv)%nat ->
      (both_finite (vat Cv i j) = false -> vat C' i j = ((B754_nan, B754_nan) : ev Felt)) /\
      (both_finite (vat Cv i j) = true ->
         same_number (fst (vat C' i j)) (fst (muldc3 alpha (vat A i j))) /\ same_number (snd (vat C' i j)) (snd (muldc3 alpha (vat A i j)))).
Proof. exact add_beta0. Qed.
Print Assumptions C46_add_with_beta_zero.

Theorem C46_scale_columns_ignores_the_destination :
  forall order (dst src : view Felt) xn x (alpha : f64) s,
  Permutation order (pairs (vrows src) (vcols src)) -> vs0 src = 1%nat -> allocated src -> allocated dst ->
  vrows dst = vrows src -> vcols dst = vcols src -> injective_view (vrows src) (vcols src) dst -> (vcols src <= xn)%nat ->
  exists C', scale_cols order dst src xn x alpha (B754_zero s : er Felt) = KOk C' /\
    forall i j, (i < vrows dst)%nat -> (j < vcols dst)%nat ->
      vat C' i j = ((fmul (fmul alpha (x j)) (fst (vat src i j)), fmul (fmul alpha (x j)) (snd (vat src i j))) : ev Felt).
Proof. exact scale_cols_beta0. Qed.
Print Assumptions C46_scale_columns_ignores_the_destination.

Theorem C46_scale_ignores_the_destination :
  forall order (dst src : view Felt) (alpha : f64) s,
  Permutation order (pairs (vrows src) (vcols src)) -> vs0 src = 1%nat -> allocated src -> allocated dst ->
  vrows dst = vrows src -> vcols dst = vcols src -> injective_view (vrows src) (vcols src) dst ->
  exists C', scale_beta order dst src alpha (B754_zero s : er Felt) = KOk C' /\
    forall i j, (i < vrows dst)%nat -> (j < vcols dst)%nat ->
      vat C' i j = ((fmul alpha (fst (vat src i j)), fmul alpha (snd (vat src i j))) : ev Felt).
Proof. exact scale_beta_beta0. Qed.
Print Assumptions C46_scale_ignores_the_destination.

Theorem C46_elementwise_add_ignores_the_destination :
  forall order (dst src : view Felt) (alpha : fc) s1 s2,
  Permutation order (pairs (vrows src) (vcols src)) -> allocated src -> allocated dst ->
  vrows dst = vrows src -> vcols dst = vcols src -> injective_view (vrows src) (vcols src) dst ->
  exists C', add_ order dst src alpha ((B754_zero s1, B754_zero s2) : ev Felt) = KOk C' /\
    forall i j, (i < vrows dst)%nat -> (j < vcols dst)%nat -> vat C' i j = (kokmul alpha (vat src i j) : ev Felt).
Proof. exact add__beta0. Qed.
Print Assumptions C46_elementwise_add_ignores_the_destination.

(** Finding: the unary minus of the library works on uninitialised memory; -1 need not be the result for 1. *)
Definition fone : fc := (fofZ 1, fzero).
Definition one_by_one : view Felt := MkView 1 1 1 1 true (MkBuf (E := Felt) 1 (fun _ => fone)).
Theorem C46_unary_minus_refuted :
  exists (X : view Felt) (junk : nat -> ev Felt) Y,
    vlocal X = true /\ col_major X /\ allocated X /\ both_finite (vat X 0 0) = true /\
    minus (pairs 1 1) junk ((Bopp (fofZ 1), fzero) : ev Felt) ((fzero, fzero) : ev Felt) X = KOk Y /\
    vat Y 0 0 = ((B754_nan, B754_nan) : ev Felt).
Proof.
  exists one_by_one, (fun _ => (B754_nan, fzero) : ev Felt).
  assert (cm : forall j, col_major (MkView 1 1 1 1 true (MkBuf (E := Felt) 1 j))) by (intros; unfold col_major; cbn; lia).
  assert (al : forall j, allocated (MkView 1 1 1 1 true (MkBuf (E := Felt) 1 j))) by (intros j0 i j; cbn; lia).
  destruct (C46_add_with_beta_zero (pairs 1 1) (alloc_uninit Felt 1 1 true (fun _ => (B754_nan, fzero) : ev Felt)) one_by_one (Bopp (fofZ 1), fzero) false false) as [Y [R Q]];
    try reflexivity; try apply cm; try apply al; try (unfold int_indexed; cbn; lia).
  exists Y. split; [reflexivity|]. split; [apply cm|]. split; [apply al|]. split; [vm_compute; reflexivity|].
  split; [exact R|]. apply Q; [cbn; lia|cbn; lia|]. reflexivity.
Qed.
Print Assumptions C46_unary_minus_refuted.

Example C46_example :
  let dst := MkView 1 1 1 1 true (MkBuf (E := Felt) 1 (fun _ => ((finf, fzero) : ev Felt))) in
  Permutation (pairs 1 1) (pairs (vrows one_by_one) (vcols dst)) /\ col_major one_by_one /\ col_major dst /\ allocated one_by_one /\ allocated dst /\
  int_indexed one_by_one /\ int_indexed dst /\ injective_view 1 1 dst /\ both_finite (vat dst 0 0) = false /\
  both_finite (vat one_by_one 0 0) = true.
Proof.
  cbv zeta. split; [apply Permutation_refl|]. do 2 (split; [unfold col_major; cbn; lia|]). do 2 (split; [intros i j; cbn; lia|]).
  do 2 (split; [unfold int_indexed; cbn; lia|]). split; [intros i j i' j'; cbn; lia|]. split; [reflexivity|vm_compute; reflexivity].
Qed.

(** ** C47 *)
(** [potrf_ok], [potrs_ok]: the contracts of zpotrf and zpotrs, satisfied by the reference algorithms. *)
Theorem C47_positive_definite_systems_are_solved :
  forall potrf potrs (A RHS : view Celt),
  potrf_ok potrf -> potrs_ok potrs ->
  vlocal A = true -> vlocal RHS = true -> col_major A -> col_major RHS -> allocated A -> allocated RHS ->
  vcols A = vrows A -> vrows RHS = vrows A ->
  hermitian (vrows A) (mat_of A) -> posdef (vrows A) (mat_of A) ->
  exists A' X, solve_sym potrf potrs A RHS = KOk (A', X) /\
    meq (vrows A) (vcols RHS) (mmul (vrows A) (mat_of A) (mat_of X)) (mat_of RHS) /\
    holds_instead RHS X (mat_of X).
Proof. exact solve_sym_solution. Qed.
Print Assumptions C47_positive_definite_systems_are_solved.

Theorem C47_contracts_are_met : potrf_ok potrf_ref /\ potrs_ok potrs_ref /\ forall m, solver_ok chol_solver m.
Proof. exact (Logic.conj potrf_ref_ok (Logic.conj potrs_ref_ok chol_solver_ok)). Qed.
Print Assumptions C47_contracts_are_met.

(** The call returns normally whatever info the two routines return. *)
Theorem C47_info_is_ignored :
  forall (E : elt) (potrf : nat -> buf E -> nat -> Z * buf E) (potrs : nat -> nat -> buf E -> nat -> buf E -> nat -> Z * buf E) (A RHS : view E),
  vlocal A = true -> vlocal RHS = true -> vs0 A = 1%nat -> vs0 RHS = 1%nat ->
  exists A' X, forall info1 info2 : Z,
    solve_sym (fun n b ld => (info1, snd (potrf n b ld))) (fun n m f ldf b ldb => (info2, snd (potrs n m f ldf b ldb))) A RHS = KOk (A', X).
Proof. exact (@info_ignored). Qed.
Print Assumptions C47_info_is_ignored.

(** Finding: with -1 (not positive definite) the factorisation fails, the call returns, A X is not the right hand side. *)
Theorem C47_failures_are_reported_refuted :
  exists A' X, solve_sym potrf_ref potrs_ref minus1 one1 = KOk (A', X) /\
    fst (potrf_ref 1 (vbuf minus1) 1) <> 0%Z /\
    mmul 1 (mat_of minus1) (mat_of X) 0%nat 0%nat <> mat_of one1 0%nat 0%nat.
Proof. exact silent_failure. Qed.
Print Assumptions C47_failures_are_reported_refuted.

Example C47_example :
  let A := mkview 2 2 3 (fun i j => if Nat.eqb i j then RtoC 2 else RtoC 1) in let B := mkview 2 1 2 (fun _ _ => RtoC 1) in
  vlocal A = true /\ vlocal B = true /\ col_major A /\ col_major B /\ allocated A /\ allocated B /\ vcols A = vrows A /\ vrows B = vrows A /\
  hermitian (vrows A) (mat_of A) /\ posdef (vrows A) (mat_of A).
Proof.
  cbv zeta. do 2 (split; [reflexivity|]). do 2 (split; [apply mkview_col_major; lia|]). do 2 (split; [apply mkview_allocated; lia|]).
  do 2 (split; [reflexivity|]). cbn [vrows mkview]. split.
  - intros i j Hi Hj. unfold adj. fold (mkview 2 2 3 (fun i j => if Nat.eqb i j then RtoC 2 else RtoC 1)). rewrite !mkview_mat by lia.
    rewrite (Nat.eqb_sym j i). destruct (Nat.eqb i j); apply Cconj_R.
  - intros v (k & Hk & Hv). unfold quad. cbn [csum]. fold (mkview 2 2 3 (fun i j => if Nat.eqb i j then RtoC 2 else RtoC 1)).
    rewrite !mkview_mat by lia. cbn [Nat.eqb].
    assert (Q : 0 < nsq (v 0%nat) + nsq (v 1%nat)).
    { assert (N : 0 < nsq (v k)). { destruct (nsq_pos (v k)) as [L|e]; [exact L|]. exfalso. apply Hv. apply nsq_0. symmetry. exact e. }
      pose proof (nsq_pos (v 0%nat)). pose proof (nsq_pos (v 1%nat)). assert (k = 0 \/ k = 1)%nat as [->| ->] by lia; lra. }
    unfold nsq in Q. destruct (v 0%nat) as [a b], (v 1%nat) as [c d]. cbn in *.
    pose proof (pow2_ge_0 (a + c)). pose proof (pow2_ge_0 (b + d)). simpl in *. nra.
Qed.
