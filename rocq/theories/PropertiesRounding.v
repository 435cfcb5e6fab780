(** C95: rounding of the matrix products and of the slopes in double precision. *)
From Coq Require Import ZArith Reals Lra Lia Arith List Bool Permutation.
From Flocq Require Import IEEE754.BinarySingleNaN.
From Coquelicot Require Import Complex.
From Verif Require Import Arith Float64 LinAlg MVector LapackMem LapackMemProofs LapackFloat CountError SmearFloat Exchange Smearing Newton Occupation
  StepMem DeviceStep NumStep KernelError SlopeError ShapeExample RoundingExample TreeError.
From Verif Require Device.
Import ListNotations.
Local Open Scope R_scope.

(** inner: C <- alpha A^H B + beta C.  [product_close] bounds the distance of both parts of an element from the same expression
    without rounding, in terms of the magnitudes that are added up; a finite part is the result of finite numbers only. *)
Theorem C95_inner_rounding :
  forall order (Cv A B : view Felt) (alpha beta : fc),
  Permutation order (pairs (vcols A) (vcols B)) -> local3 A B Cv -> col_major A -> col_major B -> col_major Cv ->
  allocated A -> allocated B -> allocated Cv -> vrows B = vrows A -> vrows Cv = vcols A -> vcols Cv = vcols B ->
  exists C', inner order Cv A B (alpha : ev Felt) (beta : ev Felt) = KOk C' /\
    forall i j, (i < vcols A)%nat -> (j < vcols B)%nat ->
    product_close (vrows A) alpha beta (fun l => fconj (vat A l i)) (fun l => vat B l j) (vat Cv i j) (vat C' i j).
Proof. exact inner_close. Qed.
Print Assumptions C95_inner_rounding.

(** transform: C <- alpha A B + beta C *)
Theorem C95_transform_rounding :
  forall order (Cv A B : view Felt) (alpha beta : fc),
  Permutation order (pairs (vrows A) (vcols B)) -> local3 A B Cv -> col_major A -> col_major B -> col_major Cv ->
  allocated A -> allocated B -> allocated Cv -> vrows B = vcols A -> vrows Cv = vrows A -> (vcols B <= vcols Cv)%nat ->
  exists C', transform order Cv (beta : ev Felt) (alpha : ev Felt) A B = KOk C' /\
    forall i j, (i < vrows A)%nat -> (j < vcols B)%nat ->
    product_close (vcols A) alpha beta (fun l => vat A i l) (fun l => vat B l j) (vat Cv i j) (vat C' i j).
Proof. exact transform_close. Qed.
Print Assumptions C95_transform_rounding.

(** outer of square matrices: C <- alpha A B^H + beta C *)
Theorem C95_outer_rounding :
  forall order (Cv A B : view Felt) (alpha beta : fc),
  Permutation order (pairs (vcols A) (vcols B)) -> local3 A B Cv -> col_major A -> col_major B -> col_major Cv ->
  allocated A -> allocated B -> allocated Cv -> vrows A = vcols A -> vrows B = vcols A -> vcols B = vcols A -> vrows Cv = vcols A -> vcols Cv = vcols A ->
  exists C', outer order Cv A B (alpha : ev Felt) (beta : ev Felt) = KOk C' /\
    forall i j, (i < vcols A)%nat -> (j < vcols A)%nat ->
    product_close (vcols A) alpha beta (fun l => vat A i l) (fun l => fconj (vat B j l)) (vat Cv i j) (vat C' i j).
Proof. exact outer_close. Qed.
Print Assumptions C95_outer_rounding.

(** innerh_tr on the host and on devices, whatever the shape of the reduction *)
Theorem C95_inner_product_rounding :
  forall (X Y : view Felt) sp red (s : fc), fair_red red -> shallow red -> innerh_on sp red X Y = KOk (s : ev Felt) -> is_finite (fst s) = true ->
  (forall i j, (i < vrows X)%nat -> (j < vcols X)%nat -> finite_c (vat X i j) /\ finite_c (vat Y i j)) /\
  Rabs (B2R (fst s) - re_ip X Y) <= bound (vrows X + vcols X + 2) (mag_ip X Y) (INR (vrows X) * (INR (vcols X) * (2 * eta0))).
Proof. exact innerh_close. Qed.
Print Assumptions C95_inner_product_rounding.

(** The slope returned by descent_direction::restarted, all k-points of all ranks together: it is the sum of 2 Re <g_X, d_X> + Re <g_eta, d_eta>
    up to rounding, where d_X, d_eta are the directions returned and g_X, g_eta the gradients computed on the way. *)
Theorem C95_restarted_slope_rounding :
  forall sp ord ord1 junk red potrf potrs opS opP Sm T kappa mo, (forall t, fair_red (red t)) -> (forall t, shallow (red t)) ->
  forall world mu s dirs,
  restarted_n binaryN sp ord ord1 junk red potrf potrs opS opP Sm T kappa mo world mu = KOk (s, dirs) -> is_finite (s : f64) = true ->
  exists dF w, dFdmu_n binaryN Sm T mo world mu = KOk dF /\
    Forall2 (Forall2 (fun k p => exists t, gradients sp ord ord1 junk potrf potrs opS opP Sm T mo t (nk_key binaryN k) mu (dmu_deta_n binaryN Sm T mo world mu) dF
      (nk_wk binaryN k) (nk_x binaryN k) (nk_e binaryN k) (nk_f binaryN k) (nk_hx binaryN k) = KOk (p_gx p, p_ge p))) world w /\
    map (map (fun p => (p_dx p, p_de p))) w = dirs /\ total_close w s.
Proof. exact restarted_slope. Qed.
Print Assumptions C95_restarted_slope_rounding.

(** conjugated: the Fletcher-Reeves numerator and the slope of the transported directions; the slope returned is computed from them. *)
Theorem C95_conjugated_slope_rounding :
  forall sp ord ord1 junk red potrf potrs opS opP Sm T kappa mo, (forall t, fair_red (red t)) -> (forall t, shallow (red t)) ->
  forall fr_old world mu fr s zs,
  conjugated_n binaryN sp ord ord1 junk red potrf potrs opS opP Sm T kappa mo fr_old world mu = KOk (fr, s, zs) ->
  exists dF w z (sz : f64), dFdmu_n binaryN Sm T mo (map (map fst) world) mu = KOk dF /\
    Forall2 (Forall2 (fun kz p => let k := fst kz in
      exists t, gradients sp ord ord1 junk potrf potrs opS opP Sm T mo t (nk_key binaryN k) mu (dmu_deta_n binaryN Sm T mo (map (map fst) world) mu) dF
      (nk_wk binaryN k) (nk_x binaryN k) (nk_e binaryN k) (nk_f binaryN k) (nk_hx binaryN k) = KOk (p_gx p, p_ge p))) world w /\
    (is_finite (fr : f64) = true -> total_close w fr) /\
    map (map (fun p => (p_dx p, p_de p))) z = map (map (fun p => (p_gx p, p_ge p))) w /\
    (is_finite sz = true -> total_close z sz) /\ s = fadd fr (fmul (fdiv fr fr_old) sz).
Proof. exact conjugated_slope. Qed.
Print Assumptions C95_conjugated_slope_rounding.

(** Whether the line search refuses a direction of restarted (slope > 0) agrees with the exact slope beyond the bound. *)
Theorem C95_sign_beyond_the_bound :
  forall w (s : f64) L K, is_finite s = true -> total_close w s ->
  (forall l p, In l w -> In p l -> p_size L p) -> (forall l, In l w -> (length l <= K)%nat) ->
  bound (L + 4 + K + length w) (lsum (lsum p_mag) w) (lsum (lsum p_h) w) < Rabs (lsum (lsum p_slope) w) ->
  (altb F64 (flit 0 1) s = true <-> 0 < lsum (lsum p_slope) w).
Proof. exact total_sign. Qed.
Print Assumptions C95_sign_beyond_the_bound.

(** The bound in round figures: n roundings, n up to 2^52, cost at most 2 n 2^-53 of the magnitude. *)
Theorem C95_size_of_the_bound :
  forall n M h, INR n * / 9007199254740992 <= / 2 -> 0 <= M -> 0 <= h -> bound n M h <= 2 * INR n * / 9007199254740992 * M + 2 * h.
Proof. exact bound_size. Qed.
Print Assumptions C95_size_of_the_bound.

(** Within the bound the sign is not reliable (finding): an inner product whose exact value is negative and whose computed value is positive. *)
Theorem C95_sign_refuted :
  exists (X Y : view Felt) (s : fc), innerh_on Device.SHost line X Y = KOk (s : ev Felt) /\ is_finite (fst s) = true /\ 0 < B2R (fst s) /\ re_ip X Y < 0.
Proof. exact (ex_intro _ xs (ex_intro _ ones wrong_sign)). Qed.
Print Assumptions C95_sign_refuted.

(** Matrices with two rows and columns and leading dimension three; both parts of all elements of the products are finite. *)
Example C95_example_products :
  let A := mat22 (fun a => Z.of_nat a + 1)%Z in let B := mat22 (fun a => 7 - Z.of_nat a)%Z in let Cv := mat22 (fun a => 3)%Z in
  let alpha := (fofZ 1, fofZ 0) : fc in let beta := (fofZ 2, fofZ 1) : fc in
  Permutation square_order (pairs (vcols A) (vcols B)) /\ local3 A B Cv /\ col_major A /\ allocated A /\ allocated B /\ allocated Cv /\
  match inner square_order Cv A B (alpha : ev Felt) (beta : ev Felt) with
  | KOk C' => forallb (fun ij => cdone (vat C' (fst ij) (snd ij))) (pairs 2 2) | _ => false end = true /\
  match transform square_order Cv (beta : ev Felt) (alpha : ev Felt) A B with
  | KOk C' => forallb (fun ij => cdone (vat C' (fst ij) (snd ij))) (pairs 2 2) | _ => false end = true.
Proof.
  cbv zeta. assert (al : forall f, allocated (mat22 f)) by (intros f i j; cbn; lia).
  split; [exact square_order_all|]. split; [repeat split|]. split; [repeat split; cbn; lia|]. do 3 (split; [apply al|]). split; vm_compute; reflexivity.
Qed.
(** Two k-points on two ranks in each space: the step is computed, its slope is finite and negative; the reduction is fair and shallow. *)
Example C95_example_slope :
  (forall t : nat, fair_red ((fun _ => line) t)) /\ (forall t : nat, shallow ((fun _ => line) t)) /\
  forall sp, exists s dirs, step_result sp = KOk (s, dirs) /\ is_finite (s : f64) = true /\ altb F64 s (flit 0 1) = true.
Proof. split; [intros t; exact line_fair|]. split; [intros t; exact line_shallow|exact step_finite]. Qed.

(** Any expression of additions, subtractions, products and fused multiply-adds: [size] is the same expression of the absolute values, [cost]
    counts the roundings on top of each other, [under] what underflow can add. *)
Theorem C95_any_expression :
  forall t, is_finite (eval t) = true ->
  (forall x, In x (numbers_of t) -> is_finite x = true) /\ Rabs (B2R (eval t) - exact t) <= bound (cost t) (size t) (under t).
Proof. exact tree_close. Qed.
Print Assumptions C95_any_expression.

(** An element of a product of complex matrices, however a BLAS adds the terms of its two parts up. *)
Theorem C95_any_order_of_summation :
  forall k (a b : nat -> fc) tr ti, adds_up tr (re_terms k a b) -> adds_up ti (im_terms k a b) ->
  (is_finite (eval tr) = true ->
     (forall l, (l < k)%nat -> finite_c (a l) /\ finite_c (b l)) /\
     Rabs (B2R (eval tr) - lsum (fun l => Re (Cmult (val (a l)) (val (b l)))) (seq 0 k)) <=
       bound (cost tr) (lsum (fun l => mag_re (val (a l)) (val (b l))) (seq 0 k)) (INR (2 * k) * eta0)) /\
  (is_finite (eval ti) = true ->
     (forall l, (l < k)%nat -> finite_c (a l) /\ finite_c (b l)) /\
     Rabs (B2R (eval ti) - lsum (fun l => Im (Cmult (val (a l)) (val (b l)))) (seq 0 k)) <=
       bound (cost ti) (lsum (fun l => mag_im (val (a l)) (val (b l))) (seq 0 k)) (INR (2 * k) * eta0)).
Proof. exact any_order_complex. Qed.
Print Assumptions C95_any_order_of_summation.

(** Four products added in order and in two blocks with fused operations: both meet the hypotheses, with different results. *)
Example C95_example_two_blocks :
  adds_up (two_blocks tenth third) (map (fun l => (tenth l, third l)) (seq 0 4)) /\ adds_up in_order (map (fun l => (tenth l, third l)) (seq 0 4)) /\
  is_finite (eval (two_blocks tenth third)) = true /\ is_finite (eval in_order) = true /\
  SpecFloat.SFeqb (B2SF (eval (two_blocks tenth third))) (B2SF (eval in_order)) = false /\
  cost (two_blocks tenth third) = 3%nat /\ cost in_order = 5%nat.
Proof. split; [apply two_blocks_adds|]. split; [apply in_order_adds|]. repeat split; vm_compute; reflexivity. Qed.
Example C95_example_complex :
  adds_up re_tree (re_terms 2 zs (fun l => zs (1 - l))) /\ adds_up im_tree (im_terms 2 zs (fun l => zs (1 - l))) /\
  is_finite (eval re_tree) = true /\ is_finite (eval im_tree) = true.
Proof. split; [apply re_tree_adds|]. split; [apply im_tree_adds|]. split; vm_compute; reflexivity. Qed.
