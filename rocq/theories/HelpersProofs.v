(** Facts about the helpers of Helpers.v *)
From Coq Require Import ZArith Reals Lra Lia Bool List.
From Coquelicot Require Import Complex.
From Flocq Require Import Core.Core IEEE754.BinarySingleNaN.
From Verif Require Import Arith Float64 LinAlg Descent Helpers.
Import ListNotations.
Local Open Scope R_scope.

(** ** linspace *)
Lemma linspace_ok A b e n : (0 <= n)%Z ->
  linspace A b e n = LOk (map (fun i => grid_entry A b e n (Z.of_nat i)) (seq 0 (Z.to_nat n))).
Proof. intros H. unfold linspace. destruct (Z.ltb_spec n 0); [lia|reflexivity]. Qed.

Lemma linspace_exact (b e : R) n : (0 <= n)%Z ->
  exists v, linspace Rarith b e n = LOk v /\ length v = Z.to_nat n /\
    (n = 1%Z -> v = [b]) /\
    ((2 <= n)%Z -> forall i, (i < Z.to_nat n)%nat ->
       nth_error v i = Some (b + INR i * ((e - b) / (IZR n - 1)))).
Proof.
  intros H. eexists. split; [apply linspace_ok; exact H|].
  split; [rewrite map_length, seq_length; reflexivity|]. split.
  - intros ->. change ([b + Rlit 0 1 * Rlit 0 1] = [b]). apply (f_equal (fun x : R => [x])). unfold Rlit. lra.
  - intros H2 i Hi. rewrite nth_error_map.
    assert (E : nth_error (seq 0 (Z.to_nat n)) i = Some i).
    { rewrite (nth_error_nth' _ 0%nat) by (rewrite seq_length; lia). rewrite seq_nth by lia. reflexivity. }
    rewrite E. cbn. f_equal. unfold grid_entry, grid_step.
    destruct (Z.ltb_spec 1 n); [|lia]. cbn. unfold Rlit. rewrite minus_IZR, <- INR_IZR_INZ.
    assert (IZR n <> 1). { intros E1. apply (eq_IZR n 1) in E1. lia. }
    field. lra.
Qed.

Lemma linspace_last (b e : R) n v : (2 <= n)%Z -> linspace Rarith b e n = LOk v ->
  nth_error v 0 = Some b /\ nth_error v (Z.to_nat n - 1) = Some e.
Proof.
  intros H E. destruct (linspace_exact b e n) as (w & Ew & _ & _ & Hw); [lia|].
  rewrite E in Ew. injection Ew as <-. specialize (Hw H).
  assert (IZR n <> 1). { intros E1. apply (eq_IZR n 1) in E1. lia. }
  rewrite !Hw by lia. split.
  - f_equal. cbn. lra.
  - f_equal. rewrite INR_IZR_INZ, Nat2Z.inj_sub, Z2Nat.id by lia. rewrite minus_IZR. cbn. field. lra.
Qed.

Lemma linspace_negative A b e n : (n < 0)%Z -> linspace A b e n = LLengthError.
Proof. intros H. unfold linspace. destruct (Z.ltb_spec n 0); [reflexivity|lia]. Qed.

Lemma fzero_mul (x : f64) : is_finite x = true -> exists s, fmul (fofZ 0) x = B754_zero s.
Proof. destruct x as [s| | |s m ex p]; cbn; intros H; try discriminate; eexists; reflexivity. Qed.
Lemma flit0 : flit 0 1 = B754_zero false.
Proof. apply B2SF_inj. vm_compute. reflexivity. Qed.
Lemma fzero_lit_mul (x : f64) : is_finite x = true -> exists s, fmul (flit 0 1) x = B754_zero s.
Proof. rewrite flit0. destruct x as [s| | |s m ex p]; cbn; intros H; try discriminate; eexists; reflexivity. Qed.
Lemma fadd_zero (x : f64) s : B2R (fadd x (B754_zero s)) = B2R x.
Proof. destruct x as [t|t| |t m ex p]; try reflexivity. destruct s, t; reflexivity. Qed.

Lemma linspace_first_f64 (b e : f64) n v :
  (1 <= n)%Z -> is_finite (grid_step F64 b e n) = true -> linspace F64 b e n = LOk v ->
  exists x, nth_error v 0 = Some x /\ B2R x = B2R b.
Proof.
  intros H F E. rewrite linspace_ok in E by lia. injection E as <-.
  destruct (Z.to_nat n) as [|k] eqn:K; [lia|]. cbn [seq map nth_error].
  eexists. split; [reflexivity|]. unfold grid_entry.
  change (aadd F64) with fadd. change (amul F64) with fmul. change (alit F64) with flit.
  change (Z.of_nat 0) with 0%Z.
  destruct (fzero_lit_mul _ F) as [s ->]. apply fadd_zero.
Qed.

(** fifty points between 0 and 1: the last one is the double below 1 *)
Definition unit_end : f64 := fofZ 1.
Definition unit_begin : f64 := fofZ 0.
Lemma fifty_points : exists v x, linspace F64 unit_begin unit_end 50 = LOk v /\
  nth_error v 49 = Some x /\ Bltb x unit_end = true.
Proof.
  do 2 eexists. split; [apply linspace_ok; lia|].
  split; [reflexivity|]. vm_compute. reflexivity.
Qed.
(** 2^1023: the distance of the ends overflows, and the first point is 0 * inf = NaN *)
Definition huge : f64 := fofZ (2 ^ 1023).
Lemma huge_grid : exists v x, linspace F64 (Bopp huge) huge 3 = LOk v /\
  nth_error v 0 = Some x /\ is_nan x = true.
Proof.
  do 2 eexists. split; [apply linspace_ok; lia|].
  split; [reflexivity|]. vm_compute. reflexivity.
Qed.
Lemma huge_finite : is_finite huge = true.
Proof. vm_compute. reflexivity. Qed.

(** ** flatten *)
Lemma push_all_app {T} (v out : list T) : push_all out v = out ++ v.
Proof.
  revert out. induction v as [|x v IH]; intros out; cbn; [rewrite app_nil_r; reflexivity|].
  unfold push_all in IH. rewrite IH, <- app_assoc. reflexivity.
Qed.
Lemma flatten_concat {T} (inp : list (list T)) : flatten inp = concat inp.
Proof.
  unfold flatten. assert (G : forall o, fold_left push_all inp o = o ++ concat inp).
  { induction inp as [|v l IH]; intros o; cbn; [rewrite app_nil_r; reflexivity|].
    rewrite IH, push_all_app, <- app_assoc. reflexivity. }
  exact (G []).
Qed.

(** ** check_overlap *)
Lemma cmult_conj_sq (z : C) : Re (Cmult z (Cconj z)) = Re z ^ 2 + Im z ^ 2.
Proof. destruct z as [a b]. cbn. ring. Qed.
Lemma innerh_tr_sq n m f : Re (innerh_tr n m f f) = rsumn n (fun i => rsumn m (fun j => Re (f i j) ^ 2 + Im (f i j) ^ 2)).
Proof.
  unfold innerh_tr. rewrite csum_Re. apply rsumn_ext. intros i _. rewrite csum_Re. apply rsumn_ext. intros j _.
  apply cmult_conj_sq.
Qed.
Lemma innerh_tr_nonneg n m f : 0 <= Re (innerh_tr n m f f).
Proof.
  rewrite innerh_tr_sq. apply rsumn_nonneg. intros i _. apply rsumn_nonneg. intros j _.
  generalize (pow2_ge_0 (Re (f i j))), (pow2_ge_0 (Im (f i j))). lra.
Qed.
Lemma innerh_tr_zero n m f : Re (innerh_tr n m f f) = 0 <-> forall i j, (i < n)%nat -> (j < m)%nat -> f i j = RtoC 0.
Proof.
  rewrite innerh_tr_sq. split.
  - intros H i j Hi Hj.
    assert (P : forall i j, 0 <= Re (f i j) ^ 2 + Im (f i j) ^ 2).
    { intros p q. generalize (pow2_ge_0 (Re (f p q))), (pow2_ge_0 (Im (f p q))). lra. }
    assert (H1 := rsumn_zero_terms n _ (fun i _ => rsumn_nonneg m _ (fun j _ => P i j)) H i Hi). cbn beta in H1.
    assert (H2 := rsumn_zero_terms m _ (fun j _ => P i j) H1 j Hj). cbn beta in H2.
    assert (R1 : Re (f i j) = 0) by nra. assert (I1 : Im (f i j) = 0) by nra.
    destruct (f i j) as [a b]. cbn in R1, I1. rewrite R1, I1. reflexivity.
  - intros H. apply rsumn_0. intros i Hi. apply rsumn_0. intros j Hj. rewrite (H i j Hi Hj). cbn. ring.
Qed.

Lemma sum_zero l : List.Forall (fun x => 0 <= x) l -> 0 <= fold_right Rplus 0 l /\ (fold_right Rplus 0 l = 0 <-> List.Forall (fun x => x = 0) l).
Proof.
  induction 1 as [|x l Hx Hl [IH0 IH]]; cbn.
  - split; [lra|]. split; constructor.
  - split; [lra|]. split.
    + intros H. assert (x = 0) by lra. constructor; [assumption|]. apply IH. lra.
    + intros H. inversion H; subst. rewrite (proj2 IH) by assumption. lra.
Qed.

Lemma l2norm_zero ks f : l2norm ks f = 0 <->
  List.Forall (fun k => forall i j, (i < kn k)%nat -> (j < km k)%nat -> f k i j = RtoC 0) ks.
Proof.
  unfold l2norm. set (l := map _ ks).
  assert (P : List.Forall (fun x => 0 <= x) l).
  { subst l. rewrite Forall_map. apply Forall_forall. intros k _. apply innerh_tr_nonneg. }
  destruct (sum_zero l P) as [S0 S1].
  assert (E : sqrt (fold_right Rplus 0 l) = 0 <-> fold_right Rplus 0 l = 0).
  { split; [apply sqrt_eq_0; exact S0|]. intros ->. apply sqrt_0. }
  rewrite E, S1. subst l. rewrite Forall_map. split; intros H; eapply Forall_impl; try exact H; intros k; cbn; apply innerh_tr_zero.
Qed.

Lemma deviation_zero x y i j : deviation x y i j = RtoC 0 <-> x i j = y i j.
Proof.
  unfold deviation, add. destruct (x i j) as [a b], (y i j) as [c d].
  split; intros H.
  - assert (H1 := f_equal fst H). assert (H2 := f_equal snd H). cbn in H1, H2.
    apply injective_projections; cbn; lra.
  - injection H as -> ->. apply injective_projections; cbn; lra.
Qed.

Lemma printed_zero ks : printed_error ks = 0 <->
  List.Forall (fun k => forall i j, (i < kn k)%nat -> (j < km k)%nat -> back_and_forth k i j = kX k i j) ks.
Proof.
  unfold printed_error. rewrite l2norm_zero.
  split; intros H; eapply Forall_impl; try exact H; intros k Hk i j Hi Hj; specialize (Hk i j Hi Hj);
  [apply deviation_zero in Hk; symmetry; exact Hk | apply deviation_zero; symmetry; exact Hk].
Qed.

(** ** The witness: the check is passed, the announced quantity is not small *)
Definition e1 : mat := fun i _ => RtoC (match i with O => 1 | _ => 0 end).
Definition twoby (a b c d : R) : mat :=
  fun i j => RtoC (match i, j with O, O => a | O, _ => b | _, O => c | _, _ => d end).
Definition S21 : mat := twoby 2 1 1 2.
Definition wrong_inverse : mat := twoby (5/8) (-1/4) (-1/4) (1/2).
Definition passing : kpoint := KPt 2 1 e1 S21 wrong_inverse.

Lemma passing_zero : printed_error [passing] = 0.
Proof.
  apply printed_zero. constructor; [|constructor]. cbn [kn km passing].
  intros i j Hi Hj. assert (j = 0)%nat by lia. subst j.
  destruct i as [|[|i]]; [| |lia]; unfold back_and_forth, passing, mmul, csum; cbn;
  apply injective_projections; cbn; lra.
Qed.
Lemma passing_other : forth_and_back passing 1%nat 0%nat = RtoC (1/8) /\ e1 1%nat 0%nat = RtoC 0.
Proof.
  split; [|reflexivity]. unfold forth_and_back, passing, mmul, csum; cbn. apply injective_projections; cbn; lra.
Qed.
Lemma twoby_hermitian a b d : forall i j, (i < 2)%nat -> (j < 2)%nat -> Cconj (twoby a b b d j i) = twoby a b b d i j.
Proof.
  intros i j Hi Hj. destruct i as [|[|]], j as [|[|]]; try lia; unfold twoby, Cconj, RtoC; cbn; f_equal; lra.
Qed.
Lemma message_wrong : exists (k : kpoint) (i j : nat),
  (forall p q, (p < kn k)%nat -> (q < kn k)%nat -> Cconj (kS k q p) = kS k p q) /\
  (forall p q, (p < kn k)%nat -> (q < kn k)%nat -> Cconj (kSi k q p) = kSi k p q) /\
  (i < kn k)%nat /\ (j < km k)%nat /\ printed_error [k] = 0 /\
  csum (kn k) (fun p => Cmult (kS k i p) (csum (kn k) (fun q => Cmult (kSi k p q) (kX k q j)))) <> kX k i j.
Proof.
  exists passing, 1%nat, 0%nat.
  split; [exact (twoby_hermitian 2 1 2)|]. split; [exact (twoby_hermitian (5/8) (-1/4) (1/2))|].
  split; [cbn; lia|]. split; [cbn; lia|]. split; [exact passing_zero|].
  destruct passing_other as [A B]. intros H.
  assert (E : RtoC (1/8) = RtoC 0) by (rewrite <- A, <- B; exact H).
  apply (f_equal fst) in E. cbn in E. lra.
Qed.
(** S = 1, S^-1 = 2 on one element *)
Definition doubled : kpoint := KPt 1 1 (fun _ _ => RtoC 1) (fun _ _ => RtoC 1) (fun _ _ => RtoC 2).
Lemma local_only : exists here there : list kpoint,
  printed_error here = 0 /\ printed_error (here ++ there) <> 0.
Proof.
  exists [passing], [doubled]. split; [exact passing_zero|]. intros H.
  apply printed_zero in H. inversion H as [|? ? _ H1]; subst. inversion H1 as [|? ? H2 _]; subst.
  specialize (H2 0%nat 0%nat ltac:(cbn; lia) ltac:(cbn; lia)).
  apply (f_equal fst) in H2. cbn in H2. lra.
Qed.
Lemma first_f64 (b e : f64) n v :
  (1 <= n)%Z -> (n = 1%Z \/ is_finite (fdiv (fsub e b) (flit (n - 1) 1)) = true) -> linspace F64 b e n = LOk v ->
  exists x, nth_error v 0 = Some x /\ B2R x = B2R b.
Proof.
  intros H F. apply linspace_first_f64; [exact H|]. unfold grid_step. destruct (Z.ltb_spec 1 n) as [L|L].
  - destruct F as [->|F]; [lia|exact F].
  - change (alit F64 0 1) with (flit 0 1). rewrite flit0. reflexivity.
Qed.
Lemma first_nan : exists (b e : f64) (n : Z) (v : list f64) (x : f64),
  is_finite b = true /\ is_finite e = true /\ linspace F64 b e n = LOk v /\
  nth_error v 0 = Some x /\ is_nan x = true.
Proof.
  destruct huge_grid as (v & x & H). exists (Bopp huge), huge, 3%Z, v, x.
  split; [rewrite is_finite_Bopp; exact huge_finite|]. split; [exact huge_finite|exact H].
Qed.
Lemma last_short : exists (b e : f64) (n : Z) (v : list f64) (x : f64),
  linspace F64 b e n = LOk v /\ nth_error v (Z.to_nat n - 1) = Some x /\ Bltb x e = true.
Proof. destruct fifty_points as (v & x & H). exists unit_begin, unit_end, 50%Z, v, x. exact H. Qed.
