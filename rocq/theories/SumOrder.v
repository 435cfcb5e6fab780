(** Sums over all k-points in binary64: sum(mvector), src/la/mvector.hpp 470-485, and Communicator::allreduce with
    mpi_op::sum, src/mpi/communicator.hpp 198-208.  dFdmu and dmu_deta (src/pseudo_hamiltonian/grad_eta.hpp 16-81) do the same by hand. *)
From Coq Require Import ZArith Reals Lra Lia Bool List Permutation Psatz.
From Flocq Require Import Core.Core Relative Plus_error IEEE754.BinarySingleNaN.
From Verif Require Import Arith Float64 ChemPotProofs CountError.
Import ListNotations.
Local Open Scope R_scope.
Local Notation bp := (bpow radix2).

(** "eval_t<T> sum = 0; for (auto& elem : x) sum += eval(elem.second);", mvector.hpp 480-483 *)
Definition local_sum (l : list f64) : f64 := fold_left fadd l (fofZ 0).
(** The order in which MPI_Allreduce adds the values of the ranks; MPI leaves it to the implementation.  A leaf is a rank
    with the values of its k-points in the order of their keys. *)
Inductive order := Rank (l : list f64) | Join (a b : order).
(** comm.allreduce(sum, mpi_op::sum), mvector.hpp 484 *)
Fixpoint reduced (t : order) : f64 := match t with Rank l => local_sum l | Join a b => fadd (reduced a) (reduced b) end.
(** all values that enter *)
Fixpoint entries (t : order) : list f64 := match t with Rank l => l | Join a b => entries a ++ entries b end.
(** the longest chain of additions *)
Fixpoint depth (t : order) : nat := match t with Rank l => length l | Join a b => S (Nat.max (depth a) (depth b)) end.
(** Specification: the sum without rounding, and the sum of the magnitudes. *)
Definition exact_sum (l : list f64) : R := fold_right Rplus 0 (map B2R l).
Definition magnitude (l : list f64) : R := fold_right Rplus 0 (map (fun x => Rabs (B2R x)) l).

Lemma exact_app l m : exact_sum (l ++ m) = exact_sum l + exact_sum m.
Proof. unfold exact_sum. induction l as [|x l IH]; cbn [app map fold_right]; [ring|rewrite IH; ring]. Qed.
Lemma magnitude_app l m : magnitude (l ++ m) = magnitude l + magnitude m.
Proof. unfold magnitude. induction l as [|x l IH]; cbn [app map fold_right]; [ring|rewrite IH; ring]. Qed.
Lemma magnitude_pos l : 0 <= magnitude l.
Proof. unfold magnitude. induction l as [|x l IH]; cbn [map fold_right]; [lra|]. pose proof (Rabs_pos (B2R x)). lra. Qed.
Lemma exact_magnitude l : Rabs (exact_sum l) <= magnitude l.
Proof.
  unfold exact_sum, magnitude. induction l as [|x l IH]; cbn [map fold_right]; [rewrite Rabs_R0; lra|].
  eapply Rle_trans; [apply Rabs_triang|]. lra.
Qed.
Lemma exact_perm l m : Permutation l m -> exact_sum l = exact_sum m.
Proof. unfold exact_sum. induction 1; cbn [map fold_right]; lra. Qed.
Lemma magnitude_perm l m : Permutation l m -> magnitude l = magnitude m.
Proof. unfold magnitude. induction 1; cbn [map fold_right]; lra. Qed.

Lemma fadd_finite (x y : f64) : is_finite (fadd x y) = true ->
  is_finite x = true /\ is_finite y = true /\ B2R (fadd x y) = rnd (B2R x + B2R y).
Proof.
  intros F. assert (FF : is_finite x = true /\ is_finite y = true).
  { destruct x as [sx|sx| |sx mx ex Bx], y as [sy|sy| |sy my ey By]; cbn in *; try (split; congruence).
    destruct (Bool.eqb sx sy); discriminate. }
  destruct FF as (Fx & Fy). split; [exact Fx|]. split; [exact Fy|].
  pose proof (Bplus_correct 53 1024 prec53 emax1024 mode_NE x y Fx Fy) as C. fold (fadd x y) in C.
  destruct (Rlt_bool _ _); [apply C|]. destruct C as (C & _).
  destruct (fadd x y); cbn in *; try discriminate; unfold binary_overflow in C; cbn in C; discriminate.
Qed.
Lemma fadd_no_overflow (x y : f64) : is_finite x = true -> is_finite y = true -> Rabs (rnd (B2R x + B2R y)) < bp 1024 ->
  is_finite (fadd x y) = true.
Proof.
  intros Fx Fy H. pose proof (Bplus_correct 53 1024 prec53 emax1024 mode_NE x y Fx Fy) as C. fold (fadd x y) in C.
  change (round_mode mode_NE) with ZnearestE in C. rewrite Rlt_bool_true in C by exact H. apply C.
Qed.

Lemma pow_ge1 n : 1 <= (1 + uu) ^ n.
Proof. pose proof uu_pos. apply pow_R1_Rle. lra. Qed.
Lemma pow_le_mono n m : (n <= m)%nat -> (1 + uu) ^ n <= (1 + uu) ^ m.
Proof. pose proof uu_pos. intros H'. apply Rle_pow; [lra|exact H']. Qed.

(** one addition *)
Lemma add_step (x y : f64) A B a b G : Rabs (B2R x - A) <= (G - 1) * a -> Rabs (B2R y - B) <= (G - 1) * b ->
  Rabs A <= a -> Rabs B <= b -> 1 <= G ->
  Rabs (rnd (B2R x + B2R y) - (A + B)) <= ((1 + uu) * G - 1) * (a + b).
Proof.
  intros Hx Hy HA HB HG. pose proof uu_pos as U. destruct (add_err x y) as (d & Hd & E). rewrite E.
  replace ((B2R x + B2R y) * (1 + d) - (A + B)) with ((B2R x - A) + (B2R y - B) + d * ((B2R x - A) + A + ((B2R y - B) + B))) by ring.
  set (p := B2R x - A) in *. set (q := B2R y - B) in *.
  assert (T1 : Rabs (p + q) <= (G - 1) * (a + b)) by (eapply Rle_trans; [apply Rabs_triang|lra]).
  assert (T2 : Rabs (p + A + (q + B)) <= G * (a + b)).
  { replace (p + A + (q + B)) with ((p + q) + (A + B)) by ring. eapply Rle_trans; [apply Rabs_triang|].
    pose proof (Rabs_triang A B). lra. }
  assert (T3 : Rabs (d * (p + A + (q + B))) <= uu * (G * (a + b))).
  { rewrite Rabs_mult. apply Rmult_le_compat; try apply Rabs_pos; assumption. }
  eapply Rle_trans; [apply Rabs_triang|]. nra.
Qed.

Lemma local_snoc l x : local_sum (l ++ [x]) = fadd (local_sum l) x.
Proof. unfold local_sum. rewrite fold_left_app. reflexivity. Qed.

Lemma rounded (S s A a G : R) : Rabs (s - A) <= (G - 1) * a -> Rabs A <= a -> Rabs s <= G * a.
Proof. intros H HA. replace s with ((s - A) + A) by ring. eapply Rle_trans; [apply Rabs_triang|]. lra. Qed.

Lemma local_error l : is_finite (local_sum l) = true ->
  Forall (fun x => is_finite x = true) l /\ Rabs (B2R (local_sum l) - exact_sum l) <= ((1 + uu) ^ length l - 1) * magnitude l.
Proof.
  induction l as [|x l IH] using rev_ind.
  - intros _. split; [constructor|]. unfold exact_sum, magnitude, local_sum. cbn [map fold_right fold_left length pow].
    change (B2R (fofZ 0)) with 0. rewrite Rminus_0_r, Rabs_R0. lra.
  - intros F. rewrite local_snoc in *. destruct (fadd_finite _ _ F) as (F1 & F2 & E). destruct (IH F1) as (Fl & B).
    split; [apply Forall_app; split; [exact Fl|constructor; [exact F2|constructor]]|].
    rewrite E, exact_app, magnitude_app, app_length. cbn [length]. rewrite Nat.add_1_r. cbn [pow].
    apply add_step; [exact B| |apply exact_magnitude|apply exact_magnitude|apply pow_ge1].
    unfold exact_sum, magnitude. cbn [map fold_right]. rewrite !Rplus_0_r, Rminus_eq_0, Rabs_R0.
    pose proof (pow_ge1 (length l)). pose proof (Rabs_pos (B2R x)). apply Rmult_le_pos; lra.
Qed.

Lemma raise e n m a : 0 <= a -> (n <= m)%nat -> Rabs e <= ((1 + uu) ^ n - 1) * a -> Rabs e <= ((1 + uu) ^ m - 1) * a.
Proof. intros Ha H B. pose proof (pow_le_mono n m H). eapply Rle_trans; [exact B|]. apply Rmult_le_compat_r; lra. Qed.

(** If the sum is finite then it was computed from finite numbers only, and its error is bounded. *)
Theorem reduced_error t : is_finite (reduced t) = true ->
  Forall (fun x => is_finite x = true) (entries t) /\
  Rabs (B2R (reduced t) - exact_sum (entries t)) <= ((1 + uu) ^ depth t - 1) * magnitude (entries t).
Proof.
  induction t as [l|a IHa b IHb]; cbn [reduced entries depth]; intros F; [apply local_error; exact F|].
  destruct (fadd_finite _ _ F) as (F1 & F2 & E). destruct (IHa F1) as (La & Ba), (IHb F2) as (Lb & Bb).
  split; [apply Forall_app; split; assumption|]. rewrite E, exact_app, magnitude_app. cbn [pow].
  apply add_step; [| |apply exact_magnitude|apply exact_magnitude|apply pow_ge1].
  - eapply raise; [apply magnitude_pos|apply Nat.le_max_l|exact Ba].
  - eapply raise; [apply magnitude_pos|apply Nat.le_max_r|exact Bb].
Qed.

Lemma local_finite l : Forall (fun x => is_finite x = true) l -> (1 + uu) ^ length l * magnitude l < bp 1024 ->
  is_finite (local_sum l) = true.
Proof.
  pose proof uu_pos as U. induction l as [|x l IH] using rev_ind; [reflexivity|]. intros F H. apply Forall_app in F. destruct F as (Fl & Fx). inversion Fx as [|? ? Fx' _]; subst.
  rewrite local_snoc. rewrite app_length, magnitude_app in H. cbn [length] in H. rewrite Nat.add_1_r in H. cbn [pow] in H.
  pose proof (pow_ge1 (length l)) as P. pose proof (magnitude_pos l) as Ml. pose proof (magnitude_pos [x]) as Mx.
  assert (H1 : (1 + uu) ^ length l * magnitude l < bp 1024).
  { eapply Rle_lt_trans; [|exact H]. apply Rle_trans with ((1 + uu) ^ length l * (magnitude l + magnitude [x])); [apply Rmult_le_compat_l; lra|].
    rewrite Rmult_assoc. pose proof (Rmult_le_pos ((1 + uu) ^ length l) (magnitude l + magnitude [x]) ltac:(lra) ltac:(lra)). nra. }
  specialize (IH Fl H1). apply fadd_no_overflow; [exact IH|exact Fx'|].
  pose proof (proj2 (local_error l IH)) as B.
  assert (S : Rabs (rnd (B2R (local_sum l) + B2R x) - (exact_sum l + exact_sum [x])) <= ((1 + uu) * (1 + uu) ^ length l - 1) * (magnitude l + magnitude [x])).
  { apply add_step; [exact B| |apply exact_magnitude|apply exact_magnitude|exact P].
    unfold exact_sum, magnitude. cbn [map fold_right]. rewrite !Rplus_0_r, Rminus_eq_0, Rabs_R0. pose proof (Rabs_pos (B2R x)). apply Rmult_le_pos; lra. }
  eapply Rle_lt_trans; [|exact H]. eapply (rounded 0); [exact S|].
  pose proof (exact_magnitude l). pose proof (exact_magnitude [x]). eapply Rle_trans; [apply Rabs_triang|]. lra.
Qed.

(** No overflow in any order if the magnitudes are far enough from the largest double. *)
Theorem reduced_finite t : Forall (fun x => is_finite x = true) (entries t) ->
  (1 + uu) ^ depth t * magnitude (entries t) < bp 1024 -> is_finite (reduced t) = true.
Proof.
  pose proof uu_pos as U. induction t as [l|a IHa b IHb]; cbn [reduced entries depth]; [apply local_finite|]. intros F H. apply Forall_app in F. destruct F as (Fa & Fb).
  rewrite magnitude_app in H. cbn [pow] in H. pose proof (magnitude_pos (entries a)) as Ma. pose proof (magnitude_pos (entries b)) as Mb.
  set (m := Nat.max (depth a) (depth b)) in *. pose proof (pow_ge1 m) as P.
  pose proof (pow_le_mono (depth a) m (Nat.le_max_l _ _)) as La. pose proof (pow_le_mono (depth b) m (Nat.le_max_r _ _)) as Lb.
  assert (K : (1 + uu) ^ m * (magnitude (entries a) + magnitude (entries b)) < bp 1024).
  { eapply Rle_lt_trans; [|exact H]. rewrite Rmult_assoc. pose proof (Rmult_le_pos ((1 + uu) ^ m) (magnitude (entries a) + magnitude (entries b)) ltac:(lra) ltac:(lra)). nra. }
  assert (Ga : is_finite (reduced a) = true).
  { apply IHa; [exact Fa|]. eapply Rle_lt_trans; [|exact K]. apply Rmult_le_compat; try lra. pose proof (pow_ge1 (depth a)). lra. }
  assert (Gb : is_finite (reduced b) = true).
  { apply IHb; [exact Fb|]. eapply Rle_lt_trans; [|exact K]. apply Rmult_le_compat; try lra. pose proof (pow_ge1 (depth b)). lra. }
  apply fadd_no_overflow; [exact Ga|exact Gb|].
  assert (S : Rabs (rnd (B2R (reduced a) + B2R (reduced b)) - (exact_sum (entries a) + exact_sum (entries b))) <=
    ((1 + uu) * (1 + uu) ^ m - 1) * (magnitude (entries a) + magnitude (entries b))).
  { apply add_step; [| |apply exact_magnitude|apply exact_magnitude|exact P].
    - eapply raise; [exact Ma|apply Nat.le_max_l|exact (proj2 (reduced_error a Ga))].
    - eapply raise; [exact Mb|apply Nat.le_max_r|exact (proj2 (reduced_error b Gb))]. }
  eapply Rle_lt_trans; [|exact H]. eapply (rounded 0); [exact S|].
  pose proof (exact_magnitude (entries a)). pose proof (exact_magnitude (entries b)). eapply Rle_trans; [apply Rabs_triang|]. lra.
Qed.

(** Two distributions of the same values. *)
Theorem orders_close t t' : Permutation (entries t) (entries t') -> is_finite (reduced t) = true -> is_finite (reduced t') = true ->
  Rabs (B2R (reduced t) - B2R (reduced t')) <= ((1 + uu) ^ depth t + (1 + uu) ^ depth t' - 2) * magnitude (entries t).
Proof.
  intros P F F'. pose proof (proj2 (reduced_error t F)) as B. pose proof (proj2 (reduced_error t' F')) as B'.
  rewrite <- (exact_perm _ _ P), <- (magnitude_perm _ _ P) in B'.
  replace (B2R (reduced t) - B2R (reduced t')) with ((B2R (reduced t) - exact_sum (entries t)) - (B2R (reduced t') - exact_sum (entries t))) by ring.
  eapply Rle_trans; [apply Rabs_triang|]. rewrite Rabs_Ropp. lra.
Qed.

(** The sign can be relied on if the exact sum exceeds the bound. *)
Theorem order_sign t : is_finite (reduced t) = true ->
  ((1 + uu) ^ depth t - 1) * magnitude (entries t) < Rabs (exact_sum (entries t)) ->
  (0 < B2R (reduced t) <-> 0 < exact_sum (entries t)) /\ (B2R (reduced t) < 0 <-> exact_sum (entries t) < 0).
Proof.
  intros F H. pose proof (proj2 (reduced_error t F)) as B. apply Rabs_le_inv in B.
  unfold Rabs in H. destruct (Rcase_abs (exact_sum (entries t))); split; split; intros; lra.
Qed.

(** ** Five k-points, on one rank and on two *)
Definition big : Z := 18014398509481984.   (* 2^54 *)
Definition one_rank : order := Rank [fofZ big; fofZ 3; fofZ 3; fofZ (- (big + 8)); fofZ 1].
Definition two_ranks : order := Join (Rank [fofZ big; fofZ (- (big + 8))]) (Rank [fofZ 3; fofZ 3; fofZ 1]).
Lemma same_entries : Permutation (entries one_rank) (entries two_ranks).
Proof.
  cbn [entries one_rank two_ranks app]. apply perm_skip.
  refine (Permutation_sym (Permutation_trans _ (Permutation_refl _))). exact (Permutation_middle [fofZ 3; fofZ 3] [fofZ 1] (fofZ (- (big + 8)))).
Qed.
Lemma one_rank_sum : reduced one_rank = fofZ 1. Proof. apply B2SF_inj. vm_compute. reflexivity. Qed.
Lemma two_ranks_sum : reduced two_ranks = fofZ (-1). Proof. apply B2SF_inj. vm_compute. reflexivity. Qed.
Lemma fofZ_small (z : Z) (m : positive) (e : Z) (s : bool) : B2SF (fofZ z) = SpecFloat.S754_finite s m e ->
  B2R (fofZ z) = F2R (Float radix2 (cond_Zopp s (Zpos m)) e).
Proof. intros H. destruct (fofZ z) as [| | |s' m' e' B]; cbn in H; try discriminate. injection H as -> -> ->. reflexivity. Qed.
Lemma one_rank_exact : exact_sum (entries one_rank) = -1.
Proof.
  unfold exact_sum. cbn [entries one_rank map fold_right].
  rewrite (fofZ_small big 4503599627370496 2 false) by (vm_compute; reflexivity).
  rewrite (fofZ_small 3 6755399441055744 (-51) false) by (vm_compute; reflexivity).
  rewrite (fofZ_small (- (big + 8)) 4503599627370498 2 true) by (vm_compute; reflexivity).
  rewrite (fofZ_small 1 4503599627370496 (-52) false) by (vm_compute; reflexivity).
  unfold F2R. cbn -[IZR]. lra.
Qed.
Lemma small_sum :
  let t := Join (Rank [fofZ 1; fofZ 2]) (Rank [fofZ (-1)]) in
  Forall (fun x => is_finite x = true) (entries t) /\ (1 + / 2 ^ 53) ^ depth t * magnitude (entries t) < bp 1024 /\
  is_finite (reduced t) = true /\ ((1 + / 2 ^ 53) ^ depth t - 1) * magnitude (entries t) < Rabs (exact_sum (entries t)).
Proof.
  cbv zeta. assert (E1 : B2R (fofZ 1) = 1).
  { rewrite (fofZ_small 1 4503599627370496 (-52) false) by (vm_compute; reflexivity). unfold F2R. cbn -[IZR]. lra. }
  assert (E2 : B2R (fofZ 2) = 2).
  { rewrite (fofZ_small 2 4503599627370496 (-51) false) by (vm_compute; reflexivity). unfold F2R. cbn -[IZR]. lra. }
  assert (E3 : B2R (fofZ (-1)) = -1).
  { rewrite (fofZ_small (-1) 4503599627370496 (-52) true) by (vm_compute; reflexivity). unfold F2R. cbn -[IZR]. lra. }
  assert (Ex : exact_sum [fofZ 1; fofZ 2; fofZ (-1)] = 2) by (unfold exact_sum; cbn [map fold_right]; rewrite E1, E2, E3; lra).
  assert (Em : magnitude [fofZ 1; fofZ 2; fofZ (-1)] = 4).
  { unfold magnitude; cbn [map fold_right]; rewrite E1, E2, E3. rewrite Rabs_R1, (Rabs_pos_eq 2), (Rabs_left (-1)) by lra. lra. }
  cbn [entries app depth length Nat.max]. rewrite Ex, Em. rewrite (Rabs_pos_eq 2) by lra.
  replace (/ 2 ^ 53) with uu by (unfold uu; f_equal; lra). pose proof uu_pos as U.
  assert (K : (1 + uu) ^ 3 - 1 < / 2) by (unfold uu; lra).
  split; [repeat (constructor; [vm_compute; reflexivity|]); constructor|]. split; [|split; [vm_compute; reflexivity|lra]].
  apply Rlt_le_trans with (bp 3); [cbn; lra|apply bpow_le; lia].
Qed.
