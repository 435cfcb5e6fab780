(** Rounding errors of the kernels of LapackMem.v and DeviceStep.v on pairs of binary64 numbers: inner, transform, outer, add
    (src/la/lapack_cpu.hpp 90-333), innerh_tr (src/la/lapack.hpp 252-327) and the slope made of its results
    (src/mvp2/descent_direction_impl.hpp 146-148, 196-198).
    Simplifications: those of LapackMem.v and DeviceStep.v.  In particular zgemm adds the products in ascending order, one
    rounding for every multiplication and addition; a BLAS that adds in another order or fuses operations has its own error. *)
From Coq Require Import ZArith Reals Lra Lia Arith Bool List Permutation.
From Flocq Require Import Core.Core IEEE754.BinarySingleNaN.
From Coquelicot Require Import Complex.
From Verif Require Import Arith Float64 LinAlg LapackMem LapackMemProofs LapackFloat CountError SumOrder StepMem DeviceStep NumStep.
From Verif Require Device.
Import ListNotations.
Local Open Scope R_scope.

(** ** Specification *)
(** the complex number held by a pair of doubles *)
Definition val (z : fc) : C := (B2R (fst z), B2R (snd z)).
Definition finite_c (z : fc) : Prop := is_finite (fst z) = true /\ is_finite (snd z) = true.
(** magnitudes of what is added up in the real and in the imaginary part of a product *)
Definition mag_re (x y : C) : R := Rabs (Re x) * Rabs (Re y) + Rabs (Im x) * Rabs (Im y).
Definition mag_im (x y : C) : R := Rabs (Re x) * Rabs (Im y) + Rabs (Im x) * Rabs (Re y).
(** relative error of n roundings on magnitude M, and n times the underflow h; [uu] = 2^-53, [eta0] = 2^-1075 *)
Definition bound (n : nat) (M h : R) : R := ((1 + uu) ^ n - 1) * M + (1 + uu) ^ n * h.
(** c is alpha sum_l a_l b_l + beta old up to rounding; a finite part of c was computed from finite numbers *)
Definition product_close (k : nat) (alpha beta : fc) (a b : nat -> fc) (old c : fc) : Prop :=
  let S := csum k (fun l => Cmult (val (a l)) (val (b l))) in
  let Z := Cplus (Cmult (val alpha) S) (Cmult (val beta) (val old)) in
  let sr := rsumn k (fun l => mag_re (val (a l)) (val (b l))) in
  let si := rsumn k (fun l => mag_im (val (a l)) (val (b l))) in
  let pr := Rabs (Re (val alpha)) in let pi := Rabs (Im (val alpha)) in
  let h := ((pr + pi) * (2 * INR k) + 4) * eta0 in
  (is_finite (fst c) = true -> finite_c alpha /\ (forall l, (l < k)%nat -> finite_c (a l) /\ finite_c (b l)) /\
     Rabs (B2R (fst c) - Re Z) <= bound (k + 5) (pr * sr + pi * si + mag_re (val beta) (val old)) h) /\
  (is_finite (snd c) = true -> finite_c alpha /\ (forall l, (l < k)%nat -> finite_c (a l) /\ finite_c (b l)) /\
     Rabs (B2R (snd c) - Im Z) <= bound (k + 5) (pr * si + pi * sr + mag_im (val beta) (val old)) h).
(** the conjugate *)
Definition fconj (z : fc) : fc := (fst z, Bopp (snd z)).
Lemma val_fconj z : val (fconj z) = Cconj (val z).
Proof. unfold val, fconj, Cconj. cbn [fst snd]. rewrite B2R_Bopp. reflexivity. Qed.

(** the bound in round figures: up to 2^52 roundings cost at most 2 n 2^-53 of the magnitude *)
Lemma bound_size n M h : INR n * uu <= / 2 -> 0 <= M -> 0 <= h -> bound n M h <= 2 * INR n * uu * M + 2 * h.
Proof.
  intros Hn HM Hh. pose proof uu_pos as U. unfold bound.
  assert (B : forall m, 1 - INR m * uu <= (1 - uu) ^ m).
  { induction m as [|m IH]; [cbn; lra|]. rewrite S_INR. cbn [pow]. pose proof (pow_le (1 - uu) m ltac:(lra)) as P. pose proof (pos_INR m) as Q.
    assert (0 <= INR m * uu * uu) by (apply Rmult_le_pos; [apply Rmult_le_pos|]; lra). nra. }
  assert (P : (1 + uu) ^ n * (1 - uu) ^ n <= 1).
  { rewrite <- Rpow_mult_distr. eapply Rle_trans; [apply (pow_incr _ 1); split; nra|rewrite pow1; lra]. }
  specialize (B n). pose proof (pow_ge1 n) as G. set (g := (1 + uu) ^ n) in *. set (q := INR n * uu) in *.
  assert (K : g * (1 - q) <= 1) by (eapply Rle_trans; [apply Rmult_le_compat_l; [lra|exact B]|exact P]).
  assert (q0 : 0 <= q) by (unfold q; apply Rmult_le_pos; [apply pos_INR|lra]).
  assert (g2 : g <= 2) by nra. assert (g1 : g - 1 <= 2 * q) by nra.
  replace (2 * INR n * uu * M) with (2 * q * M) by (unfold q; ring). apply Rplus_le_compat; apply Rmult_le_compat_r; assumption.
Qed.

(** ** One operation *)
Lemma fmul_finite (x y : f64) : is_finite (fmul x y) = true ->
  is_finite x = true /\ is_finite y = true /\ B2R (fmul x y) = rnd (B2R x * B2R y).
Proof.
  intros F. assert (FF : is_finite x = true /\ is_finite y = true).
  { destruct x as [sx|sx| |sx mx ex Bx], y as [sy|sy| |sy my ey By]; cbn in *; split; congruence. }
  destruct FF as (Fx & Fy). split; [exact Fx|]. split; [exact Fy|].
  pose proof (Bmult_correct 53 1024 prec53 emax1024 mode_NE x y) as C. fold (fmul x y) in C.
  destruct (Rlt_bool _ _); [apply C|]. destruct (fmul x y); cbn in *; try discriminate; unfold binary_overflow in C; cbn in C; discriminate.
Qed.
Lemma fsub_finite (x y : f64) : is_finite (fsub x y) = true ->
  is_finite x = true /\ is_finite y = true /\ B2R (fsub x y) = rnd (B2R x - B2R y).
Proof.
  intros F. assert (FF : is_finite x = true /\ is_finite y = true).
  { destruct x as [sx|sx| |sx mx ex Bx], y as [sy|sy| |sy my ey By]; cbn in *; try (split; congruence).
    destruct (Bool.eqb sx (negb sy)); discriminate. }
  destruct FF as (Fx & Fy). split; [exact Fx|]. split; [exact Fy|].
  pose proof (Bminus_correct 53 1024 prec53 emax1024 mode_NE x y Fx Fy) as C. fold (fsub x y) in C.
  destruct (Rlt_bool _ _); [apply C|]. destruct C as (C & _).
  destruct (fsub x y); cbn in *; try discriminate; unfold binary_overflow in C; cbn in C; discriminate.
Qed.
Lemma eta0_pos : 0 < eta0. Proof. apply bpow_gt_0. Qed.

(** x is X, of magnitude a, after at most n roundings and with underflow h *)
Definition acc (n : nat) (a h : R) (x X : R) : Prop := Rabs (x - X) <= bound n a h /\ Rabs X <= a /\ 0 <= h.
Lemma acc_exact n (x : R) : acc n (Rabs x) 0 x x.
Proof.
  unfold acc, bound. rewrite Rminus_eq_0, Rabs_R0. pose proof (pow_ge1 n). pose proof (Rabs_pos x).
  split; [|split; lra]. assert (0 <= ((1 + uu) ^ n - 1) * Rabs x) by (apply Rmult_le_pos; lra). lra.
Qed.
Lemma acc_raise n m a b h g x X : (n <= m)%nat -> a <= b -> h <= g -> acc n a h x X -> acc m b g x X.
Proof.
  intros L A H (E & M & P). unfold acc, bound in *. pose proof (pow_le_mono n m L) as Q. pose proof (pow_ge1 n). pose proof (Rabs_pos X).
  split; [|split; lra]. eapply Rle_trans; [exact E|]. apply Rplus_le_compat; (apply Rmult_le_compat; lra).
Qed.
Lemma acc_mag n a h x X : acc n a h x X -> Rabs x <= (1 + uu) ^ n * (a + h).
Proof.
  intros (E & M & P). unfold bound in E. replace x with ((x - X) + X) by ring. eapply Rle_trans; [apply Rabs_triang|]. lra.
Qed.
Lemma acc_sum n a b h g (x y X Y d : R) : acc n a h x X -> acc n b g y Y -> Rabs d <= uu ->
  acc (S n) (a + b) (h + g) ((x + y) * (1 + d)) (X + Y).
Proof.
  intros Ax Ay D. pose proof (acc_mag _ _ _ _ _ Ax) as Mx. pose proof (acc_mag _ _ _ _ _ Ay) as My.
  destruct Ax as (Ex & Xx & Hx). destruct Ay as (Ey & Yy & Hy). unfold acc, bound in *. cbn [pow]. set (G := (1 + uu) ^ n) in *.
  pose proof (Rabs_triang X Y). split; [|split; lra].
  replace ((x + y) * (1 + d) - (X + Y)) with ((x - X) + (y - Y) + d * (x + y)) by ring.
  assert (T : Rabs (d * (x + y)) <= uu * (G * (a + h) + G * (b + g))).
  { rewrite Rabs_mult. apply Rmult_le_compat; try apply Rabs_pos; [exact D|]. eapply Rle_trans; [apply Rabs_triang|]. lra. }
  eapply Rle_trans; [apply Rabs_triang|]. pose proof (Rabs_triang (x - X) (y - Y)). lra.
Qed.
Lemma acc_add n a b h g (x y : f64) X Y : is_finite (fadd x y) = true -> acc n a h (B2R x) X -> acc n b g (B2R y) Y ->
  acc (S n) (a + b) (h + g) (B2R (fadd x y)) (X + Y).
Proof.
  intros F Ax Ay. destruct (fadd_finite x y F) as (_ & _ & E). rewrite E. destruct (add_err x y) as (d & D & K). rewrite K. apply acc_sum; assumption.
Qed.
Lemma acc_opp n a h x X : acc n a h x X -> acc n a h (- x) (- X).
Proof. unfold acc. intros (E & M & P). rewrite Rabs_Ropp. replace (- x - - X) with (- (x - X)) by ring. rewrite Rabs_Ropp. auto. Qed.
Lemma acc_sub n a b h g (x y : f64) X Y : is_finite (fsub x y) = true -> acc n a h (B2R x) X -> acc n b g (B2R y) Y ->
  acc (S n) (a + b) (h + g) (B2R (fsub x y)) (X - Y).
Proof.
  intros F Ax Ay. destruct (fsub_finite x y F) as (_ & _ & E). rewrite E. destruct (add_err x (Bopp y)) as (d & D & K).
  rewrite B2R_Bopp in K. unfold Rminus. rewrite K. apply acc_sum; [exact Ax|apply acc_opp; exact Ay|exact D].
Qed.
(** a product with a number that is exact *)
Lemma acc_scale n a h (c x : f64) X : is_finite (fmul c x) = true -> acc n a h (B2R x) X ->
  acc (S n) (Rabs (B2R c) * a) (Rabs (B2R c) * h + eta0) (B2R (fmul c x)) (B2R c * X).
Proof.
  intros F A. destruct (fmul_finite c x F) as (_ & _ & E). rewrite E. destruct (mul_err (B2R c * B2R x)) as (d & t & D & T & K). rewrite K.
  pose proof (acc_mag _ _ _ _ _ A) as M. destruct A as (Ex & Xx & Hx). unfold acc, bound in *. cbn [pow]. set (G := (1 + uu) ^ n) in *.
  pose proof (Rabs_pos (B2R c)) as Pc. pose proof eta0_pos. pose proof uu_pos. pose proof (pow_ge1 n) as G1. fold G in G1.
  split; [|split].
  - replace (B2R c * B2R x * (1 + d) + t - B2R c * X) with (B2R c * (B2R x - X) + d * (B2R c * B2R x) + t) by ring.
    assert (T1 : Rabs (B2R c * (B2R x - X)) <= Rabs (B2R c) * ((G - 1) * a + G * h)).
    { rewrite Rabs_mult. apply Rmult_le_compat_l; [exact Pc|exact Ex]. }
    assert (T2 : Rabs (d * (B2R c * B2R x)) <= uu * (Rabs (B2R c) * (G * (a + h)))).
    { rewrite Rabs_mult. apply Rmult_le_compat; try apply Rabs_pos; [exact D|]. rewrite Rabs_mult. apply Rmult_le_compat_l; [exact Pc|exact M]. }
    assert (T3 : eta0 <= (1 + uu) * G * eta0).
    { rewrite <- (Rmult_1_l eta0) at 1. apply Rmult_le_compat_r; [lra|]. nra. }
    eapply Rle_trans; [apply Rabs_triang|]. eapply Rle_trans; [apply Rplus_le_compat; [apply Rabs_triang|exact T]|]. lra.
  - rewrite Rabs_mult. apply Rmult_le_compat_l; [exact Pc|exact Xx].
  - assert (0 <= Rabs (B2R c) * h) by (apply Rmult_le_pos; lra). lra.
Qed.

(** ** Complex products *)
Lemma finf_times (x : f64) : is_finite (fmul finf x) = false.
Proof. destruct x; reflexivity. Qed.
(** the recovery of infinities does not produce finite numbers *)
Lemma muldc3_fst p q : is_finite (fst (muldc3 p q)) = true -> fst (muldc3 p q) = fst (kokmul p q).
Proof.
  destruct p as [a b], q as [c d]. unfold muldc3, kokmul.
  set (x := fsub (fmul a c) (fmul b d)). set (y := fadd (fmul a d) (fmul b c)). destruct (is_nan x && is_nan y)%bool; [|reflexivity].
  repeat match goal with |- context [match ?e with _ => _ end] => destruct e end; cbn [fst]; rewrite ?finf_times; try discriminate; reflexivity.
Qed.
Lemma muldc3_snd p q : is_finite (snd (muldc3 p q)) = true -> snd (muldc3 p q) = snd (kokmul p q).
Proof.
  destruct p as [a b], q as [c d]. unfold muldc3, kokmul.
  set (x := fsub (fmul a c) (fmul b d)). set (y := fadd (fmul a d) (fmul b c)). destruct (is_nan x && is_nan y)%bool; [|reflexivity].
  repeat match goal with |- context [match ?e with _ => _ end] => destruct e end; cbn [snd]; rewrite ?finf_times; try discriminate; reflexivity.
Qed.
(** both parts of q approximate those of Q *)
Definition acc_c (n : nat) (ar ai h : R) (q : fc) (Q : C) : Prop := acc n ar h (B2R (fst q)) (Re Q) /\ acc n ai h (B2R (snd q)) (Im Q).
Lemma acc_c_exact n q : acc_c n (Rabs (Re (val q))) (Rabs (Im (val q))) 0 q (val q).
Proof. split; apply acc_exact. Qed.
(** kokmul p q with p exact *)
Lemma kok_fst n ar ai h (p q : fc) Q : is_finite (fst (kokmul p q)) = true ->
  finite_c p /\ finite_c q /\
  (acc_c n ar ai h q Q -> acc (S (S n)) (Rabs (Re (val p)) * ar + Rabs (Im (val p)) * ai) ((Rabs (Re (val p)) + Rabs (Im (val p))) * h + 2 * eta0)
    (B2R (fst (kokmul p q))) (Re (Cmult (val p) Q))).
Proof.
  destruct p as [a b], q as [c d]. cbn [kokmul fst snd]. intros F. destruct (fsub_finite _ _ F) as (F1 & F2 & _).
  destruct (fmul_finite _ _ F1) as (fa & fc' & _). destruct (fmul_finite _ _ F2) as (fb & fd & _).
  split; [split; assumption|]. split; [split; assumption|]. intros (A1 & A2). cbn [fst snd] in A1, A2.
  pose proof (acc_sub _ _ _ _ _ _ _ _ _ F (acc_scale _ _ _ _ _ _ F1 A1) (acc_scale _ _ _ _ _ _ F2 A2)) as G.
  eapply acc_raise; [apply Nat.le_refl|apply Rle_refl| |exact G]. unfold val, Re, Im. cbn [fst snd]. lra.
Qed.
Lemma kok_snd n ar ai h (p q : fc) Q : is_finite (snd (kokmul p q)) = true ->
  finite_c p /\ finite_c q /\
  (acc_c n ar ai h q Q -> acc (S (S n)) (Rabs (Re (val p)) * ai + Rabs (Im (val p)) * ar) ((Rabs (Re (val p)) + Rabs (Im (val p))) * h + 2 * eta0)
    (B2R (snd (kokmul p q))) (Im (Cmult (val p) Q))).
Proof.
  destruct p as [a b], q as [c d]. cbn [kokmul fst snd]. intros F. destruct (fadd_finite _ _ F) as (F1 & F2 & _).
  destruct (fmul_finite _ _ F1) as (fa & fd & _). destruct (fmul_finite _ _ F2) as (fb & fc' & _).
  split; [split; assumption|]. split; [split; assumption|]. intros (A1 & A2). cbn [fst snd] in A1, A2.
  pose proof (acc_add _ _ _ _ _ _ _ _ _ F (acc_scale _ _ _ _ _ _ F1 A2) (acc_scale _ _ _ _ _ _ F2 A1)) as G.
  eapply acc_raise; [apply Nat.le_refl|apply Rle_refl| |exact G]. unfold val, Re, Im. cbn [fst snd]. lra.
Qed.

(** ** Sums of products *)
Section Sum.
  Context (mul : fc -> fc -> fc).
  Hypothesis Hfst : forall p q, is_finite (fst (mul p q)) = true -> fst (mul p q) = fst (kokmul p q).
  Hypothesis Hsnd : forall p q, is_finite (snd (mul p q)) = true -> snd (mul p q) = snd (kokmul p q).
  Context (a b : nat -> fc).
  Let s := esum (E := Felt).
  Let f (l : nat) : fc := mul (a l) (b l).
  Lemma esum_fst k : is_finite (fst (s k f)) = true ->
    (forall l, (l < k)%nat -> finite_c (a l) /\ finite_c (b l)) /\
    acc (k + 2) (rsumn k (fun l => mag_re (val (a l)) (val (b l)))) (INR k * (2 * eta0)) (B2R (fst (s k f)))
      (Re (csum k (fun l => Cmult (val (a l)) (val (b l))))).
  Proof.
    induction k as [|k IH]; intros F.
    - split; [intros l H; lia|]. cbn [rsumn csum]. change (B2R (fst (s 0%nat f))) with 0. change (Re (RtoC 0)) with 0.
      pose proof (acc_exact (0 + 2) 0) as G. rewrite Rabs_R0 in G. eapply acc_raise; [apply Nat.le_refl|apply Rle_refl| |exact G]. cbn. lra.
    - change (fst (s (S k) f)) with (fadd (fst (s k f)) (fst (f k))) in *. destruct (fadd_finite _ _ F) as (F1 & F2 & _).
      destruct (IH F1) as (I1 & I2). change (f k) with (mul (a k) (b k)) in *. pose proof (Hfst _ _ F2) as e. rewrite e in F, F2 |- *.
      destruct (kok_fst 0 (Rabs (Re (val (b k)))) (Rabs (Im (val (b k)))) 0 (a k) (b k) (val (b k)) F2) as (P1 & P2 & P3).
      split; [intros l H; destruct (Nat.eq_dec l k) as [->|]; [split; assumption|apply I1; lia]|].
      specialize (P3 (acc_c_exact 0 (b k))). cbn [rsumn csum]. cbn [Nat.add].
      match goal with |- context [Re (Cplus ?u ?v)] => change (Re (Cplus u v)) with (Re u + Re v) end.
      assert (R1 : acc (k + 2) (mag_re (val (a k)) (val (b k))) (2 * eta0) (B2R (fst (kokmul (a k) (b k)))) (Re (Cmult (val (a k)) (val (b k))))).
      { eapply acc_raise; [| | |exact P3]; [lia|apply Rle_refl|lra]. }
      pose proof (acc_add _ _ _ _ _ _ _ _ _ F I2 R1) as G. eapply acc_raise; [apply Nat.le_refl|apply Rle_refl| |exact G]. rewrite S_INR. lra.
  Qed.
  Lemma esum_snd k : is_finite (snd (s k f)) = true ->
    (forall l, (l < k)%nat -> finite_c (a l) /\ finite_c (b l)) /\
    acc (k + 2) (rsumn k (fun l => mag_im (val (a l)) (val (b l)))) (INR k * (2 * eta0)) (B2R (snd (s k f)))
      (Im (csum k (fun l => Cmult (val (a l)) (val (b l))))).
  Proof.
    induction k as [|k IH]; intros F.
    - split; [intros l H; lia|]. cbn [rsumn csum]. change (B2R (snd (s 0%nat f))) with 0. change (Im (RtoC 0)) with 0.
      pose proof (acc_exact (0 + 2) 0) as G. rewrite Rabs_R0 in G. eapply acc_raise; [apply Nat.le_refl|apply Rle_refl| |exact G]. cbn. lra.
    - change (snd (s (S k) f)) with (fadd (snd (s k f)) (snd (f k))) in *. destruct (fadd_finite _ _ F) as (F1 & F2 & _).
      destruct (IH F1) as (I1 & I2). change (f k) with (mul (a k) (b k)) in *. pose proof (Hsnd _ _ F2) as e. rewrite e in F, F2 |- *.
      destruct (kok_snd 0 (Rabs (Re (val (b k)))) (Rabs (Im (val (b k)))) 0 (a k) (b k) (val (b k)) F2) as (P1 & P2 & P3).
      split; [intros l H; destruct (Nat.eq_dec l k) as [->|]; [split; assumption|apply I1; lia]|].
      specialize (P3 (acc_c_exact 0 (b k))). cbn [rsumn csum]. cbn [Nat.add].
      match goal with |- context [Im (Cplus ?u ?v)] => change (Im (Cplus u v)) with (Im u + Im v) end.
      assert (R1 : acc (k + 2) (mag_im (val (a k)) (val (b k))) (2 * eta0) (B2R (snd (kokmul (a k) (b k)))) (Im (Cmult (val (a k)) (val (b k))))).
      { eapply acc_raise; [| | |exact P3]; [lia|apply Rle_refl|lra]. }
      pose proof (acc_add _ _ _ _ _ _ _ _ _ F I2 R1) as G. eapply acc_raise; [apply Nat.le_refl|apply Rle_refl| |exact G]. rewrite S_INR. lra.
  Qed.
End Sum.

(** ** Elements of products *)
Lemma feq0_val (x : f64) : feq0 x = true -> B2R x = 0.
Proof. unfold feq0, fzero. destruct x as [s|s| |s m e h]; try discriminate; [reflexivity|destruct s; discriminate|destruct s; discriminate]. Qed.
Lemma axpby_close k (alpha beta : fc) (a b : nat -> fc) (old : fc) :
  product_close k alpha beta a b old (axpby (E := Felt) alpha (esum (E := Felt) k (fun l => emul Felt (a l) (b l))) beta old).
Proof.
  unfold product_close. set (s := esum (E := Felt) k (fun l => emul Felt (a l) (b l)) : fc). cbv zeta.
  set (S0 := csum k (fun l => Cmult (val (a l)) (val (b l)))).
  set (sr := rsumn k (fun l => mag_re (val (a l)) (val (b l)))). set (si := rsumn k (fun l => mag_im (val (a l)) (val (b l)))).
  pose proof eta0_pos as P0.
  assert (AS : finite_c s -> (forall l, (l < k)%nat -> finite_c (a l) /\ finite_c (b l)) /\ acc_c (k + 2) sr si (INR k * (2 * eta0)) s S0).
  { intros (F1 & F2). destruct (esum_fst muldc3 muldc3_fst a b k F1) as (G1 & G2). destruct (esum_snd muldc3 muldc3_snd a b k F2) as (_ & G3).
    split; [exact G1|]. split; assumption. }
  assert (MS : forall z : fc, is_finite (fst (muldc3 alpha s)) = true -> finite_c alpha /\ (forall l, (l < k)%nat -> finite_c (a l) /\ finite_c (b l)) /\
    acc (k + 4) (Rabs (Re (val alpha)) * sr + Rabs (Im (val alpha)) * si)
      ((Rabs (Re (val alpha)) + Rabs (Im (val alpha))) * (INR k * (2 * eta0)) + 2 * eta0) (B2R (fst (muldc3 alpha s))) (Re (Cmult (val alpha) S0))).
  { intros _ F. pose proof (muldc3_fst _ _ F) as e. rewrite e in F |- *. destruct (kok_fst (k + 2) sr si (INR k * (2 * eta0)) alpha s S0 F) as (G1 & G2 & G3).
    destruct (AS G2) as (H1 & H2). split; [exact G1|]. split; [exact H1|]. replace (k + 4)%nat with (S (S (k + 2))) by lia. apply G3. exact H2. }
  assert (MT : is_finite (snd (muldc3 alpha s)) = true -> finite_c alpha /\ (forall l, (l < k)%nat -> finite_c (a l) /\ finite_c (b l)) /\
    acc (k + 4) (Rabs (Re (val alpha)) * si + Rabs (Im (val alpha)) * sr)
      ((Rabs (Re (val alpha)) + Rabs (Im (val alpha))) * (INR k * (2 * eta0)) + 2 * eta0) (B2R (snd (muldc3 alpha s))) (Im (Cmult (val alpha) S0))).
  { intros F. pose proof (muldc3_snd _ _ F) as e. rewrite e in F |- *. destruct (kok_snd (k + 2) sr si (INR k * (2 * eta0)) alpha s S0 F) as (G1 & G2 & G3).
    destruct (AS G2) as (H1 & H2). split; [exact G1|]. split; [exact H1|]. replace (k + 4)%nat with (S (S (k + 2))) by lia. apply G3. exact H2. }
  specialize (MS old).
  change (Re (Cplus ?u ?v)) with (Re u + Re v). change (Im (Cplus ?u ?v)) with (Im u + Im v).
  unfold axpby. destruct (eis0 Felt beta) eqn:Z.
  - change (emul Felt alpha s) with (muldc3 alpha s). cbn [eis0 Felt] in Z. apply andb_prop in Z. destruct Z as (z1 & z2). apply feq0_val in z1, z2.
    assert (VB : val beta = RtoC 0) by (unfold val; rewrite z1, z2; reflexivity).
    assert (m0 : mag_re (val beta) (val old) = 0) by (rewrite VB; unfold mag_re, Re, Im, RtoC; cbn [fst snd]; rewrite Rabs_R0; ring).
    assert (m1 : mag_im (val beta) (val old) = 0) by (rewrite VB; unfold mag_im, Re, Im, RtoC; cbn [fst snd]; rewrite Rabs_R0; ring).
    assert (v0 : Re (Cmult (val beta) (val old)) = 0) by (rewrite VB; unfold Cmult, Re, RtoC; cbn [fst snd]; ring).
    assert (v1 : Im (Cmult (val beta) (val old)) = 0) by (rewrite VB; unfold Cmult, Im, RtoC; cbn [fst snd]; ring).
    rewrite m0, m1, v0, v1, !Rplus_0_r. split; intros F.
    + destruct (MS F) as (G1 & G2 & G3). split; [exact G1|]. split; [exact G2|].
      eapply (acc_raise _ (k + 5)) in G3; [apply G3|lia|apply Rle_refl|lra].
    + destruct (MT F) as (G1 & G2 & G3). split; [exact G1|]. split; [exact G2|].
      eapply (acc_raise _ (k + 5)) in G3; [apply G3|lia|apply Rle_refl|lra].
  - change (eadd Felt (emul Felt alpha s) (emul Felt beta old)) with
      ((fadd (fst (muldc3 alpha s)) (fst (muldc3 beta old)), fadd (snd (muldc3 alpha s)) (snd (muldc3 beta old))) : fc). cbn [fst snd].
    split; intros F; destruct (fadd_finite _ _ F) as (F1 & F2 & _).
    + destruct (MS F1) as (G1 & G2 & G3). split; [exact G1|]. split; [exact G2|]. pose proof (muldc3_fst _ _ F2) as e. rewrite e in F, F2 |- *.
      destruct (kok_fst 0 (Rabs (Re (val old))) (Rabs (Im (val old))) 0 beta old (val old) F2) as (_ & _ & K). specialize (K (acc_c_exact 0 old)).
      eapply (acc_raise _ (k + 4)) in K; [|lia|apply Rle_refl|apply Rle_refl].
      pose proof (acc_add _ _ _ _ _ _ _ _ _ F G3 K) as G. eapply (acc_raise _ (k + 5)) in G; [apply G|lia|apply Rle_refl|lra].
    + destruct (MT F1) as (G1 & G2 & G3). split; [exact G1|]. split; [exact G2|]. pose proof (muldc3_snd _ _ F2) as e. rewrite e in F, F2 |- *.
      destruct (kok_snd 0 (Rabs (Re (val old))) (Rabs (Im (val old))) 0 beta old (val old) F2) as (_ & _ & K). specialize (K (acc_c_exact 0 old)).
      eapply (acc_raise _ (k + 4)) in K; [|lia|apply Rle_refl|apply Rle_refl].
      pose proof (acc_add _ _ _ _ _ _ _ _ _ F G3 K) as G. eapply (acc_raise _ (k + 5)) in G; [apply G|lia|apply Rle_refl|lra].
Qed.

(** inner, transform, outer: every element of the result *)
Theorem inner_close order (Cv A B : view Felt) (alpha beta : fc) :
  Permutation order (pairs (vcols A) (vcols B)) -> local3 A B Cv -> col_major A -> col_major B -> col_major Cv ->
  allocated A -> allocated B -> allocated Cv -> vrows B = vrows A -> vrows Cv = vcols A -> vcols Cv = vcols B ->
  exists C', inner order Cv A B (alpha : ev Felt) (beta : ev Felt) = KOk C' /\
    forall i j, (i < vcols A)%nat -> (j < vcols B)%nat ->
    product_close (vrows A) alpha beta (fun l => fconj (vat A l i)) (fun l => vat B l j) (vat Cv i j) (vat C' i j).
Proof.
  intros P L a b c hA hB hC s1 s2 s3. destruct (inner_ok order Cv A B alpha beta P L a b c hA hB hC s1 s2 s3) as [C' [R Q]].
  exists C'. split; [exact R|]. intros i j Hi Hj. destruct Q as (q1 & q2 & q3 & q4 & q5 & q6 & q7 & q8).
  replace (vat C' i j) with (bget (vbuf C') (i * vs0 Cv + j * vs1 Cv)%nat) by (unfold vat, addr; rewrite q3, q4; reflexivity).
  rewrite q7 by (rewrite ?s2, ?s3; assumption). apply (axpby_close (vrows A) alpha beta (fun l => fconj (vat A l i)) (fun l => vat B l j)).
Qed.
Theorem transform_close order (Cv A B : view Felt) (alpha beta : fc) :
  Permutation order (pairs (vrows A) (vcols B)) -> local3 A B Cv -> col_major A -> col_major B -> col_major Cv ->
  allocated A -> allocated B -> allocated Cv -> vrows B = vcols A -> vrows Cv = vrows A -> (vcols B <= vcols Cv)%nat ->
  exists C', transform order Cv (beta : ev Felt) (alpha : ev Felt) A B = KOk C' /\
    forall i j, (i < vrows A)%nat -> (j < vcols B)%nat ->
    product_close (vcols A) alpha beta (fun l => vat A i l) (fun l => vat B l j) (vat Cv i j) (vat C' i j).
Proof.
  intros P L a b c hA hB hC s1 s2 s3. destruct (transform_ok order Cv A B alpha beta P L a b c hA hB hC s1 s2 s3) as [C' [R Q]].
  exists C'. split; [exact R|]. intros i j Hi Hj. destruct Q as (q1 & q2 & q3 & q4 & q5 & q6 & q7 & q8).
  replace (vat C' i j) with (bget (vbuf C') (i * vs0 Cv + j * vs1 Cv)%nat) by (unfold vat, addr; rewrite q3, q4; reflexivity).
  rewrite q7 by (rewrite ?s2; assumption). apply (axpby_close (vcols A) alpha beta (fun l => vat A i l) (fun l => vat B l j)).
Qed.
Theorem outer_close order (Cv A B : view Felt) (alpha beta : fc) :
  Permutation order (pairs (vcols A) (vcols B)) -> local3 A B Cv -> col_major A -> col_major B -> col_major Cv ->
  allocated A -> allocated B -> allocated Cv -> vrows A = vcols A -> vrows B = vcols A -> vcols B = vcols A -> vrows Cv = vcols A -> vcols Cv = vcols A ->
  exists C', outer order Cv A B (alpha : ev Felt) (beta : ev Felt) = KOk C' /\
    forall i j, (i < vcols A)%nat -> (j < vcols A)%nat ->
    product_close (vcols A) alpha beta (fun l => vat A i l) (fun l => fconj (vat B j l)) (vat Cv i j) (vat C' i j).
Proof.
  intros P L a b c hA hB hC s1 s2 s3 s4 s5. destruct (outer_square order Cv A B alpha beta P L a b c hA hB hC s1 s2 s3 s4 s5) as [C' [R Q]].
  exists C'. split; [exact R|]. intros i j Hi Hj. destruct Q as (q1 & q2 & q3 & q4 & q5 & q6 & q7 & q8).
  replace (vat C' i j) with (bget (vbuf C') (i * vs0 Cv + j * vs1 Cv)%nat) by (unfold vat, addr; rewrite q3, q4; reflexivity).
  rewrite q7 by (rewrite ?s4, ?s5; assumption). apply (axpby_close (vcols A) alpha beta (fun l => vat A i l) (fun l => fconj (vat B j l))).
Qed.

(** ** innerh_tr *)
(** Specification: the real part of sum_ij x_ij conj(y_ij), and the sum of the magnitudes *)
Definition re_ip (X Y : view Felt) : R :=
  rsumn (vrows X) (fun i => rsumn (vcols X) (fun j => Re (Cmult (val (vat X i j)) (Cconj (val (vat Y i j)))))).
Definition mag_ip (X Y : view Felt) : R := rsumn (vrows X) (fun i => rsumn (vcols X) (fun j => mag_re (val (vat X i j)) (val (vat Y i j)))).
(** additions on the longest way from a row to the result *)
Fixpoint rdepth (t : rtree) : nat := match t with RJoin a b => S (Nat.max (rdepth a) (rdepth b)) | _ => 0%nat end.
(** the number of additions on top of each other does not exceed the number of rows *)
Definition shallow (red : nat -> rtree) : Prop := forall n, (rdepth (red n) <= n)%nat.

Definition lsum {B} (f : B -> R) (l : list B) : R := fold_right (fun i r => f i + r) 0 l.
Lemma lsum_app {B} (f : B -> R) l m : lsum f (l ++ m) = lsum f l + lsum f m.
Proof. unfold lsum. induction l as [|x l IH]; cbn; [ring|rewrite IH; ring]. Qed.
Lemma lsum_perm {B} (f : B -> R) l m : Permutation l m -> lsum f l = lsum f m.
Proof. unfold lsum. induction 1; cbn; lra. Qed.
Lemma lsum_seq f n : lsum f (seq 0 n) = rsumn n f.
Proof. induction n as [|n IH]; [reflexivity|]. rewrite seq_S, lsum_app, IH. cbn. ring. Qed.

Section Innerh.
  Context (X Y : view Felt).
  Notation c := (vcols X).
  Let xr (i : nat) : R := rsumn c (fun j => Re (Cmult (val (vat X i j)) (Cconj (val (vat Y i j))))).
  Let mr (i : nat) : R := rsumn c (fun j => mag_re (val (vat X i j)) (val (vat Y i j))).
  Lemma row_esum i n s : row_sum X Y i n = KOk s -> s = esum (E := Felt) n (fun j => kokmul (vat X i j) (fconj (vat Y i j))).
  Proof.
    revert s. induction n as [|n IH]; intros s; cbn [row_sum esum]; [intros [= <-]; reflexivity|].
    destruct (row_sum X Y i n) as [u| | |]; cbn [kbind]; try discriminate. specialize (IH u eq_refl).
    unfold load, rd. destruct (Nat.ltb _ (bsz (vbuf X))); [|discriminate]. destruct (Nat.ltb _ (bsz (vbuf Y))); [|discriminate].
    intros [= <-]. rewrite IH. reflexivity.
  Qed.
  Lemma mag_conj x y : mag_re x (Cconj y) = mag_re x y.
  Proof. unfold mag_re, Cconj, Re, Im. cbn [fst snd]. rewrite Rabs_Ropp. reflexivity. Qed.
  Lemma finite_fconj z : finite_c (fconj z) -> finite_c z.
  Proof. unfold finite_c, fconj. cbn [fst snd]. rewrite is_finite_Bopp. auto. Qed.
  Lemma row_close i s : row_sum X Y i c = KOk s -> is_finite (fst (s : fc)) = true ->
    (forall j, (j < c)%nat -> finite_c (vat X i j) /\ finite_c (vat Y i j)) /\
    acc (c + 2) (mr i) (INR c * (2 * eta0)) (B2R (fst (s : fc))) (xr i).
  Proof.
    intros R F. rewrite (row_esum i c s R) in F |- *.
    destruct (esum_fst kokmul (fun _ _ _ => eq_refl) (fun j => vat X i j) (fun j => fconj (vat Y i j)) c F) as (G1 & G2).
    split; [intros j Hj; destruct (G1 j Hj) as (g1 & g2); split; [exact g1|apply finite_fconj; exact g2]|].
    rewrite csum_Re in G2. unfold xr, mr.
    replace (rsumn c (fun j => Re (Cmult (val (vat X i j)) (Cconj (val (vat Y i j)))))) with (rsumn c (fun j => Re (Cmult (val (vat X i j)) (val (fconj (vat Y i j)))))).
    2:{ apply rsumn_ext. intros j _. rewrite val_fconj. reflexivity. }
    replace (rsumn c (fun j => mag_re (val (vat X i j)) (val (vat Y i j)))) with (rsumn c (fun j => mag_re (val (vat X i j)) (val (fconj (vat Y i j))))).
    2:{ apply rsumn_ext. intros j _. rewrite val_fconj. apply mag_conj. }
    exact G2.
  Qed.
  Lemma tree_close t : forall s, tree_sum X Y t = KOk s -> is_finite (fst (s : fc)) = true ->
    (forall i j, In i (leaves t) -> (j < c)%nat -> finite_c (vat X i j) /\ finite_c (vat Y i j)) /\
    acc (rdepth t + c + 2) (lsum mr (leaves t)) (INR (length (leaves t)) * (INR c * (2 * eta0))) (B2R (fst (s : fc))) (lsum xr (leaves t)).
  Proof.
    induction t as [|i|a IHa b IHb]; intros s; cbn [tree_sum leaves rdepth].
    - intros [= <-] _. split; [intros i j []|]. cbn. pose proof (acc_exact (0 + c + 2) 0) as G. rewrite Rabs_R0 in G.
      change (B2R fzero) with 0. rewrite Rmult_0_l. exact G.
    - intros R F. destruct (row_close i s R F) as (G1 & G2). split; [intros i' j [<-|[]] Hj; apply G1; exact Hj|].
      cbn [lsum fold_right length INR]. rewrite !Rplus_0_r, Rmult_1_l. exact G2.
    - destruct (tree_sum X Y a) as [u| | |]; cbn [kbind]; try discriminate. destruct (tree_sum X Y b) as [v| | |]; cbn [kbind]; try discriminate.
      intros [= <-] F. specialize (IHa u eq_refl). specialize (IHb v eq_refl).
      change (fst (eadd Felt u v)) with (fadd (fst (u : fc)) (fst (v : fc))) in *. destruct (fadd_finite _ _ F) as (F1 & F2 & _).
      destruct (IHa F1) as (A1 & A2). destruct (IHb F2) as (B1 & B2).
      split; [intros i j H; apply in_app_or in H; destruct H; [apply A1|apply B1]; assumption|].
      eapply (acc_raise _ (Nat.max (rdepth a) (rdepth b) + c + 2)) in A2; [|lia|apply Rle_refl|apply Rle_refl].
      eapply (acc_raise _ (Nat.max (rdepth a) (rdepth b) + c + 2)) in B2; [|lia|apply Rle_refl|apply Rle_refl].
      pose proof (acc_add _ _ _ _ _ _ _ _ _ F A2 B2) as G. rewrite !lsum_app, app_length, plus_INR. eapply acc_raise; [apply Nat.le_refl|apply Rle_refl| |exact G]. lra.
  Qed.
  Fixpoint upto (n : nat) : rtree := match n with O => RZero | S i => RJoin (upto i) (RRow i) end.
  Lemma upto_facts n : leaves (upto n) = seq 0 n /\ rdepth (upto n) = n.
  Proof. induction n as [|n (I1 & I2)]; [split; reflexivity|]. cbn [upto leaves rdepth]. rewrite I1, I2, seq_S. split; [reflexivity|]. lia. Qed.
  Lemma rows_tree n : rows_sum X Y n = tree_sum X Y (upto n).
  Proof. induction n as [|n IH]; [reflexivity|]. cbn [rows_sum upto tree_sum]. rewrite IH. reflexivity. Qed.
  Definition ip_h : R := INR (vrows X) * (INR c * (2 * eta0)).
  Theorem innerh_acc sp red s : fair_red red -> shallow red -> innerh_on sp red X Y = KOk s -> is_finite (fst (s : fc)) = true ->
    (forall i j, (i < vrows X)%nat -> (j < c)%nat -> finite_c (vat X i j) /\ finite_c (vat Y i j)) /\
    acc (vrows X + c + 2) (mag_ip X Y) ip_h (B2R (fst (s : fc))) (re_ip X Y).
  Proof.
    intros Fr Sh R F. assert (T : exists t, tree_sum X Y t = KOk s /\ Permutation (leaves t) (seq 0 (vrows X)) /\ (rdepth t <= vrows X)%nat).
    { destruct sp; cbn [innerh_on] in R; [unfold innerh_tr in R; rewrite rows_tree in R; exists (upto (vrows X)); destruct (upto_facts (vrows X)) as (u1 & u2);
        rewrite u1, u2; split; [exact R|split; [apply Permutation_refl|lia]]|..]; (exists (red (vrows X)); split; [exact R|split; [apply Fr|apply Sh]]). }
    destruct T as (t & Rt & Pt & Dt). destruct (tree_close t s Rt F) as (G1 & G2). split.
    - intros i j Hi Hj. apply G1; [|exact Hj]. apply (Permutation_in _ (Permutation_sym Pt)). apply in_seq. lia.
    - rewrite (lsum_perm xr _ _ Pt), (lsum_perm mr _ _ Pt), (Permutation_length Pt), seq_length, !lsum_seq in G2.
      eapply acc_raise; [|apply Rle_refl|apply Rle_refl|exact G2]. lia.
  Qed.
End Innerh.
