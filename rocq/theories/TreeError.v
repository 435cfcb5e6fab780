(** Rounding errors of any expression of binary64 additions, subtractions, products and fused multiply-adds.  A BLAS that adds in another
    order than LapackMem.v, in blocks, with several accumulators or with fused operations computes each part of each element of a product by such an
    expression; so does every compiler that contracts products and sums of the kernels of src/la/lapack.hpp 252-327.
    Nothing here models code of its own. *)
From Coq Require Import ZArith Reals Lra Lia Arith Bool List.
From Flocq Require Import Core.Core IEEE754.BinarySingleNaN.
From Coquelicot Require Import Complex.
From Verif Require Import Arith Float64 LinAlg LapackMem LapackFloat CountError SumOrder KernelError.
Import ListNotations.
Local Open Scope R_scope.

(** ** Specification *)
Inductive etree :=
| TNum (x : f64) | TNeg (s : etree) | TAdd (s t : etree) | TSub (s t : etree) | TMul (s t : etree)
| TFma (s t r : etree)    (* s t + r, rounded once *).
(** as computed *)
Fixpoint eval (t : etree) : f64 :=
  match t with
  | TNum x => x | TNeg s => Bopp (eval s)
  | TAdd s t => Bplus mode_NE (eval s) (eval t) | TSub s t => Bminus mode_NE (eval s) (eval t)
  | TMul s t => Bmult mode_NE (eval s) (eval t) | TFma s t r => Bfma mode_NE (eval s) (eval t) (eval r)
  end.
(** without rounding *)
Fixpoint exact (t : etree) : R :=
  match t with
  | TNum x => B2R x | TNeg s => - exact s | TAdd s t => exact s + exact t | TSub s t => exact s - exact t
  | TMul s t => exact s * exact t | TFma s t r => exact s * exact t + exact r
  end.
(** the same expression of the absolute values, all added *)
Fixpoint size (t : etree) : R :=
  match t with
  | TNum x => Rabs (B2R x) | TNeg s => size s | TAdd s t | TSub s t => size s + size t
  | TMul s t => size s * size t | TFma s t r => size s * size t + size r
  end.
(** roundings on top of each other *)
Fixpoint cost (t : etree) : nat :=
  match t with
  | TNum _ => 0 | TNeg s => cost s | TAdd s t | TSub s t => S (Nat.max (cost s) (cost t))
  | TMul s t => S (cost s + cost t) | TFma s t r => S (Nat.max (cost s + cost t) (cost r))
  end.
(** underflow *)
Fixpoint under (t : etree) : R :=
  match t with
  | TNum _ => 0 | TNeg s => under s | TAdd s t | TSub s t => under s + under t
  | TMul s t => size s * under t + size t * under s + under s * under t + eta0
  | TFma s t r => size s * under t + size t * under s + under s * under t + under r + eta0
  end.
Fixpoint numbers_of (t : etree) : list f64 :=
  match t with TNum x => [x] | TNeg s => numbers_of s | TAdd s t | TSub s t | TMul s t => numbers_of s ++ numbers_of t
  | TFma s t r => numbers_of s ++ numbers_of t ++ numbers_of r end.
(** t adds up the products of l, in any order and grouping, with or without fused operations *)
Inductive adds_up : etree -> list (f64 * f64) -> Prop :=
| AZero : adds_up (TNum (flit 0 1)) []
| AProd a b : adds_up (TMul (TNum a) (TNum b)) [(a, b)]
| AFma a b t l m : adds_up t (l ++ m) -> adds_up (TFma (TNum a) (TNum b) t) (l ++ (a, b) :: m)
| AAdd s t l m k : adds_up s l -> adds_up t m -> Permutation.Permutation k (l ++ m) -> adds_up (TAdd s t) k
| ASub s t l m k : adds_up s l -> adds_up t m -> Permutation.Permutation k (l ++ map (fun p => (Bopp (fst p), snd p)) m) -> adds_up (TSub s t) k.
(** the real products whose sum is the real (imaginary) part of sum_{l < k} a_l b_l *)
Definition re_terms (k : nat) (a b : nat -> fc) : list (f64 * f64) :=
  flat_map (fun l => [(fst (a l), fst (b l)); (Bopp (snd (a l)), snd (b l))]) (seq 0 k).
Definition im_terms (k : nat) (a b : nat -> fc) : list (f64 * f64) :=
  flat_map (fun l => [(fst (a l), snd (b l)); (snd (a l), fst (b l))]) (seq 0 k).

(** ** Proofs *)
Lemma acc_times n m a b h g x y X Y : acc n a h x X -> acc m b g y Y -> acc (n + m) (a * b) (a * g + b * h + h * g) (x * y) (X * Y).
Proof.
  intros (E1 & M1 & P1) (E2 & M2 & P2). unfold acc, bound in *. rewrite pow_add. pose proof (pow_ge1 n) as G1. pose proof (pow_ge1 m) as G2.
  set (G := (1 + uu) ^ n) in *. set (H := (1 + uu) ^ m) in *. pose proof (Rabs_pos X). pose proof (Rabs_pos Y). split; [|split].
  - replace (x * y - X * Y) with ((x - X) * (y - Y) + X * (y - Y) + Y * (x - X)) by ring.
    set (A := G * (a + h)). set (B := H * (b + g)).
    assert (E1' : Rabs (x - X) <= A - a) by (unfold A; lra). assert (E2' : Rabs (y - Y) <= B - b) by (unfold B; lra).
    replace ((G * H - 1) * (a * b) + G * H * (a * g + b * h + h * g)) with ((A - a) * (B - b) + a * (B - b) + b * (A - a)) by (unfold A, B; ring).
    eapply Rle_trans; [apply Rabs_triang|]. apply Rplus_le_compat; [eapply Rle_trans; [apply Rabs_triang|]; apply Rplus_le_compat|];
      rewrite Rabs_mult; apply Rmult_le_compat; try apply Rabs_pos; assumption.
  - rewrite Rabs_mult. apply Rmult_le_compat; assumption.
  - assert (0 <= a * g) by (apply Rmult_le_pos; lra). assert (0 <= b * h) by (apply Rmult_le_pos; lra). assert (0 <= h * g) by (apply Rmult_le_pos; lra). lra.
Qed.
Lemma acc_plus n a b h g x y X Y : acc n a h x X -> acc n b g y Y -> acc n (a + b) (h + g) (x + y) (X + Y).
Proof.
  intros (E1 & M1 & P1) (E2 & M2 & P2). unfold acc, bound in *. split; [|split; [eapply Rle_trans; [apply Rabs_triang|]|]; lra].
  replace (x + y - (X + Y)) with ((x - X) + (y - Y)) by ring. eapply Rle_trans; [apply Rabs_triang|]. lra.
Qed.
Lemma acc_rnd n a h x X : acc n a h x X -> acc (S n) a (h + eta0) (rnd x) X.
Proof.
  intros A. pose proof (acc_mag _ _ _ _ _ A) as M. destruct A as (E & B & P). destruct (mul_err x) as (d & t & D & T & ->). unfold acc, bound in *. cbn [pow].
  pose proof (pow_ge1 n) as G1. set (G := (1 + uu) ^ n) in *. pose proof eta0_pos. pose proof uu_pos. split; [|split; lra].
  replace (x * (1 + d) + t - X) with ((x - X) + d * x + t) by ring.
  assert (T2 : Rabs (d * x) <= uu * (G * (a + h))) by (rewrite Rabs_mult; apply Rmult_le_compat; try apply Rabs_pos; assumption).
  assert (T3 : eta0 <= (1 + uu) * G * eta0).
  { rewrite <- (Rmult_1_l eta0) at 1. apply Rmult_le_compat_r; [lra|]. nra. }
  eapply Rle_trans; [apply Rabs_triang|]. pose proof (Rabs_triang (x - X) (d * x)). lra.
Qed.
Lemma ffma_finite (x y z : f64) : is_finite (Bfma mode_NE x y z) = true ->
  is_finite x = true /\ is_finite y = true /\ is_finite z = true /\ B2R (Bfma mode_NE x y z) = rnd (B2R x * B2R y + B2R z).
Proof.
  intros F. assert (FF : is_finite x = true /\ is_finite y = true /\ is_finite z = true).
  { destruct x as [sx|sx| |sx mx ex Bx], y as [sy|sy| |sy my ey By], z as [sz|sz| |sz mz ez Bz]; try discriminate F; try (repeat split; reflexivity);
      cbn in F; destruct (Bool.eqb _ _); discriminate F. }
  destruct FF as (Fx & Fy & Fz). repeat (split; [assumption|]).
  pose proof (Bfma_correct 53 1024 prec53 emax1024 mode_NE x y z Fx Fy Fz) as C. cbv zeta in C.
  destruct (Rlt_bool _ _); [apply C|]. exfalso. revert F C. generalize (Bfma mode_NE x y z). intros r F C.
  destruct r; cbn in *; try discriminate; unfold binary_overflow in C; cbn in C; discriminate.
Qed.

Theorem tree_error t : is_finite (eval t) = true ->
  (forall x, In x (numbers_of t) -> is_finite x = true) /\ acc (cost t) (size t) (under t) (B2R (eval t)) (exact t).
Proof.
  induction t as [x|s IH|s IHs t IHt|s IHs t IHt|s IHs t IHt|s IHs t IHt r IHr]; cbn [eval exact size cost under numbers_of]; intros F.
  - split; [intros y [<-|[]]; exact F|apply acc_exact].
  - rewrite is_finite_Bopp in F. destruct (IH F) as (I1 & A). split; [exact I1|]. rewrite B2R_Bopp. apply acc_opp, A.
  - destruct (fadd_finite _ _ F) as (Fs & Ft & _). destruct (IHs Fs) as (I1 & A1). destruct (IHt Ft) as (I2 & A2).
    split; [intros y Hy; apply in_app_or in Hy; destruct Hy; auto|].
    apply acc_add; [exact F| |]; (eapply acc_raise; [| | |eassumption]; [lia|apply Rle_refl|apply Rle_refl]).
  - destruct (fsub_finite _ _ F) as (Fs & Ft & _). destruct (IHs Fs) as (I1 & A1). destruct (IHt Ft) as (I2 & A2).
    split; [intros y Hy; apply in_app_or in Hy; destruct Hy; auto|].
    apply acc_sub; [exact F| |]; (eapply acc_raise; [| | |eassumption]; [lia|apply Rle_refl|apply Rle_refl]).
  - destruct (fmul_finite _ _ F) as (Fs & Ft & E). destruct (IHs Fs) as (I1 & A1). destruct (IHt Ft) as (I2 & A2).
    split; [intros y Hy; apply in_app_or in Hy; destruct Hy; auto|].
    fold (fmul (eval s) (eval t)). rewrite E. apply acc_rnd, acc_times; assumption.
  - destruct (ffma_finite _ _ _ F) as (Fs & Ft & Fr & E). destruct (IHs Fs) as (I1 & A1). destruct (IHt Ft) as (I2 & A2). destruct (IHr Fr) as (I3 & A3).
    split; [intros y Hy; apply in_app_or in Hy; destruct Hy as [Hy|Hy]; [auto|apply in_app_or in Hy; destruct Hy; auto]|].
    rewrite E. apply acc_rnd, acc_plus; [eapply acc_raise; [| | |apply acc_times; eassumption]|eapply acc_raise; [| | |exact A3]]; try apply Rle_refl; lia.
Qed.
Theorem tree_close t : is_finite (eval t) = true ->
  (forall x, In x (numbers_of t) -> is_finite x = true) /\ Rabs (B2R (eval t) - exact t) <= bound (cost t) (size t) (under t).
Proof. intros F. destruct (tree_error t F) as (I1 & A). split; [exact I1|apply A]. Qed.

Definition products (l : list (f64 * f64)) : R := lsum (fun p => B2R (fst p) * B2R (snd p)) l.
Definition magnitudes (l : list (f64 * f64)) : R := lsum (fun p => Rabs (B2R (fst p)) * Rabs (B2R (snd p))) l.
Lemma negated_sum (m : list (f64 * f64)) : lsum (fun p => B2R (fst p) * B2R (snd p)) (map (fun p => (Bopp (fst p), snd p)) m) =
  - lsum (fun p => B2R (fst p) * B2R (snd p)) m.
Proof. induction m as [|p m IH]; cbn [lsum fold_right map fst snd] in *; [lra|]. unfold lsum in IH. rewrite IH, B2R_Bopp. assert (Q : forall a b s, - a * b + - s = - (a * b + s)) by (intros; ring). apply Q. Qed.
Lemma negated_size (m : list (f64 * f64)) : lsum (fun p => Rabs (B2R (fst p)) * Rabs (B2R (snd p))) (map (fun p => (Bopp (fst p), snd p)) m) =
  lsum (fun p => Rabs (B2R (fst p)) * Rabs (B2R (snd p))) m.
Proof. induction m as [|p m IH]; cbn [lsum fold_right map fst snd] in *; [lra|]. unfold lsum in IH. rewrite IH, B2R_Bopp, Rabs_Ropp. reflexivity. Qed.
Lemma adds_up_values t l : adds_up t l -> exact t = products l /\ size t = magnitudes l /\ under t = INR (length l) * eta0 /\
  ((forall x, In x (numbers_of t) -> is_finite x = true) -> forall p, In p l -> is_finite (fst p) = true /\ is_finite (snd p) = true).
Proof.
  unfold products, magnitudes. induction 1 as [|a b|a b t l m H IH|s t l m k Hs IHs Ht IHt P|s t l m k Hs IHs Ht IHt P]; cbn [exact size under numbers_of].
  - split; [vm_compute; reflexivity|]. split; [replace (B2R (flit 0 1)) with 0 by (vm_compute; reflexivity); apply Rabs_R0|]. split; [cbn; lra|intros _ p []].
  - cbn [lsum fold_right fst snd length INR]. split; [lra|]. split; [lra|]. split; [lra|]. intros N p [<-|[]]. split; apply N; [left; reflexivity|right; left; reflexivity].
  - destruct IH as (I1 & I2 & I3 & I4). rewrite I1, I2, I3. rewrite !lsum_app. cbn [lsum fold_right fst snd]. split; [unfold lsum; lra|]. split; [unfold lsum; lra|]. split.
    + rewrite !app_length, !plus_INR. cbn [length]. rewrite S_INR. ring.
    + intros N p Hp. cbn [app] in N. assert (Q : p = (a, b) \/ In p (l ++ m)).
      { apply in_app_or in Hp. destruct Hp as [Hp|[Hp|Hp]]; [right; apply in_or_app; left; exact Hp|left; symmetry; exact Hp|right; apply in_or_app; right; exact Hp]. }
      destruct Q as [->|Q]; [split; apply N; [left; reflexivity|right; left; reflexivity]|]. apply I4; [|exact Q]. intros x Hx. apply N. right; right; exact Hx.
  - destruct IHs as (I1 & I2 & I3 & I4). destruct IHt as (J1 & J2 & J3 & J4). rewrite I1, I2, I3, J1, J2, J3, !(lsum_perm _ _ _ P), !lsum_app.
    split; [reflexivity|]. split; [reflexivity|]. split; [rewrite (Permutation.Permutation_length P), app_length, plus_INR; ring|].
    intros N p Hp. apply (Permutation.Permutation_in _ P) in Hp. apply in_app_or in Hp.
    destruct Hp as [Hp|Hp]; [apply I4|apply J4]; try exact Hp; intros x Hx; apply N, in_or_app; auto.
  - destruct IHs as (I1 & I2 & I3 & I4). destruct IHt as (J1 & J2 & J3 & J4). rewrite I1, I2, I3, J1, J2, J3, !(lsum_perm _ _ _ P), !lsum_app.
    rewrite negated_sum, negated_size.
    split; [reflexivity|]. split; [reflexivity|]. split; [rewrite (Permutation.Permutation_length P), app_length, map_length, plus_INR; symmetry; apply Rmult_plus_distr_r|].
    intros N p Hp. apply (Permutation.Permutation_in _ P) in Hp. apply in_app_or in Hp.
    destruct Hp as [Hp|Hp]; [apply I4; [|exact Hp]; intros x Hx; apply N, in_or_app; auto|].
    apply in_map_iff in Hp. destruct Hp as (q & <- & Hq). cbn [fst snd]. rewrite is_finite_Bopp. apply J4; [|exact Hq]. intros x Hx. apply N, in_or_app; auto.
Qed.
Theorem any_order t l : adds_up t l -> is_finite (eval t) = true ->
  (forall p, In p l -> is_finite (fst p) = true /\ is_finite (snd p) = true) /\
  Rabs (B2R (eval t) - lsum (fun p => B2R (fst p) * B2R (snd p)) l) <=
    bound (cost t) (lsum (fun p => Rabs (B2R (fst p)) * Rabs (B2R (snd p))) l) (INR (length l) * eta0).
Proof.
  intros A F. destruct (tree_close t F) as (I1 & B). destruct (adds_up_values t l A) as (E1 & E2 & E3 & E4). rewrite E1, E2, E3 in B.
  split; [|exact B]. intros p Hp. apply E4; assumption.
Qed.

Lemma terms_sum k a b :
  lsum (fun p => B2R (fst p) * B2R (snd p)) (re_terms k a b) = lsum (fun l => Re (Cmult (val (a l)) (val (b l)))) (seq 0 k) /\
  lsum (fun p => B2R (fst p) * B2R (snd p)) (im_terms k a b) = lsum (fun l => Im (Cmult (val (a l)) (val (b l)))) (seq 0 k) /\
  lsum (fun p => Rabs (B2R (fst p)) * Rabs (B2R (snd p))) (re_terms k a b) = lsum (fun l => mag_re (val (a l)) (val (b l))) (seq 0 k) /\
  lsum (fun p => Rabs (B2R (fst p)) * Rabs (B2R (snd p))) (im_terms k a b) = lsum (fun l => mag_im (val (a l)) (val (b l))) (seq 0 k) /\
  length (re_terms k a b) = (2 * k)%nat /\ length (im_terms k a b) = (2 * k)%nat.
Proof.
  unfold re_terms, im_terms.
  assert (L : length (seq 0 k) = k) by apply seq_length. revert L. generalize (seq 0 k). intros l <-.
  induction l as [|x l (I1 & I2 & I3 & I4 & I5 & I6)]; [cbn; repeat split; reflexivity|]. unfold lsum in *. cbn [flat_map app fold_right fst snd length].
  rewrite I1, I2, I3, I4, I5, I6, B2R_Bopp, Rabs_Ropp. unfold mag_re, mag_im, val, Re, Im, Cmult. cbn [fst snd]. repeat split; try lra; lia.
Qed.
(** ** Parts of an element of a complex product *)
Theorem any_order_complex k (a b : nat -> fc) tr ti : adds_up tr (re_terms k a b) -> adds_up ti (im_terms k a b) ->
  (is_finite (eval tr) = true ->
     (forall l, (l < k)%nat -> finite_c (a l) /\ finite_c (b l)) /\
     Rabs (B2R (eval tr) - lsum (fun l => Re (Cmult (val (a l)) (val (b l)))) (seq 0 k)) <=
       bound (cost tr) (lsum (fun l => mag_re (val (a l)) (val (b l))) (seq 0 k)) (INR (2 * k) * eta0)) /\
  (is_finite (eval ti) = true ->
     (forall l, (l < k)%nat -> finite_c (a l) /\ finite_c (b l)) /\
     Rabs (B2R (eval ti) - lsum (fun l => Im (Cmult (val (a l)) (val (b l)))) (seq 0 k)) <=
       bound (cost ti) (lsum (fun l => mag_im (val (a l)) (val (b l))) (seq 0 k)) (INR (2 * k) * eta0)).
Proof.
  intros Ar Ai. destruct (terms_sum k a b) as (S1 & S2 & S3 & S4 & S5 & S6).
  split; intros F; [destruct (any_order _ _ Ar F) as (N & B); rewrite S1, S3, S5 in B|destruct (any_order _ _ Ai F) as (N & B); rewrite S2, S4, S6 in B];
    (split; [|exact B]); intros l Hl; assert (Hi : In l (seq 0 k)) by (apply in_seq; lia); unfold finite_c.
  - assert (P1 : In (fst (a l), fst (b l)) (re_terms k a b)) by (apply in_flat_map; exists l; split; [exact Hi|left; reflexivity]).
    assert (P2 : In (Bopp (snd (a l)), snd (b l)) (re_terms k a b)) by (apply in_flat_map; exists l; split; [exact Hi|right; left; reflexivity]).
    apply N in P1. apply N in P2. cbn [fst snd] in P1, P2. rewrite is_finite_Bopp in P2. tauto.
  - assert (P1 : In (fst (a l), snd (b l)) (im_terms k a b)) by (apply in_flat_map; exists l; split; [exact Hi|left; reflexivity]).
    assert (P2 : In (snd (a l), fst (b l)) (im_terms k a b)) by (apply in_flat_map; exists l; split; [exact Hi|right; left; reflexivity]).
    apply N in P1. apply N in P2. cbn [fst snd] in P1, P2. tauto.
Qed.

(** ** A dot product in two blocks with fused operations *)
Definition two_blocks (a b : nat -> f64) : etree :=
  TAdd (TFma (TNum (a 2%nat)) (TNum (b 2%nat)) (TFma (TNum (a 0%nat)) (TNum (b 0%nat)) (TNum (flit 0 1))))
       (TFma (TNum (a 3%nat)) (TNum (b 3%nat)) (TMul (TNum (a 1%nat)) (TNum (b 1%nat)))).
Lemma two_blocks_adds a b : adds_up (two_blocks a b) (map (fun l => (a l, b l)) (seq 0 4)).
Proof.
  apply AAdd with (l := [(a 2%nat, b 2%nat); (a 0%nat, b 0%nat)]) (m := [(a 3%nat, b 3%nat); (a 1%nat, b 1%nat)]).
  - apply (AFma _ _ _ [] [(a 0%nat, b 0%nat)]). apply (AFma _ _ _ [] []). apply AZero.
  - apply (AFma _ _ _ [] [(a 1%nat, b 1%nat)]). apply AProd.
  - cbn [map seq app]. change ([(a 2%nat, b 2%nat); (a 0%nat, b 0%nat); (a 3%nat, b 3%nat); (a 1%nat, b 1%nat)]) with (map (fun l => (a l, b l)) [2; 0; 3; 1]%nat).
    change ([(a 0%nat, b 0%nat); (a 1%nat, b 1%nat); (a 2%nat, b 2%nat); (a 3%nat, b 3%nat)]) with (map (fun l => (a l, b l)) [0; 1; 2; 3]%nat).
    apply Permutation.Permutation_map. apply Permutation.NoDup_Permutation; [repeat constructor; cbn; lia|repeat constructor; cbn; lia|intros x; cbn; lia].
Qed.
(** four products, as a loop adds them and in two blocks: the same products, different sums *)
Definition tenth (l : nat) : f64 := nth l [flit 1 10; flit 7 10; flit 3 10; flit 9 1] fzero.
Definition third (l : nat) : f64 := nth l [flit 1 3; flit 5 3; flit 7 3; flit (-1) 7] fzero.
Definition in_order : etree :=
  fold_left (fun t l => TAdd t (TMul (TNum (tenth l)) (TNum (third l)))) (seq 0 4) (TNum (flit 0 1)).
Lemma in_order_adds : adds_up in_order (map (fun l => (tenth l, third l)) (seq 0 4)).
Proof.
  unfold in_order. cbn [seq fold_left map].
  apply AAdd with (l := map (fun l => (tenth l, third l)) [0; 1; 2]%nat) (m := [(tenth 3, third 3)]); [|apply AProd|apply Permutation.Permutation_refl].
  apply AAdd with (l := map (fun l => (tenth l, third l)) [0; 1]%nat) (m := [(tenth 2, third 2)]); [|apply AProd|apply Permutation.Permutation_refl].
  apply AAdd with (l := map (fun l => (tenth l, third l)) [0]%nat) (m := [(tenth 1, third 1)]); [|apply AProd|apply Permutation.Permutation_refl].
  apply AAdd with (l := []) (m := [(tenth 0, third 0)]); [apply AZero|apply AProd|apply Permutation.Permutation_refl].
Qed.
(** a complex product with one fused operation and one difference *)
Definition zs (l : nat) : fc := nth l [(flit 1 2, flit 1 3); (flit 2 1, flit (-1) 5)] (fzero, fzero).
Definition re_tree : etree :=
  TAdd (TSub (TMul (TNum (flit 1 2)) (TNum (flit 2 1))) (TMul (TNum (flit 1 3)) (TNum (flit (-1) 5))))
       (TFma (TNum (flit 2 1)) (TNum (flit 1 2)) (TMul (TNum (Bopp (flit (-1) 5))) (TNum (flit 1 3)))).
Definition im_tree : etree :=
  TFma (TNum (flit 1 2)) (TNum (flit (-1) 5)) (TFma (TNum (flit 1 3)) (TNum (flit 2 1))
    (TFma (TNum (flit 2 1)) (TNum (flit 1 3)) (TMul (TNum (flit (-1) 5)) (TNum (flit 1 2))))).
Lemma re_tree_adds : adds_up re_tree (re_terms 2 zs (fun l => zs (1 - l))).
Proof.
  apply AAdd with (l := [(flit 1 2, flit 2 1); (Bopp (flit 1 3), flit (-1) 5)]) (m := [(flit 2 1, flit 1 2); (Bopp (flit (-1) 5), flit 1 3)]);
    [|apply (AFma _ _ _ []), AProd|apply Permutation.Permutation_refl].
  apply ASub with (l := [(flit 1 2, flit 2 1)]) (m := [(flit 1 3, flit (-1) 5)]); [apply AProd|apply AProd|apply Permutation.Permutation_refl].
Qed.
Lemma im_tree_adds : adds_up im_tree (im_terms 2 zs (fun l => zs (1 - l))).
Proof. apply (AFma _ _ _ []), (AFma _ _ _ []), (AFma _ _ _ []), AProd. Qed.
