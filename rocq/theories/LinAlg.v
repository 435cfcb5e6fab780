(** Complex matrices as functions of two indices, finite sums. *)
From Coq Require Import Reals Lra Psatz Arith Lia List Bool Morphisms Setoid FunctionalExtensionality.
From Coquelicot Require Import Complex.
Import ListNotations.
Local Open Scope R_scope.
Local Open Scope C_scope.

Lemma Ceq (a b : C) : fst a = fst b -> snd a = snd b -> a = b.
Proof. destruct a, b; cbn; intros; subst; reflexivity. Qed.

(** ** Conjugate, real part *)
Lemma Cconj_plus a b : Cconj (a + b) = Cconj a + Cconj b.
Proof. apply Ceq; cbn; ring. Qed.
Lemma Cconj_mult a b : Cconj (a * b) = Cconj a * Cconj b.
Proof. apply Ceq; cbn; ring. Qed.
Lemma Cconj_opp a : Cconj (- a) = - Cconj a.
Proof. apply Ceq; cbn; ring. Qed.
Lemma Cconj_minus a b : Cconj (a - b) = Cconj a - Cconj b.
Proof. apply Ceq; cbn; ring. Qed.
Lemma Cconj_conj a : Cconj (Cconj a) = a.
Proof. apply Ceq; cbn; ring. Qed.
Lemma Cconj_R (x : R) : Cconj x = x.
Proof. apply Ceq; cbn; ring. Qed.
Lemma Re_plus a b : Re (a + b) = (Re a + Re b)%R.
Proof. reflexivity. Qed.
Lemma Re_conj a : Re (Cconj a) = Re a.
Proof. reflexivity. Qed.
Lemma Re_scal (x : R) a : Re (x * a) = (x * Re a)%R.
Proof. unfold Re. cbn. ring. Qed.
Lemma Re_R (x : R) : Re x = x.
Proof. reflexivity. Qed.
Lemma Im_R (x : R) : Im x = 0%R.
Proof. reflexivity. Qed.

(** |a|^2 *)
Definition nsq (a : C) : R := (fst a * fst a + snd a * snd a)%R.
Lemma nsq_conj a : Cconj a * a = RtoC (nsq a).
Proof. apply Ceq; unfold nsq; cbn; ring. Qed.
Lemma nsq_conj_r a : a * Cconj a = RtoC (nsq a).
Proof. rewrite Cmult_comm. apply nsq_conj. Qed.
Lemma nsq_pos a : (0 <= nsq a)%R.
Proof. unfold nsq. nra. Qed.
Lemma nsq_0 a : nsq a = 0%R -> a = 0.
Proof. unfold nsq. intros H. apply Ceq; cbn; nra. Qed.
Lemma real_of_conj a : Cconj a = a -> a = RtoC (Re a).
Proof. intros H. apply Ceq; cbn; [reflexivity|]. apply (f_equal snd) in H. cbn in H. lra. Qed.

(** ** Sums *)
Fixpoint csum (n : nat) (f : nat -> C) : C := match n with O => 0 | S n => csum n f + f n end.
Fixpoint rsumn (n : nat) (f : nat -> R) : R := match n with O => 0%R | S n => (rsumn n f + f n)%R end.

Lemma csum_ext n (f g : nat -> C) : (forall i, (i < n)%nat -> f i = g i) -> csum n f = csum n g.
Proof. induction n; cbn; intros H; [reflexivity|]. rewrite IHn by (intros; apply H; lia). rewrite H by lia. reflexivity. Qed.
Lemma csum_0 n (f : nat -> C) : (forall i, (i < n)%nat -> f i = 0) -> csum n f = 0.
Proof. induction n; cbn; intros H; [reflexivity|]. rewrite IHn by (intros; apply H; lia). rewrite H by lia. apply Cplus_0_r. Qed.
Lemma csum_plus n (f g : nat -> C) : csum n (fun i => f i + g i) = csum n f + csum n g.
Proof. induction n; cbn; [ring|]. rewrite IHn. ring. Qed.
Lemma csum_opp n (f : nat -> C) : csum n (fun i => - f i) = - csum n f.
Proof. induction n; cbn; [ring|]. rewrite IHn. ring. Qed.
Lemma csum_minus n (f g : nat -> C) : csum n (fun i => f i - g i) = csum n f - csum n g.
Proof. induction n; cbn; [ring|]. rewrite IHn. ring. Qed.
Lemma csum_scal_l n (c : C) (f : nat -> C) : csum n (fun i => c * f i) = c * csum n f.
Proof. induction n; cbn; [ring|]. rewrite IHn. ring. Qed.
Lemma csum_scal_r n (c : C) (f : nat -> C) : csum n (fun i => f i * c) = csum n f * c.
Proof. induction n; cbn; [ring|]. rewrite IHn. ring. Qed.
Lemma csum_conj n (f : nat -> C) : Cconj (csum n f) = csum n (fun i => Cconj (f i)).
Proof. induction n; cbn; [apply Ceq; cbn; ring|]. rewrite Cconj_plus, IHn. reflexivity. Qed.
Lemma csum_swap n m (f : nat -> nat -> C) : csum n (fun i => csum m (fun j => f i j)) = csum m (fun j => csum n (fun i => f i j)).
Proof. induction n; cbn; [symmetry; apply csum_0; reflexivity|]. rewrite IHn, <- csum_plus. reflexivity. Qed.
Lemma csum_Re n (f : nat -> C) : Re (csum n f) = rsumn n (fun i => Re (f i)).
Proof. induction n; cbn; [reflexivity|]. rewrite <- IHn. reflexivity. Qed.
Lemma csum_RtoC n f : csum n (fun i => RtoC (f i)) = RtoC (rsumn n f).
Proof. induction n; cbn; [reflexivity|]. rewrite IHn, RtoC_plus. reflexivity. Qed.
(** only one term *)
Lemma csum_one n k (f : nat -> C) : (k < n)%nat -> (forall i, (i < n)%nat -> i <> k -> f i = 0) -> csum n f = f k.
Proof.
  induction n as [|n IH]; intros Hk H; [lia|]. cbn. destruct (Nat.eq_dec k n) as [->|E].
  - rewrite csum_0 by (intros; apply H; lia). apply Cplus_0_l.
  - rewrite IH by (try lia; intros; apply H; lia). rewrite (H n) by lia. apply Cplus_0_r.
Qed.

Lemma rsumn_ext n f g : (forall i, (i < n)%nat -> f i = g i) -> rsumn n f = rsumn n g.
Proof. induction n; cbn; intros H; [reflexivity|]. rewrite IHn by (intros; apply H; lia). rewrite H by lia. reflexivity. Qed.
Lemma rsumn_0 n f : (forall i, (i < n)%nat -> f i = 0%R) -> rsumn n f = 0%R.
Proof. induction n; cbn; intros H; [reflexivity|]. rewrite IHn by (intros; apply H; lia). rewrite H by lia. ring. Qed.
Lemma rsumn_plus n f g : rsumn n (fun i => (f i + g i)%R) = (rsumn n f + rsumn n g)%R.
Proof. induction n; cbn; [ring|]. rewrite IHn. ring. Qed.
Lemma rsumn_scal n c f : rsumn n (fun i => (c * f i)%R) = (c * rsumn n f)%R.
Proof. induction n; cbn; [ring|]. rewrite IHn. ring. Qed.
Lemma rsumn_le n f g : (forall i, (i < n)%nat -> (f i <= g i)%R) -> (rsumn n f <= rsumn n g)%R.
Proof. induction n; cbn; intros H; [lra|]. pose proof (IHn (fun i Hi => H i (Nat.lt_lt_succ_r _ _ Hi))). pose proof (H n ltac:(lia)). lra. Qed.
Lemma rsumn_nonneg n f : (forall i, (i < n)%nat -> (0 <= f i)%R) -> (0 <= rsumn n f)%R.
Proof. intros H. rewrite <- (rsumn_0 n (fun _ => 0%R)) by reflexivity. apply rsumn_le. exact H. Qed.
Lemma rsumn_zero_terms n f : (forall i, (i < n)%nat -> (0 <= f i)%R) -> rsumn n f = 0%R -> forall i, (i < n)%nat -> f i = 0%R.
Proof.
  induction n as [|n IH]; cbn; intros H E i Hi; [lia|].
  pose proof (rsumn_nonneg n f (fun i Hi => H i (Nat.lt_lt_succ_r _ _ Hi))). pose proof (H n ltac:(lia)).
  destruct (Nat.eq_dec i n) as [->|N]; [lra|]. apply IH; [intros; apply H; lia|lra|lia].
Qed.
Lemma rsumn_swap n m f : rsumn n (fun i => rsumn m (fun j => f i j)) = rsumn m (fun j => rsumn n (fun i => f i j)).
Proof. induction n; cbn; [symmetry; apply rsumn_0; reflexivity|]. rewrite IHn, <- rsumn_plus. reflexivity. Qed.

(** ** Matrices *)
Definition mat : Type := nat -> nat -> C.
Lemma mat_ext (A B : mat) : (forall i j, A i j = B i j) -> A = B.
Proof. intros H. apply functional_extensionality. intros i. apply functional_extensionality. apply H. Qed.
(** equality of the n x m block *)
Definition meq (n m : nat) (A B : mat) : Prop := forall i j, (i < n)%nat -> (j < m)%nat -> A i j = B i j.

Lemma meq_refl n m A : meq n m A A.
Proof. intros i j _ _. reflexivity. Qed.
Lemma meq_sym n m A B : meq n m A B -> meq n m B A.
Proof. intros H i j Hi Hj. symmetry. apply H; assumption. Qed.
Lemma meq_trans n m A B D : meq n m A B -> meq n m B D -> meq n m A D.
Proof. intros H1 H2 i j Hi Hj. rewrite H1 by assumption. apply H2; assumption. Qed.
#[global] Instance meq_equiv n m : Equivalence (meq n m).
Proof. split; [exact (meq_refl n m)|exact (meq_sym n m)|exact (meq_trans n m)]. Qed.

Definition mzero : mat := fun _ _ => 0.
Definition mid : mat := fun i j => if Nat.eqb i j then 1 else 0.
Definition mdiag (d : nat -> R) : mat := fun i j => if Nat.eqb i j then RtoC (d i) else 0.
Definition madd (A B : mat) : mat := fun i j => A i j + B i j.
Definition msub (A B : mat) : mat := fun i j => A i j - B i j.
Definition mscal (c : C) (A : mat) : mat := fun i j => c * A i j.
(** A * B, inner dimension k *)
Definition mmul (k : nat) (A B : mat) : mat := fun i j => csum k (fun l => A i l * B l j).
(** conjugate transpose *)
Definition adj (A : mat) : mat := fun i j => Cconj (A j i).

Definition hermitian (n : nat) (A : mat) : Prop := meq n n (adj A) A.
Definition unitary (n : nat) (U : mat) : Prop := meq n n (mmul n (adj U) U) mid /\ meq n n (mmul n U (adj U)) mid.

Lemma mmul_ext n k m A A' B B' : meq n k A A' -> meq k m B B' -> meq n m (mmul k A B) (mmul k A' B').
Proof. intros H1 H2 i j Hi Hj. unfold mmul. apply csum_ext. intros l Hl. rewrite H1, H2 by assumption. reflexivity. Qed.
Lemma madd_ext n m A A' B B' : meq n m A A' -> meq n m B B' -> meq n m (madd A B) (madd A' B').
Proof. intros H1 H2 i j Hi Hj. unfold madd. rewrite H1, H2 by assumption. reflexivity. Qed.
Lemma msub_ext n m A A' B B' : meq n m A A' -> meq n m B B' -> meq n m (msub A B) (msub A' B').
Proof. intros H1 H2 i j Hi Hj. unfold msub. rewrite H1, H2 by assumption. reflexivity. Qed.
Lemma mscal_ext n m c A A' : meq n m A A' -> meq n m (mscal c A) (mscal c A').
Proof. intros H1 i j Hi Hj. unfold mscal. rewrite H1 by assumption. reflexivity. Qed.
Lemma adj_ext n m A A' : meq n m A A' -> meq m n (adj A) (adj A').
Proof. intros H i j Hi Hj. unfold adj. rewrite H by assumption. reflexivity. Qed.

Lemma mmul_assoc k l A B D : mmul l (mmul k A B) D = mmul k A (mmul l B D).
Proof.
  apply mat_ext. intros i j.
  unfold mmul. rewrite (csum_ext l _ (fun q => csum k (fun p => A i p * B p q * D q j))) by (intros; rewrite <- csum_scal_r; reflexivity).
  rewrite csum_swap. apply csum_ext. intros p _. rewrite <- csum_scal_l. apply csum_ext. intros q _. ring.
Qed.
Lemma adj_mmul k A B : adj (mmul k A B) = mmul k (adj B) (adj A).
Proof.
  apply mat_ext. intros i j. unfold adj, mmul. rewrite csum_conj. apply csum_ext. intros l _. rewrite Cconj_mult. ring.
Qed.
Lemma adj_adj A : adj (adj A) = A.
Proof. apply mat_ext. intros i j. unfold adj. apply Cconj_conj. Qed.
Lemma adj_madd A B : adj (madd A B) = madd (adj A) (adj B).
Proof. apply mat_ext. intros i j. unfold adj, madd. apply Cconj_plus. Qed.
Lemma adj_mscal c A : adj (mscal c A) = mscal (Cconj c) (adj A).
Proof. apply mat_ext. intros i j. unfold adj, mscal. apply Cconj_mult. Qed.
Lemma mscal_1 A : mscal (RtoC 1) A = A.
Proof. apply mat_ext. intros i j. unfold mscal. ring. Qed.
Lemma mmul_id_l n m A : meq n m (mmul n mid A) A.
Proof.
  intros i j Hi _. unfold mmul, mid. rewrite (csum_one n i _ Hi); [cbn beta; rewrite Nat.eqb_refl; ring|].
  intros l _ Hl. destruct (Nat.eqb_spec i l); [subst; congruence|ring].
Qed.
Lemma mmul_id_r n m A : meq n m (mmul m A mid) A.
Proof.
  intros i j _ Hj. unfold mmul, mid. rewrite (csum_one m j _ Hj); [cbn beta; rewrite Nat.eqb_refl; ring|].
  intros l _ Hl. destruct (Nat.eqb_spec l j); [subst; congruence|ring].
Qed.
Lemma mmul_diag_r n m A d : meq n m (mmul m A (mdiag d)) (fun i j => A i j * RtoC (d j)).
Proof.
  intros i j _ Hj. unfold mmul, mdiag. rewrite (csum_one m j _ Hj); [cbn beta; rewrite Nat.eqb_refl; reflexivity|].
  intros l _ Hl. destruct (Nat.eqb_spec l j); [subst; congruence|ring].
Qed.
Lemma mmul_diag_l n m A d : meq n m (mmul n (mdiag d) A) (fun i j => RtoC (d i) * A i j).
Proof.
  intros i j Hi _. unfold mmul, mdiag. rewrite (csum_one n i _ Hi); [cbn beta; rewrite Nat.eqb_refl; reflexivity|].
  intros l _ Hl. destruct (Nat.eqb_spec i l); [subst; congruence|ring].
Qed.
Lemma mmul_add_r k A B D : mmul k A (madd B D) = madd (mmul k A B) (mmul k A D).
Proof. apply mat_ext. intros i j. unfold mmul, madd. rewrite <- csum_plus. apply csum_ext. intros. ring. Qed.
Lemma mmul_add_l k A B D : mmul k (madd A B) D = madd (mmul k A D) (mmul k B D).
Proof. apply mat_ext. intros i j. unfold mmul, madd. rewrite <- csum_plus. apply csum_ext. intros. ring. Qed.
Lemma mmul_sub_r k A B D : mmul k A (msub B D) = msub (mmul k A B) (mmul k A D).
Proof. apply mat_ext. intros i j. unfold mmul, msub. rewrite <- csum_minus. apply csum_ext. intros. ring. Qed.
Lemma mmul_scal_r k c A B : mmul k A (mscal c B) = mscal c (mmul k A B).
Proof. apply mat_ext. intros i j. unfold mmul, mscal. rewrite <- csum_scal_l. apply csum_ext. intros. ring. Qed.
Lemma mmul_scal_l k c A B : mmul k (mscal c A) B = mscal c (mmul k A B).
Proof. apply mat_ext. intros i j. unfold mmul, mscal. rewrite <- csum_scal_l. apply csum_ext. intros. ring. Qed.
Lemma adj_mid : adj mid = mid.
Proof.
  apply mat_ext. intros i j. unfold adj, mid. rewrite (Nat.eqb_sym j i). destruct (Nat.eqb i j); apply Ceq; cbn; ring.
Qed.
Lemma adj_mdiag d : adj (mdiag d) = mdiag d.
Proof.
  apply mat_ext. intros i j. unfold adj, mdiag. rewrite (Nat.eqb_sym j i). destruct (Nat.eqb_spec i j); [subst; apply Cconj_R|apply Ceq; cbn; ring].
Qed.

(** ** Definiteness *)
(** v^H A v *)
Definition quad (n : nat) (A : mat) (v : nat -> C) : C := csum n (fun i => csum n (fun j => Cconj (v i) * A i j * v j)).
Definition psd (n : nat) (A : mat) : Prop := forall v : nat -> C, (0 <= Re (quad n A v))%R.
Definition posdef (n : nat) (A : mat) : Prop := forall v : nat -> C, (exists i, (i < n)%nat /\ v i <> 0) -> (0 < Re (quad n A v))%R.

(** ** Trace inner product *)
(** sum_ij A_ij conj(B_ij) *)
Definition ip (n m : nat) (A B : mat) : C := csum n (fun i => csum m (fun j => A i j * Cconj (B i j))).

Lemma ip_ext n m A A' B B' : meq n m A A' -> meq n m B B' -> ip n m A B = ip n m A' B'.
Proof. intros H1 H2. unfold ip. apply csum_ext. intros i Hi. apply csum_ext. intros j Hj. rewrite H1, H2 by assumption. reflexivity. Qed.
Lemma ip_conj n m A B : Cconj (ip n m A B) = ip n m B A.
Proof.
  unfold ip. rewrite csum_conj. apply csum_ext. intros i _. rewrite csum_conj. apply csum_ext. intros j _.
  rewrite Cconj_mult, Cconj_conj. ring.
Qed.
Lemma ip_Re_sym n m A B : Re (ip n m A B) = Re (ip n m B A).
Proof. rewrite <- ip_conj. apply Re_conj. Qed.
Lemma ip_add_l n m A B D : ip n m (madd A B) D = ip n m A D + ip n m B D.
Proof. unfold ip, madd. rewrite <- csum_plus. apply csum_ext. intros i _. rewrite <- csum_plus. apply csum_ext. intros. ring. Qed.
Lemma ip_sub_l n m A B D : ip n m (msub A B) D = ip n m A D - ip n m B D.
Proof. unfold ip, msub. rewrite <- csum_minus. apply csum_ext. intros i _. rewrite <- csum_minus. apply csum_ext. intros. ring. Qed.
Lemma ip_scal_l n m c A B : ip n m (mscal c A) B = c * ip n m A B.
Proof. unfold ip, mscal. rewrite <- csum_scal_l. apply csum_ext. intros i _. rewrite <- csum_scal_l. apply csum_ext. intros. ring. Qed.
Lemma ip_add_r n m A B D : ip n m D (madd A B) = ip n m D A + ip n m D B.
Proof. rewrite <- (ip_conj n m (madd A B)), ip_add_l, Cconj_plus, !ip_conj. reflexivity. Qed.
Lemma ip_scal_r n m (c : R) A B : ip n m A (mscal c B) = c * ip n m A B.
Proof. rewrite <- (ip_conj n m (mscal c B)), ip_scal_l, Cconj_mult, Cconj_R, ip_conj. reflexivity. Qed.
(** <A M, B> = <M, A^H B> *)
Lemma ip_mmul_l n m k A M B : ip n m (mmul k A M) B = ip k m M (mmul n (adj A) B).
Proof.
  unfold ip, mmul, adj.
  rewrite (csum_ext n _ (fun i => csum k (fun l => csum m (fun j => A i l * M l j * Cconj (B i j))))).
  2: { intros i _. rewrite csum_swap. apply csum_ext. intros j _. rewrite <- csum_scal_r. reflexivity. }
  rewrite csum_swap. apply csum_ext. intros l _. rewrite csum_swap. apply csum_ext. intros j _.
  rewrite csum_conj, <- csum_scal_l. apply csum_ext. intros i _. rewrite Cconj_mult, Cconj_conj. ring.
Qed.
Lemma ip_zero_r n m A B : meq n m B mzero -> ip n m A B = 0.
Proof.
  intros H. unfold ip. apply csum_0. intros i Hi. apply csum_0. intros j Hj. rewrite H by assumption. unfold mzero. apply Ceq; cbn; ring.
Qed.
