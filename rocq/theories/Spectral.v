(** Hermitian matrices can be diagonalised: the contract [eigh_ok] of the eigensolver used by Geodesic.v can be met
    for matrices of every size, without failures.  Mathematics only; shows that the hypotheses of the theorems about
    trial points can be satisfied. *)
From Coq Require Import Reals Lra Psatz Arith Lia List Bool ClassicalEpsilon.
From Coquelicot Require Import Coquelicot.
From Verif Require Import LinAlg DescentProofs DescentFacts Geodesic GeodesicProofs MatFun.
Local Open Scope R_scope.

(** ** Maxima of Lipschitz functions on [-1,1]^n *)
Definition box (n : nat) (x : nat -> R) : Prop := forall i, (i < n)%nat -> -1 <= x i <= 1.
Definition dist1 (n : nat) (x y : nat -> R) : R := rsumn n (fun i => Rabs (x i - y i)).
Definition lip (n : nat) (L : R) (f : (nat -> R) -> R) : Prop := forall x y, box n x -> box n y -> f x - f y <= L * dist1 n x y.
Definition upd (x : nat -> R) (n : nat) (z : R) : nat -> R := fun i => if Nat.eqb i n then z else x i.
Definition clamp (z : R) : R := Rmax (-1) (Rmin 1 z).

Lemma clamp_in z : -1 <= clamp z <= 1.
Proof. unfold clamp. split; [apply Rmax_l|]. apply Rmax_lub; [lra|apply Rmin_l]. Qed.
Lemma clamp_id z : -1 <= z <= 1 -> clamp z = z.
Proof. intros H. unfold clamp. rewrite Rmin_right by lra. apply Rmax_right. lra. Qed.
Lemma clamp_lip z y : Rabs (clamp z - clamp y) <= Rabs (z - y).
Proof. unfold clamp, Rmax, Rmin, Rabs. repeat destruct (Rle_dec _ _); repeat destruct (Rcase_abs _); lra. Qed.
Lemma upd_box n x z : box n x -> -1 <= z <= 1 -> box (S n) (upd x n z).
Proof. intros H Hz i Hi. unfold upd. destruct (Nat.eqb i n) eqn:E; [exact Hz|]. apply Nat.eqb_neq in E. apply H. lia. Qed.
Lemma dist1_upd n x y z z' : dist1 (S n) (upd x n z) (upd y n z') = dist1 n x y + Rabs (z - z').
Proof.
  unfold dist1. cbn [rsumn]. unfold upd at 3 4. rewrite Nat.eqb_refl. f_equal. apply rsumn_ext. intros i Hi. unfold upd.
  rewrite (proj2 (Nat.eqb_neq i n)) by lia. reflexivity.
Qed.
Lemma dist1_refl n x : dist1 n x x = 0.
Proof. apply rsumn_0. intros i _. rewrite Rminus_eq_0. apply Rabs_R0. Qed.

Section Max.
  Context (n : nat) (L : R) (f : (nat -> R) -> R) (HL : 0 <= L) (Hf : lip (S n) L f).
  (** the best value over the last coordinate *)
  Definition best (y : nat -> R) : R := real (Lub_Rbar (fun v => exists z, -1 <= z <= 1 /\ v = f (upd y n z))).

  Lemma best_spec y : box n y -> exists z, -1 <= z <= 1 /\ best y = f (upd y n z) /\ forall z', -1 <= z' <= 1 -> f (upd y n z') <= best y.
  Proof.
    intros Hy.
    destruct (continuity_ab_maj (fun z => f (upd y n (clamp z))) (-1) 1 ltac:(lra)) as [z [Hz Hin]].
    { intros c Hc eps He. exists (eps / (L + 1)). split; [apply Rdiv_lt_0_compat; lra|]. intros x [_ Hx]. cbn in Hx |- *. unfold R_dist in *.
      assert (B : forall u v, f (upd y n (clamp u)) - f (upd y n (clamp v)) <= L * Rabs (u - v)).
      { intros u v. eapply Rle_trans; [apply Hf; apply upd_box; try assumption; apply clamp_in|]. rewrite dist1_upd, dist1_refl, Rplus_0_l.
        apply Rmult_le_compat_l; [exact HL|apply clamp_lip]. }
      pose proof (B x c) as B1. pose proof (B c x) as B2. rewrite (Rabs_minus_sym c x) in B2.
      assert (X : L * Rabs (x - c) < eps).
      { apply Rle_lt_trans with (L * (eps / (L + 1))); [apply Rmult_le_compat_l; lra|]. unfold Rdiv. rewrite <- Rmult_assoc, (Rmult_comm L), Rmult_assoc.
        assert (L * / (L + 1) < 1). { apply (Rmult_lt_reg_r (L + 1)); [lra|]. rewrite Rmult_assoc, Rinv_l by lra. lra. }
        nra. }
      apply Rabs_def1; lra. }
    exists z. split; [exact Hin|].
    assert (M : forall z', -1 <= z' <= 1 -> f (upd y n z') <= f (upd y n z)).
    { intros z' Hz'. specialize (Hz z' Hz'). cbv beta in Hz. rewrite !clamp_id in Hz by assumption. exact Hz. }
    assert (E : best y = f (upd y n z)).
    { unfold best. rewrite (is_lub_Rbar_unique _ (Finite (f (upd y n z)))); [reflexivity|]. split.
      - intros v [z' [Hz' ->]]. cbn. apply M, Hz'.
      - intros b Hb. apply (Hb (f (upd y n z))). exists z. auto. }
    split; [exact E|]. intros z' Hz'. rewrite E. apply M, Hz'.
  Qed.
  Lemma best_lip : lip n L best.
  Proof.
    intros x y Hx Hy. destruct (best_spec x Hx) as [z [Hz [E _]]]. destruct (best_spec y Hy) as [_ [_ [_ M]]].
    specialize (M z Hz). rewrite E. pose proof (Hf (upd x n z) (upd y n z) (upd_box _ _ _ Hx Hz) (upd_box _ _ _ Hy Hz)) as B.
    rewrite dist1_upd, Rminus_eq_0, Rabs_R0, Rplus_0_r in B. lra.
  Qed.
End Max.

Lemma lip_ext_coords n L f x y : lip n L f -> box n x -> (forall i, (i < n)%nat -> x i = y i) -> f x = f y.
Proof.
  intros Hf Hx E. assert (Hy : box n y). { intros i Hi. rewrite <- (E i Hi). apply Hx, Hi. }
  assert (D : dist1 n x y = 0). { apply rsumn_0. intros i Hi. rewrite (E i Hi), Rminus_eq_0. apply Rabs_R0. }
  assert (D' : dist1 n y x = 0). { apply rsumn_0. intros i Hi. rewrite (E i Hi), Rminus_eq_0. apply Rabs_R0. }
  pose proof (Hf x y Hx Hy) as A. pose proof (Hf y x Hy Hx) as B. rewrite D in A. rewrite D' in B. lra.
Qed.

Lemma max_box n : forall L f, 0 <= L -> lip n L f -> exists x, box n x /\ forall y, box n y -> f y <= f x.
Proof.
  induction n as [|n IH]; intros L f HL Hf.
  - exists (fun _ => 0). split; [intros i Hi; lia|]. intros y Hy.
    assert (Hb : box 0 (fun _ => 0)) by (intros i Hi; lia). pose proof (Hf y _ Hy Hb) as A. unfold dist1 in A. cbn in A. lra.
  - destruct (IH L (best n f) HL (best_lip n L f HL Hf)) as [x [Hx M]].
    destruct (best_spec n L f HL Hf x Hx) as [z [Hz [E _]]].
    exists (upd x n z). split; [apply upd_box; assumption|]. intros y Hy.
    assert (Hy' : box n y) by (intros i Hi; apply Hy; lia).
    destruct (best_spec n L f HL Hf y Hy') as [_ [_ [_ B]]]. specialize (B (y n) (Hy n (Nat.lt_succ_diag_r n))).
    rewrite <- E. eapply Rle_trans; [|exact (M y Hy')]. eapply Rle_trans; [|exact B].
    right. apply (lip_ext_coords (S n) L f); [exact Hf|exact Hy|]. intros i Hi. unfold upd. destruct (Nat.eqb i n) eqn:X; [apply Nat.eqb_eq in X; subst; reflexivity|reflexivity].
Qed.

(** polynomials of the coordinates *)
Definition lipb (n : nat) (f : (nat -> R) -> R) : Prop := exists L B, 0 <= L /\ 0 <= B /\
  (forall x y, box n x -> box n y -> Rabs (f x - f y) <= L * dist1 n x y) /\ (forall x, box n x -> Rabs (f x) <= B).
Lemma dist1_pos n x y : 0 <= dist1 n x y.
Proof. apply rsumn_nonneg. intros; apply Rabs_pos. Qed.
Lemma lipb_const n c : lipb n (fun _ => c).
Proof.
  exists 0, (Rabs c). split; [lra|]. split; [apply Rabs_pos|]. split; [|intros; apply Rle_refl]. intros x y _ _. rewrite Rminus_eq_0, Rabs_R0. lra.
Qed.
Lemma lipb_coord n i : (i < n)%nat -> lipb n (fun x => x i).
Proof.
  intros Hi. exists 1, 1. split; [lra|]. split; [lra|]. split.
  - intros x y _ _. rewrite Rmult_1_l. apply (rsumn_term n (fun i => Rabs (x i - y i)) i Hi). intros; apply Rabs_pos.
  - intros x Hx. apply Rabs_le. apply Hx, Hi.
Qed.
Lemma lipb_plus n f g : lipb n f -> lipb n g -> lipb n (fun x => f x + g x).
Proof.
  intros (L & B & HL & HB & H1 & H2) (L' & B' & HL' & HB' & H1' & H2'). exists (L + L'), (B + B'). split; [lra|]. split; [lra|]. split.
  - intros x y Hx Hy. replace (f x + g x - (f y + g y)) with ((f x - f y) + (g x - g y)) by ring.
    eapply Rle_trans; [apply Rabs_triang|]. pose proof (H1 x y Hx Hy). pose proof (H1' x y Hx Hy). lra.
  - intros x Hx. eapply Rle_trans; [apply Rabs_triang|]. pose proof (H2 x Hx). pose proof (H2' x Hx). lra.
Qed.
Lemma lipb_mult n f g : lipb n f -> lipb n g -> lipb n (fun x => f x * g x).
Proof.
  intros (L & B & HL & HB & H1 & H2) (L' & B' & HL' & HB' & H1' & H2'). exists (L * B' + B * L'), (B * B'). split; [nra|]. split; [nra|]. split.
  - intros x y Hx Hy. replace (f x * g x - f y * g y) with ((f x - f y) * g x + f y * (g x - g y)) by ring.
    eapply Rle_trans; [apply Rabs_triang|]. rewrite !Rabs_mult. rewrite Rmult_plus_distr_r. apply Rplus_le_compat.
    + replace (L * B' * dist1 n x y) with (L * dist1 n x y * B') by ring. apply Rmult_le_compat; auto using Rabs_pos.
    + rewrite Rmult_assoc. apply Rmult_le_compat; auto using Rabs_pos.
  - intros x Hx. rewrite Rabs_mult. apply Rmult_le_compat; auto using Rabs_pos.
Qed.
Lemma lipb_sum n m (f : nat -> (nat -> R) -> R) : (forall i, (i < m)%nat -> lipb n (f i)) -> lipb n (fun x => rsumn m (fun i => f i x)).
Proof.
  induction m as [|m IH]; intros H; cbn [rsumn]; [apply lipb_const|]. apply lipb_plus; [apply IH; intros; apply H; lia|apply H; lia].
Qed.
Lemma lipb_ext n f g : (forall x, f x = g x) -> lipb n f -> lipb n g.
Proof. intros E (L & B & HL & HB & H1 & H2). exists L, B. repeat split; try assumption; intros; rewrite <- !E; auto. Qed.
Lemma max_lipb n f : lipb n f -> exists x, box n x /\ forall y, box n y -> f y <= f x.
Proof.
  intros (L & B & HL & _ & H & _). apply (max_box n L f HL). intros x y Hx Hy. eapply Rle_trans; [apply Rle_abs|apply H; assumption].
Qed.

(** ** The largest eigenvalue *)
Definition norm2 (m : nat) (v : nat -> C) : R := rsumn m (fun i => nsq (v i)).
(** complex vector of 2m real coordinates *)
Definition cvec (x : nat -> R) : nat -> C := fun i => (x (2 * i)%nat, x (2 * i + 1)%nat).
Definition rvec (v : nat -> C) : nat -> R := fun j => if Nat.even j then Re (v (Nat.div2 j)) else Im (v (Nat.div2 j)).
Lemma cvec_rvec v i : cvec (rvec v) i = v i.
Proof.
  unfold cvec, rvec. rewrite Nat.even_mul. cbn [Nat.even orb]. rewrite Nat.div2_double.
  replace (2 * i + 1)%nat with (S (2 * i)) by lia. rewrite Nat.even_succ, <- Nat.negb_even, Nat.even_mul. cbn [Nat.even orb negb].
  rewrite Nat.div2_succ_double. destruct (v i). reflexivity.
Qed.

Lemma quad_Re m A v : Re (quad m A v) = rsumn m (fun i => rsumn m (fun j =>
  Re (A i j) * (fst (v i) * fst (v j) + snd (v i) * snd (v j)) + Im (A i j) * (snd (v i) * fst (v j) - fst (v i) * snd (v j)))).
Proof.
  unfold quad. rewrite csum_Re. apply rsumn_ext. intros i _. rewrite csum_Re. apply rsumn_ext. intros j _.
  destruct (v i) as [a b], (v j) as [c d], (A i j) as [e f]. unfold Re, Im, Cmult, Cconj. cbn [fst snd]. ring.
Qed.
Lemma quad_lipb m A : lipb (2 * m) (fun x => Re (quad m A (cvec x))).
Proof.
  eapply lipb_ext; [intros x; symmetry; apply quad_Re|].
  apply (lipb_sum (2 * m) m (fun i x => rsumn m (fun j => Re (A i j) * (fst (cvec x i) * fst (cvec x j) + snd (cvec x i) * snd (cvec x j)) + Im (A i j) * (snd (cvec x i) * fst (cvec x j) - fst (cvec x i) * snd (cvec x j))))).
  intros i Hi. apply (lipb_sum (2 * m) m (fun j x => Re (A i j) * (fst (cvec x i) * fst (cvec x j) + snd (cvec x i) * snd (cvec x j)) + Im (A i j) * (snd (cvec x i) * fst (cvec x j) - fst (cvec x i) * snd (cvec x j)))).
  intros j Hj. unfold cvec. cbn [fst snd].
  apply lipb_plus.
  - apply lipb_mult; [apply lipb_const|]. apply lipb_plus; apply lipb_mult; apply lipb_coord; lia.
  - apply lipb_mult; [apply lipb_const|]. unfold Rminus. apply lipb_plus; [apply lipb_mult; apply lipb_coord; lia|].
    eapply (lipb_ext _ (fun x => -1 * (x (2 * i)%nat * x (2 * j + 1)%nat))); [intros; ring|].
    apply lipb_mult; [apply lipb_const|]. apply lipb_mult; apply lipb_coord; lia.
Qed.
Lemma norm2_lipb m : lipb (2 * m) (fun x => norm2 m (cvec x)).
Proof.
  unfold norm2. apply (lipb_sum (2 * m) m (fun i x => nsq (cvec x i))). intros i Hi. unfold nsq, cvec. cbn [fst snd].
  apply lipb_plus; apply lipb_mult; apply lipb_coord; lia.
Qed.
Lemma norm2_pos m v : 0 <= norm2 m v.
Proof. apply rsumn_nonneg. intros; apply nsq_pos. Qed.
Lemma norm2_entry m v i : (i < m)%nat -> nsq (v i) <= norm2 m v.
Proof. intros Hi. apply (rsumn_term m (fun i => nsq (v i)) i Hi). intros; apply nsq_pos. Qed.
Lemma norm2_ext m u v : (forall i, (i < m)%nat -> u i = v i) -> norm2 m u = norm2 m v.
Proof. intros H. apply rsumn_ext. intros i Hi. rewrite (H i Hi). reflexivity. Qed.
Lemma quad_ext_v m A u v : (forall i, (i < m)%nat -> u i = v i) -> quad m A u = quad m A v.
Proof. intros H. unfold quad. apply csum_ext. intros i Hi. apply csum_ext. intros j Hj. rewrite (H i Hi), (H j Hj). reflexivity. Qed.
Lemma norm2_scal m (s : R) v : norm2 m (fun i => Cmult (RtoC s) (v i)) = s * s * norm2 m v.
Proof. unfold norm2. rewrite <- rsumn_scal. apply rsumn_ext. intros i _. unfold nsq, Cmult, RtoC. cbn [fst snd]. ring. Qed.
Lemma quad_scal_v m A (s : R) v : Re (quad m A (fun i => Cmult (RtoC s) (v i))) = s * s * Re (quad m A v).
Proof.
  rewrite !quad_Re, <- rsumn_scal. apply rsumn_ext. intros i _. rewrite <- rsumn_scal. apply rsumn_ext. intros j _.
  unfold Cmult, RtoC. cbn [fst snd]. ring.
Qed.

(** |v^H A v| <= K |v|^2 *)
Definition mbound (m : nat) (A : mat) : R := rsumn m (fun i => rsumn m (fun j => 2 * Cmod (A i j))).
Lemma mbound_pos m A : 0 <= mbound m A.
Proof. apply rsumn_nonneg. intros i _. apply rsumn_nonneg. intros j _. pose proof (Cmod_ge_0 (A i j)). lra. Qed.
Lemma quad_bound m A v : Rabs (Re (quad m A v)) <= mbound m A * norm2 m v.
Proof.
  eapply Rle_trans; [apply Re_le_Cmod|]. unfold quad. eapply Rle_trans; [apply Cmod_csum|].
  unfold mbound. rewrite Rmult_comm, <- rsumn_scal. apply rsumn_le. intros i Hi. eapply Rle_trans; [apply Cmod_csum|].
  rewrite <- rsumn_scal. apply rsumn_le. intros j Hj. rewrite !Cmod_mult, Cmod_conj.
  pose proof (norm2_entry m v i Hi) as Ni. pose proof (norm2_entry m v j Hj) as Nj. rewrite nsq_Cmod in Ni, Nj.
  pose proof (Cmod_ge_0 (v i)). pose proof (Cmod_ge_0 (v j)). pose proof (Cmod_ge_0 (A i j)). pose proof (norm2_pos m v).
  assert (X : Cmod (v i) * Cmod (v j) <= norm2 m v) by nra. nra.
Qed.

(** <u, v>, real part *)
Definition rip (m : nat) (u v : nat -> C) : R := rsumn m (fun i => fst (u i) * fst (v i) + snd (u i) * snd (v i)).
Lemma norm2_line m v u t : norm2 m (fun i => Cplus (v i) (Cmult (RtoC t) (u i))) = norm2 m v + 2 * t * rip m u v + t * t * norm2 m u.
Proof.
  unfold norm2, rip. rewrite <- !rsumn_scal, <- !rsumn_plus. apply rsumn_ext. intros i _. destruct (v i), (u i). unfold nsq, Cplus, Cmult, RtoC. cbn [fst snd]. ring.
Qed.
Definition mapply (m : nat) (A : mat) (v : nat -> C) : nat -> C := fun i => csum m (fun j => Cmult (A i j) (v j)).
Lemma quad_line m A v u t : hermitian m A ->
  Re (quad m A (fun i => Cplus (v i) (Cmult (RtoC t) (u i)))) = Re (quad m A v) + 2 * t * rip m u (mapply m A v) + t * t * Re (quad m A u).
Proof.
  intros HA.
  assert (E1 : forall x y, Re (csum m (fun i => csum m (fun j => Cmult (Cmult (Cconj (x i)) (A i j)) (y j)))) = rip m x (mapply m A y)).
  { intros x y. rewrite csum_Re. unfold rip. apply rsumn_ext. intros i _. unfold mapply.
    rewrite (csum_ext m _ (fun j => Cmult (Cconj (x i)) (Cmult (A i j) (y j)))) by (intros; ring). rewrite csum_scal_l.
    destruct (x i) as [a b]. destruct (csum m _) as [c d]. unfold Re, Cmult, Cconj. cbn [fst snd]. ring. }
  assert (E2 : rip m v (mapply m A u) = rip m u (mapply m A v)).
  { rewrite <- !E1. rewrite <- (Re_conj (csum m (fun i => csum m (fun j => Cmult (Cmult (Cconj (v i)) (A i j)) (u j))))). f_equal.
    rewrite csum_conj. rewrite (csum_ext m _ (fun i => csum m (fun j => Cmult (Cmult (Cconj (u j)) (A j i)) (v i)))).
    - apply csum_swap.
    - intros i Hi. rewrite csum_conj. apply csum_ext. intros j Hj. rewrite !Cconj_mult, Cconj_conj.
      replace (Cconj (A i j)) with (A j i); [ring|]. symmetry. exact (HA j i Hj Hi). }
  unfold quad at 1.
  rewrite (csum_ext m _ (fun i => Cplus (csum m (fun j => Cmult (Cmult (Cconj (v i)) (A i j)) (v j)))
    (Cplus (Cmult (RtoC t) (Cplus (csum m (fun j => Cmult (Cmult (Cconj (v i)) (A i j)) (u j))) (csum m (fun j => Cmult (Cmult (Cconj (u i)) (A i j)) (v j)))))
      (Cmult (RtoC (t * t)) (csum m (fun j => Cmult (Cmult (Cconj (u i)) (A i j)) (u j))))))).
  2:{ intros i _. rewrite <- csum_plus, <- !csum_scal_l, <- !csum_plus. apply csum_ext. intros j _. rewrite Cconj_plus, Cconj_mult, Cconj_R, RtoC_mult. ring. }
  rewrite !csum_plus, !csum_scal_l, csum_plus, !Re_plus, !Re_scal, Re_plus, !E1, E2.
  assert (Q : forall x, rip m x (mapply m A x) = Re (quad m A x)). { intros x. rewrite <- E1. reflexivity. }
  rewrite !Q. ring.
Qed.

Theorem top_eigenvalue m A : (0 < m)%nat -> hermitian m A ->
  exists (v : nat -> C) (lam : R), norm2 m v = 1 /\ (forall i, (i < m)%nat -> mapply m A v i = Cmult (RtoC lam) (v i)) /\
  forall u, norm2 m u = 1 -> Re (quad m A u) <= lam.
Proof.
  intros Hm HA. set (K := mbound m A + 1). pose proof (mbound_pos m A) as Kp. set (c := 2 * K + 1).
  assert (HK : 1 <= K) by (unfold K; lra).
  (* v^H (A + K) v *)
  set (Q := fun v => Re (quad m A v) + K * norm2 m v).
  assert (Qb : forall v, norm2 m v <= Q v <= 2 * K * norm2 m v).
  { intros v. unfold Q. pose proof (quad_bound m A v) as B. pose proof (norm2_pos m v) as N. unfold Rabs in B. destruct (Rcase_abs _) in B; unfold K; split; nra. }
  set (phi := fun v => Q v - c * (norm2 m v * norm2 m v)).
  assert (Hlip : lipb (2 * m) (fun x => phi (cvec x))).
  { unfold phi, Q, Rminus. apply lipb_plus.
    - apply lipb_plus; [apply quad_lipb|]. apply lipb_mult; [apply lipb_const|apply norm2_lipb].
    - eapply (lipb_ext _ (fun x => - c * (norm2 m (cvec x) * norm2 m (cvec x)))); [intros; ring|].
      apply lipb_mult; [apply lipb_const|]. apply lipb_mult; apply norm2_lipb. }
  destruct (max_lipb (2 * m) _ Hlip) as [x [Hx Hmax]]. set (v := cvec x).
  (* vectors of norm below 1 are in the box *)
  assert (Inb : forall u, norm2 m u <= 1 -> phi u <= phi v).
  { intros u Hu. specialize (Hmax (rvec u)). cbv beta in Hmax.
    assert (E : phi (cvec (rvec u)) = phi u).
    { unfold phi, Q. rewrite (norm2_ext m (cvec (rvec u)) u) by (intros; apply cvec_rvec). rewrite (quad_ext_v m A (cvec (rvec u)) u) by (intros; apply cvec_rvec). reflexivity. }
    rewrite E in Hmax. apply Hmax. intros j Hj.
    assert (Hi : (Nat.div2 j < m)%nat). { pose proof (Nat.div2_odd j). destruct (Nat.odd j); cbn [Nat.b2n] in *; lia. }
    pose proof (norm2_entry m u _ Hi) as N. unfold nsq in N. unfold rvec. destruct (Nat.even j); unfold Re, Im; split; nra. }
  (* every unit vector *)
  assert (Ray : forall u, norm2 m u = 1 -> Q u * Q u <= 4 * c * phi v).
  { intros u Hu. destruct (Qb u) as [Q1 Q2]. rewrite Hu in Q1, Q2.
    set (s2 := Q u / (2 * c)). assert (Hc : 0 < 2 * c) by (unfold c; lra).
    assert (Hs : 0 <= s2 <= 1). { unfold s2. split; [apply Rlt_le, Rdiv_lt_0_compat; lra|]. apply (Rmult_le_reg_r (2 * c)); [exact Hc|]. unfold Rdiv. rewrite Rmult_assoc, Rinv_l by lra. unfold c. lra. }
    assert (Hss : sqrt s2 * sqrt s2 = s2) by (apply sqrt_sqrt; lra).
    assert (P : phi (fun i => Cmult (RtoC (sqrt s2)) (u i)) = s2 * Q u - c * (s2 * s2)).
    { unfold phi, Q. rewrite norm2_scal, quad_scal_v, Hu, Hss. ring. }
    assert (N : norm2 m (fun i => Cmult (RtoC (sqrt s2)) (u i)) <= 1) by (rewrite norm2_scal, Hss, Hu; lra).
    pose proof (Inb _ N) as I. rewrite P in I.
    assert (E : s2 * Q u - c * (s2 * s2) = Q u * Q u / (4 * c)). { unfold s2. field. unfold c. lra. }
    rewrite E in I. apply (Rmult_le_compat_r (4 * c)) in I; [|unfold c; lra]. unfold Rdiv in I. rewrite (Rmult_assoc (Q u * Q u)), Rinv_l in I by (unfold c; lra). lra. }
  (* phi v > 0 *)
  assert (Pv : 0 < phi v).
  { set (e0 := fun i : nat => if Nat.eqb i 0 then RtoC 1 else RtoC 0).
    assert (N0 : norm2 m e0 = 1).
    { unfold norm2. destruct m as [|m']; [lia|]. clear. induction m' as [|m' IH]; [cbn; unfold nsq; cbn; lra|]. cbn [rsumn] in *. rewrite IH. unfold e0. cbn [Nat.eqb]. unfold nsq, RtoC. cbn [fst snd]. ring. }
    pose proof (Ray e0 N0) as R0. destruct (Qb e0) as [Q1 _]. rewrite N0 in Q1. assert (1 <= Q e0 * Q e0) by nra. unfold c in R0. nra. }
  assert (Nv0 : 0 < norm2 m v < 1).
  { destruct (Qb v) as [_ Q2]. pose proof (norm2_pos m v) as N. unfold phi in Pv. set (N2 := norm2 m v) in *. split.
    - destruct N as [N|N]; [exact N|]. exfalso. rewrite <- N in Pv, Q2. lra.
    - apply Rnot_le_lt. intros X. assert (Hc : 0 < c) by (unfold c; lra). assert (X1 : N2 <= N2 * N2) by nra.
      assert (X2 : c * N2 <= c * (N2 * N2)) by (apply Rmult_le_compat_l; lra). assert (X3 : c * N2 = 2 * K * N2 + N2) by (unfold c; ring). lra. }
  (* stationary *)
  set (lam := 2 * c * norm2 m v).
  assert (Stat : forall u, rip m u (mapply m A v) + K * rip m u v = lam * rip m u v).
  { intros u. set (a := rip m u (mapply m A v)). set (b := rip m u v). set (Nu := norm2 m u). set (N2 := norm2 m v) in *. set (qv := Re (quad m A v)). set (qu := Re (quad m A u)).
    set (psi := fun t => qv + 2 * t * a + t * t * qu + K * (N2 + 2 * t * b + t * t * Nu) - c * ((N2 + 2 * t * b + t * t * Nu) * (N2 + 2 * t * b + t * t * Nu))).
    assert (Epsi : forall t, phi (fun i => Cplus (v i) (Cmult (RtoC t) (u i))) = psi t).
    { intros t. unfold phi, Q. rewrite norm2_line, (quad_line m A v u t HA). fold a b Nu N2 qv qu. reflexivity. }
    assert (E0 : phi v = psi 0). { rewrite <- (Epsi 0). unfold phi, Q. rewrite norm2_line, (quad_line m A v u 0 HA). ring. }
    (* steps that stay in the unit ball *)
    set (r := (1 - N2) / (2 * (2 * Rabs b + Nu + 1))).
    pose proof (Rabs_pos b) as Pb. assert (PN : 0 <= Nu) by apply norm2_pos.
    assert (Hr : 0 < r). { unfold r. apply Rdiv_lt_0_compat; lra. }
    assert (Hr' : r * (2 * Rabs b + Nu + 1) <= (1 - N2) / 2). { unfold r. right. field. lra. }
    assert (M : forall t, - (Rmin r 1) < t < Rmin r 1 -> psi t <= psi 0).
    { intros t Ht. rewrite <- Epsi, <- E0. apply Inb. rewrite norm2_line. fold b Nu N2.
      assert (Ht1 : Rabs t < r). { apply Rabs_def1; pose proof (Rmin_l r 1); lra. } assert (Ht2 : Rabs t < 1). { apply Rabs_def1; pose proof (Rmin_r r 1); lra. }
      pose proof (Rabs_pos t) as Pt.
      assert (T1 : t * b <= Rabs t * Rabs b). { rewrite <- Rabs_mult. apply Rle_abs. }
      assert (T2 : t * t <= Rabs t). { assert (t * t = Rabs t * Rabs t) by (unfold Rabs; destruct (Rcase_abs t); ring). nra. }
      assert (T3 : Rabs t * (2 * Rabs b + Nu + 1) <= r * (2 * Rabs b + Nu + 1)) by (apply Rmult_le_compat_r; lra).
      nra. }
    assert (D : is_derive psi 0 (2 * a + 2 * K * b - 4 * c * N2 * b)). { unfold psi. auto_derive; [trivial|]. ring. }
    assert (pr : derivable_pt psi 0). { exists (2 * a + 2 * K * b - 4 * c * N2 * b). apply is_derive_Reals, D. }
    assert (Hmin : 0 < Rmin r 1) by (apply Rmin_glb_lt; lra).
    pose proof (deriv_maximum psi (- Rmin r 1) (Rmin r 1) 0 pr ltac:(lra) ltac:(lra) (fun t h1 h2 => M t (Logic.conj h1 h2))) as Z.
    rewrite (derive_pt_eq_0 psi 0 _ pr (proj1 (is_derive_Reals psi 0 _) D)) in Z. unfold lam. fold N2. lra. }
  assert (Ev : forall i, (i < m)%nat -> mapply m A v i = Cmult (RtoC (lam - K)) (v i)).
  { set (u := fun i => Cminus (mapply m A v i) (Cmult (RtoC (lam - K)) (v i))). pose proof (Stat u) as S0.
    assert (Z : norm2 m u = 0).
    { assert (X : norm2 m u = rip m u (mapply m A v) - (lam - K) * rip m u v).
      { unfold norm2, rip. rewrite <- rsumn_scal. replace (rsumn m _ - rsumn m _) with (rsumn m (fun i => fst (u i) * fst (mapply m A v i) + snd (u i) * snd (mapply m A v i)) + -1 * rsumn m (fun i => (lam - K) * (fst (u i) * fst (v i) + snd (u i) * snd (v i)))) by ring.
        rewrite <- rsumn_scal, <- rsumn_plus. apply rsumn_ext. intros i _. unfold u. destruct (mapply m A v i), (v i). unfold nsq, Cminus, Cplus, Copp, Cmult, RtoC. cbn [fst snd]. ring. }
      rewrite X. lra. }
    intros i Hi. pose proof (rsumn_zero_terms m (fun i => nsq (u i)) (fun i _ => nsq_pos (u i)) Z i Hi) as E. apply nsq_0 in E. unfold u in E.
    replace (mapply m A v i) with (Cplus (Cminus (mapply m A v i) (Cmult (RtoC (lam - K)) (v i))) (Cmult (RtoC (lam - K)) (v i))) by ring. rewrite E. ring. }
  (* phi v = lam^2 / 4c *)
  assert (Qv : Re (quad m A v) = (lam - K) * norm2 m v).
  { unfold quad. rewrite csum_Re. unfold norm2. rewrite <- rsumn_scal. apply rsumn_ext. intros i Hi.
    rewrite (csum_ext m _ (fun j => Cmult (Cconj (v i)) (Cmult (A i j) (v j)))) by (intros; ring). rewrite csum_scal_l. fold (mapply m A v i). rewrite (Ev i Hi).
    replace (Cmult (Cconj (v i)) (Cmult (RtoC (lam - K)) (v i))) with (Cmult (RtoC (lam - K)) (Cmult (Cconj (v i)) (v i))) by ring. rewrite nsq_conj, Re_scal, Re_R. reflexivity. }
  assert (Phi : 4 * c * phi v = lam * lam). { unfold phi, Q. rewrite Qv. unfold lam. ring. }
  set (nv := sqrt (norm2 m v)). assert (Hn : nv * nv = norm2 m v) by (apply sqrt_sqrt; lra). assert (Hn0 : 0 < nv) by (apply sqrt_lt_R0; lra).
  exists (fun i => Cmult (RtoC (/ nv)) (v i)), (lam - K). split; [|split].
  - rewrite norm2_scal, <- Hn. field. lra.
  - intros i Hi. unfold mapply. rewrite (csum_ext m _ (fun j => Cmult (RtoC (/ nv)) (Cmult (A i j) (v j)))) by (intros; ring). rewrite csum_scal_l. fold (mapply m A v i). rewrite (Ev i Hi). ring.
  - intros u Hu. pose proof (Ray u Hu) as R1. rewrite Phi in R1. destruct (Qb u) as [Q1 _]. rewrite Hu in Q1.
    assert (Lp : 0 < lam) by (unfold lam, c; nra). assert (Q u <= lam) by nra. unfold Q in *. rewrite Hu in *. lra.
Qed.

(** ** A unitary matrix with a given unit vector as last column *)
Definition reflect (k : R) (u : nat -> C) : mat := fun i j => Cminus (mid i j) (Cmult (RtoC k) (Cmult (u i) (Cconj (u j)))).
Lemma reflect_hermitian k u : adj (reflect k u) = reflect k u.
Proof.
  apply mat_ext. intros i j. unfold adj, reflect. rewrite Cconj_minus, !Cconj_mult, Cconj_conj, Cconj_R. f_equal; [|ring].
  change (Cconj (mid j i)) with (adj mid i j). rewrite adj_mid. reflexivity.
Qed.
Lemma reflect_invol m k u : k * k * norm2 m u = 2 * k -> meq m m (mmul m (reflect k u) (reflect k u)) mid.
Proof.
  intros Hk i j Hi Hj. unfold mmul, reflect.
  rewrite (csum_ext m _ (fun l => Cplus (Cminus (Cmult (mid i l) (mid l j)) (Cplus (Cmult (Cmult (RtoC k) (u i)) (Cmult (Cconj (u l)) (mid l j))) (Cmult (Cmult (RtoC k) (Cconj (u j))) (Cmult (mid i l) (u l)))))
     (Cmult (Cmult (RtoC (k * k)) (Cmult (u i) (Cconj (u j)))) (RtoC (nsq (u l)))))).
  2:{ intros l _. rewrite <- nsq_conj, RtoC_mult. ring. }
  rewrite csum_plus, csum_minus, csum_plus, !csum_scal_l, csum_RtoC. fold (norm2 m u).
  rewrite (csum_one m j (fun l => Cmult (Cconj (u l)) (mid l j)) Hj).
  2:{ intros l _ X. unfold mid. rewrite (proj2 (Nat.eqb_neq l j) X). ring. }
  rewrite (csum_one m i (fun l => Cmult (mid i l) (u l)) Hi).
  2:{ intros l _ X. unfold mid. rewrite (proj2 (Nat.eqb_neq i l)) by congruence. ring. }
  rewrite (csum_one m j (fun l => Cmult (mid i l) (mid l j)) Hj).
  2:{ intros l _ X. unfold mid at 2. rewrite (proj2 (Nat.eqb_neq l j) X). ring. }
  replace (mid i i) with (RtoC 1) by (unfold mid; rewrite Nat.eqb_refl; reflexivity). replace (mid j j) with (RtoC 1) by (unfold mid; rewrite Nat.eqb_refl; reflexivity).
  replace (Cmult (Cmult (RtoC (k * k)) (Cmult (u i) (Cconj (u j)))) (RtoC (norm2 m u))) with (Cmult (RtoC (k * k * norm2 m u)) (Cmult (u i) (Cconj (u j)))) by (rewrite !RtoC_mult; ring).
  rewrite Hk. replace (2 * k) with (k + k) by ring. rewrite RtoC_plus. ring.
Qed.
Lemma invol_unitary m H : adj H = H -> meq m m (mmul m H H) mid -> unitary m H.
Proof. intros E I. split; rewrite E; exact I. Qed.

Lemma last_column n v r : norm2 (S n) v = 1 -> v n = RtoC r ->
  exists Q, unitary (S n) Q /\ forall i, (i < S n)%nat -> Q i n = v i.
Proof.
  intros Hv Hr. set (u := fun i => Cminus (v i) (mid i n)).
  assert (Nu : norm2 (S n) u = 2 - 2 * r).
  { unfold norm2 in *. cbn [rsumn] in *. unfold u at 2. rewrite Hr in *. unfold mid at 1. rewrite Nat.eqb_refl.
    rewrite (rsumn_ext n (fun i => nsq (u i)) (fun i => nsq (v i))).
    - unfold nsq, Cminus, Cplus, Copp, RtoC in *. cbn [fst snd] in *. lra.
    - intros i Hi. unfold u, mid. rewrite (proj2 (Nat.eqb_neq i n)) by lia. f_equal. ring. }
  destruct (Req_dec r 1) as [E|E].
  - exists mid. split; [apply mid_unitary|]. intros i Hi.
    assert (Z : norm2 (S n) u = 0) by lra. pose proof (rsumn_zero_terms _ _ (fun i _ => nsq_pos (u i)) Z i Hi) as X. apply nsq_0 in X. unfold u in X.
    replace (v i) with (Cplus (Cminus (v i) (mid i n)) (mid i n)) by ring. rewrite X. ring.
  - exists (reflect (/ (1 - r)) u). split.
    + apply invol_unitary; [apply reflect_hermitian|]. apply reflect_invol. rewrite Nu. field. lra.
    + intros i Hi. unfold reflect. assert (Un : Cconj (u n) = RtoC (r - 1)).
      { unfold u. rewrite Hr. unfold mid. rewrite Nat.eqb_refl, Cconj_minus, !Cconj_R, <- RtoC_minus. reflexivity. }
      rewrite Un. replace (Cmult (RtoC (/ (1 - r))) (Cmult (u i) (RtoC (r - 1)))) with (Cmult (RtoC (/ (1 - r) * (r - 1))) (u i)) by (rewrite RtoC_mult; ring).
      replace (/ (1 - r) * (r - 1)) with (-1) by (field; lra). unfold u. apply Ceq; cbn; ring.
Qed.

(** rotate the phase so that a given entry is real *)
Lemma phase (z : C) : exists a : C, nsq a = 1 /\ exists r : R, Cmult a z = RtoC r.
Proof.
  destruct (Req_dec (nsq z) 0) as [E|E].
  - exists (RtoC 1). split; [unfold nsq, RtoC; cbn; ring|]. exists 0. rewrite (nsq_0 z E). ring.
  - pose proof (nsq_pos z) as P. set (s := sqrt (nsq z)). assert (Hs : s * s = nsq z) by (apply sqrt_sqrt; lra).
    assert (Hs0 : s <> 0) by (intros X; rewrite X in Hs; lra).
    exists (Cmult (RtoC (/ s)) (Cconj z)). split.
    + transitivity (/ s * / s * nsq z); [|rewrite <- Hs; field; exact Hs0]. destruct z. unfold nsq, Cmult, Cconj, RtoC. cbn [fst snd]. ring.
    + exists (/ s * nsq z). rewrite RtoC_mult, <- nsq_conj. ring.
Qed.

(** ** Diagonalisation *)
Definition grow (n : nat) (U : mat) : mat := fun i j => if Nat.ltb i n then (if Nat.ltb j n then U i j else RtoC 0) else mid i j.
Definition growd (n : nat) (w : nat -> R) (l : R) : nat -> R := fun j => if Nat.ltb j n then w j else l.

Lemma grow_in n U i j : (i < n)%nat -> (j < n)%nat -> grow n U i j = U i j.
Proof. intros Hi Hj. unfold grow. rewrite (proj2 (Nat.ltb_lt i n) Hi), (proj2 (Nat.ltb_lt j n) Hj). reflexivity. Qed.
Lemma grow_col n U i : (i < n)%nat -> grow n U i n = RtoC 0.
Proof. intros Hi. unfold grow. rewrite (proj2 (Nat.ltb_lt i n) Hi), Nat.ltb_irrefl. reflexivity. Qed.
Lemma grow_row n U j : (j < n)%nat -> grow n U n j = RtoC 0.
Proof. intros Hj. unfold grow, mid. rewrite Nat.ltb_irrefl, (proj2 (Nat.eqb_neq n j)) by lia. reflexivity. Qed.
Lemma grow_corner n U : grow n U n n = RtoC 1.
Proof. unfold grow, mid. rewrite Nat.ltb_irrefl, Nat.eqb_refl. reflexivity. Qed.

Ltac cases_last i n Hi := destruct (Nat.eq_dec i n) as [->|Hi']; [|assert (i < n)%nat by lia; clear Hi' Hi].

Lemma grow_unitary n U : unitary n U -> unitary (S n) (grow n U).
Proof.
  intros [U1 U2]. split; intros i j Hi Hj; unfold mmul; cbn [csum]; unfold adj.
  - destruct (Nat.eq_dec i n) as [->|Ni]; destruct (Nat.eq_dec j n) as [->|Nj].
    + rewrite csum_0. 2:{ intros l Hl. rewrite grow_col by assumption. rewrite Cconj_R. ring. } rewrite grow_corner, Cconj_R. unfold mid. rewrite Nat.eqb_refl. ring.
    + rewrite csum_0. 2:{ intros l Hl. rewrite grow_col by assumption. rewrite Cconj_R. ring. } rewrite grow_corner, grow_row by lia. rewrite Cconj_R. unfold mid. rewrite (proj2 (Nat.eqb_neq n j)) by lia. ring.
    + rewrite csum_0. 2:{ intros l Hl. rewrite (grow_col n U l) by assumption. ring. } rewrite grow_corner, grow_row by lia. rewrite Cconj_R. unfold mid. rewrite (proj2 (Nat.eqb_neq i n)) by lia. ring.
    + rewrite (grow_row n U j), (grow_row n U i) by lia. rewrite <- (U1 i j) by lia. unfold mmul, adj. rewrite Cconj_R.
      rewrite (csum_ext n _ (fun l => Cmult (Cconj (U l i)) (U l j))). { ring. } intros l Hl. rewrite !grow_in by lia. reflexivity.
  - destruct (Nat.eq_dec i n) as [->|Ni]; destruct (Nat.eq_dec j n) as [->|Nj].
    + rewrite csum_0. 2:{ intros l Hl. rewrite grow_row by assumption. ring. } rewrite grow_corner, Cconj_R. unfold mid. rewrite Nat.eqb_refl. ring.
    + rewrite csum_0. 2:{ intros l Hl. rewrite grow_row by assumption. ring. } rewrite grow_corner, grow_col by lia. rewrite Cconj_R. unfold mid. rewrite (proj2 (Nat.eqb_neq n j)) by lia. ring.
    + rewrite csum_0. 2:{ intros l Hl. rewrite (grow_row n U l) by assumption. rewrite Cconj_R. ring. } rewrite grow_corner, grow_col by lia. rewrite Cconj_R. unfold mid. rewrite (proj2 (Nat.eqb_neq i n)) by lia. ring.
    + rewrite (grow_col n U j), (grow_col n U i) by lia. rewrite <- (U2 i j) by lia. unfold mmul, adj. rewrite Cconj_R.
      rewrite (csum_ext n _ (fun l => Cmult (U i l) (Cconj (U j l)))). { ring. } intros l Hl. rewrite !grow_in by lia. reflexivity.
Qed.

Lemma unitary_mul m U V : unitary m U -> unitary m V -> unitary m (mmul m U V).
Proof.
  intros [U1 U2] [V1 V2]. split; rewrite adj_mmul.
  - rewrite mmul_assoc. eapply meq_trans; [|exact V1]. apply mmul_ext_r. rewrite <- mmul_assoc. eapply meq_trans; [apply mmul_ext_l; exact U1|]. apply mmul_id_l.
  - rewrite mmul_assoc. eapply meq_trans; [|exact U2]. apply mmul_ext_r. rewrite <- mmul_assoc. eapply meq_trans; [apply mmul_ext_l; exact V2|]. apply mmul_id_l.
Qed.

Definition diagonalises (m : nat) (A U : mat) (w : nat -> R) : Prop :=
  unitary m U /\ meq m m (mmul m A U) (mmul m U (mdiag w)) /\ forall i j, (i <= j)%nat -> (j < m)%nat -> w i <= w j.

(** [spectral theorem]: every Hermitian matrix is diagonalised by a unitary one, with the eigenvalues in increasing
    order. *)
Theorem diagonalisable m : forall A, hermitian m A -> exists U w, diagonalises m A U w.
Proof.
  induction m as [|n IH]; intros A HA.
  - exists mid, (fun _ => 0). split; [apply mid_unitary|]. split; [intros i j Hi; lia|intros; lia].
  - destruct (top_eigenvalue (S n) A (Nat.lt_0_succ n) HA) as [v0 [lam [N0 [E0 Ray]]]].
    destruct (phase (v0 n)) as [a [Ha [r Hr]]].
    set (v := fun i => Cmult a (v0 i)).
    assert (Nv : norm2 (S n) v = 1).
    { rewrite <- N0. unfold norm2. apply rsumn_ext. intros i _. transitivity (nsq a * nsq (v0 i)); [|rewrite Ha; ring]. unfold v. destruct a, (v0 i). unfold nsq, Cmult. cbn [fst snd]. ring. }
    assert (Ev : forall i, (i < S n)%nat -> mapply (S n) A v i = Cmult (RtoC lam) (v i)).
    { intros i Hi. unfold mapply, v. rewrite (csum_ext (S n) _ (fun j => Cmult a (Cmult (A i j) (v0 j)))) by (intros; ring). rewrite csum_scal_l. fold (mapply (S n) A v0 i). rewrite (E0 i Hi). ring. }
    destruct (last_column n v r Nv Hr) as [Q [UQ HQ]].
    set (B := mmul (S n) (adj Q) (mmul (S n) A Q)).
    assert (HB : hermitian (S n) B).
    { intros i j Hi Hj. unfold B. rewrite !adj_mmul, adj_adj, mmul_assoc. apply (mmul_ext (S n) (S n) (S n)); [apply meq_refl| |exact Hi|exact Hj]. apply mmul_ext_l. exact HA. }
    assert (Bn : forall i, (i < S n)%nat -> B i n = Cmult (RtoC lam) (mid i n)).
    { intros i Hi. destruct UQ as [UQ1 _]. rewrite <- (UQ1 i n Hi (Nat.lt_succ_diag_r n)). unfold B, mmul at 1 3. rewrite <- csum_scal_l. apply csum_ext. intros l Hl.
      rewrite (HQ l Hl). replace (mmul (S n) A Q l n) with (mapply (S n) A v l).
      - rewrite (Ev l Hl). ring.
      - unfold mapply, mmul. apply csum_ext. intros q Hq. rewrite (HQ q Hq). reflexivity. }
    assert (Bn' : forall j, (j < n)%nat -> B n j = RtoC 0).
    { intros j Hj. rewrite <- (HB n j (Nat.lt_succ_diag_r n) (Nat.lt_lt_succ_r _ _ Hj)). unfold adj. rewrite (Bn j (Nat.lt_lt_succ_r _ _ Hj)). unfold mid. rewrite (proj2 (Nat.eqb_neq j n)) by lia.
      rewrite Cmult_0_r. apply Cconj_R. }
    destruct (IH B) as [U' [w' [UU' [EU' Sw]]]]. { intros i j Hi Hj. apply HB; lia. }
    set (G := grow n U'). set (w := growd n w' lam).
    assert (UG : unitary (S n) G) by (apply grow_unitary, UU').
    assert (wn : w n = lam) by (unfold w, growd; rewrite Nat.ltb_irrefl; reflexivity).
    assert (wj : forall j, (j < n)%nat -> w j = w' j) by (intros j Hj; unfold w, growd; rewrite (proj2 (Nat.ltb_lt j n) Hj); reflexivity).
    assert (EG : meq (S n) (S n) (mmul (S n) B G) (mmul (S n) G (mdiag w))).
    { intros i j Hi Hj. rewrite (mmul_diag_r (S n) (S n) G w i j Hi Hj). unfold mmul. cbn [csum].
      destruct (Nat.eq_dec j n) as [->|Nj].
      - rewrite csum_0. 2:{ intros l Hl. unfold G. rewrite grow_col by assumption. ring. }
        rewrite (Bn i Hi), wn. unfold G. rewrite grow_corner. destruct (Nat.eq_dec i n) as [->|Ni]; [rewrite grow_corner; unfold mid; rewrite Nat.eqb_refl; ring|].
        rewrite grow_col by lia. unfold mid. rewrite (proj2 (Nat.eqb_neq i n)) by lia. ring.
      - rewrite wj by lia. unfold G at 2. rewrite grow_row by lia. destruct (Nat.eq_dec i n) as [->|Ni].
        + rewrite csum_0. 2:{ intros l Hl. rewrite (Bn' l Hl). ring. } unfold G. rewrite grow_row by lia. ring.
        + unfold G at 2. rewrite grow_in by lia. rewrite <- (mmul_diag_r n n U' w' i j) by lia. rewrite <- (EU' i j) by lia. unfold mmul.
          rewrite (csum_ext n _ (fun l => Cmult (B i l) (U' l j))). { ring. } intros l Hl. unfold G. rewrite grow_in by lia. reflexivity. }
    assert (AQ : meq (S n) (S n) (mmul (S n) Q B) (mmul (S n) A Q)).
    { unfold B. rewrite <- mmul_assoc. destruct UQ as [_ UQ2]. eapply meq_trans; [apply mmul_ext_l; exact UQ2|]. apply mmul_id_l. }
    assert (E : meq (S n) (S n) (mmul (S n) A (mmul (S n) Q G)) (mmul (S n) (mmul (S n) Q G) (mdiag w))).
    { rewrite <- mmul_assoc. eapply meq_trans; [apply mmul_ext_l, meq_sym; exact AQ|]. rewrite !mmul_assoc. apply mmul_ext_r. exact EG. }
    exists (mmul (S n) Q G), w. pose proof (unitary_mul _ _ _ UQ UG) as UQG.
    split; [exact UQG|]. split; [exact E|].
    assert (Top : forall j, (j < S n)%nat -> w j <= lam).
    { intros j Hj. set (x := fun i => mmul (S n) Q G i j).
      assert (Nx : norm2 (S n) x = 1) by (apply (unitary_cols (S n) _ UQG j Hj)).
      assert (Qx : Re (quad (S n) A x) = w j).
      { transitivity (w j * norm2 (S n) x); [|rewrite Nx; ring]. unfold quad. rewrite csum_Re. unfold norm2. rewrite <- rsumn_scal. apply rsumn_ext. intros i Hi.
        rewrite (csum_ext (S n) _ (fun l => Cmult (Cconj (x i)) (Cmult (A i l) (x l)))) by (intros; ring). rewrite csum_scal_l.
        assert (X : csum (S n) (fun l => Cmult (A i l) (x l)) = Cmult (x i) (RtoC (w j))). { transitivity (mmul (S n) (mmul (S n) Q G) (mdiag w) i j); [rewrite <- (E i j Hi Hj); reflexivity|]. exact (mmul_diag_r (S n) (S n) (mmul (S n) Q G) w i j Hi Hj). }
        rewrite X. replace (Cmult (Cconj (x i)) (Cmult (x i) (RtoC (w j)))) with (Cmult (RtoC (w j)) (Cmult (Cconj (x i)) (x i))) by ring. rewrite nsq_conj, Re_scal, Re_R. reflexivity. }
      rewrite <- Qx. apply Ray, Nx. }
    intros i j Hij Hj. destruct (Nat.eq_dec j n) as [->|Nj]; [rewrite wn; apply Top; lia|]. rewrite !wj by lia. apply Sw; lia.
Qed.

(** ** An eigensolver that always succeeds *)
Definition eigh_full (m : nat) (M : mat) : option (mat * (nat -> R)) :=
  Some (epsilon (inhabits (mid, fun _ : nat => 0)) (fun p => diagonalises m (upper M) (fst p) (snd p))).

Lemma upper_is_hermitian m M : hermitian m (upper M).
Proof.
  intros i j Hi Hj. unfold adj, upper. destruct (lt_eq_lt_dec i j) as [[L|L]|L].
  - rewrite (proj2 (Nat.ltb_ge j i)), (proj2 (Nat.ltb_lt i j)) by lia. apply Cconj_conj.
  - subst j. rewrite Nat.ltb_irrefl. apply Cconj_R.
  - rewrite (proj2 (Nat.ltb_lt j i)), (proj2 (Nat.ltb_ge i j)) by lia. reflexivity.
Qed.
Theorem eigh_full_ok : eigh_ok eigh_full.
Proof.
  intros m M U w E. unfold eigh_full in E. assert (E' := f_equal (fun o => match o with Some p => p | None => (mid, fun _ => 0) end) E). cbv beta iota in E'. clear E.
  pose proof (epsilon_spec (inhabits (mid, fun _ : nat => 0)) (fun p => diagonalises m (upper M) (fst p) (snd p))) as S.
  cbv beta in S. rewrite E' in S. cbn [fst snd] in S. apply S.
  destruct (diagonalisable m (upper M) (upper_is_hermitian m M)) as [U' [w' D]]. exists (U', w'). exact D.
Qed.
Theorem eigh_full_total m M : eigh_full m M <> None.
Proof. unfold eigh_full. discriminate. Qed.
