(** Derivatives of functions of Hermitian matrices along a curve, whatever eigenvectors the solver returns.
    Mathematics only; used for the trial curve of geodesic.hpp (CurveProofs.v). *)
From Coq Require Import Reals Lra Psatz Arith Lia List Bool.
From Coquelicot Require Import Coquelicot.
From Verif Require Import LinAlg DescentFacts GradEtaFacts GeodesicProofs.
Local Open Scope R_scope.

(** ** Limits at 0 of complex functions of a real variable; the value at 0 is the limit *)
Definition clim (F : R -> C) (l : C) : Prop := forall eps, 0 < eps -> locally 0 (fun t => Cmod (Cminus (F t) l) < eps).

Lemma near_0 (P : R -> Prop) : locally 0 P -> P 0.
Proof. intros H. exact (locally_singleton 0 P H). Qed.

Lemma clim_ext F G l : locally 0 (fun t => F t = G t) -> clim F l -> clim G l.
Proof. intros E H eps He. apply (filter_imp (fun t => F t = G t /\ Cmod (Cminus (F t) l) < eps)); [intros t [<- ?]; assumption|]. apply filter_and; [exact E|apply H, He]. Qed.
Lemma clim_val F a b : clim F a -> a = b -> clim F b.
Proof. intros H <-. exact H. Qed.
Lemma clim_const c : clim (fun _ => c) c.
Proof. intros eps He. apply filter_forall. intros t. replace (Cminus c c) with (RtoC 0) by (unfold Cminus; rewrite Cplus_opp_r; reflexivity). rewrite Cmod_0. exact He. Qed.
Lemma clim_plus F G a b : clim F a -> clim G b -> clim (fun t => Cplus (F t) (G t)) (Cplus a b).
Proof.
  intros HF HG eps He. specialize (HF (eps / 2) ltac:(lra)). specialize (HG (eps / 2) ltac:(lra)).
  generalize (filter_and _ _ HF HG). apply filter_imp. intros t [H1 H2].
  replace (Cminus (Cplus (F t) (G t)) (Cplus a b)) with (Cplus (Cminus (F t) a) (Cminus (G t) b)) by ring.
  pose proof (Cmod_triangle (Cminus (F t) a) (Cminus (G t) b)). lra.
Qed.
Lemma clim_mult F G a b : clim F a -> clim G b -> clim (fun t => Cmult (F t) (G t)) (Cmult a b).
Proof.
  intros HF HG eps He. set (K := Cmod a + Cmod b + 1). pose proof (Cmod_ge_0 a). pose proof (Cmod_ge_0 b).
  assert (HK : 1 <= K) by (unfold K; lra).
  assert (Hd : 0 < Rmin 1 (eps / (2 * K))). { apply Rmin_glb_lt; [lra|]. apply Rdiv_lt_0_compat; lra. }
  generalize (filter_and _ _ (HF _ Hd) (HG _ Hd)). apply filter_imp. intros t [H1 H2].
  set (d := Rmin 1 (eps / (2 * K))) in *.
  assert (Hd1 : d <= 1) by apply Rmin_l. assert (Hd2 : d <= eps / (2 * K)) by apply Rmin_r.
  replace (Cminus (Cmult (F t) (G t)) (Cmult a b)) with (Cplus (Cmult (Cminus (F t) a) (Cplus b (Cminus (G t) b))) (Cmult a (Cminus (G t) b))) by ring.
  eapply Rle_lt_trans; [apply Cmod_triangle|]. rewrite !Cmod_mult.
  pose proof (Cmod_triangle b (Cminus (G t) b)). pose proof (Cmod_ge_0 (Cminus (F t) a)). pose proof (Cmod_ge_0 (Cminus (G t) b)).
  set (x := Cmod (Cminus (F t) a)) in *. set (y := Cmod (Cminus (G t) b)) in *.
  assert (Hz : Cmod (Cplus b (Cminus (G t) b)) <= Cmod b + 1) by lra.
  assert (x * Cmod (Cplus b (Cminus (G t) b)) <= d * (Cmod b + 1)).
  { apply Rmult_le_compat; try lra. apply Cmod_ge_0. }
  assert (Cmod a * y <= Cmod a * d) by (apply Rmult_le_compat_l; lra).
  assert (d * K <= eps / 2). { apply Rle_trans with (eps / (2 * K) * K); [apply Rmult_le_compat_r; lra|]. right. field. lra. }
  unfold K in *. lra.
Qed.
Lemma clim_opp F a : clim F a -> clim (fun t => Copp (F t)) (Copp a).
Proof.
  intros H. apply (clim_ext (fun t => Cmult (Copp (RtoC 1)) (F t))). { apply filter_forall. intros t. ring. }
  replace (Copp a) with (Cmult (Copp (RtoC 1)) a) by ring. apply clim_mult; [apply clim_const|exact H].
Qed.
Lemma clim_minus F G a b : clim F a -> clim G b -> clim (fun t => Cminus (F t) (G t)) (Cminus a b).
Proof. intros HF HG. apply clim_plus; [exact HF|apply clim_opp, HG]. Qed.
Lemma clim_csum n (F : R -> nat -> C) (l : nat -> C) : (forall i, (i < n)%nat -> clim (fun t => F t i) (l i)) -> clim (fun t => csum n (F t)) (csum n l).
Proof.
  induction n as [|n IH]; intros H; cbn [csum]; [apply clim_const|].
  apply clim_plus; [apply IH; intros i Hi; apply H; lia|apply H; lia].
Qed.
Lemma Cmod_conj a : Cmod (Cconj a) = Cmod a.
Proof. unfold Cmod, Cconj. cbn [fst snd]. f_equal. ring. Qed.
Lemma clim_conj F a : clim F a -> clim (fun t => Cconj (F t)) (Cconj a).
Proof. intros H eps He. generalize (H eps He). apply filter_imp. intros t. rewrite <- Cconj_minus, Cmod_conj. auto. Qed.
Lemma clim_real (f : R -> R) : continuous f 0 -> clim (fun t => RtoC (f t)) (RtoC (f 0)).
Proof.
  intros H eps He. specialize (H (ball (f 0) (mkposreal eps He)) (locally_ball _ _)). unfold filtermap in H.
  generalize H. apply filter_imp. intros t Ht. change (Rabs (f t + - f 0) < eps) in Ht.
  rewrite <- RtoC_minus, Cmod_R. exact Ht.
Qed.
Lemma clim_id : clim (fun t => RtoC t) (RtoC 0).
Proof. apply (clim_real (fun t => t)). apply continuous_id. Qed.
Lemma clim_at F l : clim F l -> F 0 = l.
Proof.
  intros H. destruct (Req_dec (Cmod (Cminus (F 0) l)) 0) as [E|E].
  - apply Cmod_eq_0 in E. replace (F 0) with (Cplus (Cminus (F 0) l) l) by ring. rewrite E. ring.
  - exfalso. pose proof (Cmod_ge_0 (Cminus (F 0) l)). specialize (H (Cmod (Cminus (F 0) l)) ltac:(lra)).
    apply near_0 in H. lra.
Qed.
Lemma Re_le_Cmod a : Rabs (Re a) <= Cmod a.
Proof. eapply Rle_trans; [|apply Rmax_Cmod]. apply Rmax_l. Qed.
Lemma clim_Re F l : clim F l -> continuous (fun t => Re (F t)) 0.
Proof.
  intros H P [eps He]. unfold filtermap. generalize (H eps (cond_pos eps)). apply filter_imp. intros t Ht. apply He.
  change (Rabs (Re (F t) + - Re (F 0)) < eps). rewrite (clim_at F l H).
  apply Rle_lt_trans with (Cmod (Cminus (F t) l)); [|exact Ht].
  replace (Re (F t) + - Re l) with (Re (Cminus (F t) l)); [apply Re_le_Cmod|].
  unfold Cminus. rewrite Re_plus. reflexivity.
Qed.

(** ** Derivatives at 0 *)
Definition cder (F : R -> C) (l : C) : Prop :=
  exists q : R -> C, clim q l /\ locally 0 (fun t => F t = Cplus (F 0) (Cmult (RtoC t) (q t))).

Lemma cder_ext F G l : locally 0 (fun t => F t = G t) -> cder F l -> cder G l.
Proof.
  intros E [q [Hq Hf]]. exists q. split; [exact Hq|]. pose proof (near_0 _ E) as E0. cbv beta in E0.
  generalize (filter_and _ _ E Hf). apply filter_imp. intros t [<- H]. rewrite <- E0. exact H.
Qed.
Lemma cder_const c : cder (fun _ => c) (RtoC 0).
Proof. exists (fun _ => RtoC 0). split; [apply clim_const|]. apply filter_forall. intros t. ring. Qed.
Lemma cder_plus F G a b : cder F a -> cder G b -> cder (fun t => Cplus (F t) (G t)) (Cplus a b).
Proof.
  intros [p [Hp HF]] [q [Hq HG]]. exists (fun t => Cplus (p t) (q t)). split; [apply clim_plus; assumption|].
  generalize (filter_and _ _ HF HG). apply filter_imp. intros t [-> ->]. ring.
Qed.
Lemma cder_clim F l : cder F l -> clim F (F 0).
Proof.
  intros [q [Hq HF]]. apply (clim_ext (fun t => Cplus (F 0) (Cmult (RtoC t) (q t)))).
  { generalize HF. apply filter_imp. intros t ->. reflexivity. }
  apply (clim_val _ (Cplus (F 0) (Cmult (RtoC 0) l))); [|ring].
  apply clim_plus; [apply clim_const|]. apply clim_mult; [apply clim_id|exact Hq].
Qed.
Lemma cder_mult F G a b : cder F a -> cder G b -> cder (fun t => Cmult (F t) (G t)) (Cplus (Cmult a (G 0)) (Cmult (F 0) b)).
Proof.
  intros HF0 HG0. pose proof (cder_clim _ _ HG0) as LG. destruct HF0 as [p [Hp HF]], HG0 as [q [Hq HG]].
  exists (fun t => Cplus (Cmult (p t) (G t)) (Cmult (F 0) (q t))). split.
  - apply clim_plus; apply clim_mult; try assumption. apply clim_const.
  - generalize (filter_and _ _ HF HG). apply filter_imp. intros t [H1 H2]. cbv beta. rewrite H1, H2. ring.
Qed.
Lemma cder_val F a b : cder F a -> a = b -> cder F b.
Proof. intros H <-. exact H. Qed.
Lemma cder_scal F c a : cder F a -> cder (fun t => Cmult c (F t)) (Cmult c a).
Proof. intros H. apply (cder_val _ _ _ (cder_mult (fun _ => c) F _ _ (cder_const c) H)). ring. Qed.
Lemma cder_csum n (F : R -> nat -> C) (l : nat -> C) : (forall i, (i < n)%nat -> cder (fun t => F t i) (l i)) -> cder (fun t => csum n (F t)) (csum n l).
Proof.
  induction n as [|n IH]; intros H; cbn [csum]; [apply cder_const|].
  apply cder_plus; [apply IH; intros i Hi; apply H; lia|apply H; lia].
Qed.
Lemma cder_conj F a : cder F a -> cder (fun t => Cconj (F t)) (Cconj a).
Proof.
  intros [p [Hp HF]]. exists (fun t => Cconj (p t)). split; [apply clim_conj, Hp|].
  generalize HF. apply filter_imp. intros t H. rewrite H at 1. rewrite Cconj_plus, Cconj_mult, Cconj_R. reflexivity.
Qed.
Lemma cder_Re F l : cder F l -> is_derive (fun t => Re (F t)) 0 (Re l).
Proof.
  intros [q [Hq HF]]. rewrite <- (clim_at q l Hq). apply (derive_of_quot (fun t => Re (F t)) 0 (fun t => Re (q t))).
  - exact (clim_Re q l Hq).
  - generalize HF. apply filter_imp. intros t H. rewrite H at 1. rewrite Re_plus, Re_scal. ring.
Qed.

(** ** Functions of a Hermitian matrix near a diagonal one *)
(** U diag(g a) U^H *)
Definition mfun (m : nat) (U : mat) (a : nat -> R) (g : R -> R) : mat := mmul m U (mmul m (mdiag (fun i => g (a i))) (adj U)).

Lemma mfun_entry m U a g p j : (p < m)%nat -> (j < m)%nat ->
  mfun m U a g p j = csum m (fun i => Cmult (Cmult (U p i) (RtoC (g (a i)))) (Cconj (U j i))).
Proof.
  intros Hp Hj. unfold mfun. unfold mmul at 1. apply csum_ext. intros i Hi.
  rewrite (mmul_diag_l m m (adj U) (fun i => g (a i)) i j Hi Hj). unfold adj. ring.
Qed.

Lemma Cmod_csum n (f : nat -> C) : Cmod (csum n f) <= rsumn n (fun i => Cmod (f i)).
Proof.
  induction n as [|n IH]; cbn [csum rsumn]; [rewrite Cmod_0; lra|].
  eapply Rle_trans; [apply Cmod_triangle|]. lra.
Qed.
Lemma nsq_Cmod a : nsq a = Cmod a * Cmod a.
Proof. unfold nsq, Cmod. rewrite sqrt_sqrt; [cbn [pow]; ring|]. cbn [pow]. nra. Qed.
Lemma unitary_entry m U i j : unitary m U -> (i < m)%nat -> (j < m)%nat -> Cmod (U i j) <= 1.
Proof.
  intros HU Hi Hj. pose proof (unitary_rows m U HU i Hi) as E.
  assert (H : nsq (U i j) <= 1).
  { rewrite <- E. clear E. assert (G : forall n, (j < n)%nat -> nsq (U i j) <= rsumn n (fun j => nsq (U i j))).
    { induction n as [|n IH]; intros Hn; [lia|]. cbn [rsumn].
      assert (P : 0 <= rsumn n (fun j => nsq (U i j))) by (apply rsumn_nonneg; intros; apply nsq_pos).
      destruct (Nat.eq_dec j n) as [->|]; [lra|]. specialize (IH ltac:(lia)). pose proof (nsq_pos (U i n)). lra. }
    apply G, Hj. }
  rewrite nsq_Cmod in H. pose proof (Cmod_ge_0 (U i j)). nra.
Qed.
Lemma rsumn_const n c : rsumn n (fun _ => c) = INR n * c.
Proof. induction n as [|n IH]; [cbn; lra|]. cbn [rsumn]. rewrite IH, S_INR. lra. Qed.
Lemma rsumn_term n f i : (i < n)%nat -> (forall j, (j < n)%nat -> 0 <= f j) -> f i <= rsumn n f.
Proof.
  induction n as [|n IH]; intros Hi H; [lia|]. cbn [rsumn].
  assert (P : 0 <= rsumn n f) by (apply rsumn_nonneg; intros; apply H; lia).
  destruct (Nat.eq_dec i n) as [->|]; [lra|]. specialize (IH ltac:(lia) ltac:(intros; apply H; lia)). pose proof (H n ltac:(lia)). lra.
Qed.

Section Pert.
  Context (m : nat) (U A : mat) (a b : nat -> R).
  Hypothesis HU : unitary m U.
  Hypothesis HA : hermitian m A.
  Hypothesis HE : meq m m (mmul m A U) (mmul m U (mdiag a)).
  (** distance from the diagonal matrix *)
  Let D : mat := fun i j => Cminus (A i j) (mdiag b i j).

  (** (U^H (A - B))_ij = (a_i - b_j) conj(U_ji) *)
  Lemma pert_row i j : (i < m)%nat -> (j < m)%nat ->
    csum m (fun q => Cmult (Cconj (U q i)) (D q j)) = Cmult (RtoC (a i - b j)) (Cconj (U j i)).
  Proof.
    intros Hi Hj. unfold D.
    rewrite (csum_ext m _ (fun q => Cminus (Cmult (Cconj (U q i)) (A q j)) (Cmult (Cconj (U q i)) (mdiag b q j)))) by (intros q Hq; ring).
    rewrite csum_minus.
    assert (E1 : csum m (fun q => Cmult (Cconj (U q i)) (A q j)) = Cmult (RtoC (a i)) (Cconj (U j i))).
    { pose proof (HE j i Hj Hi) as E. rewrite (mmul_diag_r m m U a j i Hj Hi) in E. unfold mmul in E.
      apply (f_equal Cconj) in E. rewrite csum_conj, Cconj_mult, Cconj_R in E.
      rewrite Cmult_comm, <- E. apply csum_ext. intros q Hq. rewrite Cconj_mult.
      replace (Cconj (A j q)) with (A q j); [ring|]. symmetry. exact (HA q j Hq Hj). }
    assert (E2 : csum m (fun q => Cmult (Cconj (U q i)) (mdiag b q j)) = Cmult (RtoC (b j)) (Cconj (U j i))).
    { rewrite (csum_one m j); [|exact Hj|].
      - unfold mdiag. rewrite Nat.eqb_refl. ring.
      - intros q Hq Hn. unfold mdiag. apply Nat.eqb_neq in Hn. rewrite Hn. ring. }
    rewrite E1, E2, RtoC_minus. ring.
  Qed.

  (** a bound of A - B *)
  Context (d : R) (Hd : forall i j, (i < m)%nat -> (j < m)%nat -> Cmod (D i j) <= d).
  Lemma pert_weak i j : (i < m)%nat -> (j < m)%nat -> Cmod (U j i) * Rabs (a i - b j) <= INR m * d.
  Proof.
    intros Hi Hj. rewrite <- (Cmod_conj (U j i)), Rmult_comm, <- (Cmod_R (a i - b j)), <- Cmod_mult, <- (pert_row i j Hi Hj).
    eapply Rle_trans; [apply Cmod_csum|]. rewrite <- rsumn_const. apply rsumn_le. intros q Hq.
    rewrite Cmod_mult, Cmod_conj. pose proof (unitary_entry m U q i HU Hq Hi). pose proof (Hd q j Hq Hj).
    pose proof (Cmod_ge_0 (U q i)). pose proof (Cmod_ge_0 (D q j)). nra.
  Qed.
  (** every eigenvalue is close to some b_p *)
  Lemma pert_close i : (i < m)%nat -> exists p, (p < m)%nat /\ Rabs (a i - b p) <= INR m * INR m * d.
  Proof.
    intros Hi. pose proof (unitary_cols m U HU i Hi) as E.
    assert (Hm : 1 <= INR m). { change 1 with (INR 1). apply le_INR. lia. }
    destruct (Classical_Prop.classic (exists p, (p < m)%nat /\ / INR m <= nsq (U p i))) as [[p [Hp H]]|N].
    - exists p. split; [exact Hp|]. pose proof (pert_weak i p Hi Hp) as W.
      pose proof (unitary_entry m U p i HU Hp Hi) as L. pose proof (Cmod_ge_0 (U p i)) as P. rewrite nsq_Cmod in H.
      assert (H' : / INR m <= Cmod (U p i)) by nra.
      pose proof (Rabs_pos (a i - b p)) as Pa.
      assert (/ INR m * Rabs (a i - b p) <= INR m * d) by (eapply Rle_trans; [apply Rmult_le_compat_r; [exact Pa|exact H']|exact W]).
      replace (Rabs (a i - b p)) with (INR m * (/ INR m * Rabs (a i - b p))) by (field; lra).
      rewrite Rmult_assoc. apply Rmult_le_compat_l; lra.
    - exfalso. assert (L : rsumn m (fun p => nsq (U p i)) < 1); [|lra].
      assert (G : forall n, (n <= m)%nat -> (0 < n)%nat -> rsumn n (fun p => nsq (U p i)) < INR n * / INR m).
      { induction n as [|n IH]; intros Hn Hz; [lia|]. cbn [rsumn].
        assert (X : nsq (U n i) < / INR m). { apply Rnot_le_lt. intros X. apply N. exists n. split; [lia|exact X]. }
        rewrite S_INR. destruct n as [|n]; [cbn [rsumn INR]; lra|]. specialize (IH ltac:(lia) ltac:(lia)). lra. }
      specialize (G m ltac:(lia) ltac:(lia)). rewrite Rinv_r in G; lra.
  Qed.
End Pert.

(** Along a curve A_t of Hermitian matrices that ends in diag b. *)
Section Curve.
  Context (m : nat) (U A : R -> mat) (a : R -> nat -> R) (b : nat -> R).
  Hypothesis HU : locally 0 (fun t => unitary m (U t)).
  Hypothesis HA : locally 0 (fun t => hermitian m (A t)).
  Hypothesis HE : locally 0 (fun t => meq m m (mmul m (A t) (U t)) (mmul m (U t) (mdiag (a t)))).
  Hypothesis HB : forall i j, (i < m)%nat -> (j < m)%nat -> clim (fun t => A t i j) (mdiag b i j).

  Lemma forall_lt_locally (P : nat -> R -> Prop) n : (forall i, (i < n)%nat -> locally 0 (P i)) -> locally 0 (fun t => forall i, (i < n)%nat -> P i t).
  Proof.
    induction n as [|n IH]; intros H; [apply filter_forall; intros; lia|].
    generalize (filter_and _ _ (IH (fun i Hi => H i (Nat.lt_lt_succ_r _ _ Hi))) (H n (Nat.lt_succ_diag_r n))). apply filter_imp.
    intros t [H1 H2] i Hi. destruct (Nat.eq_dec i n) as [->|]; [exact H2|]. apply H1. lia.
  Qed.

  Lemma entries_small eps : 0 < eps -> locally 0 (fun t => forall i j, (i < m)%nat -> (j < m)%nat -> Cmod (Cminus (A t i j) (mdiag b i j)) <= eps).
  Proof.
    intros He. 
    apply (filter_imp (fun t => forall i, (i < m)%nat -> forall j, (j < m)%nat -> Cmod (Cminus (A t i j) (mdiag b i j)) < eps)).
    { intros t H i j Hi Hj. apply Rlt_le, H; assumption. }
    apply (forall_lt_locally (fun i t => forall j, (j < m)%nat -> Cmod (Cminus (A t i j) (mdiag b i j)) < eps)). intros i Hi.
    apply (forall_lt_locally (fun j t => Cmod (Cminus (A t i j) (mdiag b i j)) < eps)). intros j Hj. apply HB; assumption.
  Qed.

  (** a function continuous at every b_p *)
  Section Weight.
    Context (Q : R -> R) (HQ : forall p, (p < m)%nat -> continuous Q (b p)).

    Lemma Q_near eps p : 0 < eps -> (p < m)%nat -> exists r, 0 < r /\ forall x, Rabs (x - b p) < r -> Rabs (Q x - Q (b p)) < eps.
    Proof.
      intros He Hp. destruct (HQ p Hp (ball (Q (b p)) (mkposreal eps He)) (locally_ball _ _)) as [r Hr].
      exists r. split; [apply cond_pos|]. intros x Hx. exact (Hr x Hx).
    Qed.
    Lemma Q_near_all eps n : 0 < eps -> (n <= m)%nat -> exists r, 0 < r /\ forall p x, (p < n)%nat -> Rabs (x - b p) < r -> Rabs (Q x - Q (b p)) < eps.
    Proof.
      intros He. induction n as [|n IH]; intros Hn; [exists 1; split; [lra|intros; lia]|].
      destruct (IH ltac:(lia)) as [r [Hr H]]. destruct (Q_near eps n He ltac:(lia)) as [r' [Hr' H']].
      exists (Rmin r r'). split; [apply Rmin_glb_lt; assumption|]. intros p x Hp Hx.
      destruct (Nat.eq_dec p n) as [->|].
      - apply H'. eapply Rlt_le_trans; [exact Hx|apply Rmin_r].
      - apply H; [lia|]. eapply Rlt_le_trans; [exact Hx|apply Rmin_l].
    Qed.

    (** Q of the eigenvalues is bounded near 0 *)
    Definition Qmax : R := rsumn m (fun p => Rabs (Q (b p))) + 1.
    Lemma Qmax_pos : 1 <= Qmax.
    Proof. unfold Qmax. assert (0 <= rsumn m (fun p => Rabs (Q (b p)))) by (apply rsumn_nonneg; intros; apply Rabs_pos). lra. Qed.
    Lemma Q_bounded : locally 0 (fun t => forall i, (i < m)%nat -> Rabs (Q (a t i)) <= Qmax).
    Proof.
      destruct (Q_near_all 1 m Rlt_0_1 (le_n m)) as [r [Hr H]].
      set (d := r / (2 * (INR m * INR m + 1))).
      assert (Hd : 0 < d). { apply Rdiv_lt_0_compat; [lra|]. pose proof (pos_INR m). nra. }
      generalize (filter_and _ _ (filter_and _ _ HU HA) (filter_and _ _ HE (entries_small d Hd))). apply filter_imp.
      intros t [[h1 h2] [h3 h4]] i Hi.
      destruct (pert_close m (U t) (A t) (a t) b h1 h2 h3 d h4 i Hi) as [p [Hp L]].
      assert (L' : Rabs (a t i - b p) < r).
      { eapply Rle_lt_trans; [exact L|]. unfold d. pose proof (pos_INR m). set (M := INR m * INR m) in *.
        assert (0 <= M) by (unfold M; nra). replace (M * (r / (2 * (M + 1)))) with (r * (M / (2 * (M + 1)))) by (field; lra).
        assert (M / (2 * (M + 1)) < 1). { apply (Rmult_lt_reg_r (2 * (M + 1))); [lra|]. unfold Rdiv. rewrite Rmult_assoc, Rinv_l by lra. lra. }
        nra. }
      specialize (H p (a t i) Hp L').
      pose proof (rsumn_term m (fun p => Rabs (Q (b p))) p Hp (fun j _ => Rabs_pos _)) as Ht. cbv beta in Ht.
      unfold Qmax. replace (Q (a t i)) with (Q (b p) + (Q (a t i) - Q (b p))) by ring.
      pose proof (Rabs_triang (Q (b p)) (Q (a t i) - Q (b p))). lra.
    Qed.

    (** U_pi (Q(a_i) - Q(b_p)) -> 0 *)
    Lemma weak_small eps p : 0 < eps -> (p < m)%nat ->
      locally 0 (fun t => forall i, (i < m)%nat -> Cmod (U t p i) * Rabs (Q (a t i) - Q (b p)) <= eps).
    Proof.
      intros He Hp. destruct (Q_near eps p He Hp) as [r [Hr H]].
      set (K := 2 * Qmax). pose proof Qmax_pos as HK1.
      set (d := r * eps / (K * (INR m + 1))). pose proof (pos_INR m) as Pm.
      assert (HKm : 0 < K * (INR m + 1)) by (unfold K; nra).
      assert (Hd : 0 < d). { apply Rdiv_lt_0_compat; nra. }
      generalize (filter_and _ _ (filter_and _ _ HU HA) (filter_and _ _ (filter_and _ _ HE Q_bounded) (entries_small d Hd))). apply filter_imp.
      intros t [[h1 h2] [[h3 hq] h4]] i Hi.
      pose proof (unitary_entry m (U t) p i h1 Hp Hi) as L1. pose proof (Cmod_ge_0 (U t p i)) as L0.
      pose proof (Rabs_pos (Q (a t i) - Q (b p))) as L2.
      destruct (Rlt_dec (Rabs (a t i - b p)) r) as [c|c].
      - specialize (H _ c). nra.
      - apply Rnot_lt_le in c. pose proof (pert_weak m (U t) (A t) (a t) b h1 h2 h3 d h4 i p Hi Hp) as W.
        assert (B : Rabs (Q (a t i) - Q (b p)) <= K).
        { unfold K. pose proof (hq i Hi). unfold Rminus. pose proof (Rabs_triang (Q (a t i)) (- Q (b p))) as T. rewrite Rabs_Ropp in T.
          pose proof (rsumn_term m (fun p => Rabs (Q (b p))) p Hp (fun j _ => Rabs_pos _)) as Ht. cbv beta in Ht. unfold Qmax in *. lra. }
        assert (Ub : Cmod (U t p i) * r <= INR m * d) by (eapply Rle_trans; [apply Rmult_le_compat_l; [exact L0|exact c]|exact W]).
        apply Rle_trans with (Cmod (U t p i) * K); [apply Rmult_le_compat_l; lra|].
        assert (Md : INR m * d * K <= r * eps).
        { unfold d. replace (INR m * (r * eps / (K * (INR m + 1))) * K) with (r * eps * (INR m / (INR m + 1))) by (field; split; [lra|unfold K; lra]).
          assert (INR m / (INR m + 1) <= 1). { apply (Rmult_le_reg_r (INR m + 1)); [lra|]. unfold Rdiv. rewrite Rmult_assoc, Rinv_l by lra. lra. }
          assert (0 < r * eps) by nra. nra. }
        assert (K0 : 0 <= K) by (unfold K; lra).
        assert (Cmod (U t p i) * r * K <= INR m * d * K) by (apply Rmult_le_compat_r; assumption).
        apply (Rmult_le_reg_l r); [exact Hr|]. nra.
    Qed.

    (** the averaged matrix: sum_i U_pi Q(a_i) (U^H Y)_ij *)
    Definition avg (Y : R -> mat) (t : R) (p j : nat) : C :=
      csum m (fun i => Cmult (Cmult (U t p i) (RtoC (Q (a t i)))) (csum m (fun q => Cmult (Cconj (U t q i)) (Y t q j)))).

    Lemma avg_limit (Y : R -> mat) (Y0 : mat) p j : (p < m)%nat -> (j < m)%nat ->
      (forall q, (q < m)%nat -> clim (fun t => Y t q j) (Y0 q j)) ->
      clim (fun t => avg Y t p j) (Cmult (RtoC (Q (b p))) (Y0 p j)).
    Proof.
      intros Hp Hj HY.
      apply (clim_ext (fun t => Cplus (Cmult (RtoC (Q (b p))) (Y t p j)) (Cminus (avg Y t p j) (Cmult (RtoC (Q (b p))) (Y t p j))))).
      { apply filter_forall. intros t. ring. }
      replace (Cmult (RtoC (Q (b p))) (Y0 p j)) with (Cplus (Cmult (RtoC (Q (b p))) (Y0 p j)) (RtoC 0)) by ring.
      apply clim_plus; [apply clim_mult; [apply clim_const|apply HY, Hp]|].
      (* a bound of the column Y_.j *)
      set (L := rsumn m (fun q => Cmod (Y0 q j)) + 1).
      assert (HL : 1 <= L). { unfold L. assert (0 <= rsumn m (fun q => Cmod (Y0 q j))) by (apply rsumn_nonneg; intros; apply Cmod_ge_0). lra. }
      assert (HYb : locally 0 (fun t => forall q, (q < m)%nat -> Cmod (Y t q j) <= L)).
      { apply forall_lt_locally. intros q Hq. generalize (HY q Hq 1 Rlt_0_1). apply filter_imp. intros t Ht.
        pose proof (rsumn_term m (fun q => Cmod (Y0 q j)) q Hq (fun i _ => Cmod_ge_0 _)) as T. cbv beta in T.
        replace (Y t q j) with (Cplus (Y0 q j) (Cminus (Y t q j) (Y0 q j))) by ring.
        pose proof (Cmod_triangle (Y0 q j) (Cminus (Y t q j) (Y0 q j))). unfold L. lra. }
      intros eps He. pose proof (pos_INR m) as Pm.
      set (e1 := eps / (INR m * (INR m * L) + 1)).
      assert (He1 : 0 < e1). { apply Rdiv_lt_0_compat; [lra|]. nra. }
      generalize (filter_and _ _ HU (filter_and _ _ HYb (weak_small e1 p He1 Hp))). apply filter_imp.
      intros t [h1 [hy hw]].
      assert (E : Cminus (avg Y t p j) (Cmult (RtoC (Q (b p))) (Y t p j)) =
                  csum m (fun i => Cmult (Cmult (U t p i) (RtoC (Q (a t i) - Q (b p)))) (csum m (fun q => Cmult (Cconj (U t q i)) (Y t q j))))).
      { assert (Id : Y t p j = csum m (fun i => Cmult (U t p i) (csum m (fun q => Cmult (Cconj (U t q i)) (Y t q j))))).
        { destruct h1 as [_ h1]. rewrite <- (mmul_id_l m (S j) (Y t) p j Hp (Nat.lt_succ_diag_r j)).
          rewrite <- (mmul_ext_l m m (S j) _ _ (Y t) h1 p j Hp (Nat.lt_succ_diag_r j)).
          rewrite (mmul_assoc m m). reflexivity. }
        unfold avg. rewrite Id. rewrite <- csum_scal_l, <- csum_minus. apply csum_ext. intros i Hi. rewrite RtoC_minus. ring. }
      replace (Cminus (Cminus (avg Y t p j) (Cmult (RtoC (Q (b p))) (Y t p j))) (RtoC 0)) with (Cminus (avg Y t p j) (Cmult (RtoC (Q (b p))) (Y t p j))) by ring.
      rewrite E. eapply Rle_lt_trans; [apply Cmod_csum|].
      apply Rle_lt_trans with (INR m * (e1 * (INR m * L))).
      - rewrite <- rsumn_const. apply rsumn_le. intros i Hi. rewrite !Cmod_mult, Cmod_R.
        apply Rmult_le_compat; [|apply Cmod_ge_0|apply hw, Hi|].
        + apply Rmult_le_pos; [apply Cmod_ge_0|apply Rabs_pos].
        + eapply Rle_trans; [apply Cmod_csum|]. rewrite <- rsumn_const. apply rsumn_le. intros q Hq.
          rewrite Cmod_mult, Cmod_conj. pose proof (unitary_entry m (U t) q i h1 Hq Hi). pose proof (hy q Hq).
          pose proof (Cmod_ge_0 (U t q i)). pose proof (Cmod_ge_0 (Y t q j)). nra.
      - unfold e1. set (M := INR m * (INR m * L)). assert (0 <= M) by (unfold M; nra).
        replace (INR m * (eps / (M + 1) * (INR m * L))) with (eps * (M / (M + 1))) by (unfold M; field; fold M; lra).
        assert (M / (M + 1) < 1). { apply (Rmult_lt_reg_r (M + 1)); [lra|]. unfold Rdiv. rewrite Rmult_assoc, Rinv_l by lra. lra. }
        nra.
    Qed.
  End Weight.

  (** difference of a function of A_t and of diag b, with the difference A_t - diag b = Y_t *)
  Lemma mfun_diff g (l : nat -> R) :
    locally 0 (fun t => forall p j, (p < m)%nat -> (j < m)%nat ->
      mfun m (U t) (a t) g p j =
      Cplus (mdiag (fun i => g (b i)) p j) (avg (quot g (b j) (l j)) (fun t q j => Cminus (A t q j) (mdiag b q j)) t p j)).
  Proof.
    generalize (filter_and _ _ HU (filter_and _ _ HA HE)). apply filter_imp. intros t [h1 [h2 h3]] p j Hp Hj.
    rewrite (mfun_entry m (U t) (a t) g p j Hp Hj). unfold avg.
    rewrite (csum_ext m (fun i => Cmult (Cmult (U t p i) (RtoC (quot g (b j) (l j) (a t i)))) _)
      (fun i => Cmult (Cmult (U t p i) (RtoC (g (a t i) - g (b j)))) (Cconj (U t j i)))).
    2:{ intros i Hi. rewrite (pert_row m (U t) (A t) (a t) b h2 h3 i j Hi Hj).
        rewrite (quot_id g (b j) (l j) (a t i)), (RtoC_mult (quot g (b j) (l j) (a t i))). ring. }
    assert (Id : mdiag (fun i => g (b i)) p j = csum m (fun i => Cmult (Cmult (U t p i) (RtoC (g (b j)))) (Cconj (U t j i)))).
    { destruct h1 as [_ h1]. pose proof (h1 p j Hp Hj) as E. unfold mmul, adj in E.
      rewrite (csum_ext m _ (fun i => Cmult (RtoC (g (b j))) (Cmult (U t p i) (Cconj (U t j i))))) by (intros; ring).
      rewrite csum_scal_l, E. unfold mdiag, mid. destruct (Nat.eqb p j) eqn:X; [apply Nat.eqb_eq in X; subst; ring|ring]. }
    rewrite Id, <- csum_plus. apply csum_ext. intros i Hi. rewrite RtoC_minus. ring.
  Qed.
End Curve.
