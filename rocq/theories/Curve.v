(** Free energy along the trial curve of a line search at fixed Hamiltonian, and its slope.
    The curve is geodesic_us (Geodesic.v); the gradient and slopes are those of Descent.v. *)
From Coq Require Import Reals Lra Psatz Arith Lia List Bool.
From Coquelicot Require Import Coquelicot.
From Verif Require Import Arith Erf LinAlg Containers Newton Occupation Smearing SmearingProofs SmearingUse SmearingFacts Descent DescentProofs DescentFacts GradEtaFacts Geodesic GeodesicProofs MatFun.
Import ListNotations.
Local Open Scope R_scope.

(** A k-point with its Hamiltonian matrix and a search direction (z_x, z_eta). *)
Record moving := MkMoving { mk : kpt; mH : mat; mzx : mat; mze : mat }.

Section Energy.
  Context (eigh : nat -> mat -> option (mat * (nat -> R))) (s : smearing_type) (T mo : R).
  (** trial point at step length t: pseudo-eigenvalues, rotation, wave functions *)
  Definition trial (p : moving) (t : R) : option ((nat -> R) * mat * mat) :=
    geodesic_us eigh (kn (mk p)) (km (mk p)) (kX (mk p)) (make_diag (ke (mk p))) (mzx p) (mze p) (kS (mk p)) t.
  (** w * sum over the bands of the trial point of g(x_i, <X_i|H|X_i>) with x_i = (mu - e_i) / kT *)
  Definition bands_sum (g : R -> R -> R) (mu t : R) (p : moving) : R :=
    match trial p t with
    | None => 0
    | Some (ek, _, X') =>
      kw (mk p) * rsumn (km (mk p)) (fun i => g ((mu - ek i) / (kb Rarith * T)) (Re (quad (kn (mk p)) (mH p) (fun a => X' a i))))
    end.
  Definition energy_at (world : list (list moving)) (mu t : R) : R :=
    total (bands_sum (fun x h => sfn (smearing_class s) x mo * h) mu t) world.
  Definition count_at (world : list (list moving)) (mu t : R) : R :=
    total (bands_sum (fun x _ => sfn (smearing_class s) x mo) mu t) world.
  Definition entropy_at (world : list (list moving)) (mu t : R) : R :=
    total (bands_sum (fun x _ => sentropy (smearing_class s) x mo) mu t) world.
  (** band energy plus kT times (minus the sum of the entropies) *)
  Definition curve_energy (world : list (list moving)) (mu : R -> R) (t : R) : R :=
    energy_at world (mu t) t + kb Rarith * T * (-1 * entropy_at world (mu t) t).

  (** what is assumed of a k-point; [mu] is the chemical potential at t = 0 *)
  Record moving_ok (mu : R) (p : moving) : Prop := MkMovingOk {
    mv_H : hermitian (kn (mk p)) (mH p);
    mv_S : hermitian (kn (mk p)) (kS (mk p));
    mv_X : orthonormal (kn (mk p)) (km (mk p)) (kS (mk p)) (kX (mk p));
    mv_HX : meq (kn (mk p)) (km (mk p)) (kHX (mk p)) (mmul (kn (mk p)) (mH p) (kX (mk p)));
    mv_tan : tangent (mk p) (mzx p);
    mv_ze : hermitian (km (mk p)) (mze p);
    mv_h : forall i, (i < km (mk p))%nat -> kh (mk p) i = Re (mmul (kn (mk p)) (adj (kX (mk p))) (kHX (mk p)) i i);
    mv_f : forall i, (i < km (mk p))%nat -> kf (mk p) i = sfn (smearing_class s) ((mu - ke (mk p) i) / (kb Rarith * T)) mo;
    mv_in : forall i, (i < km (mk p))%nat -> inside s ((mu - ke (mk p) i) / (kb Rarith * T));
    (** the eigensolver reports no failure for short steps *)
    mv_ok : locally 0 (fun t => trial p t <> None)
  }.

  (** [f_j - f_i] / [e_j - e_i] of two bands, for equal energies the derivative of the occupation *)
  Definition divided (mu : R) (p : moving) (i j : nat) : R :=
    if Req_EM_T (ke (mk p) j) (ke (mk p) i) then - sdelta (smearing_class s) ((ke (mk p) i - mu) / (kb Rarith * T)) mo / (kb Rarith * T)
    else (kf (mk p) j - kf (mk p) i) / (ke (mk p) j - ke (mk p) i).
  (** Pairs of bands closer than 10^-10: grad_eta.hpp 121-164 sets their entries of the gradient to zero.  Their part of
      the derivative of the free energy: *)
  Definition dropped (mu : R) (p : moving) : R :=
    kw (mk p) * rsumn (km (mk p)) (fun i => rsumn (km (mk p)) (fun j =>
      if Nat.eqb i j then 0 else if Rlt_dec (Rabs (ke (mk p) j - ke (mk p) i)) (1 / 10 ^ 10) then
        divided mu p i j * Re (Cmult (mmul (kn (mk p)) (adj (kX (mk p))) (kHX (mk p)) i j) (mze p j i)) else 0)).
  (** no such part *)
  Definition gapped (p : moving) : Prop := forall i j, (i < km (mk p))%nat -> (j < km (mk p))%nat -> i <> j ->
    1 / 10 ^ 10 <= Rabs (ke (mk p) j - ke (mk p) i) \/
    mmul (kn (mk p)) (adj (kX (mk p))) (kHX (mk p)) i j = RtoC 0 \/ mze p i j = RtoC 0.
End Energy.

(** ** Quotients *)
Lemma quot_cont (g : R -> R) (x l y : R) : is_derive g x l -> continuous g y -> continuous (quot g x l) y.
Proof.
  intros Hd Hc. destruct (Req_EM_T y x) as [->|N]; [apply quot_continuous, Hd|].
  apply (continuous_ext_loc _ (fun z : R => (g z - g x) / (z - x))).
  - exists (mkposreal (Rabs (y - x)) (Rabs_pos_lt _ (Rminus_eq_contra _ _ N))). intros z Hz. unfold quot.
    destruct (Req_EM_T z x) as [->|]; [|reflexivity]. exfalso. change (Rabs (x + - y) < Rabs (y - x)) in Hz.
    replace (x + - y) with (- (y - x)) in Hz by ring. rewrite Rabs_Ropp in Hz. lra.
  - apply (continuous_mult (fun z => g z - g x) (fun z => / (z - x))).
    + apply (continuous_minus g (fun _ => g x)); [exact Hc|apply continuous_const].
    + apply continuous_Rinv_comp; [|lra]. apply (continuous_minus (fun z => z) (fun _ => x)); [apply continuous_id|apply continuous_const].
Qed.

Definition cquot (F : R -> C) (l : C) (t : R) : C := if Req_EM_T t 0 then l else Cdiv (Cminus (F t) (F 0)) (RtoC t).
Lemma cquot_id F l t : F t = Cplus (F 0) (Cmult (RtoC t) (cquot F l t)).
Proof.
  unfold cquot. destruct (Req_EM_T t 0) as [->|N]; [ring|].
  assert (RtoC t <> RtoC 0) by (intros E; apply N; exact (RtoC_inj _ _ E)). field. assumption.
Qed.
Lemma cquot_lim F l : cder F l -> clim (cquot F l) l.
Proof.
  intros [q [Hq HF]]. apply (clim_ext q); [|exact Hq].
  generalize HF. apply filter_imp. intros t H. unfold cquot. destruct (Req_EM_T t 0) as [->|N]; [apply clim_at, Hq|].
  rewrite H. assert (RtoC t <> RtoC 0) by (intros E; apply N; exact (RtoC_inj _ _ E)). field. assumption.
Qed.

Section Der.
  Context (m : nat) (U A : R -> mat) (a : R -> nat -> R) (b : nat -> R).
  Hypothesis HU : locally 0 (fun t => unitary m (U t)).
  Hypothesis HA : locally 0 (fun t => hermitian m (A t)).
  Hypothesis HE : locally 0 (fun t => meq m m (mmul m (A t) (U t)) (mmul m (U t) (mdiag (a t)))).
  Hypothesis H0 : meq m m (A 0) (mdiag b).
  Context (g : R -> R) (l : nat -> R) (Hg : forall p, (p < m)%nat -> is_derive g (b p) (l p)).

  Lemma g_quot_cont j : (j < m)%nat -> forall p, (p < m)%nat -> continuous (quot g (b j) (l j)) (b p).
  Proof. intros Hj p Hp. apply quot_cont; [apply Hg, Hj|]. apply (ex_derive_continuous g (b p)). exists (l p). apply Hg, Hp. Qed.

  Lemma avg_scal Q (Y : R -> mat) (c : R -> C) t p j :
    avg m U a Q (fun t q j => Cmult (c t) (Y t q j)) t p j = Cmult (c t) (avg m U a Q Y t p j).
  Proof.
    unfold avg. rewrite <- csum_scal_l. apply csum_ext. intros i Hi.
    rewrite (csum_ext m _ (fun q => Cmult (c t) (Cmult (Cconj (U t q i)) (Y t q j)))) by (intros; ring).
    rewrite csum_scal_l. ring.
  Qed.
  Lemma avg_minus Q (Y Z : R -> mat) t p j :
    avg m U a Q (fun t q j => Cminus (Y t q j) (Z t q j)) t p j = Cminus (avg m U a Q Y t p j) (avg m U a Q Z t p j).
  Proof.
    unfold avg. rewrite <- csum_minus. apply csum_ext. intros i Hi.
    rewrite (csum_ext m _ (fun q => Cminus (Cmult (Cconj (U t q i)) (Y t q j)) (Cmult (Cconj (U t q i)) (Z t q j)))) by (intros; ring).
    rewrite csum_minus. ring.
  Qed.
  Lemma avg_ext Q (Y Z : R -> mat) t p j : (forall q, (q < m)%nat -> Y t q j = Z t q j) -> avg m U a Q Y t p j = avg m U a Q Z t p j.
  Proof. intros H. unfold avg. apply csum_ext. intros i Hi. f_equal. apply csum_ext. intros q Hq. rewrite (H q Hq). reflexivity. Qed.

  Context (Y0 : mat) (HY : forall i j, (i < m)%nat -> (j < m)%nat -> cder (fun t => A t i j) (Y0 i j)).

  Lemma A_lim : forall i j, (i < m)%nat -> (j < m)%nat -> clim (fun t => A t i j) (mdiag b i j).
  Proof. intros i j Hi Hj. rewrite <- (H0 i j Hi Hj). apply (cder_clim (fun t => A t i j) (Y0 i j)), HY; assumption. Qed.

  (** value at 0 *)
  Lemma mfun_0 p j : (p < m)%nat -> (j < m)%nat -> mfun m (U 0) (a 0) g p j = mdiag (fun i => g (b i)) p j.
  Proof.
    intros Hp Hj. pose proof (near_0 _ (mfun_diff m U A a b HU HA HE g l)) as E. cbv beta in E. rewrite (E p j Hp Hj).
    unfold avg. rewrite (csum_0 m); [ring|]. intros i Hi. rewrite (csum_0 m); [ring|]. intros q Hq. rewrite (H0 q j Hq Hj). ring.
  Qed.
  (** derivative at 0 *)
  Lemma mfun_der p j : (p < m)%nat -> (j < m)%nat ->
    cder (fun t => mfun m (U t) (a t) g p j) (Cmult (RtoC (quot g (b j) (l j) (b p))) (Y0 p j)).
  Proof.
    intros Hp Hj.
    exists (fun t => avg m U a (quot g (b j) (l j)) (fun t q i => cquot (fun t => A t q i) (Y0 q i) t) t p j). split.
    - apply (avg_limit m U A a b HU HA HE A_lim (quot g (b j) (l j)) (g_quot_cont j Hj) _ Y0 p j Hp Hj).
      intros q Hq. apply cquot_lim, HY; assumption.
    - generalize (mfun_diff m U A a b HU HA HE g l). apply filter_imp. intros t E. rewrite (E p j Hp Hj), (mfun_0 p j Hp Hj). f_equal.
      rewrite <- (avg_scal (quot g (b j) (l j)) (fun t q i => cquot (fun t => A t q i) (Y0 q i) t) (fun t => RtoC t)).
      apply avg_ext. intros q Hq. rewrite (cquot_id (fun t => A t q j) (Y0 q j) t) at 1. rewrite (H0 q j Hq Hj). ring.
  Qed.
End Der.

(** ** Traces *)
Lemma quad_entry n H (X : mat) i : quad n H (fun a => X a i) = mmul n (adj X) (mmul n H X) i i.
Proof. unfold quad, mmul, adj. apply csum_ext. intros a Ha. rewrite <- csum_scal_l. apply csum_ext. intros c Hc. ring. Qed.

Lemma trace_rot m (K U : mat) (g : nat -> R) :
  csum m (fun i => Cmult (RtoC (g i)) (mmul m (adj U) (mmul m K U) i i)) =
  csum m (fun p => csum m (fun q => Cmult (K p q) (csum m (fun i => Cmult (Cmult (U q i) (RtoC (g i))) (Cconj (U p i)))))).
Proof.
  rewrite (csum_ext m _ (fun i => csum m (fun p => csum m (fun q => Cmult (K p q) (Cmult (Cmult (U q i) (RtoC (g i))) (Cconj (U p i))))))).
  2:{ intros i Hi. unfold mmul, adj. rewrite <- csum_scal_l. apply csum_ext. intros p Hp. rewrite <- !csum_scal_l. apply csum_ext. intros q Hq. ring. }
  rewrite csum_swap. apply csum_ext. intros p Hp. rewrite csum_swap. apply csum_ext. intros q Hq. rewrite <- csum_scal_l. reflexivity.
Qed.
Lemma trace_sum m U a g : unitary m U -> csum m (fun p => mfun m U a g p p) = RtoC (rsumn m (fun i => g (a i))).
Proof.
  intros HU. rewrite (csum_ext m _ (fun p => csum m (fun i => Cmult (RtoC (g (a i))) (Cmult (Cconj (U p i)) (U p i))))).
  2:{ intros p Hp. rewrite (mfun_entry m U a g p p Hp Hp). apply csum_ext. intros i Hi. ring. }
  rewrite csum_swap, <- csum_RtoC. apply csum_ext. intros i Hi. rewrite csum_scal_l. destruct HU as [HU _].
  pose proof (HU i i Hi Hi) as E. unfold mmul, adj, mid in E. rewrite Nat.eqb_refl in E. rewrite E. ring.
Qed.
Lemma trace_conj m n H Y U : mmul n (adj (mmul m Y U)) (mmul n H (mmul m Y U)) = mmul m (adj U) (mmul m (mmul n (adj Y) (mmul n H Y)) U).
Proof. rewrite adj_mmul. rewrite !(mmul_assoc m n). f_equal. rewrite <- (mmul_assoc n m H Y U). rewrite (mmul_assoc n m (adj Y)). reflexivity. Qed.
