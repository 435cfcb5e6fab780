(** The slope of a descent direction is the derivative of the free energy along the trial curve. *)
From Coq Require Import Reals Lra Psatz Arith Lia List Bool.
From Coquelicot Require Import Coquelicot.
From Verif Require Import Arith Erf LinAlg Containers Newton Occupation Smearing SmearingProofs SmearingUse SmearingFacts Descent DescentProofs DescentFacts GradEtaFacts Geodesic GeodesicProofs MatFun Curve CurveProofs.
Import ListNotations.
Local Open Scope R_scope.

Lemma fold_locally {Y} (f g : R -> Y -> R) (r : list Y) : (forall y, In y r -> locally 0 (fun t => f t y = g t y)) ->
  locally 0 (fun t => fold_right Rplus 0 (map (f t) r) = fold_right Rplus 0 (map (g t) r)).
Proof.
  induction r as [|y r IH]; intros H; [apply filter_forall; reflexivity|].
  generalize (filter_and _ _ (H y (or_introl eq_refl)) (IH (fun z Hz => H z (or_intror Hz)))). apply filter_imp.
  intros t [E1 E2]. cbn [map fold_right]. rewrite E1, E2. reflexivity.
Qed.
Lemma total_locally {Y} (f g : R -> Y -> R) (w : list (list Y)) : (forall r y, In r w -> In y r -> locally 0 (fun t => f t y = g t y)) ->
  locally 0 (fun t => total (f t) w = total (g t) w).
Proof.
  intros H. unfold total. apply (fold_locally (fun t r => fold_right Rplus 0 (map (f t) r)) (fun t r => fold_right Rplus 0 (map (g t) r))).
  intros r Hr. apply fold_locally. intros y Hy. exact (H r y Hr Hy).
Qed.

(** ** One k-point *)
Section OneK.
  Context (eigh : nat -> mat -> option (mat * (nat -> R))) (solve : nat -> mat -> mat -> mat) (s : smearing_type) (T mo : R) (p : moving) (mu0 : R).
  Hypothesis HT : 0 < T.
  Hypothesis Hs : s <> COLD.
  Hypothesis Hp : moving_ok eigh s T mo mu0 p.
  Let k := mk p. Let n := kn k. Let m := km k. Let kT := kb Rarith * T.
  Let zx := mzx p. Let ze := mze p. Let e := ke k.
  Let HX0 : mat := mmul n (adj (kX k)) (kHX k).
  Let fn (x : R) : R := sfn (smearing_class s) x mo.
  (** delta of band i and the derivatives of occupation and entropy with respect to e_i *)
  Definition dl (i : nat) : R := sdelta (smearing_class s) ((e i - mu0) / kT) mo.
  Definition lf (i : nat) : R := - dl i / kT.
  Definition ls (i : nat) : R := - ((mu0 - e i) / kT) * lf i.

  Lemma kT0 : 0 < kT.
  Proof. exact (kT_pos' T HT). Qed.
  Lemma lf_derive i : (i < m)%nat -> is_derive (fun y => fn ((mu0 - y) / kT)) (e i) (lf i).
  Proof. intros Hi. apply occupation_slope; [pose proof kT0; lra|exact Hs|exact (mv_in _ _ _ _ _ _ Hp i Hi)]. Qed.
  Lemma ls_derive i : s <> GAUSSIAN_SPLINE \/ mo = 1 -> (i < m)%nat ->
    is_derive (fun y => sentropy (smearing_class s) ((mu0 - y) / kT) mo) (e i) (ls i).
  Proof.
    intros Hm Hi. pose proof kT0 as K. set (x := (mu0 - e i) / kT).
    pose proof (entropy_derive s x mo (mv_in _ _ _ _ _ _ Hp i Hi) Hm) as D.
    apply (derive_val _ _ (- / kT * (- x * sdelta (smearing_class s) x mo))).
    - apply (is_derive_comp (fun z => sentropy (smearing_class s) z mo) (fun y => (mu0 - y) / kT) (e i) (- x * sdelta (smearing_class s) x mo) (- / kT)).
      + exact D.
      + auto_derive; [trivial|]. field. lra.
    - unfold ls, lf, dl. replace ((e i - mu0) / kT) with (- x) by (unfold x; field; lra). rewrite (even s x mo Hs). fold x. field. lra.
  Qed.

  Lemma HX0_herm : hermitian m HX0.
  Proof.
    pose proof (GeodesicProofs.gram_hermitian n m (mH p) (kX k) (mv_H _ _ _ _ _ _ Hp)) as G.
    apply (hermitian_ext m (mmul n (adj (kX k)) (mmul n (mH p) (kX k)))); [|exact G].
    apply mmul_ext_r. apply meq_sym. exact (mv_HX _ _ _ _ _ _ Hp).
  Qed.
  Lemma HX0_diag i : (i < m)%nat -> HX0 i i = RtoC (kh k i).
  Proof.
    intros Hi. pose proof (mv_h _ _ _ _ _ _ Hp i Hi) as E. fold k in E. rewrite E. apply real_of_conj. exact (HX0_herm i i Hi Hi).
  Qed.

  (** the wave function part *)
  Lemma slope_x_ip : kw k * slope_x T p mu0 fn = 2 * Re (ip n m (grad_x solve k) zx).
  Proof.
    unfold grad_x. fold n m.
    set (M := solve m (inner_ n (mmul n (kS k) (kX k)) (mmul n (kP k) (mmul n (kS k) (kX k))) 1) (inner_ n (mmul n (kS k) (kX k)) (mmul n (kP k) (kHX k)) 1)).
    assert (E : gradx (kHX k) (kf k) (lmult solve k (mmul n (kS k) (kX k)) (kHX k)) (kw k) =
      madd (scale_cols (kHX k) (kf k) (kw k)) (mmul m (mmul n (kS k) (kX k)) (mscal (RtoC (- kw k)) M))).
    { rewrite mmul_scal_r. apply mat_ext. intros i j. unfold gradx, add, madd, scale_cols, mscal, lmult, transform_alloc, M, n, m. ring. }
    rewrite E, ip_add_l, Re_plus.
    pose proof (ip_tangent k (mscal (RtoC (- kw k)) M) zx (proj1 (tangent_meq k zx) (mv_tan _ _ _ _ _ _ Hp))) as E2. fold n m in E2. rewrite E2. rewrite Re_R, Rplus_0_r.
    unfold slope_x. fold k n m zx e kT. rewrite <- Rmult_assoc, (Rmult_comm (kw k) 2), Rmult_assoc. f_equal.
    unfold ip. rewrite csum_swap, csum_Re, <- rsumn_scal. apply rsumn_ext. intros j Hj.
    pose proof (mv_f _ _ _ _ _ _ Hp j Hj) as F. fold k e kT in F. unfold fn. rewrite <- F. rewrite <- Rmult_assoc, <- Re_scal.
    rewrite <- (Re_conj (csum n _)). f_equal. rewrite csum_conj. unfold mmul. rewrite <- csum_scal_l. apply csum_ext. intros i Hi.
    unfold scale_cols, adj. rewrite !Cconj_mult, Cconj_R, Cconj_conj. ring.
  Qed.

  (** off-diagonal part of the eta gradient *)
  Section EtaPart.
    Context (dmu dF : R).
    Let ge : mat := grad_e s T mo mu0 dmu dF k.
    Definition offd : R := rsumn m (fun i => rsumn m (fun j => if Nat.eqb i j then 0 else Re (Cmult (ge i j) (Cconj (ze i j))))).

    Lemma slope_f_split mu' : kw k * Re (slope_f T p mu0 fn lf mu') =
      kw k * rsumn m (fun i => lf i * kh k i * (Re (ze i i) - mu')) + (offd + dropped s T mo mu0 p).
    Proof.
      unfold slope_f. fold k n m ze e kT. fold HX0. rewrite csum_Re.
      rewrite (rsumn_ext m _ (fun i => rsumn m (fun j => Re (Cmult (HX0 i j) (Cmult (RtoC (quot (fun y => fn (- y / kT)) (e i - mu0) (lf i) (e j - mu0))) (Cminus (ze j i) (mdiag (fun _ => mu') j i)))))))
        by (intros i Hi; rewrite csum_Re; reflexivity).
      rewrite (split_diag m (fun i j => Re (Cmult (HX0 i j) (Cmult (RtoC (quot (fun y => fn (- y / kT)) (e i - mu0) (lf i) (e j - mu0))) (Cminus (ze j i) (mdiag (fun _ => mu') j i)))))).
      rewrite Rmult_plus_distr_l. f_equal.
      - f_equal. apply rsumn_ext. intros i Hi. rewrite quot_at, (HX0_diag i Hi), !Re_scal. unfold mdiag. rewrite Nat.eqb_refl. unfold Cminus. rewrite Re_plus.
        change (Re (Copp (RtoC mu'))) with (- mu'). ring.
      - unfold offd, dropped. fold k n m ze HX0. rewrite <- !rsumn_scal, <- rsumn_plus. apply rsumn_ext. intros i Hi. rewrite <- !rsumn_scal, <- rsumn_plus. apply rsumn_ext. intros j Hj.
        destruct (Nat.eqb i j) eqn:N; [ring|]. pose proof N as N'. apply Nat.eqb_neq in N'.
        assert (Z : Cconj (ze i j) = ze j i) by exact (mv_ze _ _ _ _ _ _ Hp j i Hj Hi). rewrite Z.
        unfold mdiag. rewrite (proj2 (Nat.eqb_neq j i)) by congruence.
        replace (Cminus (ze j i) (RtoC 0)) with (ze j i) by ring.
        unfold ge, grad_e. destruct (Rlt_dec (Rabs (ke k j - ke k i)) (1 / 10 ^ 10)) as [c|c].
        + rewrite (degenerate_zero s T mo k _ mu0 dmu dF i j N' c).
          rewrite Cmult_0_l, Re_R, Rplus_0_l. f_equal. unfold divided, quot. fold k e kT.
          replace (Re (Cmult (HX0 i j) (ze j i))) with (Re (Cmult (HX0 i j) (ze j i))) by reflexivity.
          pose proof (mv_f _ _ _ _ _ _ Hp i Hi) as Fi. pose proof (mv_f _ _ _ _ _ _ Hp j Hj) as Fj. fold k e kT in Fi, Fj. fold (fn ((mu0 - e i) / kT)) in Fi. fold (fn ((mu0 - e j) / kT)) in Fj.
          destruct (Req_EM_T (e j - mu0) (e i - mu0)) as [X|X]; destruct (Req_EM_T (e j) (e i)) as [Y|Y]; try (exfalso; lra).
          * fold (dl i). fold (lf i). rewrite <- Re_scal. f_equal. ring.
          * rewrite Fi, Fj. replace (- (e j - mu0) / kT) with ((mu0 - e j) / kT) by (unfold Rdiv; ring). replace (- (e i - mu0) / kT) with ((mu0 - e i) / kT) by (unfold Rdiv; ring).
            replace (e j - mu0 - (e i - mu0)) with (e j - e i) by ring. rewrite <- Re_scal. f_equal. ring.
        + apply Rnot_lt_le in c. rewrite (apart_value s T mo k _ mu0 dmu dF i j N' c).
          assert (Ne : e j - mu0 <> e i - mu0). { intros X. replace (ke k j - ke k i) with 0 in c by (unfold e in X; lra). rewrite Rabs_R0 in c. assert (0 < 1 / 10 ^ 10) by (apply Rdiv_lt_0_compat; [lra|apply pow_lt; lra]). lra. }
          unfold quot. destruct (Req_EM_T (e j - mu0) (e i - mu0)) as [X|_]; [contradiction|].
          pose proof (mv_f _ _ _ _ _ _ Hp i Hi) as Fi. pose proof (mv_f _ _ _ _ _ _ Hp j Hj) as Fj. fold k e kT in Fi, Fj.
          rewrite Rmult_0_r, Rplus_0_r. rewrite Fi, Fj. unfold fn. fold e. replace (- (e j - mu0) / kT) with ((mu0 - e j) / kT) by (unfold Rdiv; ring). replace (- (e i - mu0) / kT) with ((mu0 - e i) / kT) by (unfold Rdiv; ring).
          replace (e j - mu0 - (e i - mu0)) with (e j - e i) by ring.
          unfold inner_, mscal. fold n HX0. rewrite <- Re_scal. f_equal. ring.
    Qed.

    Lemma eta_ip : 1 / 10 ^ 12 <= Rabs dmu ->
      Re (ip m m ge ze) = rsumn m (fun i => Re (ze i i) * (- 1 / kT * (kw k * kh k i - kw k * e i) * dl i + kw k * dl i / dmu * (dF / kT))) + offd.
    Proof.
      intros Hd. unfold ip. rewrite csum_Re. rewrite (rsumn_ext m _ (fun i => rsumn m (fun j => Re (Cmult (ge i j) (Cconj (ze i j)))))) by (intros i Hi; apply csum_Re).
      rewrite (split_diag m (fun i j => Re (Cmult (ge i j) (Cconj (ze i j))))). f_equal.
      apply rsumn_ext. intros i Hi. unfold ge, grad_e.
      rewrite (g_eta_diag s T mo k mu0 dmu dF i HX0_herm Hi (mv_h _ _ _ _ _ _ Hp i Hi) Hd), Re_scal, Re_conj. fold kT e (dl i). ring.
    Qed.
  End EtaPart.
End OneK.

(** ** All k-points *)
Section World.
  Context (eigh : nat -> mat -> option (mat * (nat -> R))) (solve : nat -> mat -> mat -> mat) (s : smearing_type) (T mo : R) (mu : R -> R) (world : list (list moving)).
  Hypothesis He : eigh_ok eigh.
  Hypothesis HT : 0 < T.
  Hypothesis Hs : s <> COLD.
  Hypothesis Hm : s <> GAUSSIAN_SPLINE \/ mo = 1.
  Hypothesis Hc : continuous mu 0.
  Hypothesis Hw : forall r p, In r world -> In p r -> moving_ok eigh s T mo (mu 0) p.
  Hypothesis Hcount : locally 0 (fun t => count_at eigh s T mo world (mu t) t = count_at eigh s T mo world (mu 0) 0).
  Let ks := map (map mk) world.
  Let kT := kb Rarith * T.
  Let dmu := dmu_deta s T mo ks (mu 0).
  Let dF := dFdmu s T mo ks (mu 0).
  Hypothesis Hdmu : 1 / 10 ^ 12 <= Rabs dmu.
  Let fn (x : R) : R := sfn (smearing_class s) x mo.
  Let en (x : R) : R := sentropy (smearing_class s) x mo.
  Let w (p : moving) := kw (mk p). Let m (p : moving) := km (mk p).
  Let d (p : moving) := dl s T mo p (mu 0).
  Let l (p : moving) := lf s T mo p (mu 0).

  Lemma K0 : 0 < kT.
  Proof. exact (kT_pos' T HT). Qed.
  Lemma dmu_sum : dmu = total (fun p => w p * rsumn (m p) (d p)) world.
  Proof.
    unfold dmu, dmu_deta, ks. rewrite total_map. apply total_ext. intros r p _ _. rewrite <- rsumn_scal. apply rsumn_ext. intros i _. unfold d, dl, w. ring.
  Qed.
  Lemma dF_sum : dF = total (fun p => w p * rsumn (m p) (fun i => (kh (mk p) i - ke (mk p) i) * d p i)) world.
  Proof. unfold dF, dFdmu, ks. rewrite total_map. apply total_ext. intros r p _ _. rewrite Rmult_comm. reflexivity. Qed.
  Lemma dmu_ne : dmu <> 0.
  Proof. intros E. rewrite E, Rabs_R0 in Hdmu. assert (0 < 1 / 10 ^ 12) by (apply Rdiv_lt_0_compat; [lra|apply pow_lt; lra]). lra. Qed.

  Lemma bands_fsum (F : R -> R) r p : In r world -> In p r ->
    locally 0 (fun t => bands_sum eigh T (fun x _ => F x) (mu t) t p = w p * fsum eigh T p mu F t).
  Proof.
    intros Hr Hp. generalize (trial_eq eigh s T mo p (mu 0) He (Hw r p Hr Hp)). apply filter_imp. intros t (_ & _ & _ & _ & E).
    unfold bands_sum. rewrite E. reflexivity.
  Qed.
  Lemma bands_ebands (F : R -> R) r p : In r world -> In p r ->
    locally 0 (fun t => bands_sum eigh T (fun x h => F x * h) (mu t) t p = w p * ebands eigh T p mu F t).
  Proof.
    intros Hr Hp. generalize (trial_eq eigh s T mo p (mu 0) He (Hw r p Hr Hp)). apply filter_imp. intros t (_ & _ & _ & _ & E).
    unfold bands_sum. rewrite E. reflexivity.
  Qed.

  Let al (t : R) : R := total (fun p => w p * av eigh T p (mu 0) mu fn (l p) (mze p) t) world.
  Let be (t : R) : R := total (fun p => w p * av eigh T p (mu 0) mu fn (l p) mid t) world.
  Lemma lf_der r p : In r world -> In p r -> forall i, (i < m p)%nat -> is_derive (fun y => fn ((mu 0 - y) / kT)) (ke (mk p) i) (l p i).
  Proof. intros Hr Hp. exact (lf_derive eigh s T mo p (mu 0) HT Hs (Hw r p Hr Hp)). Qed.

  (** electron count near t = 0 *)
  Lemma count_incr : locally 0 (fun t => t * al t = (mu t - mu 0) * be t).
  Proof.
    assert (E : locally 0 (fun t => count_at eigh s T mo world (mu t) t =
      total (fun p => w p * rsumn (m p) (fun i => fn ((mu 0 - ke (mk p) i) / kT))) world + t * al t - (mu t - mu 0) * be t)).
    { assert (E0 : locally 0 (fun t => total (bands_sum eigh T (fun x _ => fn x) (mu t) t) world =
        total (fun p => w p * (rsumn (m p) (fun i => fn ((mu 0 - ke (mk p) i) / kT)) + t * av eigh T p (mu 0) mu fn (l p) (mze p) t - (mu t - mu 0) * av eigh T p (mu 0) mu fn (l p) mid t)) world)).
      { apply total_locally. intros r p Hr Hp.
        generalize (filter_and _ _ (bands_fsum fn r p Hr Hp) (fsum_incr eigh s T mo p (mu 0) He (Hw r p Hr Hp) mu fn (l p))). apply filter_imp.
        intros t [E1 E2]. rewrite E1, E2. reflexivity. }
      generalize E0. apply filter_imp. intros t Et. unfold count_at. fold fn. etransitivity; [exact Et|]. unfold al, be.
      rewrite <- !total_scal, <- total_plus.
      replace (total (fun p => w p * rsumn (m p) (fun i => fn ((mu 0 - ke (mk p) i) / kT)) + t * (w p * av eigh T p (mu 0) mu fn (l p) (mze p) t)) world - total (fun p => (mu t - mu 0) * (w p * av eigh T p (mu 0) mu fn (l p) mid t)) world)
        with (total (fun p => w p * rsumn (m p) (fun i => fn ((mu 0 - ke (mk p) i) / kT)) + t * (w p * av eigh T p (mu 0) mu fn (l p) (mze p) t)) world + -1 * total (fun p => (mu t - mu 0) * (w p * av eigh T p (mu 0) mu fn (l p) mid t)) world) by ring.
      rewrite <- total_scal, <- total_plus. apply total_ext. intros r p _ _. ring. }
    pose proof (near_0 _ E) as E0. cbv beta in E0.
    generalize (filter_and _ _ E Hcount). apply filter_imp. intros t [E1 E2]. rewrite E1, E0 in E2. lra.
  Qed.
  Lemma al_0 : al 0 = total (fun p => w p * rsumn (m p) (fun i => l p i * Re (mze p i i))) world.
  Proof. apply total_ext. intros r p Hr Hp. f_equal. exact (av_0 eigh s T mo p (mu 0) He (Hw r p Hr Hp) mu eq_refl fn (l p) (lf_der r p Hr Hp) (mze p) Hc). Qed.
  Lemma be_0 : be 0 = - dmu / kT.
  Proof.
    rewrite dmu_sum. unfold Rdiv. replace (- total _ world * / kT) with (- / kT * total (fun p => w p * rsumn (m p) (d p)) world) by ring.
    rewrite <- total_scal. apply total_ext. intros r p Hr Hp.
    rewrite (av_0 eigh s T mo p (mu 0) He (Hw r p Hr Hp) mu eq_refl fn (l p) (lf_der r p Hr Hp) mid Hc).
    replace (- / kT * (w p * rsumn (m p) (d p))) with (w p * (- / kT * rsumn (m p) (d p))) by ring. f_equal. rewrite <- rsumn_scal. apply rsumn_ext. intros i _.
    unfold mid. rewrite Nat.eqb_refl, Re_R. unfold l, lf, d. fold kT. unfold Rdiv. ring.
  Qed.
  (** the chemical potential is differentiable; its derivative *)
  Lemma mu_der : is_derive mu 0 (al 0 / be 0).
  Proof.
    pose proof K0 as K.
    assert (Cal : continuous al 0).
    { apply (continuous_total world (fun p t => w p * av eigh T p (mu 0) mu fn (l p) (mze p) t)). intros r p Hr Hp. apply (continuous_scal_r (w p) (av eigh T p (mu 0) mu fn (l p) (mze p))).
      exact (av_continuous eigh s T mo p (mu 0) He (Hw r p Hr Hp) mu eq_refl fn (l p) (lf_der r p Hr Hp) (mze p) Hc). }
    assert (Cbe : continuous be 0).
    { apply (continuous_total world (fun p t => w p * av eigh T p (mu 0) mu fn (l p) mid t)). intros r p Hr Hp. apply (continuous_scal_r (w p) (av eigh T p (mu 0) mu fn (l p) mid)).
      exact (av_continuous eigh s T mo p (mu 0) He (Hw r p Hr Hp) mu eq_refl fn (l p) (lf_der r p Hr Hp) mid Hc). }
    assert (Nb : be 0 <> 0). { rewrite be_0. pose proof dmu_ne. unfold Rdiv. apply Rmult_integral_contrapositive_currified; [lra|]. apply Rinv_neq_0_compat. lra. }
    apply (derive_of_quot mu 0 (fun t => al t / be t)).
    - apply (continuous_mult al (fun t => / be t)); [exact Cal|]. apply continuous_Rinv_comp; assumption.
    - assert (Nl : locally 0 (fun t => be t <> 0)).
      { specialize (Cbe (fun y => y <> 0)). apply Cbe. exists (mkposreal (Rabs (be 0)) (Rabs_pos_lt _ Nb)). intros y Hy X. subst y.
        change (Rabs (0 + - be 0) < Rabs (be 0)) in Hy. rewrite Rplus_0_l, Rabs_Ropp in Hy. lra. }
      generalize (filter_and _ _ count_incr Nl). apply filter_imp. intros t [E N]. rewrite Rminus_0_r.
      apply (Rmult_eq_reg_r (be t)); [|exact N]. rewrite <- E. field. exact N.
  Qed.

  Let grad (p : moving) : R := 2 * Re (ip (kn (mk p)) (m p) (grad_x solve (mk p)) (mzx p)) + Re (ip (m p) (m p) (grad_e s T mo (mu 0) dmu dF (mk p)) (mze p)).

  (** the slope of the library and the part of the dropped pairs *)
  Theorem curve_derivative_exact : is_derive (curve_energy eigh s T mo world mu) 0 (total (fun p => grad p + dropped s T mo (mu 0) p) world).
  Proof.
    pose proof K0 as K. pose proof dmu_ne as Nd. set (mu' := al 0 / be 0). pose proof mu_der as Dmu. fold mu' in Dmu.
    (* the derivative of every k-point *)
    assert (DE : is_derive (fun t => energy_at eigh s T mo world (mu t) t) 0 (total (fun p => w p * (Re (slope_f T p (mu 0) fn (l p) mu') + slope_x T p (mu 0) fn)) world)).
    { apply (is_derive_ext_loc (fun t => total (fun p => w p * ebands eigh T p mu fn t) world)).
      - generalize (total_locally (fun t => bands_sum eigh T (fun x h => fn x * h) (mu t) t) (fun t p => w p * ebands eigh T p mu fn t) world (bands_ebands fn)).
        apply filter_imp. intros t E. symmetry. exact E.
      - apply (derive_total world (fun p t => w p * ebands eigh T p mu fn t)). intros r p Hr Hp.
        apply (is_derive_scal (ebands eigh T p mu fn) 0 (w p)).
        exact (ebands_der eigh s T mo p (mu 0) He (Hw r p Hr Hp) mu eq_refl fn (l p) (lf_der r p Hr Hp) mu' Dmu). }
    assert (DS : is_derive (fun t => entropy_at eigh s T mo world (mu t) t) 0 (total (fun p => w p * rsumn (m p) (fun i => ls s T mo p (mu 0) i * (Re (mze p i i) - mu'))) world)).
    { apply (is_derive_ext_loc (fun t => total (fun p => w p * fsum eigh T p mu en t) world)).
      - generalize (total_locally (fun t => bands_sum eigh T (fun x _ => en x) (mu t) t) (fun t p => w p * fsum eigh T p mu en t) world (bands_fsum en)).
        apply filter_imp. intros t E. symmetry. exact E.
      - apply (derive_total world (fun p t => w p * fsum eigh T p mu en t)). intros r p Hr Hp.
        apply (is_derive_scal (fsum eigh T p mu en) 0 (w p)).
        apply (fsum_der eigh s T mo p (mu 0) He (Hw r p Hr Hp) mu eq_refl en (ls s T mo p (mu 0))); [|exact Dmu].
        intros i Hi. exact (ls_derive eigh s T mo p (mu 0) HT Hs (Hw r p Hr Hp) i Hm Hi). }
    unfold curve_energy. eapply derive_val.
    { apply (is_derive_plus (fun t => energy_at eigh s T mo world (mu t) t) (fun t => kT * (-1 * entropy_at eigh s T mo world (mu t) t))); [exact DE|].
      apply (is_derive_scal (fun t => -1 * entropy_at eigh s T mo world (mu t) t) 0 kT). apply (is_derive_scal (fun t => entropy_at eigh s T mo world (mu t) t) 0 (-1)). exact DS. }
    (* the sums *)
    set (A0 := total (fun p => w p * rsumn (m p) (fun i => d p i * Re (mze p i i))) world).
    assert (Eal : al 0 = - / kT * A0).
    { rewrite al_0. unfold A0. rewrite <- total_scal. apply total_ext. intros r p _ _. 
      replace (- / kT * (w p * rsumn (m p) (fun i => d p i * Re (mze p i i)))) with (w p * (- / kT * rsumn (m p) (fun i => d p i * Re (mze p i i)))) by ring. f_equal.
      rewrite <- rsumn_scal. apply rsumn_ext. intros i _. unfold l, lf, d. fold kT. unfold Rdiv. ring. }
    assert (Emu : mu' = A0 / dmu). { unfold mu'. rewrite be_0, Eal. field. split; [exact Nd|lra]. }
    assert (Hplus : forall a b : R, plus a b = a + b) by reflexivity. rewrite Hplus.
    (* per k-point difference *)
    assert (Ek : forall r p, In r world -> In p r ->
      w p * (Re (slope_f T p (mu 0) fn (l p) mu') + slope_x T p (mu 0) fn) + kT * (-1 * (w p * rsumn (m p) (fun i => ls s T mo p (mu 0) i * (Re (mze p i i) - mu')))) =
      grad p + dropped s T mo (mu 0) p + (- (mu 0 / kT) * (w p * rsumn (m p) (fun i => d p i * Re (mze p i i))) + (mu 0 / kT * mu') * (w p * rsumn (m p) (d p))
       + (mu' / kT) * (w p * rsumn (m p) (fun i => (kh (mk p) i - ke (mk p) i) * d p i)) - (dF / (dmu * kT)) * (w p * rsumn (m p) (fun i => d p i * Re (mze p i i))))).
    { intros r p Hr Hp. pose proof (Hw r p Hr Hp) as Hok. unfold grad.
      pose proof (eta_ip eigh s T mo p (mu 0) Hok dmu dF Hdmu) as E1.
      pose proof (slope_f_split eigh s T mo p (mu 0) Hok dmu dF mu') as E2.
      pose proof (slope_x_ip eigh solve s T mo p (mu 0) Hok) as E3. unfold w, m. rewrite <- E3, E1.
      rewrite (Rmult_plus_distr_l (kw (mk p))). change (kw (mk p) * Re (slope_f T p (mu 0) fn (l p) mu')) with (kw (mk p) * Re (slope_f T p (mu 0) (fun x : R => sfn (smearing_class s) x mo) (lf s T mo p (mu 0)) mu')). rewrite E2.
      set (sx := kw (mk p) * slope_x _ _ _ _). set (of := offd _ _ _ _ _ _ _). set (dr := dropped _ _ _ _ _).
      cut (kw (mk p) * rsumn (km (mk p)) (fun i => lf s T mo p (mu 0) i * kh (mk p) i * (Re (mze p i i) - mu')) + kT * (-1 * (kw (mk p) * rsumn (km (mk p)) (fun i => ls s T mo p (mu 0) i * (Re (mze p i i) - mu')))) =
           rsumn (km (mk p)) (fun i => Re (mze p i i) * (- 1 / (kb Rarith * T) * (kw (mk p) * kh (mk p) i - kw (mk p) * ke (mk p) i) * dl s T mo p (mu 0) i + kw (mk p) * dl s T mo p (mu 0) i / dmu * (dF / (kb Rarith * T)))) +
           (- (mu 0 / kT) * (kw (mk p) * rsumn (km (mk p)) (fun i => d p i * Re (mze p i i))) + (mu 0 / kT * mu') * (kw (mk p) * rsumn (km (mk p)) (d p))
            + (mu' / kT) * (kw (mk p) * rsumn (km (mk p)) (fun i => (kh (mk p) i - ke (mk p) i) * d p i)) - (dF / (dmu * kT)) * (kw (mk p) * rsumn (km (mk p)) (fun i => d p i * Re (mze p i i))))).
      { intros X. lra. }
      generalize (km (mk p)). intros N. induction N as [|N IH]; cbn [rsumn]; [ring|].
      match goal with |- ?a = ?b => match type of IH with ?c = ?e => cut (a - c = b - e); [intros; lra|] end end.
      clear IH. unfold ls, lf, d, l. fold kT. set (q := dl s T mo p (mu 0) N). field. split; [lra|exact Nd]. }
    rewrite <- !total_scal, <- total_plus.
    rewrite (total_ext _ _ world Ek). rewrite (total_plus (fun p => grad p + dropped s T mo (mu 0) p)).
    match goal with |- _ + total ?f world = _ => rewrite (total_ext f (fun p => (- (mu 0 / kT) - dF / (dmu * kT)) * (w p * rsumn (m p) (fun i => d p i * Re (mze p i i))) + ((mu 0 / kT * mu') * (w p * rsumn (m p) (d p)) + (mu' / kT) * (w p * rsumn (m p) (fun i => (kh (mk p) i - ke (mk p) i) * d p i))))
      world) by (intros; ring) end.
    set (G := total (fun p => grad p + dropped s T mo (mu 0) p) world). rewrite !total_plus, !total_scal. fold A0. rewrite <- dmu_sum, <- dF_sum. rewrite Emu. field. split; [exact Nd|lra].
  Qed.

  Lemma gapped_dropped mu0 p : hermitian (km (mk p)) (mze p) -> gapped p -> dropped s T mo mu0 p = 0.
  Proof.
    intros Hz Hg. unfold dropped. rewrite rsumn_0; [ring|]. intros i Hi. apply rsumn_0. intros j Hj.
    destruct (Nat.eqb i j) eqn:N; [reflexivity|]. apply Nat.eqb_neq in N.
    destruct (Rlt_dec (Rabs (ke (mk p) j - ke (mk p) i)) (1 / 10 ^ 10)) as [c|c]; [|reflexivity].
    destruct (Hg i j Hi Hj N) as [G|[G|G]]; [lra| |].
    - rewrite G, Cmult_0_l, Re_R. ring.
    - assert (Z : Cconj (mze p i j) = mze p j i) by exact (Hz j i Hj Hi). rewrite <- Z, G, Cconj_R, Cmult_0_r, Re_R. ring.
  Qed.
  Hypothesis Hgap : forall r p, In r world -> In p r -> gapped p.
  Theorem curve_derivative : is_derive (curve_energy eigh s T mo world mu) 0 (total grad world).
  Proof.
    eapply derive_val; [exact curve_derivative_exact|]. apply total_ext. intros r p Hr Hp.
    rewrite (gapped_dropped (mu 0) p (mv_ze _ _ _ _ _ _ (Hw r p Hr Hp)) (Hgap r p Hr Hp)). ring.
  Qed.
End World.

(** ** The directions computed by the library *)
(** k-points with their Hamiltonians, zipped with the directions returned by restarted / conjugated *)
Definition with_dirs (world : list (list (kpt * mat))) (dirs : list (list (mat * mat))) : list (list moving) :=
  map (fun rd => map (fun kd : (kpt * mat) * (mat * mat) => MkMoving (fst (fst kd)) (snd (fst kd)) (fst (snd kd)) (snd (snd kd))) (combine (fst rd) (snd rd))) (combine world dirs).

Lemma combine_maps {Y A B} (f : Y -> A) (g : Y -> B) (l : list Y) : combine (map f l) (map g l) = map (fun y => (f y, g y)) l.
Proof. induction l as [|y l IH]; [reflexivity|]. cbn [map combine]. rewrite IH. reflexivity. Qed.
Lemma with_dirs_map {Y} (a : Y -> kpt * mat) (f : Y -> mat * mat) (w : list (list Y)) :
  with_dirs (map (map a) w) (map (map f) w) = map (map (fun y => MkMoving (fst (a y)) (snd (a y)) (fst (f y)) (snd (f y)))) w.
Proof.
  unfold with_dirs. rewrite combine_maps, map_map. apply map_ext. intros r. cbn [fst snd]. rewrite combine_maps, map_map. reflexivity.
Qed.

(** a converged or intermediate state of a k-point: everything but the direction *)
Record point_ok (s : smearing_type) (T mo mu : R) (k : kpt) (H : mat) : Prop := MkPointOk {
  pt_H : hermitian (kn k) H;
  pt_S : hermitian (kn k) (kS k);
  pt_X : orthonormal (kn k) (km k) (kS k) (kX k);
  pt_HX : meq (kn k) (km k) (kHX k) (mmul (kn k) H (kX k));
  pt_h : forall i, (i < km k)%nat -> kh k i = Re (mmul (kn k) (adj (kX k)) (kHX k) i i);
  pt_f : forall i, (i < km k)%nat -> kf k i = sfn (smearing_class s) ((mu - ke k i) / (kb Rarith * T)) mo;
  pt_in : forall i, (i < km k)%nat -> inside s ((mu - ke k i) / (kb Rarith * T))
}.
Lemma point_moving eigh s T mo mu k H zx ze : point_ok s T mo mu k H -> tangent k zx -> hermitian (km k) ze ->
  locally 0 (fun t => trial eigh (MkMoving k H zx ze) t <> None) -> moving_ok eigh s T mo mu (MkMoving k H zx ze).
Proof.
  intros [H1 H2 H3 H4 H5 H6 H7] Ht Hz Hl. constructor; cbn [mk mH mzx mze]; assumption.
Qed.
Lemma point_HX_herm s T mo mu k H : point_ok s T mo mu k H -> hermitian (km k) (mmul (kn k) (adj (kX k)) (kHX k)).
Proof.
  intros Hp. apply (hermitian_ext (km k) (mmul (kn k) (adj (kX k)) (mmul (kn k) H (kX k)))).
  - apply mmul_ext_r. apply meq_sym. exact (pt_HX _ _ _ _ _ _ Hp).
  - apply GeodesicProofs.gram_hermitian. exact (pt_H _ _ _ _ _ _ Hp).
Qed.
Lemma delta_eta_hermitian kappa k : hermitian (km k) (mmul (kn k) (adj (kX k)) (kHX k)) -> hermitian (km k) (delta_eta kappa k (inner_ (kn k) (kX k) (kHX k) (kw k))).
Proof.
  intros Hh i j Hi Hj. unfold adj, delta_eta, scale, inner_, mscal. rewrite (Nat.eqb_sym j i).
  pose proof (Hh i j Hi Hj) as E. unfold adj at 1 in E.
  destruct (Nat.eqb i j) eqn:N.
  - apply Nat.eqb_eq in N. subst j. rewrite Cconj_minus, !Cconj_mult, !Cconj_R, E. reflexivity.
  - rewrite !Cconj_mult, !Cconj_R, E. reflexivity.
Qed.
Lemma rotateeta_hermitian k eta u : hermitian (km k) eta -> hermitian (km k) (rotateeta k eta u).
Proof. intros H. unfold rotateeta, transform_alloc. rewrite inner_1. apply GeodesicProofs.gram_hermitian, H. Qed.
Lemma add_hermitian m z d a b : hermitian m z -> hermitian m d -> hermitian m (add z d a b).
Proof. intros Hz Hd i j Hi Hj. unfold adj, add. rewrite Cconj_plus, !Cconj_mult, !Cconj_R. f_equal; f_equal; [exact (Hd i j Hi Hj)|exact (Hz i j Hi Hj)]. Qed.

Lemma in_map2 {Y Z} (f : Y -> Z) (w : list (list Y)) r z : In r (map (map f) w) -> In z r -> exists r0 y, In r0 w /\ In y r0 /\ z = f y.
Proof.
  intros Hr Hz. apply in_map_iff in Hr. destruct Hr as [r0 [<- Hr0]]. apply in_map_iff in Hz. destruct Hz as [y [<- Hy]]. exists r0, y. auto.
Qed.

Section Library.
  Context (eigh : nat -> mat -> option (mat * (nat -> R))) (solve : nat -> mat -> mat -> mat) (s : smearing_type) (T kappa mo : R) (mu : R -> R).
  Hypothesis He : eigh_ok eigh.
  Hypothesis HT : 0 < T.
  Hypothesis Hs : s <> COLD.
  Hypothesis Hm : s <> GAUSSIAN_SPLINE \/ mo = 1.
  Hypothesis Hc : continuous mu 0.

  Theorem restart_slope_exact (world : list (list (kpt * mat))) :
    (forall r kH, In r world -> In kH r -> point_ok s T mo (mu 0) (fst kH) (snd kH) /\ systems_ok solve (fst kH)) ->
    let ks := map (map fst) world in
    1 / 10 ^ 12 <= Rabs (dmu_deta s T mo ks (mu 0)) ->
    let (slope, dirs) := restarted solve s T kappa mo ks (mu 0) in
    let W := with_dirs world dirs in
    (forall r p, In r W -> In p r -> locally 0 (fun t => trial eigh p t <> None)) ->
    locally 0 (fun t => count_at eigh s T mo W (mu t) t = count_at eigh s T mo W (mu 0) 0) ->
    is_derive (curve_energy eigh s T mo W mu) 0 (slope + total (dropped s T mo (mu 0)) W).
  Proof.
    intros Hok ks Hd. destruct (restarted solve s T kappa mo ks (mu 0)) as [slope dirs] eqn:E. cbv zeta.
    unfold restarted in E. injection E as E1 E2.
    set (dF := dFdmu s T mo ks (mu 0)) in *. set (dmu := dmu_deta s T mo ks (mu 0)) in *.
    set (ex := exec_restart solve s T kappa mo (mu 0) dmu dF) in *.
    assert (EW : with_dirs world dirs = map (map (fun kH => MkMoving (fst kH) (snd kH) (snd (fst (ex (fst kH)))) (snd (ex (fst kH))))) world).
    { rewrite <- E2. unfold ks. rewrite !map_map.
      assert (X : map (fun x => map (fun r => (snd (fst r), snd r)) (map ex (map fst x))) world = map (map (fun kH : kpt * mat => (snd (fst (ex (fst kH))), snd (ex (fst kH))))) world).
      { apply map_ext. intros r. rewrite !map_map. reflexivity. }
      rewrite X. rewrite <- (map_id world) at 1. rewrite <- (map_ext _ _ (@map_id (kpt * mat)) world) at 1.
      rewrite (with_dirs_map (fun kH => kH)). reflexivity. }
    rewrite EW. intros Hl Hcount.
    assert (Eks : map (map mk) (map (map (fun kH : kpt * mat => MkMoving (fst kH) (snd kH) (snd (fst (ex (fst kH)))) (snd (ex (fst kH))))) world) = ks).
    { unfold ks. rewrite map_map. apply map_ext. intros r. rewrite map_map. reflexivity. }
    eapply derive_val.
    - apply (curve_derivative_exact eigh solve s T mo mu _ He HT Hs Hm Hc).
      + intros r p Hr Hp. pose proof (Hl r p Hr Hp) as L. destruct (in_map2 _ _ _ _ Hr Hp) as [r0 [[k H] [Hr0 [Hk ->]]]].
        destruct (Hok r0 (k, H) Hr0 Hk) as [P Q]. cbn [fst snd] in *. apply point_moving; [exact P| | |exact L].
        * exact (delta_tangent_k solve k Q).
        * exact (delta_eta_hermitian kappa k (point_HX_herm _ _ _ _ _ _ P)).
      + exact Hcount.
      + rewrite Eks. exact Hd.
    - rewrite Eks, <- E1, total_plus. f_equal. unfold ks. rewrite !total_map. apply total_ext. intros r [k H] _ _. reflexivity.
  Qed.

  Theorem conjugate_slope_exact (fr_old : R) (world : list (list ((kpt * (mat * mat * mat)) * mat))) :
    (forall r y, In r world -> In y r ->
       point_ok s T mo (mu 0) (fst (fst y)) (snd y) /\ systems_ok solve (fst (fst y)) /\
       (let '(_, zetap, _) := snd (fst y) in hermitian (km (fst (fst y))) zetap)) ->
    let kz := map (map fst) world in
    let ks := map (map fst) kz in
    1 / 10 ^ 12 <= Rabs (dmu_deta s T mo ks (mu 0)) ->
    let '(_, slope, dirs) := conjugated solve s T kappa mo fr_old kz (mu 0) in
    let W := with_dirs (map (map (fun y => (fst (fst y), snd y))) world) dirs in
    (forall r p, In r W -> In p r -> locally 0 (fun t => trial eigh p t <> None)) ->
    locally 0 (fun t => count_at eigh s T mo W (mu t) t = count_at eigh s T mo W (mu 0) 0) ->
    is_derive (curve_energy eigh s T mo W mu) 0 (slope + total (dropped s T mo (mu 0)) W).
  Proof.
    intros Hok kz ks Hd. pose proof (conjugated_slope solve s T kappa mo (mu 0) fr_old kz) as CS. cbv zeta in CS. fold ks in CS.
    destruct (conjugated solve s T kappa mo fr_old kz (mu 0)) as [[fr slope] dirs] eqn:E. destruct CS as [CS _]. cbv zeta.
    unfold conjugated in E. cbv zeta in E. fold ks in E.
    set (dF := dFdmu s T mo ks (mu 0)) in *. set (dmu := dmu_deta s T mo ks (mu 0)) in *.
    set (ex := fun kz : kpt * (mat * mat * mat) => match kz with (k, (zxp, zetap, ul)) => exec_cg solve s T kappa mo (mu 0) dmu dF k zxp zetap ul end) in *.
    set (gm := total _ (map (map ex) kz) / fr_old) in *.
    set (dr := fun r : R * mat * mat * mat * mat * R => match r with (_, dx, de, zx, ze, _) => (add zx dx 1 gm, add ze de 1 gm) end) in *.
    assert (E2 : dirs = map (map dr) (map (map ex) kz)) by congruence. clear E.
    assert (E3 : dirs = map (map (fun y => dr (ex (fst y)))) world).
    { rewrite E2. unfold kz. rewrite !map_map. apply map_ext. intros r. rewrite !map_map. reflexivity. }
    assert (EW : with_dirs (map (map (fun y => (fst (fst y), snd y))) world) dirs = map (map (fun y => MkMoving (fst (fst y)) (snd y) (fst (dr (ex (fst y)))) (snd (dr (ex (fst y)))))) world).
    { rewrite E3. rewrite (with_dirs_map (fun y : (kpt * (mat * mat * mat)) * mat => (fst (fst y), snd y))). reflexivity. }
    rewrite EW. intros Hl Hcount.
    assert (Eks : map (map mk) (map (map (fun y : (kpt * (mat * mat * mat)) * mat => MkMoving (fst (fst y)) (snd y) (fst (dr (ex (fst y)))) (snd (dr (ex (fst y)))))) world) = ks).
    { unfold ks, kz. rewrite !map_map. apply map_ext. intros r. rewrite !map_map. reflexivity. }
    eapply derive_val.
    - apply (curve_derivative_exact eigh solve s T mo mu _ He HT Hs Hm Hc).
      + intros r p Hr Hp. pose proof (Hl r p Hr Hp) as L. destruct (in_map2 _ _ _ _ Hr Hp) as [r0 [[[k [[zxp zetap] ul]] H] [Hr0 [Hk ->]]]].
        destruct (Hok r0 _ Hr0 Hk) as [P [Q Z]]. cbn [fst snd] in *. apply point_moving; [exact P| | |exact L].
        * unfold ex, exec_cg, exec_conjugate. cbv zeta. cbn [dr fst snd]. apply add_tangent; [exact (conjugatex_tangent solve k _ Q)|exact (delta_tangent_k solve k Q)].
        * unfold ex, exec_cg, exec_conjugate. cbv zeta. cbn [dr fst snd]. apply add_hermitian; [exact (rotateeta_hermitian k zetap ul Z)|].
          exact (delta_eta_hermitian kappa k (point_HX_herm _ _ _ _ _ _ P)).
      + exact Hcount.
      + rewrite Eks. exact Hd.
    - rewrite Eks, CS, total_plus. f_equal. rewrite E2. rewrite combine_map2. unfold kz. rewrite !total_map. apply total_ext. intros r [[k z] H] _ _. cbn [fst snd]. reflexivity.
  Qed.

  Theorem restart_slope (world : list (list (kpt * mat))) :
    (forall r kH, In r world -> In kH r -> point_ok s T mo (mu 0) (fst kH) (snd kH) /\ systems_ok solve (fst kH)) ->
    let ks := map (map fst) world in
    1 / 10 ^ 12 <= Rabs (dmu_deta s T mo ks (mu 0)) ->
    let (slope, dirs) := restarted solve s T kappa mo ks (mu 0) in
    let W := with_dirs world dirs in
    (forall r p, In r W -> In p r -> locally 0 (fun t => trial eigh p t <> None) /\ dropped s T mo (mu 0) p = 0) ->
    locally 0 (fun t => count_at eigh s T mo W (mu t) t = count_at eigh s T mo W (mu 0) 0) ->
    is_derive (curve_energy eigh s T mo W mu) 0 slope.
  Proof.
    intros Hok ks Hd. pose proof (restart_slope_exact world Hok Hd) as E. cbv zeta in E. fold ks in E.
    destruct (restarted solve s T kappa mo ks (mu 0)) as [slope dirs]. intros W HW Hcount.
    eapply derive_val; [exact (E (fun r p Hr Hp => proj1 (HW r p Hr Hp)) Hcount)|].
    assert (Z : total (dropped s T mo (mu 0)) W = 0) by (rewrite (total_ext _ (fun _ => 0) W (fun r p Hr Hp => proj2 (HW r p Hr Hp))); apply total_zero).
    exact (eq_trans (f_equal (Rplus slope) Z) (Rplus_0_r slope)).
  Qed.
  Theorem conjugate_slope (fr_old : R) (world : list (list ((kpt * (mat * mat * mat)) * mat))) :
    (forall r y, In r world -> In y r ->
       point_ok s T mo (mu 0) (fst (fst y)) (snd y) /\ systems_ok solve (fst (fst y)) /\
       (let '(_, zetap, _) := snd (fst y) in hermitian (km (fst (fst y))) zetap)) ->
    let kz := map (map fst) world in
    let ks := map (map fst) kz in
    1 / 10 ^ 12 <= Rabs (dmu_deta s T mo ks (mu 0)) ->
    let '(_, slope, dirs) := conjugated solve s T kappa mo fr_old kz (mu 0) in
    let W := with_dirs (map (map (fun y => (fst (fst y), snd y))) world) dirs in
    (forall r p, In r W -> In p r -> locally 0 (fun t => trial eigh p t <> None) /\ dropped s T mo (mu 0) p = 0) ->
    locally 0 (fun t => count_at eigh s T mo W (mu t) t = count_at eigh s T mo W (mu 0) 0) ->
    is_derive (curve_energy eigh s T mo W mu) 0 slope.
  Proof.
    intros Hok kz ks Hd. pose proof (conjugate_slope_exact fr_old world Hok Hd) as E. cbv zeta in E. fold kz in E.
    destruct (conjugated solve s T kappa mo fr_old kz (mu 0)) as [[fr slope] dirs]. intros W HW Hcount.
    eapply derive_val; [exact (E (fun r p Hr Hp => proj1 (HW r p Hr Hp)) Hcount)|].
    assert (Z : total (dropped s T mo (mu 0)) W = 0) by (rewrite (total_ext _ (fun _ => 0) W (fun r p Hr Hp => proj2 (HW r p Hr Hp))); apply total_zero).
    exact (eq_trans (f_equal (Rplus slope) Z) (Rplus_0_r slope)).
  Qed.
End Library.

(** A negative derivative means that short steps go down. *)
Lemma negative_slope (f : R -> R) (l : R) : is_derive f 0 l -> l < 0 -> exists t0, 0 < t0 /\ forall t, 0 < t < t0 -> f t < f 0.
Proof.
  intros H Hl. apply is_derive_Reals in H. destruct (H (- l / 2) ltac:(lra)) as [d Hd].
  exists d. split; [apply cond_pos|]. intros t [T0 T1]. specialize (Hd t ltac:(lra)). rewrite Rabs_pos_eq in Hd by lra. specialize (Hd T1).
  rewrite Rplus_0_l in Hd. apply Rabs_def2 in Hd. destruct Hd as [Hd _].
  assert (X : (f t - f 0) / t < 0) by lra. apply (Rmult_lt_compat_r t) in X; [|exact T0]. unfold Rdiv in X. rewrite Rmult_assoc, Rinv_l in X by lra. lra.
Qed.
