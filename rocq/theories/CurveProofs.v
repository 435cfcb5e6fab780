(** Proofs about Curve.v. *)
From Coq Require Import Reals Lra Psatz Arith Lia List Bool.
From Coquelicot Require Import Coquelicot.
From Verif Require Import Arith Erf LinAlg Containers Newton Occupation Smearing SmearingProofs SmearingUse SmearingFacts Descent DescentProofs DescentFacts GradEtaFacts Geodesic GeodesicProofs MatFun Curve.
Import ListNotations.
Local Open Scope R_scope.

Lemma cder_real (f : R -> R) (l : R) : is_derive f 0 l -> cder (fun t => RtoC (f t)) (RtoC l).
Proof.
  intros H. exists (fun t => RtoC (quot f 0 l t)). split.
  - apply (clim_val _ (RtoC (quot f 0 l 0))); [|rewrite quot_at; reflexivity]. apply (clim_real (quot f 0 l)). apply quot_continuous, H.
  - apply filter_forall. intros t. rewrite <- RtoC_mult, <- RtoC_plus. f_equal. pose proof (quot_id f 0 l t) as E. rewrite Rminus_0_r in E. lra.
Qed.
Lemma cder_lin (c z : C) : cder (fun t => Cplus c (Cmult (RtoC t) z)) z.
Proof. exists (fun _ => z). split; [apply clim_const|]. apply filter_forall. intros t. ring. Qed.

Lemma kT_pos' T : 0 < T -> 0 < kb Rarith * T.
Proof. intros H. exact (Rmult_lt_0_compat _ _ kb_pos H). Qed.

Section One.
  Context (eigh : nat -> mat -> option (mat * (nat -> R))) (s : smearing_type) (T mo : R) (p : moving) (mu0 : R).
  Hypothesis He : eigh_ok eigh.
  Hypothesis HT : 0 < T.
  Hypothesis Hp : moving_ok eigh s T mo mu0 p.
  Let k := mk p. Let n := kn k. Let m := km k. Let kT := kb Rarith * T.
  Let zx := mzx p. Let ze := mze p. Let X := kX k. Let S := kS k. Let H := mH p. Let e := ke k.
  Let HX0 : mat := mmul n (adj X) (kHX k).

  (** *** eta along the curve *)
  Let eta (t : R) : mat := advance_eta t (make_diag e) ze.
  Definition eU (t : R) : mat := match eigh m (eta t) with Some (U, _) => U | None => mid end.
  Definition ee (t : R) : nat -> R := match eigh m (eta t) with Some (_, w) => w | None => fun _ => 0 end.
  (** *** orthonormalised wave functions before the rotation *)
  Let Xt (t : R) : mat := add X zx t 1.
  Let gram (t : R) : mat := inner_ n (Xt t) (mmul n S (Xt t)) 1.
  Definition gU (t : R) : mat := match eigh m (gram t) with Some (U, _) => U | None => mid end.
  Definition gw (t : R) : nat -> R := match eigh m (gram t) with Some (_, w) => w | None => fun _ => 0 end.
  Definition Yt (t : R) : mat := mmul m (Xt t) (inv_root m (gU t) (gw t)).

  Lemma eta_hermitian t : hermitian m (eta t).
  Proof.
    intros i j Hi Hj. unfold eta, advance_eta, add, adj, make_diag. rewrite Cconj_plus, !Cconj_mult, !Cconj_R.
    f_equal; f_equal; [exact (mv_ze _ _ _ _ _ _ Hp i j Hi Hj)|].
    pose proof (f_equal (fun M : mat => M i j) (adj_mdiag e)) as E. exact E.
  Qed.
  Lemma gram_herm t : hermitian m (gram t).
  Proof. unfold gram. rewrite inner_1. apply GeodesicProofs.gram_hermitian. exact (mv_S _ _ _ _ _ _ Hp). Qed.

  Lemma trial_unfold t : trial eigh p t =
    match eigh m (eta t) with
    | None => None
    | Some (Ul, ek) => match eigh m (gram t) with None => None | Some (U, w) => Some (ek, Ul, mmul m (mmul m (Xt t) (inv_root m U w)) Ul) end
    end.
  Proof.
    unfold eta, gram, Xt, m, n, X, S, zx, ze, e, k. unfold trial, geodesic_us, advance_x, loewdin.
    destruct (eigh (km (mk p)) (advance_eta t (make_diag (ke (mk p))) (mze p))) as [[Ul ek]|]; [|reflexivity].
    destruct (eigh (km (mk p)) (inner_ _ _ _ _)) as [[U w]|]; reflexivity.
  Qed.
  Lemma trial_eq : locally 0 (fun t =>
    unitary m (eU t) /\ meq m m (mmul m (eta t) (eU t)) (mmul m (eU t) (mdiag (ee t))) /\
    unitary m (gU t) /\ meq m m (mmul m (gram t) (gU t)) (mmul m (gU t) (mdiag (gw t))) /\
    trial eigh p t = Some (ee t, eU t, mmul m (Yt t) (eU t))).
  Proof.
    generalize (mv_ok _ _ _ _ _ _ Hp). apply filter_imp. intros t Ht. rewrite trial_unfold in *. unfold eU, ee, gU, gw, Yt, gU, gw.
    destruct (eigh m (eta t)) as [[Ul ek]|] eqn:E1; [|congruence].
    destruct (eigh m (gram t)) as [[Ug w]|] eqn:E2; [|congruence].
    destruct (He m (eta t) Ul ek E1) as [U1 [V1 _]]. destruct (He m (gram t) Ug w E2) as [U2 [V2 _]].
    split; [exact U1|]. split; [|split; [exact U2|split; [|reflexivity]]].
    - eapply meq_trans; [|exact V1]. apply mmul_ext_l. apply meq_sym, upper_hermitian, eta_hermitian.
    - eapply meq_trans; [|exact V2]. apply mmul_ext_l. apply meq_sym, upper_hermitian, gram_herm.
  Qed.

  (** the overlap matrix is 1 + t^2 Z^H S Z *)
  Lemma gram_entry t i j : (i < m)%nat -> (j < m)%nat ->
    gram t i j = Cplus (mid i j) (Cmult (Cmult (RtoC t) (RtoC t)) (mmul n (adj zx) (mmul n S zx) i j)).
  Proof.
    intros Hi Hj. unfold gram. rewrite inner_1.
    assert (E : meq n m (Xt t) (fun i j => Cplus (X i j) (Cmult (RtoC t) (zx i j)))).
    { intros a c _ _. unfold Xt, add. ring. }
    pose proof (gram_tangent n m S X zx t (mv_S _ _ _ _ _ _ Hp) (mv_X _ _ _ _ _ _ Hp) (proj1 (tangent_meq k zx) (mv_tan _ _ _ _ _ _ Hp)) i j Hi Hj) as G.
    cbv zeta in G. etransitivity; [|etransitivity; [exact G|]].
    - apply (mmul_ext m n m); [apply adj_ext, E| |exact Hi|exact Hj]. apply mmul_ext_r, E.
    - unfold madd, mscal. rewrite RtoC_mult. reflexivity.
  Qed.
  Lemma gram_der i j : (i < m)%nat -> (j < m)%nat -> cder (fun t => gram t i j) (RtoC 0).
  Proof.
    intros Hi Hj. set (c := mmul n (adj zx) (mmul n S zx) i j).
    exists (fun t => Cmult (RtoC t) c). split.
    - apply (clim_val _ (Cmult (RtoC 0) c)); [|ring]. apply clim_mult; [apply clim_id|apply clim_const].
    - apply filter_forall. intros t. rewrite !(gram_entry _ i j Hi Hj). fold c. ring.
  Qed.
  Lemma gram_0 : meq m m (gram 0) (mdiag (fun _ => 1)).
  Proof. intros i j Hi Hj. rewrite (gram_entry 0 i j Hi Hj). unfold mid, mdiag. destruct (Nat.eqb i j); ring. Qed.

  Lemma gUok : locally 0 (fun t => unitary m (gU t)).
  Proof. generalize trial_eq. apply filter_imp. tauto. Qed.
  Lemma gEok : locally 0 (fun t => meq m m (mmul m (gram t) (gU t)) (mmul m (gU t) (mdiag (gw t)))).
  Proof. generalize trial_eq. apply filter_imp. tauto. Qed.
  Lemma eUok : locally 0 (fun t => unitary m (eU t)).
  Proof. generalize trial_eq. apply filter_imp. tauto. Qed.
  Lemma eEok : locally 0 (fun t => meq m m (mmul m (eta t) (eU t)) (mmul m (eU t) (mdiag (ee t)))).
  Proof. generalize trial_eq. apply filter_imp. tauto. Qed.

  Lemma root_derive : is_derive (fun x => 1 / sqrt x) 1 (- / 2).
  Proof.
    assert (S1 : sqrt 1 = 1) by apply sqrt_1.
    auto_derive; [rewrite S1; split; lra|]. rewrite S1. field.
  Qed.
  Lemma inv_root_mfun t : meq m m (inv_root m (gU t) (gw t)) (mfun m (gU t) (gw t) (fun x => 1 / sqrt x)).
  Proof. intros i j Hi Hj. exact (inv_root_eq m (gU t) (gw t) i j Hi Hj). Qed.
  Lemma root_der i j : (i < m)%nat -> (j < m)%nat -> cder (fun t => inv_root m (gU t) (gw t) i j) (RtoC 0).
  Proof.
    intros Hi Hj. apply (cder_ext (fun t => mfun m (gU t) (gw t) (fun x => 1 / sqrt x) i j)).
    { apply filter_forall. intros t. symmetry. apply inv_root_mfun; assumption. }
    eapply cder_val; [apply (mfun_der m gU gram gw (fun _ => 1) gUok (filter_forall _ gram_herm) gEok gram_0 (fun x => 1 / sqrt x) (fun _ => - / 2)
      (fun _ _ => root_derive) mzero gram_der i j Hi Hj)|]. unfold mzero. ring.
  Qed.
  Lemma root_0 i j : (i < m)%nat -> (j < m)%nat -> inv_root m (gU 0) (gw 0) i j = mid i j.
  Proof.
    intros Hi Hj. rewrite (inv_root_mfun 0 i j Hi Hj).
    rewrite (mfun_0 m gU gram gw (fun _ => 1) gUok (filter_forall _ gram_herm) gEok gram_0 (fun x => 1 / sqrt x) (fun _ => - / 2) i j Hi Hj).
    unfold mdiag, mid. rewrite sqrt_1. destruct (Nat.eqb i j); [f_equal; field|reflexivity].
  Qed.
  (** the wave functions start at X with velocity z_x *)
  Lemma Y_0 i j : (j < m)%nat -> Yt 0 i j = X i j.
  Proof.
    intros Hj. unfold Yt. unfold mmul.
    rewrite (csum_ext m _ (fun l => Cmult (X i l) (mid l j))).
    - rewrite (csum_one m j); [unfold mid; rewrite Nat.eqb_refl; ring|exact Hj|]. intros l _ N. unfold mid. apply Nat.eqb_neq in N. rewrite N. ring.
    - intros l Hl. rewrite (root_0 l j Hl Hj). unfold Xt, add. ring.
  Qed.
  Lemma Y_der i j : (j < m)%nat -> cder (fun t => Yt t i j) (zx i j).
  Proof.
    intros Hj. unfold Yt, mmul.
    eapply cder_val.
    - apply (cder_csum m (fun t l => Cmult (Xt t i l) (inv_root m (gU t) (gw t) l j)) (fun l => Cmult (zx i l) (mid l j))).
      intros l Hl. eapply cder_val.
      + apply cder_mult.
        * apply (cder_ext (fun t => Cplus (X i l) (Cmult (RtoC t) (zx i l)))); [apply filter_forall; intros t; unfold Xt, add; ring|apply cder_lin].
        * apply root_der; assumption.
      + cbv beta. rewrite (root_0 l j Hl Hj). ring.
    - rewrite (csum_one m j); [unfold mid; rewrite Nat.eqb_refl; ring|exact Hj|]. intros l _ N. unfold mid. apply Nat.eqb_neq in N. rewrite N. ring.
  Qed.
  Lemma HX_val a j : (a < n)%nat -> (j < m)%nat -> kHX k a j = mmul n H X a j.
  Proof. exact (mv_HX _ _ _ _ _ _ Hp a j). Qed.
  (** <Y|H|Y> *)
  Definition HY (t : R) : mat := mmul n (adj (Yt t)) (mmul n H (Yt t)).
  Lemma HY_0 : meq m m (HY 0) HX0.
  Proof.
    intros i j Hi Hj. unfold HY, HX0. apply (mmul_ext m n m _ _ _ _); [| |exact Hi|exact Hj].
    - apply adj_ext. intros a c _ Hc. apply Y_0, Hc.
    - eapply meq_trans; [|apply meq_sym; exact (mv_HX _ _ _ _ _ _ Hp)]. apply mmul_ext_r. intros a c _ Hc. apply Y_0, Hc.
  Qed.
  Lemma HY_der i j : (i < m)%nat -> (j < m)%nat ->
    cder (fun t => HY t i j) (Cplus (mmul n (adj zx) (kHX k) i j) (mmul n (adj (kHX k)) zx i j)).
  Proof.
    intros Hi Hj.
    assert (D : forall a, (a < n)%nat -> cder (fun t => mmul n H (Yt t) a j) (mmul n H zx a j)).
    { intros a Ha. apply (cder_csum n (fun t l => Cmult (H a l) (Yt t l j)) (fun l => Cmult (H a l) (zx l j))). intros l Hl. apply cder_scal, Y_der, Hj. }
    eapply cder_val.
    - apply (cder_csum n (fun t a => Cmult (adj (Yt t) i a) (mmul n H (Yt t) a j))
        (fun a => Cplus (Cmult (Cconj (zx a i)) (mmul n H (Yt 0) a j)) (Cmult (Cconj (Yt 0 a i)) (mmul n H zx a j)))).
      intros a Ha. apply (cder_mult (fun t => Cconj (Yt t a i)) (fun t => mmul n H (Yt t) a j)); [|apply D, Ha].
      apply cder_conj, Y_der, Hi.
    - rewrite csum_plus. f_equal.
      + unfold mmul at 2. apply csum_ext. intros a Ha. unfold adj. f_equal.
        rewrite (HX_val a j Ha Hj). unfold mmul. apply csum_ext. intros l Hl. rewrite (Y_0 l j Hj). reflexivity.
      + (* X^H H Z = (H X)^H Z *)
        transitivity (mmul n (adj X) (mmul n H zx) i j).
        { unfold mmul at 2. apply csum_ext. intros a Ha. unfold adj. rewrite (Y_0 a i Hi). reflexivity. }
        rewrite <- (mmul_assoc n n). apply (mmul_ext_l m n m); [|exact Hi|exact Hj].
        intros a l Ha Hl. unfold mmul, adj. rewrite (HX_val l a Hl Ha). unfold mmul. rewrite csum_conj. apply csum_ext. intros q Hq.
        rewrite Cconj_mult. pose proof (mv_H _ _ _ _ _ _ Hp q l Hq Hl) as E. unfold adj in E. fold H in E. fold X. rewrite <- E. ring.
  Qed.

  (** *** Functions of eta - mu *)
  Context (mu : R -> R) (Hmu0 : mu 0 = mu0).
  Let A (t : R) : mat := fun i j => Cminus (eta t i j) (mdiag (fun _ => mu t) i j).
  Let a (t : R) (i : nat) : R := ee t i - mu t.
  Let b (i : nat) : R := e i - mu0.

  Lemma A_herm t : hermitian m (A t).
  Proof.
    intros i j Hi Hj. unfold A, adj. rewrite Cconj_minus. f_equal; [exact (eta_hermitian t i j Hi Hj)|].
    f_equal. exact (f_equal (fun M : mat => M i j) (adj_mdiag (fun _ => mu t))).
  Qed.
  Lemma A_eig : locally 0 (fun t => meq m m (mmul m (A t) (eU t)) (mmul m (eU t) (mdiag (a t)))).
  Proof.
    generalize eEok. apply filter_imp. intros t E i j Hi Hj.
    rewrite (mmul_diag_r m m (eU t) (a t) i j Hi Hj). pose proof (E i j Hi Hj) as E1. rewrite (mmul_diag_r m m (eU t) (ee t) i j Hi Hj) in E1.
    assert (E2 : csum m (fun l => Cmult (mdiag (fun _ => mu t) i l) (eU t l j)) = Cmult (RtoC (mu t)) (eU t i j)) by exact (mmul_diag_l m m (eU t) (fun _ => mu t) i j Hi Hj).
    unfold A, a. unfold mmul in *.
    rewrite (csum_ext m _ (fun l => Cminus (Cmult (eta t i l) (eU t l j)) (Cmult (mdiag (fun _ => mu t) i l) (eU t l j)))) by (intros; ring).
    rewrite csum_minus, E1, E2, RtoC_minus. ring.
  Qed.
  Lemma A_entry t i j : A t i j = Cplus (mdiag b i j) (Cminus (Cmult (RtoC t) (ze i j)) (mdiag (fun _ => mu t - mu0) i j)).
  Proof.
    unfold A, eta, advance_eta, add, make_diag, mdiag, b. destruct (Nat.eqb i j); [rewrite !RtoC_minus; ring|ring].
  Qed.
  Lemma A_0 : meq m m (A 0) (mdiag b).
  Proof. intros i j Hi Hj. rewrite A_entry, Hmu0. unfold mdiag. destruct (Nat.eqb i j); [rewrite Rminus_eq_0|]; ring. Qed.
  Lemma A_clim : continuous mu 0 -> forall i j, (i < m)%nat -> (j < m)%nat -> clim (fun t => A t i j) (mdiag b i j).
  Proof.
    intros Hc i j Hi Hj. apply (clim_ext (fun t => Cplus (mdiag b i j) (Cminus (Cmult (RtoC t) (ze i j)) (mdiag (fun _ => mu t - mu0) i j)))).
    { apply filter_forall. intros t. symmetry. apply A_entry. }
    apply (clim_val _ (Cplus (mdiag b i j) (Cminus (Cmult (RtoC 0) (ze i j)) (RtoC 0)))); [|ring].
    apply clim_plus; [apply clim_const|]. apply clim_minus; [apply clim_mult; [apply clim_id|apply clim_const]|].
    unfold mdiag. destruct (Nat.eqb i j); [|apply clim_const].
    apply (clim_val _ (RtoC (mu 0 - mu0))); [|rewrite Hmu0, Rminus_eq_0; reflexivity].
    apply (clim_real (fun t => mu t - mu0)). apply (continuous_minus mu (fun _ => mu0)); [exact Hc|apply continuous_const].
  Qed.

  (** functions of (mu - e)/kT *)
  Context (F : R -> R) (l : nat -> R).
  (** F((mu0 - e)/kT) has the derivative l_i with respect to e *)
  Hypothesis HF : forall i, (i < m)%nat -> is_derive (fun y => F ((mu0 - y) / kT)) (e i) (l i).
  Let g (y : R) : R := F (- y / kT).
  Lemma g_derive i : (i < m)%nat -> is_derive g (b i) (l i).
  Proof.
    intros Hi. unfold b. apply (is_derive_ext (fun y => F ((mu0 - (y + mu0)) / kT))).
    { intros t. unfold g. f_equal. f_equal. ring. }
    apply (derive_val _ _ (1 * l i)); [|ring].
    apply (is_derive_comp (fun y => F ((mu0 - y) / kT)) (fun y => y + mu0) (e i - mu0) (l i) 1).
    - replace (e i - mu0 + mu0) with (e i) by ring. apply HF, Hi.
    - auto_derive; [trivial|ring].
  Qed.
  Lemma g_arg t i : g (a t i) = F ((mu t - ee t i) / kT).
  Proof. unfold g, a. f_equal. f_equal. ring. Qed.

  (** sum of F over the bands of the trial point *)
  Definition fsum (t : R) : R := rsumn m (fun i => F ((mu t - ee t i) / kT)).
  Lemma fsum_trace : locally 0 (fun t => RtoC (fsum t) = csum m (fun q => mfun m (eU t) (a t) g q q)).
  Proof.
    generalize eUok. apply filter_imp. intros t Ht. rewrite (trace_sum m (eU t) (a t) g Ht). f_equal. apply rsumn_ext. intros i Hi. symmetry. apply g_arg.
  Qed.

  (** exact increment of the sum *)
  Definition av (Z : mat) (t : R) : R := Re (csum m (fun q => avg m eU a (quot g (b q) (l q)) (fun _ => Z) t q q)).
  Lemma fsum_incr : locally 0 (fun t => fsum t = rsumn m (fun i => F ((mu0 - e i) / kT)) + t * av ze t - (mu t - mu0) * av mid t).
  Proof.
    generalize (filter_and _ _ fsum_trace (mfun_diff m eU A a b eUok (filter_forall _ A_herm) A_eig g l)). apply filter_imp. intros t [E1 E2].
    assert (E3 : csum m (fun q => mfun m (eU t) (a t) g q q) =
      csum m (fun q => Cplus (RtoC (F ((mu0 - e q) / kT)))
        (Cminus (Cmult (RtoC t) (avg m eU a (quot g (b q) (l q)) (fun _ => ze) t q q)) (Cmult (RtoC (mu t - mu0)) (avg m eU a (quot g (b q) (l q)) (fun _ => mid) t q q))))).
    { apply csum_ext. intros q Hq. rewrite (E2 q q Hq Hq). f_equal.
      - unfold mdiag. rewrite Nat.eqb_refl. f_equal. unfold g, b. f_equal. f_equal. ring.
      - rewrite <- (avg_scal m eU a (quot g (b q) (l q)) (fun _ => ze) (fun t => RtoC t)).
        rewrite <- (avg_scal m eU a (quot g (b q) (l q)) (fun _ => mid) (fun t => RtoC (mu t - mu0))).
        rewrite <- avg_minus. apply avg_ext. intros r Hr. rewrite A_entry. unfold mdiag, mid. destruct (Nat.eqb r q); ring. }
    rewrite E3, csum_plus, csum_minus, !csum_scal_l, csum_RtoC in E1. apply (f_equal Re) in E1.
    rewrite Re_R in E1. rewrite E1. unfold Cminus. rewrite !Re_plus, Re_R. unfold av.
    set (u := csum m (fun q => avg m eU a (quot g (b q) (l q)) (fun _ => ze) t q q)).
    set (v := csum m (fun q => avg m eU a (quot g (b q) (l q)) (fun _ => mid) t q q)).
    replace (Copp (Cmult (RtoC (mu t - mu0)) v)) with (Cmult (RtoC (- (mu t - mu0))) v) by (rewrite (RtoC_opp (mu t - mu0)); ring).
    rewrite !Re_scal. ring.
  Qed.
  Lemma quot_b i : quot g (b i) (l i) (b i) = l i.
  Proof. apply quot_at. Qed.
  Lemma av_lim Z : continuous mu 0 -> clim (fun t => csum m (fun q => avg m eU a (quot g (b q) (l q)) (fun _ => Z) t q q)) (csum m (fun q => Cmult (RtoC (l q)) (Z q q))).
  Proof.
    intros Hc. apply clim_csum. intros q Hq.
    eapply clim_val; [apply (avg_limit m eU A a b eUok (filter_forall _ A_herm) A_eig (A_clim Hc) (quot g (b q) (l q))
      (g_quot_cont m b g l g_derive q Hq) (fun _ => Z) Z q q Hq Hq (fun r _ => clim_const (Z r q)))|].
    rewrite quot_b. reflexivity.
  Qed.
  Lemma av_continuous Z : continuous mu 0 -> continuous (av Z) 0.
  Proof. intros Hc. exact (clim_Re _ _ (av_lim Z Hc)). Qed.
  Lemma av_0 Z : continuous mu 0 -> av Z 0 = rsumn m (fun q => l q * Re (Z q q)).
  Proof.
    intros Hc. unfold av. rewrite (clim_at _ _ (av_lim Z Hc)), csum_Re. apply rsumn_ext. intros q Hq. apply Re_scal.
  Qed.

  (** with a differentiable chemical potential *)
  Context (mu' : R) (Hmu : is_derive mu 0 mu').
  Let dA : mat := fun i j => Cminus (ze i j) (mdiag (fun _ => mu') i j).
  Lemma A_der i j : (i < m)%nat -> (j < m)%nat -> cder (fun t => A t i j) (dA i j).
  Proof.
    intros Hi Hj. apply (cder_ext (fun t => Cplus (Cplus (mdiag e i j) (Cmult (RtoC t) (ze i j))) (Copp (mdiag (fun _ => mu t) i j)))).
    { apply filter_forall. intros t. unfold A, eta, advance_eta, add, make_diag. ring. }
    unfold dA. unfold Cminus. apply cder_plus; [apply cder_lin|]. unfold mdiag. destruct (Nat.eqb i j).
    - apply (cder_ext (fun t => Cmult (Copp (RtoC 1)) (RtoC (mu t)))); [apply filter_forall; intros t; ring|].
      apply (cder_val _ (Cmult (Copp (RtoC 1)) (RtoC mu'))); [|ring]. apply cder_scal, cder_real, Hmu.
    - apply (cder_val _ (RtoC 0)); [apply cder_const|ring].
  Qed.

  (** derivative of sum_i F(x_i) <X_i|H|X_i> *)
  Definition ebands (t : R) : R := rsumn m (fun i => F ((mu t - ee t i) / kT) * Re (quad n H (fun c => mmul m (Yt t) (eU t) c i))).
  Lemma quad_real t i : (i < m)%nat -> quad n H (fun c => mmul m (Yt t) (eU t) c i) = RtoC (Re (quad n H (fun c => mmul m (Yt t) (eU t) c i))).
  Proof.
    intros Hi. apply real_of_conj. rewrite quad_entry.
    exact (GeodesicProofs.gram_hermitian n m H (mmul m (Yt t) (eU t)) (mv_H _ _ _ _ _ _ Hp) i i Hi Hi).
  Qed.
  Lemma ebands_trace : locally 0 (fun t => RtoC (ebands t) = csum m (fun q => csum m (fun r => Cmult (HY t q r) (mfun m (eU t) (a t) g r q)))).
  Proof.
    apply filter_forall. intros t. unfold ebands. rewrite <- csum_RtoC.
    rewrite (csum_ext m _ (fun i => Cmult (RtoC (g (a t i))) (mmul m (adj (eU t)) (mmul m (HY t) (eU t)) i i))).
    - rewrite (trace_rot m (HY t) (eU t) (fun i => g (a t i))). apply csum_ext. intros q Hq. apply csum_ext. intros r Hr.
      rewrite (mfun_entry m (eU t) (a t) g r q Hr Hq). reflexivity.
    - intros i Hi. rewrite RtoC_mult, <- (quad_real t i Hi), g_arg. f_equal. rewrite quad_entry, trace_conj. reflexivity.
  Qed.

  Definition slope_f : C := csum m (fun q => csum m (fun r => Cmult (HX0 q r) (Cmult (RtoC (quot g (b q) (l q) (b r))) (dA r q)))).
  Definition slope_x : R := 2 * rsumn m (fun q => F ((mu0 - e q) / kT) * Re (mmul n (adj (kHX k)) zx q q)).
  Lemma ebands_der : is_derive ebands 0 (Re slope_f + slope_x).
  Proof.
    apply (is_derive_ext_loc (fun t => Re (csum m (fun q => csum m (fun r => Cmult (HY t q r) (mfun m (eU t) (a t) g r q)))))).
    { generalize ebands_trace. apply filter_imp. intros t E. rewrite <- E. apply Re_R. }
    assert (V : forall r q, (r < m)%nat -> (q < m)%nat -> mfun m (eU 0) (a 0) g r q = mdiag (fun i => g (b i)) r q).
    { intros r q Hr Hq. exact (mfun_0 m eU A a b eUok (filter_forall _ A_herm) A_eig A_0 g l r q Hr Hq). }
    eapply derive_val.
    - apply (cder_Re (fun t => csum m (fun q => csum m (fun r => Cmult (HY t q r) (mfun m (eU t) (a t) g r q))))).
      apply (cder_csum m (fun t q => csum m (fun r => Cmult (HY t q r) (mfun m (eU t) (a t) g r q)))). intros q Hq.
      apply (cder_csum m (fun t r => Cmult (HY t q r) (mfun m (eU t) (a t) g r q))). intros r Hr.
      apply (cder_mult (fun t => HY t q r) (fun t => mfun m (eU t) (a t) g r q)).
      + apply HY_der; assumption.
      + apply (mfun_der m eU A a b eUok (filter_forall _ A_herm) A_eig A_0 g l g_derive dA A_der r q Hr Hq).
    - cbv beta.
      rewrite (csum_ext m _ (fun q => Cplus (Cmult (Cplus (mmul n (adj zx) (kHX k) q q) (mmul n (adj (kHX k)) zx q q)) (RtoC (g (b q))))
         (csum m (fun r => Cmult (HX0 q r) (Cmult (RtoC (quot g (b q) (l q) (b r))) (dA r q)))))).
      + rewrite csum_plus, Re_plus, Rplus_comm. f_equal. unfold slope_x. rewrite csum_Re, <- rsumn_scal. apply rsumn_ext. intros q Hq.
        assert (E : mmul n (adj zx) (kHX k) q q = Cconj (mmul n (adj (kHX k)) zx q q)).
        { unfold mmul, adj. rewrite csum_conj. apply csum_ext. intros c Hc. rewrite Cconj_mult, Cconj_conj. ring. }
        rewrite E. replace (g (b q)) with (F ((mu0 - e q) / kT)) by (unfold g, b; f_equal; f_equal; ring).
        rewrite Cmult_comm, Re_scal, Re_plus, Re_conj. ring.
      + intros q Hq. rewrite csum_plus. f_equal.
        * rewrite (csum_one m q); [|exact Hq|].
          -- rewrite (V q q Hq Hq). unfold mdiag. rewrite Nat.eqb_refl. reflexivity.
          -- intros r Hr N. rewrite (V r q Hr Hq). unfold mdiag. apply Nat.eqb_neq in N. rewrite N. ring.
        * apply csum_ext. intros r Hr. rewrite (HY_0 q r Hq Hr). reflexivity.
  Qed.
  Lemma fsum_der : is_derive fsum 0 (rsumn m (fun q => l q * (Re (ze q q) - mu'))).
  Proof.
    apply (is_derive_ext_loc (fun t => Re (csum m (fun q => mfun m (eU t) (a t) g q q)))).
    { generalize fsum_trace. apply filter_imp. intros t E. rewrite <- E. apply Re_R. }
    eapply derive_val.
    - apply (cder_Re (fun t => csum m (fun q => mfun m (eU t) (a t) g q q))).
      apply (cder_csum m (fun t q => mfun m (eU t) (a t) g q q)). intros q Hq.
      apply (mfun_der m eU A a b eUok (filter_forall _ A_herm) A_eig A_0 g l g_derive dA A_der q q Hq Hq).
    - rewrite csum_Re. apply rsumn_ext. intros q Hq. rewrite quot_b, Re_scal. unfold dA, mdiag. rewrite Nat.eqb_refl.
      unfold Cminus. rewrite Re_plus. reflexivity.
  Qed.
End One.
