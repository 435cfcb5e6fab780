(** Free energy along the trial curve when the Hamiltonian follows the density.
    The caller's total energy (EnergyBase::compute and get_total_energy, include/interface.hpp 44-65) is an arbitrary function of the
    density matrices of all k-points that is differentiable at the current densities; H is its derivative there, and the
    functional hands H X to the library (get_hphi).  The curve is geodesic_us (Geodesic.v), the gradient and slopes are those of
    Descent.v; FreeEnergy::compute (src/free_energy.hpp 61-103) adds the entropy term. *)
From Coq Require Import Reals Lra Psatz Arith Lia List Bool.
From Coquelicot Require Import Coquelicot.
From Verif Require Import Arith Erf LinAlg Containers Newton Occupation Smearing SmearingProofs SmearingUse SmearingFacts Descent DescentProofs DescentFacts GradEtaFacts Geodesic GeodesicProofs MatFun Curve CurveProofs CurveMain CurveMu Cholesky Spectral Stationary.
Import ListNotations.
Local Open Scope R_scope.

(** ** Definitions *)
(** density matrix X f X^H of a k-point (what set_C and set_fn of the functional amount to, free_energy.hpp 61-103) *)
Definition density_of (k : kpt) : mat :=
  fun a b => csum (km k) (fun i => Cmult (Cmult (RtoC (kf k i)) (kX k a i)) (Cconj (kX k b i))).
(** density matrix of the trial point at step length t *)
Definition density_at (eigh : nat -> mat -> option (mat * (nat -> R))) (s : smearing_type) (T mo mu t : R) (p : moving) : mat :=
  match trial eigh p t with
  | None => mzero
  | Some (ek, _, X') => fun a b => csum (km (mk p)) (fun i =>
      Cmult (Cmult (RtoC (sfn (smearing_class s) ((mu - ek i) / (kb Rarith * T)) mo)) (X' a i)) (Cconj (X' b i)))
  end.
(** Specification: distance of two n x n matrices, and the trace of H (r - r0). *)
Definition distance (n : nat) (A B : mat) : R := rsumn n (fun a => rsumn n (fun b => Cmod (Cminus (A a b) (B a b)))).
Definition change (n : nat) (H A B : mat) : R := Re (csum n (fun a => csum n (fun b => Cmult (H a b) (Cminus (A b a) (B b a))))).
(** k-points with given matrices *)
Definition zip2 {Y} (world : list (list Y)) (rs : list (list mat)) : list (list (Y * mat)) :=
  map (fun xy => combine (fst xy) (snd xy)) (combine world rs).
Definition far (world : list (list (kpt * mat))) (rs : list (list mat)) : R :=
  total (fun z : (kpt * mat) * mat => distance (kn (fst (fst z))) (snd z) (density_of (fst (fst z)))) (zip2 world rs).
Definition first_order (world : list (list (kpt * mat))) (rs : list (list mat)) : R :=
  total (fun z : (kpt * mat) * mat => kw (fst (fst z)) * change (kn (fst (fst z))) (snd (fst z)) (snd z) (density_of (fst (fst z)))) (zip2 world rs).
(** The Hamiltonians are the derivative of the energy [E] at the current densities, in the directions of Hermitian matrices. *)
Definition hamiltonian_of (E : list (list mat) -> R) (world : list (list (kpt * mat))) : Prop :=
  forall eps, 0 < eps -> exists delta, 0 < delta /\ forall rs : list (list mat),
  Forall2 (Forall2 (fun kH r => hermitian (kn (fst kH)) r)) world rs -> far world rs < delta ->
  Rabs (E rs - E (map (map (fun kH => density_of (fst kH))) world) - first_order world rs) <= eps * far world rs.
(** free energy at the trial points: energy of the densities plus kT times (minus the sum of the entropies) *)
Definition scf_energy eigh s T mo (E : list (list mat) -> R) (world : list (list moving)) (mu : R -> R) (t : R) : R :=
  E (map (map (density_at eigh s T mo (mu t) t)) world) + kb Rarith * T * (-1 * entropy_at eigh s T mo world (mu t) t).

(** ** Small facts *)
Lemma zip2_maps {Y A} (g : Y -> A) (r : Y -> mat) (w : list (list Y)) : zip2 (map (map g) w) (map (map r) w) = map (map (fun y => (g y, r y))) w.
Proof.
  unfold zip2. rewrite (combine_maps (map g) (map r) w), map_map. apply map_ext. intros l. cbn [fst snd]. apply combine_maps.
Qed.

(** bounded by a multiple of |t| near 0 *)
Definition linear (f : R -> R) : Prop := exists L, locally 0 (fun t => Rabs (f t) <= L * Rabs t).
Lemma linear_0 : linear (fun _ => 0).
Proof. exists 0. apply filter_forall. intros t. rewrite Rabs_R0. lra. Qed.
Lemma linear_plus f g : linear f -> linear g -> linear (fun t => f t + g t).
Proof.
  intros [L Hf] [M Hg]. exists (L + M). generalize (filter_and _ _ Hf Hg). apply filter_imp. intros t [H1 H2].
  eapply Rle_trans; [apply Rabs_triang|]. lra.
Qed.
Lemma linear_rsumn n (f : R -> nat -> R) : (forall i, (i < n)%nat -> linear (fun t => f t i)) -> linear (fun t => rsumn n (f t)).
Proof.
  induction n as [|n IH]; intros H; cbn [rsumn]; [apply linear_0|]. apply (linear_plus (fun t => rsumn n (f t)) (fun t => f t n)); [apply IH; intros i Hi; apply H; lia|apply H; lia].
Qed.
Lemma linear_fold {Y} (f : R -> Y -> R) l : (forall y, In y l -> linear (fun t => f t y)) -> linear (fun t => fold_right Rplus 0 (map (f t) l)).
Proof.
  induction l as [|y l IH]; intros H; cbn [map fold_right]; [apply linear_0|]. apply (linear_plus (fun t => f t y)); [apply H; left; reflexivity|].
  apply IH. intros z Hz. apply H. right. exact Hz.
Qed.
Lemma linear_total {Y} (f : R -> Y -> R) (w : list (list Y)) : (forall r y, In r w -> In y r -> linear (fun t => f t y)) -> linear (fun t => total (f t) w).
Proof.
  intros H. unfold total. apply (linear_fold (fun t r => fold_right Rplus 0 (map (f t) r))). intros r Hr. apply linear_fold. intros y Hy. exact (H r y Hr Hy).
Qed.
Lemma linear_cder F l : cder F l -> linear (fun t => Cmod (Cminus (F t) (F 0))).
Proof.
  intros [q [Hq HF]]. exists (Cmod l + 1). generalize (filter_and _ _ (Hq 1 Rlt_0_1) HF). apply filter_imp. intros t [B E].
  rewrite E. replace (Cminus (Cplus (F 0) (Cmult (RtoC t) (q t))) (F 0)) with (Cmult (RtoC t) (q t)) by ring.
  rewrite Cmod_mult, Cmod_R, Rabs_pos_eq by (apply Rmult_le_pos; [apply Rabs_pos|apply Cmod_ge_0]).
  rewrite (Rmult_comm (Rabs t)). apply Rmult_le_compat_r; [apply Rabs_pos|].
  replace (q t) with (Cplus (Cminus (q t) l) l) by ring. eapply Rle_trans; [apply Cmod_triangle|]. lra.
Qed.
Lemma linear_ext f g : locally 0 (fun t => f t = g t) -> linear f -> linear g.
Proof. intros E [L H]. exists L. generalize (filter_and _ _ E H). apply filter_imp. intros t [<- B]. exact B. Qed.

(** a remainder smaller than every multiple of a linear function has derivative 0 *)
Lemma small_remainder (R0 d : R -> R) : linear d -> R0 0 = 0 ->
  (forall eps, 0 < eps -> locally 0 (fun t => Rabs (R0 t) <= eps * Rabs (d t))) -> is_derive R0 0 0.
Proof.
  intros [L HL] Z H. apply is_derive_Reals. intros eps He.
  set (K := Rabs L + 1). assert (HK : 0 < K) by (unfold K; pose proof (Rabs_pos L); lra).
  destruct (filter_and _ _ HL (H (eps / (2 * K)) ltac:(apply Rdiv_lt_0_compat; lra))) as [delta Hd].
  exists delta. intros h Hh Hlt. rewrite Rplus_0_l, Z, !Rminus_0_r.
  assert (Hb : ball 0 delta h) by (change (Rabs (h + - 0) < delta); rewrite Ropp_0, Rplus_0_r; exact Hlt).
  destruct (Hd h Hb) as [B1 B2].
  unfold Rdiv. rewrite Rabs_mult, Rabs_inv.
  assert (Ha : 0 < Rabs h) by (apply Rabs_pos_lt; exact Hh).
  apply Rmult_lt_reg_r with (Rabs h); [exact Ha|]. rewrite Rmult_assoc, Rinv_l, Rmult_1_r by lra.
  eapply Rle_lt_trans; [exact B2|].
  apply Rle_lt_trans with (eps / (2 * K) * (K * Rabs h)).
  - apply Rmult_le_compat_l; [apply Rlt_le, Rdiv_lt_0_compat; lra|]. eapply Rle_trans; [exact B1|].
    apply Rmult_le_compat_r; [lra|]. unfold K. pose proof (Rle_abs L). lra.
  - replace (eps / (2 * K) * (K * Rabs h)) with (eps * Rabs h / 2) by (field; lra). pose proof (Rmult_lt_0_compat _ _ He Ha). lra.
Qed.

Lemma distance_pos n A B : 0 <= distance n A B.
Proof. apply rsumn_nonneg. intros a _. apply rsumn_nonneg. intros b _. apply Cmod_ge_0. Qed.
Lemma total_nonneg {Y} (f : Y -> R) w : (forall y, 0 <= f y) -> 0 <= total f w.
Proof.
  intros H. unfold total. assert (G : forall l : list Y, 0 <= fold_right Rplus 0 (map f l)).
  { induction l as [|y l IH]; cbn [map fold_right]; [lra|]. pose proof (H y). lra. }
  induction w as [|r w IH]; cbn [map fold_right]; [lra|]. pose proof (G r). lra.
Qed.
Lemma far_pos world rs : 0 <= far world rs.
Proof. apply total_nonneg. intros z. apply distance_pos. Qed.
Lemma distance_0 n A B : meq n n A B -> distance n A B = 0.
Proof.
  intros H. unfold distance. rewrite (rsumn_ext n _ (fun _ => 0)).
  - induction n as [|n IH]; cbn [rsumn]; [reflexivity|]. rewrite IH; [ring|]. intros a b Ha Hb. apply H; lia.
  - intros a Ha. rewrite (rsumn_ext n _ (fun _ => 0)).
    + clear. induction n as [|n IH]; cbn [rsumn]; [reflexivity|]. rewrite IH. ring.
    + intros b Hb. rewrite (H a b Ha Hb). replace (Cminus (B a b) (B a b)) with (RtoC 0) by ring. apply Cmod_0.
Qed.

(** ** One k-point *)
Section OneDensity.
  Context (eigh : nat -> mat -> option (mat * (nat -> R))) (s : smearing_type) (T mo : R) (p : moving) (mu : R -> R) (mu' : R).
  Hypothesis He : eigh_ok eigh.
  Hypothesis HT : 0 < T.
  Hypothesis Hs : s <> COLD.
  Hypothesis Hp : moving_ok eigh s T mo (mu 0) p.
  Hypothesis Hmu : is_derive mu 0 mu'.
  Let k := mk p. Let n := kn k. Let m := km k. Let kT := kb Rarith * T.
  Let F (x : R) : R := sfn (smearing_class s) x mo.
  Let U := eU eigh p.
  Let a (t : R) (i : nat) : R := ee eigh p t i - mu t.
  Let g (y : R) : R := F (- y / kT).
  Let Y := Yt eigh p.

  Lemma density_entry : locally 0 (fun t => forall x y,
    density_at eigh s T mo (mu t) t p x y =
    csum m (fun q => csum m (fun r => Cmult (Cmult (Y t x q) (mfun m (U t) (a t) g q r)) (Cconj (Y t y r))))).
  Proof.
    generalize (trial_eq eigh s T mo p (mu 0) He Hp). apply filter_imp. intros t [_ [_ [_ [_ E]]]] x y.
    unfold density_at. rewrite E. fold k m U Y.
    transitivity (csum m (fun i => csum m (fun q => csum m (fun r =>
      Cmult (Cmult (Y t x q) (Cmult (Cmult (U t q i) (RtoC (g (a t i)))) (Cconj (U t r i)))) (Cconj (Y t y r)))))).
    - apply csum_ext. intros i Hi. unfold mmul. rewrite csum_conj.
      unfold g, a. replace (- (ee eigh p t i - mu t) / kT) with ((mu t - ee eigh p t i) / kT) by (unfold Rdiv; ring). fold kT.
      change (sfn (smearing_class s) ((mu t - ee eigh p t i) / kT) mo) with (F ((mu t - ee eigh p t i) / kT)). set (f := RtoC (F ((mu t - ee eigh p t i) / kT))).
      rewrite <- (csum_scal_l m f (fun q => Cmult (Y t x q) (U t q i))). rewrite <- csum_scal_r. apply csum_ext. intros q Hq. rewrite <- csum_scal_l. apply csum_ext. intros r Hr.
      rewrite Cconj_mult. ring.
    - rewrite (csum_swap m m). apply csum_ext. intros q Hq. rewrite (csum_swap m m). apply csum_ext. intros r Hr.
      rewrite csum_scal_r, csum_scal_l. rewrite (mfun_entry m (U t) (a t) g q r Hq Hr). reflexivity.
  Qed.

  Lemma density_0 : meq n n (density_at eigh s T mo (mu 0) 0 p) (density_of k).
  Proof.
    intros x y Hx Hy. rewrite (near_0 _ density_entry x y). unfold density_of. fold m.
    apply csum_ext. intros q Hq. rewrite (csum_one m q _ Hq).
    - rewrite (mfun_0 m U _ a (fun i => ke k i - mu 0) (eUok eigh s T mo p (mu 0) He Hp) (filter_forall _ (A_herm eigh s T mo p (mu 0) Hp mu)) (A_eig eigh s T mo p (mu 0) He Hp mu) (A_0 p (mu 0) mu eq_refl) g (lf s T mo p (mu 0)) q q Hq Hq).
      unfold mdiag. rewrite Nat.eqb_refl. unfold Y. rewrite (Y_0 eigh s T mo p (mu 0) He Hp x q Hq), (Y_0 eigh s T mo p (mu 0) He Hp y q Hq).
      fold k. unfold g. cbv beta. replace (- (ke k q - mu 0) / kT) with ((mu 0 - ke k q) / kT) by (unfold Rdiv; ring).
      pose proof (mv_f _ _ _ _ _ _ Hp q Hq) as Ef. fold k kT in Ef. unfold F. rewrite <- Ef. ring.
    - intros r Hr Nr.
      rewrite (mfun_0 m U _ a (fun i => ke k i - mu 0) (eUok eigh s T mo p (mu 0) He Hp) (filter_forall _ (A_herm eigh s T mo p (mu 0) Hp mu)) (A_eig eigh s T mo p (mu 0) He Hp mu) (A_0 p (mu 0) mu eq_refl) g (lf s T mo p (mu 0)) q r Hq Hr).
      unfold mdiag. destruct (Nat.eqb_spec q r); [congruence|]. ring.
  Qed.

  Lemma density_cder x y : exists l, cder (fun t => density_at eigh s T mo (mu t) t p x y) l.
  Proof.
    eexists. apply (cder_ext (fun t => csum m (fun q => csum m (fun r => Cmult (Cmult (Y t x q) (mfun m (U t) (a t) g q r)) (Cconj (Y t y r)))))).
    { generalize density_entry. apply filter_imp. intros t E. symmetry. apply E. }
    apply (cder_csum m (fun t q => csum m (fun r => Cmult (Cmult (Y t x q) (mfun m (U t) (a t) g q r)) (Cconj (Y t y r))))). intros q Hq.
    apply (cder_csum m (fun t r => Cmult (Cmult (Y t x q) (mfun m (U t) (a t) g q r)) (Cconj (Y t y r)))). intros r Hr.
    apply (cder_mult (fun t => Cmult (Y t x q) (mfun m (U t) (a t) g q r)) (fun t => Cconj (Y t y r))).
    - apply (cder_mult (fun t => Y t x q) (fun t => mfun m (U t) (a t) g q r)).
      + apply (Y_der eigh s T mo p (mu 0) He Hp x q Hq).
      + apply (mfun_der m U _ a (fun i => ke k i - mu 0) (eUok eigh s T mo p (mu 0) He Hp) (filter_forall _ (A_herm eigh s T mo p (mu 0) Hp mu)) (A_eig eigh s T mo p (mu 0) He Hp mu) (A_0 p (mu 0) mu eq_refl) g (lf s T mo p (mu 0))
          (g_derive T p (mu 0) F (lf s T mo p (mu 0)) (fun i Hi => lf_derive eigh s T mo p (mu 0) HT Hs Hp i Hi)) _ (A_der p mu mu' Hmu) q r Hq Hr).
    - apply cder_conj. apply (Y_der eigh s T mo p (mu 0) He Hp y r Hr).
  Qed.
End OneDensity.

Lemma density_hermitian eigh s T mo mu t p n : hermitian n (density_at eigh s T mo mu t p).
Proof.
  intros x y _ _. unfold adj, density_at. destruct (trial eigh p t) as [[[ek U] X']|].
  - rewrite csum_conj. apply csum_ext. intros i Hi. rewrite !Cconj_mult, Cconj_conj, Cconj_R. ring.
  - unfold mzero. apply Cconj_R.
Qed.

(** the band energy is the trace of H times the density *)
Definition tr_of (n : nat) (H A : mat) : R := Re (csum n (fun a => csum n (fun b => Cmult (H a b) (A b a)))).
Lemma change_tr n H A B : change n H A B = tr_of n H A - tr_of n H B.
Proof.
  unfold change, tr_of. set (x := csum n _). set (y := csum n (fun a => csum n (fun b => Cmult (H a b) (A b a)))). set (z := csum n (fun a => csum n (fun b => Cmult (H a b) (B b a)))).
  assert (E : x = Cminus y z).
  { unfold x, y, z. rewrite <- csum_minus. apply csum_ext. intros a Ha. rewrite <- csum_minus. apply csum_ext. intros b Hb. ring. }
  rewrite E. destruct y as [y1 y2], z as [z1 z2]. cbn. ring.
Qed.
Lemma tr_of_meq n H A B : meq n n A B -> tr_of n H A = tr_of n H B.
Proof. intros M. unfold tr_of. f_equal. apply csum_ext. intros a Ha. apply csum_ext. intros b Hb. rewrite (M b a Hb Ha). reflexivity. Qed.
Lemma band_energy_tr eigh s T mo mu t p :
  bands_sum eigh T (fun x h => sfn (smearing_class s) x mo * h) mu t p = kw (mk p) * tr_of (kn (mk p)) (mH p) (density_at eigh s T mo mu t p).
Proof.
  unfold bands_sum, density_at. destruct (trial eigh p t) as [[[ek U] X']|].
  - f_equal. set (n := kn (mk p)). set (m := km (mk p)). set (f := fun i => sfn (smearing_class s) ((mu - ek i) / (kb Rarith * T)) mo).
    unfold tr_of. transitivity (Re (csum m (fun i => Cmult (RtoC (f i)) (quad n (mH p) (fun a => X' a i))))).
    + rewrite csum_Re. apply rsumn_ext. intros i Hi. fold (f i). destruct (quad n (mH p) (fun a => X' a i)) as [q1 q2]. cbn. ring.
    + f_equal. unfold quad.
      rewrite (csum_ext m _ (fun i => csum n (fun a => csum n (fun b => Cmult (RtoC (f i)) (Cmult (Cmult (Cconj (X' a i)) (mH p a b)) (X' b i)))))).
      2:{ intros i Hi. rewrite <- csum_scal_l. apply csum_ext. intros a Ha. rewrite <- csum_scal_l. reflexivity. }
      rewrite (csum_swap m n). apply csum_ext. intros a Ha. rewrite (csum_swap m n). apply csum_ext. intros b Hb.
      rewrite <- csum_scal_l. apply csum_ext. intros i Hi. fold (f i). ring.
  - unfold tr_of. rewrite (csum_0 (kn (mk p))); [cbn; ring|]. intros a Ha. apply csum_0. intros b Hb. unfold mzero. ring.
Qed.

(** ** All k-points *)
Section WorldScf.
  Context (eigh : nat -> mat -> option (mat * (nat -> R))) (s : smearing_type) (T mo : R) (mu : R -> R) (W : list (list moving)).
  Hypothesis He : eigh_ok eigh.
  Hypothesis HT : 0 < T.
  Hypothesis Hs : s <> COLD.
  Hypothesis Hc : continuous mu 0.
  Hypothesis Hw : forall r p, In r W -> In p r -> moving_ok eigh s T mo (mu 0) p.
  Hypothesis Hcount : locally 0 (fun t => count_at eigh s T mo W (mu t) t = count_at eigh s T mo W (mu 0) 0).
  Hypothesis Hdmu : 1 / 10 ^ 12 <= Rabs (dmu_deta s T mo (map (map mk) W) (mu 0)).
  Context (E : list (list mat) -> R).
  Let world := map (map (fun p => (mk p, mH p))) W.
  Hypothesis HE : hamiltonian_of E world.
  Let rs (t : R) : list (list mat) := map (map (density_at eigh s T mo (mu t) t)) W.

  Lemma far_total t : far world (rs t) = total (fun p => distance (kn (mk p)) (density_at eigh s T mo (mu t) t p) (density_of (mk p))) W.
  Proof. unfold far, world, rs. rewrite zip2_maps, total_map. reflexivity. Qed.
  Lemma first_total t : first_order world (rs t) = energy_at eigh s T mo W (mu t) t - energy_at eigh s T mo W (mu 0) 0.
  Proof.
    unfold first_order, world, rs, energy_at. rewrite zip2_maps, total_map. cbn [fst snd].
    rewrite (total_ext (fun y => kw (mk y) * change (kn (mk y)) (mH y) (density_at eigh s T mo (mu t) t y) (density_of (mk y)))
      (fun p => bands_sum eigh T (fun x h => sfn (smearing_class s) x mo * h) (mu t) t p + -1 * bands_sum eigh T (fun x h => sfn (smearing_class s) x mo * h) (mu 0) 0 p)).
    - rewrite total_plus, total_scal. ring.
    - intros r p Hr Hp. rewrite !band_energy_tr, change_tr.
      rewrite (tr_of_meq _ (mH p) _ _ (density_0 eigh s T mo p mu He (Hw r p Hr Hp))). ring.
  Qed.

  Lemma far_linear : linear (fun t => far world (rs t)).
  Proof.
    apply (linear_ext (fun t => total (fun p => distance (kn (mk p)) (density_at eigh s T mo (mu t) t p) (density_of (mk p))) W)).
    { apply filter_forall. intros t. symmetry. apply far_total. }
    apply (linear_total (fun t p => distance (kn (mk p)) (density_at eigh s T mo (mu t) t p) (density_of (mk p)))). intros r p Hr Hp. unfold distance.
    apply (linear_rsumn _ (fun t a => rsumn (kn (mk p)) (fun b => Cmod (Cminus (density_at eigh s T mo (mu t) t p a b) (density_of (mk p) a b))))). intros a Ha.
    apply (linear_rsumn _ (fun t b => Cmod (Cminus (density_at eigh s T mo (mu t) t p a b) (density_of (mk p) a b)))). intros b Hb.
    destruct (density_cder eigh s T mo p mu _ He HT Hs (Hw r p Hr Hp) (mu_der eigh s T mo mu W He HT Hs Hc Hw Hcount Hdmu) a b) as [l Hl].
    generalize (linear_cder _ _ Hl). apply linear_ext. apply filter_forall. intros t.
    rewrite (density_0 eigh s T mo p mu He (Hw r p Hr Hp) a b Ha Hb). reflexivity.
  Qed.
  Lemma far_0 : far world (rs 0) = 0.
  Proof.
    rewrite far_total. rewrite (total_ext _ (fun _ => 0)); [apply total_zero|].
    intros r p Hr Hp. apply distance_0. exact (density_0 eigh s T mo p mu He (Hw r p Hr Hp)).
  Qed.
  Lemma shape t : Forall2 (Forall2 (fun kH r => hermitian (kn (fst kH)) r)) world (rs t).
  Proof.
    unfold world, rs. clear. induction W as [|r w IH]; cbn [map]; [apply Forall2_nil|]. apply Forall2_cons; [|exact IH].
    induction r as [|p r IHr]; cbn [map]; [apply Forall2_nil|]. apply Forall2_cons; [|exact IHr]. apply density_hermitian.
  Qed.

  Let E0 := E (map (map (fun kH => density_of (fst kH))) world).
  Let Rm (t : R) : R := E (rs t) - E0 - first_order world (rs t).
  Lemma remainder_der : is_derive Rm 0 0.
  Proof.
    apply (small_remainder Rm (fun t => far world (rs t)) far_linear).
    - destruct (HE 1 Rlt_0_1) as [delta [Hd B]]. specialize (B (rs 0) (shape 0)). rewrite far_0, Rmult_0_r in B. specialize (B Hd).
      fold E0 in B. unfold Rm. pose proof (Rabs_pos (E (rs 0) - E0 - first_order world (rs 0))) as P.
      destruct (Req_dec (E (rs 0) - E0 - first_order world (rs 0)) 0) as [Z|Z]; [exact Z|]. pose proof (Rabs_pos_lt _ Z). lra.
    - intros eps Hp. destruct (HE eps Hp) as [delta [Hd B]]. destruct far_linear as [L HL].
      assert (N : locally 0 (fun t => Rabs t < delta / (Rabs L + 1))).
      { assert (P : 0 < delta / (Rabs L + 1)) by (apply Rdiv_lt_0_compat; [exact Hd|pose proof (Rabs_pos L); lra]).
        exists (mkposreal _ P). intros y Hy. change (Rabs (y + - 0) < delta / (Rabs L + 1)) in Hy. rewrite Ropp_0, Rplus_0_r in Hy. exact Hy. }
      generalize (filter_and _ _ HL N). apply filter_imp. intros t [H1 H2].
      pose proof (far_pos world (rs t)) as FP. rewrite (Rabs_pos_eq _ FP) in H1 |- *.
      apply (B (rs t) (shape t)). eapply Rle_lt_trans; [exact H1|].
      pose proof (Rabs_pos L). pose proof (Rabs_pos t). pose proof (Rle_abs L).
      apply Rle_lt_trans with (Rabs L * Rabs t); [apply Rmult_le_compat_r; assumption|].
      apply Rmult_lt_compat_r with (r := Rabs L + 1) in H2; [|lra]. unfold Rdiv in H2. rewrite Rmult_assoc, Rinv_l, Rmult_1_r in H2 by lra. nra.
  Qed.

  Lemma scf_curve t : scf_energy eigh s T mo E W mu t = curve_energy eigh s T mo W mu t + Rm t + (E0 - energy_at eigh s T mo W (mu 0) 0).
  Proof. unfold scf_energy, curve_energy, Rm. fold (rs t). rewrite first_total. ring. Qed.

  Theorem scf_derivative L : is_derive (curve_energy eigh s T mo W mu) 0 L -> is_derive (scf_energy eigh s T mo E W mu) 0 L.
  Proof.
    intros D. apply (is_derive_ext (fun t => curve_energy eigh s T mo W mu t + Rm t + (E0 - energy_at eigh s T mo W (mu 0) 0))).
    { intros t. symmetry. apply scf_curve. }
    replace L with (L + 0 + 0) by ring.
    apply (is_derive_plus (fun t => curve_energy eigh s T mo W mu t + Rm t) (fun _ => E0 - energy_at eigh s T mo W (mu 0) 0)).
    - apply (is_derive_plus (curve_energy eigh s T mo W mu) Rm); [exact D|exact remainder_der].
    - exact (is_derive_const (K := R_AbsRing) (V := R_NormedModule) (E0 - energy_at eigh s T mo W (mu 0) 0) 0).
  Qed.
End WorldScf.

(** ** The directions computed by the library *)
Lemma with_dirs_states (world : list (list (kpt * mat))) (dirs : list (list (mat * mat))) :
  Forall2 (fun r d => length r = length d) world dirs -> map (map (fun p => (mk p, mH p))) (with_dirs world dirs) = world.
Proof.
  intros H. induction H as [|r d world dirs L _ IH]; [reflexivity|]. unfold with_dirs in *. cbn [combine map fst snd]. f_equal; [|exact IH].
  clear IH. revert d L. induction r as [|kH r IHr]; intros [|z d] L; try discriminate L; [reflexivity|]. cbn [combine map fst snd].
  f_equal; [symmetry; apply surjective_pairing|]. apply IHr. cbn [length] in L. lia.
Qed.
Lemma same_length_map {X Y Z} (f : X -> Y) (g : X -> Z) (w : list (list X)) : Forall2 (fun r d => length r = length d) (map (map f) w) (map (map g) w).
Proof. induction w as [|r w IH]; cbn [map]; [apply Forall2_nil|]. apply Forall2_cons; [rewrite !map_length; reflexivity|exact IH]. Qed.
Lemma restarted_shape solve s T kappa mo mu (world : list (list (kpt * mat))) :
  Forall2 (fun r d => length r = length d) world (snd (restarted solve s T kappa mo (map (map fst) world) mu)).
Proof.
  unfold restarted. cbn [snd]. set (ex := exec_restart solve s T kappa mo mu _ _). rewrite !map_map.
  generalize world. intros w. induction w as [|r w IH]; cbn [map]; [apply Forall2_nil|]. apply Forall2_cons; [rewrite !map_length; reflexivity|exact IH].
Qed.
Lemma conjugated_shape solve s T kappa mo fr mu (world : list (list ((kpt * (mat * mat * mat)) * mat))) :
  Forall2 (fun r d => length r = length d) (map (map (fun y => (fst (fst y), snd y))) world) (snd (conjugated solve s T kappa mo fr (map (map fst) world) mu)).
Proof.
  unfold conjugated. cbv zeta. cbn [snd].
  match goal with |- Forall2 _ _ (map (map ?dr) (map (map ?ex) _)) => set (d := dr); set (e := ex) end. clearbody d e.
  induction world as [|r w IH]; cbn [map]; [apply Forall2_nil|]. apply Forall2_cons; [rewrite !map_length; reflexivity|exact IH].
Qed.

Section LibraryScf.
  Context (eigh : nat -> mat -> option (mat * (nat -> R))) (solve : nat -> mat -> mat -> mat) (s : smearing_type) (T kappa mo : R).
  Hypothesis He : eigh_ok eigh.
  Hypothesis HT : 0 < T.
  Hypothesis Hs : s <> COLD.
  Hypothesis Hm : s <> GAUSSIAN_SPLINE \/ mo = 1.
  Context (E : list (list mat) -> R).

  Theorem scf_gradient (mu : R -> R) (world : list (list moving)) : continuous mu 0 ->
    (forall r p, In r world -> In p r -> moving_ok eigh s T mo (mu 0) p) ->
    locally 0 (fun t => count_at eigh s T mo world (mu t) t = count_at eigh s T mo world (mu 0) 0) ->
    hamiltonian_of E (map (map (fun p => (mk p, mH p))) world) ->
    let ks := map (map mk) world in
    let dmu := dmu_deta s T mo ks (mu 0) in
    let dF := dFdmu s T mo ks (mu 0) in
    1 / 10 ^ 12 <= Rabs dmu ->
    is_derive (scf_energy eigh s T mo E world mu) 0
      (total (fun p => 2 * Re (ip (kn (mk p)) (km (mk p)) (grad_x solve (mk p)) (mzx p)) +
                       Re (ip (km (mk p)) (km (mk p)) (grad_e s T mo (mu 0) dmu dF (mk p)) (mze p)) +
                       dropped s T mo (mu 0) p) world).
  Proof.
    intros Hc Hw Hn HE ks dmu dF Hd. apply (scf_derivative eigh s T mo mu world He HT Hs Hc Hw Hn Hd E HE).
    exact (curve_derivative_exact eigh solve s T mo mu world He HT Hs Hm Hc Hw Hn Hd).
  Qed.

  Theorem scf_steepest (mu0 : R) (world : list (list (kpt * mat))) : (forall m M, eigh m M <> None) ->
    monotone_type s -> 0 < kappa -> 0 < mo ->
    (forall r kH, In r world -> In kH r -> point_ok s T mo mu0 (fst kH) (snd kH) /\ systems_ok solve (fst kH) /\ 0 < kw (fst kH) /\ posdef (kn (fst kH)) (kP (fst kH))) ->
    hamiltonian_of E world ->
    let ks := map (map fst) world in
    1 / 10 ^ 12 <= Rabs (dmu_deta s T mo ks mu0) ->
    ~ (exists c, forall r k, In r ks -> In k r -> stationary_k c k) ->
    let (slope, dirs) := restarted solve s T kappa mo ks mu0 in
    let W := with_dirs world dirs in
    slope < 0 /\
    exists (mu : R -> R) (t0 : R), 0 < t0 /\ mu 0 = mu0 /\
      is_derive (scf_energy eigh s T mo E W mu) 0 (slope + total (dropped s T mo mu0) W) /\ total (dropped s T mo mu0) W <= 0 /\
      forall t, 0 < t < t0 -> count_at eigh s T mo W (mu t) t = count_at eigh s T mo W mu0 0 /\
                              scf_energy eigh s T mo E W mu t < scf_energy eigh s T mo E W mu 0.
  Proof.
    intros Ht Hmt Hk Hmo Hok HE ks Hd Hn.
    assert (Kok : forall r k, In r ks -> In k r -> kpt_ok solve s T mo mu0 k /\ posdef (kn k) (kP k) /\ forall i, (i < km k)%nat -> inside s ((mu0 - ke k i) / (kb Rarith * T))).
    { intros r k Hr Hkr. destruct (in_map2 _ _ _ _ Hr Hkr) as [r0 [kH [Hr0 [Hk0 ->]]]]. destruct (Hok r0 kH Hr0 Hk0) as [P [Q [Pw Pp]]].
      split; [apply (point_kpt_ok solve s T mo mu0 (fst kH) (snd kH)); assumption|split; [exact Pp|exact (pt_in _ _ _ _ _ _ P)]]. }
    pose proof (restarted_descends solve s T kappa mo mu0 Hmt HT (Rlt_le _ _ Hk) (Rlt_le _ _ Hmo) ks (fun r k Hr Hkr => proj1 (Kok r k Hr Hkr))) as Le.
    assert (Ne : fst (restarted solve s T kappa mo ks mu0) <> 0).
    { intros E0. apply Hn. apply (zero_slope solve s T kappa mo mu0 Hmt HT Hk Hmo ks); try assumption.
      - intros r k Hr Hkr. apply (Kok r k Hr Hkr).
      - intros r k Hr Hkr. apply (Kok r k Hr Hkr).
      - intros r k i Hr Hkr Hi. apply (proj2 (proj2 (Kok r k Hr Hkr))). exact Hi. }
    pose proof (restart_dirs solve s T kappa mo mu0 world) as Ed. fold ks in Ed.
    pose proof (with_dirs_states world _ (restarted_shape solve s T kappa mo mu0 world)) as Es. fold ks in Es.
    pose proof (fun mu => restart_slope_exact eigh solve s T kappa mo mu He HT Hs Hm) as Sl.
    destruct (restarted solve s T kappa mo ks mu0) as [slope dirs] eqn:E0. cbn [fst snd] in *. cbv zeta. rewrite Ed in *.
    set (W := map (map (steepest solve kappa)) world) in *.
    assert (Lt : slope < 0) by lra. split; [exact Lt|].
    assert (Hmov : forall r p, In r W -> In p r -> moving_ok eigh s T mo mu0 p).
    { intros r p Hr Hp. destruct (in_map2 _ _ _ _ Hr Hp) as [r0 [kH [Hr0 [Hk0 ->]]]]. destruct (Hok r0 kH Hr0 Hk0) as [P [Q _]].
      apply point_moving; [exact P|exact (delta_tangent_k solve (fst kH) Q)|exact (delta_eta_hermitian kappa _ (point_HX_herm _ _ _ _ _ _ P))|].
      apply filter_forall. intros t. apply trial_total, Ht. }
    assert (EW : map (map mk) W = ks). { unfold W, ks. rewrite map_map. apply map_ext. intros r. rewrite map_map. reflexivity. }
    assert (Hd' : 1 / 10 ^ 12 <= Rabs (dmu_deta s T mo (map (map mk) W) mu0)) by (rewrite EW; exact Hd).
    assert (Hd0 : dmu_deta s T mo (map (map mk) W) mu0 <> 0).
    { rewrite EW. intros X. rewrite X, Rabs_R0 in Hd. assert (0 < 1 / 10 ^ 12) by (apply Rdiv_lt_0_compat; [lra|apply pow_lt; lra]). lra. }
    destruct (mu_exists eigh s T mo mu0 W He HT Hs Hmov Hd0) as [mu [M0 [Mc Mn]]].
    assert (Sd : total (dropped s T mo mu0) W <= 0).
    { rewrite <- (total_zero W). apply total_le. intros r p Hr Hp. destruct (in_map2 _ _ _ _ Hr Hp) as [r0 [kH [Hr0 [Hk0 ->]]]]. destruct (Hok r0 kH Hr0 Hk0) as [P [_ [Pw _]]].
      apply (delta_dropped s T kappa mo mu0 Hmt HT (Rlt_le _ _ Hk) (Rlt_le _ _ Hmo)); assumption. }
    specialize (Sl mu Mc world). rewrite M0 in Sl. specialize (Sl (fun r kH Hr Hkr => conj (proj1 (Hok r kH Hr Hkr)) (proj1 (proj2 (Hok r kH Hr Hkr))))).
    cbv zeta in Sl. fold ks in Sl. specialize (Sl Hd). rewrite E0 in Sl. rewrite Ed in Sl.
    specialize (Sl (fun r p _ _ => filter_forall _ (fun t => trial_total eigh p t Ht)) Mn).
    rewrite <- M0 in Hmov, Hd', Mn. rewrite <- Es in HE.
    pose proof (scf_derivative eigh s T mo mu W He HT Hs Mc Hmov Mn Hd' E HE _ Sl) as Sc.
    destruct (negative_slope _ _ Sc ltac:(lra)) as [t1 [Ht1 Dn]]. destruct Mn as [eps Mn].
    exists mu, (Rmin t1 eps). split; [apply Rmin_glb_lt; [exact Ht1|apply cond_pos]|split; [exact M0|split; [exact Sc|split; [exact Sd|]]]]. intros t [Tp Tl].
    pose proof (Rmin_l t1 eps). pose proof (Rmin_r t1 eps). split; [|apply Dn; lra].
    rewrite <- M0. apply Mn. change (Rabs (t + - 0) < eps). rewrite Ropp_0, Rplus_0_r, Rabs_pos_eq; lra.
  Qed.

  Theorem scf_conjugate (mu0 fr_old : R) (world : list (list ((kpt * (mat * mat * mat)) * mat))) : (forall m M, eigh m M <> None) ->
    (forall r y, In r world -> In y r ->
       point_ok s T mo mu0 (fst (fst y)) (snd y) /\ systems_ok solve (fst (fst y)) /\
       (let '(_, zetap, _) := snd (fst y) in hermitian (km (fst (fst y))) zetap)) ->
    hamiltonian_of E (map (map (fun y => (fst (fst y), snd y))) world) ->
    let kz := map (map fst) world in
    let ks := map (map fst) kz in
    1 / 10 ^ 12 <= Rabs (dmu_deta s T mo ks mu0) ->
    let '(_, slope, dirs) := conjugated solve s T kappa mo fr_old kz mu0 in
    let W := with_dirs (map (map (fun y => (fst (fst y), snd y))) world) dirs in
    exists mu : R -> R, mu 0 = mu0 /\
      locally 0 (fun t => count_at eigh s T mo W (mu t) t = count_at eigh s T mo W mu0 0) /\
      is_derive (scf_energy eigh s T mo E W mu) 0 (slope + total (dropped s T mo mu0) W) /\
      (slope + total (dropped s T mo mu0) W < 0 -> exists t0, 0 < t0 /\
         forall t, 0 < t < t0 -> scf_energy eigh s T mo E W mu t < scf_energy eigh s T mo E W mu 0).
  Proof.
    intros Ht Hok HE kz ks Hd.
    pose proof (conjugate_moving eigh solve s T kappa mo mu0 fr_old world Ht Hok) as [Hmov EW]. fold kz ks in Hmov, EW.
    pose proof (with_dirs_states _ _ (conjugated_shape solve s T kappa mo fr_old mu0 world)) as Es. fold kz in Es.
    pose proof (fun mu => conjugate_slope_exact eigh solve s T kappa mo mu He HT Hs Hm) as Sl.
    destruct (conjugated solve s T kappa mo fr_old kz mu0) as [[fr slope] dirs] eqn:E0. cbn [snd] in *. cbv zeta.
    set (W := with_dirs _ dirs) in *.
    assert (Hd' : 1 / 10 ^ 12 <= Rabs (dmu_deta s T mo (map (map mk) W) mu0)) by (rewrite EW; exact Hd).
    assert (Hd0 : dmu_deta s T mo (map (map mk) W) mu0 <> 0).
    { rewrite EW. intros X. rewrite X, Rabs_R0 in Hd. assert (0 < 1 / 10 ^ 12) by (apply Rdiv_lt_0_compat; [lra|apply pow_lt; lra]). lra. }
    destruct (mu_exists eigh s T mo mu0 W He HT Hs Hmov Hd0) as [mu [M0 [Mc Mn]]].
    specialize (Sl mu Mc fr_old world). rewrite M0 in Sl. specialize (Sl Hok Hd). fold kz in Sl. rewrite E0 in Sl. cbv zeta in Sl. fold W in Sl.
    specialize (Sl (fun r p _ _ => filter_forall _ (fun t => trial_total eigh p t Ht)) Mn).
    exists mu. split; [exact M0|split; [exact Mn|]].
    rewrite <- M0 in Hmov, Hd', Mn. rewrite <- Es in HE.
    pose proof (scf_derivative eigh s T mo mu W He HT Hs Mc Hmov Mn Hd' E HE _ Sl) as Sc. split; [exact Sc|].
    intros Neg. exact (negative_slope _ _ Sc Neg).
  Qed.
End LibraryScf.

(** the energy at the start of the curve is that of the current densities *)
Theorem scf_start eigh s T mo E mu (W : list (list moving)) : eigh_ok eigh -> 0 < T ->
  (forall r p, In r W -> In p r -> moving_ok eigh s T mo (mu 0) p) -> hamiltonian_of E (map (map (fun p => (mk p, mH p))) W) ->
  E (map (map (density_at eigh s T mo (mu 0) 0)) W) = E (map (map (fun p => density_of (mk p))) W).
Proof.
  intros He HT Hw HE. set (world := map (map (fun p => (mk p, mH p))) W) in *.
  assert (Ew : map (map (fun kH => density_of (fst kH))) world = map (map (fun p => density_of (mk p))) W).
  { unfold world. rewrite map_map. apply map_ext. intros r. rewrite map_map. reflexivity. }
  destruct (HE 1 Rlt_0_1) as [delta [Hd B]]. rewrite Ew in B.
  specialize (B _ (shape eigh s T mo mu W 0)).
  pose proof (far_0 eigh s T mo mu W He Hw) as F0. fold world in F0. rewrite F0, Rmult_0_r in B. specialize (B Hd).
  pose proof (first_total eigh s T mo mu W He Hw 0) as F1. fold world in F1. rewrite F1 in B.
  set (x := E _) in *. set (y := E (map (map (fun p => density_of (mk p))) W)) in *.
  destruct (Req_dec (x - y - (energy_at eigh s T mo W (mu 0) 0 - energy_at eigh s T mo W (mu 0) 0)) 0) as [Z|Z]; [lra|]. pose proof (Rabs_pos_lt _ Z). lra.
Qed.

(** ** A mean-field energy *)
(** sum of w tr(H0 rho) over the k-points plus half the square of the sum of w tr(V rho): its Hamiltonian at the densities rho is
    H0 + (sum of w tr(V rho)) V. *)
Definition mean_field (sys : list (list (kpt * (mat * mat)))) (rs : list (list mat)) : R :=
  total (fun z : (kpt * (mat * mat)) * mat => kw (fst (fst z)) * tr_of (kn (fst (fst z))) (fst (snd (fst z))) (snd z)) (zip2 sys rs) +
  (total (fun z : (kpt * (mat * mat)) * mat => kw (fst (fst z)) * tr_of (kn (fst (fst z))) (snd (snd (fst z))) (snd z)) (zip2 sys rs)) ^ 2 / 2.
Definition field (sys : list (list (kpt * (mat * mat)))) : R :=
  total (fun y : kpt * (mat * mat) => kw (fst y) * tr_of (kn (fst y)) (snd (snd y)) (density_of (fst y))) sys.
Definition mean_hamiltonian (sys : list (list (kpt * (mat * mat)))) : list (list (kpt * mat)) :=
  map (map (fun y : kpt * (mat * mat) => (fst y, madd (fst (snd y)) (mscal (RtoC (field sys)) (snd (snd y)))))) sys.

Lemma zip2_map_l {X Y} (g : X -> Y) (w : list (list X)) rs : zip2 (map (map g) w) rs = map (map (fun z => (g (fst z), snd z))) (zip2 w rs).
Proof.
  unfold zip2. revert rs. induction w as [|r w IH]; intros [|q rs]; try reflexivity. cbn [map combine fst snd]. f_equal; [|apply IH].
  clear. revert q. induction r as [|y r IH]; intros [|x q]; try reflexivity. cbn [map combine fst snd]. f_equal. apply IH.
Qed.
Lemma zip2_fst {X} (f : X -> R) (w : list (list X)) rs (P : X -> mat -> Prop) : Forall2 (Forall2 P) w rs -> total (fun z => f (fst z)) (zip2 w rs) = total f w.
Proof.
  intros H. unfold zip2, total. f_equal. induction H as [|r q w rs Hr _ IH]; [reflexivity|]. cbn [combine map fst snd]. f_equal; [|exact IH].
  clear IH. induction Hr as [|y x r q _ _ IH]; [reflexivity|]. cbn [combine map fst fold_right]. rewrite IH. reflexivity.
Qed.
Lemma tr_of_add n H V c A : tr_of n (madd H (mscal (RtoC c) V)) A = tr_of n H A + c * tr_of n V A.
Proof.
  unfold tr_of. set (x := csum n _). set (y := csum n (fun a => csum n (fun b => Cmult (H a b) (A b a)))). set (z := csum n (fun a => csum n (fun b => Cmult (V a b) (A b a)))).
  assert (E : x = Cplus y (Cmult (RtoC c) z)).
  { unfold x, y, z. rewrite <- csum_scal_l, <- csum_plus. apply csum_ext. intros a Ha. rewrite <- csum_scal_l, <- csum_plus. apply csum_ext. intros b Hb. unfold madd, mscal. ring. }
  rewrite E. destruct y as [y1 y2], z as [z1 z2]. cbn. ring.
Qed.
Lemma change_add n H V c A B : change n (madd H (mscal (RtoC c) V)) A B = change n H A B + c * change n V A B.
Proof. rewrite !change_tr, !tr_of_add. ring. Qed.

Definition size (n : nat) (V : mat) : R := rsumn n (fun a => rsumn n (fun b => Cmod (V a b))).
Lemma size_pos n V : 0 <= size n V.
Proof. apply rsumn_nonneg. intros a _. apply rsumn_nonneg. intros b _. apply Cmod_ge_0. Qed.
Lemma size_entry n V a b : (a < n)%nat -> (b < n)%nat -> Cmod (V a b) <= size n V.
Proof.
  intros Ha Hb. unfold size. apply Rle_trans with (rsumn n (fun b => Cmod (V a b))).
  - apply (rsumn_term n (fun b => Cmod (V a b)) b Hb). intros; apply Cmod_ge_0.
  - apply (rsumn_term n (fun a => rsumn n (fun b => Cmod (V a b))) a Ha). intros. apply rsumn_nonneg. intros; apply Cmod_ge_0.
Qed.
Lemma change_bound n V A B : Rabs (change n V A B) <= size n V * distance n A B.
Proof.
  unfold change. eapply Rle_trans; [apply Re_le_Cmod|]. eapply Rle_trans; [apply Cmod_csum|].
  unfold distance. rewrite rsumn_swap, <- rsumn_scal. apply rsumn_le. intros a Ha. eapply Rle_trans; [apply Cmod_csum|].
  rewrite <- rsumn_scal. apply rsumn_le. intros b Hb. rewrite Cmod_mult. apply Rmult_le_compat_r; [apply Cmod_ge_0|apply size_entry; assumption].
Qed.
Lemma total_abs {Y} (f g : Y -> R) w : (forall r y, In r w -> In y r -> Rabs (f y) <= g y) -> Rabs (total f w) <= total g w.
Proof.
  intros H. apply Rabs_le. split.
  - apply Ropp_le_cancel. rewrite Ropp_involutive. replace (- total f w) with (total (fun y => -1 * f y) w) by (rewrite total_scal; ring).
    apply total_le. intros r y Hr Hy. pose proof (H r y Hr Hy) as B. apply Rabs_le_between in B. lra.
  - apply total_le. intros r y Hr Hy. pose proof (H r y Hr Hy) as B. pose proof (Rle_abs (f y)). lra.
Qed.
Lemma fold_term {Y} (f : Y -> R) l y : (forall y, 0 <= f y) -> In y l -> f y <= fold_right Rplus 0 (map f l).
Proof.
  intros P. assert (N : forall l, 0 <= fold_right Rplus 0 (map f l)). { induction l0 as [|x l0 IH]; cbn [map fold_right]; [lra|]. pose proof (P x). lra. }
  induction l as [|x l IH]; intros H; [destruct H|]. cbn [map fold_right]. destruct H as [->|H]; [pose proof (N l); lra|]. pose proof (IH H). pose proof (P x). lra.
Qed.
Lemma total_term {Y} (f : Y -> R) (w : list (list Y)) r y : (forall y, 0 <= f y) -> In r w -> In y r -> f y <= total f w.
Proof.
  intros P Hr Hy. apply Rle_trans with (fold_right Rplus 0 (map f r)); [apply fold_term; assumption|]. unfold total.
  apply (fold_term (fun r => fold_right Rplus 0 (map f r))); [|exact Hr]. intros q. clear -P. induction q as [|x q IH]; cbn [map fold_right]; [lra|]. pose proof (P x). lra.
Qed.
Lemma in_zip2 {Y} (w : list (list Y)) rs r z : In r (zip2 w rs) -> In z r -> exists r0, In r0 w /\ In (fst z) r0.
Proof.
  unfold zip2. intros Hr Hz. apply in_map_iff in Hr. destruct Hr as [[a b] [<- Hi]]. exists a. split; [exact (in_combine_l _ _ _ _ Hi)|].
  destruct z as [y x]. exact (in_combine_l _ _ _ _ Hz).
Qed.
Lemma zip2_self {Y} (f : Y -> mat) (w : list (list Y)) : zip2 w (map (map f) w) = map (map (fun y => (y, f y))) w.
Proof.
  transitivity (zip2 (map (map (fun y => y)) w) (map (map f) w)); [|apply zip2_maps].
  f_equal. transitivity (map (fun r => r) w); [symmetry; apply map_id|]. apply map_ext. intros r. symmetry. apply map_id.
Qed.

Theorem mean_field_hamiltonian sys : hamiltonian_of (mean_field sys) (mean_hamiltonian sys).
Proof.
  set (c := field sys).
  set (M := total (fun y : kpt * (mat * mat) => Rabs (kw (fst y)) * size (kn (fst y)) (snd (snd y))) sys + 1).
  assert (Tn : forall y : kpt * (mat * mat), 0 <= Rabs (kw (fst y)) * size (kn (fst y)) (snd (snd y))) by (intros y; apply Rmult_le_pos; [apply Rabs_pos|apply size_pos]).
  assert (HM : 1 <= M) by (unfold M; pose proof (total_nonneg _ sys Tn); lra).
  intros eps He. exists (eps / (M * M)). assert (0 < M * M) by nra. split; [apply Rdiv_lt_0_compat; lra|]. intros rs Hsh Hfar.
  assert (Hs2 : Forall2 (Forall2 (fun (_ : kpt * (mat * mat)) (_ : mat) => True)) sys rs).
  { clear -Hsh. unfold mean_hamiltonian in Hsh. set (g := fun y : kpt * (mat * mat) => _) in Hsh. clearbody g. revert rs Hsh. induction sys as [|r w IH]; intros rs Hsh; cbn [map] in Hsh; inversion Hsh as [|a b c0 d H1 H2]; [apply Forall2_nil|].
    apply Forall2_cons; [|apply IH; exact H2]. clear -H1. revert b H1. induction r as [|y r IHr]; intros b H1; cbn [map] in H1; inversion H1 as [|a0 b0 c1 d0 H3 H4]; [apply Forall2_nil|].
    apply Forall2_cons; [exact I|apply IHr; exact H4]. }
  assert (Ew : map (map (fun kH => density_of (fst kH))) (mean_hamiltonian sys) = map (map (fun y => density_of (fst y))) sys).
  { unfold mean_hamiltonian. rewrite map_map. apply map_ext. intros r. rewrite map_map. reflexivity. }
  set (Z := zip2 sys rs).
  set (d := fun z : (kpt * (mat * mat)) * mat => distance (kn (fst (fst z))) (snd z) (density_of (fst (fst z)))).
  set (hv := fun z : (kpt * (mat * mat)) * mat => kw (fst (fst z)) * change (kn (fst (fst z))) (snd (snd (fst z))) (snd z) (density_of (fst (fst z)))).
  assert (Ef : far (mean_hamiltonian sys) rs = total d Z).
  { unfold far, mean_hamiltonian. rewrite zip2_map_l, total_map. reflexivity. }
  assert (E1 : mean_field sys rs - mean_field sys (map (map (fun kH => density_of (fst kH))) (mean_hamiltonian sys)) - first_order (mean_hamiltonian sys) rs = (total hv Z) ^ 2 / 2).
  { rewrite Ew. unfold mean_field. rewrite zip2_self, !total_map. cbn [fst snd]. fold Z.
    unfold first_order, mean_hamiltonian. rewrite zip2_map_l, total_map. cbn [fst snd]. fold Z. fold c.
    assert (Eb : total hv Z = total (fun z : (kpt * (mat * mat)) * mat => kw (fst (fst z)) * tr_of (kn (fst (fst z))) (snd (snd (fst z))) (snd z)) Z - c).
    { unfold c, field. rewrite <- (zip2_fst (fun y : kpt * (mat * mat) => kw (fst y) * tr_of (kn (fst y)) (snd (snd y)) (density_of (fst y))) sys rs _ Hs2). fold Z.
      rewrite (total_ext hv (fun z => kw (fst (fst z)) * tr_of (kn (fst (fst z))) (snd (snd (fst z))) (snd z) + -1 * (kw (fst (fst z)) * tr_of (kn (fst (fst z))) (snd (snd (fst z))) (density_of (fst (fst z)))))).
      - rewrite total_plus, total_scal. ring.
      - intros r z _ _. unfold hv. rewrite change_tr. ring. }
    rewrite (total_ext (fun x : (kpt * (mat * mat)) * mat => kw (fst (fst x)) * change (kn (fst (fst x))) (madd (fst (snd (fst x))) (mscal (RtoC c) (snd (snd (fst x))))) (snd x) (density_of (fst (fst x))))
      (fun z => (kw (fst (fst z)) * tr_of (kn (fst (fst z))) (fst (snd (fst z))) (snd z) + -1 * (kw (fst (fst z)) * tr_of (kn (fst (fst z))) (fst (snd (fst z))) (density_of (fst (fst z))))) + c * hv z)).
    2:{ intros r z _ _. unfold hv. rewrite change_add, change_tr. ring. }
    rewrite !total_plus, !total_scal.
    pose proof (zip2_fst (fun y : kpt * (mat * mat) => kw (fst y) * tr_of (kn (fst y)) (fst (snd y)) (density_of (fst y))) sys rs _ Hs2) as Q. fold Z in Q. rewrite Q.
    fold (field sys). fold c. rewrite Eb. field. }
  rewrite E1, Ef. rewrite Ef in Hfar.
  assert (Bb : Rabs (total hv Z) <= M * total d Z).
  { rewrite <- total_scal. apply total_abs. intros r z Hr Hz. destruct (in_zip2 _ _ _ _ Hr Hz) as [r0 [Hr0 Hz0]].
    unfold hv, d. rewrite Rabs_mult. pose proof (change_bound (kn (fst (fst z))) (snd (snd (fst z))) (snd z) (density_of (fst (fst z)))) as CB.
    pose proof (total_term _ sys r0 (fst z) Tn Hr0 Hz0) as TT. cbv beta in TT.
    eapply Rle_trans; [apply Rmult_le_compat_l; [apply Rabs_pos|exact CB]|]. rewrite <- Rmult_assoc. apply Rmult_le_compat_r; [apply distance_pos|]. unfold M. lra. }
  assert (D0 : 0 <= total d Z) by (apply total_nonneg; intros z; apply distance_pos).
  rewrite Rabs_pos_eq by (pose proof (pow2_ge_0 (total hv Z)); lra).
  rewrite <- pow2_abs. pose proof (Rabs_pos (total hv Z)).
  apply Rmult_lt_compat_r with (r := M * M) in Hfar; [|assumption]. unfold Rdiv in Hfar at 1. rewrite Rmult_assoc, Rinv_l, Rmult_1_r in Hfar by lra.
  assert (Rabs (total hv Z) ^ 2 <= (M * total d Z) ^ 2) by (apply pow_incr; lra).
  assert (M * M * (total d Z * total d Z) <= eps * total d Z) by nra. nra.
Qed.
