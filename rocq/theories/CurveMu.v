(** The chemical potential along a trial curve: near t = 0 there is one that keeps the electron count, it is continuous
    at 0.  Shows that the hypotheses of the theorems of CurveMain.v can be met from every point with a non-zero
    density of states.  Mathematics only. *)
From Coq Require Import Reals Lra Psatz Arith Lia List Bool ClassicalEpsilon Wf_nat.
From Coquelicot Require Import Coquelicot.
From Verif Require Import Arith Erf LinAlg Containers Newton Occupation Smearing SmearingProofs SmearingUse SmearingFacts Descent DescentProofs DescentFacts GradEtaFacts Geodesic GeodesicProofs MatFun Curve CurveProofs CurveMain.
Import ListNotations.
Local Open Scope R_scope.

Section Implicit.
  Context (N : R -> R -> R) (x0 l h0 : R).
  Hypothesis Hh0 : 0 < h0.
  Hypothesis Hl : l <> 0.
  Hypothesis Hder : is_derive (fun x => N x 0) x0 l.
  Hypothesis Ht : forall x, Rabs (x - x0) <= h0 -> continuous (fun t => N x t) 0.
  Hypothesis Hx : locally 0 (fun t => forall x, Rabs (x - x0) < h0 -> continuous (fun y => N y t) x).

  Lemma derive_sides (f : R -> R) (k : R) : is_derive f x0 k -> 0 < k -> exists d, 0 < d /\ forall h, 0 < h < d -> f (x0 - h) < f x0 < f (x0 + h).
  Proof.
    intros D K. apply is_derive_Reals in D. destruct (D (k / 2) ltac:(lra)) as [d Hd]. exists d. split; [apply cond_pos|]. intros h Hh.
    assert (A1 := Hd h ltac:(lra)). assert (A2 := Hd (- h) ltac:(lra)). rewrite Rabs_pos_eq in A1 by lra. rewrite Rabs_Ropp, Rabs_pos_eq in A2 by lra.
    specialize (A1 ltac:(lra)). specialize (A2 ltac:(lra)). apply Rabs_def2 in A1. apply Rabs_def2 in A2. split.
    - replace (x0 - h) with (x0 + - h) by ring. assert (X : 0 < (f (x0 + - h) - f x0) / - h) by lra.
      assert (Y : (f (x0 + - h) - f x0) / - h * h = - (f (x0 + - h) - f x0)) by (field; lra). assert (0 < (f (x0 + - h) - f x0) / - h * h) by (apply Rmult_lt_0_compat; lra). lra.
    - assert (X : 0 < (f (x0 + h) - f x0) / h) by lra.
      assert (Y : (f (x0 + h) - f x0) / h * h = (f (x0 + h) - f x0)) by (field; lra). assert (0 < (f (x0 + h) - f x0) / h * h) by (apply Rmult_lt_0_compat; lra). lra.
  Qed.

  Lemma near_sol_pos (M : R -> R -> R) k : 0 < k -> is_derive (fun x => M x 0) x0 k ->
    (forall x, Rabs (x - x0) <= h0 -> continuous (fun t => M x t) 0) ->
    locally 0 (fun t => forall x, Rabs (x - x0) < h0 -> continuous (fun y => M y t) x) ->
    forall h, 0 < h -> locally 0 (fun t => exists x, Rabs (x - x0) <= h /\ M x t = M x0 0).
  Proof.
    intros K D C1 C2 h H. destruct (derive_sides (fun x => M x 0) k D K) as [d [Hd S]].
    set (g := Rmin h (Rmin (h0 / 2) (d / 2))).
    assert (G : 0 < g /\ g <= h /\ g < h0 /\ g < d).
    { unfold g. pose proof (Rmin_l h (Rmin (h0 / 2) (d / 2))). pose proof (Rmin_r h (Rmin (h0 / 2) (d / 2))). pose proof (Rmin_l (h0 / 2) (d / 2)). pose proof (Rmin_r (h0 / 2) (d / 2)).
      repeat split; try lra. repeat apply Rmin_glb_lt; lra. }
    destruct (S g ltac:(lra)) as [S1 S2]. set (c := M x0 0) in *.
    assert (L1 : locally 0 (fun t => M (x0 - g) t < c)).
    { assert (B : Rabs (x0 - g - x0) <= h0) by (replace (x0 - g - x0) with (- g) by ring; rewrite Rabs_Ropp, Rabs_pos_eq; lra).
      exact (C1 (x0 - g) B (fun y => y < c) (open_lt c _ S1)). }
    assert (L2 : locally 0 (fun t => c < M (x0 + g) t)).
    { assert (B : Rabs (x0 + g - x0) <= h0) by (replace (x0 + g - x0) with g by ring; rewrite Rabs_pos_eq; lra).
      exact (C1 (x0 + g) B (fun y => c < y) (open_gt c _ S2)). }
    generalize (filter_and _ _ C2 (filter_and _ _ L1 L2)). apply filter_imp. intros t [C [T1 T2]].
    assert (CP : forall x, Rabs (x - x0) < h0 -> continuity_pt (fun y => M y t) x). { intros x X. apply continuity_pt_filterlim. apply (C x X). }
    destruct (IVT_Rbar_incr (fun y => M y t) (Finite (x0 - g)) (Finite (x0 + g)) (Finite (M (x0 - g) t)) (Finite (M (x0 + g) t)) c) as [x [B1 [B2 E]]].
    - apply (is_lim_continuity (fun y => M y t) (x0 - g)). apply CP. replace (x0 - g - x0) with (- g) by ring. rewrite Rabs_Ropp, Rabs_pos_eq; lra.
    - apply (is_lim_continuity (fun y => M y t) (x0 + g)). apply CP. replace (x0 + g - x0) with g by ring. rewrite Rabs_pos_eq; lra.
    - intros x X1 X2. cbn in X1, X2. apply CP. apply Rabs_def1; lra.
    - cbn. lra.
    - split; cbn; assumption.
    - cbn in B1, B2. exists x. split; [apply Rabs_le; lra|exact E].
  Qed.
  Lemma near_sol h : 0 < h -> locally 0 (fun t => exists x, Rabs (x - x0) <= h /\ N x t = N x0 0).
  Proof.
    intros H. destruct (Rtotal_order l 0) as [L|[L|L]]; [|contradiction|].
    - assert (P : locally 0 (fun t => exists x, Rabs (x - x0) <= h /\ - N x t = - N x0 0)).
      { apply (near_sol_pos (fun x t => - N x t) (- l)); [lra| | | |exact H].
        - apply (is_derive_opp (fun x => N x 0)). exact Hder.
        - intros x X. apply (continuous_opp (fun t => N x t)). apply Ht, X.
        - generalize Hx. apply filter_imp. intros t C x X. apply (continuous_opp (fun y => N y t)). apply C, X. }
      generalize P. apply filter_imp. intros t [x [X E]]. exists x. split; [exact X|lra].
    - apply (near_sol_pos N l); assumption.
  Qed.

  (** a solution at t that is as close to x0 as possible, up to |t| *)
  Definition closest (t x : R) : Prop :=
    (t = 0 -> x = x0) /\ (t <> 0 -> (exists y, N y t = N x0 0) -> N x t = N x0 0 /\ forall y, N y t = N x0 0 -> Rabs (x - x0) <= Rabs (y - x0) + Rabs t).
  Lemma closest_exists t : exists x, closest t x.
  Proof.
    destruct (Req_dec t 0) as [E|NE]; [exists x0; split; [reflexivity|intros X; contradiction]|].
    destruct (excluded_middle_informative (exists y, N y t = N x0 0)) as [[y0 Y0]|NO].
    2:{ exists x0. split; [intros X; contradiction|]. intros _ X. contradiction. }
    pose proof (Rabs_pos_lt t NE) as Pt.
    set (P := fun k => exists y, N y t = N x0 0 /\ Rabs (y - x0) <= INR k * Rabs t).
    assert (ex : exists k, P k).
    { destruct (nfloor_ex (Rabs (y0 - x0) / Rabs t)) as [k Hk]. { apply Rmult_le_pos; [apply Rabs_pos|]. apply Rlt_le, Rinv_0_lt_compat, Pt. }
      exists (S k). exists y0. split; [exact Y0|]. rewrite S_INR. apply (Rmult_le_reg_r (/ Rabs t)); [apply Rinv_0_lt_compat, Pt|]. rewrite Rmult_assoc, Rinv_r by lra. unfold Rdiv in Hk. lra. }
    destruct (dec_inh_nat_subset_has_unique_least_element P) as [k [[Pk Lk] _]]; [intros; destruct (excluded_middle_informative (P n)); auto|exact ex|].
    destruct Pk as [y [Y1 Y2]]. exists y. split; [intros X; contradiction|]. intros _ _. split; [exact Y1|]. intros z Z.
    destruct k as [|k]; [cbn [INR] in Y2; pose proof (Rabs_pos (z - x0)); lra|].
    rewrite S_INR in Y2. destruct (Rle_lt_dec (Rabs (z - x0)) (INR k * Rabs t)) as [W|W]; [|lra].
    exfalso. assert (Pk : P k) by (exists z; auto). specialize (Lk k Pk). lia.
  Qed.
  Definition sol (t : R) : R := epsilon (inhabits x0) (closest t).
  Lemma sol_closest t : closest t (sol t).
  Proof. exact (epsilon_spec (inhabits x0) (closest t) (closest_exists t)). Qed.
  Theorem implicit : exists mu : R -> R, mu 0 = x0 /\ continuous mu 0 /\ locally 0 (fun t => N (mu t) t = N x0 0).
  Proof.
    exists sol. assert (S0 : sol 0 = x0) by (apply (proj1 (sol_closest 0)); reflexivity). split; [exact S0|]. split.
    - intros P [e HP]. rewrite S0 in HP. pose proof (near_sol (e / 2) ltac:(destruct e; cbn; lra)) as L.
      assert (L2 : locally 0 (fun t => Rabs t < e / 2)). { exists (mkposreal (e / 2) ltac:(destruct e; cbn; lra)). intros t B. change (Rabs (t + - 0) < e / 2) in B. rewrite Ropp_0, Rplus_0_r in B. exact B. }
      change (locally 0 (fun t => P (sol t))). generalize (filter_and _ _ L L2). apply filter_imp. intros t [[x [X E]] T2]. apply HP. change (Rabs (sol t - x0) < e).
      destruct (Req_dec t 0) as [->|NE]. { rewrite S0, Rminus_eq_0, Rabs_R0. apply cond_pos. }
      destruct (sol_closest t) as [_ C]. destruct (C NE (ex_intro _ x E)) as [_ M]. specialize (M x E). lra.
    - generalize (near_sol 1 ltac:(lra)). apply filter_imp. intros t [x [_ E]]. destruct (Req_dec t 0) as [->|NE]; [rewrite S0; reflexivity|].
      destruct (sol_closest t) as [_ C]. destruct (C NE (ex_intro _ x E)) as [A _]. exact A.
  Qed.
End Implicit.

(** the same k-point with the occupations of another chemical potential *)
Definition refit (s : smearing_type) (T mo x : R) (p : moving) : moving :=
  let k := mk p in
  MkMoving (MkKpt (kn k) (km k) (kw k) (kS k) (kP k) (kX k) (kHX k) (ke k) (fun i => sfn (smearing_class s) ((x - ke k i) / (kb Rarith * T)) mo) (kh k)) (mH p) (mzx p) (mze p).

Lemma inside_open s x : inside s x -> exists h, 0 < h /\ forall y, Rabs (y - x) <= h -> inside s y.
Proof.
  assert (G : forall c, Rabs x < c -> exists h, 0 < h /\ forall y, Rabs (y - x) <= h -> Rabs y < c).
  { intros c H. exists ((c - Rabs x) / 2). split; [lra|]. intros y Y. replace y with (x + (y - x)) by ring. eapply Rle_lt_trans; [apply Rabs_triang|]. lra. }
  destruct s; cbn [inside]; intros H; try (apply G; exact H); exists 1; split; try lra; auto.
Qed.
Lemma margin_lt (P : nat -> R -> Prop) n : (forall i a b, P i a -> 0 < b <= a -> P i b) -> (forall i, (i < n)%nat -> exists h, 0 < h /\ P i h) -> exists h, 0 < h /\ forall i, (i < n)%nat -> P i h.
Proof.
  intros Mono. induction n as [|n IH]; intros H; [exists 1; split; [lra|intros; lia]|].
  destruct IH as [h1 [A1 B1]]; [intros; apply H; lia|]. destruct (H n (Nat.lt_succ_diag_r n)) as [h2 [A2 B2]].
  exists (Rmin h1 h2). split; [apply Rmin_glb_lt; assumption|]. intros i Hi. destruct (Nat.eq_dec i n) as [->|Ni].
  - apply (Mono n h2); [exact B2|]. split; [apply Rmin_glb_lt; assumption|apply Rmin_r].
  - apply (Mono i h1); [apply B1; lia|]. split; [apply Rmin_glb_lt; assumption|apply Rmin_l].
Qed.
Lemma margin_list {Y} (P : Y -> R -> Prop) (l : list Y) : (forall y a b, P y a -> 0 < b <= a -> P y b) -> (forall y, In y l -> exists h, 0 < h /\ P y h) -> exists h, 0 < h /\ forall y, In y l -> P y h.
Proof.
  intros Mono. induction l as [|y0 l IH]; intros H; [exists 1; split; [lra|intros y []]|].
  destruct IH as [h1 [A1 B1]]; [intros; apply H; right; assumption|]. destruct (H y0 (or_introl eq_refl)) as [h2 [A2 B2]].
  exists (Rmin h1 h2). split; [apply Rmin_glb_lt; assumption|]. intros y [<-|Hy].
  - apply (Mono y0 h2); [exact B2|]. split; [apply Rmin_glb_lt; assumption|apply Rmin_r].
  - apply (Mono y h1); [apply B1; exact Hy|]. split; [apply Rmin_glb_lt; assumption|apply Rmin_l].
Qed.
Lemma forall_list_locally {Y} (P : Y -> R -> Prop) (l : list Y) : (forall y, In y l -> locally 0 (P y)) -> locally 0 (fun t => forall y, In y l -> P y t).
Proof.
  induction l as [|y0 l IH]; intros H; [apply filter_forall; intros t y []|].
  generalize (filter_and _ _ (H y0 (or_introl eq_refl)) (IH (fun y Hy => H y (or_intror Hy)))). apply filter_imp.
  intros t [A B] y [<-|Hy]; [exact A|apply B, Hy].
Qed.

Section Mu.
  Context (eigh : nat -> mat -> option (mat * (nat -> R))) (s : smearing_type) (T mo mu0 : R) (world : list (list moving)).
  Hypothesis He : eigh_ok eigh.
  Hypothesis HT : 0 < T.
  Hypothesis Hs : s <> COLD.
  Hypothesis Hw : forall r p, In r world -> In p r -> moving_ok eigh s T mo mu0 p.
  Hypothesis Hdmu : dmu_deta s T mo (map (map mk) world) mu0 <> 0.
  Let kT := kb Rarith * T.
  Let fn (x : R) : R := sfn (smearing_class s) x mo.

  Lemma kT0 : 0 < kT.
  Proof. apply kT_pos', HT. Qed.

  (** levels move by less than h without leaving the smooth part of the occupation function *)
  Definition roomy (p : moving) (h : R) : Prop := forall i, (i < km (mk p))%nat -> forall y, Rabs (y - (mu0 - ke (mk p) i)) <= h -> inside s (y / kT).
  Lemma margin : exists h, 0 < h /\ forall r p, In r world -> In p r -> roomy p h.
  Proof.
    assert (M : forall p a b, roomy p a -> 0 < b <= a -> roomy p b). { intros p a b A B i Hi y Y. apply (A i Hi). lra. }
    destruct (margin_list (fun r h => forall p, In p r -> roomy p h) world) as [h [Hh H]].
    - intros r a b A B p Hp. apply (M p a b); [apply A, Hp|exact B].
    - intros r Hr. apply margin_list; [exact M|]. intros p Hp.
      apply (margin_lt (fun i h => forall y, Rabs (y - (mu0 - ke (mk p) i)) <= h -> inside s (y / kT))).
      + intros i a b A B y Y. apply A. lra.
      + intros i Hi. destruct (inside_open s _ (mv_in _ _ _ _ _ _ (Hw r p Hr Hp) i Hi)) as [h [Hh H]]. fold kT in H. pose proof kT0 as K.
        exists (h * kT). split; [apply Rmult_lt_0_compat; assumption|]. intros y Y. apply H.
        replace (y / kT - (mu0 - ke (mk p) i) / kT) with ((y - (mu0 - ke (mk p) i)) * / kT) by (field; lra). rewrite Rabs_mult, (Rabs_pos_eq (/ kT)) by (apply Rlt_le, Rinv_0_lt_compat; lra).
        apply (Rmult_le_reg_r kT); [lra|]. rewrite Rmult_assoc, Rinv_l by lra. lra.
    - exists h. split; [exact Hh|]. intros r p Hr Hp. exact (H r Hr p Hp).
  Qed.

  Lemma refit_ok r p x h : In r world -> In p r -> roomy p h -> Rabs (x - mu0) <= h -> moving_ok eigh s T mo x (refit s T mo x p).
  Proof.
    intros Hr Hp Ro X. destruct (Hw r p Hr Hp) as [a1 a2 a3 a4 a5 a6 a7 a8 a9 a10].
    constructor; try assumption.
    - intros i Hi. reflexivity.
    - intros i Hi. cbn [refit mk ke km]. fold kT. apply (Ro i Hi). replace (x - ke (mk p) i - (mu0 - ke (mk p) i)) with (x - mu0) by ring. exact X.
  Qed.

  (** count of one k-point at fixed x: continuous in t; value at t = 0 *)
  Lemma one_count r p x h : In r world -> In p r -> roomy p h -> Rabs (x - mu0) <= h ->
    continuous (fun t => bands_sum eigh T (fun y _ => fn y) x t p) 0 /\
    bands_sum eigh T (fun y _ => fn y) x 0 p = kw (mk p) * rsumn (km (mk p)) (fun i => fn ((x - ke (mk p) i) / kT)).
  Proof.
    intros Hr Hp Ro X. pose proof (refit_ok r p x h Hr Hp Ro X) as Hq. set (q := refit s T mo x p) in *.
    assert (E : locally 0 (fun t => bands_sum eigh T (fun y _ => fn y) x t p = kw (mk p) * fsum eigh T q (fun _ => x) fn t)).
    { generalize (trial_eq eigh s T mo q x He Hq). apply filter_imp. intros t (_ & _ & _ & _ & E). change (trial eigh q t) with (trial eigh p t) in E. unfold bands_sum. rewrite E. reflexivity. }
    pose proof (lf_derive eigh s T mo q x HT Hs Hq) as D.
    split.
    - apply (continuous_ext_loc _ (fun t => kw (mk p) * fsum eigh T q (fun _ => x) fn t)).
      + generalize E. apply filter_imp. intros t Et. symmetry. exact Et.
      + apply (continuous_scal_r (kw (mk p)) (fsum eigh T q (fun _ => x) fn)). apply ex_derive_continuous.
        eexists. exact (fsum_der eigh s T mo q x He Hq (fun _ => x) eq_refl fn _ D 0 (is_derive_const x 0)).
    - rewrite (near_0 _ E). f_equal. pose proof (near_0 _ (fsum_incr eigh s T mo q x He Hq (fun _ => x) fn (lf s T mo q x))) as I. etransitivity; [exact I|]. cbv beta.
      match goal with |- ?A + 0 * ?B - (?y - ?y) * ?C = _ => transitivity A; [ring|reflexivity] end.
  Qed.

  Lemma count_x x h : (forall r p, In r world -> In p r -> roomy p h) -> Rabs (x - mu0) <= h ->
    count_at eigh s T mo world x 0 = total (fun p => kw (mk p) * rsumn (km (mk p)) (fun i => fn ((x - ke (mk p) i) / kT))) world.
  Proof. intros Ro X. unfold count_at. apply total_ext. intros r p Hr Hp. exact (proj2 (one_count r p x h Hr Hp (Ro r p Hr Hp) X)). Qed.

  Theorem mu_exists : exists mu : R -> R, mu 0 = mu0 /\ continuous mu 0 /\
    locally 0 (fun t => count_at eigh s T mo world (mu t) t = count_at eigh s T mo world mu0 0).
  Proof.
    destruct margin as [h [Hh Ro]]. pose proof kT0 as K.
    apply (implicit (fun x t => count_at eigh s T mo world x t) mu0 (dmu_deta s T mo (map (map mk) world) mu0 / kT) (h / 2)).
    - lra.
    - intros E. apply Hdmu. replace (dmu_deta s T mo (map (map mk) world) mu0) with (dmu_deta s T mo (map (map mk) world) mu0 / kT * kT) by (field; lra). rewrite E. ring.
    - (* derivative *)
      apply (is_derive_ext_loc (fun x => total (fun p => kw (mk p) * rsumn (km (mk p)) (fun i => fn ((x - ke (mk p) i) / kT))) world)).
      { exists (mkposreal h Hh). intros x X. change (Rabs (x - mu0) < h) in X. symmetry. apply (count_x x h Ro). lra. }
      assert (E : dmu_deta s T mo (map (map mk) world) mu0 / kT = total (fun p => kw (mk p) * rsumn (km (mk p)) (fun i => - lf s T mo p mu0 i)) world).
      { pose proof (dmu_sum s T mo (fun _ => mu0) world) as D. cbv beta in D. rewrite D. unfold Rdiv. rewrite Rmult_comm, <- total_scal. apply total_ext. intros r p _ _.
        rewrite <- !rsumn_scal. apply rsumn_ext. intros i _. unfold lf. fold kT. field. lra. }
      rewrite E. apply (derive_total world (fun p x => kw (mk p) * rsumn (km (mk p)) (fun i => fn ((x - ke (mk p) i) / kT)))).
      intros r p Hr Hp. apply (is_derive_scal (fun x => rsumn (km (mk p)) (fun i => fn ((x - ke (mk p) i) / kT)))).
      apply (derive_rsumn (km (mk p)) (fun i x => fn ((x - ke (mk p) i) / kT))). intros i Hi.
      pose proof (lf_derive eigh s T mo p mu0 HT Hs (Hw r p Hr Hp) i Hi) as D. fold kT in D.
      apply (is_derive_ext (fun x => fn ((mu0 - (ke (mk p) i + mu0 - x)) / kT))). { intros x. f_equal. f_equal. ring. }
      replace (- lf s T mo p mu0 i) with (scal (-1) (lf s T mo p mu0 i)) by (unfold scal; cbn; unfold mult; cbn; ring).
      apply (is_derive_comp (fun y => fn ((mu0 - y) / kT)) (fun x => ke (mk p) i + mu0 - x)).
      + replace (ke (mk p) i + mu0 - mu0) with (ke (mk p) i) by ring. exact D.
      + auto_derive; [trivial|ring].
    - intros x X. unfold count_at. apply (continuous_total world (fun p t => bands_sum eigh T (fun y _ => fn y) x t p)). intros r p Hr Hp.
      exact (proj1 (one_count r p x h Hr Hp (Ro r p Hr Hp) ltac:(lra))).
    - (* continuity in x at fixed small t *)
      assert (L : locally 0 (fun t => forall r, In r world -> forall p, In p r -> exists ek U X', trial eigh p t = Some (ek, U, X') /\ forall i, (i < km (mk p))%nat -> exists q, (q < km (mk p))%nat /\ Rabs (ek i - ke (mk p) q) <= h / 2)).
      { apply (forall_list_locally (fun r t => forall p, In p r -> exists ek U X', trial eigh p t = Some (ek, U, X') /\ forall i, (i < km (mk p))%nat -> exists q, (q < km (mk p))%nat /\ Rabs (ek i - ke (mk p) q) <= h / 2)).
        intros r Hr. apply (forall_list_locally (fun p t => exists ek U X', trial eigh p t = Some (ek, U, X') /\ forall i, (i < km (mk p))%nat -> exists q, (q < km (mk p))%nat /\ Rabs (ek i - ke (mk p) q) <= h / 2)).
        intros p Hp. set (m := km (mk p)). pose proof (trial_eq eigh s T mo p mu0 He (Hw r p Hr Hp)) as TE. fold m in TE.
        set (eta := fun t => advance_eta t (make_diag (ke (mk p))) (mze p)).
        assert (HB : forall i j, (i < m)%nat -> (j < m)%nat -> clim (fun t => eta t i j) (mdiag (ke (mk p)) i j)).
        { intros i j Hi Hj. pose proof (cder_lin (mdiag (ke (mk p)) i j) (mze p i j)) as Q. apply cder_clim in Q.
          eapply clim_val; [eapply clim_ext; [|exact Q]|].
          - apply filter_forall. intros t. unfold eta, advance_eta, add. cbv beta. try (unfold make_diag, mdiag; destruct (Nat.eqb i j)); ring.
          - cbv beta. ring. }
        set (eps := h / 2 / (INR m * INR m + 1)). assert (Pm : 0 <= INR m * INR m) by (pose proof (pos_INR m); nra).
        assert (Heps : 0 < eps) by (unfold eps; apply Rdiv_lt_0_compat; lra).
        assert (Hsm : INR m * INR m * eps <= h / 2). { assert (Q : (INR m * INR m + 1) * eps = h / 2) by (unfold eps; field; lra). nra. }
        generalize (filter_and _ _ TE (entries_small m eta (ke (mk p)) HB eps Heps)). apply filter_imp.
        intros t [(U1 & E1 & _ & _ & Et) Sm]. do 3 eexists. split; [exact Et|]. intros i Hi.
        destruct (pert_close m (eU eigh p t) (eta t) (ee eigh p t) (ke (mk p)) U1 (eta_hermitian eigh s T mo p mu0 (Hw r p Hr Hp) t) E1 eps Sm i Hi) as [q [Hq B]].
        exists q. split; [exact Hq|lra]. }
      generalize L. apply filter_imp. intros t Ht x X. unfold count_at.
      apply (continuous_total world (fun p y => bands_sum eigh T (fun z _ => fn z) y t p)). intros r p Hr Hp.
      destruct (Ht r Hr p Hp) as [ek [U [X' [E B]]]]. unfold bands_sum. rewrite E.
      apply (continuous_scal_r (kw (mk p)) (fun y => rsumn (km (mk p)) (fun i => fn ((y - ek i) / (kb Rarith * T))))).
      apply continuous_rsumn. intros i Hi. destruct (B i Hi) as [q [Hq Bq]].
      apply (continuous_comp (fun y => (y - ek i) / (kb Rarith * T)) fn).
      + apply (ex_derive_continuous (fun y => (y - ek i) / (kb Rarith * T))). auto_derive. fold kT. lra.
      + apply (ex_derive_continuous fn). exists (sdelta (smearing_class s) ((x - ek i) / (kb Rarith * T)) mo). apply (delta_derive s). fold kT. apply (Ro r p Hr Hp q Hq).
        replace (x - ek i - (mu0 - ke (mk p) q)) with ((x - mu0) - (ek i - ke (mk p) q)) by ring. eapply Rle_trans; [apply Rabs_triang|]. rewrite Rabs_Ropp. lra.
  Qed.
End Mu.
