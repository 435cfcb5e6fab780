(** The diagonal of the eta gradient is a derivative; degenerate bands. *)
From Coq Require Import Reals Lra Psatz Arith Lia List Bool.
From Coquelicot Require Import Coquelicot.
From Verif Require Import Arith Erf LinAlg Containers Newton Occupation Smearing SmearingProofs SmearingProofs2 SmearingUse SmearingFacts Descent DescentProofs DescentFacts.
Import ListNotations.
Local Open Scope R_scope.

Lemma derive_rsumn n (f : nat -> R -> R) (d : nat -> R) x :
  (forall i, (i < n)%nat -> is_derive (f i) x (d i)) -> is_derive (fun t => rsumn n (fun i => f i t)) x (rsumn n d).
Proof.
  induction n as [|n IH]; cbn; intros H; [apply (is_derive_const 0)|].
  apply (is_derive_plus (fun t => rsumn n (fun i => f i t)) (f n) x (rsumn n d) (d n)); [apply IH; intros; apply H; lia|apply H; lia].
Qed.
Lemma derive_fold {Y} (l : list Y) (f : Y -> R -> R) (d : Y -> R) x :
  (forall y, In y l -> is_derive (f y) x (d y)) -> is_derive (fun t => fold_right Rplus 0 (map (fun y => f y t) l)) x (fold_right Rplus 0 (map d l)).
Proof.
  induction l as [|a l IH]; cbn; intros H; [apply (is_derive_const 0)|].
  apply (is_derive_plus (f a) (fun t => fold_right Rplus 0 (map (fun y => f y t) l)) x (d a)); [apply H; left; reflexivity|].
  apply IH. intros; apply H; right; assumption.
Qed.
Lemma derive_total {Y} (w : list (list Y)) (f : Y -> R -> R) (d : Y -> R) x :
  (forall r y, In r w -> In y r -> is_derive (f y) x (d y)) -> is_derive (fun t => total (fun y => f y t) w) x (total d w).
Proof.
  intros H. unfold total.
  apply (derive_fold w (fun r t => fold_right Rplus 0 (map (fun y => f y t) r)) (fun r => fold_right Rplus 0 (map d r))).
  intros r Hr. apply derive_fold. intros y Hy. exact (H r y Hr Hy).
Qed.

Lemma derive_val (f : R -> R) (x l l' : R) : is_derive f x l -> l = l' -> is_derive f x l'.
Proof. intros H <-. exact H. Qed.

(** *** Difference quotients *)
Definition quot (f : R -> R) (x l y : R) : R := if Req_EM_T y x then l else (f y - f x) / (y - x).
Lemma quot_id f x l y : f y - f x = quot f x l y * (y - x).
Proof. unfold quot. destruct (Req_EM_T y x) as [->|H]; [ring|]. field. lra. Qed.
Lemma quot_at f x l : quot f x l x = l.
Proof. unfold quot. destruct (Req_EM_T x x); [reflexivity|congruence]. Qed.
Lemma quot_continuous f x l : is_derive f x l -> continuous (quot f x l) x.
Proof.
  intros D. apply is_derive_Reals in D. apply continuity_pt_filterlim. intros eps He.
  destruct (D eps He) as (d & Hd). exists d. split; [apply cond_pos|]. intros y ((_ & Hn) & Hy). cbn in *. unfold R_dist in *.
  rewrite quot_at. unfold quot. destruct (Req_EM_T y x) as [E|E]; [congruence|].
  specialize (Hd (y - x) ltac:(lra) Hy). replace (x + (y - x)) with y in Hd by ring. exact Hd.
Qed.
Lemma derive_of_quot f x (q : R -> R) : continuous q x -> locally x (fun y => f y - f x = q y * (y - x)) -> is_derive f x (q x).
Proof.
  intros Hc Hl. apply is_derive_Reals. intros eps He. apply continuity_pt_filterlim in Hc.
  destruct (Hc eps He) as (d1 & Hd1 & H1). destruct Hl as (d2 & H2).
  assert (Hd : 0 < Rmin d1 d2) by (apply Rmin_pos; [exact Hd1|apply cond_pos]).
  exists (mkposreal _ Hd). intros h Hh Hlt. cbn in Hlt.
  specialize (H2 (x + h)). rewrite H2.
  - replace (q (x + h) * (x + h - x) / h) with (q (x + h)) by (field; exact Hh).
    apply H1. split; [split; [exact I|lra]|]. cbn. unfold R_dist. replace (x + h - x) with h by ring.
    apply Rlt_le_trans with (1 := Hlt). apply Rmin_l.
  - change (Rabs (x + h - x) < d2). replace (x + h - x) with h by ring. apply Rlt_le_trans with (1 := Hlt). apply Rmin_r.
Qed.
Lemma continuous_rsumn n (f : nat -> R -> R) x : (forall i, (i < n)%nat -> continuous (f i) x) -> continuous (fun t => rsumn n (fun i => f i t)) x.
Proof.
  induction n as [|n IH]; cbn; intros H; [apply continuous_const|].
  apply (continuous_plus (fun t => rsumn n (fun i => f i t)) (f n)); [apply IH; intros; apply H; lia|apply H; lia].
Qed.
Lemma continuous_fold {Y} (l : list Y) (f : Y -> R -> R) x : (forall y, In y l -> continuous (f y) x) -> continuous (fun t => fold_right Rplus 0 (map (fun y => f y t) l)) x.
Proof.
  induction l as [|a l IH]; cbn; intros H; [apply continuous_const|].
  apply (continuous_plus (f a) (fun t => fold_right Rplus 0 (map (fun y => f y t) l))); [apply H; left; reflexivity|].
  apply IH. intros; apply H; right; assumption.
Qed.
Lemma continuous_total {Y} (w : list (list Y)) (f : Y -> R -> R) x : (forall r y, In r w -> In y r -> continuous (f y) x) -> continuous (fun t => total (fun y => f y t) w) x.
Proof.
  intros H. unfold total. apply (continuous_fold w (fun r t => fold_right Rplus 0 (map (fun y => f y t) r))).
  intros r Hr. apply continuous_fold. intros y Hy. exact (H r y Hr Hy).
Qed.

(** A k-point, the paths of its pseudo-eigenvalues, their derivatives at 0. *)
Definition kpath : Type := kpt * (nat -> R -> R) * (nat -> R).

Section Diag.
  Context (s : smearing_type) (T mo : R) (mu : R -> R) (world : list (list kpath)).
  Let kT := kb Rarith * T.
  (** the argument of the smearing function for band i at t *)
  Definition arg (p : kpath) (i : nat) (t : R) : R := (mu t - snd (fst p) i t) / kT.
  (** band energy with the matrix elements of H held fixed *)
  Definition band_energy (t : R) : R :=
    total (fun p : kpath => kw (fst (fst p)) * rsumn (km (fst (fst p))) (fun i => sfn (smearing_class s) (arg p i t) mo * kh (fst (fst p)) i)) world.
  (** sum of w s(x); the code's entropy term of the free energy is kT * (-1 * this) *)
  Definition smear_entropy (t : R) : R :=
    total (fun p : kpath => kw (fst (fst p)) * rsumn (km (fst (fst p))) (fun i => sentropy (smearing_class s) (arg p i t) mo)) world.
  Definition electrons (t : R) : R :=
    total (fun p : kpath => kw (fst (fst p)) * rsumn (km (fst (fst p))) (fun i => sfn (smearing_class s) (arg p i t) mo)) world.
  Definition free_energy (t : R) : R := band_energy t + kT * (-1 * smear_entropy t).

  Hypothesis HT : 0 < T.
  Hypothesis Hs : s <> COLD.
  Hypothesis Hm : s <> GAUSSIAN_SPLINE \/ mo = 1.
  Hypothesis Hpath : forall r p i, In r world -> In p r -> (i < km (fst (fst p)))%nat ->
    snd (fst p) i 0 = ke (fst (fst p)) i /\ is_derive (snd (fst p) i) 0 (snd p i) /\ inside s (arg p i 0).
  Hypothesis Hcount : locally 0 (fun t => electrons t = electrons 0).
  Let ks := map (map (fun p : kpath => fst (fst p))) world.
  Let dmu := dmu_deta s T mo ks (mu 0).
  Let dF := dFdmu s T mo ks (mu 0).
  Hypothesis Hdmu : 1 / 10 ^ 12 <= Rabs dmu.

  Let w (p : kpath) := kw (fst (fst p)).
  Let n (p : kpath) := km (fst (fst p)).
  Let e (p : kpath) := ke (fst (fst p)).
  Let h (p : kpath) := kh (fst (fst p)).
  Let v (p : kpath) := snd p.
  Let dl (p : kpath) (i : nat) := sdelta (smearing_class s) ((e p i - mu 0) / kT) mo.

  Lemma kTp : 0 < kT.
  Proof. unfold kT. apply Rmult_lt_0_compat; [exact kb_pos|exact HT]. Qed.

  Lemma arg0 r p i : In r world -> In p r -> (i < n p)%nat -> arg p i 0 = (mu 0 - e p i) / kT.
  Proof. intros Hr Hp Hi. unfold arg. rewrite (proj1 (Hpath r p i Hr Hp Hi)). reflexivity. Qed.
  Lemma delta_arg r p i : In r world -> In p r -> (i < n p)%nat -> sdelta (smearing_class s) (arg p i 0) mo = dl p i.
  Proof.
    intros Hr Hp Hi. rewrite (arg0 r p i Hr Hp Hi). unfold dl. pose proof kTp.
    replace ((e p i - mu 0) / kT) with (- ((mu 0 - e p i) / kT)) by (field; lra). symmetry. apply even. exact Hs.
  Qed.
  Lemma dmu_total : dmu = total (fun p => rsumn (n p) (fun i => dl p i * w p)) world.
  Proof. unfold dmu, dmu_deta, ks. rewrite total_map. reflexivity. Qed.
  Lemma dF_total : dF = total (fun p => rsumn (n p) (fun i => (h p i - e p i) * dl p i) * w p) world.
  Proof. unfold dF, dFdmu, ks. rewrite total_map. reflexivity. Qed.

  (** a continuous chemical potential that keeps the count is differentiable *)
  Lemma mu_differentiable : continuous mu 0 -> exists mu', is_derive mu 0 mu'.
  Proof.
    intros Hc. pose proof kTp as K.
    assert (Hd : dmu <> 0). { intros E. rewrite E, Rabs_R0 in Hdmu. lra. }
    set (ph := fun (p : kpath) (i : nat) (t : R) => quot (fun y => sfn (smearing_class s) y mo) (arg p i 0) (dl p i) (arg p i t)).
    set (ps := fun (p : kpath) (i : nat) (t : R) => quot (snd (fst p) i) 0 (v p i) t).
    set (A := fun t => total (fun p => rsumn (n p) (fun i => w p * ph p i t)) world).
    set (B := fun t => total (fun p => rsumn (n p) (fun i => w p * (ph p i t * ps p i t))) world).
    assert (Cph : forall r p i, In r world -> In p r -> (i < n p)%nat -> continuous (ph p i) 0).
    { intros r p i Hr Hp Hi. destruct (Hpath r p i Hr Hp Hi) as (_ & De & I).
      apply (continuous_comp (arg p i) (quot (fun y => sfn (smearing_class s) y mo) (arg p i 0) (dl p i))).
      - unfold arg. apply (continuous_ext (fun t => scal (/ kT) (minus (mu t) (snd (fst p) i t)))).
        { intros t. unfold scal, minus, plus, opp. cbn. unfold mult. cbn. eqR. field. lra. }
        apply (continuous_scal_r (/ kT) (fun t => minus (mu t) (snd (fst p) i t))). apply (continuous_minus mu (snd (fst p) i) 0 Hc).
        apply (ex_derive_continuous (snd (fst p) i)). exists (snd p i). exact De.
      - apply quot_continuous. rewrite <- (delta_arg r p i Hr Hp Hi). apply delta_derive. exact I. }
    assert (Cps : forall r p i, In r world -> In p r -> (i < n p)%nat -> continuous (ps p i) 0).
    { intros r p i Hr Hp Hi. destruct (Hpath r p i Hr Hp Hi) as (_ & De & _). apply quot_continuous. exact De. }
    assert (CA : continuous A 0).
    { apply (continuous_total world (fun p t => rsumn (n p) (fun i => w p * ph p i t))). intros r p Hr Hp.
      apply (continuous_rsumn (n p) (fun i t => w p * ph p i t)). intros i Hi. apply (continuous_scal_r (w p) (ph p i)). exact (Cph r p i Hr Hp Hi). }
    assert (CB : continuous B 0).
    { apply (continuous_total world (fun p t => rsumn (n p) (fun i => w p * (ph p i t * ps p i t)))). intros r p Hr Hp.
      apply (continuous_rsumn (n p) (fun i t => w p * (ph p i t * ps p i t))). intros i Hi. apply (continuous_scal_r (w p) (fun t => ph p i t * ps p i t)).
      apply (continuous_mult (ph p i) (ps p i)); [exact (Cph r p i Hr Hp Hi)|exact (Cps r p i Hr Hp Hi)]. }
    assert (A0 : A 0 = dmu).
    { rewrite dmu_total. unfold A. apply total_ext. intros r p _ _. apply rsumn_ext. intros i _. unfold ph. rewrite quot_at. apply Rmult_comm. }
    (* the count condition as an identity *)
    assert (Id : forall t, electrons t = electrons 0 -> (mu t - mu 0) * A t = t * B t).
    { intros t E. unfold electrons in E.
      assert (G : total (fun p : kpath => w p * rsumn (n p) (fun i => sfn (smearing_class s) (arg p i t) mo)) world + -1 * total (fun p : kpath => w p * rsumn (n p) (fun i => sfn (smearing_class s) (arg p i 0) mo)) world
                  = / kT * ((mu t - mu 0) * A t + - t * B t)).
      { unfold A, B. rewrite <- !total_scal, <- !total_plus, <- total_scal. apply total_ext. intros r p Hr Hp.
        rewrite <- !rsumn_scal, <- !rsumn_plus, <- rsumn_scal. apply rsumn_ext. intros i Hi.
        pose proof (quot_id (fun y => sfn (smearing_class s) y mo : R) (arg p i 0) (dl p i) (arg p i t)) as Q1.
        pose proof (quot_id (snd (fst p) i) 0 (v p i) t) as Q2. cbv beta in Q1.
        fold (ph p i t) in Q1. fold (ps p i t) in Q2.
        assert (Ea : arg p i t - arg p i 0 = (mu t - mu 0 - ps p i t * t) / kT).
        { unfold arg. replace (snd (fst p) i t) with (snd (fst p) i 0 + ps p i t * (t - 0)) by lra. field. lra. }
        rewrite Ea in Q1. transitivity (w p * (ph p i t * ((mu t - mu 0 - ps p i t * t) / kT))); [rewrite <- Q1; eqR; ring|]. field. lra. }
      fold w n in E. assert (Z : / kT * ((mu t - mu 0) * A t + - t * B t) = 0) by (rewrite <- G; unfold n, w; rewrite E; ring).
      apply Rmult_integral in Z. destruct Z as [Z|Z]; [exfalso; apply Rinv_neq_0_compat in Z; [exact Z|lra]|]. lra. }
    exists (B 0 / A 0).
    apply (derive_of_quot mu 0 (fun t => B t / A t)).
    - apply (continuous_mult B (fun t => / A t) 0 CB). apply (continuous_comp A Rinv 0 CA). apply continuous_Rinv. rewrite A0. exact Hd.
    - assert (L : locally 0 (fun t => A t <> 0)).
      { apply (CA (fun y => y <> 0)). apply (open_neq 0). rewrite A0. exact Hd. }
      apply (filter_imp (fun t => A t <> 0 /\ electrons t = electrons 0)); [|apply filter_and; [exact L|exact Hcount]].
      intros t (Ht & Hn). apply (Rmult_eq_reg_r (A t)); [|exact Ht]. rewrite (Id t Hn). field. exact Ht.
  Qed.

  Section Smooth.
    Context (mu' : R) (Hmu : is_derive mu 0 mu').
    Lemma arg_derive r p i : In r world -> In p r -> (i < n p)%nat -> is_derive (arg p i) 0 ((mu' - v p i) / kT).
    Proof.
      intros Hr Hp Hi. destruct (Hpath r p i Hr Hp Hi) as (_ & D & _). pose proof kTp.
      apply (is_derive_ext (fun t => / kT * (mu t - snd (fst p) i t))).
      { intros t. unfold arg. eqR. field. lra. }
      eapply derive_val; [exact (is_derive_scal (fun t => mu t - snd (fst p) i t) 0 (/ kT) _ (is_derive_minus mu (snd (fst p) i) 0 _ _ Hmu D))|].
      unfold v, minus, plus, opp. cbn. eqR. field. lra.
    Qed.
    Lemma term_fn r p i : In r world -> In p r -> (i < n p)%nat ->
      is_derive (fun t => sfn (smearing_class s) (arg p i t) mo) 0 (dl p i * ((mu' - v p i) / kT)).
    Proof.
      intros Hr Hp Hi. rewrite <- (delta_arg r p i Hr Hp Hi). destruct (Hpath r p i Hr Hp Hi) as (_ & _ & I).
      eapply derive_val; [exact (is_derive_comp (fun y => sfn (smearing_class s) y mo) (arg p i) 0 _ _ (delta_derive s _ mo I) (arg_derive r p i Hr Hp Hi))|].
      apply Rmult_comm.
    Qed.
    Lemma term_entropy r p i : In r world -> In p r -> (i < n p)%nat ->
      is_derive (fun t => sentropy (smearing_class s) (arg p i t) mo) 0 (- ((mu 0 - e p i) / kT) * dl p i * ((mu' - v p i) / kT)).
    Proof.
      intros Hr Hp Hi. rewrite <- (delta_arg r p i Hr Hp Hi), <- (arg0 r p i Hr Hp Hi). destruct (Hpath r p i Hr Hp Hi) as (_ & _ & I).
      eapply derive_val; [exact (is_derive_comp (fun y => sentropy (smearing_class s) y mo) (arg p i) 0 _ _ (entropy_derive s _ mo I Hm) (arg_derive r p i Hr Hp Hi))|].
      apply Rmult_comm.
    Qed.

    Lemma derive_weighted (g : R -> R -> R) (c : kpath -> nat -> R) (d : kpath -> nat -> R) :
      (forall r p i, In r world -> In p r -> (i < n p)%nat -> is_derive (fun t => g (arg p i t) (c p i)) 0 (d p i)) ->
      is_derive (fun t => total (fun p : kpath => w p * rsumn (n p) (fun i => g (arg p i t) (c p i))) world) 0 (total (fun p => w p * rsumn (n p) (d p)) world).
    Proof.
      intros H. apply (derive_total world (fun p t => w p * rsumn (n p) (fun i => g (arg p i t) (c p i)))). intros r p Hr Hp.
      exact (is_derive_scal (fun t => rsumn (n p) (fun i => g (arg p i t) (c p i))) 0 (w p) _ (derive_rsumn (n p) (fun i t => g (arg p i t) (c p i)) (d p) 0 (fun i Hi => H r p i Hr Hp Hi))).
    Qed.

    (** the count fixes the derivative of mu *)
    Lemma count_condition : total (fun p => w p * rsumn (n p) (fun i => dl p i * ((mu' - v p i) / kT))) world = 0.
    Proof.
      assert (D : is_derive electrons 0 (total (fun p => w p * rsumn (n p) (fun i => dl p i * ((mu' - v p i) / kT))) world)).
      { apply (derive_weighted (fun x _ => sfn (smearing_class s) x mo) (fun _ _ => 0)). intros r p i Hr Hp Hi. exact (term_fn r p i Hr Hp Hi). }
      assert (D0 : is_derive electrons 0 0).
      { apply (is_derive_ext_loc (fun _ => electrons 0)); [apply (filter_imp (fun t => electrons t = electrons 0)); [intros t E; symmetry; exact E|exact Hcount]|]. exact (is_derive_const (electrons 0) 0). }
      rewrite <- (is_derive_unique _ _ _ D). exact (is_derive_unique _ _ _ D0).
    Qed.

    Lemma mu_slope : mu' * dmu = total (fun p => rsumn (n p) (fun i => dl p i * w p * v p i)) world.
    Proof.
      pose proof kTp as K. rewrite dmu_total. pose proof count_condition as Z.
      assert (E : total (fun p => w p * rsumn (n p) (fun i => dl p i * ((mu' - v p i) / kT))) world =
                  / kT * (mu' * total (fun p => rsumn (n p) (fun i => dl p i * w p)) world + -1 * total (fun p => rsumn (n p) (fun i => dl p i * w p * v p i)) world)).
      { rewrite <- !total_scal, <- total_plus, <- total_scal. apply total_ext. intros r p _ _. rewrite <- !rsumn_scal, <- rsumn_plus, <- rsumn_scal.
        apply rsumn_ext. intros i _. field. lra. }
      rewrite E in Z. apply Rmult_integral in Z. destruct Z as [Z|Z]; [exfalso; apply Rinv_neq_0_compat in Z; [exact Z|lra]|]. lra.
    Qed.

    (** diagonal entry i of the gradient of k-point p *)
    Let gd (p : kpath) (i : nat) : R :=
      - 1 / kT * (w p * h p i - w p * e p i) * dl p i + w p * dl p i / dmu * (dF / kT).

    Lemma free_energy_derive : is_derive free_energy 0 (total (fun p => rsumn (n p) (fun i => v p i * gd p i)) world).
    Proof.
      pose proof kTp as K.
      assert (Hd : dmu <> 0). { intros E. rewrite E, Rabs_R0 in Hdmu. lra. }
      assert (D1 : is_derive band_energy 0 (total (fun p => w p * rsumn (n p) (fun i => dl p i * ((mu' - v p i) / kT) * h p i)) world)).
      { apply (derive_weighted (fun x c => sfn (smearing_class s) x mo * c) h). intros r p i Hr Hp Hi.
        apply (is_derive_ext (fun t => h p i * sfn (smearing_class s) (arg p i t) mo)); [intros; apply Rmult_comm|].
        eapply derive_val; [exact (is_derive_scal _ 0 (h p i) _ (term_fn r p i Hr Hp Hi))|]. eqR. ring. }
      assert (D2 : is_derive smear_entropy 0 (total (fun p => w p * rsumn (n p) (fun i => - ((mu 0 - e p i) / kT) * dl p i * ((mu' - v p i) / kT))) world)).
      { apply (derive_weighted (fun x _ => sentropy (smearing_class s) x mo) (fun _ _ => 0)). intros r p i Hr Hp Hi. exact (term_entropy r p i Hr Hp Hi). }
      unfold free_energy.
      eapply derive_val; [exact (is_derive_plus band_energy (fun t => kT * (-1 * smear_entropy t)) 0 _ _ D1 (is_derive_scal _ 0 kT _ (is_derive_scal _ 0 (-1) _ D2)))|].
      unfold plus. cbn [AbelianGroup.plus Hierarchy.AbelianGroup.sort R_AbelianGroup]. cbn.
      eqR. rewrite <- !total_scal, <- total_plus.
      (* both sides differ by a multiple of the count condition *)
      pose proof count_condition as Z. pose proof mu_slope as M.
      assert (EL : total (fun p => w p * rsumn (n p) (fun i => dl p i * ((mu' - v p i) / kT) * h p i) + kT * (-1 * (w p * rsumn (n p) (fun i => - ((mu 0 - e p i) / kT) * dl p i * ((mu' - v p i) / kT))))) world =
        mu 0 * total (fun p => w p * rsumn (n p) (fun i => dl p i * ((mu' - v p i) / kT))) world +
        (mu' / kT * dF + - 1 / kT * total (fun p => rsumn (n p) (fun i => (h p i - e p i) * dl p i * w p * v p i)) world)).
      { rewrite dF_total. rewrite <- !total_scal, <- !total_plus. apply total_ext. intros r p _ _.
        rewrite (Rmult_comm (rsumn _ _) (w p)). rewrite <- !rsumn_scal, <- !rsumn_plus. apply rsumn_ext. intros i _. field. lra. }
      etransitivity; [exact EL|]. rewrite Z.
      assert (ER : total (fun p => rsumn (n p) (fun i => v p i * gd p i)) world =
        - 1 / kT * total (fun p => rsumn (n p) (fun i => (h p i - e p i) * dl p i * w p * v p i)) world + dF / kT / dmu * total (fun p => rsumn (n p) (fun i => dl p i * w p * v p i)) world).
      { rewrite <- !total_scal, <- total_plus. apply total_ext. intros r p _ _. rewrite <- !rsumn_scal, <- rsumn_plus. apply rsumn_ext. intros i _.
        unfold gd. field; split; first [exact Hd|lra]. }
      rewrite ER, <- M. field; split; first [exact Hd|lra].
    Qed.
  End Smooth.
End Diag.

(** *** The diagonal of g_eta *)
Lemma g_eta_diag s T mo k mu dmu dF i :
  hermitian (km k) (mmul (kn k) (adj (kX k)) (kHX k)) -> (i < km k)%nat ->
  kh k i = Re (mmul (kn k) (adj (kX k)) (kHX k) i i) -> 1 / 10 ^ 12 <= Rabs dmu ->
  g_eta s T mo k (inner_ (kn k) (kX k) (kHX k) (kw k)) mu dmu dF i i =
  RtoC (- 1 / (kb Rarith * T) * (kw k * kh k i - kw k * ke k i) * sdelta (smearing_class s) ((ke k i - mu) / (kb Rarith * T)) mo +
        kw k * sdelta (smearing_class s) ((ke k i - mu) / (kb Rarith * T)) mo / dmu * (dF / (kb Rarith * T))).
Proof.
  intros Hh Hi Hk Hd. unfold g_eta. rewrite Nat.eqb_refl. cbv zeta.
  replace (Rltb (Rabs dmu) (1 / 10 ^ 12)) with false by (symmetry; apply Rltb_false; lra).
  unfold inner_, mscal. rewrite (real_of_conj (mmul (kn k) (adj (kX k)) (kHX k) i i)) by exact (Hh i i Hi Hi). rewrite <- Hk.
  rewrite <- !RtoC_mult, <- RtoC_minus, <- !RtoC_mult, <- RtoC_plus. reflexivity.
Qed.

Lemma diag_gradient s T mo (mu : R -> R) world :
  0 < T -> s <> COLD -> s <> GAUSSIAN_SPLINE \/ mo = 1 -> continuous mu 0 ->
  (forall r p i, In r world -> In p r -> (i < km (fst (fst p)))%nat ->
     snd (fst p) i 0 = ke (fst (fst p)) i /\ is_derive (snd (fst p) i) 0 (snd p i) /\ inside s (arg T mu p i 0)) ->
  (forall r p, In r world -> In p r -> let k := fst (fst p) in
     hermitian (km k) (mmul (kn k) (adj (kX k)) (kHX k)) /\
     forall i, (i < km k)%nat -> kh k i = Re (mmul (kn k) (adj (kX k)) (kHX k) i i)) ->
  locally 0 (fun t => electrons s T mo mu world t = electrons s T mo mu world 0) ->
  let ks := map (map (fun p : kpath => fst (fst p))) world in
  let dmu := dmu_deta s T mo ks (mu 0) in
  let dF := dFdmu s T mo ks (mu 0) in
  1 / 10 ^ 12 <= Rabs dmu ->
  is_derive (free_energy s T mo mu world) 0
    (total (fun p : kpath => let k := fst (fst p) in
       rsumn (km k) (fun i => snd p i * Re (g_eta s T mo k (inner_ (kn k) (kX k) (kHX k) (kw k)) (mu 0) dmu dF i i))) world).
Proof.
  intros HT Hs Hm Hc Hp Hh Hn ks dmu dF Hd.
  destruct (mu_differentiable s T mo mu world HT Hs Hp Hn Hd Hc) as (mu' & Hmu).
  eapply derive_val; [exact (free_energy_derive s T mo mu world HT Hs Hm Hp Hn Hd mu' Hmu)|].
  apply total_ext. intros r p Hr Hpin. cbv zeta. apply rsumn_ext. intros i Hi. f_equal.
  destruct (Hh r p Hr Hpin) as (H1 & H2). rewrite g_eta_diag; [reflexivity|exact H1|exact Hi|exact (H2 i Hi)|exact Hd].
Qed.

(** *** Degenerate bands *)
Lemma degenerate_zero s T mo k hij mu dmu dF i j : i <> j -> Rabs (ke k j - ke k i) < 1 / 10 ^ 10 -> g_eta s T mo k hij mu dmu dF i j = RtoC 0.
Proof.
  intros Hij He. unfold g_eta. destruct (Nat.eqb_spec i j); [congruence|].
  replace (Rltb _ _) with true by (symmetry; apply Rltb_true; exact He). reflexivity.
Qed.
Lemma apart_value s T mo k hij mu dmu dF i j : i <> j -> 1 / 10 ^ 10 <= Rabs (ke k j - ke k i) ->
  g_eta s T mo k hij mu dmu dF i j = Cmult (RtoC ((kf k j - kf k i) / (ke k j - ke k i))) (hij i j).
Proof.
  intros Hij He. unfold g_eta. destruct (Nat.eqb_spec i j); [congruence|].
  replace (Rltb _ _) with false by (symmetry; apply Rltb_false; lra). reflexivity.
Qed.

Lemma delta_strict s x mo : monotone_type s -> 0 < mo -> inside s x -> 0 < sdelta (smearing_class s) x mo.
Proof.
  intros [->|[->| ->]] Hm Hi; cbn [smearing_class sdelta fermi_dirac gauss_smearing gaussian_spline inside] in *.
  - unfold fd_delta. replace (Rltb 35 (Rabs x)) with false by (symmetry; apply Rltb_false; lra). cbv zeta.
    pose proof (exp_pos (- x / 2)). pose proof (exp_pos (x / 2)). apply Rdiv_lt_0_compat; [exact Hm|]. nra.
  - unfold gauss_delta. pose proof sqpi_pos. pose proof (exp_pos (- x * x)). apply Rdiv_lt_0_compat; [|lra]. nra.
  - pose proof sq2_pos. unfold gs_delta. replace (Rltb 7 (Rabs x)) with false by (symmetry; apply Rltb_false; lra).
    destruct (Rleb x 0) eqn:E; [apply Rleb_true in E|apply Rleb_false in E]; (apply Rmult_lt_0_compat; [apply Rmult_lt_0_compat; [lra|apply exp_pos]|lra]).
Qed.

(** the quotient of g_eta has a negative limit for e_j -> e_i *)
Lemma quotient_limit s mu e kT mo : monotone_type s -> 0 < mo -> 0 < kT -> inside s ((mu - e) / kT) ->
  let f := fun y => sfn (smearing_class s) ((mu - y) / kT) mo in
  exists l, l < 0 /\ filterlim (fun y => (f y - f e) / (y - e)) (locally' e) (locally l).
Proof.
  intros Hs Hm Hk Hi f. exists (- sdelta (smearing_class s) ((e - mu) / kT) mo / kT).
  assert (Hc : s <> COLD) by (destruct Hs as [->|[->| ->]]; discriminate).
  split.
  - replace ((e - mu) / kT) with (- ((mu - e) / kT)) by (field; lra). rewrite even by exact Hc.
    pose proof (delta_strict s _ mo Hs Hm Hi) as D. unfold Rdiv. assert (0 < / kT) by (apply Rinv_0_lt_compat; exact Hk). cbn [num Rarith] in D. nra.
  - pose proof (occupation_slope s mu e kT mo ltac:(lra) Hc Hi) as D.
    assert (Q : continuous (quot f e (- sdelta (smearing_class s) ((e - mu) / kT) mo / kT)) e) by (apply quot_continuous; exact D).
    unfold continuous in Q. rewrite quot_at in Q.
    apply (filterlim_ext_loc (quot f e (- sdelta (smearing_class s) ((e - mu) / kT) mo / kT))).
    + exists (mkposreal 1 Rlt_0_1). intros y _ Hy. unfold quot. destruct (Req_EM_T y e); [congruence|reflexivity].
    + intros P HP. destruct (Q P HP) as (d & H). exists d. intros y Hy _. exact (H y Hy).
Qed.

(** two bands, one at 0 and one at y; kT = 1, mu = 0, H_01 = 1 *)
Definition two_bands (s : smearing_type) (mo y : R) : kpt :=
  MkKpt 2 2 1 mid mid mid (fun _ _ => RtoC 1) (fun i => if Nat.eqb i 0 then 0 else y)
    (fun i => sfn (smearing_class s) (if Nat.eqb i 0 then 0 else - y) mo) (fun _ => 1).
Lemma strict_step s mo : monotone_type s -> 0 < mo -> sfn (smearing_class s) (- (1 / 10 ^ 10)) mo < sfn (smearing_class s) 0 mo.
Proof.
  intros Hs Hm.
  assert (Hin : forall x, - (1 / 10 ^ 10) <= x <= 0 -> inside s x).
  { intros x Hx. destruct Hs as [->|[->| ->]]; cbn [inside]; try exact I; rewrite Rabs_left1 by lra; lra. }
  destruct (MVT_gen (fun x => sfn (smearing_class s) x mo : R) (- (1 / 10 ^ 10)) 0 (fun x => sdelta (smearing_class s) x mo : R)) as (c & Hc & E).
  - rewrite Rmin_left, Rmax_right by lra. intros x Hx. apply delta_derive. apply Hin. lra.
  - rewrite Rmin_left, Rmax_right by lra. intros x Hx. apply continuity_pt_filterlim. apply (ex_derive_continuous (fun x => sfn (smearing_class s) x mo : R)).
    exists (sdelta (smearing_class s) x mo). apply delta_derive. apply Hin. lra.
  - rewrite Rmin_left, Rmax_right in Hc by lra. pose proof (delta_strict s c mo Hs Hm (Hin c Hc)) as D. cbn [num Rarith] in *. nra.
Qed.
Lemma gradient_jump s mo mu dmu dF : monotone_type s -> 0 < mo ->
  ~ continuous (fun y => Re (g_eta s unit_T mo (two_bands s mo y) (fun _ _ => RtoC 1) mu dmu dF 0%nat 1%nat)) (1 / 10 ^ 10).
Proof.
  intros Hs Hm C. set (F := fun y => _) in C. set (y0 := 1 / 10 ^ 10) in *.
  assert (Hy0 : 0 < y0) by (unfold y0; lra).
  assert (V : F y0 < 0).
  { unfold F. rewrite apart_value; [|lia|cbn [two_bands ke Nat.eqb]; rewrite Rminus_0_r, Rabs_pos_eq by lra; unfold y0; lra].
    cbn [two_bands ke kf Nat.eqb]. rewrite Rminus_0_r. pose proof (strict_step s mo Hs Hm) as L. fold y0 in L. cbn [num Rarith] in L.
    assert (Hq : 0 < / y0) by (apply Rinv_0_lt_compat; exact Hy0). unfold Re, Rdiv. cbn [fst Cmult RtoC]. cbn. unfold Rdiv in L. nra. }
  apply continuity_pt_filterlim in C. destruct (C (- F y0 / 2) ltac:(lra)) as (d & Hd & H).
  assert (Hmin : 0 < Rmin (d / 2) (y0 / 2)) by (apply Rmin_pos; lra).
  pose proof (Rmin_l (d / 2) (y0 / 2)). pose proof (Rmin_r (d / 2) (y0 / 2)). set (h := Rmin (d / 2) (y0 / 2)) in *.
  specialize (H (y0 - h)). cbn in H. unfold R_dist in H.
  assert (Z : F (y0 - h) = 0).
  { unfold F. rewrite degenerate_zero; [reflexivity|lia|]. cbn [two_bands ke Nat.eqb]. rewrite Rminus_0_r, Rabs_pos_eq by lra. fold y0. lra. }
  rewrite Z in H. assert (Rabs (0 - F y0) < - F y0 / 2).
  { apply H. split; [split; [exact I|lra]|]. rewrite Rabs_left1 by lra. lra. }
  rewrite Rabs_pos_eq in H2 by lra. lra.
Qed.

Lemma jump_exists s mo mu dmu dF : monotone_type s -> 0 < mo ->
  exists (k : R -> kpt) (hij : mat),
    (forall y, km (k y) = 2%nat /\ ke (k y) 0%nat = 0 /\ ke (k y) 1%nat = y /\
       forall i, (i < 2)%nat -> kf (k y) i = sfn (smearing_class s) ((0 - ke (k y) i) / (kb Rarith * unit_T)) mo) /\
    ~ continuous (fun y => Re (g_eta s unit_T mo (k y) hij mu dmu dF 0%nat 1%nat)) (1 / 10 ^ 10).
Proof.
  intros Hs Hm. exists (two_bands s mo), (fun _ _ => RtoC 1). split; [|apply gradient_jump; assumption].
  intros y. split; [reflexivity|]. split; [reflexivity|]. split; [reflexivity|].
  intros i Hi. rewrite unit_kT. cbn [two_bands kf ke]. f_equal. destruct (Nat.eqb i 0); eqR; field.
Qed.
