(** When the slope of the steepest descent direction is zero.  Mathematics about Descent.v (descent_direction.hpp 81-131,
    grad_eta.hpp 121-164). *)
From Coq Require Import Reals Lra Psatz Arith Lia List Bool.
From Coquelicot Require Import Coquelicot.
From Verif Require Import Arith Erf LinAlg Containers Newton Occupation Smearing SmearingProofs SmearingUse SmearingFacts Descent DescentProofs DescentFacts GradEtaFacts Geodesic GeodesicProofs MatFun Curve CurveProofs CurveMain CurveMu.
Import ListNotations.
Local Open Scope R_scope.

(** k-point with residual-free wave functions, h_i - e_i = c and no coupling between separated levels *)
Definition stationary_k (c : R) (k : kpt) : Prop :=
  (exists L, meq (kn k) (km k) (kHX k) (mmul (km k) (mmul (kn k) (kS k) (kX k)) L)) /\
  (forall i, (i < km k)%nat -> kh k i - ke k i = c) /\
  (forall i j, (i < km k)%nat -> (j < km k)%nat -> i <> j -> 1 / 10 ^ 10 <= Rabs (ke k j - ke k i) ->
     mmul (kn k) (adj (kX k)) (kHX k) i j = RtoC 0).

Lemma fn_strict s mo x y : monotone_type s -> 0 < mo -> inside s x -> x < y -> sfn (smearing_class s) x mo < sfn (smearing_class s) y mo.
Proof.
  intros Hs Hm Hi Hxy. destruct (bounds_mono s mo Hs ltac:(lra)) as [_ Mo].
  pose proof (delta_derive s x mo Hi) as D. pose proof (delta_strict s x mo Hs Hm Hi) as P.
  destruct (derive_sides x _ _ D P) as [d [Hd S]]. set (h := Rmin (d / 2) (y - x)).
  assert (Hh : 0 < h < d). { unfold h. split; [apply Rmin_glb_lt; lra|]. pose proof (Rmin_l (d / 2) (y - x)). lra. }
  destruct (S h Hh) as [_ S2]. assert (x + h <= y) by (unfold h; pose proof (Rmin_r (d / 2) (y - x)); lra).
  pose proof (Mo (x + h) y H) as M. eapply Rlt_le_trans; [exact S2|exact M].
Qed.
Lemma fn_pos s mo x : monotone_type s -> 0 < mo -> inside s x -> 0 < sfn (smearing_class s) x mo.
Proof.
  intros Hs Hm Hi. destruct (bounds_mono s mo Hs ltac:(lra)) as [Bo _].
  pose proof (delta_derive s x mo Hi) as D. pose proof (delta_strict s x mo Hs Hm Hi) as P.
  destruct (derive_sides x _ _ D P) as [d [Hd S]]. destruct (S (d / 2) ltac:(lra)) as [S1 _].
  destruct (Bo (x - d / 2)) as [B _]. eapply Rle_lt_trans; [exact B|exact S1].
Qed.

Lemma fold_nonneg {Y} (f : Y -> R) l : (forall y, In y l -> 0 <= f y) -> 0 <= fold_right Rplus 0 (map f l).
Proof. intros H. induction l as [|a l IH]; cbn; [lra|]. pose proof (H a (or_introl eq_refl)). assert (0 <= fold_right Rplus 0 (map f l)) by (apply IH; intros; apply H; right; assumption). lra. Qed.
Lemma fold_zero_terms {Y} (f : Y -> R) l : (forall y, In y l -> 0 <= f y) -> fold_right Rplus 0 (map f l) = 0 -> forall y, In y l -> f y = 0.
Proof.
  induction l as [|a l IH]; cbn; intros H E y Hy; [contradiction|].
  assert (P : 0 <= fold_right Rplus 0 (map f l)). { apply fold_nonneg. intros z Hz. apply H. right. exact Hz. }
  pose proof (H a (or_introl eq_refl)). destruct Hy as [<-|Hy]; [lra|]. apply IH; [intros; apply H; right; assumption|lra|exact Hy].
Qed.
Lemma total_zero_terms {Y} (f : Y -> R) w : (forall r y, In r w -> In y r -> 0 <= f y) -> total f w = 0 -> forall r y, In r w -> In y r -> f y = 0.
Proof.
  intros H E r y Hr Hy. unfold total in E.
  assert (Z : fold_right Rplus 0 (map f r) = 0).
  { apply (fold_zero_terms (fun r => fold_right Rplus 0 (map f r)) w); [|exact E|exact Hr]. intros q Hq. apply fold_nonneg. intros z Hz. exact (H q z Hq Hz). }
  apply (fold_zero_terms f r); [|exact Z|exact Hy]. intros z Hz. exact (H r z Hr Hz).
Qed.

Section Zero.
  Context (solve : nat -> mat -> mat -> mat) (s : smearing_type) (T kappa mo mu : R).
  Hypothesis Hs : monotone_type s.
  Hypothesis HT : 0 < T.
  Hypothesis Hk : 0 < kappa.
  Hypothesis Hmo : 0 < mo.
  Let kT := kb Rarith * T.
  Context (world : list (list kpt)).
  Hypothesis Hok : forall r k, In r world -> In k r -> kpt_ok solve s T mo mu k.
  Hypothesis HP : forall r k, In r world -> In k r -> posdef (kn k) (kP k).
  Hypothesis Hin : forall r k i, In r world -> In k r -> (i < km k)%nat -> inside s ((mu - ke k i) / kT).
  Let dmu := dmu_deta s T mo world mu.
  Let dF := dFdmu s T mo world mu.
  Hypothesis Hd : 1 / 10 ^ 12 <= Rabs dmu.
  Let c := dF / dmu.
  Let res (k : kpt) : mat := msub (kHX k) (lmult solve k (mmul (kn k) (kS k) (kX k)) (kHX k)).

  (** the three parts of minus the slope *)
  Let pX (k : kpt) : R := 2 * (kw k * rsumn (km k) (fun j => kf k j * Re (quad (kn k) (kP k) (fun i => res k i j)))).
  Let pD (k : kpt) : R := kappa / kT * rsumn (km k) (fun i => aw s T mo mu k i * ((dev k i - c) * (dev k i - c))).
  Let pO (k : kpt) : R := rsumn (km k) (fun i => rsumn (km k) (fun j => if Nat.eqb i j then 0 else
     if Rltb (Rabs (ke k j - ke k i)) (1 / 10 ^ 10) then 0 else - ((kf k j - kf k i) / (ke k j - ke k i)) * (kappa / kw k) * nsq (inner_ (kn k) (kX k) (kHX k) (kw k) i j))).

  Lemma kTp : 0 < kT.
  Proof. apply (kT_pos T HT). Qed.
  Lemma even_delta k i : In k (concat world) -> (i < km k)%nat -> 0 < sdelta (smearing_class s) ((ke k i - mu) / kT) mo.
  Proof.
    intros Hc Hi. apply in_concat in Hc. destruct Hc as [r [Hr Hkr]]. pose proof kTp as K.
    replace ((ke k i - mu) / kT) with (- ((mu - ke k i) / kT)) by (field; lra).
    rewrite even by (destruct Hs as [->|[->| ->]]; discriminate). apply delta_strict; [exact Hs|exact Hmo|]. apply (Hin r k i Hr Hkr Hi).
  Qed.
  Lemma aw_pos r k i : In r world -> In k r -> (i < km k)%nat -> 0 < aw s T mo mu k i.
  Proof.
    intros Hr Hkr Hi. unfold aw. apply Rmult_lt_0_compat; [exact (ok_w _ _ _ _ _ _ (Hok r k Hr Hkr))|].
    apply even_delta; [apply in_concat; exists r; auto|exact Hi].
  Qed.
  Lemma dmu_aw : dmu = total (fun k => rsumn (km k) (fun i => aw s T mo mu k i)) world.
  Proof. unfold dmu, dmu_deta. apply total_ext. intros r k Hr Hkin. apply rsumn_ext. intros i Hi. unfold aw. fold kT. apply Rmult_comm. Qed.
  Lemma dF_aw : dF = total (fun k => rsumn (km k) (fun i => aw s T mo mu k i * dev k i)) world.
  Proof.
    unfold dF, dFdmu. apply total_ext. intros r k Hr Hkin. rewrite Rmult_comm, <- rsumn_scal. apply rsumn_ext. intros i Hi.
    unfold aw, dev. rewrite (ok_h _ _ _ _ _ _ (Hok r k Hr Hkin) i Hi). fold kT. ring.
  Qed.
  Lemma dmu0 : dmu <> 0.
  Proof. intros E. rewrite E, Rabs_R0 in Hd. assert (0 < 1 / 10 ^ 12) by (apply Rdiv_lt_0_compat; [lra|apply pow_lt; lra]). lra. Qed.

  Lemma slope_parts : fst (restarted solve s T kappa mo world mu) = - total (fun k => pX k + (pD k + pO k)) world.
  Proof.
    pose proof kTp as K. pose proof dmu0 as N0. unfold restarted. cbn [fst]. rewrite total_map. fold dmu dF.
    set (f := fun k => - (pX k + pO k) + kappa / kT * (- rsumn (km k) (fun i => aw s T mo mu k i * dev k i * dev k i) + rsumn (km k) (fun i => aw s T mo mu k i * dev k i) * c)).
    transitivity (total f world).
    - apply total_ext. intros r k Hr Hkr. pose proof (Hok r k Hr Hkr) as H. pose proof (ok_w _ _ _ _ _ _ H) as Hw.
      unfold exec_restart. cbv zeta. cbn [fst].
      rewrite slope_x_value by (destruct H; assumption). rewrite eta_value; [|change (kT <> 0); lra|lra|exact (ok_H _ _ _ _ _ _ H)]. fold kT.
      replace (Rltb (Rabs dmu) (1 / 10 ^ 12)) with false by (symmetry; apply Rltb_false; lra). fold c.
      unfold f. fold (res k).
      assert (EO : rsumn (km k) (fun i => rsumn (km k) (fun j => if Nat.eqb i j then 0 else
         (if Rltb (Rabs (ke k j - ke k i)) (1 / 10 ^ 10) then 0 else (kf k j - kf k i) / (ke k j - ke k i) * (kappa / kw k) * nsq (inner_ (kn k) (kX k) (kHX k) (kw k) i j)))) = - pO k).
      { unfold pO. replace (- rsumn (km k) _) with (-1 * rsumn (km k) (fun i => rsumn (km k) (fun j => if Nat.eqb i j then 0 else
     if Rltb (Rabs (ke k j - ke k i)) (1 / 10 ^ 10) then 0 else - ((kf k j - kf k i) / (ke k j - ke k i)) * (kappa / kw k) * nsq (inner_ (kn k) (kX k) (kHX k) (kw k) i j)))) by ring.
        rewrite <- rsumn_scal. apply rsumn_ext. intros i _. rewrite <- rsumn_scal. apply rsumn_ext. intros j _. destruct (Nat.eqb i j); [ring|]. destruct (Rltb _ _); ring. }
      rewrite EO. unfold pX. rewrite rsumn_scal.
      assert (ED : rsumn (km k) (fun i => - (aw s T mo mu k i * dev k i * dev k i) + aw s T mo mu k i * dev k i * c) = - rsumn (km k) (fun i => aw s T mo mu k i * dev k i * dev k i) + rsumn (km k) (fun i => aw s T mo mu k i * dev k i) * c).
      { rewrite rsumn_plus. f_equal.
        - rewrite (rsumn_ext _ _ (fun i => -1 * (aw s T mo mu k i * dev k i * dev k i))) by (intros; ring). rewrite rsumn_scal. ring.
        - rewrite (Rmult_comm (rsumn _ _)), <- rsumn_scal. apply rsumn_ext. intros; ring. }
      rewrite ED. fold (res k). ring.
    - set (A1 := total (fun k => rsumn (km k) (fun i => aw s T mo mu k i * dev k i)) world).
      set (A2 := total (fun k => rsumn (km k) (fun i => aw s T mo mu k i * dev k i * dev k i)) world).
      assert (E1 : total f world = - total (fun k => pX k + pO k) world + kappa / kT * (- A2 + A1 * c)).
      { unfold f. rewrite total_plus, total_scal, total_plus.
        rewrite (total_ext (fun k => - (pX k + pO k)) (fun k => -1 * (pX k + pO k))) by (intros; ring). rewrite total_scal.
        rewrite (total_ext (fun k => - rsumn (km k) (fun i => aw s T mo mu k i * dev k i * dev k i)) (fun k => -1 * rsumn (km k) (fun i => aw s T mo mu k i * dev k i * dev k i))) by (intros; ring). rewrite total_scal. fold A2.
        rewrite (total_ext (fun k => rsumn (km k) (fun i => aw s T mo mu k i * dev k i) * c) (fun k => c * rsumn (km k) (fun i => aw s T mo mu k i * dev k i))) by (intros; ring). rewrite total_scal. fold A1. ring. }
      assert (E2 : total pD world = kappa / kT * (A2 + (-2 * c) * A1 + (c * c) * dmu)).
      { unfold pD. rewrite total_scal. f_equal. rewrite dmu_aw. unfold A1, A2. rewrite <- !total_scal, <- !total_plus.
        apply total_ext. intros r k _ _. rewrite <- !rsumn_scal, <- !rsumn_plus. apply rsumn_ext. intros i _. ring. }
      assert (Ec : c * dmu = A1) by (unfold c; fold A1; rewrite dF_aw; fold A1; field; exact N0).
      rewrite E1. rewrite (total_ext (fun k => pX k + (pD k + pO k)) (fun k => (pX k + pO k) + pD k)) by (intros; ring). rewrite (total_plus (fun k => pX k + pO k) pD), E2.
      replace (c * c * dmu) with (c * A1) by (rewrite <- Ec; ring). ring.
  Qed.

  Lemma quad_P_zero n P v : hermitian n P -> posdef n P -> Re (quad n P v) = 0 -> forall i, (i < n)%nat -> v i = RtoC 0.
  Proof.
    intros _ Hp E i Hi. destruct (Req_dec (nsq (v i)) 0) as [Z|Z]; [apply nsq_0, Z|].
    exfalso. assert (0 < Re (quad n P v)); [|lra]. apply Hp. exists i. split; [exact Hi|]. intros X. apply Z. rewrite X. unfold nsq, RtoC. cbn. ring.
  Qed.

  Lemma quot_strict r k i j : In r world -> In k r -> (i < km k)%nat -> (j < km k)%nat -> ke k j <> ke k i -> 0 < - ((kf k j - kf k i) / (ke k j - ke k i)).
  Proof.
    intros Hr Hkr Hi Hj N. pose proof kTp as K. pose proof (Hok r k Hr Hkr) as H. pose proof (ok_f _ _ _ _ _ _ H) as F. fold kT in F. rewrite (F i Hi), (F j Hj).
    set (x := (mu - ke k i) / kT). set (y := (mu - ke k j) / kT).
    assert (Ix : inside s x) by exact (Hin r k i Hr Hkr Hi). assert (Iy : inside s y) by exact (Hin r k j Hr Hkr Hj).
    assert (D : ke k j - ke k i = kT * (x - y)) by (unfold x, y; field; lra). rewrite D.
    assert (G : forall a b : R, a < b -> sfn (smearing_class s) a mo < sfn (smearing_class s) b mo -> 0 < - ((sfn (smearing_class s) a mo - sfn (smearing_class s) b mo) / (kT * (b - a)))).
    { intros a b L S. rewrite <- Ropp_div, Ropp_minus_distr. apply Rdiv_lt_0_compat; [apply Rlt_Rminus; exact S|apply Rmult_lt_0_compat; lra]. }
    destruct (Rtotal_order x y) as [L|[E|L]].
    - pose proof (fn_strict s mo x y Hs Hmo Ix L) as S. pose proof (G x y L S) as P.
      match goal with |- 0 < ?q => replace q with (- ((sfn (smearing_class s) x mo - sfn (smearing_class s) y mo) / (kT * (y - x)))) end; [exact P|].
      eqR. field. split; lra.
    - exfalso. apply N. assert (ke k j - ke k i = 0) by (rewrite D, E; ring). lra.
    - exact (G y x L (fn_strict s mo y x Hs Hmo Iy L)).
  Qed.

  Lemma pX_nonneg r k : In r world -> In k r -> 0 <= pX k.
  Proof.
    intros Hr Hkr. pose proof (Hok r k Hr Hkr) as H. unfold pX. apply Rmult_le_pos; [lra|]. apply Rmult_le_pos; [apply Rlt_le; exact (ok_w _ _ _ _ _ _ H)|].
    apply rsumn_nonneg. intros j Hj. apply Rmult_le_pos; [|apply (ok_Ppos _ _ _ _ _ _ H)].
    rewrite (ok_f _ _ _ _ _ _ H j Hj). apply Rlt_le, fn_pos; [exact Hs|exact Hmo|]. exact (Hin r k j Hr Hkr Hj).
  Qed.
  Lemma pD_nonneg r k : In r world -> In k r -> 0 <= pD k.
  Proof.
    intros Hr Hkr. pose proof kTp as K. unfold pD. apply Rmult_le_pos; [apply Rlt_le, Rdiv_lt_0_compat; assumption|]. apply rsumn_nonneg. intros i Hi.
    apply Rmult_le_pos; [apply Rlt_le, (aw_pos r); assumption|apply Rle_0_sqr].
  Qed.
  Lemma gap_ne k i j : 1 / 10 ^ 10 <= Rabs (ke k j - ke k i) -> ke k j <> ke k i.
  Proof. intros G E. rewrite E, Rminus_eq_0, Rabs_R0 in G. assert (0 < 1 / 10 ^ 10) by (apply Rdiv_lt_0_compat; [lra|apply pow_lt; lra]). lra. Qed.
  Lemma pO_nonneg r k : In r world -> In k r -> 0 <= pO k.
  Proof.
    intros Hr Hkr. unfold pO. apply rsumn_nonneg. intros i Hi. apply rsumn_nonneg. intros j Hj.
    destruct (Nat.eqb i j); [lra|]. destruct (Rltb _ _) eqn:E; [lra|]. apply Rltb_false in E.
    apply Rmult_le_pos; [|apply nsq_pos]. apply Rmult_le_pos; [apply Rlt_le, (quot_strict r); try assumption; apply gap_ne; lra|].
    apply Rlt_le, Rdiv_lt_0_compat; [exact Hk|exact (ok_w _ _ _ _ _ _ (Hok r k Hr Hkr))].
  Qed.

  Theorem zero_slope : fst (restarted solve s T kappa mo world mu) = 0 <-> exists c0, forall r k, In r world -> In k r -> stationary_k c0 k.
  Proof.
    pose proof kTp as K. rewrite slope_parts. split.
    - intros E. exists c. intros r k Hr Hkr.
      assert (Z : pX k + (pD k + pO k) = 0).
      { apply (total_zero_terms (fun k => pX k + (pD k + pO k)) world) with (r := r); [|lra|exact Hr|exact Hkr]. intros q y Hq Hy. pose proof (pX_nonneg q y Hq Hy). pose proof (pD_nonneg q y Hq Hy). pose proof (pO_nonneg q y Hq Hy). lra. }
      pose proof (pX_nonneg r k Hr Hkr) as P1. pose proof (pD_nonneg r k Hr Hkr) as P2. pose proof (pO_nonneg r k Hr Hkr) as P3.
      assert (Z1 : pX k = 0) by lra. assert (Z2 : pD k = 0) by lra. assert (Z3 : pO k = 0) by lra. clear P1 P2 P3 Z E.
      pose proof (Hok r k Hr Hkr) as H. pose proof (ok_w _ _ _ _ _ _ H) as Hw. split; [|split].
      + unfold lmult. exists (solve (km k) (inner_ (kn k) (mmul (kn k) (kS k) (kX k)) (mmul (kn k) (kP k) (mmul (kn k) (kS k) (kX k))) 1) (inner_ (kn k) (mmul (kn k) (kS k) (kX k)) (mmul (kn k) (kP k) (kHX k)) 1)).
        unfold pX in Z1. assert (Z : rsumn (km k) (fun j => kf k j * Re (quad (kn k) (kP k) (fun i => res k i j))) = 0).
        { apply Rmult_integral in Z1. destruct Z1 as [Z1|Z1]; [lra|]. apply Rmult_integral in Z1. destruct Z1 as [Z1|Z1]; [lra|exact Z1]. }
        intros i j Hi Hj.
        assert (Fp : forall j, (j < km k)%nat -> 0 < kf k j). { intros q Hq. rewrite (ok_f _ _ _ _ _ _ H q Hq). apply fn_pos; [exact Hs|exact Hmo|]. exact (Hin r k q Hr Hkr Hq). }
        assert (Q : kf k j * Re (quad (kn k) (kP k) (fun i => res k i j)) = 0).
        { apply (rsumn_zero_terms (km k) (fun j => kf k j * Re (quad (kn k) (kP k) (fun i => res k i j)))); [|exact Z|exact Hj]. intros q Hq. apply Rmult_le_pos; [apply Rlt_le, Fp, Hq|apply (ok_Ppos _ _ _ _ _ _ H)]. }
        assert (Q0 : Re (quad (kn k) (kP k) (fun i => res k i j)) = 0). { apply Rmult_integral in Q. pose proof (Fp j Hj). destruct Q as [Q|Q]; [lra|exact Q]. }
        pose proof (quad_P_zero _ _ _ (ok_P _ _ _ _ _ _ H) (HP r k Hr Hkr) Q0 i Hi) as R0. unfold res, msub, lmult, transform_alloc in R0. cbv zeta in R0.
        match type of R0 with Cminus ?a ?b = _ => replace a with (Cplus (Cminus a b) b) by ring end. rewrite R0. ring.
      + intros i Hi. unfold pD in Z2. apply Rmult_integral in Z2. destruct Z2 as [Z2|Z2]; [assert (0 < kappa / kT) by (apply Rdiv_lt_0_compat; assumption); lra|].
        pose proof (rsumn_zero_terms (km k) _ (fun q Hq => Rmult_le_pos _ _ (Rlt_le _ _ (aw_pos r k q Hr Hkr Hq)) (Rle_0_sqr (dev k q - c))) Z2 i Hi) as Q. cbv beta in Q.
        apply Rmult_integral in Q. pose proof (aw_pos r k i Hr Hkr Hi) as A. destruct Q as [Q|Q]; [lra|]. unfold Rsqr in Q. apply Rsqr_0_uniq in Q.
        unfold dev in Q. rewrite (ok_h _ _ _ _ _ _ H i Hi). lra.
      + intros i j Hi Hj N G. unfold pO in Z3.
        assert (Nn : forall i j, (i < km k)%nat -> (j < km k)%nat -> 0 <= (if Nat.eqb i j then 0 else
     if Rltb (Rabs (ke k j - ke k i)) (1 / 10 ^ 10) then 0 else - ((kf k j - kf k i) / (ke k j - ke k i)) * (kappa / kw k) * nsq (inner_ (kn k) (kX k) (kHX k) (kw k) i j))).
        { intros a b Ha Hb. destruct (Nat.eqb a b); [lra|]. destruct (Rltb _ _) eqn:E; [lra|]. apply Rltb_false in E.
          apply Rmult_le_pos; [|apply nsq_pos]. apply Rmult_le_pos; [apply Rlt_le, (quot_strict r); try assumption; apply gap_ne; lra|]. apply Rlt_le, Rdiv_lt_0_compat; assumption. }
        pose proof (rsumn_zero_terms (km k) _ (fun q Hq => rsumn_nonneg (km k) _ (fun l Hl => Nn q l Hq Hl)) Z3 i Hi) as Q1. cbv beta in Q1.
        pose proof (rsumn_zero_terms (km k) _ (fun l Hl => Nn i l Hi Hl) Q1 j Hj) as Q2. cbv beta in Q2.
        rewrite (proj2 (Nat.eqb_neq i j) N) in Q2. replace (Rltb _ _) with false in Q2 by (symmetry; apply Rltb_false; lra).
        pose proof (quot_strict r k i j Hr Hkr Hi Hj (gap_ne k i j G)) as Qp. assert (Kw : 0 < kappa / kw k) by (apply Rdiv_lt_0_compat; assumption).
        apply Rmult_integral in Q2. destruct Q2 as [Q2|Q2]; [assert (0 < - ((kf k j - kf k i) / (ke k j - ke k i)) * (kappa / kw k)) by (apply Rmult_lt_0_compat; assumption); lra|].
        apply nsq_0 in Q2. unfold inner_, mscal in Q2. set (z := mmul (kn k) (adj (kX k)) (kHX k) i j) in *.
        assert (Wn : RtoC (kw k) <> RtoC 0) by (intros X; apply RtoC_inj in X; lra).
        replace z with (Cmult (Cinv (RtoC (kw k))) (Cmult (RtoC (kw k)) z)) by (field; exact Wn). rewrite Q2. ring.
    - intros [c0 St].
      assert (Ec : c = c0).
      { unfold c. rewrite dF_aw. rewrite (total_ext _ (fun k => c0 * rsumn (km k) (fun i => aw s T mo mu k i))).
        - rewrite total_scal, <- dmu_aw. field. exact dmu0.
        - intros r k Hr Hkr. rewrite <- rsumn_scal. apply rsumn_ext. intros i Hi. destruct (St r k Hr Hkr) as [_ [S2 _]]. specialize (S2 i Hi).
          rewrite (ok_h _ _ _ _ _ _ (Hok r k Hr Hkr) i Hi) in S2. unfold dev. rewrite S2. ring. }
      rewrite (total_ext _ (fun _ => 0)); [rewrite total_zero; ring|]. intros r k Hr Hkr. pose proof (Hok r k Hr Hkr) as H. destruct (St r k Hr Hkr) as [[L S1] [S2 S3]].
      assert (Z1 : pX k = 0).
      { unfold pX. rewrite rsumn_0; [ring|]. intros j Hj.
        set (sx := mmul (kn k) (kS k) (kX k)) in *.
        pose proof (delta_tangent solve k (ok_solve _ _ _ _ _ _ H) (ok_P _ _ _ _ _ _ H) (ok_def _ _ _ _ _ _ H)) as Tn.
        rewrite (delta_residual solve k) in Tn. fold sx in Tn.
        assert (Q : quad (kn k) (kP k) (fun i => res k i j) = RtoC 0); [|rewrite Q; cbn; ring].
        set (ll := solve (km k) (inner_ (kn k) sx (mmul (kn k) (kP k) sx) 1) (inner_ (kn k) sx (mmul (kn k) (kP k) (kHX k)) 1)).
        set (r0 := msub (kHX k) (lmult solve k sx (kHX k))) in *.
        assert (E0 : forall i, (i < kn k)%nat -> res k i j = mmul (km k) sx (msub L ll) i j).
        { intros i Hi. unfold res. fold sx. unfold msub at 1. rewrite (S1 i j Hi Hj). unfold lmult, transform_alloc. cbv zeta. fold ll. unfold mmul, msub. rewrite <- csum_minus. apply csum_ext. intros; ring. }
        transitivity (csum (kn k) (fun i => Cmult (Cconj (mmul (km k) sx (msub L ll) i j)) (mmul (kn k) (kP k) r0 i j))).
        - unfold quad. apply csum_ext. intros i Hi. rewrite <- (E0 i Hi). unfold mmul. rewrite <- csum_scal_l. apply csum_ext. intros l Hl. unfold res, r0, sx. ring.
        - transitivity (csum (km k) (fun q => Cmult (Cconj (msub L ll q j)) (mmul (kn k) (adj sx) (mmul (kn k) (kP k) r0) q j))).
          + transitivity (csum (kn k) (fun i => csum (km k) (fun q => Cmult (Cconj (msub L ll q j)) (Cmult (Cconj (sx i q)) (mmul (kn k) (kP k) r0 i j))))).
            * apply csum_ext. intros i Hi. unfold mmul at 1. rewrite csum_conj, <- csum_scal_r. apply csum_ext. intros q Hq. rewrite Cconj_mult. ring.
            * rewrite csum_swap. apply csum_ext. intros q Hq. rewrite csum_scal_l. reflexivity.
          + apply csum_0. intros q Hq. pose proof (Tn q j Hq Hj) as X. rewrite mmul_scal_r in X. unfold mscal, mzero in X.
            assert (X' : mmul (kn k) (adj sx) (mmul (kn k) (kP k) r0) q j = RtoC 0).
            { set (z := mmul (kn k) (adj sx) (mmul (kn k) (kP k) r0) q j) in *. assert (Y : z = Cmult (RtoC (-1)) (Cmult (RtoC (-1)) z)) by (apply Ceq; cbn; ring). rewrite Y, X. ring. }
            rewrite X'. ring. }
      assert (Z2 : pD k = 0).
      { unfold pD. rewrite rsumn_0; [ring|]. intros i Hi. specialize (S2 i Hi). rewrite (ok_h _ _ _ _ _ _ H i Hi) in S2. unfold dev. rewrite S2, Ec. ring. }
      assert (Z3 : pO k = 0).
      { unfold pO. apply rsumn_0. intros i Hi. apply rsumn_0. intros j Hj. destruct (Nat.eqb i j) eqn:N; [reflexivity|]. apply Nat.eqb_neq in N. destruct (Rltb _ _) eqn:E; [reflexivity|]. apply Rltb_false in E.
        unfold inner_, mscal. rewrite (S3 i j Hi Hj N ltac:(lra)). rewrite Cmult_0_r. unfold nsq, RtoC. cbn. ring. }
      rewrite Z1, Z2, Z3. ring.
  Qed.
End Zero.

(** ** Stationary points are flat *)
Section Flat.
  Context (eigh : nat -> mat -> option (mat * (nat -> R))) (solve : nat -> mat -> mat -> mat) (s : smearing_type) (T mo : R) (mu : R -> R) (world : list (list moving)).
  Hypothesis He : eigh_ok eigh.
  Hypothesis HT : 0 < T.
  Hypothesis Hs : s <> COLD.
  Hypothesis Hm : s <> GAUSSIAN_SPLINE \/ mo = 1.
  Hypothesis Hc : continuous mu 0.
  Hypothesis Hw : forall r p, In r world -> In p r -> moving_ok eigh s T mo (mu 0) p.
  Hypothesis Hcount : locally 0 (fun t => count_at eigh s T mo world (mu t) t = count_at eigh s T mo world (mu 0) 0).
  Let ks := map (map mk) world.
  Let dmu := dmu_deta s T mo ks (mu 0).
  Let dF := dFdmu s T mo ks (mu 0).
  Hypothesis Hdmu : 1 / 10 ^ 12 <= Rabs dmu.
  Context (c : R).
  Hypothesis St : forall r p, In r world -> In p r -> stationary_k c (mk p).

  Lemma dF_c : dF = c * dmu.
  Proof.
    unfold dF, dmu, dFdmu, dmu_deta, ks. rewrite !total_map, <- total_scal. apply total_ext. intros r p Hr Hp.
    rewrite Rmult_comm, <- !rsumn_scal. apply rsumn_ext. intros i Hi. destruct (St r p Hr Hp) as [_ [S2 _]]. rewrite (S2 i Hi). ring.
  Qed.
  Lemma dmu_ne0 : dmu <> 0.
  Proof. intros E. rewrite E, Rabs_R0 in Hdmu. assert (0 < 1 / 10 ^ 12) by (apply Rdiv_lt_0_compat; [lra|apply pow_lt; lra]). lra. Qed.

  Lemma flat_x r p : In r world -> In p r -> ip (kn (mk p)) (km (mk p)) (grad_x solve (mk p)) (mzx p) = RtoC 0.
  Proof.
    intros Hr Hp. pose proof (Hw r p Hr Hp) as H. destruct (St r p Hr Hp) as [[L S1] _]. set (k := mk p) in *. set (sx := mmul (kn k) (kS k) (kX k)) in *.
    set (M := solve (km k) (inner_ (kn k) sx (mmul (kn k) (kP k) sx) 1) (inner_ (kn k) sx (mmul (kn k) (kP k) (kHX k)) 1)).
    transitivity (ip (kn k) (km k) (mmul (km k) sx (fun q j => Cplus (Cmult (RtoC (kw k * kf k j)) (L q j)) (Cmult (RtoC (- kw k)) (M q j)))) (mzx p)).
    - unfold ip. apply csum_ext. intros i Hi. apply csum_ext. intros j Hj.
      assert (E : grad_x solve k i j = mmul (km k) sx (fun q j => Cplus (Cmult (RtoC (kw k * kf k j)) (L q j)) (Cmult (RtoC (- kw k)) (M q j))) i j).
      { unfold grad_x, gradx, add, scale_cols. fold sx. rewrite (S1 i j Hi Hj). unfold lmult, transform_alloc. cbv zeta. fold M. unfold mmul.
        rewrite <- !csum_scal_l, <- csum_plus. apply csum_ext. intros q Hq. ring. }
      rewrite E. reflexivity.
    - apply (ip_tangent k). exact (proj1 (tangent_meq k (mzx p)) (mv_tan _ _ _ _ _ _ H)).
  Qed.

  Lemma flat_e r p : In r world -> In p r -> ip (km (mk p)) (km (mk p)) (grad_e s T mo (mu 0) dmu dF (mk p)) (mze p) = RtoC 0.
  Proof.
    intros Hr Hp. pose proof (Hw r p Hr Hp) as H. destruct (St r p Hr Hp) as [_ [S2 S3]]. set (k := mk p) in *.
    pose proof (kT_pos T HT) as K.
    assert (Hh : hermitian (km k) (mmul (kn k) (adj (kX k)) (kHX k))) by exact (HX0_herm eigh s T mo p (mu 0) H).
    unfold ip. apply csum_0. intros i Hi. apply csum_0. intros j Hj.
    assert (E : grad_e s T mo (mu 0) dmu dF k i j = RtoC 0); [|rewrite E; rewrite ?Cconj_R; ring].
    unfold grad_e. destruct (Nat.eq_dec i j) as [<-|N].
    - rewrite (g_eta_diag s T mo k (mu 0) dmu dF i Hh Hi (mv_h _ _ _ _ _ _ H i Hi) Hdmu). rewrite dF_c. f_equal.
      specialize (S2 i Hi). replace (kh k i) with (c + ke k i) by lra. set (q := sdelta _ _ _). pose proof dmu_ne0. eqR. field. pose proof kb_pos. repeat split; first [assumption|lra].
    - destruct (Rlt_le_dec (Rabs (ke k j - ke k i)) (1 / 10 ^ 10)) as [G|G].
      + apply degenerate_zero; assumption.
      + rewrite apart_value by assumption. unfold inner_, mscal. rewrite (S3 i j Hi Hj N G). ring.
  Qed.

  Theorem stationary_flat : is_derive (curve_energy eigh s T mo world mu) 0 (total (dropped s T mo (mu 0)) world).
  Proof.
    eapply derive_val; [exact (curve_derivative_exact eigh solve s T mo mu world He HT Hs Hm Hc Hw Hcount Hdmu)|].
    apply total_ext. intros r p Hr Hp. cbv beta. fold ks dmu dF. rewrite (flat_x r p Hr Hp), (flat_e r p Hr Hp), !Re_R. ring.
  Qed.
End Flat.

(** ** The steepest descent direction goes down *)
Lemma trial_total eigh p t : (forall m M, eigh m M <> None) -> trial eigh p t <> None.
Proof.
  intros H. unfold trial, geodesic_us, advance_x, loewdin.
  match goal with |- context [eigh ?a ?b] => destruct (eigh a b) as [[U w]|] eqn:E1; [|exfalso; exact (H _ _ E1)] end.
  match goal with |- context [eigh ?a ?b] => destruct (eigh a b) as [[V u]|] eqn:E2; [discriminate|exfalso; exact (H _ _ E2)] end.
Qed.

Lemma rsumn_nonpos m (a : nat -> R) : (forall i, (i < m)%nat -> a i <= 0) -> rsumn m a <= 0.
Proof. intros H. induction m as [|m IH]; cbn [rsumn]; [lra|]. pose proof (H m ltac:(lia)). assert (rsumn m a <= 0) by (apply IH; intros; apply H; lia). lra. Qed.

Lemma quot_nonpos_r (a b d : R) : a <= b -> 0 < d -> (a - b) / d <= 0.
Proof. intros H Hd. assert (0 <= (b - a) / d) by (apply Rmult_le_pos; [lra|apply Rlt_le, Rinv_0_lt_compat, Hd]). replace ((a - b) / d) with (- ((b - a) / d)) by (field; lra). lra. Qed.
Lemma quot_nonpos_l (a b d : R) : b <= a -> d < 0 -> (a - b) / d <= 0.
Proof. intros H Hd. replace ((a - b) / d) with ((b - a) / (- d)) by (field; lra). apply quot_nonpos_r; lra. Qed.

Section Down.
  Context (s : smearing_type) (T kappa mo mu : R).
  Hypothesis Hs : monotone_type s.
  Hypothesis HT : 0 < T.
  Hypothesis Hk : 0 <= kappa.
  Hypothesis Hmo : 0 <= mo.

  (** the dropped pairs only make the steepest descent direction steeper *)
  Lemma delta_dropped k H zx : point_ok s T mo mu k H -> 0 < kw k ->
    dropped s T mo mu (MkMoving k H zx (delta_eta kappa k (inner_ (kn k) (kX k) (kHX k) (kw k)))) <= 0.
  Proof.
    intros P Hw. pose proof (kT_pos T HT) as K. pose proof (point_HX_herm _ _ _ _ _ _ P) as Hh. unfold dropped. cbn [mk mze].
    rewrite <- (Rmult_0_r (kw k)). apply Rmult_le_compat_l; [lra|].
    apply rsumn_nonpos. intros i Hi. apply rsumn_nonpos. intros j Hj. destruct (Nat.eqb i j) eqn:N; [lra|]. destruct (Rlt_dec _ _) as [G|G]; [|lra].
    assert (D : divided s T mo mu (MkMoving k H zx (delta_eta kappa k (inner_ (kn k) (kX k) (kHX k) (kw k)))) i j <= 0).
    { unfold divided. cbn [mk]. destruct (Req_EM_T (ke k j) (ke k i)) as [E|E].
      - pose proof (delta_nonneg s ((ke k i - mu) / (kb Rarith * T)) mo Hs Hmo) as D. unfold Rdiv at 1. rewrite Ropp_mult_distr_l_reverse.
        assert (0 <= / (kb Rarith * T)) by (apply Rlt_le, Rinv_0_lt_compat, K). assert (0 <= sdelta (smearing_class s) ((ke k i - mu) / (kb Rarith * T)) mo * / (kb Rarith * T)) by (apply Rmult_le_pos; assumption). lra.
      - rewrite (pt_f _ _ _ _ _ _ P i Hi), (pt_f _ _ _ _ _ _ P j Hj). destruct (bounds_mono s mo Hs Hmo) as [_ Mo].
        set (x := (mu - ke k i) / (kb Rarith * T)). set (y := (mu - ke k j) / (kb Rarith * T)).
        assert (Dd : ke k j - ke k i = kb Rarith * T * (x - y)) by (unfold x, y; pose proof kb_pos; field; split; lra).
        destruct (Rtotal_order (ke k i) (ke k j)) as [L|[L|L]]; [|congruence|].
        + assert (y <= x). { assert (0 < (kb Rarith * T) * (x - y)) by lra. assert (0 < x - y) by nra. lra. }
          apply quot_nonpos_r; [exact (Mo y x H0)|lra].
        + assert (x <= y). { assert ((kb Rarith * T) * (x - y) < 0) by lra. assert (x - y < 0) by nra. lra. }
          apply quot_nonpos_l; [exact (Mo x y H0)|lra]. }
    assert (E : Re (Cmult (mmul (kn k) (adj (kX k)) (kHX k) i j) (delta_eta kappa k (inner_ (kn k) (kX k) (kHX k) (kw k)) j i)) = kappa * nsq (mmul (kn k) (adj (kX k)) (kHX k) i j)).
    { unfold delta_eta, scale, inner_, mscal. rewrite Nat.eqb_sym, N. pose proof (Hh j i Hj Hi) as E. unfold adj at 1 in E. rewrite <- E.
      set (z := mmul (kn k) (adj (kX k)) (kHX k) i j). unfold nsq. destruct z as [a b]. unfold Cmult, Cconj, RtoC, Re. cbn [fst snd]. field. lra. }
    rewrite E. pose proof (nsq_pos (mmul (kn k) (adj (kX k)) (kHX k) i j)) as Q. assert (0 <= kappa * nsq (mmul (kn k) (adj (kX k)) (kHX k) i j)) by (apply Rmult_le_pos; assumption). nra.
  Qed.
End Down.

(** the steepest descent directions attached to the k-points *)
Definition steepest (solve : nat -> mat -> mat -> mat) (kappa : R) (kH : kpt * mat) : moving :=
  let k := fst kH in
  MkMoving k (snd kH) (precondgx_us k (kHX k) (lmult solve k (mmul (kn k) (kS k) (kX k)) (kHX k))) (delta_eta kappa k (inner_ (kn k) (kX k) (kHX k) (kw k))).
Lemma restart_dirs solve s T kappa mo mu (world : list (list (kpt * mat))) :
  with_dirs world (snd (restarted solve s T kappa mo (map (map fst) world) mu)) = map (map (steepest solve kappa)) world.
Proof.
  unfold restarted. cbn [snd]. set (ex := exec_restart solve s T kappa mo mu _ _). rewrite !map_map.
  assert (X : map (fun x => map (fun r => (snd (fst r), snd r)) (map ex (map fst x))) world = map (map (fun kH : kpt * mat => (snd (fst (ex (fst kH))), snd (ex (fst kH))))) world).
  { apply map_ext. intros r. rewrite !map_map. reflexivity. }
  rewrite X. rewrite <- (map_id world) at 1. rewrite <- (map_ext _ _ (@map_id (kpt * mat)) world) at 1.
  rewrite (with_dirs_map (fun kH => kH)). reflexivity.
Qed.

Lemma posdef_psd n A : posdef n A -> psd n A.
Proof.
  intros H v. assert (D : (exists i, (i < n)%nat /\ v i <> RtoC 0) \/ (forall i, (i < n)%nat -> v i = RtoC 0)).
  { clear H. induction n as [|n [[i [Hi Hv]]|IH]]; [right; intros; lia|left; exists i; split; [lia|exact Hv]|].
    destruct (Req_dec (nsq (v n)) 0) as [Z|Z].
    - right. intros i Hi. destruct (Nat.eq_dec i n) as [->|]; [apply nsq_0, Z|apply IH; lia].
    - left. exists n. split; [lia|]. intros X. apply Z. rewrite X. unfold nsq, RtoC. cbn. ring. }
  destruct D as [D|D]; [apply Rlt_le, H, D|]. unfold quad. rewrite csum_0; [cbn; lra|]. intros i Hi. apply csum_0. intros j Hj. rewrite (D j Hj). ring.
Qed.

Lemma point_kpt_ok solve s T mo mu k H : point_ok s T mo mu k H -> systems_ok solve k -> 0 < kw k -> posdef (kn k) (kP k) -> kpt_ok solve s T mo mu k.
Proof.
  intros P Q Hw Hp. destruct Q as [Q1 Q2 Q3 _]. constructor; try assumption.
  - apply posdef_psd, Hp.
  - exact (point_HX_herm _ _ _ _ _ _ P).
  - exact (pt_h _ _ _ _ _ _ P).
  - exact (pt_f _ _ _ _ _ _ P).
Qed.

Theorem steepest_lowers (eigh : nat -> mat -> option (mat * (nat -> R))) (solve : nat -> mat -> mat -> mat) (s : smearing_type) (T kappa mo mu0 : R) (world : list (list (kpt * mat))) :
  eigh_ok eigh -> (forall m M, eigh m M <> None) -> monotone_type s -> s <> GAUSSIAN_SPLINE \/ mo = 1 -> 0 < T -> 0 < kappa -> 0 < mo ->
  (forall r kH, In r world -> In kH r -> point_ok s T mo mu0 (fst kH) (snd kH) /\ systems_ok solve (fst kH) /\ 0 < kw (fst kH) /\ posdef (kn (fst kH)) (kP (fst kH))) ->
  let ks := map (map fst) world in
  1 / 10 ^ 12 <= Rabs (dmu_deta s T mo ks mu0) ->
  ~ (exists c, forall r k, In r ks -> In k r -> stationary_k c k) ->
  let (slope, dirs) := restarted solve s T kappa mo ks mu0 in
  let W := with_dirs world dirs in
  slope < 0 /\
  exists (mu : R -> R) (t0 : R), 0 < t0 /\ mu 0 = mu0 /\
    forall t, 0 < t < t0 -> count_at eigh s T mo W (mu t) t = count_at eigh s T mo W mu0 0 /\
                            curve_energy eigh s T mo W mu t < curve_energy eigh s T mo W mu 0.
Proof.
  intros He Ht Hs Hsp HT Hk Hmo Hok ks Hd Hn.
  assert (Hc : s <> COLD) by (destruct Hs as [->|[->| ->]]; discriminate).
  assert (Kok : forall r k, In r ks -> In k r -> kpt_ok solve s T mo mu0 k /\ posdef (kn k) (kP k) /\ forall i, (i < km k)%nat -> inside s ((mu0 - ke k i) / (kb Rarith * T))).
  { intros r k Hr Hkr. destruct (in_map2 _ _ _ _ Hr Hkr) as [r0 [kH [Hr0 [Hk0 ->]]]]. destruct (Hok r0 kH Hr0 Hk0) as [P [Q [Pw Pp]]].
    split; [apply (point_kpt_ok solve s T mo mu0 (fst kH) (snd kH)); assumption|split; [exact Pp|exact (pt_in _ _ _ _ _ _ P)]]. }
  pose proof (restarted_descends solve s T kappa mo mu0 Hs HT (Rlt_le _ _ Hk) (Rlt_le _ _ Hmo) ks (fun r k Hr Hkr => proj1 (Kok r k Hr Hkr))) as Le.
  assert (Ne : fst (restarted solve s T kappa mo ks mu0) <> 0).
  { intros E. apply Hn. apply (zero_slope solve s T kappa mo mu0 Hs HT Hk Hmo ks); try assumption.
    - intros r k Hr Hkr. apply (Kok r k Hr Hkr).
    - intros r k Hr Hkr. apply (Kok r k Hr Hkr).
    - intros r k i Hr Hkr Hi. apply (proj2 (proj2 (Kok r k Hr Hkr))). exact Hi. }
  pose proof (restart_dirs solve s T kappa mo mu0 world) as Ed. fold ks in Ed.
  pose proof (fun mu => restart_slope_exact eigh solve s T kappa mo mu He HT Hc Hsp) as Sl.
  destruct (restarted solve s T kappa mo ks mu0) as [slope dirs] eqn:E. cbn [fst snd] in *. cbv zeta. rewrite Ed.
  set (W := map (map (steepest solve kappa)) world) in *.
  assert (Lt : slope < 0) by lra. split; [exact Lt|].
  assert (Hmov : forall r p, In r W -> In p r -> moving_ok eigh s T mo mu0 p).
  { intros r p Hr Hp. destruct (in_map2 _ _ _ _ Hr Hp) as [r0 [kH [Hr0 [Hk0 ->]]]]. destruct (Hok r0 kH Hr0 Hk0) as [P [Q _]].
    apply point_moving; [exact P|exact (delta_tangent_k solve (fst kH) Q)|exact (delta_eta_hermitian kappa _ (point_HX_herm _ _ _ _ _ _ P))|].
    apply filter_forall. intros t. apply trial_total, Ht. }
  assert (EW : map (map mk) W = ks). { unfold W, ks. rewrite map_map. apply map_ext. intros r. rewrite map_map. reflexivity. }
  assert (Hd0 : dmu_deta s T mo (map (map mk) W) mu0 <> 0).
  { rewrite EW. intros X. rewrite X, Rabs_R0 in Hd. assert (0 < 1 / 10 ^ 12) by (apply Rdiv_lt_0_compat; [lra|apply pow_lt; lra]). lra. }
  destruct (mu_exists eigh s T mo mu0 W He HT Hc Hmov Hd0) as [mu [M0 [Mc Mn]]].
  assert (Sd : total (dropped s T mo mu0) W <= 0).
  { rewrite <- (total_zero W). apply total_le. intros r p Hr Hp. destruct (in_map2 _ _ _ _ Hr Hp) as [r0 [kH [Hr0 [Hk0 ->]]]]. destruct (Hok r0 kH Hr0 Hk0) as [P [_ [Pw _]]].
    apply (delta_dropped s T kappa mo mu0 Hs HT (Rlt_le _ _ Hk) (Rlt_le _ _ Hmo)); assumption. }
  specialize (Sl mu Mc world). rewrite M0 in Sl. specialize (Sl (fun r kH Hr Hkr => conj (proj1 (Hok r kH Hr Hkr)) (proj1 (proj2 (Hok r kH Hr Hkr))))).
  cbv zeta in Sl. fold ks in Sl. specialize (Sl Hd). rewrite E in Sl. rewrite Ed in Sl.
  specialize (Sl (fun r p _ _ => filter_forall _ (fun t => trial_total eigh p t Ht)) Mn).
  destruct (negative_slope _ _ Sl ltac:(lra)) as [t1 [Ht1 Dn]]. destruct Mn as [eps Mn].
  exists mu, (Rmin t1 eps). split; [apply Rmin_glb_lt; [exact Ht1|apply cond_pos]|split; [exact M0|]]. intros t [Tp Tl].
  pose proof (Rmin_l t1 eps). pose proof (Rmin_r t1 eps). split; [|apply Dn; lra].
  apply Mn. change (Rabs (t + - 0) < eps). rewrite Ropp_0, Rplus_0_r, Rabs_pos_eq; lra.
Qed.

(** ** Conjugate directions *)
Lemma conjugate_moving (eigh : nat -> mat -> option (mat * (nat -> R))) (solve : nat -> mat -> mat -> mat) (s : smearing_type) (T kappa mo mu0 fr_old : R) (world : list (list ((kpt * (mat * mat * mat)) * mat))) :
  (forall m M, eigh m M <> None) ->
  (forall r y, In r world -> In y r ->
     point_ok s T mo mu0 (fst (fst y)) (snd y) /\ systems_ok solve (fst (fst y)) /\
     (let '(_, zetap, _) := snd (fst y) in hermitian (km (fst (fst y))) zetap)) ->
  let kz := map (map fst) world in
  let W := with_dirs (map (map (fun y => (fst (fst y), snd y))) world) (snd (conjugated solve s T kappa mo fr_old kz mu0)) in
  (forall r p, In r W -> In p r -> moving_ok eigh s T mo mu0 p) /\ map (map mk) W = map (map fst) kz.
Proof.
  intros Ht Hok kz. cbv zeta. set (ks := map (map fst) kz).
  destruct (conjugated solve s T kappa mo fr_old kz mu0) as [[fr slope] dirs] eqn:E. cbn [snd].
  unfold conjugated in E. cbv zeta in E. fold ks in E.
  set (dF := dFdmu s T mo ks mu0) in *. set (dmu := dmu_deta s T mo ks mu0) in *.
  set (ex := fun kz : kpt * (mat * mat * mat) => match kz with (k, (zxp, zetap, ul)) => exec_cg solve s T kappa mo mu0 dmu dF k zxp zetap ul end) in *.
  set (gm := total _ (map (map ex) kz) / fr_old) in *.
  set (dr := fun r : R * mat * mat * mat * mat * R => match r with (_, dx, de, zx, ze, _) => (add zx dx 1 gm, add ze de 1 gm) end) in *.
  assert (E2 : dirs = map (map dr) (map (map ex) kz)) by congruence. clear E.
  assert (E3 : dirs = map (map (fun y => dr (ex (fst y)))) world).
  { rewrite E2. unfold kz. rewrite !map_map. apply map_ext. intros r. rewrite !map_map. reflexivity. }
  rewrite E3, (with_dirs_map (fun y : (kpt * (mat * mat * mat)) * mat => (fst (fst y), snd y))). split.
  - intros r p Hr Hp. destruct (in_map2 _ _ _ _ Hr Hp) as [r0 [[[k [[zxp zetap] ul]] H] [Hr0 [Hk ->]]]].
    destruct (Hok r0 _ Hr0 Hk) as [P [Q Z]]. cbn [fst snd] in *. apply point_moving; [exact P| | |apply filter_forall; intros t; apply trial_total, Ht].
    + unfold ex, exec_cg, exec_conjugate. cbv zeta. cbn [dr fst snd]. apply add_tangent; [exact (conjugatex_tangent solve k _ Q)|exact (delta_tangent_k solve k Q)].
    + unfold ex, exec_cg, exec_conjugate. cbv zeta. cbn [dr fst snd]. apply add_hermitian; [exact (rotateeta_hermitian k zetap ul Z)|].
      exact (delta_eta_hermitian kappa k (point_HX_herm _ _ _ _ _ _ P)).
  - unfold ks, kz. rewrite !map_map. apply map_ext. intros r. rewrite !map_map. reflexivity.
Qed.

Theorem conjugate_lowers (eigh : nat -> mat -> option (mat * (nat -> R))) (solve : nat -> mat -> mat -> mat) (s : smearing_type) (T kappa mo mu0 fr_old : R) (world : list (list ((kpt * (mat * mat * mat)) * mat))) :
  eigh_ok eigh -> (forall m M, eigh m M <> None) -> s <> COLD -> s <> GAUSSIAN_SPLINE \/ mo = 1 -> 0 < T ->
  (forall r y, In r world -> In y r ->
     point_ok s T mo mu0 (fst (fst y)) (snd y) /\ systems_ok solve (fst (fst y)) /\
     (let '(_, zetap, _) := snd (fst y) in hermitian (km (fst (fst y))) zetap)) ->
  let kz := map (map fst) world in
  let ks := map (map fst) kz in
  1 / 10 ^ 12 <= Rabs (dmu_deta s T mo ks mu0) ->
  let '(_, slope, dirs) := conjugated solve s T kappa mo fr_old kz mu0 in
  let W := with_dirs (map (map (fun y => (fst (fst y), snd y))) world) dirs in
  slope + total (dropped s T mo mu0) W < 0 ->
  exists (mu : R -> R) (t0 : R), 0 < t0 /\ mu 0 = mu0 /\
    forall t, 0 < t < t0 -> count_at eigh s T mo W (mu t) t = count_at eigh s T mo W mu0 0 /\
                            curve_energy eigh s T mo W mu t < curve_energy eigh s T mo W mu 0.
Proof.
  intros He Ht Hc Hsp HT Hok kz ks Hd.
  pose proof (conjugate_moving eigh solve s T kappa mo mu0 fr_old world Ht Hok) as [Hmov EW]. fold kz ks in Hmov, EW.
  pose proof (fun mu => conjugate_slope_exact eigh solve s T kappa mo mu He HT Hc Hsp) as Sl.
  destruct (conjugated solve s T kappa mo fr_old kz mu0) as [[fr slope] dirs] eqn:E. cbn [snd] in *. cbv zeta. intros Neg.
  set (W := with_dirs _ dirs) in *.
  assert (Hd0 : dmu_deta s T mo (map (map mk) W) mu0 <> 0).
  { rewrite EW. intros X. rewrite X, Rabs_R0 in Hd. assert (0 < 1 / 10 ^ 12) by (apply Rdiv_lt_0_compat; [lra|apply pow_lt; lra]). lra. }
  destruct (mu_exists eigh s T mo mu0 W He HT Hc Hmov Hd0) as [mu [M0 [Mc Mn]]].
  specialize (Sl mu Mc fr_old world). rewrite M0 in Sl. specialize (Sl Hok Hd). fold kz in Sl. rewrite E in Sl. cbv zeta in Sl. fold W in Sl.
  specialize (Sl (fun r p _ _ => filter_forall _ (fun t => trial_total eigh p t Ht)) Mn).
  destruct (negative_slope _ _ Sl Neg) as [t1 [Ht1 Dn]]. destruct Mn as [eps Mn].
  exists mu, (Rmin t1 eps). split; [apply Rmin_glb_lt; [exact Ht1|apply cond_pos]|split; [exact M0|]]. intros t [Tp Tl].
  pose proof (Rmin_l t1 eps). pose proof (Rmin_r t1 eps). split; [|apply Dn; lra].
  apply Mn. change (Rabs (t + - 0) < eps). rewrite Ropp_0, Rplus_0_r, Rabs_pos_eq; lra.
Qed.
