(** The line search in exact arithmetic. *)
From Coq Require Import ZArith List Bool Lia Reals Lra Psatz.
From Verif Require Import Arith LineSearch LineSearchProofs.
Import ListNotations.
Local Open Scope R_scope.

Lemma Rlit0 : alit Rarith 0 1 = 0. Proof. cbn. unfold Rlit. field. Qed.
Lemma Rlit1 : alit Rarith 1 1 = 1. Proof. cbn. unfold Rlit. field. Qed.
Lemma Rlit2 : alit Rarith 2 1 = 2. Proof. cbn. unfold Rlit. field. Qed.
Lemma Rlit5 : alit Rarith 5 1 = 5. Proof. cbn. unfold Rlit. field. Qed.
Lemma Rlit_eps : alit Rarith 1 100000000 = / 100000000. Proof. cbn. unfold Rlit. field. Qed.

Section LSR.
  Context (St P E : Type).
  Context (getF : St -> R).
  Context (G : R -> St -> (P + E) * St).
  Notation mem := (lsmem R St P).
  Notation callG := (callG Rarith St P E getF G).
  Notation bt_loop := (bt_loop Rarith St P E getF G).
  Notation bt_search := (bt_search Rarith St P E getF G).
  Notation q_loop := (q_loop Rarith St P E getF G).
  Notation qline := (qline Rarith St P E getF G).
  Notation line_search := (line_search Rarith St P E getF G).

  (** The functional reports the energies of the function [F] of the step length. *)
  Definition landscape (F : R -> R) : Prop :=
    forall t s, exists p s', G t s = (inl p, s') /\ getF s' = F t.

  Lemma callG_inl t (m : mem) p s' : G t (fst_ m) = (inl p, s') ->
    callG t m = (Ret p, MkMem s' (frestart m) ((t, Some p, getF s') :: evals m)).
  Proof. intros H. unfold LineSearch.callG. cbn [num Rarith]. rewrite H. reflexivity. Qed.

  (** ** C03: exact minimiser of a quadratic landscape *)
  Lemma line_search_quadratic n n' tt tau slope a (m : mem) :
    slope <= 0 -> 0 < a -> tt <> 0 ->
    landscape (fun t => getF (fst_ m) + slope * t + a * t * t) ->
    exists p q s m',
      line_search (S n) n' tt tau slope m = (Ret (p, Qline), m') /\
      frestart m' = false /\
      G (- slope / (2 * a)) s = (inl p, fst_ m') /\
      evals m' = (- slope / (2 * a), Some p, getF (fst_ m')) ::
                 (tt, Some q, getF (fst_ m) + slope * tt + a * tt * tt) :: evals m.
  Proof.
    intros Hs Ha Ht HF.
    destruct (HF tt (fst_ m)) as (q & s1 & Hg1 & HF1).
    destruct (HF (- slope / (2 * a)) s1) as (p & s2 & Hg2 & HF2).
    exists p, q, s1, (MkMem s2 false ((- slope / (2 * a), Some p, getF s2) ::
          (tt, Some q, getF (fst_ m) + slope * tt + a * tt * tt) :: evals m)).
    cbn [fst_ frestart evals]. split; [|auto].
    unfold LineSearch.line_search. unfold agtb. rewrite Rlit0.
    replace (altb Rarith 0 slope) with false
      by (symmetry; apply Rltb_false; exact Hs).
    assert (Hq : q_loop (S n) (getF (fst_ m)) slope tt m =
      (Ret (- slope / (2 * a)), MkMem s1 (frestart m)
         ((tt, Some q, getF (fst_ m) + slope * tt + a * tt * tt) :: evals m))).
    { cbn [LineSearch.q_loop]. rewrite (callG_inl _ _ _ _ Hg1).
      cbn [fst_ frestart evals]. unfold q_a, q_tmin. cbn [adiv asub amul aopp altb Rarith].
      rewrite HF1.
      replace ((getF (fst_ m) + slope * tt + a * tt * tt - slope * tt - getF (fst_ m)) / (tt * tt))
        with a by (field; exact Ht).
      rewrite Rlit0, Rlit2. replace (Rltb a 0) with false by (symmetry; apply Rltb_false; lra).
      reflexivity. }
    unfold LineSearch.qline. cbn [num Rarith] in *. rewrite Hq.
    erewrite callG_inl by (cbn [fst_]; exact Hg2). cbn [fst_ frestart evals].
    unfold agtb. cbn [altb Rarith]. rewrite HF2.
    match goal with |- context [Rltb ?x ?y] => replace (Rltb x y) with false end.
    - reflexivity.
    - symmetry; apply Rltb_false.
      assert (slope * (- slope / (2 * a)) + a * (- slope / (2 * a)) * (- slope / (2 * a)) =
              - (slope * slope) / (4 * a)) by (field; lra).
      assert (0 <= slope * slope / (4 * a)).
      { apply Rmult_le_pos; [nra|]. left. apply Rinv_0_lt_compat. lra. }
      replace (- (slope * slope) / (4 * a)) with (- (slope * slope / (4 * a))) in H by (field; lra).
      lra.
  Qed.

  Lemma quadratic_minimum F0 slope a t :
    0 < a ->
    F0 + slope * (- slope / (2 * a)) + a * (- slope / (2 * a)) * (- slope / (2 * a))
      <= F0 + slope * t + a * t * t.
  Proof.
    intros Ha.
    replace (F0 + slope * t + a * t * t) with
      (F0 + slope * (- slope / (2 * a)) + a * (- slope / (2 * a)) * (- slope / (2 * a)) +
       a * (t + slope / (2 * a)) * (t + slope / (2 * a))) by (field; lra).
    assert (0 <= a * (t + slope / (2 * a)) * (t + slope / (2 * a))).
    { rewrite Rmult_assoc. apply Rmult_le_pos; [lra|apply Rle_0_sqr]. }
    lra.
  Qed.

  (** ** Growth of the trial step: stops on every landscape that is bounded below *)
  Lemma q_loop_stops N F0 slope tt (m : mem) lo :
    (forall t s, lo <= getF (snd (G t s))) ->
    slope < 0 -> 0 < tt -> (F0 - lo) / - slope <= tt * 5 ^ N ->
    exists r m', q_loop (S N) F0 slope tt m = (r, m') /\ r <> NoFuel.
  Proof.
    intros Hlo Hs. revert tt m. induction N as [|N IH]; intros tt m Ht Hb;
      cbn [LineSearch.q_loop]; destruct (callG tt m) as [o m1] eqn:Hc;
      (pose proof (callG_not _ _ _ _ _ _ _ _ _ _ Hc) as [[p ->]|(e & -> & _)];
      [|eexists _, _; split; [reflexivity|discriminate]]).
    - apply callG_ret in Hc. destruct Hc as (Hg & _ & _).
      unfold q_a. cbn [adiv asub amul altb Rarith]. rewrite Rlit0.
      replace (Rltb _ 0) with false; [eexists _, _; split; [reflexivity|discriminate]|].
      symmetry; apply Rltb_false. apply Rmult_le_pos.
      + pose proof (Hlo tt (fst_ m)) as HF. cbn [num Rarith] in Hg. rewrite Hg in HF. cbn [snd] in HF.
        rewrite pow_O, Rmult_1_r in Hb.
        apply (Rmult_le_compat_r (- slope)) in Hb; [|lra].
        unfold Rdiv in Hb. rewrite Rmult_assoc, Rinv_l in Hb by lra. cbn [num Rarith]. lra.
      + left. apply Rinv_0_lt_compat. nra.
    - destruct (altb Rarith _ _); [|eexists _, _; split; [reflexivity|discriminate]].
      apply IH.
      + cbn [amul Rarith]. rewrite Rlit5. lra.
      + cbn [amul Rarith]. rewrite Rlit5. rewrite <- tech_pow_Rmult in Hb. lra.
  Qed.

  (** ** Backtracking *)
  Lemma bt_loop_stops_le tau F0 tt (m : mem) : tau <= 0 ->
    exists r m', bt_loop 1 tau F0 tt m = (r, m') /\ r <> NoFuel.
  Proof.
    intros Htau. cbn [LineSearch.bt_loop]. unfold agtb. rewrite Rlit_eps, Rlit0.
    assert (Hend : forall m1 : mem, exists r m',
       (if frestart m1 then (Throw DescentError, m1)
        else callG 0 {| fst_ := fst_ m1; frestart := true; evals := evals m1 |}) = (r, m') /\ r <> NoFuel).
    { intros m1. destruct (frestart m1); [eexists _, _; split; [reflexivity|discriminate]|].
      unfold LineSearch.callG. destruct (G _ _) as [[?|?] ?]; eexists _, _; (split; [reflexivity|discriminate]). }
    destruct (altb Rarith (/ 100000000) tt) eqn:Ht; [|apply Hend].
    apply Rltb_true in Ht.
    destruct (callG tt m) as [o m1] eqn:Hc.
    pose proof (callG_not _ _ _ _ _ _ _ _ _ _ Hc) as [[p ->]|(e & -> & _)];
      [|eexists _, _; split; [reflexivity|discriminate]].
    destruct (altb Rarith (getF (fst_ m1)) F0); [eexists _, _; split; [reflexivity|discriminate]|].
    assert (Hn : altb Rarith (/ 100000000) (amul Rarith tt tau) = false).
    { apply Rltb_false. cbn [amul Rarith]. nra. }
    cbn [LineSearch.bt_loop]. rewrite Hn. apply Hend.
  Qed.

  (** For 0 < tau < 1 the number of trial points is at most the least N with
      tt * tau^N <= 1e-8. *)
  Lemma bt_loop_stops N tau F0 tt (m : mem) : 0 < tau -> tt * tau ^ N <= / 100000000 ->
    exists r m', bt_loop N tau F0 tt m = (r, m') /\ r <> NoFuel.
  Proof.
    intros Htau. revert tt m.
    assert (Hend : forall m1 : mem, exists r m',
       (if frestart m1 then (Throw DescentError, m1)
        else callG 0 {| fst_ := fst_ m1; frestart := true; evals := evals m1 |}) = (r, m') /\ r <> NoFuel).
    { intros m1. destruct (frestart m1); [eexists _, _; split; [reflexivity|discriminate]|].
      unfold LineSearch.callG. destruct (G _ _) as [[?|?] ?]; eexists _, _; (split; [reflexivity|discriminate]). }
    induction N as [|N IH]; intros tt m Hb; cbn [LineSearch.bt_loop]; unfold agtb; rewrite Rlit_eps, Rlit0.
    - rewrite pow_O, Rmult_1_r in Hb.
      replace (altb Rarith (/ 100000000) tt) with false by (symmetry; apply Rltb_false; exact Hb).
      apply Hend.
    - destruct (altb Rarith (/ 100000000) tt); [|apply Hend].
      destruct (callG tt m) as [o m1] eqn:Hc.
      pose proof (callG_not _ _ _ _ _ _ _ _ _ _ Hc) as [[p ->]|(e & -> & _)];
        [|eexists _, _; split; [reflexivity|discriminate]].
      destruct (altb Rarith (getF (fst_ m1)) F0); [eexists _, _; split; [reflexivity|discriminate]|].
      apply IH. cbn [amul Rarith]. rewrite <- tech_pow_Rmult in Hb. lra.
  Qed.

  Lemma bt_search_stops tau F0 tt (m : mem) :
    exists N r m', bt_search N tt tau F0 m = (r, m') /\ r <> NoFuel.
  Proof.
    destruct (Rlt_dec tau 1) as [Hlt|Hge].
    - destruct (Rle_dec tau 0) as [Hneg|Hpos].
      + exists 1%nat. destruct (bt_loop_stops_le tau F0 tt m Hneg) as (r & m' & H & Hr).
        exists r, m'. split; [|exact Hr]. unfold LineSearch.bt_search, ageb.
        rewrite Rlit1. replace (aleb Rarith 1 tau) with false by (symmetry; apply Rleb_false; exact Hlt).
        exact H.
      + assert (Hex : exists N, tt * tau ^ N <= / 100000000).
        { destruct (Rle_dec tt (/ 100000000)) as [Hs|Hb].
          - exists 0%nat. rewrite pow_O; lra.
          - destruct (pow_lt_1_zero tau) with (y := / (100000000 * tt)) as (N & HN).
            + rewrite Rabs_pos_eq; lra.
            + apply Rinv_0_lt_compat. assert (0 < / 100000000) by (apply Rinv_0_lt_compat; lra). nra.
            + exists N. specialize (HN N (Nat.le_refl N)).
              rewrite Rabs_pos_eq in HN by (apply pow_le; lra).
              assert (0 < / 100000000) by (apply Rinv_0_lt_compat; lra).
              assert (Htt : 0 < tt) by lra.
              apply Rle_trans with (tt * / (100000000 * tt)).
              * apply Rmult_le_compat_l; lra.
              * right. field. lra. }
        destruct Hex as (N & HN). exists N.
        destruct (bt_loop_stops N tau F0 tt m) as (r & m' & H & Hr); [lra|exact HN|].
        exists r, m'. split; [|exact Hr]. unfold LineSearch.bt_search, ageb.
        rewrite Rlit1. replace (aleb Rarith 1 tau) with false by (symmetry; apply Rleb_false; exact Hlt).
        exact H.
    - exists 0%nat, (Throw RuntimeError), m. split; [|discriminate].
      unfold LineSearch.bt_search, ageb. rewrite Rlit1.
      replace (aleb Rarith 1 tau) with true by (symmetry; apply Rleb_true; lra). reflexivity.
  Qed.
End LSR.

(** ** Non-termination in exact arithmetic on a landscape that is unbounded below:
    F(t) = -t - t*t, slope -1.  The functional's state is the last step length. *)
Definition fall_F (t : R) : R := - t - t * t.
Definition fall_G (t : R) (s : R) : (unit + Empty_set) * R := (inl tt, t).

Lemma q_loop_diverges n t (m : lsmem R R unit) : t <> 0 ->
  fst (q_loop Rarith R unit Empty_set fall_F fall_G n 0 (-1) t m) = NoFuel.
Proof.
  revert t m. induction n as [|n IH]; intros t m Ht; [reflexivity|].
  cbn [LineSearch.q_loop]. unfold callG, fall_G. cbn [fst_]. unfold q_a. cbn [adiv asub amul altb Rarith].
  rewrite Rlit0. replace (Rltb _ 0) with true.
  - apply IH. rewrite Rlit5. lra.
  - symmetry. apply Rltb_true. unfold fall_F.
    replace ((- t - t * t - -1 * t - 0) / (t * t)) with (-1) by (field; exact Ht). lra.
Qed.

Lemma line_search_diverges n n' tau :
  fst (line_search Rarith R unit Empty_set fall_F fall_G n n' (1/5) tau (-1)
         (MkMem 0 false nil)) = NoFuel.
Proof.
  unfold line_search. unfold agtb. rewrite Rlit0.
  replace (altb Rarith 0 (-1)) with false by (symmetry; apply Rltb_false; lra).
  unfold qline. cbn [fst_]. replace (fall_F 0) with 0 by (unfold fall_F; lra).
  match goal with |- context [q_loop ?a ?b ?c ?d ?e ?f ?g ?h ?i ?j ?k] =>
    assert (H : fst (q_loop a b c d e f g h i j k) = NoFuel) by (apply q_loop_diverges; lra);
    destruct (q_loop a b c d e f g h i j k) as [r m'] end.
  cbn [fst] in H. subst r. reflexivity.
Qed.
