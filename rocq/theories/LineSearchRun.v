(** Line search lemmas in the form used by the property file. *)
From Coq Require Import ZArith List Bool Lia Reals Lra.
From Flocq Require Import IEEE754.BinarySingleNaN.
From Verif Require Import Arith LineSearch LineSearchSpec LineSearchProofs LineSearchReal Float64 LineSearchFloat.
Import ListNotations.

Section Gen.
  Context (A : arith) (St P E : Type) (getF : St -> num A) (G : num A -> St -> (P + E) * St).
  Notation mem := (lsmem (num A) St P).
  Notation line_search := (line_search A St P E getF G).

  (** C01 *)
  Lemma ls_never_higher n n' tt tau slope (m : mem) p k m' :
    line_search n n' tt tau slope m = (Ret (p, k), m') ->
    (k = Qline /\ frestart m' = false /\ altb A (getF (fst_ m)) (getF (fst_ m')) = false) \/
    (k = Btsearch /\ frestart m' = false /\ altb A (getF (fst_ m')) (getF (fst_ m)) = true) \/
    (k = Btsearch /\ frestart m' = true /\ exists s, G (alit A 0 1) s = (inl p, fst_ m')).
  Proof.
    intros H. apply line_search_ret in H. destruct H as (tl & l & _ & (s & Hg) & H).
    destruct H as [H|[H|(H1 & H2 & _ & ->)]]; eauto 10.
  Qed.

  (** C06 *)
  Lemma ls_bad_tau n n' tt tau slope (m : mem) r m' :
    ageb A tau (alit A 1 1) = true ->
    line_search n n' tt tau slope m = (r, m') -> altb A (alit A 0 1) slope = false ->
    r = NoFuel \/ (exists e, r = Throw (OtherExn e)) \/
    (exists p, r = Ret (p, Qline) /\ altb A (getF (fst_ m)) (getF (fst_ m')) = false) \/
    (r = Throw RuntimeError /\ altb A (getF (fst_ m)) (getF (fst_ m')) = true /\
     frestart m' = frestart m /\ exists p, quad_trace A St P E getF G (getF (fst_ m)) slope tt m m' p).
  Proof.
    intros Ht H Hs. pose proof (line_search_cases _ _ _ _ _ _ _ _ _ _ _ _ _ _ H Hs) as Hc. cbv zeta in Hc.
    destruct Hc as [Hc|[Hc|[(p & Hc & Hf & HF & Hq)|(p1 & m1 & Hq & HF & Hf & [(_ & Hc & ->)|(Hx & _)])]]].
    - auto.
    - auto.
    - right; right; left. eauto.
    - right; right; right. split; [exact Hc|]. split; [exact HF|]. split; [exact Hf|]. eauto.
    - congruence.
  Qed.

  Lemma ls_good_tau n n' tt tau slope (m : mem) m' :
    ageb A tau (alit A 1 1) = false ->
    line_search n n' tt tau slope m <> (Throw RuntimeError, m').
  Proof.
    intros Ht H. destruct (altb A (alit A 0 1) slope) eqn:Hs.
    { rewrite line_search_uphill in H by exact Hs. discriminate. }
    pose proof (line_search_cases _ _ _ _ _ _ _ _ _ _ _ _ _ _ H Hs) as Hc. cbv zeta in Hc.
    destruct Hc as [Hc|[(e & Hc)|[(p & Hc & _)|(p1 & m1 & _ & _ & _ & [(Hx & _)|(_ & l & u & _ & Hc)])]]];
      try discriminate; try congruence.
    destruct Hc as [(p & s & Hc & _)|[(Hc & _)|(p & s & Hc & _)]]; discriminate.
  Qed.

  (** C07 *)
  Lemma ls_point_is_state n n' tt tau slope (m : mem) p k m' :
    line_search n n' tt tau slope m = (Ret (p, k), m') ->
    exists t l s, G t s = (inl p, fst_ m') /\ evals m' = (t, Some p, getF (fst_ m')) :: l ++ evals m.
  Proof.
    intros H. apply line_search_ret in H. destruct H as (tl & l & Hn & (s & Hg) & _).
    exists tl, l, s. split; [exact Hg|]. exact Hn.
  Qed.

  (** C08 on one search: what "no trial point lowers the energy" leads to. *)
  Lemma ls_failed n n' tt tau slope (m : mem) r m' :
    ageb A tau (alit A 1 1) = false ->
    line_search n n' tt tau slope m = (r, m') -> altb A (alit A 0 1) slope = false ->
    (forall e, r <> Throw (OtherExn e)) -> r <> NoFuel ->
    (* either some point was accepted because of its energy ... *)
    (exists p k, r = Ret (p, k) /\ frestart m' = false) \/
    (* ... or the search failed: the parabola's minimum is higher and all backtracking points,
       down to a step of at most 1e-8, are not lower *)
    (exists p1 m1 l u,
      quad_trace A St P E getF G (getF (fst_ m)) slope tt m m1 p1 /\
      altb A (getF (fst_ m)) (getF (fst_ m1)) = true /\
      bt_trials A P (getF (fst_ m)) tau tt l u /\ altb A (alit A 1 100000000) u = false /\
      ((frestart m = true /\ r = Throw DescentError /\ evals m' = l ++ evals m1) \/
       (frestart m = false /\ frestart m' = true /\ exists p s, r = Ret (p, Btsearch) /\
          G (alit A 0 1) s = (inl p, fst_ m') /\
          evals m' = (alit A 0 1, Some p, getF (fst_ m')) :: l ++ evals m1))).
  Proof.
    intros Ht H Hs He Hn. pose proof (line_search_cases _ _ _ _ _ _ _ _ _ _ _ _ _ _ H Hs) as Hc. cbv zeta in Hc.
    destruct Hc as [Hc|[(e & Hc)|[(p & Hc & Hf & HF & Hq)|(p1 & m1 & Hq & HF & Hf & [(Hx & _)|(_ & l & u & Hb & Hc)])]]];
      try congruence.
    - left; eauto.
    - destruct Hc as [(p & s & -> & H1 & _)|[(-> & H1 & H2 & H3 & H4)|(p & s & -> & H1 & H2 & H3 & H4 & H5)]].
      + left; eauto.
      + right. exists p1, m1, l, u. repeat (split; [assumption|]). left. auto.
      + right. exists p1, m1, l, u. repeat (split; [assumption|]). right. eauto 10.
  Qed.

  (** ** Evaluation counts *)
  Lemma callG_count t (m : mem) o m' : callG A St P E getF G t m = (o, m') ->
    length (evals m') = S (length (evals m)).
  Proof. unfold callG. destruct (G t (fst_ m)) as [[p|e] s]; intros H; inversion H; reflexivity. Qed.

  Lemma q_loop_count n F0 slope t (m : mem) o m' : q_loop A St P E getF G n F0 slope t m = (o, m') ->
    length (evals m') <= length (evals m) + n.
  Proof.
    revert t m. induction n as [|n IH]; intros t m H; cbn [q_loop] in H.
    - inversion H; subst. lia.
    - destruct (callG A St P E getF G t m) as [o1 m1] eqn:Hc. apply callG_count in Hc.
      destruct o1 as [p|e| |]; try (inversion H; subst; lia).
      destruct (altb A _ _); [|inversion H; subst; lia].
      apply IH in H. lia.
  Qed.

  Lemma qline_count n t slope (m : mem) o m' : qline A St P E getF G n t slope m = (o, m') ->
    length (evals m') <= length (evals m) + n + 1.
  Proof.
    unfold qline. destruct (q_loop A St P E getF G n (getF (fst_ m)) slope t m) as [o1 m1] eqn:Hq.
    apply q_loop_count in Hq. destruct o1 as [tm|e| |]; try (intros H; inversion H; subst; lia).
    destruct (callG A St P E getF G tm m1) as [o2 m2] eqn:Hc. apply callG_count in Hc.
    destruct o2 as [p|e| |]; try (intros H; inversion H; subst; lia).
    destruct (agtb A _ _); intros H; inversion H; subst; cbn; lia.
  Qed.

  Lemma bt_loop_count n tau F0 t (m : mem) o m' : bt_loop A St P E getF G n tau F0 t m = (o, m') ->
    length (evals m') <= length (evals m) + n + 1.
  Proof.
    revert t m. induction n as [|n IH]; intros t m H; cbn [bt_loop] in H.
    - destruct (agtb A t _); [inversion H; subst; lia|].
      destruct (frestart m); [inversion H; subst; lia|]. apply callG_count in H. cbn in H. lia.
    - destruct (agtb A t _).
      + destruct (callG A St P E getF G t m) as [o1 m1] eqn:Hc. apply callG_count in Hc.
        destruct o1 as [p|e| |]; try (inversion H; subst; lia).
        destruct (altb A _ _); [inversion H; subst; cbn; lia|].
        apply IH in H. lia.
      + destruct (frestart m); [inversion H; subst; lia|]. apply callG_count in H. cbn in H. lia.
  Qed.
End Gen.

(** C04 in double precision *)
Section F.
  Context (St P E : Type) (getF : St -> f64) (G : f64 -> St -> (P + E) * St).
  Notation mem := (lsmem (num F64) St P).

  Lemma qline_f64_02 slope (m : mem) :
    exists o m', qline F64 St P E getF G 223 (flit 1 5) slope m = (o, m') /\ o <> NoFuel /\
                 length (evals m') <= length (evals m) + 224.
  Proof.
    destruct (qline F64 St P E getF G 223 (flit 1 5) slope m) as [o m'] eqn:H. exists o, m'.
    split; [reflexivity|]. split.
    - pose proof (qline_nofuel St P E getF G 223 (flit 1 5) slope m (q_loop_f64_02 St P E getF G _ slope m)) as Hn.
      rewrite H in Hn. exact Hn.
    - apply qline_count in H. lia.
  Qed.

  Lemma qline_f64_any t slope (m : mem) : is_finite_strict t = true ->
    exists o m', qline F64 St P E getF G 795 t slope m = (o, m') /\ o <> NoFuel /\
                 length (evals m') <= length (evals m) + 796.
  Proof.
    intros Ht. destruct (qline F64 St P E getF G 795 t slope m) as [o m'] eqn:H. exists o, m'.
    split; [reflexivity|]. split.
    - pose proof (qline_nofuel St P E getF G 795 t slope m (q_loop_f64_any St P E getF G _ slope t m Ht)) as Hn.
      rewrite H in Hn. exact Hn.
    - apply qline_count in H. lia.
  Qed.

  (** C05 in double precision *)
  Lemma bt_search_f64 n t tau F0 (m : mem) : is_finite t = true -> (units t <= Z.of_nat n)%Z ->
    fst (bt_search F64 St P E getF G (S n) t tau F0 m) <> NoFuel.
  Proof.
    intros Ht Hn. unfold bt_search. destruct (ageb F64 tau (alit F64 1 1)) eqn:Hb; [discriminate|].
    apply bt_loop_f64; [exact Ht| |exact Hn]. exact Hb.
  Qed.
End F.

(** C04 in exact arithmetic, energies bounded below *)
Section Rb.
  Context (St P E : Type) (getF : St -> R) (G : R -> St -> (P + E) * St).
  Notation mem := (lsmem (num Rarith) St P).

  Lemma pow5_unbounded (x : R) : exists n, (x <= 5 ^ n)%R.
  Proof.
    destruct (Pow_x_infinity 5) with (b := x) as (n & Hn).
    - rewrite Rabs_right; lra.
    - exists n. specialize (Hn n (le_n n)). rewrite Rabs_right in Hn; [lra|].
      apply Rle_ge, pow_le. lra.
  Qed.

  Lemma line_search_real_stops tt tau slope (m : mem) lo :
    (forall t s, (lo <= getF (snd (G t s)))%R) -> (0 < tt)%R -> (slope < 0)%R ->
    exists n n', fst (line_search Rarith St P E getF G n n' tt tau slope m) <> NoFuel.
  Proof.
    intros Hlo Htt Hs. destruct (pow5_unbounded ((getF (fst_ m) - lo) / - slope / tt)) as (n & Hn).
    assert (Hb : ((getF (fst_ m) - lo) / - slope <= tt * 5 ^ n)%R).
    { replace ((getF (fst_ m) - lo) / - slope)%R with (tt * ((getF (fst_ m) - lo) / - slope / tt))%R by (field; lra).
      apply Rmult_le_compat_l; [lra|exact Hn]. }
    destruct (q_loop_stops St P E getF G n (getF (fst_ m)) slope tt m lo Hlo Hs Htt Hb) as (o & m1 & Hq & Ho).
    exists (S n).
    unfold line_search. destruct (agtb Rarith slope _); [exists O; discriminate|].
    unfold qline. cbn [num Rarith] in *. rewrite Hq.
    destruct o as [tm|e| |]; try (exists O; discriminate); [| |congruence].
    2:{ exists O. destruct e; try discriminate. exfalso.
        pose proof (q_loop_spec Rarith St P E getF G _ _ _ _ _ _ _ Hq) as Hsp.
        destruct Hsp as [Hsp|[(e & Hsp)|(l & u & p & F & _ & _ & _ & Hsp)]]; try discriminate.
        cbv zeta in Hsp. destruct Hsp as (_ & Hsp & _). discriminate. }
    destruct (callG Rarith St P E getF G tm m1) as [o2 m2] eqn:Hc.
    pose proof (callG_not Rarith _ _ _ _ _ _ _ _ _ Hc) as [[p ->]|(e & -> & _)]; [|exists O; cbn; intros Hx; discriminate Hx].
    match goal with |- context [agtb Rarith ?a ?b] => destruct (agtb Rarith a b) end; [|exists O; cbn; discriminate].
    destruct (bt_search_stops St P E getF G tau (getF (fst_ m)) tt m2) as (n' & r & m' & Hb' & Hr).
    exists n'. cbn [num Rarith] in *. rewrite Hb'. destruct r; try discriminate. congruence.
  Qed.
End Rb.
