(** Proofs about the line search model, for every arithmetic and every functional. *)
From Coq Require Import ZArith List Bool Lia.
From Verif Require Import Arith LineSearch LineSearchSpec.
Import ListNotations.

Section LSP.
  Context (A : arith) (St P E : Type).
  Context (getF : St -> num A).
  Context (G : num A -> St -> (P + E) * St).
  Notation mem := (lsmem (num A) St P).
  Notation callG := (callG A St P E getF G).
  Notation bt_loop := (bt_loop A St P E getF G).
  Notation bt_search := (bt_search A St P E getF G).
  Notation q_loop := (q_loop A St P E getF G).
  Notation qline := (qline A St P E getF G).
  Notation line_search := (line_search A St P E getF G).
  Notation new_evals := (new_evals A St P).
  Notation trials := (trials A P).
  Notation bt_ok := (bt_ok A).
  Notation q_ok := (q_ok A).
  Notation quad_trace := (quad_trace A St P E getF G).
  Notation bt_trials := (bt_trials A P).

  Lemma callG_ret t (m m' : mem) p :
    callG t m = (Ret p, m') ->
    G t (fst_ m) = (inl p, fst_ m') /\ frestart m' = frestart m /\
    evals m' = (t, Some p, getF (fst_ m')) :: evals m.
  Proof.
    unfold LineSearch.callG. destruct (G t (fst_ m)) as [[q|e] s']; intros H; inversion H; subst; auto.
  Qed.

  Lemma callG_not t (m m' : mem) r :
    callG t m = (r, m') ->
    (exists p, r = Ret p) \/
    (exists e, r = Throw (OtherExn e) /\ frestart m' = frestart m /\
               evals m' = (t, None, getF (fst_ m')) :: evals m /\ G t (fst_ m) = (inr e, fst_ m')).
  Proof.
    unfold LineSearch.callG. destruct (G t (fst_ m)) as [[q|e] s']; intros H; inversion H; subst; eauto 10.
  Qed.

  (** ** Surplus fuel does not change a finished run *)
  Lemma bt_loop_fuel n k tau F0 t m r :
    bt_loop n tau F0 t m = r -> fst r <> NoFuel -> bt_loop (n + k) tau F0 t m = r.
  Proof.
    revert t m. induction n as [|n IH]; intros t m H Hn.
    - cbn [LineSearch.bt_loop plus] in *. destruct (agtb A t _) eqn:Ht.
      + subst r; cbn in Hn; congruence.
      + destruct k; cbn [LineSearch.bt_loop]; rewrite Ht; exact H.
    - cbn [LineSearch.bt_loop plus] in *. destruct (agtb A t _) eqn:Ht; [|exact H].
      destruct (callG t m) as [o m'] eqn:Hc. destruct o; try exact H.
      destruct (altb A _ F0) eqn:Hf; [exact H|]. apply IH; assumption.
  Qed.

  Lemma q_loop_fuel n k F0 slope t m r :
    q_loop n F0 slope t m = r -> fst r <> NoFuel -> q_loop (n + k) F0 slope t m = r.
  Proof.
    revert t m. induction n as [|n IH]; intros t m H Hn.
    - cbn in H. subst r; cbn in Hn; congruence.
    - cbn [LineSearch.q_loop plus] in *.
      destruct (callG t m) as [o m'] eqn:Hc. destruct o; try exact H.
      destruct (altb A _ _) eqn:Hf; [|exact H]. apply IH; assumption.
  Qed.

  Lemma qline_fuel n k tt slope m r :
    qline n tt slope m = r -> fst r <> NoFuel -> qline (n + k) tt slope m = r.
  Proof.
    unfold LineSearch.qline. intros H Hn.
    destruct (q_loop n (getF (fst_ m)) slope tt m) as [o m1] eqn:Hq.
    assert (Hne : o <> NoFuel) by (intros ->; subst r; apply Hn; reflexivity).
    rewrite (q_loop_fuel n k _ _ _ _ _ Hq); [exact H| exact Hne].
  Qed.

  Lemma bt_search_fuel n k tt tau F0 m r :
    bt_search n tt tau F0 m = r -> fst r <> NoFuel -> bt_search (n + k) tt tau F0 m = r.
  Proof.
    unfold LineSearch.bt_search. intros H Hn. destruct (ageb A tau _); [exact H|].
    apply bt_loop_fuel; assumption.
  Qed.

  Lemma line_search_fuel n n' k k' tt tau slope m r :
    line_search n n' tt tau slope m = r -> fst r <> NoFuel ->
    line_search (n + k) (n' + k') tt tau slope m = r.
  Proof.
    unfold LineSearch.line_search. intros H Hn. destruct (agtb A slope _); [exact H|].
    destruct (qline n tt slope m) as [o m1] eqn:Hq.
    assert (Hne : o <> NoFuel) by (intros ->; subst r; apply Hn; reflexivity).
    rewrite (qline_fuel n k _ _ _ _ Hq) by exact Hne.
    destruct o as [p|e| |]; try exact H. destruct e; try exact H.
    destruct (bt_search n' tt tau (getF (fst_ m)) m1) as [o2 m2] eqn:Hb.
    assert (Hne2 : o2 <> NoFuel) by (intros ->; subst r; apply Hn; reflexivity).
    rewrite (bt_search_fuel n' k' _ _ _ _ _ Hb) by exact Hne2. exact H.
  Qed.

  (** ** Specification of trial sequences *)

  Lemma trials_front step (ok : num A -> num A -> Prop) t p F l u :
    ok t F -> trials step ok (step t) l u -> trials step ok t (l ++ [(t, Some p, F)]) u.
  Proof.
    intros Hok H. induction H as [|l u q F' H IH Hok'].
    - cbn. apply (trials_next A P step ok t nil t); [apply trials_nil|exact Hok].
    - cbn. apply trials_next; assumption.
  Qed.

  (** ** Characterisation of the loops *)
  Lemma bt_loop_spec n tau F0 t m r m' :
    bt_loop n tau F0 t m = (r, m') ->
    r = NoFuel \/ (exists e, r = Throw (OtherExn e)) \/
    exists l u, trials (fun x => amul A x tau) (bt_ok F0) t l u /\
      ((exists p s, r = Ret p /\ altb A (alit A 1 100000000) u = true /\ G u s = (inl p, fst_ m') /\
          altb A (getF (fst_ m')) F0 = true /\ frestart m' = false /\
          new_evals m m' ((u, Some p, getF (fst_ m')) :: l)) \/
       (altb A (alit A 1 100000000) u = false /\ frestart m = true /\ frestart m' = true /\
          r = Throw DescentError /\ new_evals m m' l) \/
       (exists p s, altb A (alit A 1 100000000) u = false /\ frestart m = false /\ frestart m' = true /\
          r = Ret p /\ G (alit A 0 1) s = (inl p, fst_ m') /\
          new_evals m m' ((alit A 0 1, Some p, getF (fst_ m')) :: l))).
  Proof.
    revert t m.
    assert (Hend : forall t (m : mem), agtb A t (alit A 1 100000000) = false ->
       (if frestart m then (Throw DescentError, m)
        else callG (alit A 0 1) (MkMem (fst_ m) true (evals m))) = (r, m') ->
       r = NoFuel \/ (exists e, r = Throw (OtherExn e)) \/
       exists l u, trials (fun x => amul A x tau) (bt_ok F0) t l u /\
      ((exists p s, r = Ret p /\ altb A (alit A 1 100000000) u = true /\ G u s = (inl p, fst_ m') /\
          altb A (getF (fst_ m')) F0 = true /\ frestart m' = false /\
          new_evals m m' ((u, Some p, getF (fst_ m')) :: l)) \/
       (altb A (alit A 1 100000000) u = false /\ frestart m = true /\ frestart m' = true /\
          r = Throw DescentError /\ new_evals m m' l) \/
       (exists p s, altb A (alit A 1 100000000) u = false /\ frestart m = false /\ frestart m' = true /\
          r = Ret p /\ G (alit A 0 1) s = (inl p, fst_ m') /\
          new_evals m m' ((alit A 0 1, Some p, getF (fst_ m')) :: l)))).
    { intros t m Ht H. destruct (frestart m) eqn:Hfr.
      - inversion H; subst. right; right. exists nil, t. split; [apply trials_nil|].
        right; left. repeat split; auto.
      - pose proof (callG_not _ _ _ _ H) as [[p ->]|(e' & He & _)]; [|right; left; eauto].
        apply callG_ret in H. cbn in H. destruct H as (Hg & Hf & Hl).
        right; right. exists nil, t. split; [apply trials_nil|]. right; right.
        exists p, (fst_ m). repeat split; auto. }
    induction n as [|n IH]; intros t m H; cbn [LineSearch.bt_loop] in H;
      destruct (agtb A t (alit A 1 100000000)) eqn:Ht.
    - inversion H; auto.
    - apply Hend; assumption.
    - destruct (callG t m) as [o m1] eqn:Hc.
      pose proof (callG_not _ _ _ _ Hc) as [[p ->]|(e' & -> & _)];
        [|inversion H; subst; right; left; eauto].
      pose proof (callG_ret _ _ _ _ Hc) as (Hg & Hf & Hl).
      destruct (altb A (getF (fst_ m1)) F0) eqn:HF.
      + inversion H; subst; clear H. cbn. right; right. exists nil, t. split; [apply trials_nil|].
        left. exists p, (fst_ m). repeat split; auto.
      + apply IH in H. destruct H as [H|[H|(l & u & Htr & H)]]; [auto|auto|]. right; right.
        exists (l ++ [(t, Some p, getF (fst_ m1))]), u.
        split. { apply trials_front; [split; assumption|exact Htr]. }
        assert (Happ : forall l0, new_evals m1 m' (l0 ++ l) ->
                   new_evals m m' (l0 ++ l ++ [(t, Some p, getF (fst_ m1))])).
        { intros l0 Hn. unfold LineSearchSpec.new_evals in *. rewrite Hn, Hl. rewrite <- !app_assoc. reflexivity. }
        rewrite Hf in H. destruct H as [(q & s & H)|[H|(q & s & H)]].
        * left. exists q, s. decompose [and] H. repeat split; auto.
          apply (Happ [(u, Some q, getF (fst_ m'))]). assumption.
        * right; left. decompose [and] H. repeat split; auto. apply (Happ nil). assumption.
        * right; right. exists q, s. decompose [and] H. repeat split; auto.
          apply (Happ [(alit A 0 1, Some q, getF (fst_ m'))]). assumption.
    - apply Hend; assumption.
  Qed.

  Lemma q_loop_spec n F0 slope t m r m' :
    q_loop n F0 slope t m = (r, m') ->
    r = NoFuel \/ (exists e, r = Throw (OtherExn e)) \/
    exists l u p F, trials (fun x => amul A x (alit A 5 1)) (q_ok F0 slope) t l u /\
      frestart m' = frestart m /\ F = getF (fst_ m') /\
      let a := adiv A (asub A (asub A F (amul A slope u)) F0) (amul A u u) in
      altb A a (alit A 0 1) = false /\
      r = Ret (adiv A (aopp A slope) (amul A (alit A 2 1) a)) /\
      new_evals m m' ((u, Some p, F) :: l).
  Proof.
    revert t m. induction n as [|n IH]; intros t m H; cbn [LineSearch.q_loop] in H.
    - inversion H; auto.
    - destruct (callG t m) as [o m1] eqn:Hc.
      pose proof (callG_not _ _ _ _ Hc) as [[p ->]|(e' & -> & _)];
        [|inversion H; subst; right; left; eauto].
      pose proof (callG_ret _ _ _ _ Hc) as (Hg & Hf & Hl).
      destruct (altb A (q_a A F0 slope t (getF (fst_ m1))) (alit A 0 1)) eqn:Ha.
      + apply IH in H. destruct H as [H|[H|(l & u & q & F & Htr & Hfr & HF & H)]]; [auto|auto|].
        right; right. exists (l ++ [(t, Some p, getF (fst_ m1))]), u, q, F.
        split. { apply trials_front; [exact Ha|exact Htr]. }
        split; [congruence|]. split; [exact HF|]. cbv zeta in *. destruct H as (H1 & H2 & H3).
        split; [exact H1|]. split; [exact H2|].
        unfold LineSearchSpec.new_evals in *. rewrite H3, Hl. cbn [app]. rewrite <- app_assoc. reflexivity.
      + inversion H; subst. right; right. exists nil, t, p, (getF (fst_ m')).
        split; [apply trials_nil|]. split; [assumption|]. split; [reflexivity|]. cbv zeta.
        split; [exact Ha|]. split; [reflexivity|]. exact Hl.
  Qed.

  Lemma q_loop_frestart n F0 slope t m r m' :
    q_loop n F0 slope t m = (r, m') -> frestart m' = frestart m.
  Proof.
    revert t m. induction n as [|n IH]; intros t m H; cbn [LineSearch.q_loop] in H.
    - inversion H; auto.
    - destruct (callG t m) as [o m1] eqn:Hc.
      pose proof (callG_not _ _ _ _ Hc) as [[p ->]|(e' & -> & Hf & _)].
      + pose proof (callG_ret _ _ _ _ Hc) as (Hg & Hf & Hl).
        destruct (altb A _ _); [apply IH in H; congruence|inversion H; subst; assumption].
      + inversion H; subst; assumption.
  Qed.

  Lemma qline_spec n tt slope m r m' :
    qline n tt slope m = (r, m') ->
    let F0 := getF (fst_ m) in
    r = NoFuel \/ (exists e, r = Throw (OtherExn e)) \/
    exists p, quad_trace F0 slope tt m m' p /\
      ((altb A F0 (getF (fst_ m')) = false /\ r = Ret p /\ frestart m' = false) \/
       (altb A F0 (getF (fst_ m')) = true /\ r = Throw StepError /\ frestart m' = frestart m)).
  Proof.
    intros H F0. unfold LineSearch.qline in H. fold F0 in H.
    destruct (q_loop n F0 slope tt m) as [o m1] eqn:Hq.
    pose proof (q_loop_spec _ _ _ _ _ _ _ Hq) as [->|[(e & ->)|(l & u & q & F & Htr & Hfr & HF & Hrest)]].
    - inversion H; auto.
    - inversion H; subst; right; left; eauto.
    - cbv zeta in Hrest. destruct Hrest as (Ha & -> & Hn).
      set (tm := adiv A (aopp A slope) _) in *.
      destruct (callG tm m1) as [o2 m2] eqn:Hc.
      pose proof (callG_not _ _ _ _ Hc) as [[p ->]|(e' & -> & _)];
        [|inversion H; subst; right; left; eauto].
      pose proof (callG_ret _ _ _ _ Hc) as (Hg & Hf2 & Hl2).
      right; right. exists p.
      assert (Hqt : forall m3, fst_ m3 = fst_ m2 -> evals m3 = evals m2 -> quad_trace F0 slope tt m m3 p).
      { intros m3 E1 E2. exists l, u, q, F, (fst_ m1). split; [exact Htr|]. cbv zeta.
        split; [exact Ha|]. split; [rewrite E1; exact Hg|].
        unfold LineSearchSpec.new_evals in *. rewrite E1, E2, Hl2, Hn. reflexivity. }
      unfold agtb in H. destruct (altb A F0 (getF (fst_ m2))) eqn:HF2; inversion H; subst.
      + split; [apply Hqt; reflexivity|]. right. repeat split; congruence.
      + split; [apply Hqt; reflexivity|]. left. cbn. auto.
  Qed.

  (** Everything one line search can do, for a direction that is not uphill. *)
  Lemma line_search_cases n n' tt tau slope m r m' :
    line_search n n' tt tau slope m = (r, m') ->
    altb A (alit A 0 1) slope = false ->
    let F0 := getF (fst_ m) in
    (* a callback threw, or the model ran out of fuel *)
    r = NoFuel \/ (exists e, r = Throw (OtherExn e)) \/
    (* accepted by the quadratic step *)
    (exists p, r = Ret (p, Qline) /\ frestart m' = false /\
       altb A F0 (getF (fst_ m')) = false /\ quad_trace F0 slope tt m m' p) \/
    (* quadratic step failed *)
    (exists p1 m1, quad_trace F0 slope tt m m1 p1 /\ altb A F0 (getF (fst_ m1)) = true /\
       frestart m1 = frestart m /\
       ((ageb A tau (alit A 1 1) = true /\ r = Throw RuntimeError /\ m' = m1) \/
        (ageb A tau (alit A 1 1) = false /\
         exists l u, bt_trials F0 tau tt l u /\
          ((exists p s, r = Ret (p, Btsearch) /\ frestart m' = false /\
              altb A (alit A 1 100000000) u = true /\ G u s = (inl p, fst_ m') /\
              altb A (getF (fst_ m')) F0 = true /\
              new_evals m1 m' ((u, Some p, getF (fst_ m')) :: l)) \/
           (r = Throw DescentError /\ frestart m = true /\ frestart m' = true /\
              altb A (alit A 1 100000000) u = false /\ new_evals m1 m' l) \/
           (exists p s, r = Ret (p, Btsearch) /\ frestart m = false /\ frestart m' = true /\
              altb A (alit A 1 100000000) u = false /\ G (alit A 0 1) s = (inl p, fst_ m') /\
              new_evals m1 m' ((alit A 0 1, Some p, getF (fst_ m')) :: l)))))).
  Proof.
    intros H Hs F0. unfold LineSearch.line_search, agtb in H. rewrite Hs in H.
    destruct (qline n tt slope m) as [o m1] eqn:Hq.
    pose proof (qline_spec _ _ _ _ _ _ Hq) as Hsp. cbv zeta in Hsp. fold F0 in Hsp, H.
    destruct Hsp as [->|[(e & ->)|(p & Htr & [(HF & -> & Hf)|(HF & -> & Hf)])]].
    - inversion H; auto.
    - inversion H; subst; right; left; eauto.
    - inversion H; subst. right; right; left. exists p. auto.
    - unfold LineSearch.bt_search in H. destruct (ageb A tau (alit A 1 1)) eqn:Htau.
      + inversion H; subst. right; right; right. exists p, m'. repeat (split; [assumption|]). left; auto.
      + destruct (bt_loop n' tau F0 tt m1) as [o2 m2] eqn:Hb.
        pose proof (bt_loop_spec _ _ _ _ _ _ _ Hb) as [->|[(e & ->)|(l & u & Hbt & Hc)]].
        * inversion H; auto.
        * inversion H; subst; right; left; eauto.
        * right; right; right. exists p, m1. repeat (split; [assumption|]). right.
          split; [reflexivity|]. exists l, u. split; [exact Hbt|].
          rewrite Hf in Hc. destruct Hc as [(q & s & -> & Hc)|[Hc|(q & s & Hc)]].
          -- inversion H; subst. left. exists q, s. tauto.
          -- destruct Hc as (H1 & H2 & H3 & -> & H4). inversion H; subst. right; left. tauto.
          -- destruct Hc as (H1 & H2 & H3 & -> & H4 & H5). inversion H; subst. right; right.
             exists q, s. tauto.
  Qed.

  (** ** C02 *)
  Lemma line_search_uphill n n' tt tau slope m :
    altb A (alit A 0 1) slope = true ->
    line_search n n' tt tau slope m = (Throw SlopeError, m).
  Proof. unfold LineSearch.line_search, agtb. intros ->. reflexivity. Qed.

  Lemma line_search_slope_error n n' tt tau slope m m' :
    line_search n n' tt tau slope m = (Throw SlopeError, m') ->
    altb A (alit A 0 1) slope = true.
  Proof.
    intros H. destruct (altb A (alit A 0 1) slope) eqn:Hs; [reflexivity|exfalso].
    pose proof (line_search_cases _ _ _ _ _ _ _ _ H Hs) as Hc. cbv zeta in Hc.
    destruct Hc as [Hc|[(e & Hc)|[(p & Hc & _)|(p1 & m1 & _ & _ & _ & [(_ & Hc & _)|(_ & l & u & _ & Hc)])]]];
      try discriminate.
    destruct Hc as [(p & s & Hc & _)|[(Hc & _)|(p & s & Hc & _)]]; discriminate.
  Qed.

  Lemma line_search_noub n n' tt tau slope m m' :
    line_search n n' tt tau slope m <> (UB, m').
  Proof.
    intros H. destruct (altb A (alit A 0 1) slope) eqn:Hs.
    { rewrite line_search_uphill in H by exact Hs. discriminate. }
    pose proof (line_search_cases _ _ _ _ _ _ _ _ H Hs) as Hc. cbv zeta in Hc.
    destruct Hc as [Hc|[(e & Hc)|[(p & Hc & _)|(p1 & m1 & _ & _ & _ & [(_ & Hc & _)|(_ & l & u & _ & Hc)])]]];
      try discriminate.
    destruct Hc as [(p & s & Hc & _)|[(Hc & _)|(p & s & Hc & _)]]; discriminate.
  Qed.

  (** ** C01 / C07: what a normal return guarantees. *)
  Lemma line_search_ret n n' tt tau slope m p k m' :
    line_search n n' tt tau slope m = (Ret (p, k), m') ->
    exists tl l, new_evals m m' ((tl, Some p, getF (fst_ m')) :: l) /\
       (exists s, G tl s = (inl p, fst_ m')) /\
       ((k = Qline /\ frestart m' = false /\ altb A (getF (fst_ m)) (getF (fst_ m')) = false) \/
        (k = Btsearch /\ frestart m' = false /\ altb A (getF (fst_ m')) (getF (fst_ m)) = true) \/
        (k = Btsearch /\ frestart m' = true /\ frestart m = false /\ tl = alit A 0 1)).
  Proof.
    intros H. destruct (altb A (alit A 0 1) slope) eqn:Hs.
    { rewrite line_search_uphill in H by exact Hs. discriminate. }
    pose proof (line_search_cases _ _ _ _ _ _ _ _ H Hs) as Hc. cbv zeta in Hc.
    destruct Hc as [Hc|[(e & Hc)|[(q & Hc & Hf & HF & Hq)|(p1 & m1 & Hq & HF & Hf & [(_ & Hc & _)|(_ & l & u & _ & Hc)])]]];
      try discriminate.
    - inversion Hc; subst q k. destruct Hq as (l & u & q & F & s & _ & Hq). cbv zeta in Hq.
      destruct Hq as (_ & Hg & Hn). eexists _, _. split; [exact Hn|]. split; [eauto|]. left; auto.
    - destruct Hq as (l1 & u1 & q1 & F1 & s1 & _ & Hq). cbv zeta in Hq. destruct Hq as (_ & _ & Hn1).
      assert (Happ : forall l2, new_evals m1 m' l2 -> exists l3, new_evals m m' (l2 ++ l3)).
      { intros l2 H2. unfold LineSearchSpec.new_evals in *. eexists. rewrite H2, Hn1, <- app_assoc. reflexivity. }
      destruct Hc as [(q & s & Hc & H1 & H2 & H3 & H4 & H5)|[(Hc & _)|(q & s & Hc & H1 & H2 & H3 & H4 & H5)]];
        inversion Hc; subst q k.
      + apply Happ in H5. destruct H5 as (l3 & H5). exists u, (l ++ l3). split; [exact H5|].
        split; [eauto|]. right; left; auto.
      + apply Happ in H5. destruct H5 as (l3 & H5). exists (alit A 0 1), (l ++ l3). split; [exact H5|].
        split; [eauto|]. right; right; auto.
  Qed.
End LSP.
