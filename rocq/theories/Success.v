(** When the line search (src/linesearch/linesearch.hpp 27-154, LineSearch.v) succeeds, in exact arithmetic. *)
From Coq Require Import ZArith List Bool Lia Reals Lra Psatz.
From Coquelicot Require Import Coquelicot.
From Verif Require Import Arith LineSearch LineSearchSpec LineSearchProofs LineSearchReal Driver.
Import ListNotations.
Local Open Scope R_scope.

(** Specification: the energies at all steps shorter than [d] are lower. *)
Definition falls (F : R -> R) (F0 d : R) : Prop := forall t, 0 < t < d -> F t < F0.

Section Find.
  Context (St P E : Type).
  Context (getF : St -> R).
  Context (G : R -> St -> (P + E) * St).
  Notation mem := (lsmem R St P).
  Notation callG := (callG Rarith St P E getF G).
  Notation bt_loop := (bt_loop Rarith St P E getF G).
  Notation bt_search := (bt_search Rarith St P E getF G).
  Notation q_loop := (q_loop Rarith St P E getF G).
  Notation qline := (qline Rarith St P E getF G).
  Notation line_search := (line_search Rarith St P E getF G).
  Context (F : R -> R).
  Hypothesis HL : landscape St P E getF G F.

  Lemma call t (m : mem) : exists p s', callG t m = (Ret p, MkMem s' (frestart m) ((t, Some p, F t) :: evals m)) /\ getF s' = F t /\ G t (fst_ m) = (inl p, s').
  Proof.
    destruct (HL t (fst_ m)) as [p [s' [Hg Hf]]]. exists p, s'. split; [|exact (Logic.conj Hf Hg)]. rewrite (callG_inl St P E getF G t m p s' Hg), Hf. reflexivity.
  Qed.

  Lemma bt_loop_finds d F0 tau : falls F F0 d -> 0 < tau < 1 -> / 100000000 < tau * d ->
    forall n t (m : mem) r m', / 100000000 < t -> bt_loop n tau F0 t m = (r, m') -> r <> NoFuel ->
    exists p u, r = Ret p /\ frestart m' = false /\ getF (fst_ m') = F u /\ F u < F0 /\ Rmin t (tau * d) <= u <= t /\
                (exists l, evals m' = (u, Some p, F u) :: l) /\ exists s1, G u s1 = (inl p, fst_ m').
  Proof.
    intros Hf Ht Hd. induction n as [|n IH]; intros t m r m' Hb H Hr.
    - cbn [LineSearch.bt_loop] in H. rewrite Rlit_eps in H. unfold agtb in H. cbn [altb Rarith] in H. rewrite (proj2 (Rltb_true _ _) Hb) in H. congruence.
    - cbn [LineSearch.bt_loop] in H. rewrite Rlit_eps in H. unfold agtb in H. cbn [altb Rarith] in H. rewrite (proj2 (Rltb_true _ _) Hb) in H.
      destruct (call t m) as [p [s' [Hc [Hs Hg]]]]. rewrite Hc in H. cbn [fst_ evals frestart] in H. rewrite Hs in H.
      destruct (Rltb (F t) F0) eqn:L.
      + inversion H; subst r m'. exists p, t. apply Rltb_true in L. split; [reflexivity|split; [reflexivity|split; [exact Hs|split; [exact L|split]]]].
        * split; [apply Rmin_l|lra].
        * split; [cbn [evals]; eexists; reflexivity|exists (fst_ m); exact Hg].
      + apply Rltb_false in L. assert (d <= t) by (destruct (Rle_lt_dec d t) as [X|X]; [exact X|]; assert (0 < t) by lra; pose proof (Hf t ltac:(lra)); lra).
        assert (/ 100000000 < t * tau) by nra.
        destruct (IH _ _ _ _ H1 H Hr) as [p' [u [E1 [E2 [E3 [E4 [[E5 E6] E7]]]]]]].
        exists p', u. split; [exact E1|split; [exact E2|split; [exact E3|split; [exact E4|split; [|exact E7]]]]]. split; [|nra].
        eapply Rle_trans; [|exact E5]. eapply Rle_trans; [apply Rmin_r|]. apply Rmin_glb; nra.
  Qed.

  Lemma bt_loop_fails F0 tau t0 : 0 < tau < 1 -> (forall t, / 100000000 < t <= t0 -> F0 <= F t) ->
    forall n t (m : mem) r m', t <= t0 -> frestart m = true -> bt_loop n tau F0 t m = (r, m') -> r <> NoFuel -> r = Throw DescentError.
  Proof.
    intros Ht Hf. induction n as [|n IH]; intros t m r m' Hb Hm H Hr; cbn [LineSearch.bt_loop] in H; rewrite Rlit_eps in H; unfold agtb in H; cbn [altb Rarith] in H;
      destruct (Rltb (/ 100000000) t) eqn:L.
    - congruence.
    - destruct m as [s0 fr ev]. cbn [frestart] in Hm, H. subst fr. cbv iota in H. inversion H. reflexivity.
    - apply Rltb_true in L. destruct (call t m) as [p [s' [Hc [Hs Hg]]]]. rewrite Hc in H. cbn [fst_ evals frestart] in H. rewrite Hs in H.
      rewrite (proj2 (Rltb_false (F t) F0)) in H by (apply Hf; split; [exact L|exact Hb]). assert (Hb' : t * tau <= t0) by (assert (0 < t) by lra; nra). exact (IH (t * tau) (MkMem s' (frestart m) ((t, Some p, F t) :: evals m)) r m' Hb' Hm H Hr).
    - destruct m as [s0 fr ev]. cbn [frestart] in Hm, H. subst fr. cbv iota in H. inversion H. reflexivity.
  Qed.

  Lemma q_loop_land n F0 slope ts (m : mem) r m' : q_loop n F0 slope ts m = (r, m') -> r <> NoFuel -> (exists t, r = Ret t) /\ frestart m' = frestart m.
  Proof.
    revert ts m. induction n as [|n IH]; intros ts m H Hr; cbn [LineSearch.q_loop] in H; [congruence|].
    destruct (call ts m) as [p [s' [Hc [Hs Hg]]]]. rewrite Hc in H. cbn [fst_] in H. destruct (altb Rarith _ _).
    - destruct (IH _ _ H Hr) as [X Y]. split; [exact X|exact Y].
    - inversion H. split; [eexists; reflexivity|reflexivity].
  Qed.

  (** The line search succeeds on every landscape that falls long enough. *)
  Theorem line_search_succeeds n n' tt tau slope d (m : mem) r m' :
    slope <= 0 -> 0 < tau < 1 -> / 100000000 < tt -> falls F (getF (fst_ m)) d -> / 100000000 < tau * d ->
    line_search n n' tt tau slope m = (r, m') -> r <> NoFuel ->
    exists p k t, r = Ret (p, k) /\ frestart m' = false /\ getF (fst_ m') = F t /\
      (exists l, evals m' = (t, Some p, F t) :: l) /\ (exists s1, G t s1 = (inl p, fst_ m')) /\
      match k with Qline => F t <= getF (fst_ m) | Btsearch => F t < getF (fst_ m) /\ Rmin tt (tau * d) <= t <= tt end.
  Proof.
    intros Hs Ht Htt Hf Hd H Hr. unfold LineSearch.line_search, agtb in H. rewrite Rlit0 in H. cbn [altb Rarith] in H.
    rewrite (proj2 (Rltb_false 0 slope)) in H by exact Hs. unfold LineSearch.qline in H.
    match type of H with context [LineSearch.q_loop ?a ?b ?c ?d ?e ?f ?g ?h ?i ?j ?k] => destruct (LineSearch.q_loop a b c d e f g h i j k) as [o m1] eqn:Q end.
    destruct o as [tm| | |]; [|destruct (q_loop_land _ _ _ _ _ _ _ Q ltac:(discriminate)) as [[x X] _]; discriminate X..|cbv iota beta in H; exact (False_ind _ (Hr (eq_sym (f_equal fst H))))].
    pose proof (q_loop_land _ _ _ _ _ _ _ Q ltac:(discriminate)) as [_ Fr].
    destruct (call tm m1) as [p [s' [Hc [Hs' Hg]]]]. rewrite Hc in H. cbn [fst_ evals frestart] in H. rewrite Hs' in H. unfold agtb in H. cbn [altb Rarith] in H. change (num Rarith) with R in H.
    destruct (Rltb (getF (fst_ m)) (F tm)) eqn:L.
    - unfold LineSearch.bt_search, ageb in H. rewrite Rlit1 in H. cbn [aleb Rarith] in H. unfold Rleb in H.
      destruct (Rle_dec 1 tau) as [X|X]; [lra|].
      match type of H with context [LineSearch.bt_loop ?a ?b ?c ?d ?e ?f ?g ?h ?i ?j ?k] => destruct (LineSearch.bt_loop a b c d e f g h i j k) as [o2 m2] eqn:B end.
      assert (N2 : o2 <> NoFuel) by (intros ->; cbv iota beta in H; exact (Hr (eq_sym (f_equal fst H)))).
      destruct (bt_loop_finds d _ tau Hf Ht Hd _ _ _ _ _ Htt B N2) as [p' [u [E1 [E2 [E3 [E4 [E5 [E6 E7]]]]]]]]. subst o2. inversion H; subst.
      exists p', Btsearch, u. split; [reflexivity|split; [exact E2|split; [exact E3|split; [exact E6|split; [exact E7|split; [exact E4|exact E5]]]]]].
    - inversion H; subst. apply Rltb_false in L. exists p, Qline, tm. cbn [frestart fst_ evals].
      split; [reflexivity|split; [reflexivity|split; [exact Hs'|split; [eexists; reflexivity|split; [exists (fst_ m1); exact Hg|exact L]]]]].
  Qed.
End Find.

(** Smooth landscapes: the derivative starts at [slope] and grows at most at the rate [K]. *)
Lemma smooth_falls (F f : R -> R) (slope K D : R) : 0 < K -> slope < 0 ->
  (forall t, 0 <= t <= D -> is_derive F t (f t) /\ f t <= slope + K * t) -> falls F (F 0) (Rmin D (2 * - slope / K)).
Proof.
  intros HK Hs Hd t [Hp Ht].
  assert (HD : t < D) by (eapply Rlt_le_trans; [exact Ht|apply Rmin_l]).
  assert (Hq : t < 2 * - slope / K) by (eapply Rlt_le_trans; [exact Ht|apply Rmin_r]).
  set (g := fun x => F x - slope * x - K * x ^ 2 / 2).
  destruct (MVT_gen g 0 t (fun x => f x - slope - K * x)) as [c [Hc E]].
  - intros x Hx. rewrite Rmin_left, Rmax_right in Hx by lra. unfold g.
    apply (is_derive_minus (fun x => F x - slope * x) (fun x => K * x ^ 2 / 2)).
    + apply (is_derive_minus F (fun x => slope * x)); [apply (Hd x); lra|]. auto_derive; [exact I|ring].
    + auto_derive; [exact I|field].
  - intros x Hx. rewrite Rmin_left, Rmax_right in Hx by lra. apply continuity_pt_filterlim.
    apply (ex_derive_continuous (fun x => F x - slope * x - K * x ^ 2 / 2)). eexists.
    apply (is_derive_minus (fun x => F x - slope * x) (fun x => K * x ^ 2 / 2)).
    + apply (is_derive_minus F (fun x => slope * x)); [apply (Hd x); lra|]. auto_derive; [exact I|reflexivity].
    + auto_derive; [exact I|reflexivity].
  - rewrite Rmin_left, Rmax_right in Hc by lra. destruct (Hd c ltac:(lra)) as [_ Bc]. unfold g in E.
    assert (K * t < 2 * - slope). { apply Rmult_lt_compat_r with (r := K) in Hq; [|exact HK]. unfold Rdiv in Hq. rewrite Rmult_assoc, Rinv_l in Hq by lra. lra. }
    assert (F t - F 0 <= slope * t + K * t ^ 2 / 2) by nra. nra.
Qed.

(** ** Witnesses *)
(** the functional remembers the last step length *)
Definition stay (t : R) (_ : R) : (unit + Empty_set) * R := (inl tt, t).
Lemma stay_landscape F : landscape R unit Empty_set F stay F.
Proof. intros t s. exists tt, t. split; reflexivity. Qed.

(** *** An accepted step that does not lower the energy, next to an evaluated point that does *)
Definition stall (t : R) : R := - t + t ^ 2 / 3 + 10 / 3 * t ^ 3.
Lemma stall_derive : is_derive stall 0 (-1).
Proof. unfold stall. auto_derive; [exact I|field]. Qed.
Lemma stall_run n n' tau b : exists m', line_search Rarith R unit Empty_set stall stay (S n) n' (1 / 5) tau (-1) (MkMem 0 b []) = (Ret (tt, Qline), m') /\
  evals m' = [(1 / 2, Some tt, 0); (1 / 5, Some tt, - 4 / 25)] /\ frestart m' = false.
Proof.
  unfold line_search, qline, agtb. rewrite Rlit0. cbn [altb Rarith]. rewrite (proj2 (Rltb_false 0 (-1))) by lra.
  cbn [q_loop callG stay fst_ evals frestart]. unfold q_a, q_tmin. rewrite Rlit0, Rlit2. cbn [altb Rarith adiv asub amul aopp].
  assert (S0 : stall 0 = 0) by (unfold stall; field). assert (S1 : stall (1 / 5) = - 4 / 25) by (unfold stall; field). assert (S2 : stall (1 / 2) = 0) by (unfold stall; field).
  rewrite S0, S1.
  assert (Ea : (- 4 / 25 - -1 * (1 / 5) - 0) / (1 / 5 * (1 / 5)) = 1) by field. rewrite Ea. rewrite (proj2 (Rltb_false 1 0)) by lra.
  assert (Et : - -1 / (2 * 1) = 1 / 2) by field. rewrite Et. cbn [callG stay fst_ evals frestart]. rewrite S2. rewrite (proj2 (Rltb_false 0 0)) by lra.
  eexists. split; [reflexivity|]. cbn [evals frestart]. split; reflexivity.
Qed.

(** *** A smooth landscape with negative slope on which every search fails *)
Definition steep (t : R) : R := 10 * (10 ^ 10 * t ^ 2) / (1 + 10 ^ 10 * t ^ 2) - t.
Lemma steep_derive : is_derive steep 0 (-1).
Proof. unfold steep. auto_derive; [nra|field; nra]. Qed.
Lemma steep_pos t : / 100000000 <= t <= 1 -> 0 < steep t.
Proof.
  intros [H1 H2]. assert (H3 : 1 <= 100000000 * t) by (apply Rmult_le_compat_l with (r := 100000000) in H1; [|lra]; rewrite Rinv_r in H1; lra). unfold steep.
  assert (D : 0 < 1 + 10 ^ 10 * t ^ 2) by nra.
  replace (10 * (10 ^ 10 * t ^ 2) / (1 + 10 ^ 10 * t ^ 2) - t) with (t * (10 * 10 ^ 10 * t - 1 - 10 ^ 10 * t ^ 2) / (1 + 10 ^ 10 * t ^ 2)) by (field; lra).
  apply Rdiv_lt_0_compat; [|exact D]. apply Rmult_lt_0_compat; [lra|]. replace (t ^ 2) with (t * t) by ring. nra.
Qed.
Lemma steep_run tau : 0 < tau < 1 -> exists N, forall n n', (1 <= n)%nat -> (N <= n')%nat ->
  fst (line_search Rarith R unit Empty_set steep stay n n' (1 / 5) tau (-1) (MkMem 0 true [])) = Throw DescentError.
Proof.
  intros Ht.
  assert (E : forall n', line_search Rarith R unit Empty_set steep stay 1 n' (1 / 5) tau (-1) (MkMem 0 true []) =
    match bt_loop Rarith R unit Empty_set steep stay n' tau 0 (1 / 5) (MkMem ((1 + 4 * 10 ^ 8) / (2 * 10 ^ 11)) true [((1 + 4 * 10 ^ 8) / (2 * 10 ^ 11), Some tt, steep ((1 + 4 * 10 ^ 8) / (2 * 10 ^ 11))); (1 / 5, Some tt, steep (1 / 5))]) with
    | (Ret p, m) => (Ret (p, Btsearch), m) | (Throw e, m) => (Throw e, m) | (UB, m) => (UB, m) | (NoFuel, m) => (NoFuel, m) end).
  { intros n'. unfold line_search, qline, agtb. rewrite Rlit0. cbn [altb Rarith]. rewrite (proj2 (Rltb_false 0 (-1))) by lra.
    cbn [q_loop callG stay fst_ evals frestart]. unfold q_a, q_tmin. rewrite Rlit0, Rlit2. cbn [altb Rarith adiv asub amul aopp].
    assert (S0 : steep 0 = 0) by (unfold steep; field; lra). rewrite S0.
    assert (Ea : (steep (1 / 5) - -1 * (1 / 5) - 0) / (1 / 5 * (1 / 5)) = 10 ^ 11 / (1 + 4 * 10 ^ 8)) by (unfold steep; field; lra). rewrite Ea.
    rewrite (proj2 (Rltb_false (10 ^ 11 / (1 + 4 * 10 ^ 8)) 0)) by (apply Rlt_le, Rdiv_lt_0_compat; lra).
    assert (Et : - -1 / (2 * (10 ^ 11 / (1 + 4 * 10 ^ 8))) = (1 + 4 * 10 ^ 8) / (2 * 10 ^ 11)) by (field; lra). rewrite Et.
    set (u := (1 + 4 * 10 ^ 8) / (2 * 10 ^ 11)). cbn [callG stay fst_ evals frestart].
    assert (Hu : / 100000000 <= u <= 1) by (unfold u; split; lra). pose proof (steep_pos u Hu) as Pu.
    rewrite (proj2 (Rltb_true 0 (steep u))) by exact Pu. unfold bt_search, ageb. rewrite Rlit1. cbn [aleb Rarith]. rewrite (proj2 (Rleb_false 1 tau)) by lra. reflexivity. }
  set (m0 := MkMem ((1 + 4 * 10 ^ 8) / (2 * 10 ^ 11)) true _) in E.
  destruct (bt_search_stops R unit Empty_set steep stay tau 0 (1 / 5) m0) as [N [r [m' [Hb Hr]]]].
  unfold bt_search, ageb in Hb. rewrite Rlit1 in Hb. cbn [aleb Rarith] in Hb. rewrite (proj2 (Rleb_false 1 tau)) in Hb by lra.
  assert (Hd : r = Throw DescentError).
  { apply (bt_loop_fails R unit Empty_set steep stay steep (stay_landscape steep) 0 tau (1 / 5) Ht) with (n := N) (t := 1 / 5) (m := m0) (m' := m'); [|lra|reflexivity|exact Hb|exact Hr].
    intros t Hx. apply Rlt_le, steep_pos. lra. }
  exists N. intros n n' Hn Hn'.
  assert (E1 : line_search Rarith R unit Empty_set steep stay 1 N (1 / 5) tau (-1) (MkMem 0 true []) = (Throw DescentError, m')).
  { rewrite E. rewrite Hb, Hd. reflexivity. }
  replace n with (1 + (n - 1))%nat by lia. replace n' with (N + (n' - N))%nat by lia.
  rewrite (line_search_fuel Rarith R unit Empty_set steep stay 1 N (n - 1) (n' - N) (1 / 5) tau (-1) _ _ E1); [reflexivity|discriminate].
Qed.

(** ** Whole runs *)
Section RunSuccess.
  Context (Pb : problem Rarith) (maxiter : Z) (tol tau : R) (restart : Z) (fq fb : nat).
  (** what is known of the loop variables, the state of the functional and the slope of the direction *)
  Context (I : Dat Pb -> Stt Pb -> R -> Prop).
  Hypothesis Htau : 0 < tau < 1.
  (** along every direction that is followed the energy falls long enough *)
  Hypothesis Hfall : forall d s sl, I d s sl -> tol <= Rabs sl -> sl <= 0 ->
    exists F len, landscape (Stt Pb) (Pnt Pb) (Exc Pb) (getF Pb) (curve Pb d) F /\ falls F (getF Pb s) len /\ / 100000000 < tau * len.
  Hypothesis Hset : forall s d sl s', setup Pb s = (inl (d, sl), s') -> I d s' sl.
  Hypothesis Hstep : forall d s sl t s1 p s', I d s sl -> curve Pb d t s1 = (inl p, s') ->
    (forall sl' d', steepest Pb (accept Pb d p s') s' = inl (sl', d') -> I d' s' sl') /\
    (forall fr fr' sl' d', Driver.conj Pb fr (accept Pb d p s') s' = inl (fr', sl', d') -> I d' s' sl' /\
       forall sl2 d2, steepest Pb d' s' = inl (sl2, d2) -> I d2 s' sl2).

  Definition good_ev (e : event R) : Prop := match e with EvLs _ LsBack | EvLs _ LsDescent => False | _ => True end.

  Lemma direction_good i force fr d s : List.Forall good_ev (direction_events Rarith Pb restart i force fr d s).
  Proof.
    unfold direction_events. destruct (_ || _)%bool.
    - destruct (steepest Pb d s) as [[sl d']|]; [apply Forall_cons; [exact Logic.I|]|]; apply Forall_nil.
    - destruct (Driver.conj Pb fr d s) as [[[fr' sl] d']|]; [|apply Forall_nil]. apply Forall_cons; [exact Logic.I|]. destruct (agtb _ _ _); [|apply Forall_nil].
      destruct (steepest Pb d' s) as [[sl' d'']|]; [apply Forall_cons; [exact Logic.I|]|]; apply Forall_nil.
  Qed.

  Lemma loop_good n : forall i st r sf evs, I (d_dat st) (d_st st) (d_slope st) ->
    cg_loop Rarith Pb tol tau restart fq fb n i st = (r, sf, evs) -> List.Forall good_ev evs.
  Proof.
    induction n as [|n IH]; intros i st r sf evs Hi H; cbn [cg_loop] in H; [inversion H; apply Forall_nil|].
    destruct (altb Rarith (aabs Rarith (d_slope st)) tol) eqn:L; [inversion H; apply Forall_cons; [exact Logic.I|apply Forall_nil]|].
    cbn [altb aabs Rarith] in L. apply Rltb_false in L.
    destruct (line_search Rarith (Stt Pb) (Pnt Pb) (Exc Pb) (getF Pb) (curve Pb (d_dat st)) fq fb (alit Rarith 1 5) tau (d_slope st) (MkMem (d_st st) (d_force st) [])) as [o m] eqn:Hl.
    assert (HJ : good_ev (json_event Rarith Pb (d_st st) (d_slope st) i)) by exact Logic.I.
    destruct (Rlt_le_dec 0 (d_slope st)) as [U|U].
    - unfold line_search, agtb in Hl. rewrite Rlit0 in Hl. cbn [altb Rarith] in Hl. rewrite (proj2 (Rltb_true 0 (d_slope st)) U) in Hl.
      inversion Hl; subst o m. inversion H. repeat (apply Forall_cons; [exact Logic.I|]). apply Forall_nil.
    - destruct (Hfall _ _ _ Hi L U) as [F [len [HL [HF Hlen]]]].
      assert (D : o = NoFuel \/ o <> NoFuel) by (destruct o; [right|right|right|left]; congruence).
      destruct D as [->|D]; [inversion H; repeat (apply Forall_cons; [exact Logic.I|]); apply Forall_nil|].
      assert (E5 : / 100000000 < alit Rarith 1 5) by (cbn; unfold Rlit; lra).
      destruct (line_search_succeeds (Stt Pb) (Pnt Pb) (Exc Pb) (getF Pb) (curve Pb (d_dat st)) F HL fq fb (alit Rarith 1 5) tau (d_slope st) len
        (MkMem (d_st st) (d_force st) []) o m U Htau E5 HF Hlen Hl D) as [p [k [t [-> [Hfr [_ [_ [[s1 Hg] _]]]]]]]].
      assert (Hev : good_ev (EvLs (ls_steps Rarith Pb m) (ls_result Rarith Pb (Ret (p, k)) (frestart m)))).
      { destruct m as [ms mf me]. cbn in Hfr. subst mf. exact Logic.I. }
      destruct (restart =? 0)%Z; [inversion H; apply Forall_cons; [exact HJ|apply Forall_cons; [exact Hev|apply Forall_nil]]|].
      destruct (Hstep _ _ _ _ _ _ _ Hi Hg) as [Hst Hcj].
      pose proof (direction_good i (frestart m) (d_fr st) (accept Pb (d_dat st) p (fst_ m)) (fst_ m)) as HD.
      destruct (next_direction Rarith Pb restart i (frestart m) (d_fr st) (accept Pb (d_dat st) p (fst_ m)) (fst_ m)) as [[[[sl fr] d2] force]|e] eqn:Hn.
      + destruct (cg_loop Rarith Pb tol tau restart fq fb n (i + 1) _) as [[r' sf'] evs'] eqn:Hc. inversion H; subst.
        apply Forall_cons; [exact HJ|apply Forall_cons; [exact Hev|apply Forall_app; split; [exact HD|]]].
        refine (IH _ _ _ _ _ _ Hc). cbn [d_dat d_st d_slope].
        unfold next_direction in Hn. destruct (_ || _)%bool.
        * destruct (steepest Pb _ _) as [[sl' d']|] eqn:Es; [|discriminate Hn]. inversion Hn; subst. exact (Hst _ _ eq_refl).
        * destruct (Driver.conj Pb _ _ _) as [[[fr' sl'] d']|] eqn:Ec; [|discriminate Hn]. destruct (Hcj _ _ _ _ Ec) as [H1 H2]. destruct (agtb _ _ _).
          -- destruct (steepest Pb d' _) as [[sl2 d3]|] eqn:Es; [|discriminate Hn]. inversion Hn; subst. exact (H2 _ _ eq_refl).
          -- inversion Hn; subst. exact H1.
      + inversion H; subst. apply Forall_cons; [exact HJ|apply Forall_cons; [exact Hev|exact HD]].
  Qed.

  Theorem run_succeeds s0 r st evs : nlcg_us Rarith Pb maxiter tol tau restart fq fb s0 = (r, st, evs) ->
    forall l e, In (EvLs l e) evs -> e <> LsBack /\ e <> LsDescent.
  Proof.
    intros H. assert (G : List.Forall good_ev evs).
    { unfold nlcg_us in H. destruct (setup Pb s0) as [[[d sl]|e] s] eqn:Es; [|inversion H; apply Forall_nil].
      destruct (cg_loop Rarith Pb tol tau restart fq fb (Z.to_nat maxiter) 0 _) as [[r' sf'] evs'] eqn:Hc. inversion H; subst.
      apply Forall_cons; [exact Logic.I|]. refine (loop_good _ _ _ _ _ _ _ Hc). exact (Hset _ _ _ _ Es). }
    intros l e Hin. rewrite Forall_forall in G. specialize (G _ Hin). split; intros ->; exact G.
  Qed.
End RunSuccess.

(** *** Example of a problem: minimising x^2 by steepest descent *)
Definition parabola : problem Rarith :=
  MkProblem Rarith R R R Empty_set (fun x => x * x) (fun _ => 0) (fun x => x * x) (fun _ => 0)
    (fun x => (inl (x, - 4 * (x * x)), x)) (fun x t _ => (inl (x - t * (2 * x)), x - t * (2 * x))) (fun _ x _ => x)
    (fun x _ => inl (- 4 * (x * x), x)) (fun _ x _ => inl (- 4 * (x * x), - 4 * (x * x), x)).
Definition on_track (x s sl : R) : Prop := s = x /\ sl = - 4 * (x * x).
Lemma parabola_falls tol tau d s sl : 0 < tol -> / 100000000 < tau -> on_track d s sl -> tol <= Rabs sl -> sl <= 0 ->
  exists F len, landscape (Stt parabola) (Pnt parabola) (Exc parabola) (getF parabola) (curve parabola d) F /\ falls F (getF parabola s) len /\ / 100000000 < tau * len.
Proof.
  intros Ht Htau [-> ->] Hs _. assert (d <> 0). { intros ->. replace (- 4 * (0 * 0)) with 0 in Hs by ring. rewrite Rabs_R0 in Hs. lra. }
  exists (fun t => (d - t * (2 * d)) * (d - t * (2 * d))), 1. split; [|split; [|lra]].
  - intros t x. exists (d - t * (2 * d)), (d - t * (2 * d)). split; reflexivity.
  - intros t [H1 H2]. change ((d - t * (2 * d)) * (d - t * (2 * d)) < d * d). assert (0 < d * d) by nra.
    replace ((d - t * (2 * d)) * (d - t * (2 * d))) with (d * d - 4 * (t * (1 - t)) * (d * d)) by ring.
    assert (0 < t * (1 - t)) by nra. nra.
Qed.
Lemma parabola_setup s d sl s' : setup parabola s = (inl (d, sl), s') -> on_track d s' sl.
Proof. intros H. cbn in H. inversion H. split; reflexivity. Qed.
Lemma parabola_step d s sl t s1 p s' : on_track d s sl -> curve parabola d t s1 = (inl p, s') ->
  (forall sl' d', steepest parabola (accept parabola d p s') s' = inl (sl', d') -> on_track d' s' sl') /\
  (forall fr fr' sl' d', Driver.conj parabola fr (accept parabola d p s') s' = inl (fr', sl', d') -> on_track d' s' sl' /\
     forall sl2 d2, steepest parabola d' s' = inl (sl2, d2) -> on_track d2 s' sl2).
Proof.
  intros _ H. cbn in H. inversion H; subst. cbn. split; intros; [inversion H0; split; reflexivity|].
  inversion H0; subst. split; [split; reflexivity|]. intros sl2 d2 H3. inversion H3. split; reflexivity.
Qed.

Lemma stall_lower : stall (1 / 5) < stall 0.
Proof. unfold stall. lra. Qed.
Lemma stall_search n n' tau b : exists m', line_search Rarith R unit Empty_set stall stay (S n) n' (1 / 5) tau (-1) (MkMem 0 b []) = (Ret (tt, Qline), m') /\
  evals m' = [(1 / 2, Some tt, stall 0); (1 / 5, Some tt, stall (1 / 5))] /\ frestart m' = false.
Proof.
  destruct (stall_run n n' tau b) as [m' [H [E Fr]]]. exists m'. split; [exact H|split; [|exact Fr]]. rewrite E.
  replace (stall 0) with 0 by (unfold stall; field). replace (stall (1 / 5)) with (- 4 / 25) by (unfold stall; field). reflexivity.
Qed.
Lemma steep_falls : exists d, 0 < d /\ forall t, 0 < t < d -> steep t < steep 0.
Proof.
  exists (/ 10 ^ 11). split; [apply Rinv_0_lt_compat; lra|]. intros t [H1 H2].
  assert (H3 : 10 ^ 11 * t < 1) by (apply Rmult_lt_compat_l with (r := 10 ^ 11) in H2; [|lra]; rewrite Rinv_r in H2; lra).
  assert (D : 0 < 1 + 10 ^ 10 * t ^ 2) by nra. unfold steep.
  replace (10 * (10 ^ 10 * 0 ^ 2) / (1 + 10 ^ 10 * 0 ^ 2) - 0) with 0 by (field; lra).
  replace (10 * (10 ^ 10 * t ^ 2) / (1 + 10 ^ 10 * t ^ 2) - t) with (- (t * (1 + 10 ^ 10 * t ^ 2 - 10 ^ 11 * t) / (1 + 10 ^ 10 * t ^ 2))) by (field; lra).
  apply Ropp_lt_gt_0_contravar. apply Rdiv_lt_0_compat; [|exact D]. apply Rmult_lt_0_compat; [exact H1|]. nra.
Qed.
