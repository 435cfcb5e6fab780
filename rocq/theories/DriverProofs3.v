(** Energies over a run (exact arithmetic), state left behind at the exits, rank independence. *)
From Coq Require Import ZArith List Bool Lia Reals Lra Sorted.
From Verif Require Import Arith LineSearch LineSearchSpec LineSearchProofs LineSearchReal
  Driver DriverProofs DriverProofs2.
Import ListNotations.
Local Open Scope Z_scope.

(** ** The functional after a search that found no descent *)
Section NoDescent.
  Context (A : arith) (St P E : Type) (getF : St -> num A) (G : num A -> St -> (P + E) * St).

  Lemma bt_loop_descent_state n tau F0 t (m : lsmem (num A) St P) m' :
    bt_loop A St P E getF G n tau F0 t m = (Throw DescentError, m') ->
    altb A (getF (fst_ m)) F0 = false \/ agtb A t (alit A 1 100000000) = true ->
    altb A (getF (fst_ m')) F0 = false.
  Proof.
    revert t m. induction n as [|n IH]; intros t m H Hor; cbn [bt_loop] in H.
    - destruct (agtb A t _) eqn:Ht; [discriminate|].
      destruct Hor as [Hor|Hor]; [|discriminate].
      destruct (frestart m).
      + inversion H; subst; exact Hor.
      + apply callG_not in H. destruct H as [[p H]|(e & H & _)]; discriminate.
    - destruct (agtb A t _) eqn:Ht.
      + destruct (callG A St P E getF G t m) as [o m1] eqn:Hc.
        pose proof (callG_not _ _ _ _ _ _ _ _ _ _ Hc) as [[p ->]|(e & -> & _)]; [|discriminate].
        destruct (altb A (getF (fst_ m1)) F0) eqn:HF; [discriminate|].
        eapply IH; [exact H|]. left; exact HF.
      + destruct Hor as [Hor|Hor]; [|discriminate].
        destruct (frestart m).
        * inversion H; subst; exact Hor.
        * apply callG_not in H. destruct H as [[p H]|(e & H & _)]; discriminate.
  Qed.

  Lemma line_search_descent_state n n' tt tau slope (m : lsmem (num A) St P) m' :
    altb A (alit A 1 100000000) tt = true ->
    line_search A St P E getF G n n' tt tau slope m = (Throw DescentError, m') ->
    altb A (getF (fst_ m')) (getF (fst_ m)) = false.
  Proof.
    intros Htt H. unfold line_search in H. destruct (agtb A slope _); [discriminate|].
    destruct (qline A St P E getF G n tt slope m) as [o m1] eqn:Hq.
    pose proof (qline_spec _ _ _ _ _ _ _ _ _ _ _ _ Hq) as Hsp. cbv zeta in Hsp.
    destruct Hsp as [->|[(e & ->)|(p & _ & [(_ & -> & _)|(_ & -> & _)])]]; try discriminate.
    unfold bt_search in H. destruct (ageb A tau _); [discriminate|].
    destruct (bt_loop A St P E getF G n' tau (getF (fst_ m)) tt m1) as [o2 m2] eqn:Hb.
    destruct o2; try discriminate. inversion H; subst.
    eapply bt_loop_descent_state; [exact Hb|]. right. exact Htt.
  Qed.
End NoDescent.

Section DP3.
  Context (A : arith) (Pb : problem A).
  Notation N := (num A).
  Context (tol tau : N) (restart : Z) (fq fb : nat).
  Notation cg_loop := (cg_loop A Pb tol tau restart fq fb).

  (** On every return but convergence, info.F is the energy of the last step record. *)
  Lemma cg_loop_lastF n i s info st evs :
    cg_loop n i s = (Ret info, st, evs) ->
    (records evs = [] -> info = d_info s /\ n = O) /\
    (forall rs x, records evs = rs ++ [x] -> iF info = Some (rF x) /\ iIter info = Some (rStep x)).
  Proof.
    revert i s info st evs. induction n as [|n IH]; intros i s info st evs H.
    - cbn in H. inversion H; subst. cbn. split; [auto|]. intros [|]; discriminate.
    - assert (Hone : forall (y : jrec N) rs x, [y] = rs ++ [x] -> x = y).
      { intros y [|? [|]] x E; inversion E; auto. }
      apply cg_loop_S in H. cbv zeta in H.
      destruct H as [(Ht & Hr & _ & ->)|(Ht & o & m & Hls & H)].
      { inversion Hr; subst. cbn. split; [discriminate|]. intros rs x E. apply Hone in E. subst x. auto. }
      destruct H as [H|[H|[H|[H|[H|H]]]]].
      + destruct H as (p & k & _ & _ & Hr & _). discriminate.
      + destruct H as (p & k & e & _ & _ & _ & Hr & _). discriminate.
      + destruct H as (p & k & sl & fr & d2 & fo & evs' & -> & Hr & Hd & Hrec & ->).
        apply IH in Hrec. cbn. rewrite records_app, records_direction. cbn.
        split; [discriminate|]. destruct Hrec as (H1 & H2).
        intros rs x E. destruct rs as [|y rs]; cbn in E; injection E as Ex El.
        * destruct (H1 El) as (-> & _). subst x. cbn. auto.
        * eapply H2; exact El.
      + destruct H as (Ho & Hr & -> & ->). inversion Hr; subst. cbn. split; [discriminate|].
        intros rs x E. apply Hone in E. subst x. auto.
      + destruct H as (e & _ & _ & _ & Hr & _). discriminate.
      + destruct H as (_ & Hr & _). discriminate.
  Qed.

  (** No-descent exit: the functional is left at a point that is not lower than info.F. *)
  Lemma cg_loop_descent_exit n i s info st evs l :
    altb A (alit A 1 100000000) (alit A 1 5) = true ->
    cg_loop n i s = (Ret info, st, evs) -> (exists e0, evs = e0 ++ [EvLs l LsDescent]) ->
    exists F, iF info = Some F /\ altb A (getF Pb st) F = false.
  Proof.
    intros Hc. revert i s info st evs. induction n as [|n IH]; intros i s info st evs H (e0 & He).
    - cbn in H. inversion H; subst. destruct e0; discriminate.
    - assert (Hlast : forall (x y z : event N) e, [x; y] = e ++ [z] -> y = z).
      { intros x y z [|? [|? [|]]] E; inversion E; auto. }
      apply cg_loop_S in H. cbv zeta in H.
      destruct H as [(Ht & _ & _ & ->)|(Ht & o & m & Hls & H)].
      { destruct e0 as [|? [|]]; inversion He. }
      destruct H as [H|[H|[H|[H|[H|H]]]]].
      + destruct H as (p & k & _ & _ & Hr & _). discriminate.
      + destruct H as (p & k & e & _ & _ & _ & Hr & _). discriminate.
      + destruct H as (p & k & sl & fr & d2 & fo & evs' & -> & Hr & Hd & Hrec & ->).
        eapply IH; [exact Hrec|].
        assert (Hcut : forall a b c (z : event N), a ++ b = c ++ [z] -> b <> [] -> exists c', b = c' ++ [z]).
        { induction a as [|x a IHa]; intros b c z E Hb; [eauto|].
          destruct c as [|y c]; cbn in E; injection E as Ex El.
          - apply app_eq_nil in El. destruct El as (_ & El). contradiction.
          - eapply IHa; eauto. }
        destruct evs' as [|x evs'].
        { exfalso. rewrite app_nil_r in He.
          revert He. unfold Driver.direction_events.
          destruct (frestart m); cbn [Driver.ls_result];
          destruct (_ || _);
          repeat match goal with
          | |- context [match steepest ?a ?b ?c with _ => _ end] => destruct (steepest a b c) as [[? ?]|?]
          | |- context [match conj ?a ?b ?c ?d with _ => _ end] => destruct (conj a b c d) as [[[? ?] ?]|?]
          | |- context [if agtb ?a ?b ?c then _ else _] => destruct (agtb a b c)
          end; intros E; destruct e0 as [|? [|? [|? [|? [|]]]]]; inversion E. }
        eapply (Hcut (_ :: _ :: _) (x :: evs')); [exact He|discriminate].
      + destruct H as (Ho & Hr & -> & ->). apply Hlast in He. inversion He as [[H1 H2]].
        destruct Ho as [-> | ->]; cbn in H2; [|discriminate].
        unfold the_ls in Hls. apply line_search_descent_state in Hls; [|exact Hc].
        inversion Hr; subst. cbn. eauto.
      + destruct H as (e & _ & _ & _ & Hr & _). discriminate.
      + destruct H as (_ & Hr & _). discriminate.
  Qed.

  (** Whatever the slope left by the last iteration, it is not looked at: with no iteration left
      the result does not depend on it. *)
  Lemma cg_loop_last_untested i s sl d fr fo :
    cg_loop O i s = cg_loop O i (MkD (d_st s) d sl fr fo (d_info s)).
  Proof. reflexivity. Qed.
End DP3.

(** ** Monotonicity in exact arithmetic *)
Local Ltac fsort := repeat first [apply SSorted_nil | apply SSorted_cons | apply Forall_nil | apply Forall_cons].
Section Mono.
  Context (Pb : problem Rarith).
  Context (tol tau : R) (restart : Z) (fq fb : nat).
  Notation cg_loop := (cg_loop Rarith Pb tol tau restart fq fb).

  (** [Fc d t] is the energy of the point at step [t] of the curve given by the loop data [d];
      taking a new direction does not move the base point t = 0. *)
  Record curve_energy (Fc : Dat Pb -> R -> R) : Prop := {
    ce_eval : forall d t s p s', curve Pb d t s = (inl p, s') -> getF Pb s' = Fc d t;
    ce_accept : forall d t s p s', curve Pb d t s = (inl p, s') -> Fc (accept Pb d p s') 0%R = getF Pb s';
    ce_steepest : forall d s sl d', steepest Pb d s = inl (sl, d') -> Fc d' 0%R = Fc d 0%R;
    ce_conj : forall fr d s fr' sl d', conj Pb fr d s = inl (fr', sl, d') -> Fc d' 0%R = Fc d 0%R;
    ce_setup : forall s d sl s', setup Pb s = (inl (d, sl), s') -> Fc d 0%R = getF Pb s'
  }.

  Context (Fc : Dat Pb -> R -> R) (HFc : curve_energy Fc).

  Lemma the_ls_mono s p k m :
    Fc (d_dat s) 0%R = getF Pb (d_st s) ->
    the_ls Rarith Pb tau fq fb s = (Ret (p, k), m) ->
    (getF Pb (fst_ m) <= getF Pb (d_st s))%R /\ Fc (accept Pb (d_dat s) p (fst_ m)) 0%R = getF Pb (fst_ m).
  Proof.
    intros H0 H. unfold the_ls in H. apply line_search_ret in H.
    destruct H as (tl & l & _ & (s1 & Hg) & H). cbn [fst_] in H. split.
    - destruct H as [(_ & _ & H)|[(_ & _ & H)|(_ & _ & _ & ->)]].
      + apply Rltb_false in H. exact H.
      + apply Rltb_true in H. apply Rlt_le. exact H.
      + apply (ce_eval _ HFc) in Hg. rewrite Rlit0 in Hg. rewrite Hg, H0. apply Rle_refl.
    - exact (ce_accept _ HFc _ _ _ _ _ Hg).
  Qed.

  Lemma next_direction_base i f fr d s sl fr' d' f' :
    next_direction Rarith Pb restart i f fr d s = inl (sl, fr', d', f') -> Fc d' 0%R = Fc d 0%R.
  Proof.
    unfold next_direction. destruct (_ || _).
    - destruct (steepest Pb d s) as [[? ?]|?] eqn:H; intros E; inversion E; subst.
      eapply ce_steepest; eauto.
    - destruct (conj Pb fr d s) as [[[? ?] d1]|?] eqn:H; [|discriminate].
      apply (ce_conj _ HFc) in H. destruct (agtb _ _ _).
      + destruct (steepest Pb d1 s) as [[? ?]|?] eqn:H2; intros E; inversion E; subst.
        apply (ce_steepest _ HFc) in H2. congruence.
      + intros E; inversion E; subst. exact H.
  Qed.

  Lemma cg_loop_mono n i s r st evs :
    Fc (d_dat s) 0%R = getF Pb (d_st s) ->
    cg_loop n i s = (r, st, evs) ->
    StronglySorted (fun x y => (y <= x)%R) (getF Pb (d_st s) :: map (@rF (num Rarith)) (records evs)) /\
    (Forall (fun x => ls_returned x = true) (searches evs) ->
     Forall (fun x => (getF Pb st <= x)%R) (getF Pb (d_st s) :: map (@rF (num Rarith)) (records evs))).
  Proof.
    revert i s r st evs. induction n as [|n IH]; intros i s r st evs H0 H.
    - cbn in H. inversion H; subst. cbn. split; [fsort|].
      intros _. fsort; apply Rle_refl.
    - assert (Hone : forall (x : R), StronglySorted (fun x y => (y <= x)%R) [x; x]).
      { intros x. fsort; apply Rle_refl. }
      apply cg_loop_S in H. cbv zeta in H.
      destruct H as [(Ht & -> & -> & ->)|(Ht & o & m & Hls & H)].
      { cbn. split; [apply Hone|]. intros _. fsort; apply Rle_refl. }
      destruct H as [H|[H|[H|[H|[H|H]]]]].
      + destruct H as (p & k & -> & _ & -> & -> & ->). cbn. split; [apply Hone|].
        apply the_ls_mono in Hls; [|exact H0]. intros _. fsort; apply Hls.
      + destruct H as (p & k & e & -> & _ & Hd & -> & -> & ->). cbn [records searches json_event map rF app]. rewrite records_direction.
        apply the_ls_mono in Hls; [|exact H0]. split; [apply Hone|].
        intros _. fsort; apply Hls.
      + destruct H as (p & k & sl & fr & d2 & fo & evs' & -> & Hr & Hd & Hrec & ->).
        apply the_ls_mono in Hls; [|exact H0]. destruct Hls as (Hle & Hb).
        apply next_direction_base in Hd.
        apply IH in Hrec; [|cbn [d_dat d_st]; congruence]. cbn [d_st] in Hrec.
        destruct Hrec as (Hss & Hall). cbn [records searches json_event map rF app]. rewrite records_app, records_direction, searches_app, searches_direction.
        cbn.
        assert (Htail : Forall (fun y => (y <= getF Pb (d_st s))%R) (map (@rF (num Rarith)) (records evs'))).
        { inversion Hss; subst. eapply Forall_impl; [|eassumption]. intros a Ha. exact (Rle_trans _ _ _ Ha Hle). }
        split.
        * constructor; [constructor|].
          -- inversion Hss; assumption.
          -- exact Htail.
          -- constructor; [apply Rle_refl|exact Htail].
        * intros Hs. inversion Hs; subst.
          match goal with HH : Forall _ (searches evs') |- _ => specialize (Hall HH) end.
          inversion Hall as [|? ? Hh Ht']; subst.
          pose proof (Rle_trans _ _ _ Hh Hle) as Hx.
          apply Forall_cons; [exact Hx|]. apply Forall_cons; [exact Hx|exact Ht'].
      + destruct H as (Ho & _ & -> & ->). cbn. split; [apply Hone|].
        intros Hs. inversion Hs; subst. destruct Ho as [-> | ->]; discriminate.
      + destruct H as (e & -> & H1 & H2 & -> & -> & ->). cbn. split; [apply Hone|].
        intros Hs. inversion Hs; subst. destruct e; try discriminate; congruence.
      + destruct H as (-> & -> & -> & ->). cbn. split; [apply Hone|].
        intros Hs. inversion Hs; subst. discriminate.
  Qed.

  Lemma nlcg_us_mono maxiter s0 r st evs :
    nlcg_us Rarith Pb maxiter tol tau restart fq fb s0 = (r, st, evs) ->
    StronglySorted (fun x y => (y <= x)%R) (map (@rF (num Rarith)) (records evs)) /\
    (Forall (fun x => ls_returned x = true) (searches evs) ->
     Forall (fun x => (getF Pb st <= x)%R) (map (@rF (num Rarith)) (records evs))).
  Proof.
    unfold nlcg_us. destruct (setup Pb s0) as [[[d sl]|e] s] eqn:Hs.
    - destruct (Driver.cg_loop _ _ _ _ _ _ _ _ _ _) as [[r' st'] evs'] eqn:Hl.
      intros E; inversion E; subst. apply cg_loop_mono in Hl.
      + cbn [d_st] in Hl. destruct Hl as (H1 & H2). cbn. split.
        * inversion H1; assumption.
        * intros H. specialize (H2 H). inversion H2; assumption.
      + cbn. eapply ce_setup; eauto.
    - intros E; inversion E; subst. cbn. split; [constructor|auto].
  Qed.
End Mono.

(** ** Two ranks *)

(** Collective operations on the k-point communicator.  Each is atomic here.
    - [CFn]: allgather of band energies and weights in Smearing::fn (smearing.hpp 347-409);
    - [CEnergy]: EnergyBase::compute, implemented by the caller (collective there);
    - [CEntropy]: the sum in Smearing::entropy (smearing.hpp 675-740);
    - [CBands]: the two allgathers in cg_write_step_json (nlcglib.cpp 118-136);
    - [CGradMu]: the sums in dFdmu and dmu_deta (grad_eta.hpp 16-81);
    - [CSlope]: sum of the slope contributions (descent_direction.hpp 106, 177);
    - [CSlopeZ]: sum for the previous direction (descent_direction.hpp 117). *)
Inductive collective := CFn | CEnergy | CEntropy | CBands | CGradMu | CSlope | CSlopeZ.

(** Collectives behind one event. Every evaluated step of a search is one call of the lambda g
    (nlcglib.cpp 345-355). *)
Definition collectives_of {N} (e : event N) : list collective :=
  match e with
  | EvJson _ _ _ _ _ _ b => if b then [CBands; CBands] else []
  | EvLs steps _ => concat (map (fun _ => [CFn; CEnergy; CEntropy]) steps)
  | EvSteepest _ => [CGradMu; CGradMu; CSlope]
  | EvConj _ _ _ => [CGradMu; CGradMu; CSlope; CSlopeZ]
  end.

(** Lines appended to nlcg.json by rank [rank]: StepLogger is active on rank 0 only
    (nlcglib.cpp 111, step_logger.hpp 46-53). *)
Definition json_lines {N} (rank : Z) (evs : list (event N)) : list Z :=
  if rank =? 0 then
    concat (map (fun e => match e with EvJson i _ _ _ _ _ _ => [i] | _ => [] end) evs)
  else [].

Section Ranks.
  Context (A : arith) (P1 P2 : problem A).
  Notation N := (num A).
  Context (RS : Stt P1 -> Stt P2 -> Prop) (RD : Dat P1 -> Dat P2 -> Prop)
          (RP : Pnt P1 -> Pnt P2 -> Prop).

  (** The two ranks see the same reduced scalars, and exceptions are raised on both. *)
  Definition rel_sum {X1 X2 Y1 Y2} (R : X1 -> X2 -> Prop) (a : X1 + Y1) (b : X2 + Y2) : Prop :=
    match a, b with inl x, inl y => R x y | inr _, inr _ => True | _, _ => False end.

  Record same_scalars : Prop := {
    ss_F : forall s1 s2, RS s1 s2 -> getF P1 s1 = getF P2 s2 /\ getS P1 s1 = getS P2 s2 /\
      getKS P1 s1 = getKS P2 s2 /\ getMu P1 s1 = getMu P2 s2;
    ss_setup : forall s1 s2, RS s1 s2 ->
      rel_sum (fun a b => RD (fst a) (fst b) /\ snd a = snd b) (fst (setup P1 s1)) (fst (setup P2 s2)) /\
      RS (snd (setup P1 s1)) (snd (setup P2 s2));
    ss_curve : forall d1 d2 t s1 s2, RD d1 d2 -> RS s1 s2 ->
      rel_sum RP (fst (curve P1 d1 t s1)) (fst (curve P2 d2 t s2)) /\
      RS (snd (curve P1 d1 t s1)) (snd (curve P2 d2 t s2));
    ss_accept : forall d1 d2 p1 p2 s1 s2, RD d1 d2 -> RP p1 p2 -> RS s1 s2 ->
      RD (accept P1 d1 p1 s1) (accept P2 d2 p2 s2);
    ss_steepest : forall d1 d2 s1 s2, RD d1 d2 -> RS s1 s2 ->
      rel_sum (fun a b => fst a = fst b /\ RD (snd a) (snd b)) (steepest P1 d1 s1) (steepest P2 d2 s2);
    ss_conj : forall fr d1 d2 s1 s2, RD d1 d2 -> RS s1 s2 ->
      rel_sum (fun a b => fst a = fst b /\ RD (snd a) (snd b)) (conj P1 fr d1 s1) (conj P2 fr d2 s2)
  }.
  Context (Hss : same_scalars).

  Notation mem1 := (lsmem N (Stt P1) (Pnt P1)).
  Notation mem2 := (lsmem N (Stt P2) (Pnt P2)).

  Definition rel_mem (m1 : mem1) (m2 : mem2) : Prop :=
    RS (fst_ m1) (fst_ m2) /\ frestart m1 = frestart m2 /\
    map (fun e => fst (fst e)) (evals m1) = map (fun e => fst (fst e)) (evals m2).

  Definition rel_exn {E1 E2} (a : exn E1) (b : exn E2) : Prop :=
    match a, b with
    | SlopeError, SlopeError | StepError, StepError | DescentError, DescentError
    | RuntimeError, RuntimeError => True
    | OtherExn _, OtherExn _ => True
    | _, _ => False
    end.

  Definition rel_out {E1 E2 X1 X2} (R : X1 -> X2 -> Prop) (a : outcome E1 X1) (b : outcome E2 X2) : Prop :=
    match a, b with
    | Ret x, Ret y => R x y
    | Throw e, Throw f => rel_exn e f
    | UB, UB | NoFuel, NoFuel => True
    | _, _ => False
    end.

  Definition rel_pair {E1 E2 X1 X2} (R : X1 -> X2 -> Prop)
    (a : outcome E1 X1 * mem1) (b : outcome E2 X2 * mem2) : Prop :=
    rel_out R (fst a) (fst b) /\ rel_mem (snd a) (snd b).

  Lemma callG_rel d1 d2 t (m1 : mem1) (m2 : mem2) : RD d1 d2 -> rel_mem m1 m2 ->
    rel_pair RP (callG A _ _ _ (getF P1) (curve P1 d1) t m1) (callG A _ _ _ (getF P2) (curve P2 d2) t m2).
  Proof.
    intros Hd (Hs & Hf & He). unfold callG.
    destruct (ss_curve Hss d1 d2 t _ _ Hd Hs) as (H1 & H2).
    destruct (curve P1 d1 t (fst_ m1)) as [[p1|e1] s1], (curve P2 d2 t (fst_ m2)) as [[p2|e2] s2];
      cbn in H1, H2 |- *; try contradiction; (split; [cbn; auto|]);
      (split; [exact H2|]; split; [exact Hf|cbn; rewrite He; reflexivity]).
  Qed.

  Lemma getF_rel (m1 : mem1) (m2 : mem2) : rel_mem m1 m2 -> getF P1 (fst_ m1) = getF P2 (fst_ m2).
  Proof. intros (H & _). apply (ss_F Hss _ _ H). Qed.

  Lemma rel_mem_flag (m1 : mem1) (m2 : mem2) b : rel_mem m1 m2 ->
    rel_mem (MkMem (fst_ m1) b (evals m1)) (MkMem (fst_ m2) b (evals m2)).
  Proof. intros (H1 & H2 & H3). split; [|split]; auto. Qed.

  Lemma bt_loop_rel d1 d2 n tau F0 t (m1 : mem1) (m2 : mem2) : RD d1 d2 -> rel_mem m1 m2 ->
    rel_pair RP (bt_loop A _ _ _ (getF P1) (curve P1 d1) n tau F0 t m1)
                (bt_loop A _ _ _ (getF P2) (curve P2 d2) n tau F0 t m2).
  Proof.
    intros Hd. revert t m1 m2. induction n as [|n IH]; intros t m1 m2 Hm; cbn [bt_loop].
    - destruct (agtb A t _); [split; [exact I|exact Hm]|].
      pose proof Hm as (_ & <- & _). destruct (frestart m1); [split; [exact I|exact Hm]|].
      apply callG_rel; [exact Hd|]. apply rel_mem_flag, Hm.
    - destruct (agtb A t _).
      + pose proof (callG_rel d1 d2 t m1 m2 Hd Hm) as Hc.
        destruct (callG A _ _ _ (getF P1) (curve P1 d1) t m1) as [o1 m1'].
        destruct (callG A _ _ _ (getF P2) (curve P2 d2) t m2) as [o2 m2'].
        destruct Hc as (Ho & Hm'). cbn [fst snd] in Ho, Hm'.
        destruct o1, o2; cbn in Ho; try contradiction; try (split; [exact Ho|exact Hm']).
        rewrite <- (getF_rel _ _ Hm'). destruct (altb A _ _).
        * split; [exact Ho|]. apply rel_mem_flag, Hm'.
        * apply IH, Hm'.
      + pose proof Hm as (_ & <- & _). destruct (frestart m1); [split; [exact I|exact Hm]|].
        apply callG_rel; [exact Hd|]. apply rel_mem_flag, Hm.
  Qed.

  Lemma q_loop_rel d1 d2 n F0 slope t (m1 : mem1) (m2 : mem2) : RD d1 d2 -> rel_mem m1 m2 ->
    rel_pair eq (q_loop A _ _ _ (getF P1) (curve P1 d1) n F0 slope t m1)
                (q_loop A _ _ _ (getF P2) (curve P2 d2) n F0 slope t m2).
  Proof.
    intros Hd. revert t m1 m2. induction n as [|n IH]; intros t m1 m2 Hm; cbn [q_loop].
    - split; [exact I|exact Hm].
    - pose proof (callG_rel d1 d2 t m1 m2 Hd Hm) as Hc.
      destruct (callG A _ _ _ (getF P1) (curve P1 d1) t m1) as [o1 m1'].
      destruct (callG A _ _ _ (getF P2) (curve P2 d2) t m2) as [o2 m2'].
      destruct Hc as (Ho & Hm'). cbn [fst snd] in Ho, Hm'.
      destruct o1, o2; cbn in Ho; try contradiction; try (split; [exact Ho|exact Hm']).
      rewrite <- (getF_rel _ _ Hm'). destruct (altb A _ _).
      + apply IH, Hm'.
      + split; [reflexivity|exact Hm'].
  Qed.

  Lemma qline_rel d1 d2 n t slope (m1 : mem1) (m2 : mem2) : RD d1 d2 -> rel_mem m1 m2 ->
    rel_pair RP (qline A _ _ _ (getF P1) (curve P1 d1) n t slope m1)
                (qline A _ _ _ (getF P2) (curve P2 d2) n t slope m2).
  Proof.
    intros Hd Hm. unfold qline. rewrite <- (getF_rel _ _ Hm).
    pose proof (q_loop_rel d1 d2 n (getF P1 (fst_ m1)) slope t m1 m2 Hd Hm) as Hc.
    destruct (q_loop A _ _ _ (getF P1) (curve P1 d1) n _ slope t m1) as [o1 m1'].
    destruct (q_loop A _ _ _ (getF P2) (curve P2 d2) n _ slope t m2) as [o2 m2'].
    destruct Hc as (Ho & Hm'). cbn [fst snd] in Ho, Hm'.
    destruct o1 as [tm| | |], o2 as [tm2| | |]; cbn in Ho; try contradiction; try (split; [exact Ho|exact Hm']).
    subst tm2.
    pose proof (callG_rel d1 d2 tm m1' m2' Hd Hm') as Hc.
    destruct (callG A _ _ _ (getF P1) (curve P1 d1) tm m1') as [o1 m1''].
    destruct (callG A _ _ _ (getF P2) (curve P2 d2) tm m2') as [o2 m2''].
    destruct Hc as (Ho & Hm''). cbn [fst snd] in Ho, Hm''.
    destruct o1, o2; cbn in Ho; try contradiction; try (split; [exact Ho|exact Hm'']).
    rewrite <- (getF_rel _ _ Hm''). destruct (agtb A _ _).
    - split; [exact I|exact Hm''].
    - split; [exact Ho|]. apply rel_mem_flag, Hm''.
  Qed.

  Lemma line_search_rel d1 d2 n n' t tau slope (m1 : mem1) (m2 : mem2) : RD d1 d2 -> rel_mem m1 m2 ->
    rel_pair (fun a b => RP (fst a) (fst b) /\ snd a = snd b)
      (line_search A _ _ _ (getF P1) (curve P1 d1) n n' t tau slope m1)
      (line_search A _ _ _ (getF P2) (curve P2 d2) n n' t tau slope m2).
  Proof.
    intros Hd Hm. unfold line_search. destruct (agtb A slope _); [split; [exact I|exact Hm]|].
    rewrite <- (getF_rel _ _ Hm).
    pose proof (qline_rel d1 d2 n t slope m1 m2 Hd Hm) as Hc.
    destruct (qline A _ _ _ (getF P1) (curve P1 d1) n t slope m1) as [o1 m1'].
    destruct (qline A _ _ _ (getF P2) (curve P2 d2) n t slope m2) as [o2 m2'].
    destruct Hc as (Ho & Hm'). cbn [fst snd] in Ho, Hm'.
    assert (Hbt : rel_pair (fun a b => RP (fst a) (fst b) /\ snd a = snd b)
      (match bt_search A _ _ _ (getF P1) (curve P1 d1) n' t tau (getF P1 (fst_ m1)) m1' with
        | (Ret p, m'') => (Ret (p, Btsearch), m'')
        | (Throw e, m'') => (Throw e, m'')
        | (UB, m'') => (UB, m'')
        | (NoFuel, m'') => (NoFuel, m'')
        end)
      (match bt_search A _ _ _ (getF P2) (curve P2 d2) n' t tau (getF P1 (fst_ m1)) m2' with
        | (Ret p, m'') => (Ret (p, Btsearch), m'')
        | (Throw e, m'') => (Throw e, m'')
        | (UB, m'') => (UB, m'')
        | (NoFuel, m'') => (NoFuel, m'')
        end)).
    { unfold bt_search. destruct (ageb A tau _); [split; [exact I|exact Hm']|].
      pose proof (bt_loop_rel d1 d2 n' tau (getF P1 (fst_ m1)) t m1' m2' Hd Hm') as Hb.
      destruct (bt_loop A _ _ _ (getF P1) (curve P1 d1) n' tau _ t m1') as [o3 m1''].
      destruct (bt_loop A _ _ _ (getF P2) (curve P2 d2) n' tau _ t m2') as [o4 m2''].
      destruct Hb as (Ho' & Hm''). cbn [fst snd] in Ho', Hm''.
      destruct o3, o4; cbn in Ho'; try contradiction; (split; [|exact Hm'']); cbn; auto. }
    destruct o1 as [p1|e1| |], o2 as [p2|e2| |]; cbn in Ho; try contradiction.
    - split; [cbn; auto|exact Hm'].
    - destruct e1, e2; cbn in Ho; try contradiction; try (split; [exact I|exact Hm']).
      exact Hbt.
    - split; [exact I|exact Hm'].
    - split; [exact I|exact Hm'].
  Qed.

  Context (tol tau : N) (restart : Z) (fq fb : nat).

  Lemma dir_rel i f fr d1 d2 s1 s2 : RD d1 d2 -> RS s1 s2 ->
    rel_sum (fun a b => fst (fst (fst a)) = fst (fst (fst b)) /\ snd (fst (fst a)) = snd (fst (fst b)) /\
                        RD (snd (fst a)) (snd (fst b)) /\ snd a = snd b)
      (next_direction A P1 restart i f fr d1 s1) (next_direction A P2 restart i f fr d2 s2) /\
    direction_events A P1 restart i f fr d1 s1 = direction_events A P2 restart i f fr d2 s2.
  Proof.
    intros Hd Hs. unfold next_direction, direction_events. destruct (_ || _).
    - pose proof (ss_steepest Hss _ _ _ _ Hd Hs) as H.
      destruct (steepest P1 d1 s1) as [[? ?]|?], (steepest P2 d2 s2) as [[? ?]|?]; cbn in H; try contradiction.
      + destruct H as (-> & H). cbn. auto.
      + cbn. auto.
    - pose proof (ss_conj Hss fr _ _ _ _ Hd Hs) as H.
      destruct (conj P1 fr d1 s1) as [[[? ?] d1']|?], (conj P2 fr d2 s2) as [[[? ?] d2']|?]; cbn in H; try contradiction;
        [|cbn; auto].
      destruct H as (E & H). inversion E; subst. destruct (agtb A _ _).
      + pose proof (ss_steepest Hss _ _ _ _ H Hs) as H'.
        destruct (steepest P1 d1' s1) as [[? ?]|?], (steepest P2 d2' s2) as [[? ?]|?]; cbn in H'; try contradiction.
        * destruct H' as (-> & H'). cbn. auto.
        * cbn. auto.
      + cbn. auto.
  Qed.

  Lemma json_rel s1 s2 sl i : RS s1 s2 ->
    json_event A P1 s1 sl i = json_event A P2 s2 sl i /\ print_info A P1 s1 sl i = print_info A P2 s2 sl i.
  Proof.
    intros H. destruct (ss_F Hss _ _ H) as (H1 & H2 & H3 & H4). unfold json_event, print_info.
    rewrite H1, H2, H3, H4. auto.
  Qed.

  Lemma cg_loop_rel n i st1 st2 d1 d2 sl fr f info :
    RS st1 st2 -> RD d1 d2 ->
    let a := cg_loop A P1 tol tau restart fq fb n i (MkD st1 d1 sl fr f info) in
    let b := cg_loop A P2 tol tau restart fq fb n i (MkD st2 d2 sl fr f info) in
    rel_out eq (fst (fst a)) (fst (fst b)) /\ RS (snd (fst a)) (snd (fst b)) /\ snd a = snd b.
  Proof.
    revert i st1 st2 d1 d2 sl fr f info.
    induction n as [|n IH]; intros i st1 st2 d1 d2 sl fr f info Hs Hd; cbn [cg_loop d_st d_dat d_slope d_fr d_force d_info].
    - cbn. auto.
    - destruct (json_rel st1 st2 sl i Hs) as (Hj & Hi). cbv zeta. rewrite Hj, Hi.
      destruct (altb A (aabs A sl) tol); [cbn; auto|].
      assert (Hm : rel_mem (MkMem st1 f []) (MkMem st2 f [])) by (split; [|split]; auto).
      pose proof (line_search_rel d1 d2 fq fb (alit A 1 5) tau sl _ _ Hd Hm) as Hl.
      destruct (line_search A _ _ _ (getF P1) (curve P1 d1) fq fb (alit A 1 5) tau sl (MkMem st1 f []))
        as [o1 m1].
      destruct (line_search A _ _ _ (getF P2) (curve P2 d2) fq fb (alit A 1 5) tau sl (MkMem st2 f []))
        as [o2 m2].
      destruct Hl as (Ho & Hm'). cbn [fst snd] in Ho, Hm'. destruct Hm' as (Hs' & Hf' & He').
      assert (Hst : ls_steps A P1 m1 = ls_steps A P2 m2) by (unfold ls_steps; rewrite He'; reflexivity).
      rewrite Hst, <- Hf'.
      destruct o1 as [[p1 k1]|e1| |], o2 as [[p2 k2]|e2| |]; cbn in Ho; try contradiction.
      + destruct Ho as (Hp & <-). cbn [ls_result].
        destruct (restart =? 0); [cbn; auto|].
        pose proof (ss_accept Hss _ _ _ _ _ _ Hd Hp Hs') as Ha.
        destruct (dir_rel i (frestart m1) fr _ _ _ _ Ha Hs') as (Hn & Hev).
        rewrite Hev.
        destruct (next_direction A P1 restart i (frestart m1) fr (accept P1 d1 p1 (fst_ m1)) (fst_ m1))
          as [[[[a1 a2] a3] a4]|x1],
        (next_direction A P2 restart i (frestart m1) fr (accept P2 d2 p2 (fst_ m2)) (fst_ m2))
          as [[[[b1 b2] b3] b4]|x2]; cbn in Hn; try contradiction.
        * destruct Hn as (-> & -> & Hd' & ->).
          specialize (IH (i + 1) _ _ _ _ b1 b2 b4 (print_info A P2 st2 sl i) Hs' Hd'). cbv zeta in IH.
          destruct (cg_loop A P1 _ _ _ _ _ n (i + 1) _) as [[r1 s1'] ev1].
          destruct (cg_loop A P2 _ _ _ _ _ n (i + 1) _) as [[r2 s2'] ev2].
          cbn [fst snd] in IH |- *. destruct IH as (I1 & I2 & ->). auto.
        * cbn. auto.
      + destruct e1, e2; cbn in Ho; try contradiction; cbn; auto.
      + cbn. auto.
      + cbn. auto.
  Qed.

  Lemma nlcg_us_rel maxiter s1 s2 : RS s1 s2 ->
    let a := nlcg_us A P1 maxiter tol tau restart fq fb s1 in
    let b := nlcg_us A P2 maxiter tol tau restart fq fb s2 in
    rel_out eq (fst (fst a)) (fst (fst b)) /\ RS (snd (fst a)) (snd (fst b)) /\ snd a = snd b.
  Proof.
    intros Hs. unfold nlcg_us. destruct (ss_setup Hss _ _ Hs) as (H1 & H2).
    destruct (setup P1 s1) as [[[d1 sl1]|e1] s1'], (setup P2 s2) as [[[d2 sl2]|e2] s2']; cbn in H1, H2; try contradiction.
    - destruct H1 as (Hd & ->).
      pose proof (cg_loop_rel (Z.to_nat maxiter) 0 s1' s2' d1 d2 sl2 sl2 false info_uninit H2 Hd) as H. cbv zeta in H.
      destruct (cg_loop A P1 _ _ _ _ _ _ _ _) as [[r1 s1''] ev1].
      destruct (cg_loop A P2 _ _ _ _ _ _ _ _) as [[r2 s2''] ev2].
      cbn [fst snd] in H |- *. destruct H as (I1 & I2 & ->). auto.
    - cbn. auto.
  Qed.
End Ranks.
