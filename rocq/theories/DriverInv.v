(** Invariants of runs of the driver: if the parts of a problem preserve a predicate on the functional's
    state and one on the loop variables, every run does. *)
From Coq Require Import ZArith List Bool Lia Reals Sorted.
From Verif Require Import Arith LineSearch LineSearchSpec LineSearchProofs LineSearchReal Driver DriverProofs DriverProofs2 DriverProofs3.
Import ListNotations.

Section LsInv.
  Context (A : arith) (St P E : Type) (getF : St -> num A) (G : num A -> St -> (P + E) * St).
  Notation mem := (lsmem (num A) St P).
  Context (J : St -> Prop) (K : P -> St -> Prop).
  Hypothesis HG : forall t s o s', J s -> G t s = (o, s') -> J s' /\ forall p, o = inl p -> K p s'.

  Lemma callG_inv t (m : mem) o m' : J (fst_ m) -> callG A St P E getF G t m = (o, m') ->
    J (fst_ m') /\ forall p, o = Ret p -> K p (fst_ m').
  Proof.
    intros Hj. unfold callG. destruct (G t (fst_ m)) as [r s'] eqn:Eg. destruct (HG _ _ _ _ Hj Eg) as [H1 H2].
    destruct r as [p|e]; intros H; inversion H; subst; cbn [fst_]; (split; [exact H1|]); intros q Hq; inversion Hq; subst. apply H2. reflexivity.
  Qed.

  Lemma bt_loop_inv n : forall tau F0 t (m : mem) o m', J (fst_ m) -> bt_loop A St P E getF G n tau F0 t m = (o, m') ->
    J (fst_ m') /\ forall p, o = Ret p -> K p (fst_ m').
  Proof.
    assert (Hend : forall (m : mem) o m', J (fst_ m) ->
      (if frestart m then (Throw DescentError, m) else callG A St P E getF G (alit A 0 1) (MkMem (fst_ m) true (evals m))) = (o, m') ->
      J (fst_ m') /\ forall p, o = Ret p -> K p (fst_ m')).
    { intros m o m' Hj. destruct (frestart m); intros H; [inversion H; subst; split; [exact Hj|discriminate]|]. apply (callG_inv _ (MkMem (fst_ m) true (evals m)) o m' Hj H). }
    induction n as [|n IH]; intros tau F0 t m o m' Hj; cbn [bt_loop]; (destruct (agtb A t _); [|apply Hend; exact Hj]).
    - intros H. inversion H; subst. split; [exact Hj|discriminate].
    - destruct (callG A St P E getF G t m) as [r m1] eqn:Ec. destruct (callG_inv _ _ _ _ Hj Ec) as [H1 H2].
      destruct r as [p|e| |]; try (intros H; inversion H; subst; split; [exact H1|discriminate]).
      destruct (altb A _ F0); [|apply IH; exact H1].
      intros H. inversion H; subst. cbn [fst_]. split; [exact H1|]. intros q Hq. inversion Hq; subst. apply H2. reflexivity.
  Qed.

  Lemma q_loop_inv n : forall F0 slope t (m : mem) o m', J (fst_ m) -> q_loop A St P E getF G n F0 slope t m = (o, m') -> J (fst_ m').
  Proof.
    induction n as [|n IH]; intros F0 slope t m o m' Hj; cbn [q_loop]; [intros H; inversion H; subst; exact Hj|].
    destruct (callG A St P E getF G t m) as [r m1] eqn:Ec. destruct (callG_inv _ _ _ _ Hj Ec) as [H1 _].
    destruct r as [p|e| |]; try (intros H; inversion H; subst; exact H1). cbv zeta.
    destruct (altb A _ _); [apply IH; exact H1|]. intros H; inversion H; subst; exact H1.
  Qed.

  Lemma qline_inv n tt slope (m : mem) o m' : J (fst_ m) -> qline A St P E getF G n tt slope m = (o, m') ->
    J (fst_ m') /\ forall p, o = Ret p -> K p (fst_ m').
  Proof.
    intros Hj. unfold qline. destruct (q_loop A St P E getF G n (getF (fst_ m)) slope tt m) as [r m1] eqn:Eq.
    pose proof (q_loop_inv _ _ _ _ _ _ _ Hj Eq) as H1.
    destruct r as [t|e| |]; try (intros H; inversion H; subst; split; [exact H1|discriminate]).
    destruct (callG A St P E getF G t m1) as [r2 m2] eqn:Ec. destruct (callG_inv _ _ _ _ H1 Ec) as [H2 H3].
    destruct r2 as [p|e| |]; try (intros H; inversion H; subst; split; [exact H2|discriminate]). cbv zeta.
    destruct (agtb A _ _); intros H; inversion H; subst; cbn [fst_]; (split; [exact H2|]); intros q Hq; inversion Hq; subst. apply H3. reflexivity.
  Qed.

  Lemma line_search_inv n n' tt tau slope (m : mem) o m' : J (fst_ m) -> line_search A St P E getF G n n' tt tau slope m = (o, m') ->
    J (fst_ m') /\ forall p k, o = Ret (p, k) -> K p (fst_ m').
  Proof.
    intros Hj. unfold line_search. destruct (agtb A slope _); [intros H; inversion H; subst; split; [exact Hj|discriminate]|]. cbv zeta.
    destruct (qline A St P E getF G n tt slope m) as [r m1] eqn:Eq. destruct (qline_inv _ _ _ _ _ _ Hj Eq) as [H1 H2].
    destruct r as [p|e| |]; try (intros H; inversion H; subst; split; [exact H1|]; intros p0 k0 Hp; inversion Hp; subst; apply H2; reflexivity).
    destruct e; try (intros H; inversion H; subst; split; [exact H1|discriminate]).
    unfold bt_search. destruct (ageb A tau _); [intros H; inversion H; subst; split; [exact H1|discriminate]|].
    destruct (bt_loop A St P E getF G n' tau (getF (fst_ m)) tt m1) as [r2 m2] eqn:Eb. destruct (bt_loop_inv _ _ _ _ _ _ _ H1 Eb) as [H3 H4].
    destruct r2 as [p|e| |]; intros H; inversion H; subst; (split; [exact H3|]); intros p0 k0 Hp; inversion Hp; subst. apply H4. reflexivity.
  Qed.
End LsInv.

Section RunInv.
  Context (A : arith) (Pb : problem A).
  Notation N := (num A).
  Context (maxiter : Z) (tol tau : N) (restart : Z) (fq fb : nat).
  (** J: states of the functional; I: loop variables at the head of an iteration; Base: these and the functional's
      state then; B: loop variables and functional after a step has been accepted; K: a trial point, right after
      its evaluation; Q: steepest descent slopes; W: a condition under which Q excludes what the line search refuses *)
  Context (J : Stt Pb -> Prop) (I : Dat Pb -> Prop) (Base B : Dat Pb -> Stt Pb -> Prop)
    (K : Dat Pb -> Pnt Pb -> Stt Pb -> Prop) (Q : N -> Prop) (W : Prop).
  Record invariants : Prop := {
    inv_curve : forall d t s o s', I d -> J s -> curve Pb d t s = (o, s') -> J s' /\ forall p, o = inl p -> K d p s';
    inv_accept : forall d p s, I d -> J s -> K d p s -> B (accept Pb d p s) s;
    inv_steep : forall d s sl d', J s -> B d s -> steepest Pb d s = inl (sl, d') -> I d' /\ Base d' s /\ Q sl;
    inv_conj : forall fr d s fr' sl d', J s -> B d s -> conj Pb fr d s = inl (fr', sl, d') -> I d' /\ Base d' s /\ B d' s;
    inv_slope : W -> forall sl, Q sl -> altb A (alit A 0 1) sl = false
  }.
  Context (HI : invariants).

  Definition good_events (evs : list (event N)) : Prop :=
    (forall sl, In (EvSteepest sl) evs -> Q sl) /\ (W -> forall l, ~ In (EvLs l LsSlope) evs).

  Lemma good_app a b : good_events a -> good_events b -> good_events (a ++ b).
  Proof.
    intros [H1 H2] [H3 H4]. split; [intros x|intros w x]; rewrite in_app_iff; [intros [H|H]; auto|].
    intros [H|H]; [exact (H2 w x H)|exact (H4 w x H)].
  Qed.

  Lemma next_inv i force fr d s sl fr' d' f' : J s -> B d s -> next_direction A Pb restart i force fr d s = inl (sl, fr', d', f') ->
    I d' /\ Base d' s /\ (W -> altb A (alit A 0 1) sl = false).
  Proof.
    intros Hj Hb. unfold next_direction. destruct (_ || _).
    - destruct (steepest Pb d s) as [[sl0 d0]|e] eqn:E; [|discriminate]. intros H; inversion H; subst.
      destruct (inv_steep HI _ _ _ _ Hj Hb E) as (H1 & H2 & H3). split; [exact H1|]. split; [exact H2|]. intros w. apply (inv_slope HI w), H3.
    - destruct (conj Pb fr d s) as [[[fr0 sl0] d0]|e] eqn:E; [|discriminate]. destruct (inv_conj HI _ _ _ _ _ _ Hj Hb E) as (H1 & H2 & H3).
      unfold agtb. destruct (altb A (alit A 0 1) sl0) eqn:Es.
      + destruct (steepest Pb d0 s) as [[sl1 d1]|e] eqn:E1; [|discriminate]. intros H; inversion H; subst.
        destruct (inv_steep HI _ _ _ _ Hj H3 E1) as (H4 & H5 & H6). split; [exact H4|]. split; [exact H5|]. intros w. apply (inv_slope HI w), H6.
      + intros H; inversion H; subst. split; [exact H1|]. split; [exact H2|]. intros _. exact Es.
  Qed.

  Lemma events_inv i force fr d s : J s -> B d s -> good_events (direction_events A Pb restart i force fr d s).
  Proof.
    intros Hj Hb. unfold direction_events. destruct (_ || _).
    - destruct (steepest Pb d s) as [[sl0 d0]|e] eqn:E; [|split; [intros ? []|intros _ ? []]].
      destruct (inv_steep HI _ _ _ _ Hj Hb E) as (_ & _ & H2). split; [intros ? [H|[]]|intros _ ? [H|[]]]; inversion H; subst. exact H2.
    - destruct (conj Pb fr d s) as [[[fr0 sl0] d0]|e] eqn:E; [|split; [intros ? []|intros _ ? []]].
      destruct (inv_conj HI _ _ _ _ _ _ Hj Hb E) as (_ & _ & H2).
      assert (Hc : good_events [EvConj fr fr0 sl0]) by (split; [intros ? [H|[]]|intros _ ? [H|[]]]; discriminate).
      apply (good_app [EvConj fr fr0 sl0]); [exact Hc|]. destruct (agtb A sl0 _); [|split; [intros ? []|intros _ ? []]].
      destruct (steepest Pb d0 s) as [[sl1 d1]|e] eqn:E1; [|split; [intros ? []|intros _ ? []]].
      destruct (inv_steep HI _ _ _ _ Hj H2 E1) as (_ & _ & H4). split; [intros ? [H|[]]|intros _ ? [H|[]]]; inversion H; subst. exact H4.
  Qed.

  Lemma good_two ev l r : (exists x y z u v w q, ev = @EvJson N x y z u v w q) -> (W -> r <> LsSlope) -> good_events [ev; EvLs l r].
  Proof.
    intros (x & y & z & u & v & w & q & ->) Hr. split.
    - intros sl [H|[H|[]]]; discriminate.
    - intros w0 l' [H|[H|[]]]; [discriminate|]. inversion H; subst. exact (Hr w0 eq_refl).
  Qed.

  Lemma search_inv s o m : J (d_st s) -> I (d_dat s) -> the_ls A Pb tau fq fb s = (o, m) ->
    J (fst_ m) /\ forall p k, o = Ret (p, k) -> K (d_dat s) p (fst_ m).
  Proof.
    intros Hj Hi Hl. unfold the_ls in Hl.
    exact (line_search_inv A _ _ _ (getF Pb) (curve Pb (d_dat s)) J (K (d_dat s)) (fun t s0 o0 s' Hj0 E => inv_curve HI _ _ _ _ _ Hi Hj0 E) _ _ _ _ _ (MkMem (d_st s) (d_force s) []) _ _ Hj Hl).
  Qed.

  Lemma cg_loop_inv n : forall i s r st evs, J (d_st s) -> I (d_dat s) -> (W -> altb A (alit A 0 1) (d_slope s) = false) ->
    cg_loop A Pb tol tau restart fq fb n i s = (r, st, evs) -> J st /\ good_events evs.
  Proof.
    induction n as [|n IH]; intros i s r st evs Hj Hi Hs H.
    - cbn in H. inversion H; subst. split; [exact Hj|]. split; [intros ? []|intros _ ? []].
    - apply cg_loop_S in H. cbv zeta in H. destruct H as [(_ & _ & -> & ->)|(_ & o & m & Hl & H)].
      { split; [exact Hj|]. split; [intros ? [H|[]]|intros _ ? [H|[]]]; discriminate. }
      destruct (search_inv _ _ _ Hj Hi Hl) as [H1 H2]. unfold the_ls in Hl.
      assert (Hns : W -> ls_result A Pb o (frestart m) <> LsSlope).
      { intros w. destruct o as [[p k]|e| |]; cbn [ls_result]; try discriminate.
        - destruct (frestart m); discriminate.
        - destruct e; try discriminate. intros _. apply line_search_slope_error in Hl. rewrite (Hs w) in Hl. discriminate. }
      assert (G2 : good_events [json_event A Pb (d_st s) (d_slope s) i; EvLs (ls_steps A Pb m) (ls_result A Pb o (frestart m))]).
      { apply good_two; [|exact Hns]. unfold json_event. repeat eexists. }
      destruct H as [H|[H|[H|[H|[H|H]]]]].
      + destruct H as (p & k & _ & _ & _ & -> & ->). split; assumption.
      + destruct H as (p & k & e & Eo & _ & _ & _ & -> & ->). split; [exact H1|].
        apply (good_app [_; _]); [exact G2|]. apply events_inv; [exact H1|]. apply (inv_accept HI); [exact Hi|exact H1|exact (H2 p k Eo)].
      + destruct H as (p & k & sl & fr & d2 & fo & evs' & Eo & _ & En & Er & ->).
        assert (Hb : B (accept Pb (d_dat s) p (fst_ m)) (fst_ m)) by (apply (inv_accept HI); [exact Hi|exact H1|exact (H2 p k Eo)]).
        destruct (next_inv _ _ _ _ _ _ _ _ _ H1 Hb En) as (H3 & _ & H4).
        destruct (IH (i + 1)%Z (MkD (fst_ m) d2 sl fr fo (print_info A Pb (d_st s) (d_slope s) i)) r st evs' H1 H3 H4 Er) as [H5 H6]. split; [exact H5|].
        apply (good_app [_; _]); [exact G2|]. apply good_app; [|exact H6]. apply events_inv; assumption.
      + destruct H as (_ & _ & -> & ->). split; assumption.
      + destruct H as (e & _ & _ & _ & _ & -> & ->). split; assumption.
      + destruct H as (_ & _ & -> & ->). split; assumption.
  Qed.

  Definition setup_ok (s0 : Stt Pb) : Prop :=
    forall o s, setup Pb s0 = (o, s) -> J s /\ forall d sl, o = inl (d, sl) -> I d /\ Base d s /\ Q sl.

  Theorem run_inv s0 r st evs : setup_ok s0 ->
    nlcg_us A Pb maxiter tol tau restart fq fb s0 = (r, st, evs) -> J st /\ good_events evs.
  Proof.
    intros Hset. unfold nlcg_us. destruct (setup Pb s0) as [[[d sl]|e] s] eqn:E; destruct (Hset _ _ E) as [H1 H2].
    - destruct (H2 d sl eq_refl) as (H3 & _ & H4).
      destruct (cg_loop A Pb tol tau restart fq fb (Z.to_nat maxiter) 0 (MkD s d sl sl false info_uninit)) as [[r' st'] evs'] eqn:El.
      intros H; inversion H; subst.
      destruct (cg_loop_inv _ _ (MkD s d sl sl false info_uninit) _ _ _ H1 H3 (fun w => inv_slope HI w sl H4) El) as [H5 [H6 H7]]. split; [exact H5|]. split.
      + intros x [Hx|Hx]; [inversion Hx; subst; exact H4|exact (H6 x Hx)].
      + intros w l [Hx|Hx]; [discriminate|exact (H7 w l Hx)].
    - intros H; inversion H; subst. split; [exact H1|]. split; [intros ? []|intros _ ? []].
  Qed.
End RunInv.

(** *** The free energy along a run *)
Local Ltac fsort := repeat first [apply SSorted_nil | apply SSorted_cons | apply Forall_nil | apply Forall_cons].
Section Mono.
  Context (Pb : problem Rarith) (tol tau : R) (restart : Z) (fq fb : nat).
  Context (J : Stt Pb -> Prop) (I : Dat Pb -> Prop) (Base B : Dat Pb -> Stt Pb -> Prop)
    (K : Dat Pb -> Pnt Pb -> Stt Pb -> Prop) (Q : R -> Prop) (W : Prop).
  Context (HI : invariants Rarith Pb J I Base B K Q W).
  Notation cg_loop := (cg_loop Rarith Pb tol tau restart fq fb).
  (** t = 0 reproduces the energy of the state the iteration started from *)
  Hypothesis Hzero : forall d s s1 p s', I d -> J s -> Base d s -> curve Pb d 0%R s1 = (inl p, s') -> getF Pb s' = getF Pb s.

  Lemma search_mono s p k m : I (d_dat s) -> J (d_st s) -> Base (d_dat s) (d_st s) ->
    the_ls Rarith Pb tau fq fb s = (Ret (p, k), m) -> (getF Pb (fst_ m) <= getF Pb (d_st s))%R.
  Proof.
    intros Hi Hj Hb H. unfold the_ls in H. apply line_search_ret in H.
    destruct H as (tl & l & _ & (s1 & Hg) & H). cbn [fst_] in H.
    destruct H as [(_ & _ & H)|[(_ & _ & H)|(_ & _ & _ & ->)]].
    - apply Rltb_false in H. exact H.
    - apply Rltb_true in H. apply Rlt_le. exact H.
    - rewrite Rlit0 in Hg. rewrite (Hzero _ _ _ _ _ Hi Hj Hb Hg). apply Rle_refl.
  Qed.

  Lemma cg_loop_mono_inv n : forall i s r st evs, I (d_dat s) -> J (d_st s) -> Base (d_dat s) (d_st s) ->
    cg_loop n i s = (r, st, evs) ->
    StronglySorted (fun x y => (y <= x)%R) (getF Pb (d_st s) :: map (@rF (num Rarith)) (records evs)) /\
    (Forall (fun x => ls_returned x = true) (searches evs) ->
     Forall (fun x => (getF Pb st <= x)%R) (getF Pb (d_st s) :: map (@rF (num Rarith)) (records evs))).
  Proof.
    induction n as [|n IH]; intros i s r st evs Hi Hj Hb H.
    - cbn in H. inversion H; subst. cbn. split; [fsort|].
      intros _. fsort; apply Rle_refl.
    - assert (Hone : forall (x : R), StronglySorted (fun x y => (y <= x)%R) [x; x]).
      { intros x. fsort; apply Rle_refl. }
      apply cg_loop_S in H. cbv zeta in H.
      destruct H as [(Ht & -> & -> & ->)|(Ht & o & m & Hls & H)].
      { cbn. split; [apply Hone|]. intros _. fsort; apply Rle_refl. }
      destruct (search_inv Rarith Pb tau fq fb J I Base B K Q W HI _ _ _ Hj Hi Hls) as [Hj' Hk].
      destruct H as [H|[H|[H|[H|[H|H]]]]].
      + destruct H as (p & k & -> & _ & -> & -> & ->). cbn. split; [apply Hone|].
        pose proof (search_mono _ _ _ _ Hi Hj Hb Hls). intros _. fsort; assumption.
      + destruct H as (p & k & e & -> & _ & Hd & -> & -> & ->). cbn [records searches json_event map rF app]. rewrite records_direction.
        pose proof (search_mono _ _ _ _ Hi Hj Hb Hls). split; [apply Hone|].
        intros _. fsort; assumption.
      + destruct H as (p & k & sl & fr & d2 & fo & evs' & -> & Hr & Hd & Hrec & ->).
        pose proof (search_mono _ _ _ _ Hi Hj Hb Hls) as Hle.
        assert (Hb1 : B (accept Pb (d_dat s) p (fst_ m)) (fst_ m)) by (apply (inv_accept _ _ _ _ _ _ _ _ _ HI); [exact Hi|exact Hj'|exact (Hk p k eq_refl)]).
        destruct (next_inv Rarith Pb restart J I Base B K Q W HI _ _ _ _ _ _ _ _ _ Hj' Hb1 Hd) as (Hi2 & Hb2 & _).
        apply IH in Hrec; [|exact Hi2|exact Hj'|exact Hb2]. cbn [d_st] in Hrec.
        destruct Hrec as (Hss & Hall). cbn [records searches json_event map rF app]. rewrite records_app, records_direction, searches_app, searches_direction.
        cbn.
        assert (Htail : Forall (fun y => (y <= getF Pb (d_st s))%R) (map (@rF (num Rarith)) (records evs'))).
        { inversion Hss; subst. eapply Forall_impl; [|eassumption]. intros a Ha. exact (Rle_trans _ _ _ Ha Hle). }
        split.
        * constructor; [constructor|].
          -- inversion Hss; assumption.
          -- exact Htail.
          -- constructor; [apply Rle_refl|exact Htail].
        * intros Hs. inversion Hs; subst.
          match goal with HH : Forall _ (searches evs') |- _ => specialize (Hall HH) end.
          inversion Hall as [|? ? Hh Ht']; subst.
          pose proof (Rle_trans _ _ _ Hh Hle) as Hx.
          apply Forall_cons; [exact Hx|]. apply Forall_cons; [exact Hx|exact Ht'].
      + destruct H as (Ho & _ & -> & ->). cbn. split; [apply Hone|].
        intros Hs. inversion Hs; subst. destruct Ho as [-> | ->]; discriminate.
      + destruct H as (e & -> & H1 & H2 & -> & -> & ->). cbn. split; [apply Hone|].
        intros Hs. inversion Hs; subst. destruct e; try discriminate; congruence.
      + destruct H as (-> & -> & -> & ->). cbn. split; [apply Hone|].
        intros Hs. inversion Hs; subst. discriminate.
  Qed.

  Theorem run_mono maxiter s0 r st evs : setup_ok Rarith Pb J I Base Q s0 ->
    nlcg_us Rarith Pb maxiter tol tau restart fq fb s0 = (r, st, evs) ->
    StronglySorted (fun x y => (y <= x)%R) (map (@rF (num Rarith)) (records evs)) /\
    (Forall (fun x => ls_returned x = true) (searches evs) ->
     Forall (fun x => (getF Pb st <= x)%R) (map (@rF (num Rarith)) (records evs))).
  Proof.
    intros Hset. unfold nlcg_us. destruct (setup Pb s0) as [[[d sl]|e] s] eqn:Hs; destruct (Hset _ _ Hs) as [H1 H2].
    - destruct (H2 d sl eq_refl) as (H3 & H4 & _).
      destruct (Driver.cg_loop _ _ _ _ _ _ _ _ _ _) as [[r' st'] evs'] eqn:Hl.
      intros E; inversion E; subst. apply cg_loop_mono_inv in Hl; [|exact H3|exact H1|exact H4].
      cbn [d_st] in Hl. destruct Hl as (H5 & H6). cbn. split.
      + inversion H5; assumption.
      + intros H. specialize (H6 H). inversion H6; assumption.
    - intros E; inversion E; subst. cbn. split; [constructor|auto].
  Qed.
End Mono.
