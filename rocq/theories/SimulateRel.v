(** Two runs of nlcg_us (Driver.v, src/nlcglib.cpp 214-442; LineSearch.v, src/linesearch/linesearch.hpp) whose states,
    loop variables and trial points are related step by step report the same numbers.  Simulate.v is the special case of
    equal loop variables.  Used in MemRunProofs.v.  Nothing here models code of its own. *)
From Coq Require Import ZArith List Bool.
From Verif Require Import Arith LineSearch Driver.
Import ListNotations.

Section Rel.
  Context (A : arith) (P1 P2 : problem A).
  Notation N := (num A).
  (** related exceptions; states; loop variables at the head of an iteration; these together with the functional's state
      after a step has been accepted; trial points right after their evaluation *)
  Context (RE : Exc P1 -> Exc P2 -> Prop) (RJ : Stt P1 -> Stt P2 -> Prop) (RI : Dat P1 -> Dat P2 -> Prop)
    (RB : Dat P1 -> Dat P2 -> Stt P1 -> Stt P2 -> Prop) (RK : Pnt P1 -> Pnt P2 -> Stt P1 -> Stt P2 -> Prop).
  Definition rsum_ {X Y E F} (RX : X -> Y -> Prop) (RF : E -> F -> Prop) (x : X + E) (y : Y + F) : Prop :=
    match x, y with inl a, inl b => RX a b | inr e, inr f => RF e f | _, _ => False end.
  Record related_problems : Prop := {
    rl_F : forall s t, RJ s t -> getF P1 s = getF P2 t;
    rl_S : forall s t, RJ s t -> getS P1 s = getS P2 t;
    rl_K : forall s t, RJ s t -> getKS P1 s = getKS P2 t;
    rl_M : forall s t, RJ s t -> getMu P1 s = getMu P2 t;
    rl_curve : forall d e x s t, RI d e -> RJ s t ->
      RJ (snd (curve P1 d x s)) (snd (curve P2 e x t)) /\
      rsum_ (fun p q => RK p q (snd (curve P1 d x s)) (snd (curve P2 e x t))) RE (fst (curve P1 d x s)) (fst (curve P2 e x t));
    rl_accept : forall d e p q s t, RI d e -> RJ s t -> RK p q s t -> RB (accept P1 d p s) (accept P2 e q t) s t;
    rl_steep : forall d e s t, RJ s t -> RB d e s t ->
      rsum_ (fun a b => fst a = fst b /\ RI (snd a) (snd b)) RE (steepest P1 d s) (steepest P2 e t);
    rl_conj : forall fr d e s t, RJ s t -> RB d e s t ->
      rsum_ (fun a b => fst a = fst b /\ RI (snd a) (snd b) /\ RB (snd a) (snd b) s t) RE (conj P1 fr d s) (conj P2 fr e t)
  }.
  Hypothesis HR : related_problems.

  Definition rexn (e : exn (Exc P1)) (f : exn (Exc P2)) : Prop :=
    match e, f with
    | SlopeError, SlopeError | StepError, StepError | DescentError, DescentError | RuntimeError, RuntimeError => True
    | OtherExn a, OtherExn b => RE a b
    | _, _ => False
    end.
  Definition rout {X Y} (RX : X -> Y -> Prop) (o : outcome (Exc P1) X) (p : outcome (Exc P2) Y) : Prop :=
    match o, p with
    | Ret a, Ret b => RX a b
    | Throw e, Throw f => rexn e f
    | UB, UB | NoFuel, NoFuel => True
    | _, _ => False
    end.
  Notation mem1 := (lsmem N (Stt P1) (Pnt P1)).
  Notation mem2 := (lsmem N (Stt P2) (Pnt P2)).
  Definition rmem (m1 : mem1) (m2 : mem2) : Prop :=
    RJ (fst_ m1) (fst_ m2) /\ frestart m1 = frestart m2 /\ ls_steps A P1 m1 = ls_steps A P2 m2.

  Section Curve.
  Context (d : Dat P1) (e : Dat P2) (Hd : RI d e).
  Notation call1 := (callG A (Stt P1) (Pnt P1) (Exc P1) (getF P1) (curve P1 d)).
  Notation call2 := (callG A (Stt P2) (Pnt P2) (Exc P2) (getF P2) (curve P2 e)).
  Definition rpoint (r1 : outcome (Exc P1) (Pnt P1) * mem1) (r2 : outcome (Exc P2) (Pnt P2) * mem2) : Prop :=
    rmem (snd r1) (snd r2) /\ rout (fun p q => RK p q (fst_ (snd r1)) (fst_ (snd r2))) (fst r1) (fst r2).

  Lemma steps_cons (s : Stt P1) (t : Stt P2) (m1 : mem1) (m2 : mem2) x a b f1 f2 r1 r2 : ls_steps A P1 m1 = ls_steps A P2 m2 ->
    ls_steps A P1 (MkMem s r1 ((x, a, f1) :: evals m1)) = ls_steps A P2 (MkMem t r2 ((x, b, f2) :: evals m2)).
  Proof. unfold ls_steps. cbn [evals map rev fst]. intros ->. reflexivity. Qed.

  Lemma call_rel x m1 m2 : rmem m1 m2 -> rpoint (call1 x m1) (call2 x m2).
  Proof.
    intros (L & Fr & Ev). unfold callG. destruct (rl_curve HR d e x _ _ Hd L) as (Hs & Ho).
    destruct (curve P1 d x (fst_ m1)) as [o1 s1], (curve P2 e x (fst_ m2)) as [o2 s2]. cbn [fst snd] in Ho, Hs.
    destruct o1 as [p|x1], o2 as [q|x2]; cbn [rsum_] in Ho; try contradiction;
      (split; [split; [exact Hs|split; [exact Fr|apply steps_cons; exact Ev]]|exact Ho]).
  Qed.

  Notation bt1 := (bt_loop A (Stt P1) (Pnt P1) (Exc P1) (getF P1) (curve P1 d)).
  Notation bt2 := (bt_loop A (Stt P2) (Pnt P2) (Exc P2) (getF P2) (curve P2 e)).
  Lemma back_rel x m1 m2 : rmem m1 m2 ->
    rpoint (if frestart m1 then (Throw DescentError, m1) else call1 x (MkMem (fst_ m1) true (evals m1)))
           (if frestart m2 then (Throw DescentError, m2) else call2 x (MkMem (fst_ m2) true (evals m2))).
  Proof.
    intros H. pose proof H as (L & Fr & Ev). rewrite Fr. destruct (frestart m2).
    - split; [exact H|exact Logic.I].
    - apply call_rel. split; [exact L|split; [reflexivity|exact Ev]].
  Qed.
  Lemma bt_rel tau F0 : forall fuel x m1 m2, rmem m1 m2 -> rpoint (bt1 fuel tau F0 x m1) (bt2 fuel tau F0 x m2).
  Proof.
    induction fuel as [|f IH]; intros x m1 m2 H; cbn [bt_loop].
    - destruct (agtb A x (alit A 1 100000000)); [split; [exact H|exact Logic.I]|apply back_rel; exact H].
    - destruct (agtb A x (alit A 1 100000000)); [|apply back_rel; exact H].
      pose proof (call_rel x m1 m2 H) as (Hm & Ho).
      destruct (call1 x m1) as [o1 n1], (call2 x m2) as [o2 n2]. cbn [fst snd] in Ho, Hm.
      destruct o1 as [p|x1| |], o2 as [q|x2| |]; cbn [rout] in Ho; try contradiction; try (split; [exact Hm|exact Ho]).
      rewrite (rl_F HR _ _ (proj1 Hm)). destruct (altb A (getF P2 (fst_ n2)) F0).
      + destruct Hm as (L & Fr & Ev). split; [split; [exact L|split; [reflexivity|exact Ev]]|exact Ho].
      + apply IH. exact Hm.
  Qed.

  Notation ql1 := (q_loop A (Stt P1) (Pnt P1) (Exc P1) (getF P1) (curve P1 d)).
  Notation ql2 := (q_loop A (Stt P2) (Pnt P2) (Exc P2) (getF P2) (curve P2 e)).
  Lemma q_rel F0 slope : forall fuel x m1 m2, rmem m1 m2 ->
    rmem (snd (ql1 fuel F0 slope x m1)) (snd (ql2 fuel F0 slope x m2)) /\
    rout eq (fst (ql1 fuel F0 slope x m1)) (fst (ql2 fuel F0 slope x m2)).
  Proof.
    induction fuel as [|f IH]; intros x m1 m2 H; cbn [q_loop]; [split; [exact H|exact Logic.I]|].
    pose proof (call_rel x m1 m2 H) as (Hm & Ho).
    destruct (call1 x m1) as [o1 n1], (call2 x m2) as [o2 n2]. cbn [fst snd] in Ho, Hm.
    destruct o1 as [p|x1| |], o2 as [q|x2| |]; cbn [rout] in Ho; try contradiction; try (split; [exact Hm|exact Ho]).
    rewrite (rl_F HR _ _ (proj1 Hm)).
    destruct (altb A (q_a A F0 slope x (getF P2 (fst_ n2))) (alit A 0 1)); [apply IH; exact Hm|split; [exact Hm|reflexivity]].
  Qed.

  Lemma qline_rel fuel x slope m1 m2 : rmem m1 m2 ->
    rpoint (qline A (Stt P1) (Pnt P1) (Exc P1) (getF P1) (curve P1 d) fuel x slope m1)
           (qline A (Stt P2) (Pnt P2) (Exc P2) (getF P2) (curve P2 e) fuel x slope m2).
  Proof.
    intros H. unfold qline. rewrite (rl_F HR _ _ (proj1 H)).
    pose proof (q_rel (getF P2 (fst_ m2)) slope fuel x m1 m2 H) as (Hm & Ho).
    destruct (ql1 fuel _ slope x m1) as [o1 n1], (ql2 fuel _ slope x m2) as [o2 n2]. cbn [fst snd] in Ho, Hm.
    destruct o1 as [p|x1| |], o2 as [q|x2| |]; cbn [rout] in Ho; try contradiction; try (split; [exact Hm|exact Ho]).
    subst q. pose proof (call_rel p n1 n2 Hm) as (Hm' & Ho').
    destruct (call1 p n1) as [o1 k1], (call2 p n2) as [o2 k2]. cbn [fst snd] in Ho', Hm'.
    destruct o1 as [y|x1| |], o2 as [z|x2| |]; cbn [rout] in Ho'; try contradiction; try (split; [exact Hm'|exact Ho']).
    rewrite (rl_F HR _ _ (proj1 Hm')). destruct (agtb A (getF P2 (fst_ k2)) (getF P2 (fst_ m2))).
    - split; [exact Hm'|exact Logic.I].
    - destruct Hm' as (L & Fr & Ev). split; [split; [exact L|split; [reflexivity|exact Ev]]|exact Ho'].
  Qed.

  Lemma line_search_rel fuelq fuelb x tau slope m1 m2 : rmem m1 m2 ->
    let r1 := line_search A (Stt P1) (Pnt P1) (Exc P1) (getF P1) (curve P1 d) fuelq fuelb x tau slope m1 in
    let r2 := line_search A (Stt P2) (Pnt P2) (Exc P2) (getF P2) (curve P2 e) fuelq fuelb x tau slope m2 in
    rmem (snd r1) (snd r2) /\
    rout (fun p q => RK (fst p) (fst q) (fst_ (snd r1)) (fst_ (snd r2)) /\ snd p = snd q) (fst r1) (fst r2).
  Proof.
    intros H. unfold line_search. destruct (agtb A slope (alit A 0 1)); [split; [exact H|exact Logic.I]|].
    rewrite (rl_F HR _ _ (proj1 H)).
    pose proof (qline_rel fuelq x slope m1 m2 H) as (Hm & Ho).
    destruct (qline A (Stt P1) (Pnt P1) (Exc P1) (getF P1) (curve P1 d) fuelq x slope m1) as [o1 n1].
    destruct (qline A (Stt P2) (Pnt P2) (Exc P2) (getF P2) (curve P2 e) fuelq x slope m2) as [o2 n2].
    cbn [fst snd] in Ho, Hm.
    destruct o1 as [p|x1| |], o2 as [q|x2| |]; cbn [rout] in Ho; try contradiction;
      try (split; [exact Hm|first [exact Ho | split; [exact Ho|reflexivity]]]).
    destruct x1, x2; cbn [rexn] in Ho; try contradiction; try (split; [exact Hm|exact Ho]).
    unfold bt_search. destruct (ageb A tau (alit A 1 1)); [split; [exact Hm|exact Logic.I]|].
    pose proof (bt_rel tau (getF P2 (fst_ m2)) fuelb x n1 n2 Hm) as (Hm' & Ho').
    destruct (bt1 fuelb tau _ x n1) as [o1 k1], (bt2 fuelb tau _ x n2) as [o2 k2]. cbn [fst snd] in Ho', Hm'.
    destruct o1 as [p|x1| |], o2 as [q|x2| |]; cbn [rout] in Ho'; try contradiction;
      (split; [exact Hm'|first [exact Ho' | split; [exact Ho'|reflexivity]]]).
  Qed.
  End Curve.

  Context (maxiter : Z) (tol tau : N) (restart : Z) (fq fb : nat).

  Lemma direction_rel i force fr d e s t : RJ s t -> RB d e s t ->
    direction_events A P1 restart i force fr d s = direction_events A P2 restart i force fr e t /\
    rsum_ (fun a b => fst (fst (fst a)) = fst (fst (fst b)) /\ snd (fst (fst a)) = snd (fst (fst b)) /\ snd a = snd b /\ RI (snd (fst a)) (snd (fst b)))
      RE (next_direction A P1 restart i force fr d s) (next_direction A P2 restart i force fr e t).
  Proof.
    intros L B. unfold direction_events, next_direction.
    destruct ((Z.rem i restart =? 0)%Z || force).
    - pose proof (rl_steep HR d e s t L B) as H.
      destruct (steepest P1 d s) as [[sl d']|x], (steepest P2 e t) as [[sl' e']|y]; cbn [rsum_ fst snd] in H; try contradiction.
      + destruct H as (-> & H). split; [reflexivity|]. cbn. repeat split. exact H.
      + split; [reflexivity|exact H].
    - pose proof (rl_conj HR fr d e s t L B) as H.
      destruct (conj P1 fr d s) as [[[fr1 sl] d']|x], (conj P2 fr e t) as [[[fr2 sl'] e']|y]; cbn [rsum_ fst snd] in H; try contradiction.
      + destruct H as (E & HI & HB). injection E as -> ->.
        destruct (agtb A sl' (alit A 0 1)).
        * pose proof (rl_steep HR d' e' s t L HB) as H.
          destruct (steepest P1 d' s) as [[sl2 d2]|x], (steepest P2 e' t) as [[sl3 e2]|y]; cbn [rsum_ fst snd] in H; try contradiction.
          -- destruct H as (-> & H). split; [reflexivity|]. cbn. repeat split. exact H.
          -- split; [reflexivity|exact H].
        * split; [reflexivity|]. cbn. repeat split. exact HI.
      + split; [reflexivity|exact H].
  Qed.

  (** related outcomes, the same events, related final states *)
  Definition rrun (r1 : outcome (Exc P1) (nlcg_info N) * Stt P1 * list (event N))
                  (r2 : outcome (Exc P2) (nlcg_info N) * Stt P2 * list (event N)) : Prop :=
    rout eq (fst (fst r1)) (fst (fst r2)) /\ snd r1 = snd r2 /\ RJ (snd (fst r1)) (snd (fst r2)).

  Lemma result_rel o1 o2 (RX : Pnt P1 -> Pnt P2 -> Prop) b :
    rout (fun p q => RX (fst p) (fst q) /\ snd p = snd q) o1 o2 -> ls_result A P1 o1 b = ls_result A P2 o2 b.
  Proof.
    destruct o1 as [[p k]|x1| |], o2 as [[q k']|x2| |]; cbn [rout fst snd]; intros H; try contradiction; cbn; try reflexivity.
    - destruct H as (_ & ->). reflexivity.
    - destruct x1, x2; cbn in H; try contradiction; reflexivity.
  Qed.

  Lemma loop_rel : forall n i s t d e sl fr force info, RJ s t -> RI d e ->
    rrun (cg_loop A P1 tol tau restart fq fb n i (@MkD A P1 s d sl fr force info))
         (cg_loop A P2 tol tau restart fq fb n i (@MkD A P2 t e sl fr force info)).
  Proof.
    induction n as [|n IH]; intros i s t d e sl fr force info L HI; cbn [cg_loop d_st d_dat d_slope d_fr d_force d_info].
    - split; [reflexivity|split; [reflexivity|exact L]].
    - assert (EJ : json_event A P1 s sl i = json_event A P2 t sl i).
      { unfold json_event. rewrite (rl_F HR _ _ L), (rl_S HR _ _ L), (rl_K HR _ _ L), (rl_M HR _ _ L). reflexivity. }
      assert (EP : print_info A P1 s sl i = print_info A P2 t sl i).
      { unfold print_info. rewrite (rl_F HR _ _ L), (rl_S HR _ _ L). reflexivity. }
      rewrite EJ, EP.
      destruct (altb A (aabs A sl) tol); [split; [reflexivity|split; [reflexivity|exact L]]|].
      pose proof (line_search_rel d e HI fq fb (alit A 1 5) tau sl (MkMem s force []) (MkMem t force []) (Logic.conj L (Logic.conj eq_refl eq_refl))) as H.
      cbn zeta in H.
      destruct (line_search A (Stt P1) (Pnt P1) (Exc P1) (getF P1) (curve P1 d) fq fb (alit A 1 5) tau sl (MkMem s force [])) as [o1 m1].
      destruct (line_search A (Stt P2) (Pnt P2) (Exc P2) (getF P2) (curve P2 e) fq fb (alit A 1 5) tau sl (MkMem t force [])) as [o2 m2].
      cbn [fst snd] in H. destruct H as ((L' & Fr & Ev) & Ho).
      assert (Er := result_rel o1 o2 (fun p q => RK p q (fst_ m1) (fst_ m2)) (frestart m2) Ho).
      rewrite Ev, Fr, Er.
      destruct o1 as [[p kd]|x1| |], o2 as [[q kd']|x2| |]; cbn [rout fst snd] in Ho; try contradiction.
      + destruct Ho as (HK & ->). destruct (restart =? 0)%Z; [split; [exact Logic.I|split; [reflexivity|exact L']]|].
        assert (HB := rl_accept HR d e p q _ _ HI L' HK).
        destruct (direction_rel i (frestart m2) fr (accept P1 d p (fst_ m1)) (accept P2 e q (fst_ m2)) (fst_ m1) (fst_ m2) L' HB) as (Ed & Hn).
        rewrite Ed.
        destruct (next_direction A P1 restart i (frestart m2) fr (accept P1 d p (fst_ m1)) (fst_ m1)) as [[[[sl1 fr1] d2] f1]|y1],
                 (next_direction A P2 restart i (frestart m2) fr (accept P2 e q (fst_ m2)) (fst_ m2)) as [[[[sl2 fr2] e2] f2]|y2];
          cbn [rsum_ fst snd] in Hn; try contradiction.
        * destruct Hn as (-> & -> & -> & HI2).
          specialize (IH (i + 1)%Z (fst_ m1) (fst_ m2) d2 e2 sl2 fr2 f2 (print_info A P2 t sl i) L' HI2).
          destruct (cg_loop A P1 tol tau restart fq fb n (i + 1) _) as [[r1 st1] ev1].
          destruct (cg_loop A P2 tol tau restart fq fb n (i + 1) _) as [[r2 st2] ev2].
          destruct IH as (H1 & H2 & H3). cbn [fst snd] in H1, H2, H3. subst ev2.
          split; [exact H1|split; [reflexivity|exact H3]].
        * split; [exact Hn|split; [reflexivity|exact L']].
      + destruct x1, x2; cbn [rexn] in Ho; try contradiction; split; try exact Logic.I; try reflexivity; try exact Ho;
          (split; [reflexivity|exact L']).
      + split; [exact Logic.I|split; [reflexivity|exact L']].
      + split; [exact Logic.I|split; [reflexivity|exact L']].
  Qed.

  Theorem run_rel s t :
    RJ (snd (setup P1 s)) (snd (setup P2 t)) ->
    rsum_ (fun a b => snd a = snd b /\ RI (fst a) (fst b)) RE (fst (setup P1 s)) (fst (setup P2 t)) ->
    rrun (nlcg_us A P1 maxiter tol tau restart fq fb s) (nlcg_us A P2 maxiter tol tau restart fq fb t).
  Proof.
    intros L H. unfold nlcg_us. destruct (setup P1 s) as [o1 s1], (setup P2 t) as [o2 s2]. cbn [fst snd] in L, H.
    destruct o1 as [[d sl]|x1], o2 as [[e sl']|x2]; cbn [rsum_ fst snd] in H; try contradiction.
    - destruct H as (-> & HI).
      pose proof (loop_rel (Z.to_nat maxiter) 0 s1 s2 d e sl' sl' false info_uninit L HI) as H.
      destruct (cg_loop A P1 tol tau restart fq fb (Z.to_nat maxiter) 0 _) as [[r1 st1] ev1].
      destruct (cg_loop A P2 tol tau restart fq fb (Z.to_nat maxiter) 0 _) as [[r2 st2] ev2].
      destruct H as (H1 & H2 & H3). cbn [fst snd] in H1, H2, H3. subst ev2.
      split; [exact H1|split; [reflexivity|exact H3]].
    - split; [exact H|split; [reflexivity|exact L]].
  Qed.
End Rel.
