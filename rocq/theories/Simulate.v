(** Two runs of nlcg_us (Driver.v, src/nlcglib.cpp 214-442; LineSearch.v, src/linesearch/linesearch.hpp) with
    functionals that differ only in parts of their states that are never looked at behave alike.  Used in
    Distribution.v.  Nothing here models code of its own. *)
From Coq Require Import ZArith List Bool.
From Verif Require Import Arith LineSearch Driver.
Import ListNotations.

Section Sim.
  Context (A : arith) (St Dt Pt Ex : Type).
  Notation N := (num A).
  Context (gF gS gK gM : St -> N).
  Context (setup1 setup2 : St -> ((Dt * N) + Ex) * St).
  Context (curve1 curve2 : Dt -> N -> St -> (Pt + Ex) * St).
  Context (accept1 accept2 : Dt -> Pt -> St -> Dt).
  Context (steep1 steep2 : Dt -> St -> (N * Dt) + Ex).
  Context (conj1 conj2 : N -> Dt -> St -> (N * N * Dt) + Ex).
  (** the states that look the same *)
  Context (like : St -> St -> Prop).
  Hypothesis gF_like : forall s t, like s t -> gF s = gF t.
  Hypothesis gS_like : forall s t, like s t -> gS s = gS t.
  Hypothesis gK_like : forall s t, like s t -> gK s = gK t.
  Hypothesis gM_like : forall s t, like s t -> gM s = gM t.
  Hypothesis setup_like : forall s t, like s t ->
    fst (setup1 s) = fst (setup2 t) /\ like (snd (setup1 s)) (snd (setup2 t)).
  Hypothesis curve_like : forall d x s t, like s t ->
    fst (curve1 d x s) = fst (curve2 d x t) /\ like (snd (curve1 d x s)) (snd (curve2 d x t)).
  Hypothesis accept_like : forall d p s t, like s t -> accept1 d p s = accept2 d p t.
  Hypothesis steep_like : forall d s t, like s t -> steep1 d s = steep2 d t.
  Hypothesis conj_like : forall fr d s t, like s t -> conj1 fr d s = conj2 fr d t.

  Notation P1 := (MkProblem A St Dt Pt Ex gF gS gK gM setup1 curve1 accept1 steep1 conj1).
  Notation P2 := (MkProblem A St Dt Pt Ex gF gS gK gM setup2 curve2 accept2 steep2 conj2).
  Notation mem := (lsmem N St Pt).

  Definition mlike (m1 m2 : mem) : Prop := like (fst_ m1) (fst_ m2) /\ frestart m1 = frestart m2 /\ evals m1 = evals m2.
  Definition olike {Y} (r1 r2 : outcome Ex Y * mem) : Prop := fst r1 = fst r2 /\ mlike (snd r1) (snd r2).

  Section Curve.
  Context (d : Dt).
  Notation G1 := (curve1 d).
  Notation G2 := (curve2 d).

  Lemma callG_like x m1 m2 : mlike m1 m2 -> olike (callG A St Pt Ex gF G1 x m1) (callG A St Pt Ex gF G2 x m2).
  Proof.
    intros (L & Fr & Ev). unfold callG. destruct (curve_like d x _ _ L) as (Hf & Hs).
    destruct (G1 x (fst_ m1)) as [o1 s1], (G2 x (fst_ m2)) as [o2 s2]. cbn [fst snd] in Hf, Hs. subst o2.
    destruct o1 as [p|e]; (split; [reflexivity|]); cbn [snd]; repeat split; cbn [fst_ frestart evals]; auto;
      rewrite Ev, (gF_like _ _ Hs); reflexivity.
  Qed.

  Lemma bt_loop_like tau F0 : forall fuel x m1 m2, mlike m1 m2 ->
    olike (bt_loop A St Pt Ex gF G1 fuel tau F0 x m1) (bt_loop A St Pt Ex gF G2 fuel tau F0 x m2).
  Proof.
    induction fuel as [|f IH]; intros x m1 m2 H; cbn [bt_loop].
    - destruct (agtb A x (alit A 1 100000000)); [split; [reflexivity|exact H]|].
      pose proof H as (L & Fr & Ev). rewrite Fr. destruct (frestart m2) eqn:Efr; [split; [reflexivity|exact H]|].
      apply callG_like. repeat split; cbn [fst_ frestart evals]; auto.
    - destruct (agtb A x (alit A 1 100000000)).
      + pose proof (callG_like x m1 m2 H) as (Hf & Hm).
        destruct (callG A St Pt Ex gF G1 x m1) as [o1 n1], (callG A St Pt Ex gF G2 x m2) as [o2 n2]. cbn [fst snd] in Hf, Hm. subst o2.
        destruct o1 as [p|e| |]; try (split; [reflexivity|exact Hm]).
        rewrite (gF_like _ _ (proj1 Hm)). destruct (altb A (gF (fst_ n2)) F0).
        * split; [reflexivity|]. destruct Hm as (L & Fr & Ev). repeat split; cbn [snd fst_ frestart evals]; auto.
        * apply IH. exact Hm.
      + pose proof H as (L & Fr & Ev). rewrite Fr. destruct (frestart m2) eqn:Efr; [split; [reflexivity|exact H]|].
        apply callG_like. repeat split; cbn [fst_ frestart evals]; auto.
  Qed.

  Lemma q_loop_like F0 slope : forall fuel x m1 m2, mlike m1 m2 ->
    olike (q_loop A St Pt Ex gF G1 fuel F0 slope x m1) (q_loop A St Pt Ex gF G2 fuel F0 slope x m2).
  Proof.
    induction fuel as [|f IH]; intros x m1 m2 H; cbn [q_loop]; [split; [reflexivity|exact H]|].
    pose proof (callG_like x m1 m2 H) as (Hf & Hm).
    destruct (callG A St Pt Ex gF G1 x m1) as [o1 n1], (callG A St Pt Ex gF G2 x m2) as [o2 n2]. cbn [fst snd] in Hf, Hm. subst o2.
    destruct o1 as [p|e| |]; try (split; [reflexivity|exact Hm]).
    rewrite (gF_like _ _ (proj1 Hm)).
    destruct (altb A (q_a A F0 slope x (gF (fst_ n2))) (alit A 0 1)); [apply IH; exact Hm|split; [reflexivity|exact Hm]].
  Qed.

  Lemma qline_like fuel x slope m1 m2 : mlike m1 m2 ->
    olike (qline A St Pt Ex gF G1 fuel x slope m1) (qline A St Pt Ex gF G2 fuel x slope m2).
  Proof.
    intros H. unfold qline. rewrite (gF_like _ _ (proj1 H)).
    pose proof (q_loop_like (gF (fst_ m2)) slope fuel x m1 m2 H) as (Hf & Hm).
    destruct (q_loop A St Pt Ex gF G1 fuel _ slope x m1) as [o1 n1], (q_loop A St Pt Ex gF G2 fuel _ slope x m2) as [o2 n2].
    cbn [fst snd] in Hf, Hm. subst o2. destruct o1 as [t|e| |]; try (split; [reflexivity|exact Hm]).
    pose proof (callG_like t n1 n2 Hm) as (Hf & Hm').
    destruct (callG A St Pt Ex gF G1 t n1) as [o1 k1], (callG A St Pt Ex gF G2 t n2) as [o2 k2]. cbn [fst snd] in Hf, Hm'. subst o2.
    destruct o1 as [p|e| |]; try (split; [reflexivity|exact Hm']).
    rewrite (gF_like _ _ (proj1 Hm')). destruct (agtb A (gF (fst_ k2)) (gF (fst_ m2))); (split; [reflexivity|]); [exact Hm'|].
    destruct Hm' as (L & Fr & Ev). repeat split; cbn [snd fst_ frestart evals]; auto.
  Qed.

  Lemma line_search_like fuelq fuelb x tau slope m1 m2 : mlike m1 m2 ->
    olike (line_search A St Pt Ex gF G1 fuelq fuelb x tau slope m1) (line_search A St Pt Ex gF G2 fuelq fuelb x tau slope m2).
  Proof.
    intros H. unfold line_search. destruct (agtb A slope (alit A 0 1)); [split; [reflexivity|exact H]|].
    rewrite (gF_like _ _ (proj1 H)).
    pose proof (qline_like fuelq x slope m1 m2 H) as (Hf & Hm).
    destruct (qline A St Pt Ex gF G1 fuelq x slope m1) as [o1 n1], (qline A St Pt Ex gF G2 fuelq x slope m2) as [o2 n2].
    cbn [fst snd] in Hf, Hm. subst o2. destruct o1 as [t|e| |]; try (split; [reflexivity|exact Hm]).
    destruct e; try (split; [reflexivity|exact Hm]).
    unfold bt_search. destruct (ageb A tau (alit A 1 1)); [split; [reflexivity|exact Hm]|].
    pose proof (bt_loop_like tau (gF (fst_ m2)) fuelb x n1 n2 Hm) as (Hf & Hm').
    destruct (bt_loop A St Pt Ex gF G1 fuelb tau _ x n1) as [o1 k1], (bt_loop A St Pt Ex gF G2 fuelb tau _ x n2) as [o2 k2].
    cbn [fst snd] in Hf, Hm'. subst o2. destruct o1 as [p|e| |]; (split; [reflexivity|exact Hm']).
  Qed.
  End Curve.

  Context (maxiter : Z) (tol tau : N) (restart : Z) (fq fb : nat).

  Lemma next_direction_like i force fr d s t : like s t ->
    next_direction A P1 restart i force fr d s = next_direction A P2 restart i force fr d t.
  Proof.
    intros L. unfold next_direction; cbn [steepest conj].
    destruct ((Z.rem i restart =? 0)%Z || force); [rewrite (steep_like d s t L); reflexivity|].
    rewrite (conj_like fr d s t L). destruct (conj2 fr d t) as [[[fr' sl] d']|e]; [|reflexivity].
    destruct (agtb A sl (alit A 0 1)); [rewrite (steep_like d' s t L)|]; reflexivity.
  Qed.

  Lemma direction_events_like i force fr d s t : like s t ->
    direction_events A P1 restart i force fr d s = direction_events A P2 restart i force fr d t.
  Proof.
    intros L. unfold direction_events; cbn [steepest conj].
    destruct ((Z.rem i restart =? 0)%Z || force); [rewrite (steep_like d s t L); reflexivity|].
    rewrite (conj_like fr d s t L). destruct (conj2 fr d t) as [[[fr' sl] d']|e]; [|reflexivity].
    destruct (agtb A sl (alit A 0 1)); [rewrite (steep_like d' s t L)|]; reflexivity.
  Qed.

  (** outcome and events are the same, the final states look the same *)
  Definition rlike (r1 r2 : outcome Ex (nlcg_info N) * St * list (event N)) : Prop :=
    fst (fst r1) = fst (fst r2) /\ snd r1 = snd r2 /\ like (snd (fst r1)) (snd (fst r2)).

  Lemma cg_loop_like : forall n i s t d sl fr force info, like s t ->
    rlike (cg_loop A P1 tol tau restart fq fb n i (@MkD A P1 s d sl fr force info))
          (cg_loop A P2 tol tau restart fq fb n i (@MkD A P2 t d sl fr force info)).
  Proof.
    induction n as [|n IH]; intros i s t d sl fr force info L; cbn [cg_loop d_st d_dat d_slope d_fr d_force d_info].
    - repeat split. exact L.
    - assert (EJ : json_event A P1 s sl i = json_event A P2 t sl i).
      { unfold json_event; cbn [getF getS getKS getMu]. rewrite (gF_like _ _ L), (gS_like _ _ L), (gK_like _ _ L), (gM_like _ _ L). reflexivity. }
      assert (EP : print_info A P1 s sl i = print_info A P2 t sl i).
      { unfold print_info; cbn [getF getS]. rewrite (gF_like _ _ L), (gS_like _ _ L). reflexivity. }
      rewrite EJ, EP.
      destruct (altb A (aabs A sl) tol); [repeat split; exact L|].
      cbn [Stt Pnt Exc getF curve Dat].
      pose proof (line_search_like d fq fb (alit A 1 5) tau sl (MkMem s force []) (MkMem t force []) (Logic.conj L (Logic.conj eq_refl eq_refl))) as (Hf & Hm).
      destruct (line_search A St Pt Ex gF (curve1 d) fq fb (alit A 1 5) tau sl (MkMem s force [])) as [o1 m1].
      destruct (line_search A St Pt Ex gF (curve2 d) fq fb (alit A 1 5) tau sl (MkMem t force [])) as [o2 m2].
      cbn [fst snd] in Hf, Hm. subst o2. destruct Hm as (L' & Fr & Ev).
      assert (El : ls_steps A P1 m1 = ls_steps A P2 m2) by exact (f_equal (fun l : list (N * option Pt * N) => rev (map (fun e => fst (fst e)) l)) Ev).
      assert (Er : forall b, ls_result A P1 o1 b = ls_result A P2 o1 b) by reflexivity.
      destruct o1 as [[p kd]|e| |].
      + destruct (restart =? 0)%Z.
        * repeat split; cbn [fst snd]; [|exact L']. rewrite El, Er, Fr. reflexivity.
        * cbn [accept]. rewrite (accept_like d p _ _ L'), El, Er, Fr.
          rewrite (direction_events_like i (frestart m2) fr (accept2 d p (fst_ m2)) _ _ L').
          rewrite (next_direction_like i (frestart m2) fr (accept2 d p (fst_ m2)) _ _ L').
          destruct (next_direction A P2 restart i (frestart m2) fr (accept2 d p (fst_ m2)) (fst_ m2)) as [[[[sl' fr'] d2] force']|e].
          -- specialize (IH (i + 1)%Z (fst_ m1) (fst_ m2) d2 sl' fr' force' (print_info A P2 t sl i) L').
             destruct (cg_loop A P1 tol tau restart fq fb n (i + 1) _) as [[r1 st1] ev1].
             destruct (cg_loop A P2 tol tau restart fq fb n (i + 1) _) as [[r2 st2] ev2].
             destruct IH as (H1 & H2 & H3). cbn [fst snd] in H1, H2, H3. subst. repeat split; exact H3.
          -- repeat split; exact L'.
      + destruct e; repeat split; cbn [fst snd]; try exact L'; rewrite El, Er, Fr; reflexivity.
      + repeat split; cbn [fst snd]; try exact L'; rewrite El, Er, Fr; reflexivity.
      + repeat split; cbn [fst snd]; try exact L'; rewrite El, Er, Fr; reflexivity.
  Qed.

  Theorem nlcg_us_like s t : like s t ->
    rlike (nlcg_us A P1 maxiter tol tau restart fq fb s) (nlcg_us A P2 maxiter tol tau restart fq fb t).
  Proof.
    intros L. unfold nlcg_us; cbn [setup Stt Dat Exc]. destruct (setup_like s t L) as (Hf & Hs).
    destruct (setup1 s) as [o1 s1], (setup2 t) as [o2 s2]. cbn [fst snd] in Hf, Hs. subst o2.
    destruct o1 as [[d sl]|e]; [|repeat split; exact Hs].
    pose proof (cg_loop_like (Z.to_nat maxiter) 0 s1 s2 d sl sl false info_uninit Hs) as H.
    destruct (cg_loop A P1 tol tau restart fq fb (Z.to_nat maxiter) 0 _) as [[r1 st1] ev1].
    destruct (cg_loop A P2 tol tau restart fq fb (Z.to_nat maxiter) 0 _) as [[r2 st2] ev2].
    destruct H as (H1 & H2 & H3). cbn [fst snd] in H1, H2, H3. subst. repeat split; exact H3.
  Qed.
End Sim.
