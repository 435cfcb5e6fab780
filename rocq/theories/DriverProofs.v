(** Proofs about the CG driver, for every arithmetic and every problem. *)
From Coq Require Import ZArith List Bool Lia Sorted.
From Verif Require Import Arith LineSearch LineSearchSpec LineSearchProofs Driver.
Import ListNotations.
Local Open Scope Z_scope.

(** ** Specification vocabulary: what can be read off nlcg.json *)
Record jrec (N : Type) := MkRec { rStep : Z; rF : N; rSlope : N; rBands : bool }.
Arguments MkRec {N}. Arguments rStep {N}. Arguments rF {N}. Arguments rSlope {N}. Arguments rBands {N}.

Fixpoint records {N} (evs : list (event N)) : list (jrec N) :=
  match evs with
  | [] => []
  | EvJson st F _ _ _ sl b :: r => MkRec st F sl b :: records r
  | _ :: r => records r
  end.

(** The results of the line searches of a run, in order. *)
Fixpoint searches {N} (evs : list (event N)) : list ls_end :=
  match evs with
  | [] => []
  | EvLs _ r :: l => r :: searches l
  | _ :: l => searches l
  end.

Lemma records_app {N} (a b : list (event N)) : records (a ++ b) = records a ++ records b.
Proof. induction a as [|e a IH]; [reflexivity|]. destruct e; cbn; rewrite IH; reflexivity. Qed.
Lemma searches_app {N} (a b : list (event N)) : searches (a ++ b) = searches a ++ searches b.
Proof. induction a as [|e a IH]; [reflexivity|]. destruct e; cbn; rewrite IH; reflexivity. Qed.

Section DP.
  Context (A : arith) (Pb : problem A).
  Notation N := (num A).
  Context (tol tau : N) (restart : Z) (fq fb : nat).
  Notation cg_loop := (cg_loop A Pb tol tau restart fq fb).
  Notation next_direction := (next_direction A Pb restart).
  Notation direction_events := (direction_events A Pb restart).
  Notation print_info := (print_info A Pb).
  Notation json_event := (json_event A Pb).
  Notation ls_result := (ls_result A Pb).
  Notation ls_steps := (ls_steps A Pb).
  Definition the_ls (s : dstate A Pb) :=
    line_search A (Stt Pb) (Pnt Pb) (Exc Pb) (getF Pb) (curve Pb (d_dat s)) fq fb
      (alit A 1 5) tau (d_slope s) (MkMem (d_st s) (d_force s) []).

  Definition set_conv (i : nlcg_info N) : nlcg_info N :=
    MkInfo (iF i) (iS i) (iTol i) (iIter i) true.

  (** One iteration, as a complete case distinction. *)
  Lemma cg_loop_S n i s r st evs :
    cg_loop (S n) i s = (r, st, evs) ->
    let ev := json_event (d_st s) (d_slope s) i in
    let info := print_info (d_st s) (d_slope s) i in
    (altb A (aabs A (d_slope s)) tol = true /\ r = Ret (set_conv info) /\ st = d_st s /\ evs = [ev])
    \/ (altb A (aabs A (d_slope s)) tol = false /\ exists o m, the_ls s = (o, m) /\
         let evl := EvLs (ls_steps m) (ls_result o (frestart m)) in
         ((exists p k, o = Ret (p, k) /\ restart = 0 /\ r = UB /\ st = fst_ m /\ evs = [ev; evl])
          \/ (exists p k e, o = Ret (p, k) /\ restart <> 0 /\
                let d1 := accept Pb (d_dat s) p (fst_ m) in
                next_direction i (frestart m) (d_fr s) d1 (fst_ m) = inr e /\
                r = Throw (OtherExn e) /\ st = fst_ m /\
                evs = ev :: evl :: direction_events i (frestart m) (d_fr s) d1 (fst_ m))
          \/ (exists p k sl fr d2 force evs', o = Ret (p, k) /\ restart <> 0 /\
                let d1 := accept Pb (d_dat s) p (fst_ m) in
                next_direction i (frestart m) (d_fr s) d1 (fst_ m) = inl (sl, fr, d2, force) /\
                cg_loop n (i + 1) (MkD (fst_ m) d2 sl fr force info) = (r, st, evs') /\
                evs = ev :: evl :: direction_events i (frestart m) (d_fr s) d1 (fst_ m) ++ evs')
          \/ ((o = Throw DescentError \/ o = Throw SlopeError) /\ r = Ret info /\ st = fst_ m /\ evs = [ev; evl])
          \/ (exists e, o = Throw e /\ e <> DescentError /\ e <> SlopeError /\ r = Throw e /\
                st = fst_ m /\ evs = [ev; evl])
          \/ (o = NoFuel /\ r = NoFuel /\ st = fst_ m /\ evs = [ev; evl]))).
  Proof.
    intros H ev info. cbn [Driver.cg_loop] in H.
    destruct (altb A (aabs A (d_slope s)) tol) eqn:Htol.
    - left. inversion H; subst. auto.
    - right. split; [reflexivity|].
      destruct (the_ls s) as [o m] eqn:Hls. unfold the_ls in Hls. rewrite Hls in H.
      exists o, m. split; [reflexivity|]. cbv zeta.
      destruct o as [[p k]|e| |].
      + destruct (Z.eqb_spec restart 0) as [Hr|Hr].
        * left. exists p, k. inversion H; subst r st evs. repeat split; auto.
        * right. destruct (next_direction i (frestart m) (d_fr s) (accept Pb (d_dat s) p (fst_ m)) (fst_ m))
            as [[[[sl fr] d2] force]|e] eqn:Hd.
          -- right; left.
             destruct (Driver.cg_loop A Pb tol tau restart fq fb n (i + 1)
                         (MkD (fst_ m) d2 sl fr force (print_info (d_st s) (d_slope s) i)))
               as [[r' st'] evs'] eqn:Hrec.
             inversion H; subst r' st' evs. exists p, k, sl, fr, d2, force, evs'. repeat split; auto.
          -- left. inversion H; subst r st evs. exists p, k, e. repeat split; auto.
      + right; right; right.
        destruct e; inversion H; subst r st evs; auto;
          right; left; eexists; (split; [reflexivity|]; split; [discriminate|]; split; [discriminate|]; auto).
      + exfalso. exact (line_search_noub _ _ _ _ _ _ _ _ _ _ _ _ _ Hls).
      + do 5 right. inversion H; subst; auto.
  Qed.

  Lemma records_direction i f fr d s : records (direction_events i f fr d s) = [].
  Proof.
    unfold Driver.direction_events. destruct (_ || _).
    - destruct (steepest Pb d s) as [[? ?]|?]; reflexivity.
    - destruct (conj Pb fr d s) as [[[? sl] d']|?]; [|reflexivity]. cbn.
      destruct (agtb A sl _); [|reflexivity]. destruct (steepest Pb d' s) as [[? ?]|?]; reflexivity.
  Qed.

  Lemma searches_direction i f fr d s : searches (direction_events i f fr d s) = [].
  Proof.
    unfold Driver.direction_events. destruct (_ || _).
    - destruct (steepest Pb d s) as [[? ?]|?]; reflexivity.
    - destruct (conj Pb fr d s) as [[[? sl] d']|?]; [|reflexivity]. cbn.
      destruct (agtb A sl _); [|reflexivity]. destruct (steepest Pb d' s) as [[? ?]|?]; reflexivity.
  Qed.

  Definition the_rec (s : dstate A Pb) (i : Z) : jrec N :=
    MkRec i (getF Pb (d_st s)) (d_slope s) (Z.rem i 10 =? 0).

  (** First record of an iteration. *)
  Lemma cg_loop_first n i s r st evs :
    cg_loop (S n) i s = (r, st, evs) -> exists rs, records evs = the_rec s i :: rs.
  Proof.
    intros H. apply cg_loop_S in H. cbv zeta in H.
    destruct H as [(_ & _ & _ & ->)|(_ & o & m & _ & H)]; [eexists; reflexivity|].
    destruct H as [H|[H|[H|[H|[H|H]]]]].
    - destruct H as (p & k & _ & _ & _ & _ & ->). eexists; reflexivity.
    - destruct H as (p & k & e & _ & _ & _ & _ & _ & ->). eexists; reflexivity.
    - destruct H as (p & k & sl & fr & d2 & fo & evs' & _ & _ & _ & _ & ->). eexists; reflexivity.
    - destruct H as (_ & _ & _ & ->). eexists; reflexivity.
    - destruct H as (e & _ & _ & _ & _ & _ & ->). eexists; reflexivity.
    - destruct H as (_ & _ & _ & ->). eexists; reflexivity.
  Qed.

  (** Records: consecutive numbers starting at [i], at most [n] of them, band flags. *)
  Fixpoint zseq (i : Z) (k : nat) : list Z :=
    match k with O => [] | S k' => i :: zseq (i + 1) k' end.

  Lemma cg_loop_records n i s r st evs :
    cg_loop n i s = (r, st, evs) ->
    exists k, (k <= n)%nat /\ map rStep (records evs) = zseq i k /\
      Forall (fun x => rBands x = (Z.rem (rStep x) 10 =? 0)) (records evs) /\
      (length (searches evs) <= k)%nat.
  Proof.
    revert i s r st evs. induction n as [|n IH]; intros i s r st evs H.
    - cbn in H. inversion H; subst. exists 0%nat. repeat split; cbn; auto.
    - apply cg_loop_S in H. cbv zeta in H.
      destruct H as [(_ & _ & _ & ->)|(_ & o & m & _ & H)].
      { exists 1%nat. repeat split; cbn; auto; lia. }
      destruct H as [H|[H|[H|[H|[H|H]]]]].
      + destruct H as (p & k & _ & _ & _ & _ & ->). exists 1%nat. repeat split; cbn; auto; lia.
      + destruct H as (p & k & e & _ & _ & _ & _ & _ & ->). exists 1%nat.
        cbn. rewrite records_direction, searches_direction. repeat split; cbn; auto; lia.
      + destruct H as (p & k & sl & fr & d2 & fo & evs' & _ & _ & _ & Hrec & ->).
        apply IH in Hrec. destruct Hrec as (k' & Hk & Hs & Hb & Hl). exists (S k').
        cbn. rewrite records_app, searches_app, records_direction, searches_direction. cbn.
        repeat split; [lia|rewrite Hs; reflexivity|constructor; auto|lia].
      + destruct H as (_ & _ & _ & ->). exists 1%nat. repeat split; cbn; auto; lia.
      + destruct H as (e & _ & _ & _ & _ & _ & ->). exists 1%nat. repeat split; cbn; auto; lia.
      + destruct H as (_ & _ & _ & ->). exists 1%nat. repeat split; cbn; auto; lia.
  Qed.

  Definition small (x : N) : bool := altb A (aabs A x) tol.

  (** C10 on the loop. *)
  Lemma cg_loop_conv n i s info st evs :
    cg_loop n i s = (Ret info, st, evs) -> iConv (d_info s) = false ->
    (iConv info = true <-> exists rs x, records evs = rs ++ [x] /\ small (rSlope x) = true) /\
    (forall rs x rs', records evs = rs ++ x :: rs' -> small (rSlope x) = true -> rs' = []) /\
    (iConv info = true -> exists evs0 step F Sx KS mu sl b,
        evs = evs0 ++ [EvJson step F Sx KS mu sl b] /\ iIter info = Some step /\
        iF info = Some F /\ F = getF Pb st /\ small sl = true).
  Proof.
    revert i s info st evs. induction n as [|n IH]; intros i s info st evs H H0.
    - cbn in H. inversion H; subst; cbn [records]. rewrite H0. split; [|split].
      + split; [discriminate|]. intros (rs & x & Hx & _). destruct rs; discriminate.
      + intros rs x rs' Hx. destruct rs; discriminate.
      + discriminate.
    - apply cg_loop_S in H. cbv zeta in H.
      destruct H as [(Ht & Hr & -> & ->)|(Ht & o & m & _ & H)].
      { inversion Hr; subst info; cbn. split; [|split].
        - split; [|auto]. intros _. exists [], (the_rec s i). split; [reflexivity|exact Ht].
        - intros rs x rs' Hx _. destruct rs as [|y rs]; cbn in Hx; inversion Hx; subst; auto.
          destruct rs; discriminate.
        - intros _. exists []. repeat eexists. exact Ht. }
      assert (Hone : forall evl, evs = [json_event (d_st s) (d_slope s) i; EvLs evl (ls_result o (frestart m))] ->
                iConv info = false ->
          (iConv info = true <-> exists rs x, records evs = rs ++ [x] /\ small (rSlope x) = true) /\
          (forall rs x rs', records evs = rs ++ x :: rs' -> small (rSlope x) = true -> rs' = []) /\
          (iConv info = true -> exists evs0 step F Sx KS mu sl b,
              evs = evs0 ++ [EvJson step F Sx KS mu sl b] /\ iIter info = Some step /\
              iF info = Some F /\ F = getF Pb st /\ small sl = true)).
      { intros evl -> Hi. cbn. rewrite Hi. split; [|split].
        - split; [discriminate|]. intros (rs & x & Hx & Hs). destruct rs as [|y rs]; inversion Hx; subst.
          + unfold small in Hs. cbn in Hs. congruence.
          + destruct rs; discriminate.
        - intros rs x rs' Hx Hs. destruct rs as [|y rs]; inversion Hx; subst; auto. destruct rs; discriminate.
        - discriminate. }
      destruct H as [H|[H|[H|[H|[H|H]]]]].
      + destruct H as (p & k & _ & _ & Hr & _). discriminate.
      + destruct H as (p & k & e & _ & _ & _ & Hr & _). discriminate.
      + destruct H as (p & k & sl & fr & d2 & fo & evs' & _ & _ & _ & Hrec & ->).
        apply IH in Hrec; [|reflexivity]. destruct Hrec as (H1 & H2 & H3).
        cbn. rewrite records_app, records_direction. cbn. split; [|split].
        * rewrite H1. split.
          -- intros (rs & x & Hx & Hs). exists (the_rec s i :: rs), x. rewrite Hx. split; [reflexivity|exact Hs].
          -- intros (rs & x & Hx & Hs). destruct rs as [|y rs]; cbn in Hx; inversion Hx; subst.
             ++ unfold small in Hs. cbn in Hs. congruence.
             ++ exists rs, x. auto.
        * intros rs x rs' Hx Hs. destruct rs as [|y rs]; cbn in Hx; inversion Hx; subst.
          -- unfold small in Hs. cbn in Hs. congruence.
          -- eapply H2; eauto.
        * intros Hc. apply H3 in Hc. destruct Hc as (evs0 & step & F & Sx & KS & mu & sl' & b & -> & Hc).
          eexists (_ :: _ :: _ ++ evs0), step, F, Sx, KS, mu, sl', b. split; [|exact Hc].
          cbn. rewrite <- app_assoc. reflexivity.
      + destruct H as (_ & Hr & _ & He). inversion Hr; subst info. eapply Hone; [exact He|reflexivity].
      + destruct H as (e & _ & _ & _ & Hr & _). discriminate.
      + destruct H as (_ & Hr & _). discriminate.
  Qed.

  (** Info fields come from the last record. *)
  Lemma cg_loop_info n i s info st evs :
    cg_loop n i s = (Ret info, st, evs) ->
    (records evs = [] /\ info = d_info s /\ n = 0%nat) \/
    exists rs x, records evs = rs ++ [x] /\ iF info = Some (rF x) /\
      iTol info = Some (aadd A (rSlope x) (alit A (-1) 1)) /\ iIter info = Some (rStep x) /\
      exists sx, iS info = Some sx.
  Proof.
    revert i s info st evs. induction n as [|n IH]; intros i s info st evs H.
    - cbn in H. inversion H; subst. left; auto.
    - right. apply cg_loop_S in H. cbv zeta in H.
      destruct H as [(Ht & Hr & -> & ->)|(Ht & o & m & _ & H)].
      { inversion Hr; subst. exists [], (the_rec s i). cbn. eauto 10. }
      destruct H as [H|[H|[H|[H|[H|H]]]]].
      + destruct H as (p & k & _ & _ & Hr & _). discriminate.
      + destruct H as (p & k & e & _ & _ & _ & Hr & _). discriminate.
      + destruct H as (p & k & sl & fr & d2 & fo & evs' & _ & _ & _ & Hrec & ->).
        apply IH in Hrec. cbn. rewrite records_app, records_direction. cbn.
        destruct Hrec as [(H1 & -> & _)|(rs & x & H1 & H2)].
        * rewrite H1. exists [], (the_rec s i). cbn. eauto 10.
        * rewrite H1. exists (the_rec s i :: rs), x. split; [reflexivity|exact H2].
      + destruct H as (_ & Hr & _ & ->). inversion Hr; subst. exists [], (the_rec s i). cbn. eauto 10.
      + destruct H as (e & _ & _ & _ & Hr & _). discriminate.
      + destruct H as (_ & Hr & _). discriminate.
  Qed.
End DP.
