(** The loop lemmas lifted to whole runs of nlcg_us. *)
From Coq Require Import ZArith List Bool Lia Reals Lra.
From Flocq Require Import IEEE754.BinarySingleNaN.
From Verif Require Import Arith LineSearch LineSearchSpec LineSearchProofs LineSearchReal Float64 LineSearchFloat
  Driver DriverProofs DriverProofs2 DriverProofs3.
Import ListNotations.
Local Open Scope Z_scope.

Section Run.
  Context (A : arith) (Pb : problem A).
  Notation N := (num A).
  Context (maxiter : Z) (tol tau : N) (restart : Z) (fq fb : nat) (s0 : Stt Pb).
  Notation nlcg_us := (nlcg_us A Pb maxiter tol tau restart fq fb s0).
  Notation cg_loop := (cg_loop A Pb tol tau restart fq fb).

  Lemma nlcg_us_split r st evs : nlcg_us = (r, st, evs) ->
    (exists e, setup Pb s0 = (inr e, st) /\ r = Throw (OtherExn e) /\ evs = []) \/
    (exists d sl s evs', setup Pb s0 = (inl (d, sl), s) /\ evs = EvSteepest sl :: evs' /\
       cg_loop (Z.to_nat maxiter) 0 (MkD s d sl sl false info_uninit) = (r, st, evs')).
  Proof.
    unfold Driver.nlcg_us. destruct (setup Pb s0) as [[[d sl]|e] s].
    - destruct (Driver.cg_loop _ _ _ _ _ _ _ _ _ _) as [[r' st'] evs'] eqn:Hl. intros E; inversion E; subst.
      right. exists d, sl, s, evs'. auto.
    - intros E; inversion E; subst. left. eauto.
  Qed.

  (** C10 *)
  Lemma run_conv info st evs : nlcg_us = (Ret info, st, evs) ->
    (iConv info = true <-> exists rs x, records evs = rs ++ [x] /\ small A tol (rSlope x) = true) /\
    (forall rs x rs', records evs = rs ++ x :: rs' -> small A tol (rSlope x) = true -> rs' = []) /\
    (iConv info = true -> exists evs0 step F Sx KS mu sl b,
        evs = evs0 ++ [EvJson step F Sx KS mu sl b] /\ iIter info = Some step /\
        iF info = Some F /\ F = getF Pb st /\ small A tol sl = true).
  Proof.
    intros H. apply nlcg_us_split in H. destruct H as [(e & _ & H & _)|(d & sl & s & evs' & _ & -> & H)]; [discriminate|].
    apply cg_loop_conv in H; [|reflexivity]. cbn [records]. destruct H as (H1 & H2 & H3).
    split; [exact H1|]. split; [exact H2|]. intros Hc. destruct (H3 Hc) as (e0 & step & F & Sx & KS & mu & sl' & b & -> & H).
    exists (EvSteepest sl :: e0), step, F, Sx, KS, mu, sl', b. split; [reflexivity|exact H].
  Qed.

  (** C11 *)
  Lemma run_records r st evs : nlcg_us = (r, st, evs) ->
    exists k, (Z.of_nat k <= Z.max maxiter 0) /\ map rStep (records evs) = map Z.of_nat (seq 0 k) /\
      Forall (fun x => rBands x = (Z.rem (rStep x) 10 =? 0)) (records evs) /\
      (length (searches evs) <= k)%nat.
  Proof.
    intros H. apply nlcg_us_split in H. destruct H as [(e & _ & _ & ->)|(d & sl & s & evs' & _ & -> & H)].
    { exists O. cbn. repeat split; auto; lia. }
    apply cg_loop_records in H. destruct H as (k & Hk & Hs & Hb & Hl). exists k. cbn [records searches].
    assert (Hz : forall k i, zseq (Z.of_nat i) k = map Z.of_nat (seq i k)).
    { clear. induction k as [|k IH]; intros i; [reflexivity|]. cbn [zseq seq map]. f_equal.
      rewrite <- IH. f_equal. lia. }
    rewrite <- (Hz k O). repeat split; auto. lia.
  Qed.

  (** C13 *)
  Lemma run_exit r st evs : nlcg_us = (r, st, evs) ->
    match r with
    | Ret info =>
      (iConv info = true) \/
      (Z.of_nat (length (records evs)) = Z.max maxiter 0 /\
        Forall (fun x => ls_returned x = true) (searches evs) /\ iConv info = false) \/
      ((exists evs0 l, evs = evs0 ++ [EvLs l LsDescent]) /\ iConv info = false) \/
      ((exists evs0 l, evs = evs0 ++ [EvLs l LsSlope]) /\ iConv info = false)
    | Throw e => (e = RuntimeError /\ ageb A tau (alit A 1 1) = true) \/ exists x, e = OtherExn x
    | UB => restart = 0 /\ exists evs0 l x, evs = evs0 ++ [EvLs l x] /\ ls_returned x = true
    | NoFuel => True
    end.
  Proof.
    intros H. apply nlcg_us_split in H. destruct H as [(e & _ & -> & ->)|(d & sl & s & evs' & _ & -> & H)]; [eauto|].
    pose proof (cg_loop_exit _ _ _ _ _ _ _ _ _ _ _ _ _ H) as Hx.
    destruct r as [info|e| |].
    - destruct Hx as [(Hx & _)|[(H1 & H2 & H3)|[((e0 & l & ->) & H2)|((e0 & l & ->) & H2)]]].
      + left; exact Hx.
      + right; left. cbn [records searches]. split; [rewrite H1; lia|]. split; [exact H2|].
        destruct (Z.to_nat maxiter) eqn:Hm.
        * cbn in H. inversion H; subst. reflexivity.
        * apply H3. discriminate.
      + right; right; left. split; [|exact H2]. exists (EvSteepest sl :: e0), l. reflexivity.
      + right; right; right. split; [|exact H2]. exists (EvSteepest sl :: e0), l. reflexivity.
    - exact Hx.
    - destruct Hx as (H1 & e0 & l & x & -> & H2). split; [exact H1|].
      exists (EvSteepest sl :: e0), l, x. auto.
    - exact I.
  Qed.

  (** C14 *)
  Lemma run_restart0 r st evs x : restart = 0 -> nlcg_us = (r, st, evs) ->
    In x (searches evs) -> ls_returned x = true -> r = UB /\ length (records evs) = 1%nat.
  Proof.
    intros H0 H. apply nlcg_us_split in H. destruct H as [(e & _ & _ & ->)|(d & sl & s & evs' & _ & -> & H)].
    { intros []. }
    cbn [records searches]. eapply cg_loop_restart0; eauto.
  Qed.

  Lemma run_schedule r st evs : restart <> 0 -> nlcg_us = (r, st, evs) -> schedule_ok A restart evs.
  Proof.
    intros H0 H. pose proof (run_exit _ _ _ H) as Hx.
    apply nlcg_us_split in H. destruct H as [(e & _ & _ & ->)|(d & sl & s & evs' & _ & -> & H)]; [exact I|].
    cbn [schedule_ok]. eapply cg_loop_schedule; [exact H|]. intros ->. destruct Hx; contradiction.
  Qed.

  (** C63 *)
  Lemma run_fr r st evs : nlcg_us = (r, st, evs) ->
    evs = [] \/ exists sl rest, evs = EvSteepest sl :: rest /\ fr_chain sl rest.
  Proof.
    intros H. apply nlcg_us_split in H. destruct H as [(e & _ & _ & ->)|(d & sl & s & evs' & _ & -> & H)]; [auto|].
    right. exists sl, evs'. split; [reflexivity|]. exact (cg_loop_fr _ _ _ _ _ _ _ _ _ _ _ _ _ H).
  Qed.

  (** C08 *)
  Lemma run_give_up r st evs : nlcg_us = (r, st, evs) ->
    give_up_ok false evs /\ no_double_back (searches evs).
  Proof.
    intros H. apply nlcg_us_split in H. destruct H as [(e & _ & _ & ->)|(d & sl & s & evs' & _ & -> & H)]; [cbn; auto|].
    cbn [give_up_ok searches]. split.
    - eapply cg_loop_give_up; [exact H|]. reflexivity.
    - eapply cg_loop_no_double; exact H.
  Qed.

  (** C15, C16 *)
  Lemma run_info info st evs : nlcg_us = (Ret info, st, evs) ->
    (records evs = [] /\ info = info_uninit /\ maxiter <= 0) \/
    (0 < maxiter /\ exists rs x, records evs = rs ++ [x] /\ iF info = Some (rF x) /\
      iTol info = Some (aadd A (rSlope x) (alit A (-1) 1)) /\ iIter info = Some (rStep x) /\
      exists sx, iS info = Some sx).
  Proof.
    intros H. apply nlcg_us_split in H. destruct H as [(e & _ & H & _)|(d & sl & s & evs' & _ & -> & H)]; [discriminate|].
    pose proof (cg_loop_records _ _ _ _ _ _ _ _ _ _ _ _ _ H) as (k & Hk & Hs & _).
    apply cg_loop_info in H. cbn [records]. destruct H as [(H1 & H2 & H3)|(rs & x & H1 & H2)].
    - left. split; [exact H1|]. split; [exact H2|]. lia.
    - right. split; [|eauto]. rewrite H1, map_app in Hs. destruct k.
      + destruct rs; discriminate.
      + lia.
  Qed.

  (** C17 *)
  Lemma app_tail_event (x z : event N) l e0 : x :: l = e0 ++ [z] -> l <> [] -> exists e1, l = e1 ++ [z].
  Proof. destruct e0 as [|y e0]; cbn; intros E Hl; injection E as E1 E2; [congruence|eauto]. Qed.

  Lemma run_slope_exit info st evs l e0 : nlcg_us = (Ret info, st, evs) ->
    evs = e0 ++ [EvLs l LsSlope] -> iF info = Some (getF Pb st) /\ l = [].
  Proof.
    intros H He. apply nlcg_us_split in H. destruct H as [(e & _ & H & _)|(d & sl & s & evs' & _ & -> & H)]; [discriminate|].
    eapply cg_loop_slope_exit; [exact H|]. eapply app_tail_event; [exact He|].
    intros ->. destruct e0 as [|? []]; discriminate.
  Qed.

  Lemma run_descent_exit info st evs l e0 :
    altb A (alit A 1 100000000) (alit A 1 5) = true ->
    nlcg_us = (Ret info, st, evs) ->
    evs = e0 ++ [EvLs l LsDescent] -> exists F, iF info = Some F /\ altb A (getF Pb st) F = false.
  Proof.
    intros Hc H He. apply nlcg_us_split in H. destruct H as [(e & _ & H & _)|(d & sl & s & evs' & _ & -> & H)]; [discriminate|].
    eapply cg_loop_descent_exit; [exact Hc|exact H|]. eapply app_tail_event; [exact He|].
    intros ->. destruct e0 as [|? []]; discriminate.
  Qed.

  (** C06: an invalid tau reaches the caller. *)
  Lemma cg_loop_runtime n i s m :
    altb A (aabs A (d_slope s)) tol = false -> the_ls A Pb tau fq fb s = (Throw RuntimeError, m) ->
    fst (fst (cg_loop (S n) i s)) = Throw RuntimeError.
  Proof.
    intros Ht H. cbn [Driver.cg_loop]. rewrite Ht. unfold the_ls in H. rewrite H. reflexivity.
  Qed.
End Run.

(** Line searches inside a run of the loop: the states at the head of each started search. *)
Section Heads.
  Context (A : arith) (Pb : problem A) (tol tau : num A) (restart : Z) (fq fb : nat).

  Inductive head : nat -> Z -> dstate A Pb -> nat -> Z -> dstate A Pb -> Prop :=
  | head_here n i s : head n i s n i s
  | head_next n i s m p k sl fr d2 fo n' i' s' :
      altb A (aabs A (d_slope s)) tol = false ->
      the_ls A Pb tau fq fb s = (Ret (p, k), m) -> restart <> 0 ->
      next_direction A Pb restart i (frestart m) (d_fr s) (accept Pb (d_dat s) p (fst_ m)) (fst_ m)
        = inl (sl, fr, d2, fo) ->
      head n (i + 1) (MkD (fst_ m) d2 sl fr fo (print_info A Pb (d_st s) (d_slope s) i)) n' i' s' ->
      head (S n) i s n' i' s'.

  Lemma cg_loop_head_out n i s n' i' s' : head n i s n' i' s' ->
    fst (cg_loop A Pb tol tau restart fq fb n i s) = fst (cg_loop A Pb tol tau restart fq fb n' i' s').
  Proof.
    induction 1 as [|n i s m p k sl fr d2 fo n' i' s' Ht Hls Hr Hd _ IH]; [reflexivity|].
    rewrite <- IH. cbn [cg_loop]. rewrite Ht. unfold the_ls in Hls. rewrite Hls.
    apply Z.eqb_neq in Hr. rewrite Hr, Hd.
    destruct (cg_loop A Pb tol tau restart fq fb n (i + 1) _) as [[r st] evs]. reflexivity.
  Qed.

  Lemma run_runtime n i s n' i' s' m : head n i s (S n') i' s' ->
    altb A (aabs A (d_slope s')) tol = false -> the_ls A Pb tau fq fb s' = (Throw RuntimeError, m) ->
    fst (fst (cg_loop A Pb tol tau restart fq fb n i s)) = Throw RuntimeError.
  Proof. intros H Ht Hls. rewrite (cg_loop_head_out _ _ _ _ _ _ H). eapply cg_loop_runtime; eauto. Qed.
End Heads.

(** Every run in double precision ends: no infinite loop inside the library. *)
Section Terminates.
  Context (Pb : problem F64) (tol tau : f64) (restart : Z) (fb : nat).
  Hypothesis Hfb : units (flit 1 5) < Z.of_nat fb.

  Lemma cg_loop_f64_ends n i s :
    fst (fst (cg_loop F64 Pb tol tau restart 223 fb n i s)) <> NoFuel.
  Proof.
    revert i s. induction n as [|n IH]; intros i s H.
    - discriminate.
    - destruct (cg_loop F64 Pb tol tau restart 223 fb (S n) i s) as [[r st] evs] eqn:E.
      cbn [fst] in H. subst r. apply cg_loop_S in E. cbv zeta in E.
      destruct E as [(_ & E & _)|(_ & o & m & Hls & E)]; [discriminate E|].
      destruct E as [E|[E|[E|[E|[E|E]]]]].
      + destruct E as (p & k & _ & _ & E & _). discriminate E.
      + destruct E as (p & k & e & _ & _ & _ & E & _). discriminate E.
      + destruct E as (p & k & sl & fr & d2 & fo & evs' & _ & _ & _ & Hrec & _).
        apply (IH (i + 1) (MkD (fst_ m) d2 sl fr fo (print_info F64 Pb (d_st s) (d_slope s) i))).
        rewrite Hrec. reflexivity.
      + destruct E as (_ & E & _). discriminate E.
      + destruct E as (e & _ & _ & _ & E & _). discriminate E.
      + destruct E as (-> & _). unfold the_ls in Hls.
        refine (line_search_f64_gen (Stt Pb) (Pnt Pb) (Exc Pb) (getF Pb) (curve Pb (d_dat s)) 223 fb
                  (flit 1 5) tau (d_slope s) (MkMem (d_st s) (d_force s) []) _ _ Hfb _).
        * vm_compute. reflexivity.
        * intros F0 m0. apply q_loop_f64_02.
        * change (alit F64 1 5) with (flit 1 5) in Hls. rewrite Hls. reflexivity.
  Qed.
End Terminates.

Lemma run_f64_ends (Pb : problem F64) : exists fb, forall maxiter tol tau restart s0,
  fst (fst (nlcg_us F64 Pb maxiter tol tau restart 223 fb s0)) <> NoFuel.
Proof.
  exists (S (Z.to_nat (units (flit 1 5)))). intros maxiter tol tau restart s0 H.
  destruct (nlcg_us F64 Pb maxiter tol tau restart 223 _ s0) as [[r st] evs] eqn:E. cbn [fst] in H. subst r.
  apply nlcg_us_split in E. destruct E as [(e & _ & E & _)|(d & sl & s & evs' & _ & _ & E)]; [discriminate E|].
  eapply (cg_loop_f64_ends Pb tol tau restart (S (Z.to_nat (units (flit 1 5))))); [|rewrite E; reflexivity].
  generalize (units (flit 1 5)). intros u. rewrite Nat2Z.inj_succ. lia.
Qed.
