(** Logging: src/utils/logger.hpp 44-62 (Logger::operator<<).

    The statement  std::lock_guard<std::mutex> lock(std::mutex);  declares a function named lock: nothing is locked.
    A message is built in the shared member sbuf_ and copied to the file in three steps:
      49      sbuf_.str("")             clear
      51-54   sbuf_ << prefix... << output   append
      56-59   out << sbuf_.str()        emit a copy of the shared buffer
    Each of them is modelled as one atomic step; the concurrent accesses are a data race, so what really
    happens is undefined behaviour: the interleavings below are the mildest outcome.  A std::mutex member held during
    the call would make the three steps one.  Standard output: the same three steps. *)
From Coq Require Import Arith Lia List Bool.
Import ListNotations.

Section Logger.
  Context {T : Type}.                       (* characters *)
  Notation text := (list T).

  Inductive lpc := Clear | Append | Emit | Finished.
  Record writer := MkWriter { wpc : lpc; wmsg : text }.
  (** shared buffer, file, calls in progress *)
  Record lstate := MkL { lbuf : text; lfile : text; lcalls : list writer }.

  Definition upd_call (i : nat) (w : writer) (l : list writer) : list writer := firstn i l ++ w :: skipn (S i) l.

  (** One step of call i; None: nothing left to do. *)
  Definition lstep (i : nat) (s : lstate) : option lstate :=
    match nth_error (lcalls s) i with
    | Some (MkWriter Clear m) => Some (MkL [] (lfile s) (upd_call i (MkWriter Append m) (lcalls s)))
    | Some (MkWriter Append m) => Some (MkL (lbuf s ++ m) (lfile s) (upd_call i (MkWriter Emit m) (lcalls s)))
    | Some (MkWriter Emit m) => Some (MkL (lbuf s) (lfile s ++ lbuf s) (upd_call i (MkWriter Finished m) (lcalls s)))
    | _ => None
    end.
  (** A schedule is the list of the calls whose turn it is. *)
  Fixpoint lrun (sched : list nat) (s : lstate) : option lstate :=
    match sched with
    | [] => Some s
    | i :: r => match lstep i s with Some s' => lrun r s' | None => None end
    end.
  Definition start (msgs : list text) : lstate := MkL [] [] (map (MkWriter Clear) msgs).
  Definition all_done (s : lstate) : Prop := forall w, In w (lcalls s) -> wpc w = Finished.

  (** The calls one after the other, in the order given by [order]. *)
  Definition sequential (order : list nat) : list nat := flat_map (fun i => [i; i; i]) order.

  Lemma upd_length i w l : i < length l -> length (upd_call i w l) = length l.
  Proof. intros H. unfold upd_call. rewrite app_length, firstn_length. cbn [length]. rewrite skipn_length. lia. Qed.
  Lemma upd_same i w l : i < length l -> nth_error (upd_call i w l) i = Some w.
  Proof.
    intros H. unfold upd_call. rewrite nth_error_app2; rewrite firstn_length_le by lia; [|lia]. rewrite Nat.sub_diag. reflexivity.
  Qed.
  Lemma nth_skipn (l : list writer) : forall n d, nth_error (skipn n l) d = nth_error l (n + d).
  Proof. induction l as [|b l IH]; intros [|n] d; cbn; try reflexivity; [destruct d; reflexivity|]. apply IH. Qed.
  Lemma nth_firstn (l : list writer) : forall n d, d < n -> nth_error (firstn n l) d = nth_error l d.
  Proof. induction l as [|b l IH]; intros [|n] [|d] H; cbn; try reflexivity; try lia. apply IH. lia. Qed.
  Lemma upd_other i j w l : i < length l -> j <> i -> nth_error (upd_call i w l) j = nth_error l j.
  Proof.
    intros H N. unfold upd_call. destruct (Nat.lt_ge_cases j i) as [L|L].
    - rewrite nth_error_app1 by (rewrite firstn_length_le by lia; exact L). apply nth_firstn. exact L.
    - rewrite nth_error_app2; rewrite firstn_length_le by lia; [|lia].
      destruct (j - i) as [|d] eqn:el; [lia|]. cbn [nth_error]. rewrite nth_skipn. f_equal. lia.
  Qed.

  Lemma one_call i m s : nth_error (lcalls s) i = Some (MkWriter Clear m) ->
    exists s', lrun [i; i; i] s = Some s' /\ lfile s' = lfile s ++ m /\ length (lcalls s') = length (lcalls s) /\
      nth_error (lcalls s') i = Some (MkWriter Finished m) /\ forall j, j <> i -> nth_error (lcalls s') j = nth_error (lcalls s) j.
  Proof.
    intros N. assert (L : i < length (lcalls s)) by (apply nth_error_Some; rewrite N; discriminate).
    cbn [lrun]. unfold lstep at 1. rewrite N.
    unfold lstep at 1. cbn [lcalls lbuf lfile]. rewrite upd_same by exact L.
    unfold lstep at 1. cbn [lcalls lbuf lfile]. rewrite upd_same by (rewrite upd_length by exact L; exact L).
    eexists. split; [reflexivity|]. cbn [lfile lcalls app].
    assert (L1 : i < length (upd_call i (MkWriter Append m) (lcalls s))) by (rewrite upd_length by exact L; exact L).
    assert (L2 : i < length (upd_call i (MkWriter Emit m) (upd_call i (MkWriter Append m) (lcalls s)))) by (rewrite upd_length by exact L1; exact L1).
    split; [reflexivity|]. split; [rewrite !upd_length by assumption; reflexivity|].
    split; [apply upd_same; exact L2|]. intros j Hj. rewrite !upd_other by assumption. reflexivity.
  Qed.

  Lemma lrun_app r1 : forall r2 s, lrun (r1 ++ r2) s = match lrun r1 s with Some s' => lrun r2 s' | None => None end.
  Proof. induction r1 as [|i r IH]; intros r2 s; cbn; [reflexivity|]. destruct (lstep i s); [apply IH|reflexivity]. Qed.

  Lemma sequential_gen order : NoDup order -> forall msgs s,
    (forall i, In i order -> exists m, nth_error msgs i = Some m /\ nth_error (lcalls s) i = Some (MkWriter Clear m)) ->
    exists s', lrun (sequential order) s = Some s' /\
      lfile s' = lfile s ++ concat (map (fun i => nth i msgs []) order) /\
      (forall i, In i order -> exists m, nth_error (lcalls s') i = Some (MkWriter Finished m)) /\
      (forall i, ~ In i order -> nth_error (lcalls s') i = nth_error (lcalls s) i) /\ length (lcalls s') = length (lcalls s).
  Proof.
    induction order as [|i r IH]; intros ND msgs s H.
    - exists s. cbn. rewrite app_nil_r. repeat split; try reflexivity. intros ? [].
    - inversion ND as [|? ? Hx Hr]; subst. destruct (H i (or_introl eq_refl)) as [m [M1 M2]].
      destruct (one_call i m s M2) as [s1 [R1 [F1 [L1 [D1 O1]]]]].
      destruct (IH Hr msgs s1) as [s' [R2 [F2 [D2 [O2 L2]]]]].
      { intros j Hj. destruct (H j (or_intror Hj)) as [mj [A B]]. exists mj. split; [exact A|]. rewrite O1; [exact B|]. intros ->. exact (Hx Hj). }
      exists s'. split; [change (sequential (i :: r)) with ([i; i; i] ++ sequential r); rewrite lrun_app, R1; exact R2|].
      split; [rewrite F2, F1; cbn [map concat]; rewrite <- app_assoc; f_equal; f_equal; symmetry; apply nth_error_nth; exact M1|].
      split.
      + intros j [<-|Hj]; [rewrite O2 by exact Hx; exists m; exact D1|apply D2; exact Hj].
      + split; [|lia]. intros j Hj. cbn [In] in Hj. rewrite O2 by tauto. apply O1. intros ->. apply Hj. left. reflexivity.
  Qed.

  (** Calls that do not overlap: the file holds the messages, each once, in the order of the calls. *)
  Lemma sequential_ok msgs order : NoDup order -> (forall i, In i order <-> i < length msgs) ->
    exists s, lrun (sequential order) (start msgs) = Some s /\ all_done s /\ lfile s = concat (map (fun i => nth i msgs []) order).
  Proof.
    intros ND H. destruct (sequential_gen order ND msgs (start msgs)) as [s [R [F [D [O L]]]]].
    - intros i Hi. apply H in Hi. destruct (nth_error msgs i) as [m|] eqn:el; [|apply nth_error_None in el; lia].
      exists m. split; [reflexivity|]. cbn [start lcalls]. rewrite nth_error_map, el. reflexivity.
    - exists s. split; [exact R|]. split; [|exact F]. intros w Hw. apply In_nth_error in Hw. destruct Hw as [i Hi].
      assert (Li : i < length msgs).
      { assert (i < length (lcalls s)) by (apply nth_error_Some; rewrite Hi; discriminate). rewrite L in H0. cbn [start lcalls] in H0. rewrite map_length in H0. exact H0. }
      destruct (D i (proj2 (H i) Li)) as [m Hm]. rewrite Hm in Hi. injection Hi as <-. reflexivity.
  Qed.

  (** Two overlapping calls: for all messages there is a schedule with this file. *)
  Lemma overlap_lost (a b : text) :
    exists s, lrun [0; 0; 1; 1; 0; 1] (start [a; b]) = Some s /\ all_done s /\ lfile s = b ++ b.
  Proof.
    eexists. split; [reflexivity|]. split; [|reflexivity]. intros w Hw. cbn in Hw. destruct Hw as [<-|[<-|[]]]; reflexivity.
  Qed.
  Lemma overlap_mixed (a b : text) :
    exists s, lrun [0; 1; 0; 1; 0; 1] (start [a; b]) = Some s /\ all_done s /\ lfile s = (a ++ b) ++ (a ++ b).
  Proof.
    eexists. split; [reflexivity|]. split; [|reflexivity]. intros w Hw. cbn in Hw. destruct Hw as [<-|[<-|[]]]; reflexivity.
  Qed.
  (** All writers append before the first one emits: every one of them emits the whole buffer. *)
  Lemma clear_all msgs : forall pre b f,
    lrun (seq (length pre) (length msgs)) (MkL b f (pre ++ map (MkWriter Clear) msgs)) =
    Some (MkL (match msgs with [] => b | _ => [] end) f (pre ++ map (MkWriter Append) msgs)).
  Proof.
    induction msgs as [|m r IH]; intros pre b f; cbn [length seq lrun map]; [reflexivity|].
    unfold lstep. cbn [lcalls lfile]. rewrite nth_error_app2, Nat.sub_diag by lia. cbn [nth_error].
    assert (U : upd_call (length pre) (MkWriter Append m) (pre ++ MkWriter Clear m :: map (MkWriter Clear) r) =
                (pre ++ [MkWriter Append m]) ++ map (MkWriter Clear) r).
    { unfold upd_call. rewrite firstn_app, firstn_all, Nat.sub_diag. cbn [firstn]. rewrite app_nil_r. rewrite <- app_assoc. f_equal. cbn [app]. f_equal.
      rewrite skipn_app, skipn_all2 by lia. replace (S (length pre) - length pre) with 1 by lia. reflexivity. }
    rewrite U. replace (S (length pre)) with (length (pre ++ [MkWriter Append m])) by (rewrite app_length; cbn; lia).
    rewrite IH. rewrite <- app_assoc. cbn [app]. destruct r; reflexivity.
  Qed.
  Lemma append_all msgs : forall pre b f,
    lrun (seq (length pre) (length msgs)) (MkL b f (pre ++ map (MkWriter Append) msgs)) =
    Some (MkL (b ++ concat msgs) f (pre ++ map (MkWriter Emit) msgs)).
  Proof.
    induction msgs as [|m r IH]; intros pre b f; cbn [length seq lrun map concat]; [rewrite !app_nil_r; reflexivity|].
    unfold lstep. cbn [lcalls lfile lbuf]. rewrite nth_error_app2, Nat.sub_diag by lia. cbn [nth_error].
    assert (U : upd_call (length pre) (MkWriter Emit m) (pre ++ MkWriter Append m :: map (MkWriter Append) r) =
                (pre ++ [MkWriter Emit m]) ++ map (MkWriter Append) r).
    { unfold upd_call. rewrite firstn_app, firstn_all, Nat.sub_diag. cbn [firstn]. rewrite app_nil_r. rewrite <- app_assoc. f_equal. cbn [app]. f_equal.
      rewrite skipn_app, skipn_all2 by lia. replace (S (length pre) - length pre) with 1 by lia. reflexivity. }
    rewrite U. replace (S (length pre)) with (length (pre ++ [MkWriter Emit m])) by (rewrite app_length; cbn; lia).
    rewrite IH. rewrite <- !app_assoc. reflexivity.
  Qed.
  Lemma emit_all msgs : forall pre b f,
    lrun (seq (length pre) (length msgs)) (MkL b f (pre ++ map (MkWriter Emit) msgs)) =
    Some (MkL b (f ++ concat (repeat b (length msgs))) (pre ++ map (MkWriter Finished) msgs)).
  Proof.
    induction msgs as [|m r IH]; intros pre b f; cbn [length seq lrun map concat repeat]; [rewrite !app_nil_r; reflexivity|].
    unfold lstep. cbn [lcalls lfile lbuf]. rewrite nth_error_app2, Nat.sub_diag by lia. cbn [nth_error].
    assert (U : upd_call (length pre) (MkWriter Finished m) (pre ++ MkWriter Emit m :: map (MkWriter Emit) r) =
                (pre ++ [MkWriter Finished m]) ++ map (MkWriter Emit) r).
    { unfold upd_call. rewrite firstn_app, firstn_all, Nat.sub_diag. cbn [firstn]. rewrite app_nil_r. rewrite <- app_assoc. f_equal. cbn [app]. f_equal.
      rewrite skipn_app, skipn_all2 by lia. replace (S (length pre) - length pre) with 1 by lia. reflexivity. }
    rewrite U. replace (S (length pre)) with (length (pre ++ [MkWriter Finished m])) by (rewrite app_length; cbn; lia).
    rewrite IH. rewrite <- !app_assoc. reflexivity.
  Qed.
  Lemma lockstep (msgs : list text) :
    exists s, lrun (seq 0 (length msgs) ++ seq 0 (length msgs) ++ seq 0 (length msgs)) (start msgs) = Some s /\ all_done s /\
      lfile s = concat (repeat (concat msgs) (length msgs)).
  Proof.
    unfold start. rewrite lrun_app.
    pose proof (clear_all msgs [] [] []) as A1. cbn [length app] in A1. rewrite A1, lrun_app.
    pose proof (append_all msgs [] (match msgs with [] => [] | _ => [] end) []) as A2. cbn [length app] in A2. rewrite A2.
    pose proof (emit_all msgs [] (match msgs with [] => [] | _ => [] end ++ concat msgs) []) as A3. cbn [length app] in A3. rewrite A3.
    eexists. split; [reflexivity|]. cbn [lfile]. split.
    - intros w Hw. cbn [lcalls] in Hw. apply in_map_iff in Hw. destruct Hw as [m [<- _]]. reflexivity.
    - destruct msgs; reflexivity.
  Qed.
  Lemma overlap_lost_ex (a b : text) : exists sched s, lrun sched (start [a; b]) = Some s /\ all_done s /\ lfile s = b ++ b.
  Proof. exists [0; 0; 1; 1; 0; 1]. apply overlap_lost. Qed.
  Lemma lockstep_ex (msgs : list text) : exists sched s, lrun sched (start msgs) = Some s /\ all_done s /\
    lfile s = concat (repeat (concat msgs) (length msgs)).
  Proof. eexists. apply lockstep. Qed.
End Logger.
Arguments lstate : clear implicits.
Arguments writer : clear implicits.
