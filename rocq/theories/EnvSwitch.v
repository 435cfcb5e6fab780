(** The environment switch: src/utils/env.hpp 10-30, get_skip_newton_efermi.

    Any number of concurrent calls.  The only shared object is one std::atomic<int>, used with memory_order_relaxed.
    Its modification order is a set of messages (timestamp, value); message (0, -1) is the initialisation.
    A call has a view, the timestamp below which it can no longer read: a load reads any message not older than the view,
    a store gets a fresh timestamp newer than the view.  This is read-read, read-write, write-read and write-write coherence, which is all C++ grants
    to relaxed accesses of a single object.  A call that happens after another one (same thread, or synchronised)
    starts with a view not older than the other's final view.

    std::getenv is one step; changing the environment while a call of std::getenv runs is undefined in C and
    not modelled: environment changes are steps of their own. *)
From Coq Require Import String ZArith Arith Lia List Bool.
Import ListNotations.

(** What the call stores, env.hpp 15-26: the variable is set to something else than "0". *)
Definition env : Type := option string.
Definition sample (e : env) : Z :=
  match e with
  | None => 0
  | Some s => if String.eqb "0" s then 0 else 1
  end%Z.

(** Program points of a call *)
Inductive pc :=
| Test                (* line 14: load and compare with -1 *)
| Read                (* line 15: getenv *)
| Store (v : Z)       (* lines 18, 23, 25 *)
| Final               (* line 29: load *)
| Done (r : bool).
Record call := MkCall { cpc : pc; cview : nat }.
Record state := MkState { smsgs : list (nat * Z); senv : env; scalls : list call }.

Definition init (e : env) : state := MkState [(0, (-1)%Z)] e [].
Definition set_call (i : nat) (c : call) (l : list call) : list call := firstn i l ++ c :: skipn (S i) l.

(** [v0] in Start: the view the new call inherits from what happens before it. *)
Inductive step : state -> state -> Prop :=
| Start m e cs v0 : step (MkState m e cs) (MkState m e (cs ++ [MkCall Test v0]))
| SetEnv m e e' cs : step (MkState m e cs) (MkState m e' cs)
| Load1 m e cs i v t a : nth_error cs i = Some (MkCall Test v) -> In (t, a) m -> v <= t ->
    step (MkState m e cs) (MkState m e (set_call i (MkCall (if Z.eqb a (-1) then Read else Final) t) cs))
| GetEnv m e cs i v : nth_error cs i = Some (MkCall Read v) ->
    step (MkState m e cs) (MkState m e (set_call i (MkCall (Store (sample e)) v) cs))
| Write m e cs i v a t : nth_error cs i = Some (MkCall (Store a) v) -> v < t -> (forall b, ~ In (t, b) m) ->
    step (MkState m e cs) (MkState ((t, a) :: m) e (set_call i (MkCall Final t) cs))
| Load2 m e cs i v t a : nth_error cs i = Some (MkCall Final v) -> In (t, a) m -> v <= t ->
    step (MkState m e cs) (MkState m e (set_call i (MkCall (Done (Z.eqb a 1)) t) cs)).

Inductive steps : state -> state -> Prop :=
| Refl s : steps s s
| Trans s1 s2 s3 : steps s1 s2 -> step s2 s3 -> steps s1 s3.

(** Executions in which the environment does not change *)
Inductive const_steps (e : env) : state -> state -> Prop :=
| CRefl s : senv s = e -> const_steps e s s
| CTrans s1 s2 s3 : const_steps e s1 s2 -> step s2 s3 -> senv s3 = e -> const_steps e s1 s3.

(** "the variable is set to something other than "0"" *)
Definition disabled (e : env) : Prop := exists s, e = Some s /\ s <> "0"%string.

Lemma sample_01 e : sample e = 0%Z \/ sample e = 1%Z.
Proof. unfold sample. destruct e as [s|]; [destruct (String.eqb "0" s)|]; auto. Qed.
Lemma sample_1 e : Z.eqb (sample e) 1 = true <-> disabled e.
Proof.
  unfold sample, disabled. destruct e as [s|].
  - destruct (String.eqb_spec "0" s) as [<-|N]; cbn.
    + split; [discriminate|]. intros [s [H1 H2]]. injection H1 as <-. contradiction.
    + split; [|reflexivity]. intros _. exists s. split; [reflexivity|]. intros ->. contradiction.
  - split; [discriminate|]. intros [s [H _]]. discriminate.
Qed.

Lemma set_call_in i c l x : In x (set_call i c l) -> x = c \/ In x l.
Proof.
  unfold set_call. rewrite in_app_iff. cbn [In]. intros [H|[H|H]]; [|left; symmetry; exact H|].
  - right. rewrite <- (firstn_skipn i l). apply in_or_app. left. exact H.
  - right. rewrite <- (firstn_skipn (S i) l). apply in_or_app. right. exact H.
Qed.

Section Constant.
  Variable e : env.
  (** value -1 only at time 0, every other message carries the sample; calls behind the test have seen such a message *)
  Definition inv (s : state) : Prop :=
    (forall t a, In (t, a) (smsgs s) -> (t = 0 /\ a = (-1)%Z) \/ (0 < t /\ a = sample e)) /\
    (forall c, In c (scalls s) -> match cpc c with
      | Test | Read => True
      | Store a => a = sample e
      | Final => 0 < cview c
      | Done r => r = Z.eqb (sample e) 1
      end).
  Lemma inv_step s s' : senv s = e -> step s s' -> inv s -> inv s'.
  Proof.
    intros He H [I1 I2]. destruct H as [m e0 cs v0|m e0 e' cs|m e0 cs i v t a N Ha Hv|m e0 cs i v N|m e0 cs i v a t N Hv Hf|m e0 cs i v t a N Ha Hv]; cbn in He.
    - split; [exact I1|]. intros c. cbn [scalls]. rewrite in_app_iff. intros [H|[<-|[]]]; [apply I2; exact H|exact I].
    - split; [exact I1|exact I2].
    - split; [exact I1|]. intros c Hc. cbn [scalls] in Hc. apply set_call_in in Hc. destruct Hc as [->|Hc]; [|apply I2; exact Hc].
      cbn [cpc]. destruct (Z.eqb_spec a (-1)); cbn; [exact I|]. destruct (I1 t a Ha) as [[_ q]|[q _]]; [contradiction|exact q].
    - split; [exact I1|]. intros c Hc. cbn [scalls] in Hc. apply set_call_in in Hc. destruct Hc as [->|Hc]; [|apply I2; exact Hc].
      cbn. rewrite He. reflexivity.
    - assert (S : a = sample e) by (apply (I2 (MkCall (Store a) v)); apply (nth_error_In _ _ N)).
      split.
      + intros t' a' [q|Hin]; [injection q as <- <-; right; split; [lia|exact S]|apply I1; exact Hin].
      + intros c Hc. cbn [scalls] in Hc. apply set_call_in in Hc. destruct Hc as [->|Hc]; [|apply I2; exact Hc]. cbn. lia.
    - assert (V : 0 < v) by (apply (I2 (MkCall Final v)); apply (nth_error_In _ _ N)).
      split; [exact I1|]. intros c Hc. cbn [scalls] in Hc. apply set_call_in in Hc. destruct Hc as [->|Hc]; [|apply I2; exact Hc].
      cbn. destruct (I1 t a Ha) as [[q _]|[_ ->]]; [lia|reflexivity].
  Qed.
  Lemma inv_init : inv (init e).
  Proof. split; [|intros c []]. intros t a [q|[]]. injection q as <- <-. left. split; reflexivity. Qed.
  Lemma inv_steps s : const_steps e (init e) s -> inv s.
  Proof.
    intros H. remember (init e) as s0 eqn:es. induction H as [s Hs|s1 s2 s3 H IH Hstep Hs]; [subst; apply inv_init|].
    apply (inv_step s2); [|exact Hstep|apply IH; exact es]. clear -H es. induction H; assumption.
  Qed.
End Constant.

(** Constant environment: every call, in every interleaving, with every admissible reordering, gives the same answer. *)
Lemma constant_answer e s c r : const_steps e (init e) s -> In c (scalls s) -> cpc c = Done r -> (r = true <-> disabled e).
Proof.
  intros H Hc Hd. destruct (inv_steps e s H) as [_ I2]. specialize (I2 c Hc). rewrite Hd in I2. rewrite I2. apply sample_1.
Qed.

(** ** Later changes of the environment *)
(** Executions of calls that happen after everything with view [v] *)
Inductive after (v : nat) : state -> state -> Prop :=
| ARefl s : after v s s
| AStart s m e cs v0 : after v s (MkState m e cs) -> v <= v0 -> after v s (MkState m e (cs ++ [MkCall Test v0]))
| AStep s1 s2 s3 : after v s1 s2 -> step s2 s3 -> length (scalls s3) = length (scalls s2) -> after v s1 s3.

Section Settled.
  (** One store of value a at time t; a is not -1. *)
  Variables (t : nat) (a : Z).
  Variables (n : nat) (old : list call).          (* the calls finished before *)
  Definition settled (s : state) : Prop :=
    smsgs s = [(t, a); (0, (-1)%Z)] /\
    (firstn n (scalls s) = old) /\
    (forall c, In c (skipn n (scalls s)) -> t <= cview c /\ (cpc c = Test \/ cpc c = Final \/ cpc c = Done (Z.eqb a 1))).
End Settled.

Lemma skipn_app_le {A} n (l1 l2 : list A) : n <= length l1 -> skipn n (l1 ++ l2) = skipn n l1 ++ l2.
Proof. intros H. rewrite skipn_app. replace (n - length l1) with 0 by lia. reflexivity. Qed.
Lemma firstn_app_le {A} n (l1 l2 : list A) : n <= length l1 -> firstn n (l1 ++ l2) = firstn n l1.
Proof. intros H. rewrite firstn_app. replace (n - length l1) with 0 by lia. cbn. apply app_nil_r. Qed.

Lemma skipn_skipn {A} (l : list A) : forall a b, skipn a (skipn b l) = skipn (b + a) l.
Proof. induction l as [|x l IH]; intros a b; [rewrite !skipn_nil; reflexivity|]. destruct b as [|b]; [reflexivity|]. cbn [skipn Nat.add]. apply IH. Qed.
Lemma set_call_length i c l : i < length l -> length (set_call i c l) = length l.
Proof. intros H. unfold set_call. rewrite app_length, firstn_length. cbn [length]. rewrite skipn_length. lia. Qed.
Lemma set_call_firstn n i c l : n <= i -> i < length l -> firstn n (set_call i c l) = firstn n l.
Proof.
  intros H L. unfold set_call. rewrite firstn_app_le by (rewrite firstn_length; lia). rewrite firstn_firstn. f_equal. lia.
Qed.
Lemma set_call_skipn n i c l : n <= i -> i < length l -> skipn n (set_call i c l) = set_call (i - n) c (skipn n l).
Proof.
  intros H L. unfold set_call. rewrite skipn_app_le by (rewrite firstn_length; lia).
  rewrite skipn_firstn_comm. f_equal. f_equal. rewrite skipn_skipn. f_equal. lia.
Qed.

Lemma nth_done n l i c : (forall c, In c (firstn n l) -> exists r, cpc c = Done r) -> nth_error l i = Some c ->
  (forall r, cpc c <> Done r) -> n <= i /\ In c (skipn n l).
Proof.
  intros D N H. destruct (Nat.lt_ge_cases i n) as [L|L].
  - exfalso. assert (Hin : In c (firstn n l)).
    { rewrite <- (firstn_skipn n l) in N. rewrite nth_error_app1 in N; [exact (nth_error_In _ _ N)|].
      rewrite firstn_length. assert (i < length l) by (apply nth_error_Some; rewrite (firstn_skipn n l) in N; rewrite N; discriminate). lia. }
    destruct (D c Hin) as [r Hr]. exact (H r Hr).
  - split; [exact L|]. rewrite <- (firstn_skipn n l) in N. rewrite nth_error_app2 in N by (rewrite firstn_length; lia).
    exact (nth_error_In _ _ N).
Qed.

Section SettledProof.
  Variables (t : nat) (a : Z) (n : nat) (old : list call).
  Hypothesis Ha : a <> (-1)%Z.
  Hypothesis Ht : 0 < t.
  Hypothesis Hold : forall c, In c old -> exists r, cpc c = Done r.
  Hypothesis Hlen : length old = n.
  Notation St := (settled t a n old).

  Lemma settled_len s : St s -> n <= length (scalls s).
  Proof. intros (_ & H & _). rewrite <- Hlen, <- H, firstn_length. lia. Qed.
  Lemma settled_start m e cs v0 : t <= v0 -> St (MkState m e cs) -> St (MkState m e (cs ++ [MkCall Test v0])).
  Proof.
    intros Hv S. pose proof (settled_len _ S) as L. destruct S as (S1 & S2 & S3). cbn [smsgs scalls] in *.
    unfold settled. cbn [smsgs scalls]. split; [exact S1|]. split; [rewrite firstn_app_le by exact L; exact S2|]. intros c. rewrite skipn_app_le by exact L. rewrite in_app_iff.
    intros [H|[<-|[]]]; [apply S3; exact H|]. cbn. split; [exact Hv|left; reflexivity].
  Qed.
  Lemma settled_upd m e cs i c c' : nth_error cs i = Some c -> (forall r, cpc c <> Done r) ->
    t <= cview c' -> (cpc c' = Test \/ cpc c' = Final \/ cpc c' = Done (Z.eqb a 1)) ->
    St (MkState m e cs) -> St (MkState m e (set_call i c' cs)).
  Proof.
    intros N ND V P S. pose proof (settled_len _ S) as L. destruct S as (S1 & S2 & S3). cbn [smsgs scalls] in *.
    assert (Hd : forall c, In c (firstn n cs) -> exists r, cpc c = Done r) by (rewrite S2; exact Hold).
    destruct (nth_done n cs i c Hd N ND) as [Li _].
    assert (Lc : i < length cs) by (apply nth_error_Some; rewrite N; discriminate).
    unfold settled. cbn [smsgs scalls]. split; [exact S1|]. split; [rewrite set_call_firstn by assumption; exact S2|]. intros x Hx.
    rewrite set_call_skipn in Hx by assumption. apply set_call_in in Hx. destruct Hx as [->|Hx]; [split; assumption|apply S3; exact Hx].
  Qed.
  Lemma settled_step s s' : step s s' -> length (scalls s') = length (scalls s) -> St s -> St s'.
  Proof.
    intros H HL S. destruct H as [m e0 cs v0|m e0 e' cs|m e0 cs i v t' a' N Hin Hv|m e0 cs i v N|m e0 cs i v a' t' N Hv Hf|m e0 cs i v t' a' N Hin Hv].
    - cbn [scalls] in HL. rewrite app_length in HL. cbn in HL. lia.
    - exact S.
    - assert (Q : t <= v).
      { assert (Hd : forall c, In c (firstn n cs) -> exists r, cpc c = Done r) by (destruct S as (_ & S2 & _); cbn in S2; rewrite S2; exact Hold).
        destruct (nth_done n cs i _ Hd N) as [_ Hn]; [intros r; cbn; discriminate|].
        destruct S as (_ & _ & S3). apply (S3 _ Hn). }
      assert (q : a' = a).
      { destruct S as (S1 & _ & _). cbn in S1. rewrite S1 in Hin. destruct Hin as [q|[q|[]]]; injection q as <- <-; [reflexivity|lia]. }
      subst a'. assert (E1 : Z.eqb a (-1) = false) by (apply Z.eqb_neq; exact Ha). rewrite E1.
      apply (settled_upd m e0 cs i _ _ N); [intros r; cbn; discriminate|cbn; lia|right; left; reflexivity|exact S].
    - exfalso. assert (Hd : forall c, In c (firstn n cs) -> exists r, cpc c = Done r) by (destruct S as (_ & S2 & _); cbn in S2; rewrite S2; exact Hold).
      destruct (nth_done n cs i _ Hd N) as [_ Hn]; [intros r; cbn; discriminate|].
      destruct S as (_ & _ & S3). destruct (S3 _ Hn) as [_ [q|[q|q]]]; discriminate q.
    - exfalso. assert (Hd : forall c, In c (firstn n cs) -> exists r, cpc c = Done r) by (destruct S as (_ & S2 & _); cbn in S2; rewrite S2; exact Hold).
      destruct (nth_done n cs i _ Hd N) as [_ Hn]; [intros r; cbn; discriminate|].
      destruct S as (_ & _ & S3). destruct (S3 _ Hn) as [_ [q|[q|q]]]; discriminate q.
    - assert (Q : t <= v).
      { assert (Hd : forall c, In c (firstn n cs) -> exists r, cpc c = Done r) by (destruct S as (_ & S2 & _); cbn in S2; rewrite S2; exact Hold).
        destruct (nth_done n cs i _ Hd N) as [_ Hn]; [intros r; cbn; discriminate|].
        destruct S as (_ & _ & S3). apply (S3 _ Hn). }
      assert (q : a' = a).
      { destruct S as (S1 & _ & _). cbn in S1. rewrite S1 in Hin. destruct Hin as [q|[q|[]]]; injection q as <- <-; [reflexivity|lia]. }
      subst a'. apply (settled_upd m e0 cs i _ _ N); [intros r; cbn; discriminate|cbn; lia|right; right; reflexivity|exact S].
  Qed.
  Lemma settled_after s s' : after t s s' -> St s -> St s'.
  Proof.
    intros H S. induction H as [s|s m e cs v0 H IH Hv|s1 s2 s3 H IH Hs HL]; [exact S| |].
    - apply settled_start; [exact Hv|apply IH; exact S].
    - apply (settled_step s2); [exact Hs|exact HL|apply IH; exact S].
  Qed.
End SettledProof.

(** The first call, alone: one call, nothing else running; the environment may change in between. *)
Definition inv1 (s : state) : Prop :=
  match scalls s with
  | [] => smsgs s = [(0, (-1)%Z)]
  | [c] => match cpc c with
           | Test | Read => smsgs s = [(0, (-1)%Z)]
           | Store a => smsgs s = [(0, (-1)%Z)] /\ (a = 0%Z \/ a = 1%Z)
           | Final => 0 < cview c /\ exists a, smsgs s = [(cview c, a); (0, (-1)%Z)] /\ (a = 0%Z \/ a = 1%Z)
           | Done r => 0 < cview c /\ exists a, smsgs s = [(cview c, a); (0, (-1)%Z)] /\ (a = 0%Z \/ a = 1%Z) /\ r = Z.eqb a 1
           end
  | _ => True
  end.

Lemma step_length s s' : step s s' -> length (scalls s) <= length (scalls s').
Proof.
  intros H. destruct H; cbn [scalls]; try rewrite app_length; try lia;
    rewrite set_call_length; try lia; apply nth_error_Some;
    match goal with H : nth_error _ _ = _ |- _ => rewrite H; discriminate end.
Qed.
Lemma inv1_step s s' : step s s' -> inv1 s -> inv1 s'.
Proof.
  intros H Hi. destruct H as [m e0 cs v0|m e0 e' cs|m e0 cs i v t a N Hin Hv|m e0 cs i v N|m e0 cs i v a t N Hv Hf|m e0 cs i v t a N Hin Hv]; unfold inv1 in *; cbn [scalls smsgs] in *.
  - destruct cs as [|c [|c2 cs]]; cbn [app]; [exact Hi|exact I|exact I].
  - exact Hi.
  - destruct cs as [|c [|c2 cs]]; [destruct i; discriminate| |].
    + destruct i as [|i]; [|destruct i; discriminate]. cbn in N. injection N as ->. cbn [set_call firstn app skipn] in *. cbn [set_call firstn skipn app] in *.
      cbn in Hi. unfold set_call. cbn [firstn skipn app]. cbn [cpc cview].
      rewrite Hi in Hin. destruct Hin as [q|[]]. injection q as <- <-. cbn. exact Hi.
    + destruct (set_call i _ (c :: c2 :: cs)) as [|x [|y z]] eqn:el; [| |exact I];
        apply (f_equal (@List.length call)) in el; rewrite set_call_length in el by (apply nth_error_Some; rewrite N; discriminate); cbn in el; lia.
  - destruct cs as [|c [|c2 cs]]; [destruct i; discriminate| |].
    + destruct i as [|i]; [|destruct i; discriminate]. cbn in N. injection N as ->. unfold set_call. cbn [firstn skipn app cpc cview] in *.
      split; [exact Hi|apply sample_01].
    + destruct (set_call i _ (c :: c2 :: cs)) as [|x [|y z]] eqn:el; [| |exact I];
        apply (f_equal (@List.length call)) in el; rewrite set_call_length in el by (apply nth_error_Some; rewrite N; discriminate); cbn in el; lia.
  - destruct cs as [|c [|c2 cs]]; [destruct i; discriminate| |].
    + destruct i as [|i]; [|destruct i; discriminate]. cbn in N. injection N as ->. unfold set_call. cbn [firstn skipn app cpc cview] in *.
      destruct Hi as [-> Hi]. split; [lia|]. exists a. split; [reflexivity|exact Hi].
    + destruct (set_call i _ (c :: c2 :: cs)) as [|x [|y z]] eqn:el; [| |exact I];
        apply (f_equal (@List.length call)) in el; rewrite set_call_length in el by (apply nth_error_Some; rewrite N; discriminate); cbn in el; lia.
  - destruct cs as [|c [|c2 cs]]; [destruct i; discriminate| |].
    + destruct i as [|i]; [|destruct i; discriminate]. cbn in N. injection N as ->. unfold set_call. cbn [firstn skipn app cpc cview] in *.
      destruct Hi as [Hp [b [Hm Hb]]]. rewrite Hm in Hin. destruct Hin as [q|[q|[]]]; injection q as <- <-; [|lia].
      split; [exact Hp|]. exists b. split; [exact Hm|]. split; [exact Hb|reflexivity].
    + destruct (set_call i _ (c :: c2 :: cs)) as [|x [|y z]] eqn:el; [| |exact I];
        apply (f_equal (@List.length call)) in el; rewrite set_call_length in el by (apply nth_error_Some; rewrite N; discriminate); cbn in el; lia.
Qed.
Lemma inv1_steps e s : steps (init e) s -> inv1 s.
Proof.
  intros H. remember (init e) as s0 eqn:es. induction H as [s|s1 s2 s3 H IH Hs]; [subst; reflexivity|].
  apply (inv1_step s2); [exact Hs|apply IH; exact es].
Qed.

(** After a first call has finished before any other started, every call that happens after it gives the same answer,
    whatever becomes of the environment. *)
Lemma sampled_once e s c r s' c' r' :
  steps (init e) s -> scalls s = [c] -> cpc c = Done r ->
  after (cview c) s s' -> In c' (scalls s') -> cpc c' = Done r' -> r' = r.
Proof.
  intros H Hc Hd Ha Hin Hd'. pose proof (inv1_steps e s H) as I1. unfold inv1 in I1. rewrite Hc, Hd in I1.
  destruct I1 as [Hp [a [Hm [Hb Hr]]]].
  assert (S : settled (cview c) a 1 [c] s).
  { split; [exact Hm|]. rewrite Hc. split; [reflexivity|]. intros x []. }
  assert (Hold : forall x, In x [c] -> exists r, cpc x = Done r) by (intros x [<-|[]]; exists r; exact Hd).
  assert (Na : a <> (-1)%Z) by (destruct Hb; lia).
  destruct (settled_after (cview c) a 1 [c] Na Hp Hold eq_refl s s' Ha S) as (_ & S2 & S3).
  rewrite <- (firstn_skipn 1 (scalls s')) in Hin. apply in_app_or in Hin. destruct Hin as [Hin|Hin].
  - rewrite S2 in Hin. destruct Hin as [<-|[]]. congruence.
  - destruct (S3 c' Hin) as [_ [q|[q|q]]]; congruence.
Qed.

(** If the environment changes while two first calls overlap, they can disagree: the variable is set to "1" between the two reads. *)
Definition race_final : state :=
  MkState [(2, 1%Z); (1, 0%Z); (0, (-1)%Z)] (Some "1"%string) [MkCall (Done false) 1; MkCall (Done true) 2].
Lemma race_reachable : steps (init None) race_final.
Proof.
  unfold race_final, init.
  eapply Trans; [|apply (Load2 _ _ [MkCall (Done false) 1; MkCall Final 2] 1 2 2 1%Z); [reflexivity|left; reflexivity|lia]].
  eapply Trans; [|apply (Write [(1, 0%Z); (0, (-1)%Z)] _ [MkCall (Done false) 1; MkCall (Store 1) 0] 1 0 1%Z 2); [reflexivity|lia|]].
  2: { intros b [q|[q|[]]]; discriminate q. }
  eapply Trans; [|apply (Load2 _ _ [MkCall Final 1; MkCall (Store 1) 0] 0 1 1 0%Z); [reflexivity|left; reflexivity|lia]].
  eapply Trans; [|apply (Write [(0, (-1)%Z)] _ [MkCall (Store 0) 0; MkCall (Store 1) 0] 0 0 0%Z 1); [reflexivity|lia|]].
  2: { intros b [q|[]]; discriminate q. }
  eapply Trans; [|apply (GetEnv _ (Some "1"%string) [MkCall (Store 0) 0; MkCall Read 0] 1 0); reflexivity].
  eapply Trans; [|apply (SetEnv _ None)].
  eapply Trans; [|apply (GetEnv _ None [MkCall Read 0; MkCall Read 0] 0 0); reflexivity].
  eapply Trans; [|apply (Load1 [(0, (-1)%Z)] None [MkCall Read 0; MkCall Test 0] 1 0 0 (-1)%Z); [reflexivity|left; reflexivity|lia]].
  eapply Trans; [|apply (Load1 [(0, (-1)%Z)] None [MkCall Test 0; MkCall Test 0] 0 0 0 (-1)%Z); [reflexivity|left; reflexivity|lia]].
  eapply Trans; [|apply (Start [(0, (-1)%Z)] None [MkCall Test 0] 0)].
  eapply Trans; [|apply (Start [(0, (-1)%Z)] None [] 0)].
  apply Refl.
Qed.

Lemma race_disagree : exists e s c c', steps (init e) s /\ In c (scalls s) /\ In c' (scalls s) /\ cpc c = Done true /\ cpc c' = Done false.
Proof.
  exists None, race_final, (MkCall (Done true) 2), (MkCall (Done false) 1). split; [exact race_reachable|].
  split; [right; left; reflexivity|]. split; [left; reflexivity|]. split; reflexivity.
Qed.

Definition one_call : state := MkState [(1, 1%Z); (0, (-1)%Z)] (Some "1"%string) [MkCall (Done true) 1].
Definition next_call : state := MkState [(1, 1%Z); (0, (-1)%Z)] None [MkCall (Done true) 1; MkCall (Done true) 1].
Lemma const_steps_steps e s s' : const_steps e s s' -> steps s s'.
Proof. induction 1; [apply Refl|eapply Trans; eassumption]. Qed.
Lemma two_calls : const_steps (Some "1"%string) (init (Some "1"%string)) one_call /\ steps (init (Some "1"%string)) one_call /\ after 1 one_call next_call.
Proof.
  set (e := Some "1"%string).
  assert (C : const_steps e (init e) one_call).
  { unfold one_call. eapply CTrans; [|eapply (Load2 _ _ [MkCall Final 1] 0 1 1 1%Z); [reflexivity|left; reflexivity|lia]|reflexivity].
    eapply CTrans; [|eapply (Write _ _ [MkCall (Store 1%Z) 0] 0 0 1%Z 1); [reflexivity|lia|intros b [H|[]]; discriminate H]|reflexivity].
    eapply CTrans; [|eapply (GetEnv _ e [MkCall Read 0] 0 0); reflexivity|reflexivity].
    eapply CTrans; [|eapply (Load1 _ _ [MkCall Test 0] 0 0 0 (-1)%Z); [reflexivity|left; reflexivity|lia]|reflexivity].
    eapply CTrans; [|eapply (Start _ _ [] 0)|reflexivity]. apply CRefl. reflexivity. }
  split; [exact C|]. split; [exact (const_steps_steps _ _ _ C)|].
  unfold next_call.
  eapply AStep; [|eapply (Load2 _ _ [MkCall (Done true) 1; MkCall Final 1] 1 1 1 1%Z); [reflexivity|left; reflexivity|lia]|reflexivity].
  eapply AStep; [|eapply (Load1 _ _ [MkCall (Done true) 1; MkCall Test 1] 1 1 1 1%Z); [reflexivity|left; reflexivity|lia]|reflexivity].
  change [MkCall (Done true) 1; MkCall Test 1] with ([MkCall (Done true) 1] ++ [MkCall Test 1]). apply AStart; [|lia].
  eapply AStep; [apply ARefl|apply SetEnv|reflexivity].
Qed.
