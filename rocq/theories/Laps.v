(** The times nlcg_us logs (src/nlcglib.cpp 369-430), measured with Timer (src/utils/timer.hpp 32-57). *)
From Coq Require Import ZArith Lia List Bool.
Import ListNotations.
Local Open Scope Z_scope.

(** the messages of nlcglib.cpp 382, 403 and 429 *)
Inductive label := LineSearch | Steepest | Conjugated.
(** what an iteration does as far as time is concerned: work taking d ticks, Timer::start, Timer::stop with the message behind it *)
Inductive op := Work (d : Z) | Start | Stop (l : label).
(** the direction computed, nlcglib.cpp 393: steepest descent, or conjugated with slope > 0 or not (415) *)
Inductive kind := Restart | Conjugate (positive : bool).
(** ticks taken by print_info and ehandle().print_info (371-378), the line search (380), the updates (385-391), the direction (396 or 408-413) and
    the second one (418-423) *)
Record iter := MkIter { d_print : Z; d_line : Z; d_update : Z; d_dir : Z; d_again : Z; i_kind : kind }.
(** the loop body, nlcglib.cpp 369-430 *)
Definition body (i : iter) : list op :=
  [Start; Work (d_print i); Work (d_line i); Stop LineSearch; Work (d_update i)] ++
  match i_kind i with
  | Restart => [Start; Work (d_dir i); Stop Steepest]
  | Conjugate pos => [Start; Work (d_dir i)] ++ (if pos then [Work (d_again i)] else []) ++ [Stop Conjugated]
  end.
(** timer.hpp 46-57: [t] is the member t (zero before the first start), [clock] what high_resolution_clock::now() shows at each time.  The
    conversion of ticks to a double number of seconds (line 56) is left out. *)
Fixpoint laps (clock : Z -> Z) (l : list op) (now t : Z) : list (label * Z) :=
  match l with
  | [] => []
  | Work d :: r => laps clock r (now + d) t
  | Start :: r => laps clock r now (clock now)
  | Stop m :: r => (m, clock now - t) :: laps clock r now t
  end.
(** the run from line 369 of the first iteration, an exception leaving it behind the n-th operation.  The object is the one of line 234. *)
Definition logged (clock : Z -> Z) (its : list iter) (n : nat) (now : Z) : list (label * Z) := laps clock (firstn n (flat_map body its)) now 0.

(** ** Specification *)
(** the message of the line search has the time of the line search and of the printing before it, that of the direction the time of all
    directions computed *)
Definition expected (i : iter) : list (label * Z) :=
  [(LineSearch, d_print i + d_line i);
   match i_kind i with
   | Restart => (Steepest, d_dir i)
   | Conjugate true => (Conjugated, d_dir i + d_again i)
   | Conjugate false => (Conjugated, d_dir i)
   end].
Definition takes_time (i : iter) : Prop := 0 <= d_print i /\ 0 <= d_line i /\ 0 <= d_update i /\ 0 <= d_dir i /\ 0 <= d_again i.

(** ** Proofs *)
Lemma laps_prefix clock : forall l n now t, exists k, laps clock (firstn n l) now t = firstn k (laps clock l now t).
Proof.
  induction l as [|o l IH]; intros [|n] now t; try (exists 0%nat; reflexivity). destruct o as [d| |m]; cbn [firstn laps]; try apply IH.
  destruct (IH n now t) as (k & ->). exists (S k). reflexivity.
Qed.
Lemma laps_all clock off : (forall x, clock x = x + off) -> forall its now t, laps clock (flat_map body its) now t = flat_map expected its.
Proof.
  intros C. induction its as [|[p l u d a k] its IH]; intros now t; [reflexivity|]. cbn [flat_map]. unfold body, expected. cbn [d_print d_line d_update d_dir d_again i_kind].
  destruct k as [|[|]]; cbn [app laps]; rewrite !C, IH; repeat (f_equal; try lia).
Qed.
Theorem lap_times clock off : (forall x, clock x = x + off) -> forall its now,
  (forall n, (length (flat_map body its) <= n)%nat -> logged clock its n now = flat_map expected its) /\
  forall n, exists k, logged clock its n now = firstn k (flat_map expected its).
Proof.
  intros C its now. split; unfold logged.
  - intros n L. rewrite firstn_all2 by exact L. apply (laps_all clock off C).
  - intros n. destruct (laps_prefix clock (flat_map body its) n now 0) as (k & ->). exists k. rewrite (laps_all clock off C). reflexivity.
Qed.
Lemma laps_nonneg clock : (forall x y, x <= y -> clock x <= clock y) -> forall l now t, t <= clock now -> (forall d, In (Work d) l -> 0 <= d) ->
  forall m x, In (m, x) (laps clock l now t) -> 0 <= x.
Proof.
  intros C. induction l as [|o l IH]; intros now t T W m x Hin; [destruct Hin|].
  assert (W' : forall d, In (Work d) l -> 0 <= d) by (intros d Hd; apply W; right; exact Hd).
  destruct o as [d| |m']; cbn [laps] in Hin.
  - apply (IH (now + d) t) with (m := m); try assumption. assert (0 <= d) by (apply W; left; reflexivity). specialize (C now (now + d)). lia.
  - apply (IH now (clock now)) with (m := m); try assumption. lia.
  - destruct Hin as [e|Hin]; [injection e as _ <-; lia|]. apply (IH now t) with (m := m); assumption.
Qed.
Lemma work_nonneg its : Forall takes_time its -> forall d, In (Work d) (flat_map body its) -> 0 <= d.
Proof.
  intros F d Hin. apply in_flat_map in Hin. destruct Hin as (i & Hi & Hd). rewrite Forall_forall in F. destruct (F i Hi) as (h1 & h2 & h3 & h4 & h5).
  unfold body in Hd. destruct (i_kind i) as [|[|]]; cbn [app In] in Hd;
    repeat (destruct Hd as [e|Hd]; [first [discriminate e|injection e as <-; assumption]|]); destruct Hd.
Qed.
Theorem laps_not_negative clock : (forall x y, x <= y -> clock x <= clock y) -> forall its n now, Forall takes_time its ->
  forall m x, In (m, x) (logged clock its n now) -> 0 <= x.
Proof.
  intros C its n now F m x Hin. unfold logged in Hin. destruct (laps_prefix clock (flat_map body its) n now 0) as (k & e). rewrite e in Hin.
  assert (Q : In (m, x) (laps clock (flat_map body its) now 0)).
  { rewrite <- (firstn_skipn k). apply in_or_app. left. exact Hin. }
  clear e Hin. pose proof (work_nonneg its F) as W. destruct its as [|i its]; [destruct Q|].
  assert (S : exists r, flat_map body (i :: its) = Start :: r) by (cbn [flat_map]; unfold body; cbn [app]; eexists; reflexivity).
  destruct S as (r & S). rewrite S in *. cbn [laps] in Q. apply (laps_nonneg clock C r now (clock now)) with (m := m); [lia| |exact Q].
  intros d Hd. apply W. right. exact Hd.
Qed.
