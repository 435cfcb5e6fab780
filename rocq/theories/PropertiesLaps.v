(** C101: the times written to the log. *)
From Coq Require Import ZArith Lia List Bool.
From Verif Require Import Laps.
Import ListNotations.
Local Open Scope Z_scope.

(** With a clock that is not changed during the run, every message has the time of its own part, in every iteration of every run, also if an
    exception ends the run at any place. *)
Theorem C101_lap_times : forall clock off, (forall x, clock x = x + off) -> forall its now,
  (forall n, (length (flat_map body its) <= n)%nat -> logged clock its n now = flat_map expected its) /\
  forall n, exists k, logged clock its n now = firstn k (flat_map expected its).
Proof. exact lap_times. Qed.
Print Assumptions C101_lap_times.
(** With a clock that never goes back no time is negative. *)
Theorem C101_never_negative : forall clock, (forall x y, x <= y -> clock x <= clock y) -> forall its n now, Forall takes_time its ->
  forall m x, In (m, x) (logged clock its n now) -> 0 <= x.
Proof. exact laps_not_negative. Qed.
Print Assumptions C101_never_negative.
(** Finding: the time logged for the line search is not that of the line search alone. *)
Theorem C101_line_search_alone_refuted : exists its, Forall takes_time its /\
  exists x, In (LineSearch, x) (logged (fun t => t) its 100 0) /\ forall i, In i its -> x <> d_line i.
Proof.
  exists [MkIter 3 5 1 2 0 Restart]. split; [repeat constructor; cbn; lia|]. exists 8. split; [left; reflexivity|]. intros i [<-|[]]. cbn. lia.
Qed.
Print Assumptions C101_line_search_alone_refuted.
(** Finding: high_resolution_clock need not be steady; a clock put back during the line search gives a negative time. *)
Theorem C101_not_negative_refuted : exists clock its, Forall takes_time its /\ exists m x, In (m, x) (logged clock its 100 0) /\ x < 0.
Proof.
  exists (fun t => if t <? 4 then t else t - 10), [MkIter 3 5 1 2 0 Restart]. split; [repeat constructor; cbn; lia|].
  exists LineSearch, (-2). split; [left; reflexivity|lia].
Qed.
Print Assumptions C101_not_negative_refuted.
(** Three iterations, the second with a positive slope, an exception in the line search of the third. *)
Definition three : list iter := [MkIter 3 5 1 2 0 Restart; MkIter 3 6 1 4 2 (Conjugate true); MkIter 3 7 1 4 0 (Conjugate false)].
Example C101_example :
  Forall takes_time three /\ (forall x, (fun t => t + 1000) x = x + 1000) /\
  logged (fun t => t + 1000) three 20 50 = [(LineSearch, 8); (Steepest, 2); (LineSearch, 9); (Conjugated, 6)] /\
  logged (fun t => t + 1000) three 100 50 = [(LineSearch, 8); (Steepest, 2); (LineSearch, 9); (Conjugated, 6); (LineSearch, 10); (Conjugated, 4)].
Proof. split; [repeat constructor; cbn; lia|]. split; [reflexivity|]. split; reflexivity. Qed.
