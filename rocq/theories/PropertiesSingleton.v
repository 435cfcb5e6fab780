(** C99: the single Logger object under threads. *)
From Coq Require Import List Bool.
From Verif Require Import Singleton.
Import ListNotations.

(** Whatever the interleaving of any number of threads, and however often the constructor raises: no undefined behaviour, at most one object, and
    every reference returned is to it. *)
Theorem C99_one_object : forall l, ~ In Exit l -> run l start <> UB /\ forall s, run l start = Next s -> one_object s.
Proof. exact single. Qed.
Print Assumptions C99_one_object.
(** No caller is stuck: from every reachable state each thread inside GetInstance can be served. *)
Theorem C99_callers_are_served : forall l s t, ~ In Exit l -> run l start = Next s -> s_at s t <> Out ->
  exists r s', ~ In Exit r /\ run r s = Next s' /\ s_got s' = (t, 0) :: s_got s /\ s_at s' t = Out.
Proof. exact served. Qed.
Print Assumptions C99_callers_are_served.
(** Finding: the object is destroyed at the end of the program but the flag stays set, so a later message goes through a null pointer. *)
Theorem C99_after_the_end : forall l s t, ~ In Exit l -> run l start = Next s -> s_flag s = Ready -> s_at s t = Out ->
  run [Exit; Call t; Enter t; Return t] s = UB.
Proof. exact after_exit. Qed.
Print Assumptions C99_after_the_end.
Theorem C99_always_valid_refuted : exists l, run l start = UB.
Proof. exists [Call 0; Enter 0; Make 0 true; Return 0; Exit; Call 0; Enter 0; Return 0]. reflexivity. Qed.
Print Assumptions C99_always_valid_refuted.
(** Two threads: the constructor raises for the first, the second builds while the first tries again and waits. *)
Definition two_threads : list event :=
  [Call 1; Enter 1; Call 2; Make 1 false; Enter 2; Call 1; Make 2 true; Enter 1; Return 1; Return 2].
Example C99_example :
  ~ In Exit two_threads /\
  match run two_threads start with Next s => s_made s = 1 /\ s_got s = [(2, 0); (1, 0)] /\ s_flag s = Ready /\ s_at s 1 = Out | _ => False end /\
  match run [Call 1; Enter 1; Call 2] start with Next s => s_at s 2 <> Out /\ step (Enter 2) s = Cannot | _ => False end.
Proof.
  split; [intros H; unfold two_threads in H; repeat (destruct H as [H|H]; [discriminate H|]); exact H|].
  vm_compute. repeat split; discriminate.
Qed.
