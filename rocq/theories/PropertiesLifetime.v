(** C98: starting and ending the library. *)
From Coq Require Import List Bool.
From Verif Require Import Lifetime.
Import ListNotations.

(** Exactly the programs with one start, then host calculations, then at most one end run without abort, exit or undefined behaviour; calls that are
    refused may stand anywhere. *)
Theorem C98_proper_programs : forall mg l, (exists s, program mg l fresh = Fine s) <-> proper mg (filter relevant l).
Proof. exact program_fine. Qed.
Print Assumptions C98_proper_programs.
Theorem C98_everything_released : forall mg n, program mg (Initialize :: repeat Run n ++ [Finalize]) fresh = Fine (MkLib Done 0).
Proof. exact all_released. Qed.
Print Assumptions C98_everything_released.
(** initialize does not ask whether Kokkos is running: after any start, by the library or by the calling program, it ends the process. *)
Theorem C98_second_start_aborts : forall mg l s,
  program mg l fresh = Fine s -> (exists c, In c l /\ starts c) -> program mg (l ++ [Initialize]) fresh = Aborted.
Proof. exact no_second_start. Qed.
Print Assumptions C98_second_start_aborts.
(** Not every program that starts and ends in pairs is fine: a second round, and a calling program that has started Kokkos itself. *)
Theorem C98_pairs_refuted : exists l k, l = [Initialize; Run; Finalize; Initialize; Run; Finalize] /\ k = [OwnInit; Initialize; Run; Finalize; OwnFinalize] /\
  forall mg, program mg l fresh = Aborted /\ program mg k fresh = Aborted.
Proof. eexists _, _. split; [reflexivity|]. split; [reflexivity|]. intros []; split; reflexivity. Qed.
Print Assumptions C98_pairs_refuted.
Example C98_example : forall mg,
  program mg [Refused; Initialize; Run; Refused; Run; Finalize; Refused] fresh = Fine (MkLib Done 0) /\
  proper mg (filter relevant [Refused; Initialize; Run; Refused; Run; Finalize; Refused]) /\
  program mg [OwnInit; Run; OwnFinalize] fresh = Fine (MkLib Done 0) /\ program mg [Run] fresh = Undefined /\
  program true [OwnInit; Run; Finalize] fresh = Exited /\ program false [OwnInit; Run; Finalize] fresh = Fine (MkLib Done 0).
Proof.
  intros mg. split; [destruct mg; reflexivity|]. split; [|destruct mg; repeat split].
  apply (PClosed mg Initialize 2 Finalize); [left; reflexivity|left; reflexivity|intros; reflexivity].
Qed.
