(** CSingleton<T>::GetInstance (src/csingleton.hpp 9-35) called by any number of threads. *)
From Coq Require Import List Bool Arith Lia.
Import ListNotations.

(** m_onceFlag, csingleton.hpp 16: the states std::call_once gives it (contract of the standard library) *)
Inductive once := Unset | Running (t : nat) | Ready.
(** a thread: outside, in front of call_once, inside the lambda of line 32, behind call_once *)
Inductive place := Out | Asked | Building | Passed.
(** [s_inst]: the object m_instance (line 15) points to, null: None; [s_made]: objects constructed so far, also their names;
    [s_got]: thread and object of each reference returned, the last first *)
Record state := MkS { s_flag : once; s_inst : option nat; s_made : nat; s_at : nat -> place; s_got : list (nat * nat) }.
Definition start : state := MkS Unset None 0 (fun _ => Out) [].
Inductive event :=
| Call (t : nat) | Enter (t : nat)
| Make (t : nat) (ok : bool)   (* new T returns or raises *)
| Return (t : nat)
| Exit                          (* static objects are destroyed *).
Inductive outcome := Next (s : state) | Cannot | UB.
Definition move (s : state) (t : nat) (p : place) : nat -> place := fun u => if Nat.eqb u t then p else s_at s u.
Definition step (e : event) (s : state) : outcome :=
  match e with
  (* line 30 *)
  | Call t => match s_at s t with Out => Next (MkS (s_flag s) (s_inst s) (s_made s) (move s t Asked) (s_got s)) | _ => Cannot end
  (* line 32: call_once lets one thread in, later ones wait or, once it has succeeded, pass *)
  | Enter t =>
    match s_at s t, s_flag s with
    | Asked, Unset => Next (MkS (Running t) (s_inst s) (s_made s) (move s t Building) (s_got s))
    | Asked, Ready => Next (MkS Ready (s_inst s) (s_made s) (move s t Passed) (s_got s))
    | _, _ => Cannot
    end
  (* line 32: m_instance.reset(new T); an exception leaves the flag unset and goes to the caller *)
  | Make t ok =>
    match s_at s t with
    | Building => Next (if ok then MkS Ready (Some (s_made s)) (S (s_made s)) (move s t Passed) (s_got s)
                        else MkS Unset (s_inst s) (s_made s) (move s t Out) (s_got s))
    | _ => Cannot
    end
  (* line 33: *m_instance.get() *)
  | Return t =>
    match s_at s t with
    | Passed => match s_inst s with Some i => Next (MkS (s_flag s) (s_inst s) (s_made s) (move s t Out) ((t, i) :: s_got s)) | None => UB end
    | _ => Cannot
    end
  (* end of the program: m_instance (lines 22-23) is destroyed, the flag is not *)
  | Exit => Next (MkS (s_flag s) None (s_made s) (s_at s) (s_got s))
  end.
Fixpoint run (l : list event) (s : state) : outcome :=
  match l with [] => Next s | e :: r => match step e s with Next s' => run r s' | o => o end end.

(** ** Specification *)
(** one object at most, and every reference is to it *)
Definition one_object (s : state) : Prop := s_made s <= 1 /\ forall t i, In (t, i) (s_got s) -> s_made s = 1 /\ i = 0 /\ s_inst s = Some 0.

(** ** Proofs *)
Record inv (s : state) : Prop := MkInv {
  i_empty : s_flag s <> Ready -> s_inst s = None /\ s_made s = 0 /\ s_got s = [];
  i_full : s_flag s = Ready -> s_inst s = Some 0 /\ s_made s = 1;
  i_got : forall t i, In (t, i) (s_got s) -> i = 0;
  i_passed : forall t, s_at s t = Passed -> s_flag s = Ready;
  i_build : forall t, s_at s t = Building <-> s_flag s = Running t }.
Lemma inv_start : inv start.
Proof. constructor; cbn; [intros _; repeat split; reflexivity|discriminate|intros t i []|discriminate|intros t; split; discriminate]. Qed.
Lemma move_same s t p : move s t p t = p.
Proof. unfold move. rewrite Nat.eqb_refl. reflexivity. Qed.
Lemma move_other s t p u : u <> t -> move s t p u = s_at s u.
Proof. intros H. unfold move. destruct (Nat.eqb_spec u t); [contradiction|reflexivity]. Qed.
Lemma inv_step e s : e <> Exit -> inv s -> match step e s with Next s' => inv s' | Cannot => True | UB => False end.
Proof.
  intros NE [Ie If Ig Ip Ib]. destruct e as [t|t|t ok|t|]; cbn [step]; [| | | |contradiction].
  - destruct (s_at s t) eqn:A; try exact Logic.I. constructor; cbn; try assumption; intros u; destruct (Nat.eq_dec u t) as [->|N].
    + rewrite move_same. discriminate.
    + rewrite move_other by exact N. apply Ip.
    + rewrite move_same. split; [discriminate|]. intros F. apply Ib in F. rewrite A in F. discriminate F.
    + rewrite move_other by exact N. apply Ib.
  - destruct (s_at s t) eqn:A; try exact Logic.I. destruct (s_flag s) as [|v|] eqn:F; try exact Logic.I.
    + destruct (Ie) as (E1 & E2 & E3); [discriminate|]. constructor; cbn; try discriminate; try assumption.
      * intros _. repeat split; assumption.
      * intros u. destruct (Nat.eq_dec u t) as [->|N]; [rewrite move_same; discriminate|]. rewrite move_other by exact N. intros H. specialize (Ip u H). discriminate Ip.
      * intros u. destruct (Nat.eq_dec u t) as [->|N]; [rewrite move_same; split; intros; reflexivity|]. rewrite move_other by exact N.
        split; [intros H; apply Ib in H; discriminate H|intros [= H]; congruence].
    + constructor; cbn; try assumption; try (intros H; contradiction H; reflexivity); [reflexivity|].
      intros u. destruct (Nat.eq_dec u t) as [->|N]; [rewrite move_same; split; discriminate|]. rewrite move_other by exact N. apply Ib.
  - destruct (s_at s t) eqn:A; try exact Logic.I. pose proof (proj1 (Ib t) A) as F. rewrite F in *. destruct (Ie) as (E1 & E2 & E3); [discriminate|]. destruct ok.
    + constructor; cbn; rewrite ?E2, ?E3; try (intros H; contradiction H; reflexivity); try (intros; contradiction).
      * intros _. split; reflexivity.
      * intros; reflexivity.
      * intros u. destruct (Nat.eq_dec u t) as [->|N]; [rewrite move_same; split; discriminate|]. rewrite move_other by exact N.
        split; [|discriminate]. intros H. apply Ib in H. congruence.
    + constructor; cbn; try discriminate; try assumption.
      * intros _. repeat split; assumption.
      * intros u. destruct (Nat.eq_dec u t) as [->|N]; [rewrite move_same; discriminate|]. rewrite move_other by exact N. intros H. specialize (Ip u H). discriminate Ip.
      * intros u. destruct (Nat.eq_dec u t) as [->|N]; [rewrite move_same; split; discriminate|]. rewrite move_other by exact N.
        split; [|discriminate]. intros H. apply Ib in H. congruence.
  - destruct (s_at s t) eqn:A; try exact Logic.I. pose proof (Ip t A) as F. destruct (If F) as (E1 & E2). rewrite E1. constructor; cbn; rewrite ?F.
    + intros H. contradiction H. reflexivity.
    + intros _. split; [reflexivity|exact E2].
    + intros u i [[= <- <-]|H]; [reflexivity|exact (Ig u i H)].
    + intros; reflexivity.
    + intros u. destruct (Nat.eq_dec u t) as [->|N]; [rewrite move_same; split; discriminate|]. rewrite move_other by exact N. rewrite <- F. apply Ib.
Qed.
Lemma inv_run l : forall s, ~ In Exit l -> inv s -> match run l s with Next s' => inv s' | Cannot => True | UB => False end.
Proof.
  induction l as [|e l IH]; intros s N H; [exact H|]. cbn [run]. pose proof (inv_step e s) as S1.
  assert (Ne : e <> Exit) by (intros ->; apply N; left; reflexivity). specialize (S1 Ne H). destruct (step e s); [|exact Logic.I|contradiction].
  apply IH; [intros Hin; apply N; right; exact Hin|exact S1].
Qed.
Theorem single l : ~ In Exit l -> run l start <> UB /\ forall s, run l start = Next s -> one_object s.
Proof.
  intros N. pose proof (inv_run l start N inv_start) as H. destruct (run l start) as [s| |]; [|split; [discriminate|intros s E; discriminate E]|contradiction].
  split; [discriminate|]. intros s' [= <-]. destruct H as [Ie If Ig _ _]. unfold one_object. destruct (s_flag s) eqn:F.
  - destruct Ie as (E1 & E2 & E3); [discriminate|]. rewrite E2, E3. split; [lia|intros t i []].
  - destruct Ie as (E1 & E2 & E3); [discriminate|]. rewrite E2, E3. split; [lia|intros u i []].
  - destruct (If eq_refl) as (E1 & E2). rewrite E2. split; [lia|]. intros t i Hi. split; [reflexivity|]. split; [exact (Ig t i Hi)|exact E1].
Qed.
(** Whoever calls can get its reference: no thread is stuck. *)
Theorem served l s t : ~ In Exit l -> run l start = Next s -> s_at s t <> Out ->
  exists r s', ~ In Exit r /\ run r s = Next s' /\ s_got s' = (t, 0) :: s_got s /\ s_at s' t = Out.
Proof.
  intros N E A. pose proof (inv_run l start N inv_start) as H. rewrite E in H. destruct H as [Ie If Ig Ip Ib].
  assert (NX : forall l, (forall e, In e l -> e <> Exit) -> ~ In Exit l) by (intros k Hk Hi; exact (Hk _ Hi eq_refl)).
  destruct (s_at s t) eqn:P; [contradiction A; reflexivity| | |].
  - destruct (s_flag s) as [|v|] eqn:F.
    + exists [Enter t; Make t true; Return t]. cbn [run step]. rewrite P, F. cbn [run step s_at s_flag s_inst s_made s_got]. rewrite move_same. cbn [s_at s_inst s_got s_made s_flag].
      unfold move at 1. cbn [s_at]. rewrite Nat.eqb_refl. destruct (Ie) as (_ & E2 & _); [discriminate|]. rewrite E2. eexists. split; [intros [H|[H|[H|[]]]]; discriminate H|].
      split; [reflexivity|]. split; [reflexivity|]. cbn [s_at]. apply move_same.
    + pose proof (proj2 (Ib v) eq_refl) as B. assert (V : t <> v) by (intros ->; rewrite P in B; discriminate B). destruct (Ie) as (_ & E2 & _); [discriminate|].
      exists [Make v true; Enter t; Return t]. cbn [run step]. rewrite B. cbn [run step s_at s_flag s_inst s_made s_got]. rewrite move_other, P by exact V.
      cbn [s_at s_inst s_got s_made s_flag]. unfold move at 1. cbn [s_at]. rewrite Nat.eqb_refl, E2. eexists. split; [intros [H|[H|[H|[]]]]; discriminate H|].
      split; [reflexivity|]. split; [reflexivity|]. cbn [s_at]. apply move_same.
    + destruct (If eq_refl) as (E1 & _). exists [Enter t; Return t]. cbn [run step]. rewrite P, F. cbn [run step s_at s_flag s_inst s_made s_got]. rewrite move_same, E1.
      eexists. split; [intros [H|[H|[]]]; discriminate H|]. split; [reflexivity|]. split; [reflexivity|]. cbn [s_at]. apply move_same.
  - pose proof (proj1 (Ib t) P) as F. destruct (Ie) as (_ & E2 & _); [rewrite F; discriminate|]. exists [Make t true; Return t]. cbn [run step]. rewrite P.
    cbn [run step s_at s_flag s_inst s_made s_got]. rewrite move_same, E2. eexists. split; [intros [H|[H|[]]]; discriminate H|]. split; [reflexivity|]. split; [reflexivity|].
    cbn [s_at]. apply move_same.
  - pose proof (Ip t P) as F. destruct (If F) as (E1 & _). exists [Return t]. cbn [run step]. rewrite P, E1. eexists. split; [intros [H|[]]; discriminate H|].
    split; [reflexivity|]. split; [reflexivity|]. cbn [s_at]. apply move_same.
Qed.
(** After the end of the program the next reference is null. *)
Theorem after_exit l s t : ~ In Exit l -> run l start = Next s -> s_flag s = Ready -> s_at s t = Out ->
  run [Exit; Call t; Enter t; Return t] s = UB.
Proof.
  intros _ _ F A. cbn [run step s_at s_flag s_inst s_made s_got]. rewrite A. cbn [run step s_at s_flag s_inst s_made s_got]. rewrite move_same, F.
  cbn [s_at s_inst]. rewrite move_same. reflexivity.
Qed.
