(** src/utils/format.hpp 8-15: format(format_string, args...).

    The buffer has format_string.size() bytes; sprintf writes the output and a terminating NUL into it.
    sprintf is modelled for the conversions %d, %s and %%; any other conversion, a missing or a wrongly typed argument
    is undefined behaviour in the model (C leaves the latter two undefined; other conversions are not modelled). *)
From Coq Require Import String Ascii DecimalString ZArith Arith Lia List Bool.
Import ListNotations.

Inductive arg := AInt (z : Z) | AStr (s : list ascii).

Definition NUL : ascii := Ascii.zero.
(** c_str() as seen by a C function: up to the first NUL *)
Fixpoint cstr (s : list ascii) : list ascii :=
  match s with [] => [] | c :: r => if Ascii.eqb c NUL then [] else c :: cstr r end.

Definition decimal (z : Z) : list ascii := list_ascii_of_string (NilZero.string_of_int (Z.to_int z)).

(** The characters sprintf writes, without the terminating NUL. *)
Fixpoint sprintf (f : list ascii) (args : list arg) : option (list ascii) :=
  match f with
  | [] => Some []
  | c :: r =>
    if Ascii.eqb c "%" then
      match r with
      | d :: r' =>
        if Ascii.eqb d "%" then option_map (cons "%"%char) (sprintf r' args)
        else if Ascii.eqb d "d" then
          match args with AInt z :: a => option_map (app (decimal z)) (sprintf r' a) | _ => None end
        else if Ascii.eqb d "s" then
          match args with AStr s :: a => option_map (app (cstr s)) (sprintf r' a) | _ => None end
        else None
      | [] => None
      end
    else option_map (cons c) (sprintf r args)
  end.

Inductive fres := FOk (out : list ascii) | FUB.

(** format, format.hpp 10-14: char buf[size]; sprintf; std::string(buf) *)
Definition format (f : list ascii) (args : list arg) : fres :=
  match sprintf (cstr f) args with
  | None => FUB
  | Some out => if Nat.leb (length out + 1) (length f) then FOk (cstr out) else FUB
  end.

(** ** Facts *)
Definition no_nul (s : list ascii) : Prop := ~ In NUL s.
Lemma cstr_no_nul s : no_nul (cstr s).
Proof.
  unfold no_nul. induction s as [|c r IH]; cbn; [tauto|]. destruct (Ascii.eqb_spec c NUL) as [e|n]; cbn; [tauto|].
  intros [H|H]; [exact (n H)|exact (IH H)].
Qed.
Lemma cstr_id s : no_nul s -> cstr s = s.
Proof.
  unfold no_nul. induction s as [|c r IH]; cbn; intros H; [reflexivity|].
  destruct (Ascii.eqb_spec c NUL) as [e|n]; [exfalso; apply H; left; exact e|]. f_equal. apply IH. tauto.
Qed.
Lemma no_nul_app a b : no_nul a -> no_nul b -> no_nul (a ++ b).
Proof. unfold no_nul. rewrite in_app_iff. tauto. Qed.
Lemma uint_no_nul d : no_nul (list_ascii_of_string (NilEmpty.string_of_uint d)).
Proof. unfold no_nul. induction d; cbn; [tauto|..]; (intros [H|H]; [discriminate H|exact (IHd H)]). Qed.
Lemma decimal_no_nul z : no_nul (decimal z).
Proof.
  unfold decimal, NilZero.string_of_int, NilZero.string_of_uint.
  destruct (Z.to_int z) as [d|d]; destruct d; cbn;
    try (intros [H|H]; [discriminate H|]); try (intros [H|H]; [discriminate H|]);
    try (exact (uint_no_nul d H)); try tauto.
  all: try (destruct H as [H|H]; [discriminate H|]); try exact (uint_no_nul d H); try tauto.
Qed.

Lemma sprintf_no_nul n : forall f args out, length f <= n -> no_nul f -> sprintf f args = Some out -> no_nul out.
Proof.
  induction n as [|n IH]; intros f args out L N E.
  - destruct f; [|cbn in L; lia]. cbn in E. injection E as <-. intros [].
  - destruct f as [|c r]; [cbn in E; injection E as <-; intros []|]. cbn [sprintf] in E. cbn [length] in L.
    assert (Nr : no_nul r) by (intros H; apply N; right; exact H).
    destruct (Ascii.eqb_spec c "%") as [ec|nc].
    + destruct r as [|d r']; [discriminate|]. cbn [length] in L. assert (Nr' : no_nul r') by (intros H; apply Nr; right; exact H).
      destruct (Ascii.eqb d "%").
      * destruct (sprintf r' args) as [o|] eqn:eo; [|discriminate]. cbn in E. injection E as <-.
        intros [H|H]; [discriminate H|]. exact (IH r' args o ltac:(lia) Nr' eo H).
      * destruct (Ascii.eqb d "d").
        -- destruct args as [|[z|s] a]; try discriminate. destruct (sprintf r' a) as [o|] eqn:eo; [|discriminate]. cbn in E. injection E as <-.
           apply no_nul_app; [apply decimal_no_nul|exact (IH r' a o ltac:(lia) Nr' eo)].
        -- destruct (Ascii.eqb d "s"); [|discriminate].
           destruct args as [|[z|s] a]; try discriminate. destruct (sprintf r' a) as [o|] eqn:eo; [|discriminate]. cbn in E. injection E as <-.
           apply no_nul_app; [apply cstr_no_nul|exact (IH r' a o ltac:(lia) Nr' eo)].
    + destruct (sprintf r args) as [o|] eqn:eo; [|discriminate]. cbn in E. injection E as <-.
      intros [H|H]; [apply N; left; exact H|]. exact (IH r args o ltac:(lia) Nr eo H).
Qed.

Lemma format_iff f args out : sprintf (cstr f) args = Some out ->
  (length out < length f -> format f args = FOk out) /\ (length f <= length out -> format f args = FUB).
Proof.
  intros E. unfold format. rewrite E.
  assert (N : no_nul out) by (apply (sprintf_no_nul (length (cstr f)) (cstr f) args out); [lia|apply cstr_no_nul|exact E]).
  destruct (Nat.leb_spec (length out + 1) (length f)); split; intros H'; try lia; [rewrite cstr_id by exact N; reflexivity|reflexivity].
Qed.

(** Without a conversion the output is the format string itself. *)
Lemma sprintf_plain f args : ~ In "%"%char f -> sprintf f args = Some f.
Proof.
  induction f as [|c r IH]; intros H; cbn [sprintf]; [reflexivity|].
  destruct (Ascii.eqb_spec c "%") as [e|n]; [exfalso; apply H; left; exact e|].
  rewrite IH by (intros K; apply H; right; exact K). reflexivity.
Qed.
Lemma format_plain f args : no_nul f -> ~ In "%"%char f -> format f args = FUB.
Proof.
  intros N P. apply (proj2 (format_iff f args f ltac:(rewrite cstr_id by exact N; apply sprintf_plain; exact P))). lia.
Qed.

(** Texts around one conversion: the call is defined iff the converted argument has a single character (or none). *)
Lemma sprintf_app_plain p f args : ~ In "%"%char p -> sprintf (p ++ f) args = option_map (app p) (sprintf f args).
Proof.
  induction p as [|c r IH]; intros H; cbn [app sprintf]; [destruct (sprintf f args); reflexivity|].
  destruct (Ascii.eqb_spec c "%") as [e|n]; [exfalso; apply H; left; exact e|].
  rewrite IH by (intros K; apply H; right; exact K). destruct (sprintf f args); reflexivity.
Qed.
Lemma format_string_arg p q s : no_nul p -> no_nul q -> no_nul s -> ~ In "%"%char p -> ~ In "%"%char q ->
  format (p ++ "%"%char :: "s"%char :: q) [AStr s] = if Nat.ltb (length s) 2 then FOk (p ++ s ++ q) else FUB.
Proof.
  intros Np Nq Ns Pp Pq.
  assert (Nf : no_nul (p ++ "%"%char :: "s"%char :: q)).
  { apply no_nul_app; [exact Np|]. intros [H|[H|H]]; [discriminate H|discriminate H|exact (Nq H)]. }
  assert (E : sprintf (cstr (p ++ "%"%char :: "s"%char :: q)) [AStr s] = Some (p ++ s ++ q)).
  { rewrite cstr_id by exact Nf. rewrite sprintf_app_plain by exact Pp. cbn [sprintf Ascii.eqb Bool.eqb]. rewrite sprintf_plain by exact Pq.
    rewrite cstr_id by exact Ns. reflexivity. }
  destruct (format_iff _ _ _ E) as [A B]. rewrite !app_length in *. cbn [length] in *.
  destruct (Nat.ltb_spec (length s) 2); [apply A; lia|apply B; lia].
Qed.
Lemma format_int_arg p q z : no_nul p -> no_nul q -> ~ In "%"%char p -> ~ In "%"%char q ->
  format (p ++ "%"%char :: "d"%char :: q) [AInt z] = if Nat.ltb (length (decimal z)) 2 then FOk (p ++ decimal z ++ q) else FUB.
Proof.
  intros Np Nq Pp Pq.
  assert (Nf : no_nul (p ++ "%"%char :: "d"%char :: q)).
  { apply no_nul_app; [exact Np|]. intros [H|[H|H]]; [discriminate H|discriminate H|exact (Nq H)]. }
  assert (E : sprintf (cstr (p ++ "%"%char :: "d"%char :: q)) [AInt z] = Some (p ++ decimal z ++ q)).
  { rewrite cstr_id by exact Nf. rewrite sprintf_app_plain by exact Pp. cbn [sprintf Ascii.eqb Bool.eqb]. rewrite sprintf_plain by exact Pq. reflexivity. }
  destruct (format_iff _ _ _ E) as [A B]. rewrite !app_length in *. cbn [length] in *.
  destruct (Nat.ltb_spec (length (decimal z)) 2); [apply A; lia|apply B; lia].
Qed.
