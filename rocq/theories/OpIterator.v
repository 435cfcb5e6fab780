(** src/operator.hpp 10-52 (op_iterator), src/overlap.hpp 28-33 and 43-47, src/ultrasoft_precond.hpp 26-42.

    keys[pos] of std::vector outside the vector is undefined behaviour.  obj.at(key) makes an applicator for the key
    and cannot fail.  The iterator holds its own copy of the key list. *)
From Coq Require Import Arith Lia List.
From Verif Require Import MVector.
Import ListNotations.

Inductive ires (A : Type) := IOk (a : A) | IUB.
Arguments IOk {A}. Arguments IUB {A}.

Section Iter.
  Context {App : Type} (at_ : key -> App).      (* obj.at *)

  (** keys, pair, pos; operator.hpp 47-50 (obj is [at_]).  [None]: the null pointer. *)
  Record iter := MkIter { ikeys : list key; ipair : option (key * App); ipos : nat }.

  (** keys[i] *)
  Definition kat (ks : list key) (i : nat) : ires key := match nth_error ks i with Some k => IOk k | None => IUB end.

  (** op_iterator(keys, obj, end), operator.hpp 18-28 *)
  Definition mk (ks : list key) (end_ : bool) : ires iter :=
    if end_ then IOk (MkIter ks None (length ks))
    else match kat ks 0 with IOk k => IOk (MkIter ks (Some (k, at_ k)) 0) | IUB => IUB end.
  (** operator++, 30-35 *)
  Definition next (it : iter) : ires iter :=
    let pos := S (ipos it) in
    match kat (ikeys it) pos with IOk k => IOk (MkIter (ikeys it) (Some (k, at_ k)) pos) | IUB => IUB end.
  (** operator*, 37-42 *)
  Definition deref (it : iter) : ires (key * App) := match ipair it with Some p => IOk p | None => IUB end.
  (** operator!=, 44 *)
  Definition neq (a b : iter) : bool := negb (Nat.eqb (ipos a) (ipos b)).

  (** for (auto& p : obj) visit(p), left after at most [limit] elements.  Some l: the elements visited. *)
  Fixpoint loop (limit : nat) (it end_ : iter) (seen : list (key * App)) : ires (list (key * App) * bool) :=
    match limit with
    | O => IOk (seen, false)                                    (* left early by the body: break, return *)
    | S n =>
      if neq it end_ then
        match deref it with
        | IOk p =>
          match n with
          | O => IOk (seen ++ [p], false)                       (* left in the body of the last allowed element *)
          | S _ => match next it with IOk it' => loop n it' end_ (seen ++ [p]) | IUB => IUB end
          end
        | IUB => IUB
        end
      else IOk (seen, true)
    end.
  Definition for_each (ks : list key) (limit : nat) : ires (list (key * App) * bool) :=
    match mk ks false with
    | IUB => IUB
    | IOk b => match mk ks true with IOk e => loop limit b e [] | IUB => IUB end
    end.

  (** Overlap::at, overlap.hpp 43-47: no look-up, no check *)
  Definition at_key (k : key) : ires App := IOk (at_ k).

  Lemma loop_spec ks : forall limit pos seen k, nth_error ks pos = Some k ->
    loop limit (MkIter ks (Some (k, at_ k)) pos) (MkIter ks None (length ks)) seen =
      if Nat.leb limit (length ks - pos) then IOk (seen ++ map (fun k => (k, at_ k)) (firstn limit (skipn pos ks)), false) else IUB.
  Proof.
    induction limit as [|n IH]; intros pos seen k Hk; cbn [loop]; [cbn; rewrite app_nil_r; reflexivity|].
    assert (L : pos < length ks) by (apply nth_error_Some; rewrite Hk; discriminate).
    assert (S : skipn pos ks = k :: skipn (S pos) ks).
    { clear -Hk. revert pos Hk. induction ks as [|a ks IH]; intros [|pos] H; cbn in *; try discriminate; [congruence|]. apply IH. exact H. }
    unfold neq. cbn [ipos]. destruct (Nat.eqb_spec pos (length ks)) as [e|_]; [lia|]. cbn [negb]. unfold deref. cbn [ipair].
    destruct n as [|n].
    - destruct (Nat.leb_spec 1 (length ks - pos)); [|lia]. rewrite S. reflexivity.
    - unfold next. cbn [ipos ikeys]. unfold kat. destruct (nth_error ks (Datatypes.S pos)) as [k'|] eqn:ek.
      + rewrite (IH (Datatypes.S pos) (seen ++ [(k, at_ k)]) k' ek). rewrite S. cbn [firstn map]. rewrite <- app_assoc. cbn [app].
        assert (L' : Datatypes.S pos < length ks) by (apply nth_error_Some; rewrite ek; discriminate).
        destruct (Nat.leb_spec (Datatypes.S n) (length ks - Datatypes.S pos)), (Nat.leb_spec (Datatypes.S (Datatypes.S n)) (length ks - pos)); try lia; reflexivity.
      + apply nth_error_None in ek. destruct (Nat.leb_spec (Datatypes.S (Datatypes.S n)) (length ks - pos)); [lia|reflexivity].
  Qed.
  Lemma for_each_spec ks limit : ks <> [] ->
    for_each ks limit = if Nat.leb limit (length ks) then IOk (map (fun k => (k, at_ k)) (firstn limit ks), false) else IUB.
  Proof.
    intros N. destruct ks as [|k r]; [contradiction|]. unfold for_each. cbn [mk kat nth_error]. rewrite (loop_spec (k :: r) limit 0 [] k eq_refl).
    rewrite Nat.sub_0_r. reflexivity.
  Qed.
  (** A loop that is not left early is undefined for every key list. *)
  Lemma complete_ub ks limit : length ks < limit -> for_each ks limit = IUB.
  Proof.
    intros L. destruct ks as [|k r] eqn:ek; [reflexivity|]. rewrite for_each_spec by discriminate.
    destruct (Nat.leb_spec limit (length (k :: r))); [lia|reflexivity].
  Qed.
  Lemma never_complete ks limit seen : for_each ks limit <> IOk (seen, true).
  Proof.
    destruct ks as [|k r]; [discriminate|]. rewrite for_each_spec by discriminate. destruct (Nat.leb limit (length (k :: r))); [|discriminate].
    intros H. injection H as _ H. 
    congruence.
  Qed.
  Lemma at_key_ok k : at_key k = IOk (at_ k).
  Proof. reflexivity. Qed.
End Iter.
