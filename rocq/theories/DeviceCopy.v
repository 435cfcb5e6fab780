(** The copying make_mmatrix (src/la/mvector.hpp 342-377) with the errors cudaMemcpy can report (src/gpu/acc.cpp 10-33). *)
From Coq Require Import Arith Lia List Bool.
From Verif Require Import MVector LapackMem LapackMemProofs Exchange.
Import ListNotations.

Section Copy.
  Context (E : elt).
  Notation V := (ev E).
  (** the comparisons of buffer.memtype, mvector.hpp 357-369 *)
  Definition same_mem (a b : memtype) : bool := match a, b with MNone, MNone | MHost, MHost | MDevice, MDevice => true | _, _ => false end.
  (** acc::copy, acc.cpp 26-33: CALL_DEVICE_API (10-21) prints a message on error and goes on.  [fresh]: what the new matrix holds
      after a copy that failed (zeros if it wrote nothing, mvector.hpp 371 and dvector.hpp 147-151; the theorems hold for anything). *)
  Definition acc_copy (ok : bool) (fresh : nat -> V) (c : cbuf E) : kres (view E) :=
    match copy_matrix E c with
    | KOk M => KOk (if ok then M else with_buf M (MkBuf (bsz (vbuf M)) fresh))
    | r => r
    end.
  (** the loop, mvector.hpp 353-375: [want] is the kind of memory T stands for, [st] whether each copy succeeds; the result has the entries in
      order (the assignments mvector[kindex] = mat) and the number of messages printed *)
  Fixpoint copies (want : memtype) (fresh : nat -> V) (st : list bool) (m : caller E) : kres (list (key * view E) * nat) :=
    match m, st with
    | (k, c) :: r, ok :: st' =>
      if same_mem (cmem E c) want then
        match acc_copy ok fresh c with
        | KOk M => match copies want fresh st' r with KOk (l, n) => KOk ((k, M) :: l, if ok then n else S n) | KThrow => KThrow | KBadArg => KBadArg | KUB => KUB end
        | KThrow => KThrow | KBadArg => KBadArg | KUB => KUB
        end
      else KThrow
    | _, _ => KOk ([], 0)
    end.

  (** the mvector returned, mvector.hpp 351, 374 *)
  Definition copied_mmatrix (want : memtype) (fresh : nat -> V) (st : list bool) (m : caller E) : kres (smap (view E) * nat) :=
    kbind (copies want fresh st m) (fun r => KOk (map_of_assignments (fst r), snd r)).

  (** ** Specification *)
  Definition holds_elements (c : cbuf E) (M : view E) (f : nat -> nat -> V) : Prop :=
    vrows M = csz0 E c /\ vcols M = csz1 E c /\ forall i j, i < csz0 E c -> j < csz1 E c -> vat M i j = f i j.
  (** the elements of the calling program if the copy succeeded, otherwise what was in memory before *)
  Definition copied (fresh : nat -> V) (x : (key * cbuf E) * bool) (y : key * view E) : Prop :=
    fst y = fst (fst x) /\
    holds_elements (snd (fst x)) (snd y) (fun i j => if snd x then vat (cview E (snd (fst x))) i j else fresh (i + j * csz0 E (snd (fst x)))).

  (** ** Proofs *)
  Lemma same_mem_refl a : same_mem a a = true. Proof. destruct a; reflexivity. Qed.
  Theorem copies_return want fresh : forall m st, length st = length m ->
    (forall k c, In (k, c) m -> cmem E c = want /\ packed E c /\ allocated (cview E c)) ->
    exists l, copies want fresh st m = KOk (l, length (filter negb st)) /\ Forall2 (copied fresh) (combine m st) l.
  Proof.
    induction m as [|[k c] m IH]; intros [|ok st] L H; try discriminate L; [exists []; split; [reflexivity|constructor]|].
    destruct (H k c (or_introl eq_refl)) as (W & P & A). cbn [copies]. rewrite W, same_mem_refl. unfold acc_copy.
    assert (Q : exists M, copy_matrix E c = KOk M /\ vrows M = csz0 E c /\ vcols M = csz1 E c /\ vs0 M = 1 /\ vs1 M = csz0 E c /\
      forall i j, i < csz0 E c -> j < csz1 E c -> vat M i j = vat (cview E c) i j).
    { destruct (copy_matrix_packed E c P A) as (M & e1 & e2 & e3 & e4). exists M. split; [exact e1|]. split; [exact e2|]. split; [exact e3|].
      unfold copy_matrix in e1. destruct (Nat.leb _ _); [|discriminate e1]. injection e1 as <-. cbn [vs0 vs1]. do 2 (split; [reflexivity|]). exact e4. }
    destruct Q as (M & -> & R1 & R2 & R3 & R4 & R5). destruct (IH st) as (l & E1 & F); [cbn in L; lia|intros k' c' Hin; apply (H k' c'); right; exact Hin|].
    rewrite E1. destruct ok; cbn [filter negb length combine]; (eexists; split; [reflexivity|]); (apply Forall2_cons; [|exact F]); split; try reflexivity; cbn [fst snd].
    - repeat split; assumption.
    - unfold holds_elements, with_buf. cbn [vrows vcols]. do 2 (split; [assumption|]). intros i j Hi Hj. unfold vat, addr. cbn [vbuf vs0 vs1 bget]. rewrite R3, R4. f_equal. lia.
  Qed.
  Lemma keys_copied fresh x l : Forall2 (copied fresh) x l -> map fst l = map (fun y => fst (fst y)) x.
  Proof. intros F. induction F as [|u v a b C F IH]; [reflexivity|]. cbn [map]. rewrite IH. destruct C as (C & _). rewrite C. reflexivity. Qed.
  Theorem copied_by_key want fresh m st : length st = length m ->
    (forall k c, In (k, c) m -> cmem E c = want /\ packed E c /\ allocated (cview E c)) ->
    exists g, copied_mmatrix want fresh st m = KOk (g, length (filter negb st)) /\
      (forall k M, In (k, M) g -> exists c, In (k, c) m) /\
      forall a k c ok b, combine m st = a ++ ((k, c), ok) :: b -> (forall c' ok', ~ In ((k, c'), ok') b) ->
        exists M, mfind k g = Some M /\ copied fresh ((k, c), ok) (k, M).
  Proof.
    intros L H. destruct (copies_return want fresh m st L H) as (l & e & F). unfold copied_mmatrix. rewrite e. cbn [kbind fst snd].
    exists (map_of_assignments l). split; [reflexivity|]. split.
    - intros k M Hin. apply mfind_In in Hin; [|apply wfm_of_assignments]. rewrite mfind_of_assignments in Hin.
      assert (Q : In k (keys (rev l))) by (apply mfind_in; exists M; exact Hin). unfold keys in Q. rewrite map_rev, <- in_rev, (keys_copied _ _ _ F) in Q.
      apply in_map_iff in Q. destruct Q as (((k' & c) & ok) & q & Q). cbn in q. subst k'. exists c. apply in_combine_l in Q. exact Q.
    - intros a k c ok b Hc Hb. rewrite Hc in F. apply Forall2_app_inv_l in F. destruct F as (la & l2 & _ & F & ->).
      inversion F as [|x y b' lb C Fb q1 q2]. subst x b' l2. destruct y as (k' & M). pose proof C as (q & _). cbn in q. subst k'.
      exists M. split; [|exact C]. rewrite mfind_of_assignments, rev_app_distr. cbn [rev]. rewrite <- app_assoc, mfind_app.
      assert (N : mfind k (rev lb) = None).
      { apply mfind_none. unfold keys. rewrite map_rev, <- in_rev, (keys_copied _ _ _ Fb). intros Q. apply in_map_iff in Q.
        destruct Q as (((k' & c') & ok') & q & Q). cbn in q. subst k'. exact (Hb c' ok' Q). }
      rewrite N. cbn [app mfind]. rewrite keqb_refl. reflexivity.
  Qed.
  Lemma same_mem_eq a b : same_mem a b = true -> a = b. Proof. destruct a, b; cbn; congruence. Qed.
  Theorem copies_refuse want fresh : forall m st, length st = length m ->
    (forall k c, In (k, c) m -> packed E c /\ allocated (cview E c)) ->
    forall k c, In (k, c) m -> cmem E c <> want -> copies want fresh st m = KThrow.
  Proof.
    induction m as [|[k0 c0] m IH]; intros [|ok st] L H k c Hin N; try discriminate L; [destruct Hin|].
    cbn [copies]. destruct (same_mem (cmem E c0) want) eqn:e; [|reflexivity].
    destruct Hin as [q|Hin]; [apply pair_equal_spec in q; destruct q as [_ <-]; apply same_mem_eq in e; contradiction|].
    destruct (H k0 c0 (or_introl eq_refl)) as (P & A). unfold acc_copy. destruct (copy_matrix_packed E c0 P A) as (M & -> & _).
    rewrite (IH st) with (k := k) (c := c); [reflexivity|cbn in L; lia|intros k' c' Hi; apply (H k' c'); right; exact Hi|exact Hin|exact N].
  Qed.
End Copy.
