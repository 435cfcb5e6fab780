(** The matrix kernels stay inside their allocations and compute the documented expressions. *)
From Coq Require Import ZArith Arith Lia List Bool Permutation.
From Verif Require Import LapackMem.
Import ListNotations.

Lemma nodup_app {A} (l1 l2 : list A) : NoDup l1 -> NoDup l2 -> (forall x, In x l1 -> ~ In x l2) -> NoDup (l1 ++ l2).
Proof.
  intros H1 H2 D. induction H1 as [|x l Hx Hl IH]; cbn; [exact H2|]. constructor.
  - rewrite in_app_iff. intros [H|H]; [exact (Hx H)|]. exact (D x (or_introl eq_refl) H).
  - apply IH. intros y Hy. apply D. right. exact Hy.
Qed.

Section Spec.
  Context {E : elt}.
  Notation V := (ev E).

  (** Specification vocabulary *)
  (** the storage of a column-major matrix *)
  Definition col_major (X : view E) : Prop := vs0 X = 1 /\ 1 <= vs1 X /\ vrows X <= vs1 X.
  (** every element of the matrix is inside the allocation *)
  Definition allocated (X : view E) : Prop :=
    forall i j, i < vrows X -> j < vcols X -> i * vs0 X + j * vs1 X < bsz (vbuf X).
  (** [X'] is [X] with the elements of its leading m x n block replaced by [f], nothing else changed *)
  Definition block_replaced (m n : nat) (X X' : view E) (f : nat -> nat -> V) : Prop :=
    vrows X' = vrows X /\ vcols X' = vcols X /\ vs0 X' = vs0 X /\ vs1 X' = vs1 X /\ vlocal X' = vlocal X /\
    bsz (vbuf X') = bsz (vbuf X) /\
    (forall i j, i < m -> j < n -> bget (vbuf X') (i * vs0 X + j * vs1 X) = f i j) /\
    (forall a, (forall i j, i < m -> j < n -> a <> i * vs0 X + j * vs1 X) -> bget (vbuf X') a = bget (vbuf X) a).
  (** sum_{l<k} f l in the arithmetic of the elements *)
  Fixpoint esum (k : nat) (f : nat -> V) : V := match k with O => e0 E | S l => eadd E (esum l f) (f l) end.
  (** all index computations with this view fit into int *)
  Definition int_indexed (X : view E) : Prop :=
    (Z.of_nat (vrows X) + Z.of_nat (vs1 X) * Z.of_nat (vcols X) <= 2147483647)%Z.

  Lemma esum_ext k f g : (forall l, l < k -> f l = g l) -> esum k f = esum k g.
  Proof. induction k; cbn; intros H; [reflexivity|]. rewrite IHk by (intros; apply H; lia). rewrite H by lia. reflexivity. Qed.

  (** ** Loops *)
  Lemma in_pairs m n i j : In (i, j) (pairs m n) <-> i < m /\ j < n.
  Proof. unfold pairs. rewrite in_prod_iff, !in_seq. lia. Qed.
  Lemma nodup_pairs m n : NoDup (pairs m n).
  Proof.
    unfold pairs. generalize (seq_NoDup n 0). generalize (seq 0 n) as l2. intros l2 H2.
    generalize (seq_NoDup m 0). generalize (seq 0 m) as l1. intros l1 H1.
    induction H1 as [|x l Hx Hl IH]; cbn; [constructor|]. apply nodup_app; [|exact IH|].
    - clear -H2. induction H2 as [|y l Hy Hl IH]; cbn; constructor; [|exact IH].
      rewrite in_map_iff. intros [z [Ez Hz]]. injection Ez as ->. exact (Hy Hz).
    - intros [a b] Ha Hb. apply in_map_iff in Ha. destruct Ha as [z [Ez _]]. injection Ez as <- <-.
      apply in_prod_iff in Hb. apply Hx. apply Hb.
  Qed.
  Lemma order_in m n order : Permutation order (pairs m n) -> forall i j, In (i, j) order <-> i < m /\ j < n.
  Proof.
    intros P i j. rewrite <- in_pairs. split; apply Permutation_in; [exact P|apply Permutation_sym; exact P].
  Qed.
  Lemma order_nodup m n order : Permutation order (pairs m n) -> NoDup order.
  Proof. intros P. apply (Permutation_NoDup (Permutation_sym P)). apply nodup_pairs. Qed.

  Lemma rd_in (b : buf E) a : a < bsz b -> rd b a = Some (bget b a).
  Proof. intros H. unfold rd. apply Nat.ltb_lt in H. rewrite H. reflexivity. Qed.
  Lemma rd_out (b : buf E) a : bsz b <= a -> rd b a = None.
  Proof. intros H. unfold rd. apply Nat.ltb_ge in H. rewrite H. reflexivity. Qed.
  Lemma wr_in (b : buf E) a v : a < bsz b -> wr b a v = Some (upd b a v).
  Proof. intros H. unfold wr. apply Nat.ltb_lt in H. rewrite H. reflexivity. Qed.
  Lemma wr_out (b : buf E) a v : bsz b <= a -> wr b a v = None.
  Proof. intros H. unfold wr. apply Nat.ltb_ge in H. rewrite H. reflexivity. Qed.
  Lemma upd_same (b : buf E) a v : bget (upd b a v) a = v.
  Proof. cbn. rewrite Nat.eqb_refl. reflexivity. Qed.
  Lemma upd_other (b : buf E) a x v : x <> a -> bget (upd b a v) x = bget b x.
  Proof. cbn. intros H. apply Nat.eqb_neq in H. rewrite H. reflexivity. Qed.
  Lemma modify_in (b : buf E) a f : a < bsz b -> modify b a f = KOk (upd b a (f (bget b a))).
  Proof. intros H. unfold modify. rewrite rd_in, wr_in by exact H. reflexivity. Qed.
  Lemma store_in (b : buf E) a v : a < bsz b -> store b a v = KOk (upd b a v).
  Proof. intros H. unfold store. rewrite wr_in by exact H. reflexivity. Qed.
  Lemma load_in {A} (b : buf E) a (f : V -> kres A) : a < bsz b -> load b a f = f (bget b a).
  Proof. intros H. unfold load. rewrite rd_in by exact H. reflexivity. Qed.

  (** A loop whose iteration (i,j) replaces the element at [ad i j] by a function of its old value. *)
  Lemma foreach_spec (ad : nat -> nat -> nat) (g : nat -> nat -> V -> V) body order (b : buf E) :
    (forall i j c, In (i, j) order -> bsz c = bsz b -> body i j c = KOk (upd c (ad i j) (g i j (bget c (ad i j))))) ->
    NoDup order ->
    (forall i j i' j', In (i, j) order -> In (i', j') order -> ad i j = ad i' j' -> i = i' /\ j = j') ->
    exists b', foreach order body b = KOk b' /\ bsz b' = bsz b /\
      (forall i j, In (i, j) order -> bget b' (ad i j) = g i j (bget b (ad i j))) /\
      (forall a, (forall i j, In (i, j) order -> a <> ad i j) -> bget b' a = bget b a).
  Proof.
    revert b. induction order as [|[i j] r IH]; intros b Hb Hn Hi.
    - exists b. cbn. split; [reflexivity|]. split; [reflexivity|]. split; [intros ? ? []|]. reflexivity.
    - inversion Hn as [|? ? Hx Hl]; subst. cbn [foreach]. rewrite Hb by (try left; reflexivity). cbn [kbind].
      set (b1 := upd b (ad i j) (g i j (bget b (ad i j)))).
      destruct (IH b1) as [b' [R [S [W F]]]].
      + intros i' j' c Hc Sc. apply Hb; [right; exact Hc|exact Sc].
      + exact Hl.
      + intros i1 j1 i2 j2 H1 H2. apply Hi; right; assumption.
      + exists b'. split; [exact R|]. split; [exact S|].
        assert (NE : forall i' j', In (i', j') r -> ad i' j' <> ad i j).
        { intros i' j' H' e. destruct (Hi i' j' i j (or_intror H') (or_introl eq_refl) e) as [-> ->]. exact (Hx H'). }
        split.
        * intros i' j' [H'|H'].
          -- injection H' as <- <-. rewrite F; [unfold b1; apply upd_same|].
             intros i' j' H' e. apply (NE i' j' H'). symmetry. exact e.
          -- rewrite W by exact H'. unfold b1. rewrite upd_other by (apply NE; exact H'). reflexivity.
        * intros a Ha. rewrite F; [unfold b1; apply upd_other; apply (Ha i j); left; reflexivity|].
          intros i' j' H'. apply Ha. right. exact H'.
  Qed.

  (** A loop some iteration of which is undefined. *)
  Lemma foreach_ub body order (b : buf E) :
    (forall i j c, In (i, j) order -> bsz c = bsz b -> body i j c = KUB \/ exists c', body i j c = KOk c' /\ bsz c' = bsz b) ->
    (exists i j, In (i, j) order /\ forall c, bsz c = bsz b -> body i j c = KUB) ->
    foreach order body b = KUB.
  Proof.
    revert b. induction order as [|[i j] r IH]; intros b Hb [i' [j' [Hin Hub]]]; [destruct Hin|].
    cbn [foreach]. destruct (Hb i j b (or_introl eq_refl) eq_refl) as [e|[c' [e Sc]]].
    - rewrite e. reflexivity.
    - rewrite e. cbn [kbind]. apply IH.
      + intros i1 j1 c H1 S1. rewrite Sc in S1. destruct (Hb i1 j1 c (or_intror H1) S1) as [u|[c1 [u v]]]; [left; exact u|].
        right. exists c1. split; [exact u|congruence].
      + destruct Hin as [Hin|Hin]; [injection Hin as -> ->; rewrite (Hub b eq_refl) in e; discriminate|].
        exists i', j'. split; [exact Hin|]. intros c Sx. apply Hub. congruence.
  Qed.

  (** column-major addresses are distinct *)
  Lemma cm_inj ld m i j i' j' : m <= ld -> i < m -> i' < m -> i + ld * j = i' + ld * j' -> i = i' /\ j = j'.
  Proof.
    intros Hm Hi Hi' e.
    assert (H : j = j').
    { destruct (Nat.lt_trichotomy j j') as [L|[L|L]]; [|exact L|]; exfalso.
      - assert (ld * (j + 1) <= ld * j') by (apply Nat.mul_le_mono_l; lia). lia.
      - assert (ld * (j' + 1) <= ld * j) by (apply Nat.mul_le_mono_l; lia). lia. }
    subst. split; lia.
  Qed.

  (** ** zgemm *)
  Definition op_at (t : trans) (A : buf E) (lda i l : nat) : V :=
    match t with NoTrans => bget A (i + lda * l) | ConjTrans => econj E (bget A (l + lda * i)) end.

  Lemma dot_ok ta tb (A : buf E) lda B ldb i j k :
    (forall l, l < k -> op_addr ta lda i l < bsz A) -> (forall l, l < k -> op_addr tb ldb l j < bsz B) ->
    dot ta tb A lda B ldb i j k = Some (esum k (fun l => emul E (op_at ta A lda i l) (op_at tb B ldb l j))).
  Proof.
    induction k as [|k IH]; cbn; intros HA HB; [reflexivity|].
    rewrite IH by (intros; first [apply HA|apply HB]; lia).
    rewrite (rd_in A) by (apply HA; lia). rewrite (rd_in B) by (apply HB; lia).
    destruct ta, tb; reflexivity.
  Qed.
  Lemma dot_none ta tb (A : buf E) lda B ldb i j k :
    (exists l, l < k /\ bsz A <= op_addr ta lda i l) -> dot ta tb A lda B ldb i j k = None.
  Proof.
    induction k as [|k IH]; intros [l [Hl Ho]]; [lia|]. cbn.
    destruct (Nat.eq_dec l k) as [->|N].
    - rewrite (rd_out A) by exact Ho. destruct (dot _ _ _ _ _ _ _ _ _); reflexivity.
    - rewrite IH; [reflexivity|]. exists l. split; [lia|exact Ho].
  Qed.

  (** what a call of zgemm computes *)
  Definition axpby (alpha s beta old : V) : V :=
    if eis0 E beta then emul E alpha s else eadd E (emul E alpha s) (emul E beta old).

  Lemma gemm_spec ta tb m n k alpha (A : buf E) lda B ldb beta order Cb ldc :
    Permutation order (pairs m n) ->
    1 <= lda -> match ta with NoTrans => m | ConjTrans => k end <= lda ->
    1 <= ldb -> match tb with NoTrans => k | ConjTrans => n end <= ldb ->
    1 <= ldc -> m <= ldc ->
    (forall i l, i < m -> l < k -> op_addr ta lda i l < bsz A) ->
    (forall l j, l < k -> j < n -> op_addr tb ldb l j < bsz B) ->
    (forall i j, i < m -> j < n -> i + ldc * j < bsz Cb) ->
    exists b', gemm ta tb m n k alpha A lda B ldb beta order Cb ldc = KOk b' /\ bsz b' = bsz Cb /\
      (forall i j, i < m -> j < n -> bget b' (i + ldc * j) =
         axpby alpha (esum k (fun l => emul E (op_at ta A lda i l) (op_at tb B ldb l j))) beta (bget Cb (i + ldc * j))) /\
      (forall a, (forall i j, i < m -> j < n -> a <> i + ldc * j) -> bget b' a = bget Cb a).
  Proof.
    intros P L1 L2 L3 L4 L5 L6 HA HB HC. unfold gemm.
    assert (e1 : Nat.ltb lda (Nat.max 1 match ta with NoTrans => m | ConjTrans => k end) = false) by (apply Nat.ltb_ge; lia).
    assert (e2 : Nat.ltb ldb (Nat.max 1 match tb with NoTrans => k | ConjTrans => n end) = false) by (apply Nat.ltb_ge; lia).
    assert (e3 : Nat.ltb ldc (Nat.max 1 m) = false) by (apply Nat.ltb_ge; lia).
    rewrite e1, e2, e3. cbn [orb].
    destruct (foreach_spec (fun i j => i + ldc * j)
      (fun i j old => axpby alpha (esum k (fun l => emul E (op_at ta A lda i l) (op_at tb B ldb l j))) beta old)
      (fun i j c => match dot ta tb A lda B ldb i j k with
        | None => KUB
        | Some s =>
          if eis0 E beta then store c (i + ldc * j) (emul E alpha s)
          else modify c (i + ldc * j) (fun old => eadd E (emul E alpha s) (emul E beta old))
        end) order Cb) as [b' [R [S [W F]]]].
    - intros i j c Hin Sc. apply (order_in m n order P) in Hin. destruct Hin as [Hi Hj].
      rewrite dot_ok by (intros; first [apply HA|apply HB]; assumption).
      assert (Hc : i + ldc * j < bsz c) by (rewrite Sc; apply HC; assumption).
      unfold axpby. destruct (eis0 E beta); [apply store_in; exact Hc|]. rewrite modify_in by exact Hc. reflexivity.
    - exact (order_nodup m n order P).
    - intros i j i' j' H1 H2 e. apply (order_in m n order P) in H1. apply (order_in m n order P) in H2.
      apply (cm_inj ldc m); lia.
    - exists b'. split; [exact R|]. split; [exact S|]. split.
      + intros i j Hi Hj. apply W. apply (order_in m n order P). split; assumption.
      + intros a Ha. apply F. intros i j Hin. apply (order_in m n order P) in Hin. apply Ha; apply Hin.
  Qed.

  Lemma checked3_run (A B C : view E) run :
    vlocal A = true -> vlocal B = true -> vlocal C = true -> vs0 A = 1 -> vs0 B = 1 -> vs0 C = 1 ->
    checked3 A B C run = kbind run (fun b => KOk (with_buf C b)).
  Proof. intros la lb lc a b c. unfold checked3. rewrite la, lb, lc, a, b, c. reflexivity. Qed.

  Definition local3 (A B C : view E) : Prop := vlocal A = true /\ vlocal B = true /\ vlocal C = true.

  Lemma checked3_throws (A B C : view E) run :
    ~ local3 A B C \/ vs0 A <> 1 \/ vs0 B <> 1 \/ vs0 C <> 1 -> checked3 A B C run = KThrow.
  Proof.
    unfold checked3, local3. intros H.
    destruct (vlocal A); cbn [andb]; [|reflexivity].
    destruct (vlocal B); cbn [andb]; [|reflexivity]. destruct (vlocal C); [|reflexivity].
    destruct (Nat.eqb (vs0 A) 1) eqn:e1; cbn [negb orb]; [|reflexivity].
    destruct (Nat.eqb (vs0 B) 1) eqn:e2; cbn [negb orb]; [|reflexivity].
    destruct (Nat.eqb (vs0 C) 1) eqn:e3; cbn [negb orb]; [|reflexivity].
    apply Nat.eqb_eq in e1, e2, e3. exfalso. destruct H as [H|[H|[H|H]]]; try contradiction. apply H. auto.
  Qed.

  Lemma finish3 (A B C : view E) run b' m n f :
    local3 A B C -> vs0 A = 1 -> vs0 B = 1 -> vs0 C = 1 ->
    run = KOk b' -> bsz b' = bsz (vbuf C) ->
    (forall i j, i < m -> j < n -> bget b' (i + vs1 C * j) = f i j) ->
    (forall a, (forall i j, i < m -> j < n -> a <> i + vs1 C * j) -> bget b' a = bget (vbuf C) a) ->
    exists C', checked3 A B C run = KOk C' /\ block_replaced m n C C' f.
  Proof.
    intros (lA & lB & lC) a b c R S W F. exists (with_buf C b'). rewrite checked3_run by assumption. rewrite R. cbn [kbind].
    split; [reflexivity|]. unfold block_replaced. cbn [vrows vcols vs0 vs1 vlocal vbuf with_buf].
    do 5 (split; [reflexivity|]). split; [exact S|]. split.
    - intros i j Hi Hj. rewrite c. replace (i * 1 + j * vs1 C) with (i + vs1 C * j) by lia. apply W; assumption.
    - intros x Hx. apply F. intros i j Hi Hj. specialize (Hx i j Hi Hj). rewrite c in Hx. lia.
  Qed.

  (** ** inner, transform, outer *)
  Lemma inner_ok order (C A B : view E) alpha beta :
    Permutation order (pairs (vcols A) (vcols B)) -> local3 A B C ->
    col_major A -> col_major B -> col_major C -> allocated A -> allocated B -> allocated C ->
    vrows B = vrows A -> vrows C = vcols A -> vcols C = vcols B ->
    exists C', inner order C A B alpha beta = KOk C' /\
      block_replaced (vrows C) (vcols C) C C' (fun i j =>
        axpby alpha (esum (vrows A) (fun l => emul E (econj E (vat A l i)) (vat B l j))) beta (vat C i j)).
  Proof.
    intros P L (a0 & a1 & a2) (b0 & b1 & b2) (c0 & c1 & c2) HA HB HC S1 S2 S3.
    destruct (gemm_spec ConjTrans NoTrans (vcols A) (vcols B) (vrows A) alpha (vbuf A) (vs1 A) (vbuf B) (vs1 B) beta order (vbuf C) (vs1 C))
      as [b' [R [S [W F]]]]; try assumption; try lia.
    - intros i l Hi Hl. cbn. specialize (HA l i Hl Hi). rewrite a0 in HA. lia.
    - intros l j Hl Hj. cbn. specialize (HB l j ltac:(lia) Hj). rewrite b0 in HB. lia.
    - intros i j Hi Hj. specialize (HC i j ltac:(lia) ltac:(lia)). rewrite c0 in HC. lia.
    - rewrite S2, S3. unfold inner. eapply finish3; [exact L|exact a0|exact b0|exact c0|exact R|exact S| |exact F].
      intros i j Hi Hj. rewrite W by assumption. unfold vat, addr. rewrite a0, b0, c0. cbn [op_at].
      replace (i * 1 + j * vs1 C) with (i + vs1 C * j) by lia. f_equal.
      apply esum_ext. intros l Hl. do 2 f_equal; f_equal; lia.
  Qed.

  Lemma transform_ok order (C A B : view E) alpha beta :
    Permutation order (pairs (vrows A) (vcols B)) -> local3 A B C ->
    col_major A -> col_major B -> col_major C -> allocated A -> allocated B -> allocated C ->
    vrows B = vcols A -> vrows C = vrows A -> vcols B <= vcols C ->
    exists C', transform order C beta alpha A B = KOk C' /\
      block_replaced (vrows C) (vcols B) C C' (fun i j =>
        axpby alpha (esum (vcols A) (fun l => emul E (vat A i l) (vat B l j))) beta (vat C i j)).
  Proof.
    intros P L (a0 & a1 & a2) (b0 & b1 & b2) (c0 & c1 & c2) HA HB HC S1 S2 S3.
    destruct (gemm_spec NoTrans NoTrans (vrows A) (vcols B) (vcols A) alpha (vbuf A) (vs1 A) (vbuf B) (vs1 B) beta order (vbuf C) (vs1 C))
      as [b' [R [S [W F]]]]; try assumption; try lia.
    - intros i l Hi Hl. cbn. specialize (HA i l Hi Hl). rewrite a0 in HA. lia.
    - intros l j Hl Hj. cbn. specialize (HB l j ltac:(lia) Hj). rewrite b0 in HB. lia.
    - intros i j Hi Hj. specialize (HC i j ltac:(lia) ltac:(lia)). rewrite c0 in HC. lia.
    - rewrite S2. unfold transform. eapply finish3; [exact L|exact a0|exact b0|exact c0|exact R|exact S| |exact F].
      intros i j Hi Hj. rewrite W by assumption. unfold vat, addr. rewrite a0, b0, c0. cbn [op_at].
      replace (i * 1 + j * vs1 C) with (i + vs1 C * j) by lia. f_equal.
      apply esum_ext. intros l Hl. f_equal; f_equal; lia.
  Qed.

  Lemma outer_square order (C A B : view E) alpha beta :
    Permutation order (pairs (vcols A) (vcols B)) -> local3 A B C ->
    col_major A -> col_major B -> col_major C -> allocated A -> allocated B -> allocated C ->
    vrows A = vcols A -> vrows B = vcols A -> vcols B = vcols A -> vrows C = vcols A -> vcols C = vcols A ->
    exists C', outer order C A B alpha beta = KOk C' /\
      block_replaced (vrows C) (vcols C) C C' (fun i j =>
        axpby alpha (esum (vcols A) (fun l => emul E (vat A i l) (econj E (vat B j l)))) beta (vat C i j)).
  Proof.
    intros P L (a0 & a1 & a2) (b0 & b1 & b2) (c0 & c1 & c2) HA HB HC S1 S2 S3 S4 S5.
    destruct (gemm_spec NoTrans ConjTrans (vcols A) (vcols B) (vrows A) alpha (vbuf A) (vs1 A) (vbuf B) (vs1 B) beta order (vbuf C) (vs1 C))
      as [b' [R [S [W F]]]]; try assumption; try lia.
    - intros i l Hi Hl. cbn. specialize (HA i l ltac:(lia) ltac:(lia)). rewrite a0 in HA. lia.
    - intros l j Hl Hj. cbn. specialize (HB j l ltac:(lia) ltac:(lia)). rewrite b0 in HB. lia.
    - intros i j Hi Hj. specialize (HC i j ltac:(lia) ltac:(lia)). rewrite c0 in HC. lia.
    - unfold outer. rewrite S4, S5. eapply finish3; [exact L|exact a0|exact b0|exact c0|exact R|exact S| |].
      + intros i j Hi Hj. rewrite W by lia. unfold vat, addr. rewrite a0, b0, c0, S1. cbn [op_at].
        replace (i * 1 + j * vs1 C) with (i + vs1 C * j) by lia. f_equal.
        apply esum_ext. intros l Hl. f_equal; [f_equal; lia|]. do 2 f_equal; lia.
      + intros x Hx. apply F. intros i j Hi Hj. apply Hx; lia.
  Qed.

  (** the allocation of A ends before column number [vcols A] *)
  Definition tight (X : view E) : Prop := bsz (vbuf X) <= vs1 X * vcols X.

  Lemma outer_tall order (C A B : view E) alpha beta :
    Permutation order (pairs (vcols A) (vcols B)) -> local3 A B C ->
    col_major A -> col_major B -> col_major C -> tight A ->
    vcols A < vrows A -> 1 <= vcols A -> 1 <= vcols B -> vcols B <= vs1 B -> vcols A <= vs1 C ->
    outer order C A B alpha beta = KUB.
  Proof.
    intros P (lA & lB & lC) (a0 & a1 & a2) (b0 & b1 & b2) (c0 & c1 & c2) T1 N1 N2 N3 N4 N5.
    unfold outer. rewrite checked3_run by assumption. unfold gemm.
    assert (e1 : Nat.ltb (vs1 A) (Nat.max 1 (vcols A)) = false) by (apply Nat.ltb_ge; lia).
    assert (e2 : Nat.ltb (vs1 B) (Nat.max 1 (vcols B)) = false) by (apply Nat.ltb_ge; lia).
    assert (e3 : Nat.ltb (vs1 C) (Nat.max 1 (vcols A)) = false) by (apply Nat.ltb_ge; lia).
    rewrite e1, e2, e3. cbn [orb].
    assert (D : forall i j, dot NoTrans ConjTrans (vbuf A) (vs1 A) (vbuf B) (vs1 B) i j (vrows A) = None).
    { intros i j. apply dot_none. exists (vcols A). split; [exact N1|]. cbn. unfold tight in T1. lia. }
    rewrite foreach_ub; [reflexivity| |].
    - intros i j c _ _. left. rewrite D. reflexivity.
    - exists 0, 0. split; [apply (order_in _ _ _ P); lia|]. intros c _. rewrite D. reflexivity.
  Qed.

  Lemma outer_wide order (C A B : view E) alpha beta :
    local3 A B C -> col_major A -> col_major B -> col_major C ->
    vs1 A < vcols A \/ vs1 C < vcols A -> outer order C A B alpha beta = KBadArg.
  Proof.
    intros (lA & lB & lC) (a0 & _) (b0 & _) (c0 & _) H. unfold outer. rewrite checked3_run by assumption. unfold gemm.
    destruct (Nat.ltb (vs1 A) (Nat.max 1 (vcols A))) eqn:e1; [reflexivity|].
    destruct (Nat.ltb (vs1 B) (Nat.max 1 (vcols B))) eqn:e2; [reflexivity|]. cbn [orb].
    destruct (Nat.ltb (vs1 C) (Nat.max 1 (vcols A))) eqn:e3; [reflexivity|].
    apply Nat.ltb_ge in e1, e3. lia.
  Qed.

  (** ** add *)
  Lemma int_index_in i ld j : (Z.of_nat i + Z.of_nat ld * Z.of_nat j <= 2147483647)%Z -> int_index i ld j = Some (i + ld * j).
  Proof.
    intros H. unfold int_index, INT_MAX.
    assert (H1 : Z.leb (Z.of_nat ld * Z.of_nat j) 2147483647 = true) by (apply Z.leb_le; lia).
    assert (H2 : Z.leb (Z.of_nat i + Z.of_nat ld * Z.of_nat j) 2147483647 = true) by (apply Z.leb_le; lia).
    rewrite H1, H2. reflexivity.
  Qed.
  Lemma int_index_out i ld j : (2147483647 < Z.of_nat i + Z.of_nat ld * Z.of_nat j)%Z -> int_index i ld j = None.
  Proof.
    intros H. unfold int_index, INT_MAX.
    assert (H2 : Z.leb (Z.of_nat i + Z.of_nat ld * Z.of_nat j) 2147483647 = false) by (apply Z.leb_gt; lia).
    rewrite H2, andb_false_r. reflexivity.
  Qed.
  Lemma int_bound (X : view E) i j : int_indexed X -> i < vrows X -> j < vcols X ->
    (Z.of_nat i + Z.of_nat (vs1 X) * Z.of_nat j <= 2147483647)%Z.
  Proof.
    unfold int_indexed. intros H Hi Hj.
    assert (Z.of_nat (vs1 X) * Z.of_nat j <= Z.of_nat (vs1 X) * Z.of_nat (vcols X))%Z by (apply Z.mul_le_mono_nonneg_l; lia).
    lia.
  Qed.

  Lemma add_ok order (C A : view E) alpha beta :
    Permutation order (pairs (vrows A) (vcols C)) -> vlocal A = true -> vlocal C = true ->
    col_major A -> col_major C -> allocated A -> allocated C -> int_indexed A -> int_indexed C ->
    vrows C = vrows A -> vcols C = vcols A ->
    exists C', add order C A alpha beta = KOk C' /\
      block_replaced (vrows C) (vcols C) C C' (fun i j => eadd E (emul E alpha (vat A i j)) (emul E beta (vat C i j))).
  Proof.
    intros P lA lC (a0 & a1 & a2) (c0 & c1 & c2) HA HC IA IC S1 S2. unfold add. rewrite lA, lC, a0, c0. cbn [andb Nat.eqb negb orb].
    unfold geam.
    destruct (foreach_spec (fun i j => i + vs1 C * j)
      (fun i j old => eadd E (emul E alpha (vat A i j)) (emul E beta old))
      (fun i j c => match int_index i (vs1 A) j, int_index i (vs1 C) j with
        | Some pa, Some pc =>
          load (vbuf A) pa (fun a => modify c pc (fun old => eadd E (emul E alpha a) (emul E beta old)))
        | _, _ => KUB
        end) order (vbuf C)) as [b' [R [S [W F]]]].
    - intros i j c Hin Sc. apply (order_in _ _ _ P) in Hin. destruct Hin as [Hi Hj].
      rewrite (int_index_in i (vs1 A) j) by (apply int_bound; [exact IA|lia|lia]).
      rewrite (int_index_in i (vs1 C) j) by (apply int_bound; [exact IC|lia|lia]).
      specialize (HA i j Hi ltac:(lia)). rewrite a0 in HA. specialize (HC i j ltac:(lia) Hj). rewrite c0 in HC.
      rewrite load_in by lia. rewrite modify_in by lia. unfold vat, addr. rewrite a0.
      replace (i * 1 + j * vs1 A) with (i + vs1 A * j) by lia. reflexivity.
    - exact (order_nodup _ _ _ P).
    - intros i j i' j' H1 H2 e. apply (order_in _ _ _ P) in H1. apply (order_in _ _ _ P) in H2.
      apply (cm_inj (vs1 C) (vrows A)); lia.
    - exists (with_buf C b'). rewrite R. cbn [kbind]. split; [reflexivity|]. unfold block_replaced.
      cbn [vrows vcols vs0 vs1 vlocal vbuf with_buf]. do 5 (split; [reflexivity|]). split; [exact S|]. rewrite c0. split.
      + intros i j Hi Hj. replace (i * 1 + j * vs1 C) with (i + vs1 C * j) by lia.
        rewrite W by (apply (order_in _ _ _ P); lia). unfold vat, addr. rewrite c0.
        replace (i * 1 + j * vs1 C) with (i + vs1 C * j) by lia. reflexivity.
      + intros x Hx. apply F. intros i j Hin. apply (order_in _ _ _ P) in Hin. specialize (Hx i j ltac:(lia) ltac:(lia)). lia.
  Qed.
  Lemma add_throws order (C A : view E) alpha beta :
    vlocal A = false \/ vlocal C = false \/ vs0 A <> 1 \/ vs0 C <> 1 -> add order C A alpha beta = KThrow.
  Proof.
    unfold add. intros H. destruct (vlocal A); cbn [andb]; [|reflexivity]. destruct (vlocal C); [|reflexivity].
    destruct (Nat.eqb (vs0 A) 1) eqn:e1; cbn [negb orb]; [|reflexivity].
    destruct (Nat.eqb (vs0 C) 1) eqn:e2; cbn [negb orb]; [|reflexivity].
    apply Nat.eqb_eq in e1, e2. destruct H as [H|[H|[H|H]]]; try discriminate; contradiction.
  Qed.
  (** a matrix with more elements than an int can count *)
  Lemma add_int_overflow order (C A : view E) alpha beta :
    Permutation order (pairs (vrows A) (vcols C)) -> vlocal A = true -> vlocal C = true ->
    col_major A -> col_major C -> vrows C = vrows A ->
    (exists i j, i < vrows A /\ j < vcols C /\ (2147483647 < Z.of_nat i + Z.of_nat (vs1 C) * Z.of_nat j)%Z) ->
    add order C A alpha beta = KUB.
  Proof.
    intros P lA lC (a0 & a1 & a2) (c0 & c1 & c2) S1 [i [j [Hi [Hj Hx]]]].
    unfold add. rewrite lA, lC, a0, c0. cbn [andb Nat.eqb negb orb]. unfold geam. rewrite foreach_ub; [reflexivity| |].
    - intros i' j' c _ Sc. destruct (int_index i' (vs1 A) j') as [pa|]; [|left; reflexivity].
      destruct (int_index i' (vs1 C) j') as [pc|]; [|left; reflexivity].
      unfold load. destruct (rd (vbuf A) pa); [|left; reflexivity]. unfold modify, rd, wr.
      destruct (Nat.ltb pc (bsz c)) eqn:el; [|left; reflexivity]. right. eexists. split; [reflexivity|]. exact Sc.
    - exists i, j. split; [apply (order_in _ _ _ P); lia|]. intros c _. rewrite (int_index_out i (vs1 C) j) by exact Hx.
      destruct (int_index i (vs1 A) j); reflexivity.
  Qed.

  (** ** scale *)
  (** distinct elements of the destination have distinct addresses *)
  Definition injective_view (m n : nat) (X : view E) : Prop :=
    forall i j i' j', i < m -> j < n -> i' < m -> j' < n -> i * vs0 X + j * vs1 X = i' * vs0 X + j' * vs1 X -> i = i' /\ j = j'.
  Lemma col_major_injective (X : view E) n : col_major X -> injective_view (vrows X) n X.
  Proof.
    intros (a & b & c) i j i' j' Hi Hj Hi' Hj' e. rewrite a in e. apply (cm_inj (vs1 X) (vrows X)); lia.
  Qed.

  Lemma elementwise_ok (m n : nat) order (dst src : view E) (g : nat -> nat -> V -> V -> V) body :
    Permutation order (pairs m n) -> m = vrows src -> n = vcols src -> allocated src -> allocated dst ->
    vrows dst = m -> vcols dst = n -> injective_view m n dst ->
    (forall i j c, i < m -> j < n -> addr dst i j < bsz c ->
       body i j c = load (vbuf src) (addr src i j) (fun a => KOk (upd c (addr dst i j) (g i j a (bget c (addr dst i j)))))) ->
    exists C', kbind (foreach order body (vbuf dst)) (fun b => KOk (with_buf dst b)) = KOk C' /\
      block_replaced m n dst C' (fun i j => g i j (vat src i j) (vat dst i j)).
  Proof.
    intros P M N HS HD R1 R2 J Hb.
    destruct (foreach_spec (fun i j => addr dst i j) (fun i j old => g i j (vat src i j) old) body order (vbuf dst)) as [b' [R [S [W F]]]].
    - intros i j c Hin Sc. apply (order_in _ _ _ P) in Hin. destruct Hin as [Hi Hj].
      rewrite Hb; [|assumption|assumption|rewrite Sc; apply HD; lia].
      rewrite load_in by (apply HS; lia). reflexivity.
    - exact (order_nodup _ _ _ P).
    - intros i j i' j' H1 H2. apply (order_in _ _ _ P) in H1. apply (order_in _ _ _ P) in H2. apply J; lia.
    - exists (with_buf dst b'). rewrite R. cbn [kbind]. split; [reflexivity|]. unfold block_replaced.
      cbn [vrows vcols vs0 vs1 vlocal vbuf with_buf]. do 5 (split; [reflexivity|]). split; [exact S|]. split.
      + intros i j Hi Hj. apply (W i j). apply (order_in _ _ _ P). split; assumption.
      + intros x Hx. apply F. intros i j Hin. apply (order_in _ _ _ P) in Hin. apply Hx; apply Hin.
  Qed.

  Lemma scale_cols_ok order (dst src : view E) xn x alpha beta :
    Permutation order (pairs (vrows src) (vcols src)) -> vs0 src = 1 -> allocated src -> allocated dst ->
    vrows dst = vrows src -> vcols dst = vcols src -> injective_view (vrows src) (vcols src) dst -> vcols src <= xn ->
    exists C', scale_cols order dst src xn x alpha beta = KOk C' /\
      block_replaced (vrows dst) (vcols dst) dst C' (fun i j =>
        if eris0 E beta then erscale E (ermul E alpha (x j)) (vat src i j)
        else eadd E (erscale E beta (vat dst i j)) (erscale E (ermul E alpha (x j)) (vat src i j))).
  Proof.
    intros P s0 HS HD R1 R2 J Hx. unfold scale_cols. rewrite s0. cbn [Nat.eqb]. rewrite R1, R2.
    apply (elementwise_ok _ _ order dst src
      (fun i j a old => if eris0 E beta then erscale E (ermul E alpha (x j)) a
        else eadd E (erscale E beta old) (erscale E (ermul E alpha (x j)) a))); try assumption; try reflexivity.
    intros i j c Hi Hj Hc. assert (L : Nat.ltb j xn = true) by (apply Nat.ltb_lt; lia). rewrite L.
    unfold load. destruct (rd (vbuf src) (addr src i j)); [|reflexivity].
    destruct (eris0 E beta); [apply store_in; exact Hc|rewrite modify_in by exact Hc; reflexivity].
  Qed.
  Lemma scale_beta_ok order (dst src : view E) alpha beta :
    Permutation order (pairs (vrows src) (vcols src)) -> vs0 src = 1 -> allocated src -> allocated dst ->
    vrows dst = vrows src -> vcols dst = vcols src -> injective_view (vrows src) (vcols src) dst ->
    exists C', scale_beta order dst src alpha beta = KOk C' /\
      block_replaced (vrows dst) (vcols dst) dst C' (fun i j =>
        if eris0 E beta then erscale E alpha (vat src i j)
        else eadd E (erscale E beta (vat dst i j)) (erscale E alpha (vat src i j))).
  Proof.
    intros P s0 HS HD R1 R2 J. unfold scale_beta. rewrite s0. cbn [Nat.eqb]. rewrite R1, R2.
    apply (elementwise_ok _ _ order dst src
      (fun i j a old => if eris0 E beta then erscale E alpha a else eadd E (erscale E beta old) (erscale E alpha a)));
      try assumption; try reflexivity.
    intros i j c Hi Hj Hc. unfold load. destruct (rd (vbuf src) (addr src i j)); [|reflexivity].
    destruct (eris0 E beta); [apply store_in; exact Hc|rewrite modify_in by exact Hc; reflexivity].
  Qed.
  Lemma scale_ok order (dst src : view E) alpha :
    Permutation order (pairs (vrows src) (vcols src)) -> vs0 src = 1 -> allocated src -> allocated dst ->
    vrows dst = vrows src -> vcols dst = vcols src -> injective_view (vrows src) (vcols src) dst ->
    exists C', scale order dst src alpha = KOk C' /\
      block_replaced (vrows dst) (vcols dst) dst C' (fun i j => erscale E alpha (vat src i j)).
  Proof.
    intros P s0 HS HD R1 R2 J. unfold scale. rewrite s0. cbn [Nat.eqb]. rewrite R1, R2.
    apply (elementwise_ok _ _ order dst src (fun i j a old => erscale E alpha a)); try assumption; try reflexivity.
    intros i j c Hi Hj Hc. unfold load. destruct (rd (vbuf src) (addr src i j)); [|reflexivity]. apply store_in. exact Hc.
  Qed.
  Lemma add__ok order (dst src : view E) alpha beta :
    Permutation order (pairs (vrows src) (vcols src)) -> allocated src -> allocated dst ->
    vrows dst = vrows src -> vcols dst = vcols src -> injective_view (vrows src) (vcols src) dst ->
    exists C', add_ order dst src alpha beta = KOk C' /\
      block_replaced (vrows dst) (vcols dst) dst C' (fun i j =>
        if eis0 E beta then ekmul E alpha (vat src i j)
        else eadd E (ekmul E (vat dst i j) beta) (ekmul E alpha (vat src i j))).
  Proof.
    intros P HS HD R1 R2 J. unfold add_. rewrite R1, R2.
    apply (elementwise_ok _ _ order dst src
      (fun i j a old => if eis0 E beta then ekmul E alpha a else eadd E (ekmul E old beta) (ekmul E alpha a)));
      try assumption; try reflexivity.
    intros i j c Hi Hj Hc. unfold load. destruct (rd (vbuf src) (addr src i j)); [|reflexivity].
    destruct (eis0 E beta); [apply store_in; exact Hc|rewrite modify_in by exact Hc; reflexivity].
  Qed.
  Lemma scales_throw order (dst src : view E) xn x alpha beta : vs0 src <> 1 ->
    scale_cols order dst src xn x alpha beta = KThrow /\ scale_beta order dst src alpha beta = KThrow /\
    scale order dst src alpha = KThrow.
  Proof.
    intros H. apply Nat.eqb_neq in H. unfold scale_cols, scale_beta, scale. rewrite H. auto.
  Qed.

  (** ** Allocating versions *)
  Lemma alloc_allocated rows cols loc : allocated (alloc E rows cols loc).
  Proof.
    intros i j. cbn [vrows vcols vs0 vs1 alloc vbuf bsz]. intros Hi Hj.
    assert (rows * (j + 1) <= rows * cols) by (apply Nat.mul_le_mono_l; lia). lia.
  Qed.
  Lemma alloc_col_major rows cols loc : 1 <= rows -> col_major (alloc E rows cols loc).
  Proof. intros H. unfold col_major. cbn. lia. Qed.

  Lemma transform_alloc_ok order (A B : view E) alpha beta :
    Permutation order (pairs (vrows A) (vcols B)) -> vlocal A = true -> vlocal B = true ->
    col_major A -> col_major B -> allocated A -> allocated B -> 1 <= vrows A ->
    vrows B = vcols A -> vcols B <= vcols A ->
    exists C, transform_alloc order A B alpha beta = KOk C /\
      vrows C = vrows A /\ vcols C = vcols A /\ vs0 C = 1 /\ vs1 C = vrows A /\ allocated C /\
      (forall i j, i < vrows A -> j < vcols B ->
         vat C i j = axpby alpha (esum (vcols A) (fun l => emul E (vat A i l) (vat B l j))) beta (e0 E)) /\
      (forall i j, i < vrows A -> vcols B <= j -> j < vcols A -> vat C i j = e0 E).
  Proof.
    intros P lA lB cA cB HA HB N S1 S2.
    destruct (transform_ok order (alloc E (vrows A) (vcols A) (vlocal A)) A B alpha beta) as [C' [R Q]]; try assumption; try reflexivity.
    - split; [exact lA|]. split; [exact lB|exact lA].
    - apply alloc_col_major. exact N.
    - apply alloc_allocated.
    - exists C'. split; [exact R|]. destruct Q as (q1 & q2 & q3 & q4 & q5 & q6 & q7 & q8).
      cbn [vrows vcols vs0 vs1 alloc vbuf bsz bget vlocal] in *.
      split; [exact q1|]. split; [exact q2|]. split; [exact q3|]. split; [exact q4|]. split.
      { intros i j Hi Hj. rewrite q3, q4, q6. rewrite q1 in Hi. rewrite q2 in Hj.
        assert (vrows A * (j + 1) <= vrows A * vcols A) by (apply Nat.mul_le_mono_l; lia). lia. }
      assert (D : forall i j, vat C' i j = bget (vbuf C') (i * 1 + j * vrows A)) by (intros; unfold vat, addr; rewrite q3, q4; reflexivity).
      split; [intros i j Hi Hj; rewrite D; apply q7; assumption|].
      intros i j Hi Hj Hj'. rewrite D. rewrite q8; [reflexivity|]. intros i' j' Hi' Hj'' e.
      assert (H : i = i' /\ j = j') by (apply (cm_inj (vrows A) (vrows A)); lia). lia.
  Qed.
  Lemma transform_alloc_wide order (A B : view E) alpha beta :
    Permutation order (pairs (vrows A) (vcols B)) -> vlocal A = true -> vlocal B = true ->
    col_major A -> col_major B -> allocated A -> allocated B -> 1 <= vrows A ->
    vrows B = vcols A -> vcols A < vcols B -> transform_alloc order A B alpha beta = KUB.
  Proof.
    intros P lA lB (a0 & a1 & a2) (b0 & b1 & b2) HA HB N S1 S2. unfold transform_alloc, transform.
    rewrite checked3_run; try assumption; [|reflexivity]. unfold gemm. cbn [vs1 alloc vbuf].
    assert (e1 : Nat.ltb (vs1 A) (Nat.max 1 (vrows A)) = false) by (apply Nat.ltb_ge; lia).
    assert (e2 : Nat.ltb (vs1 B) (Nat.max 1 (vcols A)) = false) by (apply Nat.ltb_ge; lia).
    assert (e3 : Nat.ltb (vrows A) (Nat.max 1 (vrows A)) = false) by (apply Nat.ltb_ge; lia).
    rewrite e1, e2, e3. cbn [orb]. rewrite foreach_ub; [reflexivity| |].
    - intros i j c Hin Sc. destruct (dot _ _ _ _ _ _ _ _ _); [|left; reflexivity].
      unfold store, modify, rd, wr. destruct (Nat.ltb (i + vrows A * j) (bsz c)) eqn:el; destruct (eis0 E beta); try (left; reflexivity);
        right; eexists; (split; [reflexivity|exact Sc]).
    - exists 0, (vcols A). split; [apply (order_in _ _ _ P); lia|]. intros c Sc. cbn [bsz] in Sc.
      assert (L : Nat.ltb (0 + vrows A * vcols A) (bsz c) = false) by (apply Nat.ltb_ge; lia).
      destruct (dot _ _ _ _ _ _ _ _ _); [|reflexivity]. unfold store, modify, rd, wr. rewrite L.
      destruct (eis0 E beta); reflexivity.
  Qed.
  Lemma inner_alloc_ok order (A B : view E) alpha beta :
    Permutation order (pairs (vcols A) (vcols B)) -> vlocal A = true -> vlocal B = true ->
    col_major A -> col_major B -> allocated A -> allocated B -> 1 <= vcols A -> vrows B = vrows A ->
    exists C, inner_ order A B alpha beta = KOk C /\
      vrows C = vcols A /\ vcols C = vcols B /\ vs0 C = 1 /\ vs1 C = vcols A /\ allocated C /\
      (forall i j, i < vcols A -> j < vcols B ->
         vat C i j = axpby alpha (esum (vrows A) (fun l => emul E (econj E (vat A l i)) (vat B l j))) beta (e0 E)).
  Proof.
    intros P lA lB cA cB HA HB N S1.
    destruct (inner_ok order (alloc E (vcols A) (vcols B) (vlocal A)) A B alpha beta) as [C' [R Q]]; try assumption; try reflexivity.
    - split; [exact lA|]. split; [exact lB|exact lA].
    - apply alloc_col_major. exact N.
    - apply alloc_allocated.
    - exists C'. split; [exact R|]. destruct Q as (q1 & q2 & q3 & q4 & q5 & q6 & q7 & q8).
      cbn [vrows vcols vs0 vs1 alloc vbuf bsz bget vlocal] in *.
      split; [exact q1|]. split; [exact q2|]. split; [exact q3|]. split; [exact q4|]. split.
      { intros i j Hi Hj. rewrite q3, q4, q6. rewrite q1 in Hi. rewrite q2 in Hj.
        assert (vcols A * (j + 1) <= vcols A * vcols B) by (apply Nat.mul_le_mono_l; lia). lia. }
      assert (D : forall i j, vat C' i j = bget (vbuf C') (i * 1 + j * vcols A)) by (intros; unfold vat, addr; rewrite q3, q4; reflexivity).
      intros i j Hi Hj. rewrite D. apply q7; assumption.
  Qed.

  (** ** solve_sym *)
  Lemma solve_sym_returns potrf potrs (A RHS : view E) :
    vlocal A = true -> vlocal RHS = true -> vs0 A = 1 -> vs0 RHS = 1 ->
    solve_sym potrf potrs A RHS =
      KOk (with_buf A (snd (potrf (vrows A) (vbuf A) (vs1 A))),
           with_buf RHS (snd (potrs (vrows A) (vcols RHS) (snd (potrf (vrows A) (vbuf A) (vs1 A))) (vs1 A) (vbuf RHS) (vs1 RHS)))).
  Proof.
    intros a b c d. unfold solve_sym. rewrite a, b, c, d. cbn [andb Nat.eqb negb orb].
    destruct (potrf (vrows A) (vbuf A) (vs1 A)) as [i1 fa]. cbn [snd]. destruct (potrs _ _ _ _ _ _) as [i2 xb]. reflexivity.
  Qed.
  Lemma solve_sym_throws potrf potrs (A RHS : view E) :
    vlocal A = false \/ vlocal RHS = false \/ vs0 A <> 1 \/ vs0 RHS <> 1 -> solve_sym potrf potrs A RHS = KThrow.
  Proof.
    unfold solve_sym. intros H. destruct (vlocal A); cbn [andb]; [|reflexivity]. destruct (vlocal RHS); [|reflexivity].
    destruct (Nat.eqb (vs0 A) 1) eqn:e1; cbn [negb orb]; [|reflexivity].
    destruct (Nat.eqb (vs0 RHS) 1) eqn:e2; cbn [negb orb]; [|reflexivity].
    apply Nat.eqb_eq in e1, e2. destruct H as [H|[H|[H|H]]]; try discriminate; contradiction.
  Qed.
End Spec.
