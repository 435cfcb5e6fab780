(** Memory safety of the step (NumStep.v) for every choice of the numbers: the kernels stay inside their allocations whatever they
    compute.  Only extents, leading dimensions and lengths matter. *)
From Coq Require Import ZArith Arith Lia List Bool.
From Verif Require Import Arith MVector LapackMem LapackMemProofs Exchange Occupation Smearing StepMem DeviceStep NumStep.
From Verif Require Device.
Import ListNotations.

(** ** Specification vocabulary *)
(** the loop visits index pairs of the matrix only; indices of the vector only; the reduction adds rows of the matrix only *)
Definition inside (o : orders) : Prop := forall m n i j, In (i, j) (o m n) -> i < m /\ j < n.
Definition inside1 (o : nat -> list nat) : Prop := forall n i, In i (o n) -> i < n.
Definition inside_red (red : nat -> rtree) : Prop := forall n i, In i (leaves (red n)) -> i < n.
(** all index computations with an r x c matrix in fresh memory fit into int *)
Definition sized (r c : nat) : Prop := 1 <= r /\ 1 <= c /\ (Z.of_nat r + Z.of_nat r * Z.of_nat c <= 2147483647)%Z.

(** [r] returned something with [Q], or threw (if [th] allows that); no undefined behaviour, no rejected argument *)
Definition safe {A} (th : Prop) (Q : A -> Prop) (r : kres A) : Prop :=
  match r with KOk a => Q a | KThrow => th | KBadArg | KUB => False end.

Section Vocabulary.
  Context {E : elt}.
  (** [X] is a local, column-major, completely allocated view of an r x c matrix, whatever it contains *)
  Record shaped (r c : nat) (X : view E) : Prop := MkShaped {
    sh_rows : vrows X = r; sh_cols : vcols X = c; sh_local : vlocal X = true;
    sh_cm : col_major X; sh_alloc : allocated X; sh_int : int_indexed X
  }.
  (** an m x n matrix with leading dimension ld inside the allocation, as the BLAS and LAPACK routines expect it *)
  Definition block_inside (m n ld : nat) (b : buf E) : Prop :=
    1 <= ld /\ m <= ld /\ forall i j, i < m -> j < n -> i + ld * j < bsz b.
  (** LAPACK stays inside matrices that are inside their allocations; nothing is said about calls outside this contract
      nor about the numbers *)
  Definition heevd_stays {W} (heevd : nat -> buf E -> nat -> Z * buf E * W) : Prop :=
    forall n b ld, block_inside n n ld b -> bsz (snd (fst (heevd n b ld))) = bsz b.
  Definition potrf_stays (potrf : nat -> buf E -> nat -> Z * buf E) : Prop :=
    forall n b ld, block_inside n n ld b -> bsz (snd (potrf n b ld)) = bsz b.
  Definition potrs_stays (potrs : nat -> nat -> buf E -> nat -> buf E -> nat -> Z * buf E) : Prop :=
    forall n c f lf b ld, block_inside n n lf f -> block_inside n c ld b -> bsz (snd (potrs n c f lf b ld)) = bsz b.
  (** an operator of the calling program stays inside the two matrices it is given the descriptors of *)
  Definition op_stays (op : operator_fn E) (k : key) (n : nat) : Prop :=
    forall c sy sx by_ bx, block_inside n c sy by_ -> block_inside n c sx bx ->
      let r := op k ((Z.of_nat n, Z.of_nat c), (1, Z.of_nat sy))%Z by_ ((Z.of_nat n, Z.of_nat c), (1, Z.of_nat sx))%Z bx in
      bsz (fst r) = bsz by_ /\ bsz (snd r) = bsz bx.
End Vocabulary.

(** ** Results *)
Lemma safe_bind {A B} th (P : A -> Prop) (Q : B -> Prop) r f : safe th P r -> (forall a, P a -> safe th Q (f a)) -> safe th Q (kbind r f).
Proof. destruct r as [a| | |]; cbn; intros H Hf; [apply Hf; exact H|exact H|contradiction|contradiction]. Qed.
Lemma safe_impl {A} (th th' : Prop) (P Q : A -> Prop) r : safe th P r -> (th -> th') -> (forall a, P a -> Q a) -> safe th' Q r.
Proof. destruct r; cbn; auto. Qed.
Lemma safe_weak {A} (th : Prop) (Q : A -> Prop) r : safe False Q r -> safe th Q r.
Proof. intros H. eapply safe_impl; [exact H|intros []|auto]. Qed.

Section Kernels.
  Context {E : elt}.
  Notation V := (ev E).

  (** ** Loops *)
  Lemma foreach_stays order (body : nat -> nat -> buf E -> kres (buf E)) : forall b,
    (forall i j c, In (i, j) order -> bsz c = bsz b -> safe False (fun c' => bsz c' = bsz b) (body i j c)) ->
    safe False (fun b' => bsz b' = bsz b) (foreach order body b).
  Proof.
    induction order as [|[i j] r IH]; intros b H; cbn [foreach]; [reflexivity|].
    apply (safe_bind _ (fun c' => bsz c' = bsz b)); [apply H; [left|]; reflexivity|].
    intros c' Hc. rewrite <- Hc. apply IH. intros i' j' c Hin Hs. rewrite Hc. apply H; [right; exact Hin|congruence].
  Qed.
  Lemma forrange_stays order (body : nat -> buf E -> kres (buf E)) : forall b,
    (forall i c, In i order -> bsz c = bsz b -> safe False (fun c' => bsz c' = bsz b) (body i c)) ->
    safe False (fun b' => bsz b' = bsz b) (forrange order body b).
  Proof.
    induction order as [|i r IH]; intros b H; cbn [forrange]; [reflexivity|].
    apply (safe_bind _ (fun c' => bsz c' = bsz b)); [apply H; [left|]; reflexivity|].
    intros c' Hc. rewrite <- Hc. apply IH. intros i' c Hin Hs. rewrite Hc. apply H; [right; exact Hin|congruence].
  Qed.
  Lemma store_stays (c : buf E) a v n : bsz c = n -> a < n -> safe False (fun c' => bsz c' = n) (store c a v).
  Proof. intros <- H. rewrite store_in by exact H. reflexivity. Qed.
  Lemma modify_stays (c : buf E) a f n : bsz c = n -> a < n -> safe False (fun c' => bsz c' = n) (modify c a f).
  Proof. intros <- H. rewrite modify_in by exact H. reflexivity. Qed.
  Lemma load_safe {B} th (Q : B -> Prop) (b : buf E) a (f : V -> kres B) : a < bsz b -> (forall v, safe th Q (f v)) -> safe th Q (load b a f).
  Proof. intros H Hf. rewrite load_in by exact H. apply Hf. Qed.

  (** ** Shapes *)
  Lemma shaped_with r c (X : view E) (b : buf E) : shaped r c X -> bsz b = bsz (vbuf X) -> shaped r c (with_buf X b).
  Proof. intros [H1 H2 H3 H4 H5 H6] Hb. constructor; auto. intros i j Hi Hj. cbn. rewrite Hb. apply H5; assumption. Qed.
  Lemma shaped_block r c (X : view E) : shaped r c X -> block_inside r c (vs1 X) (vbuf X).
  Proof.
    intros [<- <- _ (S0 & L1 & L2) Al _]. split; [exact L1|]. split; [exact L2|]. intros i j Hi Hj.
    specialize (Al i j Hi Hj). rewrite S0 in Al. lia.
  Qed.
  Lemma shaped_addr r c (X : view E) i j : shaped r c X -> i < r -> j < c -> addr X i j < bsz (vbuf X).
  Proof. intros [<- <- _ _ Al _] Hi Hj. apply Al; assumption. Qed.
  Lemma uninit_shaped r c j : sized r c -> shaped r c (alloc_uninit E r c true j).
  Proof.
    intros (H1 & H2 & H3). constructor; try reflexivity.
    - split; [reflexivity|]. cbn. lia.
    - intros a b Ha Hb. cbn in *. assert (b * r + r <= r * c) by (replace (b * r + r) with (r * (b + 1)) by lia; apply Nat.mul_le_mono_l; lia). lia.
    - exact H3.
  Qed.
  Lemma alloc_shaped r c : sized r c -> shaped r c (alloc E r c true).
  Proof. intros H. exact (uninit_shaped r c (fun _ => e0 E) H). Qed.
  Lemma empty_shaped r c (X : view E) j : sized r c -> shaped r c X -> shaped r c (empty_like X j).
  Proof. intros H [R1 R2 R3 _ _ _]. unfold empty_like. rewrite R1, R2, R3. apply uninit_shaped. exact H. Qed.
  Lemma zeros_shaped r c (X : view E) : sized r c -> shaped r c X -> shaped r c (zeros_like X).
  Proof. intros H [R1 R2 R3 _ _ _]. unfold zeros_like. rewrite R1, R2, R3. apply alloc_shaped. exact H. Qed.

  (** ** Products *)
  Lemma dot_safe ta tb (A : buf E) lda B ldb i j k :
    (forall l, l < k -> op_addr ta lda i l < bsz A) -> (forall l, l < k -> op_addr tb ldb l j < bsz B) ->
    exists v, dot ta tb A lda B ldb i j k = Some v.
  Proof. intros HA HB. rewrite dot_ok by assumption. eauto. Qed.
  Lemma gemm_stays ta tb m n k (alpha : V) (A : buf E) lda B ldb (beta : V) order Cb ldc :
    (forall i j, In (i, j) order -> i < m /\ j < n) ->
    1 <= lda -> (match ta with NoTrans => m | ConjTrans => k end) <= lda ->
    1 <= ldb -> (match tb with NoTrans => k | ConjTrans => n end) <= ldb ->
    1 <= ldc -> m <= ldc ->
    (forall i l, i < m -> l < k -> op_addr ta lda i l < bsz A) -> (forall l j, l < k -> j < n -> op_addr tb ldb l j < bsz B) ->
    (forall i j, i < m -> j < n -> i + ldc * j < bsz Cb) ->
    safe False (fun b => bsz b = bsz Cb) (gemm ta tb m n k alpha A lda B ldb beta order Cb ldc).
  Proof.
    intros Ho A1 A2 B1 B2 C1 C2 HA HB HC. unfold gemm.
    replace (Nat.ltb lda (Nat.max 1 (match ta with NoTrans => m | ConjTrans => k end))) with false by (symmetry; apply Nat.ltb_ge; lia).
    replace (Nat.ltb ldb (Nat.max 1 (match tb with NoTrans => k | ConjTrans => n end))) with false by (symmetry; apply Nat.ltb_ge; lia).
    replace (Nat.ltb ldc (Nat.max 1 m)) with false by (symmetry; apply Nat.ltb_ge; lia). cbn [orb].
    apply foreach_stays. intros i j c Hin Hc. destruct (Ho i j Hin) as [Hi Hj].
    destruct (dot_safe ta tb A lda B ldb i j k) as [v ->]; [intros; apply HA; assumption|intros; apply HB; assumption|].
    destruct (eis0 E beta); [apply store_stays|apply modify_stays]; try exact Hc; apply HC; assumption.
  Qed.
  Lemma gemm_on_stays sp ta tb m n k (alpha : V) (A : buf E) lda B ldb (beta : V) order Cb ldc :
    safe False (fun b => bsz b = bsz Cb) (gemm ta tb m n k alpha A lda B ldb beta order Cb ldc) ->
    safe False (fun b => bsz b = bsz Cb) (gemm_on sp ta tb m n k alpha A lda B ldb beta order Cb ldc).
  Proof. unfold gemm_on, status_dropped. destruct sp, (gemm _ _ _ _ _ _ _ _ _ _ _ _ _ _); cbn; auto; contradiction. Qed.
  Lemma checked3_safe r c (A B C : view E) run ra ca rb cb : shaped ra ca A -> shaped rb cb B -> shaped r c C ->
    safe False (fun b => bsz b = bsz (vbuf C)) run -> safe False (shaped r c) (checked3 A B C run).
  Proof.
    intros HA HB HC Hr. unfold checked3. rewrite (sh_local _ _ _ HA), (sh_local _ _ _ HB), (sh_local _ _ _ HC). cbn [andb].
    destruct (sh_cm _ _ _ HA) as (-> & _), (sh_cm _ _ _ HB) as (-> & _), (sh_cm _ _ _ HC) as (-> & _). cbn [Nat.eqb negb orb].
    eapply safe_bind; [exact Hr|]. intros b Hb. apply shaped_with; assumption.
  Qed.
  Lemma inner_on_safe sp o n p q (C A B : view E) alpha beta : inside o -> shaped n p A -> shaped n q B -> shaped p q C ->
    safe False (shaped p q) (inner_on sp (o (vcols A) (vcols B)) C A B alpha beta).
  Proof.
    intros Ho HA HB HC. unfold inner_on. apply (checked3_safe p q _ _ _ _ n p n q HA HB HC). apply gemm_on_stays.
    destruct (shaped_block _ _ _ HA) as (A1 & A2 & A3), (shaped_block _ _ _ HB) as (B1 & B2 & B3), (shaped_block _ _ _ HC) as (C1 & C2 & C3).
    pose proof (sh_rows _ _ _ HA) as Ra. pose proof (sh_cols _ _ _ HA) as Ca. pose proof (sh_cols _ _ _ HB) as Cb'.
    apply gemm_stays; rewrite ?Ra, ?Ca, ?Cb'; try assumption.
    - intros i j Hin. apply Ho in Hin. exact Hin.
    - intros i l Hi Hl. cbn. apply A3; assumption.
  Qed.
  Lemma outer_on_safe sp o m (C A B : view E) alpha beta : inside o -> shaped m m A -> shaped m m B -> shaped m m C ->
    safe False (shaped m m) (outer_on sp (o (vcols A) (vcols B)) C A B alpha beta).
  Proof.
    intros Ho HA HB HC. unfold outer_on. apply (checked3_safe m m _ _ _ _ m m m m HA HB HC). apply gemm_on_stays.
    destruct (shaped_block _ _ _ HA) as (A1 & A2 & A3), (shaped_block _ _ _ HB) as (B1 & B2 & B3), (shaped_block _ _ _ HC) as (C1 & C2 & C3).
    pose proof (sh_rows _ _ _ HA) as Ra. pose proof (sh_cols _ _ _ HA) as Ca. pose proof (sh_cols _ _ _ HB) as Cb'.
    apply gemm_stays; rewrite ?Ra, ?Ca, ?Cb'; try assumption.
    - intros i j Hin. apply Ho in Hin. exact Hin.
    - intros l j Hl Hj. cbn. apply B3; assumption.
  Qed.
  Lemma transform_on_safe sp o n p q (C A B : view E) alpha beta : inside o -> shaped n p A -> shaped p q B -> shaped n q C ->
    safe False (shaped n q) (transform_on sp (o (vrows A) (vcols B)) C beta alpha A B).
  Proof.
    intros Ho HA HB HC. unfold transform_on. apply (checked3_safe n q _ _ _ _ n p p q HA HB HC). apply gemm_on_stays.
    destruct (shaped_block _ _ _ HA) as (A1 & A2 & A3), (shaped_block _ _ _ HB) as (B1 & B2 & B3), (shaped_block _ _ _ HC) as (C1 & C2 & C3).
    pose proof (sh_rows _ _ _ HA) as Ra. pose proof (sh_cols _ _ _ HA) as Ca. pose proof (sh_cols _ _ _ HB) as Cb'.
    apply gemm_stays; rewrite ?Ra, ?Ca, ?Cb'; try assumption. intros i j Hin. apply Ho in Hin. exact Hin.
  Qed.
  Lemma inner__safe sp o n p q (A B : view E) alpha beta : inside o -> sized p q -> shaped n p A -> shaped n q B ->
    safe False (shaped p q) (inner__on sp (o (vcols A) (vcols B)) A B alpha beta).
  Proof.
    intros Ho Hs HA HB. unfold inner__on. apply (inner_on_safe sp o n); [exact Ho|exact HA|exact HB|].
    rewrite (sh_cols _ _ _ HA), (sh_cols _ _ _ HB), (sh_local _ _ _ HA). apply alloc_shaped. exact Hs.
  Qed.
  Lemma transform_alloc_safe sp o n p (A B : view E) alpha beta : inside o -> sized n p -> shaped n p A -> shaped p p B ->
    safe False (shaped n p) (transform_alloc_on sp (o (vrows A) (vcols B)) A B alpha beta).
  Proof.
    intros Ho Hs HA HB. unfold transform_alloc_on. apply (transform_on_safe sp o n p p); [exact Ho|exact HA|exact HB|].
    rewrite (sh_rows _ _ _ HA), (sh_cols _ _ _ HA), (sh_local _ _ _ HA). apply alloc_shaped. exact Hs.
  Qed.

  (** ** Sums, scaling, copies *)
  Lemma int_index_ok r c (X : view E) i j : shaped r c X -> i < r -> j < c -> int_index i (vs1 X) j = Some (i + vs1 X * j).
  Proof.
    intros HX Hi Hj. pose proof (sh_int _ _ _ HX) as Hn. unfold int_indexed in Hn. rewrite (sh_rows _ _ _ HX), (sh_cols _ _ _ HX) in Hn.
    unfold int_index, INT_MAX.
    assert (Z.of_nat (vs1 X) * Z.of_nat j <= Z.of_nat (vs1 X) * Z.of_nat c)%Z by (apply Z.mul_le_mono_nonneg_l; lia).
    replace (Z.leb _ 2147483647) with true by (symmetry; apply Z.leb_le; lia).
    replace (Z.leb _ 2147483647) with true by (symmetry; apply Z.leb_le; lia). reflexivity.
  Qed.
  Lemma add_on_safe sp o r c (C A : view E) alpha beta : inside o -> shaped r c C -> shaped r c A ->
    safe False (shaped r c) (add_on sp (o (vrows A) (vcols C)) C A alpha beta).
  Proof.
    intros Ho HC HA. destruct (shaped_block _ _ _ HA) as (A1 & A2 & A3), (shaped_block _ _ _ HC) as (C1 & C2 & C3).
    assert (Hb : safe False (fun b => bsz b = bsz (vbuf C))
      (match sp with Device.SHost => geam alpha (vbuf A) (vs1 A) beta (o (vrows A) (vcols C)) (vbuf C) (vs1 C)
                   | _ => geam_dev (vrows A) alpha (vbuf A) (vs1 A) beta (o (vrows A) (vcols C)) (vbuf C) (vs1 C) end)).
    { rewrite (sh_rows _ _ _ HA), (sh_cols _ _ _ HC).
      assert (Hdev : safe False (fun b => bsz b = bsz (vbuf C)) (geam_dev r alpha (vbuf A) (vs1 A) beta (o r c) (vbuf C) (vs1 C))).
      { unfold geam_dev. destruct (_ || _)%bool; [reflexivity|]. apply foreach_stays. intros i j b Hin Hs. destruct (Ho _ _ _ _ Hin) as [Hi Hj].
        apply load_safe; [apply A3; assumption|]. intros v. destruct (eis0 E beta); [apply store_stays|apply modify_stays]; try exact Hs; apply C3; assumption. }
      destruct sp; [|exact Hdev|exact Hdev].
      unfold geam. apply foreach_stays. intros i j b Hin Hs. destruct (Ho _ _ _ _ Hin) as [Hi Hj].
      rewrite (int_index_ok r c A i j HA Hi Hj), (int_index_ok r c C i j HC Hi Hj).
      apply load_safe; [apply A3; assumption|]. intros v. apply modify_stays; [exact Hs|apply C3; assumption]. }
    unfold add_on, add. rewrite (sh_local _ _ _ HA), (sh_local _ _ _ HC). cbn [andb].
    destruct (sh_cm _ _ _ HA) as (-> & _), (sh_cm _ _ _ HC) as (-> & _). cbn [Nat.eqb negb orb].
    destruct sp; (eapply safe_bind; [exact Hb|]; intros b E1; apply shaped_with; assumption).
  Qed.
  Lemma scale_cols_safe o r c (dst src : view E) xn x alpha beta : inside o -> shaped r c dst -> shaped r c src -> c <= xn ->
    safe False (shaped r c) (scale_cols (o (vrows src) (vcols src)) dst src xn x alpha beta).
  Proof.
    intros Ho HD HS Hx. unfold scale_cols. destruct (sh_cm _ _ _ HS) as (-> & _). cbn [Nat.eqb].
    apply (safe_bind _ (fun b => bsz b = bsz (vbuf dst))); [|intros b Hb; apply shaped_with; assumption].
    apply foreach_stays. intros i j b Hin Hs. destruct (Ho _ _ _ _ Hin) as [Hi Hj]. rewrite (sh_rows _ _ _ HS) in Hi. rewrite (sh_cols _ _ _ HS) in Hj.
    replace (Nat.ltb j xn) with true by (symmetry; apply Nat.ltb_lt; lia).
    apply load_safe; [apply (shaped_addr r c); assumption|]. intros v.
    destruct (eris0 E beta); [apply store_stays|apply modify_stays]; try exact Hs; apply (shaped_addr r c); assumption.
  Qed.
  Lemma scale_safe o r c (dst src : view E) alpha : inside o -> shaped r c dst -> shaped r c src ->
    safe False (shaped r c) (scale (o (vrows src) (vcols src)) dst src alpha).
  Proof.
    intros Ho HD HS. unfold scale. destruct (sh_cm _ _ _ HS) as (-> & _). cbn [Nat.eqb].
    apply (safe_bind _ (fun b => bsz b = bsz (vbuf dst))); [|intros b Hb; apply shaped_with; assumption].
    apply foreach_stays. intros i j b Hin Hs. destruct (Ho _ _ _ _ Hin) as [Hi Hj]. rewrite (sh_rows _ _ _ HS) in Hi. rewrite (sh_cols _ _ _ HS) in Hj.
    apply load_safe; [apply (shaped_addr r c); assumption|]. intros v. apply store_stays; [exact Hs|]. apply (shaped_addr r c); assumption.
  Qed.
  Lemma deep_copy_safe o r c (dst src : view E) : inside o -> shaped r c dst -> shaped r c src ->
    safe False (shaped r c) (deep_copy E (o (vrows src) (vcols src)) dst src).
  Proof.
    intros Ho HD HS. unfold deep_copy. rewrite (sh_rows _ _ _ HD), (sh_cols _ _ _ HD), (sh_rows _ _ _ HS), (sh_cols _ _ _ HS), !Nat.eqb_refl. cbn [andb].
    apply (safe_bind _ (fun b => bsz b = bsz (vbuf dst))); [|intros b Hb; apply shaped_with; assumption].
    apply foreach_stays. intros i j b Hin Hs. destruct (Ho _ _ _ _ Hin) as [Hi Hj].
    apply load_safe; [apply (shaped_addr r c); assumption|]. intros v. apply store_stays; [exact Hs|]. apply (shaped_addr r c); assumption.
  Qed.
  Lemma make_diag_safe o n (x : nat -> V) : inside1 o -> sized n n -> safe False (shaped n n) (make_diag (o n) n x).
  Proof.
    intros Ho Hs. unfold make_diag. pose proof (alloc_shaped n n Hs) as HA.
    apply (safe_bind _ (fun b => bsz b = bsz (vbuf (alloc E n n true)))); [|intros b Hb; apply shaped_with; assumption].
    apply forrange_stays. intros i c Hin Hc. pose proof (Ho _ _ Hin) as Hi. apply Nat.ltb_lt in Hi as Hb. rewrite Hb.
    apply store_stays; [exact Hc|]. apply (shaped_addr n n); assumption.
  Qed.
  (** the copied view has the layout of the destination *)
  Lemma copy_across_safe r c (X Y : view E) : shaped r c X -> shaped r c Y -> vs1 X = vs1 Y -> safe False (shaped r c) (copy_across X Y).
  Proof.
    intros HX HY Hl. unfold copy_across. rewrite (sh_rows _ _ _ HX), (sh_cols _ _ _ HX), (sh_rows _ _ _ HY), (sh_cols _ _ _ HY), !Nat.eqb_refl.
    pose proof (proj1 (sh_cm _ _ _ HX)) as X0. pose proof (proj1 (sh_cm _ _ _ HY)) as Y0. rewrite X0, Y0, Hl, !Nat.eqb_refl. cbn.
    constructor; cbn; try apply HX.
    intros i j Hi Hj. cbn in Hi, Hj. rewrite (sh_rows _ _ _ HX) in Hi. rewrite (sh_cols _ _ _ HX) in Hj. cbn. rewrite X0, Hl, <- Y0.
    apply (sh_alloc _ _ _ HY); [rewrite (sh_rows _ _ _ HY); exact Hi|rewrite (sh_cols _ _ _ HY); exact Hj].
  Qed.

  (** ** Linear systems, reductions, operators *)
  Lemma solve_safe sp potrf potrs n c (A B : view E) : potrf_stays potrf -> potrs_stays potrs -> shaped n n A -> shaped n c B ->
    safe False (fun r => shaped n n (fst r) /\ shaped n c (snd r)) (solve_sym_on sp potrf potrs A B).
  Proof.
    intros Hf Hs HA HB. pose proof (shaped_block _ _ _ HA) as BA. pose proof (shaped_block _ _ _ HB) as BB.
    assert (Hcore : match potrf (vrows A) (vbuf A) (vs1 A) with (_, fa) =>
        match potrs (vrows A) (vcols B) fa (vs1 A) (vbuf B) (vs1 B) with (_, xb) => bsz fa = bsz (vbuf A) /\ bsz xb = bsz (vbuf B) end end).
    { rewrite (sh_rows _ _ _ HA), (sh_cols _ _ _ HB). pose proof (Hf n (vbuf A) (vs1 A) BA) as H1.
      destruct (potrf n (vbuf A) (vs1 A)) as [i fa]. cbn [snd] in H1.
      assert (BF : block_inside n n (vs1 A) fa). { destruct BA as (a1 & a2 & a3). split; [exact a1|]. split; [exact a2|]. rewrite H1. exact a3. }
      pose proof (Hs n c fa (vs1 A) (vbuf B) (vs1 B) BF BB) as H2. destruct (potrs n c fa (vs1 A) (vbuf B) (vs1 B)) as [j xb]. cbn [snd] in H2.
      split; assumption. }
    assert (Host : safe False (fun r => shaped n n (fst r) /\ shaped n c (snd r) /\ vs1 (fst r) = vs1 A /\ vs1 (snd r) = vs1 B) (solve_sym potrf potrs A B)).
    { unfold solve_sym. rewrite (sh_local _ _ _ HA), (sh_local _ _ _ HB). cbn [andb].
      destruct (sh_cm _ _ _ HA) as (-> & _), (sh_cm _ _ _ HB) as (-> & _). cbn [Nat.eqb negb orb].
      destruct (potrf (vrows A) (vbuf A) (vs1 A)) as [i fa]. destruct (potrs (vrows A) (vcols B) fa (vs1 A) (vbuf B) (vs1 B)) as [j xb].
      destruct Hcore as [H1 H2]. cbn. split; [apply shaped_with; assumption|]. split; [apply shaped_with; assumption|]. split; reflexivity. }
    unfold solve_sym_on. destruct sp.
    - eapply safe_impl; [exact Host|auto|]. intros r (H1 & H2 & _). split; assumption.
    - rewrite (sh_local _ _ _ HA), (sh_local _ _ _ HB). cbn [andb].
      destruct (potrf (vrows A) (vbuf A) (vs1 A)) as [i fa]. destruct (potrs (vrows A) (vcols B) fa (vs1 A) (vbuf B) (vs1 B)) as [j xb].
      destruct Hcore as [H1 H2]. cbn. split; apply shaped_with; assumption.
    - eapply safe_bind; [exact Host|]. intros r (H1 & H2 & H3 & H4).
      eapply safe_bind; [apply (copy_across_safe n n); [exact HA|exact H1|symmetry; exact H3]|]. intros A' HA'.
      eapply safe_bind; [apply (copy_across_safe n c); [exact HB|exact H2|symmetry; exact H4]|]. intros X' HX'. split; assumption.
  Qed.
  Lemma row_sum_safe r c (X Y : view E) i : shaped r c X -> shaped r c Y -> i < r -> forall k, k <= c -> safe False (fun _ => True) (row_sum X Y i k).
  Proof.
    intros HX HY Hi. induction k as [|k IH]; intros Hk; cbn [row_sum]; [exact Logic.I|].
    eapply safe_bind; [apply IH; lia|]. intros v _. apply load_safe; [apply (shaped_addr r c); assumption|]. intros a.
    apply load_safe; [apply (shaped_addr r c); assumption|]. intros b. exact Logic.I.
  Qed.
  Lemma innerh_safe sp red r c (X Y : view E) : inside_red red -> shaped r c X -> shaped r c Y -> safe False (fun _ => True) (innerh_on sp red X Y).
  Proof.
    intros Hr HX HY. pose proof (sh_cols _ _ _ HX) as Hc. pose proof (sh_rows _ _ _ HX) as Hrow.
    assert (Hdev : safe False (fun _ => True) (tree_sum X Y (red (vrows X)))).
    { rewrite Hrow. specialize (Hr r). induction (red r) as [|i|a IHa b IHb]; cbn [tree_sum].
      - exact Logic.I.
      - apply (row_sum_safe r c); try assumption; [|lia]. apply Hr. left. reflexivity.
      - eapply safe_bind; [apply IHa; intros i Hi; apply Hr; apply in_or_app; left; exact Hi|]. intros u _.
        eapply safe_bind; [apply IHb; intros i Hi; apply Hr; apply in_or_app; right; exact Hi|]. intros v _. exact Logic.I. }
    unfold innerh_on. destruct sp; [|exact Hdev|exact Hdev].
    unfold innerh_tr. rewrite Hrow. assert (Hn : forall n, n <= r -> safe False (fun _ => True) (rows_sum X Y n)).
    { induction n as [|n IH]; intros Hn; cbn [rows_sum]; [exact Logic.I|]. eapply safe_bind; [apply IH; lia|]. intros v _.
      eapply safe_bind; [apply (row_sum_safe r c); try assumption; lia|]. intros w _. exact Logic.I. }
    apply Hn. lia.
  Qed.
  Lemma apply_shaped op k n c junk (X : view E) : op_stays op k n -> sized n c -> shaped n c X ->
    shaped n c (fst (apply_op E op k junk X)) /\ shaped n c (snd (apply_op E op k junk X)).
  Proof.
    intros Hop Hs HX. unfold apply_op. pose proof (uninit_shaped n c junk Hs) as HY.
    rewrite (sh_rows _ _ _ HX), (sh_cols _ _ _ HX), (sh_local _ _ _ HX).
    assert (Hd : forall Y : view E, shaped n c Y -> descriptor E Y = ((Z.of_nat n, Z.of_nat c), (1, Z.of_nat (vs1 Y)))%Z).
    { intros Y [Q1 Q2 _ (Q3 & Q4 & Q5) _ Q6]. unfold int_indexed in Q6. rewrite Q1, Q2 in Q6. rewrite Q1 in Q5. destruct Hs as (S1 & S2 & S3).
      assert (Z.of_nat (vs1 Y) * 1 <= Z.of_nat (vs1 Y) * Z.of_nat c)%Z by (apply Z.mul_le_mono_nonneg_l; lia).
      assert (Z.of_nat n * 1 <= Z.of_nat (vs1 Y) * 1)%Z by lia.
      assert (1 * Z.of_nat c <= Z.of_nat (vs1 Y) * Z.of_nat c)%Z by (apply Z.mul_le_mono_nonneg_r; lia).
      unfold descriptor. rewrite Q1, Q2, Q3. rewrite !to_int_small by (unfold int_sized; lia). reflexivity. }
    rewrite (Hd _ HY), (Hd _ HX).
    pose proof (Hop c _ _ _ _ (shaped_block _ _ _ HY) (shaped_block _ _ _ HX)) as Hb. cbv zeta in Hb.
    destruct (op k _ _ _ _) as [by_ bx]. cbn [fst snd] in *. destruct Hb as [H1 H2]. split; apply shaped_with; assumption.
  Qed.
End Kernels.

(** ** The step *)
Section Step.
  Context (N : numbers).
  Notation E := (nE N).
  Notation A := (nA N).
  Notation R' := (num (nA N)).
  Notation V := (ev (nE N)).
  Context (sp : space).
  Context (ord : nat -> orders) (ord1 : nat -> nat -> list nat) (junk : nat -> nat -> V) (red : nat -> nat -> rtree).
  Context (heevd : nat -> buf E -> nat -> Z * buf E * (nat -> R')).
  Context (potrf : nat -> buf E -> nat -> Z * buf E) (potrs : nat -> nat -> buf E -> nat -> buf E -> nat -> Z * buf E).
  Context (opS opP : operator_fn E).
  Hypothesis Hord : forall t, inside (ord t).
  Hypothesis Hord1 : forall t, inside1 (ord1 t).
  Hypothesis Hred : forall t, inside_red (red t).
  Hypothesis Hheevd : heevd_stays heevd.
  Hypothesis Hpotrf : potrf_stays potrf.
  Hypothesis Hpotrs : potrs_stays potrs.
  Context (k : key) (n m : nat).
  Hypothesis HS : op_stays opS k n.
  Hypothesis HP : op_stays opP k n.
  Hypothesis Hn : sized n m.
  Hypothesis Hm : sized m m.

  Lemma deep_copy_ld o r c (dst src : view E) : inside o -> shaped r c dst -> shaped r c src ->
    safe False (fun X => shaped r c X /\ vs1 X = vs1 dst) (deep_copy E (o (vrows src) (vcols src)) dst src).
  Proof.
    intros Ho HD HX. pose proof (deep_copy_safe o r c dst src Ho HD HX) as H. unfold deep_copy in *.
    destruct (_ && _)%bool; [|exact H]. destruct (foreach _ _ _) as [b| | |]; cbn in *; try exact H. split; [exact H|reflexivity].
  Qed.

  Lemma eigh_safe t (Sv : view E) j wn : shaped m m Sv -> m <= wn ->
    safe (sp = Device.SHost) (fun r => shaped m m (fst r) /\ fst (snd r) = wn) (eigh_n N sp ord heevd t (empty_like Sv j) wn Sv).
  Proof.
    intros HSv Hw. pose proof (empty_shaped m m Sv j Hm HSv) as HU. unfold eigh_n.
    assert (Hcall : forall X : view E, shaped m m X -> bsz (snd (fst (heevd m (vbuf X) (vs1 X)))) = bsz (vbuf X)).
    { intros X HX. apply Hheevd. apply shaped_block. exact HX. }
    assert (Hleb : Nat.leb m wn = true) by (apply Nat.leb_le; exact Hw).
    pose proof (sh_local _ _ _ HSv) as L1. pose proof (sh_local _ _ _ HU) as L2.
    destruct sp.
    - eapply safe_bind; [apply safe_weak; apply (deep_copy_safe (ord t) m m); [apply Hord|exact HU|exact HSv]|]. intros U1 H1.
      rewrite L1. cbv zeta. rewrite (sh_cols _ _ _ H1), Hleb. pose proof (Hcall U1 H1) as Hb.
      destruct (heevd m (vbuf U1) (vs1 U1)) as [[info b] w]. cbn [fst snd] in Hb.
      destruct (Z.eqb info 0); cbn; [|reflexivity]. split; [apply shaped_with; assumption|reflexivity].
    - rewrite L1, L2. cbn [andb].
      eapply safe_bind; [apply safe_weak; apply (deep_copy_safe (ord t) m m); [apply Hord|exact HU|exact HSv]|]. intros U1 H1.
      cbv zeta. rewrite (sh_rows _ _ _ H1), Hleb. pose proof (Hcall U1 H1) as Hb.
      destruct (heevd m (vbuf U1) (vs1 U1)) as [[info b] w]. cbn [fst snd] in Hb. cbn. split; [apply shaped_with; assumption|reflexivity].
    - rewrite L1, L2. cbn [andb].
      eapply safe_bind; [apply safe_weak; apply (deep_copy_ld (ord t) m m); [apply Hord|exact HU|exact HSv]|]. intros U1 (H1 & E1).
      pose proof (empty_shaped m m Sv (bget (vbuf (empty_like Sv j))) Hm HSv) as HU'.
      eapply safe_bind; [apply safe_weak; apply (deep_copy_ld (ord t) m m); [apply Hord|exact HU'|exact HSv]|]. intros U2 (H2 & E2).
      cbv zeta. rewrite (sh_cols _ _ _ H2), Hleb. pose proof (Hcall U2 H2) as Hb.
      destruct (heevd m (vbuf U2) (vs1 U2)) as [[info b] w]. cbn [fst snd] in Hb.
      eapply safe_bind; [apply safe_weak; apply (copy_across_safe m m); [exact H1|apply shaped_with; [exact H2|exact Hb]|]|].
      + cbn [vs1 with_buf]. rewrite E1, E2. reflexivity.
      + intros U3 H3. cbn. split; [exact H3|reflexivity].
  Qed.

  Lemma loewdin_safe t (X SX : view E) : shaped n m X -> shaped n m SX ->
    safe (sp = Device.SHost) (shaped n m) (loewdin_n N sp ord junk heevd t X SX).
  Proof.
    intros HX HSX. unfold loewdin_n.
    eapply safe_bind; [apply safe_weak; apply (inner__safe sp (ord t) n m m); [apply Hord|exact Hm|exact HX|exact HSX]|]. intros M HM.
    rewrite (sh_cols _ _ _ HX). eapply safe_bind; [apply eigh_safe; [exact HM|lia]|]. intros [U w] (HU & Hw). cbn [fst snd] in *. cbv zeta.
    eapply safe_bind; [apply safe_weak; apply (scale_cols_safe (ord (t + 2)) m m); [apply Hord|exact HM|exact HU|cbn; lia]|]. intros M' HM'.
    eapply safe_bind; [apply safe_weak; apply (outer_on_safe sp (ord (t + 3)) m); [apply Hord|exact HM'|exact HU|apply zeros_shaped; [exact Hm|exact HU]]|].
    intros Rm HR. apply safe_weak. apply (transform_on_safe sp (ord (t + 4)) n m m); [apply Hord|exact HX|exact HR|apply zeros_shaped; [exact Hn|exact HX]].
  Qed.
  Lemma advance_eta_safe t step (eta d : view E) : shaped m m eta -> shaped m m d -> safe False (shaped m m) (advance_eta_n N sp ord junk t step eta d).
  Proof.
    intros He Hd. unfold advance_eta_n. eapply safe_bind; [apply (deep_copy_safe (ord t) m m); [apply Hord|apply empty_shaped; [exact Hm|exact Hd]|exact He]|].
    intros e1 H1. apply (add_on_safe sp (ord (t + 1)) m m); [apply Hord|exact H1|exact Hd].
  Qed.
  Lemma advance_x_safe t step (x dx ul : view E) : shaped n m x -> shaped n m dx -> shaped m m ul ->
    safe (sp = Device.SHost) (shaped n m) (advance_x_n N sp ord junk heevd opS t k step x dx ul).
  Proof.
    intros Hx Hd Hu. unfold advance_x_n.
    eapply safe_bind; [apply safe_weak; apply (deep_copy_safe (ord t) n m); [apply Hord|apply empty_shaped; [exact Hn|exact Hx]|exact Hx]|]. intros x1 H1.
    eapply safe_bind; [apply safe_weak; apply (add_on_safe sp (ord (t + 1)) n m); [apply Hord|exact H1|exact Hd]|]. intros x2 H2.
    pose proof (apply_shaped opS k n m (junk (t + 1)) x2 HS Hn H2) as (A1 & A2).
    destruct (apply_op E opS k (junk (t + 1)) x2) as [sx x3]. cbn [fst snd] in A1, A2.
    eapply safe_bind; [apply loewdin_safe; [exact A2|exact A1]|]. intros y Hy.
    apply safe_weak. apply (transform_alloc_safe sp (ord (t + 7)) n m); [apply Hord|exact Hn|exact Hy|exact Hu].
  Qed.
  Theorem geodesic_safe t step (X eta zx ze : view E) : shaped n m X -> shaped m m eta -> shaped n m zx -> shaped m m ze ->
    safe (sp = Device.SHost) (fun r => fst (fst (fst r)) = m /\ shaped m m (snd (fst r)) /\ shaped n m (snd r))
      (geodesic_us_n N sp ord junk heevd opS t k step X eta zx ze).
  Proof.
    intros HX He Hzx Hze. unfold geodesic_us_n.
    eapply safe_bind; [apply safe_weak; apply advance_eta_safe; [exact He|exact Hze]|]. intros e1 H1.
    unfold eigvals_and_vectors_n. rewrite (sh_cols _ _ _ H1). eapply safe_bind; [apply eigh_safe; [exact H1|lia]|]. intros [U w] (HU & Hw). cbn [fst snd] in *.
    eapply safe_bind; [apply advance_x_safe; [exact HX|exact Hzx|exact HU]|]. intros x Hx. cbn. split; [exact Hw|]. split; [exact HU|exact Hx].
  Qed.

  Lemma lmult_safe t (sx hx : view E) : shaped n m sx -> shaped n m hx -> safe False (shaped n m) (lmult_n N sp ord junk potrf potrs opP t k sx hx).
  Proof.
    intros Hs Hh. unfold lmult_n. pose proof (apply_shaped opP k n m (junk t) sx HP Hn Hs) as (A1 & A2).
    destruct (apply_op E opP k (junk t) sx) as [psx sx1]. cbn [fst snd] in A1, A2.
    eapply safe_bind; [apply (inner__safe sp (ord t) n m m); [apply Hord|exact Hm|exact A2|exact A1]|]. intros xkx H1.
    pose proof (apply_shaped opP k n m (junk (t + 1)) hx HP Hn Hh) as (B1 & B2).
    destruct (apply_op E opP k (junk (t + 1)) hx) as [phx hx1]. cbn [fst snd] in B1, B2.
    eapply safe_bind; [apply (inner__safe sp (ord (t + 1)) n m m); [apply Hord|exact Hm|exact A2|exact B1]|]. intros xkhx H2.
    eapply safe_bind; [apply (solve_safe sp potrf potrs m m); [exact Hpotrf|exact Hpotrs|exact H1|exact H2]|]. intros AX (_ & H3).
    apply (transform_alloc_safe sp (ord (t + 2)) n m); [apply Hord|exact Hn|exact A2|exact H3].
  Qed.
  Lemma gradx_safe t (x hx : view E) fn (xll : view E) wk : shaped n m x -> shaped n m hx -> shaped n m xll -> m <= fst fn ->
    safe False (shaped n m) (gradx_n N sp ord junk t x hx fn xll wk).
  Proof.
    intros Hx Hh Hl Hf. unfold gradx_n.
    eapply safe_bind; [apply (scale_cols_safe (ord t) n m); [apply Hord|apply empty_shaped; [exact Hn|exact Hx]|exact Hh|exact Hf]|]. intros g1 H1.
    apply (add_on_safe sp (ord (t + 1)) n m); [apply Hord|exact H1|exact Hl].
  Qed.
  Lemma precond_safe t (x hx xll : view E) : shaped n m x -> shaped n m hx -> shaped n m xll ->
    safe False (shaped n m) (precondgx_us_n N sp ord junk opP t k x hx xll).
  Proof.
    intros Hx Hh Hl. unfold precondgx_us_n. pose proof (zeros_shaped n m x Hn Hx) as Hz.
    eapply safe_bind; [apply (add_on_safe sp (ord t) n m); [apply Hord|exact Hz|exact Hh]|]. intros d0 H0.
    eapply safe_bind; [apply (add_on_safe sp (ord (t + 1)) n m); [apply Hord|exact H0|exact Hl]|]. intros d1 H1.
    exact (proj1 (apply_shaped opP k n m (junk t) d1 HP Hn H1)).
  Qed.
  Lemma rotateeta_safe t (eta u : view E) : shaped m m eta -> shaped m m u -> safe False (shaped m m) (rotateeta_n N sp ord t eta u).
  Proof.
    intros He Hu. unfold rotateeta_n. eapply safe_bind; [apply (transform_alloc_safe sp (ord t) m m); [apply Hord|exact Hm|exact He|exact Hu]|]. intros eu H1.
    apply (inner__safe sp (ord (t + 1)) m m m); [apply Hord|exact Hm|exact Hu|exact H1].
  Qed.
  Lemma conjugatex_safe t (z sx : view E) : shaped n m z -> shaped n m sx -> safe False (shaped n m) (conjugatex_n N sp ord potrf potrs t z sx).
  Proof.
    intros Hz Hs. unfold conjugatex_n.
    eapply safe_bind; [apply (inner__safe sp (ord t) n m m); [apply Hord|exact Hm|exact Hs|exact Hz]|]. intros a Ha.
    eapply safe_bind; [apply (inner__safe sp (ord (t + 1)) n m m); [apply Hord|exact Hm|exact Hs|exact Hs]|]. intros b Hb.
    eapply safe_bind; [apply (solve_safe sp potrf potrs m m); [exact Hpotrf|exact Hpotrs|exact Hb|exact Ha]|]. intros AX (_ & H3).
    eapply safe_bind; [apply (transform_alloc_safe sp (ord (t + 2)) n m); [apply Hord|exact Hn|exact Hs|exact H3]|]. intros c Hc.
    apply (add_on_safe sp (ord (t + 3)) n m); [apply Hord|exact Hz|exact Hc].
  Qed.

  Context (Sm : smear (nA N)) (T kappa mo : R').
  Lemma nload_safe {B} th (Q : B -> Prop) (v : nvec N) i f : i < fst v -> (forall x, safe th Q (f x)) -> safe th Q (nload N v i f).
  Proof. intros H Hf. unfold nload. apply Nat.ltb_lt in H. rewrite H. apply Hf. Qed.
  Lemma delta_eta_safe t (hij : view E) (ek : nvec N) wk : shaped m m hij -> fst ek = m ->
    safe False (shaped m m) (delta_eta_n N ord ord1 junk kappa t hij ek wk).
  Proof.
    intros Hh He. unfold delta_eta_n.
    eapply safe_bind; [apply (scale_safe (ord t) m m); [apply Hord|apply empty_shaped; [exact Hm|exact Hh]|exact Hh]|]. intros d Hd.
    apply (safe_bind _ (fun b => bsz b = bsz (vbuf d))); [|intros b Hb; apply shaped_with; assumption].
    apply forrange_stays. intros i c Hin Hc. pose proof (Hord1 _ _ _ Hin) as Hi. apply nload_safe; [exact Hi|]. intros ei.
    apply modify_stays; [exact Hc|]. apply (shaped_addr m m); [exact Hd| |]; lia.
  Qed.
  Lemma g_eta_safe t (hij : view E) mu wk (ek fn : nvec N) dmu dF : shaped m m hij -> fst ek = m -> fst fn = m ->
    safe False (shaped m m) (g_eta_n N ord ord1 Sm T mo t hij mu wk ek fn dmu dF).
  Proof.
    intros Hh He Hf. unfold g_eta_n. cbv zeta. rewrite (sh_rows _ _ _ Hh). pose proof (zeros_shaped m m hij Hm Hh) as HZ.
    assert (Hat : forall i j, i < m -> j < m -> addr (zeros_like hij) i j < bsz (vbuf (zeros_like hij))) by (intros; apply (shaped_addr m m); assumption).
    eapply safe_bind with (P := fun b => bsz b = bsz (vbuf (zeros_like hij))).
    - apply forrange_stays. intros i c Hin Hc. pose proof (Hord1 _ _ _ Hin) as Hi. apply nload_safe; [lia|]. intros ei.
      apply load_safe; [apply (shaped_addr m m); assumption|]. intros h. apply store_stays; [exact Hc|apply Hat; assumption].
    - intros b1 H1. eapply safe_bind with (P := fun b => bsz b = bsz (vbuf (zeros_like hij))).
      + destruct (altb _ _ _); [exact H1|]. rewrite <- H1. apply forrange_stays. intros i c Hin Hc. pose proof (Hord1 _ _ _ Hin) as Hi.
        apply nload_safe; [lia|]. intros ei. apply modify_stays; [exact Hc|rewrite H1; apply Hat; assumption].
      + intros b2 H2. eapply safe_bind with (P := fun b => bsz b = bsz (vbuf (zeros_like hij))); [|intros b Hb; apply shaped_with; assumption].
        rewrite <- H2. apply foreach_stays. intros i j c Hin Hc. destruct (Hord _ _ _ _ _ Hin) as [Hi Hj].
        destruct (Nat.eqb i j); [exact Hc|]. apply nload_safe; [lia|]. intros ej. apply nload_safe; [lia|]. intros ei.
        destruct (altb _ _ _); [exact Hc|]. apply nload_safe; [lia|]. intros fj. apply nload_safe; [lia|]. intros fi.
        apply load_safe; [apply (shaped_addr m m); assumption|]. intros h. apply modify_stays; [exact Hc|rewrite H2; apply Hat; assumption].
  Qed.

  Theorem exec_restart_safe t mu dmu dF wk (x : view E) (e f : nvec N) (hx : view E) : shaped n m x -> shaped n m hx -> fst e = m -> fst f = m ->
    safe False (fun r => shaped n m (snd (fst r)) /\ shaped m m (snd r))
      (exec_restart_n N sp ord ord1 junk red potrf potrs opS opP Sm T kappa mo t k mu dmu dF wk x e f hx).
  Proof.
    intros Hx Hh He Hf. unfold exec_restart_n. pose proof (apply_shaped opS k n m (junk t) x HS Hn Hx) as (A1 & A2).
    destruct (apply_op E opS k (junk t) x) as [sx x1]. cbn [fst snd] in A1, A2.
    eapply safe_bind; [apply lmult_safe; [exact A1|exact Hh]|]. intros llm Hl.
    eapply safe_bind; [apply gradx_safe; [exact A1|exact Hh|exact Hl|lia]|]. intros gx Hg.
    eapply safe_bind; [apply precond_safe; [exact A1|exact Hh|exact Hl]|]. intros dx Hd.
    eapply safe_bind; [apply (inner__safe sp (ord (t + 8)) n m m); [apply Hord|exact Hm|exact A2|exact Hh]|]. intros hij Hij.
    eapply safe_bind; [apply g_eta_safe; [exact Hij|exact He|exact Hf]|]. intros ge Hge.
    eapply safe_bind; [apply delta_eta_safe; [exact Hij|exact He]|]. intros de Hde.
    eapply safe_bind; [apply (innerh_safe sp (red (t + 12)) n m); [apply Hred|exact Hg|exact Hd]|]. intros frx _.
    eapply safe_bind; [apply (innerh_safe sp (red (t + 13)) m m); [apply Hred|exact Hge|exact Hde]|]. intros fre _. cbn. split; assumption.
  Qed.
  Lemma exec_conjugate_safe t (sx zxp zetap ul gx ge : view E) : shaped n m sx -> shaped n m zxp -> shaped m m zetap -> shaped m m ul ->
    shaped n m gx -> shaped m m ge ->
    safe False (fun r => shaped n m (snd (fst r)) /\ shaped m m (snd r)) (exec_conjugate_n N sp ord red potrf potrs t sx zxp zetap ul gx ge).
  Proof.
    intros H1 H2 H3 H4 H5 H6. unfold exec_conjugate_n, rotatex_n.
    eapply safe_bind; [apply (transform_alloc_safe sp (ord t) n m); [apply Hord|exact Hn|exact H2|exact H4]|]. intros zt Hzt.
    eapply safe_bind; [apply rotateeta_safe; [exact H3|exact H4]|]. intros ze Hze.
    eapply safe_bind; [apply conjugatex_safe; [exact Hzt|exact H1]|]. intros zx Hzx.
    eapply safe_bind; [apply (innerh_safe sp (red (t + 3)) n m); [apply Hred|exact Hzx|exact H5]|]. intros a _.
    eapply safe_bind; [apply (innerh_safe sp (red (t + 4)) m m); [apply Hred|exact Hze|exact H6]|]. intros b _. cbn. split; assumption.
  Qed.
  Theorem exec_cg_safe t mu dmu dF wk (x : view E) (e f : nvec N) (hx zxp zetap ul : view E) : shaped n m x -> shaped n m hx -> fst e = m -> fst f = m ->
    shaped n m zxp -> shaped m m zetap -> shaped m m ul ->
    safe False (fun r => match r with (_, dx, de, zx, ze, _) => shaped n m dx /\ shaped m m de /\ shaped n m zx /\ shaped m m ze end)
      (exec_cg_n N sp ord ord1 junk red potrf potrs opS opP Sm T kappa mo t k mu dmu dF wk x e f hx zxp zetap ul).
  Proof.
    intros Hx Hh He Hf Hz1 Hz2 Hu. unfold exec_cg_n. pose proof (apply_shaped opS k n m (junk t) x HS Hn Hx) as (A1 & A2).
    destruct (apply_op E opS k (junk t) x) as [sx x1]. cbn [fst snd] in A1, A2.
    eapply safe_bind; [apply lmult_safe; [exact A1|exact Hh]|]. intros llm Hl.
    eapply safe_bind; [apply gradx_safe; [exact A1|exact Hh|exact Hl|lia]|]. intros gx Hg.
    eapply safe_bind; [apply precond_safe; [exact A1|exact Hh|exact Hl]|]. intros dx Hd.
    eapply safe_bind; [apply (inner__safe sp (ord (t + 8)) n m m); [apply Hord|exact Hm|exact A2|exact Hh]|]. intros hij Hij.
    eapply safe_bind; [apply g_eta_safe; [exact Hij|exact He|exact Hf]|]. intros ge Hge.
    eapply safe_bind; [apply delta_eta_safe; [exact Hij|exact He]|]. intros de Hde.
    eapply safe_bind; [apply (innerh_safe sp (red (t + 12)) n m); [apply Hred|exact Hg|exact Hd]|]. intros frx _.
    eapply safe_bind; [apply (innerh_safe sp (red (t + 13)) m m); [apply Hred|exact Hge|exact Hde]|]. intros fre _.
    eapply safe_bind; [apply exec_conjugate_safe; [exact A1|exact Hz1|exact Hz2|exact Hu|exact Hg|exact Hge]|]. intros [[sl zx] ze] (B1 & B2). cbn in *.
    repeat split; try assumption; try apply Hd; try apply Hde; try apply B1; apply B2.
  Qed.
  Lemma combine_safe t gamma (dx de zx ze : view E) : shaped n m dx -> shaped m m de -> shaped n m zx -> shaped m m ze ->
    safe False (fun r => shaped n m (fst r) /\ shaped m m (snd r)) (combine_directions_n N sp ord t gamma dx de zx ze).
  Proof.
    intros H1 H2 H3 H4. unfold combine_directions_n.
    eapply safe_bind; [apply (add_on_safe sp (ord t) n m); [apply Hord|exact H3|exact H1]|]. intros a Ha.
    eapply safe_bind; [apply (add_on_safe sp (ord (t + 1)) m m); [apply Hord|exact H4|exact H2]|]. intros b Hb. cbn. split; assumption.
  Qed.
  Lemma dFdmu_loop_safe mu (h e : nvec N) i : i <= fst h -> i <= fst e -> safe False (fun _ => True) (dFdmu_loop_n N Sm T mo mu h e i).
  Proof.
    induction i as [|i IH]; intros H1 H2; cbn [dFdmu_loop_n]; [exact Logic.I|]. eapply safe_bind; [apply IH; lia|]. intros v _.
    apply nload_safe; [lia|]. intros ej. apply nload_safe; [lia|]. intros hj. exact Logic.I.
  Qed.
End Step.
