(** A step on a device computes what the step on the host computes, if the latter returns. *)
From Coq Require Import ZArith Reals Lra Arith Lia List Bool Permutation.
From Coquelicot Require Import Complex.
From Verif Require Import Arith LinAlg MVector LapackMem LapackMemProofs LapackElt Exchange Smearing Newton Occupation StepMem StepProofs DeviceStep.
From Verif Require Device.
Import ListNotations.
Local Open Scope R_scope.

(** whatever [h] returns, [d] returns *)
Definition refines {A} (h d : kres A) : Prop := forall r, h = KOk r -> d = KOk r.
Lemma refines_refl {A} (h : kres A) : refines h h.
Proof. intros r H; exact H. Qed.
Lemma refines_bind {A B} (h d : kres A) (f g : A -> kres B) :
  refines h d -> (forall a, h = KOk a -> refines (f a) (g a)) -> refines (kbind h f) (kbind d g).
Proof.
  intros H F r E. destruct h as [a| | |]; cbn [kbind] in E; try discriminate.
  rewrite (H a eq_refl). cbn [kbind]. exact (F a eq_refl r E).
Qed.
Lemma kbind_ok {A B} (h : kres A) (f : A -> kres B) r : kbind h f = KOk r -> exists a, h = KOk a /\ f a = KOk r.
Proof. destruct h as [a| | |]; cbn; intro H; try discriminate. exists a; split; [reflexivity | exact H]. Qed.
Lemma refines_foreach {E} order (f g : nat -> nat -> buf E -> kres (buf E)) :
  (forall i j c, In (i, j) order -> refines (f i j c) (g i j c)) -> forall b, refines (foreach order f b) (foreach order g b).
Proof.
  induction order as [|[i j] r IH]; intros F b; cbn [foreach]; [apply refines_refl|].
  apply refines_bind; [apply F; left; reflexivity|]. intros c _. apply IH. intros i' j' c' I. apply F. right; exact I.
Qed.

Section Kernels.
  Context {E : elt}.
  Notation V := (ev E).

  (** the shape of a view *)
  Definition shape (X : view E) := (vrows X, vcols X, vs0 X, vs1 X, vlocal X).
  Lemma shape_with_buf X b : shape (with_buf X b) = shape X.
  Proof. reflexivity. Qed.
  Lemma shape_rows X Y : shape X = shape Y -> vrows X = vrows Y.
  Proof. intro H. exact (f_equal (fun p => match p with (a, _, _, _, _) => a end) H). Qed.
  Lemma shape_cols X Y : shape X = shape Y -> vcols X = vcols Y.
  Proof. intro H. exact (f_equal (fun p => match p with (_, a, _, _, _) => a end) H). Qed.
  Lemma shape_s1 X Y : shape X = shape Y -> vs1 X = vs1 Y.
  Proof. intro H. exact (f_equal (fun p => match p with (_, _, _, a, _) => a end) H). Qed.
  Lemma shape_local X Y : shape X = shape Y -> vlocal X = vlocal Y.
  Proof. intro H. exact (f_equal (fun p => match p with (_, _, _, _, a) => a end) H). Qed.
  Lemma kept (C X : view E) (r : kres (buf E)) : kbind r (fun b => KOk (with_buf C b)) = KOk X -> shape X = shape C.
  Proof. destruct r as [b| | |]; cbn; intro H; try discriminate. injection H as <-. reflexivity. Qed.
  Lemma checked3_shape (A B C X : view E) run : checked3 A B C run = KOk X -> shape X = shape C.
  Proof.
    unfold checked3. destruct (vlocal A && vlocal B && vlocal C)%bool; [|discriminate].
    destruct (negb (Nat.eqb (vs0 A) 1) || negb (Nat.eqb (vs0 B) 1) || negb (Nat.eqb (vs0 C) 1))%bool; [discriminate|]. apply kept.
  Qed.
  Lemma add_shape order (C A X : view E) a b : add order C A a b = KOk X -> shape X = shape C.
  Proof.
    unfold add. destruct (vlocal A && vlocal C)%bool; [|discriminate].
    destruct (negb (Nat.eqb (vs0 A) 1) || negb (Nat.eqb (vs0 C) 1))%bool; [discriminate|]. apply kept.
  Qed.
  Lemma scale_cols_shape order (C A X : view E) xn x a b : scale_cols order C A xn x a b = KOk X -> shape X = shape C.
  Proof. unfold scale_cols. destruct (Nat.eqb (vs0 A) 1); [|discriminate]. apply kept. Qed.
  Lemma scale_shape order (C A X : view E) a : scale order C A a = KOk X -> shape X = shape C.
  Proof. unfold scale. destruct (Nat.eqb (vs0 A) 1); [|discriminate]. apply kept. Qed.
  Lemma deep_copy_shape order (C A X : view E) : deep_copy E order C A = KOk X -> shape X = shape C.
  Proof. unfold deep_copy. destruct (_ && _)%bool; [|discriminate]. apply kept. Qed.
  Lemma deep_copy_extents_ok order (C A X : view E) : deep_copy E order C A = KOk X -> vrows C = vrows A /\ vcols C = vcols A.
  Proof.
    unfold deep_copy. destruct (Nat.eqb (vrows C) (vrows A)) eqn:R1; [|discriminate].
    destruct (Nat.eqb (vcols C) (vcols A)) eqn:R2; [|discriminate]. intros _.
    split; apply Nat.eqb_eq; assumption.
  Qed.
  Lemma apply_op_shape op k junk (x y x' : view E) : apply_op E op k junk x = (y, x') ->
    shape y = shape (alloc_uninit E (vrows x) (vcols x) (vlocal x) junk) /\ shape x' = shape x.
  Proof.
    unfold apply_op. destruct (op k _ _ _ _) as [b1 b2]. intro H.
    injection H as <- <-. split; reflexivity.
  Qed.

  (** *** Products *)
  Lemma gemm_refines sp ta tb m n k (alpha : V) A lda B ldb (beta : V) order Cb ldc :
    refines (gemm ta tb m n k alpha A lda B ldb beta order Cb ldc) (gemm_on sp ta tb m n k alpha A lda B ldb beta order Cb ldc).
  Proof. intros r H. destruct sp; cbn [gemm_on]; rewrite H; reflexivity. Qed.
  Lemma checked3_refines (A B C : view E) r r' : refines r r' -> refines (checked3 A B C r) (checked3 A B C r').
  Proof.
    intro H. unfold checked3. destruct (_ && _ && _)%bool; [|apply refines_refl].
    destruct (_ || _ || _)%bool; [apply refines_refl|]. apply refines_bind; [exact H|]. intros a _. apply refines_refl.
  Qed.
  Lemma inner_refines sp order (C A B : view E) a b : refines (inner order C A B a b) (inner_on sp order C A B a b).
  Proof. apply checked3_refines, gemm_refines. Qed.
  Lemma outer_refines sp order (C A B : view E) a b : refines (outer order C A B a b) (outer_on sp order C A B a b).
  Proof. apply checked3_refines, gemm_refines. Qed.
  Lemma transform_refines sp order (C A B : view E) a b : refines (transform order C a b A B) (transform_on sp order C a b A B).
  Proof. apply checked3_refines, gemm_refines. Qed.
  Lemma inner__refines sp order (A B : view E) a b : refines (inner_ order A B a b) (inner__on sp order A B a b).
  Proof. apply inner_refines. Qed.
  Lemma transform_alloc_refines sp order (A B : view E) a b :
    refines (transform_alloc order A B a b) (transform_alloc_on sp order A B a b).
  Proof. apply transform_refines. Qed.

  (** *** Linear systems *)
  Lemma copy_across_same (X : view E) b : copy_across X (with_buf X b) = KOk (with_buf X b).
  Proof. unfold copy_across. cbn. rewrite !Nat.eqb_refl. reflexivity. Qed.
  Lemma solve_refines sp potrf potrs (A B : view E) : refines (solve_sym potrf potrs A B) (solve_sym_on sp potrf potrs A B).
  Proof.
    destruct sp; cbn [solve_sym_on]; [apply refines_refl | |].
    - intros r H. unfold solve_sym in H. destruct (vlocal A && vlocal B)%bool; [|discriminate].
      destruct (_ || _)%bool; [discriminate|]. exact H.
    - intros r H. rewrite H. cbn [kbind]. unfold solve_sym in H. destruct (vlocal A && vlocal B)%bool; [|discriminate].
      destruct (_ || _)%bool; [discriminate|]. destruct (potrf _ _ _) as [i fa]. destruct (potrs _ _ _ _ _ _) as [i' xb].
      injection H as <-. cbn [fst snd]. rewrite !copy_across_same. reflexivity.
  Qed.
  Lemma solve_shape potrf potrs (A B : view E) r : solve_sym potrf potrs A B = KOk r -> shape (snd r) = shape B.
  Proof.
    unfold solve_sym. destruct (vlocal A && vlocal B)%bool; [|discriminate]. destruct (_ || _)%bool; [discriminate|].
    destruct (potrf _ _ _) as [i fa]. destruct (potrs _ _ _ _ _ _) as [i' xb]. intro H. injection H as <-. reflexivity.
  Qed.
End Kernels.

(** *** C <- alpha A + beta C in exact arithmetic *)
Lemma geam_refines (m n : nat) (alpha : C) A lda (beta : C) order (Cb : buf Celt) ldc :
  Permutation order (pairs m n) -> (m <= lda)%nat -> (m <= ldc)%nat ->
  refines (geam (E := Celt) alpha A lda beta order Cb ldc) (geam_dev (E := Celt) m alpha A lda beta order Cb ldc).
Proof.
  intros P La Lc. unfold geam_dev.
  destruct (Nat.eq_dec m 0) as [-> | Hm].
  { assert (order = []) as ->. { apply Permutation_nil. symmetry. exact P. }
    cbn [geam foreach]. destruct (_ || _)%bool; apply refines_refl. }
  replace (Nat.ltb lda (Nat.max 1 m)) with false by (symmetry; apply Nat.ltb_ge; lia).
  replace (Nat.ltb ldc (Nat.max 1 m)) with false by (symmetry; apply Nat.ltb_ge; lia).
  cbn [orb]. unfold geam. apply refines_foreach. intros i j c _ r H.
  unfold int_index in H.
  destruct (Z.leb _ _ && Z.leb _ _)%bool; [|discriminate].
  destruct (Z.leb _ _ && Z.leb _ _)%bool; [|discriminate].
  unfold load in *. destruct (rd A (i + lda * j)) as [a|]; [|discriminate].
  destruct (eis0 Celt beta) eqn:Z; [|exact H].
  apply eis0_true in Z. unfold modify in H. destruct (rd c (i + ldc * j)) as [old|]; [|discriminate].
  unfold store. unfold wr in *. destruct (Nat.ltb (i + ldc * j) (bsz c)); [|discriminate].
  rewrite <- H. f_equal. f_equal. cbn [Celt emul eadd]. rewrite Z. eqC. ring.
Qed.
Lemma add_refines sp order (Cv A : view Celt) (alpha beta : C) :
  Permutation order (pairs (vrows A) (vcols Cv)) -> (vrows A <= vs1 A)%nat -> (vrows A <= vs1 Cv)%nat ->
  refines (add (E := Celt) order Cv A alpha beta) (add_on (E := Celt) sp order Cv A alpha beta).
Proof.
  intros P La Lc. unfold add_on. destruct sp; [apply refines_refl | |]; unfold add;
    (destruct (vlocal A && vlocal Cv)%bool; [|apply refines_refl]; destruct (_ || _)%bool; [apply refines_refl|];
     apply refines_bind; [exact (geam_refines _ _ _ _ _ _ _ _ _ P La Lc) | intros b _; apply refines_refl]).
Qed.

(** *** Reductions *)
Lemma rows_sum_ok (X Y : view Celt) n (r : C) : rows_sum X Y n = KOk (r : ev Celt) ->
  exists v : nat -> C, (forall i, (i < n)%nat -> row_sum X Y i (vcols X) = KOk (v i : ev Celt)) /\ r = csum n v.
Proof.
  revert r. induction n as [|n IH]; intros r H; cbn [rows_sum] in H.
  - exists (fun _ => RtoC 0). split; [lia|]. injection H as <-. reflexivity.
  - apply kbind_ok in H. destruct H as (a & H1 & H). apply kbind_ok in H. destruct H as (b & H2 & H). injection H as <-.
    destruct (IH a H1) as (v & V1 & V2). exists (fun i => if Nat.eqb i n then b else v i). split.
    + intros i Hi. destruct (Nat.eqb_spec i n) as [-> |]; [exact H2 | apply V1; lia].
    + cbn [csum]. rewrite Nat.eqb_refl. cbn [Celt eadd]. f_equal. rewrite V2. apply csum_ext. intros i Hi.
      destruct (Nat.eqb_spec i n); [lia | reflexivity].
Qed.
Definition lsum (v : nat -> C) (l : list nat) : C := fold_right (fun i a => Cplus (v i) a) (RtoC 0) l.
Lemma lsum_app v l l' : lsum v (l ++ l') = Cplus (lsum v l) (lsum v l').
Proof.
  induction l as [|i l IH].
  - change (lsum v l' = Cplus (RtoC 0) (lsum v l')). ring.
  - change (Cplus (v i) (lsum v (l ++ l')) = Cplus (Cplus (v i) (lsum v l)) (lsum v l')). rewrite IH. ring.
Qed.
Lemma lsum_perm v l l' : Permutation l l' -> lsum v l = lsum v l'.
Proof.
  induction 1 as [|x l l' _ IH|x y l|l1 l2 l3 _ IH1 _ IH2]; [reflexivity | | | congruence].
  - change (Cplus (v x) (lsum v l) = Cplus (v x) (lsum v l')). rewrite IH. reflexivity.
  - change (Cplus (v y) (Cplus (v x) (lsum v l)) = Cplus (v x) (Cplus (v y) (lsum v l))). ring.
Qed.
Lemma lsum_seq v n : lsum v (seq 0 n) = csum n v.
Proof. induction n as [|n IH]; [reflexivity|]. rewrite seq_S, lsum_app, IH.
  change (Cplus (csum n v) (Cplus (v n) (RtoC 0)) = Cplus (csum n v) (v n)). ring. Qed.
Lemma tree_sum_ok (X Y : view Celt) n (v : nat -> C) :
  (forall i, (i < n)%nat -> row_sum X Y i (vcols X) = KOk (v i : ev Celt)) ->
  forall t, (forall i, In i (leaves t) -> (i < n)%nat) -> tree_sum X Y t = KOk (lsum v (leaves t) : ev Celt).
Proof.
  intros H. induction t as [|i|a IHa b IHb]; intro L; cbn [tree_sum leaves].
  - reflexivity.
  - rewrite H by (apply L; left; reflexivity). apply (f_equal KOk). change (v i = Cplus (v i) (RtoC 0)). ring.
  - rewrite IHa by (intros; apply L; cbn; apply in_or_app; left; assumption).
    rewrite IHb by (intros; apply L; cbn; apply in_or_app; right; assumption).
    cbn [kbind]. cbn [Celt eadd]. f_equal. symmetry. apply lsum_app.
Qed.
Lemma innerh_refines sp red (X Y : view Celt) : fair_red red -> refines (innerh_tr X Y) (innerh_on sp red X Y).
Proof.
  intros F r H. unfold innerh_on. assert (tree_sum X Y (red (vrows X)) = KOk r) as K.
  { unfold innerh_tr in H. apply rows_sum_ok in H. destruct H as (v & V1 & ->).
    rewrite (tree_sum_ok X Y (vrows X) v V1).
    - f_equal. rewrite (lsum_perm v _ _ (F _)). apply lsum_seq.
    - intros i I. apply (Permutation_in _ (F _)) in I. apply in_seq in I. lia. }
  destruct sp; [exact H | exact K | exact K].
Qed.

(** ** The step *)
Section Step.
  Notation V := (ev Celt).
  Context (sp : Device.space).
  Context (ord : nat -> orders) (ord1 : nat -> nat -> list nat) (junk : nat -> nat -> V) (red : nat -> nat -> rtree).
  Context (heevd : nat -> buf Celt -> nat -> Z * buf Celt * (nat -> R)).
  Context (potrf : nat -> buf Celt -> nat -> Z * buf Celt)
          (potrs : nat -> nat -> buf Celt -> nat -> buf Celt -> nat -> Z * buf Celt).
  Context (opS opP : operator_fn Celt).
  Context (s : smearing_type) (T kappa mo : R).
  Hypothesis Hord : forall t, fair (ord t).
  Hypothesis Hred : forall t, fair_red (red t).

  Lemma eigh_refines t (Sv : view Celt) j wn : vrows Sv = vcols Sv ->
    refines (eigh ord heevd t (empty_like Sv j) wn Sv) (eigh_at sp ord heevd t (empty_like Sv j) wn Sv).
  Proof.
    intros Sq r H. destruct sp; cbn [eigh_at]; [exact H | |]; unfold eigh in H;
      (apply kbind_ok in H; destruct H as (U1 & D & H);
       destruct (vlocal Sv) eqn:L; [|discriminate];
       replace (vlocal (empty_like Sv j) && true)%bool with true by (cbn; rewrite L; reflexivity);
       pose proof (deep_copy_shape _ _ _ _ D) as Sh; pose proof (shape_rows _ _ Sh) as R1; pose proof (shape_cols _ _ Sh) as C1;
       cbn in R1, C1; cbn [empty_like alloc_uninit vbuf bget]; rewrite ?D; cbn [kbind]).
    - rewrite R1, Sq. rewrite C1 in H. destruct (Nat.leb (vcols Sv) wn); [|discriminate].
      destruct (heevd _ _ _) as [[info b] w]. destruct (Z.eqb info 0); [exact H | discriminate].
    - destruct (Nat.leb (vcols U1) wn); [|discriminate].
      destruct (heevd _ _ _) as [[info b] w]. destruct (Z.eqb info 0); [|discriminate].
      rewrite copy_across_same. exact H.
  Qed.
  Lemma eigh_shape t (Sv : view Celt) U wn r : eigh ord heevd t U wn Sv = KOk r -> shape (fst r) = shape U.
  Proof.
    unfold eigh. intro H. apply kbind_ok in H. destruct H as (U1 & D & H). apply deep_copy_shape in D.
    destruct (vlocal Sv); [|discriminate]. destruct (Nat.leb _ wn); [|discriminate].
    destruct (heevd _ _ _) as [[info b] w]. destruct (Z.eqb info 0); [|discriminate]. injection H as <-. exact D.
  Qed.


  (* sizes of results *)
  Lemma inner__shape order (A B X : view Celt) a b : inner_ order A B a b = KOk X -> shape X = shape (alloc Celt (vcols A) (vcols B) (vlocal A)).
  Proof. apply checked3_shape. Qed.
  Lemma transform_alloc_shape order (A B X : view Celt) a b :
    transform_alloc order A B a b = KOk X -> shape X = shape (alloc Celt (vrows A) (vcols A) (vlocal A)).
  Proof. apply checked3_shape. Qed.

  Lemma loewdin_refines t (X SX : view Celt) : vcols SX = vcols X ->
    refines (loewdin ord junk heevd t X SX) (loewdin_at sp ord junk heevd t X SX).
  Proof.
    intro Sq. unfold loewdin, loewdin_at. apply refines_bind; [apply inner__refines|]. intros M HM.
    apply inner__shape in HM. apply refines_bind.
    { apply eigh_refines. rewrite (shape_rows _ _ HM), (shape_cols _ _ HM). symmetry. exact Sq. }
    intros Uw _. cbn zeta. apply refines_bind; [apply refines_refl|]. intros M' _.
    apply refines_bind; [apply outer_refines|]. intros Rm _. apply transform_refines.
  Qed.

  Lemma advance_eta_refines t step (eta d : view Celt) : (vrows d <= vs1 d)%nat ->
    refines (advance_eta ord junk t step eta d) (advance_eta_at sp ord junk t step eta d).
  Proof.
    intro Ld. unfold advance_eta, advance_eta_at. apply refines_bind; [apply refines_refl|]. intros e1 H. apply deep_copy_shape in H.
    apply add_refines; [apply Hord | exact Ld | rewrite (shape_s1 _ _ H); cbn; lia].
  Qed.

  Lemma advance_x_refines t k step (x dx ul : view Celt) : (vrows dx <= vs1 dx)%nat -> (vrows dx <= vrows x)%nat ->
    refines (advance_x ord junk heevd opS t k step x dx ul) (advance_x_at sp ord junk heevd opS t k step x dx ul).
  Proof.
    intros Ld Lx. unfold advance_x, advance_x_at. apply refines_bind; [apply refines_refl|]. intros x1 H. apply deep_copy_shape in H.
    apply refines_bind; [apply add_refines; [apply Hord | exact Ld | rewrite (shape_s1 _ _ H); exact Lx]|].
    intros x2 _. destruct (apply_op Celt opS k (junk (t + 1)%nat) x2) as [sx x3] eqn:A.
    apply apply_op_shape in A. destruct A as [A1 A2].
    apply refines_bind; [apply loewdin_refines; rewrite (shape_cols _ _ A1), (shape_cols _ _ A2); reflexivity|].
    intros y _. apply transform_alloc_refines.
  Qed.

  Theorem geodesic_refines t k step (X eta zx ze : view Celt) :
    (vrows zx <= vs1 zx)%nat -> (vrows zx <= vrows X)%nat -> (vrows ze <= vs1 ze)%nat -> vrows ze = vcols ze ->
    refines (geodesic_us ord junk heevd opS t k step X eta zx ze) (geodesic_us_at sp ord junk heevd opS t k step X eta zx ze).
  Proof.
    intros L1 L2 L3 Sq. unfold geodesic_us, geodesic_us_at. apply refines_bind; [apply advance_eta_refines; exact L3|].
    intros en H. unfold advance_eta in H. apply kbind_ok in H. destruct H as (e1 & D & H). apply deep_copy_shape in D. apply add_shape in H.
    apply refines_bind.
    { apply eigh_refines. rewrite (shape_rows _ _ H), (shape_cols _ _ H), (shape_rows _ _ D), (shape_cols _ _ D). exact Sq. }
    intros Ue _. apply refines_bind; [apply advance_x_refines; assumption|]. intros xn _. apply refines_refl.
  Qed.

  Lemma lmult_refines t k (sx hx : view Celt) :
    refines (lmult ord junk potrf potrs opP t k sx hx) (lmult_at sp ord junk potrf potrs opP t k sx hx).
  Proof.
    unfold lmult, lmult_at. destruct (apply_op Celt opP k (junk t) sx) as [psx sx1].
    apply refines_bind; [apply inner__refines|]. intros a _.
    destruct (apply_op Celt opP k (junk (t + 1)%nat) hx) as [phx hx1].
    apply refines_bind; [apply inner__refines|]. intros b _.
    apply refines_bind; [apply solve_refines|]. intros c _. apply transform_alloc_refines.
  Qed.
  Lemma lmult_shape t k (sx hx l : view Celt) : lmult ord junk potrf potrs opP t k sx hx = KOk l ->
    vrows l = vrows sx /\ vs1 l = vrows sx /\ vcols l = vcols sx.
  Proof.
    unfold lmult. destruct (apply_op Celt opP k (junk t) sx) as [psx sx1] eqn:A. apply apply_op_shape in A. destruct A as [_ A].
    intro H. apply kbind_ok in H. destruct H as (a & _ & H).
    destruct (apply_op Celt opP k (junk (t + 1)%nat) hx) as [phx hx1].
    apply kbind_ok in H. destruct H as (b & _ & H). apply kbind_ok in H. destruct H as (c & _ & H). apply transform_alloc_shape in H.
    rewrite (shape_rows _ _ H), (shape_s1 _ _ H), (shape_cols _ _ H). cbn.
    rewrite (shape_rows _ _ A), (shape_cols _ _ A). repeat split.
  Qed.
  Lemma gradx_refines t (x hx : view Celt) fn (xll : view Celt) wk : (vrows xll <= vs1 xll)%nat -> (vrows xll <= vrows x)%nat ->
    refines (gradx ord junk t x hx fn xll wk) (gradx_at sp ord junk t x hx fn xll wk).
  Proof.
    intros L1 L2. unfold gradx, gradx_at. apply refines_bind; [apply refines_refl|]. intros g H. apply scale_cols_shape in H.
    apply add_refines; [apply Hord | exact L1 | rewrite (shape_s1 _ _ H); exact L2].
  Qed.
  Lemma precond_refines t k (x hx xll : view Celt) : (vrows hx <= vs1 hx)%nat -> (vrows hx <= vrows x)%nat ->
    (vrows xll <= vs1 xll)%nat -> (vrows xll <= vrows x)%nat ->
    refines (precondgx_us ord junk opP t k x hx xll) (precondgx_us_at sp ord junk opP t k x hx xll).
  Proof.
    intros L1 L2 L3 L4. unfold precondgx_us, precondgx_us_at.
    apply refines_bind; [apply add_refines; [apply Hord | exact L1 | exact L2]|]. intros d0 H. apply add_shape in H.
    apply refines_bind; [apply add_refines; [apply Hord | exact L3 | rewrite (shape_s1 _ _ H); exact L4]|].
    intros d1 _. apply refines_refl.
  Qed.
  Lemma precond_shape t k (x hx xll d : view Celt) : precondgx_us ord junk opP t k x hx xll = KOk d ->
    vrows d = vrows x /\ vs1 d = vrows x.
  Proof.
    unfold precondgx_us. intro H. apply kbind_ok in H. destruct H as (d0 & H0 & H). apply add_shape in H0.
    apply kbind_ok in H. destruct H as (d1 & H1 & H). apply add_shape in H1.
    injection H as <-. destruct (apply_op Celt opP k (junk t) d1) as [y z] eqn:A. apply apply_op_shape in A. destruct A as [A _].
    cbn [fst]. rewrite (shape_rows _ _ A), (shape_s1 _ _ A). cbn. rewrite (shape_rows _ _ H1), (shape_rows _ _ H0). split; reflexivity.
  Qed.
  Lemma rotateeta_refines t (eta u : view Celt) : refines (rotateeta ord t eta u) (rotateeta_at sp ord t eta u).
  Proof. apply refines_bind; [apply transform_alloc_refines|]. intros e _. apply inner__refines. Qed.
  Lemma conjugatex_refines t (zxp sx : view Celt) : (vrows sx <= vs1 zxp)%nat ->
    refines (conjugatex ord potrf potrs t zxp sx) (conjugatex_at sp ord potrf potrs t zxp sx).
  Proof.
    intro L. unfold conjugatex, conjugatex_at. apply refines_bind; [apply inner__refines|]. intros a _.
    apply refines_bind; [apply inner__refines|]. intros b _. apply refines_bind; [apply solve_refines|]. intros c _.
    apply refines_bind; [apply transform_alloc_refines|]. intros d H. apply transform_alloc_shape in H.
    apply add_refines; [apply Hord | |]; rewrite (shape_rows _ _ H); [rewrite (shape_s1 _ _ H); cbn; lia | exact L].
  Qed.
  Lemma conjugatex_shape t (zxp sx z : view Celt) : conjugatex ord potrf potrs t zxp sx = KOk z -> shape z = shape zxp.
  Proof.
    unfold conjugatex. intro H. repeat (apply kbind_ok in H; destruct H as (? & _ & H)). apply add_shape in H. exact H.
  Qed.
  Lemma delta_eta_shape t (hij d : view Celt) ek wk : delta_eta ord ord1 junk kappa t hij ek wk = KOk d ->
    vrows d = vrows hij /\ vs1 d = vrows hij.
  Proof.
    unfold delta_eta. intro H. apply kbind_ok in H. destruct H as (e & H1 & H). apply scale_shape in H1. apply kept in H.
    rewrite (shape_rows _ _ H), (shape_s1 _ _ H), (shape_rows _ _ H1), (shape_s1 _ _ H1). split; reflexivity.
  Qed.

  Lemma exec_restart_refines t k mu dmu dF wk (x : view Celt) e f (hx : view Celt) :
    (vrows hx <= vs1 hx)%nat -> (vrows hx <= vrows x)%nat ->
    refines (exec_restart ord ord1 junk potrf potrs opS opP s T kappa mo t k mu dmu dF wk x e f hx)
            (exec_restart_at sp ord ord1 junk red potrf potrs opS opP s T kappa mo t k mu dmu dF wk x e f hx).
  Proof.
    intros L1 L2. unfold exec_restart, exec_restart_at.
    destruct (apply_op Celt opS k (junk t) x) as [sx x1] eqn:A. apply apply_op_shape in A. destruct A as [A1 A2].
    assert (vrows sx = vrows x) as Rs by exact (shape_rows _ _ A1).
    apply refines_bind; [apply lmult_refines|]. intros llm HL. apply lmult_shape in HL. destruct HL as (l1 & l2 & _).
    apply refines_bind; [apply gradx_refines; lia|]. intros gx _.
    apply refines_bind; [apply precond_refines; lia|]. intros dx _.
    apply refines_bind; [apply inner__refines|]. intros hij _.
    apply refines_bind; [apply refines_refl|]. intros ge _.
    apply refines_bind; [apply refines_refl|]. intros de _.
    apply refines_bind; [apply innerh_refines, Hred|]. intros frx _.
    apply refines_bind; [apply innerh_refines, Hred|]. intros fre _. apply refines_refl.
  Qed.

  Lemma exec_conjugate_refines t (sx zxp zetap ul gx ge : view Celt) : (vrows sx <= vrows zxp)%nat ->
    refines (exec_conjugate ord potrf potrs t sx zxp zetap ul gx ge) (exec_conjugate_at sp ord red potrf potrs t sx zxp zetap ul gx ge).
  Proof.
    intro L. unfold exec_conjugate, exec_conjugate_at. apply refines_bind; [apply transform_alloc_refines|].
    intros z H. apply transform_alloc_shape in H.
    apply refines_bind; [apply rotateeta_refines|]. intros ze _.
    apply refines_bind; [apply conjugatex_refines; rewrite (shape_s1 _ _ H); exact L|]. intros zx _.
    apply refines_bind; [apply innerh_refines, Hred|]. intros a _.
    apply refines_bind; [apply innerh_refines, Hred|]. intros b _. apply refines_refl.
  Qed.
  Lemma exec_conjugate_shape t (sx zxp zetap ul gx ge : view Celt) r :
    exec_conjugate ord potrf potrs t sx zxp zetap ul gx ge = KOk r ->
    vs1 (snd (fst r)) = vrows zxp /\ vs1 (snd r) = vcols ul.
  Proof.
    unfold exec_conjugate. intro H.
    apply kbind_ok in H. destruct H as (z & H1 & H). apply transform_alloc_shape in H1.
    apply kbind_ok in H. destruct H as (ze & H2 & H). unfold rotateeta in H2. apply kbind_ok in H2. destruct H2 as (eu & _ & H2). apply inner__shape in H2.
    apply kbind_ok in H. destruct H as (zx & H3 & H). apply conjugatex_shape in H3.
    apply kbind_ok in H. destruct H as (a & _ & H). apply kbind_ok in H. destruct H as (b & _ & H). injection H as <-. cbn [fst snd].
    rewrite (shape_s1 _ _ H3), (shape_s1 _ _ H1), (shape_s1 _ _ H2). split; reflexivity.
  Qed.

  Lemma exec_cg_refines t k mu dmu dF wk (x : view Celt) e f (hx zxp zetap ul : view Celt) :
    (vrows hx <= vs1 hx)%nat -> (vrows hx <= vrows x)%nat -> (vrows x <= vrows zxp)%nat ->
    refines (exec_cg ord ord1 junk potrf potrs opS opP s T kappa mo t k mu dmu dF wk x e f hx zxp zetap ul)
            (exec_cg_at sp ord ord1 junk red potrf potrs opS opP s T kappa mo t k mu dmu dF wk x e f hx zxp zetap ul).
  Proof.
    intros L1 L2 L3. unfold exec_cg, exec_cg_at.
    destruct (apply_op Celt opS k (junk t) x) as [sx x1] eqn:A. apply apply_op_shape in A. destruct A as [A1 A2].
    assert (vrows sx = vrows x) as Rs by exact (shape_rows _ _ A1).
    apply refines_bind; [apply lmult_refines|]. intros llm HL. apply lmult_shape in HL. destruct HL as (l1 & l2 & _).
    apply refines_bind; [apply gradx_refines; lia|]. intros gx _.
    apply refines_bind; [apply precond_refines; lia|]. intros dx _.
    apply refines_bind; [apply inner__refines|]. intros hij _.
    apply refines_bind; [apply refines_refl|]. intros ge _.
    apply refines_bind; [apply refines_refl|]. intros de _.
    apply refines_bind; [apply innerh_refines, Hred|]. intros frx _.
    apply refines_bind; [apply innerh_refines, Hred|]. intros fre _.
    apply refines_bind; [apply exec_conjugate_refines; lia|]. intros cj _. apply refines_refl.
  Qed.
  (** what the next loop needs to know about the directions of one k-point *)
  Definition combinable (dx de zx ze : view Celt) : Prop :=
    (vrows dx <= vs1 dx)%nat /\ (vrows dx <= vs1 zx)%nat /\ (vrows de <= vs1 de)%nat /\ (vrows de <= vs1 ze)%nat.
  Lemma exec_cg_combinable t k mu dmu dF wk (x : view Celt) e f (hx zxp zetap ul : view Celt) fr dx de zx ze sl :
    (vrows x <= vrows zxp)%nat -> (vcols x <= vcols ul)%nat ->
    exec_cg ord ord1 junk potrf potrs opS opP s T kappa mo t k mu dmu dF wk x e f hx zxp zetap ul = KOk (fr, dx, de, zx, ze, sl) ->
    combinable dx de zx ze.
  Proof.
    intros L1 L2. unfold exec_cg.
    destruct (apply_op Celt opS k (junk t) x) as [sx x1] eqn:A. apply apply_op_shape in A. destruct A as [A1 A2].
    assert (vrows sx = vrows x) as Rs by exact (shape_rows _ _ A1).
    assert (vcols x1 = vcols x) as Cs by exact (shape_cols _ _ A2).
    intro H. apply kbind_ok in H. destruct H as (llm & _ & H). apply kbind_ok in H. destruct H as (gx & _ & H).
    apply kbind_ok in H. destruct H as (dx' & H1 & H). apply precond_shape in H1. destruct H1 as (d1 & d2).
    apply kbind_ok in H. destruct H as (hij & H2 & H). apply inner__shape in H2. pose proof (shape_rows _ _ H2) as H2'. cbn in H2'.
    apply kbind_ok in H. destruct H as (ge & _ & H).
    apply kbind_ok in H. destruct H as (de' & H3 & H). apply delta_eta_shape in H3. destruct H3 as (e1 & e2).
    apply kbind_ok in H. destruct H as (frx & _ & H). apply kbind_ok in H. destruct H as (fre & _ & H).
    apply kbind_ok in H. destruct H as (cj & H4 & H). apply exec_conjugate_shape in H4. destruct H4 as (z1 & z2).
    injection H as _ <- <- <- <- _. unfold combinable. rewrite z1, z2. lia.
  Qed.
  Lemma combine_refines t gamma (dx de zx ze : view Celt) : combinable dx de zx ze ->
    refines (combine_directions ord t gamma dx de zx ze) (combine_directions_at sp ord t gamma dx de zx ze).
  Proof.
    intros (L1 & L2 & L3 & L4). unfold combine_directions, combine_directions_at.
    apply refines_bind; [apply add_refines; [apply Hord | exact L1 | exact L2]|]. intros zx' _.
    apply refines_bind; [apply add_refines; [apply Hord | exact L3 | exact L4]|]. intros ze' _. apply refines_refl.
  Qed.

  (** *** All k-points *)
  Lemma kmap_refines {A B} (f g : nat -> A -> kres B) l : (forall t a, In a l -> refines (f t a) (g t a)) ->
    forall t, refines (kmap f t l) (kmap g t l).
  Proof.
    induction l as [|a l IH]; intros F t; cbn [kmap]; [apply refines_refl|].
    apply refines_bind; [apply F; left; reflexivity|]. intros b _.
    apply refines_bind; [apply IH; intros t' a' I; apply F; right; exact I|]. intros bs _. apply refines_refl.
  Qed.
  Lemma kmap2_refines {A B} (f g : nat -> A -> kres B) w : (forall t l a, In l w -> In a l -> refines (f t a) (g t a)) ->
    forall t, refines (kmap2 f t w) (kmap2 g t w).
  Proof.
    induction w as [|l w IH]; intros F t; cbn [kmap2]; [apply refines_refl|].
    apply refines_bind; [apply kmap_refines; intros t' a I; apply (F t' l); [left; reflexivity | exact I]|]. intros b _.
    apply refines_bind; [apply IH; intros t' l' a' I I'; apply (F t' l'); [right; exact I | exact I']|]. intros bs _. apply refines_refl.
  Qed.
  Lemma kmap_origin {A B} (f : nat -> A -> kres B) l : forall t r b, kmap f t l = KOk r -> In b r -> exists t' a, In a l /\ f t' a = KOk b.
  Proof.
    induction l as [|a l IH]; intros t r b H I; cbn [kmap] in H.
    - injection H as <-. destruct I.
    - apply kbind_ok in H. destruct H as (b0 & H1 & H). apply kbind_ok in H. destruct H as (bs & H2 & H). injection H as <-.
      destruct I as [<- | I]; [exists t, a; split; [left; reflexivity | exact H1]|].
      destruct (IH _ _ _ H2 I) as (t' & a' & I' & H'). exists t', a'. split; [right; exact I' | exact H'].
  Qed.
  Lemma kmap2_origin {A B} (f : nat -> A -> kres B) w : forall t r l b, kmap2 f t w = KOk r -> In l r -> In b l ->
    exists t' l' a, In l' w /\ In a l' /\ f t' a = KOk b.
  Proof.
    induction w as [|l0 w IH]; intros t r l b H I Ib; cbn [kmap2] in H.
    - injection H as <-. destruct I.
    - apply kbind_ok in H. destruct H as (b0 & H1 & H). apply kbind_ok in H. destruct H as (bs & H2 & H). injection H as <-.
      destruct I as [<- | I].
      + destruct (kmap_origin _ _ _ _ _ H1 Ib) as (t' & a & Ia & Ha). exists t', l0, a. split; [left; reflexivity | split; assumption].
      + destruct (IH _ _ _ _ H2 I Ib) as (t' & l' & a & I1 & I2 & Ha). exists t', l', a. split; [right; exact I1 | split; assumption].
  Qed.

  (** H X is stored column by column and has the rows of X *)
  Definition kpoint_fits (k : memk) : Prop := (vrows (mk_hx k) <= vs1 (mk_hx k))%nat /\ (vrows (mk_hx k) <= vrows (mk_x k))%nat.
  Theorem restarted_refines world mu : (forall l k, In l world -> In k l -> kpoint_fits k) ->
    refines (restarted ord ord1 junk potrf potrs opS opP s T kappa mo world mu)
            (restarted_at sp ord ord1 junk red potrf potrs opS opP s T kappa mo world mu).
  Proof.
    intro F. unfold restarted, restarted_at. apply refines_bind; [apply refines_refl|]. intros dF _. cbn zeta.
    apply refines_bind.
    - apply kmap2_refines. intros t l a Il Ia. destruct (F l a Il Ia) as [L1 L2]. apply exec_restart_refines; assumption.
    - intros r _. apply refines_refl.
  Qed.
  Theorem conjugated_refines fr_old world mu :
    (forall l k zx ze ul, In l world -> In (k, (zx, ze, ul)) l ->
       kpoint_fits k /\ (vrows (mk_x k) <= vrows zx)%nat /\ (vcols (mk_x k) <= vcols ul)%nat) ->
    refines (conjugated ord ord1 junk potrf potrs opS opP s T kappa mo fr_old world mu)
            (conjugated_at sp ord ord1 junk red potrf potrs opS opP s T kappa mo fr_old world mu).
  Proof.
    intro F. unfold conjugated, conjugated_at. apply refines_bind; [apply refines_refl|]. intros dF _. cbn zeta.
    apply refines_bind.
    - apply kmap2_refines. intros t l [k [[zx ze] ul]] Il Ia. destruct (F l k zx ze ul Il Ia) as ((L1 & L2) & L3 & L4).
      apply exec_cg_refines; assumption.
    - intros r H. apply refines_bind; [|intros zs _; apply refines_refl].
      apply kmap2_refines. intros t l [[[[[fr dx] de] zx] ze] sl] Il Ia. apply combine_refines.
      destruct (kmap2_origin _ _ _ _ _ _ H Il Ia) as (t' & l' & [k [[zxp zetap] ul]] & I1 & I2 & Q).
      destruct (F l' k zxp zetap ul I1 I2) as (_ & L3 & L4).
      exact (exec_cg_combinable _ _ _ _ _ _ _ _ _ _ _ _ _ _ _ _ _ _ _ L3 L4 Q).
  Qed.
End Step.

(** ** The host instance is the step of StepMem.v *)
Lemma host_geodesic ord junk heevd opS t k step X eta zx ze :
  geodesic_us_at Device.SHost ord junk heevd opS t k step X eta zx ze = geodesic_us ord junk heevd opS t k step X eta zx ze.
Proof. reflexivity. Qed.
Lemma host_restarted ord ord1 junk red potrf potrs opS opP s T kappa mo world mu :
  restarted_at Device.SHost ord ord1 junk red potrf potrs opS opP s T kappa mo world mu =
  restarted ord ord1 junk potrf potrs opS opP s T kappa mo world mu.
Proof. reflexivity. Qed.
Lemma host_conjugated ord ord1 junk red potrf potrs opS opP s T kappa mo fr_old world mu :
  conjugated_at Device.SHost ord ord1 junk red potrf potrs opS opP s T kappa mo fr_old world mu =
  conjugated ord ord1 junk potrf potrs opS opP s T kappa mo fr_old world mu.
Proof. reflexivity. Qed.

(** ** Where the spaces differ *)
(** a failed diagonalisation: an exception on the host, a result on the devices *)
Theorem failed_eigh ord heevd t (Sv : view Celt) j wn U1 : fair (ord t) -> vrows Sv = vcols Sv -> (vcols Sv <= wn)%nat -> vlocal Sv = true ->
  deep_copy Celt (ord t (vrows Sv) (vcols Sv)) (empty_like Sv j) Sv = KOk U1 ->
  (forall n b ld, fst (fst (heevd n b ld)) <> 0%Z) ->
  eigh_at Device.SHost ord heevd t (empty_like Sv j) wn Sv = KThrow /\
  forall sp, sp <> Device.SHost -> exists r, eigh_at sp ord heevd t (empty_like Sv j) wn Sv = KOk r.
Proof.
  intros _ Sq W L D Bad.
  pose proof (deep_copy_shape _ _ _ _ D) as Sh. pose proof (shape_rows _ _ Sh) as R1. pose proof (shape_cols _ _ Sh) as C1. cbn in R1, C1.
  apply Nat.leb_le in W.
  split.
  - cbn [eigh_at]. unfold eigh. rewrite D. cbn [kbind]. rewrite L, C1, W.
    specialize (Bad (vcols Sv) (vbuf U1) (vs1 U1)). destruct (heevd _ _ _) as [[info b] w]. cbn in Bad.
    apply Z.eqb_neq in Bad. rewrite Bad. reflexivity.
  - intros [ | | ] N; [exfalso; apply N; reflexivity | |]; cbn [eigh_at];
      (replace (vlocal (empty_like Sv j) && vlocal Sv)%bool with true by (cbn; rewrite L; reflexivity)); rewrite D; cbn [kbind].
    + rewrite R1, Sq, W. destruct (heevd _ _ _) as [[info b] w]. eexists. reflexivity.
    + cbn [empty_like alloc_uninit vbuf bget]. change (alloc_uninit Celt (vrows Sv) (vcols Sv) (vlocal Sv) j) with (empty_like Sv j).
      rewrite D. cbn [kbind]. rewrite C1, W. destruct (heevd _ _ _) as [[info b] w]. rewrite copy_across_same. eexists. reflexivity.
Qed.
(** arguments zgemm rejects: nothing is computed, but only the host says so *)
Theorem rejected_gemm {E : elt} ta tb m n k (alpha : ev E) A lda B ldb (beta : ev E) order Cb ldc :
  gemm ta tb m n k alpha A lda B ldb beta order Cb ldc = KBadArg ->
  forall sp, sp <> Device.SHost -> gemm_on sp ta tb m n k alpha A lda B ldb beta order Cb ldc = KOk Cb.
Proof. intros H [ | | ] N; [exfalso; apply N; reflexivity | |]; cbn [gemm_on]; rewrite H; reflexivity. Qed.
(** on a device, add with beta = 0 does not depend on what C held, in any arithmetic *)
Theorem add_device_beta0 {E : elt} sp order (Cv A : view E) alpha beta : sp <> Device.SHost ->
  Permutation order (pairs (vrows A) (vcols Cv)) -> vlocal A = true -> vlocal Cv = true ->
  col_major A -> col_major Cv -> allocated A -> allocated Cv -> vrows A = vrows Cv -> vcols A = vcols Cv -> eis0 E beta = true ->
  exists X, add_on sp order Cv A alpha beta = KOk X /\ forall i j, (i < vrows Cv)%nat -> (j < vcols Cv)%nat -> vat X i j = emul E alpha (vat A i j).
Proof.
  intros N P LA LC (A0 & A1 & A2) (C0 & C1 & C2) HA HC R1 R2 Z.
  assert (exists b, geam_dev (vrows A) alpha (vbuf A) (vs1 A) beta order (vbuf Cv) (vs1 Cv) = KOk b /\
            forall i j, (i < vrows Cv)%nat -> (j < vcols Cv)%nat -> bget b (i + vs1 Cv * j) = emul E alpha (vat A i j)) as (b & G & GV).
  { unfold geam_dev.
    replace (Nat.ltb (vs1 A) (Nat.max 1 (vrows A))) with false by (symmetry; apply Nat.ltb_ge; lia).
    replace (Nat.ltb (vs1 Cv) (Nat.max 1 (vrows A))) with false by (symmetry; apply Nat.ltb_ge; lia). cbn [orb]. rewrite Z.
    destruct (foreach_spec (fun i j => (i + vs1 Cv * j)%nat) (fun i j _ => emul E alpha (vat A i j))
      (fun i j c => load (vbuf A) (i + vs1 A * j) (fun a => store c (i + vs1 Cv * j) (emul E alpha a))) order (vbuf Cv)) as (b & B1 & _ & B2 & _).
    - intros i j c I Hc. apply (order_in _ _ _ P) in I. destruct I as [I J].
      assert (i + vs1 A * j < bsz (vbuf A))%nat as Q1. { generalize (HA i j I). rewrite A0. rewrite R2. intro Q. specialize (Q J). lia. }
      assert (i + vs1 Cv * j < bsz c)%nat as Q2. { rewrite Hc. generalize (HC i j). rewrite C0. rewrite <- R1. intro Q. specialize (Q I J). lia. }
      rewrite load_in by exact Q1. rewrite store_in by exact Q2. unfold vat, addr. rewrite A0.
      replace (i * 1 + j * vs1 A)%nat with (i + vs1 A * j)%nat by lia. reflexivity.
    - exact (order_nodup _ _ _ P).
    - intros i j i' j' I I' Q. apply (order_in _ _ _ P) in I. apply (order_in _ _ _ P) in I'.
      apply (cm_inj (vs1 Cv) (vrows A)); [lia | apply I | apply I' | exact Q].
    - exists b. split; [exact B1|]. intros i j I J. apply B2. apply (order_in _ _ _ P). rewrite R1. split; assumption. }
  exists (with_buf Cv b). split.
  - destruct sp; [exfalso; apply N; reflexivity | |]; cbn [add_on]; rewrite LA, LC, A0, C0; cbn [andb negb Nat.eqb orb]; rewrite G; reflexivity.
  - intros i j I J. unfold vat at 1, addr. cbn [with_buf vbuf vs0 vs1]. rewrite C0, <- (GV i j I J). f_equal. lia.
Qed.
Theorem minus_device (E : elt) sp order junk m1 zero (X : view E) : sp <> Device.SHost ->
  Permutation order (pairs (vrows X) (vcols X)) -> vlocal X = true -> col_major X -> (1 <= vrows X)%nat -> allocated X -> eis0 E zero = true ->
  exists Y, minus_on sp order junk m1 zero X = KOk Y /\
    forall i j, (i < vrows X)%nat -> (j < vcols X)%nat -> vat Y i j = emul E m1 (vat X i j).
Proof.
  intros N P L CM R AL Z. unfold minus_on.
  apply (add_device_beta0 sp order (alloc_uninit E (vrows X) (vcols X) (vlocal X) junk) X m1 zero N P L L CM); try assumption; try reflexivity.
  - unfold col_major. cbn. lia.
  - intros i j. cbn. intros Hi Hj. nia.
Qed.
