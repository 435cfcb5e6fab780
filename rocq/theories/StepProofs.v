(** The composed kernels of StepMem.v compute what Descent.v says, without undefined behaviour. *)
From Coq Require Import ZArith Reals Lra Psatz Arith Lia List Bool Permutation.
From Coquelicot Require Import Complex.
From Verif Require Import Arith LinAlg MVector LapackMem LapackMemProofs LapackElt LapackFacts Exchange Smearing Newton Occupation StepMem.
From Verif Require Descent DescentProofs Geodesic GeodesicProofs.
Import ListNotations.
Local Open Scope R_scope.

(** ** Specification vocabulary *)
(** an r x c matrix that can be held by fresh memory: all index computations fit into int *)
Definition small (r c : nat) : Prop := (Z.of_nat r + Z.of_nat r * Z.of_nat c <= 2147483647)%Z.
(** [X] is a local, column-major, completely allocated view of an r x c matrix with the elements of [M] *)
Record holds (r c : nat) (X : view Celt) (M : mat) : Prop := MkHolds {
  h_rows : vrows X = r; h_cols : vcols X = c; h_local : vlocal X = true;
  h_cm : col_major X; h_alloc : allocated X; h_int : int_indexed X;
  h_mat : meq r c (mat_of X) M
}.
(** The operator [op] of the calling program multiplies the columns of k-point k by the n x n matrix [M]. *)
Definition acts_as (op : operator_fn Celt) (k : key) (n : nat) (M : mat) : Prop :=
  exists f, honours Celt op f /\
    forall c (x : mat) i j, (i < n)%nat -> (j < c)%nat -> f k n c x i j = mmul n M x i j.
(** Loops over 0..n-1 visit every index once. *)
Definition fair1 (o : nat -> list nat) : Prop := forall n, Permutation (o n) (seq 0 n).

(** ** Lemmas *)
Lemma holds_ext r c X M M' : holds r c X M -> meq r c M M' -> holds r c X M'.
Proof. intros [? ? ? ? ? ? H] E. constructor; try assumption. exact (meq_trans _ _ _ _ _ H E). Qed.
Lemma holds_self r c X M : holds r c X M -> holds r c X (mat_of X).
Proof. intros [? ? ? ? ? ? H]. constructor; try assumption. apply meq_refl. Qed.
Lemma instead_holds r c X Y M M' N : holds r c X M -> holds_instead X Y M' -> meq r c M' N -> holds r c Y N.
Proof.
  intros [Hr Hc Hl Hcm Ha Hi Hm] (E1 & E2 & E3 & E4 & E5 & E6 & E7 & E8) EN.
  constructor.
  - congruence.
  - congruence.
  - congruence.
  - unfold col_major in *. rewrite E1, E3, E4. exact Hcm.
  - unfold allocated in *. rewrite E1, E2, E3, E4, E6. exact Ha.
  - unfold int_indexed in *. rewrite E1, E2, E4. exact Hi.
  - rewrite Hr, Hc in E7. exact (meq_trans _ _ _ _ _ E7 EN).
Qed.
Lemma uninit_holds r c j : (1 <= r)%nat -> small r c -> holds r c (alloc_uninit Celt r c true j) (mat_of (alloc_uninit Celt r c true j)).
Proof.
  intros Hr Hs. constructor; try reflexivity.
  - unfold col_major; cbn. lia.
  - intros a b Ha Hb. cbn in *. nia.
  - unfold int_indexed; cbn [alloc_uninit vrows vcols vs1]. exact Hs.
Qed.
Lemma zeros_holds r c : (1 <= r)%nat -> small r c -> holds r c (alloc Celt r c true) mzero.
Proof.
  intros Hr Hs. constructor; try reflexivity.
  - unfold col_major; cbn. lia.
  - intros a b Ha Hb. cbn in *. nia.
  - unfold int_indexed; cbn [alloc vrows vcols vs1]. exact Hs.
Qed.
Lemma zeros_like_holds r c X M : (1 <= r)%nat -> small r c -> holds r c X M -> holds r c (zeros_like X) mzero.
Proof. intros Hr Hs [E1 E2 E3 _ _ _ _]. unfold zeros_like. rewrite E1, E2, E3. apply zeros_holds; assumption. Qed.
Lemma empty_like_holds r c X M j : (1 <= r)%nat -> small r c -> holds r c X M -> holds r c (empty_like X j) (mat_of (empty_like X j)).
Proof. intros Hr Hs [E1 E2 E3 _ _ _ _]. unfold empty_like. rewrite E1, E2, E3. apply uninit_holds; assumption. Qed.

Lemma madd_0 n m A B : meq n m B mzero -> meq n m (madd A B) A.
Proof. intros H i j Hi Hj. unfold madd. rewrite (H i j Hi Hj). unfold mzero. apply Cplus_0_r. Qed.
Lemma mscal_0 n m A : meq n m (mscal (RtoC 0) A) mzero.
Proof. intros i j _ _. unfold mscal, mzero. apply Cmult_0_l. Qed.

Section Kernels.
  Notation V := (ev Celt).

  Lemma k_inner_ o n p q A B MA MB (alpha : R) : fair o -> (1 <= p)%nat -> small p q ->
    holds n p A MA -> holds n q B MB ->
    exists X, inner_ (o (vcols A) (vcols B)) A B (RtoC alpha : V) (RtoC 0 : V) = KOk X /\ holds p q X (Descent.inner_ n MA MB alpha).
  Proof.
    intros Ho Hp Hs [A1 A2 A3 A4 A5 A6 A7] [B1 B2 B3 B4 B5 B6 B7].
    unfold inner_. rewrite A3.
    pose proof (zeros_holds p q Hp Hs) as HZ.
    destruct (inner_exact (o (vcols A) (vcols B)) (alloc Celt (vcols A) (vcols B) true) A B (RtoC alpha) (RtoC 0)) as (X & EX & HX).
    - apply Ho.
    - repeat split; assumption.
    - assumption.
    - assumption.
    - rewrite A2, B2. apply HZ.
    - assumption.
    - assumption.
    - rewrite A2, B2. apply HZ.
    - congruence.
    - reflexivity.
    - reflexivity.
    - exists X. split; [exact EX|]. rewrite A2, B2 in HX.
      apply (instead_holds _ _ _ _ _ _ _ HZ HX).
      unfold Descent.inner_. eapply meq_trans; [apply madd_0, mscal_0|].
      rewrite A1. apply mscal_ext. apply mmul_ext; [apply adj_ext; exact A7 | exact B7].
  Qed.

  Lemma k_transform o n p q A B Cv MA MB MC (alpha beta : R) : fair o ->
    holds n p A MA -> holds p q B MB -> holds n q Cv MC ->
    exists X, transform (o (vrows A) (vcols B)) Cv (RtoC beta : V) (RtoC alpha : V) A B = KOk X /\
      holds n q X (madd (mscal (RtoC alpha) (mmul p MA MB)) (mscal (RtoC beta) MC)).
  Proof.
    intros Ho [A1 A2 A3 A4 A5 A6 A7] [B1 B2 B3 B4 B5 B6 B7] HC. pose proof HC as [C1 C2 C3 C4 C5 C6 C7].
    destruct (transform_exact (o (vrows A) (vcols B)) Cv A B (RtoC alpha) (RtoC beta)) as (X & EX & HX);
      try assumption; try congruence; [apply Ho | repeat split; assumption |].
    exists X. split; [exact EX|].
    apply (instead_holds _ _ _ _ _ _ _ HC HX).
    rewrite A2. apply madd_ext; apply mscal_ext; [apply mmul_ext; assumption | assumption].
  Qed.
  Lemma k_transform_alloc o n p A B MA MB : fair o -> (1 <= n)%nat -> small n p ->
    holds n p A MA -> holds p p B MB ->
    exists X, transform_alloc (o (vrows A) (vcols B)) A B (RtoC 1 : V) (RtoC 0 : V) = KOk X /\ holds n p X (Descent.transform_alloc p MA MB).
  Proof.
    intros Ho Hn Hs HA HB. pose proof (zeros_like_holds _ _ _ _ Hn Hs HA) as HZ.
    destruct (k_transform o n p p A B _ _ _ _ 1 0 Ho HA HB HZ) as (X & EX & HX).
    exists X. split; [exact EX|]. apply (holds_ext _ _ _ _ _ HX).
    eapply meq_trans; [apply madd_0, mscal_0|]. rewrite mscal_1. apply meq_refl.
  Qed.
  Lemma k_outer o m A B Cv MA MB MC : fair o -> holds m m A MA -> holds m m B MB -> holds m m Cv MC ->
    exists X, outer (o (vcols A) (vcols B)) Cv A B (RtoC 1 : V) (RtoC 0 : V) = KOk X /\ holds m m X (Descent.outer m MA MB).
  Proof.
    intros Ho [A1 A2 A3 A4 A5 A6 A7] [B1 B2 B3 B4 B5 B6 B7] HC. pose proof HC as [C1 C2 C3 C4 C5 C6 C7].
    destruct (outer_exact (o (vcols A) (vcols B)) Cv A B (RtoC 1) (RtoC 0)) as (X & EX & HX);
      try assumption; try congruence; [apply Ho | repeat split; assumption |].
    exists X. split; [exact EX|].
    apply (instead_holds _ _ _ _ _ _ _ HC HX).
    eapply meq_trans; [apply madd_0, mscal_0|]. rewrite mscal_1. unfold Descent.outer. rewrite A2.
    apply mmul_ext; [exact A7 | apply adj_ext; exact B7].
  Qed.
  Lemma k_add o r c Cv A MC MA (alpha beta : R) : fair o -> holds r c Cv MC -> holds r c A MA ->
    exists X, add (o (vrows A) (vcols Cv)) Cv A (RtoC alpha : V) (RtoC beta : V) = KOk X /\ holds r c X (Descent.add MC MA alpha beta).
  Proof.
    intros Ho HC [A1 A2 A3 A4 A5 A6 A7]. pose proof HC as [C1 C2 C3 C4 C5 C6 C7].
    destruct (add_exact (o (vrows A) (vcols Cv)) Cv A (RtoC alpha) (RtoC beta)) as (X & EX & HX); try assumption; try congruence; [apply Ho |].
    exists X. split; [exact EX|].
    apply (instead_holds _ _ _ _ _ _ _ HC HX). rewrite DescentProofs.add_eq.
    apply madd_ext; apply mscal_ext; assumption.
  Qed.
  Lemma holds_injective r c X M : holds r c X M -> injective_view r c X.
  Proof. intros [E1 E2 _ Hcm _ _ _]. rewrite <- E1. apply col_major_injective. exact Hcm. Qed.
  Lemma k_scale_cols o r c dst src MD MS xn x (alpha : R) : fair o -> holds r c dst MD -> holds r c src MS -> (c <= xn)%nat ->
    exists X, scale_cols (o (vrows src) (vcols src)) dst src xn x (alpha : er Celt) (0 : er Celt) = KOk X /\ holds r c X (Descent.scale_cols MS x alpha).
  Proof.
    intros Ho HD HS Hx. pose proof HD as [D1 D2 D3 D4 D5 D6 D7]. pose proof HS as [S1 S2 S3 S4 S5 S6 S7].
    destruct (scale_cols_exact (o (vrows src) (vcols src)) dst src xn x alpha 0) as (X & EX & HX); try assumption; try congruence; try lia.
    - apply Ho.
    - apply S4.
    - rewrite S1, S2. apply (holds_injective _ _ _ _ HD).
    - exists X. split; [exact EX|].
      apply (instead_holds _ _ _ _ _ _ _ HD HX).
      eapply meq_trans; [apply madd_0, mscal_0|]. rewrite S2.
      intros i j Hi Hj. unfold mscal. rewrite (mmul_diag_r r c _ x i j Hi Hj). rewrite (S7 i j Hi Hj).
      unfold Descent.scale_cols. rewrite RtoC_mult. rewrite <- Cmult_assoc. f_equal. apply Cmult_comm.
  Qed.
  Lemma k_scale o r c dst src MD MS (alpha : R) : fair o -> holds r c dst MD -> holds r c src MS ->
    exists X, scale (o (vrows src) (vcols src)) dst src (alpha : er Celt) = KOk X /\ holds r c X (Descent.scale MS alpha).
  Proof.
    intros Ho HD HS. pose proof HD as [D1 D2 D3 D4 D5 D6 D7]. pose proof HS as [S1 S2 S3 S4 S5 S6 S7].
    destruct (scale_exact (o (vrows src) (vcols src)) dst src alpha) as (X & EX & HX); try assumption; try congruence.
    - apply Ho.
    - apply S4.
    - rewrite S1, S2. apply (holds_injective _ _ _ _ HD).
    - exists X. split; [exact EX|].
      apply (instead_holds _ _ _ _ _ _ _ HD HX). intros i j Hi Hj. unfold mscal, Descent.scale. rewrite (S7 i j Hi Hj). reflexivity.
  Qed.
  Lemma k_deep_copy o r c dst src MD MS : fair o -> holds r c dst MD -> holds r c src MS ->
    exists X, deep_copy Celt (o (vrows src) (vcols src)) dst src = KOk X /\ holds r c X MS.
  Proof.
    intros Ho HD HS. pose proof HD as [D1 D2 D3 D4 D5 D6 D7]. pose proof HS as [S1 S2 S3 S4 S5 S6 S7].
    destruct (deep_copy_ok Celt (o (vrows src) (vcols src)) dst src) as (X & EX & HX); try assumption; try congruence.
    - apply Ho.
    - rewrite S1, S2. apply (holds_injective _ _ _ _ HD).
    - exists X. split; [exact EX|].
      assert (E1 : vrows src = vrows dst) by congruence. assert (E2 : vcols src = vcols dst) by congruence.
      rewrite E1, E2 in HX.
      apply (instead_holds _ _ _ _ _ _ MS HD (replaced_holds _ _ _ (mat_of src) HX (fun i j _ _ => eq_refl))). exact S7.
  Qed.
  Lemma k_apply op k n c M junk X MX : (1 <= n)%nat -> (1 <= c)%nat -> small n c -> acts_as op k n M -> holds n c X MX ->
    exists Y, apply_op Celt op k junk X = (Y, X) /\ holds n c Y (mmul n M MX).
  Proof.
    intros Hn Hc Hs (f & Hf & HfM) [E1 E2 E3 E4 E5 E6 E7].
    assert (Hvs : (Z.of_nat (vs1 X) <= 2147483647)%Z) by (unfold int_indexed in E6; rewrite E2 in E6; nia).
    assert (Hrows : (Z.of_nat n <= 2147483647 /\ Z.of_nat c <= 2147483647)%Z) by (unfold small in Hs; nia).
    destruct (apply_op_ok Celt op f k junk X Hf) as (Y & EY & Y1 & Y2 & Y3 & Y4 & Y5 & Y6).
    - rewrite E1. unfold int_sized. lia.
    - rewrite E2. unfold int_sized. lia.
    - destruct E4 as [-> _]. unfold int_sized. lia.
    - unfold int_sized. lia.
    - exists Y. split; [exact EY|]. rewrite E1 in *. rewrite E2 in *.
      assert (EL : vlocal Y = true).
      { unfold apply_op in EY. rewrite E1, E2, E3 in EY.
        destruct (op k _ _ _ _) as [by_ bx] in EY. apply (f_equal fst) in EY. cbn [fst] in EY. rewrite <- EY. reflexivity. }
      constructor.
      + assumption.
      + assumption.
      + exact EL.
      + unfold col_major. rewrite Y1, Y3, Y4. lia.
      + assumption.
      + unfold int_indexed. rewrite Y1, Y2, Y4. exact Hs.
      + intros i j Hi Hj. specialize (Y6 i j Hi Hj). rewrite mat_of_vat in Y6. rewrite Y6.
        rewrite (HfM c (fun a b => vat X a b) i j Hi Hj). apply csum_ext. intros l Hl. f_equal.
        rewrite mat_of_vat. apply E7; assumption.
  Qed.
End Kernels.

(** ** Linear systems *)
Lemma quad_meq n A B v : meq n n A B -> quad n A v = quad n B v.
Proof. intros H. unfold quad. apply csum_ext. intros i Hi. apply csum_ext. intros j Hj. rewrite (H i j Hi Hj). reflexivity. Qed.
Lemma posdef_meq n A B : meq n n A B -> posdef n A -> posdef n B.
Proof. intros H HA v Hv. rewrite <- (quad_meq n A B v H). apply HA, Hv. Qed.
Lemma hermitian_meq n A B : meq n n A B -> hermitian n A -> hermitian n B.
Proof. intros H HA i j Hi Hj. unfold adj. rewrite <- (H j i Hj Hi), <- (H i j Hi Hj). apply (HA i j Hi Hj). Qed.
(** a positive definite system has one solution *)
Lemma posdef_unique m q A X Y B : posdef m A -> meq m q (mmul m A X) B -> meq m q (mmul m A Y) B -> meq m q X Y.
Proof.
  intros HA HX HY i j Hi Hj.
  destruct (Ceq_dec (Cminus (X i j) (Y i j)) (RtoC 0)) as [E | E].
  - replace (X i j) with (Cplus (Cminus (X i j) (Y i j)) (Y i j)) by ring. rewrite E. apply Cplus_0_l.
  - exfalso. specialize (HA (fun l => Cminus (X l j) (Y l j)) (ex_intro _ i (conj Hi E))).
    assert (Q : quad m A (fun l => Cminus (X l j) (Y l j)) = RtoC 0).
    { unfold quad. apply csum_0. intros a Ha.
      rewrite (csum_ext m _ (fun b => Cmult (Cconj (Cminus (X a j) (Y a j))) (Cminus (Cmult (A a b) (X b j)) (Cmult (A a b) (Y b j))))).
      2:{ intros b Hb. ring. }
      rewrite csum_scal_l, csum_minus.
      pose proof (HX a j Ha Hj) as E1. pose proof (HY a j Ha Hj) as E2. unfold mmul in E1, E2. rewrite E1, E2. ring. }
    rewrite Q in HA. cbn in HA. lra.
Qed.

Section Kernels2.
  Notation V := (ev Celt).
  Lemma k_solve potrf potrs m q A B MA MB Y : potrf_ok potrf -> potrs_ok potrs ->
    holds m m A MA -> holds m q B MB -> hermitian m MA -> posdef m MA -> meq m q (mmul m MA Y) MB ->
    exists A' X, solve_sym potrf potrs A B = KOk (A', X) /\ holds m q X Y.
  Proof.
    intros Hf Hs HA HB Hh Hp HY. pose proof HA as [A1 A2 A3 A4 A5 A6 A7]. pose proof HB as [B1 B2 B3 B4 B5 B6 B7].
    pose proof (posdef_meq _ _ _ (meq_sym _ _ _ _ A7) Hp) as Hp'.
    pose proof (hermitian_meq _ _ _ (meq_sym _ _ _ _ A7) Hh) as Hh'.
    destruct (solve_sym_solution potrf potrs A B) as (A' & X & EX & HX & HI); try assumption; try congruence.
    - rewrite A1. exact Hh'.
    - rewrite A1. exact Hp'.
    - exists A', X. split; [exact EX|].
      apply (instead_holds _ _ _ _ _ _ _ HB HI).
      rewrite A1, B2 in HX.
      apply (posdef_unique m q MA _ _ MB Hp); [|exact HY].
      apply meq_trans with (mmul m (mat_of A) (mat_of X)); [apply mmul_ext; [apply meq_sym; exact A7 | apply meq_refl] |].
      apply meq_trans with (mat_of B); [exact HX | exact B7].
  Qed.

  Lemma k_row_sum r c X Y MX MY i : holds r c X MX -> holds r c Y MY -> (i < r)%nat -> forall k, (k <= c)%nat ->
    row_sum X Y i k = KOk (csum k (fun j => Cmult (MX i j) (Cconj (MY i j))) : V).
  Proof.
    intros [X1 X2 X3 X4 X5 X6 X7] [Y1 Y2 Y3 Y4 Y5 Y6 Y7] Hi.
    induction k as [|k IH]; intros Hk; [reflexivity|].
    cbn [row_sum]. rewrite IH by lia. cbn [kbind].
    rewrite load_in by (unfold addr; apply X5; lia). rewrite load_in by (unfold addr; apply Y5; lia).
    cbn [csum]. f_equal. cbn [eadd ekmul econj Celt].
    assert (EX : bget (vbuf X) (addr X i k) = MX i k) by (apply (X7 i k); lia).
    assert (EY : bget (vbuf Y) (addr Y i k) = MY i k) by (apply (Y7 i k); lia).
    rewrite EX, EY. reflexivity.
  Qed.
  Lemma k_innerh r c X Y MX MY : holds r c X MX -> holds r c Y MY -> innerh_tr X Y = KOk (Descent.innerh_tr r c MX MY : V).
  Proof.
    intros HX HY. unfold innerh_tr, Descent.innerh_tr. pose proof (h_rows _ _ _ _ HX) as ER. rewrite ER.
    assert (G : forall k, (k <= r)%nat -> rows_sum X Y k = KOk (csum k (fun i => csum c (fun j => Cmult (MX i j) (Cconj (MY i j)))) : V)).
    { induction k as [|k IH]; intros Hk; [reflexivity|].
      cbn [rows_sum]. rewrite IH by lia. cbn [kbind]. rewrite (h_cols _ _ _ _ HX).
      rewrite (k_row_sum r c X Y MX MY k HX HY) by lia. reflexivity. }
    apply G. lia.
  Qed.

  (** ** Loops over one index *)
  Lemma forrange_spec (ad : nat -> nat) (g : nat -> V -> V) body order : forall (b : buf Celt),
    (forall i c, In i order -> bsz c = bsz b -> body i c = KOk (upd c (ad i) (g i (bget c (ad i))))) ->
    NoDup order -> (forall i i', In i order -> In i' order -> ad i = ad i' -> i = i') ->
    exists b', forrange order body b = KOk b' /\ bsz b' = bsz b /\
      (forall i, In i order -> bget b' (ad i) = g i (bget b (ad i))) /\
      (forall a, (forall i, In i order -> a <> ad i) -> bget b' a = bget b a).
  Proof.
    induction order as [|i r IH]; intros b Hb Hnd Hinj.
    - exists b. repeat split; try reflexivity. intros i [].
    - inversion Hnd as [|? ? Hni Hnd']; subst.
      cbn [forrange]. rewrite (Hb i b (or_introl eq_refl) eq_refl). cbn [kbind].
      destruct (IH (upd b (ad i) (g i (bget b (ad i))))) as (b' & E & Hsz & Hin & Hout).
      + intros j c Hj Hc. apply Hb; [right; exact Hj | exact Hc].
      + exact Hnd'.
      + intros; apply Hinj; try (right; assumption); assumption.
      + exists b'. split; [exact E|]. split; [exact Hsz|]. split.
        * intros j [<- | Hj].
          -- rewrite Hout.
             ++ apply upd_same.
             ++ intros j Hj Heq. assert (i = j) by (apply Hinj; [left; reflexivity | right; exact Hj | exact Heq]). subst. contradiction.
          -- rewrite (Hin j Hj). f_equal. apply upd_other. intros Heq.
             assert (j = i) by (apply Hinj; [right; exact Hj | left; reflexivity | exact Heq]). subst. contradiction.
        * intros a Ha. rewrite Hout.
          -- apply upd_other. apply Ha. left; reflexivity.
          -- intros j Hj. apply Ha. right; exact Hj.
  Qed.

  (** changes of the diagonal: the rest of the matrix is untouched *)
  Lemma diag_loop_spec r X M (g : nat -> V -> V) body order nn : holds r r X M -> (nn <= r)%nat ->
    Permutation order (seq 0 nn) ->
    (forall i c, (i < nn)%nat -> bsz c = bsz (vbuf X) -> body i c = KOk (upd c (addr X i i) (g i (bget c (addr X i i))))) ->
    exists b', forrange order body (vbuf X) = KOk b' /\
      holds r r (with_buf X b') (fun i j => if (Nat.eqb i j && Nat.ltb i nn)%bool then g i (M i j) else M i j).
  Proof.
    intros HX Hnn Hperm Hbody. pose proof (holds_injective _ _ _ _ HX) as Hinj.
    destruct HX as [X1 X2 X3 X4 X5 X6 X7].
    assert (Hord : forall i, In i order <-> (i < nn)%nat).
    { intros i. split; intros H.
      - apply (Permutation_in _ Hperm) in H. apply in_seq in H. lia.
      - apply (Permutation_in _ (Permutation_sym Hperm)). apply in_seq. lia. }
    destruct (forrange_spec (fun i => addr X i i) g body order (vbuf X)) as (b' & E & Hsz & Hin & Hout).
    - intros i c Hi Hc. apply Hbody; [apply Hord; exact Hi | exact Hc].
    - apply (Permutation_NoDup (Permutation_sym Hperm)). apply seq_NoDup.
    - intros i i' Hi Hi' Heq. apply Hord in Hi. apply Hord in Hi'.
      destruct (Hinj i i i' i') as [? _]; [lia | lia | lia | lia | exact Heq | assumption].
    - exists b'. split; [exact E|].
      constructor; try assumption.
      + unfold allocated in *. cbn [with_buf vrows vcols vs0 vs1 vbuf]. rewrite Hsz. exact X5.
      + intros i j Hi Hj. unfold mat_of. cbn [with_buf vs0 vs1 vbuf].
        destruct (Nat.eqb_spec i j) as [<- | Hij]; cbn [andb].
        * destruct (Nat.ltb_spec i nn) as [Hlt | Hge].
          -- pose proof (Hin i (proj2 (Hord i) Hlt)) as H. unfold addr in H. rewrite H. f_equal. apply (X7 i i Hi Hj).
          -- rewrite Hout; [apply (X7 i i Hi Hj)|]. intros a Ha Heq. apply Hord in Ha.
             destruct (Hinj i i a a) as [? _]; [lia | lia | lia | lia | exact Heq | lia].
        * rewrite Hout; [apply (X7 i j Hi Hj)|]. intros a Ha Heq. apply Hord in Ha.
          destruct (Hinj i j a a) as [? ?]; [lia | lia | lia | lia | exact Heq | lia].
  Qed.

  Lemma upd_self (b : buf Celt) a : upd b a (bget b a) = b.
  Proof.
    destruct b as [sz g]. unfold upd. cbn [bsz bget]. f_equal. apply FunctionalExtensionality.functional_extensionality. intros x.
    destruct (Nat.eqb_spec x a) as [-> | _]; reflexivity.
  Qed.

  (** changes of all elements *)
  Lemma full_loop_spec r X M (g : nat -> nat -> V -> V) body order : holds r r X M ->
    Permutation order (pairs r r) ->
    (forall i j c, (i < r)%nat -> (j < r)%nat -> bsz c = bsz (vbuf X) -> body i j c = KOk (upd c (addr X i j) (g i j (bget c (addr X i j))))) ->
    exists b', foreach order body (vbuf X) = KOk b' /\ holds r r (with_buf X b') (fun i j => g i j (M i j)).
  Proof.
    intros HX Hperm Hbody. pose proof (holds_injective _ _ _ _ HX) as Hinj.
    destruct HX as [X1 X2 X3 X4 X5 X6 X7].
    pose proof (order_in _ _ _ Hperm) as Hord.
    destruct (foreach_spec (addr X) g body order (vbuf X)) as (b' & E & Hsz & Hin & Hout).
    - intros i j c Hi Hc. apply Hord in Hi. apply Hbody; [lia | lia | exact Hc].
    - exact (order_nodup _ _ _ Hperm).
    - intros i j i' j' Hi Hi' Heq. apply Hord in Hi. apply Hord in Hi'. apply Hinj; try lia. exact Heq.
    - exists b'. split; [exact E|].
      constructor; try assumption.
      + unfold allocated in *. cbn [with_buf vrows vcols vs0 vs1 vbuf]. rewrite Hsz. exact X5.
      + intros i j Hi Hj. pose proof (Hin i j (proj2 (Hord i j) (conj Hi Hj))) as H.
        unfold addr in H. unfold mat_of. cbn [with_buf vs0 vs1 vbuf]. rewrite H. f_equal. apply (X7 i j Hi Hj).
  Qed.
End Kernels2.

(** ** The pipeline *)
Section Pipe.
  Notation V := (ev Celt).
  Context (ord : nat -> orders) (ord1 : nat -> nat -> list nat) (junk : nat -> nat -> V).
  Context (potrf : nat -> buf Celt -> nat -> Z * buf Celt)
          (potrs : nat -> nat -> buf Celt -> nat -> buf Celt -> nat -> Z * buf Celt).
  Context (opS opP : operator_fn Celt).
  Context (s : smearing_type) (T kappa mo : R).
  Context (solve : nat -> mat -> mat -> mat) (kp : Descent.kpt) (k : key).
  Let n := Descent.kn kp.
  Let m := Descent.km kp.
  Let wk := Descent.kw kp.

  Hypothesis Hord : forall t, fair (ord t).
  Hypothesis Hord1 : forall t, fair1 (ord1 t).
  Hypothesis Hn : (1 <= n)%nat.
  Hypothesis Hm : (1 <= m)%nat.
  Hypothesis Hnm : small n m.
  Hypothesis Hmm : small m m.

  Definition vec_is (v : rvec) (x : nat -> R) : Prop := fst v = m /\ forall i, (i < m)%nat -> snd v i = x i.

  Lemma p_gradx t x hx f xll Mx Mhx Mxll : holds n m x Mx -> holds n m hx Mhx -> holds n m xll Mxll -> vec_is f (Descent.kf kp) ->
    exists g, gradx ord junk t x hx f xll wk = KOk g /\ holds n m g (Descent.gradx Mhx (Descent.kf kp) Mxll wk).
  Proof.
    intros Hx Hhx Hl [Hf1 Hf2]. unfold gradx.
    destruct (k_scale_cols (ord t) n m _ hx _ Mhx (fst f) (snd f) wk (Hord _) (empty_like_holds _ _ _ _ (junk t) Hn Hnm Hx) Hhx) as (g1 & -> & Hg1); [lia|].
    cbn [kbind].
    destruct (k_add (ord (t + 1)) n m g1 xll _ _ (- wk) 1 (Hord _) Hg1 Hl) as (g2 & -> & Hg2).
    exists g2. split; [reflexivity|]. apply (holds_ext _ _ _ _ _ Hg2). unfold Descent.gradx.
    intros i j Hi Hj. unfold Descent.add, Descent.scale_cols. rewrite (Hf2 j Hj). reflexivity.
  Qed.

  Lemma p_precond t x hx xll Mx Mhx Mxll : acts_as opP k n (Descent.kP kp) ->
    holds n m x Mx -> holds n m hx Mhx -> holds n m xll Mxll ->
    exists d, precondgx_us ord junk opP t k x hx xll = KOk d /\ holds n m d (Descent.precondgx_us kp Mhx Mxll).
  Proof.
    intros HP Hx Hhx Hl. unfold precondgx_us.
    destruct (k_add (ord t) n m (zeros_like x) hx _ _ (-1) 0 (Hord _) (zeros_like_holds _ _ _ _ Hn Hnm Hx) Hhx) as (d0 & -> & H0).
    cbn [kbind].
    destruct (k_add (ord (t + 1)) n m d0 xll _ _ 1 1 (Hord _) H0 Hl) as (d1 & -> & H1). cbn [kbind].
    destruct (k_apply opP k n m (Descent.kP kp) (junk t) d1 _ Hn Hm Hnm HP H1) as (d & -> & Hd).
    exists d. split; [reflexivity|]. exact Hd.
  Qed.

  Lemma p_lmult t sx hx Msx Mhx : potrf_ok potrf -> potrs_ok potrs -> acts_as opP k n (Descent.kP kp) ->
    DescentProofs.solver_ok solve m -> hermitian n (Descent.kP kp) ->
    posdef m (mmul n (adj Msx) (mmul n (Descent.kP kp) Msx)) ->
    holds n m sx Msx -> holds n m hx Mhx ->
    exists l, lmult ord junk potrf potrs opP t k sx hx = KOk l /\ holds n m l (Descent.lmult solve kp Msx Mhx).
  Proof.
    intros Hf Hs HP Hsol Hherm Hdef Hsx Hhx. unfold lmult.
    destruct (k_apply opP k n m (Descent.kP kp) (junk t) sx _ Hn Hm Hnm HP Hsx) as (psx & -> & Hpsx).
    destruct (k_inner_ (ord t) n m m sx psx _ _ 1 (Hord _) Hm Hmm Hsx Hpsx) as (xkx & -> & Hxkx). cbn [kbind].
    destruct (k_apply opP k n m (Descent.kP kp) (junk (t + 1)%nat) hx _ Hn Hm Hnm HP Hhx) as (phx & -> & Hphx).
    destruct (k_inner_ (ord (t + 1)) n m m sx phx _ _ 1 (Hord _) Hm Hmm Hsx Hphx) as (xkhx & -> & Hxkhx). cbn [kbind].
    assert (H1 : hermitian m (Descent.inner_ n Msx (mmul n (Descent.kP kp) Msx) 1)).
    { rewrite DescentProofs.inner_1. apply DescentProofs.gram_hermitian. exact Hherm. }
    assert (H2 : posdef m (Descent.inner_ n Msx (mmul n (Descent.kP kp) Msx) 1)) by (rewrite DescentProofs.inner_1; exact Hdef).
    destruct (k_solve potrf potrs m m xkx xkhx _ _ _ Hf Hs Hxkx Hxkhx H1 H2 (Hsol _ _ H1 H2)) as (A' & X & -> & HX). cbn [kbind snd].
    destruct (k_transform_alloc (ord (t + 2)) n m sx X _ _ (Hord _) Hn Hnm Hsx HX) as (l & -> & Hl).
    exists l. split; [reflexivity | exact Hl].
  Qed.

  Lemma p_rotatex t x u Mx Mu : holds n m x Mx -> holds m m u Mu ->
    exists y, rotatex ord t x u = KOk y /\ holds n m y (Descent.rotatex kp Mx Mu).
  Proof. intros Hx Hu. exact (k_transform_alloc (ord t) n m x u _ _ (Hord _) Hn Hnm Hx Hu). Qed.

  Lemma p_rotateeta t eta u Me Mu : holds m m eta Me -> holds m m u Mu ->
    exists y, rotateeta ord t eta u = KOk y /\ holds m m y (Descent.rotateeta kp Me Mu).
  Proof.
    intros He Hu. unfold rotateeta.
    destruct (k_transform_alloc (ord t) m m eta u _ _ (Hord _) Hm Hmm He Hu) as (eu & -> & Heu). cbn [kbind].
    exact (k_inner_ (ord (t + 1)) m m m u eu _ _ 1 (Hord _) Hm Hmm Hu Heu).
  Qed.

  Lemma p_conjugatex t zxp sx Mz Msx : potrf_ok potrf -> potrs_ok potrs ->
    DescentProofs.solver_ok solve m -> posdef m (mmul n (adj Msx) Msx) ->
    holds n m zxp Mz -> holds n m sx Msx ->
    exists y, conjugatex ord potrf potrs t zxp sx = KOk y /\ holds n m y (Descent.conjugatex solve kp Mz Msx).
  Proof.
    intros Hf Hs Hsol Hdef Hz Hsx. unfold conjugatex.
    destruct (k_inner_ (ord t) n m m sx zxp _ _ 1 (Hord _) Hm Hmm Hsx Hz) as (b & -> & Hb). cbn [kbind].
    destruct (k_inner_ (ord (t + 1)) n m m sx sx _ _ 1 (Hord _) Hm Hmm Hsx Hsx) as (a & -> & Ha). cbn [kbind].
    assert (H1 : hermitian m (Descent.inner_ n Msx Msx 1)).
    { rewrite DescentProofs.inner_1. apply DescentProofs.gram_hermitian_id. }
    assert (H2 : posdef m (Descent.inner_ n Msx Msx 1)) by (rewrite DescentProofs.inner_1; exact Hdef).
    destruct (k_solve potrf potrs m m a b _ _ _ Hf Hs Ha Hb H1 H2 (Hsol _ _ H1 H2)) as (A' & X & -> & HX). cbn [kbind snd].
    destruct (k_transform_alloc (ord (t + 2)) n m sx X _ _ (Hord _) Hn Hnm Hsx HX) as (l & -> & Hl). cbn [kbind].
    exact (k_add (ord (t + 3)) n m zxp l _ _ (-1) 1 (Hord _) Hz Hl).
  Qed.

  Lemma vload_in {A} (v : rvec) x i (g : R -> kres A) : vec_is v x -> (i < m)%nat -> vload v i g = g (x i).
  Proof. intros [E1 E2] Hi. unfold vload. rewrite E1. rewrite (proj2 (Nat.ltb_lt i m) Hi). rewrite (E2 i Hi). reflexivity. Qed.

  Lemma p_delta_eta t hij e MH : holds m m hij MH -> vec_is e (Descent.ke kp) ->
    exists d, delta_eta ord ord1 junk kappa t hij e wk = KOk d /\ holds m m d (Descent.delta_eta kappa kp MH).
  Proof.
    intros HH He. unfold delta_eta.
    destruct (k_scale (ord t) m m _ hij _ MH (kappa / wk) (Hord _) (empty_like_holds _ _ _ _ (junk t) Hm Hmm HH) HH) as (d & -> & Hd). cbn [kbind].
    destruct (diag_loop_spec m d _ (fun i (old : V) => Cminus old (RtoC (kappa * Descent.ke kp i)) : V)
               (fun i c => vload e i (fun ei => modify c (addr d i i) (fun old : V => Cminus old (RtoC (kappa * ei)) : V)))
               (ord1 t (fst e)) m Hd) as (b & -> & Hb).
    - lia.
    - rewrite (proj1 He). apply Hord1.
    - intros i c Hi Hc. rewrite (vload_in e _ i _ He Hi). rewrite modify_in; [reflexivity|]. rewrite Hc. unfold addr. apply (h_alloc _ _ _ _ Hd).
      + rewrite (h_rows _ _ _ _ Hd). exact Hi.
      + rewrite (h_cols _ _ _ _ Hd). exact Hi.
    - cbn [kbind]. eexists. split; [reflexivity|]. apply (holds_ext _ _ _ _ _ Hb).
      intros i j Hi Hj. unfold Descent.delta_eta. fold wk. cbv zeta.
      rewrite (proj2 (Nat.ltb_lt i m) Hi), andb_true_r. reflexivity.
  Qed.

  Lemma p_g_eta t hij e f MH mu dmu dF : holds m m hij MH -> vec_is e (Descent.ke kp) -> vec_is f (Descent.kf kp) ->
    exists g, g_eta ord ord1 s T mo t hij mu wk e f dmu dF = KOk g /\ holds m m g (Descent.g_eta s T mo kp MH mu dmu dF).
  Proof.
    intros HH He Hf. unfold g_eta. rewrite (h_rows _ _ _ _ HH).
    pose proof (zeros_like_holds _ _ _ _ Hm Hmm HH) as HZ.
    assert (AZ : forall X M, holds m m X M -> forall i j (c : buf Celt), (i < m)%nat -> (j < m)%nat -> bsz c = bsz (vbuf X) -> (addr X i j < bsz c)%nat).
    { intros X M HX i j c Hi Hj Hc. rewrite Hc. unfold addr. apply (h_alloc _ _ _ _ HX).
      - rewrite (h_rows _ _ _ _ HX). exact Hi.
      - rewrite (h_cols _ _ _ _ HX). exact Hj. }
    assert (VH : forall i j, (i < m)%nat -> (j < m)%nat -> bget (vbuf hij) (addr hij i j) = MH i j) by (intros i j Hi Hj; apply (h_mat _ _ _ _ HH i j Hi Hj)).
    set (g := zeros_like hij) in *.
    set (dl := fun i => sdelta (smearing_class s) ((Descent.ke kp i - mu) / (kb Rarith * T)) mo).
    destruct (diag_loop_spec m g _ (fun i (_ : V) => Cmult (Cmult (RtoC (-1 / (kb Rarith * T))) (Cminus (MH i i) (RtoC (wk * Descent.ke kp i)))) (RtoC (dl i)) : V)
      (fun i c => vload e i (fun ei => load (vbuf hij) (addr hij i i) (fun h : V =>
               store c (addr g i i)
                 (Cmult (Cmult (RtoC (-1 / (kb Rarith * T))) (Cminus h (RtoC (wk * ei)))) (RtoC (sdelta (smearing_class s) ((ei - mu) / (kb Rarith * T)) mo)) : V))))
      (ord1 t m) m HZ) as (b1 & E1 & H1).
    { lia. }
    { apply Hord1. }
    { intros i c Hi Hc. rewrite (vload_in e _ i _ He Hi). rewrite load_in by (apply (AZ _ _ HH); auto).
      rewrite (VH i i Hi Hi). rewrite store_in; [reflexivity|]. apply (AZ _ _ HZ); auto. }
    rewrite E1. cbn [kbind].
    assert (S2 : exists b2, (if Rltb (Rabs dmu) (1 / 10 ^ 12) then KOk b1
            else forrange (ord1 (t + 1)%nat m) (fun i c =>
              vload e i (fun ei =>
                modify c (addr g i i) (fun old : V => Cplus old (RtoC (wk * sdelta (smearing_class s) ((ei - mu) / (kb Rarith * T)) mo / dmu * (dF / (kb Rarith * T)))) : V))) b1) = KOk b2 /\
            holds m m (with_buf g b2) (fun i j => if Nat.eqb i j then Descent.g_eta s T mo kp MH mu dmu dF i j else RtoC 0)).
    { destruct (Rltb (Rabs dmu) (1 / 10 ^ 12)) eqn:Ed.
      - exists b1. split; [reflexivity|]. apply (holds_ext _ _ _ _ _ H1).
        intros i j Hi Hj. rewrite (proj2 (Nat.ltb_lt i m) Hi), andb_true_r.
        unfold Descent.g_eta. destruct (Nat.eqb i j); [|reflexivity]. rewrite Ed. reflexivity.
      - destruct (diag_loop_spec m (with_buf g b1) _ (fun i (old : V) => Cplus old (RtoC (wk * dl i / dmu * (dF / (kb Rarith * T)))) : V)
          (fun i c => vload e i (fun ei =>
                modify c (addr g i i) (fun old : V => Cplus old (RtoC (wk * sdelta (smearing_class s) ((ei - mu) / (kb Rarith * T)) mo / dmu * (dF / (kb Rarith * T)))) : V)))
          (ord1 (t + 1)%nat m) m H1) as (b2 & E2 & H2).
        + lia.
        + apply Hord1.
        + intros i c Hi Hc. rewrite (vload_in e _ i _ He Hi). rewrite modify_in; [reflexivity|].
          apply (AZ (with_buf g b1) _ H1); auto.
        + exists b2. split; [exact E2|]. apply (holds_ext _ _ _ _ _ H2).
          intros i j Hi Hj. rewrite (proj2 (Nat.ltb_lt i m) Hi), andb_true_r.
          unfold Descent.g_eta. destruct (Nat.eqb i j); [|reflexivity]. rewrite Ed. reflexivity. }
    destruct S2 as (b2 & -> & H2). cbn [kbind].
    destruct (full_loop_spec m (with_buf g b2) _ (fun i j (old : V) =>
        if Nat.eqb i j then old else if Rltb (Rabs (Descent.ke kp j - Descent.ke kp i)) (1 / 10 ^ 10) then old
        else Cplus old (Cmult (RtoC ((Descent.kf kp j - Descent.kf kp i) / (Descent.ke kp j - Descent.ke kp i))) (MH i j)) : V)
      (fun i j c =>
             if Nat.eqb i j then KOk c
             else vload e j (fun ej => vload e i (fun ei =>
               if Rltb (Rabs (ej - ei)) (1 / 10 ^ 10) then KOk c
               else vload f j (fun fj => vload f i (fun fi =>
                 load (vbuf hij) (addr hij i j) (fun h : V =>
                   modify c (addr g i j) (fun old : V => Cplus old (Cmult (RtoC ((fj - fi) / (ej - ei))) h) : V)))))))
      (ord t m m) H2) as (b3 & E3 & H3).
    - apply Hord.
    - intros i j c Hi Hj Hc. destruct (Nat.eqb i j).
      + rewrite upd_self. reflexivity.
      + rewrite (vload_in e _ j _ He Hj), (vload_in e _ i _ He Hi).
        destruct (Rltb (Rabs (Descent.ke kp j - Descent.ke kp i)) (1 / 10 ^ 10)).
        * rewrite upd_self. reflexivity.
        * rewrite (vload_in f _ j _ Hf Hj), (vload_in f _ i _ Hf Hi).
          rewrite load_in by (apply (AZ _ _ HH); auto). rewrite (VH i j Hi Hj).
          rewrite modify_in; [reflexivity|]. apply (AZ (with_buf g b2) _ H2); auto.
    - cbn [with_buf vbuf] in E3. rewrite E3. cbn [kbind]. eexists. split; [reflexivity|].
      apply (holds_ext _ _ _ _ _ H3). intros i j Hi Hj. cbv beta.
      destruct (Nat.eqb i j) eqn:Eij; [reflexivity|].
      unfold Descent.g_eta. rewrite Eij.
      destruct (Rltb (Rabs (Descent.ke kp j - Descent.ke kp i)) (1 / 10 ^ 10)); [reflexivity|].
      apply Cplus_0_l.
  Qed.
End Pipe.
