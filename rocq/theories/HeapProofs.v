(** The heap program of HeapStep.v computes what StepMem.v computes and writes only where it should. *)
From Coq Require Import ZArith Reals Arith List Bool Lia.
From Coquelicot Require Import Complex.
From Verif Require Import Arith LinAlg MVector LapackMem LapackElt Exchange Smearing Newton Occupation StepMem HeapStep.
Import ListNotations.

(** Everything allocated in [h], apart from what [P] allows to write, is unchanged in [h']. *)
Definition frame (P : nat -> Prop) (h h' : heap) : Prop :=
  hnext h <= hnext h' /\ forall l, l < hnext h -> ~ P l -> hbuf h' l = hbuf h l.
Definition nowhere : nat -> Prop := fun _ => False.
(** Running [m] from [h] ends as [r] does, writes only where [P] allows, and the results are related by [Q]. *)
Definition spec {A B} (P : nat -> Prop) (h : heap) (m : hm A) (r : kres B) (Q : A -> B -> heap -> Prop) : Prop :=
  match r with
  | KOk b => exists a h', m h = KOk (a, h') /\ frame P h h' /\ Q a b h'
  | KThrow => m h = KThrow
  | KBadArg => m h = KBadArg
  | KUB => m h = KUB
  end.
(** a new view with contents [v] *)
Definition fresh (h : heap) (x : hview) (v : view Celt) (h' : heap) : Prop := v = vof h' x /\ hnext h <= hloc x < hnext h'.

Lemma frame_refl P h : frame P h h.
Proof. split; [lia | reflexivity]. Qed.
Lemma frame_trans (P : nat -> Prop) h h1 h2 : frame P h h1 -> frame P h1 h2 -> frame P h h2.
Proof. intros [A B] [C D]. split; [lia|]. intros l Hl Np. rewrite D, B; auto. lia. Qed.
Lemma frame_mono (P P' : nat -> Prop) h h' : (forall l, l < hnext h -> P l -> P' l) -> frame P h h' -> frame P' h h'.
Proof. intros M [A B]. split; [exact A|]. intros l Hl Np. apply B; auto. Qed.
Lemma frame_vof P h h' x : frame P h h' -> hloc x < hnext h -> ~ P (hloc x) -> vof h' x = vof h x.
Proof. intros [_ F] Hl Np. unfold vof. rewrite F; auto. Qed.
Lemma frame_le P h h' : frame P h h' -> hnext h <= hnext h'.
Proof. intros [F _]. exact F. Qed.

Lemma spec_bind {A B A' B'} (P1 P : nat -> Prop) h (m : hm A) (r : kres B) (k : A -> hm A') (g : B -> kres B') Q1 Q :
  spec P1 h m r Q1 -> (forall l, l < hnext h -> P1 l -> P l) ->
  (forall a b h1, frame P1 h h1 -> Q1 a b h1 -> (forall l, l < hnext h1 -> ~ l < hnext h -> P l) -> spec P h1 (k a) (g b) Q) ->
  (forall l, hnext h <= l -> P l) ->
  spec P h (hbind m k) (kbind r g) Q.
Proof.
  intros S1 M K Hn. unfold spec in *. unfold hbind. destruct r as [b| | |]; cbn [kbind].
  - destruct S1 as (a & h1 & E & F & Q1h). rewrite E. cbn [kbind fst snd]. assert (N : forall l, l < hnext h1 -> ~ l < hnext h -> P l) by (intros; apply Hn; lia).
    specialize (K a b h1 F Q1h N). destruct (g b) as [b'| | |]; try exact K.
    destruct K as (a' & h2 & E' & F' & Q2). exists a', h2. split; [exact E'|]. split; [|exact Q2].
    exact (frame_trans _ _ _ _ (frame_mono _ _ _ _ M F) F').
  - rewrite S1. reflexivity.
  - rewrite S1. reflexivity.
  - rewrite S1. reflexivity.
Qed.
(** what is allocated while running may be written anyway *)
Lemma spec_start {A B} (W : nat -> Prop) h (m : hm A) (r : kres B) Q :
  spec (fun l => hnext h <= l \/ W l) h m r Q -> spec W h m r Q.
Proof.
  unfold spec. destruct r; auto. intros (a' & h' & E & F & Q1). exists a', h'. split; [exact E|]. split; [|exact Q1].
  revert F. apply frame_mono. intros l Hl [H|H]; [lia | exact H].
Qed.
Lemma spec_weaken {A B} (P P' : nat -> Prop) h (m : hm A) (r : kres B) (Q Q' : A -> B -> heap -> Prop) :
  (forall l, l < hnext h -> P l -> P' l) -> (forall a b h', frame P h h' -> Q a b h' -> Q' a b h') -> spec P h m r Q -> spec P' h m r Q'.
Proof.
  intros M I. unfold spec. destruct r; auto. intros (a' & h' & E & F & Q1). exists a', h'. split; [exact E|]. split; [|apply I; assumption].
  exact (frame_mono _ _ _ _ M F).
Qed.
Lemma spec_ret {A B} P h (a : A) (b : B) (Q : A -> B -> heap -> Prop) : Q a b h -> spec P h (hret a) (KOk b) Q.
Proof. intros H. exists a, h. split; [reflexivity|]. split; [apply frame_refl | exact H]. Qed.
Lemma spec_read {A} P h (r : heap -> kres A) : spec P h (hread r) (r h) (fun a b h' => a = b /\ h' = h).
Proof. unfold spec, hread. destruct (r h) as [a| | |]; cbn; try reflexivity. exists a, h. split; [reflexivity|]. split; [apply frame_refl | split; reflexivity]. Qed.

(** allocation *)
Lemma spec_new {A B} (P : nat -> Prop) h rows cols loc f (k : hview -> hm A) (r : view Celt -> kres B) Q :
  (forall l, hnext h <= l -> P l) ->
  (forall x h1, frame nowhere h h1 -> hloc x = hnext h -> hnext h1 = S (hnext h) -> hrows x = rows -> hcols x = cols -> hlocal x = loc ->
     spec P h1 (k x) (r (vof h1 x)) Q) ->
  spec P h (hbind (hnew rows cols loc f) k) (r (alloc_uninit Celt rows cols loc f)) Q.
Proof.
  intros Hn K.
  set (x := MkHview (hnext h) rows cols 1 rows loc).
  set (h1 := MkHeap (S (hnext h)) (fun q => if Nat.eqb q (hnext h) then MkBuf (rows * cols) f else hbuf h q)).
  assert (F : frame nowhere h h1).
  { split; [cbn; lia|]. intros l Hl _. cbn. destruct (Nat.eqb_spec l (hnext h)); [lia | reflexivity]. }
  assert (E : vof h1 x = alloc_uninit Celt rows cols loc f).
  { unfold vof, alloc_uninit. cbn. rewrite Nat.eqb_refl. reflexivity. }
  specialize (K x h1 F eq_refl eq_refl eq_refl eq_refl eq_refl). rewrite E in K.
  unfold spec in *. unfold hbind. change (hnew rows cols loc f h) with (@KOk (hview * heap) (x, h1)). cbn [kbind fst snd].
  destruct (r (alloc_uninit Celt rows cols loc f)) as [b| | |]; try exact K.
  destruct K as (a' & h2 & E2 & F2 & Q2). exists a', h2. split; [exact E2|]. split; [|exact Q2].
  refine (frame_trans _ _ _ _ (frame_mono _ _ _ _ _ F) F2). intros l _ [].
Qed.

(** kernels keep the shape of their destination *)
Definition same_shape (C : view Celt) (r : kres (view Celt)) : Prop := forall v, r = KOk v -> v = with_buf C (vbuf v).
Lemma shape_bind (C : view Celt) (r : kres (buf Celt)) : same_shape C (kbind r (fun b => KOk (with_buf C b))).
Proof. intros v. destruct r; cbn; intros E; try discriminate. injection E as <-. reflexivity. Qed.
Lemma shape_deep_copy o C A : same_shape C (deep_copy Celt o C A).
Proof. unfold deep_copy. destruct (_ && _)%bool; [apply shape_bind | intros v E; discriminate]. Qed.
Lemma shape_add o (C A : view Celt) al be : same_shape C (add o C A al be).
Proof. unfold add. destruct (_ && _)%bool; [|intros v E; discriminate]. destruct (_ || _)%bool; [intros v E; discriminate | apply shape_bind]. Qed.
Lemma shape_checked3 A B (C : view Celt) r : same_shape C (checked3 A B C r).
Proof. unfold checked3. destruct (_ && _)%bool; [|intros v E; discriminate]. destruct (_ || _)%bool; [intros v E; discriminate | apply shape_bind]. Qed.
Lemma shape_scale_cols o (C A : view Celt) n x al be : same_shape C (scale_cols o C A n x al be).
Proof. unfold scale_cols. destruct (Nat.eqb _ _); [apply shape_bind | intros v E; discriminate]. Qed.
Lemma shape_scale o (C A : view Celt) al : same_shape C (scale o C A al).
Proof. unfold scale. destruct (Nat.eqb _ _); [apply shape_bind | intros v E; discriminate]. Qed.

Lemma vof_hset_same h x b : vof (hset h (hloc x) b) x = with_buf (vof h x) b.
Proof. unfold vof, with_buf. cbn. rewrite Nat.eqb_refl. reflexivity. Qed.
Lemma frame_hset h l b : frame (eq l) h (hset h l b).
Proof. split; [cbn; lia|]. intros q _ N. cbn. destruct (Nat.eqb_spec q l) as [E|E]; [exfalso; apply N; congruence | reflexivity]. Qed.

Lemma spec_kernel h C ins f : (forall x, In x ins -> hloc x <> hloc C) -> same_shape (vof h C) (f h) ->
  spec (eq (hloc C)) h (hkernel C ins f) (f h) (fun _ v h' => v = vof h' C).
Proof.
  intros N Sh. unfold hkernel. replace (existsb (fun x => Nat.eqb (hloc x) (hloc C)) ins) with false.
  2: { symmetry. apply not_true_is_false. intros E. apply existsb_exists in E. destruct E as (x & Hx & E). apply Nat.eqb_eq in E. exact (N x Hx E). }
  unfold spec. specialize (Sh). destruct (f h) as [v| | |]; cbn [kbind]; try reflexivity.
  exists tt, (hset h (hloc C) (vbuf v)). split; [reflexivity|]. split; [apply frame_hset|]. rewrite vof_hset_same. apply Sh. reflexivity.
Qed.

(** operators of the calling program that do not write to their argument *)
Definition keeps (op : operator_fn Celt) : Prop := forall k dy by_ dx bx, snd (op k dy by_ dx bx) = bx.
Lemma apply_op_keeps op k j x : keeps op -> apply_op Celt op k j x = (fst (apply_op Celt op k j x), x).
Proof.
  intros K. unfold apply_op. match goal with |- context [op ?a ?b ?c ?d ?e] => specialize (K a b c d e); destruct (op a b c d e) as [by_ bx] end.
  cbn in *. subst bx. destruct x. reflexivity.
Qed.
Lemma spec_apply_fn op k j h x : keeps op -> hloc x < hnext h ->
  spec nowhere h (h_apply op k j x) (KOk (fst (apply_op Celt op k j (vof h x)))) (fresh h).
Proof.
  intros K Hx.
  set (y := MkHview (hnext h) (hrows x) (hcols x) 1 (hrows x) (hlocal x)).
  set (h0 := MkHeap (S (hnext h)) (fun q => if Nat.eqb q (hnext h) then MkBuf (hrows x * hcols x) j else hbuf h q)).
  set (v := alloc_uninit Celt (hrows x) (hcols x) (hlocal x) j).
  assert (Ey : vof h0 y = v). { unfold vof, v, alloc_uninit. cbn. rewrite Nat.eqb_refl. reflexivity. }
  assert (Ex : vof h0 x = vof h x). { unfold vof. cbn. destruct (Nat.eqb_spec (hloc x) (hnext h)); [lia | reflexivity]. }
  set (res := op k (descriptor Celt v) (vbuf v) (descriptor Celt (vof h x)) (vbuf (vof h x))).
  assert (R : h_apply op k j x h = KOk (y, hset (hset h0 (hloc x) (snd res)) (hloc y) (fst res))).
  { unfold h_apply, h_empty_like, hbind. change (hnew (hrows x) (hcols x) (hlocal x) j h) with (@KOk (hview * heap) (y, h0)). cbn [kbind fst snd].
    rewrite Ey, Ex. fold res. destruct res as [by_ bx]. reflexivity. }
  unfold spec. exists y, (hset (hset h0 (hloc x) (snd res)) (hloc y) (fst res)). split; [exact R|]. split; [|split].
  - split; [cbn; lia|]. intros l Hl _. unfold res. rewrite K. cbn.
    destruct (Nat.eqb_spec l (hnext h)) as [E|_]; [lia|]. destruct (Nat.eqb_spec l (hloc x)) as [E|_]; [rewrite E|]; reflexivity.
  - rewrite vof_hset_same. unfold apply_op. change (alloc_uninit Celt (vrows (vof h x)) (vcols (vof h x)) (vlocal (vof h x)) j) with v. fold res.
    rewrite (surjective_pairing res). reflexivity.
  - cbn. lia.
Qed.
(** in the form in which StepMem.v uses it *)
Lemma spec_apply {A B} (P : nat -> Prop) op k j h x (c : hview -> hm A) (g : view Celt -> kres B) Q :
  keeps op -> hloc x < hnext h -> (forall l, hnext h <= l -> P l) ->
  (forall y h1, frame nowhere h h1 -> hnext h <= hloc y < hnext h1 -> spec P h1 (c y) (g (vof h1 y)) Q) ->
  spec P h (hbind (h_apply op k j x) c) (g (fst (apply_op Celt op k j (vof h x)))) Q.
Proof.
  intros K Hx Hn C.
  change (g (fst (apply_op Celt op k j (vof h x)))) with (kbind (KOk (fst (apply_op Celt op k j (vof h x)))) (fun a => g a)).
  refine (spec_bind nowhere P h _ _ _ _ _ _ (spec_apply_fn op k j h x K Hx) _ _ Hn).
  - intros l _ [].
  - intros y b h1 F [-> Hy] _. exact (C y h1 F Hy).
Qed.

(** bookkeeping: views named in the goal are the same in the new heap *)
Ltac side := first [lia | (intros []; fail) | (intros Hside; cbn in Hside; lia)].
Ltac carry F :=
  match type of F with frame ?P ?h ?h1 =>
    pose proof (frame_le _ _ _ F);
    repeat match goal with |- context [vof h ?x] => rewrite <- (frame_vof P h h1 x F) by side end
  end.
Ltac above := intros; cbn; first [left; lia | lia].
Ltac within := let l := fresh "l" in let Hl := fresh "Hl" in
  intros l Hl; cbn; first [(intros []; fail) | (intros [E|E]; first [left; lia | right; congruence]) | (intros E; first [left; lia | right; congruence])].
Lemma spec_fin {A B} P h (m : hm A) (r : kres B) Q : spec P h m (kbind r (fun b => KOk b)) Q -> spec P h m r Q.
Proof. destruct r; exact (fun H => H). Qed.

(** the kernels *)
Lemma spec_deep_copy h o C A : hloc A <> hloc C ->
  spec (eq (hloc C)) h (h_deep_copy o C A) (deep_copy Celt o (vof h C) (vof h A)) (fun _ v h' => v = vof h' C).
Proof. intros N. apply (spec_kernel h C [A] (fun h => deep_copy Celt o (vof h C) (vof h A))); [intros x [<- | []]; exact N | apply shape_deep_copy]. Qed.
Lemma spec_add h o C A al be : hloc A <> hloc C ->
  spec (eq (hloc C)) h (h_add o C A al be) (add o (vof h C) (vof h A) al be) (fun _ v h' => v = vof h' C).
Proof. intros N. apply (spec_kernel h C [A] (fun h => add o (vof h C) (vof h A) al be)); [intros x [<- | []]; exact N | apply shape_add]. Qed.
Lemma spec_inner h o C A B al be : hloc A <> hloc C -> hloc B <> hloc C ->
  spec (eq (hloc C)) h (h_inner o C A B al be) (inner o (vof h C) (vof h A) (vof h B) al be) (fun _ v h' => v = vof h' C).
Proof. intros N N'. apply (spec_kernel h C [A; B] (fun h => inner o (vof h C) (vof h A) (vof h B) al be)); [intros x [<- | [<- | []]]; assumption | apply shape_checked3]. Qed.
Lemma spec_outer h o C A B al be : hloc A <> hloc C -> hloc B <> hloc C ->
  spec (eq (hloc C)) h (h_outer o C A B al be) (outer o (vof h C) (vof h A) (vof h B) al be) (fun _ v h' => v = vof h' C).
Proof. intros N N'. apply (spec_kernel h C [A; B] (fun h => outer o (vof h C) (vof h A) (vof h B) al be)); [intros x [<- | [<- | []]]; assumption | apply shape_checked3]. Qed.
Lemma spec_transform h o C A B al be : hloc A <> hloc C -> hloc B <> hloc C ->
  spec (eq (hloc C)) h (h_transform o C be al A B) (transform o (vof h C) be al (vof h A) (vof h B)) (fun _ v h' => v = vof h' C).
Proof. intros N N'. apply (spec_kernel h C [A; B] (fun h => transform o (vof h C) be al (vof h A) (vof h B))); [intros x [<- | [<- | []]]; assumption | apply shape_checked3]. Qed.
Lemma spec_scale_cols h o C A n x al be : hloc A <> hloc C ->
  spec (eq (hloc C)) h (h_scale_cols o C A n x al be) (scale_cols o (vof h C) (vof h A) n x al be) (fun _ v h' => v = vof h' C).
Proof. intros N. apply (spec_kernel h C [A] (fun h => scale_cols o (vof h C) (vof h A) n x al be)); [intros y [<- | []]; exact N | apply shape_scale_cols]. Qed.

(** [kern L]: the next call, with lemma L, writes the destination; [call L]: it returns a new view *)
Ltac kern L := eapply spec_bind; [apply L; lia | within | let F := fresh "F" in intros ? ? ? F -> _; carry F | above].
Ltac call L := eapply spec_bind; [apply L; first [assumption | lia] | within | let F := fresh "F" in intros ? ? ? F [-> ?] _; carry F | above].
Ltac fin L := apply spec_fin; kern L.
Ltac new_with P h a b c f k g Q := apply (spec_new P h a b c f k g Q); [above | let F := fresh "F" in intros ? ? F ? ? _ _ _; carry F].
Ltac new :=
  unfold h_empty_like, h_zeros_like, empty_like, zeros_like;
  match goal with
  | |- spec ?P ?h (hbind (hnew ?a ?b ?c ?f) ?k) ?r ?Q =>
    match r with
    | context [alloc_uninit Celt ?x1 ?x2 ?x3 ?x4] =>
      let p := eval pattern (alloc_uninit Celt x1 x2 x3 x4) in r in
      match p with ?g _ => new_with P h a b c f k g Q end
    | context [alloc Celt ?x1 ?x2 ?x3] =>
      let p := eval pattern (alloc Celt x1 x2 x3) in r in
      match p with ?g _ => new_with P h a b c f k g Q end
    end
  end; cbv beta.
Ltac done := apply spec_ret; cbn [fst snd]; split; [reflexivity | lia].
(** a call of an operator of the calling program *)
Ltac oper K :=
  match goal with |- spec ?P ?h (hbind (h_apply ?op ?k ?j ?x) ?c) _ ?Q =>
    rewrite (apply_op_keeps op k j (vof h x) K);
    match goal with |- spec _ _ _ ?r _ =>
      let r1 := eval cbv iota in r in
      let p := eval pattern (fst (apply_op Celt op k j (vof h x))) in r1 in
      match p with ?g _ => apply (spec_apply P op k j h x c g Q K); [lia | above | let F := fresh "F" in intros ? ? F ?; carry F; cbv beta] end
    end
  end.
(** the last call returns the result *)
Ltac last L := eapply spec_weaken; [| | apply L; first [assumption | lia]]; [within | let F := fresh "F" in intros ? ? ? F [-> ?]; apply frame_le in F; split; [reflexivity | lia]].

Section Refine.
  Notation V := (ev Celt).
  Context (ord : nat -> orders) (ord1 : nat -> nat -> list nat) (junk : nat -> nat -> V).
  Context (heevd : nat -> buf Celt -> nat -> Z * buf Celt * (nat -> R)).
  Context (potrf : nat -> buf Celt -> nat -> Z * buf Celt)
          (potrs : nat -> nat -> buf Celt -> nat -> buf Celt -> nat -> Z * buf Celt).
  Context (opS opP : operator_fn Celt) (HS : keeps opS) (HP : keeps opP).

  Lemma spec_inner_ h o A B al be : hloc A < hnext h -> hloc B < hnext h ->
    spec nowhere h (h_inner_ o A B al be) (inner_ o (vof h A) (vof h B) al be) (fresh h).
  Proof.
    intros HA HB. apply spec_start. unfold h_inner_, inner_.
    new. fin spec_inner. done.
  Qed.
  Lemma spec_transform_alloc h o A B al be : hloc A < hnext h -> hloc B < hnext h ->
    spec nowhere h (h_transform_alloc o A B al be) (transform_alloc o (vof h A) (vof h B) al be) (fresh h).
  Proof.
    intros HA HB. apply spec_start. unfold h_transform_alloc, transform_alloc.
    new. fin spec_transform. done.
  Qed.
  Lemma spec_copy h o j x : hloc x < hnext h ->
    spec nowhere h (h_copy o j x) (deep_copy Celt o (alloc_uninit Celt (hrows x) (hcols x) (hlocal x) j) (vof h x)) (fresh h).
  Proof.
    intros Hx. apply spec_start. unfold h_copy.
    new. fin spec_deep_copy. done.
  Qed.
  Lemma shape_eigh t U wn Sv b : eigh ord heevd t U wn Sv = KOk b -> fst b = with_buf U (vbuf (fst b)).
  Proof.
    unfold eigh. destruct (deep_copy Celt _ U Sv) as [U1| | |] eqn:D; cbn [kbind]; try discriminate.
    apply shape_deep_copy in D. destruct (vlocal Sv); [|discriminate]. destruct (Nat.leb _ _); [|discriminate].
    destruct (heevd _ _ _) as [[info c] w]. destruct (Z.eqb info 0); [|discriminate]. intros E. injection E as <-. cbn. rewrite D. reflexivity.
  Qed.
  Lemma spec_eigh h t U wn Sv : hloc Sv <> hloc U ->
    spec (eq (hloc U)) h (h_eigh ord heevd t U wn Sv) (eigh ord heevd t (vof h U) wn (vof h Sv)) (fun w Uw h' => Uw = (vof h' U, w)).
  Proof.
    intros N. unfold h_eigh. rewrite (proj2 (Nat.eqb_neq _ _) N). unfold spec.
    destruct (eigh ord heevd t (vof h U) wn (vof h Sv)) as [Uw| | |] eqn:E; cbn [kbind]; try reflexivity.
    exists (snd Uw), (hset h (hloc U) (vbuf (fst Uw))). split; [reflexivity|]. split; [apply frame_hset|].
    rewrite vof_hset_same, <- (shape_eigh _ _ _ _ _ E). apply surjective_pairing.
  Qed.
  Lemma spec_solve_sym h A B : hloc A <> hloc B ->
    spec (fun l => hloc A = l \/ hloc B = l) h (h_solve_sym potrf potrs A B) (solve_sym potrf potrs (vof h A) (vof h B))
      (fun _ ab h' => ab = (vof h' A, vof h' B)).
  Proof.
    intros N. unfold h_solve_sym. rewrite (proj2 (Nat.eqb_neq _ _) N). unfold spec.
    destruct (solve_sym potrf potrs (vof h A) (vof h B)) as [ab| | |] eqn:E; cbn [kbind]; try reflexivity.
    eexists. eexists. split; [reflexivity|]. split.
    - split; [cbn; lia|]. intros q _ Nq. cbn. destruct (Nat.eqb_spec q (hloc B)) as [E1|_]; [exfalso; apply Nq; auto|].
      destruct (Nat.eqb_spec q (hloc A)) as [E1|_]; [exfalso; apply Nq; auto | reflexivity].
    - unfold solve_sym in E. destruct (_ && _)%bool; [|discriminate]. destruct (_ || _)%bool; [discriminate|].
      destruct (potrf _ _ _) as [i1 fa]. destruct (potrs _ _ _ _ _ _) as [i2 xb]. injection E as <-. cbn [fst snd].
      unfold vof, with_buf. cbn. rewrite (proj2 (Nat.eqb_neq _ _) N), !Nat.eqb_refl. reflexivity.
  Qed.

  Lemma spec_advance_eta h t step eta d_eta : hloc eta < hnext h -> hloc d_eta < hnext h ->
    spec nowhere h (h_advance_eta ord junk t step eta d_eta) (advance_eta ord junk t step (vof h eta) (vof h d_eta)) (fresh h).
  Proof.
    intros HA HB. apply spec_start. unfold h_advance_eta, advance_eta.
    new. kern spec_deep_copy. fin spec_add. done.
  Qed.
  Lemma spec_eigvals h t eta : hloc eta < hnext h ->
    spec nowhere h (h_eigvals_and_vectors ord junk heevd t eta) (eigvals_and_vectors ord junk heevd t (vof h eta))
      (fun Uw b h' => b = (vof h' (fst Uw), snd Uw) /\ hnext h <= hloc (fst Uw) < hnext h').
  Proof.
    intros HA. apply spec_start. unfold h_eigvals_and_vectors, eigvals_and_vectors. new. fin spec_eigh. done.
  Qed.
  Lemma spec_loewdin h t X SX : hloc X < hnext h -> hloc SX < hnext h ->
    spec nowhere h (h_loewdin ord junk heevd t X SX) (loewdin ord junk heevd t (vof h X) (vof h SX)) (fresh h).
  Proof.
    intros HA HB. apply spec_start. unfold h_loewdin, loewdin.
    call spec_inner_. new. kern spec_eigh. cbn [fst snd]. kern spec_scale_cols. new. kern spec_outer. new. fin spec_transform. done.
  Qed.
  Lemma spec_advance_x h t k step x dx ul : hloc x < hnext h -> hloc dx < hnext h -> hloc ul < hnext h ->
    spec nowhere h (h_advance_x ord junk heevd opS t k step x dx ul) (advance_x ord junk heevd opS t k step (vof h x) (vof h dx) (vof h ul)) (fresh h).
  Proof.
    intros HA HB HC. apply spec_start. unfold h_advance_x, advance_x.
    new. kern spec_deep_copy. kern spec_add. oper HS. call spec_loewdin. last spec_transform_alloc.
  Qed.
  Lemma spec_geodesic h t k step X eta zx ze : hloc X < hnext h -> hloc eta < hnext h -> hloc zx < hnext h -> hloc ze < hnext h ->
    spec nowhere h (h_geodesic_us ord junk heevd opS t k step X eta zx ze)
      (geodesic_us ord junk heevd opS t k step (vof h X) (vof h eta) (vof h zx) (vof h ze))
      (fun a b h' => b = (fst (fst a), vof h' (snd (fst a)), vof h' (snd a)) /\ hnext h <= hloc (snd (fst a)) < hnext h' /\ hnext h <= hloc (snd a) < hnext h').
  Proof.
    intros H1 H2 H3 H4. apply spec_start. unfold h_geodesic_us, geodesic_us.
    call spec_advance_eta. call spec_eigvals. cbn [fst snd]. call spec_advance_x. done.
  Qed.
  Lemma spec_lmult h t k sx hx : hloc sx < hnext h -> hloc hx < hnext h ->
    spec nowhere h (h_lmult ord junk potrf potrs opP t k sx hx) (lmult ord junk potrf potrs opP t k (vof h sx) (vof h hx)) (fresh h).
  Proof.
    intros HA HB. apply spec_start. unfold h_lmult, lmult.
    oper HP. call spec_inner_. oper HP. call spec_inner_. kern spec_solve_sym. last spec_transform_alloc.
  Qed.
  Lemma spec_gradx h t x hx fn xll wk : hloc x < hnext h -> hloc hx < hnext h -> hloc xll < hnext h ->
    spec nowhere h (h_gradx ord junk t x hx fn xll wk) (gradx ord junk t (vof h x) (vof h hx) fn (vof h xll) wk) (fresh h).
  Proof. intros HA HB HC. apply spec_start. unfold h_gradx, gradx. new. kern spec_scale_cols. fin spec_add. done. Qed.
  Lemma spec_precondgx h t k x hx xll : hloc x < hnext h -> hloc hx < hnext h -> hloc xll < hnext h ->
    spec nowhere h (h_precondgx_us ord junk opP t k x hx xll) (precondgx_us ord junk opP t k (vof h x) (vof h hx) (vof h xll)) (fresh h).
  Proof. intros HA HB HC. apply spec_start. unfold h_precondgx_us, precondgx_us. new. kern spec_add. kern spec_add. last spec_apply_fn. Qed.
  Lemma spec_rotatex h t x u : hloc x < hnext h -> hloc u < hnext h ->
    spec nowhere h (h_rotatex ord t x u) (rotatex ord t (vof h x) (vof h u)) (fresh h).
  Proof. intros HA HB. exact (spec_transform_alloc h _ x u _ _ HA HB). Qed.
  Lemma spec_rotateeta h t x u : hloc x < hnext h -> hloc u < hnext h ->
    spec nowhere h (h_rotateeta ord t x u) (rotateeta ord t (vof h x) (vof h u)) (fresh h).
  Proof. intros HA HB. apply spec_start. unfold h_rotateeta, rotateeta. call spec_transform_alloc. last spec_inner_. Qed.
  (** overwrites its first argument *)
  Lemma spec_conjugatex h t z sx : hloc z < hnext h -> hloc sx < hnext h -> hloc sx <> hloc z ->
    spec (eq (hloc z)) h (h_conjugatex ord potrf potrs t z sx) (conjugatex ord potrf potrs t (vof h z) (vof h sx))
      (fun a b h' => a = z /\ b = vof h' z).
  Proof.
    intros HA HB HN. apply spec_start. unfold h_conjugatex, conjugatex.
    call spec_inner_. call spec_inner_. kern spec_solve_sym. cbn [fst snd]. call spec_transform_alloc. fin spec_add.
    apply spec_ret. split; reflexivity.
  Qed.
  Context (s : smearing_type) (T kappa mo : R).
  Lemma shape_delta_eta t hij ek wk v : delta_eta ord ord1 junk kappa t hij ek wk = KOk v ->
    exists b, v = with_buf (alloc_uninit Celt (vrows hij) (vcols hij) (vlocal hij) (junk t)) b.
  Proof.
    unfold delta_eta. destruct (scale _ _ _ _) as [d| | |] eqn:D; cbn [kbind]; try discriminate. apply shape_scale in D.
    destruct (forrange _ _ _) as [b| | |]; cbn [kbind]; try discriminate. intros E. injection E as <-. exists b. rewrite D. reflexivity.
  Qed.
  Lemma shape_g_eta t hij mu wk ek fn dmu dF v : g_eta ord ord1 s T mo t hij mu wk ek fn dmu dF = KOk v ->
    exists b, v = with_buf (alloc Celt (vrows hij) (vcols hij) (vlocal hij)) b.
  Proof.
    unfold g_eta. destruct (forrange _ _ _) as [b1| | |]; cbn [kbind]; try discriminate.
    match goal with |- context [kbind (if ?c then ?x else ?y) _] => destruct (if c then x else y) as [b2| | |]; cbn [kbind]; try discriminate end.
    destruct (foreach _ _ _) as [b3| | |]; cbn [kbind]; try discriminate. intros E. injection E as <-. exists b3. reflexivity.
  Qed.
  Lemma spec_into h rows cols loc f A (r : view Celt -> kres (view Celt)) : hloc A < hnext h ->
    (forall v, r (vof h A) = KOk v -> exists b, v = with_buf (alloc_uninit Celt rows cols loc f) b) ->
    spec nowhere h (d <~ hnew rows cols loc f ;; _ <~ hkernel d [A] (fun h => r (vof h A)) ;; hret d) (r (vof h A)) (fresh h).
  Proof.
    intros HA Sh. apply spec_start.
    set (x := MkHview (hnext h) rows cols 1 rows loc).
    set (h1 := MkHeap (S (hnext h)) (fun q => if Nat.eqb q (hnext h) then MkBuf (rows * cols) f else hbuf h q)).
    assert (EA : vof h1 A = vof h A). { unfold vof. cbn. destruct (Nat.eqb_spec (hloc A) (hnext h)); [lia | reflexivity]. }
    unfold spec, hbind, hnew. cbn [kbind fst snd]. fold x h1. unfold hkernel. cbn [existsb].
    replace (Nat.eqb (hloc A) (hloc x) || false)%bool with false.
    2: { cbn. destruct (Nat.eqb_spec (hloc A) (hnext h)); [lia | reflexivity]. }
    rewrite EA. destruct (r (vof h A)) as [v| | |]; cbn [kbind fst snd]; try reflexivity.
    destruct (Sh v eq_refl) as [b ->]. exists x, (hset h1 (hloc x) b). split; [reflexivity|]. split.
    - split; [cbn; lia|]. intros l Hl _. cbn. destruct (Nat.eqb_spec l (hnext h)); [lia | reflexivity].
    - split; [|cbn; lia]. rewrite vof_hset_same. reflexivity.
  Qed.
  Lemma spec_delta_eta h t hij ek wk : hloc hij < hnext h ->
    spec nowhere h (h_delta_eta ord ord1 junk kappa t hij ek wk) (delta_eta ord ord1 junk kappa t (vof h hij) ek wk) (fresh h).
  Proof.
    intros HA. apply (spec_into h _ _ _ _ hij (fun a => delta_eta ord ord1 junk kappa t a ek wk) HA). intros v. exact (shape_delta_eta _ _ _ _ _).
  Qed.
  Lemma spec_g_eta h t hij mu wk ek fn dmu dF : hloc hij < hnext h ->
    spec nowhere h (h_g_eta ord ord1 s T mo t hij mu wk ek fn dmu dF) (g_eta ord ord1 s T mo t (vof h hij) mu wk ek fn dmu dF) (fresh h).
  Proof.
    intros HA. apply (spec_into h _ _ _ _ hij (fun a => g_eta ord ord1 s T mo t a mu wk ek fn dmu dF) HA). intros v. exact (shape_g_eta _ _ _ _ _ _ _ _ _).
  Qed.

  Ltac reads := eapply (spec_bind nowhere); [match goal with |- spec _ _ (hread ?r) _ _ => apply (spec_read nowhere _ r) end
    | within | intros ? ? ? _ [-> ->] _ | above].
  Lemma spec_restart h t k mu dmu dF wk x e f hx : hloc x < hnext h -> hloc hx < hnext h ->
    spec nowhere h (h_exec_restart ord ord1 junk potrf potrs opS opP s T kappa mo t k mu dmu dF wk x e f hx)
      (exec_restart ord ord1 junk potrf potrs opS opP s T kappa mo t k mu dmu dF wk (vof h x) e f (vof h hx))
      (fun a b h' => b = (fst (fst a), vof h' (snd (fst a)), vof h' (snd a)) /\
         (hnext h <= hloc (snd (fst a)) < hnext h' /\ hnext h <= hloc (snd a) < hnext h' /\ hloc (snd (fst a)) <> hloc (snd a))).
  Proof.
    intros HA HB. apply spec_start. unfold h_exec_restart, exec_restart.
    oper HS. call spec_lmult. call spec_gradx. call spec_precondgx. call spec_inner_. call spec_g_eta. call spec_delta_eta. reads. reads. done.
  Qed.
  Lemma spec_conjugate h t sx zxp zetap ul gx ge : hloc sx < hnext h -> hloc zxp < hnext h -> hloc zetap < hnext h -> hloc ul < hnext h ->
    hloc gx < hnext h -> hloc ge < hnext h ->
    spec nowhere h (h_exec_conjugate ord potrf potrs t sx zxp zetap ul gx ge)
      (exec_conjugate ord potrf potrs t (vof h sx) (vof h zxp) (vof h zetap) (vof h ul) (vof h gx) (vof h ge))
      (fun a b h' => b = (fst (fst a), vof h' (snd (fst a)), vof h' (snd a)) /\
         (hnext h <= hloc (snd (fst a)) < hnext h' /\ hnext h <= hloc (snd a) < hnext h' /\ hloc (snd (fst a)) <> hloc (snd a))).
  Proof.
    intros H1 H2 H3 H4 H5 H6. apply spec_start. unfold h_exec_conjugate, exec_conjugate.
    call spec_rotatex. call spec_rotateeta.
    eapply spec_bind; [apply spec_conjugatex; lia | within | intros ? ? ? F1 [-> ->] _; carry F1 | above].
    reads. reads. done.
  Qed.
  Lemma spec_cg h t k mu dmu dF wk x e f hx zxp zetap ul : hloc x < hnext h -> hloc hx < hnext h -> hloc zxp < hnext h ->
    hloc zetap < hnext h -> hloc ul < hnext h ->
    spec nowhere h (h_exec_cg ord ord1 junk potrf potrs opS opP s T kappa mo t k mu dmu dF wk x e f hx zxp zetap ul)
      (exec_cg ord ord1 junk potrf potrs opS opP s T kappa mo t k mu dmu dF wk (vof h x) e f (vof h hx) (vof h zxp) (vof h zetap) (vof h ul))
      (fun a b h' => match a with (fr, dx, de, zx, ze, sl) => b = (fr, vof h' dx, vof h' de, vof h' zx, vof h' ze, sl) /\
         (hnext h <= hloc dx < hnext h' /\ hnext h <= hloc de < hnext h' /\ hnext h <= hloc zx < hnext h' /\ hnext h <= hloc ze < hnext h' /\
          hloc dx <> hloc zx /\ hloc de <> hloc zx /\ hloc de <> hloc ze /\ hloc dx <> hloc ze /\ hloc zx <> hloc ze) end).
  Proof.
    intros HA HB H1 H2 H3. apply spec_start. unfold h_exec_cg, exec_cg.
    oper HS. call spec_lmult. call spec_gradx. call spec_precondgx. call spec_inner_. call spec_g_eta. call spec_delta_eta. reads. reads.
    call spec_conjugate. done.
  Qed.
  (** Z <- gamma Z + delta, in place *)
  Lemma spec_combine h t gamma dx de zx ze : hloc dx < hnext h -> hloc de < hnext h -> hloc zx < hnext h -> hloc ze < hnext h ->
    hloc dx <> hloc zx -> hloc de <> hloc zx -> hloc de <> hloc ze -> hloc zx <> hloc ze ->
    spec (fun l => hloc zx = l \/ hloc ze = l) h (h_combine ord t gamma dx de zx ze)
      (combine_directions ord t gamma (vof h dx) (vof h de) (vof h zx) (vof h ze)) (fun _ b h' => b = (vof h' zx, vof h' ze)).
  Proof.
    intros H1 H2 H3 H4 H5 H6 H7 H8. apply spec_start. unfold h_combine, combine_directions.
    eapply spec_bind; [apply spec_add; lia | intros l Hl; cbn; intros E; right; left; exact E | intros ? ? ? F1 -> _; carry F1 | above].
    match goal with |- spec ?P ?h (h_add ?o ?C ?A ?al ?be) (kbind ?r ?g) ?Q =>
      pose proof (spec_add h o C A al be H7) as S end.
    unfold spec in *. destruct (add _ _ _ _ _) as [v| | |] eqn:E; cbn [kbind]; try exact S.
    destruct S as (u & h2 & E2 & F2 & ->). exists u, h2. split; [exact E2|]. split.
    - revert F2. apply frame_mono. intros l _ El. right. right. exact El.
    - rewrite (frame_vof _ _ _ zx F2); [reflexivity | lia | cbn; lia].
  Qed.
End Refine.
