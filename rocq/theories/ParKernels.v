(** The parallel loops of the library as programs of single accesses (Parallel.v), one per iteration, and their
    connection to the loops of LapackMem.v, Exchange.v, Teter.v and StepMem.v, which run one iteration after the other.
    Matrices and vectors of complex numbers are allocations of the shared memory: [d] is the allocation of the
    destination, [s] (and [s']) those of the sources; [s = d] is a call in place.
    Simplification: vectors of doubles (occupations, eigenvalues, preconditioner entries) are only read by these loops
    and are parameters; in loops over vectors of doubles the element type is a parameter.
    The operands of an expression are read from left to right; C++ leaves the order open, and nothing below depends on it. *)
From Coq Require Import Reals Arith Lia List Bool Permutation.
From Coquelicot Require Import Complex.
From Verif Require Import Arith LinAlg MVector Smearing Occupation LapackMem LapackMemProofs LapackElt Exchange Teter StepMem Parallel.
Import ListNotations.
Local Open Scope nat_scope.

Section Kernels.
  Context {E : elt}.
  Notation V := (ev E).
  (** element (i,j) of a matrix in allocation [b] *)
  Definition at2 (b : nat) (X : view E) (ij : nat * nat) : loc := (b, addr X (fst ij) (snd ij)).
  (** l = f(l) *)
  Definition replace_by (l : loc) (f : V -> V) : prog E := Rd l (fun old => Wr l (f old) Done).

  (** geam, cblas.hpp 374-391 (parallel over the columns), called with B = C by add, lapack_cpu.hpp 297-333 *)
  Definition geam_prog (d s : nat) (alpha beta : V) (lda ldc : nat) (ij : nat * nat) : prog E :=
    match int_index (fst ij) lda (snd ij), int_index (fst ij) ldc (snd ij) with
    | Some pa, Some pc => Rd (s, pa) (fun a => replace_by (d, pc) (fun old => eadd E (emul E alpha a) (emul E beta old)))
    | _, _ => Fail
    end.
  (** scale(dst, src, x, alpha, beta), lapack.hpp 89-101 *)
  Definition scale_cols_prog (d s : nat) (dst src : view E) (xn : nat) (x : nat -> er E) (alpha beta : er E) (ij : nat * nat) : prog E :=
    if Nat.ltb (snd ij) xn then
      Rd (at2 s src ij) (fun a =>
        if eris0 E beta then Wr (at2 d dst ij) (erscale E (ermul E alpha (x (snd ij))) a) Done
        else replace_by (at2 d dst ij) (fun old => eadd E (erscale E beta old) (erscale E (ermul E alpha (x (snd ij))) a)))
    else Fail.
  (** scale(dst, src, alpha, beta), lapack.hpp 127-139 *)
  Definition scale_beta_prog (d s : nat) (dst src : view E) (alpha beta : er E) (ij : nat * nat) : prog E :=
    Rd (at2 s src ij) (fun a =>
      if eris0 E beta then Wr (at2 d dst ij) (erscale E alpha a) Done
      else replace_by (at2 d dst ij) (fun old => eadd E (erscale E beta old) (erscale E alpha a))).
  (** scale(dst, src, alpha), lapack.hpp 164-170 *)
  Definition scale_prog (d s : nat) (dst src : view E) (alpha : er E) (ij : nat * nat) : prog E :=
    Rd (at2 s src ij) (fun a => Wr (at2 d dst ij) (erscale E alpha a) Done).
  (** _add, lapack.hpp 221-229 *)
  Definition add__prog (d s : nat) (dst src : view E) (alpha beta : V) (ij : nat * nat) : prog E :=
    Rd (at2 s src ij) (fun a =>
      if eis0 E beta then Wr (at2 d dst ij) (ekmul E alpha a) Done
      else replace_by (at2 d dst ij) (fun old => eadd E (ekmul E old beta) (ekmul E alpha a))).
  (** diagonal_preconditioner::apply, preconditioner.hpp 37-40; apply_in_place (51-55) is [s = d], [src = dst] *)
  Definition apply_diag_prog (d s : nat) (dst src : view E) (en : nat) (entries : nat -> er E) (ij : nat * nat) : prog E :=
    if Nat.ltb (fst ij) en then Rd (at2 s src ij) (fun a => Wr (at2 d dst ij) (erscale E (entries (fst ij)) a) Done) else Fail.
  (** Kokkos::deep_copy *)
  Definition deep_copy_prog (d s : nat) (dst src : view E) (ij : nat * nat) : prog E :=
    Rd (at2 s src ij) (fun a => Wr (at2 d dst ij) a Done).
  (** diag, lapack.hpp 33-34 *)
  Definition diag_prog (d s : nat) (X : view E) (i : nat) : prog E := Rd (at2 s X (i, i)) (fun a => Wr (d, i) a Done).
  (** make_diag, lapack.hpp 59-61; [n] elements of x in allocation [s] *)
  Definition make_diag_prog (d s : nat) (out : view E) (i : nat) : prog E := Rd (s, i) (fun a => Wr (at2 d out (i, i)) a Done).
  (** innerh_tr, lapack.hpp 276-281 and 309-314: tmp(i) += x(i,j) conj(y(i,j)) for j = 0, 1, ...; [n]: columns left *)
  Fixpoint row_prog_from (d s s' : nat) (X Y : view E) (i j n : nat) : prog E :=
    match n with
    | O => Done
    | S k =>
      Rd (d, i) (fun t => Rd (at2 s X (i, j)) (fun a => Rd (at2 s' Y (i, j)) (fun b =>
        Wr (d, i) (eadd E t (ekmul E a (econj E b))) (row_prog_from d s s' X Y i (S j) k))))
    end.
  Definition row_prog (d s s' : nat) (X Y : view E) (i : nat) : prog E := row_prog_from d s s' X Y i 0 (vcols X).
  (** w(i) = f(w(i)): loewdin_aux, lapack.hpp 368-371 (and 357-360); x(i) = x(i) * kT, smearing.hpp 641-642, 654-655 *)
  Definition map_prog (d : nat) (f : V -> V) (i : nat) : prog E := replace_by (d, i) f.
  (** result(i) = f(x(i)): PreconditionerTeter, preconditioner.hpp 82-89 *)
  Definition map_into_prog (d s : nat) (f : V -> V) (i : nat) : prog E := Rd (s, i) (fun a => Wr (d, i) (f a) Done).

  (** ** Loops one iteration after the other *)
  Fixpoint loop {I} (order : list I) (body : I -> buf E -> kres (buf E)) (b : buf E) : kres (buf E) :=
    match order with [] => KOk b | x :: r => kbind (body x b) (loop r body) end.
  Lemma foreach_loop order body (b : buf E) : foreach order body b = loop order (fun ij => body (fst ij) (snd ij)) b.
  Proof. revert b. induction order as [|[i j] r IH]; intros b; cbn; [reflexivity|]. destruct (body i j b); cbn; auto. Qed.
  Lemma forrange_loop order body (b : buf E) : forrange order body b = loop order body b.
  Proof. revert b. induction order as [|i r IH]; intros b; cbn; [reflexivity|]. destruct (body i b); cbn; auto. Qed.

  (** the body of a sequential loop does to allocation [d] what the program does *)
  Definition follows (d : nat) (m0 : mem E) (body : buf E -> kres (buf E)) (q : prog E) : Prop :=
    forall c, match body c with
              | KOk c' => exists m', exec q (put m0 d c) = Some m' /\ same_mem m' (put m0 d c')
              | _ => exec q (put m0 d c) = None
              end.
  (** reads outside the destination and its own element, writes its own element *)
  Definition own_element (d a : nat) (q : prog E) : Prop := fits (fun l => fst l <> d \/ l = (d, a)) (fun l => l = (d, a)) q.

  Lemma same_refl (m : mem E) : same_mem m m.
  Proof. intros b. split; reflexivity. Qed.
  Lemma same_sym (m m' : mem E) : same_mem m m' -> same_mem m' m.
  Proof. intros H b. destruct (H b) as [A B]. split; [symmetry; exact A | intros a; symmetry; apply B]. Qed.
  Lemma same_trans (m m' m'' : mem E) : same_mem m m' -> same_mem m' m'' -> same_mem m m''.
  Proof. intros H H' b. destruct (H b) as [A B]. destruct (H' b) as [A' B']. split; [congruence | intros a; rewrite B; apply B']. Qed.
  Lemma same_put_upd (m m' : mem E) b a v : same_mem m m' -> same_mem (put m b (upd (m b) a v)) (put m' b (upd (m' b) a v)).
  Proof.
    intros H c. unfold put. destruct (Nat.eqb c b); [|apply H]. cbn. destruct (H b) as [A B]. split; [exact A|]. intros x. rewrite B. reflexivity.
  Qed.
  Lemma same_put_put (m : mem E) d c c' : same_mem (put (put m d c) d c') (put m d c').
  Proof. intros b. unfold put. destruct (Nat.eqb b d); split; reflexivity. Qed.
  Lemma same_put_id (m : mem E) d c : m d = c -> same_mem (put m d c) m.
  Proof. intros <- b. unfold put. destruct (Nat.eqb_spec b d) as [->|]; split; reflexivity. Qed.
  Lemma exec_same (q : prog E) : forall m m' m1, same_mem m m' -> exec q m = Some m1 -> exists m1', exec q m' = Some m1' /\ same_mem m1 m1'.
  Proof.
    induction q as [| |l k IH|l v k IH]; intros m m' m1 Hs H; cbn in *; try discriminate.
    - injection H as <-. eauto.
    - destruct (rd (m (fst l)) (snd l)) as [v|] eqn:Er; [|discriminate]. apply rd_size in Er. destruct Er as [-> Lt].
      destruct (Hs (fst l)) as [A B]. rewrite A in Lt. rewrite Parallel.rd_in by exact Lt. rewrite <- B. eapply IH; eassumption.
    - destruct (wr (m (fst l)) (snd l) v) as [b|] eqn:Er; [|discriminate]. apply wr_size in Er. destruct Er as [-> Lt].
      destruct (Hs (fst l)) as [A B]. rewrite A in Lt. rewrite Parallel.wr_in by exact Lt. eapply IH; [|exact H]. apply same_put_upd. exact Hs.
  Qed.
  Lemma exec_same_none (q : prog E) m m' : same_mem m m' -> exec q m = None -> exec q m' = None.
  Proof.
    intros Hs H. destruct (exec q m') as [m1|] eqn:Em; [|reflexivity]. destruct (exec_same q m' m m1 (same_sym _ _ Hs) Em) as (m2 & H2 & _). congruence.
  Qed.
  Lemma execs_same (ps : list (prog E)) : forall m m' m1, same_mem m m' -> execs ps m = Some m1 -> exists m1', execs ps m' = Some m1' /\ same_mem m1 m1'.
  Proof.
    induction ps as [|q r IH]; intros m m' m1 Hs H; cbn in *; [injection H as <-; eauto|].
    destruct (exec q m) as [m2|] eqn:Eq; [|discriminate]. destruct (exec_same _ _ _ _ Hs Eq) as (m2' & -> & Hs2). eapply IH; eassumption.
  Qed.
  Lemma execs_same_none (ps : list (prog E)) m m' : same_mem m m' -> execs ps m = None -> execs ps m' = None.
  Proof.
    intros Hs H. destruct (execs ps m') as [m1|] eqn:Em; [|reflexivity]. destruct (execs_same ps m' m m1 (same_sym _ _ Hs) Em) as (m2 & H2 & _). congruence.
  Qed.
  Lemma runs_to_same ps (m0 m m' : mem E) : same_mem m m' -> runs_to ps m0 m -> runs_to ps m0 m'.
  Proof.
    intros Hs (N & H). exists N. intros n c Hc. destruct (H n c Hc) as (A & B & C & D). split; [exact A|]. split; [exact B|]. split; [|exact D].
    intros F. eapply same_trans; [apply C; exact F | exact Hs].
  Qed.
  Lemma loop_exec {I} d (m0 : mem E) (body : I -> buf E -> kres (buf E)) (q : I -> prog E) order : (forall x, In x order -> follows d m0 (body x) (q x)) -> forall b,
    match loop order body b with
    | KOk b' => exists m', execs (map q order) (put m0 d b) = Some m' /\ same_mem m' (put m0 d b')
    | _ => execs (map q order) (put m0 d b) = None
    end.
  Proof.
    induction order as [|x r IH]; intros H b; cbn.
    - eexists. split; [reflexivity | apply same_refl].
    - pose proof (H x (or_introl eq_refl) b) as Hx. specialize (IH (fun y Hy => H y (or_intror Hy))).
      destruct (body x b) as [c| | |]; cbn; [|rewrite Hx; reflexivity..].
      destruct Hx as (m1 & -> & S1). specialize (IH c). destruct (loop r body c) as [b'| | |].
      + destruct IH as (m2 & H2 & S2). destruct (execs_same _ _ _ _ (same_sym _ _ S1) H2) as (m3 & -> & S3). exists m3. split; [reflexivity|].
        eapply same_trans; [apply same_sym; exact S3 | exact S2].
      + eapply execs_same_none; [apply same_sym; exact S1 | exact IH].
      + eapply execs_same_none; [apply same_sym; exact S1 | exact IH].
      + eapply execs_same_none; [apply same_sym; exact S1 | exact IH].
  Qed.
  Lemma independent_own {I} d (ad : I -> nat) (q : I -> prog E) its : NoDup its -> (forall x y, In x its -> In y its -> ad x = ad y -> x = y) ->
    (forall x, In x its -> own_element d (ad x) (q x)) ->
    independent q (fun x l => fst l <> d \/ l = (d, ad x)) (fun x l => l = (d, ad x)) its.
  Proof.
    intros Nd Inj Ft. split; [exact Nd|]. split; [exact Ft|]. intros x y l Hx Hy N -> H. apply N, Inj; try assumption.
    destruct H as [[H | H] | H]; [cbn in H; congruence | congruence | congruence].
  Qed.
  (** a loop that is fine one iteration after the other is fine in parallel, with the same result *)
  Theorem loop_parallel {I} d (m0 : mem E) b b' (its order : list I) body q (ad : I -> nat) chunks :
    NoDup its -> (forall x y, In x its -> In y its -> ad x = ad y -> x = y) -> (forall x, In x its -> own_element d (ad x) (q x)) ->
    (forall x, In x its -> follows d m0 (body x) (q x)) -> m0 d = b -> Permutation order its -> loop order body b = KOk b' ->
    Permutation (concat chunks) its -> runs_to (threads q chunks) m0 (put m0 d b').
  Proof.
    intros Nd Inj Ft Fo Hb P Hl Pc.
    assert (Fo' : forall x, In x order -> follows d m0 (body x) (q x)) by (intros x Hx; apply Fo; eapply Permutation_in; [exact P | exact Hx]).
    pose proof (loop_exec d m0 body q order Fo' b) as H. rewrite Hl in H. destruct H as (m1 & H1 & S1).
    destruct (execs_same _ _ m0 _ (same_put_id m0 d b Hb) H1) as (m2 & H2 & S2).
    apply (runs_to_same _ m0 m2); [eapply same_trans; [apply same_sym; exact S2 | exact S1]|].
    eapply parallel_of_sequential; [apply independent_own; [exact Nd | exact Inj | exact Ft] | exact P | exact H2 | exact Pc].
  Qed.
  (** a loop that is undefined one iteration after the other has a parallel execution that is undefined *)
  Theorem loop_undefined {I} d (m0 : mem E) b (order : list I) body q :
    (forall x, In x order -> follows d m0 (body x) (q x)) -> m0 d = b -> loop order body b = KUB ->
    exists n c, steps n (map q order, m0) c /\ faulty c.
  Proof.
    intros Fo Hb Hl. pose proof (loop_exec d m0 body q order Fo b) as H. rewrite Hl in H.
    apply (execs_same_none _ _ m0 (same_put_id m0 d b Hb)) in H. destruct (execs_bad E (map q order) m0 [] ltac:(intros ? []) H) as (n & c & Hn & F).
    exists n, c. split; [exact Hn | exact F].
  Qed.

  (** ** Bodies and programs *)
  Lemma put_d (m : mem E) d c : put m d c d = c.
  Proof. unfold put. rewrite Nat.eqb_refl. reflexivity. Qed.
  Lemma put_s (m : mem E) d s c : s <> d -> put m d c s = m s.
  Proof. intros N. unfold put. apply Nat.eqb_neq in N. rewrite N. reflexivity. Qed.
  Lemma follows_store d m0 (a : nat) v : follows d m0 (fun c => store c a v) (Wr (d, a) v Done).
  Proof.
    intros c. unfold store. cbn [exec fst snd]. rewrite put_d. destruct (wr c a v) as [c'|]; [|reflexivity]. eexists. split; [reflexivity | apply same_put_put].
  Qed.
  Lemma follows_modify d m0 (a : nat) f : follows d m0 (fun c => modify c a f) (replace_by (d, a) f).
  Proof.
    intros c. unfold modify, replace_by. cbn [exec fst snd]. rewrite put_d. destruct (rd c a) as [v|]; [|reflexivity].
    rewrite ?put_d. destruct (wr c a (f v)) as [c'|]; [|reflexivity]. eexists. split; [reflexivity | apply same_put_put].
  Qed.
  Lemma follows_load d (m0 : mem E) s b a (body : V -> buf E -> kres (buf E)) q : s <> d -> m0 s = b -> (forall v, follows d m0 (body v) (q v)) ->
    follows d m0 (fun c => load b a (fun v => body v c)) (Rd (s, a) q).
  Proof.
    intros N Hb H c. cbn [exec fst snd]. rewrite put_s by exact N. rewrite Hb. unfold load. destruct (rd b a) as [v|]; [apply H | reflexivity].
  Qed.
  (** in place: the element read is the one written *)
  Lemma follows_in_place d (m0 : mem E) a f : follows d m0 (fun c => modify c a f) (Rd (d, a) (fun v => Wr (d, a) (f v) Done)).
  Proof. apply follows_modify. Qed.
  Lemma follows_fail d (m0 : mem E) : follows d m0 (fun _ => KUB) Fail.
  Proof. intros c. reflexivity. Qed.
  Lemma own_store d a (v : V) : own_element d a (Wr (d, a) v Done).
  Proof. split; [reflexivity | exact I]. Qed.
  Lemma own_replace d a (f : V -> V) : own_element d a (replace_by (d, a) f).
  Proof. split; [right; reflexivity|]. intros v. apply own_store. Qed.
  Lemma own_read d a s b (q : V -> prog E) : s <> d -> (forall v, own_element d a (q v)) -> own_element d a (Rd (s, b) q).
  Proof. intros N H. split; [left; exact N | exact H]. Qed.

  (** ** The kernels in parallel *)
  Lemma inj_pairs m n (X : view E) : injective_view m n X -> forall x y, In x (pairs m n) -> In y (pairs m n) ->
    addr X (fst x) (snd x) = addr X (fst y) (snd y) -> x = y.
  Proof.
    intros J [i j] [i' j'] Hx Hy H. apply in_pairs in Hx. apply in_pairs in Hy. unfold addr in H. cbn [fst snd] in *.
    destruct (J i j i' j') as [-> ->]; tauto.
  Qed.
  Lemma kbind_ok {A B} (r : kres A) (f : A -> kres B) y : kbind r f = KOk y -> exists x, r = KOk x /\ f x = KOk y.
  Proof. destruct r; cbn; try discriminate; eauto. Qed.

  Theorem par_scale d s m0 (dst src : view E) alpha m n order chunks dst' :
    s <> d -> m0 d = vbuf dst -> m0 s = vbuf src -> injective_view m n dst -> Permutation order (pairs m n) ->
    scale order dst src alpha = KOk dst' -> Permutation (concat chunks) (pairs m n) ->
    runs_to (threads (scale_prog d s dst src alpha) chunks) m0 (put m0 d (vbuf dst')).
  Proof.
    intros N Hd Hs J P H Pc. unfold scale in H. destruct (Nat.eqb (vs0 src) 1); [|discriminate].
    apply kbind_ok in H. destruct H as (b & H & Hb). injection Hb as <-. cbn [vbuf with_buf]. rewrite foreach_loop in H.
    apply (loop_parallel d m0 _ b (pairs m n) order _ _ (fun ij => addr dst (fst ij) (snd ij)) chunks (nodup_pairs m n) (inj_pairs m n dst J)) with (5 := H);
      try assumption.
    - intros x _. apply own_read; [exact N|]. intros v. apply own_store.
    - intros x _. apply follows_load; [exact N | exact Hs|]. intros v. apply follows_store.
  Qed.
  Theorem par_scale_beta d s m0 (dst src : view E) alpha beta m n order chunks dst' :
    s <> d -> m0 d = vbuf dst -> m0 s = vbuf src -> injective_view m n dst -> Permutation order (pairs m n) ->
    scale_beta order dst src alpha beta = KOk dst' -> Permutation (concat chunks) (pairs m n) ->
    runs_to (threads (scale_beta_prog d s dst src alpha beta) chunks) m0 (put m0 d (vbuf dst')).
  Proof.
    intros N Hd Hs J P H Pc. unfold scale_beta in H. destruct (Nat.eqb (vs0 src) 1); [|discriminate].
    apply kbind_ok in H. destruct H as (b & H & Hb). injection Hb as <-. cbn [vbuf with_buf]. rewrite foreach_loop in H.
    apply (loop_parallel d m0 _ b (pairs m n) order _ _ (fun ij => addr dst (fst ij) (snd ij)) chunks (nodup_pairs m n) (inj_pairs m n dst J)) with (5 := H);
      try assumption.
    - intros x _. apply own_read; [exact N|]. intros v. destruct (eris0 E beta); [apply own_store | apply own_replace].
    - intros x _. apply follows_load; [exact N | exact Hs|]. intros v. destruct (eris0 E beta); [apply follows_store | apply follows_modify].
  Qed.
  Theorem par_scale_cols d s m0 (dst src : view E) xn x alpha beta m n order chunks dst' :
    s <> d -> m0 d = vbuf dst -> m0 s = vbuf src -> injective_view m n dst -> Permutation order (pairs m n) ->
    scale_cols order dst src xn x alpha beta = KOk dst' -> Permutation (concat chunks) (pairs m n) ->
    runs_to (threads (scale_cols_prog d s dst src xn x alpha beta) chunks) m0 (put m0 d (vbuf dst')).
  Proof.
    intros N Hd Hs J P H Pc. unfold scale_cols in H. destruct (Nat.eqb (vs0 src) 1); [|discriminate].
    apply kbind_ok in H. destruct H as (b & H & Hb). injection Hb as <-. cbn [vbuf with_buf]. rewrite foreach_loop in H.
    apply (loop_parallel d m0 _ b (pairs m n) order _ _ (fun ij => addr dst (fst ij) (snd ij)) chunks (nodup_pairs m n) (inj_pairs m n dst J)) with (5 := H);
      try assumption.
    - intros y _. unfold scale_cols_prog. destruct (Nat.ltb (snd y) xn); [|exact I]. apply own_read; [exact N|]. intros v.
      destruct (eris0 E beta); [apply own_store | apply own_replace].
    - intros y _. unfold scale_cols_prog. destruct (Nat.ltb (snd y) xn); [|apply follows_fail]. apply follows_load; [exact N | exact Hs|]. intros v.
      destruct (eris0 E beta); [apply follows_store | apply follows_modify].
  Qed.
  Theorem par_add_ d s m0 (dst src : view E) alpha beta m n order chunks dst' :
    s <> d -> m0 d = vbuf dst -> m0 s = vbuf src -> injective_view m n dst -> Permutation order (pairs m n) ->
    add_ order dst src alpha beta = KOk dst' -> Permutation (concat chunks) (pairs m n) ->
    runs_to (threads (add__prog d s dst src alpha beta) chunks) m0 (put m0 d (vbuf dst')).
  Proof.
    intros N Hd Hs J P H Pc. unfold add_ in H.
    apply kbind_ok in H. destruct H as (b & H & Hb). injection Hb as <-. cbn [vbuf with_buf]. rewrite foreach_loop in H.
    apply (loop_parallel d m0 _ b (pairs m n) order _ _ (fun ij => addr dst (fst ij) (snd ij)) chunks (nodup_pairs m n) (inj_pairs m n dst J)) with (5 := H);
      try assumption.
    - intros x _. apply own_read; [exact N|]. intros v. destruct (eis0 E beta); [apply own_store | apply own_replace].
    - intros x _. apply follows_load; [exact N | exact Hs|]. intros v. destruct (eis0 E beta); [apply follows_store | apply follows_modify].
  Qed.
  Theorem par_add d s m0 (C A : view E) alpha beta order chunks C' :
    s <> d -> m0 d = vbuf C -> m0 s = vbuf A -> vrows A <= vs1 C -> Permutation order (pairs (vrows A) (vcols C)) ->
    add order C A alpha beta = KOk C' -> Permutation (concat chunks) (pairs (vrows A) (vcols C)) ->
    runs_to (threads (geam_prog d s alpha beta (vs1 A) (vs1 C)) chunks) m0 (put m0 d (vbuf C')).
  Proof.
    intros N Hd Hs Hld P H Pc. unfold add in H. destruct (vlocal A && vlocal C)%bool; [|discriminate].
    destruct (negb (Nat.eqb (vs0 A) 1) || negb (Nat.eqb (vs0 C) 1))%bool; [discriminate|].
    apply kbind_ok in H. destruct H as (b & H & Hb). injection Hb as <-. cbn [vbuf with_buf]. unfold geam in H. rewrite foreach_loop in H.
    apply (loop_parallel d m0 _ b (pairs (vrows A) (vcols C)) order _ _ (fun ij => fst ij + vs1 C * snd ij) chunks (nodup_pairs _ _)) with (6 := H);
      try assumption.
    - intros [i j] [i' j'] Hx Hy He. apply in_pairs in Hx. apply in_pairs in Hy. cbn [fst snd] in He.
      destruct (cm_inj (vs1 C) (vrows A) i j i' j') as [-> ->]; tauto.
    - intros x _. unfold geam_prog. destruct (int_index (fst x) (vs1 A) (snd x)) as [pa|]; [|exact I].
      unfold int_index. destruct (_ && _)%bool; [|exact I]. apply own_read; [exact N|]. intros v. apply own_replace.
    - intros x _. unfold geam_prog. destruct (int_index (fst x) (vs1 A) (snd x)) as [pa|]; [|apply follows_fail].
      destruct (int_index (fst x) (vs1 C) (snd x)) as [pc|]; [|apply follows_fail]. apply follows_load; [exact N | exact Hs|]. intros v. apply follows_modify.
  Qed.
  Theorem par_apply_diag d s m0 (dst src : view E) en entries m n order chunks dst' :
    s <> d -> m0 d = vbuf dst -> m0 s = vbuf src -> injective_view m n dst -> Permutation order (pairs m n) ->
    apply_diag E order dst src en entries = KOk dst' -> Permutation (concat chunks) (pairs m n) ->
    runs_to (threads (apply_diag_prog d s dst src en entries) chunks) m0 (put m0 d (vbuf dst')).
  Proof.
    intros N Hd Hs J P H Pc. unfold apply_diag in H.
    apply kbind_ok in H. destruct H as (b & H & Hb). injection Hb as <-. cbn [vbuf with_buf]. rewrite foreach_loop in H.
    apply (loop_parallel d m0 _ b (pairs m n) order _ _ (fun ij => addr dst (fst ij) (snd ij)) chunks (nodup_pairs m n) (inj_pairs m n dst J)) with (5 := H);
      try assumption.
    - intros x _. unfold apply_diag_prog. destruct (Nat.ltb (fst x) en); [|exact I]. apply own_read; [exact N|]. intros v. apply own_store.
    - intros x _. unfold apply_diag_prog. destruct (Nat.ltb (fst x) en); [|apply follows_fail]. apply follows_load; [exact N | exact Hs|]. intros v. apply follows_store.
  Qed.
  Theorem par_precond_in_place d m0 (x : view E) en entries m n order chunks x' :
    m0 d = vbuf x -> injective_view m n x -> Permutation order (pairs m n) ->
    precond_in_place E order x en entries = KOk x' -> Permutation (concat chunks) (pairs m n) ->
    runs_to (threads (apply_diag_prog d d x x en entries) chunks) m0 (put m0 d (vbuf x')).
  Proof.
    intros Hd J P H Pc. unfold precond_in_place in H.
    apply kbind_ok in H. destruct H as (b & H & Hb). injection Hb as <-. cbn [vbuf with_buf]. rewrite foreach_loop in H.
    apply (loop_parallel d m0 _ b (pairs m n) order _ _ (fun ij => addr x (fst ij) (snd ij)) chunks (nodup_pairs m n) (inj_pairs m n x J)) with (5 := H);
      try assumption.
    - intros y _. unfold apply_diag_prog. destruct (Nat.ltb (fst y) en); [|exact I]. apply (own_replace d (addr x (fst y) (snd y))).
    - intros y _. unfold apply_diag_prog. destruct (Nat.ltb (fst y) en); [|apply follows_fail]. apply (follows_in_place d m0 (addr x (fst y) (snd y))).
  Qed.
  Theorem par_deep_copy d s m0 (dst src : view E) m n order chunks dst' :
    s <> d -> m0 d = vbuf dst -> m0 s = vbuf src -> injective_view m n dst -> Permutation order (pairs m n) ->
    deep_copy E order dst src = KOk dst' -> Permutation (concat chunks) (pairs m n) ->
    runs_to (threads (deep_copy_prog d s dst src) chunks) m0 (put m0 d (vbuf dst')).
  Proof.
    intros N Hd Hs J P H Pc. unfold deep_copy in H. destruct (_ && _)%bool; [|discriminate].
    apply kbind_ok in H. destruct H as (b & H & Hb). injection Hb as <-. cbn [vbuf with_buf]. rewrite foreach_loop in H.
    apply (loop_parallel d m0 _ b (pairs m n) order _ _ (fun ij => addr dst (fst ij) (snd ij)) chunks (nodup_pairs m n) (inj_pairs m n dst J)) with (5 := H);
      try assumption.
    - intros x _. apply own_read; [exact N|]. intros v. apply own_store.
    - intros x _. apply follows_load; [exact N | exact Hs|]. intros v. apply follows_store.
  Qed.
  Theorem par_make_diag d s m0 n order chunks out' :
    s <> d -> m0 d = vbuf (alloc E n n true) -> bsz (m0 s) = n -> Permutation order (seq 0 n) ->
    make_diag order n (bget (m0 s)) = KOk out' -> Permutation (concat chunks) (seq 0 n) ->
    runs_to (threads (make_diag_prog d s (alloc E n n true)) chunks) m0 (put m0 d (vbuf out')).
  Proof.
    intros N Hd Hs P H Pc. unfold make_diag in H.
    apply kbind_ok in H. destruct H as (b & H & Hb). injection Hb as <-. cbn [vbuf with_buf]. rewrite forrange_loop in H.
    apply (loop_parallel d m0 _ b (seq 0 n) order _ _ (fun i => addr (alloc E n n true) i i) chunks (seq_NoDup n 0)) with (6 := H);
      try assumption.
    - intros i j Hi Hj He. unfold addr in He. cbn in He. nia.
    - intros i _. apply own_read; [exact N|]. intros v. apply own_store.
    - intros i _ c. pose proof (follows_load d m0 s (m0 s) i (fun v c => store c (addr (alloc E n n true) i i) v) _ N eq_refl
        (fun v => follows_store d m0 (addr (alloc E n n true) i i) v) c) as F. cbn beta in F. unfold load in F.
      replace (rd (m0 s) i) with (if Nat.ltb i n then Some (bget (m0 s) i) else None) in F by (unfold rd; rewrite Hs; reflexivity).
      destruct (Nat.ltb i n); exact F.
  Qed.

  (** ** Loops that compute a vector *)
  Lemma vector_parallel d (m0 : mem E) n (q : nat -> prog E) (v : nat -> V) chunks : bsz (m0 d) = n ->
    (forall i, i < n -> own_element d i (q i) /\ exists m, exec (q i) m0 = Some m /\ get m (d, i) = v i) ->
    Permutation (concat chunks) (seq 0 n) -> runs_to (threads q chunks) m0 (put m0 d (MkBuf n (fun i => if Nat.ltb i n then v i else bget (m0 d) i))).
  Proof.
    intros Hn H Pc.
    assert (Hi : independent q (fun x l => fst l <> d \/ l = (d, x)) (fun x l => l = (d, x)) (seq 0 n)).
    { apply (independent_own d (fun i => i)); [apply seq_NoDup | auto|]. intros i Hi. apply in_seq in Hi. apply H. lia. }
    assert (Hr : each_runs q (seq 0 n) m0).
    { intros i Hin. apply in_seq in Hin. destruct (H i ltac:(lia)) as (_ & m & Em & _). eauto. }
    apply (chunked_loop E q _ _ (seq 0 n) chunks m0 Hi Hr Pc). split; [|split].
    - intros b. unfold put. destruct (Nat.eqb_spec b d) as [->|]; [cbn; congruence | reflexivity].
    - intros i mi l Hin Em ->. apply in_seq in Hin. destruct (H i ltac:(lia)) as (_ & m & Em' & Gv). rewrite Em in Em'. injection Em' as <-.
      rewrite Gv. unfold get, put. cbn [fst snd]. rewrite Nat.eqb_refl. cbn [bget]. destruct (Nat.ltb_spec i n); [reflexivity | lia].
    - intros l Hl. unfold get, put. destruct (Nat.eqb_spec (fst l) d) as [E1|]; [|reflexivity]. cbn [bget]. destruct (Nat.ltb_spec (snd l) n) as [Lt|]; [|rewrite E1; reflexivity].
      exfalso. apply (Hl (snd l)); [apply in_seq; lia | destruct l; cbn in *; congruence].
  Qed.
  Lemma diag_loop_nth (X : view E) : forall n l, diag_loop X n = KOk l -> length l = n /\ forall i, i < n -> rd (vbuf X) (addr X i i) = Some (nth i l (e0 E)).
  Proof.
    induction n as [|n IH]; intros l H; cbn in H; [injection H as <-; split; [reflexivity | intros; lia]|].
    apply kbind_ok in H. destruct H as (l1 & H1 & H2). unfold load in H2. destruct (rd (vbuf X) (addr X n n)) as [a|] eqn:Er; [|discriminate]. injection H2 as <-.
    destruct (IH l1 H1) as [L G]. split; [rewrite app_length; cbn; lia|]. intros i Hi. destruct (Nat.eq_dec i n) as [->|Ne].
    - rewrite app_nth2, L, Nat.sub_diag by lia. exact Er.
    - rewrite app_nth1 by lia. apply G. lia.
  Qed.
  Theorem par_diag d s m0 (X : view E) l chunks :
    s <> d -> m0 s = vbuf X -> bsz (m0 d) = Nat.min (vrows X) (vcols X) -> diag X = KOk l ->
    Permutation (concat chunks) (seq 0 (length l)) ->
    runs_to (threads (diag_prog d s X) chunks) m0 (put m0 d (MkBuf (length l) (fun i => if Nat.ltb i (length l) then nth i l (e0 E) else bget (m0 d) i))).
  Proof.
    intros N Hs Hd H Pc. destruct (diag_loop_nth X _ _ H) as [L G]. apply vector_parallel; [congruence | | exact Pc].
    intros i Hi. split; [apply own_read; [exact N|]; intros v; apply own_store|]. unfold diag_prog, at2. cbn [exec fst snd]. rewrite Hs, G by lia.
    rewrite Parallel.wr_in by lia. eexists. split; [reflexivity|]. apply (get_put_same E m0 (d, i)).
  Qed.
  (** the sum of x(i,j) conj(y(i,j)) over j < n, from left to right *)
  Lemma row_sum_S (X Y : view E) i n t : row_sum X Y i (S n) = KOk t -> exists t0 a b, row_sum X Y i n = KOk t0 /\ rd (vbuf X) (addr X i n) = Some a /\
    rd (vbuf Y) (addr Y i n) = Some b /\ t = eadd E t0 (ekmul E a (econj E b)).
  Proof.
    cbn. intros H. apply kbind_ok in H. destruct H as (t0 & H0 & H). unfold load in H. destruct (rd (vbuf X) _) as [a|]; [|discriminate].
    destruct (rd (vbuf Y) _) as [b|]; [|discriminate]. injection H as <-. exists t0, a, b. auto.
  Qed.
  Lemma row_sum_part (X Y : view E) i : forall n k t, row_sum X Y i (n + k) = KOk t -> exists t', row_sum X Y i n = KOk t'.
  Proof.
    intros n k. induction k as [|k IH]; intros t H; [rewrite Nat.add_0_r in H; eauto|]. rewrite Nat.add_succ_r in H. apply row_sum_S in H.
    destruct H as (t0 & _ & _ & H & _). eauto.
  Qed.
  Lemma row_prog_exec d s s' (X Y : view E) i : forall n j m t t', s <> d -> s' <> d -> m s = vbuf X -> m s' = vbuf Y -> i < bsz (m d) ->
    row_sum X Y i j = KOk t -> get m (d, i) = t -> row_sum X Y i (j + n) = KOk t' ->
    exists m', exec (row_prog_from d s s' X Y i j n) m = Some m' /\ get m' (d, i) = t'.
  Proof.
    induction n as [|n IH]; intros j m t t' N N' Hs Hs' Hd Ht Hg Ht'.
    - rewrite Nat.add_0_r in Ht'. exists m. split; [reflexivity | congruence].
    - assert (H1 : exists t1, row_sum X Y i (S j) = KOk t1) by (apply (row_sum_part X Y i (S j) n t'); replace (S j + n) with (j + S n) by lia; exact Ht').
      destruct H1 as (t1 & H1). destruct (row_sum_S _ _ _ _ _ H1) as (t0 & a & b & H0 & Ra & Rb & ->). assert (t0 = t) by congruence. subst t0.
      cbn [row_prog_from exec fst snd at2]. rewrite Parallel.rd_in by exact Hd. rewrite Hs, Ra, Hs', Rb, Parallel.wr_in by exact Hd.
      change (bget (m d) i) with (get m (d, i)). rewrite Hg.
      eapply IH; try assumption.
      + rewrite put_s by exact N. exact Hs.
      + rewrite put_s by exact N'. exact Hs'.
      + rewrite put_d. exact Hd.
      + exact H1.
      + apply (get_put_same E m (d, i)).
      + replace (S j + n) with (j + S n) by lia. exact Ht'.
  Qed.
  Lemma own_row d s s' (X Y : view E) i : s <> d -> s' <> d -> forall n j, own_element d i (row_prog_from d s s' X Y i j n).
  Proof.
    intros N N'. induction n as [|n IH]; intros j; [exact I|]. split; [right; reflexivity|]. intros t. split; [left; exact N|]. intros a. split; [left; exact N'|].
    intros b. split; [reflexivity | apply IH].
  Qed.
  (** the rows of innerh_tr: tmp(i) starts at zero *)
  Theorem par_rows d s s' m0 (X Y : view E) (v : nat -> V) chunks :
    s <> d -> s' <> d -> m0 s = vbuf X -> m0 s' = vbuf Y -> m0 d = MkBuf (vrows X) (fun _ => e0 E) ->
    (forall i, i < vrows X -> row_sum X Y i (vcols X) = KOk (v i)) -> Permutation (concat chunks) (seq 0 (vrows X)) ->
    runs_to (threads (row_prog d s s' X Y) chunks) m0 (put m0 d (MkBuf (vrows X) (fun i => if Nat.ltb i (vrows X) then v i else e0 E))).
  Proof.
    intros N N' Hs Hs' Hd H Pc.
    apply (runs_to_same _ _ (put m0 d (MkBuf (vrows X) (fun i => if Nat.ltb i (vrows X) then v i else bget (m0 d) i)))).
    { intros b. unfold put. destruct (Nat.eqb b d); [|split; reflexivity]. rewrite Hd. split; reflexivity. }
    apply vector_parallel; [rewrite Hd; reflexivity | | exact Pc]. intros i Hi. split; [apply own_row; assumption|].
    apply (row_prog_exec d s s' X Y i (vcols X) 0 m0 (e0 E)); try assumption.
    - rewrite Hd. exact Hi.
    - reflexivity.
    - unfold get. cbn [fst snd]. rewrite Hd. reflexivity.
    - exact (H i Hi).
  Qed.
  Theorem par_map d m0 n (f : V -> V) chunks : bsz (m0 d) = n -> Permutation (concat chunks) (seq 0 n) ->
    runs_to (threads (map_prog d f) chunks) m0 (put m0 d (MkBuf n (fun i => if Nat.ltb i n then f (bget (m0 d) i) else bget (m0 d) i))).
  Proof.
    intros Hn Pc. apply (vector_parallel d m0 n (map_prog d f) (fun i => f (bget (m0 d) i))); [exact Hn | | exact Pc]. intros i Hi. split; [apply own_replace|].
    unfold map_prog, replace_by. cbn [exec fst snd]. rewrite Parallel.rd_in, Parallel.wr_in by lia. eexists. split; [reflexivity|].
    apply (get_put_same E m0 (d, i)).
  Qed.
  Theorem par_map_into d s m0 n (f : V -> V) chunks : s <> d -> bsz (m0 d) = n -> bsz (m0 s) = n -> Permutation (concat chunks) (seq 0 n) ->
    runs_to (threads (map_into_prog d s f) chunks) m0 (put m0 d (MkBuf n (fun i => if Nat.ltb i n then f (bget (m0 s) i) else bget (m0 d) i))).
  Proof.
    intros N Hn Hs Pc. apply (vector_parallel d m0 n (map_into_prog d s f) (fun i => f (bget (m0 s) i))); [exact Hn | | exact Pc]. intros i Hi.
    split; [apply own_read; [exact N|]; intros v; apply own_store|].
    unfold map_into_prog. cbn [exec fst snd]. rewrite Parallel.rd_in, Parallel.wr_in by lia. eexists. split; [reflexivity|].
    apply (get_put_same E m0 (d, i)).
  Qed.
End Kernels.

(** ** _delta_eta and g_eta, grad_eta.hpp; complex numbers *)
Section Gradient.
  Local Open Scope R_scope.
  (** reading an element of a vector of doubles *)
  Definition vget (v : rvec) (i : nat) (f : R -> prog Celt) : prog Celt := if Nat.ltb i (fst v) then f (snd v i) else Fail.
  (** 108-110 *)
  Definition delta_eta_prog (d : nat) (D : view Celt) (kappa : R) (ek : rvec) (i : nat) : prog Celt :=
    vget ek i (fun ei => replace_by (at2 d D (i, i)) (fun old : ev Celt => Cminus old (RtoC (kappa * ei)) : ev Celt)).
  Context (s : smearing_type) (T mo : R).
  (** 152-156 *)
  Definition g_eta_prog1 (d sH : nat) (g hij : view Celt) (mu wk : R) (ek : rvec) (i : nat) : prog Celt :=
    vget ek i (fun ei => Rd (at2 sH hij (i, i)) (fun h : ev Celt => Wr (at2 d g (i, i))
      (Cmult (Cmult (RtoC (-1 / (kb Rarith * T))) (Cminus h (RtoC (wk * ei)))) (RtoC (sdelta (smearing_class s) ((ei - mu) / (kb Rarith * T)) mo)) : ev Celt) Done)).
  (** 161-165 *)
  Definition g_eta_prog2 (d : nat) (g : view Celt) (mu wk : R) (ek : rvec) (dmu dF : R) (i : nat) : prog Celt :=
    vget ek i (fun ei => replace_by (at2 d g (i, i)) (fun old : ev Celt =>
      Cplus old (RtoC (wk * sdelta (smearing_class s) ((ei - mu) / (kb Rarith * T)) mo / dmu * (dF / (kb Rarith * T)))) : ev Celt)).
  (** 168-185 *)
  Definition g_eta_prog3 (d sH : nat) (g hij : view Celt) (ek fn : rvec) (ij : nat * nat) : prog Celt :=
    if Nat.eqb (fst ij) (snd ij) then Done
    else vget ek (snd ij) (fun ej => vget ek (fst ij) (fun ei =>
      if Rltb (Rabs (ej - ei)) (1 / 10 ^ 10) then Done
      else vget fn (snd ij) (fun fj => vget fn (fst ij) (fun fi =>
        Rd (at2 sH hij ij) (fun h : ev Celt => replace_by (at2 d g ij) (fun old : ev Celt =>
          Cplus old (Cmult (RtoC ((fj - fi) / (ej - ei))) h) : ev Celt)))))).

  Lemma follows_vload d (m0 : mem Celt) v i (body : R -> buf Celt -> kres (buf Celt)) q : (forall x, follows d m0 (body x) (q x)) ->
    follows d m0 (fun c => vload v i (fun x => body x c)) (vget v i q).
  Proof. intros H c. unfold vload, vget. destruct (Nat.ltb i (fst v)); [apply H | reflexivity]. Qed.
  Lemma own_vget d a v i q : (forall x, own_element d a (q x)) -> own_element d a (vget v i q).
  Proof. intros H. unfold vget. destruct (Nat.ltb i (fst v)); [apply H | exact I]. Qed.
  Lemma follows_done d (m0 : mem Celt) : follows d m0 (fun c => KOk c) Done.
  Proof. intros c. eexists. split; [reflexivity | apply same_refl]. Qed.
  Lemma own_done d a : own_element d a (Done : prog Celt).
  Proof. exact I. Qed.
  Lemma diagonal_inj n r x y : In x (seq 0 n) -> In y (seq 0 n) -> (x * 1 + x * r = y * 1 + y * r)%nat -> x = y.
  Proof. intros _ _ H. nia. Qed.

  Theorem par_delta_eta ord ord1 junk kappa t (hij : view Celt) ek wk d d' sH m0 ch1 ch2 :
    sH <> d -> m0 d = vbuf (empty_like hij (junk t)) -> m0 sH = vbuf hij -> fair (ord t) -> Permutation (ord1 t (fst ek)) (seq 0 (fst ek)) ->
    delta_eta ord ord1 junk kappa t hij ek wk = KOk d' ->
    Permutation (concat ch1) (pairs (vrows hij) (vcols hij)) -> Permutation (concat ch2) (seq 0 (fst ek)) ->
    exists b1,
      runs_to (threads (scale_prog d sH (empty_like hij (junk t)) hij (kappa / wk : er Celt)) ch1) m0 (put m0 d b1) /\
      runs_to (threads (delta_eta_prog d (empty_like hij (junk t)) kappa ek) ch2) (put m0 d b1) (put m0 d (vbuf d')).
  Proof.
    intros N Hd Hs F1 F2 H P1 P2. unfold delta_eta in H. apply kbind_ok in H. destruct H as (D & H1 & H). apply kbind_ok in H. destruct H as (b & H2 & Hb).
    injection Hb as <-. cbn [vbuf with_buf]. exists (vbuf D). split.
    - refine (par_scale d sH m0 _ hij _ (vrows hij) (vcols hij) _ ch1 D N Hd Hs _ (F1 _ _) H1 P1). intros i j i' j' Hi Hj Hi' Hj' He. cbn in He. apply (cm_inj (vrows hij) (vrows hij)); lia.
    - assert (HD : vs0 D = 1%nat /\ vs1 D = vrows hij).
      { unfold scale in H1. destruct (Nat.eqb (vs0 hij) 1); [|discriminate]. apply kbind_ok in H1. destruct H1 as (b0 & _ & H1). injection H1 as <-. split; reflexivity. }
      rewrite forrange_loop in H2. apply (runs_to_same _ _ (put (put m0 d (vbuf D)) d b)); [apply same_put_put|].
      apply (loop_parallel d (put m0 d (vbuf D)) _ b (seq 0 (fst ek)) _ _ _ (fun i => addr D i i) ch2 (seq_NoDup _ 0)) with (6 := H2); try assumption.
      + intros x y Hx Hy He. unfold addr in He. rewrite (proj1 HD) in He. eapply diagonal_inj; eassumption.
      + intros i _. apply own_vget. intros ei. unfold at2. cbn [fst snd]. unfold addr. rewrite (proj1 HD), (proj2 HD). apply own_replace.
      + intros i _. apply follows_vload. intros ei. unfold at2. cbn [fst snd]. unfold addr. rewrite (proj1 HD), (proj2 HD). apply follows_modify.
      + apply put_d.
  Qed.
  Theorem par_g_eta ord ord1 t (hij : view Celt) mu wk ek fn dmu dF d sH m0 g' ch1 ch2 ch3 :
    sH <> d -> m0 d = vbuf (zeros_like hij) -> m0 sH = vbuf hij -> fair (ord t) -> (forall u, Permutation (ord1 u (vrows hij)) (seq 0 (vrows hij))) ->
    g_eta ord ord1 s T mo t hij mu wk ek fn dmu dF = KOk g' ->
    Permutation (concat ch1) (seq 0 (vrows hij)) -> Permutation (concat ch2) (seq 0 (vrows hij)) -> Permutation (concat ch3) (pairs (vrows hij) (vrows hij)) ->
    exists b1 b2,
      runs_to (threads (g_eta_prog1 d sH (zeros_like hij) hij mu wk ek) ch1) m0 (put m0 d b1) /\
      (if Rltb (Rabs dmu) (1 / 10 ^ 12) then b2 = b1
       else runs_to (threads (g_eta_prog2 d (zeros_like hij) mu wk ek dmu dF) ch2) (put m0 d b1) (put m0 d b2)) /\
      runs_to (threads (g_eta_prog3 d sH (zeros_like hij) hij ek fn) ch3) (put m0 d b2) (put m0 d (vbuf g')).
  Proof.
    intros N Hd Hs F1 F2 H P1 P2 P3. unfold g_eta in H. apply kbind_ok in H. destruct H as (b1 & H1 & H). apply kbind_ok in H. destruct H as (b2 & H2 & H).
    apply kbind_ok in H. destruct H as (b3 & H3 & Hb). injection Hb as <-. cbn [vbuf with_buf]. exists b1, b2. split; [|split].
    - rewrite forrange_loop in H1.
      apply (loop_parallel d m0 _ b1 (seq 0 (vrows hij)) _ _ _ (fun i => addr (zeros_like hij) i i) ch1 (seq_NoDup _ 0)) with (6 := H1); try assumption.
      + intros x y Hx Hy He. eapply (diagonal_inj (vrows hij) (vrows hij)); eassumption.
      + intros i _. apply own_vget. intros ei. apply own_read; [exact N|]. intros h. apply own_store.
      + intros i _. apply follows_vload. intros ei. apply follows_load; [exact N | exact Hs|]. intros h. apply follows_store.
      + apply F2.
    - destruct (Rltb (Rabs dmu) (1 / 10 ^ 12)); [injection H2 as ->; reflexivity|]. rewrite forrange_loop in H2.
      apply (runs_to_same _ _ (put (put m0 d b1) d b2)); [apply same_put_put|].
      apply (loop_parallel d (put m0 d b1) _ b2 (seq 0 (vrows hij)) _ _ _ (fun i => addr (zeros_like hij) i i) ch2 (seq_NoDup _ 0)) with (6 := H2); try assumption.
      + intros x y Hx Hy He. eapply (diagonal_inj (vrows hij) (vrows hij)); eassumption.
      + intros i _. apply own_vget. intros ei. apply own_replace.
      + intros i _. apply follows_vload. intros ei. apply follows_modify.
      + apply put_d.
      + apply F2.
    - rewrite foreach_loop in H3. apply (runs_to_same _ _ (put (put m0 d b2) d b3)); [apply same_put_put|].
      apply (loop_parallel d (put m0 d b2) _ b3 (pairs (vrows hij) (vrows hij)) _ _ _ (fun ij => addr (zeros_like hij) (fst ij) (snd ij)) ch3 (nodup_pairs _ _)) with (6 := H3); try assumption.
      + apply inj_pairs. intros i j i' j' Hi Hj Hi' Hj' He. cbn in He. apply (cm_inj (vrows hij) (vrows hij)); lia.
      + intros x _. unfold g_eta_prog3. destruct (Nat.eqb (fst x) (snd x)); [apply own_done|]. apply own_vget. intros ej. apply own_vget. intros ei.
        destruct (Rltb (Rabs (ej - ei)) (1 / 10 ^ 10)); [apply own_done|]. apply own_vget. intros fj. apply own_vget. intros fi.
        apply own_read; [exact N|]. intros h. apply own_replace.
      + intros x _. unfold g_eta_prog3. destruct (Nat.eqb (fst x) (snd x)); [apply follows_done|]. apply follows_vload. intros ej. apply follows_vload. intros ei.
        destruct (Rltb (Rabs (ej - ei)) (1 / 10 ^ 10)); [apply follows_done|]. apply follows_vload. intros fj. apply follows_vload. intros fi.
        apply follows_load; [exact N | rewrite put_s by exact N; exact Hs|]. intros h. apply follows_modify.
      + apply put_d.
      + apply F1.
  Qed.
End Gradient.
