(** Exchange of wave functions and vectors with the calling program: include/interface.hpp 43-132 (buffer_protocol,
    BufferBase), src/la/dvector.hpp 98-131 (as_buffer_protocol), 223-239 (view of a buffer),
    src/la/mvector.hpp 303-409 (make_mmatrix, make_mmvector), src/free_energy.hpp 79-90 and 111-122,
    src/operator.hpp 57-76 (applicator).

    The calling program's entries are separate allocations.  Host build: HostSpace, no CUDA.
    Kokkos::deep_copy is an element-wise copy in any order after comparing the extents. *)
From Coq Require Import ZArith Arith Lia List Bool Permutation.
From Verif Require Import MVector LapackMem LapackMemProofs.
Import ListNotations.

(** enum class memory_type, interface.hpp 14-19 *)
Inductive memtype := MNone | MHost | MDevice.
Definition is_host (m : memtype) : bool := match m with MHost => true | _ => false end.

(** A loop over the elements of an m x n matrix may run in any order. *)
Definition orders : Type := nat -> nat -> list (nat * nat).
Definition fair (ord : orders) : Prop := forall m n, Permutation (ord m n) (pairs m n).

Section Exchange.
  Context (E : elt).
  Notation V := (ev E).

  (** buffer_protocol<std::complex<double>, 2>, interface.hpp 43-82: size, stride, data, memtype *)
  Record cbuf := MkCbuf { csz0 : nat; csz1 : nat; cst0 : nat; cst1 : nat; cmem : memtype; cdata : buf E }.
  (** KokkosDVector(map, buffer), dvector.hpp 227-239, with the map of mvector.hpp 337: an unmanaged view *)
  Definition cview (c : cbuf) : view E := MkView (csz0 c) (csz1 c) (cst0 c) (cst1 c) true (cdata c).
  Definition with_data (c : cbuf) (b : buf E) : cbuf := MkCbuf (csz0 c) (csz1 c) (cst0 c) (cst1 c) (cmem c) b.

  (** MatrixBaseZ: entry i is (kpoint_index(i), get(i)), interface.hpp 84-104 *)
  Definition caller : Type := list (key * cbuf).

  (** make_mmatrix<HostSpace>, mvector.hpp 307-341: key -> number of the entry whose memory the view refers to;
      None: "expected host memory" is thrown. *)
  Definition mmatrix (m : caller) : option (smap nat) :=
    if forallb (fun kc => is_host (cmem (snd kc))) m
    then Some (map_of_assignments (combine (map fst m) (seq 0 (length m)))) else None.

  (** Kokkos::deep_copy(dst, src) *)
  Definition deep_copy (order : list (nat * nat)) (dst src : view E) : kres (view E) :=
    if (Nat.eqb (vrows dst) (vrows src) && Nat.eqb (vcols dst) (vcols src))%bool then
      kbind (foreach order (fun i j c => load (vbuf src) (addr src i j) (fun a => store c (addr dst i j) a)) (vbuf dst))
        (fun b => KOk (with_buf dst b))
    else KThrow.

  Inductive xout :=
  | XDone
  | XNotHost        (* std::runtime_error, mvector.hpp 335 *)
  | XOutOfRange     (* std::out_of_range from mvector::at *)
  | XExtents        (* Kokkos::deep_copy: extents do not match *)
  | XUB.

  Definition set_nth {A} (i : nat) (a : A) (l : list A) : list A := firstn i l ++ a :: skipn (S i) l.

  (** The body of the loop, free_energy.hpp 82-87: x -> packed host mirror -> the caller's buffer *)
  Definition put (ord : orders) (m : caller) (i : nat) (x : view E) : caller * xout :=
    match nth_error m i with
    | None => (m, XUB)
    | Some (k, c) =>
      match deep_copy (ord (vrows x) (vcols x)) (alloc E (vrows x) (vcols x) true) x with
      | KOk xh =>
        match deep_copy (ord (vrows x) (vcols x)) (cview c) xh with
        | KOk v => (set_nth i (k, with_data c (vbuf v)) m, XDone)
        | KThrow => (m, XExtents)
        | _ => (m, XUB)
        end
      | KThrow => (m, XExtents)
      | _ => (m, XUB)
      end
    end.
  Fixpoint put_all (ord : orders) (l : list (nat * view E)) (m : caller) : caller * xout :=
    match l with
    | [] => (m, XDone)
    | (i, x) :: r => match put ord m i x with (m', XDone) => put_all ord r m' | (m', e) => (m', e) end
    end.
  (** tapply(f, Xsirius, X): X.at(key) for every key of Xsirius, before any element is copied *)
  Fixpoint lookups (mm : smap nat) (X : smap (view E)) : option (list (nat * view E)) :=
    match mm with
    | [] => Some []
    | (k, i) :: r =>
      match mfind k X with
      | None => None
      | Some x => match lookups r X with Some l => Some ((i, x) :: l) | None => None end
      end
    end.
  (** FreeEnergy::compute, free_energy.hpp 79-90: store the wave functions in the calling program *)
  Definition store_X (ord : orders) (m : caller) (X : smap (view E)) : caller * xout :=
    match mmatrix m with
    | None => (m, XNotHost)
    | Some mm =>
      match lookups mm X with
      | None => (m, XOutOfRange)
      | Some l => put_all ord l m
      end
    end.
  (** FreeEnergy::get_X, free_energy.hpp 111-115 (and get_HX 118-122): views of the caller's memory *)
  Definition get_X (m : caller) : option (smap (view E)) :=
    match mmatrix m with
    | None => None
    | Some mm => Some (flat_map (fun ki => match nth_error m (snd ki) with Some (_, c) => [(fst ki, cview c)] | None => [] end) mm)
    end.

  (** make_mmatrix for another memory space, mvector.hpp 345-377: a packed matrix filled by
      acc::copy(mat.data, buffer.data, size0*size1) *)
  Definition copy_matrix (c : cbuf) : kres (view E) :=
    if Nat.leb (csz0 c * csz1 c) (bsz (cdata c)) then
      KOk (MkView (csz0 c) (csz1 c) 1 (csz0 c) true (MkBuf (csz0 c * csz1 c) (bget (cdata c))))
    else KUB.

  (** ** Specification *)
  (** Buffer and matrix fit together: same shape, all elements allocated, distinct elements at distinct addresses. *)
  Definition fits (c : cbuf) (x : view E) : Prop :=
    vrows x = csz0 c /\ vcols x = csz1 c /\ allocated x /\ allocated (cview c) /\ injective_view (csz0 c) (csz1 c) (cview c).
  (** [c'] is [c] holding the elements of [x]; memory between and behind the elements is unchanged *)
  Definition written (x : view E) (c c' : cbuf) : Prop :=
    csz0 c' = csz0 c /\ csz1 c' = csz1 c /\ cst0 c' = cst0 c /\ cst1 c' = cst1 c /\ cmem c' = cmem c /\
    bsz (cdata c') = bsz (cdata c) /\
    (forall i j, i < csz0 c -> j < csz1 c -> bget (cdata c') (i * cst0 c + j * cst1 c) = vat x i j) /\
    (forall a, (forall i j, i < csz0 c -> j < csz1 c -> a <> i * cst0 c + j * cst1 c) -> bget (cdata c') a = bget (cdata c) a).

  (** Strides as produced by column-major or row-major buffers with padding separate the elements. *)
  Lemma separate_cols c : 1 <= cst0 c -> csz0 c * cst0 c <= cst1 c -> injective_view (csz0 c) (csz1 c) (cview c).
  Proof.
    intros H0 H1 i j i' j' Hi Hj Hi' Hj' e. cbn [vs0 vs1 cview] in e.
    assert (B : forall a, a < csz0 c -> a * cst0 c + cst0 c <= cst1 c).
    { intros a Ha. assert ((a + 1) * cst0 c <= csz0 c * cst0 c) by (apply Nat.mul_le_mono_r; lia). nia. }
    pose proof (B i Hi). pose proof (B i' Hi').
    assert (j = j').
    { destruct (Nat.lt_trichotomy j j') as [L|[L|L]]; [|exact L|]; exfalso.
      - assert ((j + 1) * cst1 c <= j' * cst1 c) by (apply Nat.mul_le_mono_r; lia). nia.
      - assert ((j' + 1) * cst1 c <= j * cst1 c) by (apply Nat.mul_le_mono_r; lia). nia. }
    subst j'. split; [|reflexivity]. assert (e' : i * cst0 c = i' * cst0 c) by lia.
    apply Nat.mul_cancel_r in e'; [exact e'|lia].
  Qed.
  Lemma separate_rows c : 1 <= cst1 c -> csz1 c * cst1 c <= cst0 c -> injective_view (csz0 c) (csz1 c) (cview c).
  Proof.
    intros H0 H1 i j i' j' Hi Hj Hi' Hj' e. cbn [vs0 vs1 cview] in e.
    assert (B : forall a, a < csz1 c -> a * cst1 c + cst1 c <= cst0 c).
    { intros a Ha. assert ((a + 1) * cst1 c <= csz1 c * cst1 c) by (apply Nat.mul_le_mono_r; lia). nia. }
    pose proof (B j Hj). pose proof (B j' Hj').
    assert (i = i').
    { destruct (Nat.lt_trichotomy i i') as [L|[L|L]]; [|exact L|]; exfalso.
      - assert ((i + 1) * cst0 c <= i' * cst0 c) by (apply Nat.mul_le_mono_r; lia). nia.
      - assert ((i' + 1) * cst0 c <= i * cst0 c) by (apply Nat.mul_le_mono_r; lia). nia. }
    subst i'. split; [reflexivity|]. assert (e' : j * cst1 c = j' * cst1 c) by lia.
    apply Nat.mul_cancel_r in e'; [exact e'|lia].
  Qed.

  (** ** Proofs *)
  Lemma deep_copy_ok order (dst src : view E) :
    Permutation order (pairs (vrows src) (vcols src)) -> allocated src -> allocated dst ->
    vrows dst = vrows src -> vcols dst = vcols src -> injective_view (vrows src) (vcols src) dst ->
    exists d', deep_copy order dst src = KOk d' /\ block_replaced (vrows src) (vcols src) dst d' (fun i j => vat src i j).
  Proof.
    intros P HS HD R1 R2 J. unfold deep_copy. rewrite R1, R2, !Nat.eqb_refl. cbn [andb].
    apply (elementwise_ok (vrows src) (vcols src) order dst src (fun _ _ a _ => a)); try assumption; try reflexivity.
    intros i j c Hi Hj Hc. unfold load. destruct (rd (vbuf src) (addr src i j)); [|reflexivity]. apply store_in. exact Hc.
  Qed.
  Lemma deep_copy_extents order (dst src : view E) :
    vrows dst <> vrows src \/ vcols dst <> vcols src -> deep_copy order dst src = KThrow.
  Proof.
    intros H. unfold deep_copy. destruct (Nat.eqb_spec (vrows dst) (vrows src)); cbn [andb]; [|reflexivity].
    destruct (Nat.eqb_spec (vcols dst) (vcols src)); [|reflexivity]. exfalso. destruct H; contradiction.
  Qed.

  Lemma set_nth_length {A} i (a : A) l : i < length l -> length (set_nth i a l) = length l.
  Proof. intros H. unfold set_nth. rewrite app_length, firstn_length. cbn [length]. rewrite skipn_length. lia. Qed.
  Lemma set_nth_same {A} i (a : A) l : i < length l -> nth_error (set_nth i a l) i = Some a.
  Proof.
    intros H. unfold set_nth. rewrite nth_error_app2; rewrite firstn_length_le by lia; [|lia]. rewrite Nat.sub_diag. reflexivity.
  Qed.
  Lemma set_nth_other {A} i j (a : A) l : i < length l -> j <> i -> nth_error (set_nth i a l) j = nth_error l j.
  Proof.
    intros H N. unfold set_nth. destruct (Nat.lt_ge_cases j i) as [L|L].
    - rewrite nth_error_app1 by (rewrite firstn_length_le by lia; exact L).
      revert l j H N L. induction i as [|i IH]; intros l j H N L; [lia|]. destruct l as [|b l]; [cbn in H; lia|].
      destruct j as [|j]; [reflexivity|]. cbn. apply IH; cbn in H; lia.
    - rewrite nth_error_app2; rewrite firstn_length_le by lia; [|lia].
      destruct (j - i) as [|d] eqn:el; [lia|]. cbn [nth_error].
      assert (Hj : j = S i + d) by lia. subst j. clear. revert i.
      assert (G : forall n d, nth_error (skipn n l) d = nth_error l (n + d)).
      { induction l as [|b l IH]; intros [|n] d'; cbn; try reflexivity; [destruct d'; reflexivity|]. apply IH. }
      intros i. rewrite G. f_equal.
  Qed.

  Lemma put_ok ord m i x k c : fair ord -> nth_error m i = Some (k, c) -> fits c x ->
    exists c', put ord m i x = (set_nth i (k, c') m, XDone) /\ written x c c'.
  Proof.
    intros F N (R1 & R2 & Ax & Ac & J). unfold put. rewrite N.
    destruct (deep_copy_ok (ord (vrows x) (vcols x)) (alloc E (vrows x) (vcols x) true) x) as [xh [D1 B1]];
      try reflexivity; try assumption; [apply F|apply alloc_allocated| |].
    { intros a b a' b' Ha Hb Ha' Hb' e. cbn [vs0 vs1 alloc] in e. apply (cm_inj (vrows x) (vrows x)); lia. }
    rewrite D1. destruct B1 as (h1 & h2 & h3 & h4 & h5 & h6 & h7 & h8). cbn [vrows vcols vs0 vs1 alloc vbuf bsz] in *.
    destruct (deep_copy_ok (ord (vrows x) (vcols x)) (cview c) xh) as [v [D2 B2]].
    - rewrite h1, h2. apply F.
    - intros a b Ha Hb. rewrite h1 in Ha. rewrite h2 in Hb. rewrite h3, h4, h6.
      assert (vrows x * (b + 1) <= vrows x * vcols x) by (apply Nat.mul_le_mono_l; lia). nia.
    - exact Ac.
    - rewrite h1. cbn. symmetry. exact R1.
    - rewrite h2. cbn. symmetry. exact R2.
    - rewrite h1, h2, R1, R2. exact J.
    - rewrite D2. destruct B2 as (g1 & g2 & g3 & g4 & g5 & g6 & g7 & g8). cbn [vrows vcols vs0 vs1 cview vbuf] in *.
      exists (with_data c (vbuf v)). split; [reflexivity|]. unfold written. cbn [csz0 csz1 cst0 cst1 cmem cdata with_data].
      do 5 (split; [reflexivity|]). split; [exact g6|]. split.
      + intros a b Ha Hb. rewrite g7 by lia. unfold vat, addr. rewrite h3, h4. apply h7; lia.
      + intros a Ha. apply g8. intros i0 j0 Hi Hj. apply Ha; lia.
  Qed.

  Lemma put_all_ok ord : fair ord -> forall l m, NoDup (map fst l) ->
    (forall i x, In (i, x) l -> exists k c, nth_error m i = Some (k, c) /\ fits c x) ->
    exists m', put_all ord l m = (m', XDone) /\ length m' = length m /\
      (forall i x k c, In (i, x) l -> nth_error m i = Some (k, c) -> exists c', nth_error m' i = Some (k, c') /\ written x c c') /\
      (forall i, ~ In i (map fst l) -> nth_error m' i = nth_error m i).
  Proof.
    intros F l. induction l as [|[i x] r IH]; intros m ND H.
    - exists m. cbn. split; [reflexivity|]. split; [reflexivity|]. split; [intros ? ? ? ? []|reflexivity].
    - cbn [map fst] in ND. inversion ND as [|? ? Hx Hl]; subst.
      destruct (H i x (or_introl eq_refl)) as [k [c [Nk Fk]]].
      assert (Li : i < length m) by (apply nth_error_Some; rewrite Nk; discriminate).
      destruct (put_ok ord m i x k c F Nk Fk) as [c' [P W]].
      assert (NI : forall i' x', In (i', x') r -> i' <> i).
      { intros i' x' Hin e. subst i'. apply Hx. apply in_map_iff. exists (i, x'). split; [reflexivity|exact Hin]. }
      destruct (IH (set_nth i (k, c') m) Hl) as [m' [P' [Ln [Q1 Q2]]]].
      + intros i' x' Hin. rewrite set_nth_other by (try exact Li; exact (NI i' x' Hin)). apply H. right. exact Hin.
      + exists m'. cbn [put_all]. rewrite P. split; [exact P'|]. split; [rewrite Ln; apply set_nth_length; exact Li|]. split.
        * intros i' x' k' d [e|Hin] Nd.
          -- injection e as <- <-. rewrite Nk in Nd. injection Nd as <- <-. exists c'. split; [|exact W].
             rewrite Q2 by exact Hx. apply set_nth_same. exact Li.
          -- apply (Q1 i' x' k' d Hin). rewrite set_nth_other by (try exact Li; exact (NI i' x' Hin)). exact Nd.
        * intros i' Hn. cbn [map fst In] in Hn. rewrite Q2 by tauto. apply set_nth_other; [exact Li|]. intros e. apply Hn. left. symmetry. exact e.
  Qed.

  (** ** The keyed containers *)
  Lemma fst_combine {A B} (l : list A) : forall l' : list B, length l = length l' -> map fst (combine l l') = l.
  Proof. induction l as [|a l IH]; intros [|b l'] H; cbn in *; try discriminate; [reflexivity|]. f_equal. apply IH. lia. Qed.
  Lemma in_numbered (m : caller) s k i : In (k, i) (combine (map fst m) (seq s (length m))) <-> exists c, s <= i /\ nth_error m (i - s) = Some (k, c).
  Proof.
    revert s. induction m as [|[k0 c0] m IH]; intros s; cbn [map fst length seq combine].
    - split; [intros []|]. intros [c [_ H]]. destruct (i - s); discriminate.
    - cbn [In]. rewrite IH. split.
      + intros [e|[c [Hs Hn]]].
        * injection e as <- <-. exists c0. rewrite Nat.sub_diag. split; [lia|reflexivity].
        * exists c. split; [lia|]. replace (i - s) with (S (i - S s)) by lia. exact Hn.
      + intros [c [Hs Hn]]. destruct (i - s) as [|d] eqn:el.
        * left. cbn in Hn. injection Hn as <- <-. f_equal. lia.
        * right. exists c. split; [lia|]. replace (i - S s) with d by lia. exact Hn.
  Qed.
  Definition all_host (m : caller) : Prop := forall k c, In (k, c) m -> cmem c = MHost.
  Lemma all_host_b m : all_host m <-> forallb (fun kc => is_host (cmem (snd kc))) m = true.
  Proof.
    rewrite forallb_forall. split.
    - intros H [k c] Hin. cbn. rewrite (H k c Hin). reflexivity.
    - intros H k c Hin. specialize (H (k, c) Hin). cbn in H. destruct (cmem c); [discriminate|reflexivity|discriminate].
  Qed.
  Lemma mmatrix_spec m : all_host m -> NoDup (map fst m) ->
    exists mm, mmatrix m = Some mm /\ wfm mm /\ forall k i, In (k, i) mm <-> exists c, nth_error m i = Some (k, c).
  Proof.
    intros H ND. apply all_host_b in H. unfold mmatrix. rewrite H.
    set (l := combine (map fst m) (seq 0 (length m))).
    exists (map_of_assignments l). split; [reflexivity|]. split; [apply wfm_of_assignments|].
    assert (K : NoDup (keys l)). { unfold keys, l. rewrite fst_combine; [exact ND|]. rewrite map_length, seq_length. reflexivity. }
    intros k i. rewrite <- mfind_In by apply wfm_of_assignments. rewrite mfind_of_assignments.
    assert (KR : NoDup (keys (rev l))). { unfold keys. rewrite map_rev. apply NoDup_rev. exact K. }
    rewrite mfind_nodup by exact KR. rewrite <- in_rev. unfold l. rewrite in_numbered. rewrite Nat.sub_0_r.
    split; intros [c Hc]; exists c; [apply Hc|split; [lia|exact Hc]].
  Qed.
  Lemma lookups_spec X : forall mm, (forall k i, In (k, i) mm -> exists x, mfind k X = Some x) ->
    exists l, lookups mm X = Some l /\ map fst l = map snd mm /\
      (forall k i x, In (k, i) mm -> mfind k X = Some x -> In (i, x) l) /\
      (forall i x, In (i, x) l -> exists k, In (k, i) mm /\ mfind k X = Some x).
  Proof.
    induction mm as [|[k i] r IH]; intros H.
    - exists []. cbn. split; [reflexivity|]. split; [reflexivity|]. split; [intros ? ? ? []|intros ? ? []].
    - destruct (H k i (or_introl eq_refl)) as [x Hx]. destruct IH as [l [L1 [L2 [L3 L4]]]]; [intros k' i' Hin; apply (H k' i'); right; exact Hin|].
      exists ((i, x) :: l). cbn [lookups]. rewrite Hx, L1. split; [reflexivity|]. split; [cbn; rewrite L2; reflexivity|]. split.
      + intros k' i' x' [e|Hin] Hf; [injection e as <- <-; left; congruence|right; exact (L3 k' i' x' Hin Hf)].
      + intros i' x' [e|Hin]; [injection e as <- <-; exists k; split; [left; reflexivity|exact Hx]|].
        destruct (L4 i' x' Hin) as [k' [A B]]. exists k'. split; [right; exact A|exact B].
  Qed.
  Lemma lookups_missing X k i : forall mm, In (k, i) mm -> mfind k X = None -> lookups mm X = None.
  Proof.
    induction mm as [|[k' i'] r IH]; intros Hin Hf; [destruct Hin|]. cbn [lookups]. destruct Hin as [e|Hin].
    - injection e as -> ->. rewrite Hf. reflexivity.
    - rewrite (IH Hin Hf). destruct (mfind k' X); reflexivity.
  Qed.

  Lemma nth_error_ext {A} (l : list A) : forall l', (forall i, nth_error l i = nth_error l' i) -> l = l'.
  Proof.
    induction l as [|a l IH]; intros [|b l'] H; [reflexivity|specialize (H 0); discriminate|specialize (H 0); discriminate|].
    f_equal; [specialize (H 0); cbn in H; congruence|]. apply IH. intros i. exact (H (S i)).
  Qed.
  Lemma in_nth {A} (l : list A) a : In a l <-> exists i, nth_error l i = Some a.
  Proof. split; [apply In_nth_error|intros [i Hi]; exact (nth_error_In l i Hi)]. Qed.

  Lemma nodup_numbers (m : caller) mm : NoDup (map fst m) -> wfm mm ->
    (forall k i, In (k, i) mm <-> exists c, nth_error m i = Some (k, c)) -> NoDup (map snd mm).
  Proof.
    intros ND W S. assert (U : forall k k' i, In (k, i) mm -> In (k', i) mm -> k = k').
    { intros k k' i H H'. apply S in H, H'. destruct H as [c Hc], H' as [c' Hc']. congruence. }
    assert (N : NoDup mm).
    { clear -W. unfold wfm in W. induction mm as [|[k i] r IH]; [constructor|]. cbn in W. inversion W; subst. constructor; [|apply IH; assumption].
      intros Hin. rewrite Forall_forall in *. apply (klt_irr k). apply H2. apply in_map_iff. exists (k, i). split; [reflexivity|exact Hin]. }
    clear W S. induction N as [|[k i] r Hx Hl IH]; cbn; constructor.
    - intros Hin. apply in_map_iff in Hin. destruct Hin as [[k' i'] [e Hin]]. cbn in e. subst i'.
      assert (k = k') by (apply (U k k' i); [left; reflexivity|right; exact Hin]). subst k'. exact (Hx Hin).
    - apply IH. intros k1 k2 j H1 H2. apply (U k1 k2 j); right; assumption.
  Qed.

  Lemma store_X_ok ord (m : caller) (X : smap (view E)) :
    fair ord -> all_host m -> NoDup (map fst m) ->
    (forall k c, In (k, c) m -> exists x, mfind k X = Some x /\ fits c x) ->
    exists m', store_X ord m X = (m', XDone) /\ length m' = length m /\
      forall i k c, nth_error m i = Some (k, c) ->
        exists c' x, nth_error m' i = Some (k, c') /\ mfind k X = Some x /\ written x c c'.
  Proof.
    intros F H ND HX. destruct (mmatrix_spec m H ND) as [mm [M1 [M2 M3]]].
    destruct (lookups_spec X mm) as [l [L1 [L2 [L3 L4]]]].
    { intros k i Hin. apply M3 in Hin. destruct Hin as [c Hc]. destruct (HX k c (nth_error_In _ _ Hc)) as [x [Hx _]]. exists x. exact Hx. }
    destruct (put_all_ok ord F l m) as [m' [P1 [P2 [P3 P4]]]].
    - rewrite L2. exact (nodup_numbers m mm ND M2 M3).
    - intros i x Hin. destruct (L4 i x Hin) as [k [Hm Hf]]. apply M3 in Hm. destruct Hm as [c Hc]. exists k, c. split; [exact Hc|].
      destruct (HX k c (nth_error_In _ _ Hc)) as [x' [Hx' Fx]]. congruence.
    - exists m'. unfold store_X. rewrite M1, L1. split; [exact P1|]. split; [exact P2|].
      intros i k c Hc. destruct (HX k c (nth_error_In _ _ Hc)) as [x [Hx Fx]].
      assert (Hin : In (i, x) l) by (apply (L3 k i x); [apply M3; exists c; exact Hc|exact Hx]).
      destruct (P3 i x k c Hin Hc) as [c' [A B]]. exists c', x. split; [exact A|]. split; [exact Hx|exact B].
  Qed.

  Lemma store_X_not_host ord m X k c : In (k, c) m -> cmem c <> MHost -> store_X ord m X = (m, XNotHost) /\ get_X m = None.
  Proof.
    intros Hin Hm. unfold store_X, get_X, mmatrix. destruct (forallb _ m) eqn:el; [|split; reflexivity].
    exfalso. apply Hm. apply (proj2 (all_host_b m) el k c Hin).
  Qed.
  (** A key without matrix: the exception is thrown before anything is written. *)
  Lemma store_X_missing ord m X k c : all_host m -> NoDup (map fst m) -> In (k, c) m -> mfind k X = None -> store_X ord m X = (m, XOutOfRange).
  Proof.
    intros H ND Hin Hf. destruct (mmatrix_spec m H ND) as [mm [M1 [M2 M3]]]. unfold store_X. rewrite M1.
    apply in_nth in Hin. destruct Hin as [i Hi]. rewrite (lookups_missing X k i); [reflexivity| |exact Hf].
    apply M3. exists c. exact Hi.
  Qed.

  Lemma get_X_ok m : all_host m -> NoDup (map fst m) ->
    exists g, get_X m = Some g /\ forall k v, In (k, v) g <-> exists c, In (k, c) m /\ v = cview c.
  Proof.
    intros H ND. destruct (mmatrix_spec m H ND) as [mm [M1 [M2 M3]]]. unfold get_X. rewrite M1. eexists. split; [reflexivity|].
    intros k v. rewrite in_flat_map. split.
    - intros [[k' i] [Hin Hv]]. cbn [fst snd] in Hv. destruct (proj1 (M3 k' i) Hin) as [c Hc]. rewrite Hc in Hv.
      destruct Hv as [e|[]]. injection e as <- <-. exists c. split; [exact (nth_error_In _ _ Hc)|reflexivity].
    - intros [c [Hin ->]]. apply in_nth in Hin. destruct Hin as [i Hi]. exists (k, i). split; [apply M3; exists c; exact Hi|].
      cbn [fst snd]. rewrite Hi. left. reflexivity.
  Qed.

  (** What was stored is read back. *)
  Lemma round_trip ord (m : caller) (X : smap (view E)) :
    fair ord -> all_host m -> NoDup (map fst m) ->
    (forall k c, In (k, c) m -> exists x, mfind k X = Some x /\ fits c x) ->
    exists m' g, store_X ord m X = (m', XDone) /\ get_X m' = Some g /\
      (forall k, (exists v, In (k, v) g) <-> (exists c, In (k, c) m)) /\
      forall k v x, In (k, v) g -> mfind k X = Some x ->
        vrows v = vrows x /\ vcols v = vcols x /\ forall i j, i < vrows x -> j < vcols x -> vat v i j = vat x i j.
  Proof.
    intros F H ND HX. destruct (store_X_ok ord m X F H ND HX) as [m' [S1 [S2 S3]]].
    assert (S4 : forall i k c', nth_error m' i = Some (k, c') -> exists c x, nth_error m i = Some (k, c) /\ mfind k X = Some x /\ fits c x /\ written x c c').
    { intros i k c' Hc'. assert (Li : i < length m) by (rewrite <- S2; apply nth_error_Some; rewrite Hc'; discriminate).
      destruct (nth_error m i) as [[k0 c]|] eqn:el; [|apply nth_error_None in el; lia].
      destruct (S3 i k0 c el) as [c2 [x [A [B C]]]]. rewrite Hc' in A. injection A as -> ->. exists c, x.
      split; [reflexivity|]. split; [exact B|]. split; [|exact C].
      destruct (HX k0 c (nth_error_In _ _ el)) as [x2 [B2 Fx]]. congruence. }
    assert (K : map fst m' = map fst m).
    { apply nth_error_ext. intros i. rewrite !nth_error_map. destruct (nth_error m' i) as [[k c']|] eqn:el.
      - destruct (S4 i k c' el) as [c [x [A _]]]. rewrite A. reflexivity.
      - apply nth_error_None in el. assert (N : nth_error m i = None) by (apply nth_error_None; lia). rewrite N. reflexivity. }
    assert (H' : all_host m').
    { intros k c' Hin. apply in_nth in Hin. destruct Hin as [i Hi]. destruct (S4 i k c' Hi) as [c [x [A [_ [_ W]]]]].
      destruct W as (_ & _ & _ & _ & e & _). rewrite e. apply (H k c). exact (nth_error_In _ _ A). }
    destruct (get_X_ok m' H') as [g [G1 G2]]; [rewrite K; exact ND|].
    exists m', g. split; [exact S1|]. split; [exact G1|]. split.
    - intros k. split.
      + intros [v Hv]. apply G2 in Hv. destruct Hv as [c' [Hin _]]. apply in_nth in Hin. destruct Hin as [i Hi].
        destruct (S4 i k c' Hi) as [c [x [A _]]]. exists c. exact (nth_error_In _ _ A).
      + intros [c Hin]. apply in_nth in Hin. destruct Hin as [i Hi]. destruct (S3 i k c Hi) as [c' [x [A _]]].
        exists (cview c'). apply G2. exists c'. split; [exact (nth_error_In _ _ A)|reflexivity].
    - intros k v x Hv Hx. apply G2 in Hv. destruct Hv as [c' [Hin ->]]. apply in_nth in Hin. destruct Hin as [i Hi].
      destruct (S4 i k c' Hi) as [c [x2 [A [B [Fx W]]]]]. assert (x2 = x) by congruence. subst x2.
      destruct Fx as (f1 & f2 & _). destruct W as (w1 & w2 & w3 & w4 & w5 & w6 & w7 & w8). cbn [vrows vcols cview].
      split; [lia|]. split; [lia|]. intros a b Ha Hb. unfold vat, addr. cbn [vbuf cview vs0 vs1]. rewrite w3, w4. apply w7; lia.
  Qed.

  (** ** The copy into another memory space *)
  Definition packed (c : cbuf) : Prop := forall i j, i < csz0 c -> j < csz1 c -> i * cst0 c + j * cst1 c = i + j * csz0 c.
  Lemma copy_matrix_packed c : packed c -> allocated (cview c) ->
    exists M, copy_matrix c = KOk M /\ vrows M = csz0 c /\ vcols M = csz1 c /\
      forall i j, i < csz0 c -> j < csz1 c -> vat M i j = vat (cview c) i j.
  Proof.
    intros P A. unfold copy_matrix.
    assert (L : csz0 c * csz1 c <= bsz (cdata c)).
    { destruct (csz0 c) as [|a] eqn:ea; [lia|]. destruct (csz1 c) as [|b] eqn:eb; [lia|].
      assert (H : a * cst0 c + b * cst1 c < bsz (cdata c)) by (apply (A a b); cbn; lia).
      rewrite (P a b) in H by lia. rewrite ea in H. nia. }
    apply Nat.leb_le in L. rewrite L. eexists. split; [reflexivity|]. cbn [vrows vcols]. do 2 (split; [reflexivity|]).
    intros i j Hi Hj. unfold vat, addr. cbn [vbuf bget vs0 vs1 cview]. rewrite (P i j Hi Hj). f_equal. lia.
  Qed.
  (** For every other layout there are contents which are copied wrongly. *)
  Lemma copy_matrix_unpacked c (a b : V) : a <> b -> ~ packed c ->
    exists data, bsz data = bsz (cdata c) /\
      forall M, copy_matrix (with_data c data) = KOk M ->
        exists i j, i < csz0 c /\ j < csz1 c /\ vat M i j <> vat (cview (with_data c data)) i j.
  Proof.
    intros N P.
    assert (W : exists i j, i < csz0 c /\ j < csz1 c /\ i * cst0 c + j * cst1 c <> i + j * csz0 c).
    { assert (D : forall m n, (forall i j, i < m -> j < n -> i * cst0 c + j * cst1 c = i + j * csz0 c) \/
                              (exists i j, i < m /\ j < n /\ i * cst0 c + j * cst1 c <> i + j * csz0 c)).
      { induction m as [|m IH]; intros n; [left; intros; lia|].
        destruct (IH n) as [Q|(i & j & Hi & Hj & Q)]; [|right; exists i, j; repeat split; [lia|exact Hj|exact Q]].
        assert (R : forall n', n' <= n -> (forall j, j < n' -> m * cst0 c + j * cst1 c = m + j * csz0 c) \/
                              (exists j, j < n' /\ m * cst0 c + j * cst1 c <> m + j * csz0 c)).
        { induction n' as [|n' IH']; intros Hn; [left; intros; lia|].
          destruct IH' as [Q'|(j & Hj & Q')]; [lia| |right; exists j; split; [lia|exact Q']].
          destruct (Nat.eq_dec (m * cst0 c + n' * cst1 c) (m + n' * csz0 c)) as [e|ne].
          - left. intros j Hj. destruct (Nat.eq_dec j n') as [->|nj]; [exact e|apply Q'; lia].
          - right. exists n'. split; [lia|exact ne]. }
        destruct (R n (Nat.le_refl n)) as [Q'|(j & Hj & Q')].
        - left. intros i j Hi Hj. destruct (Nat.eq_dec i m) as [->|ni]; [apply Q'; exact Hj|apply Q; lia].
        - right. exists m, j. repeat split; [lia|exact Hj|exact Q']. }
      destruct (D (csz0 c) (csz1 c)) as [Q|Q]; [exfalso; apply P; exact Q|exact Q]. }
    destruct W as (i & j & Hi & Hj & W).
    exists (MkBuf (bsz (cdata c)) (fun x => if Nat.eqb x (i * cst0 c + j * cst1 c) then a else b)). split; [reflexivity|].
    intros M. unfold copy_matrix. cbn [cdata with_data csz0 csz1 bsz]. destruct (Nat.leb _ _); [|discriminate].
    intros e. injection e as <-. exists i, j. split; [exact Hi|]. split; [exact Hj|].
    unfold vat, addr. cbn [vbuf bget vs0 vs1 cview with_data cdata cst0 cst1]. rewrite Nat.eqb_refl.
    assert (Q : Nat.eqb (i * 1 + j * csz0 c) (i * cst0 c + j * cst1 c) = false) by (apply Nat.eqb_neq; lia). rewrite Q.
    intros e. apply N. symmetry. exact e.
  Qed.

  (** ** Matrices handed to the calling program: as_buffer_protocol, dvector.hpp 110-131 *)
  (** size_t to int, modulo 2^32 *)
  Definition to_int (n : nat) : Z := ((Z.of_nat n + 2147483648) mod 4294967296 - 2147483648)%Z.
  Definition descriptor (x : view E) : (Z * Z) * (Z * Z) :=
    ((to_int (vrows x), to_int (vcols x)), (to_int (vs0 x), to_int (vs1 x))).
  Definition int_sized (n : nat) : Prop := (Z.of_nat n < 2147483648)%Z.
  Lemma to_int_small n : int_sized n -> to_int n = Z.of_nat n.
  Proof. unfold int_sized, to_int. intros H. rewrite Z.mod_small by lia. lia. Qed.
  Lemma to_int_large n : (2147483648 <= Z.of_nat n < 4294967296)%Z -> (to_int n < 0)%Z.
  Proof.
    intros H. unfold to_int. replace (Z.of_nat n + 2147483648)%Z with ((Z.of_nat n - 2147483648) + 1 * 4294967296)%Z by lia.
    rewrite Z.mod_add by lia. rewrite Z.mod_small by lia. lia.
  Qed.
  Lemma descriptor_ok x : int_sized (vrows x) -> int_sized (vcols x) -> int_sized (vs0 x) -> int_sized (vs1 x) ->
    descriptor x = ((Z.of_nat (vrows x), Z.of_nat (vcols x)), (Z.of_nat (vs0 x), Z.of_nat (vs1 x))).
  Proof. intros a b c d. unfold descriptor. rewrite !to_int_small by assumption. reflexivity. Qed.

  (** applicator::operator(), operator.hpp 65-72.  The operator of the calling program gets the descriptors and the
      memory of Y and X (both writable); the result is Y. *)
  Definition operator_fn : Type := key -> (Z * Z) * (Z * Z) -> buf E -> (Z * Z) * (Z * Z) -> buf E -> buf E * buf E.
  Definition apply_op (op : operator_fn) (k : key) (junk : nat -> V) (x : view E) : view E * view E :=
    let y := alloc_uninit E (vrows x) (vcols x) (vlocal x) junk in
    let '(by_, bx) := op k (descriptor y) (vbuf y) (descriptor x) (vbuf x) in
    (with_buf y by_, with_buf x bx).
  (** An operator that honours the descriptors: if distinct elements of Y have distinct addresses, it replaces them by
      those of [f k X] and leaves X alone. *)
  Definition honours (op : operator_fn) (f : key -> nat -> nat -> (nat -> nat -> V) -> nat -> nat -> V) : Prop :=
    forall k m n s0 s1 t0 t1 by_ bx,
    (forall i j i' j', i < m -> j < n -> i' < m -> j' < n -> i * s0 + j * s1 = i' * s0 + j' * s1 -> i = i' /\ j = j') ->
    let '(by', bx') := op k ((Z.of_nat m, Z.of_nat n), (Z.of_nat s0, Z.of_nat s1)) by_
                            ((Z.of_nat m, Z.of_nat n), (Z.of_nat t0, Z.of_nat t1)) bx in
    bx' = bx /\ bsz by' = bsz by_ /\
    forall i j, i < m -> j < n -> bget by' (i * s0 + j * s1) = f k m n (fun a b => bget bx (a * t0 + b * t1)) i j.
  Lemma apply_op_ok op f k junk (x : view E) : honours op f ->
    int_sized (vrows x) -> int_sized (vcols x) -> int_sized (vs0 x) -> int_sized (vs1 x) ->
    exists y, apply_op op k junk x = (y, x) /\ vrows y = vrows x /\ vcols y = vcols x /\ vs0 y = 1 /\ vs1 y = vrows x /\
      allocated y /\ forall i j, i < vrows x -> j < vcols x -> vat y i j = f k (vrows x) (vcols x) (fun a b => vat x a b) i j.
  Proof.
    intros H a b c d. unfold apply_op. rewrite (descriptor_ok x) by assumption.
    rewrite (descriptor_ok (alloc_uninit E (vrows x) (vcols x) (vlocal x) junk)); try assumption; [|unfold int_sized; cbn; lia].
    specialize (H k (vrows x) (vcols x) 1 (vrows x) (vs0 x) (vs1 x) (MkBuf (vrows x * vcols x) junk) (vbuf x)).
    assert (J : forall i j i' j', i < vrows x -> j < vcols x -> i' < vrows x -> j' < vcols x ->
      i * 1 + j * vrows x = i' * 1 + j' * vrows x -> i = i' /\ j = j').
    { intros i j i' j' Hi Hj Hi' Hj' e. apply (cm_inj (vrows x) (vrows x)); lia. }
    specialize (H J). clear J.
    cbn [alloc_uninit vrows vcols vs0 vs1 vbuf] in *.
    destruct (op k _ _ _ _) as [by' bx']. destruct H as (-> & Hs & Hv). cbn [bsz] in Hs.
    exists (with_buf (alloc_uninit E (vrows x) (vcols x) (vlocal x) junk) by'). split; [destruct x; reflexivity|].
    do 4 (split; [reflexivity|]). split.
    - intros i j Hi Hj. cbn [with_buf vrows vcols vs0 vs1 vbuf alloc_uninit] in *. rewrite Hs.
      assert (vrows x * (j + 1) <= vrows x * vcols x) by (apply Nat.mul_le_mono_l; lia). nia.
    - intros i j Hi Hj. unfold vat, addr. cbn [with_buf vrows vcols vs0 vs1 vbuf alloc_uninit]. apply Hv; assumption.
  Qed.
  (** An operator of that kind, for any element-wise function: what the theorem assumes exists. *)
  Definition pointwise_op (g : key -> V -> V) : operator_fn := fun k dy by_ dx bx =>
    let '((m, n), (s0, s1)) := dy in let '(_, (t0, t1)) := dx in
    let N := Z.to_nat in
    (MkBuf (bsz by_) (fun a =>
       match find (fun ij => Nat.eqb a (fst ij * N s0 + snd ij * N s1)) (pairs (N m) (N n)) with
       | Some (i, j) => g k (bget bx (i * N t0 + j * N t1))
       | None => bget by_ a
       end), bx).
  Lemma pointwise_honours g : honours (pointwise_op g) (fun k m n x i j => g k (x i j)).
  Proof.
    intros k m n s0 s1 t0 t1 by_ bx J. unfold pointwise_op. rewrite !Nat2Z.id. split; [reflexivity|]. split; [reflexivity|].
    intros i j Hi Hj. cbn [bget].
    destruct (find _ (pairs m n)) as [[i' j']|] eqn:F.
    - apply find_some in F. destruct F as [F1 F2]. apply in_pairs in F1. apply Nat.eqb_eq in F2. cbn [fst snd] in F2.
      destruct (J i j i' j' Hi Hj (proj1 F1) (proj2 F1) F2) as [-> ->]. reflexivity.
    - exfalso. pose proof (find_none _ _ F (i, j) (proj2 (in_pairs m n i j) (Logic.conj Hi Hj))) as Q.
      cbn [fst snd] in Q. rewrite Nat.eqb_refl in Q. discriminate.
  Qed.
End Exchange.

(** ** Vectors: make_mmvector, mvector.hpp 380-409 *)
Section Vectors.
  Context {D : Type}.
  (** buffer_protocol<double, 1> *)
  Record vbuf1 := MkVbuf { vsz : nat; vst : nat; vmem : memtype; vlen : nat; vdat : nat -> D }.
  Inductive vout (A : Type) := VOk (a : A) | VNoDevice | VUB.
  Arguments VOk {A}. Arguments VNoDevice {A}. Arguments VUB {A}.
  Fixpoint mmvector_loop (l : list (key * vbuf1)) (res : smap (list D)) : vout (smap (list D)) :=
    match l with
    | [] => VOk res
    | (k, b) :: r =>
      match vmem b with
      | MDevice => VNoDevice
      | MHost => if Nat.leb (vsz b) (vlen b) then mmvector_loop r (mset k (map (vdat b) (seq 0 (vsz b))) res) else VUB
      | MNone => mmvector_loop r res
      end
    end.
  Definition mmvector (l : list (key * vbuf1)) : vout (smap (list D)) := mmvector_loop l [].

  Definition in_memory (b : vbuf1) : Prop := vmem b = MHost /\ vsz b <= vlen b.
  Lemma mmvector_loop_ok l : forall res, wfm res -> (forall k b, In (k, b) l -> vmem b = MNone \/ in_memory b) ->
    exists m, mmvector_loop l res = VOk m /\ wfm m /\
      forall k, mfind k m = match mfind k (rev (filter (fun kb => is_host (vmem (snd kb))) l)) with
                            | Some b => Some (map (vdat b) (seq 0 (vsz b))) | None => mfind k res end.
  Proof.
    induction l as [|[k b] r IH]; intros res W H; cbn [mmvector_loop filter rev snd].
    - exists res. split; [reflexivity|]. split; [exact W|]. reflexivity.
    - assert (H' : forall k' b', In (k', b') r -> vmem b' = MNone \/ in_memory b') by (intros; eapply H; right; eassumption).
      destruct (H k b (or_introl eq_refl)) as [e|[e L]]; rewrite e; cbn [is_host].
      + apply IH; assumption.
      + apply Nat.leb_le in L. rewrite L.
        destruct (IH (mset k (map (vdat b) (seq 0 (vsz b))) res) (wfm_mset _ _ _ W) H') as [m [M1 [M2 M3]]].
        exists m. split; [exact M1|]. split; [exact M2|]. intros k'. rewrite M3. cbn [rev]. rewrite mfind_app.
        destruct (mfind k' (rev _)); [reflexivity|]. rewrite mfind_mset by exact W. cbn [mfind].
        destruct (keqb k' k); reflexivity.
  Qed.
  (** With distinct keys: every host entry appears, contiguous; entries without memory are silently left out. *)
  Lemma mmvector_ok l : NoDup (map fst l) -> (forall k b, In (k, b) l -> vmem b = MNone \/ in_memory b) ->
    exists m, mmvector l = VOk m /\ wfm m /\
      (forall k b, In (k, b) l -> vmem b = MHost -> mfind k m = Some (map (vdat b) (seq 0 (vsz b)))) /\
      (forall k b, In (k, b) l -> vmem b = MNone -> mfind k m = None).
  Proof.
    intros ND H. destruct (mmvector_loop_ok l [] wfm_nil H) as [m [M1 [M2 M3]]]. exists m. split; [exact M1|]. split; [exact M2|].
    set (f := filter (fun kb => is_host (vmem (snd kb))) l) in *.
    assert (NF : NoDup (keys (rev f))).
    { unfold keys. rewrite map_rev. apply NoDup_rev. unfold f. clear -ND. induction l as [|[k b] r IH]; cbn [filter map]; [constructor|].
      cbn in ND. inversion ND; subst. destruct (is_host (vmem (snd (k, b)))); [|apply IH; assumption]. cbn [map fst]. constructor; [|apply IH; assumption].
      intros Hin. apply H1. apply in_map_iff in Hin. destruct Hin as [x [ex Hx]]. apply in_map_iff. exists x. split; [exact ex|].
      apply filter_In in Hx. apply Hx. }
    split; intros k b Hin e; rewrite M3.
    - assert (F : mfind k (rev f) = Some b).
      { apply mfind_nodup; [exact NF|]. rewrite <- in_rev. unfold f. apply filter_In. split; [exact Hin|]. cbn. rewrite e. reflexivity. }
      rewrite F. reflexivity.
    - destruct (mfind k (rev f)) as [b'|] eqn:F; [|reflexivity]. exfalso.
      apply mfind_nodup in F; [|exact NF]. rewrite <- in_rev in F. unfold f in F. apply filter_In in F. destruct F as [F1 F2].
      assert (b' = b). { pose proof (mfind_nodup k b l ND) as Q1. pose proof (mfind_nodup k b' l ND) as Q2. apply Q1 in Hin. apply Q2 in F1. congruence. }
      subst b'. cbn in F2. rewrite e in F2. discriminate.
  Qed.
  Lemma mmvector_device l k b : In (k, b) l -> vmem b = MDevice -> (forall k b, In (k, b) l -> vmem b = MHost -> vsz b <= vlen b) ->
    mmvector l = VNoDevice.
  Proof.
    unfold mmvector. generalize ([] : smap (list D)). induction l as [|[k0 b0] r IH]; intros res Hin e H; [destruct Hin|]. cbn [mmvector_loop].
    destruct Hin as [q|Hin].
    - injection q as -> ->. rewrite e. reflexivity.
    - destruct (vmem b0) eqn:e0; [| |reflexivity].
      + apply IH; [exact Hin|exact e|]. intros; eapply H; [right|]; eassumption.
      + assert (L : vsz b0 <= vlen b0) by (apply (H k0); [left; reflexivity|exact e0]). apply Nat.leb_le in L. rewrite L.
        apply IH; [exact Hin|exact e|]. intros; eapply H; [right|]; eassumption.
  Qed.
End Vectors.
Arguments VOk {A}. Arguments VNoDevice {A}. Arguments VUB {A}.

(** The stride is not used. *)
Lemma mmvector_strided : exists (l : list (key * @vbuf1 nat)) m k b, mmvector l = VOk m /\ In (k, b) l /\ in_memory b /\
  vsz b * vst b <= vlen b /\ mfind k m <> Some (map (fun i => vdat b (i * vst b)) (seq 0 (vsz b))).
Proof.
  exists [((0, 1)%Z, MkVbuf 2 2 MHost 4 (fun i => i))], [((0, 1)%Z, [0; 1])], (0, 1)%Z, (MkVbuf 2 2 MHost 4 (fun i => i)).
  split; [reflexivity|]. split; [left; reflexivity|]. split; [split; [reflexivity|cbn; lia]|]. split; [cbn; lia|]. cbn. discriminate.
Qed.
