(** Loops whose iterations run at the same time: Kokkos::parallel_for with a RangePolicy or MDRangePolicy
    (src/la/lapack.hpp, src/pseudo_hamiltonian/grad_eta.hpp, src/preconditioner.hpp) and #pragma omp parallel for
    (src/la/cblas.hpp 374-391).
    An iteration is a program of single reads and writes of elements; a step of the machine is one access of one
    iteration, in any order (sequential consistency, which is what C++ guarantees to programs without data races).
    A data race - two iterations about to access the same element, one of them writing - is undefined behaviour, and
    so is an access outside an allocation.
    Simplifications: the start and the end of the loop are barriers (Kokkos::fence after host loops, end of the omp region). *)
From Coq Require Import Arith Lia List Bool Permutation Classical.
From Verif Require Import LapackMem.
Import ListNotations.

Section Par.
  Context (E : elt).
  Notation V := (ev E).
  (** allocation, offset *)
  Definition loc : Type := nat * nat.
  (** [Fail]: undefined behaviour other than an access through these allocations (signed overflow, a read behind a vector of doubles) *)
  Inductive prog := Done | Fail | Rd (l : loc) (k : V -> prog) | Wr (l : loc) (v : V) (k : prog).
  Definition mem : Type := nat -> buf E.
  Definition get (m : mem) (l : loc) : V := bget (m (fst l)) (snd l).
  Definition put (m : mem) (b : nat) (x : buf E) : mem := fun c => if Nat.eqb c b then x else m c.

  (** ** One iteration alone *)
  Inductive sres := SEnd | SNext (p : prog) (m : mem) | SBad.
  Definition sstep (p : prog) (m : mem) : sres :=
    match p with
    | Done => SEnd
    | Fail => SBad
    | Rd l k => match rd (m (fst l)) (snd l) with Some v => SNext (k v) m | None => SBad end
    | Wr l v k => match wr (m (fst l)) (snd l) v with Some b => SNext k (put m (fst l) b) | None => SBad end
    end.
  Fixpoint exec (p : prog) (m : mem) : option mem :=
    match p with
    | Done => Some m
    | Fail => None
    | Rd l k => match rd (m (fst l)) (snd l) with Some v => exec (k v) m | None => None end
    | Wr l v k => match wr (m (fst l)) (snd l) v with Some b => exec k (put m (fst l) b) | None => None end
    end.
  (** number of accesses *)
  Fixpoint cost (p : prog) (m : mem) : nat :=
    match p with
    | Done => 0
    | Fail => 0
    | Rd l k => match rd (m (fst l)) (snd l) with Some v => S (cost (k v) m) | None => 0 end
    | Wr l v k => match wr (m (fst l)) (snd l) v with Some b => S (cost k (put m (fst l) b)) | None => 0 end
    end.
  (** one after the other *)
  Fixpoint execs (ps : list prog) (m : mem) : option mem :=
    match ps with [] => Some m | p :: r => match exec p m with Some m' => execs r m' | None => None end end.
  (** p, then q *)
  Fixpoint seqp (p q : prog) : prog :=
    match p with Done => q | Fail => Fail | Rd l k => Rd l (fun v => seqp (k v) q) | Wr l v k => Wr l v (seqp k q) end.

  (** ** All iterations at the same time *)
  Definition conf : Type := list prog * mem.
  Fixpoint replace {A} (i : nat) (a : A) (l : list A) : list A :=
    match l, i with
    | [], _ => []
    | _ :: r, O => a :: r
    | b :: r, S j => b :: replace j a r
    end.
  (** iteration [i] makes one access *)
  Definition cstep (c c' : conf) : Prop :=
    exists i p p' m', nth_error (fst c) i = Some p /\ sstep p (snd c) = SNext p' m' /\ c' = (replace i p' (fst c), m').
  Inductive steps : nat -> conf -> conf -> Prop :=
  | steps_0 c : steps 0 c c
  | steps_S n c c1 c2 : steps n c c1 -> cstep c1 c2 -> steps (S n) c c2.
  (** location and whether it is written *)
  Definition access (p : prog) : option (loc * bool) :=
    match p with Done => None | Fail => None | Rd l _ => Some (l, false) | Wr l _ _ => Some (l, true) end.
  Definition race (ps : list prog) : Prop :=
    exists i j p q l w w', i <> j /\ nth_error ps i = Some p /\ nth_error ps j = Some q /\
      access p = Some (l, w) /\ access q = Some (l, w') /\ (w = true \/ w' = true).
  (** undefined behaviour *)
  Definition faulty (c : conf) : Prop := race (fst c) \/ exists i p, nth_error (fst c) i = Some p /\ sstep p (snd c) = SBad.
  Definition finished (c : conf) : Prop := forall p, In p (fst c) -> p = Done.

  (** ** Footprints *)
  (** whatever is read, [p] reads only in [R] and writes only in [W] *)
  Fixpoint fits (R W : loc -> Prop) (p : prog) : Prop :=
    match p with
    | Done => True
    | Fail => True
    | Rd l k => R l /\ forall v, fits R W (k v)
    | Wr l _ k => W l /\ fits R W k
    end.
  Definition same_mem (m m' : mem) : Prop := forall b, bsz (m b) = bsz (m' b) /\ forall a, bget (m b) a = bget (m' b) a.

  Section Loop.
    Context {I : Type} (p : I -> prog) (R W : I -> loc -> Prop).
    (** iterations write nothing that another one reads or writes *)
    Definition independent (its : list I) : Prop :=
      NoDup its /\ (forall x, In x its -> fits (R x) (W x) (p x)) /\
      (forall x y l, In x its -> In y its -> x <> y -> W x l -> R y l \/ W y l -> False).
    (** every iteration, alone on the initial memory, is fine *)
    Definition each_runs (its : list I) (m0 : mem) : Prop := forall x, In x its -> exists m, exec (p x) m0 = Some m.
    (** memory after the loop: what each iteration alone would have written *)
    Definition outcome (its : list I) (m0 m : mem) : Prop :=
      (forall b, bsz (m b) = bsz (m0 b)) /\
      (forall x mx l, In x its -> exec (p x) m0 = Some mx -> W x l -> get m l = get mx l) /\
      (forall l, (forall x, In x its -> ~ W x l) -> get m l = get m0 l).
    Definition total (its : list I) (m0 : mem) : nat := fold_right (fun x n => cost (p x) m0 + n) 0 its.
  End Loop.

  (** ** Proofs *)
  Lemma rd_size (b : buf E) a v : rd b a = Some v -> v = bget b a /\ a < bsz b.
  Proof. unfold rd. destruct (Nat.ltb_spec a (bsz b)) as [L|L]; intros H; [|discriminate]. injection H as <-. split; [reflexivity | assumption]. Qed.
  Lemma wr_size (b : buf E) a v b' : wr b a v = Some b' -> b' = upd b a v /\ a < bsz b.
  Proof. unfold wr. destruct (Nat.ltb_spec a (bsz b)) as [L|L]; intros H; [|discriminate]. injection H as <-. split; [reflexivity | assumption]. Qed.
  Lemma rd_in (b : buf E) a : a < bsz b -> rd b a = Some (bget b a).
  Proof. intros H. unfold rd. apply Nat.ltb_lt in H. rewrite H. reflexivity. Qed.
  Lemma wr_in (b : buf E) a v : a < bsz b -> wr b a v = Some (upd b a v).
  Proof. intros H. unfold wr. apply Nat.ltb_lt in H. rewrite H. reflexivity. Qed.
  Definition sizes (m m' : mem) : Prop := forall b, bsz (m b) = bsz (m' b).
  Lemma put_size m b a v : sizes (put m b (upd (m b) a v)) m.
  Proof. intros c. unfold put. destruct (Nat.eqb_spec c b) as [->|]; reflexivity. Qed.
  Lemma get_put_same m l v : get (put m (fst l) (upd (m (fst l)) (snd l) v)) l = v.
  Proof. unfold get, put, upd. rewrite Nat.eqb_refl. cbn. rewrite Nat.eqb_refl. reflexivity. Qed.
  Lemma get_put_other m l l' v : l' <> l -> get (put m (fst l) (upd (m (fst l)) (snd l) v)) l' = get m l'.
  Proof.
    intros N. unfold get, put, upd. destruct (Nat.eqb_spec (fst l') (fst l)) as [E1|]; [|reflexivity]. cbn.
    destruct (Nat.eqb_spec (snd l') (snd l)) as [E2|]; [|rewrite E1; reflexivity]. exfalso. apply N. destruct l, l'. cbn in *. congruence.
  Qed.

  (** a thread after some steps of its own: [q] is left, [mi] is the memory it would see alone *)
  Inductive alone (p0 : prog) (m0 : mem) : nat -> prog -> mem -> Prop :=
  | alone_0 : alone p0 m0 0 p0 m0
  | alone_S n p m p' m' : alone p0 m0 n p m -> sstep p m = SNext p' m' -> alone p0 m0 (S n) p' m'.
  Lemma sstep_exec p m p' m' : sstep p m = SNext p' m' -> exec p m = exec p' m' /\ cost p m = S (cost p' m').
  Proof.
    destruct p as [| |l k|l v k]; cbn; try discriminate.
    - destruct (rd _ _); [|discriminate]. intros H. injection H as <- <-. split; reflexivity.
    - destruct (wr _ _ _); [|discriminate]. intros H. injection H as <- <-. split; reflexivity.
  Qed.
  Lemma alone_exec p0 m0 n p m : alone p0 m0 n p m -> exec p0 m0 = exec p m /\ cost p0 m0 = n + cost p m.
  Proof.
    induction 1 as [|n p m p' m' H [IH1 IH2] S1]; [split; reflexivity|]. destruct (sstep_exec _ _ _ _ S1) as [A B]. split; [congruence | lia].
  Qed.
  Lemma sstep_fits R W p m p' m' : fits R W p -> sstep p m = SNext p' m' -> fits R W p'.
  Proof.
    destruct p as [| |l k|l v k]; cbn; try discriminate.
    - intros [_ H]. destruct (rd _ _); [|discriminate]. intros E1. injection E1 as <- <-. apply H.
    - intros [_ H]. destruct (wr _ _ _); [|discriminate]. intros E1. injection E1 as <- <-. exact H.
  Qed.
  Lemma alone_fits R W p0 m0 n p m : fits R W p0 -> alone p0 m0 n p m -> fits R W p.
  Proof. intros F. induction 1; [exact F|]. eapply sstep_fits; eassumption. Qed.
  Lemma sstep_sizes p m p' m' : sstep p m = SNext p' m' -> sizes m' m.
  Proof.
    destruct p as [| |l k|l v k]; cbn; try discriminate.
    - destruct (rd _ _); [|discriminate]. intros H. injection H as <- <-. intros b. reflexivity.
    - destruct (wr _ _ _) as [b|] eqn:Ew; [|discriminate]. intros H. injection H as <- <-. apply wr_size in Ew. destruct Ew as [-> _]. apply put_size.
  Qed.
  Lemma alone_sizes p0 m0 n p m : alone p0 m0 n p m -> sizes m m0.
  Proof. induction 1 as [|n p m p' m' H IH S1]; intros b; [reflexivity|]. rewrite (sstep_sizes _ _ _ _ S1). apply IH. Qed.
  (** the same access on two memories that agree where it matters *)
  Lemma sstep_agree R W p m mi p' m' : fits R W p -> sizes m mi -> (forall l, R l \/ W l -> get m l = get mi l) -> sstep p m = SNext p' m' ->
    exists mi', sstep p mi = SNext p' mi' /\ (forall l, R l \/ W l -> get m' l = get mi' l) /\ (forall l, ~ W l -> get m' l = get m l).
  Proof.
    intros F Sz Ag. destruct p as [| |l k|l v k]; cbn; try discriminate.
    - destruct F as [Rl _]. destruct (rd _ _) as [v|] eqn:Er; [|discriminate]. intros H. injection H as <- <-.
      apply rd_size in Er. destruct Er as [-> Lt]. rewrite Sz in Lt. rewrite (rd_in _ _ Lt). exists mi.
      change (bget (mi (fst l)) (snd l)) with (get mi l). rewrite <- (Ag l (or_introl Rl)). split; [reflexivity|]. split; [exact Ag | reflexivity].
    - destruct F as [Wl _]. destruct (wr _ _ _) as [b|] eqn:Ew; [|discriminate]. intros H. injection H as <- <-.
      apply wr_size in Ew. destruct Ew as [-> Lt]. rewrite Sz in Lt. rewrite (wr_in _ _ _ Lt).
      exists (put mi (fst l) (upd (mi (fst l)) (snd l) v)). split; [reflexivity|]. split.
      + intros l' H'. destruct (classic (l' = l)) as [->|N]; [rewrite !get_put_same; reflexivity|]. rewrite !get_put_other by exact N. apply Ag. exact H'.
      + intros l' N. apply get_put_other. intros ->. exact (N Wl).
  Qed.
  Lemma sstep_bad R W p m mi : fits R W p -> sizes m mi -> sstep p m = SBad -> sstep p mi = SBad.
  Proof.
    intros F Sz. destruct p as [| |l k|l v k]; cbn; try discriminate; try reflexivity; unfold rd, wr; rewrite Sz; destruct (Nat.ltb _ _); congruence.
  Qed.
  Lemma bad_exec p m : sstep p m = SBad -> exec p m = None.
  Proof. destruct p as [| |l k|l v k]; cbn; try discriminate; try reflexivity; [destruct (rd _ _) | destruct (wr _ _ _)]; congruence. Qed.
  Lemma nth_replace_same {A} (l : list A) : forall i a b, nth_error l i = Some b -> nth_error (replace i a l) i = Some a.
  Proof. induction l as [|c l IH]; intros [|i] a b H; cbn in *; try discriminate; [reflexivity|]. eapply IH; eassumption. Qed.
  Lemma nth_replace_other {A} (l : list A) : forall i j a, i <> j -> nth_error (replace i a l) j = nth_error l j.
  Proof. induction l as [|c l IH]; intros [|i] [|j] a H; cbn; try reflexivity; [lia|]. apply IH. lia. Qed.
  Lemma length_replace {A} (l : list A) : forall i a, length (replace i a l) = length l.
  Proof. induction l as [|c l IH]; intros [|i] a; cbn; auto. Qed.

  Section Proof.
    Context {I : Type} (p : I -> prog) (R W : I -> loc -> Prop) (its : list I) (m0 : mem).
    Context (Hind : independent p R W its) (Hrun : each_runs p its m0).
    (** invariant of all states reached after [n] steps; [ns]: steps of each iteration *)
    Definition inv (n : nat) (c : conf) : Prop :=
      exists ns : list nat, length ns = length its /\ length (fst c) = length its /\ n = fold_right Nat.add 0 ns /\ sizes (snd c) m0 /\
        (forall i x, nth_error its i = Some x -> exists q k mi, nth_error (fst c) i = Some q /\ nth_error ns i = Some k /\ alone (p x) m0 k q mi /\
           forall l, R x l \/ W x l -> get (snd c) l = get mi l) /\
        (forall l, (forall x, In x its -> ~ W x l) -> get (snd c) l = get m0 l).
    Lemma nth_repeat0 k i : i < k -> nth_error (repeat 0 k) i = Some 0.
    Proof. revert i. induction k as [|k IH]; intros [|i] H; cbn; try lia; [reflexivity|]. apply IH. lia. Qed.
    Lemma sum_repeat0 k : fold_right Nat.add 0 (repeat 0 k) = 0.
    Proof. induction k; cbn; auto. Qed.
    Lemma inv_start : inv 0 (map p its, m0).
    Proof.
      exists (repeat 0 (length its)). cbn [fst snd]. split; [apply repeat_length|]. split; [apply map_length|]. split; [symmetry; apply sum_repeat0|].
      split; [intros b; reflexivity|]. split; [|reflexivity].
      intros i x H. exists (p x), 0, m0. split; [rewrite nth_error_map, H; reflexivity|]. split; [|split; [constructor | reflexivity]].
      apply nth_repeat0. apply nth_error_Some. rewrite H. discriminate.
    Qed.
    Lemma sum_replace ns : forall i k, nth_error ns i = Some k -> fold_right Nat.add 0 (replace i (S k) ns) = S (fold_right Nat.add 0 ns).
    Proof. induction ns as [|a ns IH]; intros [|i] k H; cbn in *; try discriminate; [injection H as ->; reflexivity|]. rewrite (IH i k H). lia. Qed.
    Lemma its_nth i j x : nth_error its i = Some x -> nth_error its j = Some x -> i = j.
    Proof.
      intros Hi Hj. destruct Hind as (Nd & _). rewrite NoDup_nth_error in Nd. apply Nd; [apply nth_error_Some; rewrite Hi; discriminate | congruence].
    Qed.
    Lemma inv_step n c c' : inv n c -> cstep c c' -> inv (S n) c'.
    Proof.
      intros (ns & L1 & L2 & Sn & Sz & T & Out) (i & q & q' & m' & Hi & St & ->).
      assert (Hx : exists x, nth_error its i = Some x).
      { destruct (nth_error its i) as [x|] eqn:Ex; [eauto|]. exfalso. apply nth_error_None in Ex. rewrite <- L2 in Ex. apply nth_error_None in Ex. congruence. }
      destruct Hx as (x & Hx). destruct (T i x Hx) as (q1 & k & mi & Hq & Hk & Al & Ag). rewrite Hi in Hq. injection Hq as <-.
      destruct Hind as (Nd & Ft & Dj). assert (Inx : In x its) by (eapply nth_error_In; exact Hx).
      pose proof (alone_fits (R x) (W x) _ _ _ _ _ (Ft x Inx) Al) as Fq.
      assert (Szi : sizes (snd c) mi) by (intros b; rewrite (Sz b); symmetry; apply (alone_sizes _ _ _ _ _ Al)).
      destruct (sstep_agree (R x) (W x) q (snd c) mi q' m' Fq Szi Ag St) as (mi' & St' & Ag' & Fr).
      exists (replace i (S k) ns). cbn [fst snd]. split; [rewrite length_replace; exact L1|]. split; [rewrite length_replace; exact L2|].
      split; [rewrite (sum_replace _ _ _ Hk); congruence|]. split; [intros b; rewrite (sstep_sizes _ _ _ _ St); apply Sz|]. split.
      - intros j y Hy. destruct (Nat.eq_dec i j) as [<-|N].
        + rewrite Hx in Hy. injection Hy as <-. exists q', (S k), mi'. split; [exact (nth_replace_same _ _ _ _ Hi)|].
          split; [exact (nth_replace_same _ _ _ _ Hk)|]. split; [econstructor; eassumption | exact Ag'].
        + destruct (T j y Hy) as (q2 & k2 & m2 & Hq2 & Hk2 & Al2 & Ag2). exists q2, k2, m2.
          split; [rewrite nth_replace_other by exact N; exact Hq2|]. split; [rewrite nth_replace_other by exact N; exact Hk2|]. split; [exact Al2|].
          intros l Hl. rewrite Fr; [apply Ag2; exact Hl|]. intros Wl. apply (Dj x y l); auto.
          * eapply nth_error_In; exact Hy.
          * intros ->. apply N. exact (its_nth _ _ _ Hx Hy).
      - intros l Hl. rewrite Fr; [apply Out; exact Hl | apply Hl; exact Inx].
    Qed.
    Lemma inv_steps n c : steps n (map p its, m0) c -> inv n c.
    Proof. intros H. remember (map p its, m0) as c0 eqn:E0. induction H; subst; [apply inv_start | eapply inv_step; eauto]. Qed.

    Lemma inv_sound n c : inv n c -> ~ faulty c.
    Proof.
      intros (ns & L1 & L2 & Sn & Sz & T & Out) Hf. destruct Hind as (Nd & Ft & Dj).
      assert (Ex : forall i q, nth_error (fst c) i = Some q -> exists x, nth_error its i = Some x).
      { intros i q Hi. destruct (nth_error its i) as [x|] eqn:Ex; [eauto|]. exfalso. apply nth_error_None in Ex. rewrite <- L2 in Ex. apply nth_error_None in Ex. congruence. }
      assert (Fit : forall i q x, nth_error (fst c) i = Some q -> nth_error its i = Some x -> fits (R x) (W x) q).
      { intros i q x Hi Hx. destruct (T i x Hx) as (q1 & k & mi & Hq & Hk & Al & Ag). rewrite Hi in Hq. injection Hq as <-.
        eapply alone_fits; [|exact Al]. apply Ft. eapply nth_error_In; exact Hx. }
      destruct Hf as [(i & j & q & q' & l & w & w' & Nij & Hi & Hj & A1 & A2 & Hw) | (i & q & Hi & Bad)].
      - destruct (Ex i q Hi) as (x & Hx). destruct (Ex j q' Hj) as (y & Hy).
        pose proof (Fit i q x Hi Hx) as F1. pose proof (Fit j q' y Hj Hy) as F2.
        assert (Nxy : x <> y) by (intros ->; apply Nij; exact (its_nth _ _ _ Hx Hy)).
        apply nth_error_In in Hx. apply nth_error_In in Hy.
        assert (B1 : (w = false -> R x l) /\ (w = true -> W x l)).
        { destruct q; cbn in A1; try discriminate; injection A1 as -> <-; cbn in F1; split; intros; try discriminate; tauto. }
        assert (B2 : (w' = false -> R y l) /\ (w' = true -> W y l)).
        { destruct q'; cbn in A2; try discriminate; injection A2 as -> <-; cbn in F2; split; intros; try discriminate; tauto. }
        destruct Hw as [-> | ->].
        + apply (Dj x y l Hx Hy Nxy); [apply B1; reflexivity|]. destruct w'; [right | left]; apply B2; reflexivity.
        + apply (Dj y x l Hy Hx); [congruence | apply B2; reflexivity|]. destruct w; [right | left]; apply B1; reflexivity.
      - destruct (Ex i q Hi) as (x & Hx). pose proof (Fit i q x Hi Hx) as F1.
        destruct (T i x Hx) as (q1 & k & mi & Hq & Hk & Al & Ag). rewrite Hi in Hq. injection Hq as <-.
        assert (Szi : sizes (snd c) mi) by (intros b; rewrite (Sz b); symmetry; apply (alone_sizes _ _ _ _ _ Al)).
        apply (sstep_bad _ _ _ _ mi F1 Szi) in Bad. apply bad_exec in Bad. destruct (alone_exec _ _ _ _ _ Al) as [Ee _].
        apply nth_error_In in Hx. destruct (Hrun x Hx) as (mx & Hmx). congruence.
    Qed.
    Lemma inv_finished n c : inv n c -> finished c -> outcome p W its m0 (snd c) /\ n = total p its m0.
    Proof.
      intros (ns & L1 & L2 & Sn & Sz & T & Out) Fin.
      assert (Dn : forall i x, nth_error its i = Some x -> exists k mi, nth_error ns i = Some k /\ alone (p x) m0 k Done mi /\
                   forall l, R x l \/ W x l -> get (snd c) l = get mi l).
      { intros i x Hx. destruct (T i x Hx) as (q & k & mi & Hq & Hk & Al & Ag). exists k, mi. rewrite (Fin q (nth_error_In _ _ Hq)) in Al. auto. }
      split; [split; [exact Sz|]; split|].
      - intros x mx l Hx Emx Wl. apply In_nth_error in Hx. destruct Hx as (i & Hx). destruct (Dn i x Hx) as (k & mi & _ & Al & Ag).
        destruct (alone_exec _ _ _ _ _ Al) as [Ee _]. cbn in Ee. rewrite Emx in Ee. injection Ee as <-. apply Ag. right. exact Wl.
      - exact Out.
      - subst n. clear -Dn L1. revert ns L1 Dn. unfold total. induction its as [|x r IH]; intros [|k ns] L1 Dn; cbn in *; try discriminate; [reflexivity|].
        destruct (Dn 0 x eq_refl) as (k1 & mi & Hk & Al & _). cbn in Hk. injection Hk as <-. destruct (alone_exec _ _ _ _ _ Al) as [_ Ec]. cbn in Ec.
        rewrite (IH ns); [lia | lia|]. intros i y Hy. exact (Dn (S i) y Hy).
    Qed.
    Lemma not_finished_steps ps (m : mem) : ~ faulty (ps, m) -> ~ finished (ps, m) -> exists c', cstep (ps, m) c'.
    Proof.
      intros Nf Nfin. destruct (classic (exists i q, nth_error ps i = Some q /\ q <> Done)) as [(i & q & Hi & Nq)|Hno].
      - destruct (sstep q m) as [|q' m'|] eqn:Es.
        + destruct q; [congruence | | |]; cbn in Es; [|destruct (rd _ _) | destruct (wr _ _ _)]; discriminate.
        + exists (replace i q' ps, m'). exists i, q, q', m'. auto.
        + exfalso. apply Nf. right. exists i, q. auto.
      - exfalso. apply Nfin. intros q Hq. apply In_nth_error in Hq. destruct Hq as (i & Hi). destruct (classic (q = Done)) as [->|N]; [reflexivity|].
        exfalso. apply Hno. exists i, q. auto.
    Qed.
    Lemma inv_bound n c : inv n c -> n <= total p its m0.
    Proof.
      intros (ns & L1 & L2 & Sn & Sz & T & Out). subst n.
      assert (Dn : forall i x, nth_error its i = Some x -> exists k, nth_error ns i = Some k /\ k <= cost (p x) m0).
      { intros i x Hx. destruct (T i x Hx) as (q & k & mi & Hq & Hk & Al & Ag). exists k. split; [exact Hk|]. apply alone_exec in Al. lia. }
      clear -Dn L1. revert ns L1 Dn. unfold total. induction its as [|x r IH]; intros [|k ns] L1 Dn; cbn in *; try discriminate; [lia|].
      destruct (Dn 0 x eq_refl) as (k1 & Hk & Le). cbn in Hk. injection Hk as <-.
      assert (fold_right Nat.add 0 ns <= fold_right (fun x n => cost (p x) m0 + n) 0 r); [|lia].
      apply IH; [lia|]. intros i y Hy. exact (Dn (S i) y Hy).
    Qed.

    (** no undefined behaviour, no deadlock, every run ends after the same number of accesses with the same memory *)
    Theorem parallel_loop n c : steps n (map p its, m0) c ->
      ~ faulty c /\ n <= total p its m0 /\
      (finished c -> outcome p W its m0 (snd c) /\ n = total p its m0) /\
      (~ finished c -> exists c', cstep c c').
    Proof.
      intros H. apply inv_steps in H. pose proof (inv_sound _ _ H) as Nf. split; [exact Nf|]. split; [exact (inv_bound _ _ H)|].
      split; [apply inv_finished; exact H|]. destruct c as [ps m]. apply not_finished_steps. exact Nf.
    Qed.
  End Proof.

  Lemma outcome_unique {I} (p : I -> prog) (W : I -> loc -> Prop) its m0 m m' : each_runs p its m0 ->
    outcome p W its m0 m -> outcome p W its m0 m' -> same_mem m m'.
  Proof.
    intros Hr (A1 & A2 & A3) (B1 & B2 & B3) b. split; [rewrite A1, B1; reflexivity|]. intros a.
    change (get m (b, a) = get m' (b, a)). destruct (classic (exists x, In x its /\ W x (b, a))) as [(x & Hx & Wx)|N].
    - destruct (Hr x Hx) as (mx & Ex). rewrite (A2 x mx _ Hx Ex Wx), (B2 x mx _ Hx Ex Wx). reflexivity.
    - rewrite A3, B3; [reflexivity | |]; intros x Hx Wx; apply N; eauto.
  Qed.
  Lemma outcome_perm {I} (p : I -> prog) (W : I -> loc -> Prop) its its' m0 m : Permutation its its' -> outcome p W its m0 m -> outcome p W its' m0 m.
  Proof.
    intros P (A1 & A2 & A3). split; [exact A1|]. split.
    - intros x mx l Hx. apply A2. eapply Permutation_in; [apply Permutation_sym; exact P | exact Hx].
    - intros l H. apply A3. intros x Hx. apply H. eapply Permutation_in; [exact P | exact Hx].
  Qed.

  (** ** One iteration after the other is one of the runs *)
  Lemma steps_trans n c c1 : steps n c c1 -> forall k c2, steps k c1 c2 -> steps (k + n) c c2.
  Proof. intros H k c2 H2. induction H2 as [|k c1 c2 c3 H2 IH St]; [exact H|]. cbn. econstructor; [apply IH; exact H | exact St]. Qed.
  Lemma replace_app {A} (l r : list A) a b : replace (length l) a (l ++ b :: r) = l ++ a :: r.
  Proof. induction l as [|c l IH]; cbn; [reflexivity | f_equal; exact IH]. Qed.
  Lemma exec_steps q : forall m m', exec q m = Some m' -> forall l r, exists n, steps n (l ++ q :: r, m) (l ++ Done :: r, m').
  Proof.
    assert (One : forall q q' m m' l r, sstep q m = SNext q' m' -> steps 1 (l ++ q :: r, m) (l ++ q' :: r, m')).
    { intros q0 q' m m' l r H. econstructor; [constructor|]. exists (length l), q0, q', m'. cbn [fst snd].
      split; [rewrite nth_error_app2, Nat.sub_diag by lia; reflexivity|]. split; [exact H|]. rewrite replace_app. reflexivity. }
    induction q as [| |l0 k IH|l0 v k IH]; intros m m' H l r; cbn in H.
    - injection H as <-. exists 0. constructor.
    - discriminate.
    - destruct (rd _ _) as [v|] eqn:Er; [|discriminate]. destruct (IH v m m' H l r) as (n & Hn). exists (n + 1). eapply steps_trans; [|exact Hn].
      apply One. cbn. rewrite Er. reflexivity.
    - destruct (wr _ _ _) as [b|] eqn:Ew; [|discriminate]. destruct (IH _ m' H l r) as (n & Hn). exists (n + 1). eapply steps_trans; [|exact Hn].
      apply One. cbn. rewrite Ew. reflexivity.
  Qed.
  Lemma execs_steps ps : forall m m' l, (forall q, In q l -> q = Done) -> execs ps m = Some m' -> exists n c, steps n (l ++ ps, m) c /\ finished c /\ snd c = m'.
  Proof.
    induction ps as [|q ps IH]; intros m m' l Hl H; cbn in H.
    - injection H as <-. exists 0, (l ++ [], m). split; [constructor|]. rewrite app_nil_r. split; [exact Hl | reflexivity].
    - destruct (exec q m) as [m1|] eqn:Eq; [|discriminate]. destruct (exec_steps q m m1 Eq l ps) as (n & Hn).
      destruct (IH m1 m' (l ++ [Done])) as (k & c & Hk & Fin & Sc).
      + intros q' Hq'. apply in_app_or in Hq'. destruct Hq' as [Hq' | [<- | []]]; auto.
      + exact H.
      + exists (k + n), c. rewrite <- app_assoc in Hk. split; [eapply steps_trans; [exact Hn | exact Hk] | auto].
  Qed.
  Lemma execs_bad ps : forall m l, (forall q, In q l -> q = Done) -> execs ps m = None -> exists n c, steps n (l ++ ps, m) c /\ faulty c.
  Proof.
    assert (Bad : forall q m, exec q m = None -> forall l r, exists n c, steps n (l ++ q :: r, m) c /\ faulty c).
    { induction q as [| |l0 k IH|l0 v k IH]; intros m H l r; cbn in H; [discriminate| | |].
      - exists 0, (l ++ Fail :: r, m). split; [constructor|]. right. exists (length l), Fail. cbn [fst snd].
        split; [rewrite nth_error_app2, Nat.sub_diag by lia; reflexivity | reflexivity].
      - destruct (rd (m (fst l0)) (snd l0)) as [v|] eqn:Er.
        + destruct (IH v m H l r) as (n & c & Hn & F). exists (n + 1), c. split; [|exact F]. eapply steps_trans; [|exact Hn].
          econstructor; [constructor|]. exists (length l), (Rd l0 k), (k v), m. cbn [fst snd].
          split; [rewrite nth_error_app2, Nat.sub_diag by lia; reflexivity|]. split; [cbn; rewrite Er; reflexivity|]. rewrite replace_app. reflexivity.
        + exists 0, (l ++ Rd l0 k :: r, m). split; [constructor|]. right. exists (length l), (Rd l0 k). cbn [fst snd].
          split; [rewrite nth_error_app2, Nat.sub_diag by lia; reflexivity|]. cbn. rewrite Er. reflexivity.
      - destruct (wr (m (fst l0)) (snd l0) v) as [b|] eqn:Er.
        + destruct (IH _ H l r) as (n & c & Hn & F). exists (n + 1), c. split; [|exact F]. eapply steps_trans; [|exact Hn].
          econstructor; [constructor|]. exists (length l), (Wr l0 v k), k, (put m (fst l0) b). cbn [fst snd].
          split; [rewrite nth_error_app2, Nat.sub_diag by lia; reflexivity|]. split; [cbn; rewrite Er; reflexivity|]. rewrite replace_app. reflexivity.
        + exists 0, (l ++ Wr l0 v k :: r, m). split; [constructor|]. right. exists (length l), (Wr l0 v k). cbn [fst snd].
          split; [rewrite nth_error_app2, Nat.sub_diag by lia; reflexivity|]. cbn. rewrite Er. reflexivity. }
    induction ps as [|q ps IH]; intros m l Hl H; cbn in H; [discriminate|].
    destruct (exec q m) as [m1|] eqn:Eq; [|apply Bad; exact Eq]. destruct (exec_steps q m m1 Eq l ps) as (n & Hn).
    destruct (IH m1 (l ++ [Done])) as (k & c & Hk & F).
    - intros q' Hq'. apply in_app_or in Hq'. destruct Hq' as [Hq' | [<- | []]]; auto.
    - exact H.
    - exists (k + n), c. rewrite <- app_assoc in Hk. split; [eapply steps_trans; [exact Hn | exact Hk] | exact F].
  Qed.
  (** iterations one after the other, in any order *)
  Lemma independent_perm {I} (p : I -> prog) R W its its' : Permutation its its' -> independent p R W its -> independent p R W its'.
  Proof.
    intros P (A & B & C). assert (In' : forall x, In x its' -> In x its) by (intros x; apply Permutation_in, Permutation_sym, P).
    split; [eapply Permutation_NoDup; eassumption|]. split; [intros x Hx; apply B, In', Hx | intros x y l Hx Hy; apply C; apply In'; assumption].
  Qed.
  Theorem sequential_loop {I} (p : I -> prog) R W its order m0 : independent p R W its -> each_runs p its m0 -> Permutation order its ->
    exists m, execs (map p order) m0 = Some m /\ outcome p W its m0 m.
  Proof.
    intros Hi Hr P. assert (Hi' : independent p R W order) by (eapply independent_perm; [apply Permutation_sym; exact P | exact Hi]).
    assert (Hr' : each_runs p order m0) by (intros x Hx; apply Hr; eapply Permutation_in; [exact P | exact Hx]).
    destruct (execs (map p order) m0) as [m|] eqn:Ex.
    - exists m. split; [reflexivity|]. destruct (execs_steps (map p order) m0 m [] ltac:(intros q []) Ex) as (n & c & Hn & Fin & <-).
      apply (outcome_perm p W order its); [exact P|]. apply (parallel_loop p R W order m0 Hi' Hr' n c Hn). exact Fin.
    - exfalso. destruct (execs_bad (map p order) m0 [] ltac:(intros q []) Ex) as (n & c & Hn & F).
      destruct (parallel_loop p R W order m0 Hi' Hr' n c Hn) as (Nf & _). exact (Nf F).
  Qed.
  (** ** A successful sequential run shows that every iteration alone is fine *)
  Lemma exec_agree R W q : forall m m' m1, fits R W q -> sizes m m' -> (forall l, R l \/ W l -> get m l = get m' l) -> exec q m = Some m1 ->
    exists m1', exec q m' = Some m1'.
  Proof.
    induction q as [| |l k IH|l v k IH]; intros m m' m1 F Sz Ag H; cbn in *; try discriminate.
    - eauto.
    - destruct F as [Rl F]. destruct (rd _ _) as [v|] eqn:Er in H; [|discriminate]. apply rd_size in Er. destruct Er as [-> Lt]. rewrite Sz in Lt.
      rewrite (rd_in _ _ Lt). change (bget (m' (fst l)) (snd l)) with (get m' l). rewrite <- (Ag l (or_introl Rl)). eapply IH; eauto.
    - destruct F as [Wl F]. destruct (wr _ _ _) as [b|] eqn:Er in H; [|discriminate]. apply wr_size in Er. destruct Er as [-> Lt]. rewrite Sz in Lt.
      rewrite (wr_in _ _ _ Lt). eapply IH; [exact F | | | exact H].
      + intros b. rewrite put_size, put_size. apply Sz.
      + intros l' Hl. destruct (classic (l' = l)) as [->|N]; [rewrite !get_put_same; reflexivity|]. rewrite !get_put_other by exact N. apply Ag. exact Hl.
  Qed.
  Lemma exec_frame R W q : forall m m', fits R W q -> exec q m = Some m' -> sizes m' m /\ forall l, ~ W l -> get m' l = get m l.
  Proof.
    induction q as [| |l k IH|l v k IH]; intros m m' F H; cbn in *; try discriminate.
    - injection H as <-. split; [intros b; reflexivity | reflexivity].
    - destruct F as [_ F]. destruct (rd _ _) as [v|]; [|discriminate]. eapply IH; eauto.
    - destruct F as [Wl F]. destruct (wr _ _ _) as [b|] eqn:Er in H; [|discriminate]. apply wr_size in Er. destruct Er as [-> Lt].
      destruct (IH _ _ F H) as [A B]. split.
      + intros b. rewrite A. apply put_size.
      + intros l' N. rewrite B by exact N. apply get_put_other. intros ->. exact (N Wl).
  Qed.
  Lemma sequential_each_runs {I} (p : I -> prog) R W order : forall m0 m, independent p R W order -> execs (map p order) m0 = Some m -> each_runs p order m0.
  Proof.
    induction order as [|x r IH]; intros m0 m Hi H y Hy; [destruct Hy|]. cbn in H. destruct (exec (p x) m0) as [m1|] eqn:Ex; [|discriminate].
    destruct Hy as [<- | Hy]; [eauto|]. destruct Hi as (Nd & Ft & Dj). inversion Nd as [|? ? Nx Nr]; subst.
    assert (Hr : independent p R W r) by (split; [exact Nr|]; split; [intros z Hz; apply Ft; right; exact Hz | intros z w l Hz Hw; apply Dj; right; assumption]).
    destruct (IH m1 m Hr H y Hy) as (my & Ey). destruct (exec_frame (R x) (W x) _ _ _ (Ft x (or_introl eq_refl)) Ex) as [Sz Fr].
    eapply exec_agree; [apply Ft; right; exact Hy | exact Sz | | exact Ey].
    intros l Hl. apply Fr. intros Wl. apply (Dj x y l); [left; reflexivity | right; exact Hy | congruence | exact Wl | exact Hl].
  Qed.

  (** ** Any distribution of the iterations over threads *)
  Definition chain (ps : list prog) : prog := fold_right seqp Done ps.
  (** thread [t] executes the iterations [nth t chunks] one after the other *)
  Definition threads {I} (p : I -> prog) (chunks : list (list I)) : list prog := map (fun ch => chain (map p ch)) chunks.
  (** every schedule: no undefined behaviour, no endless run, no deadlock, and at the end the memory is [mf] *)
  Definition runs_to (ps : list prog) (m0 mf : mem) : Prop :=
    exists N, forall n c, steps n (ps, m0) c -> ~ faulty c /\ n <= N /\ (finished c -> same_mem (snd c) mf) /\ (~ finished c -> exists c', cstep c c').

  Lemma exec_seqp q1 : forall q2 m, exec (seqp q1 q2) m = match exec q1 m with Some m' => exec q2 m' | None => None end.
  Proof. induction q1 as [| |l k IH|l v k IH]; intros q2 m; cbn; try reflexivity; [destruct (rd _ _) | destruct (wr _ _ _)]; auto. Qed.
  Lemma exec_chain ps : forall m, exec (chain ps) m = execs ps m.
  Proof. induction ps as [|q r IH]; intros m; cbn; [reflexivity|]. rewrite exec_seqp. destruct (exec q m); auto. Qed.
  Lemma fits_mono (R W R' W' : loc -> Prop) q : (forall l, R l -> R' l) -> (forall l, W l -> W' l) -> fits R W q -> fits R' W' q.
  Proof. intros HR HW. induction q as [| |l k IH|l v k IH]; cbn; intuition. Qed.
  Lemma fits_seqp R W q1 q2 : fits R W q1 -> fits R W q2 -> fits R W (seqp q1 q2).
  Proof. induction q1 as [| |l k IH|l v k IH]; cbn; intuition. Qed.
  Lemma fits_chain R W ps : (forall q, In q ps -> fits R W q) -> fits R W (chain ps).
  Proof. induction ps as [|q r IH]; cbn; intros H; [exact I|]. apply fits_seqp; [apply H; left; reflexivity | apply IH; intros q' Hq; apply H; right; exact Hq]. Qed.

  Lemma nodup_part {A} (l r : list A) : NoDup (l ++ r) -> NoDup l /\ NoDup r /\ forall x, In x l -> ~ In x r.
  Proof.
    induction l as [|a l IH]; cbn; intros H; [split; [constructor|]; split; [exact H | intros x []]|]. inversion H as [|? ? N1 N2]; subst.
    destruct (IH N2) as (A1 & A2 & A3). rewrite in_app_iff in N1. split; [constructor; tauto|]. split; [exact A2|]. intros x [<- | Hx]; [tauto | auto].
  Qed.
  Lemma chunk_in {A} (chunks : list (list A)) : forall t x, In x (nth t chunks []) -> In x (concat chunks).
  Proof. induction chunks as [|c r IH]; intros [|t] x H; cbn in *; try tauto; apply in_app_iff; [left; exact H | right; eapply IH; exact H]. Qed.
  Lemma chunk_of {A} (chunks : list (list A)) : forall x, In x (concat chunks) -> exists t, t < length chunks /\ In x (nth t chunks []).
  Proof.
    induction chunks as [|c r IH]; cbn; intros x H; [destruct H|]. apply in_app_iff in H. destruct H as [H|H]; [exists 0; split; [lia | exact H]|].
    destruct (IH x H) as (t & Lt & Ht). exists (S t). split; [lia | exact Ht].
  Qed.
  Lemma chunk_once {A} (chunks : list (list A)) : NoDup (concat chunks) -> forall t t' x, In x (nth t chunks []) -> In x (nth t' chunks []) -> t = t'.
  Proof.
    induction chunks as [|c r IH]; cbn; intros Nd [|t] [|t'] x H H'; cbn in *; try tauto; apply nodup_part in Nd; destruct Nd as (N1 & N2 & N3).
    - exfalso. exact (N3 x H (chunk_in _ _ _ H')).
    - exfalso. exact (N3 x H' (chunk_in _ _ _ H)).
    - f_equal. eapply IH; eauto.
  Qed.
  Lemma chunk_nodup {A} (chunks : list (list A)) : NoDup (concat chunks) -> forall t, NoDup (nth t chunks []).
  Proof. induction chunks as [|c r IH]; cbn; intros Nd [|t]; try constructor; apply nodup_part in Nd; destruct Nd as (N1 & N2 & N3); [exact N1 | apply IH; exact N2]. Qed.
  Lemma map_nth_seq {A B} (f : A -> B) (l : list A) d : map f l = map (fun t => f (nth t l d)) (seq 0 (length l)).
  Proof. induction l as [|a l IH]; cbn; [reflexivity|]. f_equal. rewrite <- seq_shift, map_map. exact IH. Qed.

  Section Chunks.
    Context {I : Type} (p : I -> prog) (R W : I -> loc -> Prop) (its : list I) (chunks : list (list I)) (m0 : mem).
    Context (Hind : independent p R W its) (Hrun : each_runs p its m0) (Hperm : Permutation (concat chunks) its).
    Let pt (t : nat) : prog := chain (map p (nth t chunks [])).
    Let Rt (t : nat) (l : loc) : Prop := exists x, In x (nth t chunks []) /\ R x l.
    Let Wt (t : nat) (l : loc) : Prop := exists x, In x (nth t chunks []) /\ W x l.
    Lemma chunks_its t x : In x (nth t chunks []) -> In x its.
    Proof. intros H. eapply Permutation_in; [exact Hperm | eapply chunk_in; exact H]. Qed.
    Lemma chunks_nodup : NoDup (concat chunks).
    Proof. eapply Permutation_NoDup; [apply Permutation_sym; exact Hperm | apply Hind]. Qed.
    Lemma chunks_independent : independent pt Rt Wt (seq 0 (length chunks)).
    Proof.
      destruct Hind as (Nd & Ft & Dj). split; [apply seq_NoDup|]. split.
      - intros t _. apply fits_chain. intros q Hq. apply in_map_iff in Hq. destruct Hq as (x & <- & Hx).
        apply (fits_mono (R x) (W x)); [intros l Hl; exists x; auto | intros l Hl; exists x; auto | apply Ft; eapply chunks_its; exact Hx].
      - intros t t' l _ _ N (x & Hx & Wx) H.
        assert (K : forall y, In y (nth t' chunks []) -> R y l \/ W y l -> False).
        { intros y Hy HRW. apply (Dj x y l); [eapply chunks_its; exact Hx | eapply chunks_its; exact Hy | | exact Wx | exact HRW].
          intros ->. apply N. exact (chunk_once chunks chunks_nodup t t' y Hx Hy). }
        destruct H as [(y & Hy & Ry) | (y & Hy & Wy)]; apply (K y Hy); tauto.
    Qed.
    Lemma chunk_runs t : exists m, execs (map p (nth t chunks [])) m0 = Some m /\ outcome p W (nth t chunks []) m0 m.
    Proof.
      destruct Hind as (Nd & Ft & Dj). apply (sequential_loop p R W); [|intros x Hx; apply Hrun; eapply chunks_its; exact Hx | apply Permutation_refl].
      split; [apply chunk_nodup, chunks_nodup|]. split; [intros x Hx; apply Ft; eapply chunks_its; exact Hx|].
      intros x y l Hx Hy. apply Dj; eapply chunks_its; eassumption.
    Qed.
    Theorem chunked_loop mf : outcome p W its m0 mf -> runs_to (threads p chunks) m0 mf.
    Proof.
      intros Hout. unfold threads. rewrite (map_nth_seq _ chunks []). exists (total pt (seq 0 (length chunks)) m0). intros n c Hs.
      assert (Hr : each_runs pt (seq 0 (length chunks)) m0).
      { intros t _. destruct (chunk_runs t) as (m & Hm & _). exists m. unfold pt. rewrite exec_chain. exact Hm. }
      destruct (parallel_loop pt Rt Wt (seq 0 (length chunks)) m0 chunks_independent Hr n c Hs) as (A1 & A2 & A3 & A4).
      split; [exact A1|]. split; [exact A2|]. split; [|exact A4]. intros Fin. destruct (A3 Fin) as [(O1 & O2 & O3) _].
      apply (outcome_unique p W its m0); [exact Hrun | | exact Hout]. split; [exact O1|]. split.
      - intros x mx l Hx Ex Wx.
        destruct (chunk_of chunks x) as (t & Lt & Ht); [eapply Permutation_in; [apply Permutation_sym; exact Hperm | exact Hx]|].
        destruct (chunk_runs t) as (mt & Hmt & _ & Q & _). rewrite (O2 t mt l).
        + exact (Q x mx l Ht Ex Wx).
        + apply in_seq. lia.
        + unfold pt. rewrite exec_chain. exact Hmt.
        + exists x. auto.
      - intros l H. apply O3. intros t _ (x & Hx & Wx). apply (H x); [eapply chunks_its; exact Hx | exact Wx].
    Qed.
  End Chunks.

  (** if one order of executing the iterations one after the other ends with [m], so does every parallel execution *)
  Theorem parallel_of_sequential {I} (p : I -> prog) R W its order chunks m0 m : independent p R W its -> Permutation order its ->
    execs (map p order) m0 = Some m -> Permutation (concat chunks) its -> runs_to (threads p chunks) m0 m.
  Proof.
    intros Hi P H Pc.
    assert (Hi' : independent p R W order) by (eapply independent_perm; [apply Permutation_sym; exact P | exact Hi]).
    assert (Hr : each_runs p its m0).
    { intros x Hx. apply (sequential_each_runs p R W order m0 m Hi' H). eapply Permutation_in; [apply Permutation_sym; exact P | exact Hx]. }
    apply (chunked_loop p R W its chunks m0 Hi Hr Pc). destruct (sequential_loop p R W its order m0 Hi Hr P) as (m' & H' & O'). congruence.
  Qed.
End Par.
Arguments Done {E}.
Arguments Fail {E}.
Arguments Rd {E} _ _.
Arguments Wr {E} _ _ _.
Arguments get {E} _ _.
Arguments put {E} _ _ _.
Arguments sstep {E} _ _.
Arguments exec {E} _ _.
Arguments execs {E} _ _.
Arguments cstep {E} _ _.
Arguments steps {E} _ _ _.
Arguments access {E} _.
Arguments race {E} _.
Arguments faulty {E} _.
Arguments finished {E} _.
Arguments fits {E} _ _ _.
Arguments same_mem {E} _ _.
Arguments independent {E I} _ _ _ _.
Arguments each_runs {E I} _ _ _.
Arguments outcome {E I} _ _ _ _ _.
Arguments chain {E} _.
Arguments threads {E I} _ _.
Arguments runs_to {E} _ _ _.
