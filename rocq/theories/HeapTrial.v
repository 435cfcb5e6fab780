(** Trial evaluations on the heap succeed, and the calling program is handed the trial points. *)
From Coq Require Import ZArith Reals Arith List Bool Lia.
From Coquelicot Require Import Complex.
From Verif Require Import Arith LinAlg MVector LapackMem LapackMemProofs LapackElt LapackFacts Exchange Smearing Newton Occupation StepMem StepProofs StepMain StepTrial.
From Verif Require Import HeapStep HeapProofs HeapRun Descent DescentProofs.
Import ListNotations.

(** X, eta, Z_X, Z_eta and the overlap operator of a k-point as matrices *)
Record skm := MkSkm { tn : nat; tm : nat; tS : mat; tX : mat; tE : mat; tZ : mat; tZE : mat }.
(** the state of a k-point in memory *)
Record state (opS : operator_fn Celt) (h : heap) (k : sk) (K : skm) : Prop := MkState {
  st_n : 1 <= tn K; st_m : 1 <= tm K; st_nm : small (tn K) (tm K); st_mm : small (tm K) (tm K);
  st_S : acts_as opS (sk_key k) (tn K) (tS K); st_Sh : hermitian (tn K) (tS K);
  st_x : holds (tn K) (tm K) (vof h (sk_x k)) (tX K); st_e : holds (tm K) (tm K) (vof h (sk_eta k)) (tE K);
  st_z : holds (tn K) (tm K) (vof h (sk_zx k)) (tZ K); st_ze : holds (tm K) (tm K) (vof h (sk_ze k)) (tZE K)
}.
(** the matrices at step [t] *)
Definition at_x (K : skm) (t : R) : mat := Descent.add (tX K) (tZ K) t 1.
Definition at_e (K : skm) (t : R) : mat := Descent.add (tE K) (tZE K) t 1.
Definition admissible (t : R) (K : skm) : Prop :=
  hermitian (tm K) (at_e K t) /\ posdef (tm K) (mmul (tn K) (adj (at_x K t)) (mmul (tn K) (tS K) (at_x K t))).
(** results of a trial in memory are the trial point *)
Definition good_trial (h : heap) (t : R) (K : skm) (r : rvec * hview * hview) : Prop :=
  trial_point (tn K) (tm K) (tS K) (at_x K t) (at_e K t) (fst (fst r)) (vof h (snd (fst r))) (vof h (snd r)).
(** a buffer of the calling program that can take an n x m matrix *)
Definition usable (h : heap) (c : hview) (n m : nat) : Prop := exists M, holds n m (vof h c) M.
(** allocations keep their sizes *)
Definition same_sizes (h h' : heap) : Prop := forall l, l < hnext h -> bsz (hbuf h' l) = bsz (hbuf h l).

Lemma usable_sizes h h' c n m : same_sizes h h' -> hloc c < hnext h -> usable h c n m -> usable h' c n m.
Proof.
  intros Sz Hl [M [A B C D E F G]]. exists (mat_of (vof h' c)). specialize (Sz _ Hl). constructor; try assumption.
  - unfold allocated in *. cbn [vof vbuf vrows vcols vs0 vs1] in *. rewrite Sz. exact E.
  - apply meq_refl.
Qed.
Lemma sizes_trans h h1 h2 : hnext h <= hnext h1 -> same_sizes h h1 -> same_sizes h1 h2 -> same_sizes h h2.
Proof. intros L A B l Hl. rewrite (B l), (A l); [reflexivity | exact Hl | lia]. Qed.

Section Trial.
  Notation V := (ev Celt).
  Context (ord : nat -> orders) (junk : nat -> nat -> V).
  Context (heevd : nat -> buf Celt -> nat -> Z * buf Celt * (nat -> R)).
  Context (opS : operator_fn Celt) (HS : keeps opS) (Hord : forall t, fair (ord t)) (Hhe : heevd_ok heevd).

  Lemma deep_copy_runs t dst src n m Md Ms h : hloc src <> hloc dst -> holds n m (vof h dst) Md -> holds n m (vof h src) Ms ->
    exists h', h_deep_copy (ord t (hrows src) (hcols src)) dst src h = KOk (tt, h') /\ frame (eq (hloc dst)) h h' /\ same_sizes h h' /\ hnext h' = hnext h /\
      holds n m (vof h' dst) Ms.
  Proof.
    intros N HD HSr. unfold h_deep_copy, hkernel. cbn [existsb]. rewrite (proj2 (Nat.eqb_neq _ _) N). cbn [orb].
    pose proof HD as [D1 D2 D3 D4 D5 D6 D7]. pose proof HSr as [S1 S2 S3 S4 S5 S6 S7].
    destruct (deep_copy_ok Celt (ord t (vrows (vof h src)) (vcols (vof h src))) (vof h dst) (vof h src)) as (X & EX & HX); try assumption; try congruence.
    { apply Hord. }
    { rewrite S1, S2. apply (holds_injective _ _ _ _ HD). }
    destruct (k_deep_copy (ord t) n m (vof h dst) (vof h src) _ _ (Hord t) HD HSr) as (X' & EX' & HX').
    rewrite EX in EX'. injection EX' as <-. cbn [vof vrows vcols] in EX. cbn [vof vrows vcols]. rewrite EX. cbn [kbind].
    exists (hset h (hloc dst) (vbuf X)). split; [reflexivity|]. split; [apply frame_hset|].
    destruct HX as (X1 & X2 & X3 & X4 & X5 & X6 & _). split; [|split; [reflexivity|]].
    - intros l Hl. cbn. destruct (Nat.eqb_spec l (hloc dst)) as [->|]; [exact X6 | reflexivity].
    - rewrite vof_hset_same. replace (with_buf (vof h dst) (vbuf X)) with X; [exact HX'|]. destruct X. cbn in *. unfold with_buf. cbn. congruence.
  Qed.
  Lemma put_runs t c x n m M h : 1 <= n -> small n m -> usable h c n m -> holds n m (vof h x) M -> hloc c < hnext h -> hloc x < hnext h ->
    exists h', h_put ord t (c, x) h = KOk (tt, h') /\ frame (eq (hloc c)) h h' /\ same_sizes h h' /\ holds n m (vof h' c) M.
  Proof.
    intros Hn Hs [Mc Uc] Hx Lc Lx. unfold h_put, hbind. 
    set (xh := MkHview (hnext h) (hrows x) (hcols x) 1 (hrows x) true).
    set (h1 := MkHeap (S (hnext h)) (fun q => if Nat.eqb q (hnext h) then MkBuf (hrows x * hcols x) (fun _ => e0 Celt) else hbuf h q)).
    change (hnew (hrows x) (hcols x) true (fun _ => e0 Celt) h) with (@KOk (hview * heap) (xh, h1)). cbn [kbind fst snd].
    assert (Same : forall y, hloc y < hnext h -> vof h1 y = vof h y).
    { intros y Hy. unfold vof. cbn. rewrite (proj2 (Nat.eqb_neq (hloc y) (hnext h))); [reflexivity | lia]. }
    assert (Hxh : holds n m (vof h1 xh) mzero).
    { replace (vof h1 xh) with (alloc Celt n m true); [apply zeros_holds; assumption|]. unfold vof, alloc. cbn. rewrite Nat.eqb_refl.
      pose proof (h_rows _ _ _ _ Hx) as E1. pose proof (h_cols _ _ _ _ Hx) as E2. cbn in E1, E2. rewrite E1, E2. reflexivity. }
    destruct (deep_copy_runs t xh x n m mzero M h1) as (h2 & E2 & F2 & Z2 & L2 & H2).
    { cbn. lia. }
    { exact Hxh. }
    { rewrite (Same x Lx). exact Hx. }
    rewrite E2. cbn [kbind fst snd].
    destruct (deep_copy_runs (t + 1) c xh n m Mc M h2) as (h3 & E3 & F3 & Z3 & L3 & H3).
    { cbn. lia. }
    { rewrite (frame_vof _ _ _ _ F2); [rewrite (Same c Lc); exact Uc | cbn; lia | cbn; lia]. }
    { exact H2. }
    change (hrows xh) with (hrows x) in E3. change (hcols xh) with (hcols x) in E3. rewrite E3.
    exists h3. split; [reflexivity|]. split; [|split; [|exact H3]].
    - destruct F2 as [G2 F2], F3 as [G3 F3]. cbn in G2, F2. split; [lia|]. intros l Hl Nl. rewrite F3, F2; [|lia|lia|lia|exact Nl].
      cbn. rewrite (proj2 (Nat.eqb_neq l (hnext h))); [reflexivity | lia].
    - intros l Hl. rewrite (Z3 l), (Z2 l); [|cbn; lia|rewrite L2; cbn; lia]. cbn. rewrite (proj2 (Nat.eqb_neq l (hnext h))); [reflexivity | lia].
  Qed.

  (** all k-points *)
  Definition target (h : heap) (c : hview) (K : skm) : Prop := usable h c (tn K) (tm K) /\ hloc c < hnext h /\ 1 <= tn K /\ small (tn K) (tm K).
  Definition handed (h : heap) (c : hview) (K : skm) (x : hview) (h0 : heap) : Prop := holds (tn K) (tm K) (vof h c) (mat_of (vof h0 x)).
  Definition source (h : heap) (own : nat -> Prop) (x : hview) (K : skm) : Prop :=
    hloc x < hnext h /\ ~ own (hloc x) /\ holds (tn K) (tm K) (vof h x) (mat_of (vof h x)).
  Lemma target_sizes h h' c K : hnext h <= hnext h' -> same_sizes h h' -> target h c K -> target h' c K.
  Proof. intros L Sz (A & B & C & D). split; [exact (usable_sizes _ _ _ _ _ Sz B A)|]. split; [lia | split; assumption]. Qed.
  Lemma puts_run (own : nat -> Prop) : forall cs Ks xs t h, Forall (fun c => own (hloc c)) cs -> NoDup (map hloc cs) ->
    Forall2 (target h) cs Ks -> Forall2 (source h own) xs Ks ->
    exists us h', hmap (h_put ord) t (combine cs xs) h = KOk (us, h') /\ frame own h h' /\ same_sizes h h' /\
      (forall l, ~ In l (map hloc cs) -> l < hnext h -> hbuf h' l = hbuf h l) /\
      Forall2 (fun c Kx => handed h' c (fst Kx) (snd Kx) h) cs (combine Ks xs).
  Proof.
    induction cs as [|c cs IH]; intros Ks xs t h Oc Nd HT Hsrc; inversion HT as [|? K ? Ks' T1 T2]; subst; inversion Hsrc as [|x ? xs' ? S1 S2]; subst; cbn [combine hmap].
    - exists [], h. split; [reflexivity|]. split; [apply frame_refl|]. split; [intros l _; reflexivity|]. split; [reflexivity | constructor].
    - inversion Oc as [|? ? O1 O2]; subst. inversion Nd as [|? ? N1 N2]; subst.
      destruct T1 as (U & Lc & Hn & Hs). destruct S1 as (Lx & Nx & Hx).
      destruct (put_runs t c x (tn K) (tm K) _ h Hn Hs U Hx Lc Lx) as (h1 & E1 & F1 & Z1 & H1).
      assert (L1 : hnext h <= hnext h1) by exact (frame_le _ _ _ F1).
      assert (Sx : Forall2 (source h1 own) xs' Ks').
      { clear -S2 F1 O1 L1. induction S2 as [|y K' l l' (A & B & C) S2 IH]; constructor; [|exact IH].
        split; [lia|]. split; [exact B|]. rewrite (frame_vof _ _ _ y F1); [exact C | exact A |]. intros E. rewrite E in O1. exact (B O1). }
      assert (T2' : Forall2 (target h1) cs Ks').
      { clear -T2 Z1 L1. induction T2; constructor; auto. eapply target_sizes; eassumption. }
      destruct (IH Ks' xs' (t + 32) h1 O2 N2 T2' Sx) as (us & h2 & E2 & F2 & Z2 & P2 & H2).
      exists (tt :: us), h2. unfold hbind. rewrite E1. cbn [kbind fst snd]. unfold hbind in E2. rewrite E2. cbn [kbind fst snd]. split; [reflexivity|].
      assert (F1' : frame own h h1) by (revert F1; apply frame_mono; intros l _ <-; exact O1).
      split; [exact (frame_trans _ _ _ _ F1' F2)|]. split; [exact (sizes_trans _ _ _ L1 Z1 Z2)|]. split.
      + intros l Hl Ll. cbn [map] in Hl. rewrite P2; [|intros H; apply Hl; right; exact H | lia].
        destruct F1 as [_ F1]. apply F1; [exact Ll|]. intros E. apply Hl. left. exact E.
      + constructor.
        * unfold handed. cbn [fst snd]. unfold vof at 1. rewrite P2; [exact H1 | exact N1 | lia].
        * clear -H2 Sx S2 F1 O1. revert Ks' cs H2 Sx S2. induction xs' as [|x' xs' IHx]; intros Ks' cs H2 Sx S2; inversion S2 as [|? K' ? Ks0 (G1 & G2 & _) S3]; subst;
            cbn [combine] in *; inversion H2 as [|d ? cs' ? A B]; subst; constructor.
          -- unfold handed in *. cbn [fst snd] in *. rewrite (frame_vof _ _ _ x' F1) in A; [exact A | exact G1 |]. intros E. rewrite E in O1. exact (G2 O1).
          -- inversion Sx; subst. apply IHx; assumption.
  Qed.

  (** ** An evaluation *)
  Lemma geo_runs step h : forall ks Ks t, Forall2 (state opS h) ks Ks -> Forall (admissible step) Ks ->
    (kmap (geo1 ord junk heevd opS step) t (map (sderef h) ks) = KThrow /\ ~ never_fails heevd) \/
    exists rs, kmap (geo1 ord junk heevd opS step) t (map (sderef h) ks) = KOk rs /\
      Forall2 (fun K r => trial_point (tn K) (tm K) (tS K) (at_x K step) (at_e K step) (fst (fst r)) (snd (fst r)) (snd r)) Ks rs.
  Proof.
    induction ks as [|k ks IH]; intros Ks t HSt Ad; inversion HSt as [|? K ? Ks' A B]; subst; cbn [map kmap].
    - right. exists []. split; [reflexivity | constructor].
    - inversion Ad as [|? ? A1 A2]; subst. destruct A as [a1 a2 a3 a4 a5 a6 a7 a8 a9 a10]. destruct A1 as [b1 b2]. cbn [sderef geo1].
      destruct (geodesic_ok ord junk heevd opS Hord Hhe t (sk_key k) (tn K) (tm K) (tS K) step _ _ _ _ _ _ _ _ a1 a2 a3 a4 a5 a6 a7 a8 a9 a10 b1 b2)
        as [[-> Nf] | (ek & Ul & X' & -> & Tp)]; cbn [kbind].
      + left. split; [reflexivity | exact Nf].
      + destruct (IH Ks' (t + 32) B A2) as [[E Nf] | (rs & E & H)]; rewrite E; cbn [kbind].
        * left. split; [reflexivity | exact Nf].
        * right. exists ((ek, Ul, X') :: rs). split; [reflexivity|]. constructor; assumption.
  Qed.
  Context (own : nat -> Prop) (caller : heap -> heap) (Hcaller : forall h, frame own h (caller h)) (Hsizes : forall h, same_sizes h (caller h)).

  (** one evaluation: it succeeds unless zheevd fails; the calling program runs on memory [hc] in which it holds the trial points *)
  Theorem eval_runs cs ks Ks t step h :
    Forall (fun c => own (hloc c)) cs -> NoDup (map hloc cs) -> own_below own (hnext h) ->
    Forall (bound sviews h) ks -> Forall2 (state opS h) ks Ks -> Forall (admissible step) Ks -> Forall2 (target h) cs Ks ->
    (h_eval ord junk heevd opS caller cs t step ks h = KThrow /\ ~ never_fails heevd) \/
    exists res hc, h_eval ord junk heevd opS caller cs t step ks h = KOk (res, caller hc) /\ frame own h hc /\ same_sizes h hc /\
      Forall2 (good_trial hc step) Ks res /\ Forall2 (good_trial (caller hc) step) Ks res /\
      Forall2 (fun c Kr => holds (tn (fst Kr)) (tm (fst Kr)) (vof hc c) (mat_of (vof hc (snd (snd Kr))))) cs (combine Ks res).
  Proof.
    intros Oc Nd Ob Hb HSt Ad HT. unfold h_eval, hbind.
    pose proof (spec_geodesics ord junk heevd opS HS h t step ks Hb) as S.
    destruct (geo_runs step h ks Ks t HSt Ad) as [[E Nf] | (rs & E & Gd)]; rewrite E in S; unfold spec in S.
    - left. rewrite S. cbn [kbind]. split; [reflexivity | exact Nf].
    - right. destruct S as (res & h1 & E1 & F1 & -> & Nw & _). rewrite E1. cbn [kbind fst snd].
      assert (L1 : hnext h <= hnext h1) by exact (frame_le _ _ _ F1).
      assert (Z1 : same_sizes h h1). { intros l Hl. destruct F1 as [_ F1]. rewrite F1; auto. }
      assert (T1 : Forall2 (target h1) cs Ks).
      { clear -HT L1 Z1. induction HT; constructor; auto. eapply target_sizes; eassumption. }
      assert (Gd1 : Forall2 (good_trial h1 step) Ks res).
      { clear -Gd. revert Ks Gd. induction res as [|r res IH]; intros Ks Gd; inversion Gd; subst; constructor; auto. }
      assert (Out : forall r, In r res -> forall x, In x (oviews r) -> hloc x < hnext h1 /\ ~ own (hloc x)).
      { intros r Hr x Hx. rewrite Forall_forall in Nw. specialize (Nw r Hr x Hx). split; [lia|]. intros O. apply Ob in O. lia. }
      assert (Sr : Forall2 (source h1 own) (map snd res) Ks).
      { clear -Gd1 Out. revert Ks Gd1. induction res as [|r res IH]; intros Ks Gd1; inversion Gd1; subst; constructor.
        - destruct (Out r (or_introl eq_refl) (snd r)) as [A B]; [cbn; auto|]. split; [exact A|]. split; [exact B|]. eapply tp_x. eassumption.
        - apply IH; [intros q Hq; apply Out; right; exact Hq | assumption]. }
      destruct (puts_run own cs Ks (map snd res) (t + 16) h1 Oc Nd T1 Sr) as (us & h2 & E2 & F2 & Z2 & P2 & H2).
      rewrite E2. cbn [kbind fst snd]. unfold h_caller. cbn [kbind fst snd]. exists res, h2.
      assert (L2 : hnext h1 <= hnext h2) by exact (frame_le _ _ _ F2).
      assert (Move : forall ha, frame own h1 ha -> Forall2 (good_trial ha step) Ks res).
      { intros ha Fa. clear -Gd1 Out Fa. revert Ks Gd1. induction res as [|r res IH]; intros Ks Gd1; inversion Gd1 as [|K ? ? ? G]; subst; constructor.
        - unfold good_trial in *. destruct (Out r (or_introl eq_refl) (snd r)) as [A B]; [cbn; auto|].
          destruct (Out r (or_introl eq_refl) (snd (fst r))) as [C D]; [cbn; auto|].
          rewrite (frame_vof _ _ _ _ Fa A B), (frame_vof _ _ _ _ Fa C D). exact G.
        - apply IH; [intros q Hq; apply Out; right; exact Hq | assumption]. }
      split; [reflexivity|]. split; [|split; [|split; [|split]]].
      + apply (frame_trans _ _ h1); [|exact F2]. revert F1. apply frame_mono. intros l _ [].
      + exact (sizes_trans _ _ _ L1 Z1 Z2).
      + exact (Move h2 F2).
      + exact (Move (caller h2) (frame_trans _ _ _ _ F2 (Hcaller h2))).
      + clear -H2 Out F2. revert Ks cs H2. induction res as [|r res IH]; intros Ks cs H2; destruct Ks as [|K Ks]; cbn [map combine] in *; inversion H2 as [|c ? cs' ? A B]; subst; constructor.
        * unfold handed in A. cbn [fst snd] in *. destruct (Out r (or_introl eq_refl) (snd r)) as [C D]; [cbn; auto|].
          rewrite (frame_vof _ _ _ _ F2 C D). exact A.
        * apply IH; [intros q Hq; apply Out; right; exact Hq | assumption].
  Qed.

  Lemma state_frame h h' k K : frame own h h' -> bound sviews h k -> apart_from_own own k -> state opS h k K -> state opS h' k K.
  Proof.
    intros F B A [a1 a2 a3 a4 a5 a6 a7 a8 a9 a10].
    constructor; try assumption; rewrite (frame_vof _ _ _ _ F); try assumption; solve [apply B; cbn; auto 6 | apply A; cbn; auto 6].
  Qed.
  (** any number of evaluations, whatever the calling program does with its own memory in between *)
  Theorem evals_run cs ks Ks : forall trials h,
    Forall (fun c => own (hloc c)) cs -> NoDup (map hloc cs) -> own_below own (hnext h) ->
    Forall (bound sviews h) ks -> Forall (apart_from_own own) ks -> Forall2 (state opS h) ks Ks ->
    (forall trial, In trial trials -> Forall (admissible (snd trial)) Ks) -> Forall2 (target h) cs Ks ->
    (h_evals ord junk heevd opS caller cs trials ks h = KThrow /\ ~ never_fails heevd) \/
    exists ress h', h_evals ord junk heevd opS caller cs trials ks h = KOk (ress, h') /\ frame own h h' /\
      Forall2 (state opS h') ks Ks /\ Forall2 (fun trial res => Forall2 (good_trial h' (snd trial)) Ks res) trials ress.
  Proof.
    induction trials as [|[t step] trials IH]; intros h Oc Nd Ob Hb Ha HSt Ad HT; cbn [h_evals].
    - right. exists [], h. split; [reflexivity|]. split; [apply frame_refl|]. split; [exact HSt | constructor].
    - destruct (eval_runs cs ks Ks t step h Oc Nd Ob Hb HSt (Ad _ (or_introl eq_refl)) HT) as [[E Nf] | (res & hc & E & Fc & Zc & _ & Gd & _)].
      + left. unfold hbind at 1. rewrite E. split; [reflexivity | exact Nf].
      + assert (E' := E). apply (eval_on_heap ord junk heevd opS HS own caller Hcaller) in E'; [|assumption..].
        destruct E' as (F1 & _ & Nw). pose proof (frame_le _ _ _ F1) as L1. set (h1 := caller hc) in *.
        assert (Z1 : same_sizes h h1) by (apply (sizes_trans h hc h1); [exact (frame_le _ _ _ Fc) | exact Zc | apply Hsizes]).
        destruct (IH h1) as [[E2 Nf] | (ress & h2 & E2 & F2 & St2 & G2)]; try assumption.
        * intros l Hl. apply Ob in Hl. lia.
        * eapply Forall_impl; [|exact Hb]. intros k Bk x Hx. specialize (Bk x Hx). lia.
        * clear -HSt F1 Hb Ha. induction HSt as [|k K ks Ks A B IHs]; [constructor|]. inversion Hb; subst. inversion Ha; subst. constructor; [|auto].
          eapply state_frame; eassumption.
        * intros trial Ht. apply Ad. right. exact Ht.
        * clear -HT L1 Z1. induction HT; constructor; auto. eapply target_sizes; eassumption.
        * left. unfold hbind at 1. rewrite E. cbn [kbind fst snd]. unfold hbind. rewrite E2. split; [reflexivity | exact Nf].
        * right. exists (res :: ress), h2. unfold hbind at 1. rewrite E. cbn [kbind fst snd]. unfold hbind. rewrite E2. split; [reflexivity|].
          split; [exact (frame_trans _ _ _ _ F1 F2)|]. split; [exact St2|]. constructor; [|exact G2]. cbn [snd].
          clear -Gd Nw F2 Ob. revert Ks Gd. induction Nw as [|r res N Nw IHr]; intros Ks Gd; inversion Gd as [|K ? ? ? G]; subst; constructor; [|auto].
          unfold good_trial in *. pose proof (N (snd r) ltac:(cbn; auto)) as A. pose proof (N (snd (fst r)) ltac:(cbn; auto)) as B.
          rewrite (frame_vof _ _ _ _ F2), (frame_vof _ _ _ _ F2); [exact G | lia | intros O; apply Ob in O; lia | lia | intros O; apply Ob in O; lia].
  Qed.
End Trial.
