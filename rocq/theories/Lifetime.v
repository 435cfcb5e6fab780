(** Starting and ending the library: nlcglib::initialize and ::finalize (src/nlcglib.cpp 37-68, src/la/magma.cpp 26-36). *)
From Coq Require Import List Bool Arith Lia.
Import ListNotations.

(** Kokkos: may be initialised once and finalised once; any other call of Kokkos::initialize or ::finalize ends the process, and its views
    and parallel loops are undefined outside (contract of the library).  MAGMA counts magma_init; magma_finalize without magma_init reports
    an error (contract). *)
Inductive kokkos := NotYet | Live | Done.
Record lib := MkLib { l_kokkos : kokkos; l_magma : nat }.
Inductive lres := Fine (s : lib) | Aborted | Exited | Undefined.
(** calls of the calling program: [Run] is a host calculation (nlcg_us_cpu with a valid smearing), [Refused] a call that raises before it
    computes anything (nlcg_mvp2_*, an invalid smearing, nlcg_us_device without device support), [OwnInit], [OwnFinalize] are calls of Kokkos itself *)
Inductive call := Initialize | Finalize | OwnInit | OwnFinalize | Run | Refused.

(** Kokkos::initialize *)
Definition kokkos_init (s : lib) : lres := match l_kokkos s with NotYet => Fine (MkLib Live (l_magma s)) | _ => Aborted end.
(** Kokkos::finalize *)
Definition kokkos_finalize (s : lib) : lres := match l_kokkos s with Live => Fine (MkLib Done (l_magma s)) | _ => Aborted end.
(** initialize, nlcglib.cpp 37-59: nlcg_init_magma (magma.cpp 26-30) before Kokkos; [mg]: built with MAGMA.  There is no test whether Kokkos is
    already running.  The settings are left out. *)
Definition initialize (mg : bool) (s : lib) : lres := kokkos_init (if mg then MkLib (l_kokkos s) (S (l_magma s)) else s).
(** nlcg_finalize_magma, magma.cpp 33-36 with TESTING_CHECK 10-23: exit(1) on error *)
Definition finalize_magma (s : lib) : lres := match l_magma s with O => Exited | S n => Fine (MkLib (l_kokkos s) n) end.
(** finalize, nlcglib.cpp 61-68 *)
Definition finalize (mg : bool) (s : lib) : lres :=
  match kokkos_finalize s with Fine s' => if mg then finalize_magma s' else Fine s' | r => r end.
(** nlcg_us on the host, nlcglib.cpp 214-442, as far as Kokkos is concerned *)
Definition compute (s : lib) : lres := match l_kokkos s with Live => Fine s | _ => Undefined end.
Definition do_call (mg : bool) (c : call) (s : lib) : lres :=
  match c with
  | Initialize => initialize mg s | Finalize => finalize mg s | OwnInit => kokkos_init s | OwnFinalize => kokkos_finalize s
  | Run => compute s | Refused => Fine s
  end.
Fixpoint program (mg : bool) (l : list call) (s : lib) : lres :=
  match l with [] => Fine s | c :: r => match do_call mg c s with Fine s' => program mg r s' | e => e end end.
Definition fresh : lib := MkLib NotYet 0.

(** ** Specification *)
Definition starts (c : call) : Prop := c = Initialize \/ c = OwnInit.
Definition ends (c : call) : Prop := c = Finalize \/ c = OwnFinalize.
Definition relevant (c : call) : bool := match c with Refused => false | _ => true end.
(** Without the refused calls: nothing; or one start and calculations; or one start, calculations and one end.  With MAGMA the library's
    finalize needs the library's initialize. *)
Inductive proper (mg : bool) : list call -> Prop :=
| PNone : proper mg []
| POpen i n : starts i -> proper mg (i :: repeat Run n)
| PClosed i n f : starts i -> ends f -> (mg = true -> f = Finalize -> i = Initialize) -> proper mg (i :: repeat Run n ++ [f]).

(** ** Proofs *)
Lemma program_filter mg l : forall s, program mg l s = program mg (filter relevant l) s.
Proof.
  induction l as [|c l IH]; intros s; [reflexivity|]. cbn [filter program]. destruct (relevant c) eqn:R.
  - cbn [program]. destruct (do_call mg c s); [apply IH|reflexivity|reflexivity|reflexivity].
  - destruct c; try discriminate R. apply IH.
Qed.
Lemma after_end mg l s : (exists s', program mg (filter relevant l) s = Fine s') -> l_kokkos s = Done -> filter relevant l = [].
Proof.
  intros Q K. revert Q. induction l as [|c l IH]; [reflexivity|]. destruct c; cbn [filter relevant program do_call]; try exact IH; intros (s' & E); exfalso; revert E;
    unfold initialize, finalize, kokkos_init, kokkos_finalize, compute; destruct mg; cbn [l_kokkos]; rewrite K; discriminate.
Qed.
Lemma runs mg n s r : l_kokkos s = Live -> program mg (repeat Run n ++ r) s = program mg r s.
Proof. intros K. induction n as [|n IH]; [reflexivity|]. cbn [repeat app program do_call]. unfold compute. rewrite K. exact IH. Qed.
Lemma while_live mg l : forall s, l_kokkos s = Live -> (exists s', program mg (filter relevant l) s = Fine s') ->
  (exists n, filter relevant l = repeat Run n) \/
  (exists n f, filter relevant l = repeat Run n ++ [f] /\ ends f /\ (mg = true -> f = Finalize -> l_magma s <> 0)).
Proof.
  induction l as [|c l IH]; intros s K; [intros _; left; exists 0; reflexivity|].
  destruct c; cbn [filter relevant program do_call]; intros (s' & E).
  - exfalso. revert E. unfold initialize, kokkos_init. destruct mg; cbn [l_kokkos]; rewrite K; discriminate.
  - right. exists 0, Finalize. unfold finalize, kokkos_finalize in E. rewrite K in E. cbn [l_kokkos l_magma] in E.
    destruct mg; [unfold finalize_magma in E; cbn [l_magma l_kokkos] in E; destruct (l_magma s) as [|q] eqn:M; [discriminate|]|];
      (rewrite (after_end _ l _ (ex_intro _ s' E) eq_refl); split; [reflexivity|]; split; [left; reflexivity|]; intros; lia || discriminate).
  - exfalso. revert E. unfold kokkos_init. rewrite K. discriminate.
  - right. exists 0, OwnFinalize. unfold kokkos_finalize in E. rewrite K in E.
    rewrite (after_end _ l _ (ex_intro _ s' E) eq_refl). split; [reflexivity|]. split; [right; reflexivity|]. intros _ H. discriminate H.
  - unfold compute in E. rewrite K in E. destruct (IH s K (ex_intro _ s' E)) as [(n & H)|(n & f & H & R)].
    + left. exists (S n). rewrite H. reflexivity.
    + right. exists (S n), f. rewrite H. split; [reflexivity|exact R].
  - apply (IH s K). exists s'. exact E.
Qed.
Theorem program_fine mg l : (exists s, program mg l fresh = Fine s) <-> proper mg (filter relevant l).
Proof.
  rewrite program_filter. split.
  - induction l as [|c l IH]; [intros _; apply PNone|]. destruct c; cbn [filter relevant program do_call]; intros (s' & E).
    + assert (K : exists s1, initialize mg fresh = Fine s1 /\ l_kokkos s1 = Live /\ program mg (filter relevant l) s1 = Fine s')
        by (destruct mg; cbn [initialize kokkos_init fresh l_kokkos l_magma] in *; eexists; (split; [reflexivity|]); (split; [reflexivity|]); exact E).
      destruct K as (s1 & _ & K & E1). destruct (while_live mg l s1 K (ex_intro _ s' E1)) as [(n & ->)|(n & f & -> & F & M)].
      * apply POpen. left. reflexivity.
      * apply PClosed; [left; reflexivity|exact F|]. intros _ _. reflexivity.
    + exfalso. revert E. cbn. discriminate.
    + cbn in E. destruct (while_live mg l (MkLib Live 0) eq_refl (ex_intro _ s' E)) as [(n & ->)|(n & f & -> & F & M)].
      * apply POpen. right. reflexivity.
      * apply PClosed; [right; reflexivity|exact F|]. intros G H. exfalso. exact (M G H eq_refl).
    + exfalso. revert E. cbn. discriminate.
    + exfalso. revert E. cbn. discriminate.
    + apply IH. exists s'. exact E.
  - intros P. inversion P as [H|i n Hi H|i n f Hi Hf G H]; clear H P; [|destruct Hi as [->| ->]|destruct Hi as [->| ->], Hf as [->| ->]].
    + exists fresh. reflexivity.
    + destruct mg; cbn [program do_call initialize kokkos_init fresh l_kokkos l_magma]; (eexists; rewrite <- (app_nil_r (repeat Run n)), runs by reflexivity; reflexivity).
    + eexists. cbn [program do_call kokkos_init fresh l_kokkos l_magma]. rewrite <- (app_nil_r (repeat Run n)), runs by reflexivity. reflexivity.
    + destruct mg; cbn [program do_call initialize kokkos_init fresh l_kokkos l_magma]; (eexists; rewrite runs by reflexivity; reflexivity).
    + destruct mg; cbn [program do_call initialize kokkos_init fresh l_kokkos l_magma]; (eexists; rewrite runs by reflexivity; reflexivity).
    + destruct mg; [specialize (G eq_refl eq_refl); discriminate G|]. eexists. cbn [program do_call kokkos_init fresh l_kokkos l_magma]. rewrite runs by reflexivity. reflexivity.
    + eexists. cbn [program do_call kokkos_init fresh l_kokkos l_magma]. rewrite runs by reflexivity. reflexivity.
Qed.
(** initialize, calculations, finalize: everything released *)
Theorem all_released mg n : program mg (Initialize :: repeat Run n ++ [Finalize]) fresh = Fine (MkLib Done 0).
Proof. destruct mg; cbn [program do_call initialize kokkos_init fresh l_kokkos l_magma]; rewrite runs by reflexivity; reflexivity. Qed.
(** a second start ends the process, whatever happened before, also if Kokkos was started by the calling program *)
Theorem no_second_start mg l s : program mg l fresh = Fine s -> (exists c, In c l /\ starts c) -> program mg (l ++ [Initialize]) fresh = Aborted.
Proof.
  intros E (c & Hc & Sc).
  assert (A : forall l s s', program mg l s = Fine s' -> (l_kokkos s <> NotYet \/ exists c, In c l /\ starts c) -> l_kokkos s' <> NotYet).
  { clear. induction l as [|c l IH]; intros s s' E H; [injection E as <-; destruct H as [H|(c & [] & _)]; exact H|].
    cbn [program] in E. destruct (do_call mg c s) as [s1| | |] eqn:D; try discriminate. apply (IH s1 s' E). destruct H as [H|(d & [<-|Hd] & Sd)].
    - left. destruct c; cbn [do_call] in D; unfold initialize, finalize, kokkos_init, kokkos_finalize, compute, finalize_magma in D.
      + destruct mg; cbn [l_kokkos] in D; destruct (l_kokkos s); try discriminate; injection D as <-; discriminate.
      + destruct (l_kokkos s) eqn:K; try discriminate. cbn [l_kokkos l_magma] in D. destruct mg; [destruct (l_magma s); try discriminate|]; injection D as <-; discriminate.
      + destruct (l_kokkos s); try discriminate; injection D as <-; discriminate.
      + destruct (l_kokkos s); try discriminate; injection D as <-; discriminate.
      + destruct (l_kokkos s) eqn:K; try discriminate; injection D as <-; rewrite K; discriminate.
      + injection D as <-. exact H.
    - left. destruct Sd as [->| ->]; cbn [do_call] in D; unfold initialize, kokkos_init in D; [destruct mg|]; cbn [l_kokkos] in D; destruct (l_kokkos s); try discriminate; injection D as <-; discriminate.
    - right. exists d. split; assumption. }
  assert (B : forall l s s', program mg l s = Fine s' -> program mg (l ++ [Initialize]) s = initialize mg s').
  { clear. induction l as [|c l IH]; intros s s' E; [injection E as <-; cbn [app program do_call]; destruct (initialize mg s); reflexivity|].
    cbn [app program] in *. destruct (do_call mg c s); try discriminate. apply IH, E. }
  rewrite (B _ _ _ E). pose proof (A _ _ _ E (or_intror (ex_intro _ c (conj Hc Sc)))) as K.
  unfold initialize, kokkos_init. destruct mg; cbn [l_kokkos]; destruct (l_kokkos s); try reflexivity; contradiction K; reflexivity.
Qed.
