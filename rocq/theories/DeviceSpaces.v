(** The results of StepMain.v, StepTrial.v and StepLine.v in every memory space. *)
From Coq Require Import ZArith Reals Lra Arith Lia List Bool Permutation.
From Coquelicot Require Import Complex.
From Verif Require Import Arith LinAlg MVector LapackMem LapackMemProofs LapackElt LapackFacts Exchange Smearing Newton Occupation StepMem StepProofs StepMain StepTrial StepLine.
From Verif Require Import Descent DescentProofs DescentFacts Geodesic GeodesicProofs DeviceStep DeviceStepProofs.
From Verif Require Device.
Import ListNotations.
Local Open Scope R_scope.

Lemma Forall2_left {A B} (P : A -> B -> Prop) l l' a : Forall2 P l l' -> In a l -> exists b, In b l' /\ P a b.
Proof.
  induction 1 as [|x y l l' H H2 IH]; intro I; [destruct I|]. destruct I as [-> | I].
  - exists y. split; [left; reflexivity | exact H].
  - destruct (IH I) as (b & I' & Q). exists b. split; [right; exact I' | exact Q].
Qed.
Lemma holds_rows r c X M : holds r c X M -> (vrows X <= vs1 X)%nat.
Proof. intro H. exact (proj2 (proj2 (h_cm _ _ _ _ H))). Qed.
Lemma represents_fits opS opP w ks : Forall2 (Forall2 (represents opS opP)) w ks -> forall l k, In l w -> In k l -> kpoint_fits k.
Proof.
  intros H l k Il Ik. destruct (Forall2_left _ _ _ _ H Il) as (l' & _ & H'). destruct (Forall2_left _ _ _ _ H' Ik) as (kp & _ & R).
  split; [exact (holds_rows _ _ _ _ (rp_hx _ _ _ _ R))|].
  rewrite (h_rows _ _ _ _ (rp_hx _ _ _ _ R)), (h_rows _ _ _ _ (rp_x _ _ _ _ R)). lia.
Qed.
Lemma cg_fits opS opP w ks : Forall2 (Forall2 (cg_pair opS opP)) w ks ->
  forall l k zx ze ul, In l w -> In (k, (zx, ze, ul)) l ->
  kpoint_fits k /\ (vrows (mk_x k) <= vrows zx)%nat /\ (vcols (mk_x k) <= vcols ul)%nat.
Proof.
  intros H l k zx ze ul Il Ik. destruct (Forall2_left _ _ _ _ H Il) as (l' & _ & H').
  destruct (Forall2_left _ _ _ _ H' Ik) as ([kp [[ZX ZE] UL]] & _ & R & Z). cbn [fst snd] in R, Z. destruct Z as (Z1 & Z2 & Z3).
  split; [|split].
  - split; [exact (holds_rows _ _ _ _ (rp_hx _ _ _ _ R))|].
    rewrite (h_rows _ _ _ _ (rp_hx _ _ _ _ R)), (h_rows _ _ _ _ (rp_x _ _ _ _ R)). lia.
  - rewrite (h_rows _ _ _ _ (rp_x _ _ _ _ R)), (h_rows _ _ _ _ Z1). lia.
  - rewrite (h_cols _ _ _ _ (rp_x _ _ _ _ R)), (h_cols _ _ _ _ Z3). lia.
Qed.

Theorem restarted_space sp ord ord1 junk red potrf potrs opS opP s T kappa mo mu w ks :
  (forall t, fair (ord t)) -> (forall t, fair1 (ord1 t)) -> (forall t, fair_red (red t)) -> potrf_ok potrf -> potrs_ok potrs ->
  Forall2 (Forall2 (represents opS opP)) w ks -> (forall r kp, In r ks -> In kp r -> physical kp /\ kw kp <> 0) ->
  exists slope dirs, restarted_at sp ord ord1 junk red potrf potrs opS opP s T kappa mo w mu = KOk (slope, dirs) /\
    Forall2 (Forall2 (fun kp d => held kp d (mat_of (fst d), mat_of (snd d)) /\ steepest kappa kp (mat_of (fst d)) (mat_of (snd d)))) ks dirs.
Proof.
  intros F F1 FR P1 P2 Rep Ph.
  destruct (restarted_steepest ord ord1 junk potrf potrs opS opP s T kappa mo mu w ks F F1 P1 P2 Rep Ph) as (slope & dirs & E & H).
  exists slope, dirs. split; [|exact H].
  apply (DeviceStepProofs.restarted_refines sp ord ord1 junk red potrf potrs opS opP s T kappa mo F FR w mu (represents_fits _ _ _ _ Rep)). exact E.
Qed.

Theorem restarted_spaces sp sp' ord ord' ord1 ord1' junk junk' red red' potrf potrf' potrs potrs' opS opS' opP opP' s T kappa mo mu w w' ks :
  (forall t, fair (ord t)) -> (forall t, fair (ord' t)) -> (forall t, fair1 (ord1 t)) -> (forall t, fair1 (ord1' t)) ->
  (forall t, fair_red (red t)) -> (forall t, fair_red (red' t)) ->
  potrf_ok potrf -> potrf_ok potrf' -> potrs_ok potrs -> potrs_ok potrs' ->
  Forall2 (Forall2 (represents opS opP)) w ks -> Forall2 (Forall2 (represents opS' opP')) w' ks ->
  (forall r kp, In r ks -> In kp r -> physical kp) ->
  exists slope dirs dirs', restarted_at sp ord ord1 junk red potrf potrs opS opP s T kappa mo w mu = KOk (slope, dirs) /\
    restarted_at sp' ord' ord1' junk' red' potrf' potrs' opS' opP' s T kappa mo w' mu = KOk (slope, dirs') /\
    Forall3 (Forall3 same_elements) ks dirs dirs'.
Proof.
  intros F F' F1 F1' FR FR' P1 P1' P2 P2' Rep Rep' Ph.
  destruct (restarted_same ord ord' ord1 ord1' junk junk' potrf potrf' potrs potrs' opS opS' opP opP' s T kappa mo mu w w' ks
    F F' F1 F1' P1 P1' P2 P2' Rep Rep' Ph) as (slope & dirs & dirs' & E & E' & H).
  exists slope, dirs, dirs'. split; [|split; [|exact H]].
  - apply (DeviceStepProofs.restarted_refines sp ord ord1 junk red potrf potrs opS opP s T kappa mo F FR w mu (represents_fits _ _ _ _ Rep)). exact E.
  - apply (DeviceStepProofs.restarted_refines sp' ord' ord1' junk' red' potrf' potrs' opS' opP' s T kappa mo F' FR' w' mu (represents_fits _ _ _ _ Rep')). exact E'.
Qed.

Theorem conjugated_spaces sp sp' ord ord' ord1 ord1' junk junk' red red' potrf potrf' potrs potrs' opS opS' opP opP' s T kappa mo fr_old mu w w' ks :
  (forall t, fair (ord t)) -> (forall t, fair (ord' t)) -> (forall t, fair1 (ord1 t)) -> (forall t, fair1 (ord1' t)) ->
  (forall t, fair_red (red t)) -> (forall t, fair_red (red' t)) ->
  potrf_ok potrf -> potrf_ok potrf' -> potrs_ok potrs -> potrs_ok potrs' ->
  Forall2 (Forall2 (cg_pair opS opP)) w ks -> Forall2 (Forall2 (cg_pair opS' opP')) w' ks ->
  (forall r kZ, In r ks -> In kZ r -> physical (fst kZ)) ->
  exists fr slope dirs dirs', conjugated_at sp ord ord1 junk red potrf potrs opS opP s T kappa mo fr_old w mu = KOk (fr, slope, dirs) /\
    conjugated_at sp' ord' ord1' junk' red' potrf' potrs' opS' opP' s T kappa mo fr_old w' mu = KOk (fr, slope, dirs') /\
    Forall3 (Forall3 (fun kZ => same_elements (fst kZ))) ks dirs dirs'.
Proof.
  intros F F' F1 F1' FR FR' P1 P1' P2 P2' Rep Rep' Ph.
  destruct (conjugated_same ord ord' ord1 ord1' junk junk' potrf potrf' potrs potrs' opS opS' opP opP' s T kappa mo fr_old mu w w' ks
    F F' F1 F1' P1 P1' P2 P2' Rep Rep' Ph) as (fr & slope & dirs & dirs' & E & E' & H).
  exists fr, slope, dirs, dirs'. split; [|split; [|exact H]].
  - apply (DeviceStepProofs.conjugated_refines sp ord ord1 junk red potrf potrs opS opP s T kappa mo F FR fr_old w mu (cg_fits _ _ _ _ Rep)). exact E.
  - apply (DeviceStepProofs.conjugated_refines sp' ord' ord1' junk' red' potrf' potrs' opS' opP' s T kappa mo F' FR' fr_old w' mu (cg_fits _ _ _ _ Rep')). exact E'.
Qed.

Theorem trial_point_space sp ord junk heevd opS : (forall t, fair (ord t)) -> heevd_ok heevd -> never_fails heevd ->
  forall t k n m S step X eta zx ze MX ME MZ MZE,
  (1 <= n)%nat -> (1 <= m)%nat -> small n m -> small m m -> acts_as opS k n S -> hermitian n S ->
  holds n m X MX -> holds m m eta ME -> holds n m zx MZ -> holds m m ze MZE ->
  let Xt := add MX MZ step 1 in
  let Et := add ME MZE step 1 in
  hermitian m Et -> posdef m (mmul n (adj Xt) (mmul n S Xt)) ->
  exists ek Ul X', geodesic_us_at sp ord junk heevd opS t k step X eta zx ze = KOk (ek, Ul, X') /\ trial_point n m S Xt Et ek Ul X'.
Proof.
  intros F Hok NF t k n m S step X eta zx ze MX ME MZ MZE Hn Hm s1 s2 Act HS HX HE HZ HZE Xt Et Her Pos.
  destruct (geodesic_ok ord junk heevd opS F Hok t k n m S step X eta zx ze MX ME MZ MZE Hn Hm s1 s2 Act HS HX HE HZ HZE Her Pos)
    as [[_ N] | (ek & Ul & X' & E & H)]; [exfalso; exact (N NF)|].
  exists ek, Ul, X'. split; [|exact H].
  apply (geodesic_refines sp ord junk heevd opS F t k step X eta zx ze); [| | | | exact E].
  - exact (holds_rows _ _ _ _ HZ).
  - rewrite (h_rows _ _ _ _ HZ), (h_rows _ _ _ _ HX). lia.
  - exact (holds_rows _ _ _ _ HZE).
  - rewrite (h_rows _ _ _ _ HZE), (h_cols _ _ _ _ HZE). reflexivity.
Qed.

(** ** Example: a reduction that joins the rows from both ends *)
Fixpoint joined (l : list nat) : rtree := match l with [] => RZero | i :: r => RJoin (joined r) (RRow i) end.
Definition backwards : nat -> nat -> rtree := fun _ n => joined (seq 0 n).
Lemma joined_leaves l : Permutation (leaves (joined l)) l.
Proof.
  induction l as [|i l IH]; cbn; [constructor|]. rewrite IH. apply Permutation_sym, Permutation_cons_append.
Qed.
Lemma backwards_fair t : fair_red (backwards t).
Proof. intro n. apply joined_leaves. Qed.

(** a zheevd that fails for every matrix and leaves it as it is *)
Definition gives_up (n : nat) (b : buf Celt) (ld : nat) : Z * buf Celt * (nat -> R) := (1%Z, b, fun _ => 0).
Lemma gives_up_ok : heevd_ok gives_up.
Proof. constructor; [reflexivity | reflexivity | intros n b ld _ H; discriminate H]. Qed.
