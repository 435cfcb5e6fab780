(** The run in memory (MemRun.v) and the run on matrices (UsRun.v) report the same. *)
From Coq Require Import ZArith Reals Lra Psatz Arith Lia List Bool Permutation.
From Coquelicot Require Import Complex.
From Verif Require Import Arith LinAlg MVector Mpi LapackMem LapackElt LapackFacts Exchange Containers ChemPot Newton Occupation Smearing SmearingUse
  DescentProofs DescentFacts LineSearch Driver DriverInv UsRun UsRunProofs
  StepMem StepProofs StepMain StepTrial DeviceStep MemGeo MemRun SimulateRel.
From Verif Require Descent Geodesic Device DeviceStepProofs.
Import ListNotations.
Local Open Scope R_scope.

(** ** Lists of k-points *)
Lemma Forall2_diag2 {A} (P : A -> A -> Prop) (w : list (list A)) :
  (forall k, In k (concat w) -> P k k) -> Forall2 (Forall2 P) w w.
Proof.
  intros H. induction w as [|l w IH]; constructor.
  - assert (Hl : forall k, In k l -> P k k) by (intros k Hk; apply H; cbn [concat]; apply in_or_app; left; exact Hk).
    clear H IH. induction l as [|a l IH]; constructor; [apply Hl; left; reflexivity|]. apply IH. intros k Hk. apply Hl. right. exact Hk.
  - apply IH. intros k Hk. apply H. cbn [concat]. apply in_or_app. right. exact Hk.
Qed.
Lemma Forall3_app {A B D} (Q : A -> B -> D -> Prop) a b d a' b' d' : Forall3 Q a b d -> Forall3 Q a' b' d' -> Forall3 Q (a ++ a') (b ++ b') (d ++ d').
Proof. intros H H'. induction H; cbn [app]; [exact H'|constructor; assumption]. Qed.
Lemma Forall3_concat {A B D} (Q : A -> B -> D -> Prop) a b d : Forall3 (Forall3 Q) a b d -> Forall3 Q (concat a) (concat b) (concat d).
Proof. intros H. induction H; cbn [concat]; [constructor|]. apply Forall3_app; assumption. Qed.
Lemma by_key_rel {Y Z} (Q : key -> Y -> Z -> Prop) dy dz ids a b : Forall3 (Forall3 Q) ids a b ->
  forall k, In k (concat ids) -> Q k (by_key dy ids a k) (by_key dz ids b k).
Proof.
  intros H. apply Forall3_concat in H. unfold by_key. revert H.
  generalize (concat ids) as ks, (concat a) as la, (concat b) as lb. intros ks la lb H k. induction H as [|i y z ks la lb Hq H IH]; [intros []|].
  cbn [combine mfind]. intros Hin. destruct (keqb k i) eqn:E; [apply keqb_eq in E; subst; exact Hq|].
  apply IH. destruct Hin as [->|Hin]; [|exact Hin]. rewrite keqb_refl in E. discriminate.
Qed.
Lemma Forall3_map_left1 {A A' B D} (Q : A' -> B -> D -> Prop) (f : A -> A') l : forall b d,
  Forall3 Q (map f l) b d -> Forall3 (fun a => Q (f a)) l b d.
Proof. induction l as [|x l IH]; intros b d H; cbn [map] in H; inversion H; subst; constructor; [assumption|apply IH; assumption]. Qed.
Lemma Forall3_map_left {A A' B D} (Q : A' -> B -> D -> Prop) (f : A -> A') w : forall b d,
  Forall3 (Forall3 Q) (map (map f) w) b d -> Forall3 (Forall3 (fun a => Q (f a))) w b d.
Proof.
  induction w as [|l w IH]; intros b d H; cbn [map] in H; inversion H; subst; constructor; [apply Forall3_map_left1; assumption|apply IH; assumption].
Qed.

(** k-points that may throw *)
Section Throwing.
  Context {A B G : Type} (f : nat -> A -> kres B) (g : A -> option G) (Q : A -> B -> G -> Prop).
  Definition computes (a : A) : Prop := forall t, match g a with Some z => exists y, f t a = KOk y /\ Q a y z | None => f t a = KThrow end.
  Let good (a : A) : bool := match g a with Some _ => true | None => false end.
  Let P (a : A) (y : B) : Prop := exists z, g a = Some z /\ Q a y z.
  Lemma kmap_throwing l : (forall a, In a l -> computes a) -> forall t,
    if forallb good l then exists ys, kmap f t l = KOk ys /\ Forall2 P l ys else kmap f t l = KThrow.
  Proof.
    induction l as [|a l IH]; intros H t; cbn [forallb kmap]; [exists []; split; [reflexivity|constructor]|].
    pose proof (H a (or_introl eq_refl) t) as Ha. unfold good at 1. destruct (g a) as [z|] eqn:Eg; [|rewrite Ha; reflexivity].
    destruct Ha as (y & E & Hq). rewrite E. cbn [kbind andb].
    pose proof (IH (fun b Hb => H b (or_intror Hb)) (t + 32)%nat) as Hl. destruct (forallb good l); [|rewrite Hl; reflexivity].
    destruct Hl as (ys & -> & HF). exists (y :: ys). split; [reflexivity|]. constructor; [exists z; split; assumption|exact HF].
  Qed.
  Lemma kmap2_throwing w : (forall a, In a (concat w) -> computes a) -> forall t,
    if forallb good (concat w) then exists ys, kmap2 f t w = KOk ys /\ Forall2 (Forall2 P) w ys else kmap2 f t w = KThrow.
  Proof.
    induction w as [|l w IH]; intros H t; cbn [concat kmap2]; [exists []; split; [reflexivity|constructor]|].
    rewrite forallb_app. pose proof (kmap_throwing l (fun a Ha => H a (in_or_app _ _ _ (or_introl Ha))) t) as Hl.
    destruct (forallb good l); cbn [andb]; [|rewrite Hl; reflexivity]. destruct Hl as (y & -> & HF). cbn [kbind].
    pose proof (IH (fun b Hb => H b (in_or_app _ _ _ (or_intror Hb))) (t + 32 * length l)%nat) as Hw.
    destruct (forallb good (concat w)); [|rewrite Hw; reflexivity]. destruct Hw as (ys & -> & HF2).
    exists (y :: ys). split; [reflexivity|]. constructor; assumption.
  Qed.
End Throwing.

(** ** Specification vocabulary: what memory holds *)
Section Hold.
  Context (C : setting).
  (** the n x m matrices [X] of all k-points are in the views [v]; the m x m matrices; the vectors *)
  Definition tall (X : key -> mat) (v : key -> view Celt) : Prop := forall k, In k (concat (ranks C)) -> holds (nrow C k) (ncol C k) (v k) (X k).
  Definition square (X : key -> mat) (v : key -> view Celt) : Prop := forall k, In k (concat (ranks C)) -> holds (ncol C k) (ncol C k) (v k) (X k).
  Definition bands (x : key -> nat -> R) (v : key -> rvec) : Prop := forall k, In k (concat (ranks C)) -> holds_vec (ncol C k) (v k) (x k).
  (** the kernels succeeded, and their results are the views *)
  Definition made (v : key -> kres (view Celt)) (u : key -> view Celt) : Prop := forall k, In k (concat (ranks C)) -> v k = KOk (u k).

  (** the memory of the run [t] holds the state [s] of the run on matrices *)
  Record mem_holds {En : Type} (s : ust En) (t : mst En) : Prop := MkMemHolds {
    mh_en : m_en t = s_en s; mh_X : tall (s_X s) (m_X t); mh_fn : bands (s_fn s) (m_fn t); mh_HX : tall (s_HX s) (m_HX t);
    mh_ek : bands (s_ek s) (m_ek t); mh_etot : m_etot t = s_etot s; mh_mu : m_mu t = s_mu s; mh_S : m_S t = s_S s; mh_F : m_F t = s_F s
  }.
  (** the caller's functional does to memory what [ecompute] does to matrices *)
  Definition computes_functional {En Ex : Type}
    (mcompute : En -> (key -> view Celt) -> (key -> rvec) -> ((R * (key -> view Celt) * (key -> rvec)) + Ex) * En)
    (ecompute : En -> (key -> mat) -> (key -> nat -> R) -> ((R * (key -> mat) * (key -> nat -> R)) + Ex) * En) : Prop :=
    forall en X fn v f, tall X v -> bands fn f ->
      snd (mcompute en v f) = snd (ecompute en X fn) /\
      match fst (ecompute en X fn), fst (mcompute en v f) with
      | inl (e, HX, ek), inl (e', hx, h) => e' = e /\ tall HX hx /\ bands ek h
      | inr x, inr y => y = x
      | _, _ => False
      end.
End Hold.

Section Run.
  Notation V := (ev Celt).
  Context (sp : space).
  Context (ord : phase -> nat -> nat -> orders) (ord1 : phase -> nat -> nat -> nat -> list nat) (junk : phase -> nat -> nat -> nat -> V)
          (red : phase -> nat -> nat -> nat -> rtree)
          (ordk : nat -> key -> orders) (ord1k : nat -> key -> nat -> list nat) (junkk : nat -> key -> nat -> V).
  Context (heevd : nat -> buf Celt -> nat -> Z * buf Celt * (nat -> R)) (potrf : nat -> buf Celt -> nat -> Z * buf Celt)
          (potrs : nat -> nat -> buf Celt -> nat -> buf Celt -> nat -> Z * buf Celt).
  Context (opS opP : operator_fn Celt).
  Context (En Ex : Type).
  Context (mcompute : En -> (key -> view Celt) -> (key -> rvec) -> ((R * (key -> view Celt) * (key -> rvec)) + Ex) * En).
  Context (C : setting).
  (** the run on matrices *)
  Context (solve : nat -> mat -> mat -> mat) (meigh : nat -> mat -> option (mat * (nat -> R))).
  Context (ecompute : En -> (key -> mat) -> (key -> nat -> R) -> ((R * (key -> mat) * (key -> nat -> R)) + Ex) * En).
  Context (mjunk : key -> mat).
  Notation Pm := (mem_problem sp ord ord1 junk red ordk ord1k junkk heevd potrf potrs opS opP En Ex mcompute C).
  Notation Pu := (us_problem solve meigh En Ex ecompute C mjunk).
  Notation keys := (concat (ranks C)).

  (** What is assumed of the machine, of LAPACK and of the calling program. *)
  Record machine_ok : Prop := MkMachine {
    mo_ord : forall ph n t, fair (ord ph n t); mo_ord1 : forall ph n t, fair1 (ord1 ph n t); mo_red : forall ph n t, fair_red (red ph n t);
    mo_ordk : forall n k, fair (ordk n k); mo_ord1k : forall n k, fair1 (ord1k n k);
    mo_heevd : heevd_is heevd meigh;
    (** on a device failures of the eigensolver are not noticed *)
    mo_space : sp = Device.SHost \/ forall n M, meigh n M <> None;
    mo_potrf : potrf_ok potrf; mo_potrs : potrs_ok potrs;
    mo_size : forall k, In k keys -> (1 <= nrow C k)%nat /\ (1 <= ncol C k)%nat /\ small (nrow C k) (ncol C k) /\ small (ncol C k) (ncol C k);
    mo_S : forall k, In k keys -> acts_as opS k (nrow C k) (ovl C k);
    mo_P : forall k, In k keys -> acts_as opP k (nrow C k) (prc C k);
    mo_functional : computes_functional C mcompute ecompute
  }.
  Hypothesis Hmo : machine_ok.
  Hypothesis Hsys : system_ok solve meigh En Ex ecompute C.

  (** *** Smearing *)
  Lemma world_eq ek v : bands C ek v -> mem_world C v = band_world C ek.
  Proof.
    intros H. unfold mem_world, band_world. apply map_ext_in. intros r Hr. f_equal. apply map_ext_in. intros k Hk. f_equal.
    destruct (H k) as (E1 & E2); [apply in_concat; exists r; split; assumption|]. unfold elements. rewrite E1.
    apply map_ext_in. intros i Hi. apply in_seq in Hi. apply E2. lia.
  Qed.
  Lemma mu_eq ek v : bands C ek v -> mem_mu C v = us_mu C ek.
  Proof. intros H. unfold mem_mu, us_mu. rewrite (world_eq _ _ H). reflexivity. Qed.
  Lemma entropy_eq ek v mu : bands C ek v -> mem_entropy C v mu = us_entropy C ek mu.
  Proof. intros H. unfold mem_entropy, us_entropy. rewrite (world_eq _ _ H). reflexivity. Qed.
  Lemma fn_bands ek v mu : bands C ek v -> bands C (us_fn C ek mu) (mem_fn C v mu).
  Proof. intros H k Hk. destruct (H k Hk) as (E1 & E2). split; [exact E1|]. intros i Hi. cbn [mem_fn snd]. unfold us_fn. rewrite (E2 i Hi). reflexivity. Qed.

  (** *** class FreeEnergy *)
  Lemma store_rel s t X v : mem_holds C s t -> tall C X v ->
    exists vs, store_views ord En C t v = KOk vs /\ tall C X (fun k => by_key (m_X t k) (ranks C) vs k).
  Proof.
    intros Hs Hv. unfold store_views.
    match goal with |- context [kmap2 ?f 0 (ranks C)] =>
      destruct (kmap2_ok f (fun k y => holds (nrow C k) (ncol C k) y (X k)) (ranks C) (ranks C)) with (t := 0%nat) as (vs & E & HF) end.
    { apply Forall2_diag2. intros k Hk u. destruct (mo_size Hmo k Hk) as (H1 & H2 & H3 & H4).
      pose proof (Hv k Hk) as Hx. rewrite (h_rows _ _ _ _ Hx), (h_cols _ _ _ _ Hx).
      destruct (k_deep_copy (ord PStore (m_tick t) u) _ _ (alloc Celt (nrow C k) (ncol C k) true) (v k) _ _ (mo_ord Hmo _ _ _) (zeros_holds _ _ H1 H3) Hx) as (xh & E1 & Hxh).
      rewrite (h_rows _ _ _ _ Hx), (h_cols _ _ _ _ Hx) in E1. rewrite E1. cbn [kbind].
      exact (k_deep_copy (ord PStore (m_tick t) (u + 1)%nat) _ _ (m_X t k) xh _ _ (mo_ord Hmo _ _ _) (mh_X _ _ _ Hs k Hk) Hxh). }
    exists vs. split; [exact E|]. intros k Hk. exact (by_key_spec _ (m_X t k) _ _ HF k Hk).
  Qed.

  Definition same_failure (o : option Ex) (p : option (mem_exn Ex)) : Prop :=
    match o, p with None, None => True | Some x, Some y => y = MEnergyFail x | _, _ => False end.
  Lemma compute0_rel s t : mem_holds C s t ->
    mem_holds C (snd (fe_compute0 En Ex ecompute s)) (snd (mem_compute0 En Ex mcompute t)) /\
    same_failure (fst (fe_compute0 En Ex ecompute s)) (fst (mem_compute0 En Ex mcompute t)).
  Proof.
    intros Hs. unfold fe_compute0, mem_compute0. rewrite (mh_en _ _ _ Hs).
    pose proof (mo_functional Hmo (s_en s) (s_X s) (s_fn s) (m_X t) (m_fn t) (mh_X _ _ _ Hs) (mh_fn _ _ _ Hs)) as (Hen & Hr).
    destruct (ecompute (s_en s) (s_X s) (s_fn s)) as [[[[e HX] ek]|x] en], (mcompute (s_en s) (m_X t) (m_fn t)) as [[[[e' hx] h]|y] en'];
      cbn [fst snd] in *; try contradiction; destruct Hs as [I1 I2 I3 I4 I5 I6 I7 I8 I9].
    - destruct Hr as (-> & Hh & Hb). split; [constructor; cbn; assumption || reflexivity|exact Logic.I].
    - subst. split; [constructor; cbn; assumption || reflexivity|reflexivity].
  Qed.
  Lemma compute_rel s t X v fn f ek e mu : mem_holds C s t -> tall C X v -> bands C fn f -> bands C ek e ->
    mem_holds C (snd (fe_compute En Ex ecompute C s X fn ek mu)) (snd (mem_compute ord En Ex mcompute C t v f e mu)) /\
    same_failure (fst (fe_compute En Ex ecompute C s X fn ek mu)) (fst (mem_compute ord En Ex mcompute C t v f e mu)).
  Proof.
    intros Hs Hv Hf He. unfold fe_compute, mem_compute. destruct (store_rel s t X v Hs Hv) as (vs & E & Hm). rewrite E. cbn [outcome_of].
    set (mx := fun k => by_key (m_X t k) (ranks C) vs k) in *. rewrite (mh_en _ _ _ Hs). rewrite (entropy_eq _ _ mu He).
    pose proof (mo_functional Hmo (s_en s) X fn mx f Hm Hf) as (Hen & Hr).
    destruct (ecompute (s_en s) X fn) as [[[[e0 HX] h0]|x] en], (mcompute (s_en s) mx f) as [[[[e' hx] h]|y] en'];
      cbn [fst snd] in *; try contradiction; destruct Hs as [I1 I2 I3 I4 I5 I6 I7 I8 I9].
    - destruct Hr as (-> & Hh & Hb). split; [constructor; cbn; assumption || reflexivity|exact Logic.I].
    - subst. split; [constructor; cbn; assumption || reflexivity|reflexivity].
  Qed.

  (** *** Copies and eta *)
  Lemma copy_rel (o : key -> orders) (j : key -> nat -> V) X v : (forall k, fair (o k)) -> tall C X v ->
    exists u, made C (fun k => copy_view (o k) (j k) (v k)) u /\ tall C X u.
  Proof.
    intros Ho Hv. exists (fun k => match copy_view (o k) (j k) (v k) with KOk w => w | _ => v k end).
    assert (H : forall k, In k keys -> exists w, copy_view (o k) (j k) (v k) = KOk w /\ holds (nrow C k) (ncol C k) w (X k)).
    { intros k Hk. destruct (mo_size Hmo k Hk) as (H1 & H2 & H3 & H4). unfold copy_view.
      exact (k_deep_copy (o k) _ _ _ (v k) _ _ (Ho k) (empty_like_holds _ _ _ _ (j k) H1 H3 (Hv k Hk)) (Hv k Hk)). }
    split; intros k Hk; destruct (H k Hk) as (w & E & Hw); rewrite E; [reflexivity|exact Hw].
  Qed.
  Lemma eta_rel (o : key -> nat -> list nat) ek e : (forall k, fair1 (o k)) -> bands C ek e ->
    exists u, made C (fun k => eta_view (o k) (e k)) u /\ square C (fun k => Descent.make_diag (ek k)) u.
  Proof.
    intros Ho He. exists (fun k => match eta_view (o k) (e k) with KOk w => w | _ => no_view end).
    assert (H : forall k, In k keys -> exists w, eta_view (o k) (e k) = KOk w /\ holds (ncol C k) (ncol C k) w (Descent.make_diag (ek k))).
    { intros k Hk. destruct (mo_size Hmo k Hk) as (H1 & H2 & H3 & H4). exact (g_make_diag (o k) _ _ _ (Ho k) H2 H4 (He k Hk)). }
    split; intros k Hk; destruct (H k Hk) as (w & E & Hw); rewrite E; [reflexivity|exact Hw].
  Qed.

  (** *** Loop variables *)
  (** the point and what belongs to it; the directions *)
  Record point_held (d : udat) (e : mdat) : Prop := MkPoint {
    ph_X : tall C (u_X d) (d_X e); ph_ek : bands C (u_ek d) (d_ek e); ph_fn : bands C (u_fn d) (d_fn e);
    ph_HX : exists u, made C (d_HX e) u /\ tall C (u_HX d) u; ph_mu : d_mu e = u_mu d;
    ph_eta : exists u, made C (d_eta e) u /\ square C (u_eta d) u
  }.
  Definition dirs_held (d : udat) (e : mdat) : Prop := tall C (u_zx d) (d_zx e) /\ square C (u_zeta d) (d_zeta e).
  Definition RJ (s : ust En) (t : mst En) : Prop := mem_holds C s t /\ Jr En C s.
  Definition RI (d : udat) (e : mdat) : Prop := point_held d e /\ dirs_held d e /\ Ir C d.
  Definition RB (d : udat) (e : mdat) (s : ust En) (t : mst En) : Prop :=
    point_held d e /\ dirs_held d e /\ square C (u_ul d) (d_ul e) /\ Br En Ex ecompute C d s.
  Definition RK (p : upnt) (q : mpnt) (s : ust En) (t : mst En) : Prop :=
    tall C (p_X p) (q_X q) /\ bands C (p_ek p) (q_ek q) /\ square C (p_ul p) (q_ul q) /\ q_mu q = p_mu p /\ forall d, Kr En Ex ecompute C d p s.
  Definition RE (x : us_exn Ex) (y : mem_exn Ex) : Prop :=
    match x with EigenFail => y = MRuntime | MuFail => y = MMuFail | EnergyFail e => y = MEnergyFail e end.

  Lemma holds_ld r c X M : holds r c X M -> (vrows X <= vs1 X)%nat.
  Proof. intros H. destruct (h_cm _ _ _ _ H) as (_ & H1 & H2). first [exact H1 | exact H2 | lia]. Qed.

  Lemma kpoint_rel d e s t k : mem_holds C s t -> point_held d e -> In k keys ->
    exists p, kpoint En C e t k = KOk p /\ represents opS opP p (kpt_of En C d s k) /\ mk_key p = k /\ DeviceStepProofs.kpoint_fits p.
  Proof.
    intros Hs [P1 P2 P3 (u & U1 & U2) P5 (u' & U3 & U4)] Hk. unfold kpoint. rewrite (U3 k Hk), (U1 k Hk). cbn [kbind].
    eexists. split; [reflexivity|]. destruct (mo_size Hmo k Hk) as (H1 & H2 & H3 & H4).
    split; [|split; [reflexivity|]].
    - constructor; cbn [kpt_of Descent.kn Descent.km Descent.kX Descent.kHX Descent.ke Descent.kf Descent.kh Descent.kw Descent.kS Descent.kP mk_key mk_x mk_hx mk_e mk_f mk_h mk_wk].
      + exact H1.
      + exact H2.
      + exact H3.
      + exact H4.
      + exact (P1 k Hk).
      + exact (U2 k Hk).
      + exact (P2 k Hk).
      + exact (P3 k Hk).
      + exact (mh_ek _ _ _ Hs k Hk).
      + reflexivity.
      + exact (mo_S Hmo k Hk).
      + exact (mo_P Hmo k Hk).
    - split; cbn [mk_hx mk_x].
      + exact (holds_ld _ _ _ _ (U2 k Hk)).
      + rewrite (h_rows _ _ _ _ (U2 k Hk)), (h_rows _ _ _ _ (P1 k Hk)). apply le_n.
  Qed.

  (** *** Directions *)
  Notation steepm := (mem_steepest sp ord ord1 junk red potrf potrs opS opP En Ex C).
  Notation conjm := (mem_conj sp ord ord1 junk red potrf potrs opS opP En Ex C).
  Definition with_dirs (d : udat) (z : list (list (mat * mat))) : udat :=
    let zk := by_key (mzero, mzero) (ranks C) z in
    MkUdat (u_X d) (u_ek d) (u_fn d) (u_HX d) (u_mu d) (u_eta d) (fun k => fst (zk k)) (fun k => snd (zk k)) (u_ul d).
  Lemma with_dirs_rel d e z zs : point_held d e ->
    Forall3 (Forall3 (fun k v Z => holds (nrow C k) (ncol C k) (fst v) (fst Z) /\ holds (ncol C k) (ncol C k) (snd v) (snd Z))) (ranks C) zs z ->
    point_held (with_dirs d z) (with_directions C e zs) /\ dirs_held (with_dirs d z) (with_directions C e zs).
  Proof.
    intros [P1 P2 P3 P4 P5 P6] H. split; [constructor; assumption|].
    pose proof (by_key_rel _ (no_view, no_view) (mzero, mzero) _ _ _ H) as Hk.
    split; intros k Hi; apply (Hk k Hi).
  Qed.

  Lemma in_ranks {Y} (f : key -> Y) (P : Y -> Prop) : (forall k, In k keys -> P (f k)) ->
    forall r y, In r (map (map f) (ranks C)) -> In y r -> P y.
  Proof. exact (in_world C f P). Qed.
  Lemma Forall2_in_left {A B} (P : A -> B -> Prop) w v : Forall2 (Forall2 P) w v -> forall l a, In l w -> In a l -> exists b, P a b.
  Proof.
    intros H l a Hl Ha. apply forall2_concat in H. assert (Hin : In a (concat w)) by (apply in_concat; exists l; split; assumption).
    revert Hin. clear Hl Ha. induction H as [|x y w' v' Hp H IH]; [intros []|]. intros [<-|Hin]; [exists y; exact Hp|exact (IH Hin)].
  Qed.

  Lemma steep_held d e s t : mem_holds C s t -> point_held d e -> Br En Ex ecompute C d s ->
    exists sl z zs, us_steepest solve En Ex C d s = inl (sl, with_dirs d z) /\ steepm e t = inl (sl, with_directions C e zs) /\
      point_held (with_dirs d z) (with_directions C e zs) /\ dirs_held (with_dirs d z) (with_directions C e zs).
  Proof.
    intros Hs Hp HB. unfold us_steepest, mem_steepest.
    destruct (kmap2_ok (fun (_ : nat) k => kpoint En C e t k) (fun k p => represents opS opP p (kpt_of En C d s k) /\ DeviceStepProofs.kpoint_fits p) (ranks C) (ranks C)) with (t := 0%nat) as (w & E & HF).
    { apply Forall2_diag2. intros k Hk _. destruct (kpoint_rel d e s t k Hs Hp Hk) as (p & E & H1 & _ & H2). exists p. split; [exact E|split; assumption]. }
    rewrite E. cbn [kbind].
    assert (HW : Forall2 (Forall2 (represents opS opP)) w (map (map (kpt_of En C d s)) (ranks C))).
    { apply Forall2_map2_r, Forall2_flip2. apply (Forall2_impl2 _ _ _ _ (fun a b H => proj1 H) HF). }
    destruct (StepMain.restarted_refines (ord PSteepest (m_tick t)) (ord1 PSteepest (m_tick t)) (junk PSteepest (m_tick t)) potrf potrs opS opP
                (smt C) (temp C) (kappa_ C) (occ_ C) solve (mo_ord Hmo _ _) (mo_ord1 Hmo _ _) (mo_potrf Hmo) (mo_potrs Hmo) (u_mu d) w _ HW) as (sl & dirs & E1 & E2 & E3).
    { apply in_ranks. intros k Hk. exact (systems_ok_of _ _ _ _ _ _ Hsys d s k HB Hk). }
    assert (E4 : restarted_at sp (ord PSteepest (m_tick t)) (ord1 PSteepest (m_tick t)) (junk PSteepest (m_tick t)) (red PSteepest (m_tick t))
                   potrf potrs opS opP (smt C) (temp C) (kappa_ C) (occ_ C) w (u_mu d) = KOk (sl, dirs)).
    { apply (DeviceStepProofs.restarted_refines sp _ _ _ (red PSteepest (m_tick t)) _ _ _ _ _ _ _ _ (mo_ord Hmo _ _) (mo_red Hmo _ _)); [|exact E1].
      intros l k Hl Hk. destruct (Forall2_in_left _ _ _ (Forall2_flip2 _ _ _ HF) l k Hl Hk) as (kk & _ & H). exact H. }
    rewrite (ph_mu _ _ Hp). rewrite E4. cbn [kbind outcome_of fst snd].
    destruct (Descent.restarted solve (smt C) (temp C) (kappa_ C) (occ_ C) (map (map (kpt_of En C d s)) (ranks C)) (u_mu d)) as [sl' z]. cbn [fst snd] in E2, E3. subst sl'.
    exists sl, z, dirs. split; [reflexivity|]. split; [reflexivity|]. apply with_dirs_rel; [exact Hp|].
    apply Forall3_map_left in E3. exact E3.
  Qed.

  Lemma conj_held fr d e s t : mem_holds C s t -> point_held d e -> dirs_held d e -> square C (u_ul d) (d_ul e) -> Br En Ex ecompute C d s ->
    exists fr' sl z zs, us_conj solve En Ex C fr d s = inl (fr', sl, with_dirs d z) /\ conjm fr e t = inl (fr', sl, with_directions C e zs) /\
      point_held (with_dirs d z) (with_directions C e zs) /\ dirs_held (with_dirs d z) (with_directions C e zs).
  Proof.
    intros Hs Hp (Hzx & Hze) Hul HB. unfold us_conj, mem_conj.
    set (kZ := fun k => (kpt_of En C d s k, (u_zx d k, u_zeta d k, u_ul d k))).
    match goal with |- context [kmap2 ?f 0 (ranks C)] =>
      destruct (kmap2_ok f (fun k p => cg_pair opS opP p (kZ k) /\ snd p = (d_zx e k, d_zeta e k, d_ul e k) /\ DeviceStepProofs.kpoint_fits (fst p) /\ In k keys /\ mk_x (fst p) = d_X e k) (ranks C) (ranks C))
        with (t := 0%nat) as (w & E & HF) end.
    { apply Forall2_diag2. intros k Hk _. destruct (kpoint_rel d e s t k Hs Hp Hk) as (p & E & H1 & _ & H2). rewrite E. cbn [kbind].
      eexists. split; [reflexivity|]. cbn [fst snd]. split; [|split; [reflexivity|split; [exact H2|split; [exact Hk|]]]].
      - split; [exact H1|]. cbn [kZ prev_held fst snd kpt_of Descent.kn Descent.km].
        split; [exact (Hzx k Hk)|]. split; [exact (Hze k Hk)|exact (Hul k Hk)].
      - unfold kpoint in E. destruct Hp as [P1 P2 P3 (u & U1 & U2) P5 (u' & U3 & U4)]. rewrite (U3 k Hk), (U1 k Hk) in E. cbn [kbind] in E.
        injection E as <-. reflexivity. }
    rewrite E. cbn [kbind].
    assert (HW : Forall2 (Forall2 (cg_pair opS opP)) w (map (map kZ) (ranks C))).
    { apply Forall2_map2_r, Forall2_flip2. apply (Forall2_impl2 _ _ _ _ (fun a b H => proj1 H) HF). }
    destruct (StepMain.conjugated_refines (ord PConj (m_tick t)) (ord1 PConj (m_tick t)) (junk PConj (m_tick t)) potrf potrs opS opP
                (smt C) (temp C) (kappa_ C) (occ_ C) solve (mo_ord Hmo _ _) (mo_ord1 Hmo _ _) (mo_potrf Hmo) (mo_potrs Hmo) fr (u_mu d) w _ HW) as (fr' & sl & dirs & E1 & E2 & E3).
    { intros r kz Hr Hz. revert kz Hz. intros kz Hz. pose proof (in_ranks kZ (fun y => systems_ok solve (fst y))) as Hin.
      refine (Hin _ r kz Hr Hz). intros k Hk. exact (systems_ok_of _ _ _ _ _ _ Hsys d s k HB Hk). }
    assert (E4 : conjugated_at sp (ord PConj (m_tick t)) (ord1 PConj (m_tick t)) (junk PConj (m_tick t)) (red PConj (m_tick t))
                   potrf potrs opS opP (smt C) (temp C) (kappa_ C) (occ_ C) fr w (u_mu d) = KOk (fr', sl, dirs)).
    { apply (DeviceStepProofs.conjugated_refines sp _ _ _ (red PConj (m_tick t)) _ _ _ _ _ _ _ _ (mo_ord Hmo _ _) (mo_red Hmo _ _)); [|exact E1].
      intros l k zx ze ul Hl Hk. destruct (Forall2_in_left _ _ _ (Forall2_flip2 _ _ _ HF) l _ Hl Hk) as (kk & _ & Ez & Hfit & Hkk & Ex_).
      cbn [fst snd] in Ez, Hfit, Ex_. injection Ez as -> -> ->. split; [exact Hfit|]. rewrite Ex_.
      rewrite (h_rows _ _ _ _ (ph_X _ _ Hp kk Hkk)), (h_cols _ _ _ _ (ph_X _ _ Hp kk Hkk)), (h_rows _ _ _ _ (Hzx kk Hkk)), (h_cols _ _ _ _ (Hul kk Hkk)).
      split; apply le_n. }
    rewrite (ph_mu _ _ Hp). rewrite E4. cbn [kbind outcome_of fst snd].
    change (map (map (fun k => (kpt_of En C d s k, (u_zx d k, u_zeta d k, u_ul d k)))) (ranks C)) with (map (map kZ) (ranks C)).
    destruct (Descent.conjugated solve (smt C) (temp C) (kappa_ C) (occ_ C) fr (map (map kZ) (ranks C)) (u_mu d)) as [[FR SL] z]. cbn [fst snd] in E2, E3.
    injection E2 as -> ->. exists FR, SL, z, dirs. split; [reflexivity|]. split; [reflexivity|]. apply with_dirs_rel; [exact Hp|].
    apply Forall3_map_left in E3. exact E3.
  Qed.

  (** *** Trial points *)
  Notation geom := (mem_geo sp ord junk heevd opS En).
  Lemma geo_rel d e x t k u : point_held d e -> dirs_held d e -> In k keys ->
    match geo meigh C d x k with
    | Some (ek, U, Y) => exists r, geom e x t u k = KOk r /\ holds_vec (ncol C k) (fst (fst r)) ek /\ holds (ncol C k) (ncol C k) (snd (fst r)) U /\
        holds (nrow C k) (ncol C k) (snd r) Y
    | None => geom e x t u k = KThrow
    end.
  Proof.
    intros Hp (Hzx & Hze) Hk. unfold mem_geo, geo. destruct (ph_eta _ _ Hp) as (v & V1 & V2). rewrite (V1 k Hk). cbn [kbind].
    destruct (mo_size Hmo k Hk) as (H1 & H2 & H3 & H4).
    pose proof (g_geodesic (ord PTrial (m_tick t)) (junk PTrial (m_tick t)) heevd meigh opS (mo_ord Hmo _ _) (mo_heevd Hmo) u k _ _ _ x _ _ _ _ _ _ _ _ H1 H2 H3 H4
                  (mo_S Hmo k Hk) (ph_X _ _ Hp k Hk) (V2 k Hk) (Hzx k Hk) (Hze k Hk)) as Hg.
    destruct (Geodesic.geodesic_us meigh (nrow C k) (ncol C k) (u_X d k) (u_eta d k) (u_zx d k) (u_zeta d k) (ovl C k) x) as [[[ek U] Y]|] eqn:Eg.
    - destruct Hg as (ek' & Ul & X' & E & G1 & G2 & G3). exists (ek', Ul, X'). split; [|split; [exact G1|split; [exact G2|exact G3]]].
      apply (DeviceStepProofs.geodesic_refines sp _ _ _ _ (mo_ord Hmo _ _)); [exact (holds_ld _ _ _ _ (Hzx k Hk))| |exact (holds_ld _ _ _ _ (Hze k Hk))| |exact E].
      + rewrite (h_rows _ _ _ _ (Hzx k Hk)), (h_rows _ _ _ _ (ph_X _ _ Hp k Hk)). apply le_n.
      + rewrite (h_rows _ _ _ _ (Hze k Hk)), (h_cols _ _ _ _ (Hze k Hk)). reflexivity.
    - destruct (mo_space Hmo) as [->|Hnf]; [rewrite DeviceStepProofs.host_geodesic; exact Hg|]. exfalso.
      unfold Geodesic.geodesic_us in Eg. destruct (meigh (ncol C k) _) as [[U ek]|] eqn:E1 in Eg; [|exact (Hnf _ _ E1)].
      unfold Geodesic.advance_x, Geodesic.loewdin in Eg. destruct (meigh (ncol C k) _) as [[U' ek']|] eqn:E2 in Eg; [discriminate|exact (Hnf _ _ E2)].
  Qed.

  Notation curvem := (mem_curve sp ord junk heevd opS En Ex mcompute C).
  Notation curveu := (us_curve meigh En Ex ecompute C).
  Lemma add_log_holds s t l : mem_holds C s t -> mem_holds C (add_log En s l) t.
  Proof. intros [I1 I2 I3 I4 I5 I6 I7 I8 I9]. constructor; assumption. Qed.

  Lemma curve_held d e x s t : RI d e -> RJ s t ->
    RJ (snd (curveu d x s)) (snd (curvem e x t)) /\
    rsum_ (fun p q => RK p q (snd (curveu d x s)) (snd (curvem e x t))) RE (fst (curveu d x s)) (fst (curvem e x t)).
  Proof.
    intros (Hp & Hd & HI) (Hs & HJ).
    pose proof (curve_inv _ _ _ _ _ _ Hsys d x s (fst (curveu d x s)) (snd (curveu d x s)) HI HJ (surjective_pairing _)) as (HJ' & HK).
    assert (HK' : forall p, fst (curveu d x s) = inl p -> forall d', Kr En Ex ecompute C d' p (snd (curveu d x s))) by (intros p Ep d'; exact (HK p Ep)).
    clear HK. revert HJ' HK'. unfold us_curve, mem_curve. cbv zeta.
    pose proof (add_log_holds s t (map (geo_call meigh C d x) keys) Hs) as Hs1.
    set (s1 := add_log En s (map (geo_call meigh C d x) keys)) in *.
    pose proof (kmap2_throwing (geom e x t) (geo meigh C d x)
      (fun k r g => holds_vec (ncol C k) (fst (fst r)) (fst (fst g)) /\ holds (ncol C k) (ncol C k) (snd (fst r)) (snd (fst g)) /\ holds (nrow C k) (ncol C k) (snd r) (snd g))
      (ranks C)) as HG.
    assert (HC : forall k, In k keys -> computes (geom e x t) (geo meigh C d x)
      (fun k r g => holds_vec (ncol C k) (fst (fst r)) (fst (fst g)) /\ holds (ncol C k) (ncol C k) (snd (fst r)) (snd (fst g)) /\ holds (nrow C k) (ncol C k) (snd r) (snd g)) k).
    { intros k Hk u. pose proof (geo_rel d e x t k u Hp Hd Hk) as Hg. destruct (geo meigh C d x k) as [[[ek U] Y]|]; exact Hg. }
    specialize (HG HC 0%nat). clear HC.
    destruct (forallb _ keys).
    2:{ rewrite HG. intros HJ' _. cbn [outcome_of fst snd rsum_ RE] in *. split; [split; [exact Hs1|exact HJ']|reflexivity]. }
    destruct HG as (r & E & HF). rewrite E. cbn [outcome_of].
    pose proof (by_key_spec _ ((0%nat, fun _ => 0), no_view, no_view) _ _ HF) as Hr.
    set (p := by_key ((0%nat, fun _ => 0), no_view, no_view) (ranks C) r) in *.
    set (EK := fun k => match geo meigh C d x k with Some (e0, _, _) => e0 | None => fun _ => 0 end).
    set (UL := fun k => match geo meigh C d x k with Some (_, u, _) => u | None => mzero end).
    set (XN := fun k => match geo meigh C d x k with Some (_, _, x0) => x0 | None => mzero end).
    assert (B1 : bands C EK (fun k => fst (fst (p k)))).
    { intros k Hk. destruct (Hr k Hk) as (g & Eg & Q1 & Q2 & Q3). unfold EK. rewrite Eg. destruct g as [[g1 g2] g3]. exact Q1. }
    assert (B2 : square C UL (fun k => snd (fst (p k)))).
    { intros k Hk. destruct (Hr k Hk) as (g & Eg & Q1 & Q2 & Q3). unfold UL. rewrite Eg. destruct g as [[g1 g2] g3]. exact Q2. }
    assert (B3 : tall C XN (fun k => snd (p k))).
    { intros k Hk. destruct (Hr k Hk) as (g & Eg & Q1 & Q2 & Q3). unfold XN. rewrite Eg. destruct g as [[g1 g2] g3]. exact Q3. }
    rewrite (mu_eq _ _ B1). destruct (us_mu C EK) as [mu|].
    2:{ intros HJ' _. cbn [fst snd rsum_ RE] in *. split; [split; [exact Hs1|exact HJ']|reflexivity]. }
    pose proof (compute_rel s1 t XN _ (us_fn C EK mu) _ EK _ mu Hs1 B3 (fn_bands _ _ mu B1) B1) as (Hst & Hf).
    destruct (fe_compute En Ex ecompute C s1 XN (us_fn C EK mu) EK mu) as [o1 s2].
    destruct (mem_compute ord En Ex mcompute C t (fun k => snd (p k)) (mem_fn C (fun k => fst (fst (p k))) mu) (fun k => fst (fst (p k))) mu) as [o2 t2].
    cbn [fst snd] in Hst, Hf. destruct o1 as [x1|], o2 as [x2|]; cbn [same_failure] in Hf; try contradiction.
    - intros HJ' _. cbn [fst snd rsum_ RE] in *. split; [split; [exact Hst|exact HJ']|exact Hf].
    - intros HJ' HK'. cbn [fst snd rsum_] in *. split; [split; [exact Hst|exact HJ']|].
      split; [exact B3|]. split; [exact B1|]. split; [exact B2|]. split; [reflexivity|]. exact (HK' _ eq_refl).
  Qed.

  (** *** Accepting a step *)
  Lemma accept_held d e p q s t : RI d e -> RJ s t -> RK p q s t ->
    RB (us_accept En d p s) (mem_accept ordk ord1k junkk En e q t) s t.
  Proof.
    intros (Hp & Hd & HI) (Hs & HJ) (K1 & K2 & K3 & K4 & K5). unfold RB, us_accept, mem_accept.
    split; [|split; [exact Hd|split; [exact K3|]]].
    - constructor; cbn.
      + exact K1.
      + exact K2.
      + exact (mh_fn _ _ _ Hs).
      + exact (copy_rel _ _ _ _ (mo_ordk Hmo _) (mh_HX _ _ _ Hs)).
      + exact K4.
      + exact (eta_rel _ _ _ (mo_ord1k Hmo _) K2).
    - exact (inv_accept _ _ _ _ _ _ _ _ _ (run_invariants solve meigh En Ex ecompute C mjunk Hsys) d p s HI HJ (K5 d)).
  Qed.

  (** *** The relation *)
  Lemma mem_related : related_problems Rarith Pu Pm RE RJ RI RB RK.
  Proof.
    constructor.
    - intros s t (H & _). exact (eq_sym (mh_F _ _ _ H)).
    - intros s t (H & _). exact (eq_sym (mh_S _ _ _ H)).
    - intros s t (H & _). exact (eq_sym (mh_etot _ _ _ H)).
    - intros s t (H & _). exact (eq_sym (mh_mu _ _ _ H)).
    - exact curve_held.
    - exact accept_held.
    - intros d e s t (Hs & HJ) (Hp & Hd & Hul & HB). destruct (steep_held d e s t Hs Hp HB) as (sl & z & zs & E1 & E2 & H1 & H2).
      change (steepest Pu d s) with (us_steepest solve En Ex C d s). change (steepest Pm e t) with (steepm e t). rewrite E1, E2. cbn [rsum_ fst snd].
      split; [reflexivity|]. split; [exact H1|]. split; [exact H2|]. exact (proj1 (steep_inv _ _ _ _ _ _ Hsys d s sl _ HB E1)).
    - intros fr d e s t (Hs & HJ) (Hp & Hd & Hul & HB). destruct (conj_held fr d e s t Hs Hp Hd Hul HB) as (fr' & sl & z & zs & E1 & E2 & H1 & H2).
      change (conj Pu fr d s) with (us_conj solve En Ex C fr d s). change (conj Pm fr e t) with (conjm fr e t). rewrite E1, E2. cbn [rsum_ fst snd].
      destruct (conj_inv _ _ _ _ _ _ Hsys fr d s fr' sl _ HB E1) as (I1 & I2 & I3).
      split; [reflexivity|]. split; [split; [exact H1|split; [exact H2|exact I1]]|]. split; [exact H1|]. split; [exact H2|]. split; [exact Hul|exact I3].
  Qed.

  (** *** Set-up *)
  Lemma setup_held s0 t0 : s_log s0 = [] -> ortho C (s_X s0) -> mem_holds C s0 t0 ->
    RJ (snd (setup Pu s0)) (snd (setup Pm t0)) /\
    rsum_ (fun a b => snd a = snd b /\ RI (fst a) (fst b)) RE (fst (setup Pu s0)) (fst (setup Pm t0)).
  Proof.
    intros Hl HX Hs.
    change (setup Pu s0) with (us_setup solve En Ex ecompute C mjunk s0).
    change (setup Pm t0) with (mem_setup sp ord ord1 junk red ordk ord1k junkk potrf potrs opS opP En Ex mcompute C t0).
    pose proof (setup_inv solve meigh En Ex ecompute C mjunk Hsys s0 Hl HX) as HJ.
    specialize (HJ (fst (us_setup solve En Ex ecompute C mjunk s0)) (snd (us_setup solve En Ex ecompute C mjunk s0)) (surjective_pairing _)).
    destruct HJ as (HJ & _). revert HJ. unfold us_setup, mem_setup.
    pose proof (compute0_rel s0 t0 Hs) as (Hs1 & Hf1).
    destruct (fe_compute0 En Ex ecompute s0) as [o1 s1] eqn:Ef0. destruct (mem_compute0 En Ex mcompute t0) as [o2 t1]. cbn [fst snd] in Hs1, Hf1.
    destruct o1 as [x1|], o2 as [x2|]; cbn [same_failure] in Hf1; try contradiction.
    { intros HJ. cbn [fst snd rsum_ RE] in *. split; [split; assumption|exact Hf1]. }
    assert (HX1 : s_X s1 = s_X s0 /\ s_log s1 = s_log s0).
    { unfold fe_compute0 in Ef0. destruct (ecompute (s_en s0) (s_X s0) (s_fn s0)) as [[[[e0 h0] k0]|x0] en0]; injection Ef0; intros; subst; split; reflexivity || discriminate. }
    destruct HX1 as (HX1 & Hl1). cbv zeta.
    rewrite (mu_eq _ _ (mh_ek _ _ _ Hs1)). destruct (us_mu C (s_ek s1)) as [mu|] eqn:Em.
    2:{ intros HJ. cbn [fst snd rsum_ RE] in *. split; [split; assumption|reflexivity]. }
    pose proof (compute_rel s1 t1 (s_X s1) (m_X t1) (us_fn C (s_ek s1) mu) (mem_fn C (m_ek t1) mu) (s_ek s1) (m_ek t1) mu Hs1 (mh_X _ _ _ Hs1)
                  (fn_bands _ _ mu (mh_ek _ _ _ Hs1)) (mh_ek _ _ _ Hs1)) as (Hs2 & Hf2).
    destruct (fe_compute En Ex ecompute C s1 (s_X s1) (us_fn C (s_ek s1) mu) (s_ek s1) mu) as [o3 s2] eqn:Ef.
    destruct (mem_compute ord En Ex mcompute C t1 (m_X t1) (mem_fn C (m_ek t1) mu) (m_ek t1) mu) as [o4 t2]. cbn [fst snd] in Hs2, Hf2.
    destruct o3 as [x3|], o4 as [x4|]; cbn [same_failure] in Hf2; try contradiction.
    { intros HJ. cbn [fst snd rsum_ RE] in *. split; [split; assumption|exact Hf2]. }
    match goal with |- context [kmap2 ?f 0 (ranks C)] =>
      destruct (kmap2_ok f (fun k y => holds (nrow C k) (ncol C k) y (s_X s2 k)) (ranks C) (ranks C)) with (t := 0%nat) as (xs & Exs & Hxs) end.
    { apply Forall2_diag2. intros k Hk u. destruct (mo_size Hmo k Hk) as (H1 & H2 & H3 & H4). unfold copy_view.
      exact (k_deep_copy (ord PSetup (m_tick t2) u) _ _ _ (m_X t2 k) _ _ (mo_ord Hmo _ _ _)
               (empty_like_holds _ _ _ _ (junk PSetup (m_tick t2) u) H1 H3 (mh_X _ _ _ Hs2 k Hk)) (mh_X _ _ _ Hs2 k Hk)). }
    rewrite Exs. cbn [outcome_of].
    match goal with |- context [us_steepest solve En Ex C ?d ?s] => set (d0 := d) end.
    match goal with |- context [steepm ?e ?t] => set (e0 := e) end.
    assert (Hp : point_held d0 e0).
    { constructor; cbn [d0 e0 u_X u_ek u_fn u_HX u_mu u_eta d_X d_ek d_fn d_HX d_mu d_eta].
      - intros k Hk. exact (by_key_spec _ no_view _ _ Hxs k Hk).
      - exact (mh_ek _ _ _ Hs1).
      - exact (fn_bands _ _ mu (mh_ek _ _ _ Hs1)).
      - exact (copy_rel _ _ _ _ (mo_ordk Hmo _) (mh_HX _ _ _ Hs2)).
      - reflexivity.
      - exact (eta_rel _ _ _ (mo_ord1k Hmo _) (mh_ek _ _ _ Hs1)). }
    assert (HB : Br En Ex ecompute C d0 s2).
    { unfold fe_compute in Ef. destruct (ecompute (s_en s1) (s_X s1) (us_fn C (s_ek s1) mu)) as [[[[e2 hx2] ek2]|x] en2] eqn:E2; [|discriminate].
      injection Ef as <-. assert (HXs : ortho C (s_X s1)) by (rewrite HX1; exact HX). unfold Br, d0. cbn [u_X u_HX u_ek u_fn u_mu u_zeta u_eta s_ek s_X s_HX].
      split; [split; [exact HXs|intros k Hk; exact (so_H _ _ _ _ _ _ Hsys _ _ _ _ _ _ _ HXs E2 k Hk)]|]. split; [reflexivity|]. split.
      { intros k _ i j _ _. unfold adj, mzero. apply Ceq; cbn; ring. }
      split; [reflexivity|]. split; [exact Em|]. eexists _, _, _. split; [exact E2|reflexivity]. }
    destruct (steep_held d0 e0 s2 t2 Hs2 Hp HB) as (sl & z & zs & E1 & E2 & H1 & H2). rewrite E1, E2. cbn [fst snd rsum_].
    intros HJ. split; [split; assumption|]. split; [reflexivity|]. destruct H1 as [P1 P2 P3 P4 P5 P6].
    split; [constructor; assumption|]. split; [exact H2|]. exact (proj1 (steep_inv _ _ _ _ _ _ Hsys d0 s2 sl _ HB E1)).
  Qed.

  Theorem mem_run maxiter tol tau restart fq fb s0 t0 : s_log s0 = [] -> ortho C (s_X s0) -> mem_holds C s0 t0 ->
    rrun Rarith Pu Pm RE RJ (nlcg_us Rarith Pu maxiter tol tau restart fq fb s0) (nlcg_us Rarith Pm maxiter tol tau restart fq fb t0).
  Proof.
    intros Hl HX Hs. destruct (setup_held s0 t0 Hl HX Hs) as (H1 & H2).
    exact (run_rel Rarith Pu Pm RE RJ RI RB RK mem_related maxiter tol tau restart fq fb s0 t0 H1 H2).
  Qed.
End Run.
