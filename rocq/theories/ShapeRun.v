(** Memory safety of whole runs (NumRun.v) for every choice of the numbers and everything they contain. *)
From Coq Require Import ZArith Arith Lia List Bool.
From Verif Require Import Arith MVector LapackMem LapackMemProofs Exchange Containers Newton ChemPot Occupation Smearing LineSearch Driver DriverRun UsRun
  StepMem DeviceStep MemRun NumStep NumRun ShapeStep SimulateRel.
From Verif Require Device.
Import ListNotations.

(** ** Lists of k-points *)
Lemma kmap_safe {K A B} th (P : K -> A -> Prop) (Q : K -> B -> Prop) (f : nat -> A -> kres B) (ids : list K) l :
  Forall2 P ids l -> (forall t k a, In k ids -> P k a -> safe th (Q k) (f t a)) -> forall t, safe th (Forall2 Q ids) (kmap f t l).
Proof.
  induction 1 as [|k a ks l H _ IH]; intros Hf t; cbn [kmap]; [constructor|].
  eapply safe_bind; [apply Hf; [left; reflexivity|exact H]|]. intros b Hb.
  eapply safe_bind; [apply IH; intros t' k' a' Hin; apply Hf; right; exact Hin|]. intros bs Hbs. constructor; assumption.
Qed.
Lemma kmap2_safe {K A B} th (P : K -> A -> Prop) (Q : K -> B -> Prop) (f : nat -> A -> kres B) (ids : list (list K)) w :
  Forall2 (Forall2 P) ids w -> (forall t k a, In k (concat ids) -> P k a -> safe th (Q k) (f t a)) ->
  forall t, safe th (Forall2 (Forall2 Q) ids) (kmap2 f t w).
Proof.
  induction 1 as [|ks l ids w H _ IH]; intros Hf t; cbn [kmap2]; [constructor|].
  eapply safe_bind; [apply (kmap_safe th P Q f ks l H); intros t' k a Hin; apply Hf; cbn; apply in_or_app; left; exact Hin|]. intros b Hb.
  eapply safe_bind; [apply IH; intros t' k' a' Hin; apply Hf; cbn; apply in_or_app; right; exact Hin|]. intros bs Hbs. constructor; assumption.
Qed.
Lemma Forall2_same {A} (P : A -> A -> Prop) (w : list (list A)) : (forall k, P k k) -> Forall2 (Forall2 P) w w.
Proof. intros H. induction w as [|l w IH]; constructor; [|exact IH]. induction l; constructor; auto. Qed.
Lemma Forall2_map_right {K A B} (P : K -> B -> Prop) (f : A -> B) ids l : Forall2 (fun k a => P k (f a)) ids l -> Forall2 P ids (map f l).
Proof. induction 1; cbn; constructor; assumption. Qed.
Lemma Forall22_map_right {K A B} (P : K -> B -> Prop) (f : A -> B) ids w :
  Forall2 (Forall2 (fun k a => P k (f a))) ids w -> Forall2 (Forall2 P) ids (map (map f) w).
Proof. induction 1; cbn; constructor; [apply Forall2_map_right; assumption|assumption]. Qed.
Lemma Forall22_impl {K A} (P Q : K -> A -> Prop) ids w : (forall k a, P k a -> Q k a) -> Forall2 (Forall2 P) ids w -> Forall2 (Forall2 Q) ids w.
Proof.
  intros H. induction 1 as [|ks l ids w Hl _ IH]; constructor; [|exact IH]. clear -H Hl. induction Hl; constructor; auto.
Qed.
Lemma by_key_has {Y} (Q : key -> Y -> Prop) dflt ids res k : Forall2 (Forall2 Q) ids res -> In k (concat ids) -> Q k (by_key dflt ids res k).
Proof.
  intros H. assert (HF : Forall2 Q (concat ids) (concat res)).
  { induction H as [|l r ids res Hl _ IH]; cbn; [constructor|]. apply Forall2_app; assumption. }
  unfold by_key. clear H. induction HF as [|k' y ks ys Hy _ IH]; [intros []|]. intros Hin. cbn [combine mfind].
  destruct (keqb k k') eqn:Ek.
  - apply keqb_eq in Ek. subst k'. exact Hy.
  - destruct Hin as [->|Hin]; [rewrite keqb_refl in Ek; discriminate|]. apply IH. exact Hin.
Qed.

(** The search for the chemical potential ends with a value or an exception in every arithmetic. *)
Lemma mu_of_ends A Ne T occ tol skip Sg S x w :
  (exists mu, mu_of A Ne T occ tol skip Sg S x w = Ret mu) \/ (exists e, mu_of A Ne T occ tol skip Sg S x w = Throw e).
Proof.
  assert (Hf : forall S, (exists mu, find_mu A Ne T occ tol S x w = Ret mu) \/ (exists e, find_mu A Ne T occ tol S x w = Throw e)).
  { intros S0. unfold find_mu, find_chemical_potential. destruct (chem_loop _ _ _ _ _ _ _ _ _) as [[mu v] c].
    destruct (negb _); [right|left]; eexists; reflexivity. }
  unfold mu_of. destruct (_ && _)%bool; [|apply Hf]. unfold newton_mu.
  destruct (Hf Sg) as [(mu0 & ->)|(e & ->)]; [|right; eexists; reflexivity].
  match goal with |- context [newton ?a ?b ?c ?d ?e ?f ?g ?h] => destruct (newton_outcomes a b c d e f g h) as (_ & H); destruct (newton a b c d e f g h) as [o v] end.
  cbn [fst] in H. destruct H as [(mu & ->)| ->]; [left; eexists; reflexivity|apply Hf].
Qed.

Section Run.
  Context (N : numbers).
  Notation E := (nE N).
  Notation A := (nA N).
  Notation R' := (num (nA N)).
  Notation V := (ev (nE N)).
  Context (sp : space).
  Context (ord : phase -> nat -> nat -> orders) (ord1 : phase -> nat -> nat -> nat -> list nat) (junk : phase -> nat -> nat -> nat -> V)
          (red : phase -> nat -> nat -> nat -> rtree)
          (ordk : nat -> key -> orders) (ord1k : nat -> key -> nat -> list nat) (junkk : nat -> key -> nat -> V).
  Context (heevd : nat -> buf E -> nat -> Z * buf E * (nat -> R')) (potrf : nat -> buf E -> nat -> Z * buf E)
          (potrs : nat -> nat -> buf E -> nat -> buf E -> nat -> Z * buf E).
  Context (opS opP : operator_fn E).
  Context (En Ex : Type).
  Context (ncompute : En -> (key -> view E) -> (key -> nvec N) -> ((R' * (key -> view E) * (key -> nvec N)) + Ex) * En).
  Context (C : nset N).
  Context (nr nc : key -> nat).
  Notation ids := (ns_ranks C).
  Notation keys := (concat (ns_ranks C)).
  Notation P := (num_problem N sp ord ord1 junk red ordk ord1k junkk heevd potrf potrs opS opP En Ex ncompute C).
  Notation state := (nst N En).

  (** *** Specification vocabulary *)
  Definition talls (v : key -> view E) : Prop := forall k, In k keys -> shaped (nr k) (nc k) (v k).
  Definition squares (v : key -> view E) : Prop := forall k, In k keys -> shaped (nc k) (nc k) (v k).
  Definition long (v : key -> nvec N) : Prop := forall k, In k keys -> fst (v k) = nc k.
  (** What is assumed of the machine, of LAPACK and of the calling program: loops run over the index ranges of the code, sizes fit
      into int, LAPACK and the operators stay inside the memory they are given, the functional returns matrices and vectors of the
      agreed extents.  Nothing is assumed of any number. *)
  Record shapes_ok : Prop := MkShapes {
    so_ord : forall ph i t, inside (ord ph i t); so_ord1 : forall ph i t, inside1 (ord1 ph i t); so_red : forall ph i t, inside_red (red ph i t);
    so_ordk : forall i k, inside (ordk i k); so_ord1k : forall i k, inside1 (ord1k i k);
    so_heevd : heevd_stays heevd; so_potrf : potrf_stays potrf; so_potrs : potrs_stays potrs;
    so_size : forall k, In k keys -> sized (nr k) (nc k) /\ sized (nc k) (nc k);
    so_S : forall k, In k keys -> op_stays opS k (nr k); so_P : forall k, In k keys -> op_stays opP k (nr k);
    so_compute : forall en X fn, talls X -> long fn ->
      match fst (ncompute en X fn) with inl (_, hx, ek) => talls hx /\ long ek | inr _ => True end
  }.
  Hypothesis H : shapes_ok.

  (** *** Invariants *)
  Definition Js (s : state) : Prop := talls (b_X s) /\ long (b_fn s).
  Definition hams (s : state) : Prop := talls (b_HX s) /\ long (b_ek s).
  Definition makes (th : Prop) (Q : key -> view E -> Prop) (v : key -> kres (view E)) : Prop := forall k, In k keys -> safe th (Q k) (v k).
  Definition point (d : ndat N) (s : state) : Prop :=
    talls (a_X d) /\ long (a_ek d) /\ long (a_fn d) /\ makes False (fun k => shaped (nr k) (nc k)) (a_HX d) /\
    makes False (fun k => shaped (nc k) (nc k)) (a_eta d) /\ long (b_ek s).
  Definition dirs (d : ndat N) : Prop := talls (a_zx d) /\ squares (a_zeta d).
  Definition Is (d : ndat N) : Prop := talls (a_X d) /\ makes False (fun k => shaped (nc k) (nc k)) (a_eta d) /\ dirs d.
  Definition Bs (d : ndat N) (s : state) : Prop := point d s /\ dirs d /\ squares (a_ul d).
  Definition Ks (p : npnt N) (s : state) : Prop := talls (p_X p) /\ long (p_ek p) /\ squares (p_ul p) /\ hams s.
  (** exceptions of the run: no undefined behaviour, no rejected argument; std::runtime_error only of the eigensolver on the host *)
  Definition goodx (e : mem_exn Ex) : Prop :=
    match e with MUndefined | MBadArg => False | MRuntime => sp = Device.SHost | _ => True end.
  Notation RE := (fun e f : mem_exn Ex => e = f /\ goodx e).
  Notation RJ := (fun s t : state => s = t /\ Js s).
  Notation RI := (fun d e : ndat N => d = e /\ Is d).
  Notation RB := (fun (d e : ndat N) (s t : state) => d = e /\ s = t /\ Bs d s).
  Notation RK := (fun (p q : npnt N) (s t : state) => p = q /\ s = t /\ Ks p s).

  Lemma outcome_safe {B} (th : Prop) (Q : B -> Prop) r : safe th Q r -> (th -> sp = Device.SHost) ->
    match num_outcome Ex r with inl a => Q a | inr e => goodx e end.
  Proof. destruct r; cbn; intros Hs Ht; try contradiction; auto. Qed.

  (** *** class FreeEnergy *)
  Lemma copy_safe o j r c (x : view E) : inside o -> sized r c -> shaped r c x -> safe False (shaped r c) (copy_n N o j x).
  Proof. intros Ho Hs Hx. unfold copy_n. apply deep_copy_safe; [exact Ho|apply empty_shaped; assumption|exact Hx]. Qed.
  Lemma eta_safe o (e : nvec N) n : inside1 o -> sized n n -> fst e = n -> safe False (shaped n n) (eta_n N o e).
  Proof. intros Ho Hs <-. unfold eta_n. apply make_diag_safe; assumption. Qed.

  Lemma store_safe (s : state) X : talls (b_X s) -> talls X ->
    safe False (Forall2 (Forall2 (fun k => shaped (nr k) (nc k))) ids) (num_store N ord En C s X).
  Proof.
    intros HB HX. unfold num_store. apply (kmap2_safe False (fun k k' => k = k')); [apply Forall2_same; reflexivity|].
    intros t k k' Hk <-. destruct (so_size H k Hk) as (Hs & _). pose proof (HX k Hk) as Hx.
    eapply safe_bind; [apply deep_copy_safe; [apply (so_ord H)| |exact Hx]|].
    - rewrite (sh_rows _ _ _ Hx), (sh_cols _ _ _ Hx). apply alloc_shaped. exact Hs.
    - intros xh Hxh. apply deep_copy_safe; [apply (so_ord H)|exact (HB k Hk)|exact Hxh].
  Qed.
  Lemma fn_long ek mu : long ek -> long (num_fn N C ek mu).
  Proof. intros He k Hk. exact (He k Hk). Qed.
  Lemma compute_safe (s : state) X fn ek mu : Js s -> talls X -> long fn ->
    let r := num_compute N ord En Ex ncompute C s X fn ek mu in
    Js (snd r) /\ match fst r with None => hams (snd r) | Some e => goodx e end.
  Proof.
    intros (HB & HF) HX Hfn. cbv zeta. unfold num_compute. pose proof (outcome_safe False _ _ (store_safe s X HB HX) ltac:(intros [])) as Hst.
    destruct (num_outcome Ex (num_store N ord En C s X)) as [vs|e]; [|cbn; split; [split; assumption|exact Hst]].
    assert (HM : talls (fun k => by_key (b_X s k) ids vs k)).
    { intros k Hk. apply (by_key_has (fun k => shaped (nr k) (nc k)) (b_X s k) ids vs k Hst Hk). }
    pose proof (so_compute H (b_en s) _ fn HM Hfn) as Hc. cbv zeta.
    destruct (ncompute (b_en s) (fun k => by_key (b_X s k) ids vs k) fn) as [[[[e hx] hk]|x] en]; cbn in *.
    - split; [split; assumption|exact Hc].
    - split; [split; assumption|exact Logic.I].
  Qed.

  (** *** Descent directions *)
  Definition nk_ok (d : ndat N) (k : key) (p : nk N) : Prop :=
    nk_key N p = k /\ shaped (nr k) (nc k) (nk_x N p) /\ fst (nk_e N p) = nc k /\ fst (nk_f N p) = nc k /\ fst (nk_h N p) = nc k /\ shaped (nr k) (nc k) (nk_hx N p).
  Lemma kpoint_safe d s k : point d s -> In k keys -> safe False (nk_ok d k) (num_kpoint N En C d s k).
  Proof.
    intros (H1 & H2 & H3 & H4 & H5 & H6) Hk. unfold num_kpoint.
    eapply safe_bind; [exact (H5 k Hk)|]. intros e _. eapply safe_bind; [exact (H4 k Hk)|]. intros hx Hh. cbn.
    split; [reflexivity|]. split; [exact (H1 k Hk)|]. split; [exact (H2 k Hk)|]. split; [exact (H3 k Hk)|]. split; [exact (H6 k Hk)|exact Hh].
  Qed.
  Lemma dFdmu_safe Sm T mo (Q : key -> nk N -> Prop) (world : list (list (nk N))) mu :
    Forall2 (Forall2 Q) ids world -> (forall k p, Q k p -> fst (nk_h N p) = fst (nk_e N p)) ->
    safe False (fun _ => True) (dFdmu_n N Sm T mo world mu).
  Proof.
    intros HW HQ. unfold dFdmu_n. eapply safe_bind; [|intros r _; exact Logic.I].
    apply (kmap2_safe False Q (fun _ _ => True) _ ids world HW). intros t k p _ Hp.
    eapply safe_bind; [apply dFdmu_loop_safe; [lia|rewrite (HQ k p Hp); lia]|]. intros v _. exact Logic.I.
  Qed.
  Definition zs_ok (k : key) (z : view E * view E) : Prop := shaped (nr k) (nc k) (fst z) /\ shaped (nc k) (nc k) (snd z).
  Lemma restarted_safe i d (w : list (list (nk N))) mu : Forall2 (Forall2 (nk_ok d)) ids w ->
    safe False (fun r => Forall2 (Forall2 zs_ok) ids (snd r))
      (restarted_n N sp (ord PSteepest i) (ord1 PSteepest i) (junk PSteepest i) (red PSteepest i) potrf potrs opS opP
        (ns_sm C) (ns_temp C) (ns_kappa C) (ns_occ C) w mu).
  Proof.
    intros HW. unfold restarted_n.
    eapply safe_bind; [apply (dFdmu_safe _ _ _ (nk_ok d) w mu HW); intros k p (_ & _ & a & _ & b & _); congruence|]. intros dF _. cbv zeta.
    eapply safe_bind.
    - apply (kmap2_safe False (nk_ok d) (fun k r => zs_ok k (snd (fst r), snd r)) _ ids w HW). intros t k p Hk (E1 & Hx & He & Hf & _ & Hh).
      rewrite E1. destruct (so_size H k Hk) as (S1 & S2).
      eapply safe_impl; [apply (exec_restart_safe N sp) with (n := nr k) (m := nc k)|intros []|intros [[a b] c] (Q1 & Q2); split; assumption];
        try (intros; apply H); try assumption; try (apply (so_S H k Hk)); apply (so_P H k Hk).
    - intros res HR. apply Forall22_map_right. exact HR.
  Qed.
  Lemma conjugated_safe i fr (w : list (list (nk N * (view E * view E * view E)))) d mu :
    Forall2 (Forall2 (fun k q => nk_ok d k (fst q) /\ zs_ok k (fst (fst (snd q)), snd (fst (snd q))) /\ shaped (nc k) (nc k) (snd (snd q)))) ids w ->
    safe False (fun r => Forall2 (Forall2 zs_ok) ids (snd r))
      (conjugated_n N sp (ord PConj i) (ord1 PConj i) (junk PConj i) (red PConj i) potrf potrs opS opP
        (ns_sm C) (ns_temp C) (ns_kappa C) (ns_occ C) fr w mu).
  Proof.
    intros HW. unfold conjugated_n.
    eapply safe_bind.
    { apply (dFdmu_safe _ _ _ (nk_ok d) (map (map fst) w) mu); [|intros k p (_ & _ & a & _ & b & _); congruence].
      apply Forall22_map_right. eapply Forall22_impl; [|exact HW]. intros k q (Hq & _). exact Hq. }
    intros dF _. cbv zeta.
    eapply safe_bind.
    - eapply (kmap2_safe False _ (fun k r => match r with (_, dx, de, zx, ze, _) =>
          shaped (nr k) (nc k) dx /\ shaped (nc k) (nc k) de /\ shaped (nr k) (nc k) zx /\ shaped (nc k) (nc k) ze end) _ ids w HW).
      intros t k [p [[zx ze] ul]] Hk ((E1 & Hx & He & Hf & _ & Hh) & (Hz1 & Hz2) & Hul). cbn [fst snd] in *.
      rewrite E1. destruct (so_size H k Hk) as (S1 & S2).
      apply (exec_cg_safe N sp) with (n := nr k) (m := nc k); try (intros; apply H); try assumption; try (apply (so_S H k Hk)); apply (so_P H k Hk).
    - intros res HR. eapply safe_bind.
      + eapply (kmap2_safe False _ zs_ok _ ids res HR). intros t k [[[[[a dx] de] zx] ze] b] Hk (Q1 & Q2 & Q3 & Q4).
        eapply safe_impl; [apply (combine_safe N sp) with (n := nr k) (m := nc k); try assumption; intros; apply H|intros []|]. intros r Hr. exact Hr.
      + intros zs Hz. exact Hz.
  Qed.
  Lemma with_dirs_ok d z : Forall2 (Forall2 zs_ok) ids z -> dirs (num_with N C d z).
  Proof.
    intros Hz. split; intros k Hk; [exact (proj1 (by_key_has zs_ok _ ids z k Hz Hk))|exact (proj2 (by_key_has zs_ok _ ids z k Hz Hk))].
  Qed.
  Lemma steep_safe d s : point d s ->
    match num_steepest N sp ord ord1 junk red potrf potrs opS opP En Ex C d s with
    | inl r => dirs (snd r) /\ point (snd r) s /\ a_ul (snd r) = a_ul d
    | inr e => goodx e
    end.
  Proof.
    intros Hp. unfold num_steepest. apply (outcome_safe False); [|intros []].
    eapply safe_bind.
    - apply (kmap2_safe False (fun k k' => k = k') (nk_ok d)); [apply Forall2_same; reflexivity|]. intros t k k' Hk <-. apply kpoint_safe; assumption.
    - intros w HW. eapply safe_bind; [apply (restarted_safe _ d w _ HW)|]. intros r Hr. cbn.
      split; [apply with_dirs_ok; exact Hr|]. split; [exact Hp|reflexivity].
  Qed.
  Lemma conj_safe fr d s : Bs d s ->
    match num_conj N sp ord ord1 junk red potrf potrs opS opP En Ex C fr d s with
    | inl r => dirs (snd r) /\ point (snd r) s /\ a_ul (snd r) = a_ul d
    | inr e => goodx e
    end.
  Proof.
    intros (Hp & (Hz1 & Hz2) & Hu). unfold num_conj. apply (outcome_safe False); [|intros []].
    eapply safe_bind.
    - apply (kmap2_safe False (fun k k' => k = k')
        (fun k q => nk_ok d k (fst q) /\ zs_ok k (fst (fst (snd q)), snd (fst (snd q))) /\ shaped (nc k) (nc k) (snd (snd q)))); [apply Forall2_same; reflexivity|].
      intros t k k' Hk <-. eapply safe_bind; [apply kpoint_safe; eassumption|]. intros p Hq. cbn.
      split; [exact Hq|]. split; [split; [exact (Hz1 k Hk)|exact (Hz2 k Hk)]|exact (Hu k Hk)].
    - intros w HW. eapply safe_bind; [apply (conjugated_safe _ fr w d _ HW)|]. intros r Hr. cbn.
      split; [apply with_dirs_ok; exact Hr|]. split; [exact Hp|reflexivity].
  Qed.

  (** *** Trial points *)
  Lemma curve_safe d x s : Is d -> Js s ->
    let r := num_curve N sp ord junk heevd opS En Ex ncompute C d x s in
    Js (snd r) /\ match fst r with inl p => Ks p (snd r) | inr e => goodx e end.
  Proof.
    intros (HX & He & Hz1 & Hz2) HJ. cbv zeta. unfold num_curve.
    assert (Hg : match num_outcome Ex (kmap2 (num_geo N sp ord junk heevd opS En d x s) 0 ids) with
      | inl r => Forall2 (Forall2 (fun k q => fst (fst (fst q)) = nc k /\ shaped (nc k) (nc k) (snd (fst q)) /\ shaped (nr k) (nc k) (snd q))) ids r
      | inr e => goodx e end).
    { apply (outcome_safe (sp = Device.SHost)); [|auto]. apply (kmap2_safe _ (fun k k' => k = k')); [apply Forall2_same; reflexivity|].
      intros t k k' Hk <-. unfold num_geo. eapply safe_bind; [apply safe_weak; exact (He k Hk)|]. intros eta Heta. destruct (so_size H k Hk) as (S1 & S2).
      eapply safe_impl; [apply (geodesic_safe N sp) with (n := nr k) (m := nc k)|auto|intros q Hq; exact Hq]; try assumption; try (intros; apply H).
      - exact Hk.
      - exact (HX k Hk).
      - exact (Hz1 k Hk).
      - exact (Hz2 k Hk). }
    destruct (num_outcome Ex _) as [r|e]; [|cbn; split; assumption]. cbv zeta.
    set (p := by_key (0%nat, fun _ : nat => n_0 N, blank N, blank N) ids r).
    assert (Hk : forall k, In k keys -> fst (fst (fst (p k))) = nc k /\ shaped (nc k) (nc k) (snd (fst (p k))) /\ shaped (nr k) (nc k) (snd (p k))).
    { intros k Hk. exact (by_key_has _ _ ids r k Hg Hk). }
    assert (Hek : long (fun k => fst (fst (p k)))) by (intros k Hin; exact (proj1 (Hk k Hin))).
    assert (Hxn : talls (fun k => snd (p k))) by (intros k Hin; exact (proj2 (proj2 (Hk k Hin)))).
    destruct (num_mu N C (fun k => fst (fst (p k)))) as [mu|]; [|cbn; split; [exact HJ|exact Logic.I]].
    pose proof (compute_safe s _ _ (fun k => fst (fst (p k))) mu HJ Hxn (fn_long _ mu Hek)) as (HJ' & Hf). revert HJ' Hf.
    destruct (num_compute N ord En Ex ncompute C s _ _ _ mu) as [[e|] s2]; cbn; intros HJ' Hf; (split; [exact HJ'|]).
    - exact Hf.
    - split; [exact Hxn|]. split; [exact Hek|]. split; [intros k Hin; exact (proj1 (proj2 (Hk k Hin)))|exact Hf].
  Qed.

  Lemma made_point s X ek fn mu z1 z2 z3 : talls X -> long ek -> long fn -> hams s ->
    point (MkNdat X ek fn (fun k => copy_n N (ordk (b_tick s) k) (junkk (b_tick s) k) (b_HX s k)) mu (fun k => eta_n N (ord1k (b_tick s) k) (ek k)) z1 z2 z3) s.
  Proof.
    intros HX He Hf (Hh & Hb). split; [exact HX|]. split; [exact He|]. split; [exact Hf|]. split; [|split; [|exact Hb]].
    - intros k Hk. cbn. apply copy_safe; [apply (so_ordk H)|exact (proj1 (so_size H k Hk))|exact (Hh k Hk)].
    - intros k Hk. cbn. apply eta_safe; [apply (so_ord1k H)|exact (proj2 (so_size H k Hk))|exact (He k Hk)].
  Qed.
  Lemma run_related : related_problems A P P RE RJ RI RB RK.
  Proof.
    constructor.
    - intros s t (-> & _). reflexivity.
    - intros s t (-> & _). reflexivity.
    - intros s t (-> & _). reflexivity.
    - intros s t (-> & _). reflexivity.
    - intros d e x s t (<- & HI) (<- & HJ). change (curve P) with (num_curve N sp ord junk heevd opS En Ex ncompute C).
      destruct (curve_safe d x s HI HJ) as (HJ' & Hr). revert HJ' Hr. destruct (num_curve _ _ _ _ _ _ _ _ _ _ d x s) as [[p|e] s']; cbn; intros HJ' Hr;
        (split; [split; [reflexivity|exact HJ']|]).
      + split; [reflexivity|]. split; [reflexivity|exact Hr].
      + split; [reflexivity|exact Hr].
    - intros d e p q s t (<- & HX & _ & Hd) (<- & HJ & HF) (<- & _ & K1 & K2 & K3 & K4). split; [reflexivity|]. split; [reflexivity|].
      cbn. unfold num_accept. split; [apply made_point; assumption|]. split; [exact Hd|exact K3].
    - intros d e s t (<- & HJ) (<- & _ & HP & Hd & Hu). change (steepest P) with (num_steepest N sp ord ord1 junk red potrf potrs opS opP En Ex C).
      pose proof (steep_safe d s HP) as Hs. destruct (num_steepest _ _ _ _ _ _ _ _ _ _ _ _ _ d s) as [[sl d']|e]; cbn in *.
      + destruct Hs as (D & Hp & _). split; [reflexivity|]. split; [reflexivity|]. split; [exact (proj1 Hp)|]. split; [apply Hp|exact D].
      + split; [reflexivity|exact Hs].
    - intros fr d e s t (<- & HJ) (<- & _ & HB). change (conj P) with (num_conj N sp ord ord1 junk red potrf potrs opS opP En Ex C).
      pose proof (conj_safe fr d s HB) as Hs. destruct (num_conj _ _ _ _ _ _ _ _ _ _ _ _ _ fr d s) as [[sl d']|e]; cbn in *.
      + destruct Hs as (D & Hp & Hu). split; [reflexivity|]. split.
        * split; [reflexivity|]. split; [exact (proj1 Hp)|]. split; [apply Hp|exact D].
        * split; [reflexivity|]. split; [reflexivity|]. split; [exact Hp|]. split; [exact D|]. unfold squares. rewrite Hu. apply HB.
      + split; [reflexivity|exact Hs].
  Qed.
  Lemma setup_safe s0 : Js s0 ->
    Js (snd (num_setup N sp ord ord1 junk red ordk ord1k junkk potrf potrs opS opP En Ex ncompute C s0)) /\
    match fst (num_setup N sp ord ord1 junk red ordk ord1k junkk potrf potrs opS opP En Ex ncompute C s0) with
    | inl r => Is (fst r)
    | inr e => goodx e
    end.
  Proof.
    intros (HX & HF). unfold num_setup, num_compute0. pose proof (so_compute H (b_en s0) _ _ HX HF) as Hc.
    destruct (ncompute (b_en s0) (b_X s0) (b_fn s0)) as [[[[e hx] ek]|x] en]; [|cbn; split; [split; assumption|exact Logic.I]].
    cbn [fst] in Hc. destruct Hc as (Hh & He).
    set (s1 := MkNst en (b_X s0) (b_fn s0) hx ek e (b_mu s0) (b_S s0) (b_F s0) (S (b_tick s0))). cbv zeta.
    assert (HJ1 : Js s1) by (split; assumption). change (b_ek s1) with ek.
    destruct (num_mu N C ek) as [mu|]; [|cbn; split; [exact HJ1|exact Logic.I]].
    pose proof (compute_safe s1 (b_X s1) (num_fn N C ek mu) ek mu HJ1 (proj1 HJ1) (fn_long ek mu He)) as (HJ2 & Hf). revert HJ2 Hf.
    destruct (num_compute N ord En Ex ncompute C s1 _ _ ek mu) as [[x|] s2]; cbn [fst snd]; intros HJ2 Hf; [split; [exact HJ2|exact Hf]|].
    assert (Hcp : match num_outcome Ex (kmap2 (fun t k => copy_n N (ord PSetup (b_tick s2) t) (junk PSetup (b_tick s2) t) (b_X s2 k)) 0 ids) with
      | inl xs => Forall2 (Forall2 (fun k => shaped (nr k) (nc k))) ids xs | inr e => goodx e end).
    { apply (outcome_safe False); [|intros []]. apply (kmap2_safe False (fun k k' => k = k')); [apply Forall2_same; reflexivity|].
      intros t k k' Hk <-. apply copy_safe; [apply (so_ord H)|exact (proj1 (so_size H k Hk))|exact (proj1 HJ2 k Hk)]. }
    destruct (num_outcome Ex _) as [xs|x]; [|cbn; split; [exact HJ2|exact Hcp]].
    assert (HXs : talls (by_key (blank N) ids xs)).
    { intros k Hk. exact (by_key_has (fun k => shaped (nr k) (nc k)) (blank N) ids xs k Hcp Hk). }
    match goal with |- context [num_steepest _ _ _ _ _ _ _ _ _ _ _ _ _ ?d s2] => pose proof (steep_safe d s2) as Hst; set (d0 := d) in * end.
    specialize (Hst ltac:(apply made_point; [exact HXs|exact He|exact (fn_long ek mu He)|exact Hf])).
    destruct (num_steepest _ _ _ _ _ _ _ _ _ _ _ _ _ d0 s2) as [[sl d]|x]; cbn [fst snd] in *; (split; [exact HJ2|]).
    - destruct Hst as (D & Hp & _). split; [exact (proj1 Hp)|]. split; [apply Hp|exact D].
    - exact Hst.
  Qed.

  Theorem run_safe maxiter tol tau restart fq fb s0 r t evs : talls (b_X s0) -> long (b_fn s0) ->
    nlcg_us A P maxiter tol tau restart fq fb s0 = (r, t, evs) ->
    r <> Throw (OtherExn MUndefined) /\ r <> Throw (OtherExn MBadArg) /\ (r = Throw (OtherExn MRuntime) -> sp = Device.SHost) /\
    (r = UB -> restart = 0%Z) /\ talls (b_X t) /\ long (b_fn t).
  Proof.
    intros HX HF Er. destruct (setup_safe s0 (Logic.conj HX HF)) as (HJ & HS).
    assert (HR : rrun A P P RE RJ (nlcg_us A P maxiter tol tau restart fq fb s0) (nlcg_us A P maxiter tol tau restart fq fb s0)).
    { apply (run_rel A P P RE RJ RI RB RK run_related).
      - split; [reflexivity|exact HJ].
      - change (setup P) with (num_setup N sp ord ord1 junk red ordk ord1k junkk potrf potrs opS opP En Ex ncompute C).
        assert (G : forall o : (ndat N * R') + mem_exn Ex, match o with inl r => Is (fst r) | inr e => goodx e end ->
          rsum_ (fun a b => snd a = snd b /\ RI (fst a) (fst b)) RE o o).
        { intros [[d sl]|e] G; cbn [rsum_ fst snd]; (split; [reflexivity|]); [split; [reflexivity|exact G]|exact G]. }
        exact (G _ HS). }
    pose proof (run_exit A P maxiter tol tau restart fq fb s0 r t evs Er) as Hx.
    rewrite Er in HR. destruct HR as (H1 & _ & HE3 & HJt & HFt). clear HE3. cbn [fst snd] in H1, HJt, HFt.
    split; [|split; [|split; [|split; [|split; [exact HJt|exact HFt]]]]].
    - intros ->. exact (proj2 H1).
    - intros ->. exact (proj2 H1).
    - intros ->. exact (proj2 H1).
    - intros ->. exact (proj1 Hx).
  Qed.
End Run.
