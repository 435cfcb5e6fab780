(** Proofs about the whole run. *)
From Coq Require Import Reals Lra Psatz ZArith List Bool Arith Lia Permutation Sorted.
From Coquelicot Require Import Complex.
From Verif Require Import Arith LinAlg MVector Mpi MpiProofs Containers ChemPot ChemPotProofs Newton Occupation Smearing SmearingUse SmearingFacts
  Descent DescentProofs DescentFacts Geodesic GeodesicProofs LineSearch LineSearchReal Driver DriverProofs DriverProofs2 DriverProofs3 DriverInv UsRun.
Import ListNotations.
Local Open Scope R_scope.

(** *** Lookup *)
Lemma forall2_concat {X Y} (P : X -> Y -> Prop) a : forall b, Forall2 (Forall2 P) a b -> Forall2 P (concat a) (concat b).
Proof. induction a; intros b H; inversion H; subst; cbn; [constructor|]. apply Forall2_app; auto. Qed.
Lemma forall2_map_left {X Y Z} (P : Y -> Z -> Prop) (f : X -> Y) a : forall b, Forall2 P (map f a) b -> Forall2 (fun x z => P (f x) z) a b.
Proof. induction a; intros b H; inversion H; subst; constructor; auto. Qed.
Lemma forall2_map_left2 {X Y Z} (P : Y -> Z -> Prop) (f : X -> Y) a : forall b, Forall2 (Forall2 P) (map (map f) a) b -> Forall2 (Forall2 (fun x z => P (f x) z)) a b.
Proof. induction a; intros b H; inversion H; subst; constructor; auto. apply forall2_map_left. assumption. Qed.

Lemma mfind_combine {Y} (P : key -> Y -> Prop) (dflt : Y) ks : forall ys, Forall2 P ks ys -> forall k, In k ks ->
  P k (match mfind k (combine ks ys) with Some y => y | None => dflt end).
Proof.
  induction ks as [|k0 ks IH]; intros ys H k Hin; inversion H; subst; [destruct Hin|]. cbn.
  destruct (keqb k k0) eqn:E; [apply keqb_eq in E; subst; assumption|].
  apply IH; [assumption|]. destruct Hin as [->|Hin]; [|exact Hin]. rewrite keqb_refl in E. discriminate.
Qed.
Lemma by_key_spec {Y} (P : key -> Y -> Prop) (dflt : Y) ids res : Forall2 (Forall2 P) ids res ->
  forall k, In k (concat ids) -> P k (by_key dflt ids res k).
Proof. intros H k Hk. unfold by_key. apply mfind_combine; [apply forall2_concat; exact H|exact Hk]. Qed.

(** *** Hermitian directions *)
Lemma herm_entry m A : hermitian m A -> forall i j, (i < m)%nat -> (j < m)%nat -> Cconj (A j i) = A i j.
Proof. intros H i j Hi Hj. exact (H i j Hi Hj). Qed.
Lemma hermitian_real m A i : hermitian m A -> (i < m)%nat -> Im (A i i) = 0.
Proof. intros H Hi. pose proof (herm_entry m A H i i Hi Hi) as E. apply (f_equal snd) in E. unfold Im. cbn in E. lra. Qed.
Lemma add_hermitian m A B a b : hermitian m A -> hermitian m B -> hermitian m (add A B a b).
Proof.
  intros HA HB i j Hi Hj. unfold adj, add. rewrite <- (HA i j Hi Hj), <- (HB i j Hi Hj). unfold adj.
  generalize (A j i) (B j i). intros x y. apply Ceq; cbn; ring.
Qed.
Lemma mdiag_hermitian m d : hermitian m (mdiag d).
Proof. unfold hermitian. rewrite adj_mdiag. apply meq_refl. Qed.
Lemma delta_eta_hermitian kappa k : hermitian (km k) (mmul (kn k) (adj (kX k)) (kHX k)) ->
  hermitian (km k) (delta_eta kappa k (inner_ (kn k) (kX k) (kHX k) (kw k))).
Proof.
  intros H i j Hi Hj. unfold adj, delta_eta, scale, inner_, mscal. pose proof (herm_entry _ _ H i j Hi Hj) as E.
  rewrite (Nat.eqb_sym j i). destruct (Nat.eqb_spec i j) as [<-|].
  - set (a := mmul (kn k) (adj (kX k)) (kHX k) i i) in *. revert E. generalize a. intros x E. rewrite <- E at 2. apply Ceq; cbn; ring.
  - rewrite <- E. generalize (mmul (kn k) (adj (kX k)) (kHX k) j i). intros x. apply Ceq; cbn; ring.
Qed.
Lemma rotateeta_hermitian k eta u : hermitian (km k) eta -> hermitian (km k) (rotateeta k eta u).
Proof. intros H. unfold rotateeta. rewrite inner_1. unfold transform_alloc. apply GeodesicProofs.gram_hermitian. exact H. Qed.

Section Dirs.
  Context (solve : nat -> mat -> mat -> mat) (s : smearing_type) (T kappa mo mu : R).
  Definition hxx (k : kpt) : mat := mmul (kn k) (adj (kX k)) (kHX k).
  Lemma restarted_zeta world : (forall r k, In r world -> In k r -> hermitian (km k) (hxx k)) ->
    Forall2 (Forall2 (fun k d => hermitian (km k) (snd d))) world (snd (restarted solve s T kappa mo world mu)).
  Proof.
    intros H. unfold restarted. cbn [snd]. rewrite map_map. rewrite (map_ext _ (map (fun k => let r := exec_restart solve s T kappa mo mu (dmu_deta s T mo world mu) (dFdmu s T mo world mu) k in (snd (fst r), snd r)))) by (intros; rewrite map_map; reflexivity).
    apply forall2_map2. intros r k Hr Hk. cbn. apply delta_eta_hermitian. exact (H r k Hr Hk).
  Qed.
  Lemma conjugated_zeta fr_old world :
    (forall r kz, In r world -> In kz r -> hermitian (km (fst kz)) (hxx (fst kz)) /\ hermitian (km (fst kz)) (snd (fst (snd kz)))) ->
    Forall2 (Forall2 (fun kz d => hermitian (km (fst kz)) (snd d))) world (snd (conjugated solve s T kappa mo fr_old world mu)).
  Proof.
    intros H. unfold conjugated. cbn [snd]. set (gm := _ / fr_old). rewrite map_map.
    erewrite map_ext; [|intros; apply map_map]. apply forall2_map2. intros r [k [[zxp zetap] ul]] Hr Hk. cbn.
    destruct (H r _ Hr Hk) as [H1 H2]. cbn [fst snd] in H1, H2. apply add_hermitian; [apply rotateeta_hermitian; exact H2|apply delta_eta_hermitian; exact H1].
  Qed.
End Dirs.

(** *** The run *)
Section Run.
  Context (solve : nat -> mat -> mat -> mat) (eigh : nat -> mat -> option (mat * (nat -> R))).
  Context (En Ex : Type).
  Context (ecompute : En -> (key -> mat) -> (key -> nat -> R) -> ((R * (key -> mat) * (key -> nat -> R)) + Ex) * En).
  Context (C : setting) (junk : key -> mat).
  Notation Pb := (us_problem solve eigh En Ex ecompute C junk).
  Notation state := (ust En).
  Definition all_keys : list key := concat (ranks C).
  Let kT : R := kb Rarith * temp C.

  (** X is S-orthonormal for every k-point *)
  Definition ortho (X : key -> mat) : Prop := forall k, In k all_keys -> orthonormal (nrow C k) (ncol C k) (ovl C k) (X k).
  Definition XHX (X HX : key -> mat) (k : key) : mat := mmul (nrow C k) (adj (X k)) (HX k).

  (** What is assumed of the system, the solvers and the caller's functional. *)
  Record system_ok : Prop := MkSysOk {
    so_solve : forall k, In k all_keys -> solver_ok solve (ncol C k);
    so_eigh : eigh_ok eigh;
    so_S : forall k, In k all_keys -> hermitian (nrow C k) (ovl C k) /\ psd (nrow C k) (ovl C k);
    so_P : forall k, In k all_keys -> hermitian (nrow C k) (prc C k) /\ posdef (nrow C k) (prc C k);
    so_w : forall k, In k all_keys -> 0 < wgt C k;
    (** <X|H|X> is Hermitian and get_ek is its diagonal *)
    so_H : forall en X fn e HX ek en', ortho X -> ecompute en X fn = (inl (e, HX, ek), en') ->
      forall k, In k all_keys -> hermitian (ncol C k) (XHX X HX k) /\ forall i, (i < ncol C k)%nat -> ek k i = Re (XHX X HX k i i)
  }.
  Hypothesis Hsys : system_ok.

  Definition herm (A : key -> mat) : Prop := forall k, In k all_keys -> hermitian (ncol C k) (A k).
  Definition tang (X Z : key -> mat) : Prop :=
    forall k, In k all_keys -> meq (ncol C k) (ncol C k) (mmul (nrow C k) (adj (mmul (nrow C k) (ovl C k) (X k))) (Z k)) mzero.

  (** A trial point of the log is as it should be. *)
  Definition call_ok (c : gcall) : Prop :=
    In (g_key c) all_keys /\ g_args c <> [] /\
    Forall (hermitian (ncol C (g_key c))) (g_args c) /\
    (forall M, nth_error (g_args c) 1 = Some M -> posdef (ncol C (g_key c)) M) /\
    (forall X', g_out c = Some X' -> orthonormal (nrow C (g_key c)) (ncol C (g_key c)) (ovl C (g_key c)) X').

  Definition Jr (s : state) : Prop := Forall call_ok (s_log s).
  Definition Ir (d : udat) : Prop := ortho (u_X d) /\ tang (u_X d) (u_zx d) /\ herm (u_eta d) /\ herm (u_zeta d).
  Definition point_ok (X HX : key -> mat) (ek : key -> nat -> R) : Prop :=
    ortho X /\ forall k, In k all_keys -> hermitian (ncol C k) (XHX X HX k) /\ forall i, (i < ncol C k)%nat -> ek k i = Re (XHX X HX k i i).
  (** occupations belong to the pseudo-eigenvalues and chemical potential *)
  Definition occ_ok (ek fn : key -> nat -> R) (mu : R) : Prop := fn = us_fn C ek mu.
  (** [s] is what the functional says about (ek, mu, X, fn) *)
  Definition at_point (s : state) (X : key -> mat) (ek fn : key -> nat -> R) (mu : R) (HX : key -> mat) : Prop :=
    us_mu C ek = Some mu /\
    exists en en' e, ecompute en X fn = (inl (e, HX, s_ek s), en') /\ s_F s = e + kT * us_entropy C ek mu.
  Definition Br (d : udat) (s : state) : Prop :=
    point_ok (u_X d) (u_HX d) (s_ek s) /\ occ_ok (u_ek d) (u_fn d) (u_mu d) /\ herm (u_zeta d) /\
    u_eta d = (fun k => make_diag (u_ek d k)) /\ at_point s (u_X d) (u_ek d) (u_fn d) (u_mu d) (u_HX d).
  Definition Kr (d : udat) (p : upnt) (s : state) : Prop :=
    point_ok (p_X p) (s_HX s) (s_ek s) /\ occ_ok (p_ek p) (s_fn s) (p_mu p) /\ at_point s (p_X p) (p_ek p) (s_fn s) (p_mu p) (s_HX s).
  Definition Based (d : udat) (s : state) : Prop :=
    occ_ok (u_ek d) (u_fn d) (u_mu d) /\ u_eta d = (fun k => make_diag (u_ek d k)) /\ at_point s (u_X d) (u_ek d) (u_fn d) (u_mu d) (u_HX d).
  Definition Wr : Prop := monotone_type (smt C) /\ 0 < temp C /\ 0 <= kappa_ C /\ 0 <= occ_ C.
  Definition Qr (sl : R) : Prop := Wr -> sl <= 0.

  (** *** Trial points *)
  Lemma geo_ok d t k : Ir d -> In k all_keys ->
    hermitian (ncol C k) (advance_eta t (u_eta d k) (u_zeta d k)) /\
    (let x := add (u_X d k) (u_zx d k) t 1 in let M := inner_ (nrow C k) x (mmul (nrow C k) (ovl C k) x) 1 in
     hermitian (ncol C k) M /\ posdef (ncol C k) M) /\
    (forall ek Ul X', geo eigh C d t k = Some (ek, Ul, X') -> orthonormal (nrow C k) (ncol C k) (ovl C k) X').
  Proof.
    intros (HX & HZ & He & Hz) Hk. destruct (so_S Hsys k Hk) as [HS1 HS2]. split; [|split].
    - unfold advance_eta. apply add_hermitian; [apply He|apply Hz]; exact Hk.
    - cbv zeta. rewrite inner_1. split; [apply GeodesicProofs.gram_hermitian; exact HS1|].
      assert (E : add (u_X d k) (u_zx d k) t 1 = fun i j => Cplus (u_X d k i j) (Cmult (RtoC t) (u_zx d k i j))).
      { apply mat_ext. intros i j. unfold add. generalize (u_X d k i j) (u_zx d k i j). intros a b. apply Ceq; cbn; ring. }
      rewrite E. apply gram_posdef; [exact HS1|exact HS2|apply HX; exact Hk|apply HZ; exact Hk].
    - intros ek Ul X' Hg. apply (trial_orthonormal eigh (so_eigh Hsys) (nrow C k) (ncol C k) (u_X d k) (u_eta d k) (u_zx d k) (u_zeta d k) (ovl C k) t ek Ul X' HS1); [|exact Hg].
      apply gram_posdef; [exact HS1|exact HS2|apply HX; exact Hk|apply HZ; exact Hk].
  Qed.

  Lemma call_good d t k : Ir d -> In k all_keys -> call_ok (geo_call eigh C d t k).
  Proof.
    intros Hi Hk. unfold call_ok. cbn [geo_call g_key g_args g_out] in *. destruct (geo_ok d t k Hi Hk) as (H1 & (H2 & H3) & H4). unfold geo_args. cbv zeta in *.
    split; [exact Hk|]. split; [discriminate|]. split; [|split].
    - constructor; [exact H1|]. destruct (eigh _ _); constructor; [exact H2|constructor].
    - intros M. destruct (eigh _ _); cbn; intros H; inversion H; subst. exact H3.
    - intros X'. destruct (geo eigh C d t k) as [[[ek Ul] X]|] eqn:E; intros H; inversion H; subst. exact (H4 _ _ _ eq_refl).
  Qed.

  Lemma curve_inv d t s o s' : Ir d -> Jr s -> us_curve eigh En Ex ecompute C d t s = (o, s') ->
    Jr s' /\ forall p, o = inl p -> Kr d p s'.
  Proof.
    intros Hi Hj. unfold us_curve. cbv zeta.
    set (s1 := add_log En s (map (geo_call eigh C d t) (concat (ranks C)))).
    assert (Hj1 : Jr s1).
    { unfold Jr, s1. cbn [add_log s_log]. apply Forall_app. split; [exact Hj|]. apply Forall_forall. intros c Hc. apply in_map_iff in Hc.
      destruct Hc as (k & <- & Hk). apply call_good; [exact Hi|exact Hk]. }
    destruct (forallb _ _) eqn:Ef; [|intros H; inversion H; subst; split; [exact Hj1|discriminate]].
    set (ek := fun k => match geo eigh C d t k with Some (e, _, _) => e | None => fun _ => 0 end).
    set (xn := fun k => match geo eigh C d t k with Some (_, _, x) => x | None => mzero end).
    assert (Hx : ortho xn).
    { intros k Hk. rewrite forallb_forall in Ef. specialize (Ef k Hk). unfold xn. destruct (geo_ok d t k Hi Hk) as (_ & _ & H4).
      destruct (geo eigh C d t k) as [[[e u] x]|]; [|discriminate]. exact (H4 _ _ _ eq_refl). }
    destruct (us_mu C ek) as [mu|] eqn:Em; [|intros H; inversion H; subst; split; [exact Hj1|discriminate]].
    unfold fe_compute. destruct (ecompute (s_en s1) xn (us_fn C ek mu)) as [[[[e hx] hk]|x] en'] eqn:Ec; intros H; inversion H; subst.
    - split; [exact Hj1|]. intros p Hp. inversion Hp; subst. unfold Kr. cbn [p_X p_ek p_mu s_HX s_ek s_fn]. split; [|split].
      + split; [exact Hx|]. intros k Hk. exact (so_H Hsys _ _ _ _ _ _ _ Hx Ec k Hk).
      + reflexivity.
      + split; [exact Em|]. eexists _, _, _. split; [exact Ec|reflexivity].
    - split; [exact Hj1|discriminate].
  Qed.

  (** *** Directions *)
  Lemma kpt_ok_of d s k : Br d s -> In k all_keys -> kpt_ok solve (smt C) (temp C) (occ_ C) (u_mu d) (kpt_of En C d s k).
  Proof.
    intros ((HX & HH) & Hf & _) Hk. destruct (so_P Hsys k Hk) as [HP1 HP2]. destruct (HH k Hk) as [H1 H2].
    constructor; cbn [kpt_of kw km kn kS kP kX kHX ke kf kh].
    - apply (so_w Hsys k Hk).
    - apply (so_solve Hsys k Hk).
    - exact HP1.
    - intros v. destruct (Classical_Prop.classic (exists i, (i < nrow C k)%nat /\ v i <> RtoC 0)) as [H|H]; [left; apply HP2; exact H|right].
      unfold quad. symmetry. rewrite csum_Re. rewrite (rsumn_ext _ _ (fun _ => 0)); [apply rsumn_0; reflexivity|].
      intros i Hi. rewrite csum_Re. rewrite (rsumn_ext _ _ (fun _ => 0)); [apply rsumn_0; reflexivity|]. intros j Hj.
      destruct (Classical_Prop.classic (v i = RtoC 0)) as [->|F]; [cbn; ring|]. exfalso. apply H. exists i. split; assumption.
    - cbv zeta. apply sx_posdef; [apply HX; exact Hk|exact HP2].
    - exact H1.
    - exact H2.
    - intros i Hi. rewrite Hf. reflexivity.
  Qed.
  Lemma systems_ok_of d s k : Br d s -> In k all_keys -> systems_ok solve (kpt_of En C d s k).
  Proof.
    intros HB Hk. destruct (kpt_ok_of d s k HB Hk) as [_ H1 H2 _ H3 _ _ _]. constructor; try assumption.
    cbv zeta. cbn [kpt_of kn km kS kX]. apply sx_full. destruct HB as ((HX & _) & _). apply HX. exact Hk.
  Qed.

  Lemma in_world {Y} (f : key -> Y) (P : Y -> Prop) : (forall k, In k all_keys -> P (f k)) ->
    forall r y, In r (map (map f) (ranks C)) -> In y r -> P y.
  Proof.
    intros H r y Hr Hy. apply in_map_iff in Hr. destruct Hr as (ks & <- & Hks). apply in_map_iff in Hy. destruct Hy as (k & <- & Hk).
    apply H. unfold all_keys. apply in_concat. eauto.
  Qed.

  Lemma steep_inv d s sl d' : Br d s -> us_steepest solve En Ex C d s = inl (sl, d') ->
    Ir d' /\ Based d' s /\ Qr sl.
  Proof.
    intros HB. unfold us_steepest.
    destruct (restarted solve (smt C) (temp C) (kappa_ C) (occ_ C) (map (map (kpt_of En C d s)) (ranks C)) (u_mu d)) as [sl0 z] eqn:Er.
    intros H. inversion H; subst. clear H.
    pose proof (restarted_tangent solve (smt C) (temp C) (kappa_ C) (occ_ C) (u_mu d) _ (in_world _ (systems_ok solve) (fun k Hk => systems_ok_of d s k HB Hk))) as F1.
    pose proof (restarted_zeta solve (smt C) (temp C) (kappa_ C) (occ_ C) (u_mu d) _ (in_world (kpt_of En C d s) (fun k => hermitian (km k) (hxx k)) (fun k Hk => proj1 (proj2 (proj1 HB) k Hk)))) as F2.
    rewrite Er in F1, F2. cbn [snd] in F1, F2. apply forall2_map_left2 in F1, F2.
    destruct HB as ((HX & HH) & Hf & Hz & He & Ha) eqn:EB. clear EB.
    split; [|split].
    - split; [exact HX|]. split; [|split].
      + intros k Hk. cbn [u_X u_zx]. pose proof (by_key_spec _ (mzero, mzero) _ _ F1 k Hk) as T. cbn beta in T. apply tangent_meq in T. exact T.
      + intros k Hk. cbn [u_eta]. rewrite He. apply mdiag_hermitian.
      + intros k Hk. cbn [u_zeta]. exact (by_key_spec _ (mzero, mzero) _ _ F2 k Hk).
    - split; [exact Hf|]. split; [exact He|exact Ha].
    - intros (W1 & W2 & W3 & W4).
      pose proof (restarted_descends solve (smt C) (temp C) (kappa_ C) (occ_ C) (u_mu d) W1 W2 W3 W4 (map (map (kpt_of En C d s)) (ranks C))) as D.
      rewrite Er in D. apply D. apply (in_world _ (kpt_ok solve (smt C) (temp C) (occ_ C) (u_mu d))). intros k Hk. apply kpt_ok_of; [|exact Hk].
      split; [split; assumption|]. repeat (split; [assumption|]). exact Ha.
  Qed.

  Lemma conj_inv fr d s fr' sl d' : Br d s -> us_conj solve En Ex C fr d s = inl (fr', sl, d') ->
    Ir d' /\ Based d' s /\ Br d' s.
  Proof.
    intros HB. unfold us_conj.
    set (world := map (map (fun k => (kpt_of En C d s k, (u_zx d k, u_zeta d k, u_ul d k)))) (ranks C)).
    destruct (conjugated solve (smt C) (temp C) (kappa_ C) (occ_ C) fr world (u_mu d)) as [[fr0 sl0] z] eqn:Er.
    intros H. inversion H; subst. clear H.
    pose proof (conjugated_tangent solve (smt C) (temp C) (kappa_ C) (occ_ C) (u_mu d) fr world (in_world (fun k => (kpt_of En C d s k, (u_zx d k, u_zeta d k, u_ul d k))) (fun kz => systems_ok solve (fst kz)) (fun k Hk => systems_ok_of d s k HB Hk))) as F1.
    pose proof (conjugated_zeta solve (smt C) (temp C) (kappa_ C) (occ_ C) (u_mu d) fr world
      (in_world (fun k => (kpt_of En C d s k, (u_zx d k, u_zeta d k, u_ul d k))) (fun kz => hermitian (km (fst kz)) (hxx (fst kz)) /\ hermitian (km (fst kz)) (snd (fst (snd kz))))
         (fun k Hk => Logic.conj (proj1 (proj2 (proj1 HB) k Hk)) (proj1 (proj2 (proj2 HB)) k Hk)))) as F2.
    rewrite Er in F1, F2. cbn [snd] in F1, F2. unfold world in F1, F2. apply forall2_map_left2 in F1, F2.
    destruct HB as ((HX & HH) & Hf & Hz & He & Ha).
    assert (Hz' : herm (fun k => snd (by_key (mzero, mzero) (ranks C) z k))).
    { intros k Hk. exact (by_key_spec _ (mzero, mzero) _ _ F2 k Hk). }
    split; [|split].
    - split; [exact HX|]. split; [|split].
      + intros k Hk. cbn [u_X u_zx]. pose proof (by_key_spec _ (mzero, mzero) _ _ F1 k Hk) as T. cbn beta in T. apply tangent_meq in T. exact T.
      + intros k Hk. cbn [u_eta]. rewrite He. apply mdiag_hermitian.
      + exact Hz'.
    - split; [exact Hf|]. split; [exact He|exact Ha].
    - split; [split; [exact HX|exact HH]|]. split; [exact Hf|]. split; [exact Hz'|]. split; [exact He|exact Ha].
  Qed.

  Lemma run_invariants : invariants Rarith Pb Jr Ir Based Br Kr Qr Wr.
  Proof.
    constructor.
    - intros d t s o s' Hi Hj H. exact (curve_inv d t s o s' Hi Hj H).
    - intros d p s (_ & _ & _ & Hz) _ (H1 & H2 & H3). split; [exact H1|]. split; [exact H2|]. split; [exact Hz|]. split; [reflexivity|exact H3].
    - intros d s sl d' _ HB H. exact (steep_inv d s sl d' HB H).
    - intros fr d s fr' sl d' _ HB H. exact (conj_inv fr d s fr' sl d' HB H).
    - intros w sl H. rewrite Rlit0. apply Rltb_false. exact (H w).
  Qed.

  Lemma setup_inv s0 : s_log s0 = [] -> ortho (s_X s0) -> setup_ok Rarith Pb Jr Ir Based Qr s0.
  Proof.
    intros Hl HX o s. change (setup Pb s0) with (us_setup solve En Ex ecompute C junk s0). unfold us_setup, fe_compute0.
    destruct (ecompute (s_en s0) (s_X s0) (s_fn s0)) as [[[[e hx] ek]|x] en1] eqn:E1.
    2:{ intros H; inversion H; subst. split; [unfold Jr; cbn; rewrite Hl; constructor|discriminate]. }
    cbn [s_ek s_X]. set (s1 := MkUst _ _ _ _ _ _ _ _ _ _).
    destruct (us_mu C ek) as [mu|] eqn:Em.
    2:{ intros H; inversion H; subst. split; [unfold Jr; cbn; rewrite Hl; constructor|discriminate]. }
    unfold fe_compute. cbn [s_en s1]. destruct (ecompute en1 (s_X s0) (us_fn C ek mu)) as [[[[e2 hx2] ek2]|x] en2] eqn:E2.
    2:{ intros H; inversion H; subst. split; [unfold Jr; cbn; rewrite Hl; constructor|discriminate]. }
    cbn [s_X s_HX s_log s1].
    match goal with |- context [us_steepest solve En Ex C ?d ?s2] => set (d0 := d); set (st2 := s2) end.
    destruct (us_steepest solve En Ex C d0 st2) as [[sl0 d1]|e0] eqn:Es; intros H; inversion H; subst.
    - split; [unfold Jr, st2; cbn; rewrite Hl; constructor|]. intros d sl H0. inversion H0; subst.
      apply (steep_inv d0 st2); [|exact Es]. unfold Br, d0, st2. cbn [u_X u_HX u_ek u_fn u_mu u_zeta u_eta s_ek].
      split; [split; [exact HX|intros k Hk; exact (so_H Hsys _ _ _ _ _ _ _ HX E2 k Hk)]|]. split; [reflexivity|]. split.
      { intros k _ i j _ _. unfold adj, mzero. apply Ceq; cbn; ring. }
      split; [reflexivity|]. split; [exact Em|]. eexists _, _, _. split; [exact E2|reflexivity].
    - split; [unfold Jr, st2; cbn; rewrite Hl; constructor|discriminate].
  Qed.

  (** *** t = 0 *)
  (** the density matrix X f X^H of a k-point *)
  Definition density (X : key -> mat) (fn : key -> nat -> R) (k : key) : mat :=
    mmul (ncol C k) (X k) (mmul (ncol C k) (mdiag (fn k)) (adj (X k))).
  (** The caller's total energy depends on the density matrices only. *)
  Definition energy_of_density : Prop :=
    forall en1 en2 X1 X2 f1 f2 e1 e2 h1 h2 k1 k2 en1' en2',
    (forall k, In k all_keys -> meq (nrow C k) (nrow C k) (density X1 f1 k) (density X2 f2 k)) ->
    ecompute en1 X1 f1 = (inl (e1, h1, k1), en1') -> ecompute en2 X2 f2 = (inl (e2, h2, k2), en2') -> e1 = e2.

  Lemma mfind_bands (V : Type) (f : key -> V) (l : list key) k :
    mfind k (map (fun k => (k, f k)) l) = if existsb (keqb k) l then Some (f k) else None.
  Proof.
    induction l as [|a l IH]; cbn; [reflexivity|]. destruct (keqb k a) eqn:E; [apply keqb_eq in E; subst; reflexivity|exact IH].
  Qed.

  (** two sets of band energies with the same spectra *)
  Definition same_spectra (e1 e2 : key -> nat -> R) : Prop :=
    forall k, In k all_keys -> Permutation (map (e1 k) (seq 0 (ncol C k))) (map (e2 k) (seq 0 (ncol C k))).

  Lemma bands_concat e : concat (map fst (band_world C e)) = map (fun k => (k, map (e k) (seq 0 (ncol C k)))) all_keys.
  Proof. unfold band_world, all_keys. rewrite map_map. cbn [fst]. rewrite concat_map. reflexivity. Qed.
  Lemma weights_concat e : concat (map snd (band_world C e)) = map (fun k => (k, wgt C k)) all_keys.
  Proof. unfold band_world, all_keys. rewrite map_map. cbn [snd]. rewrite concat_map. reflexivity. Qed.

  Lemma existsb_in k l : existsb (keqb k) l = true -> In k l.
  Proof. intros H. apply existsb_exists in H. destruct H as (x & Hx & E). apply keqb_eq in E. subst. exact Hx. Qed.

  Lemma view_perm e1 e2 k : same_spectra e1 e2 ->
    Permutation (view_at Rarith (xunion Rarith (band_world C e1)) k) (view_at Rarith (xunion Rarith (band_world C e2)) k).
  Proof.
    intros H. unfold view_at, xunion. rewrite !mfind_of_assignments, !bands_concat, <- !map_rev, !mfind_bands.
    destruct (existsb (keqb k) (rev all_keys)) eqn:E; [|apply Permutation_refl].
    apply H. apply existsb_in, in_rev in E. exact E.
  Qed.
  Lemma rsum_permutation l1 l2 : Permutation l1 l2 -> rsum l1 = rsum l2.
  Proof.
    intros H. induction H; [reflexivity| | |congruence].
    - change (x + rsum l = x + rsum l'). rewrite IHPermutation. reflexivity.
    - change (y + (x + rsum l) = x + (y + rsum l)). ring.
  Qed.
  Lemma sum_perm f l1 l2 mu T o : Permutation l1 l2 -> sum_func Rarith f l1 mu T o = sum_func Rarith f l2 mu T o.
  Proof.
    intros H. pose proof (sum_func_R f l1 mu T o) as E1. pose proof (sum_func_R f l2 mu T o) as E2.
    etransitivity; [exact E1|]. etransitivity; [|symmetry; exact E2]. apply rsum_permutation. apply Permutation_map. exact H.
  Qed.

  Lemma mu_same e1 e2 : same_spectra e1 e2 -> us_mu C e1 = us_mu C e2.
  Proof.
    intros H. unfold us_mu.
    assert (Ew : wunion Rarith (band_world C e1) = wunion Rarith (band_world C e2)) by (unfold wunion; rewrite !weights_concat; reflexivity).
    rewrite Ew. set (w := wunion Rarith (band_world C e2)).
    set (x1 := xunion Rarith (band_world C e1)). set (x2 := xunion Rarith (band_world C e2)).
    assert (E : forall f mu (l : smap R), wsum Rarith (fun ek => sum_func Rarith f ek mu (temp C) (occ_ C)) x1 l = wsum Rarith (fun ek => sum_func Rarith f ek mu (temp C) (occ_ C)) x2 l).
    { intros f mu l. unfold wsum. f_equal. apply FunctionalExtensionality.functional_extensionality. intros a.
      apply FunctionalExtensionality.functional_extensionality. intros kw. f_equal. f_equal. apply sum_perm, view_perm, H. }
    assert (Ed : forall c f mu (l : smap R), wsum_div Rarith c (fun ek => sum_func Rarith f ek mu (temp C) (occ_ C)) x1 l = wsum_div Rarith c (fun ek => sum_func Rarith f ek mu (temp C) (occ_ C)) x2 l).
    { intros c f mu l. unfold wsum_div. f_equal. apply FunctionalExtensionality.functional_extensionality. intros a.
      apply FunctionalExtensionality.functional_extensionality. intros kw. f_equal. f_equal. apply sum_perm, view_perm, H. }
    assert (Er : forall sm, residual Rarith (nel C) (temp C) (occ_ C) sm x1 w = residual Rarith (nel C) (temp C) (occ_ C) sm x2 w).
    { intros sm. apply FunctionalExtensionality.functional_extensionality. intros mu. unfold residual. rewrite E. reflexivity. }
    assert (Ef : forall sm, find_mu Rarith (nel C) (temp C) (occ_ C) (mu_tol C) sm x1 w = find_mu Rarith (nel C) (temp C) (occ_ C) (mu_tol C) sm x2 w).
    { intros sm. unfold find_mu. rewrite Er. reflexivity. }
    assert (Em : forall sk sg sm, mu_of Rarith (nel C) (temp C) (occ_ C) (mu_tol C) sk sg sm x1 w = mu_of Rarith (nel C) (temp C) (occ_ C) (mu_tol C) sk sg sm x2 w).
    { intros sk sg sm. unfold mu_of, newton_mu. rewrite !Ef.
      match goal with |- context [newton Rarith ?a ?b ?c] =>
        replace a with (fun mu => wsum Rarith (fun ek => sum_func Rarith (sfn sm) ek mu (temp C) (occ_ C)) x2 w) by (apply FunctionalExtensionality.functional_extensionality; intros; symmetry; apply E);
        replace b with (fun mu => wsum_div Rarith (amul Rarith (kb Rarith) (temp C)) (fun ek => sum_func Rarith (sdelta sm) ek mu (temp C) (occ_ C)) x2 w) by (apply FunctionalExtensionality.functional_extensionality; intros; symmetry; apply Ed);
        replace c with (fun mu => wsum_div Rarith (amul Rarith (amul Rarith (kb Rarith) (temp C)) (amul Rarith (kb Rarith) (temp C))) (fun ek => sum_func Rarith (sdxdelta sm) ek mu (temp C) (occ_ C)) x2 w) by (apply FunctionalExtensionality.functional_extensionality; intros; symmetry; apply Ed)
      end. reflexivity. }
    rewrite Em. reflexivity.
  Qed.

  Lemma entropy_same e1 e2 mu : same_spectra e1 e2 -> us_entropy C e1 mu = us_entropy C e2 mu.
  Proof.
    intros H. unfold us_entropy, band_world. rewrite !map_map. f_equal. f_equal. apply map_ext_in. intros r Hr. cbn [fst snd].
    unfold weighted. f_equal. apply map_ext_in. intros [k w] Hin. cbn [fst snd]. f_equal. unfold bands_at. rewrite !mfind_bands.
    apply in_map_iff in Hin. destruct Hin as (k' & Ek & Hk'). inversion Ek; subst.
    destruct (existsb (keqb k) r); [|reflexivity]. apply rsum_permutation, Permutation_map, H. unfold all_keys. apply in_concat. eauto.
  Qed.

  Lemma zero_step (Hdens : energy_of_density) d s s1 p s' : Ir d -> Based d s ->
    us_curve eigh En Ex ecompute C d 0 s1 = (inl p, s') -> s_F s' = s_F s.
  Proof.
    intros (HX & _ & _ & _) (Hf & He & (Hmu & en & en1 & e & Hc & HF)). unfold us_curve. cbv zeta.
    destruct (forallb _ _) eqn:Ef; [|discriminate].
    set (ek := fun k => match geo eigh C d 0 k with Some (e, _, _) => e | None => fun _ => 0 end).
    set (xn := fun k => match geo eigh C d 0 k with Some (_, _, x) => x | None => mzero end).
    assert (Hz : forall k, In k all_keys -> Permutation (map (ek k) (seq 0 (ncol C k))) (map (u_ek d k) (seq 0 (ncol C k))) /\
      forall g : R -> R, meq (nrow C k) (nrow C k) (density xn (fun k i => g (ek k i)) k) (density (u_X d) (fun k i => g (u_ek d k i)) k)).
    { intros k Hk. rewrite forallb_forall in Ef. specialize (Ef k Hk). unfold density, ek, xn. cbv beta.
      destruct (geo eigh C d 0 k) as [[[e1 u1] x1]|] eqn:Eg; [|discriminate]. unfold geo in Eg. rewrite He in Eg.
      destruct (trial_zero eigh (so_eigh Hsys) _ _ _ _ _ _ _ _ _ _ (proj1 (so_S Hsys k Hk)) (HX k Hk) Eg) as (_ & _ & _ & Hp & _ & Hg).
      split; [apply Permutation_sym; exact Hp|exact Hg]. }
    assert (Hsp : same_spectra ek (u_ek d)) by (intros k Hk; apply (Hz k Hk)).
    destruct (us_mu C ek) as [mu|] eqn:Em; [|discriminate].
    assert (mu = u_mu d) by (rewrite (mu_same _ _ Hsp), Hmu in Em; inversion Em; reflexivity). subst mu.
    unfold fe_compute. destruct (ecompute _ xn (us_fn C ek (u_mu d))) as [[[[e2 hx] hk]|x] en'] eqn:Ec; intros H; inversion H; subst.
    cbn [s_F]. rewrite HF, (entropy_same _ _ _ Hsp). f_equal. symmetry. rewrite Hf in Hc.
    eapply Hdens; [|exact Hc|exact Ec]. intros k Hk. apply meq_sym. exact (proj2 (Hz k Hk) (fun y => sfn (smearing_class (smt C)) ((u_mu d - y) / kT) (occ_ C))).
  Qed.

  Theorem run_decreases (Hdens : energy_of_density) maxiter tol tau restart fq fb s0 r st evs : s_log s0 = [] -> ortho (s_X s0) ->
    nlcg_us Rarith Pb maxiter tol tau restart fq fb s0 = (r, st, evs) ->
    StronglySorted (fun x y => (y <= x)%R) (map (@rF (num Rarith)) (records evs)) /\
    (Forall (fun x => ls_returned x = true) (searches evs) -> Forall (fun x => (s_F st <= x)%R) (map (@rF (num Rarith)) (records evs))).
  Proof.
    intros Hl HX H. exact (run_mono Pb tol tau restart fq fb Jr Ir Based Br Kr Qr Wr run_invariants
      (fun d s s1 p s' Hi _ Hb Hc => zero_step Hdens d s s1 p s' Hi Hb Hc) maxiter s0 r st evs (setup_inv s0 Hl HX) H).
  Qed.

  Theorem run_calls maxiter tol tau restart fq fb s0 r st evs : s_log s0 = [] -> ortho (s_X s0) ->
    nlcg_us Rarith Pb maxiter tol tau restart fq fb s0 = (r, st, evs) -> Forall call_ok (s_log st) /\ good_events Rarith Qr Wr evs.
  Proof. intros Hl HX H. exact (run_inv Rarith Pb maxiter tol tau restart fq fb Jr Ir Based Br Kr Qr Wr run_invariants s0 r st evs (setup_inv s0 Hl HX) H). Qed.
End Run.
