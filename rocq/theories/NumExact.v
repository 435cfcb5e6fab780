(** With exact numbers the run of NumRun.v is the run of MemRun.v. *)
From Coq Require Import ZArith Reals Lra List Bool Arith.
From Coquelicot Require Import Complex.
From Verif Require Import Arith Erf MVector Mpi LapackMem LapackElt Exchange Containers ChemPot Newton Occupation Smearing SmearingProofs SmearingUse LineSearch Driver UsRun
  StepMem DeviceStep MemRun NumStep NumRun SimulateRel.
From Verif Require Device.
Import ListNotations.
Local Open Scope R_scope.

(** ** The same data in the records of the other model *)
Definition exact_set (C : setting) : nset exactN :=
  @MkNset exactN (ranks C) (wgt C) gauss_smearing (smearing_class (smt C)) (nel C) (temp C) (kappa_ C) (occ_ C) (mu_tol C) (skip_nt C).
Definition st_of {En} (s : mst En) : nst exactN En :=
  @MkNst exactN En (m_en s) (m_X s) (m_fn s) (m_HX s) (m_ek s) (m_etot s) (m_mu s) (m_S s) (m_F s) (m_tick s).
Definition dat_of (d : mdat) : ndat exactN :=
  @MkNdat exactN (d_X d) (d_ek d) (d_fn d) (d_HX d) (d_mu d) (d_eta d) (d_zx d) (d_zeta d) (d_ul d).
Definition pnt_of (p : mpnt) : npnt exactN := @MkNpnt exactN (q_ek p) (q_ul p) (q_X p) (q_mu p).
Definition nk_of (p : memk) : nk exactN := MkNk exactN (mk_key p) (mk_x p) (mk_e p) (mk_f p) (mk_h p) (mk_hx p) (mk_wk p).

Lemma kmap_map {A B C} (f : nat -> B -> kres C) (g : A -> B) l : forall t, kmap f t (map g l) = kmap (fun t a => f t (g a)) t l.
Proof. induction l as [|a l IH]; intros t; cbn; [reflexivity|]. destruct (f t (g a)); cbn; try reflexivity. rewrite IH. reflexivity. Qed.
Lemma kmap2_map {A B C} (f : nat -> B -> kres C) (g : A -> B) w : forall t, kmap2 f t (map (map g) w) = kmap2 (fun t a => f t (g a)) t w.
Proof.
  induction w as [|l w IH]; intros t; cbn; [reflexivity|]. rewrite kmap_map, map_length. destruct (kmap _ t l); cbn; try reflexivity. rewrite IH. reflexivity.
Qed.
Lemma kmap_post {A B C} (f : nat -> A -> kres B) (g : B -> C) l : forall t,
  kmap (fun t a => kbind (f t a) (fun r => KOk (g r))) t l = kbind (kmap f t l) (fun r => KOk (map g r)).
Proof.
  induction l as [|a l IH]; intros t; cbn; [reflexivity|]. destruct (f t a); cbn; try reflexivity. rewrite IH. destruct (kmap f _ l); reflexivity.
Qed.
Lemma kmap2_post {A B C} (f : nat -> A -> kres B) (g : B -> C) w : forall t,
  kmap2 (fun t a => kbind (f t a) (fun r => KOk (g r))) t w = kbind (kmap2 f t w) (fun r => KOk (map (map g) r)).
Proof.
  induction w as [|l w IH]; intros t; cbn; [reflexivity|]. rewrite kmap_post. destruct (kmap f t l); cbn; try reflexivity. rewrite IH.
  destruct (kmap2 f _ w); reflexivity.
Qed.
Lemma kmap_same {A B} (f g : nat -> A -> kres B) l : (forall t a, f t a = g t a) -> forall t, kmap f t l = kmap g t l.
Proof. intros H. induction l as [|a l IH]; intros t; cbn; [reflexivity|]. rewrite H. destruct (g t a); cbn; try reflexivity. rewrite IH. reflexivity. Qed.
Lemma kmap2_same {A B} (f g : nat -> A -> kres B) w : (forall t a, f t a = g t a) -> forall t, kmap2 f t w = kmap2 g t w.
Proof.
  intros H. induction w as [|l w IH]; intros t; cbn; [reflexivity|]. rewrite (kmap_same f g l H). destruct (kmap g t l); cbn; try reflexivity. rewrite IH. reflexivity.
Qed.

Section Exact.
  Notation V := (ev Celt).
  Context (sp : space).
  Context (ord : phase -> nat -> nat -> orders) (ord1 : phase -> nat -> nat -> nat -> list nat) (junk : phase -> nat -> nat -> nat -> V)
          (red : phase -> nat -> nat -> nat -> rtree)
          (ordk : nat -> key -> orders) (ord1k : nat -> key -> nat -> list nat) (junkk : nat -> key -> nat -> V).
  Context (heevd : nat -> buf Celt -> nat -> Z * buf Celt * (nat -> R)) (potrf : nat -> buf Celt -> nat -> Z * buf Celt)
          (potrs : nat -> nat -> buf Celt -> nat -> buf Celt -> nat -> Z * buf Celt).
  Context (opS opP : operator_fn Celt).
  Context (En Ex : Type).
  Context (mcompute : En -> (key -> view Celt) -> (key -> rvec) -> ((R * (key -> view Celt) * (key -> rvec)) + Ex) * En).
  Context (C : setting).
  Notation D := (exact_set C).

  Lemma mu_exact ek : num_mu exactN D ek = mem_mu C ek.
  Proof. reflexivity. Qed.
  Lemma fn_exact ek mu : num_fn exactN D ek mu = mem_fn C ek mu.
  Proof. reflexivity. Qed.
  Lemma ksum_R l : ksum l = rsum l.
  Proof. unfold ksum. rewrite (fold_rsum (fun x : R => x)). rewrite map_id. lra. Qed.
  Lemma entropy_exact ek mu : num_entropy exactN D ek mu = mem_entropy C ek mu.
  Proof.
    unfold num_entropy, mem_entropy. change (ksum_n exactN) with ksum. rewrite ksum_R. cbn [amul nA exactN Rarith n_m1]. eqR.
    change (num_world exactN D ek) with (mem_world C ek).
    replace (map (fun r => local_sum Rarith _) (mem_world C ek)) with
      (map (fun r => weighted (fun e => sentropy (smearing_class (smt C)) ((mu - e) / (kb Rarith * temp C)) (occ_ C)) (fst r) (snd r)) (mem_world C ek)); [lra|].
    apply map_ext. intros [x w]. cbn [fst snd]. symmetry. etransitivity; [exact (local_sum_R _)|]. unfold weighted.
    rewrite map_map. cbn [snd]. f_equal. apply map_ext. intros [k v]. cbn [fst snd]. cbn [amul Rarith]. eqR. f_equal.
    exact (sum_func_R (sentropy (smearing_class (smt C))) (view_at Rarith x k) mu (temp C) (occ_ C)).
  Qed.
  Lemma compute_exact s X fn ek mu :
    num_compute exactN ord En Ex mcompute D (st_of s) X fn ek mu =
    (fst (mem_compute ord En Ex mcompute C s X fn ek mu), st_of (snd (mem_compute ord En Ex mcompute C s X fn ek mu))).
  Proof.
    unfold num_compute, mem_compute. change (num_store exactN ord En D (st_of s) X) with (store_views ord En C s X).
    change (num_outcome Ex (store_views ord En C s X)) with (outcome_of Ex (store_views ord En C s X)).
    destruct (outcome_of Ex (store_views ord En C s X)) as [vs|e]; [|reflexivity]. cbv zeta.
    set (mx := fun k => by_key (m_X s k) (ranks C) vs k).
    assert (G : forall o : ((R * (key -> view Celt) * (key -> rvec)) + Ex) * En,
      match o with
      | (inl (e, hx, hk), en) =>
        let ent := kb Rarith * temp C * num_entropy exactN D ek mu in
        (None, @MkNst exactN En en mx fn hx hk e mu ent (e + ent) (S (m_tick s)))
      | (inr x, en) => (Some (MEnergyFail x), @MkNst exactN En en mx fn (m_HX s) (m_ek s) (m_etot s) (m_mu s) (m_S s) (m_F s) (S (m_tick s)))
      end =
      let r := match o with
      | (inl (e, hx, hk), en) =>
        let ent := kb Rarith * temp C * mem_entropy C ek mu in
        (None, MkMst en mx fn hx hk e mu ent (e + ent) (S (m_tick s)))
      | (inr x, en) => (Some (MEnergyFail x), MkMst en mx fn (m_HX s) (m_ek s) (m_etot s) (m_mu s) (m_S s) (m_F s) (S (m_tick s)))
      end in (fst r, st_of (snd r))).
    { intros [[[[e hx] hk]|x] en]; cbv zeta; cbn [fst snd]; [|reflexivity]. rewrite entropy_exact. reflexivity. }
    exact (G (mcompute (m_en s) mx fn)).
  Qed.
  Lemma kpoint_exact d s k : num_kpoint exactN En D (dat_of d) (st_of s) k = kbind (kpoint En C d s k) (fun p => KOk (nk_of p)).
  Proof. unfold num_kpoint, kpoint. cbn [a_eta a_HX dat_of]. destruct (d_eta d k); cbn; try reflexivity. destruct (d_HX d k); reflexivity. Qed.

  Section Dirs.
    Context (o : nat -> orders) (o1 : nat -> nat -> list nat) (j : nat -> nat -> V) (rd : nat -> nat -> rtree).
    Lemma dFdmu_exact w mu : dFdmu_n exactN (smearing_class (smt C)) (temp C) (occ_ C) (map (map nk_of) w) mu = dFdmu (smt C) (temp C) (occ_ C) w mu.
    Proof. unfold dFdmu_n, dFdmu. rewrite kmap2_map. reflexivity. Qed.
    Lemma dmu_exact w mu : dmu_deta_n exactN (smearing_class (smt C)) (temp C) (occ_ C) (map (map nk_of) w) mu = dmu_deta (smt C) (temp C) (occ_ C) w mu.
    Proof. unfold dmu_deta_n, dmu_deta. rewrite map_map. apply (f_equal allsum). apply map_ext. intros l. rewrite map_map. reflexivity. Qed.
    Lemma restarted_exact w mu :
      restarted_n exactN sp o o1 j rd potrf potrs opS opP (smearing_class (smt C)) (temp C) (kappa_ C) (occ_ C) (map (map nk_of) w) mu =
      restarted_at sp o o1 j rd potrf potrs opS opP (smt C) (temp C) (kappa_ C) (occ_ C) w mu.
    Proof.
      unfold restarted_n, restarted_at. rewrite dFdmu_exact, dmu_exact. destruct (dFdmu _ _ _ w mu) as [dF| | |]; cbn [kbind]; try reflexivity.
      rewrite kmap2_map. reflexivity.
    Qed.
    Lemma conjugated_exact fr (w : list (list (memk * (view Celt * view Celt * view Celt)))) (mu : R) :
      conjugated_n exactN sp o o1 j rd potrf potrs opS opP (smearing_class (smt C)) (temp C) (kappa_ C) (occ_ C) fr
        (map (map (fun q => (nk_of (fst q), snd q))) w) mu =
      conjugated_at sp o o1 j rd potrf potrs opS opP (smt C) (temp C) (kappa_ C) (occ_ C) fr w mu.
    Proof.
      unfold conjugated_n, conjugated_at.
      match goal with |- context [dFdmu_n _ _ _ _ ?W _] => replace W with (map (map nk_of) (map (map fst) w)) end.
      2:{ rewrite !map_map. apply map_ext. intros l. rewrite !map_map. reflexivity. }
      rewrite dFdmu_exact, dmu_exact. destruct (dFdmu _ _ _ (map (map fst) w) mu) as [dF| | |]; cbn [kbind]; try reflexivity.
      rewrite kmap2_map. rewrite (kmap2_same _ (fun t kz => match kz with (k, (zxp, zetap, ul)) =>
        exec_cg_at sp o o1 j rd potrf potrs opS opP (smt C) (temp C) (kappa_ C) (occ_ C) t (mk_key k) mu (dmu_deta (smt C) (temp C) (occ_ C) (map (map fst) w) mu) dF
          (mk_wk k) (mk_x k) (mk_e k) (mk_f k) (mk_hx k) zxp zetap ul end)); [|intros t [k [[zxp zetap] ul]]; reflexivity].
      match goal with |- kbind ?a _ = kbind ?b _ => change a with b; destruct b as [res| | |]; cbn [kbind]; try reflexivity end. cbv zeta.
      match goal with |- kbind ?a _ = kbind ?b _ => replace a with b; [destruct b as [zs| | |]; reflexivity|] end.
      match goal with |- _ = kmap2 ?f (32 * ?n)%nat res => transitivity (kmap2 f (32 * length (concat w))%nat res) end.
      - apply kmap2_same. intros t [[[[[a dx] de] zx] ze] b]. symmetry. apply combine_n_exact.
      - match goal with |- kmap2 ?f _ _ = _ => apply (f_equal (fun n => kmap2 f (32 * n)%nat res)) end.
        symmetry. rewrite <- concat_map. apply map_length.
    Qed.
  End Dirs.
  Definition omap {X Y} (f : X -> Y) (o : X + mem_exn Ex) : Y + mem_exn Ex := match o with inl x => inl (f x) | inr e => inr e end.
  Lemma outcome_bind {X Y} (f : X -> Y) (r : kres X) : num_outcome Ex (kbind r (fun x => KOk (f x))) = omap f (outcome_of Ex r).
  Proof. destruct r; reflexivity. Qed.
  Lemma with_exact d z : num_with exactN D (dat_of d) z = dat_of (with_directions C d z).
  Proof. reflexivity. Qed.
  Lemma steepest_exact d s :
    num_steepest exactN sp ord ord1 junk red potrf potrs opS opP En Ex D (dat_of d) (st_of s) =
    omap (fun r => (fst r, dat_of (snd r))) (mem_steepest sp ord ord1 junk red potrf potrs opS opP En Ex C d s).
  Proof.
    unfold num_steepest, mem_steepest. rewrite <- outcome_bind. f_equal. change (ns_ranks D) with (ranks C).
    rewrite (kmap2_same _ (fun _ k => kbind (kpoint En C d s k) (fun p => KOk (nk_of p))) (ranks C)) by (intros; apply kpoint_exact).
    rewrite (kmap2_post (fun _ k => kpoint En C d s k) nk_of). destruct (kmap2 (fun _ k => kpoint En C d s k) 0 (ranks C)) as [w| | |]; cbn [kbind]; try reflexivity.
    change (b_tick (st_of s)) with (m_tick s). change (a_mu (dat_of d)) with (d_mu d).
    pose proof (restarted_exact (ord PSteepest (m_tick s)) (ord1 PSteepest (m_tick s)) (junk PSteepest (m_tick s)) (red PSteepest (m_tick s)) w (d_mu d)) as E.
    change (ns_sm D) with (smearing_class (smt C)). change (ns_temp D) with (temp C). change (ns_kappa D) with (kappa_ C). change (ns_occ D) with (occ_ C).
    rewrite E. destruct (restarted_at _ _ _ _ _ _ _ _ _ _ _ _ _ w (d_mu d)) as [r| | |]; reflexivity.
  Qed.
  Lemma conj_exact fr d s :
    num_conj exactN sp ord ord1 junk red potrf potrs opS opP En Ex D fr (dat_of d) (st_of s) =
    omap (fun r => (fst r, dat_of (snd r))) (mem_conj sp ord ord1 junk red potrf potrs opS opP En Ex C fr d s).
  Proof.
    unfold num_conj, mem_conj. rewrite <- outcome_bind. f_equal. change (ns_ranks D) with (ranks C).
    set (g := fun (_ : nat) k => p <-- kpoint En C d s k ;; KOk (p, (d_zx d k, d_zeta d k, d_ul d k))).
    rewrite (kmap2_same _ (fun t k => kbind (g t k) (fun q => KOk (nk_of (fst q), snd q))) (ranks C)).
    2:{ intros t k. rewrite kpoint_exact. unfold g. destruct (kpoint En C d s k); reflexivity. }
    rewrite (kmap2_post g (fun q => (nk_of (fst q), snd q))). destruct (kmap2 g 0 (ranks C)) as [w| | |]; cbn [kbind]; try reflexivity.
    change (b_tick (st_of s)) with (m_tick s). change (a_mu (dat_of d)) with (d_mu d).
    pose proof (conjugated_exact (ord PConj (m_tick s)) (ord1 PConj (m_tick s)) (junk PConj (m_tick s)) (red PConj (m_tick s)) fr w (d_mu d)) as E.
    change (ns_sm D) with (smearing_class (smt C)). change (ns_temp D) with (temp C). change (ns_kappa D) with (kappa_ C). change (ns_occ D) with (occ_ C).
    rewrite E. destruct (conjugated_at _ _ _ _ _ _ _ _ _ _ _ _ _ fr w (d_mu d)) as [r| | |]; reflexivity.
  Qed.
  Lemma curve_exact d x s :
    num_curve exactN sp ord junk heevd opS En Ex mcompute D (dat_of d) x (st_of s) =
    (omap pnt_of (fst (mem_curve sp ord junk heevd opS En Ex mcompute C d x s)), st_of (snd (mem_curve sp ord junk heevd opS En Ex mcompute C d x s))).
  Proof.
    unfold num_curve, mem_curve. change (ns_ranks D) with (ranks C).
    rewrite (kmap2_same (num_geo exactN sp ord junk heevd opS En (dat_of d) x (st_of s)) (mem_geo sp ord junk heevd opS En d x s) (ranks C)).
    2:{ intros t k. unfold num_geo, mem_geo. cbn [a_eta dat_of]. destruct (d_eta d k) as [eta| | |]; cbn [kbind]; reflexivity. }
    match goal with |- context [num_outcome Ex ?r] =>
      change (num_outcome Ex r) with (outcome_of Ex (kmap2 (mem_geo sp ord junk heevd opS En d x s) 0 (ranks C))) end.
    destruct (outcome_of Ex (kmap2 (mem_geo sp ord junk heevd opS En d x s) 0 (ranks C))) as [r|e]; [|reflexivity]. cbv zeta.
    assert (G : forall p : key -> rvec * view Celt * view Celt,
      match num_mu exactN D (fun k => fst (fst (p k))) with
      | None => (inr MMuFail, st_of s)
      | Some mu =>
        match num_compute exactN ord En Ex mcompute D (st_of s) (fun k => snd (p k)) (num_fn exactN D (fun k => fst (fst (p k))) mu) (fun k => fst (fst (p k))) mu with
        | (None, s2) => (inl (@MkNpnt exactN (fun k => fst (fst (p k))) (fun k => snd (fst (p k))) (fun k => snd (p k)) mu), s2)
        | (Some e, s2) => (inr e, s2)
        end
      end =
      let q := match mem_mu C (fun k => fst (fst (p k))) with
      | None => (inr MMuFail, s)
      | Some mu =>
        match mem_compute ord En Ex mcompute C s (fun k => snd (p k)) (mem_fn C (fun k => fst (fst (p k))) mu) (fun k => fst (fst (p k))) mu with
        | (None, s2) => (inl (MkMpnt (fun k => fst (fst (p k))) (fun k => snd (fst (p k))) (fun k => snd (p k)) mu), s2)
        | (Some e, s2) => (inr e, s2)
        end
      end in (omap pnt_of (fst q), st_of (snd q))).
    { intros p. cbv zeta. rewrite mu_exact. destruct (mem_mu C (fun k => fst (fst (p k)))) as [mu|]; [|reflexivity]. rewrite fn_exact, compute_exact.
      destruct (mem_compute ord En Ex mcompute C s _ _ _ mu) as [[e|] s2]; reflexivity. }
    exact (G (by_key (0%nat, fun _ : nat => 0, no_view, no_view) (ranks C) r)).
  Qed.
  Lemma setup_exact s :
    num_setup exactN sp ord ord1 junk red ordk ord1k junkk potrf potrs opS opP En Ex mcompute D (st_of s) =
    (omap (fun r => (dat_of (fst r), snd r)) (fst (mem_setup sp ord ord1 junk red ordk ord1k junkk potrf potrs opS opP En Ex mcompute C s)),
     st_of (snd (mem_setup sp ord ord1 junk red ordk ord1k junkk potrf potrs opS opP En Ex mcompute C s))).
  Proof.
    unfold num_setup, mem_setup, num_compute0, mem_compute0. cbn [b_en b_X b_fn st_of].
    destruct (mcompute (m_en s) (m_X s) (m_fn s)) as [[[[e hx] ek]|x] en]; [|reflexivity]. cbv zeta. cbn [b_ek m_ek b_X m_X]. rewrite mu_exact.
    destruct (mem_mu C ek) as [mu|]; [|reflexivity]. rewrite fn_exact.
    set (s1 := MkMst en (m_X s) (m_fn s) hx ek e (m_mu s) (m_S s) (m_F s) (S (m_tick s))).
    match goal with |- context [num_compute _ _ _ _ _ _ ?n _ _ _ _] => change n with (st_of s1) end.
    rewrite compute_exact. destruct (mem_compute ord En Ex mcompute C s1 _ _ ek mu) as [[x|] s2]; [reflexivity|]. cbn [fst snd].
    change (ns_ranks D) with (ranks C).
    match goal with |- context [@num_outcome Ex ?T ?r] => change (@num_outcome Ex T r) with
      (@outcome_of Ex T (kmap2 (fun t k => copy_view (ord PSetup (m_tick s2) t) (junk PSetup (m_tick s2) t) (m_X s2 k)) 0 (ranks C))) end.
    destruct (outcome_of Ex (kmap2 _ 0 (ranks C))) as [xs|x]; [|reflexivity].
    match goal with |- context [mem_steepest _ _ _ _ _ _ _ _ _ _ _ _ ?d s2] => set (d0 := d) end.
    match goal with |- context [num_steepest _ _ _ _ _ _ _ _ _ _ _ _ _ ?n (st_of s2)] => change n with (dat_of d0) end.
    rewrite steepest_exact. destruct (mem_steepest _ _ _ _ _ _ _ _ _ _ _ _ d0 s2) as [[sl d]|x]; reflexivity.
  Qed.

  Notation PM := (mem_problem sp ord ord1 junk red ordk ord1k junkk heevd potrf potrs opS opP En Ex mcompute C).
  Notation PN := (num_problem exactN sp ord ord1 junk red ordk ord1k junkk heevd potrf potrs opS opP En Ex mcompute D).
  Lemma omap_related {X Y} (RX : X -> Y -> Prop) (f : X -> Y) (o : X + mem_exn Ex) : (forall x, RX x (f x)) -> rsum_ RX eq o (omap f o).
  Proof. intros H. destruct o; cbn; [apply H|reflexivity]. Qed.
  Lemma exact_related : related_problems Rarith PM PN eq (fun s t => t = st_of s) (fun d e => e = dat_of d)
    (fun d e s t => e = dat_of d /\ t = st_of s) (fun p q s t => q = pnt_of p /\ t = st_of s).
  Proof.
    constructor.
    - intros s t ->. reflexivity.
    - intros s t ->. reflexivity.
    - intros s t ->. reflexivity.
    - intros s t ->. reflexivity.
    - intros d e x s t -> ->. cbn [curve mem_problem num_problem]. rewrite curve_exact. cbn [fst snd]. split; [reflexivity|].
      apply (@omap_related mpnt (npnt exactN)). intros p. split; reflexivity.
    - intros d e p q s t -> -> (-> & _). split; reflexivity.
    - intros d e s t -> (-> & _). cbn [steepest mem_problem num_problem]. rewrite steepest_exact.
      apply (@omap_related (R * mdat) (R * ndat exactN)). intros p. split; reflexivity.
    - intros fr d e s t -> (-> & _). cbn [conj mem_problem num_problem]. rewrite conj_exact.
      apply (@omap_related (R * R * mdat) (R * R * ndat exactN)). intros p. repeat split; reflexivity.
  Qed.
  (** The two runs print the same numbers, end in the same way and leave the same memory. *)
  Theorem run_exact maxiter tol tau restart fq fb s0 :
    let rm := nlcg_us Rarith PM maxiter tol tau restart fq fb s0 in
    nlcg_us Rarith PN maxiter tol tau restart fq fb (st_of s0) = (fst (fst rm), st_of (snd (fst rm)), snd rm).
  Proof.
    cbv zeta.
    assert (H : rrun Rarith PM PN eq (fun s t => t = st_of s) (nlcg_us Rarith PM maxiter tol tau restart fq fb s0)
      (nlcg_us Rarith PN maxiter tol tau restart fq fb (st_of s0))).
    { apply (run_rel Rarith PM PN _ _ _ _ _ exact_related); cbn [setup mem_problem num_problem]; rewrite setup_exact; [reflexivity|].
      cbn [fst]. apply (@omap_related (mdat * R) (ndat exactN * R)). intros p. split; reflexivity. }
    destruct (nlcg_us Rarith PM maxiter tol tau restart fq fb s0) as [[r s] evs], (nlcg_us Rarith PN maxiter tol tau restart fq fb (st_of s0)) as [[r' s'] evs'].
    destruct H as (H1 & H2 & H3). cbn [fst snd] in *. subst. f_equal. f_equal.
    destruct r as [a|e| |], r' as [a'|e'| |]; cbn in H1; try contradiction; try reflexivity; [subst; reflexivity|].
    destruct e, e'; cbn in H1; try contradiction; try reflexivity. subst. reflexivity.
  Qed.
End Exact.
