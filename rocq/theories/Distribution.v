(** The distribution of the k-points over the MPI ranks does not matter in exact arithmetic: sums over k-points
    (src/pseudo_hamiltonian/grad_eta.hpp 16-81, src/mvp2/descent_direction.hpp 81-183, src/smearing.hpp 595-740), descent directions and whole
    runs (src/nlcglib.cpp 214-442) are those of any other distribution of the same k-points.
    The code is that of Descent.v, UsRun.v and Driver.v; the definitions here only say how two runs compare. *)
From Coq Require Import Reals ZArith List Bool Arith Lia Lra Permutation FunctionalExtensionality.
From Coquelicot Require Import Complex.
From Verif Require Import Arith LinAlg MVector Mpi Containers ChemPot Newton Occupation Smearing SmearingUse Descent Geodesic LineSearch Driver Simulate UsRun UsCount.
Import ListNotations.
Local Open Scope R_scope.

(** ** Sums over all k-points *)
Lemma fold_plus_app l m : fold_right Rplus 0 (l ++ m) = fold_right Rplus 0 l + fold_right Rplus 0 m.
Proof. induction l as [|x l IH]; cbn [fold_right app]; [ring|rewrite IH; ring]. Qed.
Lemma total_concat {Y} (f : Y -> R) w : total f w = fold_right Rplus 0 (map f (concat w)).
Proof.
  unfold total. induction w as [|r w IH]; [reflexivity|]. cbn [map fold_right concat]. rewrite IH, map_app, fold_plus_app. reflexivity.
Qed.
Lemma fold_plus_perm l m : Permutation l m -> fold_right Rplus 0 l = fold_right Rplus 0 m.
Proof. induction 1; cbn [fold_right]; lra. Qed.
Lemma total_perm {Y} (f : Y -> R) w w' : Permutation (concat w) (concat w') -> total f w = total f w'.
Proof. intros H. rewrite !total_concat. apply fold_plus_perm. apply Permutation_map. exact H. Qed.
Lemma total_map {X Y} (g : X -> Y) (f : Y -> R) w : total f (map (map g) w) = total (fun x => f (g x)) w.
Proof. unfold total. rewrite map_map. f_equal. apply map_ext. intros r. rewrite map_map. reflexivity. Qed.

Section Directions.
  Context (solve : nat -> mat -> mat -> mat) (sm : smearing_type) (T kappa mo : R).

  Lemma dFdmu_perm w w' mu : Permutation (concat w) (concat w') -> Descent.dFdmu sm T mo w mu = Descent.dFdmu sm T mo w' mu.
  Proof. intros H. apply total_perm. exact H. Qed.
  Lemma dmu_deta_perm w w' mu : Permutation (concat w) (concat w') -> Descent.dmu_deta sm T mo w mu = Descent.dmu_deta sm T mo w' mu.
  Proof. intros H. apply total_perm. exact H. Qed.

  (** Steepest descent: the same slope, and there is one rule that gives the direction of every k-point on both sides. *)
  Lemma restarted_perm w w' mu : Permutation (concat w) (concat w') -> exists dir : kpt -> mat * mat,
    Descent.restarted solve sm T kappa mo w mu = (fst (Descent.restarted solve sm T kappa mo w' mu), map (map dir) w) /\
    snd (Descent.restarted solve sm T kappa mo w' mu) = map (map dir) w'.
  Proof.
    intros H. unfold Descent.restarted. cbn [fst snd]. rewrite <- (dFdmu_perm w w' mu H), <- (dmu_deta_perm w w' mu H).
    set (ex := Descent.exec_restart solve sm T kappa mo mu (Descent.dmu_deta sm T mo w mu) (Descent.dFdmu sm T mo w mu)).
    exists (fun k => (snd (fst (ex k)), snd (ex k))). rewrite !total_map. rewrite (total_perm _ w w' H).
    rewrite !map_map. split; [f_equal|]; apply map_ext; intros r; apply map_map.
  Qed.

  Lemma conjugated_perm fr w w' mu : Permutation (concat w) (concat w') -> exists dir : kpt * (mat * mat * mat) -> mat * mat,
    Descent.conjugated solve sm T kappa mo fr w mu =
      (fst (Descent.conjugated solve sm T kappa mo fr w' mu), map (map dir) w) /\
    snd (Descent.conjugated solve sm T kappa mo fr w' mu) = map (map dir) w'.
  Proof.
    intros H. unfold Descent.conjugated. cbn [fst snd].
    assert (H' : Permutation (concat (map (map fst) w)) (concat (map (map fst) w'))).
    { rewrite <- !concat_map. apply Permutation_map. exact H. }
    rewrite <- (dFdmu_perm _ _ mu H'), <- (dmu_deta_perm _ _ mu H').
    set (dm := Descent.dmu_deta sm T mo (map (map fst) w) mu). set (dF := Descent.dFdmu sm T mo (map (map fst) w) mu).
    set (ex := fun kz : kpt * (mat * mat * mat) => match kz with (k, (zxp, zetap, ul)) => Descent.exec_cg solve sm T kappa mo mu dm dF k zxp zetap ul end).
    rewrite !total_map. rewrite (total_perm _ w w' H).
    rewrite (total_perm (fun x => match ex x with (_, _, _, _, _, sl) => sl end) w w' H).
    set (f := total _ w'). set (g := total _ w').
    exists (fun x => match ex x with (_, dx, de, zx, ze, _) => (add zx dx 1 (f / fr), add ze de 1 (f / fr)) end).
    rewrite !map_map. split; [f_equal|]; apply map_ext; intros r; apply map_map.
  Qed.
End Directions.

(** ** Whole runs *)
(** the same system with its k-points on other ranks *)
Definition redistribute (C : setting) (rs : list (list key)) : setting :=
  MkSetting rs (nrow C) (ncol C) (wgt C) (ovl C) (prc C) (smt C) (nel C) (temp C) (kappa_ C) (occ_ C) (mu_tol C) (skip_nt C).

(** Two functionals in the same state: everything the library or the caller can read.  The ghost log of trial points is
    kept rank by rank, so it only has the same entries. *)
Definition same_state {En} (s t : ust En) : Prop :=
  s_en s = s_en t /\ s_X s = s_X t /\ s_fn s = s_fn t /\ s_HX s = s_HX t /\ s_ek s = s_ek t /\ s_etot s = s_etot t /\
  s_mu s = s_mu t /\ s_S s = s_S t /\ s_F s = s_F t /\ Permutation (s_log s) (s_log t).

Lemma mfind_graph {Y} (g : key -> Y) k l : mfind k (map (fun x => (x, g x)) l) = if existsb (keqb k) l then Some (g k) else None.
Proof.
  induction l as [|x l IH]; [reflexivity|]. cbn [map mfind existsb fst snd]. rewrite IH.
  destruct (keqb k x) eqn:E; cbn [orb]; [|reflexivity]. apply keqb_eq in E. subst. reflexivity.
Qed.
Lemma combine_graph {Y} (g : key -> Y) l : combine l (map g l) = map (fun x => (x, g x)) l.
Proof. induction l as [|x l IH]; [reflexivity|]. cbn [map combine]. rewrite IH. reflexivity. Qed.
Lemma existsb_perm {Y} (p : Y -> bool) l m : Permutation l m -> existsb p l = existsb p m.
Proof.
  induction 1; cbn [existsb]; [reflexivity|rewrite IHPermutation; reflexivity| |congruence].
  destruct (p x), (p y); reflexivity.
Qed.
Lemma forallb_perm {Y} (p : Y -> bool) l m : Permutation l m -> forallb p l = forallb p m.
Proof.
  induction 1; cbn [forallb]; [reflexivity|rewrite IHPermutation; reflexivity| |congruence].
  destruct (p x), (p y); reflexivity.
Qed.
Lemma by_key_graph {Y} (dflt : Y) ids (g : key -> Y) k :
  by_key dflt ids (map (map g) ids) k = if existsb (keqb k) (concat ids) then g k else dflt.
Proof.
  unfold by_key. rewrite <- concat_map, combine_graph, mfind_graph. destruct (existsb (keqb k) (concat ids)); reflexivity.
Qed.

Section Run.
  Context (solve : nat -> mat -> mat -> mat) (eigh : nat -> mat -> option (mat * (nat -> R))).
  Context (En Ex : Type).
  Context (ecompute : En -> (key -> mat) -> (key -> nat -> R) -> ((R * (key -> mat) * (key -> nat -> R)) + Ex) * En).
  Context (C : setting) (rs : list (list key)) (junk : key -> mat).
  Notation C' := (redistribute C rs).
  Hypothesis once : NoDup (concat (ranks C)).
  Hypothesis same_keys : Permutation (concat (ranks C)) (concat rs).

  Lemma mu_dist ek : us_mu C ek = us_mu C' ek.
  Proof.
    unfold us_mu. cbn [nel temp occ_ mu_tol skip_nt smt redistribute].
    assert (NK : NoDup (concat rs)) by (eapply Permutation_NoDup; eassumption).
    assert (EI : forall k, In k (concat (ranks C)) <-> In k (concat rs)).
    { intros k. split; apply Permutation_in; [exact same_keys|apply Permutation_sym; exact same_keys]. }
    rewrite (xunion_eq Rarith (band_world C ek) (band_world C' ek)); [rewrite (wunion_eq Rarith (band_world C ek) (band_world C' ek)); [reflexivity| | |]| | |].
    - rewrite weight_keys. exact once.
    - rewrite weight_keys. exact NK.
    - intros [k v]. unfold band_world. rewrite !map_map. cbn [snd ranks wgt redistribute].
      rewrite <- !concat_map, !in_map_iff. split; intros (x & E & H); exists x; (split; [exact E|apply EI; exact H]).
    - rewrite band_keys. exact once.
    - rewrite band_keys. exact NK.
    - intros [k v]. unfold band_world. rewrite !map_map. cbn [fst ranks ncol redistribute].
      rewrite <- !concat_map, !in_map_iff. split; intros (x & E & H); exists x; (split; [exact E|apply EI; exact H]).
  Qed.

  (** the entropy as one sum over the k-points *)
  Lemma entropy_total (B : setting) ek mu : us_entropy B ek mu =
    - total (fun k => wgt B k * rsum (map (fun i => sentropy (smearing_class (smt B)) ((mu - ek k i) / (kb Rarith * temp B)) (occ_ B)) (seq 0 (ncol B k)))) (ranks B).
  Proof.
    unfold us_entropy, band_world, total. f_equal. rewrite map_map. cbn [fst snd].
    unfold rsum at 1. f_equal. apply map_ext. intros r. unfold weighted. rewrite map_map. cbn [fst snd]. unfold rsum at 1. f_equal.
    apply map_ext_in. intros k Hk. f_equal. f_equal. unfold bands_at. rewrite mfind_graph.
    assert (E : existsb (keqb k) r = true) by (apply existsb_exists; exists k; split; [exact Hk|apply keqb_refl]).
    rewrite E, map_map. reflexivity.
  Qed.
  Lemma entropy_dist ek mu : us_entropy C ek mu = us_entropy C' ek mu.
  Proof. rewrite !entropy_total. f_equal. cbn [ranks wgt smt temp occ_ ncol redistribute]. apply total_perm. exact same_keys. Qed.

  Lemma same_refl (s : ust En) : same_state s s.
  Proof. repeat split. apply Permutation_refl. Qed.

  Lemma compute0_same (s t : ust En) : same_state s t ->
    fst (fe_compute0 En Ex ecompute s) = fst (fe_compute0 En Ex ecompute t) /\
    same_state (snd (fe_compute0 En Ex ecompute s)) (snd (fe_compute0 En Ex ecompute t)).
  Proof.
    intros (H1 & H2 & H3 & H4 & H5 & H6 & H7 & H8 & H9 & H10). unfold fe_compute0. rewrite H1, H2, H3.
    destruct (ecompute (s_en t) (s_X t) (s_fn t)) as [[[[e hx] ek]|x] en]; cbn [fst snd]; (split; [reflexivity|]);
      repeat split; cbn [s_en s_X s_fn s_HX s_ek s_etot s_mu s_S s_F s_log]; assumption.
  Qed.
  Lemma compute_same (s t : ust En) X fn ek mu : same_state s t ->
    fst (fe_compute En Ex ecompute C s X fn ek mu) = fst (fe_compute En Ex ecompute C' t X fn ek mu) /\
    same_state (snd (fe_compute En Ex ecompute C s X fn ek mu)) (snd (fe_compute En Ex ecompute C' t X fn ek mu)).
  Proof.
    intros (H1 & H2 & H3 & H4 & H5 & H6 & H7 & H8 & H9 & H10). unfold fe_compute. rewrite H1, (entropy_dist ek mu). cbn [temp redistribute].
    destruct (ecompute (s_en t) X fn) as [[[[e hx] hk]|x] en]; cbn [fst snd]; (split; [reflexivity|]);
      repeat split; cbn [s_en s_X s_fn s_HX s_ek s_etot s_mu s_S s_F s_log]; assumption.
  Qed.

  Lemma kpt_same d (s t : ust En) k : same_state s t -> kpt_of En C d s k = kpt_of En C' d t k.
  Proof. intros (_ & _ & _ & _ & H5 & _). unfold kpt_of. rewrite H5. reflexivity. Qed.

  Lemma steepest_same d (s t : ust En) : same_state s t ->
    us_steepest solve En Ex C d s = us_steepest solve En Ex C' d t.
  Proof.
    intros L. unfold us_steepest. cbn [smt temp kappa_ occ_ ranks redistribute].
    assert (HP : Permutation (concat (map (map (kpt_of En C d s)) (ranks C))) (concat (map (map (kpt_of En C' d t)) rs))).
    { rewrite <- !concat_map. rewrite (map_ext _ _ (fun k => kpt_same d s t k L)). apply Permutation_map. exact same_keys. }
    destruct (restarted_perm solve (smt C) (temp C) (kappa_ C) (occ_ C) _ _ (u_mu d) HP) as (dir & E1 & E2).
    rewrite E1. destruct (restarted solve (smt C) (temp C) (kappa_ C) (occ_ C) (map (map (kpt_of En C' d t)) rs) (u_mu d)) as [sl z]. cbn [fst snd] in *. subst z.
    assert (EZ : by_key (mzero, mzero) (ranks C) (map (map dir) (map (map (kpt_of En C d s)) (ranks C))) =
                 by_key (mzero, mzero) rs (map (map dir) (map (map (kpt_of En C' d t)) rs))).
    { extensionality k. rewrite !map_map.
      rewrite (map_ext _ (map (fun x => dir (kpt_of En C d s x))) (fun r => map_map _ _ r)).
      rewrite (map_ext (fun x => map dir (map (kpt_of En C' d t) x)) (map (fun x => dir (kpt_of En C' d t x))) (fun r => map_map _ _ r)).
      rewrite !by_key_graph, (existsb_perm _ _ _ same_keys), (kpt_same d s t k L). reflexivity. }
    rewrite EZ. reflexivity.
  Qed.

  Lemma conj_same fr d (s t : ust En) : same_state s t ->
    us_conj solve En Ex C fr d s = us_conj solve En Ex C' fr d t.
  Proof.
    intros L. unfold us_conj. cbn [smt temp kappa_ occ_ ranks redistribute].
    set (f := fun k => (kpt_of En C d s k, (u_zx d k, u_zeta d k, u_ul d k))).
    set (f' := fun k => (kpt_of En C' d t k, (u_zx d k, u_zeta d k, u_ul d k))).
    assert (Ef : forall k, f k = f' k) by (intros k; unfold f, f'; rewrite (kpt_same d s t k L); reflexivity).
    assert (HP : Permutation (concat (map (map f) (ranks C))) (concat (map (map f') rs))).
    { rewrite <- !concat_map. rewrite (map_ext _ _ Ef). apply Permutation_map. exact same_keys. }
    destruct (conjugated_perm solve (smt C) (temp C) (kappa_ C) (occ_ C) fr _ _ (u_mu d) HP) as (dir & E1 & E2).
    rewrite E1. destruct (conjugated solve (smt C) (temp C) (kappa_ C) (occ_ C) fr (map (map f') rs) (u_mu d)) as [[fr' sl] z]. cbn [fst snd] in *. subst z.
    assert (EZ : by_key (mzero, mzero) (ranks C) (map (map dir) (map (map f) (ranks C))) =
                 by_key (mzero, mzero) rs (map (map dir) (map (map f') rs))).
    { extensionality k. rewrite !map_map.
      rewrite (map_ext _ (map (fun x => dir (f x))) (fun r => map_map _ _ r)).
      rewrite (map_ext (fun x => map dir (map f' x)) (map (fun x => dir (f' x))) (fun r => map_map _ _ r)).
      rewrite !by_key_graph, (existsb_perm _ _ _ same_keys), (Ef k). reflexivity. }
    rewrite EZ. reflexivity.
  Qed.

  Lemma setup_same (s t : ust En) : same_state s t ->
    fst (us_setup solve En Ex ecompute C junk s) = fst (us_setup solve En Ex ecompute C' junk t) /\
    same_state (snd (us_setup solve En Ex ecompute C junk s)) (snd (us_setup solve En Ex ecompute C' junk t)).
  Proof.
    intros L. unfold us_setup. destruct (compute0_same s t L) as (Hf & Hs).
    destruct (fe_compute0 En Ex ecompute s) as [o1 s1], (fe_compute0 En Ex ecompute t) as [o2 t1]. cbn [fst snd] in Hf, Hs. subst o2.
    destruct o1 as [x|]; [split; [reflexivity|exact Hs]|].
    assert (Eek : s_ek s1 = s_ek t1) by apply Hs. assert (EX : s_X s1 = s_X t1) by apply Hs.
    rewrite Eek, EX, mu_dist. destruct (us_mu C' (s_ek t1)) as [mu|]; [|split; [reflexivity|exact Hs]].
    change (us_fn C' (s_ek t1) mu) with (us_fn C (s_ek t1) mu).
    destruct (compute_same s1 t1 (s_X t1) (us_fn C (s_ek t1) mu) (s_ek t1) mu Hs) as (Hf & Hs').
    destruct (fe_compute En Ex ecompute C s1 _ _ _ mu) as [o1 s2], (fe_compute En Ex ecompute C' t1 _ _ _ mu) as [o2 t2]. cbn [fst snd] in Hf, Hs'. subst o2.
    destruct o1 as [x|]; [split; [reflexivity|exact Hs']|].
    assert (EX' : s_X s2 = s_X t2) by apply Hs'. assert (EH : s_HX s2 = s_HX t2) by apply Hs'.
    rewrite EX', EH, (steepest_same _ s2 t2 Hs').
    destruct (us_steepest solve En Ex C' _ t2) as [[sl d]|e]; (split; [reflexivity|exact Hs']).
  Qed.

  Lemma log_same (s t : ust En) l l' : same_state s t -> Permutation l l' -> same_state (add_log En s l) (add_log En t l').
  Proof.
    intros (H1 & H2 & H3 & H4 & H5 & H6 & H7 & H8 & H9 & H10) H.
    repeat split; cbn [add_log s_en s_X s_fn s_HX s_ek s_etot s_mu s_S s_F s_log]; try assumption. apply Permutation_app; assumption.
  Qed.

  Lemma curve_same d x (s t : ust En) : same_state s t ->
    fst (us_curve eigh En Ex ecompute C d x s) = fst (us_curve eigh En Ex ecompute C' d x t) /\
    same_state (snd (us_curve eigh En Ex ecompute C d x s)) (snd (us_curve eigh En Ex ecompute C' d x t)).
  Proof.
    intros L. unfold us_curve.
    assert (HL : same_state (add_log En s (map (geo_call eigh C d x) (concat (ranks C)))) (add_log En t (map (geo_call eigh C' d x) (concat (ranks C'))))).
    { apply log_same; [exact L|]. exact (Permutation_map _ same_keys). }
    set (s1 := add_log En s _) in *. set (t1 := add_log En t _) in *.
    change (geo eigh C' d x) with (geo eigh C d x). cbn [ranks redistribute].
    rewrite (forallb_perm _ _ _ same_keys).
    destruct (forallb _ (concat rs)); [|split; [reflexivity|exact HL]].
    rewrite mu_dist. destruct (us_mu C' _) as [mu|]; [|split; [reflexivity|exact HL]].
    match goal with |- context [fe_compute En Ex ecompute C s1 ?X ?f ?e mu] =>
      destruct (compute_same s1 t1 X f e mu HL) as (Hf & Hs');
      change (us_fn C' e mu) with f in *;
      destruct (fe_compute En Ex ecompute C s1 X f e mu) as [o1 s2]; destruct (fe_compute En Ex ecompute C' t1 X f e mu) as [o2 t2]
    end.
    cbn [fst snd] in Hf, Hs'. subst o2. destruct o1; (split; [reflexivity|exact Hs']).
  Qed.

  Lemma accept_same d p (s t : ust En) : same_state s t -> us_accept En d p s = us_accept En d p t.
  Proof. intros (_ & _ & H3 & H4 & _). unfold us_accept. rewrite H3, H4. reflexivity. Qed.

  Theorem run_dist maxiter tol tau restart fq fb s t r1 st1 ev1 r2 st2 ev2 : same_state s t ->
    nlcg_us Rarith (us_problem solve eigh En Ex ecompute C junk) maxiter tol tau restart fq fb s = (r1, st1, ev1) ->
    nlcg_us Rarith (us_problem solve eigh En Ex ecompute C' junk) maxiter tol tau restart fq fb t = (r2, st2, ev2) ->
    r1 = r2 /\ ev1 = ev2 /\ same_state st1 st2.
  Proof.
    intros L E1 E2.
    pose proof (nlcg_us_like Rarith (ust En) udat upnt (us_exn Ex) s_F s_S s_etot s_mu
      (us_setup solve En Ex ecompute C junk) (us_setup solve En Ex ecompute C' junk)
      (us_curve eigh En Ex ecompute C) (us_curve eigh En Ex ecompute C')
      (us_accept En) (us_accept En) (us_steepest solve En Ex C) (us_steepest solve En Ex C')
      (us_conj solve En Ex C) (us_conj solve En Ex C') same_state) as H.
    specialize (H ltac:(intros ? ? L'; apply L') ltac:(intros ? ? L'; apply L') ltac:(intros ? ? L'; apply L') ltac:(intros ? ? L'; apply L')).
    specialize (H setup_same curve_same accept_same steepest_same conj_same maxiter tol tau restart fq fb s t L).
    destruct H as (H1 & H2 & H3).
    change (MkProblem Rarith (ust En) udat upnt (us_exn Ex) s_F s_S s_etot s_mu (us_setup solve En Ex ecompute C junk) (us_curve eigh En Ex ecompute C)
      (us_accept En) (us_steepest solve En Ex C) (us_conj solve En Ex C)) with (us_problem solve eigh En Ex ecompute C junk) in H1, H2, H3.
    change (MkProblem Rarith (ust En) udat upnt (us_exn Ex) s_F s_S s_etot s_mu (us_setup solve En Ex ecompute C' junk) (us_curve eigh En Ex ecompute C')
      (us_accept En) (us_steepest solve En Ex C') (us_conj solve En Ex C')) with (us_problem solve eigh En Ex ecompute C' junk) in H1, H2, H3.
    rewrite E1, E2 in H1, H2, H3. exact (Logic.conj H1 (Logic.conj H2 H3)).
  Qed.
End Run.
