(** The run model against the multi-rank models of Smearing, and the number of electrons of every energy evaluation. *)
From Coq Require Import Reals Lra ZArith List Bool Arith Lia Sorting.Sorted.
From Coquelicot Require Import Complex.
From Verif Require Import Arith LinAlg MVector Mpi MpiProofs Containers ChemPot ChemPotProofs Newton Occupation Erf Smearing SmearingUse
  Descent DescentProofs Geodesic GeodesicProofs LineSearch Driver DriverProofs DriverInv UsRun UsRunProofs.
Import ListNotations.
Local Open Scope R_scope.

Section Count.
  Context (C : setting).
  Notation S := (smearing_class (smt C)).
  Notation kT := (kb Rarith * temp C).
  Notation keysC := (all_keys C).

  Lemma band_keys ek : keys (concat (map fst (band_world C ek))) = keysC.
  Proof. rewrite bands_concat. unfold keys. rewrite map_map. apply map_id. Qed.
  Lemma weight_keys ek : keys (concat (map snd (band_world C ek))) = keysC.
  Proof. rewrite weights_concat. unfold keys. rewrite map_map. apply map_id. Qed.

  (** us_mu and us_fn are what every rank gets from Smearing::fn. *)
  Lemma us_occupation ek : ranks C <> [] ->
    occupation Rarith (nel C) (temp C) (occ_ C) (mu_tol C) (skip_nt C) gauss_smearing S (band_world C ek) =
    Some (map (fun r => match us_mu C ek with
      | Some mu => Ret (mu, map (fun k => (k, map (us_fn C ek mu k) (seq 0 (ncol C k)))) r)
      | None => Throw RuntimeError end) (ranks C)).
  Proof.
    intros Hr. rewrite occupation_spec by (unfold band_world; destruct (ranks C); [congruence|discriminate]). f_equal.
    unfold us_mu.
    destruct (mu_of_outcomes Rarith (nel C) (temp C) (occ_ C) (mu_tol C) (skip_nt C) gauss_smearing S
                (xunion Rarith (band_world C ek)) (wunion Rarith (band_world C ek))) as [(mu & ->)| ->].
    - unfold band_world at 1. rewrite map_map. apply map_ext. intros r. cbn [fst]. unfold occupations. rewrite map_map. repeat f_equal.
      apply FunctionalExtensionality.functional_extensionality. intros k. cbn [fst snd]. rewrite map_map. reflexivity.
    - unfold band_world at 1. rewrite map_map. reflexivity.
  Qed.

  (** weighted number of electrons in given occupations *)
  Definition charge (fn : key -> nat -> R) : R := rsum (map (fun k => wgt C k * rsum (map (fn k) (seq 0 (ncol C k)))) keysC).
  (** what Smearing::fn guarantees: the tolerance, or 1/100 when the Newton minimisation was used *)
  Definition charge_ok (fn : key -> nat -> R) : Prop :=
    Rabs (nel C - charge fn) < mu_tol C \/
    (skip_nt C = false /\ (smt C = METHFESSEL_PAXTON \/ smt C = COLD) /\ Rabs (nel C - charge fn) <= 1 / 100).

  Lemma rsum_concat_map {X} (g : X -> R) (ls : list (list X)) : rsum (map (fun l => rsum (map g l)) ls) = rsum (map g (concat ls)).
  Proof. rewrite <- (rsum_concat g). reflexivity. Qed.
  Lemma find_own {V} (f : key -> V) (l : list key) k : In k l -> mfind k (map (fun k => (k, f k)) l) = Some (f k).
  Proof.
    intros H. rewrite mfind_bands. destruct (existsb (keqb k) l) eqn:E; [reflexivity|]. exfalso.
    assert (existsb (keqb k) l = true); [|congruence]. apply existsb_exists. exists k. split; [exact H|]. apply keqb_eq. reflexivity.
  Qed.

  Lemma charge_electrons ek mu : electrons (map snd (band_world C ek)) (map (fun xw => occupations Rarith (occ_ C) S kT mu (fst xw)) (band_world C ek)) =
    charge (us_fn C ek mu).
  Proof.
    unfold electrons, charge, all_keys. rewrite <- rsum_concat_map. f_equal.
    pose proof (combine_map2 (fun xw : smap (list R) * smap R => snd xw) (fun xw => occupations Rarith (occ_ C) S kT mu (fst xw)) (band_world C ek)) as E.
    etransitivity; [exact (f_equal (map _) E)|]. unfold band_world. rewrite !map_map. apply map_ext. intros r. cbn [fst snd].
    rewrite map_map. cbn [fst snd]. f_equal. apply map_ext_in. intros k Hk. f_equal.
    assert (Eo : occupations Rarith (occ_ C) S kT mu (map (fun k => (k, map (ek k) (seq 0 (ncol C k)))) r) =
                 map (fun k => (k, map (fun e => sfn S ((mu - e) / kT) (occ_ C)) (map (ek k) (seq 0 (ncol C k))))) r).
    { unfold occupations. exact (map_map _ _ r). }
    etransitivity; [exact (f_equal (fun o => rsum (match mfind k o with Some v => v | None => [] end)) Eo)|].
    pose proof (find_own (fun k => map (fun e => sfn S ((mu - e) / kT) (occ_ C)) (map (ek k) (seq 0 (ncol C k)))) r k Hk) as Ef.
    etransitivity; [exact (f_equal (fun o => rsum (match o with Some v => v | None => [] end)) Ef)|]. exact (f_equal rsum (map_map _ _ _)).
  Qed.

  Lemma us_mu_count ek mu : NoDup keysC -> us_mu C ek = Some mu -> charge_ok (us_fn C ek mu).
  Proof.
    intros Hn. unfold us_mu. destruct (mu_of _ _ _ _ _ _ _ _ _ _) as [m|e| |] eqn:E; try discriminate. intros H; inversion H; subst m.
    pose proof (count_electrons (temp C) (occ_ C) S (band_world C ek) mu) as Hc. rewrite band_keys, weight_keys in Hc.
    specialize (Hc Hn Hn). rewrite charge_electrons in Hc.
    assert (Hk : forall xw, In xw (band_world C ek) -> keys (fst xw) = keys (snd xw)).
    { intros xw Hx. apply in_map_iff in Hx. destruct Hx as (r & <- & _). cbn [fst snd]. unfold keys. rewrite !map_map. reflexivity. }
    specialize (Hc Hk).
    assert (Hf : altb Rarith (aabs Rarith (residual Rarith (nel C) (temp C) (occ_ C) S (xunion Rarith (band_world C ek)) (wunion Rarith (band_world C ek)) mu)) (mu_tol C) = true ->
       Rabs (nel C - charge (us_fn C ek mu)) < mu_tol C).
    { intros Hx. apply Rltb_true in Hx. rewrite <- Hc. exact Hx. }
    unfold mu_of in E. destruct (negb (skip_nt C) && non_monotonous S) eqn:Eb.
    - apply andb_true_iff in Eb. destruct Eb as [Eb1 Eb2].
      destruct (newton_mu_sound Rarith (nel C) (temp C) (occ_ C) (mu_tol C) gauss_smearing S _ _ _ mu E) as [Hx|Hx].
      + right. split; [destruct (skip_nt C); [discriminate|reflexivity]|]. split.
        * destruct (smt C); try discriminate; auto.
        * apply Rltb_false in Hx. rewrite <- Hc, Rabs_minus_sym. cbn [aabs asub Rarith alit] in Hx. unfold Rlit in Hx. exact Hx.
      + left. exact (Hf Hx).
    - left. apply Hf. apply find_mu_sound. exact E.
  Qed.

  (** us_entropy is what every rank gets from Smearing::entropy. *)
  Lemma us_entropy_all ek mu (red : list (num Rarith) -> num Rarith) : (forall l, red l = rsum l) ->
    (forall r, In r (ranks C) -> StronglySorted klt r) ->
    smearing_entropy Rarith (length (ranks C)) red S (temp C) (occ_ C) mu
      (map (fun xw => (MkMvec (fst xw) CK, MkMvec (snd xw) CK)) (band_world C ek)) =
    Some (map (fun _ => Ret (us_entropy C ek mu)) (ranks C)).
  Proof.
    intros Hred Hs.
    assert (Hkeys : forall {V} (f : key -> V) r, keys (map (fun k => (k, f k)) r) = r) by (intros; unfold keys; rewrite map_map; apply map_id).
    pose proof (smearing_entropy_spec S (temp C) (occ_ C) mu (length (ranks C)) red
      (map (fun xw => (MkMvec (fst xw) CK, MkMvec (snd xw) CK)) (band_world C ek)) Hred) as E.
    etransitivity; [apply E|].
    - unfold band_world. rewrite !map_length. reflexivity.
    - intros x Hx. apply in_map_iff in Hx. destruct Hx as (xw & <- & Hxw). apply in_map_iff in Hxw. destruct Hxw as (r & <- & Hr).
      unfold rank_ok. cbn [fst snd mdata mcomm]. unfold wfm. rewrite !Hkeys. repeat split; auto.
    - f_equal. unfold band_world, us_entropy, band_world. rewrite !map_map. reflexivity.
  Qed.
End Count.

(** ** Every energy evaluation *)
Section Runs.
  Context (solve : nat -> mat -> mat -> mat) (eigh : nat -> mat -> option (mat * (nat -> R))) (En Ex : Type).
  Context (ecompute : En -> (key -> mat) -> (key -> nat -> R) -> ((R * (key -> mat) * (key -> nat -> R)) + Ex) * En).
  Context (C : setting) (junk : key -> mat).
  (** The functional of the caller with a list of the occupations it has been called with, newest first. *)
  Definition recorded (en : En * list (key -> nat -> R)) (X : key -> mat) (fn : key -> nat -> R)
    : ((R * (key -> mat) * (key -> nat -> R)) + Ex) * (En * list (key -> nat -> R)) :=
    match ecompute (fst en) X fn with (o, en') => (o, (en', fn :: snd en)) end.
  Notation St := (ust (En * list (key -> nat -> R))).
  Notation Pb := (us_problem solve eigh (En * list (key -> nat -> R)) Ex recorded C junk).
  Context (f0 : key -> nat -> R) (Hn : NoDup (all_keys C)).
  Definition evals_ok (s : St) : Prop := exists l, snd (s_en s) = l ++ [f0] /\ Forall (charge_ok C) l.

  Lemma compute_evals s X fn ek mu o s' : evals_ok s -> charge_ok C fn -> fe_compute (En * list (key -> nat -> R)) Ex recorded C s X fn ek mu = (o, s') -> evals_ok s'.
  Proof.
    intros (l & El & Hl) Hf. unfold fe_compute, recorded. destruct (ecompute (fst (s_en s)) X fn) as [[[[e hx] hk]|x] en'];
      intros H; inversion H; subst; (exists (fn :: l); cbn [s_en snd]; split; [rewrite El; reflexivity|constructor; assumption]).
  Qed.

  Lemma run_counts maxiter tol tau restart fq fb s0 r st evs : snd (s_en s0) = [] -> s_fn s0 = f0 ->
    nlcg_us Rarith Pb maxiter tol tau restart fq fb s0 = (r, st, evs) -> evals_ok st.
  Proof.
    intros H0 Hf0 H.
    assert (HI : invariants Rarith Pb evals_ok (fun _ => True) (fun _ _ => True) (fun _ _ => True) (fun _ _ _ => True) (fun _ => True) False).
    { constructor; try (intros; repeat split; exact I); [|contradiction].
      intros d t s o s' _ Hs Hc. split; [|auto]. cbn [curve us_problem] in Hc. unfold us_curve in Hc. cbv zeta in Hc.
      set (s1 := add_log _ s _) in Hc. assert (Hs1 : evals_ok s1) by exact Hs. clearbody s1.
      destruct (forallb _ _); [|inversion Hc; subst; exact Hs1]. set (ek := fun k => match geo eigh C d t k with Some (e, _, _) => e | None => fun _ => 0 end) in Hc.
      destruct (us_mu C ek) as [mu|] eqn:Em; [|inversion Hc; subst; exact Hs1].
      destruct (fe_compute _ _ _ _ _ _ _ _ _) as [[x|] s2] eqn:Ef; inversion Hc; subst;
        (eapply compute_evals; [exact Hs1|apply us_mu_count; [exact Hn|exact Em]|exact Ef]). }
    refine (proj1 (run_inv Rarith Pb maxiter tol tau restart fq fb _ _ _ _ _ _ _ HI s0 r st evs _ H)).
    intros o s Hs. split; [|intros; repeat split; exact I]. cbn [setup us_problem] in Hs. unfold us_setup in Hs.
    destruct (fe_compute0 _ _ _ s0) as [[x|] s1] eqn:E1; unfold fe_compute0, recorded in E1.
    - exists []. destruct (ecompute _ _ _) as [[[[e hx] hk]|x'] en']; inversion E1; subst; inversion Hs; subst. cbn [s_en snd app]. rewrite H0, Hf0. split; [reflexivity|constructor].
    - assert (Hs1 : evals_ok s1).
      { exists []. destruct (ecompute _ _ _) as [[[[e hx] hk]|x'] en']; inversion E1; subst. cbn [s_en snd app]. rewrite H0, Hf0. split; [reflexivity|constructor]. }
      clear E1. destruct (us_mu C (s_ek s1)) as [mu|] eqn:Em; [|inversion Hs; subst; exact Hs1].
      destruct (fe_compute _ _ _ _ _ _ _ _ _) as [[x|] s2] eqn:Ef;
        (assert (Hs2 : evals_ok s2) by (eapply compute_evals; [exact Hs1|apply us_mu_count; [exact Hn|exact Em]|exact Ef])).
      + inversion Hs; subst. exact Hs2.
      + destruct (us_steepest _ _ _ _ _) as [[sl d]|e]; inversion Hs; subst; exact Hs2.
  Qed.
End Runs.
