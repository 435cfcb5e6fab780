(** Occupations from band energies: src/smearing.hpp 52-72 (sum_func), 347-409 (occupation_from_mvector),
    412-524 (occupation_from_mvector_newton), 527-544 (occupation_from_mvector1), 550-565, 595-629 (Smearing).

    All ranks of the k-point communicator execute the code; [world] lists their local band energies
    and weights.  The gathers are those of Mpi.v; what follows is local to each rank.  Copies between
    host and device are left out. *)
From Coq Require Import ZArith List Bool Lia Arith Reals Lra Permutation.
From Verif Require Import Arith MVector Mpi MpiProofs Containers ChemPot ChemPotProofs Newton.
Import ListNotations.

(** The static functions fn, delta, dxdelta, entropy (x, mo) of a smearing class. *)
Record smear (A : arith) := MkSmear {
  sfn : num A -> num A -> num A;
  sdelta : num A -> num A -> num A;
  sdxdelta : num A -> num A -> num A;
  sentropy : num A -> num A -> num A;
  non_monotonous : bool         (* derives from struct non_monotonous *)
}.
Arguments sfn {A}. Arguments sdelta {A}. Arguments sdxdelta {A}. Arguments sentropy {A}. Arguments non_monotonous {A}.

(** physical_constants::kb, src/constants.hpp. *)
Definition kb (A : arith) : num A := alit A 316681156340226 100000000000000000000.

Section Occ.
  Context (A : arith).
  Notation N := (num A).
  Notation zero := (alit A 0 1).

  (** sum_func::call, smearing.hpp 55-71 (a serial reduction). *)
  Definition sum_func (f : N -> N -> N) (ek : list N) (mu T mo : N) : N :=
    let kT := amul A (kb A) T in
    fold_left (fun v e => aadd A v (f (adiv A (amul A (alit A (-1) 1) (asub A e mu)) kT) mo)) ek zero.

  (** x[key] with the non-const operator[], mvector.hpp 43-46: a missing key yields an empty view.
      (The insertion it performs does not change any later result.) *)
  Definition view_at (x : smap (list N)) (k : key) : list N := match mfind k x with Some v => v | None => [] end.

  (** "sum += wki.second * g(x[key])" over all weights, smearing.hpp 368-375. *)
  Definition wsum (g : list N -> N) (x : smap (list N)) (wk : smap N) : N :=
    fold_left (fun s kw => aadd A s (amul A (snd kw) (g (view_at x (fst kw))))) wk zero.
  (** "fsum += wki.second / c * g(x[key])", smearing.hpp 456-470. *)
  Definition wsum_div (c : N) (g : list N -> N) (x : smap (list N)) (wk : smap N) : N :=
    fold_left (fun s kw => aadd A s (amul A (adiv A (snd kw) c) (g (view_at x (fst kw))))) wk zero.

  Context (Ne : N) (T occ tol : N).

  (** residual Ne - N(mu), smearing.hpp 367-377 *)
  Definition residual (S : smear A) (x : smap (list N)) (wk : smap N) (mu : N) : N :=
    asub A Ne (wsum (fun ek => sum_func (sfn S) ek mu T occ) x wk).

  (** chemical potential, occupation_from_mvector, smearing.hpp 366-379 *)
  Definition find_mu (S : smear A) (x : smap (list N)) (wk : smap N) : outcome newton_exn N :=
    match find_chemical_potential A (residual S x wk) tol zero with
    | (Ret mu, _, _) => Ret mu
    | (Throw _, _, _) => Throw RuntimeError
    | (UB, _, _) => UB
    | (NoFuel, _, _) => NoFuel
    end.

  (** chemical potential, occupation_from_mvector_newton, smearing.hpp 432-495; [Sg] is gauss_smearing *)
  Definition newton_mu (Sg S : smear A) (kT : N) (x : smap (list N)) (wk : smap N) : outcome newton_exn N :=
    match find_mu Sg x wk with
    | Ret mu0 =>
      let cN := fun mu => wsum (fun ek => sum_func (sfn S) ek mu T occ) x wk in
      let dN := fun mu => wsum_div kT (fun ek => sum_func (sdelta S) ek mu T occ) x wk in
      let ddN := fun mu => wsum_div (amul A kT kT) (fun ek => sum_func (sdxdelta S) ek mu T occ) x wk in
      match newton A cN dN ddN Ne tol 1000 mu0 with
      | (Ret mu, _) => Ret mu
      | (Throw _, _) => find_mu S x wk
      | (UB, _) => UB
      | (NoFuel, _) => NoFuel
      end
    | r => r
    end.

  (** out(i) = fn((mu - ek(i)) / kT, occ), smearing.hpp 381-397 *)
  Definition occupations (S : smear A) (kT mu : N) (x : smap (list N)) : smap (list N) :=
    map (fun kv => (fst kv, map (fun e => sfn S (adiv A (asub A mu e) kT) occ) (snd kv))) x.

  (** occupation_from_mvector1, smearing.hpp 527-544, as executed by every rank. *)
  Definition occupation (skip_newton : bool) (Sg S : smear A) (world : list (smap (list N) * smap N))
    : option (list (outcome newton_exn (N * smap (list N)))) :=
    let kT := amul A (kb A) T in
    match allgather_view (0, 0)%Z zero (map fst world), allgather_scalar ((0, 0)%Z, zero) (map snd world) with
    | Some xs, Some ws =>
      Some (map (fun r => match r with ((x, _), (x_all, wk_all)) =>
        match (if negb skip_newton && non_monotonous S then newton_mu Sg S kT x_all wk_all else find_mu S x_all wk_all) with
        | Ret mu => Ret (mu, occupations S kT mu x)
        | Throw e => Throw e
        | UB => UB
        | NoFuel => NoFuel
        end end) (combine world (combine xs ws)))
    | _, _ => None
    end.
End Occ.

(** ** Facts *)
Section Facts.
  Context (A : arith).
  Notation N := (num A).
  Context (Ne T occ tol : N).

  (** The union of the ranks' entries. *)
  Definition xunion (world : list (smap (list N) * smap N)) : smap (list N) := map_of_assignments (concat (map fst world)).
  Definition wunion (world : list (smap (list N) * smap N)) : smap N := map_of_range (concat (map snd world)).

  (** what every rank computes from the union *)
  Definition mu_of (skip : bool) (Sg S : smear A) (x : smap (list N)) (w : smap N) : outcome newton_exn N :=
    if negb skip && non_monotonous S then newton_mu A Ne T occ tol Sg S (amul A (kb A) T) x w else find_mu A Ne T occ tol S x w.

  Lemma occupation_spec skip Sg S world : world <> [] ->
    occupation A Ne T occ tol skip Sg S world =
    Some (map (fun r => match mu_of skip Sg S (xunion world) (wunion world) with
      | Ret mu => Ret (mu, occupations A occ S (amul A (kb A) T) mu (fst r))
      | Throw e => Throw e | UB => UB | NoFuel => NoFuel end) world).
  Proof.
    intros Hn. unfold occupation.
    rewrite allgather_view_spec by (destruct world; [congruence|discriminate]).
    rewrite allgather_scalar_spec by (destruct world; [congruence|discriminate]).
    rewrite !map_map. f_equal.
    assert (E : forall l : list (smap (list N) * smap N), combine l (combine (map (fun _ => xunion world) l) (map (fun _ => wunion world) l)) =
      map (fun r => (r, (xunion world, wunion world))) l).
    { induction l as [|a l IH]; cbn; [reflexivity|]. rewrite IH. reflexivity. }
    unfold xunion, wunion in E. rewrite E, map_map. apply map_ext. intros [x w]. reflexivity.
  Qed.

  (** What is known about the chemical potential. *)
  Lemma find_mu_sound S x w mu : find_mu A Ne T occ tol S x w = Ret mu ->
    altb A (aabs A (residual A Ne T occ S x w mu)) tol = true.
  Proof.
    unfold find_mu. destruct (find_chemical_potential A (residual A Ne T occ S x w) tol (alit A 0 1)) as [[o v] c] eqn:E.
    destruct o as [m|e| |]; try discriminate. intros H. inversion H; subst.
    eapply chem_sound. exact E.
  Qed.

  Lemma find_mu_outcomes S x w :
    (exists mu, find_mu A Ne T occ tol S x w = Ret mu) \/ find_mu A Ne T occ tol S x w = Throw RuntimeError.
  Proof.
    unfold find_mu. pose proof (chem_total A (residual A Ne T occ S x w) tol (alit A 0 1)) as H.
    destruct (find_chemical_potential A (residual A Ne T occ S x w) tol (alit A 0 1)) as [[o v] c]. cbn [fst] in H.
    destruct H as [(mu & ->)| ->]; eauto.
  Qed.

  (** The number of electrons in the code's own summation. *)
  Definition count S x w mu := wsum A (fun ek => sum_func A (sfn S) ek mu T occ) x w.

  Lemma newton_mu_sound Sg S kT x w mu : newton_mu A Ne T occ tol Sg S kT x w = Ret mu ->
    altb A (alit A 1 100) (aabs A (asub A (count S x w mu) Ne)) = false \/
    altb A (aabs A (residual A Ne T occ S x w mu)) tol = true.
  Proof.
    unfold newton_mu. destruct (find_mu A Ne T occ tol Sg x w) as [mu0|e| |]; try discriminate.
    cbv zeta.
    match goal with |- context [newton A ?a ?b ?c Ne tol 1000 mu0] => destruct (newton A a b c Ne tol 1000 mu0) as [o v] eqn:E end.
    destruct o as [m|e| |]; try discriminate; intros H.
    - inversion H; subst. left. eapply newton_sound. exact E.
    - right. apply find_mu_sound. exact H.
  Qed.

  Lemma mu_of_outcomes skip Sg S x w :
    (exists mu, mu_of skip Sg S x w = Ret mu) \/ mu_of skip Sg S x w = Throw RuntimeError.
  Proof.
    unfold mu_of. destruct (negb skip && non_monotonous S); [|apply find_mu_outcomes].
    unfold newton_mu. destruct (find_mu_outcomes Sg x w) as [(mu0 & ->)| ->]; [|auto]. cbv zeta.
    match goal with |- context [newton A ?a ?b ?c Ne tol 1000 mu0] => 
      destruct (newton_outcomes A a b c Ne tol 1000 mu0) as (_ & H); destruct (newton A a b c Ne tol 1000 mu0) as [o v] end.
    cbn [fst] in H. destruct H as [(mu & ->)| ->]; [eauto|]. apply find_mu_outcomes.
  Qed.

  (** Distributions with the same entries have the same union. *)
  Lemma xunion_eq w1 w2 :
    NoDup (keys (concat (map fst w1))) -> NoDup (keys (concat (map fst w2))) ->
    (forall kv, In kv (concat (map fst w1)) <-> In kv (concat (map fst w2))) -> xunion w1 = xunion w2.
  Proof.
    intros N1 N2 H. unfold xunion. apply wfm_ext; try apply wfm_of_assignments. intros k.
    rewrite !mfind_of_assignments. apply mfind_perm.
    - unfold keys in *. rewrite map_rev. apply NoDup_rev. exact N1.
    - unfold keys in *. rewrite map_rev. apply NoDup_rev. exact N2.
    - intros kv. rewrite <- !in_rev. apply H.
  Qed.
  Lemma wunion_eq w1 w2 :
    NoDup (keys (concat (map snd w1))) -> NoDup (keys (concat (map snd w2))) ->
    (forall kv, In kv (concat (map snd w1)) <-> In kv (concat (map snd w2))) -> wunion w1 = wunion w2.
  Proof.
    intros N1 N2 H. unfold wunion. apply wfm_ext; try apply wfm_of_range. intros k.
    rewrite !mfind_of_range. apply mfind_perm; assumption.
  Qed.
End Facts.

(** ** Exact arithmetic *)
(** Specification: electrons held by occupations [f] with weights [wk], rank by rank. *)
Definition electrons (wk : list (smap R)) (f : list (smap (list R))) : R :=
  rsum (map (fun p => rsum (map (fun kw => (snd kw * rsum (match mfind (fst kw) (snd p) with Some v => v | None => [] end))%R) (fst p)))
            (combine wk f)).

Lemma fold_rsum {X} (g : X -> R) (l : list X) : forall s, fold_left (fun s x => (s + g x)%R) l s = (s + rsum (map g l))%R.
Proof.
  induction l as [|x l IH]; intros s; cbn [fold_left map].
  - change (s = s + 0)%R. ring.
  - rewrite IH. change (rsum (g x :: map g l)) with (g x + rsum (map g l))%R. ring.
Qed.

Lemma Rlit01 : Rlit 0 1 = 0%R.
Proof. unfold Rlit. lra. Qed.

Lemma sum_func_R (f : R -> R -> R) (ek : list R) (mu T mo : R) :
  sum_func Rarith f ek mu T mo = rsum (map (fun e => f ((mu - e) / (kb Rarith * T))%R mo) ek).
Proof.
  unfold sum_func. cbn [aadd adiv amul asub alit Rarith].
  etransitivity; [exact (fold_rsum (fun e => f (Rlit (-1) 1 * (e - mu) / (kb Rarith * T))%R mo) ek (Rlit 0 1))|].
  rewrite Rlit01, Rplus_0_l. f_equal. apply map_ext. intros e. f_equal. unfold Rlit.
  unfold Rdiv. f_equal. field.
Qed.

Lemma wsum_R (g : list R -> R) (x : smap (list R)) (wk : smap R) :
  wsum Rarith g x wk = rsum (map (fun kw => (snd kw * g (view_at Rarith x (fst kw)))%R) wk).
Proof.
  unfold wsum. cbn [aadd amul alit Rarith].
  etransitivity; [exact (fold_rsum (fun kw : key * R => (snd kw * g (view_at Rarith x (fst kw)))%R) wk (Rlit 0 1))|].
  rewrite Rlit01, Rplus_0_l. reflexivity.
Qed.

Lemma rsum_perm l1 l2 : Permutation l1 l2 -> rsum l1 = rsum l2.
Proof.
  induction 1; try reflexivity.
  - change (x + rsum l = x + rsum l')%R. congruence.
  - change (y + (x + rsum l) = x + (y + rsum l))%R. ring.
  - congruence.
Qed.

Lemma range_perm {V} (l : list (key * V)) : NoDup (keys l) -> Permutation (map_of_range l) l.
Proof.
  intros H. pose proof (wfm_of_range l) as Hw.
  assert (Hnd : forall m : list (key * V), NoDup (keys m) -> NoDup m) by (intros m Hm; eapply NoDup_map_inv; exact Hm).
  apply NoDup_Permutation; auto.
  - apply Hnd. apply wfm_nodup. exact Hw.
  - intros [k v]. rewrite <- (mfind_In k v _ Hw). rewrite mfind_of_range. apply mfind_nodup. exact H.
Qed.

Lemma mfind_concat {V} (ws : list (smap V)) m k : NoDup (keys (concat ws)) -> In m ws -> In k (keys m) ->
  mfind k (concat ws) = mfind k m.
Proof.
  intros H Hm Hk. destruct (proj2 (mfind_in k m) Hk) as (v & Hv). rewrite Hv.
  apply mfind_nodup; [exact H|]. apply in_concat. exists m. split; [exact Hm|].
  clear -Hv. induction m as [|[k' v'] m IH]; cbn in *; [discriminate|]. destruct (keqb k k') eqn:E.
  - apply keqb_eq in E. inversion Hv. subst. left. reflexivity.
  - right. auto.
Qed.

Lemma combine_map2 {X Y Z} (f : X -> Y) (g : X -> Z) (l : list X) : combine (map f l) (map g l) = map (fun x => (f x, g x)) l.
Proof. induction l as [|a l IH]; cbn; [reflexivity|]. rewrite IH. reflexivity. Qed.

Section Real.
  Context (Ne T occ tol : R).
  Implicit Types world : list (smap (list R) * smap R).

  (** The count of the code is the number of electrons in the occupations it returns. *)
  Lemma count_electrons (S : smear Rarith) world mu :
    NoDup (keys (concat (map fst world))) -> NoDup (keys (concat (map snd world))) ->
    (forall xw, In xw world -> keys (fst xw) = keys (snd xw)) ->
    count Rarith T occ S (xunion Rarith world) (wunion Rarith world) mu =
    electrons (map snd world) (map (fun xw => occupations Rarith occ S (kb Rarith * T)%R mu (fst xw)) world).
  Proof.
    intros Nx Nw Hk. unfold count. rewrite wsum_R.
    set (g := fun ek => sum_func Rarith (sfn S) ek mu T occ).
    set (h := fun kw : key * R => (snd kw * g (view_at Rarith (xunion Rarith world) (fst kw)))%R).
    etransitivity; [apply (rsum_perm _ (map h (concat (map snd world)))); apply Permutation_map; apply range_perm; exact Nw|].
    rewrite <- (rsum_concat h). rewrite map_map. unfold electrons.
    f_equal.
    pose proof (combine_map2 (fun xw : smap (list R) * smap R => snd xw) (fun xw => occupations Rarith occ S (kb Rarith * T)%R mu (fst xw)) world) as E.
    etransitivity; [|symmetry; exact (f_equal (map _) E)]. rewrite map_map. apply map_ext_in. intros [x w] Hin. cbn [fst snd].
    f_equal. apply map_ext_in. intros [k wk] Hkw. unfold h. cbn [fst snd].
    f_equal. pose proof (Hk _ Hin) as Hkk. cbn [fst snd] in Hkk.
    assert (Hkx : In k (keys x)). { rewrite Hkk. unfold keys. apply in_map_iff. exists (k, wk). auto. }
    assert (Ef : mfind k (xunion Rarith world) = mfind k x).
    { unfold xunion. rewrite mfind_of_assignments.
      etransitivity; [apply (mfind_perm k _ (concat (map fst world)))|].
      - unfold keys in *. rewrite map_rev. apply NoDup_rev. exact Nx.
      - exact Nx.
      - intros kv. rewrite <- in_rev. reflexivity.
      - apply mfind_concat; [exact Nx| |exact Hkx]. apply in_map_iff. exists (x, w). auto. }
    unfold view_at. rewrite Ef. destruct (proj2 (mfind_in k x) Hkx) as (v & Hv). rewrite Hv.
    assert (Eo : mfind k (occupations Rarith occ S (kb Rarith * T)%R mu x) = Some (map (fun e => sfn S ((mu - e) / (kb Rarith * T))%R occ) v)).
    { clear -Hv. unfold occupations. induction x as [|[k' v'] x IH]; cbn in *; [discriminate|].
      destruct (keqb k k'); [inversion Hv; reflexivity|auto]. }
    etransitivity; [|symmetry; exact (f_equal (fun o => rsum (match o with Some v => v | None => [] end)) Eo)].
    unfold g. rewrite sum_func_R. reflexivity.
  Qed.

  Lemma occupation_conserves (skip : bool) (Sg S : smear Rarith) world outs :
    NoDup (keys (concat (map fst world))) -> NoDup (keys (concat (map snd world))) ->
    (forall xw, In xw world -> keys (fst xw) = keys (snd xw)) ->
    occupation Rarith Ne T occ tol skip Sg S world = Some outs -> world <> [] ->
    (forall o, In o outs -> o = Throw RuntimeError) \/
    exists (mu : num Rarith) (fs : list (smap (list (num Rarith)))), outs = map (fun f => Ret (mu, f)) fs /\
      if negb skip && non_monotonous S
      then (Rabs (Ne - electrons (map snd world) fs) < tol \/ Rabs (Ne - electrons (map snd world) fs) <= 1/100)%R
      else (Rabs (Ne - electrons (map snd world) fs) < tol)%R.
  Proof.
    intros Nx Nw Hk Ho Hn. rewrite occupation_spec in Ho by exact Hn. inversion Ho; subst outs. clear Ho.
    destruct (mu_of_outcomes Rarith Ne T occ tol skip Sg S (xunion Rarith world) (wunion Rarith world)) as [(mu & Hmu)|Hmu].
    - right. exists mu, (map (fun xw => occupations Rarith occ S (kb Rarith * T)%R mu (fst xw)) world).
      split. { rewrite map_map. apply map_ext. intros r. rewrite Hmu. reflexivity. }
      pose proof (count_electrons S world mu Nx Nw Hk) as Hc.
      assert (Hfind : forall x, altb Rarith (aabs Rarith (residual Rarith Ne T occ S x (wunion Rarith world) mu)) tol = true ->
         (Rabs (Ne - count Rarith T occ S x (wunion Rarith world) mu) < tol)%R).
      { intros x H. apply Rltb_true in H. exact H. }
      unfold mu_of in Hmu. destruct (negb skip && non_monotonous S).
      + rewrite <- Hc. destruct (newton_mu_sound Rarith Ne T occ tol Sg S _ _ _ mu Hmu) as [H|H].
        * right. apply Rltb_false in H. cbn [aabs asub Rarith alit] in H. unfold Rlit in H.
          rewrite Rabs_minus_sym. exact H.
        * left. apply Hfind. exact H.
      + rewrite <- Hc. apply Hfind. apply find_mu_sound. exact Hmu.
    - left. intros o Hin. apply in_map_iff in Hin. destruct Hin as (r & <- & _). rewrite Hmu. reflexivity.
  Qed.
End Real.

(** A weight whose key has no band energies adds w * 0. *)
Lemma wsum_missing A (f : num A -> num A -> num A) mu T mo x wk k w :
  mfind k x = None ->
  wsum A (fun ek => sum_func A f ek mu T mo) x (wk ++ [(k, w)]) =
  aadd A (wsum A (fun ek => sum_func A f ek mu T mo) x wk) (amul A w (alit A 0 1)).
Proof. intros H. unfold wsum. rewrite fold_left_app. cbn. unfold view_at. rewrite H. reflexivity. Qed.
