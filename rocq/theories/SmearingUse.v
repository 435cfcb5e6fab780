(** Smearing::entropy and the free energy, temperature validation, and success of the chemical potential
    search for the concrete smearing functions. *)
From Coq Require Import Reals Lra Psatz ZArith List Bool Lia.
From Verif Require Import Arith Erf MVector Mpi MpiProofs Containers ChemPot ChemPotProofs Newton Occupation Smearing SmearingProofs SmearingProofs2.
Import ListNotations.
Local Open Scope R_scope.

(** *** Entropy of the whole system, written directly *)
Definition bands_at (x : smap (list R)) (k : key) : list R := match mfind k x with Some v => v | None => [] end.
(** sum over all weights and bands of w * g(e) *)
Definition weighted (g : R -> R) (x : smap (list R)) (wk : smap R) : R :=
  rsum (map (fun kw => snd kw * rsum (map g (bands_at x (fst kw)))) wk).

Section Entropy.
  Context (S : smear Rarith) (T occ mu : R).
  Let g (e : R) : R := sentropy S ((mu - e) / (kb Rarith * T)) occ.

  Lemma forall2_map_l {X Y} (P : X -> Y -> Prop) (f : X -> Y) l : forall r, Forall2 P l r -> (forall x y, In x l -> P x y -> y = f x) -> r = map f l.
  Proof.
    induction l as [|a l IH]; intros r H Hf; inversion H; subst; cbn; [reflexivity|].
    f_equal; [apply Hf; [left; reflexivity|assumption]|]. apply IH; [assumption|]. intros x y0 Hx. apply Hf. right. exact Hx.
  Qed.

  Lemma entropy_term_spec (en : mvec (list (num Rarith))) (wk : mvec (num Rarith)) :
    wfm (mdata en) -> wfm (mdata wk) -> (forall k, In k (keys (mdata wk)) -> In k (keys (mdata en))) ->
    entropy_term Rarith S T occ mu en wk = Ret (MkMvec (map (fun kw => (fst kw, snd kw * rsum (map g (bands_at (mdata en) (fst kw))))) (mdata wk)) (mcomm wk)).
  Proof.
    intros W1 W2 Hk. unfold entropy_term.
    destruct (tapply_spec (fun e (_ : list unit) => sum_func Rarith (sentropy S) e mu T occ) en [] W1 ltac:(intros k m _ [])) as (r & -> & F).
    assert (Er : r = map (fun kv => (fst kv, sum_func Rarith (sentropy S) (snd kv) mu T occ)) (mdata en)).
    { apply (forall2_map_l _ _ _ _ F). intros [k v] [k' v'] _ (H1 & us & _ & H2). cbn [fst snd] in *. subst. reflexivity. }
    assert (Kr : keys r = keys (mdata en)) by (subst r; unfold keys; rewrite map_map; apply map_ext; reflexivity).
    assert (Wr : wfm r) by (unfold wfm; rewrite Kr; exact W1).
    destruct (tapply_spec (fun w es => amul Rarith w (hd (alit Rarith 0 1) es)) wk [MkMvec r (mcomm en)] W2) as (t & -> & Ft).
    { intros k m Hin [<-|[]]. cbn [mdata]. rewrite Kr. apply Hk. exact Hin. }
    f_equal. f_equal. apply (forall2_map_l _ _ _ _ Ft). intros [k w] [k' t'] Hin (H1 & us & Hus & H2). cbn [fst snd map mdata] in *. subst k' t'.
    f_equal. assert (Hk' : In k (keys (mdata en))) by (apply Hk; apply (in_map fst) in Hin; exact Hin).
    apply mfind_in in Hk'. destruct Hk' as (v & Hv).
    assert (Hr : mfind k r = Some (sum_func Rarith (sentropy S) v mu T occ)).
    { apply mfind_nodup; [apply wfm_nodup; exact Wr|]. rewrite Er. apply mfind_In in Hv; [|exact W1].
      apply (in_map (fun kv => (fst kv, sum_func Rarith (sentropy S) (snd kv) mu T occ))) in Hv. exact Hv. }
    rewrite Hr in Hus. destruct us as [|u [|u' us]]; cbn in Hus; try discriminate. injection Hus as ->.
    assert (Hb : bands_at (mdata en) k = v) by exact (f_equal (fun o => match o with Some v => v | None => [] end) Hv).
    rewrite Hb. cbn [hd amul Rarith]. eqR. f_equal. exact (sum_func_R (sentropy S) v mu T occ).
  Qed.

  Definition rank_ok (r : mvec (list (num Rarith)) * mvec (num Rarith)) : Prop :=
    wfm (mdata (fst r)) /\ wfm (mdata (snd r)) /\ (forall k, In k (keys (mdata (snd r))) -> In k (keys (mdata (fst r)))) /\ mcomm (snd r) = CK.

  Lemma smearing_entropy_spec n (red : list (num Rarith) -> num Rarith) world :
    (forall l, red l = rsum l) -> n = length world -> (forall r, In r world -> rank_ok r) ->
    smearing_entropy Rarith n red S T occ mu world =
    Some (map (fun _ => Ret (- rsum (map (fun r => weighted g (mdata (fst r)) (mdata (snd r))) world))) world).
  Proof.
    intros Hred Hn Hok. unfold smearing_entropy.
    set (tm := fun r : mvec (list (num Rarith)) * mvec (num Rarith) => map (fun kw => (fst kw, snd kw * rsum (map g (bands_at (mdata (fst r)) (fst kw))))) (mdata (snd r))).
    assert (E : entropy_terms Rarith S T occ mu world = Some (map tm world)).
    { clear Hn. induction world as [|[en wk] world IH]; cbn [entropy_terms map]; [reflexivity|].
      destruct (Hok (en, wk) (or_introl eq_refl)) as (W1 & W2 & Hk & _). cbn [fst snd] in *.
      rewrite entropy_term_spec by assumption. rewrite IH by (intros r Hr; apply Hok; right; exact Hr). reflexivity. }
    rewrite E. f_equal. destruct world as [|r0 world]; [reflexivity|].
    destruct (Hok r0 (or_introl eq_refl)) as (_ & _ & _ & ->).
    rewrite (dsum_K n red Hred) by (rewrite ?map_length; auto; cbn; lia).
    rewrite !map_map. apply map_ext. intros _. f_equal. cbn [amul alit Rarith].
    match goal with |- _ = - ?b => transitivity (- 1 * b); [|eqR; ring] end.
    unfold Rlit. replace (-1 / 1) with (-1) by field. eqR. f_equal.
    etransitivity; [symmetry; exact (rsum_concat (@snd key R) (map tm (r0 :: world)))|].
    rewrite map_map. f_equal. apply map_ext. intros r. unfold tm, weighted. rewrite map_map. reflexivity.
  Qed.
End Entropy.

Lemma rsum_nonneg l : (forall x, In x l -> 0 <= x) -> 0 <= rsum l.
Proof.
  induction l as [|x l IH]; intros H; [apply Rle_refl|]. change (0 <= x + rsum l).
  pose proof (H x (or_introl eq_refl)). pose proof (IH (fun y Hy => H y (or_intror Hy))). lra.
Qed.
Lemma weighted_nonneg g x wk : (forall kw, In kw wk -> 0 <= snd kw) -> (forall e, 0 <= g e) -> 0 <= weighted g x wk.
Proof.
  intros Hw Hg. unfold weighted. apply rsum_nonneg. intros y Hy. apply in_map_iff in Hy. destruct Hy as (kw & <- & Hin).
  apply Rmult_le_pos; [apply Hw; exact Hin|]. apply rsum_nonneg. intros z Hz. apply in_map_iff in Hz. destruct Hz as (e & <- & _). apply Hg.
Qed.

Lemma entropy_nonneg s x mo : 0 <= mo -> s = FERMI_DIRAC \/ s = GAUSS \/ s = GAUSSIAN_SPLINE -> 0 <= sentropy (smearing_class s) x mo.
Proof.
  intros Hm [->|[->| ->]]; cbn [smearing_class sentropy fermi_dirac gauss_smearing gaussian_spline].
  - apply fd_entropy_pos, Hm.
  - apply gauss_entropy_pos, Hm.
  - apply gs_entropy_pos.
Qed.

Lemma kb_pos : 0 < kb Rarith.
Proof. unfold kb. cbn [alit Rarith]. unfold Rlit. apply Rdiv_lt_0_compat; apply IZR_lt; lia. Qed.

(** *** Temperature *)
Lemma ctor_spec (T : R) : smearing_ctor Rarith T = if Req_EM_T T 0 then Throw RuntimeError else Ret (T * kb Rarith).
Proof.
  unfold smearing_ctor. cbn [aleb alit amul Rarith]. unfold Rlit. replace (0 / 1) with 0 by field.
  destruct (Req_EM_T T 0) as [->|H].
  - replace (Rleb 0 0) with true by (symmetry; apply Rleb_true; lra). reflexivity.
  - destruct (Rleb T 0) eqn:E1, (Rleb 0 T) eqn:E2; try reflexivity.
    apply Rleb_true in E1, E2. exfalso. apply H. lra.
Qed.

(** With T < 0 the occupation of a monotone smearing decreases when the chemical potential rises. *)
Lemma negative_T s T occ e mu1 mu2 : T < 0 -> 0 <= occ -> s = FERMI_DIRAC \/ s = GAUSS \/ s = GAUSSIAN_SPLINE -> mu1 <= mu2 ->
  sfn (smearing_class s) ((mu2 - e) / (kb Rarith * T)) occ <= sfn (smearing_class s) ((mu1 - e) / (kb Rarith * T)) occ.
Proof.
  intros HT Ho Hs Hmu. pose proof kb_pos as K.
  assert (HkT : kb Rarith * T < 0) by nra.
  assert (Hx : (mu2 - e) / (kb Rarith * T) <= (mu1 - e) / (kb Rarith * T)).
  { unfold Rdiv. assert (/ (kb Rarith * T) < 0) by (apply Rinv_lt_0_compat; exact HkT). nra. }
  destruct Hs as [->|[->| ->]]; cbn [smearing_class sfn fermi_dirac gauss_smearing gaussian_spline].
  - apply fd_mono; assumption.
  - apply gauss_mono; assumption.
  - apply gs_mono; assumption.
Qed.
