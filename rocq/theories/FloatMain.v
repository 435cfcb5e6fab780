(** Occupations and the chemical potential in binary64, from the classes of smearing.hpp down to
    occupation_from_mvector (model Occupation.v instantiated with [F64] and [smearing_classF]). *)
From Coq Require Import ZArith Reals Lra Lia Bool List Psatz.
From Flocq Require Import Core.Core IEEE754.BinarySingleNaN.
From Verif Require Import Arith Float64 FloatMono MVector Mpi Containers Newton ChemPot ChemPotProofs Occupation Smearing SmearFloat SmearFloatProofs CountFloat FloatSearch FloatLive.
Import ListNotations.
Local Open Scope R_scope.
Local Notation bp := (bpow radix2).

(** ** Specification *)
(** What is asked of the C library: exp is monotone, never NaN on a number, at most 1 for x <= 0 and at least 1
    for x >= 0; erf is monotone with values in [-1, 1]. *)
Definition libm_ok (L : libm) : Prop :=
  exp_range (lexp L) /\ fmonotone (lexp L) /\ exp_ge1 (lexp L) /\ erf_range (lerf L) /\ fmonotone (lerf L).
(** the classes without non_monotonous that a user can select (smearing.hpp 117-215, 294-316) *)
Definition monotone_class (s : smearing_type) : Prop := s = FERMI_DIRAC \/ s = GAUSSIAN_SPLINE \/ s = GAUSS.
(** temperature, maximal occupation and electron number of a run *)
Definition setting_ok (T mo Ne : f64) : Prop :=
  is_finite (fmul (kb F64) T) = true /\ Bltb (fz 0) (fmul (kb F64) T) = true /\
  mo_ok mo /\ B2R mo <= bp 100 /\ is_finite Ne = true /\ Rabs (B2R Ne) <= bp 400.
(** finite band energies, weights in [0, 2^100], at most 2^53 of each *)
Definition world_ok (world : list (smap (list f64) * smap f64)) : Prop :=
  (forall x w k ek, In (x, w) world -> In (k, ek) x -> (Z.of_nat (length ek) <= 2 ^ 53)%Z /\ forall e, In e ek -> is_finite e = true) /\
  (Z.of_nat (length (concat (map snd world))) <= 2 ^ 53)%Z /\
  (forall x w k y, In (x, w) world -> In (k, y) w -> is_finite y = true /\ 0 <= B2R y <= bp 100).

Lemma le_fin (x y : f64) : is_finite x = true -> is_finite y = true -> (Bleb x y = true <-> B2R x <= B2R y).
Proof. intros Fx Fy. rewrite (leb_ext x y (fin_nn _ Fx) (fin_nn _ Fy)), !fin_ext by assumption. reflexivity. Qed.
Lemma lt_fin (x y : f64) : is_finite x = true -> is_finite y = true -> (Bltb x y = true <-> B2R x < B2R y).
Proof. intros Fx Fy. rewrite (ltb_ext x y (fin_nn _ Fx) (fin_nn _ Fy)), !fin_ext by assumption. reflexivity. Qed.

Lemma class_ok L s mo : libm_ok L -> monotone_class s -> mo_ok mo -> fn_ok (sfn (smearing_classF L s)) mo.
Proof.
  intros (H1 & H2 & _ & H4 & H5) [-> |[-> | ->]] Hm; [apply fd_ok|apply gs_ok|apply gauss_ok]; assumption.
Qed.

(** C73 *)
Lemma float_occupations L s mo : libm_ok L -> monotone_class s -> mo_ok mo ->
  forall x, is_nan x = false ->
  let f := sfn (smearing_classF L s) in
  is_finite (f x mo) = true /\ Bleb (fz 0) (f x mo) = true /\ Bleb (f x mo) mo = true /\
  forall y, Bleb x y = true -> Bleb (f x mo) (f y mo) = true.
Proof.
  intros HL Hs Hm x Hx. cbv zeta. destruct (class_ok L s mo HL Hs Hm) as (A & B). destruct fz0 as (F0 & E0).
  destruct (A x Hx) as (F & R). split; [exact F|]. split; [apply le_fin; [exact F0|exact F|rewrite E0; lra]|].
  split; [apply le_fin; [exact F|apply Hm|lra]|]. intros y Hy. pose proof (leb_nn _ _ Hy) as (Ny & Ny').
  apply le_fin; [exact F|apply A; exact Ny'|]. apply B; try assumption. apply leb_ext; assumption.
Qed.
Lemma float_deltas L s mo : libm_ok L -> monotone_class s -> mo_ok mo -> B2R mo <= bp 1000 ->
  forall x, is_nan x = false ->
  is_finite (sdelta (smearing_classF L s) x mo) = true /\ Bleb (fz 0) (sdelta (smearing_classF L s) x mo) = true.
Proof.
  intros (H1 & H2 & H3 & H4 & H5) Hs Hm Hu x Hx. destruct fz0 as (F0 & E0).
  assert (G : is_finite (sdelta (smearing_classF L s) x mo) = true /\ 0 <= B2R (sdelta (smearing_classF L s) x mo)).
  { destruct Hs as [-> |[-> | ->]]; cbn [smearing_classF sdelta].
    - destruct (fd_delta_range L H1 mo Hm H3 x Hx) as (A & B). split; [exact A|lra].
    - apply gs_delta_range; assumption.
    - destruct (gauss_delta_range L H1 mo Hm x Hx) as (A & B). split; [exact A|lra]. }
  destruct G as (F & R). split; [exact F|]. apply le_fin; [exact F0|exact F|rewrite E0; lra].
Qed.

(** ** The residual of a run *)
Lemma find_member {V} (l : list (key * V)) k v : mfind k l = Some v -> In (k, v) l.
Proof.
  induction l as [|[k' v'] l IH]; cbn; [discriminate|]. destruct (keqb k k') eqn:E.
  - intros Q. apply keqb_eq in E. left. congruence.
  - intros Q. right. auto.
Qed.
Lemma union_spectrum world : world_ok world -> spectrum_ok (xunion F64 world).
Proof.
  intros (H & _) k ek Hk. unfold xunion in Hk. rewrite mfind_of_assignments in Hk.
  assert (I : In (k, ek) (rev (concat (map fst world)))).
  { exact (find_member _ k ek Hk). }
  apply in_rev, in_concat in I. destruct I as (m & Im & Ik). apply in_map_iff in Im. destruct Im as ([x w] & <- & Iw).
  exact (H x w k ek Iw Ik).
Qed.
Lemma union_weights world : world_ok world -> weights_ok (wunion F64 world).
Proof.
  intros (_ & Hn & H). pose proof (wfm_of_range (concat (map snd world))) as W. split.
  - eapply Z.le_trans; [|exact Hn]. apply inj_le.
    eapply Nat.le_trans; [apply Nat.eq_le_incl; symmetry; exact (map_length fst (wunion F64 world))|].
    eapply Nat.le_trans; [|apply Nat.eq_le_incl; exact (map_length fst (concat (map snd world)))].
    apply NoDup_incl_length; [apply (wfm_nodup _ W)|]. intros k Hk.
    apply (mfind_in k (concat (map snd world))). apply (mfind_in k (wunion F64 world)) in Hk. destruct Hk as (v & Hv).
    exists v. unfold wunion in Hv. rewrite mfind_of_range in Hv. exact Hv.
  - intros k w Hk. unfold wunion in Hk. apply (mfind_In k w _ W) in Hk. rewrite mfind_of_range in Hk.
    assert (I : In (k, w) (concat (map snd world))).
    { exact (find_member _ k w Hk). }
    apply in_concat in I. destruct I as (m & Im & Ik). apply in_map_iff in Im. destruct Im as ([x w'] & <- & Iw).
    exact (H x w' k w Iw Ik).
Qed.

Section Res.
  Context (L : libm) (s : smearing_type) (T mo Ne : f64) (world : list (smap (list f64) * smap f64)).
  Hypothesis HL : libm_ok L.
  Hypothesis Hs : monotone_class s.
  Hypothesis HT : setting_ok T mo Ne.
  Hypothesis HW : world_ok world.
  Notation fres := (residual F64 Ne T mo (smearing_classF L s) (xunion F64 world) (wunion F64 world)).

  Lemma small_mo : small 100 mo.
  Proof. destruct HT as (_ & _ & Hm & Hu & _). pose proof (mo_pos mo Hm). destruct Hm as [Fm _]. split; [exact Fm|lra]. Qed.
  Lemma kT_pos : is_finite (fmul (kb F64) T) = true /\ 0 < B2R (fmul (kb F64) T).
  Proof.
    destruct HT as (F & P & _). split; [exact F|]. destruct fz0 as (F0 & E0). apply lt_fin in P; [|exact F0|exact F].
    rewrite E0 in P. exact P.
  Qed.
  (** C74 *)
  Lemma res_antitone : antitone fres.
  Proof.
    destruct HT as (_ & _ & Hm & _ & FN & RN). pose proof (class_ok L s mo HL Hs Hm) as Hfn.
    assert (K : forall mu, is_finite mu = true -> is_finite (fres mu) = true).
    { intros mu F. eapply residual_fin; eauto using small_mo, kT_pos, union_spectrum, union_weights. }
    split; [exact K|]. intros x y Fx Fy H. apply le_fin; [apply K; exact Fy|apply K; exact Fx|].
    eapply residual_anti; eauto using small_mo, kT_pos, union_spectrum, union_weights.
    apply le_fin; assumption.
  Qed.
End Res.

(** More updates do not matter once the residual is accepted. *)
Lemma loop_more A (f : num A -> num A) (tol : num A) n : forall m mu de s vis c, (n <= m)%nat ->
  agtb A (aabs A (f (fst (fst (chem_loop A f tol n mu de s vis c))))) tol = false ->
  chem_loop A f tol m mu de s vis c = chem_loop A f tol n mu de s vis c.
Proof.
  induction n as [|n IH]; intros m mu de s vis c Hm H.
  - cbn [chem_loop] in H |- *. destruct (agtb A (aabs A (f mu)) tol) eqn:E.
    + cbn [fst] in H. congruence.
    + destruct m; cbn [chem_loop]; rewrite E; reflexivity.
  - destruct m as [|m]; [lia|]. cbn [chem_loop] in H |- *. destruct (agtb A (aabs A (f mu)) tol) eqn:E; [|reflexivity].
    apply IH; [lia|exact H].
Qed.
(** [n] updates visit [n] points before the last one *)
Lemma loop_len A (f : num A -> num A) (tol : num A) n : forall mu de s vis c,
  (length (snd (fst (chem_loop A f tol n mu de s vis c))) <= n + length vis)%nat.
Proof.
  induction n as [|n IH]; intros mu de s vis c; cbn [chem_loop].
  - destruct (agtb A (aabs A (f mu)) tol); cbn; lia.
  - destruct (agtb A (aabs A (f mu)) tol); [|cbn; lia]. eapply Nat.le_trans; [apply IH|]. cbn [length]. lia.
Qed.

(** C75 for a single residual *)
Lemma float_search (f : f64 -> f64) (tol lo hi : f64) (j : Z) :
  antitone f -> is_finite tol = true -> Bleb (fz 0) tol = true ->
  is_finite lo = true -> is_finite hi = true -> (1 <= j <= 40)%Z ->
  Rabs (B2R lo) <= bp (j - 1) -> Rabs (B2R hi) <= bp (j - 1) -> bp (j - 50) <= B2R hi - B2R lo ->
  Bleb (f lo) tol = true -> Bleb (Bopp tol) (f hi) = true ->
  exists mu vis c, is_finite mu = true /\ (length vis <= 372)%nat /\
  ((Bltb (Babs (f mu)) tol = true /\ find_chemical_potential F64 f tol (fz 0) = (Ret mu, vis, c)) \/
   (Rabs (B2R (f mu)) = B2R tol /\ find_chemical_potential F64 f tol (fz 0) = (Throw RuntimeError, vis, c))).
Proof.
  intros Hf Ft Pt Fl Fh Hj Rl Rh Hg Al Ah. destruct fz0 as (F0 & E0).
  assert (Ht : is_finite tol = true /\ 0 <= B2R tol). { split; [exact Ft|]. apply le_fin in Pt; [|exact F0|exact Ft]. lra. }
  apply le_fin in Al; [|apply (proj1 Hf); exact Fl|exact Ft].
  apply le_fin in Ah; [|rewrite fin_opp; exact Ft|apply (proj1 Hf); exact Fh].
  assert (Eo : B2R (Bopp tol) = - B2R tol) by apply B2R_Bopp. rewrite Eo in Ah.
  pose proof (fsearch_done f tol Hf Ht lo hi j Hj Fl Fh Rl Rh Hg Al Ah 371 (Nat.le_refl _)) as D.
  pose proof (loop_len F64 f tol 371 (fz 0) (flit 1 10) 1 [] 0) as LL.
  assert (M : chem_loop F64 f tol 1000 (fz 0) (flit 1 10) 1 [] 0 = chem_loop F64 f tol 371 (fz 0) (flit 1 10) 1 [] 0).
  { apply loop_more; [apply Nat.leb_le; reflexivity|].
    destruct (chem_loop F64 f tol 371 (fz 0) (flit 1 10) 1 [] 0) as [[mu vis] c]. destruct D as (Fm & A). cbn [fst] in *.
    destruct (agtb F64 (aabs F64 (f mu)) tol) eqn:Q; [|reflexivity]. apply (test f tol Hf Ht mu Fm) in Q. unfold accept in A. lra. }
  unfold find_chemical_potential. change (alit F64 1 10) with (flit 1 10). rewrite M.
  destruct (chem_loop F64 f tol 371 (fz 0) (flit 1 10) 1 [] 0) as [[mu vis] c]. destruct D as (Fm & A). unfold accept in A. cbn [fst snd] in *.
  pose proof (proj1 Hf mu Fm) as G. change (altb F64 (aabs F64 (f mu)) tol) with (Bltb (Babs (f mu)) tol).
  assert (LL' : (length (mu :: vis) <= 372)%nat).
  { cbn [length]. rewrite Nat.add_0_r in LL. apply le_n_S in LL. exact LL. }
  destruct (Bltb (Babs (f mu)) tol) eqn:Q; cbn [negb].
  - exists mu, (mu :: vis), (S c). split; [exact Fm|]. split; [exact LL'|]. left. auto.
  - exists mu, (mu :: vis), (S (S c)). split; [exact Fm|]. split; [exact LL'|]. right. split; [|reflexivity].
    apply ltb_ext_f in Q; [|apply nn_abs, fin_nn; exact G|apply fin_nn; exact Ft].
    rewrite ext_abs, !fin_ext in Q by assumption. lra.
Qed.

Lemma occ_found A (Ne T mo tol : num A) skip Sg S world mu vis c : world <> [] -> non_monotonous S = false ->
  find_chemical_potential A (residual A Ne T mo S (xunion A world) (wunion A world)) tol (alit A 0 1) = (Ret mu, vis, c) ->
  occupation A Ne T mo tol skip Sg S world =
  Some (map (fun o => Ret (mu, o)) (map (fun xw => occupations A mo S (amul A (kb A) T) mu (fst xw)) world)).
Proof.
  intros Hn NM H. rewrite occupation_spec by exact Hn. unfold mu_of. rewrite NM, andb_false_r. unfold find_mu. rewrite H, map_map. reflexivity.
Qed.
Lemma occ_failed A (Ne T mo tol : num A) skip Sg S world vis c : world <> [] -> non_monotonous S = false ->
  find_chemical_potential A (residual A Ne T mo S (xunion A world) (wunion A world)) tol (alit A 0 1) = (Throw RuntimeError, vis, c) ->
  occupation A Ne T mo tol skip Sg S world = Some (map (fun _ => Throw RuntimeError) world).
Proof.
  intros Hn NM H. rewrite occupation_spec by exact Hn. unfold mu_of. rewrite NM, andb_false_r. unfold find_mu. rewrite H. reflexivity.
Qed.
Lemma occ_members A (mo : num A) (S : smear A) (kT mu : num A) x k v o : In (k, v) (occupations A mo S kT mu x) -> In o v ->
  exists ek e, In (k, ek) x /\ In e ek /\ o = sfn S (adiv A (asub A mu e) kT) mo.
Proof.
  unfold occupations. intros H Ho. apply in_map_iff in H. destruct H as ([k' ek] & Q & Hk). cbn [fst snd] in Q.
  injection Q as -> <-. apply in_map_iff in Ho. destruct Ho as (e & <- & He). exists ek, e. auto.
Qed.
Lemma occ_bounds L s mo : libm_ok L -> monotone_class s -> mo_ok mo -> forall x, is_nan x = false ->
  is_finite (sfn (smearing_classF L s) x mo) = true /\ Bleb (fz 0) (sfn (smearing_classF L s) x mo) = true /\
  Bleb (sfn (smearing_classF L s) x mo) mo = true.
Proof. intros HL Hs Hm x Hx. destruct (float_occupations L s mo HL Hs Hm x Hx) as (A & B & C & _). split; [exact A|]. split; assumption. Qed.
Lemma arg_number (mu e kT : f64) : is_finite mu = true -> is_finite e = true -> is_finite kT = true -> Bltb (fz 0) kT = true ->
  is_nan (adiv F64 (asub F64 mu e) kT) = false.
Proof.
  intros Fm Fe Fk P. destruct fz0 as (F0 & E0). apply lt_fin in P; [|exact F0|exact Fk]. rewrite E0 in P.
  apply fdiv_num; [apply fsub_nn; [exact Fm|apply fin_nn; exact Fe]|exact Fk|exact P].
Qed.

(** C75 for occupation_from_mvector1 on all ranks *)
Lemma float_occupation L s T mo Ne tol skip Sg world lo hi (j : Z) :
  libm_ok L -> monotone_class s -> setting_ok T mo Ne -> world_ok world -> world <> [] ->
  is_finite tol = true -> Bleb (fz 0) tol = true ->
  is_finite lo = true -> is_finite hi = true -> (1 <= j <= 40)%Z ->
  Rabs (B2R lo) <= bp (j - 1) -> Rabs (B2R hi) <= bp (j - 1) -> bp (j - 50) <= B2R hi - B2R lo ->
  let f := residual F64 Ne T mo (smearing_classF L s) (xunion F64 world) (wunion F64 world) in
  Bleb (f lo) tol = true -> Bleb (Bopp tol) (f hi) = true ->
  exists mu, is_finite mu = true /\
  let fs := map (fun xw => occupations F64 mo (smearing_classF L s) (fmul (kb F64) T) mu (fst xw)) world in
  ((Bltb (Babs (f mu)) tol = true /\
     occupation F64 Ne T mo tol skip Sg (smearing_classF L s) world = Some (map (fun o => Ret (mu, o)) fs)) \/
   (Rabs (B2R (f mu)) = B2R tol /\
     occupation F64 Ne T mo tol skip Sg (smearing_classF L s) world = Some (map (fun _ => Throw RuntimeError) world))) /\
  (forall xw k v o, In xw world -> In (k, v) (occupations F64 mo (smearing_classF L s) (fmul (kb F64) T) mu (fst xw)) -> In o v ->
    is_finite o = true /\ Bleb (fz 0) o = true /\ Bleb o mo = true).
Proof.
  intros HL Hs HT HW Hn Ft Pt Fl Fh Hj Rl Rh Hg f Al Ah.
  destruct (float_search f tol lo hi j (res_antitone L s T mo Ne world HL Hs HT HW) Ft Pt Fl Fh Hj Rl Rh Hg Al Ah)
    as (mu & vis & c & Fm & _ & H).
  exists mu. split; [exact Fm|]. cbv zeta.
  assert (NM : non_monotonous (smearing_classF L s) = false) by (destruct Hs as [-> |[-> | ->]]; reflexivity).
  split.
  - destruct H as [(A & B)|(A & B)]; [left|right]; (split; [exact A|]).
    + exact (occ_found F64 Ne T mo tol skip Sg (smearing_classF L s) world mu vis c Hn NM B).
    + exact (occ_failed F64 Ne T mo tol skip Sg (smearing_classF L s) world vis c Hn NM B).
  - intros xw k v o Hin Hk Ho. destruct (occ_members F64 mo (smearing_classF L s) (fmul (kb F64) T) mu (fst xw) k v o Hk Ho) as (ek & e & I1 & I2 & ->).
    destruct HT as (F & P & Hm & _). apply (occ_bounds L s mo HL Hs Hm).
    destruct xw as [x w]. pose proof (proj1 HW x w k ek Hin I1) as (_ & Fe). exact (arg_number mu e _ Fm (Fe e I2) F P).
Qed.
