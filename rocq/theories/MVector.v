(** Keyed containers: std::map<std::pair<int,int>, T> and mvector<T>, src/la/mvector.hpp.

    A std::map is modelled by the list of its entries in iteration order, which is the
    lexicographic order of the keys.  [wfm] is the invariant of std::map. *)
From Coq Require Import ZArith List Bool Lia Sorted.
From Verif Require Import Arith.
Import ListNotations.
Local Open Scope Z_scope.

(** mvector::key_t = std::pair<int,int>, mvector.hpp 32. *)
Definition key : Type := (Z * Z)%type.

(** operator< of std::pair. *)
Definition kltb (a b : key) : bool :=
  (fst a <? fst b) || ((fst a =? fst b) && (snd a <? snd b)).
Definition keqb (a b : key) : bool := (fst a =? fst b) && (snd a =? snd b).
Definition klt (a b : key) : Prop := kltb a b = true.

Definition smap (V : Type) : Type := list (key * V).
Definition keys {V} (m : smap V) : list key := map fst m.
Definition wfm {V} (m : smap V) : Prop := StronglySorted klt (keys m).

(** std::map::find *)
Fixpoint mfind {V} (k : key) (m : smap V) : option V :=
  match m with
  | [] => None
  | (k', v) :: r => if keqb k k' then Some v else mfind k r
  end.

(** m[k] = v (operator[] followed by assignment): overwrites. *)
Fixpoint mset {V} (k : key) (v : V) (m : smap V) : smap V :=
  match m with
  | [] => [(k, v)]
  | (k', v') :: r =>
    if kltb k k' then (k, v) :: m
    else if keqb k k' then (k, v) :: r
    else (k', v') :: mset k v r
  end.

(** std::map::insert: keeps an existing entry. *)
Definition mins {V} (k : key) (v : V) (m : smap V) : smap V :=
  match mfind k m with Some _ => m | None => mset k v m end.

(** container_t(first, last): inserts one after the other. *)
Definition map_of_range {V} (l : list (key * V)) : smap V :=
  fold_left (fun m kv => mins (fst kv) (snd kv) m) l [].

(** for (...) result[key] = value. *)
Definition map_of_assignments {V} (l : list (key * V)) : smap V :=
  fold_left (fun m kv => mset (fst kv) (snd kv) m) l [].

(** ** Facts *)
Lemma keqb_eq a b : keqb a b = true <-> a = b.
Proof.
  unfold keqb. destruct a as [a1 a2], b as [b1 b2]; cbn. rewrite andb_true_iff, !Z.eqb_eq.
  split; [intros (-> & ->); reflexivity|intros E; inversion E; auto].
Qed.
Lemma keqb_refl a : keqb a a = true.
Proof. apply keqb_eq. reflexivity. Qed.
Lemma keqb_neq a b : keqb a b = false <-> a <> b.
Proof. rewrite <- keqb_eq. destruct (keqb a b); split; congruence. Qed.
Lemma klt_spec a b : klt a b <-> fst a < fst b \/ (fst a = fst b /\ snd a < snd b).
Proof. unfold klt, kltb. rewrite orb_true_iff, andb_true_iff, Z.eqb_eq, !Z.ltb_lt. tauto. Qed.
Lemma klt_trans a b c : klt a b -> klt b c -> klt a c.
Proof. rewrite !klt_spec. lia. Qed.
Lemma klt_irr a : ~ klt a a.
Proof. rewrite klt_spec. lia. Qed.
Lemma klt_total a b : klt a b \/ a = b \/ klt b a.
Proof.
  rewrite !klt_spec. destruct a as [a1 a2], b as [b1 b2]; cbn.
  destruct (Z.lt_trichotomy a1 b1) as [|[->|]]; [lia| |lia].
  destruct (Z.lt_trichotomy a2 b2) as [|[->|]]; [lia|auto|lia].
Qed.
Lemma kltb_false a b : kltb a b = false <-> ~ klt a b.
Proof. unfold klt. destruct (kltb a b); split; congruence || tauto. Qed.

Section Facts.
  Context {V : Type}.
  Implicit Types (m : smap V) (k : key) (v : V).

  Lemma wfm_nil : wfm ([] : smap V).
  Proof. constructor. Qed.

  Lemma wfm_cons k v m : wfm ((k, v) :: m) <-> wfm m /\ Forall (klt k) (keys m).
  Proof. unfold wfm; cbn. split; [intros H; inversion H; auto|intros (H1 & H2); constructor; auto]. Qed.

  Lemma keys_mset k v m : forall x, In x (keys (mset k v m)) <-> x = k \/ In x (keys m).
  Proof.
    induction m as [|[k' v'] m IH]; intros x; cbn.
    - intuition congruence.
    - destruct (kltb k k'); cbn; [intuition congruence|].
      destruct (keqb k k') eqn:E; cbn.
      + apply keqb_eq in E. subst. intuition congruence.
      + rewrite IH. intuition congruence.
  Qed.

  Lemma wfm_mset k v m : wfm m -> wfm (mset k v m).
  Proof.
    induction m as [|[k' v'] m IH]; intros H; cbn.
    - apply wfm_cons. split; [apply wfm_nil|constructor].
    - apply wfm_cons in H. destruct H as (H1 & H2).
      destruct (kltb k k') eqn:E.
      + apply wfm_cons. split; [apply wfm_cons; auto|]. constructor; [exact E|].
        eapply Forall_impl; [|exact H2]. intros a Ha. eapply klt_trans; eauto.
      + destruct (keqb k k') eqn:E2.
        * apply keqb_eq in E2. subst. apply wfm_cons; auto.
        * apply wfm_cons. split; [auto|]. apply Forall_forall. intros x Hx. apply keys_mset in Hx.
          destruct Hx as [->|Hx]; [|rewrite Forall_forall in H2; auto].
          apply keqb_neq in E2. apply kltb_false in E. destruct (klt_total k k') as [|[|]]; tauto.
  Qed.

  Lemma mfind_mset k v m k0 : wfm m -> mfind k0 (mset k v m) = if keqb k0 k then Some v else mfind k0 m.
  Proof.
    induction m as [|[k' v'] m IH]; intros H; cbn.
    - reflexivity.
    - apply wfm_cons in H. destruct H as (H1 & H2).
      destruct (kltb k k') eqn:E; cbn.
      + reflexivity.
      + destruct (keqb k k') eqn:E2; cbn.
        * apply keqb_eq in E2. subst. destruct (keqb k0 k'); reflexivity.
        * rewrite IH by assumption. destruct (keqb k0 k') eqn:E3; [|reflexivity].
          apply keqb_eq in E3. subst. apply keqb_neq in E2.
          destruct (keqb k' k) eqn:E4; [|reflexivity]. apply keqb_eq in E4. congruence.
  Qed.

  Lemma mfind_in k m : (exists v, mfind k m = Some v) <-> In k (keys m).
  Proof.
    induction m as [|[k' v'] m IH]; cbn.
    - split; [intros (v & H); discriminate|tauto].
    - destruct (keqb k k') eqn:E.
      + apply keqb_eq in E. subst. split; eauto.
      + rewrite IH. apply keqb_neq in E. intuition congruence.
  Qed.

  Lemma mfind_none k m : mfind k m = None <-> ~ In k (keys m).
  Proof.
    rewrite <- mfind_in. destruct (mfind k m); split; intros H; try congruence.
    - exfalso. apply H. eauto.
    - intros (v & Hv). congruence.
  Qed.

  Lemma mfind_In k v m : wfm m -> (mfind k m = Some v <-> In (k, v) m).
  Proof.
    induction m as [|[k' v'] m IH]; intros H; cbn.
    - split; [discriminate|tauto].
    - apply wfm_cons in H. destruct H as (H1 & H2). destruct (keqb k k') eqn:E.
      + apply keqb_eq in E. subst. split.
        * intros E; inversion E; auto.
        * intros [E|Hin]; [inversion E; reflexivity|]. exfalso.
          rewrite Forall_forall in H2. apply (klt_irr k'). apply H2. unfold keys. apply in_map_iff.
          exists (k', v). auto.
      + apply keqb_neq in E. rewrite IH by assumption. intuition congruence.
  Qed.

  Lemma wfm_mins k v m : wfm m -> wfm (mins k v m).
  Proof. unfold mins. destruct (mfind k m); [auto|apply wfm_mset]. Qed.

  Lemma mfind_mins k v m k0 : wfm m ->
    mfind k0 (mins k v m) = match mfind k0 m with Some x => Some x | None => if keqb k0 k then Some v else None end.
  Proof.
    intros H. unfold mins. destruct (mfind k m) as [x|] eqn:E.
    - destruct (mfind k0 m) eqn:E0; [reflexivity|]. destruct (keqb k0 k) eqn:E2; [|reflexivity].
      apply keqb_eq in E2. congruence.
    - rewrite mfind_mset by assumption. destruct (keqb k0 k) eqn:E2.
      + apply keqb_eq in E2. subst. rewrite E. reflexivity.
      + destruct (mfind k0 m); reflexivity.
  Qed.

  (** Two maps with the same content are the same map. *)
  Lemma wfm_ext m1 : forall m2, wfm m1 -> wfm m2 -> (forall k, mfind k m1 = mfind k m2) -> m1 = m2.
  Proof.
    induction m1 as [|[k1 v1] m1 IH]; intros m2 H1 H2 He.
    - destruct m2 as [|[k2 v2] m2]; [reflexivity|]. specialize (He k2). cbn in He. rewrite keqb_refl in He. discriminate.
    - destruct m2 as [|[k2 v2] m2].
      { specialize (He k1). cbn in He. rewrite keqb_refl in He. discriminate. }
      apply wfm_cons in H1. apply wfm_cons in H2. destruct H1 as (H1 & F1), H2 as (H2 & F2).
      rewrite Forall_forall in F1, F2.
      assert (Hk : k1 = k2).
      { destruct (klt_total k1 k2) as [Hl|[|Hl]]; [|assumption|].
        - pose proof (He k1) as E. cbn in E. rewrite keqb_refl in E.
          destruct (keqb k1 k2) eqn:E2; [apply keqb_eq in E2; assumption|].
          exfalso. apply (klt_irr k1). eapply klt_trans; [exact Hl|]. apply F2. apply mfind_in. eauto.
        - pose proof (He k2) as E. cbn in E. rewrite keqb_refl in E.
          destruct (keqb k2 k1) eqn:E2; [apply keqb_eq in E2; auto|].
          exfalso. apply (klt_irr k2). eapply klt_trans; [exact Hl|]. apply F1. apply mfind_in. eauto. }
      subst k2. f_equal.
      + specialize (He k1). cbn in He. rewrite keqb_refl in He. congruence.
      + apply IH; auto. intros k. pose proof (He k) as E. cbn in E. destruct (keqb k k1) eqn:E2; [|exact E].
        apply keqb_eq in E2. subst.
        assert (N1 : ~ In k1 (keys m1)) by (intros Hi; apply (klt_irr k1); auto).
        assert (N2 : ~ In k1 (keys m2)) by (intros Hi; apply (klt_irr k1); auto).
        apply mfind_none in N1. apply mfind_none in N2. congruence.
  Qed.

  (** Range construction: the first entry of a key wins. *)
  Lemma map_of_range_gen (l : list (key * V)) : forall m, wfm m ->
    let r := fold_left (fun m kv => mins (fst kv) (snd kv) m) l m in
    wfm r /\ forall k, mfind k r = match mfind k m with Some x => Some x | None => mfind k l end.
  Proof.
    induction l as [|[k' v'] l IH]; intros m H; cbn [fold_left fst snd].
    - split; [exact H|]. intros k. cbn. destruct (mfind k m); reflexivity.
    - destruct (IH (mins k' v' m) (wfm_mins k' v' m H)) as (H1 & H2). split; [exact H1|].
      intros k. rewrite H2, mfind_mins by assumption. cbn. destruct (mfind k m); [reflexivity|].
      destruct (keqb k k'); reflexivity.
  Qed.

  Lemma wfm_of_range (l : list (key * V)) : wfm (map_of_range l).
  Proof. apply (map_of_range_gen l [] wfm_nil). Qed.
  Lemma mfind_of_range (l : list (key * V)) k : mfind k (map_of_range l) = mfind k l.
  Proof. destruct (map_of_range_gen l [] wfm_nil) as (_ & H). unfold map_of_range. rewrite H. reflexivity. Qed.

  (** Assignments: the last entry of a key wins. *)
  Lemma mfind_app k (l1 l2 : list (key * V)) :
    mfind k (l1 ++ l2) = match mfind k l1 with Some x => Some x | None => mfind k l2 end.
  Proof. induction l1 as [|[k' v'] l1 IH]; cbn; [reflexivity|]. destruct (keqb k k'); [reflexivity|apply IH]. Qed.

  Lemma map_of_assignments_gen (l : list (key * V)) : forall m, wfm m ->
    let r := fold_left (fun m kv => mset (fst kv) (snd kv) m) l m in
    wfm r /\ forall k, mfind k r = match mfind k (rev l) with Some x => Some x | None => mfind k m end.
  Proof.
    induction l as [|[k' v'] l IH]; intros m H; cbn [fold_left fst snd].
    - split; [exact H|]. reflexivity.
    - destruct (IH (mset k' v' m) (wfm_mset k' v' m H)) as (H1 & H2). split; [exact H1|].
      intros k. rewrite H2, mfind_mset by assumption. cbn [rev]. rewrite mfind_app. cbn.
      destruct (mfind k (rev l)); [reflexivity|]. destruct (keqb k k'); reflexivity.
  Qed.
  Lemma wfm_of_assignments (l : list (key * V)) : wfm (map_of_assignments l).
  Proof. apply (map_of_assignments_gen l [] wfm_nil). Qed.
  Lemma mfind_of_assignments (l : list (key * V)) k : mfind k (map_of_assignments l) = mfind k (rev l).
  Proof.
    destruct (map_of_assignments_gen l [] wfm_nil) as (_ & H). unfold map_of_assignments. rewrite H.
    destruct (mfind k (rev l)); reflexivity.
  Qed.

  (** If no key occurs twice the order of the entries is irrelevant. *)
  Lemma mfind_nodup k v (l : list (key * V)) : NoDup (keys l) -> (mfind k l = Some v <-> In (k, v) l).
  Proof.
    induction l as [|[k' v'] l IH]; intros H; cbn.
    - split; [discriminate|tauto].
    - inversion H as [|? ? H1 H2]; subst. destruct (keqb k k') eqn:E.
      + apply keqb_eq in E. subst. split.
        * intros E; inversion E; auto.
        * intros [E|Hi]; [inversion E; reflexivity|]. exfalso. apply H1. apply in_map_iff. exists (k', v). auto.
      + apply keqb_neq in E. rewrite IH by assumption. intuition congruence.
  Qed.

  Lemma mfind_perm k (l1 l2 : list (key * V)) : NoDup (keys l1) -> NoDup (keys l2) ->
    (forall x, In x l1 <-> In x l2) -> mfind k l1 = mfind k l2.
  Proof.
    intros N1 N2 H. destruct (mfind k l1) as [v|] eqn:E.
    - apply mfind_nodup in E; [|assumption]. symmetry. apply mfind_nodup; [assumption|]. apply H. exact E.
    - destruct (mfind k l2) as [v|] eqn:E2; [|reflexivity].
      apply mfind_nodup in E2; [|assumption]. apply H in E2. apply mfind_nodup in E2; [|assumption]. congruence.
  Qed.
End Facts.
