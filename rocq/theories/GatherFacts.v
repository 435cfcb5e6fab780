(** Statements about the gathers in terms of entries. *)
From Coq Require Import ZArith List Bool Lia Arith.
From Verif Require Import Arith MVector Mpi MpiProofs Containers.
Import ListNotations.

(** Value of a key on the first rank that has it. *)
Fixpoint first_holder {V} (k : key) (world : list (smap V)) : option V :=
  match world with
  | [] => None
  | m :: r => match mfind k m with Some v => Some v | None => first_holder k r end
  end.
(** ... and on the last one. *)
Definition last_holder {V} (k : key) (world : list (smap V)) : option V := first_holder k (rev world).

(** [m] holds exactly the entries of all ranks. *)
Definition is_union {V} (world : list (smap V)) (m : smap V) : Prop :=
  wfm m /\ forall k v, mfind k m = Some v <-> exists r, In r world /\ mfind k r = Some v.

Lemma mfind_concat_first {V} k (world : list (smap V)) : mfind k (concat world) = first_holder k world.
Proof. induction world as [|m w IH]; cbn; [reflexivity|]. rewrite mfind_app, IH. reflexivity. Qed.

Lemma mfind_rev {V} k (m : smap V) : wfm m -> mfind k (rev m) = mfind k m.
Proof.
  intros H. apply mfind_perm.
  - unfold keys. rewrite map_rev. apply NoDup_rev. apply wfm_nodup. exact H.
  - apply wfm_nodup. exact H.
  - intros x. rewrite <- in_rev. reflexivity.
Qed.

Lemma rev_concat {V} (l : list (list V)) : rev (concat l) = concat (map (@rev V) (rev l)).
Proof.
  induction l as [|x l IH]; cbn; [reflexivity|]. rewrite rev_app_distr, map_app, concat_app, IH. cbn. rewrite app_nil_r. reflexivity.
Qed.

Lemma mfind_concat_last {V} k (world : list (smap V)) : (forall m, In m world -> wfm m) ->
  mfind k (rev (concat world)) = last_holder k world.
Proof.
  intros H. rewrite rev_concat, mfind_concat_first. unfold last_holder.
  assert (Hr : forall m, In m (rev world) -> wfm m) by (intros m Hm; apply H; apply in_rev; exact Hm).
  change (first_holder k (map (@rev (key * V)) (@rev (smap V) world)) = first_holder k (@rev (smap V) world)).
  induction (@rev (smap V) world) as [|m w IH]; cbn; [reflexivity|].
  rewrite mfind_rev by (apply Hr; left; reflexivity). rewrite IH; [reflexivity|]. intros m' Hm'. apply Hr. right. exact Hm'.
Qed.

Section S.
  Context {V : Type}.
  Implicit Types world : list (smap V).

  Lemma union_concat world (m : smap V) : (forall r, In r world -> wfm r) -> NoDup (keys (concat world)) ->
    wfm m -> (forall k, mfind k m = mfind k (concat world)) -> is_union world m.
  Proof.
    intros Hw Hn Hm He. split; [exact Hm|]. intros k v. rewrite He.
    rewrite (mfind_nodup k v _ Hn). rewrite in_concat. split.
    - intros (r & H1 & H2). exists r. split; [exact H1|]. apply mfind_In; auto.
    - intros (r & H1 & H2). exists r. split; [exact H1|]. apply mfind_In; auto.
  Qed.

  Lemma scalar_union (d : key * V) world : world <> [] -> (forall r, In r world -> wfm r) -> NoDup (keys (concat world)) ->
    exists outs, allgather_scalar d world = Some outs /\ length outs = length world /\ forall m, In m outs -> is_union world m.
  Proof.
    intros H0 Hw Hn. eexists. split; [apply allgather_scalar_spec; exact H0|]. split; [apply map_length|].
    intros m Hm. apply in_map_iff in Hm. destruct Hm as (r & <- & _).
    apply union_concat; auto; [apply wfm_of_range|]. intros k. apply mfind_of_range.
  Qed.

  Lemma scalar_first (d : key * V) world : world <> [] ->
    exists outs, allgather_scalar d world = Some outs /\ length outs = length world /\
      forall m k, In m outs -> mfind k m = first_holder k world.
  Proof.
    intros H0. eexists. split; [apply allgather_scalar_spec; exact H0|]. split; [apply map_length|].
    intros m k Hm. apply in_map_iff in Hm. destruct Hm as (r & <- & _).
    rewrite mfind_of_range. apply mfind_concat_first.
  Qed.
End S.

Section View.
  Context {T : Type} (dk : key) (d : T).
  Implicit Types world : list (smap (list T)).

  Lemma view_last world : world <> [] -> (forall r, In r world -> wfm r) ->
    exists outs, allgather_view dk d world = Some outs /\ length outs = length world /\
      forall m k, In m outs -> mfind k m = last_holder k world.
  Proof.
    intros H0 Hw. eexists. split; [apply allgather_view_spec; exact H0|]. split; [apply map_length|].
    intros m k Hm. apply in_map_iff in Hm. destruct Hm as (r & <- & _).
    rewrite mfind_of_assignments. apply mfind_concat_last. exact Hw.
  Qed.

  Lemma view_union world : world <> [] -> (forall r, In r world -> wfm r) -> NoDup (keys (concat world)) ->
    exists outs, allgather_view dk d world = Some outs /\ length outs = length world /\ forall m, In m outs -> is_union world m.
  Proof.
    intros H0 Hw Hn. eexists. split; [apply allgather_view_spec; exact H0|]. split; [apply map_length|].
    intros m Hm. apply in_map_iff in Hm. destruct Hm as (r & <- & _).
    apply union_concat; auto; [apply wfm_of_assignments|]. intros k. rewrite mfind_of_assignments.
    apply mfind_perm; [|exact Hn|].
    - unfold keys in *. rewrite map_rev. apply NoDup_rev. exact Hn.
    - intros x. rewrite <- in_rev. reflexivity.
  Qed.
End View.
