(** Facts about Handles.v. *)
From Coq Require Import ZArith List Bool Lia Arith Sorted.
From Verif Require Import Arith MVector Containers Handles.
Import ListNotations.

(** ** Specification: an object either holds a communicator or has been given up *)
Definition vstep (st : list (option nat)) (o : hop) : option (list (option nat)) :=
  match o with
  | ONew h => Some (st ++ [match h with HComm c => Some c | _ => None end])
  | ODefault => Some (st ++ [Some 0])
  | OCopy i => match nth_error st i with Some v => Some (st ++ [v]) | None => None end
  | OMove i => match nth_error st i with Some v => Some (setn i None st ++ [v]) | None => None end
  | OAssign i j => match nth_error st i, nth_error st j with Some _, Some v => Some (setn i v st) | _, _ => None end
  | OMoveAssign i j =>
    match nth_error st i, nth_error st j with
    | Some _, Some v => Some (if Nat.eqb i j then st else setn j None (setn i v st))
    | _, _ => None
    end
  end.
Fixpoint vrun (st : list (option nat)) (p : list hop) : option (list (option nat)) :=
  match p with
  | [] => Some st
  | o :: r => match vstep st o with Some st' => vrun st' r | None => None end
  end.
Definition no_self_move (p : list hop) : Prop := forall i, ~ In (OMoveAssign i i) p.
Definition value_of (h : handle) : option nat := match h with HComm c => Some c | _ => None end.

Lemma nth_error_map' {A B} (f : A -> B) l i : nth_error (map f l) i = option_map f (nth_error l i).
Proof. revert i. induction l as [|x l IH]; intros [|i]; cbn; auto. Qed.
Lemma map_setn {A B} (f : A -> B) i x l : map f (setn i x l) = setn i (f x) (map f l).
Proof. revert i. induction l as [|y l IH]; intros [|i]; cbn; [reflexivity | reflexivity | reflexivity | rewrite IH; reflexivity]. Qed.
Lemma setn_setn {A} i (x y : A) l : setn i x (setn i y l) = setn i x l.
Proof. revert i. induction l as [|z l IH]; intros [|i]; cbn; [reflexivity | reflexivity | reflexivity | rewrite IH; reflexivity]. Qed.
Lemma nth_setn {A} i (x : A) l : i < length l -> nth_error (setn i x l) i = Some x.
Proof. revert i. induction l as [|z l IH]; intros [|i] H; cbn in *; [lia | lia | reflexivity | apply IH; lia]. Qed.

Lemma hstep_value st o : (forall i, o <> OMoveAssign i i) -> option_map (map value_of) (hstep st o) = vstep (map value_of st) o.
Proof.
  intros Hself. destruct o as [h| |i|i|i j|i j]; cbn [hstep vstep]; rewrite ?nth_error_map'.
  - cbn. rewrite map_app. destruct h; reflexivity.
  - cbn. rewrite map_app. reflexivity.
  - destruct (nth_error st i); cbn; [rewrite map_app; reflexivity | reflexivity].
  - destruct (nth_error st i); cbn; [rewrite map_app, map_setn; reflexivity | reflexivity].
  - destruct (nth_error st i); cbn; [|reflexivity]. destruct (nth_error st j); cbn; [rewrite map_setn; reflexivity | reflexivity].
  - destruct (nth_error st i); cbn; [|reflexivity]. destruct (nth_error st j); cbn; [|reflexivity].
    destruct (Nat.eqb_spec i j) as [-> | N]; [exfalso; apply (Hself j); reflexivity|].
    rewrite !map_setn. reflexivity.
Qed.
Theorem hrun_value p : no_self_move p -> forall st, option_map (map value_of) (hrun st p) = vrun (map value_of st) p.
Proof.
  induction p as [|o r IH]; intros Hp st; [reflexivity|].
  assert (Ho : forall i, o <> OMoveAssign i i) by (intros i E; apply (Hp i); left; exact E).
  cbn [hrun vrun]. rewrite <- (hstep_value st o Ho).
  destruct (hstep st o) as [st'|]; cbn [option_map]; [|reflexivity].
  apply IH. intros i Hi. apply (Hp i). right. exact Hi.
Qed.

(** an object that holds a communicator can be used; the others cannot *)
Theorem usable nr h : (exists n, csize_of nr h = CVal n) <-> value_of h <> None.
Proof. destruct h; cbn; split; try (intros [n E]; discriminate); try congruence; intros _; eauto. Qed.

(** self-move loses the communicator *)
Theorem self_move st i h nr : nth_error st i = Some h ->
  exists st', hstep st (OMoveAssign i i) = Some st' /\ nth_error st' i = Some HZero /\ csize_of nr HZero = CUB.
Proof.
  intros E. cbn [hstep]. rewrite E. exists (setn i HZero (setn i h st)). split; [reflexivity|]. split; [|reflexivity].
  rewrite setn_setn. apply nth_setn. apply nth_error_Some. congruence.
Qed.

(** moved-from objects: by construction they equal MPI_COMM_NULL, by assignment they cannot be compared at all *)
Theorem moved_from st i h : nth_error st i = Some h ->
  (exists st', hstep st (OMove i) = Some st' /\ nth_error st' i = Some HNull /\ ceq HNull HNull = CVal true) /\
  (forall j g, nth_error st j = Some g -> j <> i ->
   exists st', hstep st (OMoveAssign j i) = Some st' /\ nth_error st' i = Some HZero /\ nth_error st' j = Some h).
Proof.
  intros E. assert (L : i < length st) by (apply nth_error_Some; congruence). split.
  - cbn [hstep]. rewrite E. eexists. split; [reflexivity|]. split; [|reflexivity].
    assert (LL : length (setn i HNull st) = length st).
    { clear. revert i. induction st as [|x l IH]; intros [|i]; cbn; auto. }
    rewrite nth_error_app1 by lia. apply nth_setn. exact L.
  - intros j g Ej N. cbn [hstep]. rewrite Ej, E. eexists. split; [reflexivity|].
    assert (LL : forall k (x : handle) l, length (setn k x l) = length l).
    { clear. intros k x l. revert k. induction l as [|y l IH]; intros [|k]; cbn; auto. }
    assert (O : forall (x : handle) l a b, a <> b -> nth_error (setn a x l) b = nth_error l b).
    { clear. intros x l. induction l as [|y l IH]; intros [|a] [|b] H; cbn; try reflexivity; try lia. apply IH. lia. }
    split.
    + apply nth_setn. rewrite LL. exact L.
    + rewrite O by congruence. apply nth_setn. apply nth_error_Some. congruence.
Qed.
Theorem zero_never_compares h nr own : ceq HZero h = (match h with HNull => CVal false | _ => CUB end) /\ ceq h HZero = (match h with HNull => CVal false | _ => CUB end) /\
  (forall r, allgather_comm nr HZero own <> CVal r).
Proof.
  split; [destruct h; reflexivity|]. split; [destruct h; reflexivity|]. intros r. unfold allgather_comm. cbn. unfold clt. cbn. congruence.
Qed.

Definition proper (h : handle) : Prop := h <> HZero.
Theorem ceq_equivalence : (forall a, proper a -> ceq a a = CVal true) /\
  (forall a b, proper a -> proper b -> ceq a b = ceq b a /\ exists r, ceq a b = CVal r /\ (r = true <-> a = b)) /\
  (forall a b c, proper a -> proper b -> proper c -> ceq a b = CVal true -> ceq b c = CVal true -> ceq a c = CVal true).
Proof.
  assert (S : forall a b, proper a -> proper b -> ceq a b = ceq b a /\ exists r, ceq a b = CVal r /\ (r = true <-> a = b)).
  { intros [| |c] [| |d] Ha Hb; try (exfalso; apply Ha; reflexivity); try (exfalso; apply Hb; reflexivity); cbn.
    - split; [reflexivity|]. exists true. split; [reflexivity|]. tauto.
    - split; [reflexivity|]. exists false. split; [reflexivity|]. split; discriminate.
    - split; [reflexivity|]. exists false. split; [reflexivity|]. split; discriminate.
    - split; [rewrite Nat.eqb_sym; reflexivity|]. exists (Nat.eqb c d). split; [reflexivity|]. rewrite Nat.eqb_eq. split; congruence. }
  split; [|split; [exact S|]].
  - intros a Ha. destruct (S a a Ha Ha) as (_ & r & E & I). rewrite E. f_equal. apply I. reflexivity.
  - intros a b c Ha Hb Hc E1 E2. destruct (S a b Ha Hb) as (_ & r & F & I). rewrite E1 in F. injection F as <-. rewrite (proj1 I eq_refl). exact E2.
Qed.
(** the communicator of allgather: own one if none is given; a smaller one is refused *)
Theorem allgather_comm_spec nr own arg c : own = HComm c ->
  allgather_comm nr arg own = match arg with
    | HNull => CVal (Some own)
    | HZero => CUB
    | HComm d => CVal (if nr d <? nr c then None else Some arg)
    end.
Proof. intros ->. unfold allgather_comm. destruct arg as [| |d]; cbn [ceq clt csize_of]; [unfold clt; cbn [csize_of]; rewrite Nat.ltb_irrefl; reflexivity | reflexivity | unfold clt; cbn [csize_of]; destruct (nr d <? nr c); reflexivity]. Qed.

(** ** Assignment of mvectors *)
Section Assign.
  Context {V : Type}.
  Implicit Types (dst src m : smap V).

  Lemma mset_keys k v dst : wfm dst -> In k (keys dst) -> keys (mset k v dst) = keys dst.
  Proof.
    induction dst as [|[k' v'] r IH]; intros Hw Hin; [destruct Hin|]. apply wfm_cons in Hw. destruct Hw as [Hw Hf].
    cbn [mset]. destruct (kltb k k') eqn:E.
    - exfalso. cbn [keys map fst] in Hin. destruct Hin as [-> | Hin].
      + exact (klt_irr k E).
      + rewrite Forall_forall in Hf. exact (klt_irr k (klt_trans _ _ _ E (Hf k Hin))).
    - destruct (keqb k k') eqn:E2.
      + apply keqb_eq in E2. subst. reflexivity.
      + cbn [keys map fst]. f_equal. apply IH; [exact Hw|]. cbn [keys map fst] in Hin. destruct Hin as [-> | Hin]; [rewrite keqb_refl in E2; discriminate | exact Hin].
  Qed.

  Lemma assign_loop_ok src it : forall dst, wfm dst -> incl it (keys dst) -> incl it (keys src) ->
    exists m, assign_loop it dst src = (m, None) /\ wfm m /\ keys m = keys dst /\
      forall k, mfind k m = if existsb (keqb k) it then mfind k src else mfind k dst.
  Proof.
    induction it as [|k r IH]; intros dst Hw Hd Hs.
    - exists dst. repeat split; auto.
    - cbn [assign_loop]. destruct (mfind k src) as [v|] eqn:E.
      + assert (Hk : In k (keys dst)) by (apply Hd; left; reflexivity).
        destruct (IH (mset k v dst)) as (m & E1 & E2 & E3 & E4).
        * apply wfm_mset. exact Hw.
        * rewrite mset_keys by assumption. intros x Hx. apply Hd. right. exact Hx.
        * intros x Hx. apply Hs. right. exact Hx.
        * exists m. split; [exact E1|]. split; [exact E2|]. split; [rewrite E3; apply mset_keys; assumption|].
          intros x. rewrite E4. cbn [existsb]. rewrite mfind_mset by exact Hw.
          destruct (keqb x k) eqn:Ex; cbn [orb]; [|reflexivity].
          apply keqb_eq in Ex. subst x. rewrite E. destruct (existsb (keqb k) r); reflexivity.
      + exfalso. apply mfind_none in E. apply E. apply Hs. left. reflexivity.
  Qed.
  Lemma existsb_keys k (l : list key) : existsb (keqb k) l = true <-> In k l.
  Proof.
    rewrite existsb_exists. split; [intros (x & Hx & E); apply keqb_eq in E; subst; exact Hx | intros H; exists k; split; [exact H | apply keqb_refl]].
  Qed.

  (** all keys of the left hand side are assigned, no others *)
  Theorem assign_lvalue_ok (dst src : mvec V) : wfm (mdata dst) -> incl (keys (mdata dst)) (keys (mdata src)) ->
    exists m, assign_lvalue dst src = (MkMvec m (mcomm dst), None) /\ wfm m /\ keys m = keys (mdata dst) /\
      forall k, mfind k m = if existsb (keqb k) (keys (mdata dst)) then mfind k (mdata src) else None.
  Proof.
    intros Hw Hi. unfold assign_lvalue.
    destruct (assign_loop_ok (mdata src) (keys (mdata dst)) (mdata dst) Hw (fun x h => h) Hi) as (m & E1 & E2 & E3 & E4).
    exists m. rewrite E1. cbn [fst snd]. split; [reflexivity|]. split; [exact E2|]. split; [exact E3|].
    intros k. rewrite E4. destruct (existsb (keqb k) (keys (mdata dst))) eqn:E; [reflexivity|].
    apply mfind_none. intros H. apply existsb_keys in H. congruence.
  Qed.
  (** exactly a key missing on the right raises, and then the entries before it have been overwritten *)
  Lemma assign_loop_throw src it : forall dst, wfm dst -> incl it (keys dst) ->
    forall m, assign_loop it dst src = (m, Some OutOfRange) ->
    exists a k b, it = a ++ k :: b /\ incl a (keys src) /\ ~ In k (keys src) /\ keys m = keys dst /\
      forall x, mfind x m = if existsb (keqb x) a then mfind x src else mfind x dst.
  Proof.
    induction it as [|k r IH]; intros dst Hw Hd m; [discriminate|].
    cbn [assign_loop]. destruct (mfind k src) as [v|] eqn:E.
    - intros H. assert (Hk : In k (keys dst)) by (apply Hd; left; reflexivity).
      destruct (IH (mset k v dst)) with (m := m) as (a & q & b & E1 & E2 & E3 & E4 & E5).
      + apply wfm_mset; exact Hw.
      + rewrite mset_keys by assumption. intros x Hx. apply Hd. right; exact Hx.
      + exact H.
      + exists (k :: a), q, b. split; [rewrite E1; reflexivity|]. split.
        { intros x [<- | Hx]; [apply mfind_in; eauto | apply E2; exact Hx]. }
        split; [exact E3|]. split; [rewrite E4; apply mset_keys; assumption|].
        intros x. rewrite E5. cbn [existsb]. rewrite mfind_mset by exact Hw.
        destruct (keqb x k) eqn:Ex; cbn [orb]; [|reflexivity].
        apply keqb_eq in Ex. subst x. rewrite E. destruct (existsb (keqb k) a); reflexivity.
    - intros H. injection H as <-. exists [], k, r. split; [reflexivity|]. split; [intros x []|].
      split; [apply mfind_none; exact E|]. split; reflexivity.
  Qed.
  Theorem assign_lvalue_throws (dst src : mvec V) : wfm (mdata dst) ->
    (snd (assign_lvalue dst src) = Some OutOfRange <-> ~ incl (keys (mdata dst)) (keys (mdata src))).
  Proof.
    intros Hw. split.
    - intros H Hi. destruct (assign_lvalue_ok dst src Hw Hi) as (m & E & _). rewrite E in H. discriminate.
    - intros H. destruct (snd (assign_lvalue dst src)) as [[]|] eqn:E; [reflexivity|]. exfalso. apply H. clear H.
      unfold assign_lvalue in E. cbn [snd] in E. revert E. generalize (mdata dst) at 2. generalize (keys (mdata dst)).
      induction l as [|k r IH]; intros d E; [intros x []|]. cbn [assign_loop] in E.
      destruct (mfind k (mdata src)) as [v|] eqn:F; [|discriminate].
      intros x [<- | Hx]; [apply mfind_in; eauto | exact (IH _ E x Hx)].
  Qed.
  Theorem assign_lvalue_partial_state (dst src : mvec V) : wfm (mdata dst) -> snd (assign_lvalue dst src) = Some OutOfRange ->
    exists a k b, keys (mdata dst) = a ++ k :: b /\ incl a (keys (mdata src)) /\ ~ In k (keys (mdata src)) /\
      forall x, mfind x (mdata (fst (assign_lvalue dst src))) = if existsb (keqb x) a then mfind x (mdata src) else mfind x (mdata dst).
  Proof.
    intros Hw H. unfold assign_lvalue in *. cbn [fst snd mdata] in *.
    destruct (assign_loop (keys (mdata dst)) (mdata dst) (mdata src)) as [m e] eqn:E. cbn [fst snd] in *. subst e.
    destruct (assign_loop_throw _ _ _ Hw (fun x h => h) m E) as (a & k & b & E1 & E2 & E3 & E4 & E5).
    exists a, k, b. auto.
  Qed.
  (** an empty left hand side stays empty *)
  Theorem assign_empty (src : mvec V) c : assign_lvalue (MkMvec [] c) src = (MkMvec [] c, None).
  Proof. reflexivity. Qed.
  (** with equal keys the data are copied, the communicator is kept *)
  Theorem assign_same_keys (dst src : mvec V) : wfm (mdata dst) -> wfm (mdata src) -> keys (mdata dst) = keys (mdata src) ->
    assign_lvalue dst src = (MkMvec (mdata src) (mcomm dst), None).
  Proof.
    intros H1 H2 E. destruct (assign_lvalue_ok dst src H1) as (m & E1 & E2 & E3 & E4); [rewrite E; apply incl_refl|].
    rewrite E1. f_equal. f_equal. apply wfm_ext; [exact E2 | exact H2|]. intros k. rewrite E4, E.
    destruct (existsb (keqb k) (keys (mdata src))) eqn:F; [reflexivity|]. symmetry. apply mfind_none. intros Hk. apply existsb_keys in Hk. congruence.
  Qed.
End Assign.

(** The update of the state in the main loop, nlcglib.cpp 385-387: the results of the line search are assigned to containers with
    the keys of this rank. *)
Lemma entry_ok_keys {V U W} (f : V -> list U -> W) args a r : Forall2 (entry_ok f args) a r -> keys r = keys a.
Proof. induction 1 as [|x y l l' [E _] _ IH]; [reflexivity|]. cbn [keys map] in *. rewrite E. f_equal. exact IH. Qed.
Theorem state_update {V U W Y} (f : V -> list U -> W * Y) (a : mvec V) (args : list (mvec U)) (dst : mvec W) :
  wfm (mdata a) -> (forall k m, In k (keys (mdata a)) -> In m args -> In k (keys (mdata m))) ->
  wfm (mdata dst) -> keys (mdata dst) = keys (mdata a) ->
  exists r, tapply f a args = Ret r /\
    snd (assign_lvalue dst (fst (unzip None (eval_threaded r)))) = None /\
    let new := fst (assign_lvalue dst (fst (unzip None (eval_threaded r)))) in
    mcomm new = mcomm dst /\ keys (mdata new) = keys (mdata a) /\
    Forall2 (fun kv kw => fst kw = fst kv /\ exists us, map Some us = map (mfind (fst kv)) (map mdata args) /\ snd kw = fst (f (snd kv) us)) (mdata a) (mdata new).
Proof.
  intros Ha Hk Hd Ek. destruct (tapply_spec f a args Ha Hk) as (r & E & Hr). exists (MkMvec r (mcomm a)). split; [exact E|].
  pose proof (entry_ok_keys _ _ _ _ Hr) as Kr.
  assert (Hwr : wfm r) by (unfold wfm in *; rewrite Kr; exact Ha).
  rewrite eval_threaded_spec by exact Hwr. cbn [mdata]. rewrite unzip_spec by exact Hwr. cbn [fst mdata].
  set (m := map (fun kv => (fst kv, fst (snd kv))) r).
  assert (Km : keys m = keys r) by (unfold m, keys; rewrite map_map; reflexivity).
  rewrite (assign_same_keys dst (MkMvec m CSelf)); cbn [mdata].
  - cbn [fst snd mcomm mdata]. split; [reflexivity|]. split; [reflexivity|]. split; [rewrite Km, Kr; reflexivity|].
    unfold m. clear - Hr. induction Hr as [|x y l l' [E1 (us & E2 & E3)] _ IH]; [constructor|]. cbn [map]. constructor; [|exact IH].
    cbn [fst snd]. split; [exact E1|]. exists us. split; [exact E2|]. rewrite E3. reflexivity.
  - exact Hd.
  - unfold wfm in *. rewrite Km, Kr. exact Ha.
  - rewrite Km, Kr. exact Ek.
Qed.
