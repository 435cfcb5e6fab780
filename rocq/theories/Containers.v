(** Operations on keyed containers: src/la/utils.hpp 193-250 (tapply, tapply_op, tapply_async),
    src/la/mvector.hpp 426-485 (eval_threaded, execute, sum), 530-587 (unzip), src/la/lapack.hpp 329-349,
    src/free_energy.hpp 61-78, src/mpi/communicator.hpp 51-68. *)
From Coq Require Import ZArith List Bool Lia Arith Reals Lra.
From Verif Require Import Arith MVector Mpi MpiProofs.
Import ListNotations.

(** std::out_of_range thrown by std::map::at, and other standard exceptions. *)
Inductive std_exn := OutOfRange.

(** Communicators that occur in nlcglib: MPI_COMM_NULL, MPI_COMM_SELF and the k-point communicator. *)
Inductive comm := CNull | CSelf | CK.

(** mvector: data_ and comm_ of one rank, mvector.hpp 127-129. *)
Record mvec (V : Type) := MkMvec { mdata : smap V; mcomm : comm }.
Arguments MkMvec {V}. Arguments mdata {V}. Arguments mcomm {V}.

(** The value of another container at the key of the current entry: container.at(key). *)
Definition at_key {V} (k : key) (m : smap V) : outcome std_exn V :=
  match mfind k m with Some v => Ret v | None => Throw (OtherExn OutOfRange) end.

Fixpoint at_all {V} (k : key) (ms : list (smap V)) : outcome std_exn (list V) :=
  match ms with
  | [] => Ret []
  | m :: r => match at_key k m with
              | Ret v => match at_all k r with Ret vs => Ret (v :: vs) | Throw e => Throw e | UB => UB | NoFuel => NoFuel end
              | Throw e => Throw e | UB => UB | NoFuel => NoFuel
              end
  end.

(** tapply(fun, arg0, args...), utils.hpp 193-206: result[key] = bind(fun, arg0.at(key), args.at(key)...).
    The further arguments are given the common element type U (a sum type if they differ).  The bound
    call has no effect of its own, so evaluating it later (eval_threaded) gives the same value. *)
Fixpoint tapply_loop {V U W} (f : V -> list U -> W) (arg0 : smap V) (args : list (smap U)) (it : smap V) (res : smap W)
  : outcome std_exn (smap W) :=
  match it with
  | [] => Ret res
  | (k, _) :: r =>
    match at_key k arg0 with
    | Ret v => match at_all k args with
               | Ret us => tapply_loop f arg0 args r (mset k (f v us) res)
               | Throw e => Throw e | UB => UB | NoFuel => NoFuel
               end
    | Throw e => Throw e | UB => UB | NoFuel => NoFuel
    end
  end.
Definition tapply {V U W} (f : V -> list U -> W) (arg0 : mvec V) (args : list (mvec U)) : outcome std_exn (mvec W) :=
  match tapply_loop f (mdata arg0) (map mdata args) (mdata arg0) [] with
  | Ret m => Ret (MkMvec m (mcomm arg0))
  | Throw e => Throw e | UB => UB | NoFuel => NoFuel
  end.

(** tapply_op(op, arg0, args...), utils.hpp 215-232: the function is looked up by key as well.
    op.at(key) makes the operator for that key; modelled as a container of functions. *)
Fixpoint tapply_op_loop {V U W} (op : smap (V -> list U -> W)) (arg0 : smap V) (args : list (smap U)) (it : smap V) (res : smap W)
  : outcome std_exn (smap W) :=
  match it with
  | [] => Ret res
  | (k, _) :: r =>
    match at_key k op with
    | Ret f =>
      match at_key k arg0 with
      | Ret v => match at_all k args with
                 | Ret us => tapply_op_loop op arg0 args r (mset k (f v us) res)
                 | Throw e => Throw e | UB => UB | NoFuel => NoFuel
                 end
      | Throw e => Throw e | UB => UB | NoFuel => NoFuel
      end
    | Throw e => Throw e | UB => UB | NoFuel => NoFuel
    end
  end.
Definition tapply_op {V U W} (op : smap (V -> list U -> W)) (arg0 : mvec V) (args : list (mvec U)) : outcome std_exn (mvec W) :=
  match tapply_op_loop op (mdata arg0) (map mdata args) (mdata arg0) [] with
  | Ret m => Ret (MkMvec m (mcomm arg0))
  | Throw e => Throw e | UB => UB | NoFuel => NoFuel
  end.

(** eval_threaded, mvector.hpp 426-436: the result is default constructed, i.e. MPI_COMM_SELF
    (communicator.hpp 30). *)
Definition eval_threaded {V} (x : mvec V) : mvec V :=
  MkMvec (fold_left (fun m kv => mset (fst kv) (snd kv) m) (mdata x) []) CSelf.

(** unzip for pairs, mvector.hpp 530-587; the communicator is SELF unless given. *)
Definition unzip {V W} (c : option comm) (x : mvec (V * W)) : mvec V * mvec W :=
  let cm := match c with Some c => c | None => CSelf end in
  (MkMvec (fold_left (fun m kv => mset (fst kv) (fst (snd kv)) m) (mdata x) []) cm,
   MkMvec (fold_left (fun m kv => mset (fst kv) (snd (snd kv)) m) (mdata x) []) cm).

(** FreeEnergy::compute, free_energy.hpp 61-76: key_fn and vec_fn. *)
Definition handover {V} (fn : smap V) : list key * list V :=
  let map_fn := fold_left (fun m kv => mset (fst kv) (snd kv) m) fn [] in
  (map fst map_fn, map snd map_fn).

(** *** Collectives on containers *)
Section Collective.
  Context (nranks : nat).        (* size of the k-point communicator *)

  Definition csize (c : comm) : nat := match c with CNull => 0 | CSelf => 1 | CK => nranks end.

  (** "if (comm == NULL) comm = comm_; if (comm < comm_) throw", mvector.hpp 137-141 and 474-478.
      MPI_Comm_size of MPI_COMM_NULL aborts (own communicator NULL): not reached, mvector has SELF by default. *)
  Definition choose_comm (arg own : comm) : outcome std_exn comm :=
    let c := match arg with CNull => own | _ => arg end in
    if csize c <? csize own then Throw RuntimeError else Ret c.

  Context (A : arith) (red : list (num A) -> num A).   (* MPI_Allreduce with MPI_SUM *)

  (** local part of sum, mvector.hpp 480-483 *)
  Definition local_sum (m : smap (num A)) : num A := fold_left (fun s kv => aadd A s (snd kv)) m (alit A 0 1).

  (** sum(x, comm) executed by all ranks of the k-point communicator, mvector.hpp 470-485.
      Result: the value (or exception) on every rank. *)
  Definition dsum (arg own : comm) (world : list (smap (num A))) : list (outcome std_exn (num A)) :=
    match choose_comm arg own with
    | Ret CSelf => map (fun m => Ret (red [local_sum m])) world
    | Ret CK => let s := red (map local_sum world) in map (fun _ => Ret s) world
    | Ret CNull => map (fun _ => UB) world
    | Throw e => map (fun _ => Throw e) world
    | UB => map (fun _ => UB) world
    | NoFuel => map (fun _ => NoFuel) world
    end.

  (** innerh_reduce / l2norm before the square root, lapack.hpp 329-349: sum(eval_threaded(tapply(..))).
      [world]: the local values of innerh_tr. *)
  Definition reduce_after_eval (world : list (mvec (num A))) : list (outcome std_exn (num A)) :=
    let evald := map eval_threaded world in
    match evald with
    | [] => []
    | x :: _ => dsum CNull (mcomm x) (map mdata evald)
    end.
End Collective.

(** ** Facts *)
Section Facts.
  Context {V U W : Type}.

  Lemma rebuild (m : smap V) : wfm m -> fold_left (fun m kv => mset (fst kv) (snd kv) m) m [] = m.
  Proof.
    intros H. destruct (map_of_assignments_gen m [] wfm_nil) as (H1 & H2).
    apply wfm_ext; auto. intros k. rewrite H2. cbn.
    destruct (mfind k m) as [v|] eqn:E.
    - replace (mfind k (rev m)) with (Some v); [reflexivity|]. symmetry. apply mfind_nodup.
      + unfold keys. rewrite map_rev. apply NoDup_rev. change (map fst m) with (keys m).
        clear -H. unfold wfm in H. induction H as [|a l Hs IH Hf]; constructor; [|assumption].
        intros Hin. rewrite Forall_forall in Hf. exact (klt_irr a (Hf a Hin)).
      + apply -> in_rev. apply mfind_In; assumption.
    - destruct (mfind k (rev m)) as [v|] eqn:E2; [|reflexivity]. exfalso.
      apply mfind_none in E. apply E. assert (Hin : In k (keys (rev m))) by (apply mfind_in; eauto).
      unfold keys in *. rewrite map_rev in Hin. apply in_rev in Hin. exact Hin.
  Qed.

  Lemma wfm_nodup (m : smap V) : wfm m -> NoDup (keys m).
  Proof.
    intros H. unfold wfm in H. induction H as [|a l Hs IH Hf]; constructor; [|assumption].
    intros Hin. rewrite Forall_forall in Hf. exact (klt_irr a (Hf a Hin)).
  Qed.

  Lemma eval_threaded_spec (x : mvec V) : wfm (mdata x) -> eval_threaded x = MkMvec (mdata x) CSelf.
  Proof. intros H. unfold eval_threaded. rewrite rebuild by exact H. reflexivity. Qed.

  (** mset past the end appends *)
  Lemma mset_last (k : key) (v : W) (m : smap W) : Forall (fun k' => klt k' k) (keys m) -> mset k v m = m ++ [(k, v)].
  Proof.
    induction m as [|[k' v'] m IH]; intros H; cbn; [reflexivity|]. inversion H as [|? ? H1 H2]; subst.
    destruct (kltb k k') eqn:E.
    - exfalso. apply (klt_irr k). eapply klt_trans; [exact E|exact H1].
    - destruct (keqb k k') eqn:E2; [apply keqb_eq in E2; subst; exfalso; exact (klt_irr _ H1)|].
      rewrite IH by assumption. reflexivity.
  Qed.

  Lemma at_all_spec k (ms : list (smap U)) :
    (forall m, In m ms -> In k (keys m)) ->
    exists us, at_all k ms = Ret us /\ map Some us = map (mfind k) ms.
  Proof.
    induction ms as [|m ms IH]; intros H; cbn.
    - exists []. auto.
    - destruct (IH (fun m' Hm => H m' (or_intror Hm))) as (us & H1 & H2).
      assert (Hk : In k (keys m)) by (apply H; left; reflexivity). apply mfind_in in Hk. destruct Hk as (u & Hu).
      unfold at_key. rewrite Hu, H1. exists (u :: us). split; [reflexivity|]. cbn. rewrite H2. reflexivity.
  Qed.

  Lemma at_all_missing k (ms : list (smap U)) m : In m ms -> ~ In k (keys m) ->
    at_all k ms = Throw (OtherExn OutOfRange).
  Proof.
    induction ms as [|m' ms IH]; intros Hin Hk; [destruct Hin|]. cbn. unfold at_key.
    destruct (mfind k m') as [v|] eqn:E; [|reflexivity].
    destruct Hin as [->|Hin].
    - exfalso. apply Hk. apply mfind_in. eauto.
    - rewrite IH by assumption. reflexivity.
  Qed.

  Lemma wfm_app_split (l1 l2 : smap V) : wfm (l1 ++ l2) -> forall k1 k2, In k1 (keys l1) -> In k2 (keys l2) -> klt k1 k2.
  Proof.
    unfold wfm, keys. rewrite map_app. intros H k1 k2 H1 H2.
    induction (map fst l1) as [|a l IH]; [destruct H1|]. cbn in H. inversion H as [|? ? Hs Hf]; subst.
    destruct H1 as [->|H1]; [|auto]. rewrite Forall_forall in Hf. apply Hf. apply in_or_app. right. exact H2.
  Qed.

  (** What the result for one entry must be. *)
  Definition entry_ok (f : V -> list U -> W) (args : list (smap U)) (kv : key * V) (kw : key * W) : Prop :=
    fst kw = fst kv /\ exists us, map Some us = map (mfind (fst kv)) args /\ snd kw = f (snd kv) us.

  Lemma tapply_loop_spec (f : V -> list U -> W) (a : smap V) (args : list (smap U)) :
    wfm a -> (forall k m, In k (keys a) -> In m args -> In k (keys m)) ->
    forall it done res, a = done ++ it -> Forall2 (entry_ok f args) done res ->
    exists r, tapply_loop f a args it res = Ret r /\ Forall2 (entry_ok f args) a r.
  Proof.
    intros Hwf Hk. induction it as [|[k v] it IH]; intros done res Ea Hd.
    - exists res. split; [reflexivity|]. rewrite app_nil_r in Ea. subst a. exact Hd.
    - cbn [tapply_loop]. assert (Hin : In (k, v) a) by (rewrite Ea; apply in_or_app; right; left; reflexivity).
      unfold at_key. rewrite (proj2 (mfind_In k v a Hwf) Hin).
      assert (Hkk : In k (keys a)) by (unfold keys; apply in_map_iff; exists (k, v); auto).
      destruct (at_all_spec k args (fun m Hm => Hk k m Hkk Hm)) as (us & H1 & H2). rewrite H1.
      apply (IH (done ++ [(k, v)])).
      + rewrite <- app_assoc. exact Ea.
      + rewrite mset_last.
        * apply Forall2_app; [exact Hd|]. constructor; [|constructor]. split; [reflexivity|]. cbn. eauto.
        * assert (Hkeys : keys res = keys done).
          { clear -Hd. induction Hd as [|x y l l' H Hl IHl]; [reflexivity|]. unfold keys in *. cbn. destruct H as (-> & _). f_equal. exact IHl. }
          rewrite Hkeys. apply Forall_forall. intros k' Hk'. subst a.
          apply (wfm_app_split done ((k, v) :: it) Hwf k' k Hk'). left. reflexivity.
  Qed.

  Lemma tapply_spec (f : V -> list U -> W) (a : mvec V) (args : list (mvec U)) :
    wfm (mdata a) -> (forall k m, In k (keys (mdata a)) -> In m args -> In k (keys (mdata m))) ->
    exists r, tapply f a args = Ret (MkMvec r (mcomm a)) /\ Forall2 (entry_ok f (map mdata args)) (mdata a) r.
  Proof.
    intros Hwf Hk. unfold tapply.
    destruct (tapply_loop_spec f (mdata a) (map mdata args) Hwf) with (it := mdata a) (done := @nil (key * V)) (res := @nil (key * W))
      as (r & H1 & H2).
    - intros k m H1 H2. apply in_map_iff in H2. destruct H2 as (m' & <- & H2). eapply Hk; eauto.
    - reflexivity.
    - constructor.
    - rewrite H1. eauto.
  Qed.

  Lemma tapply_loop_missing (f : V -> list U -> W) (a : smap V) (args : list (smap U)) k m :
    In m args -> ~ In k (keys m) ->
    forall it res, (forall kv, In kv it -> exists v, mfind (fst kv) a = Some v) -> In k (keys it) ->
    tapply_loop f a args it res = Throw (OtherExn OutOfRange).
  Proof.
    intros Hm Hk. induction it as [|[k' v'] it IH]; intros res Hit Hin; [destruct Hin|].
    cbn [tapply_loop]. destruct (Hit (k', v') (or_introl eq_refl)) as (v & Hv). cbn in Hv. unfold at_key. rewrite Hv.
    destruct (at_all k' args) as [us|e| |] eqn:E.
    - apply IH; [intros kv H; apply Hit; right; exact H|]. destruct Hin as [E2|Hin]; [|exact Hin].
      cbn in E2. subst k'. rewrite (at_all_missing k args m Hm Hk) in E. discriminate.
    - clear -E. revert e E. induction args as [|m' args IHa]; intros e E; cbn in E; [discriminate|].
      unfold at_key in E. destruct (mfind k' m'); [|congruence]. destruct (at_all k' args); inversion E. subst. apply IHa. reflexivity.
    - exfalso. clear -E. induction args as [|m' args IHa]; cbn in E; [discriminate|]. unfold at_key in E. destruct (mfind k' m'); [|congruence]. destruct (at_all k' args); try discriminate E; tauto.
    - exfalso. clear -E. induction args as [|m' args IHa]; cbn in E; [discriminate|]. unfold at_key in E. destruct (mfind k' m'); [|congruence]. destruct (at_all k' args); try discriminate E; tauto.
  Qed.

  Lemma tapply_missing (f : V -> list U -> W) (a : mvec V) (args : list (mvec U)) k m :
    In k (keys (mdata a)) -> In m args -> ~ In k (keys (mdata m)) ->
    tapply f a args = Throw (OtherExn OutOfRange).
  Proof.
    intros Hin Hm Hk. unfold tapply.
    rewrite (tapply_loop_missing f (mdata a) (map mdata args) k (mdata m)); auto.
    - apply in_map. exact Hm.
    - intros kv Hkv. apply mfind_in. unfold keys. apply in_map. exact Hkv.
  Qed.
End Facts.

(** tapply_op with an operator defined on all keys behaves as tapply with that operator's entry. *)
Lemma tapply_op_loop_spec {V U W} (op : smap (V -> list U -> W)) (a : smap V) (args : list (smap U)) :
  wfm a -> (forall k, In k (keys a) -> In k (keys op)) ->
  (forall k m, In k (keys a) -> In m args -> In k (keys m)) ->
  forall it done res, a = done ++ it ->
  Forall2 (fun kv kw => exists f, mfind (fst kv) op = Some f /\ entry_ok f args kv kw) done res ->
  exists r, tapply_op_loop op a args it res = Ret r /\
    Forall2 (fun kv kw => exists f, mfind (fst kv) op = Some f /\ entry_ok f args kv kw) a r.
Proof.
  intros Hwf Hop Hk. induction it as [|[k v] it IH]; intros done res Ea Hd.
  - exists res. split; [reflexivity|]. rewrite app_nil_r in Ea. subst a. exact Hd.
  - cbn [tapply_op_loop]. assert (Hin : In (k, v) a) by (rewrite Ea; apply in_or_app; right; left; reflexivity).
    assert (Hkk : In k (keys a)) by (unfold keys; apply in_map_iff; exists (k, v); auto).
    destruct (proj2 (mfind_in k op) (Hop k Hkk)) as (f & Hf).
    unfold at_key. rewrite Hf, (proj2 (mfind_In k v a Hwf) Hin).
    destruct (at_all_spec k args (fun m Hm => Hk k m Hkk Hm)) as (us & H1 & H2). rewrite H1.
    apply (IH (done ++ [(k, v)])).
    + rewrite <- app_assoc. exact Ea.
    + rewrite mset_last.
      * apply Forall2_app; [exact Hd|]. constructor; [|constructor]. exists f. split; [exact Hf|]. split; [reflexivity|]. cbn. eauto.
      * assert (Hkeys : keys res = keys done).
        { clear -Hd. induction Hd as [|x y l l' H Hl IHl]; [reflexivity|]. unfold keys in *. cbn. destruct H as (f & _ & -> & _). f_equal. exact IHl. }
        rewrite Hkeys. apply Forall_forall. intros k' Hk'. subst a.
        apply (wfm_app_split done ((k, v) :: it) Hwf k' k Hk'). left. reflexivity.
Qed.

Lemma tapply_op_spec {V U W} (op : smap (V -> list U -> W)) (a : mvec V) (args : list (mvec U)) :
  wfm (mdata a) -> (forall k, In k (keys (mdata a)) -> In k (keys op)) ->
  (forall k m, In k (keys (mdata a)) -> In m args -> In k (keys (mdata m))) ->
  exists r, tapply_op op a args = Ret (MkMvec r (mcomm a)) /\
    Forall2 (fun kv kw => exists f, mfind (fst kv) op = Some f /\ entry_ok f (map mdata args) kv kw) (mdata a) r.
Proof.
  intros Hwf Hop Hk. unfold tapply_op.
  destruct (tapply_op_loop_spec op (mdata a) (map mdata args) Hwf Hop) with (it := mdata a) (done := @nil (key * V)) (res := @nil (key * W))
    as (r & H1 & H2).
  - intros k m H1 H2. apply in_map_iff in H2. destruct H2 as (m' & <- & H2). eapply Hk; eauto.
  - reflexivity.
  - constructor.
  - rewrite H1. eauto.
Qed.

Lemma unzip_one {V W} (g : V -> W) (m : smap V) : wfm m ->
  fold_left (fun r kv => mset (fst kv) (g (snd kv)) r) m [] = map (fun kv => (fst kv, g (snd kv))) m.
Proof.
  intros H. pose (m' := map (fun kv => (fst kv, g (snd kv))) m).
  assert (Hk : keys m' = keys m) by (unfold m', keys; rewrite map_map; reflexivity).
  assert (Hw : wfm m') by (unfold wfm; rewrite Hk; exact H).
  transitivity m'; [|reflexivity]. rewrite <- (rebuild m' Hw). unfold m'. clear.
  assert (Hg : forall l r, fold_left (fun r kv => mset (fst kv) (g (snd kv)) r) l r =
    fold_left (fun m kv => mset (fst kv) (snd kv) m) (map (fun kv => (fst kv, g (snd kv))) l) r).
  { induction l as [|x l IH]; intros r; cbn; [reflexivity|apply IH]. }
  apply Hg.
Qed.

Lemma unzip_spec {V W} c (x : mvec (V * W)) : wfm (mdata x) ->
  unzip c x = (MkMvec (map (fun kv => (fst kv, fst (snd kv))) (mdata x)) (match c with Some c => c | None => CSelf end),
               MkMvec (map (fun kv => (fst kv, snd (snd kv))) (mdata x)) (match c with Some c => c | None => CSelf end)).
Proof. intros H. unfold unzip. rewrite !(unzip_one _ _ H). reflexivity. Qed.

Lemma handover_spec {V} (fn : smap V) : wfm fn ->
  length (fst (handover fn)) = length (snd (handover fn)) /\
  combine (fst (handover fn)) (snd (handover fn)) = fn.
Proof.
  intros H. unfold handover. rewrite (rebuild fn H). cbn [fst snd].
  split; [rewrite !map_length; reflexivity|]. clear H. induction fn as [|[k v] fn IH]; cbn; congruence.
Qed.

(** ** Distributed sums in exact arithmetic *)
Definition rsum (l : list R) : R := fold_right Rplus 0%R l.

Lemma local_sum_R (m : smap (num Rarith)) : local_sum Rarith m = rsum (map snd m).
Proof.
  unfold local_sum.
  assert (H : forall (l : smap (num Rarith)) (s : num Rarith),
    fold_left (fun s kv => aadd Rarith s (snd kv)) l s = (s + rsum (map (@snd key R) l))%R).
  { induction l as [|x l IH]; intros s; cbn [fold_left map rsum fold_right].
    - symmetry. apply Rplus_0_r.
    - rewrite IH. cbn [aadd Rarith]. unfold rsum. apply Rplus_assoc. }
  rewrite H. cbn [alit Rarith]. unfold Rlit. 
  assert (E : forall x : R, (0 / 1 + x = x)%R) by (intros; lra). exact (E (rsum (map (@snd key R) m))).
Qed.

Lemma rsum_app l1 l2 : rsum (l1 ++ l2) = (rsum l1 + rsum l2)%R.
Proof.
  induction l1 as [|x l1 IH]; cbn [app].
  - change (rsum l2 = 0 + rsum l2)%R. ring.
  - change (x + rsum (l1 ++ l2) = (x + rsum l1) + rsum l2)%R. rewrite IH. ring.
Qed.
Lemma rsum_concat {X} (g : X -> R) (ls : list (list X)) : rsum (map (fun l => rsum (map g l)) ls) = rsum (map g (concat ls)).
Proof. induction ls as [|l ls IH]; cbn [map concat rsum fold_right]; [reflexivity|]. rewrite map_app, rsum_app. unfold rsum in *. rewrite <- IH. reflexivity. Qed.

Section Sum.
  Context (n : nat) (red : list (num Rarith) -> num Rarith).
  Hypothesis Hred : forall l, red l = rsum l.

  Lemma dsum_K world arg own : (n = length world) -> (arg = CK \/ (arg = CNull /\ own = CK)) -> csize n own <= n ->
    dsum n Rarith red arg own world = map (fun _ => Ret (rsum (map snd (concat world)))) world.
  Proof.
    intros Hn Harg Hown. unfold dsum, choose_comm.
    assert (E : (match arg with CNull => own | _ => arg end) = CK) by (destruct Harg as [->|(-> & ->)]; reflexivity).
    rewrite E. cbn [csize]. replace (n <? csize n own) with false by (symmetry; apply Nat.ltb_ge; exact Hown).
    apply map_ext. intros _. f_equal. etransitivity; [apply Hred|].
    etransitivity; [|exact (rsum_concat (@snd key R) world)].
    exact (f_equal rsum (map_ext _ _ local_sum_R world)).
  Qed.

  Lemma dsum_smaller world arg own : arg <> CNull -> csize n arg < csize n own ->
    dsum n Rarith red arg own world = map (fun _ => Throw RuntimeError) world.
  Proof.
    intros Ha H. unfold dsum, choose_comm.
    replace (match arg with CNull => own | _ => arg end) with arg by (destruct arg; congruence).
    replace (csize n arg <? csize n own) with true by (symmetry; apply Nat.ltb_lt; exact H). reflexivity.
  Qed.

  Lemma reduce_local (world : list (mvec (num Rarith))) : (forall x, In x world -> wfm (mdata x)) ->
    reduce_after_eval n Rarith red world = map (fun x => Ret (rsum (map snd (mdata x)))) world.
  Proof.
    intros Hwf. unfold reduce_after_eval. destruct world as [|x world]; [reflexivity|].
    cbn [map]. unfold dsum, choose_comm. cbn [mcomm eval_threaded csize]. cbn [Nat.ltb Nat.leb].
    assert (H : forall x, wfm (mdata x) -> red [local_sum Rarith (mdata (eval_threaded x))] = rsum (map snd (mdata x))).
    { intros y Hy. rewrite eval_threaded_spec by exact Hy. cbn [mdata]. rewrite Hred, local_sum_R. unfold rsum. cbn. apply Rplus_0_r. }
    cbn [map]. rewrite H by (apply Hwf; left; reflexivity). f_equal.
    rewrite !map_map. apply map_ext_in. intros y Hy. rewrite H by (apply Hwf; right; exact Hy). reflexivity.
  Qed.
End Sum.
