(** Communicator objects, assignment of containers, MPI datatypes, device resources. *)
From Coq Require Import ZArith List Bool Lia Arith Sorted String.
From Verif Require Import Arith MVector Containers Handles HandlesProofs Datatype DatatypeProofs Device DeviceProofs.
Import ListNotations.

(** ** C81 *)
Theorem C81_value_semantics :
  forall p, no_self_move p -> forall st, option_map (map value_of) (hrun st p) = vrun (map value_of st) p.
Proof. exact hrun_value. Qed.
Print Assumptions C81_value_semantics.

Theorem C81_usable : forall nr h, (exists n, csize_of nr h = CVal n) <-> value_of h <> None.
Proof. exact usable. Qed.
Print Assumptions C81_usable.

Theorem C81_equality :
  (forall a, a <> HZero -> ceq a a = CVal true) /\
  (forall a b, a <> HZero -> b <> HZero -> ceq a b = ceq b a /\ exists r, ceq a b = CVal r /\ (r = true <-> a = b)) /\
  (forall a b c, a <> HZero -> b <> HZero -> c <> HZero -> ceq a b = CVal true -> ceq b c = CVal true -> ceq a c = CVal true).
Proof. exact ceq_equivalence. Qed.
Print Assumptions C81_equality.

Theorem C81_gather_communicator :
  forall nr own arg c, own = HComm c ->
  allgather_comm nr arg own = match arg with
    | HNull => CVal (Some own)
    | HZero => CUB
    | HComm d => CVal (if nr d <? nr c then None else Some arg)
    end.
Proof. exact allgather_comm_spec. Qed.
Print Assumptions C81_gather_communicator.

(** object 0 = std::move(object 0) *)
Theorem C81_self_move_refuted :
  exists p st nr, option_map (map value_of) (hrun st p) <> vrun (map value_of st) p /\
    exists st' h, hrun st p = Some st' /\ nth_error st' 0 = Some h /\ csize_of nr h = CUB.
Proof.
  exists [OMoveAssign 0 0], [HComm 3], (fun _ => 1). split; [discriminate|]. exists [HZero], HZero. repeat split; reflexivity.
Qed.
Print Assumptions C81_self_move_refuted.

(** after a = std::move(b), b can not even be compared to itself; after Communicator a(std::move(b)) it can *)
Theorem C81_moved_from_refuted :
  exists st, hrun [HComm 1; HComm 2] [OMoveAssign 0 1] = Some st /\ nth_error st 1 = Some HZero /\ ceq HZero HZero = CUB.
Proof. exists [HComm 2; HZero]. repeat split; reflexivity. Qed.
Print Assumptions C81_moved_from_refuted.

Theorem C81_moved_from_by_construction :
  forall st i h, nth_error st i = Some h ->
  exists st', hstep st (OMove i) = Some st' /\ nth_error st' i = Some HNull /\ ceq HNull HNull = CVal true.
Proof. intros st i h H. exact (proj1 (moved_from st i h H)). Qed.
Print Assumptions C81_moved_from_by_construction.

Example C81_example :
  no_self_move [ONew (HComm 5); ODefault; OCopy 0; OMove 2; OAssign 1 0; OMoveAssign 3 0] /\
  hrun [] [ONew (HComm 5); ODefault; OCopy 0; OMove 2; OAssign 1 0; OMoveAssign 3 0] = Some [HZero; HComm 5; HNull; HComm 5] /\
  allgather_comm (fun c => c) (HComm 3) (HComm 2) = CVal (Some (HComm 3)) /\ allgather_comm (fun c => c) (HComm 1) (HComm 2) = CVal None.
Proof.
  split; [intros i [H|[H|[H|[H|[H|[H|[]]]]]]]; try discriminate; injection H as A B; congruence|]. repeat split; reflexivity.
Qed.

(** ** C82 *)
Theorem C82_assigns_own_keys :
  forall V (dst src : mvec V), wfm (mdata dst) -> incl (keys (mdata dst)) (keys (mdata src)) ->
  exists m, assign_lvalue dst src = (MkMvec m (mcomm dst), None) /\ wfm m /\ keys m = keys (mdata dst) /\
    forall k, mfind k m = if existsb (keqb k) (keys (mdata dst)) then mfind k (mdata src) else None.
Proof. exact @assign_lvalue_ok. Qed.
Print Assumptions C82_assigns_own_keys.

Theorem C82_raises :
  forall V (dst src : mvec V), wfm (mdata dst) ->
  (snd (assign_lvalue dst src) = Some OutOfRange <-> ~ incl (keys (mdata dst)) (keys (mdata src))).
Proof. exact @assign_lvalue_throws. Qed.
Print Assumptions C82_raises.

Theorem C82_state_after_exception :
  forall V (dst src : mvec V), wfm (mdata dst) -> snd (assign_lvalue dst src) = Some OutOfRange ->
  exists a k b, keys (mdata dst) = a ++ k :: b /\ incl a (keys (mdata src)) /\ ~ In k (keys (mdata src)) /\
    forall x, mfind x (mdata (fst (assign_lvalue dst src))) = if existsb (keqb x) a then mfind x (mdata src) else mfind x (mdata dst).
Proof. exact @assign_lvalue_partial_state. Qed.
Print Assumptions C82_state_after_exception.

Theorem C82_equal_keys :
  forall V (dst src : mvec V), wfm (mdata dst) -> wfm (mdata src) -> keys (mdata dst) = keys (mdata src) ->
  assign_lvalue dst src = (MkMvec (mdata src) (mcomm dst), None).
Proof. exact @assign_same_keys. Qed.
Print Assumptions C82_equal_keys.

Theorem C82_state_update :
  forall V U W Y (f : V -> list U -> W * Y) (a : mvec V) (args : list (mvec U)) (dst : mvec W),
  wfm (mdata a) -> (forall k m, In k (keys (mdata a)) -> In m args -> In k (keys (mdata m))) ->
  wfm (mdata dst) -> keys (mdata dst) = keys (mdata a) ->
  exists r, tapply f a args = Ret r /\
    snd (assign_lvalue dst (fst (unzip None (eval_threaded r)))) = None /\
    let new := fst (assign_lvalue dst (fst (unzip None (eval_threaded r)))) in
    mcomm new = mcomm dst /\ keys (mdata new) = keys (mdata a) /\
    Forall2 (fun kv kw => fst kw = fst kv /\ exists us, map Some us = map (mfind (fst kv)) (map mdata args) /\ snd kw = fst (f (snd kv) us)) (mdata a) (mdata new).
Proof. exact @state_update. Qed.
Print Assumptions C82_state_update.

(** "after a = b, a holds what b holds" *)
Theorem C82_copies_refuted :
  exists dst src : mvec nat, wfm (mdata dst) /\ wfm (mdata src) /\ snd (assign_lvalue dst src) = None /\ mdata (fst (assign_lvalue dst src)) <> mdata src /\
    mdata (assign_const dst src) = mdata src.
Proof.
  exists (MkMvec [] CK), (MkMvec [((0%Z, 0%Z), 7)] CK).
  split; [unfold wfm; constructor|]. split; [unfold wfm; repeat constructor|]. split; [reflexivity|]. split; [discriminate | reflexivity].
Qed.
Print Assumptions C82_copies_refuted.

Example C82_example :
  let a := MkMvec [((0%Z, 0%Z), 1); ((1%Z, 0%Z), 2)] CK in let b := MkMvec [((0%Z, 0%Z), 5); ((1%Z, 0%Z), 6); ((2%Z, 0%Z), 7)] CSelf in
  wfm (mdata a) /\ wfm (mdata b) /\ incl (keys (mdata a)) (keys (mdata b)) /\
  assign_lvalue a b = (MkMvec [((0%Z, 0%Z), 5); ((1%Z, 0%Z), 6)] CK, None) /\ snd (assign_lvalue b a) = Some OutOfRange.
Proof.
  split; [unfold wfm; repeat constructor|]. split; [unfold wfm; repeat constructor|].
  split; [intros k [<- | [<- | []]]; [left | right; left]; reflexivity|]. split; reflexivity.
Qed.

(** ** C83 *)
Theorem C83_array_delivered :
  forall B A t n (src dst : nat -> B), abi_ok A -> fits A t -> delivered A t n src (transfer A t n src dst).
Proof. exact @fits_delivered. Qed.
Print Assumptions C83_array_delivered.

Theorem C83_stays_inside :
  forall A t n a, abi_ok A -> fits A t -> named A t n a = true -> a < n * size_of A t.
Proof. exact fits_no_overrun. Qed.
Print Assumptions C83_stays_inside.

Theorem C83_allgatherv :
  forall B A t counts (bufs : nat -> nat -> B) r, abi_ok A -> fits A t -> gathered A t counts bufs r (allgatherv A t counts bufs r).
Proof. exact @allgatherv_gathers. Qed.
Print Assumptions C83_allgatherv.

(** the element types of mvector<double>, mvector<int>, mvector<char> and of the lists of keys *)
Theorem C83_types_in_use :
  forall b, b = BDouble \/ b = BInt \/ b = BChar -> fits x86_64 key_ty /\ fits x86_64 (TPair key_ty (TBasic b)).
Proof. exact used_types_fit. Qed.
Print Assumptions C83_types_in_use.

Theorem C83_other_abis :
  forall A b, abi_ok A -> malign A BInt = balign A BInt -> malign A b = balign A b ->
  Nat.divide (balign A b) (2 * bsize A BInt) -> fits A (TPair key_ty (TBasic b)).
Proof. exact key_pair_fits. Qed.
Print Assumptions C83_other_abis.

Theorem C83_padded_pairs_not_delivered :
  forall A t1 b2, abi_ok A -> fits A t1 -> ~ Nat.divide (balign A b2) (size_of A t1) ->
  forall B (x y : B), x <> y ->
  exists src dst : nat -> B, ~ delivered A (TPair t1 (TBasic b2)) 1 src (transfer A (TPair t1 (TBasic b2)) 1 src dst).
Proof. exact padded_not_delivered. Qed.
Print Assumptions C83_padded_pairs_not_delivered.

(** std::pair<int, double> *)
Theorem C83_int_double_refuted :
  exists src dst : nat -> bool,
    ~ delivered x86_64 (TPair (TBasic BInt) (TBasic BDouble)) 1 src (transfer x86_64 (TPair (TBasic BInt) (TBasic BDouble)) 1 src dst).
Proof.
  refine (padded_not_delivered x86_64 (TBasic BInt) BDouble x86_64_ok I _ bool true false _); [|discriminate].
  cbn. intros [q E]. lia.
Qed.
Print Assumptions C83_int_double_refuted.

Theorem C83_types_leak :
  forall cap live n l, type_calls cap live (times n fn_types) = Some l -> l = live + 3 * n.
Proof. exact fn_leaks. Qed.
Print Assumptions C83_types_leak.

Theorem C83_types_run_out : forall cap, exists n, type_calls cap 0 (times n fn_types) = None.
Proof. intros cap. exists (S cap). apply fn_exhausts. lia. Qed.
Print Assumptions C83_types_run_out.

Example C83_example :
  abi_ok x86_64 /\ fits x86_64 (TPair key_ty (TBasic BDouble)) /\ size_of x86_64 (TPair key_ty (TBasic BDouble)) = 16 /\
  (* two ranks, one and two elements; byte 40 belongs to the double of the last element *)
  allgatherv x86_64 (TPair key_ty (TBasic BDouble)) [1; 2] (fun q a => 100 * q + a) 0 40 = 140 /\
  allgatherv x86_64 (TPair key_ty (TBasic BDouble)) [1; 2] (fun q a => 100 * q + a) 1 8 = 8 /\
  type_calls 10 0 (times 3 fn_types) = Some 9.
Proof.
  split; [exact x86_64_ok|]. split; [exact (proj2 (used_types_fit BDouble (or_introl eq_refl)))|]. repeat split; vm_compute; reflexivity.
Qed.

(** ** C84 *)
Theorem C84_blocks_lost :
  forall cs d d', dev_ok d -> dcalls_run cs d = DVal tt d' ->
  dev_ok d' /\ d_cap d' = d_cap d /\ lost d d' (fold_right (fun c n => leaks c + n) 0 cs).
Proof. exact dcalls_leak. Qed.
Print Assumptions C84_blocks_lost.

Theorem C84_returns :
  forall cs d, dev_ok d -> (forall c, In c cs -> good_call c) -> used d + peak cs <= d_cap d -> exists d', dcalls_run cs d = DVal tt d'.
Proof. exact dcalls_return. Qed.
Print Assumptions C84_returns.

Theorem C84_memory_exhausted :
  forall cs d, dev_ok d -> (forall c, In c cs -> good_call c) -> d_cap d < 4 * List.length cs + used d -> dcalls_run cs d = DUB.
Proof. exact dcalls_exhaust. Qed.
Print Assumptions C84_memory_exhausted.

Theorem C84_host_reports : forall info, eigh_report SHost true info = Returns <-> info = 0%Z.
Proof. exact eigh_host_reports. Qed.
Print Assumptions C84_host_reports.

Theorem C84_device_silent :
  forall s info, s <> SHost -> eigh_report s true info = Returns.
Proof. exact eigh_device_silent. Qed.
Print Assumptions C84_device_silent.

(** "a failed diagonalisation raises" *)
Theorem C84_failure_raises_refuted : exists s info, info <> 0%Z /\ eigh_report s true info = Returns.
Proof. exists SCuda, 3%Z. split; [discriminate | reflexivity]. Qed.
Print Assumptions C84_failure_raises_refuted.

Theorem C84_cuda_report :
  forall loc l d, good l -> dev_ok d -> used d + (16 * l_work l + 4) <= d_cap d ->
  match eigh_report SCuda loc (l_info l) with
  | Returns => exists d', eigh_cuda loc l d = DVal tt d'
  | Throws m => eigh_cuda loc l d = DThrow m d
  end.
Proof. exact eigh_cuda_report. Qed.
Print Assumptions C84_cuda_report.

Theorem C84_failed_factorisation_silent :
  forall lf ls i d, solve_sym_cuda true (Lib (l_buf lf) (l_work lf) (l_ok lf) i) ls d = solve_sym_cuda true lf ls d.
Proof. exact solve_sym_cuda_blind. Qed.
Print Assumptions C84_failed_factorisation_silent.

Theorem C84_handle_valid :
  forall cs, In (fst (handle_get (hcmds_run cs h_init))) (h_alive (snd (handle_get (hcmds_run cs h_init)))).
Proof. exact handle_valid. Qed.
Print Assumptions C84_handle_valid.

Theorem C84_handle_stable : forall s, let '(h, s') := handle_get s in handle_get s' = (h, s').
Proof. exact handle_get_stable. Qed.
Print Assumptions C84_handle_stable.

Theorem C84_handles_never_released :
  (forall cs s h, In h (h_alive s) -> In h (h_alive (hcmds_run cs s))) /\
  (forall n, List.length (h_alive (hcmds_run (cycles n) h_init)) = n).
Proof. exact (conj handles_never_released handle_cycles). Qed.
Print Assumptions C84_handles_never_released.

(** "destroy() releases the handle" *)
Theorem C84_destroy_releases_refuted :
  exists s h, h_cell s = Some h /\ In h (h_alive (handle_destroy s)) /\ h_cell (handle_destroy s) = None.
Proof. exists (HState (Some 0) [0] 1), 0. repeat split. left. reflexivity. Qed.
Print Assumptions C84_destroy_releases_refuted.

Theorem C84_magma_workspace_short : forall n nb, zheevd_magma_work n nb = None <-> 0 < n.
Proof. exact magma_work_short. Qed.
Print Assumptions C84_magma_workspace_short.

Example C84_example :
  let l := Lib true 2 true 0 in
  dev_ok (dev_fresh 60) /\ good_call (CSolve l l) /\
  (exists d', dcalls_run [CEigh l; CSolve l l; CEigh l] (dev_fresh 60) = DVal tt d' /\ d_live d' = [(6, 4); (4, 4); (3, 4); (1, 4)]) /\
  dcalls_run [CEigh l; CSolve l l; CEigh l; CSolve l l; CEigh l; CSolve l l; CEigh l] (dev_fresh 60) = DUB /\
  h_alive (hcmds_run [HGet; HGet; HDestroy; HGet] h_init) = [1; 0].
Proof.
  split; [apply dev_fresh_ok|]. split; [repeat split|]. split; [eexists; split; vm_compute; reflexivity|]. split; vm_compute; reflexivity.
Qed.
