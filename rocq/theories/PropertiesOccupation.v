(** Properties C26-C28, C48-C52, C55: chemical potential by Newton, occupations over all ranks,
    gathers and keyed containers. *)
From Coq Require Import ZArith List Bool Reals Lra Lia Permutation.
From Flocq Require Import IEEE754.BinarySingleNaN.
From Verif Require Import Arith Float64 MVector Mpi MpiProofs Containers GatherFacts ChemPot Newton Occupation.
Import ListNotations.

(** ** C26 *)
Theorem C26_returned_charge_error :
  forall (A : arith) (N dN ddN : num A -> num A) (ne tol : num A) maxstep mu0 mu vis,
  newton A N dN ddN ne tol maxstep mu0 = (Ret mu, vis) ->
  altb A (alit A 1 100) (aabs A (asub A (N mu) ne)) = false.
Proof. exact newton_sound. Qed.
Print Assumptions C26_returned_charge_error.

Theorem C26_bounded_and_only_failed_to_converge :
  forall (A : arith) (N dN ddN : num A -> num A) (ne tol : num A) maxstep mu0,
  (length (snd (newton A N dN ddN ne tol maxstep mu0)) <= S maxstep)%nat /\
  ((exists mu, fst (newton A N dN ddN ne tol maxstep mu0) = Ret mu) \/
   fst (newton A N dN ddN ne tol maxstep mu0) = Throw (OtherExn FailedToConverge)).
Proof. exact newton_outcomes. Qed.
Print Assumptions C26_bounded_and_only_failed_to_converge.

(** The Newton step that produced the returned value, and why the loop stopped. *)
Theorem C26_last_step :
  forall (A : arith) (N dN ddN : num A -> num A) (ne tol : num A) k mu vis mu' vis',
  newton_loop A N dN ddN ne tol k mu vis = (Ret mu', vis') ->
  exists m v, vis' = m :: v /\
    mu' = asub A m (adiv A (nt_dF A N dN ne m) (aabs A (nt_ddF A N dN ddN ne m))) /\
    altb A (aabs A (nt_ddF A N dN ddN ne m)) (alit A 1 10000000000) = false /\
    (altb A (aabs A (adiv A (nt_dF A N dN ne m) (aabs A (nt_ddF A N dN ddN ne m)))) tol = true \/
     altb A (aabs A (asub A (N m) ne)) tol = true).
Proof. exact newton_loop_ret. Qed.
Print Assumptions C26_last_step.

Theorem C26_linear_count_is_solved :
  forall (c b ne tol mu0 : R) (k : nat), (1 / 10000000000 <= 2 * c * c)%R -> (0 < tol)%R ->
  exists vis, newton Rarith (fun x => c * x + b)%R (fun _ => c) (fun _ => 0%R) ne tol (S k) mu0 = (Ret ((ne - b) / c)%R, vis) /\
    (length vis <= 2)%nat.
Proof. exact newton_linear. Qed.
Print Assumptions C26_linear_count_is_solved.

(** The caller's tolerance is met: refuted for every tolerance up to 1e-3. *)
Theorem C26_caller_tolerance_refuted :
  exists N dN ddN ne mu0, forall tol, (0 < tol <= 1/1000)%R ->
  exists mu vis, newton Rarith N dN ddN ne tol 1000 mu0 = (Ret mu, vis) /\ ~ (Rabs (N mu - ne) < tol)%R.
Proof.
  exists (fun x => 1/1000 + x * x)%R, (fun x => 2 * x)%R, (fun _ => 2)%R, 0%R, 0%R. intros tol Ht.
  exists 0%R, [0%R]. split; [apply newton_not_a_solution; lra|].
  rewrite Rabs_pos_eq; lra.
Qed.
Print Assumptions C26_caller_tolerance_refuted.

(** Doubles: N = x^3, ne = 8 from 3; constant N fails because of the vanishing derivative. *)
Definition cube (x : f64) : f64 := fmul x (fmul x x).
Example C26_example :
  match newton F64 cube (fun x => fmul (flit 3 1) (fmul x x)) (fun x => fmul (flit 6 1) x) (flit 8 1) (flit 1 1000000) 1000 (flit 3 1),
        newton F64 (fun _ => flit 1 1) (fun _ => flit 0 1) (fun _ => flit 0 1) (flit 8 1) (flit 1 1000000) 1000 (flit 3 1) with
  | (Ret mu, vis), (Throw (OtherExn FailedToConverge), [_]) =>
    (Bltb (Babs (fsub (cube mu) (flit 8 1))) (flit 1 100000), Nat.ltb 3 (length vis)) = (true, true)
  | _, _ => False
  end.
Proof. vm_compute. reflexivity. Qed.

(** ** C27 *)
Theorem C27_electrons_conserved :
  forall (Ne T occ tol : R) (skip : bool) (Sg S : smear Rarith) (world : list (smap (list R) * smap R)) outs,
  NoDup (keys (concat (map fst world))) -> NoDup (keys (concat (map snd world))) ->
  (forall xw, In xw world -> keys (fst xw) = keys (snd xw)) ->
  occupation Rarith Ne T occ tol skip Sg S world = Some outs -> world <> [] ->
  (forall o, In o outs -> o = Throw RuntimeError) \/
  exists (mu : num Rarith) (fs : list (smap (list (num Rarith)))), outs = map (fun f => Ret (mu, f)) fs /\
    if negb skip && non_monotonous S
    then (Rabs (Ne - electrons (map snd world) fs) < tol \/ Rabs (Ne - electrons (map snd world) fs) <= 1/100)%R
    else (Rabs (Ne - electrons (map snd world) fs) < tol)%R.
Proof. exact occupation_conserves. Qed.
Print Assumptions C27_electrons_conserved.

(** The same in every arithmetic for the sums as the code forms them. *)
Theorem C27_own_count :
  forall (A : arith) (Ne T occ tol : num A) (skip : bool) (Sg S : smear A) x w mu,
  mu_of A Ne T occ tol skip Sg S x w = Ret mu ->
  if negb skip && non_monotonous S
  then altb A (alit A 1 100) (aabs A (asub A (count A T occ S x w mu) Ne)) = false \/
       altb A (aabs A (asub A Ne (count A T occ S x w mu))) tol = true
  else altb A (aabs A (asub A Ne (count A T occ S x w mu))) tol = true.
Proof.
  intros A Ne T occ tol skip Sg S x w mu. unfold mu_of. destruct (negb skip && non_monotonous S).
  - exact (newton_mu_sound A Ne T occ tol Sg S _ x w mu).
  - exact (find_mu_sound A Ne T occ tol S x w mu).
Qed.
Print Assumptions C27_own_count.

(** What the code returns is what every rank computes from the union of all entries. *)
Theorem C27_occupation_of_union :
  forall (A : arith) (Ne T occ tol : num A) (skip : bool) (Sg S : smear A) world, world <> [] ->
  occupation A Ne T occ tol skip Sg S world =
  Some (map (fun r => match mu_of A Ne T occ tol skip Sg S (xunion A world) (wunion A world) with
    | Ret mu => Ret (mu, occupations A occ S (amul A (kb A) T) mu (fst r))
    | Throw e => Throw e | UB => UB | NoFuel => NoFuel end) world).
Proof. exact occupation_spec. Qed.
Print Assumptions C27_occupation_of_union.

(** Two ranks, three k-points, a piecewise linear occupation function, in doubles. *)
Definition ramp (x mo : f64) : f64 :=
  if Bltb x (flit (-1) 1) then flit 0 1 else if Bltb (flit 1 1) x then mo
  else fmul mo (fadd (flit 1 2) (fmul (flit 1 2) x)).
Definition rampS (nm : bool) : smear F64 :=
  MkSmear F64 ramp (fun x mo => if Bltb (flit 1 1) (Babs x) then flit 0 1 else fmul mo (flit 1 2)) (fun _ _ => flit 0 1) (fun _ _ => flit 0 1) nm.
Definition bands1 : smap (list f64) := [((0, 0)%Z, [flit (-1) 1; flit 1 2]); ((2, 0)%Z, [flit (-1) 2; flit 1 1])].
Definition bands2 : smap (list f64) := [((1, 0)%Z, [flit (-3) 4; flit 0 1; flit 3 4])].
Definition wk1 : smap f64 := [((0, 0)%Z, flit 1 4); ((2, 0)%Z, flit 1 4)].
Definition wk2 : smap f64 := [((1, 0)%Z, flit 1 2)].
Definition same_f (a b : f64) : bool := Bleb a b && Bleb b a.
Example C27_example :
  match occupation F64 (flit 2 1) (flit 315775 1) (flit 2 1) (flit 1 1000) false (rampS false) (rampS false) [(bands1, wk1); (bands2, wk2)],
        occupation F64 (flit 2 1) (flit 315775 1) (flit 2 1) (flit 1 1000) false (rampS false) (rampS true) [(bands1, wk1); (bands2, wk2)] with
  | Some [Ret (mu1, f1); Ret (mu2, f2)], Some [Ret (mu3, _); Ret (mu4, _)] =>
    (same_f mu1 mu2, map (fun kv => length (snd kv)) f1, map (fun kv => length (snd kv)) f2,
     same_f mu3 mu4, Bltb (Babs (fsub mu1 mu3)) (flit 1 50)) = (true, [2; 2]%nat, [3]%nat, true, true)
  | _, _ => False
  end.
Proof. vm_cast_no_check (eq_refl (true, [2; 2]%nat, [3]%nat, true, true)). Qed.

(** ** C28 *)
(** [o] is the result for the whole system; a rank sees it together with its own occupations. *)
Definition rank_sees {A : arith} (occ T : num A) (S : smear A) (o : outcome newton_exn (num A))
  (rank : smap (list (num A)) * smap (num A)) (out : outcome newton_exn (num A * smap (list (num A)))) : Prop :=
  match o with
  | Ret mu => out = Ret (mu, map (fun kv => (fst kv, map (fun e => sfn S (adiv A (asub A mu e) (amul A (kb A) T)) occ) (snd kv))) (fst rank))
  | Throw e => out = Throw e
  | UB => False
  | NoFuel => False
  end.

Lemma forall2_map : forall (X Y : Type) (P : X -> Y -> Prop) (f : X -> Y) l, (forall x, P x (f x)) -> Forall2 P l (map f l).
Proof. intros X Y P f l H. induction l; cbn [map]; constructor; auto. Qed.

Theorem C28_independent_of_distribution :
  forall (A : arith) (Ne T occ tol : num A) (skip : bool) (Sg S : smear A) (w1 w2 : list (smap (list (num A)) * smap (num A))),
  w1 <> [] -> w2 <> [] ->
  NoDup (keys (concat (map fst w1))) -> NoDup (keys (concat (map fst w2))) ->
  NoDup (keys (concat (map snd w1))) -> NoDup (keys (concat (map snd w2))) ->
  (forall kv, In kv (concat (map fst w1)) <-> In kv (concat (map fst w2))) ->
  (forall kv, In kv (concat (map snd w1)) <-> In kv (concat (map snd w2))) ->
  exists o outs1 outs2,
    occupation A Ne T occ tol skip Sg S w1 = Some outs1 /\
    occupation A Ne T occ tol skip Sg S w2 = Some outs2 /\
    Forall2 (rank_sees occ T S o) w1 outs1 /\ Forall2 (rank_sees occ T S o) w2 outs2.
Proof.
  intros A Ne T occ tol skip Sg S w1 w2 H1 H2 X1 X2 W1 W2 EX EW.
  exists (mu_of A Ne T occ tol skip Sg S (xunion A w1) (wunion A w1)).
  rewrite !occupation_spec by assumption.
  rewrite <- (xunion_eq A w1 w2 X1 X2 EX), <- (wunion_eq A w1 w2 W1 W2 EW).
  eexists _, _. split; [reflexivity|]. split; [reflexivity|].
  destruct (mu_of_outcomes A Ne T occ tol skip Sg S (xunion A w1) (wunion A w1)) as [(mu & ->)| ->]; split;
    apply forall2_map; intros r; reflexivity.
Qed.
Print Assumptions C28_independent_of_distribution.

(** One rank with everything against two ranks. *)
Example C28_example :
  let w1 := [(bands1, wk1); (bands2, wk2)] in
  let w2 := [(([((0, 0)%Z, [flit (-1) 1; flit 1 2]); ((1, 0)%Z, [flit (-3) 4; flit 0 1; flit 3 4]); ((2, 0)%Z, [flit (-1) 2; flit 1 1])] : smap (list f64)),
              ([((0, 0)%Z, flit 1 4); ((1, 0)%Z, flit 1 2); ((2, 0)%Z, flit 1 4)] : smap f64))] in
  NoDup (keys (concat (map fst w1))) /\ NoDup (keys (concat (map snd w2))) /\
  (forall kv, In kv (concat (map fst w1)) <-> In kv (concat (map fst w2))) /\
  (forall kv, In kv (concat (map snd w1)) <-> In kv (concat (map snd w2))).
Proof.
  cbv zeta. unfold bands1, bands2, wk1, wk2, keys. cbn [map concat fst snd app In].
  split; [|split; [|split; intros kv; tauto]]; repeat constructor; cbn [In]; intuition congruence.
Qed.

(** ** C48 *)
Theorem C48_scalars :
  forall (V : Type) (d : key * V) (world : list (smap V)),
  world <> [] -> (forall r, In r world -> wfm r) -> NoDup (keys (concat world)) ->
  exists outs, allgather_scalar d world = Some outs /\ length outs = length world /\
    forall m, In m outs -> is_union world m.
Proof. exact @scalar_union. Qed.
Print Assumptions C48_scalars.

Theorem C48_arrays :
  forall (T : Type) (dk : key) (d : T) (world : list (smap (list T))),
  world <> [] -> (forall r, In r world -> wfm r) -> NoDup (keys (concat world)) ->
  exists outs, allgather_view dk d world = Some outs /\ length outs = length world /\
    forall m, In m outs -> is_union world m.
Proof. exact @view_union. Qed.
Print Assumptions C48_arrays.

(** The gather of lists (_allgather): every rank obtains every rank's list. *)
Theorem C48_lists :
  forall (T : Type) (d : T) (values : list (list T)), values <> [] ->
  allgather_vec d values = Some (map (fun _ => values) values).
Proof. exact @allgather_vec_spec. Qed.
Print Assumptions C48_lists.

Definition three_ranks : list (smap (list nat)) := [[((3, 0)%Z, [5; 6])]; []; [((1, 1)%Z, []); ((2, 0)%Z, [7; 8; 9])]]%nat.
Example C48_example :
  NoDup (keys (concat three_ranks)) /\
  allgather_view (0, 0)%Z 0%nat three_ranks =
    Some (repeat [((1, 1)%Z, []); ((2, 0)%Z, [7; 8; 9]); ((3, 0)%Z, [5; 6])] 3)%nat.
Proof.
  split; [|vm_compute; reflexivity]. unfold three_ranks, keys. cbn [concat app map fst].
  constructor; [cbn [In]; intuition congruence|]. constructor; [cbn [In]; intuition congruence|].
  constructor; [cbn [In]; intuition congruence|constructor].
Qed.

(** ** C49 *)
Theorem C49_scalars_keep_the_lowest_rank :
  forall (V : Type) (d : key * V) (world : list (smap V)), world <> [] ->
  exists outs, allgather_scalar d world = Some outs /\ length outs = length world /\
    forall m k, In m outs -> mfind k m = first_holder k world.
Proof. exact @scalar_first. Qed.
Print Assumptions C49_scalars_keep_the_lowest_rank.

Theorem C49_arrays_keep_the_highest_rank :
  forall (T : Type) (dk : key) (d : T) (world : list (smap (list T))), world <> [] -> (forall r, In r world -> wfm r) ->
  exists outs, allgather_view dk d world = Some outs /\ length outs = length world /\
    forall m k, In m outs -> mfind k m = last_holder k world.
Proof. exact @view_last. Qed.
Print Assumptions C49_arrays_keep_the_highest_rank.

Theorem C49_same_rank_wins_refuted :
  exists (ws : list (smap nat)) (k : key) m1 m2,
    allgather_scalar ((0, 0)%Z, 0%nat) ws = Some [m1; m1] /\
    allgather_view (0, 0)%Z 0%nat (map (map (fun kv => (fst kv, [snd kv]))) ws) = Some [m2; m2] /\
    mfind k m1 = Some 10%nat /\ mfind k m2 = Some [20%nat].
Proof.
  exists [[((1, 0)%Z, 10%nat)]; [((1, 0)%Z, 20%nat)]], (1, 0)%Z, [((1, 0)%Z, 10%nat)], [((1, 0)%Z, [20%nat])].
  vm_compute. auto.
Qed.
Print Assumptions C49_same_rank_wins_refuted.

Example C49_example :
  first_holder (1, 0)%Z [[((1, 0)%Z, 10%nat)]; [((1, 0)%Z, 20%nat)]] = Some 10%nat /\
  last_holder (1, 0)%Z [[((1, 0)%Z, 10%nat)]; [((1, 0)%Z, 20%nat)]] = Some 20%nat.
Proof. split; reflexivity. Qed.

(** ** C50 *)
Theorem C50_tapply :
  forall (V U W : Type) (f : V -> list U -> W) (a : mvec V) (args : list (mvec U)),
  wfm (mdata a) -> (forall k m, In k (keys (mdata a)) -> In m args -> In k (keys (mdata m))) ->
  exists r, tapply f a args = Ret (MkMvec r (mcomm a)) /\
    Forall2 (fun kv kw => fst kw = fst kv /\
      exists us, map Some us = map (mfind (fst kv)) (map mdata args) /\ snd kw = f (snd kv) us) (mdata a) r.
Proof. exact @tapply_spec. Qed.
Print Assumptions C50_tapply.

Theorem C50_missing_key_raises :
  forall (V U W : Type) (f : V -> list U -> W) (a : mvec V) (args : list (mvec U)) k m,
  In k (keys (mdata a)) -> In m args -> ~ In k (keys (mdata m)) ->
  tapply f a args = Throw (OtherExn OutOfRange).
Proof. exact @tapply_missing. Qed.
Print Assumptions C50_missing_key_raises.

Theorem C50_tapply_op :
  forall (V U W : Type) (op : smap (V -> list U -> W)) (a : mvec V) (args : list (mvec U)),
  wfm (mdata a) -> (forall k, In k (keys (mdata a)) -> In k (keys op)) ->
  (forall k m, In k (keys (mdata a)) -> In m args -> In k (keys (mdata m))) ->
  exists r, tapply_op op a args = Ret (MkMvec r (mcomm a)) /\
    Forall2 (fun kv kw => exists f, mfind (fst kv) op = Some f /\ entry_ok f (map mdata args) kv kw) (mdata a) r.
Proof. exact @tapply_op_spec. Qed.
Print Assumptions C50_tapply_op.

Theorem C50_eval_keeps_entries_drops_communicator :
  forall (V : Type) (x : mvec V), wfm (mdata x) -> eval_threaded x = MkMvec (mdata x) CSelf.
Proof. exact @eval_threaded_spec. Qed.
Print Assumptions C50_eval_keeps_entries_drops_communicator.

Theorem C50_unzip :
  forall (V W : Type) (c : option comm) (x : mvec (V * W)), wfm (mdata x) ->
  unzip c x = (MkMvec (map (fun kv => (fst kv, fst (snd kv))) (mdata x)) (match c with Some c => c | None => CSelf end),
               MkMvec (map (fun kv => (fst kv, snd (snd kv))) (mdata x)) (match c with Some c => c | None => CSelf end)).
Proof. exact @unzip_spec. Qed.
Print Assumptions C50_unzip.

Definition cont_a : mvec nat := MkMvec [((0, 0)%Z, 2%nat); ((0, 1)%Z, 3%nat)] CK.
Definition cont_b : mvec nat := MkMvec [((0, 0)%Z, 10%nat); ((0, 1)%Z, 20%nat); ((5, 0)%Z, 1%nat)] CSelf.
Example C50_example :
  let f v us := fold_left Nat.add us v in
  wfm (mdata cont_a) /\
  tapply f cont_a [cont_b] = Ret (MkMvec [((0, 0)%Z, 12%nat); ((0, 1)%Z, 23%nat)] CK) /\
  tapply f cont_b [cont_a] = Throw (OtherExn OutOfRange).
Proof. split; [|vm_compute; auto]. repeat constructor; reflexivity. Qed.

(** ** C51 *)
Theorem C51_sum_over_all_ranks :
  forall n (red : list (num Rarith) -> num Rarith), (forall l, red l = rsum l) ->
  forall (world : list (smap (num Rarith))) arg own,
  n = length world -> (arg = CK \/ (arg = CNull /\ own = CK)) -> (csize n own <= n)%nat ->
  dsum n Rarith red arg own world = map (fun _ => Ret (rsum (map snd (concat world)))) world.
Proof. exact dsum_K. Qed.
Print Assumptions C51_sum_over_all_ranks.

Theorem C51_smaller_communicator_raises :
  forall n (red : list (num Rarith) -> num Rarith) (world : list (smap (num Rarith))) arg own,
  arg <> CNull -> (csize n arg < csize n own)%nat ->
  dsum n Rarith red arg own world = map (fun _ => Throw RuntimeError) world.
Proof. exact dsum_smaller. Qed.
Print Assumptions C51_smaller_communicator_raises.

Theorem C51_norms_are_rank_local :
  forall n (red : list (num Rarith) -> num Rarith), (forall l, red l = rsum l) ->
  forall world : list (mvec (num Rarith)), (forall x, In x world -> wfm (mdata x)) ->
  reduce_after_eval n Rarith red world = map (fun x => Ret (rsum (map snd (mdata x)))) world.
Proof. exact reduce_local. Qed.
Print Assumptions C51_norms_are_rank_local.

Theorem C51_norm_is_global_refuted :
  exists world : list (mvec (num Rarith)),
    (forall x, In x world -> mcomm x = CK) /\
    forall red : list (num Rarith) -> num Rarith, (forall l, red l = rsum l) ->
    exists a b, reduce_after_eval 2 Rarith red world = [Ret a; Ret b] /\ a <> b.
Proof.
  exists [MkMvec [((0, 0)%Z, 1%R)] CK; MkMvec [((1, 0)%Z, 2%R)] CK]. split.
  - intros x [<-|[<-|[]]]; reflexivity.
  - intros red Hred. exists 1%R, 2%R. split; [|lra].
    rewrite (reduce_local 2 red Hred).
    + cbn [map mdata snd fst rsum fold_right]. rewrite !Rplus_0_r. reflexivity.
    + intros x [<-|[<-|[]]]; repeat constructor.
Qed.
Print Assumptions C51_norm_is_global_refuted.

Example C51_example :
  (csize 2 CK <= 2)%nat /\ (csize 2 CSelf < csize 2 CK)%nat /\ CSelf <> CNull.
Proof. cbn. repeat split; auto; discriminate. Qed.

(** ** C52 *)
Theorem C52_missing_bands_count_as_zero :
  forall (A : arith) (f : num A -> num A -> num A) mu T mo x wk k w,
  mfind k x = None ->
  wsum A (fun ek => sum_func A f ek mu T mo) x (wk ++ [(k, w)]) =
  aadd A (wsum A (fun ek => sum_func A f ek mu T mo) x wk) (amul A w (alit A 0 1)).
Proof. exact wsum_missing. Qed.
Print Assumptions C52_missing_bands_count_as_zero.

(** A weight without band energies is reported: refuted (the run returns normally on both ranks). *)
Definition holed : list (smap (list f64) * smap f64) := [([((0, 0)%Z, [flit (-1) 1; flit 1 2])], wk1); (bands2, wk2)].
Lemma run_of_mu : forall (A : arith) Ne T occ tol skip (Sg S : smear A) world, world <> [] ->
  match mu_of A Ne T occ tol skip Sg S (xunion A world) (wunion A world) with Ret _ => true | _ => false end = true ->
  exists mu fs, occupation A Ne T occ tol skip Sg S world = Some (map (fun f => Ret (mu, f)) fs).
Proof.
  intros A Ne T occ tol skip Sg S world Hw H. rewrite occupation_spec by exact Hw.
  destruct (mu_of A Ne T occ tol skip Sg S (xunion A world) (wunion A world)) as [mu|e| |]; try discriminate H.
  exists mu, (map (fun r => occupations A occ S (amul A (kb A) T) mu (fst r)) world). rewrite map_map. reflexivity.
Qed.
Lemma holed_key : In (2, 0)%Z (keys (concat (map snd holed))).
Proof. right. left. reflexivity. Qed.
Lemma holed_nokey : ~ In (2, 0)%Z (keys (concat (map fst holed))).
Proof. intros [H|[H|[]]]; cbn [fst] in H; discriminate H. Qed.
Lemma holed_runs : exists mu fs,
  occupation F64 (flit 1 1) (flit 315775 1) (flit 2 1) (flit 1 1000) true (rampS false) (rampS false) holed = Some (map (fun f => Ret (mu, f)) fs).
Proof. apply run_of_mu; [discriminate|]. vm_cast_no_check (eq_refl true). Qed.

Theorem C52_missing_bands_reported_refuted :
  exists (world : list (smap (list f64) * smap f64)) mu fs,
    In (2, 0)%Z (keys (concat (map snd world))) /\ ~ In (2, 0)%Z (keys (concat (map fst world))) /\
    occupation F64 (flit 1 1) (flit 315775 1) (flit 2 1) (flit 1 1000) true (rampS false) (rampS false) world
    = Some (map (fun f => Ret (mu, f)) fs).
Proof.
  destruct holed_runs as (mu & fs & H). exists holed, mu, fs.
  exact (Logic.conj holed_key (Logic.conj holed_nokey H)).
Qed.
Print Assumptions C52_missing_bands_reported_refuted.

Example C52_example : mfind (2, 0)%Z bands2 = None /\ In (1, 0)%Z (keys bands2).
Proof. split; [reflexivity|left; reflexivity]. Qed.

(** ** C55 *)
Theorem C55_keys_and_vectors_aligned :
  forall (V : Type) (fn : smap V), wfm fn ->
  length (fst (handover fn)) = length (snd (handover fn)) /\
  combine (fst (handover fn)) (snd (handover fn)) = fn.
Proof. exact @handover_spec. Qed.
Print Assumptions C55_keys_and_vectors_aligned.

Example C55_example :
  wfm (mdata cont_b) /\ handover (mdata cont_b) = ([(0, 0); (0, 1); (5, 0)]%Z, [10; 20; 1]%nat).
Proof. split; [|reflexivity]. repeat constructor; reflexivity. Qed.
