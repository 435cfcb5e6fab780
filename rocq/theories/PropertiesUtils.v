(** Properties C53, C54, C56 - C60, C68, C69: exchange with the calling program, layouts and utilities. *)
From Coq Require Import String Ascii ZArith Reals Lra Arith Lia List Bool Permutation.
From Coquelicot Require Import Complex.
From Flocq Require Import Core.Core IEEE754.BinarySingleNaN.
From Verif Require Import Arith Float64 MVector LapackMem LapackMemProofs LapackElt LapackFacts Layout Exchange.
From Verif Require EnvSwitch Logger Format OpIterator Teter.
Import ListNotations.
Local Open Scope nat_scope.

(** ** C53 *)
(** Storing the wave functions: every entry of the calling program gets the elements of its matrix at the addressed
    places, and no other memory changes. *)
Theorem C53_store_writes_the_addressed_elements_only :
  forall (E : elt) ord (m : caller E) (X : smap (view E)),
  fair ord -> all_host E m -> NoDup (map fst m) ->
  (forall k c, In (k, c) m -> exists x, mfind k X = Some x /\ fits E c x) ->
  exists m', store_X E ord m X = (m', XDone) /\ length m' = length m /\
    forall i k c, nth_error m i = Some (k, c) ->
      exists c' x, nth_error m' i = Some (k, c') /\ mfind k X = Some x /\ written E x c c'.
Proof. exact store_X_ok. Qed.
Print Assumptions C53_store_writes_the_addressed_elements_only.

Theorem C53_round_trip :
  forall (E : elt) ord (m : caller E) (X : smap (view E)),
  fair ord -> all_host E m -> NoDup (map fst m) ->
  (forall k c, In (k, c) m -> exists x, mfind k X = Some x /\ fits E c x) ->
  exists m' g, store_X E ord m X = (m', XDone) /\ get_X E m' = Some g /\
    (forall k, (exists v, In (k, v) g) <-> (exists c, In (k, c) m)) /\
    forall k v x, In (k, v) g -> mfind k X = Some x ->
      vrows v = vrows x /\ vcols v = vcols x /\ forall i j, i < vrows x -> j < vcols x -> vat v i j = vat x i j.
Proof. exact round_trip. Qed.
Print Assumptions C53_round_trip.

(** The strides of the claim separate the elements. *)
Theorem C53_strides_separate_the_elements :
  forall (E : elt) (c : cbuf E), 1 <= cst0 E c -> csz0 E c * cst0 E c <= cst1 E c -> injective_view (csz0 E c) (csz1 E c) (cview E c).
Proof. exact separate_cols. Qed.
Print Assumptions C53_strides_separate_the_elements.

(** Failures leave the calling program's memory alone. *)
Theorem C53_memory_of_another_kind_is_refused :
  forall (E : elt) ord (m : caller E) (X : smap (view E)) k c, In (k, c) m -> cmem E c <> MHost ->
  store_X E ord m X = (m, XNotHost) /\ get_X E m = None.
Proof. exact store_X_not_host. Qed.
Print Assumptions C53_memory_of_another_kind_is_refused.

Theorem C53_missing_matrix_throws_before_writing :
  forall (E : elt) ord (m : caller E) (X : smap (view E)) k c, all_host E m -> NoDup (map fst m) -> In (k, c) m -> mfind k X = None ->
  store_X E ord m X = (m, XOutOfRange).
Proof. exact store_X_missing. Qed.
Print Assumptions C53_missing_matrix_throws_before_writing.

(** The copy into another memory space: right for packed buffers ... *)
Theorem C53_copy_of_packed_buffers :
  forall (E : elt) (c : cbuf E), packed E c -> allocated (cview E c) ->
  exists M, copy_matrix E c = KOk M /\ vrows M = csz0 E c /\ vcols M = csz1 E c /\
    forall i j, i < csz0 E c -> j < csz1 E c -> vat M i j = vat (cview E c) i j.
Proof. exact copy_matrix_packed. Qed.
Print Assumptions C53_copy_of_packed_buffers.

(** ... and for every other layout wrong for some contents. *)
Theorem C53_copy_of_strided_buffers_is_wrong :
  forall (E : elt) (c : cbuf E) (a b : ev E), a <> b -> ~ packed E c ->
  exists data, bsz data = bsz (cdata E c) /\
    forall M, copy_matrix E (with_data E c data) = KOk M ->
      exists i j, i < csz0 E c /\ j < csz1 E c /\ vat M i j <> vat (cview E (with_data E c data)) i j.
Proof. exact copy_matrix_unpacked. Qed.
Print Assumptions C53_copy_of_strided_buffers_is_wrong.

(** A 2 x 2 buffer with leading dimension 3: stride (1, 3), element (2, 0) is padding. *)
Definition ex_buf : cbuf Celt := MkCbuf Celt 2 2 1 3 MHost (MkBuf (E := Celt) 6 (fun _ => (RtoC 7 : ev Celt))).
Definition ex_mat : view Celt := mkview 2 2 2 (fun i j => RtoC (INR (i + 2 * j))).
Example C53_example :
  let m := [((0, 1)%Z, ex_buf)] in let X := [((0, 1)%Z, ex_mat)] in
  fair (fun m n => rev (pairs m n)) /\ all_host Celt m /\ NoDup (map fst m) /\
  (forall k c, In (k, c) m -> exists x, mfind k X = Some x /\ fits Celt c x) /\
  1 <= cst0 Celt ex_buf /\ csz0 Celt ex_buf * cst0 Celt ex_buf <= cst1 Celt ex_buf /\ ~ packed Celt ex_buf /\
  packed Celt (MkCbuf Celt 2 2 1 2 MHost (cdata Celt ex_buf)) /\ allocated (cview Celt ex_buf) /\
  (exists m', store_X Celt (fun m n => rev (pairs m n)) m X = (m', XDone) /\
     forall c', nth_error m' 0 = Some ((0, 1)%Z, c') ->
       bget (cdata Celt c') 4 = (RtoC 3 : ev Celt) /\ bget (cdata Celt c') 2 = (RtoC 7 : ev Celt)).
Proof.
  cbv zeta.
  assert (F : fair (fun m n => rev (pairs m n))) by (intros m n; apply Permutation_sym; apply Permutation_rev).
  assert (H : all_host Celt [((0, 1)%Z, ex_buf)]).
  { intros k c [e|[]]. apply pair_equal_spec in e. destruct e as [_ <-]. reflexivity. }
  assert (D : NoDup (map fst [((0, 1)%Z, ex_buf)])) by (repeat constructor; intros []).
  assert (A : allocated (cview Celt ex_buf)) by (intros i j; cbn; lia).
  assert (Fi : forall k c, In (k, c) [((0, 1)%Z, ex_buf)] -> exists x, mfind k [((0, 1)%Z, ex_mat)] = Some x /\ fits Celt c x).
  { intros k c [e|[]]. apply pair_equal_spec in e. destruct e as [<- <-]. exists ex_mat. split; [reflexivity|].
    split; [reflexivity|]. split; [reflexivity|]. split; [apply mkview_allocated; lia|]. split; [exact A|].
    apply separate_cols; cbn; lia. }
  split; [exact F|]. split; [exact H|]. split; [exact D|]. split; [exact Fi|]. split; [cbn; lia|]. split; [cbn; lia|].
  split; [intros Q; specialize (Q 0 1); cbn in Q; lia|]. split; [intros i j; cbn; lia|]. split; [exact A|].
  destruct (C53_store_writes_the_addressed_elements_only Celt _ _ _ F H D Fi) as (m' & R & _ & W). exists m'. split; [exact R|].
  intros c' Hc'. destruct (W 0 (0, 1)%Z ex_buf eq_refl) as (c'' & x & N & Hx & Wr).
  rewrite N in Hc'. assert (c'' = c') by congruence. subst c''.
  assert (x = ex_mat) by (change (Some ex_mat = Some x) in Hx; congruence). subst x.
  destruct Wr as (_ & _ & _ & _ & _ & _ & W1 & W2). split.
  - change 4 with (1 * cst0 Celt ex_buf + 1 * cst1 Celt ex_buf). rewrite (W1 1 1) by (cbn; lia).
    change (vat ex_mat 1 1) with (mat_of ex_mat 1 1). unfold ex_mat. rewrite mkview_mat by lia. f_equal. cbn. lra.
  - rewrite (W2 2); [reflexivity|]. intros i j Hi Hj. cbn in *. lia.
Qed.

(** ** C54 *)
Theorem C54_slab_layout :
  forall blocks ncols, (ncols <> (-1)%Z \/ blocks <> []) -> nonneg_rows blocks -> (total blocks <= INT_MAX)%Z ->
  (vertical (width blocks ncols) blocks -> slab blocks ncols = LOk (total blocks) (width blocks ncols)) /\
  (~ vertical (width blocks ncols) blocks -> slab blocks ncols = LThrow).
Proof. exact slab_ok. Qed.
Print Assumptions C54_slab_layout.

(** Finding: no blocks and the default width. *)
Theorem C54_empty_block_list_is_undefined : slab [] (-1) = LUB.
Proof. exact slab_empty. Qed.
Print Assumptions C54_empty_block_list_is_undefined.

(** More rows than an int holds. *)
Theorem C54_row_overflow_is_undefined :
  forall blocks ncols, (ncols <> (-1)%Z \/ blocks <> []) -> nonneg_rows blocks -> vertical (width blocks ncols) blocks ->
  (INT_MAX < total blocks)%Z -> slab blocks ncols = LUB.
Proof. exact slab_overflow. Qed.
Print Assumptions C54_row_overflow_is_undefined.

(** The row positions are never looked at: gaps, overlaps and permuted blocks are accepted alike. *)
Theorem C54_row_positions_do_not_matter :
  forall blocks blocks' ncols, shifted blocks blocks' -> slab blocks ncols = slab blocks' ncols.
Proof. exact slab_shift. Qed.
Print Assumptions C54_row_positions_do_not_matter.

Example C54_example :
  let a := [MkBlock 0 0 3 5; MkBlock 3 0 4 5]%Z in let b := [MkBlock 0 0 3 5; MkBlock 3 1 4 5]%Z in
  nonneg_rows a /\ nonneg_rows b /\ slab a (-1) = LOk 7 5 /\ slab b (-1) = LThrow /\ slab a 4 = LThrow /\ slab [] 4 = LOk 0 4 /\
  shifted a [MkBlock 9 0 3 5; MkBlock 9 0 4 5]%Z /\
  slab [MkBlock 0 0 INT_MAX 1; MkBlock 0 0 1 1]%Z (-1) = LUB.
Proof.
  cbv zeta. split; [intros x [<-|[<-|[]]]; cbn; lia|]. split; [intros x [<-|[<-|[]]]; cbn; lia|].
  do 4 (split; [reflexivity|]). split; [repeat constructor|reflexivity].
Qed.

(** ** C56 *)
(** Constant environment *)
Theorem C56_all_calls_agree :
  forall e s c r, EnvSwitch.const_steps e (EnvSwitch.init e) s -> In c (EnvSwitch.scalls s) -> EnvSwitch.cpc c = EnvSwitch.Done r ->
  (r = true <-> EnvSwitch.disabled e).
Proof. exact EnvSwitch.constant_answer. Qed.
Print Assumptions C56_all_calls_agree.

(** Changing environment, after a first call that ran alone *)
Theorem C56_sampled_once :
  forall e s c r s' c' r',
  EnvSwitch.steps (EnvSwitch.init e) s -> EnvSwitch.scalls s = [c] -> EnvSwitch.cpc c = EnvSwitch.Done r ->
  EnvSwitch.after (EnvSwitch.cview c) s s' -> In c' (EnvSwitch.scalls s') -> EnvSwitch.cpc c' = EnvSwitch.Done r' -> r' = r.
Proof. exact EnvSwitch.sampled_once. Qed.
Print Assumptions C56_sampled_once.

(** Finding: overlapping first calls and a change of the environment. *)
Theorem C56_overlapping_first_calls_agree_refuted :
  exists e s c c', EnvSwitch.steps (EnvSwitch.init e) s /\ In c (EnvSwitch.scalls s) /\ In c' (EnvSwitch.scalls s) /\
    EnvSwitch.cpc c = EnvSwitch.Done true /\ EnvSwitch.cpc c' = EnvSwitch.Done false.
Proof. exact EnvSwitch.race_disagree. Qed.
Print Assumptions C56_overlapping_first_calls_agree_refuted.

(** The first call with the variable set to "1" answers true; the variable is removed; the second call still does. *)
Example C56_example :
  let one := EnvSwitch.MkState [(1, 1%Z); (0, (-1)%Z)] (Some "1"%string) [EnvSwitch.MkCall (EnvSwitch.Done true) 1] in
  let two := EnvSwitch.MkState [(1, 1%Z); (0, (-1)%Z)] None
               [EnvSwitch.MkCall (EnvSwitch.Done true) 1; EnvSwitch.MkCall (EnvSwitch.Done true) 1] in
  EnvSwitch.const_steps (Some "1"%string) (EnvSwitch.init (Some "1"%string)) one /\
  EnvSwitch.steps (EnvSwitch.init (Some "1"%string)) one /\ EnvSwitch.after 1 one two.
Proof. exact EnvSwitch.two_calls. Qed.

(** ** C57 *)
Theorem C57_calls_that_do_not_overlap_are_logged_in_order :
  forall (T : Type) (msgs : list (list T)) order, NoDup order -> (forall i, In i order <-> i < length msgs) ->
  exists s, Logger.lrun (Logger.sequential order) (Logger.start msgs) = Some s /\ Logger.all_done s /\
    Logger.lfile s = concat (map (fun i => nth i msgs []) order).
Proof. exact (@Logger.sequential_ok). Qed.
Print Assumptions C57_calls_that_do_not_overlap_are_logged_in_order.

(** Finding: for any two messages there is a schedule that loses the first and duplicates the second ... *)
Theorem C57_overlapping_calls_lose_and_duplicate :
  forall (T : Type) (a b : list T),
  exists sched s, Logger.lrun sched (Logger.start [a; b]) = Some s /\ Logger.all_done s /\ Logger.lfile s = b ++ b.
Proof. exact (@Logger.overlap_lost_ex). Qed.
Print Assumptions C57_overlapping_calls_lose_and_duplicate.

(** ... and for n messages one that writes all of them n times. *)
Theorem C57_overlapping_calls_multiply :
  forall (T : Type) (msgs : list (list T)),
  exists sched s, Logger.lrun sched (Logger.start msgs) = Some s /\ Logger.all_done s /\
    Logger.lfile s = concat (repeat (concat msgs) (length msgs)).
Proof. exact (@Logger.lockstep_ex). Qed.
Print Assumptions C57_overlapping_calls_multiply.

Example C57_example :
  NoDup [1; 0] /\ (forall i, In i [1; 0] <-> i < length [[true]; [false; false]]) /\
  exists s, Logger.lrun (Logger.sequential [1; 0]) (Logger.start [[true]; [false; false]]) = Some s /\ Logger.lfile s = [false; false; true].
Proof.
  split; [repeat constructor; cbn; lia|]. split; [intros i; cbn; lia|]. eexists. split; [reflexivity|reflexivity].
Qed.

(** ** C58 *)
(** [out]: what sprintf produces; the buffer is too small unless it is shorter than the format string. *)
Theorem C58_safe_iff_output_is_shorter :
  forall f args out, Format.sprintf (Format.cstr f) args = Some out ->
  (length out < length f -> Format.format f args = Format.FOk out) /\ (length f <= length out -> Format.format f args = Format.FUB).
Proof. exact Format.format_iff. Qed.
Print Assumptions C58_safe_iff_output_is_shorter.

Theorem C58_plain_text_overruns :
  forall f args, Format.no_nul f -> ~ In "%"%char f -> Format.format f args = Format.FUB.
Proof. exact Format.format_plain. Qed.
Print Assumptions C58_plain_text_overruns.

(** One integer: defined for one-digit non-negative numbers only. *)
Theorem C58_one_integer :
  forall p q z, Format.no_nul p -> Format.no_nul q -> ~ In "%"%char p -> ~ In "%"%char q ->
  Format.format (p ++ "%"%char :: "d"%char :: q) [Format.AInt z] =
    if Nat.ltb (length (Format.decimal z)) 2 then Format.FOk (p ++ Format.decimal z ++ q) else Format.FUB.
Proof. exact Format.format_int_arg. Qed.
Print Assumptions C58_one_integer.

(** One string: defined for strings of at most one character only. *)
Theorem C58_one_string :
  forall p q s, Format.no_nul p -> Format.no_nul q -> Format.no_nul s -> ~ In "%"%char p -> ~ In "%"%char q ->
  Format.format (p ++ "%"%char :: "s"%char :: q) [Format.AStr s] =
    if Nat.ltb (length s) 2 then Format.FOk (p ++ s ++ q) else Format.FUB.
Proof. exact Format.format_string_arg. Qed.
Print Assumptions C58_one_string.

Example C58_example :
  let s := list_ascii_of_string in
  Format.format (s "step %d"%string) [Format.AInt 7] = Format.FOk (s "step 7"%string) /\
  Format.format (s "step %d"%string) [Format.AInt 12] = Format.FUB /\
  Format.sprintf (Format.cstr (s "step %d"%string)) [Format.AInt 12] = Some (s "step 12"%string) /\
  Format.format (s "done"%string) [] = Format.FUB /\ Format.no_nul (s "done"%string) /\ ~ In "%"%char (s "done"%string).
Proof.
  cbv zeta. do 4 (split; [reflexivity|]). split; cbn; intros H; repeat (destruct H as [H|H]; [discriminate H|]); exact H.
Qed.

(** ** C59 *)
(** Every loop that is not left early is undefined. *)
Theorem C59_complete_traversal_is_undefined :
  forall (App : Type) (at_ : key -> App) ks limit, length ks < limit -> OpIterator.for_each at_ ks limit = OpIterator.IUB.
Proof. exact (@OpIterator.complete_ub). Qed.
Print Assumptions C59_complete_traversal_is_undefined.

(** A loop left in its body after [limit] elements sees the first ones. *)
Theorem C59_partial_traversal :
  forall (App : Type) (at_ : key -> App) ks limit, ks <> [] ->
  OpIterator.for_each at_ ks limit =
    if Nat.leb limit (length ks) then OpIterator.IOk (map (fun k => (k, at_ k)) (firstn limit ks), false) else OpIterator.IUB.
Proof. exact (@OpIterator.for_each_spec). Qed.
Print Assumptions C59_partial_traversal.

Theorem C59_access_by_key : forall (App : Type) (at_ : key -> App) k, OpIterator.at_key at_ k = OpIterator.IOk (at_ k).
Proof. exact (@OpIterator.at_key_ok). Qed.
Print Assumptions C59_access_by_key.

Example C59_example :
  let ks := [(0, 1); (1, 1)]%Z in
  OpIterator.for_each (fun k => fst k) ks 3 = OpIterator.IUB /\
  OpIterator.for_each (fun k => fst k) ks 2 = OpIterator.IOk ([((0, 1), 0); ((1, 1), 1)]%Z, false) /\
  OpIterator.for_each (fun k => fst k) [] 1 = OpIterator.IUB.
Proof. cbv zeta. repeat split; reflexivity. Qed.

(** ** C60 *)
Theorem C60_entry_range : forall T : R, (0 <= T)%R ->
  (0 < Teter.teter Rarith T <= 1)%R /\ (Teter.teter Rarith T = 1%R <-> T = 0%R).
Proof. exact Teter.teter_range. Qed.
Print Assumptions C60_entry_range.

Theorem C60_entry_decreases : forall a b : R, (0 <= a)%R -> (a < b)%R -> (Teter.teter Rarith b < Teter.teter Rarith a)%R.
Proof. exact Teter.teter_decr. Qed.
Print Assumptions C60_entry_decreases.

(** binary64 *)
Theorem C60_entry_range_in_binary64 : forall T : f64, is_finite T = true -> (0 <= B2R T <= bpow radix2 120)%R ->
  is_finite (Teter.teter F64 T) = true /\ (0 < B2R (Teter.teter F64 T) <= 1)%R.
Proof. exact Teter.teter_f64. Qed.
Print Assumptions C60_entry_range_in_binary64.

(** Finding: not for all finite T: at 10^80 the entry is not positive, at 10^110 it is NaN. *)
Theorem C60_entry_positive_in_binary64_refuted :
  exists T U : f64, is_finite T = true /\ is_finite U = true /\ Bltb (B754_zero false) (Teter.teter F64 T) = false /\
    is_nan (Teter.teter F64 U) = true.
Proof. exact Teter.teter_f64_refuted. Qed.
Print Assumptions C60_entry_positive_in_binary64_refuted.

Theorem C60_application :
  forall (E : elt) order junk (x : view E) en entries,
  Permutation order (pairs (vrows x) (vcols x)) -> allocated x -> vrows x <= en ->
  exists y, Teter.precond E order junk x en entries = KOk y /\ vrows y = vrows x /\ vcols y = vcols x /\
    forall i j, i < vrows x -> j < vcols x -> vat y i j = erscale E (entries i) (vat x i j).
Proof. exact Teter.precond_ok. Qed.
Print Assumptions C60_application.

Theorem C60_application_in_place :
  forall (E : elt) order (x : view E) en entries,
  Permutation order (pairs (vrows x) (vcols x)) -> allocated x -> injective_view (vrows x) (vcols x) x -> vrows x <= en ->
  exists y, Teter.precond_in_place E order x en entries = KOk y /\
    block_replaced (vrows x) (vcols x) x y (fun i j => erscale E (entries i) (vat x i j)).
Proof. exact Teter.precond_in_place_ok. Qed.
Print Assumptions C60_application_in_place.

(** Fewer entries than rows: not checked. *)
Theorem C60_short_diagonal_is_undefined :
  forall (E : elt) order junk (x : view E) en entries,
  Permutation order (pairs (vrows x) (vcols x)) -> allocated x -> en < vrows x -> 1 <= vcols x ->
  Teter.precond E order junk x en entries = KUB.
Proof. exact Teter.precond_short. Qed.
Print Assumptions C60_short_diagonal_is_undefined.

Example C60_example :
  Teter.teter Rarith (3 / 2)%R = (4 / 7)%R /\ is_finite (flit 3 2) = true /\ (0 <= B2R (flit 3 2) <= bpow radix2 120)%R /\
  Permutation (pairs 2 2) (pairs (vrows ex_mat) (vcols ex_mat)) /\ allocated ex_mat /\ injective_view 2 2 ex_mat /\ vrows ex_mat <= 2.
Proof.
  split; [rewrite Teter.teter_R; exact Teter.teterR_example|]. split; [vm_compute; reflexivity|]. split.
  - assert (Q : B2R (flit 3 2) = (3 / 2)%R).
    { rewrite <- SF2R_B2SF. replace (B2SF (flit 3 2)) with (SpecFloat.S754_finite false 6755399441055744 (-52)) by (vm_compute; reflexivity).
      unfold SF2R, F2R. cbn. lra. }
    rewrite Q. split; [lra|]. apply Rle_trans with (bpow radix2 1); [cbn; lra|apply bpow_le; lia].
  - split; [apply Permutation_refl|]. split; [apply mkview_allocated; lia|]. split; [|cbn; lia].
    exact (col_major_injective ex_mat 2 (mkview_col_major 2 2 2 _ ltac:(lia) ltac:(lia))).
Qed.

(** ** C68 *)
(** The calling program's operator, if it honours the descriptors it is given: fresh packed result, argument unchanged. *)
Theorem C68_operator_application :
  forall (E : elt) op f k junk (x : view E), honours E op f ->
  int_sized (vrows x) -> int_sized (vcols x) -> int_sized (vs0 x) -> int_sized (vs1 x) ->
  exists y, apply_op E op k junk x = (y, x) /\ vrows y = vrows x /\ vcols y = vcols x /\ vs0 y = 1 /\ vs1 y = vrows x /\
    allocated y /\ forall i j, i < vrows x -> j < vcols x -> vat y i j = f k (vrows x) (vcols x) (fun a b => vat x a b) i j.
Proof. exact apply_op_ok. Qed.
Print Assumptions C68_operator_application.

(** Finding: an extent or stride from 2^31 on is handed over as a negative number. *)
Theorem C68_large_extents_become_negative :
  forall n, (2147483648 <= Z.of_nat n < 4294967296)%Z -> (to_int n < 0)%Z.
Proof. exact to_int_large. Qed.
Print Assumptions C68_large_extents_become_negative.

Example C68_example :
  honours Celt (pointwise_op Celt (fun _ a => Cmult (RtoC 2) a)) (fun k m n x i j => Cmult (RtoC 2) (x i j)) /\
  int_sized (vrows ex_mat) /\ int_sized (vcols ex_mat) /\ int_sized (vs0 ex_mat) /\ int_sized (vs1 ex_mat).
Proof.
  split; [exact (pointwise_honours Celt (fun _ a => Cmult (RtoC 2) a))|]. unfold int_sized. cbn. lia.
Qed.

(** ** C69 *)
Theorem C69_vectors :
  forall (D : Type) (l : list (key * @vbuf1 D)), NoDup (map fst l) -> (forall k b, In (k, b) l -> vmem b = MNone \/ in_memory b) ->
  exists m, mmvector l = VOk m /\ wfm m /\
    (forall k b, In (k, b) l -> vmem b = MHost -> mfind k m = Some (map (vdat b) (seq 0 (vsz b)))) /\
    (forall k b, In (k, b) l -> vmem b = MNone -> mfind k m = None).
Proof. exact (@mmvector_ok). Qed.
Print Assumptions C69_vectors.

Theorem C69_device_memory_is_refused :
  forall (D : Type) (l : list (key * @vbuf1 D)) k b, In (k, b) l -> vmem b = MDevice ->
  (forall k b, In (k, b) l -> vmem b = MHost -> vsz b <= vlen b) -> mmvector l = VNoDevice.
Proof. exact (@mmvector_device). Qed.
Print Assumptions C69_device_memory_is_refused.

(** Finding: the stride of the buffer is not used. *)
Theorem C69_strided_vectors_are_read_by_stride_refuted :
  exists (l : list (key * @vbuf1 nat)) m k b, mmvector l = VOk m /\ In (k, b) l /\ in_memory b /\ vsz b * vst b <= vlen b /\
    mfind k m <> Some (map (fun i => vdat b (i * vst b)) (seq 0 (vsz b))).
Proof. exact mmvector_strided. Qed.
Print Assumptions C69_strided_vectors_are_read_by_stride_refuted.

Example C69_example :
  let l := [((0, 1)%Z, MkVbuf 2 1 MHost 2 (fun i => i + 5)); ((1, 1)%Z, MkVbuf 3 1 MNone 0 (fun i => i))] in
  NoDup (map fst l) /\ (forall k b, In (k, b) l -> vmem b = MNone \/ in_memory b) /\ mmvector l = VOk [((0, 1)%Z, [5; 6])].
Proof.
  cbv zeta. split; [repeat constructor; cbn; intuition discriminate|]. split; [|reflexivity].
  intros k b [e|[e|[]]]; apply pair_equal_spec in e; destruct e as [_ <-]; [right; split; [reflexivity|cbn; lia]|left; reflexivity].
Qed.
