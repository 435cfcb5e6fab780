(** The gathers deliver every rank's data to every rank. *)
From Coq Require Import ZArith List Bool Lia Arith.
From Verif Require Import Arith MVector Mpi.
Import ListNotations.

(** Exclusive scan. *)
Fixpoint scan_from (s : nat) (l : list nat) : list nat :=
  match l with [] => [] | c :: r => s :: scan_from (s + c) r end.

Lemma fold_add l : forall s, fold_left Nat.add l s = s + total l.
Proof.
  unfold total. induction l as [|c l IH]; intros s; cbn [fold_left].
  - lia.
  - rewrite IH, (IH (0 + c)). lia.
Qed.
Lemma total_cons c l : total (c :: l) = c + total l.
Proof. unfold total. cbn [fold_left]. rewrite fold_add. reflexivity. Qed.
Lemma total_nil : total [] = 0.
Proof. reflexivity. Qed.
Lemma total_app l1 l2 : total (l1 ++ l2) = total l1 + total l2.
Proof. induction l1 as [|c l1 IH]; cbn [app]; [reflexivity|rewrite !total_cons, IH; lia]. Qed.

Lemma length_scan l : forall s, length (scan_from s l) = length l.
Proof. induction l; intros s; cbn; auto. Qed.

Lemma nth_scan l : forall s i, i < length l -> nth_error (scan_from s l) i = Some (s + total (firstn i l)).
Proof.
  induction l as [|c l IH]; intros s i Hi; [cbn in Hi; lia|].
  destruct i as [|i]; cbn [scan_from nth_error firstn].
  - rewrite total_nil. f_equal. lia.
  - rewrite IH by (cbn in Hi; lia). rewrite total_cons. f_equal. lia.
Qed.

Lemma psum_scan l : forall s, l <> [] -> s :: psum_from s (removelast l) = scan_from s l.
Proof.
  induction l as [|c l IH]; intros s Hl; [congruence|].
  destruct l as [|c' l]; [reflexivity|].
  cbn [removelast psum_from scan_from]. f_equal. apply (IH (s + c)). discriminate.
Qed.
Lemma displs_scan l : l <> [] -> displs_of l = scan_from 0 l.
Proof. apply psum_scan. Qed.

Lemma nth_psum l : forall s i, i <= length l -> nth_error (s :: psum_from s l) i = Some (s + total (firstn i l)).
Proof.
  induction l as [|c l IH]; intros s i Hi; cbn [length] in Hi.
  - assert (i = 0) as -> by lia. cbn. f_equal. lia.
  - destruct i as [|i]; cbn [nth_error firstn psum_from]; [rewrite total_nil; f_equal; lia|].
    specialize (IH (s + c) i ltac:(lia)). rewrite IH, total_cons. f_equal. lia.
Qed.

Lemma concat_length {T} (l : list (list T)) : length (concat l) = total (map (@length T) l).
Proof. induction l as [|b l IH]; cbn [concat map]; [reflexivity|]. rewrite app_length, IH, total_cons. reflexivity. Qed.

(** ** traverse *)
Lemma traverse_all {X Y} (f : X -> option Y) (g : X -> Y) l :
  (forall x, In x l -> f x = Some (g x)) -> traverse f l = Some (map g l).
Proof.
  induction l as [|x l IH]; intros H; cbn; [reflexivity|].
  rewrite H by (left; reflexivity). rewrite IH; [reflexivity|]. intros y Hy. apply H. right. exact Hy.
Qed.

Lemma traverse_idx_gen {X Y} (f : nat * X -> option Y) : forall l res s, length l = length res ->
  (forall i x y, nth_error l i = Some x -> nth_error res i = Some y -> f (s + i, x) = Some y) ->
  traverse f (combine (seq s (length l)) l) = Some res.
Proof.
  induction l as [|x l IH]; intros [|y res] s Hl H; try discriminate Hl; cbn [length seq combine traverse].
  - reflexivity.
  - pose proof (H 0 x y eq_refl eq_refl) as H0. rewrite Nat.add_0_r in H0. rewrite H0.
    rewrite (IH res (S s)); [reflexivity|cbn in Hl; lia|].
    intros i x' y' H1 H2. specialize (H (S i) x' y' H1 H2). rewrite Nat.add_succ_r in H. exact H.
Qed.
Lemma traverse_idx {X Y} (f : nat * X -> option Y) l res : length l = length res ->
  (forall i x y, nth_error l i = Some x -> nth_error res i = Some y -> f (i, x) = Some y) ->
  traverse f (combine (seq 0 (length l)) l) = Some res.
Proof. intros Hl H. apply traverse_idx_gen; [exact Hl|exact H]. Qed.

Lemma traverse_seq_gen {Y} (f : nat -> option Y) : forall res s,
  (forall i y, nth_error res i = Some y -> f (s + i) = Some y) -> traverse f (seq s (length res)) = Some res.
Proof.
  induction res as [|y res IH]; intros s H; cbn [length seq traverse]; [reflexivity|].
  pose proof (H 0 y eq_refl) as H0. rewrite Nat.add_0_r in H0. rewrite H0, (IH (S s)); [reflexivity|].
  intros i y' Hy. specialize (H (S i) y' Hy). rewrite Nat.add_succ_r in H. exact H.
Qed.
Lemma traverse_seq {Y} (f : nat -> option Y) res :
  (forall i y, nth_error res i = Some y -> f i = Some y) -> traverse f (seq 0 (length res)) = Some res.
Proof. intros H. apply traverse_seq_gen. exact H. Qed.

(** ** Buffers *)
Section Buf.
  Context {T : Type}.
  Implicit Types (b pre mid post : list T).

  Lemma bread_at pre mid post : bread (length pre) (length mid) (pre ++ mid ++ post) = Some mid.
  Proof.
    unfold bread. rewrite !app_length. replace (_ <=? _) with true by (symmetry; apply Nat.leb_le; lia).
    rewrite skipn_app, skipn_all, Nat.sub_diag. cbn [app skipn].
    rewrite firstn_app, firstn_all, Nat.sub_diag. cbn [firstn]. rewrite app_nil_r. reflexivity.
  Qed.

  Lemma bwrite_at pre mid post src : length src = length mid ->
    bwrite (length pre) src (pre ++ mid ++ post) = Some (pre ++ src ++ post).
  Proof.
    intros H. unfold bwrite. rewrite !app_length. replace (_ <=? _) with true by (symmetry; apply Nat.leb_le; lia).
    rewrite firstn_app, firstn_all, Nat.sub_diag. cbn [firstn]. rewrite app_nil_r.
    rewrite skipn_app. rewrite skipn_all2 by lia. cbn [app].
    replace (length pre + length src - length pre) with (length mid) by lia.
    rewrite skipn_app, skipn_all, Nat.sub_diag. reflexivity.
  Qed.

  Lemma bwrites_scan (blocks : list (list T)) : forall pre mid post, length mid = length (concat blocks) ->
    bwrites (scan_from (length pre) (map (@length T) blocks)) blocks (pre ++ mid ++ post) = Some (pre ++ concat blocks ++ post).
  Proof.
    induction blocks as [|s ss IH]; intros pre mid post H; cbn [map scan_from concat bwrites] in *.
    - destruct mid; [reflexivity|discriminate].
    - rewrite app_length in H.
      rewrite <- (firstn_skipn (length s) mid).
      assert (Hf : length (firstn (length s) mid) = length s) by (rewrite firstn_length; lia).
      rewrite <- app_assoc. rewrite bwrite_at by (symmetry; exact Hf).
      rewrite app_assoc. replace (length pre + length s) with (length (pre ++ s)) by (rewrite app_length; reflexivity).
      rewrite IH by (rewrite skipn_length; lia). rewrite <- !app_assoc. reflexivity.
  Qed.

  Lemma split_buf b n m k : length b = n + m + k ->
    exists pre mid post, b = pre ++ mid ++ post /\ length pre = n /\ length mid = m /\ length post = k.
  Proof.
    intros H. exists (firstn n b), (firstn m (skipn n b)), (skipn m (skipn n b)).
    rewrite (firstn_skipn m), (firstn_skipn n). repeat split.
    - rewrite firstn_length. lia.
    - rewrite firstn_length, skipn_length. lia.
    - rewrite !skipn_length. lia.
  Qed.

  Lemma concat_split (l : list (list T)) r x : nth_error l r = Some x ->
    concat l = concat (firstn r l) ++ x ++ concat (skipn (S r) l).
  Proof.
    revert r. induction l as [|y l IH]; intros [|r] H; cbn in *; try discriminate.
    - inversion H; subst. reflexivity.
    - rewrite (IH r H). rewrite <- app_assoc. reflexivity.
  Qed.

  Lemma length_concat_firstn (l : list (list T)) r : length (concat (firstn r l)) = total (firstn r (map (@length T) l)).
  Proof. rewrite concat_length, firstn_map. reflexivity. Qed.

  (** ** Allgatherv *)
  Lemma allgatherv_spec (args : list (list nat * list nat * list T)) (blocks : list (list T)) :
    length args = length blocks ->
    (forall r a x, nth_error args r = Some a -> nth_error blocks r = Some x ->
       exists buf, a = (map (@length T) blocks, scan_from 0 (map (@length T) blocks), buf) /\
         length buf = length (concat blocks) /\
         bread (length (concat (firstn r blocks))) (length x) buf = Some x) ->
    mpi_allgatherv args = Some (map (fun _ => concat blocks) args).
  Proof.
    intros Hl H. unfold mpi_allgatherv.
    rewrite (traverse_idx _ args blocks Hl).
    - apply traverse_all. intros a Ha. apply In_nth_error in Ha. destruct Ha as (r & Hr).
      destruct (nth_error blocks r) as [x|] eqn:Hx.
      2:{ apply nth_error_None in Hx. assert (r < length args) by (apply nth_error_Some; congruence). lia. }
      destruct (H r a x Hr Hx) as (buf & -> & Hb & _).
      destruct (list_eq_dec _ _ _) as [_|n]; [|congruence].
      pose proof (bwrites_scan blocks [] buf [] Hb) as Hw. cbn [app length] in Hw. rewrite !app_nil_r in Hw. exact Hw.
    - intros i a x Ha Hx. destruct (H i a x Ha Hx) as (buf & -> & Hb & Hr).
      assert (Hi : i < length blocks) by (apply nth_error_Some; congruence).
      rewrite nth_scan by (rewrite map_length; exact Hi).
      rewrite (map_nth_error (@length T) i blocks Hx).
      rewrite <- length_concat_firstn. exact Hr.
  Qed.
End Buf.

(** The same with the offsets computed by the code. *)
Lemma comm_allgatherv_spec {T} (args : list (list nat * list T)) (blocks : list (list T)) :
  blocks <> [] -> length args = length blocks ->
  (forall r a x, nth_error args r = Some a -> nth_error blocks r = Some x ->
     exists buf, a = (map (@length T) blocks, buf) /\ length buf = length (concat blocks) /\
       bread (length (concat (firstn r blocks))) (length x) buf = Some x) ->
  comm_allgatherv args = Some (map (fun _ => concat blocks) args).
Proof.
  intros Hn Hl H. unfold comm_allgatherv.
  rewrite (allgatherv_spec _ blocks).
  - rewrite map_map. reflexivity.
  - rewrite map_length. exact Hl.
  - intros r a x Ha Hx.
    rewrite nth_error_map in Ha. destruct (nth_error args r) as [a0|] eqn:Ea; [|discriminate].
    inversion Ha; subst. destruct (H r a0 x Ea Hx) as (buf & -> & H1 & H2). exists buf. cbn [fst snd].
    rewrite displs_scan; [auto|]. destruct blocks; [congruence|discriminate].
Qed.

Lemma map_const {X Y Z} (c : Z) (l1 : list X) : forall l2 : list Y, length l1 = length l2 -> map (fun _ => c) l1 = map (fun _ => c) l2.
Proof. induction l1 as [|x l1 IH]; intros [|y l2] H; try discriminate H; cbn; [reflexivity|]. f_equal. apply IH. cbn in H. lia. Qed.

Lemma scan_ones n : forall s, scan_from s (repeat 1 n) = map (fun i => i * 1) (seq s n).
Proof. induction n as [|n IH]; intros s; cbn [repeat scan_from seq map]; [reflexivity|]. rewrite IH. f_equal; [lia|]. f_equal. f_equal. lia. Qed.

Lemma concat_singletons {T} (l : list T) : concat (map (fun x => [x]) l) = l.
Proof. induction l; cbn; congruence. Qed.

(** Writing one's own block into a fresh buffer and reading it again. *)
Lemma own_block {T} (d : T) (blocks : list (list T)) r x :
  nth_error blocks r = Some x ->
  exists b, bwrite (length (concat (firstn r blocks))) x (repeat d (length (concat blocks))) = Some b /\
    length b = length (concat blocks) /\
    bread (length (concat (firstn r blocks))) (length x) b = Some x.
Proof.
  intros H. pose proof (concat_split blocks r x H) as E.
  assert (El : length (repeat d (length (concat blocks))) =
    length (concat (firstn r blocks)) + length x + length (concat (skipn (S r) blocks))).
  { rewrite repeat_length, E at 1. rewrite !app_length. lia. }
  destruct (split_buf _ _ _ _ El) as (pre & mid & post & Eb & E1 & E2 & E3).
  exists (pre ++ x ++ post). rewrite Eb, <- E1. rewrite bwrite_at by congruence.
  split; [reflexivity|]. split.
  - rewrite E. rewrite !app_length, E1, E3. reflexivity.
  - apply bread_at.
Qed.

Lemma gather_counts_spec ns : ns <> [] -> gather_counts ns = Some (map (fun _ => ns) ns).
Proof.
  intros Hn. unfold gather_counts.
  set (bl := map (fun x => [x]) ns : list (list nat)).
  assert (Hbl : length bl = length ns) by (unfold bl; apply map_length).
  assert (Hc : concat bl = ns) by (unfold bl; apply concat_singletons).
  assert (Hlen : map (@length nat) bl = repeat 1 (length ns)).
  { unfold bl. rewrite map_map. cbn [length]. clear. induction ns; cbn; congruence. }
  assert (Hoff : forall r, r <= length ns -> length (concat (firstn r bl)) = r).
  { intros r Hr. unfold bl. rewrite firstn_map, concat_singletons, firstn_length. lia. }
  assert (Hw : forall i x, nth_error ns i = Some x -> exists b, bwrite i [x] (repeat 0 (length ns)) = Some b /\
     length b = length ns /\ bread i 1 b = Some [x]).
  { intros i x Hx. assert (Hi : i < length ns) by (apply nth_error_Some; congruence).
    destruct (own_block 0 bl i [x]) as (b & H1 & H2 & H3).
    { unfold bl. rewrite nth_error_map, Hx. reflexivity. }
    rewrite Hoff in H1, H3 by lia. rewrite Hc in H1, H2. exists b. auto. }
  assert (Ht : exists bufs, traverse (fun rn => bwrite (fst rn) [snd rn] (repeat 0 (length ns))) (combine (seq 0 (length ns)) ns) = Some bufs /\
     length bufs = length ns /\ forall i b x, nth_error bufs i = Some b -> nth_error ns i = Some x -> length b = length ns /\ bread i 1 b = Some [x]).
  { set (g := fun i => match bwrite i [nth i ns 0] (repeat 0 (length ns)) with Some b => b | None => [] end).
    exists (map g (seq 0 (length ns))). split.
    - apply traverse_idx; [rewrite map_length, seq_length; reflexivity|].
      intros i x y Hx Hy. cbn [fst snd]. destruct (Hw i x Hx) as (b & H1 & _). rewrite H1. f_equal.
      rewrite nth_error_map in Hy. assert (Hi : i < length ns) by (apply nth_error_Some; congruence).
      rewrite (nth_error_nth' _ 0) in Hy by (rewrite seq_length; exact Hi). rewrite seq_nth in Hy by exact Hi.
      cbn in Hy. inversion Hy. unfold g. rewrite (nth_error_nth ns i 0 Hx), H1. reflexivity.
    - split; [rewrite map_length, seq_length; reflexivity|].
      intros i b x Hy Hx. destruct (Hw i x Hx) as (b' & H1 & H2 & H3).
      rewrite nth_error_map in Hy. assert (Hi : i < length ns) by (apply nth_error_Some; congruence).
      rewrite (nth_error_nth' _ 0) in Hy by (rewrite seq_length; exact Hi). rewrite seq_nth in Hy by exact Hi.
      cbn in Hy. inversion Hy. unfold g. rewrite (nth_error_nth ns i 0 Hx), H1. auto. }
  destruct Ht as (bufs & Ht & Hb & Hs). rewrite Ht. unfold mpi_allgather.
  rewrite (allgatherv_spec _ bl).
  - rewrite Hc, map_map. f_equal. apply map_const. exact Hb.
  - rewrite map_length. congruence.
  - intros r a x Ha Hx. rewrite nth_error_map in Ha. destruct (nth_error bufs r) as [b|] eqn:Eb; [|discriminate].
    inversion Ha; subst a. unfold bl in Hx. rewrite nth_error_map in Hx.
    destruct (nth_error ns r) as [n|] eqn:En; [|discriminate]. inversion Hx; subst x.
    assert (Hr : r < length ns) by (apply nth_error_Some; congruence).
    destruct (Hs r b n Eb En) as (H1 & H2). exists b.
    rewrite Hlen, Hc, Hoff, Hb by lia. rewrite scan_ones. auto.
Qed.

Lemma combine_const {X Y} (c : X) (l : list Y) : combine (map (fun _ => c) l) l = map (fun y => (c, y)) l.
Proof. induction l; cbn; congruence. Qed.
Lemma combine_const2 {X Y Z} (c : X) (l : list Y) (d : Z) : combine (map (fun _ => c) l) (map (fun _ => d) l) = map (fun _ => (c, d)) l.
Proof. induction l; cbn; congruence. Qed.
Lemma combine_map_r {X Y} (f : X -> Y) (l : list X) : combine l (map f l) = map (fun x => (x, f x)) l.
Proof. induction l; cbn; congruence. Qed.

Lemma gather_values_spec {T} (d : T) (values : list (list T)) : values <> [] ->
  gather_values d (map (fun _ => map (@length T) values) values) values = Some (map (fun _ => concat values) values).
Proof.
  intros Hn. unfold gather_values. rewrite combine_const.
  set (ns := map (@length T) values).
  assert (Hns : ns <> []) by (unfold ns; destruct values; [congruence|discriminate]).
  assert (Htot : total ns = length (concat values)) by (symmetry; apply concat_length).
  set (g := fun i => match bwrite (length (concat (firstn i values))) (nth i values []) (repeat d (total ns)) with Some b => (ns, b) | None => (ns, []) end).
  rewrite <- (map_length (fun y => (ns, y)) values).
  rewrite (traverse_idx _ (map (fun y => (ns, y)) values) (map g (seq 0 (length values)))).
  - rewrite (comm_allgatherv_spec _ values Hn).
    + f_equal. apply map_const. rewrite map_length, seq_length. reflexivity.
    + rewrite map_length, seq_length. reflexivity.
    + intros r a x Ha Hx. rewrite nth_error_map in Ha.
      assert (Hr : r < length values) by (apply nth_error_Some; congruence).
      rewrite (nth_error_nth' _ 0) in Ha by (rewrite seq_length; exact Hr). rewrite seq_nth in Ha by exact Hr.
      cbn in Ha. inversion Ha; subst a. unfold g. rewrite (nth_error_nth values r [] Hx).
      destruct (own_block d values r x Hx) as (b & H1 & H2 & H3). rewrite Htot, H1. exists b. auto.
  - rewrite !map_length, seq_length. reflexivity.
  - intros i x y Hx Hy. rewrite nth_error_map in Hx. destruct (nth_error values i) as [v|] eqn:Ev; [|discriminate].
    inversion Hx; subst x. assert (Hi : i < length values) by (apply nth_error_Some; congruence).
    rewrite displs_scan by exact Hns. rewrite nth_scan by (unfold ns; rewrite map_length; exact Hi). cbn [Nat.add].
    unfold ns at 1. rewrite <- length_concat_firstn.
    rewrite nth_error_map, (nth_error_nth' _ 0) in Hy by (rewrite seq_length; exact Hi). rewrite seq_nth in Hy by exact Hi.
    cbn in Hy. inversion Hy. unfold g. rewrite (nth_error_nth values i [] Ev).
    destruct (own_block d values i v Ev) as (b & H1 & _). rewrite Htot, H1. reflexivity.
Qed.

(** ** Scalars *)
Lemma allgather_scalar_spec {V} (d : key * V) (world : list (smap V)) : world <> [] ->
  allgather_scalar d world = Some (map (fun _ => map_of_range (concat world)) world).
Proof.
  intros Hn. unfold allgather_scalar. rewrite gather_counts_spec by (destruct world; [congruence|discriminate]).
  rewrite map_map. rewrite gather_values_spec by exact Hn. rewrite map_map. reflexivity.
Qed.

(** ** Vectors of values *)
Lemma cut_spec {T} (values : list (list T)) : cut (map (@length T) values) (concat values) = Some values.
Proof.
  unfold cut. rewrite map_length. apply traverse_seq. intros i y Hy.
  assert (Hi : i < length values) by (apply nth_error_Some; congruence).
  unfold psum. rewrite !nth_psum by (rewrite map_length; lia). cbn [Nat.add].
  assert (Hs : total (firstn (S i) (map (@length T) values)) = total (firstn i (map (@length T) values)) + length y).
  { rewrite <- !length_concat_firstn. clear Hi. revert values Hy. induction i as [|i IH]; intros [|v values] Hy; cbn in Hy; try discriminate.
    - inversion Hy; subst. cbn. rewrite app_nil_r. reflexivity.
    - change (firstn (S (S i)) (v :: values)) with (v :: firstn (S i) values).
      change (firstn (S i) (v :: values)) with (v :: firstn i values).
      cbn [concat]. rewrite !app_length. rewrite (IH values Hy). lia. }
  rewrite Hs. replace (_ + length y - _) with (length y) by lia.
  rewrite <- length_concat_firstn. rewrite (concat_split values i y Hy). apply bread_at.
Qed.

Lemma allgather_vec_spec {T} (d : T) (values : list (list T)) : values <> [] ->
  allgather_vec d values = Some (map (fun _ => values) values).
Proof.
  intros Hn. unfold allgather_vec. rewrite gather_counts_spec by (destruct values; [congruence|discriminate]).
  rewrite map_map. rewrite gather_values_spec by exact Hn.
  rewrite combine_const2.
  rewrite (traverse_all _ (fun _ => values)); [rewrite map_map; reflexivity|].
  intros x Hx. apply in_map_iff in Hx. destruct Hx as (y & <- & Hy). cbn [fst snd]. apply cut_spec.
Qed.

(** ** Arrays *)
Lemma row_offsets_spec row : forall o, row_offsets o row = (scan_from o row, o + total row).
Proof.
  induction row as [|c r IH]; intros o; cbn [row_offsets scan_from].
  - rewrite total_nil, Nat.add_0_r. reflexivity.
  - rewrite IH, total_cons. f_equal. lia.
Qed.
Lemma all_offsets_spec sizes : forall o,
  snd (all_offsets o sizes) = o + total (map total sizes) /\ length (fst (all_offsets o sizes)) = length sizes /\
  forall r row, nth_error sizes r = Some row ->
    nth_error (fst (all_offsets o sizes)) r = Some (scan_from (o + total (firstn r (map total sizes))) row).
Proof.
  induction sizes as [|row sizes IH]; intros o; cbn [all_offsets].
  - cbn. split; [lia|]. split; [reflexivity|]. intros [|r] row H; discriminate H.
  - rewrite row_offsets_spec. specialize (IH (o + total row)).
    destruct (all_offsets (o + total row) sizes) as [ls e]. cbn [fst snd] in *.
    destruct IH as (H1 & H2 & H3). cbn [map]. rewrite total_cons. split; [lia|]. split; [cbn; lia|].
    intros [|r] row' H; cbn [nth_error firstn] in *.
    + inversion H; subst. rewrite total_nil, Nat.add_0_r. reflexivity.
    + rewrite total_cons, (H3 r row' H). f_equal. f_equal. lia.
Qed.

Section View.
  Context {T : Type} (dk : key) (d : T).
  Implicit Types world : list (smap (list T)).

  Definition rowdata (m : smap (list T)) : list T := concat (map snd m).
  Definition rowsizes (m : smap (list T)) : list nat := map (fun kv => length (snd kv)) m.

  Lemma rowdata_length m : length (rowdata m) = total (rowsizes m).
  Proof. unfold rowdata, rowsizes. rewrite concat_length, map_map. reflexivity. Qed.

  Lemma view_pack_spec world r m : nth_error world r = Some m ->
    exists b, view_pack d r m (map rowsizes world) = Some (map (@length T) (map rowdata world), b) /\
      length b = length (concat (map rowdata world)) /\
      bread (length (concat (firstn r (map rowdata world)))) (length (rowdata m)) b = Some (rowdata m).
  Proof.
    intros Hm. unfold view_pack.
    destruct (all_offsets_spec (map rowsizes world) 0) as (H1 & H2 & H3).
    destruct (all_offsets 0 (map rowsizes world)) as [offs size]. cbn [fst snd] in *.
    rewrite (H3 r (rowsizes m)) by (rewrite nth_error_map, Hm; reflexivity).
    assert (Etot : map total (map rowsizes world) = map (@length T) (map rowdata world)).
    { rewrite !map_map. apply map_ext. intros a. symmetry. apply rowdata_length. }
    rewrite Etot in *. cbn [Nat.add] in *.
    rewrite <- length_concat_firstn. rewrite <- concat_length in H1.
    assert (Hx : nth_error (map rowdata world) r = Some (rowdata m)) by (rewrite nth_error_map, Hm; reflexivity).
    pose proof (concat_split _ r _ Hx) as E. rewrite H1.
    assert (El : length (repeat d (length (concat (map rowdata world)))) =
      length (concat (firstn r (map rowdata world))) + length (rowdata m) + length (concat (skipn (S r) (map rowdata world)))).
    { rewrite repeat_length, E at 1. rewrite !app_length. lia. }
    destruct (split_buf _ _ _ _ El) as (pre & mid & post & Eb & E1 & E2 & E3).
    rewrite Eb, <- E1. unfold rowsizes. rewrite <- (map_map snd (@length T)).
    rewrite bwrites_scan by exact E2.
    exists (pre ++ concat (map snd m) ++ post). split; [reflexivity|]. split.
    - rewrite E. rewrite !app_length, E1, E3. reflexivity.
    - apply bread_at.
  Qed.

  Lemma view_unpack_spec world :
    view_unpack (map keys world) (map rowsizes world) (concat (map rowdata world)) = Some (map_of_assignments (concat world)).
  Proof.
    unfold view_unpack.
    destruct (all_offsets_spec (map rowsizes world) 0) as (H1 & H2 & H3).
    destruct (all_offsets 0 (map rowsizes world)) as [offs size]. cbn [fst snd] in *.
    rewrite map_length. rewrite (traverse_seq _ world); [reflexivity|].
    intros r m Hm. rewrite (H3 r (rowsizes m)) by (rewrite nth_error_map, Hm; reflexivity).
    rewrite !nth_error_map, Hm. cbn [option_map].
    assert (Etot : map total (map rowsizes world) = map (@length T) (map rowdata world)).
    { rewrite !map_map. apply map_ext. intros a. symmetry. apply rowdata_length. }
    rewrite Etot. cbn [Nat.add]. rewrite <- length_concat_firstn.
    rewrite length_scan. replace (length (rowsizes m)) with (length m) by (unfold rowsizes; rewrite map_length; reflexivity).
    apply traverse_seq. intros i kv Hkv.
    assert (Hi : i < length m) by (apply nth_error_Some; congruence).
    rewrite nth_scan by (unfold rowsizes; rewrite map_length; exact Hi).
    unfold rowsizes, keys. rewrite !nth_error_map, Hkv. cbn [option_map].
    assert (Hx : nth_error (map rowdata world) r = Some (rowdata m)) by (rewrite nth_error_map, Hm; reflexivity).
    rewrite (concat_split _ r _ Hx).
    assert (Hv : nth_error (map snd m) i = Some (snd kv)) by (rewrite nth_error_map, Hkv; reflexivity).
    unfold rowdata at 3. rewrite (concat_split _ i _ Hv).
    replace (length (concat (firstn r (map rowdata world))) + total (firstn i (map (fun kv0 => length (snd kv0)) m)))
      with (length (concat (firstn r (map rowdata world)) ++ concat (firstn i (map snd m)))).
    2:{ rewrite app_length, (length_concat_firstn (map snd m) i), map_map. reflexivity. }
    rewrite <- !app_assoc. rewrite (app_assoc (concat (firstn r _))). rewrite bread_at. destruct kv; reflexivity.
  Qed.

  Lemma allgather_view_spec world : world <> [] ->
    allgather_view dk d world = Some (map (fun _ => map_of_assignments (concat world)) world).
  Proof.
    intros Hn. unfold allgather_view.
    rewrite !allgather_vec_spec by (destruct world; [congruence|discriminate]).
    fold rowsizes. rewrite !map_map. change (map (fun x => map rowsizes world) world) with (map (fun _ : smap (list T) => map rowsizes world) world).
    rewrite combine_map_r.
    set (g := fun i => match view_pack d i (nth i world []) (map rowsizes world) with Some b => b | None => ([], []) end).
    rewrite <- (map_length (fun x => (x, map rowsizes world)) world) at 1.
    rewrite (traverse_idx _ (map (fun x => (x, map rowsizes world)) world) (map g (seq 0 (length world)))).
    - rewrite (comm_allgatherv_spec _ (map rowdata world)).
      + rewrite map_map. rewrite (map_const (concat (map rowdata world)) (seq 0 (length world)) world) by (rewrite seq_length; reflexivity).
        rewrite combine_const2, combine_const2.
        rewrite (traverse_all _ (fun _ => map_of_assignments (concat world))); [rewrite map_map; reflexivity|].
        intros x Hx. apply in_map_iff in Hx. destruct Hx as (y & <- & _). apply view_unpack_spec.
      + destruct world; [congruence|discriminate].
      + rewrite !map_length, seq_length. reflexivity.
      + intros r a x Ha Hx. rewrite nth_error_map in Hx. destruct (nth_error world r) as [m|] eqn:Em; [|discriminate].
        inversion Hx; subst x. assert (Hr : r < length world) by (apply nth_error_Some; congruence).
        rewrite nth_error_map, (nth_error_nth' _ 0) in Ha by (rewrite seq_length; exact Hr). rewrite seq_nth in Ha by exact Hr.
        cbn in Ha. inversion Ha; subst a. unfold g. rewrite (nth_error_nth world r [] Em).
        destruct (view_pack_spec world r m Em) as (b & H1 & H2 & H3). rewrite H1. exists b. auto.
    - rewrite !map_length, seq_length. reflexivity.
    - intros i x y Hx Hy. rewrite nth_error_map in Hx. destruct (nth_error world i) as [m|] eqn:Em; [|discriminate].
      inversion Hx; subst x. assert (Hr : i < length world) by (apply nth_error_Some; congruence).
      rewrite nth_error_map, (nth_error_nth' _ 0) in Hy by (rewrite seq_length; exact Hr). rewrite seq_nth in Hy by exact Hr.
      cbn in Hy. inversion Hy. unfold g. rewrite (nth_error_nth world i [] Em).
      destruct (view_pack_spec world i m Em) as (b & H1 & _). rewrite H1. reflexivity.
  Qed.
End View.
