(** src/la/layout.hpp: Block, BlockLayout, SlabLayoutV, and src/la/map.hpp 31-34.  int is 32 bits wide; signed overflow
    is undefined behaviour. *)
From Coq Require Import ZArith Lia List Bool.
Import ListNotations.
Local Open Scope Z_scope.

(** struct Block, layout.hpp 12-30 *)
Record block := MkBlock { bx : Z; by_ : Z; bnrows : Z; bncols : Z }.

Inductive lres := LOk (nrow ncol : Z) | LThrow | LUB.

Definition INT_MIN : Z := -2147483648.
Definition INT_MAX : Z := 2147483647.
Definition is_int (z : Z) : bool := (INT_MIN <=? z) && (z <=? INT_MAX).

(** The loop of the constructor, layout.hpp 77-82: add the rows, then test the block. *)
Fixpoint slab_loop (blocks : list block) (nrow ncol : Z) : lres :=
  match blocks with
  | [] => LOk nrow ncol
  | b :: r =>
    let nrow' := nrow + bnrows b in
    if negb (is_int nrow') then LUB
    else if negb (bncols b =? ncol) || negb (by_ b =? 0) then LThrow
    else slab_loop r nrow' ncol
  end.

(** SlabLayoutV(blocks, ncols = -1), layout.hpp 72-83; blocks[0] of an empty vector is undefined. *)
Definition slab (blocks : list block) (ncols : Z) : lres :=
  if ncols =? -1 then
    match blocks with [] => LUB | b :: _ => slab_loop blocks 0 (bncols b) end
  else slab_loop blocks 0 ncols.

(** SlabLayoutV() = default, layout.hpp 85 with the initialisers of 60-61. *)
Definition slab_default : lres := LOk (-1) (-1).

(** Map(comm, layout).nrows(), ncols(), map.hpp 31-34: those of the layout, whatever the communicator. *)
Definition map_extents (comm_size : nat) (l : lres) : lres := l.

(** ** Specification *)
Definition ints (b : block) : Prop := is_int (bnrows b) = true /\ is_int (bncols b) = true.
Fixpoint total (blocks : list block) : Z := match blocks with [] => 0 | b :: r => bnrows b + total r end.
(** A vertical slab of width w: every block is w wide and starts in column 0. *)
Definition vertical (w : Z) (blocks : list block) : Prop := forall b, In b blocks -> bncols b = w /\ by_ b = 0.
Definition nonneg_rows (blocks : list block) : Prop := forall b, In b blocks -> 0 <= bnrows b.

Lemma is_int_iff z : is_int z = true <-> INT_MIN <= z <= INT_MAX.
Proof. unfold is_int. rewrite andb_true_iff, !Z.leb_le. tauto. Qed.

Lemma total_nonneg blocks : nonneg_rows blocks -> 0 <= total blocks.
Proof.
  induction blocks as [|b r IH]; cbn; intros H; [lia|]. assert (0 <= bnrows b) by (apply H; left; reflexivity).
  assert (0 <= total r) by (apply IH; intros c Hc; apply H; right; exact Hc). lia.
Qed.

Lemma slab_loop_ok blocks : forall nrow ncol, 0 <= nrow -> nonneg_rows blocks -> nrow + total blocks <= INT_MAX ->
  (vertical ncol blocks -> slab_loop blocks nrow ncol = LOk (nrow + total blocks) ncol) /\
  (~ vertical ncol blocks -> slab_loop blocks nrow ncol = LThrow).
Proof.
  induction blocks as [|b r IH]; cbn [slab_loop total]; intros nrow ncol Hn Hr Hs.
  - split; [intros _; f_equal; lia|]. intros H. exfalso. apply H. intros b [].
  - assert (Hb : 0 <= bnrows b) by (apply Hr; left; reflexivity).
    assert (Hr' : nonneg_rows r) by (intros c Hc; apply Hr; right; exact Hc).
    pose proof (total_nonneg r Hr') as Ht.
    assert (I : is_int (nrow + bnrows b) = true) by (apply is_int_iff; unfold INT_MIN; lia).
    rewrite I. cbn [negb]. destruct (IH (nrow + bnrows b) ncol ltac:(lia) Hr' ltac:(lia)) as [P N].
    destruct (Z.eqb_spec (bncols b) ncol) as [e1|n1]; cbn [negb orb].
    + destruct (Z.eqb_spec (by_ b) 0) as [e2|n2]; cbn [negb].
      * split.
        -- intros V. rewrite P by (intros c Hc; apply V; right; exact Hc). f_equal. lia.
        -- intros V. apply N. intros W. apply V. intros c [<-|Hc]; [split; assumption|]. apply W. exact Hc.
      * split; [|reflexivity]. intros V. exfalso. apply n2. apply (V b). left. reflexivity.
    + split; [|reflexivity]. intros V. exfalso. apply n1. apply (V b). left. reflexivity.
Qed.

Definition width (blocks : list block) (ncols : Z) : Z :=
  if ncols =? -1 then match blocks with [] => -1 | b :: _ => bncols b end else ncols.

Lemma slab_ok blocks ncols : (ncols <> -1 \/ blocks <> []) -> nonneg_rows blocks -> total blocks <= INT_MAX ->
  (vertical (width blocks ncols) blocks -> slab blocks ncols = LOk (total blocks) (width blocks ncols)) /\
  (~ vertical (width blocks ncols) blocks -> slab blocks ncols = LThrow).
Proof.
  intros D Hr Hs. unfold slab, width. destruct (Z.eqb_spec ncols (-1)) as [e|n].
  - destruct blocks as [|b r]; [exfalso; destruct D as [D|D]; [exact (D e)|exact (D eq_refl)]|].
    apply (slab_loop_ok (b :: r) 0 (bncols b)); [lia|exact Hr|lia].
  - apply (slab_loop_ok blocks 0 ncols); [lia|exact Hr|lia].
Qed.

Lemma slab_empty : slab [] (-1) = LUB.
Proof. reflexivity. Qed.

(** The sum of the rows leaves int: undefined if no earlier block is rejected. *)
Lemma slab_loop_overflow blocks : forall nrow ncol, 0 <= nrow <= INT_MAX -> nonneg_rows blocks -> vertical ncol blocks ->
  INT_MAX < nrow + total blocks -> slab_loop blocks nrow ncol = LUB.
Proof.
  induction blocks as [|b r IH]; cbn [slab_loop total]; intros nrow ncol Hn Hr V Hs; [lia|].
  assert (Hb : 0 <= bnrows b) by (apply Hr; left; reflexivity).
  destruct (is_int (nrow + bnrows b)) eqn:el; cbn [negb]; [|reflexivity].
  apply is_int_iff in el. destruct (V b (or_introl eq_refl)) as [-> ->]. rewrite Z.eqb_refl. cbn [negb orb Z.eqb].
  apply IH; [lia| | |lia]; intros c Hc; [apply Hr|apply V]; right; exact Hc.
Qed.
Lemma slab_overflow blocks ncols : (ncols <> -1 \/ blocks <> []) -> nonneg_rows blocks -> vertical (width blocks ncols) blocks ->
  INT_MAX < total blocks -> slab blocks ncols = LUB.
Proof.
  intros D Hr V Hs. unfold slab, width in *. destruct (Z.eqb_spec ncols (-1)) as [e|n].
  - destruct blocks as [|b r]; [reflexivity|]. apply (slab_loop_overflow (b :: r) 0); try assumption. unfold INT_MAX. lia.
  - apply slab_loop_overflow; try assumption. unfold INT_MAX. lia.
Qed.

(** The row positions of the blocks are never looked at. *)
Definition shifted (blocks blocks' : list block) : Prop :=
  Forall2 (fun b b' => by_ b = by_ b' /\ bnrows b = bnrows b' /\ bncols b = bncols b') blocks blocks'.
Lemma slab_loop_shift blocks blocks' : shifted blocks blocks' -> forall nrow ncol, slab_loop blocks nrow ncol = slab_loop blocks' nrow ncol.
Proof.
  intros H. induction H as [|b b' r r' (e1 & e2 & e3) Hr IH]; intros nrow ncol; cbn [slab_loop]; [reflexivity|].
  rewrite e1, e2, e3. rewrite IH. reflexivity.
Qed.
Lemma slab_shift blocks blocks' ncols : shifted blocks blocks' -> slab blocks ncols = slab blocks' ncols.
Proof.
  intros H. unfold slab. rewrite (slab_loop_shift _ _ H). destruct H as [|b b' r r' (e1 & e2 & e3) Hr]; [reflexivity|].
  rewrite e3. destruct (ncols =? -1); [|reflexivity]. apply (slab_loop_shift (b :: r)). constructor; [repeat split; assumption|exact Hr].
Qed.
