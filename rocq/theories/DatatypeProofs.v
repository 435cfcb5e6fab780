(** Facts about Datatype.v. *)
From Coq Require Import Arith Lia List Bool.
From Verif Require Import Datatype.
Import ListNotations.

Lemma round_up_ge n a : 0 < a -> n <= round_up n a.
Proof.
  intros Ha. unfold round_up. pose proof (Nat.div_mod (n + a - 1) a ltac:(lia)) as E. pose proof (Nat.mod_upper_bound (n + a - 1) a ltac:(lia)). nia.
Qed.
Lemma round_up_div n a : Nat.divide a (round_up n a).
Proof. exists ((n + a - 1) / a). reflexivity. Qed.
Lemma round_up_id n a : 0 < a -> Nat.divide a n -> round_up n a = n.
Proof.
  intros Ha [q ->]. unfold round_up. f_equal. symmetry. apply (Nat.div_unique _ _ _ (a - 1)); lia.
Qed.
Lemma round_up_id_inv n a : 0 < a -> round_up n a = n -> Nat.divide a n.
Proof. intros Ha E. rewrite <- E. apply round_up_div. Qed.

(** ** Specification *)
(** the bytes of the members of all n objects of an array of type t arrive *)
Definition delivered {B} (A : abi) (t : ty) (n : nat) (src got : nat -> B) : Prop :=
  forall i b p, i < n -> In (b, p) (members A t (i * size_of A t)) -> forall a, p <= a < p + bsize A b -> got a = src a.
(** every pair can be laid out without padding before its second member, and MPI's extent is the size *)
Fixpoint fits (A : abi) (t : ty) : Prop :=
  match t with
  | TBasic _ => True
  | TPair t1 t2 => fits A t1 /\ fits A t2 /\ Nat.divide (align_of A t2) (size_of A t1) /\ extent A t = size_of A t
  end.

Lemma align_pos A t : abi_ok A -> 0 < align_of A t.
Proof. intros H. induction t as [b|t1 IH1 t2 IH2]; cbn; [apply H | lia]. Qed.
Lemma members_inside A t : abi_ok A -> forall base b p, In (b, p) (members A t base) -> base <= p /\ p + bsize A b <= base + size_of A t.
Proof.
  intros HA. induction t as [b0|t1 IH1 t2 IH2]; intros base b p Hin.
  - cbn in Hin. destruct Hin as [Hin|[]]. injection Hin as <- <-. cbn. lia.
  - cbn [members] in Hin. cbn [size_of]. set (o := round_up (size_of A t1) (align_of A t2)) in *.
    pose proof (align_pos A t1 HA). pose proof (align_pos A t2 HA).
    pose proof (round_up_ge (o + size_of A t2) (Nat.max (align_of A t1) (align_of A t2)) ltac:(lia)) as G1.
    pose proof (round_up_ge (size_of A t1) (align_of A t2) ltac:(lia)) as G2. fold o in G2.
    apply in_app_or in Hin. destruct Hin as [Hin|Hin]; [apply IH1 in Hin | apply IH2 in Hin]; lia.
Qed.
Lemma fits_same A t : abi_ok A -> fits A t -> (forall base, typemap A t base = members A t base) /\ extent A t = size_of A t.
Proof.
  intros H. induction t as [b|t1 IH1 t2 IH2]; intros F; [split; reflexivity|].
  destruct F as (F1 & F2 & F3 & F4). destruct (IH1 F1) as [M1 E1]. destruct (IH2 F2) as [M2 E2]. split; [|exact F4].
  intros base. cbn [typemap members]. rewrite M1, M2, round_up_id; [reflexivity | apply align_pos; exact H | exact F3].
Qed.

Theorem fits_delivered {B} A t n (src dst : nat -> B) : abi_ok A -> fits A t -> delivered A t n src (transfer A t n src dst).
Proof.
  intros HA F i b p Hi Hin a Ha. destruct (fits_same A t HA F) as [M E]. unfold transfer.
  replace (named A t n a) with true; [reflexivity|]. symmetry. unfold named. apply existsb_exists. exists i.
  split; [apply in_seq; lia|]. unfold covers. apply existsb_exists. exists (b, p). rewrite M, E. split; [exact Hin|].
  cbn [fst snd]. apply andb_true_iff. split; [apply Nat.leb_le; lia | apply Nat.ltb_lt; lia].
Qed.
(** bytes outside the type map are not touched *)
Theorem transfer_frame {B} A t n (src dst : nat -> B) a : named A t n a = false -> transfer A t n src dst a = dst a.
Proof. intros H. unfold transfer. rewrite H. reflexivity. Qed.
Theorem fits_no_overrun A t n a : abi_ok A -> fits A t -> named A t n a = true -> a < n * size_of A t.
Proof.
  intros HA F H. destruct (fits_same A t HA F) as [M E]. unfold named in H. apply existsb_exists in H. destruct H as (i & Hi & H).
  apply in_seq in Hi. unfold covers in H. apply existsb_exists in H. destruct H as ([b p] & Hin & H). rewrite M, E in Hin.
  apply andb_true_iff in H. destruct H as [H1 H2]. apply Nat.leb_le in H1. apply Nat.ltb_lt in H2. cbn [fst snd] in *.
  apply (members_inside A t HA) in Hin. nia.
Qed.

(** ** In-place allgatherv of an array of objects *)
Fixpoint starts_at (counts : list nat) (q : nat) : nat :=
  match counts, q with n :: rest, S q => n + starts_at rest q | _, _ => 0 end.
(** object number [starts_at counts q + i] of every buffer is the one rank q put there *)
Definition gathered {B} (A : abi) (t : ty) (counts : list nat) (bufs : nat -> nat -> B) (r : nat) (got : nat -> B) : Prop :=
  forall q n i, nth_error counts q = Some n -> i < n ->
    forall b p, In (b, p) (members A t ((starts_at counts q + i) * size_of A t)) -> forall a, p <= a < p + bsize A b -> got a = bufs q a.

Lemma size_pos A t : abi_ok A -> 0 < size_of A t.
Proof.
  intros HA. induction t as [b|t1 IH1 t2 IH2]; cbn [size_of]; [destruct (HA b); tauto|].
  pose proof (align_pos A t1 HA). pose proof (round_up_ge (round_up (size_of A t1) (align_of A t2) + size_of A t2) (Nat.max (align_of A t1) (align_of A t2)) ltac:(lia)). lia.
Qed.
Lemma named_at_in A t d n a : abi_ok A -> fits A t -> named_at A t d n a = true -> exists j, d <= j < d + n /\ j * size_of A t <= a < (j + 1) * size_of A t.
Proof.
  intros HA F H. destruct (fits_same A t HA F) as [M E]. unfold named_at in H. apply existsb_exists in H. destruct H as (i & Hi & H).
  apply in_seq in Hi. unfold covers in H. apply existsb_exists in H. destruct H as ([b p] & Hin & H). rewrite M, E in Hin.
  apply andb_true_iff in H. destruct H as [H1 H2]. apply Nat.leb_le in H1. apply Nat.ltb_lt in H2. cbn [fst snd] in *.
  apply (members_inside A t HA) in Hin. exists i. split; [lia|]. nia.
Qed.
Lemma gather_byte_ok {B} A t (bufs : nat -> nat -> B) r : abi_ok A -> fits A t ->
  forall counts d q0 q n i b p a, nth_error counts q = Some n -> i < n ->
    In (b, p) (members A t ((d + starts_at counts q + i) * size_of A t)) -> p <= a < p + bsize A b ->
    gather_byte A t d q0 counts bufs r a = bufs (q0 + q) a.
Proof.
  intros HA F. destruct (fits_same A t HA F) as [M E]. pose proof (size_pos A t HA) as SP.
  induction counts as [|m rest IH]; intros d q0 q n i b p a Hq Hi Hin Ha; [destruct q; discriminate|].
  pose proof (members_inside A t HA _ _ _ Hin) as Hb. cbn [gather_byte]. destruct q as [|q].
  - cbn in Hq. injection Hq as ->. cbn [starts_at] in *. rewrite Nat.add_0_r in *.
    replace (named_at A t d n a) with true; [reflexivity|]. symmetry. unfold named_at. apply existsb_exists. exists (d + i).
    split; [apply in_seq; lia|]. unfold covers. apply existsb_exists. exists (b, p). rewrite M, E. split; [exact Hin|].
    cbn [fst snd]. apply andb_true_iff. split; [apply Nat.leb_le; lia | apply Nat.ltb_lt; lia].
  - cbn [nth_error] in Hq. cbn [starts_at] in *.
    destruct (named_at A t d m a) eqn:N.
    + exfalso. apply (named_at_in A t d m a HA F) in N. destruct N as (j & Hj & Hja). nia.
    + replace (q0 + S q) with (S q0 + q) by lia. apply (IH (d + m) (S q0) q n i b p a Hq Hi); [|exact Ha].
      replace (d + m + starts_at rest q + i) with (d + (m + starts_at rest q) + i) by lia. exact Hin.
Qed.
Theorem allgatherv_gathers {B} A t counts (bufs : nat -> nat -> B) r : abi_ok A -> fits A t ->
  gathered A t counts bufs r (allgatherv A t counts bufs r).
Proof. intros HA F q n i Hq Hi b p Hin a Ha. exact (gather_byte_ok A t bufs r HA F counts 0 0 q n i b p a Hq Hi Hin Ha). Qed.

(** The second member, a basic type after padding: its last byte is not sent. *)
Theorem padded_not_delivered A t1 b2 : abi_ok A -> fits A t1 -> ~ Nat.divide (balign A b2) (size_of A t1) ->
  forall B (x y : B), x <> y -> exists src dst : nat -> B, ~ delivered A (TPair t1 (TBasic b2)) 1 src (transfer A (TPair t1 (TBasic b2)) 1 src dst).
Proof.
  intros HA F N B x y Hxy. exists (fun _ => x), (fun _ => y). intros D.
  set (o := round_up (size_of A t1) (balign A b2)) in *.
  assert (Hpos : 0 < balign A b2 /\ 0 < bsize A b2) by (destruct (HA b2); tauto).
  assert (Ho : size_of A t1 < o).
  { pose proof (round_up_ge (size_of A t1) (balign A b2) ltac:(lia)) as G. fold o in G.
    destruct (Nat.eq_dec o (size_of A t1)) as [E|E]; [|lia]. exfalso. apply N. apply round_up_id_inv; [lia | exact E]. }
  specialize (D 0 b2 o ltac:(lia)). cbn [members size_of align_of] in D. rewrite Nat.mul_0_l in D. fold o in D.
  specialize (D ltac:(apply in_or_app; right; left; reflexivity) (o + bsize A b2 - 1) ltac:(lia)).
  unfold transfer in D. apply Hxy. rewrite <- D. replace (named A (TPair t1 (TBasic b2)) 1 (o + bsize A b2 - 1)) with false; [reflexivity|].
  symmetry. unfold named. cbn [seq existsb]. rewrite orb_false_r, Nat.mul_0_l. unfold covers. apply not_true_is_false. intros H.
  apply existsb_exists in H. destruct H as ([b p] & Hin & H). cbn [typemap] in Hin. apply andb_true_iff in H. destruct H as [H1 H2].
  apply Nat.leb_le in H1. apply Nat.ltb_lt in H2. cbn [fst snd] in *.
  apply in_app_or in Hin. destruct Hin as [Hin|Hin].
  - destruct (fits_same A t1 HA F) as [M _]. rewrite M in Hin.
    apply (members_inside A t1 HA) in Hin. lia.
  - cbn in Hin. destruct Hin as [Hin|[]]. injection Hin as <- <-. lia.
Qed.

(** ** The types in use *)
Lemma x86_64_ok : abi_ok x86_64.
Proof.
  intros b. destruct b; cbn; repeat split; try lia; first [exists 1; reflexivity | exists 2; reflexivity].
Qed.
Definition usable_scalar (b : basic) : Prop := b = BDouble \/ b = BInt \/ b = BChar.
Theorem used_types_fit b : usable_scalar b -> fits x86_64 key_ty /\ fits x86_64 (TPair key_ty (TBasic b)).
Proof.
  intros [-> | [-> | ->]]; cbn [fits key_ty]; repeat split; first [reflexivity | exists 1; reflexivity | exists 2; reflexivity | exists 8; reflexivity].
Qed.
(** every mvector<T>::allgather delivers, for any ABI in which two ints fill the alignment of T *)
Theorem key_pair_fits A b : abi_ok A -> malign A BInt = balign A BInt -> malign A b = balign A b ->
  Nat.divide (balign A b) (2 * bsize A BInt) -> fits A (TPair key_ty (TBasic b)).
Proof.
  intros HA M1 M2 D.
  destruct (HA BInt) as (P1 & _ & P2 & D1 & _). destruct (HA b) as (Q1 & _ & Q2 & D2 & _).
  assert (K : size_of A key_ty = 2 * bsize A BInt).
  { unfold key_ty. cbn [size_of align_of]. rewrite Nat.max_id. rewrite (round_up_id (bsize A BInt)) by assumption.
    rewrite round_up_id; [lia | exact P1 | apply Nat.divide_add_r; exact D1]. }
  assert (KE : extent A key_ty = size_of A key_ty).
  { rewrite K. unfold key_ty. cbn [extent size_of mpi_align]. rewrite M1, Nat.max_id, Nat.max_r by lia.
    rewrite round_up_id; [lia | exact P1 | apply Nat.divide_add_r; exact D1]. }
  split; [|split; [exact I | split]].
  - split; [exact I|]. split; [exact I|]. split; [exact D1 | exact KE].
  - cbn [align_of]. rewrite K. exact D.
  - change (extent A (TPair key_ty (TBasic b))) with (round_up (Nat.max (extent A key_ty) (size_of A key_ty + bsize A b)) (Nat.max (mpi_align A key_ty) (malign A b))).
    change (size_of A (TPair key_ty (TBasic b))) with (round_up (round_up (size_of A key_ty) (balign A b) + bsize A b) (Nat.max (align_of A key_ty) (balign A b))).
    rewrite KE, M2. rewrite (round_up_id (size_of A key_ty) (balign A b)); [|exact Q1 | rewrite K; exact D].
    rewrite Nat.max_r by lia. f_equal. f_equal. cbn [key_ty mpi_align align_of]. rewrite M1. reflexivity.
Qed.

(** ** Types are never freed *)
Lemma type_calls_count cap ts : forall live l, type_calls cap live ts = Some l -> l = live + fold_right (fun t n => pairs_in t + n) 0 ts.
Proof.
  induction ts as [|t r IH]; intros live l; cbn [type_calls fold_right]; [intros E; injection E as <-; lia|].
  unfold type_call. destruct (Nat.leb_spec (live + pairs_in t) cap); [|discriminate]. intros E. apply IH in E. lia.
Qed.
Lemma type_calls_cap cap ts : forall live l, live <= cap -> type_calls cap live ts = Some l -> l <= cap.
Proof.
  induction ts as [|t r IH]; intros live l Hl; cbn [type_calls]; [intros E; injection E as <-; exact Hl|].
  unfold type_call. destruct (Nat.leb_spec (live + pairs_in t) cap) as [H|H]; [|discriminate]. intros E. exact (IH _ _ H E).
Qed.
Lemma total_app ts ts' : fold_right (fun t n => pairs_in t + n) 0 (ts ++ ts') = fold_right (fun t n => pairs_in t + n) 0 ts + fold_right (fun t n => pairs_in t + n) 0 ts'.
Proof. induction ts as [|t r IH]; cbn [app fold_right]; [reflexivity|]. rewrite IH. lia. Qed.
Fixpoint times {X} (n : nat) (l : list X) : list X := match n with O => [] | S n => l ++ times n l end.
Theorem fn_leaks cap live n l : type_calls cap live (times n fn_types) = Some l -> l = live + 3 * n.
Proof.
  intros E. apply type_calls_count in E. rewrite E. f_equal. clear. induction n as [|n IH]; [reflexivity|].
  cbn [times]. rewrite total_app, IH. cbn. lia.
Qed.
Theorem fn_exhausts cap n : cap < 3 * n -> type_calls cap 0 (times n fn_types) = None.
Proof.
  intros H. destruct (type_calls cap 0 (times n fn_types)) as [l|] eqn:E; [|reflexivity]. exfalso.
  pose proof (fn_leaks _ _ _ _ E). apply type_calls_cap in E; [|lia]. lia.
Qed.
Theorem basic_types_free cap live b : live <= cap -> type_call cap live (TBasic b) = Some live.
Proof. intros H. unfold type_call. cbn [pairs_in]. rewrite Nat.add_0_r. rewrite (proj2 (Nat.leb_le _ _) H). reflexivity. Qed.
