(** C100: copying the matrices of the calling program into another memory space when copies fail. *)
From Coq Require Import Arith Lia List Bool ZArith.
From Coq Require Import Reals.
From Coquelicot Require Import Complex.
From Verif Require Import MVector LapackMem LapackMemProofs LapackElt Exchange DeviceCopy.
Import ListNotations.
Local Open Scope nat_scope.

(** Whichever of the copies fail, a mvector with all entries is returned: right where the copy succeeded, without the elements of the calling
    program where it failed, and with one printed message for each failure. *)
Theorem C100_failed_copies_are_returned :
  forall (E : elt) (want : memtype) (fresh : nat -> ev E) (m : caller E) (st : list bool), length st = length m ->
  (forall k c, In (k, c) m -> cmem E c = want /\ packed E c /\ allocated (cview E c)) ->
  exists l, copies E want fresh st m = KOk (l, length (filter negb st)) /\ Forall2 (copied E fresh) (combine m st) l.
Proof. exact copies_return. Qed.
Print Assumptions C100_failed_copies_are_returned.
(** The same for the mvector, by the index of the k-point; of matrices with the same index the last one is kept. *)
Theorem C100_mvector :
  forall (E : elt) (want : memtype) (fresh : nat -> ev E) (m : caller E) (st : list bool), length st = length m ->
  (forall k c, In (k, c) m -> cmem E c = want /\ packed E c /\ allocated (cview E c)) ->
  exists g, copied_mmatrix E want fresh st m = KOk (g, length (filter negb st)) /\
    (forall k M, In (k, M) g -> exists c, In (k, c) m) /\
    forall a k c ok b, combine m st = a ++ ((k, c), ok) :: b -> (forall c' ok', ~ In ((k, c'), ok') b) ->
      exists M, mfind k g = Some M /\ copied E fresh ((k, c), ok) (k, M).
Proof. exact copied_by_key. Qed.
Print Assumptions C100_mvector.
(** Memory of another kind is refused, whatever the copies before it did. *)
Theorem C100_memory_of_another_kind :
  forall (E : elt) (want : memtype) (fresh : nat -> ev E) (m : caller E) (st : list bool), length st = length m ->
  (forall k c, In (k, c) m -> packed E c /\ allocated (cview E c)) ->
  forall k c, In (k, c) m -> cmem E c <> want -> copies E want fresh st m = KThrow.
Proof. exact copies_refuse. Qed.
Print Assumptions C100_memory_of_another_kind.

(** Two 2 x 1 matrices in device memory; the second copy fails and its matrix is zero. *)
Definition ones (t : memtype) : cbuf Celt := MkCbuf Celt 2 1 1 2 t (MkBuf 2 (fun _ => (RtoC 1 : ev Celt)) : buf Celt).
Definition two_matrices : caller Celt := [((0, 0)%Z, ones MDevice); ((1, 0)%Z, ones MDevice)].
Lemma ones_ok t : packed Celt (ones t) /\ allocated (cview Celt (ones t)).
Proof. split; [intros i j Hi Hj|intros i j Hi Hj]; cbn in *; unfold addr; cbn; lia. Qed.
Example C100_example :
  (forall k c, In (k, c) two_matrices -> cmem Celt c = MDevice /\ packed Celt c /\ allocated (cview Celt c)) /\
  (exists a b, copies Celt MDevice (fun _ => e0 Celt) [true; false] two_matrices = KOk ([((0, 0)%Z, a); ((1, 0)%Z, b)], 1) /\
     vat a 1 0 = (RtoC 1 : ev Celt) /\ vat b 1 0 = (RtoC 0 : ev Celt)) /\
  combine two_matrices [true; false] = [(((0, 0)%Z, ones MDevice), true)] ++ (((1, 0)%Z, ones MDevice), false) :: [] /\
  (exists g, copied_mmatrix Celt MDevice (fun _ => e0 Celt) [false; true] [((0, 0)%Z, ones MDevice); ((0, 0)%Z, ones MDevice)] = KOk (g, 1) /\
     match g with [(_, M)] => vat M 1 0 = (RtoC 1 : ev Celt) | _ => False end) /\
  copies Celt MDevice (fun _ => e0 Celt) [false; true] [((0, 0)%Z, ones MDevice); ((1, 0)%Z, ones MHost)] = KThrow.
Proof.
  split; [|split; [|split; [|split]]].
  - intros k c [e|[e|[]]]; apply pair_equal_spec in e; destruct e as [_ <-]; (split; [reflexivity|apply ones_ok]).
  - do 2 eexists. split; [reflexivity|]. split; reflexivity.
  - reflexivity.
  - eexists. split; [reflexivity|]. reflexivity.
  - reflexivity.
Qed.
