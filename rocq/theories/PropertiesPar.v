(** C87: the parallel loops of the library have no data races; every schedule gives the memory of the sequential loop.

    Vocabulary (Parallel.v): a memory is a family of allocations; an iteration is a program of single reads and writes;
    [steps n (ps, m0) c]: n accesses, each by any of the threads [ps]; [faulty c]: undefined behaviour is possible at [c]
    (two threads about to access the same element, one of them writing, or an access outside an allocation);
    [runs_to ps m0 mf]: no state reached from m0 is faulty, no execution is endless or stuck, and all end with memory mf;
    [threads q chunks]: thread t executes the iterations [nth t chunks], one after the other. *)
From Coq Require Import Reals Arith List Bool Permutation.
From Coquelicot Require Import Complex.
From Verif Require Import Arith LinAlg MVector Smearing Occupation LapackMem LapackMemProofs LapackElt Exchange Teter StepMem Parallel ParKernels ParExample.
Import ListNotations.

(** Any loop whose iterations write nothing another iteration accesses. *)
Theorem C87_independent_iterations (E : elt) (I : Type) (q : I -> prog E) (Rs Ws : I -> loc -> Prop) (its order : list I) (chunks : list (list I)) (m0 m : mem E) :
  NoDup its -> (forall x, In x its -> fits (Rs x) (Ws x) (q x)) ->
  (forall x y l, In x its -> In y its -> x <> y -> Ws x l -> ~ (Rs y l \/ Ws y l)) ->
  Permutation order its -> execs (map q order) m0 = Some m ->
  Permutation (concat chunks) its -> runs_to (threads q chunks) m0 m.
Proof. exact (fun Nd Ft Dj => parallel_of_sequential E q Rs Ws its order chunks m0 m (Logic.conj Nd (Logic.conj Ft Dj))). Qed.
Print Assumptions C87_independent_iterations.

(** add / cblas geam, parallel over the columns. *)
Theorem C87_add (E : elt) (d s : nat) (m0 : mem E) (C A : view E) (alpha beta : ev E) (order : list (nat * nat)) (chunks : list (list (nat * nat))) (C' : view E) :
  s <> d -> m0 d = vbuf C -> m0 s = vbuf A -> vrows A <= vs1 C -> Permutation order (pairs (vrows A) (vcols C)) ->
  add order C A alpha beta = KOk C' -> Permutation (concat chunks) (pairs (vrows A) (vcols C)) ->
  runs_to (threads (geam_prog d s alpha beta (vs1 A) (vs1 C)) chunks) m0 (put m0 d (vbuf C')).
Proof. exact (par_add d s m0 C A alpha beta order chunks C'). Qed.
Print Assumptions C87_add.

(** scale(dst, src, x, alpha, beta), scale(dst, src, alpha, beta), scale(dst, src, alpha), _add, Kokkos::deep_copy. *)
Theorem C87_scale_cols (E : elt) (d s : nat) (m0 : mem E) (dst src : view E) (xn : nat) (x : nat -> er E) (alpha beta : er E) (m n : nat) (order : list (nat * nat)) (chunks : list (list (nat * nat))) (dst' : view E) :
  s <> d -> m0 d = vbuf dst -> m0 s = vbuf src -> injective_view m n dst -> Permutation order (pairs m n) ->
  scale_cols order dst src xn x alpha beta = KOk dst' ->
  Permutation (concat chunks) (pairs m n) ->
  runs_to (threads (scale_cols_prog d s dst src xn x alpha beta) chunks) m0 (put m0 d (vbuf dst')).
Proof. exact (par_scale_cols d s m0 dst src xn x alpha beta m n order chunks dst'). Qed.
Print Assumptions C87_scale_cols.

Theorem C87_scale_beta (E : elt) (d s : nat) (m0 : mem E) (dst src : view E) (alpha beta : er E) (m n : nat) (order : list (nat * nat)) (chunks : list (list (nat * nat))) (dst' : view E) :
  s <> d -> m0 d = vbuf dst -> m0 s = vbuf src -> injective_view m n dst -> Permutation order (pairs m n) ->
  scale_beta order dst src alpha beta = KOk dst' ->
  Permutation (concat chunks) (pairs m n) ->
  runs_to (threads (scale_beta_prog d s dst src alpha beta) chunks) m0 (put m0 d (vbuf dst')).
Proof. exact (par_scale_beta d s m0 dst src alpha beta m n order chunks dst'). Qed.
Print Assumptions C87_scale_beta.

Theorem C87_scale (E : elt) (d s : nat) (m0 : mem E) (dst src : view E) (alpha : er E) (m n : nat) (order : list (nat * nat)) (chunks : list (list (nat * nat))) (dst' : view E) :
  s <> d -> m0 d = vbuf dst -> m0 s = vbuf src -> injective_view m n dst -> Permutation order (pairs m n) ->
  scale order dst src alpha = KOk dst' ->
  Permutation (concat chunks) (pairs m n) ->
  runs_to (threads (scale_prog d s dst src alpha) chunks) m0 (put m0 d (vbuf dst')).
Proof. exact (par_scale d s m0 dst src alpha m n order chunks dst'). Qed.
Print Assumptions C87_scale.

Theorem C87_underscore_add (E : elt) (d s : nat) (m0 : mem E) (dst src : view E) (alpha beta : ev E) (m n : nat) (order : list (nat * nat)) (chunks : list (list (nat * nat))) (dst' : view E) :
  s <> d -> m0 d = vbuf dst -> m0 s = vbuf src -> injective_view m n dst -> Permutation order (pairs m n) ->
  add_ order dst src alpha beta = KOk dst' ->
  Permutation (concat chunks) (pairs m n) ->
  runs_to (threads (add__prog d s dst src alpha beta) chunks) m0 (put m0 d (vbuf dst')).
Proof. exact (par_add_ d s m0 dst src alpha beta m n order chunks dst'). Qed.
Print Assumptions C87_underscore_add.

Theorem C87_deep_copy (E : elt) (d s : nat) (m0 : mem E) (dst src : view E) (m n : nat) (order : list (nat * nat)) (chunks : list (list (nat * nat))) (dst' : view E) :
  s <> d -> m0 d = vbuf dst -> m0 s = vbuf src -> injective_view m n dst -> Permutation order (pairs m n) ->
  deep_copy E order dst src = KOk dst' ->
  Permutation (concat chunks) (pairs m n) ->
  runs_to (threads (deep_copy_prog d s dst src) chunks) m0 (put m0 d (vbuf dst')).
Proof. exact (par_deep_copy d s m0 dst src  m n order chunks dst'). Qed.
Print Assumptions C87_deep_copy.

(** The preconditioner, into other memory and in place. *)
Theorem C87_apply_diag (E : elt) (d s : nat) (m0 : mem E) (dst src : view E) (en : nat) (entries : nat -> er E) (m n : nat) (order : list (nat * nat)) (chunks : list (list (nat * nat))) (dst' : view E) :
  s <> d -> m0 d = vbuf dst -> m0 s = vbuf src -> injective_view m n dst -> Permutation order (pairs m n) ->
  apply_diag E order dst src en entries = KOk dst' ->
  Permutation (concat chunks) (pairs m n) ->
  runs_to (threads (apply_diag_prog d s dst src en entries) chunks) m0 (put m0 d (vbuf dst')).
Proof. exact (par_apply_diag d s m0 dst src en entries m n order chunks dst'). Qed.
Print Assumptions C87_apply_diag.

Theorem C87_precond_in_place (E : elt) (d : nat) (m0 : mem E) (x : view E) (en : nat) (entries : nat -> er E) (m n : nat) (order : list (nat * nat)) (chunks : list (list (nat * nat))) (x' : view E) :
  m0 d = vbuf x -> injective_view m n x -> Permutation order (pairs m n) ->
  precond_in_place E order x en entries = KOk x' -> Permutation (concat chunks) (pairs m n) ->
  runs_to (threads (apply_diag_prog d d x x en entries) chunks) m0 (put m0 d (vbuf x')).
Proof. exact (par_precond_in_place d m0 x en entries m n order chunks x'). Qed.
Print Assumptions C87_precond_in_place.

(** Matrices made by the library have distinct elements. *)
Theorem C87_fresh_matrices (E : elt) (rows cols : nat) (l : bool) :
  injective_view rows cols (alloc E rows cols l).
Proof. exact (fresh_injective E rows cols l). Qed.
Print Assumptions C87_fresh_matrices.

(** diag, make_diag, the rows of innerh_tr, vectors of doubles. *)
Theorem C87_diag (E : elt) (d s : nat) (m0 : mem E) (X : view E) (l : list (ev E)) (chunks : list (list nat)) :
  s <> d -> m0 s = vbuf X -> bsz (m0 d) = Nat.min (vrows X) (vcols X) -> StepMem.diag X = KOk l -> Permutation (concat chunks) (seq 0 (length l)) ->
  runs_to (threads (diag_prog d s X) chunks) m0 (put m0 d (MkBuf (length l) (fun i => if Nat.ltb i (length l) then nth i l (e0 E) else bget (m0 d) i))).
Proof. exact (par_diag d s m0 X l chunks). Qed.
Print Assumptions C87_diag.

Theorem C87_make_diag (E : elt) (d s : nat) (m0 : mem E) (n : nat) (order : list nat) (chunks : list (list nat)) (out : view E) :
  s <> d -> m0 d = vbuf (alloc E n n true) -> bsz (m0 s) = n -> Permutation order (seq 0 n) ->
  StepMem.make_diag order n (bget (m0 s)) = KOk out -> Permutation (concat chunks) (seq 0 n) ->
  runs_to (threads (make_diag_prog d s (alloc E n n true)) chunks) m0 (put m0 d (vbuf out)).
Proof. exact (par_make_diag d s m0 n order chunks out). Qed.
Print Assumptions C87_make_diag.

Theorem C87_rows (E : elt) (d s s' : nat) (m0 : mem E) (X Y : view E) (v : nat -> ev E) (chunks : list (list nat)) :
  s <> d -> s' <> d -> m0 s = vbuf X -> m0 s' = vbuf Y -> m0 d = MkBuf (vrows X) (fun _ => e0 E) ->
  (forall i, i < vrows X -> StepMem.row_sum X Y i (vcols X) = KOk (v i)) -> Permutation (concat chunks) (seq 0 (vrows X)) ->
  runs_to (threads (row_prog d s s' X Y) chunks) m0 (put m0 d (MkBuf (vrows X) (fun i => if Nat.ltb i (vrows X) then v i else e0 E))).
Proof. exact (par_rows d s s' m0 X Y v chunks). Qed.
Print Assumptions C87_rows.

Theorem C87_map (E : elt) (d : nat) (m0 : mem E) (n : nat) (f : ev E -> ev E) (chunks : list (list nat)) :
  bsz (m0 d) = n -> Permutation (concat chunks) (seq 0 n) ->
  runs_to (threads (map_prog d f) chunks) m0 (put m0 d (MkBuf n (fun i => if Nat.ltb i n then f (bget (m0 d) i) else bget (m0 d) i))).
Proof. exact (par_map d m0 n f chunks). Qed.
Print Assumptions C87_map.

Theorem C87_map_into (E : elt) (d s : nat) (m0 : mem E) (n : nat) (f : ev E -> ev E) (chunks : list (list nat)) :
  s <> d -> bsz (m0 d) = n -> bsz (m0 s) = n -> Permutation (concat chunks) (seq 0 n) ->
  runs_to (threads (map_into_prog d s f) chunks) m0 (put m0 d (MkBuf n (fun i => if Nat.ltb i n then f (bget (m0 s) i) else bget (m0 d) i))).
Proof. exact (par_map_into d s m0 n f chunks). Qed.
Print Assumptions C87_map_into.

(** The gradients: two, respectively three, parallel loops one after the other. *)
Theorem C87_delta_eta (ord : nat -> orders) (ord1 : nat -> nat -> list nat) (junk : nat -> nat -> ev Celt) (kappa : R) (t : nat) (hij : view Celt) (ek : rvec) (wk : R) (d : nat) (d' : view Celt) (sH : nat) (m0 : mem Celt) ch1 ch2 :
  sH <> d -> m0 d = vbuf (empty_like hij (junk t)) -> m0 sH = vbuf hij -> fair (ord t) -> Permutation (ord1 t (fst ek)) (seq 0 (fst ek)) ->
  StepMem.delta_eta ord ord1 junk kappa t hij ek wk = KOk d' ->
  Permutation (concat ch1) (pairs (vrows hij) (vcols hij)) -> Permutation (concat ch2) (seq 0 (fst ek)) ->
  exists b1,
    runs_to (threads (scale_prog d sH (empty_like hij (junk t)) hij (kappa / wk : er Celt)%R) ch1) m0 (put m0 d b1) /\
    runs_to (threads (delta_eta_prog d (empty_like hij (junk t)) kappa ek) ch2) (put m0 d b1) (put m0 d (vbuf d')).
Proof. exact (par_delta_eta ord ord1 junk kappa t hij ek wk d d' sH m0 ch1 ch2). Qed.
Print Assumptions C87_delta_eta.

Theorem C87_g_eta (s : smearing_type) (T mo : R) (ord : nat -> orders) (ord1 : nat -> nat -> list nat) (t : nat) (hij : view Celt) (mu wk : R) (ek fn : rvec) (dmu dF : R) (d sH : nat) (m0 : mem Celt) (g' : view Celt) ch1 ch2 ch3 :
  sH <> d -> m0 d = vbuf (zeros_like hij) -> m0 sH = vbuf hij -> fair (ord t) -> (forall u, Permutation (ord1 u (vrows hij)) (seq 0 (vrows hij))) ->
  StepMem.g_eta ord ord1 s T mo t hij mu wk ek fn dmu dF = KOk g' ->
  Permutation (concat ch1) (seq 0 (vrows hij)) -> Permutation (concat ch2) (seq 0 (vrows hij)) -> Permutation (concat ch3) (pairs (vrows hij) (vrows hij)) ->
  exists b1 b2,
    runs_to (threads (g_eta_prog1 s T mo d sH (zeros_like hij) hij mu wk ek) ch1) m0 (put m0 d b1) /\
    (if Rltb (Rabs dmu) (1 / 10 ^ 12)%R then b2 = b1
     else runs_to (threads (g_eta_prog2 s T mo d (zeros_like hij) mu wk ek dmu dF) ch2) (put m0 d b1) (put m0 d b2)) /\
    runs_to (threads (g_eta_prog3 d sH (zeros_like hij) hij ek fn) ch3) (put m0 d b2) (put m0 d (vbuf g')).
Proof. exact (par_g_eta s T mo ord ord1 t hij mu wk ek fn dmu dF d sH m0 g' ch1 ch2 ch3). Qed.
Print Assumptions C87_g_eta.

(** A loop that is undefined one iteration after the other is undefined in parallel. *)
Theorem C87_undefined (E : elt) (I : Type) (q : I -> prog E) (order : list I) (m0 : mem E) :
  execs (map q order) m0 = None -> exists n c, steps n (map q order, m0) c /\ faulty c.
Proof. exact (fun H => execs_bad E (map q order) m0 [] (fun _ F => match F with end) H). Qed.
Print Assumptions C87_undefined.

(** The conditions on the destination are needed: with two columns in the same memory, and for a transposition in place, there are races. *)
Theorem C87_overlapping_columns_refuted :
  exists dst' n c,
    allocated exO /\ allocated exS /\ scale (pairs 1 2) exO exS (2%R : er Celt) = KOk dst' /\
    steps n (threads (scale_prog 0 1 exO exS (2%R : er Celt)) [[(0, 0)]; [(0, 1)]], exmem exO exS) c /\ race (fst c).
Proof. exact (overlapping_columns_race). Qed.
Print Assumptions C87_overlapping_columns_refuted.

Theorem C87_transposed_in_place_refuted :
  exists n c, injective_view 2 2 exX /\ allocated exX /\ allocated exXt /\ vbuf exXt = vbuf exX /\
    steps n (threads (deep_copy_prog 0 0 exX exXt) [[(0, 0)]; [(0, 1)]; [(1, 0)]; [(1, 1)]], exmem exX exX) c /\ race (fst c).
Proof. exact (transposed_in_place_race). Qed.
Print Assumptions C87_transposed_in_place_refuted.

(** A matrix of four elements scaled by three busy threads and an idle one. *)
Example C87_example : exists B', scale (pairs 2 2) exB exA (2%R : er Celt) = KOk B' /\
  (vat B' 1 1 : C) = Cmult (RtoC 2) (RtoC 3) /\
  runs_to (threads (scale_prog 0 1 exB exA (2%R : er Celt)) exchunks) (exmem exB exA) (put (exmem exB exA) 0 (vbuf B')).
Proof. exact example_scale. Qed.

(** One thread per column, as in geam. *)
Example C87_example_add : exists C', add (pairs 2 2) exB exA (RtoC 2 : ev Celt) (RtoC 3 : ev Celt) = KOk C' /\
  runs_to (threads (geam_prog 0 1 (RtoC 2 : ev Celt) (RtoC 3 : ev Celt) 2 2) [[(0, 0); (1, 0)]; [(0, 1); (1, 1)]]) (exmem exB exA) (put (exmem exB exA) 0 (vbuf C')).
Proof. exact example_add. Qed.

(** The other matrix kernels, any factors. *)
Example C87_example_kernels (xn : nat) (x : nat -> R) (alpha beta : R) (z z' : C) (entries : nat -> R) : 2 <= xn ->
  exists B1 B2 B3 B4 B5 B6,
  (scale_cols (pairs 2 2) exB exA xn x (alpha : er Celt) (beta : er Celt) = KOk B1 /\
   runs_to (threads (scale_cols_prog 0 1 exB exA xn x (alpha : er Celt) (beta : er Celt)) exchunks) (exmem exB exA) (put (exmem exB exA) 0 (vbuf B1))) /\
  (scale_beta (pairs 2 2) exB exA (alpha : er Celt) (beta : er Celt) = KOk B2 /\
   runs_to (threads (scale_beta_prog 0 1 exB exA (alpha : er Celt) (beta : er Celt)) exchunks) (exmem exB exA) (put (exmem exB exA) 0 (vbuf B2))) /\
  (add_ (pairs 2 2) exB exA (z : ev Celt) (z' : ev Celt) = KOk B3 /\
   runs_to (threads (add__prog 0 1 exB exA (z : ev Celt) (z' : ev Celt)) exchunks) (exmem exB exA) (put (exmem exB exA) 0 (vbuf B3))) /\
  (deep_copy Celt (pairs 2 2) exB exA = KOk B4 /\
   runs_to (threads (deep_copy_prog 0 1 exB exA) exchunks) (exmem exB exA) (put (exmem exB exA) 0 (vbuf B4))) /\
  (apply_diag Celt (pairs 2 2) exB exA xn (entries : nat -> er Celt) = KOk B5 /\
   runs_to (threads (apply_diag_prog 0 1 exB exA xn (entries : nat -> er Celt)) exchunks) (exmem exB exA) (put (exmem exB exA) 0 (vbuf B5))) /\
  (precond_in_place Celt (pairs 2 2) exA xn (entries : nat -> er Celt) = KOk B6 /\
   runs_to (threads (apply_diag_prog 0 0 exA exA xn (entries : nat -> er Celt)) exchunks) (exmem exA exA) (put (exmem exA exA) 0 (vbuf B6))).
Proof. exact (example_with_beta xn x alpha beta z z' entries). Qed.

(** Diagonal, row sums and vectors of two elements. *)
Example C87_example_vectors : exists l v,
  (diag exA = KOk l /\ length l = 2 /\ runs_to (threads (diag_prog 0 1 exA) ex4) vmem (put vmem 0 (MkBuf 2 (fun i => if Nat.ltb i 2 then nth i l (RtoC 0 : ev Celt) else bget (vmem 0) i)))) /\
  ((forall i, i < 2 -> row_sum exA exA i 2 = KOk (v i)) /\
   runs_to (threads (row_prog 0 1 1 exA exA) ex4) vmem (put vmem 0 (MkBuf 2 (fun i => if Nat.ltb i 2 then v i else (RtoC 0 : ev Celt))))) /\
  runs_to (threads (map_prog 0 (fun z : ev Celt => Cmult (RtoC 2) z : ev Celt)) ex4) vmem
    (put vmem 0 (MkBuf 2 (fun i => if Nat.ltb i 2 then (Cmult (RtoC 2) (bget (vmem 0) i) : ev Celt) else bget (vmem 0) i))).
Proof. exact example_vectors. Qed.

(** The gradients of two bands, any parameters. *)
Example C87_example_gradients s T mo mu wk dmu dF kappa : exists g dd b1 b2 b3,
  g_eta exords exord1 s T mo 0 exA mu wk exek exek dmu dF = KOk g /\
  delta_eta exords exord1 (fun _ _ => RtoC 7 : ev Celt) kappa 0 exA exek wk = KOk dd /\
  runs_to (threads (g_eta_prog1 s T mo 0 1 (zeros_like exA) exA mu wk exek) ex4) (exmem (zeros_like exA) exA) (put (exmem (zeros_like exA) exA) 0 b1) /\
  runs_to (threads (g_eta_prog3 0 1 (zeros_like exA) exA exek exek) exchunks) (put (exmem (zeros_like exA) exA) 0 b2) (put (exmem (zeros_like exA) exA) 0 (vbuf g)) /\
  runs_to (threads (delta_eta_prog 0 (empty_like exA (fun _ => RtoC 7 : ev Celt)) kappa exek) ex4)
    (put (exmem (empty_like exA (fun _ => RtoC 7 : ev Celt)) exA) 0 b3) (put (exmem (empty_like exA (fun _ => RtoC 7 : ev Celt)) exA) 0 (vbuf dd)).
Proof. exact (example_g_eta s T mo mu wk dmu dF kappa). Qed.
