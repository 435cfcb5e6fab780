(** The log file nlcg.out and the screen: src/utils/logger.hpp (class Logger), the log statements of nlcg_us, src/nlcglib.cpp 79-86, 243-291,
    330-336, 382-437.

    One process, one thread (Logger.v has the concurrent calls).  A std::ofstream keeps text in memory and hands it to the file at its
    own position: when flushed, when destroyed, and in addition whenever it likes (operation [OSpill]).  Opening an std::ofstream empties
    the file; a write behind the end of a file fills the gap with NUL (POSIX).  Simplified: files are never deleted or written by others,
    a missing file is an empty one; std::cout has width 0; numbers are turned into text by a parameter [show]. *)
From Coq Require Import Ascii String DecimalString Arith Lia Bool List.
Import ListNotations.
Local Open Scope list_scope.

Definition text := list ascii.
Definition txt (s : string) : text := list_ascii_of_string s.
Definition nul : ascii := zero.
(** line break and tabulator *)
Definition nl : text := [ascii_of_nat 10].
Definition tab : text := [ascii_of_nat 9].

(** ** Streams of the C++ library *)
Inductive notat := General | Fixed | Scientific.
(** the part of std::ios_base that matters here: width, std::left, notation, precision *)
Record fmt := MkFmt { f_width : nat; f_left : bool; f_not : notat; f_prec : nat }.
(** state of a new std::stringstream *)
Definition default_fmt : fmt := MkFmt 0 false General 6.
(** what is inserted with operator<< *)
Inductive item (V : Type) := IStr (s : text) | INum (v : V) | ISetw (n : nat) | ILeft | IFixed | IScientific | IPrec (n : nat).
Arguments IStr {V}. Arguments INum {V}. Arguments ISetw {V}. Arguments ILeft {V}. Arguments IFixed {V}. Arguments IScientific {V}. Arguments IPrec {V}.

(** an open std::ofstream: file, position, text not handed over yet *)
Record ostr := MkO { o_name : string; o_off : nat; o_pend : text }.
(** write(2) at a position *)
Definition write_at (f : text) (off : nat) (bs : text) : text :=
  match bs with [] => f | _ => firstn off (f ++ repeat nul (off - length f)) ++ bs ++ skipn (off + length bs) f end.
Definition disk := string -> text.
Definition on_disk (d : disk) (n : string) (t : text) : disk := fun m => if String.eqb m n then t else d m.

Section LogFile.
  Context (V : Type) (show : fmt -> V -> text).
  Notation item := (item V).

  (** padding to the width, which is then reset *)
  Definition pad (f : fmt) (s : text) : text :=
    let sp := repeat (ascii_of_nat 32) (f_width f - length s) in if f_left f then s ++ sp else sp ++ s.
  Definition unset (f : fmt) : fmt := MkFmt 0 (f_left f) (f_not f) (f_prec f).
  (** stream << item: state afterwards and characters *)
  Definition ins (f : fmt) (i : item) : fmt * text :=
    match i with
    | IStr s => (unset f, pad f s)
    | INum v => (unset f, pad f (show f v))
    | ISetw n => (MkFmt n (f_left f) (f_not f) (f_prec f), [])
    | ILeft => (MkFmt (f_width f) true (f_not f) (f_prec f), [])
    | IFixed => (MkFmt (f_width f) (f_left f) Fixed (f_prec f), [])
    | IScientific => (MkFmt (f_width f) (f_left f) Scientific (f_prec f), [])
    | IPrec n => (MkFmt (f_width f) (f_left f) (f_not f) n, [])
    end.
  (** several insertions into one stream *)
  Fixpoint plain (f : fmt) (l : list item) : fmt * text :=
    match l with
    | [] => (f, [])
    | i :: r => let (f1, t) := ins f i in let (f2, t') := plain f1 r in (f2, t ++ t')
    end.

  (** ** Logger *)
  (** members: prefixes_, state of sbuf_, detach_stdout_, pid_; logger.hpp 112-117 *)
  Record logger := MkLg { l_pre : list text; l_fmt : fmt; l_detach : bool; l_pid : nat }.
  (** the process: rank in MPI_COMM_WORLD, files, text on the screen, the stream of the logger, the logger *)
  Record proc := MkProc { p_rank : nat; p_disk : disk; p_cout : text; p_strm : option ostr; p_log : logger }.

  (** CSingleton<Logger>::GetInstance at the first call, csingleton.hpp 28-34, and Logger(), logger.hpp 21-23 *)
  Definition new_logger (rank : nat) : logger := MkLg [] default_fmt false rank.
  Definition new_proc (rank : nat) (d : disk) : proc := MkProc rank d [] None (new_logger rank).

  (** handing the first k characters over *)
  Definition spill (k : nat) (d : disk) (o : ostr) : disk * ostr :=
    let bs := firstn k (o_pend o) in
    (on_disk d (o_name o) (write_at (d (o_name o)) (o_off o) bs), MkO (o_name o) (o_off o + length bs) (skipn k (o_pend o))).
  (** flush and destructor of std::ofstream *)
  Definition sync (d : disk) (o : ostr) : disk * ostr := spill (length (o_pend o)) d o.

  (** the message built in sbuf_, logger.hpp 49-54: every prefix, then the argument *)
  Definition message (g : logger) (i : item) : fmt * text :=
    plain (l_fmt g) (flat_map (fun v => [IStr v; IStr (txt "::")]) (l_pre g) ++ [i]).
  (** Logger::operator<<, logger.hpp 44-62 *)
  Definition put (g : logger) (i : item) (p : proc) : logger * proc :=
    let (f, t) := message g i in
    (MkLg (l_pre g) f (l_detach g) (l_pid g),
     MkProc (p_rank p) (p_disk p) (if negb (l_detach g) && Nat.eqb (l_pid g) 0 then p_cout p ++ t else p_cout p)
       (option_map (fun o => MkO (o_name o) (o_off o) (o_pend o ++ t)) (p_strm p)) (p_log p)).
  Fixpoint puts (g : logger) (l : list item) (p : proc) : logger * proc :=
    match l with [] => (g, p) | i :: r => let (g', p') := put g i p in puts g' r p' end.
  (** log statements with << TO_STDOUT, logger.hpp 64-71: a new Logger with the prefixes and the stream of this one, dropped at the end of
      the statement *)
  Definition to_stdout (l : list item) (p : proc) : proc :=
    snd (puts (MkLg (l_pre (p_log p)) default_fmt false (p_rank p)) l p).
  (** log statements without it *)
  Definition log (l : list item) (p : proc) : proc :=
    let (g, p') := puts (p_log p) l p in MkProc (p_rank p') (p_disk p') (p_cout p') (p_strm p') g.
  (** stream_ptr_ = std::make_shared<std::ofstream>(name): the new stream is opened before the old one is destroyed *)
  Definition open (name : string) (p : proc) : proc :=
    let d := on_disk (p_disk p) name [] in
    let d' := match p_strm p with Some o => fst (sync d o) | None => d end in
    MkProc (p_rank p) d' (p_cout p) (Some (MkO name 0 [])) (p_log p).
  Definition with_log (p : proc) (g : logger) : proc := MkProc (p_rank p) (p_disk p) (p_cout p) (p_strm p) g.

  Inductive op :=
  | OLog (l : list item)          (* logger << ... *)
  | OStdout (l : list item)       (* logger << TO_STDOUT << ... *)
  | OFlush
  | OMaster (name : string)       (* attach_file_master *)
  | OFile (prefix suffix : string)(* attach_file *)
  | ODetach | OAttach             (* detach_stdout, attach_stdout *)
  | OPush (s : text) | OPop | OClear
  | OSpill (k : nat).             (* the library hands over k characters *)

  (** None: undefined behaviour *)
  Definition step (o : op) (p : proc) : option proc :=
    let g := p_log p in
    match o with
    | OLog l => Some (log l p)
    | OStdout l => Some (to_stdout l p)
    | OFlush =>                                                                            (* logger.hpp 91-99 *)
      Some (match p_strm p with
            | Some s => let (d, s') := sync (p_disk p) s in MkProc (p_rank p) d (p_cout p) (Some s') g
            | None => p end)
    | OMaster n =>                                                                         (* logger.hpp 34-39 *)
      let p := with_log p (MkLg (l_pre g) (l_fmt g) (l_detach g) (p_rank p)) in
      Some (if Nat.eqb (p_rank p) 0 then open n p else p)
    | OFile a b =>                                                                         (* logger.hpp 27-31 *)
      Some (open (a ++ NilEmpty.string_of_uint (Nat.to_uint (p_rank p)) ++ b) (with_log p (MkLg (l_pre g) (l_fmt g) (l_detach g) (p_rank p))))
    | ODetach => Some (with_log p (MkLg (l_pre g) (l_fmt g) true (l_pid g)))               (* logger.hpp 101 *)
    | OAttach => Some (with_log p (MkLg (l_pre g) (l_fmt g) false (l_pid g)))              (* logger.hpp 103 *)
    | OPush s => Some (with_log p (MkLg (l_pre g ++ [s]) (l_fmt g) (l_detach g) (l_pid g)))(* logger.hpp 73-77 *)
    | OPop =>                                                                              (* logger.hpp 79-83: pop_back *)
      match l_pre g with
      | [] => None
      | _ => Some (with_log p (MkLg (removelast (l_pre g)) (l_fmt g) (l_detach g) (l_pid g)))
      end
    | OClear => Some (with_log p (MkLg [] (l_fmt g) (l_detach g) (l_pid g)))               (* logger.hpp 85-89 *)
    | OSpill k =>
      Some (match p_strm p with
            | Some s => let (d, s') := spill k (p_disk p) s in MkProc (p_rank p) d (p_cout p) (Some s') g
            | None => p end)
    end.
  Fixpoint exec (l : list op) (p : proc) : option proc :=
    match l with [] => Some p | o :: r => match step o p with Some p' => exec r p' | None => None end end.
  (** the end of the process: the stream is destroyed with the static instance *)
  Definition finish (p : proc) : disk := match p_strm p with Some o => fst (sync (p_disk p) o) | None => p_disk p end.

  (** ** The log statements of a run *)
  (** arguments of nlcg_us and the number of electrons, as printed *)
  Record params := MkPar { r_T : V; r_smearing : text; r_maxiter : V; r_tol : V; r_kappa : V; r_tau : V; r_restart : V; r_Ne : V }.
  (** arguments of print_info *)
  Record infos := MkInfos { i_F : V; i_KS : V; i_S : V; i_slope : V; i_eta : V; i_mu : V; i_step : V }.
  Definition s (x : string) : item := IStr (txt x).
  Definition ln : item := IStr nl.

  (** nlcglib.cpp 251-269 *)
  Definition log_params (a : params) : list op :=
    [OLog [IStr (txt "nlcglib parameters" ++ nl);
           ISetw 10; s "T "; s ": "; INum (r_T a); ln; ISetw 10; s "smearing "; s ": "; IStr (r_smearing a); ln;
           ISetw 10; s "maxiter"; s ": "; INum (r_maxiter a); ln; ISetw 10; s "tol"; s ": "; INum (r_tol a); ln;
           ISetw 10; s "kappa"; s ": "; INum (r_kappa a); ln; ISetw 10; s "tau"; s ": "; INum (r_tau a); ln;
           ISetw 10; s "restart"; s ": "; INum (r_restart a); ln];
     OLog [s "num electrons: "; INum (r_Ne a); ln]; OLog [s "tol = "; INum (r_tol a); ln]].
  (** nlcglib.cpp 289-291 *)
  Definition log_table : op :=
    OLog [ISetw 15; ILeft; s "Iteration"; ISetw 15; ILeft; s "Free energy"; IStr tab; ISetw 15; ILeft; s "Residual"; ln].
  (** print_info, nlcglib.cpp 80-86 *)
  Definition log_info (i : infos) : op :=
    OStdout [ISetw 15; ILeft; INum (i_step i); ISetw 15; ILeft; IFixed; IPrec 13; INum (i_F i); IStr tab; ISetw 15; ILeft;
             IScientific; IPrec 13; INum (i_slope i); s " "; IScientific; IPrec 13; INum (i_eta i); ln;
             IStr (tab ++ txt " kT * S       : "); IFixed; IPrec 13; INum (i_S i); ln;
             IStr (tab ++ txt " Fermi energy : "); IFixed; IPrec 13; INum (i_mu i); ln;
             IStr (tab ++ txt " KS energy    : "); IFixed; IPrec 13; INum (i_KS i); ln].
  (** nlcglib.cpp 330-336 *)
  Definition log_success (en F KS : V) : list op :=
    [OStdout [s "kT * S   : "; IPrec 13; INum en; ln; s "F        : "; IPrec 13; INum F; ln; s "KS-energy: "; IPrec 13; INum KS; ln;
              IStr (txt "NLCG SUCCESS" ++ nl)]; OFlush].
  Definition log_took (what : string) (t : V) : op := OLog [IStr (txt what ++ txt " took: "); INum t; IStr (txt " seconds" ++ nl)].
  (** one iteration: print_info, messages of the line search, 382, the new direction (403, or gamma, 417 and 429), 431 *)
  Record iteration := MkIt { t_info : infos; t_search : list op; t_ls : V; t_before : list op; t_what : string; t_dir : V }.
  Definition log_iter (t : iteration) : list op :=
    log_info (t_info t) :: t_search t ++ log_took "line search" (t_ls t) :: t_before t ++ [log_took (t_what t) (t_dir t); OFlush].
  (** how a run ends: 330-340; loop over; 432-435, after the flush of linesearch.hpp 79; 436-439, refused before anything is logged *)
  Inductive ending :=
  | EConverged (i : infos) (en F KS : V) | EExhausted | EDescent (i : infos) (search : list op) | ESlope (i : infos).
  Definition descent_msg : text := txt "[NLCG] Error: No descent direction found, nlcg didn't reach final tolerance" ++ nl.
  Definition slope_msg : text := txt "[NLCG] Error: slope > 0 after CG-restart. Abort." ++ nl.
  Definition log_end (e : ending) : list op :=
    match e with
    | EConverged i en F KS => log_info i :: log_success en F KS
    | EExhausted => []
    | EDescent i search => log_info i :: search ++ [OFlush; OLog [IStr descent_msg]]
    | ESlope i => [log_info i; OLog [IStr slope_msg]]
    end.
  (** [w1], [w2], [w3]: what free_energy.compute, the search for the chemical potential and the first direction log; 245-246 *)
  Definition log_body (a : params) (w1 w2 w3 : list op) (its : list iteration) (e : ending) : list op :=
    w1 ++ log_params a ++ w2 ++ log_table :: w3 ++ flat_map log_iter its ++ log_end e.
  Definition log_run (a : params) (w1 w2 w3 : list op) (its : list iteration) (e : ending) : list op :=
    ODetach :: OMaster "nlcg.out" :: log_body a w1 w2 w3 its e.

  (** ** Specification *)
  (** messages, flushes and whatever the library does *)
  Definition quiet (o : op) : Prop := match o with OLog _ | OStdout _ | OFlush | OSpill _ => True | _ => False end.
  (** the text of messages: those without TO_STDOUT are one stream, each with TO_STDOUT a stream of its own *)
  Fixpoint all_text (f : fmt) (l : list op) : fmt * text :=
    match l with
    | [] => (f, [])
    | OLog m :: r => let (f1, t) := plain f m in let (f2, t') := all_text f1 r in (f2, t ++ t')
    | OStdout m :: r => let (f2, t') := all_text f r in (f2, snd (plain default_fmt m) ++ t')
    | _ :: r => all_text f r
    end.
  Fixpoint screen_text (l : list op) : text :=
    match l with [] => [] | OStdout m :: r => snd (plain default_fmt m) ++ screen_text r | _ :: r => screen_text r end.

  (** ** Proofs *)
  Lemma plain_app l1 : forall l2 f, plain f (l1 ++ l2) =
    (fst (plain (fst (plain f l1)) l2), snd (plain f l1) ++ snd (plain (fst (plain f l1)) l2)).
  Proof.
    induction l1 as [|i l1 IH]; intros l2 f; cbn [plain app fst snd]; [destruct (plain f l2); reflexivity|].
    destruct (ins f i) as [f1 t]. rewrite (IH l2 f1). destruct (plain f1 l1) as [f2 t']. cbn [fst snd].
    destruct (plain f2 l2) as [f3 t'']. cbn. rewrite app_assoc. reflexivity.
  Qed.

  (** a statement of several insertions, no prefixes *)
  Lemma puts_spec l : forall g p, l_pre g = [] ->
    puts g l p = (MkLg [] (fst (plain (l_fmt g) l)) (l_detach g) (l_pid g),
      MkProc (p_rank p) (p_disk p) (if negb (l_detach g) && Nat.eqb (l_pid g) 0 then p_cout p ++ snd (plain (l_fmt g) l) else p_cout p)
        (option_map (fun o => MkO (o_name o) (o_off o) (o_pend o ++ snd (plain (l_fmt g) l))) (p_strm p)) (p_log p)).
  Proof.
    induction l as [|i l IH]; intros [pre f dt pid] [rk d c st lg] e; cbn [l_pre] in e; subst pre; cbn [puts plain l_fmt l_detach l_pid fst snd p_rank p_disk p_cout p_strm p_log].
    - rewrite app_nil_r. f_equal. f_equal; [destruct (_ && _); reflexivity|]. destruct st as [[n o pe]|]; cbn; [rewrite app_nil_r|]; reflexivity.
    - unfold put, message. cbn [l_fmt l_pre flat_map app plain]. destruct (ins f i) as [f1 t]. rewrite app_nil_r. rewrite IH by reflexivity.
      cbn [l_fmt l_detach l_pid fst snd p_rank p_disk p_cout p_strm p_log]. destruct (plain f1 l) as [f2 t']. cbn [fst snd]. f_equal. f_equal.
      + destruct (negb dt && (pid =? 0)%nat); [rewrite app_assoc|]; reflexivity.
      + destruct st as [[n o pe]|]; cbn; [rewrite app_assoc|]; reflexivity.
  Qed.

  (** what is on the disk of a stream that has written [w] over [base] *)
  Definition over (base w : text) : text := w ++ skipn (length w) base.
  Lemma over_nil base : over base [] = base. Proof. reflexivity. Qed.
  Lemma write_over base w bs : write_at (over base w) (length w) bs = over base (w ++ bs).
  Proof.
    unfold write_at. destruct bs as [|b bs]; [rewrite app_nil_r; reflexivity|]. set (x := b :: bs). unfold over.
    replace (length w - length (w ++ skipn (length w) base)) with 0 by (rewrite app_length; lia). cbn [repeat]. rewrite app_nil_r.
    rewrite firstn_app, firstn_all, Nat.sub_diag. cbn [firstn]. rewrite app_nil_r, <- app_assoc. f_equal. f_equal.
    rewrite skipn_app, (skipn_all2 w) by lia. cbn [app]. rewrite app_length.
    replace (length w + length x - length w) with (length x) by lia. rewrite <- (Nat.add_comm (length x)).
    clear. revert base. generalize (length w) as n. intros n. induction n as [|n IH]; intros base; [cbn [skipn]; rewrite Nat.add_0_r; reflexivity|].
    destruct base as [|c base]; [rewrite !skipn_nil; reflexivity|]. rewrite Nat.add_succ_r. cbn [skipn]. apply IH.
  Qed.

  (** the stream has written [w] over [base] in the file [n] and holds [pe]; the other files are those of [d] *)
  Definition holds (n : string) (base w pe : text) (d : disk) (p : proc) : Prop :=
    p_strm p = Some (MkO n (length w) pe) /\ p_disk p n = over base w /\ forall m, m <> n -> p_disk p m = d m.
  Lemma spill_holds n base w pe d p k : holds n base w pe d p ->
    exists p', step (OSpill k) p = Some p' /\ holds n base (w ++ firstn k pe) (skipn k pe) d p' /\ p_cout p' = p_cout p /\ p_rank p' = p_rank p /\ p_log p' = p_log p.
  Proof.
    intros (e1 & e2 & e3). eexists. cbn [step]. rewrite e1. unfold spill. cbn [o_name o_off o_pend]. split; [reflexivity|].
    cbn [p_cout p_rank p_log]. split; [|auto]. split; [cbn [p_strm]; rewrite app_length; reflexivity|]. cbn [p_disk]. unfold on_disk. split.
    - rewrite String.eqb_refl, e2. apply write_over.
    - intros m Hm. destruct (String.eqb_spec m n) as [->|_]; [contradiction|apply e3, Hm].
  Qed.
  Lemma flush_is_spill p : step OFlush p = match p_strm p with Some o => step (OSpill (length (o_pend o))) p | None => Some p end.
  Proof. cbn [step]. destruct (p_strm p); reflexivity. Qed.

  Ltac alls := repeat (split; [first [assumption|reflexivity]|]); first [assumption|reflexivity].
  (** messages on rank 0, prefixes empty, screen detached *)
  Lemma exec_holds ops : List.Forall quiet ops -> forall n base w pe d p, holds n base w pe d p -> l_pre (p_log p) = [] -> l_detach (p_log p) = true -> p_rank p = 0 ->
    exists p' w' pe', exec ops p = Some p' /\ holds n base w' pe' d p' /\ w' ++ pe' = w ++ pe ++ snd (all_text (l_fmt (p_log p)) ops) /\
      (exists x, w' = w ++ x) /\
      p_cout p' = p_cout p ++ screen_text ops /\ l_fmt (p_log p') = fst (all_text (l_fmt (p_log p)) ops) /\
      l_pre (p_log p') = [] /\ l_detach (p_log p') = true /\ p_rank p' = 0.
  Proof.
    induction 1 as [|o ops Q Qs IH]; intros n base w pe d p H e1 e2 e3.
    - exists p, w, pe. cbn. rewrite !app_nil_r. split; [reflexivity|]. split; [exact H|]. split; [reflexivity|]. split; [exists []; rewrite app_nil_r; reflexivity|]. alls.
    - assert (SP : forall k, exists p', step (OSpill k) p = Some p' /\ holds n base (w ++ firstn k pe) (skipn k pe) d p' /\ p_cout p' = p_cout p /\ p_rank p' = p_rank p /\ p_log p' = p_log p)
        by (intros k; apply spill_holds, H).
      assert (GO : forall k o', (o' = OFlush \/ o' = OSpill k) -> step o' p = step (OSpill k) p -> all_text (l_fmt (p_log p)) (o' :: ops) = all_text (l_fmt (p_log p)) ops ->
        screen_text (o' :: ops) = screen_text ops ->
        exists p' w' pe', exec (o' :: ops) p = Some p' /\ holds n base w' pe' d p' /\ w' ++ pe' = w ++ pe ++ snd (all_text (l_fmt (p_log p)) (o' :: ops)) /\
        (exists x, w' = w ++ x) /\
        p_cout p' = p_cout p ++ screen_text (o' :: ops) /\ l_fmt (p_log p') = fst (all_text (l_fmt (p_log p)) (o' :: ops)) /\
        l_pre (p_log p') = [] /\ l_detach (p_log p') = true /\ p_rank p' = 0).
      { intros k o' _ E1 E2 E3. destruct (SP k) as (p1 & S1 & H1 & c1 & r1 & g1). cbn [exec]. rewrite E1, S1, E2, E3.
        destruct (IH n base _ _ d p1 H1) as (p' & w' & pe' & X1 & X2 & X3 & (y & X9) & X4 & X5 & X6 & X7 & X8); [rewrite g1; assumption|rewrite g1; assumption|rewrite r1; assumption|].
        exists p', w', pe'. rewrite g1 in X3, X5. rewrite c1 in X4. split; [exact X1|]. split; [exact X2|]. split; [|].
        - rewrite X3. rewrite (app_assoc (w ++ firstn k pe)), <- (app_assoc w), firstn_skipn, <- app_assoc. reflexivity.
        - split; [exists (firstn k pe ++ y); rewrite X9, app_assoc; reflexivity|]. alls. }
      destruct o; cbn [quiet] in Q; try contradiction; clear Q.
      + (* OLog *) cbn [exec step]. unfold log. rewrite puts_spec by exact e1. rewrite e2. cbn [negb andb].
        match goal with |- context [exec ops ?q] => set (p1 := q) end.
        assert (H1 : holds n base w (pe ++ snd (plain (l_fmt (p_log p)) l)) d p1).
        { destruct H as (h1 & h2 & h3). split; [|split; assumption]. unfold p1. cbn [p_strm]. rewrite h1. reflexivity. }
        destruct (IH n base _ _ d p1 H1) as (p' & w' & pe' & X1 & X2 & X3 & X9 & X4 & X5 & X6 & X7 & X8); [reflexivity|reflexivity|exact e3|].
        exists p', w', pe'. unfold p1 in X3, X4, X5. cbn [p_log l_fmt p_cout] in X3, X4, X5. cbn [all_text screen_text].
        destruct (plain (l_fmt (p_log p)) l) as [f1 t1] eqn:E1. cbn [fst snd] in *. destruct (all_text f1 ops) as [f2 t2] eqn:E2. cbn [fst snd] in *.
        split; [exact X1|]. split; [exact X2|]. split; [rewrite X3, <- app_assoc; reflexivity|]. alls.
      + (* OStdout *) cbn [exec step]. unfold to_stdout. rewrite puts_spec by exact e1. cbn [snd l_fmt l_detach l_pid negb andb]. rewrite e3. cbn [Nat.eqb].
        match goal with |- context [exec ops ?q] => set (p1 := q) end.
        assert (H1 : holds n base w (pe ++ snd (plain default_fmt l)) d p1).
        { destruct H as (h1 & h2 & h3). split; [|split; assumption]. unfold p1. cbn [p_strm]. rewrite h1. reflexivity. }
        destruct (IH n base _ _ d p1 H1) as (p' & w' & pe' & X1 & X2 & X3 & X9 & X4 & X5 & X6 & X7 & X8); [exact e1|exact e2|reflexivity|].
        exists p', w', pe'. unfold p1 in X3, X4, X5. cbn [p_log l_fmt p_cout] in X3, X4, X5. cbn [all_text screen_text].
        destruct (all_text (l_fmt (p_log p)) ops) as [f2 t2] eqn:E2. cbn [fst snd] in *.
        split; [exact X1|]. split; [exact X2|]. split; [rewrite X3, <- app_assoc; reflexivity|]. split; [exact X9|]. split; [rewrite X4, <- app_assoc; reflexivity|]. alls.
      + (* OFlush *) destruct H as (h1 & h2 & h3). apply (GO (length pe)); [left; reflexivity| |reflexivity|reflexivity]. rewrite flush_is_spill, h1. reflexivity.
      + (* OSpill *) apply (GO k); [right; reflexivity|reflexivity|reflexivity|reflexivity].
  Qed.
  Lemma finish_holds n base w pe d p : holds n base w pe d p -> finish p n = over base (w ++ pe) /\ forall m, m <> n -> finish p m = d m.
  Proof.
    intros (h1 & h2 & h3). unfold finish. rewrite h1. unfold sync, spill. cbn [o_pend o_name o_off fst]. rewrite firstn_all. unfold on_disk. split.
    - rewrite String.eqb_refl, h2. apply write_over.
    - intros m Hm. destruct (String.eqb_spec m n) as [->|_]; [contradiction|apply h3, Hm].
  Qed.
  Lemma exec_app l1 : forall l2 p, exec (l1 ++ l2) p = match exec l1 p with Some q => exec l2 q | None => None end.
  Proof. induction l1 as [|o l1 IH]; intros l2 p; [reflexivity|]. cbn [exec app]. destruct (step o p); [apply IH|reflexivity]. Qed.
  Lemma all_text_app l1 : forall l2 f, all_text f (l1 ++ l2) =
    (fst (all_text (fst (all_text f l1)) l2), snd (all_text f l1) ++ snd (all_text (fst (all_text f l1)) l2)).
  Proof.
    induction l1 as [|o l1 IH]; intros l2 f; cbn [all_text app fst snd]; [destruct (all_text f l2); reflexivity|].
    destruct o; try apply IH.
    - destruct (plain f l) as [f1 t]. rewrite (IH l2 f1). destruct (all_text f1 l1) as [f2 t']. cbn [fst snd]. rewrite app_assoc. reflexivity.
    - rewrite (IH l2 f). destruct (all_text f l1) as [f2 t']. cbn [fst snd]. rewrite app_assoc. reflexivity.
  Qed.

  (** parts of a run a caller or a line search adds: messages only *)
  Definition quiet_run (w1 w2 w3 : list op) (its : list iteration) (e : ending) : Prop :=
    List.Forall quiet w1 /\ List.Forall quiet w2 /\ List.Forall quiet w3 /\ (forall t, In t its -> List.Forall quiet (t_search t) /\ List.Forall quiet (t_before t)) /\
    match e with EDescent _ se => List.Forall quiet se | _ => True end.
  Lemma log_iter_quiet t : List.Forall quiet (t_search t) -> List.Forall quiet (t_before t) -> List.Forall quiet (log_iter t).
  Proof.
    intros H1 H2. unfold log_iter. constructor; [exact Logic.I|]. apply Forall_app. split; [exact H1|]. constructor; [exact Logic.I|].
    apply Forall_app. split; [exact H2|]. repeat constructor.
  Qed.
  Lemma log_body_quiet a w1 w2 w3 its e : quiet_run w1 w2 w3 its e -> List.Forall quiet (log_body a w1 w2 w3 its e).
  Proof.
    intros (q1 & q2 & q3 & q4 & q5). unfold log_body. apply Forall_app. split; [exact q1|]. apply Forall_app. split; [repeat constructor|].
    apply Forall_app. split; [exact q2|]. constructor; [exact Logic.I|]. apply Forall_app. split; [exact q3|]. apply Forall_app. split.
    - clear -q4. induction its as [|t its IH]; [constructor|]. cbn [flat_map]. apply Forall_app. split; [apply log_iter_quiet; apply q4; left; reflexivity|].
      apply IH. intros t' Ht'. apply q4. right. exact Ht'.
    - destruct e; cbn [log_end]; repeat (constructor; try exact Logic.I). apply Forall_app. split; [exact q5|]. repeat constructor.
  Qed.

  (** what the stream of an earlier run leaves in the file when it is destroyed *)
  Definition stale (o : option ostr) : text :=
    match o with
    | Some o => if String.eqb (o_name o) "nlcg.out" then match o_pend o with [] => [] | t => repeat nul (o_off o) ++ t end else []
    | None => []
    end.
  (** the file of the stream of an earlier run, if it is another one *)
  Definition others (p : proc) : disk := fun m => match p_strm p with Some o => if String.eqb m (o_name o) then fst (sync (p_disk p) o) m else p_disk p m | None => p_disk p m end.
  Lemma attach_holds p : p_rank p = 0 ->
    exists p', exec [ODetach; OMaster "nlcg.out"] p = Some p' /\ holds "nlcg.out" (stale (p_strm p)) [] [] (others p) p' /\
      p_log p' = MkLg (l_pre (p_log p)) (l_fmt (p_log p)) true 0 /\ p_cout p' = p_cout p /\ p_rank p' = 0.
  Proof.
    intros e. unfold exec, step, with_log. cbn [p_rank p_log l_pre l_fmt l_detach]. rewrite e. cbn [Nat.eqb]. eexists. split; [reflexivity|].
    unfold open. cbn [p_rank p_disk p_cout p_strm p_log]. split; [|auto]. split; [reflexivity|]. cbn [p_disk]. unfold over. cbn [length skipn app].
    destruct (p_strm p) as [[n off pe]|] eqn:Es.
    - unfold sync, spill. cbn [o_pend o_name o_off fst stale]. rewrite firstn_all. unfold on_disk. split.
      + rewrite (String.eqb_sym n). destruct (String.eqb_spec "nlcg.out" n) as [<-|Hn].
        * try rewrite String.eqb_refl. unfold write_at. destruct pe as [|c pe]; [reflexivity|]. cbn [length app]. rewrite skipn_nil, app_nil_r, Nat.sub_0_r.
          rewrite firstn_all2 by (rewrite repeat_length; lia). reflexivity.
        * try rewrite String.eqb_refl. reflexivity.
      + intros m Hm. unfold others. rewrite Es. unfold sync, spill. cbn [o_pend o_name o_off fst]. rewrite firstn_all. unfold on_disk.
        destruct (String.eqb_spec m n) as [->|Hn].
        * try rewrite String.eqb_refl. destruct (String.eqb_spec n "nlcg.out") as [->|_]; [contradiction|reflexivity].
        * destruct (String.eqb_spec m "nlcg.out") as [->|_]; [contradiction|reflexivity].
    - unfold on_disk. split; [reflexivity|]. intros m Hm. unfold others. rewrite Es. destruct (String.eqb_spec m "nlcg.out") as [->|_]; [contradiction|reflexivity].
  Qed.

  (** ** Results *)
  Theorem run_file a w1 w2 w3 its e p : quiet_run w1 w2 w3 its e -> p_rank p = 0 -> l_pre (p_log p) = [] ->
    let t := snd (all_text (l_fmt (p_log p)) (log_body a w1 w2 w3 its e)) in
    exists p', exec (log_run a w1 w2 w3 its e) p = Some p' /\ finish p' "nlcg.out"%string = t ++ skipn (length t) (stale (p_strm p)) /\
      (forall m, m <> "nlcg.out"%string -> finish p' m = others p m) /\
      p_cout p' = p_cout p ++ screen_text (log_body a w1 w2 w3 its e) /\ p_rank p' = 0 /\ l_pre (p_log p') = [] /\
      l_fmt (p_log p') = fst (all_text (l_fmt (p_log p)) (log_body a w1 w2 w3 its e)).
  Proof.
    intros Q e1 e2 t. destruct (attach_holds p e1) as (p1 & X1 & X2 & X3 & X4 & X5).
    destruct (exec_holds _ (log_body_quiet a w1 w2 w3 its e Q) _ _ _ _ _ _ X2) as (p' & w' & pe' & Y1 & Y2 & Y3 & Y9 & Y4 & Y5 & Y6 & Y7 & Y8);
      [rewrite X3; exact e2|rewrite X3; reflexivity|exact X5|].
    exists p'. change (log_run a w1 w2 w3 its e) with ([ODetach; OMaster "nlcg.out"] ++ log_body a w1 w2 w3 its e). rewrite exec_app, X1. split; [exact Y1|].
    destruct (finish_holds _ _ _ _ _ _ Y2) as (F1 & F2). rewrite X3 in Y3, Y5. cbn [l_fmt app] in Y3, Y5. rewrite Y3 in F1.
    split; [exact F1|]. split; [exact F2|]. rewrite X4 in Y4. auto.
  Qed.
  (** the stream after a run, whatever the library handed over in between *)
  Theorem run_stream a w1 w2 w3 its e p p' : quiet_run w1 w2 w3 its e -> p_rank p = 0 -> l_pre (p_log p) = [] ->
    exec (log_run a w1 w2 w3 its e) p = Some p' ->
    exists w pe, p_strm p' = Some (MkO "nlcg.out" (length w) pe) /\ w ++ pe = snd (all_text (l_fmt (p_log p)) (log_body a w1 w2 w3 its e)).
  Proof.
    intros Q e1 e2 E. destruct (attach_holds p e1) as (p1 & X1 & X2 & X3 & X4 & X5).
    destruct (exec_holds _ (log_body_quiet a w1 w2 w3 its e Q) _ _ _ _ _ _ X2) as (p2 & w' & pe' & Y1 & Y2 & Y3 & _);
      [rewrite X3; exact e2|rewrite X3; reflexivity|exact X5|].
    change (log_run a w1 w2 w3 its e) with ([ODetach; OMaster "nlcg.out"] ++ log_body a w1 w2 w3 its e) in E. rewrite exec_app, X1, Y1 in E. injection E as <-.
    exists w', pe'. split; [apply Y2|]. rewrite X3 in Y3. exact Y3.
  Qed.
  (** nothing is held back after a flush *)
  Lemma exec_flush ops p p' : exec (ops ++ [OFlush]) p = Some p' -> match p_strm p' with Some o => o_pend o = [] | None => True end.
  Proof.
    rewrite exec_app. destruct (exec ops p) as [q|]; [|discriminate]. cbn [exec step]. intros E. injection E as <-.
    destruct (p_strm q) as [o|] eqn:e; [|rewrite e; exact Logic.I]. unfold sync, spill. cbn [p_strm o_pend]. apply skipn_all.
  Qed.
  Definition flushed_end (its : list iteration) (e : ending) : Prop :=
    match e with EConverged _ _ _ _ => True | EExhausted => its <> [] | _ => False end.
  Lemma ends_in_flush a w1 w2 w3 its e : flushed_end its e -> exists ops, log_run a w1 w2 w3 its e = ops ++ [OFlush].
  Proof.
    intros H. unfold log_run, log_body. destruct e as [i en F KS| |i se|i]; cbn [flushed_end] in H; try contradiction.
    - cbn [log_end]. unfold log_success.
      exists (ODetach :: OMaster "nlcg.out" :: w1 ++ log_params a ++ w2 ++ log_table :: w3 ++ flat_map log_iter its ++
        [log_info i; OStdout [s "kT * S   : "; IPrec 13; INum en; ln; s "F        : "; IPrec 13; INum F; ln; s "KS-energy: "; IPrec 13; INum KS; ln;
              IStr (txt "NLCG SUCCESS" ++ nl)]]).
      repeat (rewrite <- ?app_assoc; cbn [app]). reflexivity.
    - cbn [log_end]. rewrite app_nil_r. destruct (exists_last H) as (l & t & ->). rewrite flat_map_app. cbn [flat_map]. rewrite app_nil_r. unfold log_iter at 2.
      exists (ODetach :: OMaster "nlcg.out" :: w1 ++ log_params a ++ w2 ++ log_table :: w3 ++ flat_map log_iter l ++
        log_info (t_info t) :: t_search t ++ log_took "line search" (t_ls t) :: t_before t ++ [log_took (t_what t) (t_dir t)]).
      repeat (rewrite <- ?app_assoc; cbn [app]). reflexivity.
  Qed.
  Theorem flushed_run a w1 w2 w3 its e p p' : quiet_run w1 w2 w3 its e -> flushed_end its e -> p_rank p = 0 -> l_pre (p_log p) = [] -> stale (p_strm p) = [] ->
    exec (log_run a w1 w2 w3 its e) p = Some p' ->
    p_disk p' "nlcg.out"%string = snd (all_text (l_fmt (p_log p)) (log_body a w1 w2 w3 its e)) /\ stale (p_strm p') = [].
  Proof.
    intros Q Fl e1 e2 St E. destruct (run_stream _ _ _ _ _ _ _ _ Q e1 e2 E) as (w & pe & S1 & S2).
    destruct (run_file a w1 w2 w3 its e p Q e1 e2) as (p2 & E2 & F1 & _). rewrite E in E2. injection E2 as <-.
    destruct (ends_in_flush a w1 w2 w3 its e Fl) as (ops & Eo). rewrite Eo in E. apply exec_flush in E. rewrite S1 in E. cbn [o_pend] in E. subst pe.
    rewrite St, skipn_nil, app_nil_r in F1. split; [|rewrite S1; reflexivity].
    rewrite <- F1. unfold finish. rewrite S1. unfold sync, spill. cbn [o_pend o_name o_off fst length firstn]. unfold on_disk. rewrite String.eqb_refl. reflexivity.
  Qed.
  (** the message of a failed run stays in memory if the library hands nothing over on its own *)
  Theorem descent_held a w1 w2 w3 its i se p p' : exec (log_run a w1 w2 w3 its (EDescent i se)) p = Some p' -> p_rank p = 0 -> l_pre (p_log p) = [] ->
    quiet_run w1 w2 w3 its (EDescent i se) -> exists off m, p_strm p' = Some (MkO "nlcg.out" off m) /\
    exists f, m = pad f descent_msg.
  Proof.
    intros E e1 e2 Q. change (log_run a w1 w2 w3 its (EDescent i se)) with ([ODetach; OMaster "nlcg.out"] ++ log_body a w1 w2 w3 its (EDescent i se)) in E.
    assert (Eq : log_body a w1 w2 w3 its (EDescent i se) = (w1 ++ log_params a ++ w2 ++ log_table :: w3 ++ flat_map log_iter its ++ log_info i :: se) ++ [OFlush] ++ [OLog [IStr descent_msg]]).
    { unfold log_body. cbn [log_end]. repeat (rewrite <- ?app_assoc; cbn [app]). reflexivity. }
    pose proof (log_body_quiet a w1 w2 w3 its _ Q) as Qb. rewrite Eq in E, Qb.
    set (body := w1 ++ log_params a ++ w2 ++ log_table :: w3 ++ flat_map log_iter its ++ log_info i :: se) in *. apply Forall_app in Qb. destruct Qb as (Qb & _).
    destruct (attach_holds p e1) as (p1 & X1 & X2 & X3 & X4 & X5).
    rewrite exec_app, X1, app_assoc, exec_app in E.
    destruct (exec_holds _ Qb _ _ _ _ _ _ X2) as (p2 & w' & pe' & Y1 & Y2 & Y3 & Y9 & Y4 & Y5 & Y6 & Y7 & Y8); [rewrite X3; exact e2|rewrite X3; reflexivity|exact X5|].
    rewrite exec_app, Y1 in E. cbn [exec] in E. rewrite flush_is_spill in E. rewrite (proj1 Y2) in E. cbn [o_pend] in E.
    destruct (spill_holds _ _ _ _ _ _ (length pe') Y2) as (p3 & Z1 & Z2 & Z3 & Z4 & Z5). rewrite Z1 in E. rewrite skipn_all in Z2.
    cbn [step] in E. unfold log in E. rewrite puts_spec in E by (rewrite Z5; exact Y6). injection E as <-. cbn [p_strm]. rewrite (proj1 Z2). cbn [option_map o_name o_off o_pend app].
    eexists _, _. split; [reflexivity|]. exists (l_fmt (p_log p3)). cbn [plain ins snd]. rewrite app_nil_r. reflexivity.
  Qed.
  Lemma two_messages l m p q n off : p_strm p = Some (MkO n off []) -> l_pre (p_log p) = [] -> exec [OStdout l; OLog [IStr m]] p = Some q ->
    p_strm q = Some (MkO n off (screen_text [OStdout l] ++ pad (l_fmt (p_log p)) m)).
  Proof.
    intros e1 e2 E. cbn [exec step] in E. unfold to_stdout in E. rewrite puts_spec in E by exact e2. unfold log in E.
    rewrite puts_spec in E by exact e2. injection E as <-. cbn [p_strm snd]. rewrite e1. cbn [option_map o_name o_off o_pend app screen_text p_log plain ins snd].
    rewrite !app_nil_r. reflexivity.
  Qed.
  (** the same if the slope is positive: nothing is flushed after the last iteration *)
  Theorem slope_held a w1 w2 w3 its t i p p' : exec (log_run a w1 w2 w3 (its ++ [t]) (ESlope i)) p = Some p' -> p_rank p = 0 -> l_pre (p_log p) = [] ->
    quiet_run w1 w2 w3 (its ++ [t]) (ESlope i) -> exists off f, p_strm p' = Some (MkO "nlcg.out" off (screen_text [log_info i] ++ pad f slope_msg)).
  Proof.
    intros E e1 e2 Q.
    assert (Eq : exists body, log_body a w1 w2 w3 (its ++ [t]) (ESlope i) = body ++ [OFlush] ++ [log_info i; OLog [IStr slope_msg]]).
    { exists (w1 ++ log_params a ++ w2 ++ log_table :: w3 ++ flat_map log_iter its ++
        log_info (t_info t) :: t_search t ++ log_took "line search" (t_ls t) :: t_before t ++ [log_took (t_what t) (t_dir t)]).
      unfold log_body. rewrite flat_map_app. cbn [flat_map log_end]. rewrite app_nil_r. unfold log_iter at 2. repeat (rewrite <- ?app_assoc; cbn [app]). reflexivity. }
    destruct Eq as (body & Eq). change (log_run a w1 w2 w3 (its ++ [t]) (ESlope i)) with ([ODetach; OMaster "nlcg.out"] ++ log_body a w1 w2 w3 (its ++ [t]) (ESlope i)) in E.
    pose proof (log_body_quiet a w1 w2 w3 _ _ Q) as Qb. rewrite Eq in E, Qb. apply Forall_app in Qb. destruct Qb as (Qb & _).
    destruct (attach_holds p e1) as (p1 & X1 & X2 & X3 & X4 & X5). rewrite exec_app, X1, exec_app in E.
    destruct (exec_holds _ Qb _ _ _ _ _ _ X2) as (p2 & w' & pe' & Y1 & Y2 & Y3 & Y9 & Y4 & Y5 & Y6 & Y7 & Y8); [rewrite X3; exact e2|rewrite X3; reflexivity|exact X5|].
    rewrite Y1 in E. cbn [exec app] in E. rewrite flush_is_spill, (proj1 Y2) in E. cbn [o_pend] in E.
    destruct (spill_holds _ _ _ _ _ _ (length pe') Y2) as (p3 & Z1 & Z2 & Z3 & Z4 & Z5). rewrite Z1 in E. rewrite skipn_all in Z2.
    eexists _, _. refine (two_messages _ _ _ _ _ _ (proj1 Z2) _ E). rewrite Z5. exact Y6.
  Qed.
  (** the file of a run that is shorter than the one before ends with what the latter had left in memory *)
  Lemma tail_left (t m : text) off : m <> [] -> length t <= off -> skipn (length t) (stale (Some (MkO "nlcg.out" off m))) = repeat nul (off - length t) ++ m.
  Proof.
    intros H1 H2. unfold stale. cbn [o_name o_pend o_off]. rewrite String.eqb_refl. destruct m as [|c m]; [contradiction|].
    rewrite skipn_app, repeat_length. replace (length t - off) with 0 by lia. cbn [skipn]. f_equal.
    replace off with (length t + (off - length t)) at 1 by lia. rewrite repeat_app, skipn_app, repeat_length, Nat.sub_diag, skipn_all2 by (rewrite repeat_length; lia). reflexivity.
  Qed.
  Theorem short_run_file a w1 w2 w3 its e p off m : quiet_run w1 w2 w3 its e -> p_rank p = 0 -> l_pre (p_log p) = [] ->
    p_strm p = Some (MkO "nlcg.out" off m) -> m <> [] -> length (snd (all_text (l_fmt (p_log p)) (log_body a w1 w2 w3 its e))) <= off ->
    let t := snd (all_text (l_fmt (p_log p)) (log_body a w1 w2 w3 its e)) in
    exists p', exec (log_run a w1 w2 w3 its e) p = Some p' /\ finish p' "nlcg.out"%string = t ++ repeat nul (off - length t) ++ m.
  Proof.
    intros Q e1 e2 Es Hm Hl t. destruct (run_file a w1 w2 w3 its e p Q e1 e2) as (p' & X1 & X2 & _). exists p'. split; [exact X1|].
    fold t in X2. rewrite X2, Es. f_equal. apply tail_left; assumption.
  Qed.
  (** other ranks: nothing anywhere *)
  Theorem other_ranks ops : List.Forall quiet ops -> forall p, p_rank p <> 0 -> p_strm p = None -> l_detach (p_log p) = true -> l_pid (p_log p) = p_rank p -> l_pre (p_log p) = [] ->
    exists p', exec ops p = Some p' /\ p_disk p' = p_disk p /\ p_cout p' = p_cout p /\ p_strm p' = None.
  Proof.
    induction 1 as [|o ops Q Qs IH]; intros p e1 e2 e3 e4 e5; [exists p; auto|]. cbn [exec].
    destruct o; cbn [quiet] in Q; try contradiction; cbn [step]; try (rewrite e2; apply IH; assumption).
    - unfold log. rewrite puts_spec by exact e5. rewrite e2, e3. cbn [negb andb option_map].
      match goal with |- context [exec ops ?q] => destruct (IH q) as (p' & Y1 & Y2 & Y3 & Y4); try assumption; try reflexivity end. exists p'. auto.
    - unfold to_stdout. rewrite puts_spec by exact e5. cbn [snd l_detach l_pid]. rewrite e2. cbn [option_map].
      replace (negb false && (p_rank p =? 0)%nat) with false by (symmetry; cbn [negb andb]; apply Nat.eqb_neq, e1).
      match goal with |- context [exec ops ?q] => destruct (IH q) as (p' & Y1 & Y2 & Y3 & Y4); try assumption; try reflexivity end. exists p'. auto.
  Qed.
  Theorem other_ranks_run a w1 w2 w3 its e p : quiet_run w1 w2 w3 its e -> p_rank p <> 0 -> p_strm p = None -> l_pre (p_log p) = [] ->
    exists p', exec (log_run a w1 w2 w3 its e) p = Some p' /\ p_disk p' = p_disk p /\ p_cout p' = p_cout p /\ p_strm p' = None.
  Proof.
    intros Q e1 e2 e3. unfold log_run. cbn [exec step]. unfold with_log at 1. cbn [p_rank p_disk p_cout p_strm p_log l_pre l_fmt l_detach l_pid].
    replace (p_rank (with_log _ _) =? 0)%nat with false by (symmetry; apply Nat.eqb_neq; exact e1).
    match goal with |- context [exec _ ?q] => destruct (other_ranks _ (log_body_quiet a w1 w2 w3 its e Q) q) as (p' & Y1 & Y2 & Y3 & Y4); try assumption; try reflexivity end.
    exists p'. auto.
  Qed.
  (** with prefixes: every insertion, also of a manipulator, writes all of them, and the first one gets the width *)
  Theorem prefix_message g i v r : l_pre g = v :: r ->
    snd (message g i) = pad (l_fmt g) v ++ txt "::" ++ flat_map (fun v => v ++ txt "::") r ++ snd (ins (unset (l_fmt g)) i).
  Proof.
    intros e. unfold message. rewrite e. assert (UU : unset (unset (l_fmt g)) = unset (l_fmt g)) by reflexivity. cbn [flat_map app plain ins]. rewrite ?UU.
    assert (P0 : forall x, pad (unset (l_fmt g)) x = x) by (intros x; unfold pad; cbn [unset f_width f_left Nat.sub repeat]; destruct (f_left _); [apply app_nil_r|reflexivity]).
    assert (G : forall r, plain (unset (l_fmt g)) (flat_map (fun v => [IStr v; IStr (txt "::")]) r ++ [i]) =
      (fst (ins (unset (l_fmt g)) i), flat_map (fun v => v ++ txt "::") r ++ snd (ins (unset (l_fmt g)) i))).
    { clear -P0 UU. induction r as [|v r IH]; cbn [flat_map app plain].
      - destruct (ins (unset (l_fmt g)) i). cbn. rewrite app_nil_r. reflexivity.
      - cbn [ins]. rewrite !UU, IH, !P0. rewrite <- !app_assoc. reflexivity. }
    rewrite G, P0. cbn [snd]. reflexivity.
  Qed.
  Theorem pop_undefined p : step OPop p = None <-> l_pre (p_log p) = [].
  Proof. cbn [step]. destruct (l_pre (p_log p)); split; intros H; try reflexivity; discriminate. Qed.
End LogFile.

(** ** Concrete runs: numbers are text, in scientific notation with an exponent *)
Definition show1 (f : fmt) (v : text) : text := match f_not f with Scientific => v ++ txt "e+00" | _ => v end.
Definition par1 : params text := MkPar text (txt "300") (txt "Cold") (txt "100") (txt "1") (txt "3") (txt "2") (txt "10") (txt "8").
Definition inf1 : infos text := MkInfos text (txt "1") (txt "2") (txt "3") (txt "4") (txt "-1") (txt "5") (txt "0").
(** linesearch.hpp 34 *)
Definition it1 : iteration text :=
  MkIt text inf1 [OLog text [IStr (txt "line search t_trial = "); IScientific; INum (txt "0.2"); IStr nl]; OSpill text 7] (txt "1") [] "steepest descent" (txt "1").
Definition run1 := log_run text par1 [] [] [] [it1; it1; it1] (ESlope text inf1).
Definition run2 := log_run text par1 [] [] [] [] (EConverged text inf1 (txt "1") (txt "2") (txt "3")).
Fixpoint text_eqb (a b : text) : bool :=
  match a, b with [], [] => true | x :: a', y :: b' => Ascii.eqb x y && text_eqb a' b' | _, _ => false end.
Lemma text_eqb_eq a : forall b, text_eqb a b = true -> a = b.
Proof.
  induction a as [|x a IH]; intros [|y b] H; cbn in H; try discriminate; [reflexivity|]. apply andb_true_iff in H. destruct H as [H1 H2].
  apply Ascii.eqb_eq in H1. subst y. f_equal. apply IH, H2.
Qed.
Lemma old_error_check :
  match exec text show1 (run1 ++ run2) (new_proc 0 (fun _ => [])) with
  | Some p => let f := finish p "nlcg.out"%string in
    text_eqb (skipn (length f - length slope_msg) f) slope_msg && existsb (fun c => Ascii.eqb c nul) f | None => false end = true.
Proof. vm_compute. reflexivity. Qed.
Lemma old_error : exists p, exec text show1 (run1 ++ run2) (new_proc 0 (fun _ => [])) = Some p /\
  (exists x, finish p "nlcg.out"%string = x ++ slope_msg) /\ In nul (finish p "nlcg.out"%string).
Proof.
  pose proof old_error_check as H. destruct (exec text show1 (run1 ++ run2) (new_proc 0 (fun _ => []))) as [p|]; [|discriminate].
  exists p. split; [reflexivity|]. cbv zeta in H. apply andb_true_iff in H. destruct H as [H1 H2]. split.
  - apply text_eqb_eq in H1. set (f := finish p "nlcg.out"%string) in *. exists (firstn (length f - length slope_msg) f). rewrite <- H1 at 2. symmetry. apply firstn_skipn.
  - apply existsb_exists in H2. destruct H2 as (c & I & E). apply Ascii.eqb_eq in E. subst c. exact I.
Qed.
(** the parameters printed by a second run *)
Lemma other_digits :
  exists p, exec text show1 run1 (new_proc 0 (fun _ => [])) = Some p /\
  snd (all_text text show1 (l_fmt (p_log p)) (log_params text par1)) <> snd (all_text text show1 default_fmt (log_params text par1)).
Proof.
  assert (H : match exec text show1 run1 (new_proc 0 (fun _ => [])) with
    | Some p => negb (text_eqb (snd (all_text text show1 (l_fmt (p_log p)) (log_params text par1))) (snd (all_text text show1 default_fmt (log_params text par1))))
    | None => false end = true) by (vm_compute; reflexivity).
  destruct (exec text show1 run1 (new_proc 0 (fun _ => []))) as [p|]; [|discriminate]. exists p. split; [reflexivity|]. intros e. rewrite e in H.
  assert (R : forall a, text_eqb a a = true) by (induction a as [|x a IH]; [reflexivity|]; cbn; rewrite Ascii.eqb_refl, IH; reflexivity).
  rewrite R in H. discriminate.
Qed.
Lemma quiet1 e : match e with EDescent _ _ se => List.Forall (quiet text) se | _ => True end -> quiet_run text [] [] [] [it1; it1; it1] e.
Proof.
  intros H. do 3 (split; [constructor|]). split; [|exact H]. intros t [<-|[<-|[<-|[]]]]; split; repeat constructor.
Qed.
