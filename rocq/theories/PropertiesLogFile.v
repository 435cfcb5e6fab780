(** C96: the log file nlcg.out and the screen. *)
From Coq Require Import Ascii String Arith Lia Bool List.
From Verif Require Import LogFile.
Import ListNotations.
Local Open Scope list_scope.

(** Messages become text as if they were inserted into one stream, whatever the library hands over to the file and when ([w1], [w2], [w3],
    the searches: any messages, flushes and spills).  After a run on rank 0 the file, once the stream is closed, holds the text of the run, followed by
    what is left of the text an earlier run had kept in memory; no other file is touched; the screen shows the statements with TO_STDOUT. *)
Theorem C96_log_file :
  forall V show (a : params V) w1 w2 w3 its e p, quiet_run V w1 w2 w3 its e -> p_rank p = 0 -> l_pre (p_log p) = [] ->
  let t := snd (all_text V show (l_fmt (p_log p)) (log_body V a w1 w2 w3 its e)) in
  exists p', exec V show (log_run V a w1 w2 w3 its e) p = Some p' /\ finish p' "nlcg.out"%string = t ++ skipn (length t) (stale (p_strm p)) /\
    (forall m, m <> "nlcg.out"%string -> finish p' m = others p m) /\
    p_cout p' = p_cout p ++ screen_text V show (log_body V a w1 w2 w3 its e) /\ p_rank p' = 0 /\ l_pre (p_log p') = [] /\
    l_fmt (p_log p') = fst (all_text V show (l_fmt (p_log p)) (log_body V a w1 w2 w3 its e)).
Proof. exact run_file. Qed.
Print Assumptions C96_log_file.

(** A run that converges, or that uses up its iterations (at least one), leaves its complete text on disk, and its successor a clean file. *)
Theorem C96_complete_on_disk :
  forall V show (a : params V) w1 w2 w3 its e p p', quiet_run V w1 w2 w3 its e ->
  match e with EConverged _ _ _ _ _ => True | EExhausted _ => its <> [] | _ => False end ->
  p_rank p = 0 -> l_pre (p_log p) = [] -> stale (p_strm p) = [] ->
  exec V show (log_run V a w1 w2 w3 its e) p = Some p' ->
  p_disk p' "nlcg.out"%string = snd (all_text V show (l_fmt (p_log p)) (log_body V a w1 w2 w3 its e)) /\ stale (p_strm p') = [].
Proof. exact flushed_run. Qed.
Print Assumptions C96_complete_on_disk.

(** The error message of a failed run is not flushed: it is in memory when nlcg_us returns (finding). *)
Theorem C96_descent_error_kept_in_memory :
  forall V show (a : params V) w1 w2 w3 its i se p p', exec V show (log_run V a w1 w2 w3 its (EDescent V i se)) p = Some p' -> p_rank p = 0 -> l_pre (p_log p) = [] ->
  quiet_run V w1 w2 w3 its (EDescent V i se) -> exists off m, p_strm p' = Some (MkO "nlcg.out" off m) /\ exists f, m = pad f descent_msg.
Proof. exact descent_held. Qed.
Print Assumptions C96_descent_error_kept_in_memory.

(** The same for a positive slope, with the last record of the run. *)
Theorem C96_slope_error_kept_in_memory :
  forall V show (a : params V) w1 w2 w3 its t i p p', exec V show (log_run V a w1 w2 w3 (its ++ [t]) (ESlope V i)) p = Some p' -> p_rank p = 0 -> l_pre (p_log p) = [] ->
  quiet_run V w1 w2 w3 (its ++ [t]) (ESlope V i) ->
  exists off f, p_strm p' = Some (MkO "nlcg.out" off (screen_text V show [log_info V i] ++ pad f slope_msg)).
Proof. exact slope_held. Qed.
Print Assumptions C96_slope_error_kept_in_memory.

(** A run that follows and is not longer: its file goes on with NUL characters and ends with what the earlier run had kept in memory (finding). *)
Theorem C96_old_text_at_the_end :
  forall V show (a : params V) w1 w2 w3 its e p off m, quiet_run V w1 w2 w3 its e -> p_rank p = 0 -> l_pre (p_log p) = [] ->
  p_strm p = Some (MkO "nlcg.out" off m) -> m <> [] -> length (snd (all_text V show (l_fmt (p_log p)) (log_body V a w1 w2 w3 its e))) <= off ->
  let t := snd (all_text V show (l_fmt (p_log p)) (log_body V a w1 w2 w3 its e)) in
  exists p', exec V show (log_run V a w1 w2 w3 its e) p = Some p' /\ finish p' "nlcg.out"%string = t ++ repeat nul (off - length t) ++ m.
Proof. exact short_run_file. Qed.
Print Assumptions C96_old_text_at_the_end.

(** A run refused for its slope after three iterations, then a run that converges at once: its log ends with the error of the other one. *)
Theorem C96_log_of_one_run_refuted :
  exists a its i en F KS p, exec text show1 (log_run text a [] [] [] its (ESlope text i) ++ log_run text a [] [] [] [] (EConverged text i en F KS)) (new_proc 0 (fun _ => [])) = Some p /\
  (exists x, finish p "nlcg.out"%string = x ++ slope_msg) /\ In nul (finish p "nlcg.out"%string).
Proof. exact (ex_intro _ par1 (ex_intro _ [it1; it1; it1] (ex_intro _ inf1 (ex_intro _ (txt "1") (ex_intro _ (txt "2") (ex_intro _ (txt "3") old_error)))))). Qed.
Print Assumptions C96_log_of_one_run_refuted.

(** Formats set by one message stay for later ones, also in the next run: the same parameters are printed in other notation (finding). *)
Theorem C96_same_digits_refuted :
  exists a its i p, exec text show1 (log_run text a [] [] [] its (ESlope text i)) (new_proc 0 (fun _ => [])) = Some p /\
  snd (all_text text show1 (l_fmt (p_log p)) (log_params text a)) <> snd (all_text text show1 default_fmt (log_params text a)).
Proof. exact (ex_intro _ par1 (ex_intro _ [it1; it1; it1] (ex_intro _ inf1 other_digits))). Qed.
Print Assumptions C96_same_digits_refuted.

(** Processes that are not rank 0 of MPI_COMM_WORLD write nothing, neither to a file nor to the screen. *)
Theorem C96_other_ranks_silent :
  forall V show (a : params V) w1 w2 w3 its e p, quiet_run V w1 w2 w3 its e -> p_rank p <> 0 -> p_strm p = None -> l_pre (p_log p) = [] ->
  exists p', exec V show (log_run V a w1 w2 w3 its e) p = Some p' /\ p_disk p' = p_disk p /\ p_cout p' = p_cout p /\ p_strm p' = None.
Proof. exact other_ranks_run. Qed.
Print Assumptions C96_other_ranks_silent.

(** With prefixes every single insertion, also of a manipulator, writes all prefixes, and the width meant for the argument goes to the first (finding). *)
Theorem C96_prefixes :
  forall V show g (i : item V) v r, l_pre g = v :: r ->
  snd (message V show g i) = pad (l_fmt g) v ++ txt "::" ++ flat_map (fun v => v ++ txt "::") r ++ snd (ins V show (unset (l_fmt g)) i).
Proof. exact prefix_message. Qed.
Print Assumptions C96_prefixes.

(** pop_prefix without prefix is undefined behaviour. *)
Theorem C96_pop_without_prefix_is_undefined : forall V show p, step V show (OPop V) p = None <-> l_pre (p_log p) = [].
Proof. exact pop_undefined. Qed.
Print Assumptions C96_pop_without_prefix_is_undefined.

(** The hypotheses hold for the runs above in a new process, on all ranks, with a library that hands characters over now and then. *)
Example C96_example :
  quiet_run text [] [] [] [it1; it1; it1] (ESlope text inf1) /\ quiet_run text [] [] [] [it1; it1; it1] (EDescent text inf1 [OFlush text]) /\
  (forall r d, p_rank (new_proc r d) = r /\ p_strm (new_proc r d) = None /\ l_pre (p_log (new_proc r d)) = [] /\ stale (p_strm (new_proc r d)) = []) /\
  match exec text show1 (log_run text par1 [] [] [] [it1; it1; it1] (ESlope text inf1)) (new_proc 0 (fun _ => [])) with
  | Some p => match p_strm p with
    | Some o => Nat.leb (length (snd (all_text text show1 (l_fmt (p_log p)) (log_body text par1 [] [] [] [] (EConverged text inf1 (txt "1") (txt "2") (txt "3")))))) (o_off o)
    | None => false end
  | None => false end = true.
Proof.
  split; [apply quiet1; exact Logic.I|]. split; [apply quiet1; repeat constructor|]. split; [intros r d; repeat split|vm_compute; reflexivity].
Qed.
Example C96_example_prefixes :
  snd (message text show1 (MkLg [txt "a"; txt "b"] (MkFmt 4 true General 6) true 0) (INum (txt "7"))) = txt "a   ::b::7" /\
  snd (message text show1 (MkLg [txt "a"; txt "b"] (MkFmt 0 true General 6) true 0) (ISetw 9)) = txt "a::b::".
Proof. split; reflexivity. Qed.
(** The text of the parameters, the head of the table and a record. *)
Example C96_example_text :
  snd (all_text text show1 default_fmt (log_params text par1 ++ [log_table text])) =
    txt "nlcglib parameters" ++ nl ++ txt "        T : 300" ++ nl ++ txt " smearing : Cold" ++ nl ++ txt "   maxiter: 100" ++ nl ++ txt "       tol: 1" ++ nl ++
    txt "     kappa: 3" ++ nl ++ txt "       tau: 2" ++ nl ++ txt "   restart: 10" ++ nl ++ txt "num electrons: 8" ++ nl ++ txt "tol = 1" ++ nl ++
    txt "Iteration      Free energy    " ++ tab ++ txt "Residual       " ++ nl /\
  screen_text text show1 [log_info text inf1] =
    txt "0              1              " ++ tab ++ txt "4e+00          " ++ txt " -1e+00" ++ nl ++ tab ++ txt " kT * S       : 3" ++ nl ++
    tab ++ txt " Fermi energy : 5" ++ nl ++ tab ++ txt " KS energy    : 2" ++ nl /\
  screen_text text show1 (log_success text (txt "1") (txt "2") (txt "3")) =
    txt "kT * S   : 1" ++ nl ++ txt "F        : 2" ++ nl ++ txt "KS-energy: 3" ++ nl ++ txt "NLCG SUCCESS" ++ nl.
Proof. split; [|split]; vm_compute; reflexivity. Qed.
