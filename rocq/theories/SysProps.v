(** Properties C34 (message stack) and C38 (timers). *)
From Coq Require Import Ascii String List Arith ZArith Bool.
From Verif Require Import Base SysModel SysSpec SysProofs.
Import ListNotations.
Local Open Scope Z_scope.

(** C34. After any sequence of push / pop / pop(id) / clear on a new stack, the back trace lists exactly the messages
    currently pushed, most recent first; no operation reads outside the vector. *)
Theorem C34_dump_lists_pushed_messages : forall ops, exists s,
  ms_run ops ms_init = Ok s /\ ms_getDump s = Ok (dump_text (spec_run ops [])).
Proof. exact ms_history. Qed.
(** A program built from nested TRACE scopes, exceptions and handlers, run on any reachable stack, adds to the back trace
    exactly the messages of the scopes left by an exception, whatever pushes and pops preceded it. *)
Theorem C34_trace_scopes : forall ops p, exists s s',
  ms_run ops ms_init = Ok s /\ trun p s = Ok (s', snd (trace_left p)) /\
  ms_getDump s' = Ok (dump_text (spec_run ops [] ++ fst (trace_left p))).
Proof. exact trace_dump. Qed.
(** In particular a program that never throws leaves nothing. *)
Theorem C34_normal_exit_restores : forall p, throw_free p = true -> trace_left p = ([], false).
Proof. exact throw_free_left. Qed.
(** "Restored on every exit path" is false for a scope left by an exception that is then caught: its message stays. *)
Theorem C34_restored_on_every_exit_refuted :
  exists p, snd (trace_left p) = false /\ fst (trace_left p) <> [].
Proof. exists (TTry (TTrace "inner" TThrow) TSkip). split; [reflexivity|discriminate]. Qed.

Example C34_case : exists s, ms_run [MPush "a"; MPush "b"; MPop; MPush "c"; MPush ""; MPush "d"; MPopId 3] ms_init = Ok s /\
  ms_getDump s = Ok (dump_text ["a"; "c"; ""]%string).
Proof. eexists. split; reflexivity. Qed.
Example C34_case_text : dump_text ["a"; "c"; ""]%string = ("====== Back trace ======" ++ newline ++ " -> c" ++ newline ++ " -> a" ++ newline)%string.
Proof. reflexivity. Qed.
Example C34_case_scopes : trace_left (TTrace "outer" (TSeq (TTry (TTrace "inner" TThrow) TSkip) TSkip)) = ([], false).
Proof. reflexivity. Qed.

(** C38. For every history of scopes opening and closing under any labels (and resets), the total of a label is the time
    during which at least one scope of that label was open; getTime and resetTime report the part since the last reset;
    hits counts the activations. *)
Theorem C38_timer_totals : forall l h now, bracketed h ->
  t_getTotal l now (t_run h) = busy l h now /\
  t_getTime l now (t_run h) = busy_since_reset l h now /\
  snd (t_reset l now (t_run h)) = busy_since_reset l h now /\
  ti_hits (t_get l now (t_run h)) = activations l h.
Proof. exact t_exact. Qed.
Definition C38_history : list (Z * tev) :=
  rev [(1, TStart "a"); (3, TStart "a"); (4, TStart "b"); (7, TStop "a"); (8, TReset "a"); (10, TStop "a"); (20, TStart "a")]%string.
Example C38_case : bracketed C38_history /\ busy "a" C38_history 25 = 14 /\ busy_since_reset "a" C38_history 25 = 7
  /\ busy "b" C38_history 25 = 21 /\ activations "a" C38_history = 2%nat.
Proof. repeat split; reflexivity. Qed.

Print Assumptions C34_dump_lists_pushed_messages.
Print Assumptions C34_trace_scopes.
Print Assumptions C38_timer_totals.
