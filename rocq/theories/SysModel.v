(** Model of the message stack (src/sys/msg_stack.cxx) and of the named timers (src/sys/timer.cxx). *)
From Coq Require Import Ascii String List Arith ZArith Bool.
From Verif Require Import Base.
Import ListNotations.
Local Open Scope Z_scope.

(** * Message stack *)
(** msg_stack.hxx:105-107: the vector and the current position. Simplification: built with BOUT_USE_MSGSTACK, outside
    OpenMP parallel regions (omp_get_num_threads() = 1); [int]/[size_type] do not wrap. *)
Record mstack := MkStack { ms_stack : list string; ms_pos : nat }.
Definition ms_init : mstack := MkStack [] 0.
(** msg_stack.cxx:38-56 push(message): returns the old position. *)
Definition ms_push (m : string) (s : mstack) : res (mstack * nat) :=
  if (List.length (ms_stack s) <=? ms_pos s)%nat
  then Ok (MkStack (ms_stack s ++ [m]) (S (ms_pos s)), ms_pos s)
  else match vec_set (ms_stack s) (ms_pos s) m with
       | Some st => Ok (MkStack st (S (ms_pos s)), ms_pos s)
       | None => UB
       end.
(** msg_stack.cxx:58-64 pop(). *)
Definition ms_pop (s : mstack) : mstack := MkStack (ms_stack s) (pred (ms_pos s)).
(** msg_stack.cxx:66-79 pop(id). *)
Definition ms_pop_id (id : Z) (s : mstack) : mstack :=
  let id := if id <? 0 then 0 else id in
  if id <=? Z.of_nat (ms_pos s) then MkStack (ms_stack s) (Z.to_nat id) else s.
(** msg_stack.cxx:81-87 clear(). *)
Definition ms_clear (s : mstack) : mstack := MkStack [] 0.
(** msg_stack.cxx:94-104 getDump(): for i = position-1 .. 0; stack[i] out of range is UB. *)
Definition newline : string := String "010" EmptyString.
Fixpoint ms_dump_from (st : list string) (n : nat) (acc : string) : res string :=
  match n with
  | O => Ok acc
  | S i => match nth_error st i with
           | Some m => ms_dump_from st i (if String.eqb m "" then acc else (acc ++ " -> " ++ m ++ newline)%string)
           | None => UB
           end
  end.
Definition ms_getDump (s : mstack) : res string :=
  ms_dump_from (ms_stack s) (ms_pos s) ("====== Back trace ======" ++ newline)%string.

Inductive msop := MPush (m : string) | MPop | MPopId (id : Z) | MClear.
Definition ms_step (o : msop) (s : mstack) : res mstack :=
  match o with
  | MPush m => do r <- ms_push m s; Ok (fst r)
  | MPop => Ok (ms_pop s)
  | MPopId i => Ok (ms_pop_id i s)
  | MClear => Ok (ms_clear s)
  end.
Fixpoint ms_run (ops : list msop) (s : mstack) : res mstack :=
  match ops with [] => Ok s | o :: r => do s' <- ms_step o s; ms_run r s' end.

(** Programs using TRACE: a scoped MsgStackItem (msg_stack.hxx:131-171), plain code that may throw, sequencing, and
    try/catch. The result is the stack and whether an exception is propagating. The destructor pops back to the item's
    position unless an exception started propagating since construction (msg_stack.hxx:163-168). *)
Inductive tprog :=
| TSkip
| TThrow
| TSeq (a b : tprog)
| TTrace (m : string) (body : tprog)
| TTry (body handler : tprog).
Fixpoint trun (p : tprog) (s : mstack) : res (mstack * bool) :=
  match p with
  | TSkip => Ok (s, false)
  | TThrow => Ok (s, true)
  | TSeq a b => do r <- trun a s; if snd r then Ok r else trun b (fst r)
  | TTrace m body =>
      do r <- ms_push m s;
      do q <- trun body (fst r);
      if snd q then Ok q else Ok (ms_pop_id (Z.of_nat (snd r)) (fst q), false)
  | TTry body handler =>
      do r <- trun body s; if snd r then trun handler (fst r) else Ok r
  end.

(** * Timers *)
(** timer.hxx:84-93. Times are integer clock ticks; the conversion to floating seconds is not modelled. *)
Record tinfo := MkInfo { ti_time : Z; ti_total : Z; ti_running : bool; ti_started : Z; ti_counter : nat; ti_hits : nat }.
Definition tmap := string -> option tinfo.
(** timer.cxx:40-48 getInfo: insert a fresh record when the label is unknown. *)
Definition t_get (l : string) (now : Z) (m : tmap) : tinfo :=
  match m l with Some i => i | None => MkInfo 0 0 false now 0 0 end.
Definition t_put (l : string) (i : tinfo) (m : tmap) : tmap := fun k => if String.eqb k l then Some i else m k.
(** timer.cxx:16-23 constructor. *)
Definition t_start (l : string) (now : Z) (m : tmap) : tmap :=
  let i := t_get l now m in
  let i := if (ti_counter i =? 0)%nat
           then MkInfo (ti_time i) (ti_total i) true now (ti_counter i) (S (ti_hits i)) else i in
  t_put l (MkInfo (ti_time i) (ti_total i) (ti_running i) (ti_started i) (S (ti_counter i)) (ti_hits i)) m.
(** timer.cxx:25-33 destructor; [counter] is unsigned and at least 1 while a Timer object exists. *)
Definition t_stop (l : string) (now : Z) (m : tmap) : tmap :=
  let i := t_get l now m in
  let c := pred (ti_counter i) in
  let e := now - ti_started i in
  t_put l (if (c =? 0)%nat then MkInfo (ti_time i + e) (ti_total i + e) false (ti_started i) c (ti_hits i)
           else MkInfo (ti_time i) (ti_total i) (ti_running i) (ti_started i) c (ti_hits i)) m.
(** timer.cxx:50-62 getTime, getTotalTime (static, by label). *)
Definition t_getTime (l : string) (now : Z) (m : tmap) : Z :=
  let i := t_get l now m in if ti_running i then ti_time i + (now - ti_started i) else ti_time i.
Definition t_getTotal (l : string) (now : Z) (m : tmap) : Z :=
  let i := t_get l now m in if ti_running i then ti_total i + (now - ti_started i) else ti_total i.
(** timer.cxx:64-75 resetTime: new state and returned duration. *)
Definition t_reset (l : string) (now : Z) (m : tmap) : tmap * Z :=
  let i := t_get l now m in
  if ti_running i
  then let e := now - ti_started i in
       (t_put l (MkInfo 0 (ti_total i + e) (ti_running i) now (ti_counter i) (ti_hits i)) m, ti_time i + e)
  else (t_put l (MkInfo 0 (ti_total i) (ti_running i) (ti_started i) (ti_counter i) (ti_hits i)) m, ti_time i).

Inductive tev := TStart (l : string) | TStop (l : string) | TReset (l : string).
Definition t_step (t : Z) (e : tev) (m : tmap) : tmap :=
  match e with TStart l => t_start l t m | TStop l => t_stop l t m | TReset l => fst (t_reset l t m) end.
(** A history, most recent event first. *)
Fixpoint t_run (h : list (Z * tev)) : tmap :=
  match h with [] => fun _ => None | (t, e) :: past => t_step t e (t_run past) end.
