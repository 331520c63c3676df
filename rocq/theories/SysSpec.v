(** Specification vocabulary for the message stack and timers. *)
From Coq Require Import Ascii String List Arith ZArith Bool.
From Verif Require Import Base SysModel.
Import ListNotations.
Local Open Scope Z_scope.

(** The messages currently pushed, oldest first, after one operation. *)
Definition spec_step (o : msop) (l : list string) : list string :=
  match o with
  | MPush m => l ++ [m]
  | MPop => removelast l
  | MPopId i => if i <=? Z.of_nat (List.length l) then firstn (Z.to_nat i) l else l
  | MClear => []
  end.
Definition spec_run (ops : list msop) (l : list string) : list string := fold_left (fun l o => spec_step o l) ops l.
(** What the dump of a list of messages (oldest first) looks like: header, then most recent first, empty ones omitted. *)
Definition dump_line (m : string) : string := if String.eqb m "" then "" else (" -> " ++ m ++ newline)%string.
Definition dump_text (l : list string) : string :=
  (("====== Back trace ======" ++ newline) ++ String.concat "" (map dump_line (rev l)))%string.

(** What a TRACE program leaves pushed above the messages present at entry, and whether it throws: nothing when it
    returns normally and no exception was caught inside; the messages of the scopes an exception left, kept for the
    back trace, otherwise. *)
Fixpoint trace_left (p : tprog) : list string * bool :=
  match p with
  | TSkip => ([], false)
  | TThrow => ([], true)
  | TSeq a b => let (la, ea) := trace_left a in
                if ea then (la, true) else let (lb, eb) := trace_left b in (la ++ lb, eb)
  | TTrace m body => let (l, e) := trace_left body in if e then (m :: l, true) else ([], false)
  | TTry body handler => let (l, e) := trace_left body in
                if e then let (lh, eh) := trace_left handler in (l ++ lh, eh) else (l, false)
  end.

(** How many scopes named [l] are open after history [h] (most recent event first). *)
Fixpoint open_scopes (l : string) (h : list (Z * tev)) : Z :=
  match h with
  | [] => 0
  | (_, TStart k) :: past => open_scopes l past + (if String.eqb k l then 1 else 0)
  | (_, TStop k) :: past => open_scopes l past - (if String.eqb k l then 1 else 0)
  | (_, TReset _) :: past => open_scopes l past
  end.
(** Time up to [now] during which at least one scope named [l] was open. *)
Fixpoint busy (l : string) (h : list (Z * tev)) (now : Z) : Z :=
  match h with
  | [] => 0
  | (t, e) :: past => busy l past t + (if 0 <? open_scopes l h then now - t else 0)
  end.
(** The same, counting only from the last reset of [l]. *)
Definition is_reset (l : string) (e : tev) : bool := match e with TReset k => String.eqb k l | _ => false end.
Fixpoint busy_since_reset (l : string) (h : list (Z * tev)) (now : Z) : Z :=
  match h with
  | [] => 0
  | (t, e) :: past => (if is_reset l e then 0 else busy_since_reset l past t)
                      + (if 0 <? open_scopes l h then now - t else 0)
  end.
(** Number of times [l] went from no open scope to one. *)
Fixpoint activations (l : string) (h : list (Z * tev)) : nat :=
  match h with
  | [] => 0
  | (_, TStart k) :: past => activations l past + (if String.eqb k l && (open_scopes l past =? 0)%Z then 1 else 0)
  | _ :: past => activations l past
  end%nat.
(** Scopes are closed only when open (C++ objects are destroyed once). *)
Fixpoint bracketed (h : list (Z * tev)) : Prop :=
  match h with
  | [] => True
  | (_, TStop k) :: past => 0 < open_scopes k past /\ bracketed past
  | _ :: past => bracketed past
  end.
