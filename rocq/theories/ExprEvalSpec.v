(* What the theorems about evaluating expressions say: sums, definitions, the names an expression
   uses, and replacing a name by an expression. *)
Require Import Reals ZArith List Ascii.
Require Import Verif.Base Verif.ExprModel Verif.ExprEvalModel.
Import ListNotations.
Local Open Scope R_scope.

(* f 0 + ... + f (n-1) *)
Fixpoint total (f : nat -> R) (n : nat) : R := match n with O => 0 | S k => total f k + f k end.

Definition same_name (a b : str) : bool := if list_eq_dec ascii_dec a b then true else false.

(* c' is c except that name has the value v *)
Definition with_value (c : ctx) (name : str) (v : R) (c' : ctx) : Prop :=
  c' name = Some v /\ forall m, m <> name -> c' m = c m.

(* The value the definitions give m: that of its last definition. *)
Fixpoint defined (defs : list (str * R)) (m : str) : option R :=
  match defs with
  | [] => None
  | (n, v) :: defs' => match defined defs' m with Some w => Some w | None => if same_name m n then Some v else None end
  end.

Section Names.
(* the context names a registered generator or a resolved name reads itself *)
Variables reads rreads : str -> str -> Prop.

(* m is used by e from the context e is evaluated in *)
Fixpoint uses (e : expr) (m : str) : Prop :=
  match e with
  | EVal _ => False
  | EParam s => m = s
  | EBin _ l r => uses l m \/ uses r m
  | ECall name args => reads name m \/ fold_right (fun a P => uses a m \/ P) False args
  | ERes name => rreads name m
  | ECtx vs b => fold_right (fun v P => uses (snd v) m \/ P) False vs \/ (uses b m /\ ~ In m (map fst vs))
  | ESum s c b => uses c m \/ (uses b m /\ m <> s)
  end.
(* m is given a value somewhere inside e *)
Fixpoint binds (e : expr) (m : str) : Prop :=
  match e with
  | EVal _ | EParam _ | ERes _ => False
  | EBin _ l r => binds l m \/ binds r m
  | ECall _ args => fold_right (fun a P => binds a m \/ P) False args
  | ECtx vs b => fold_right (fun v P => binds (snd v) m \/ P) False vs \/ In m (map fst vs) \/ binds b m
  | ESum s c b => binds c m \/ m = s \/ binds b m
  end.
(* no generator or resolved name inside e reads m behind the expression's back *)
Fixpoint visible (m : str) (e : expr) : Prop :=
  match e with
  | EVal _ | EParam _ => True
  | EBin _ l r => visible m l /\ visible m r
  | ECall name args => ~ reads name m /\ fold_right (fun a P => visible m a /\ P) True args
  | ERes name => ~ rreads name m
  | ECtx vs b => fold_right (fun v P => visible m (snd v) /\ P) True vs /\ visible m b
  | ESum _ c b => visible m c /\ visible m b
  end.
End Names.

(* e with {a} replaced by d, except where a has been given a new meaning *)
Fixpoint replace (a : str) (d : expr) (e : expr) : expr :=
  match e with
  | EVal _ | ERes _ => e
  | EParam s => if same_name s a then d else e
  | EBin op l r => EBin op (replace a d l) (replace a d r)
  | ECall name args => ECall name (map (replace a d) args)
  | ECtx vs b => ECtx (map (fun v => (fst v, replace a d (snd v))) vs)
                      (if existsb (same_name a) (map fst vs) then b else replace a d b)
  | ESum s c b => ESum s (replace a d c) (if same_name a s then b else replace a d b)
  end.

(* Generators evaluate their arguments where they are evaluated themselves, and read only the
   context names they say. *)
Definition local_meaning (reads : str -> str -> Prop) (meaning : str -> list (ctx -> res R) -> ctx -> res R) : Prop :=
  forall name fs gs c c', map (fun f => f c) fs = map (fun g => g c') gs ->
    (forall m, reads name m -> c m = c' m) -> meaning name fs c = meaning name gs c'.
Definition local_resolved (rreads : str -> str -> Prop) (resolved : str -> ctx -> res R) : Prop :=
  forall name c c', (forall m, rreads name m -> c m = c' m) -> resolved name c = resolved name c'.
