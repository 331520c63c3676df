(** * What a user of the IMEX-BDF2 solver expects (independent of the code) *)
From Coq Require Import List Arith Reals.
From Verif Require Import ImexModel.
Import ListNotations.
Local Open Scope R_scope.

(** The polynomial with coefficients [l], lowest power first. *)
Fixpoint poly (l : list R) (x : R) : R :=
  match l with [] => 0 | a :: l' => a + x * poly l' x end.

(** [f 0 + ... + f (n-1)] *)
Fixpoint sumn (n : nat) (f : nat -> R) : R :=
  match n with O => 0 | S k => sumn k f + f k end.

(** A formula  u(tn) = sum_j (a j * u(tau j) + b j * f(tau j)) + g * G(tn)  for
    u' = f + G is of order [p] if its stiff part is exact whenever the solution
    is a polynomial of degree at most [p] (with f = 0, so that G = u'), and the
    extrapolation of f is exact whenever f is a polynomial of degree below [p]
    (it then stands for g * f(tn)). *)
Definition of_order (p : nat) (tn : R) (tau : nat -> R) (a b : nat -> R) (g : R)
  : Prop :=
  (forall l d, (length l <= p + 1)%nat -> derivable_pt_lim (poly l) tn d ->
     poly l tn = sumn p (fun j => a j * poly l (tau j)) + g * d) /\
  (forall l, (length l <= p)%nat ->
     sumn p (fun j => b j * poly l (tau j)) = g * poly l tn).

Definition noacc : acc R :=
  mkacc 0 (fun _ => 0) (fun _ => 0) 0 0
        (mkcall 0 (fun _ => 0) (fun _ => 0) 0 0 (fun _ => 0)).

(** The accepted step [e], whose predecessors are [older] (newest first), is
    the solution of an IMEX-BDF formula of order [a_order e] through the actual
    last points of the solution. *)
Definition imex_step (e : acc R) (older : list (acc R)) : Prop :=
  let hist j := nth j (e :: older) noacc in
  let p := a_order e in
  (p <= S (length older))%nat /\ (0 < p)%nat /\
  exists a b,
    of_order p (a_t0 e + a_dt e) (fun j => a_t0 (hist j)) a b
             (k_gamma (a_call e)) /\
    forall i, k_rhs (a_call e) i =
      sumn p (fun j => a j * a_u0 (hist j) i + b j * a_f0 (hist j) i).

(** The step starts where its predecessor ended (the first at [t0], [u0]); the
    non-stiff derivative is that at the start of the step; and the new state is
    the answer of a successful implicit solve at the new time. *)
Definition chained (imp : nat -> V R -> V R -> R -> R -> option (V R))
    (conv : R -> V R -> V R) (u0 : V R) (t0 : R)
    (e : acc R) (older : list (acc R)) : Prop :=
  a_f0 e = conv (a_t0 e) (a_u0 e) /\
  (let k := a_call e in
   imp (k_no k) (k_guess k) (k_rhs k) (k_gamma k) (a_t0 e + a_dt e)
     = Some (k_out k)) /\
  match older with
  | [] => a_t0 e = t0 /\ a_u0 e = u0
  | e' :: _ => a_t0 e = a_t0 e' + a_dt e' /\ a_u0 e = k_out (a_call e')
  end.

(** Sum of the lengths of some steps. *)
Fixpoint total (l : list (acc R)) : R :=
  match l with [] => 0 | e :: l' => a_dt e + total l' end.

(** One output step's internal steps, oldest first. *)
Definition covers (c : cfg R) (g : list (acc R)) : Prop :=
  total g = outStep c /\
  (0 < length g <= mxstep c)%nat /\
  (forall e, In e g -> 0 < a_dt e <= dtMax c) /\
  (forall before e after, g = before ++ e :: after -> after <> [] ->
     dtMin c <= a_dt e).
