(** Model of [CyclicReduce<T>] (include/bout/cyclic_reduction.hxx), the parallel solver for sets of (periodic)
    tridiagonal systems.

    Simplifications.
    - [T] ([BoutReal] or [dcomplex] in the code) is an arbitrary type [F] with field operations; rounding is not
      modelled.  The test [std::abs(x) < 1e-10] is a predicate [tiny].
    - A matrix of the class ([coefs], [myif], [ifcs], ...) is a function of its indices; the memory it had before the
      call is an arbitrary function, so nothing can rely on it.  Accesses to the buffers that MPI fills and reads
      ([recvbuffer], [myif] as a flat send buffer, the request lengths) are checked against their allocated size:
      [UB] when they do not fit.
    - All processors are executed together, stage by stage.  Between the stages, the messages of a stage can be
      received in any order: [MPI_Waitany] is modelled by an arbitrary order of the pending requests.
    - When a processor throws, the whole computation is [Throw]. *)
From Coq Require Import List Arith Bool.
From Verif Require Import Base.
Import ListNotations.

Section Cyclic.
Variable F : Type.
Variables (f0 f1 : F) (fadd fmul fsub fdiv : F -> F -> F) (fopp : F -> F).
Variable tiny : F -> bool. (* std::abs(x) < 1e-10, lines 554 and 585 *)

Local Infix "+!" := fadd (at level 50, left associativity).
Local Infix "-!" := fsub (at level 50, left associativity).
Local Infix "*!" := fmul (at level 40, left associativity).
Local Infix "/!" := fdiv (at level 40, left associativity).

(** The four numbers of one interface equation: left, diagonal, right coefficient and right hand side. *)
Notation vec4 := (F * F * F * F)%type.

(** cyclic_reduction.hxx:552-571, the loop over [i] of the upper interface equation; [up co (i+1) v] executes the
    iterations [i, i-1, ..., 0]. *)
Fixpoint up (co : nat -> F) (n : nat) (v : vec4) : res vec4 :=
  match n with
  | O => Ok v
  | S i =>
      let '(v0, v1, v2, v3) := v in
      if tiny v1 then Throw
      else
        let beta := co (4 * i + 2) /! v1 in
        up co i (co (4 * i), co (4 * i + 1) -! beta *! v0, v2 *! fopp beta, co (4 * i + 3) -! beta *! v3)
  end.

(** cyclic_reduction.hxx:583-602, the loop over [i] of the lower interface equation; [low co m i v] executes [m]
    iterations starting with [i]. *)
Fixpoint low (co : nat -> F) (m i : nat) (v : vec4) : res vec4 :=
  match m with
  | O => Ok v
  | S m' =>
      let '(v0, v1, v2, v3) := v in
      if tiny v1 then Throw
      else
        let alpha := co (4 * i) /! v1 in
        low co m' (S i) (v0 *! fopp alpha, co (4 * i + 1) -! alpha *! v2, co (4 * i + 2), co (4 * i + 3) -! alpha *! v3)
  end.

(** cyclic_reduction.hxx:534-616 [reduce], for one system: the eight numbers of the two interface equations. With
    fewer than two rows the code reads before the beginning of [co]. *)
Definition reduce1 (nloc : nat) (co : nat -> F) : res (nat -> F) :=
  if nloc <? 2 then UB
  else
    let k := 4 * (nloc - 2) in
    do u <- up co (nloc - 2) (co k, co (k + 1), co (k + 2), co (k + 3));
    do l <- low co (nloc - 2) 2 (co 4, co 5, co 6, co 7);
    let '(u0, u1, u2, u3) := u in
    let '(l0, l1, l2, l3) := l in
    Ok (fun j => nth j [u0; u1; u2; u3; l0; l1; l2; l3] f0).

(** Array element assignment. *)
Definition upd {A} (f : nat -> A) (i : nat) (v : A) : nat -> A := fun k => if k =? i then v else f k.

(** cyclic_reduction.hxx:634-639, the loop [for (j = 1; j < nloc - 1; j++)]; [bs_fwd co m j gam xa] executes [m]
    iterations starting with [j]. *)
Fixpoint bs_fwd (co : nat -> F) (m j : nat) (gam xa : nat -> F) : (nat -> F) * (nat -> F) :=
  match m with
  | O => (gam, xa)
  | S m' =>
      let bet := co (4 * j + 1) -! co (4 * j) *! gam j in
      let xa' := upd xa j ((co (4 * j + 3) -! co (4 * j) *! xa (j - 1)) /! bet) in
      let gam' := upd gam (j + 1) (co (4 * j + 2) /! bet) in
      bs_fwd co m' (S j) gam' xa'
  end.

(** cyclic_reduction.hxx:642-644, the loop [for (j = nloc - 2; j > 0; j--)]. *)
Fixpoint bs_bwd (j : nat) (gam xa : nat -> F) : nat -> F :=
  match j with
  | O => xa
  | S j' => bs_bwd j' gam (upd xa j (xa j -! gam (j + 1) *! xa (j + 1)))
  end.

(** cyclic_reduction.hxx:620-646 [back_solve], for one system: [xa0] is the previous content of the result, [gam0] that of
    the local array. [gam[1]] is out of bounds for fewer than two rows. *)
Definition back_solve1 (nloc : nat) (co : nat -> F) (x1 xn : F) (gam0 xa0 : nat -> F) : res (nat -> F) :=
  if nloc <? 2 then UB
  else
    let xa := upd xa0 0 x1 in
    let gam := upd gam0 1 f0 in
    let '(gam, xa) := bs_fwd co (nloc - 2) 1 gam xa in
    let xa := upd xa (nloc - 1) xn in
    Ok (bs_bwd (nloc - 2) gam xa).

(** Results of [m] indexed calls; the first exception stops the loop (lines 541, 626: [for (j = 0; j < ns; j++)]). *)
Fixpoint for_sys {A} (d : A) (f : nat -> res A) (m : nat) : res (nat -> A) :=
  match m with
  | O => Ok (fun _ => d)
  | S m' => do g <- for_sys d f m'; do v <- f m'; Ok (upd g m' v)
  end.

(** cyclic_reduction.hxx:479-491 [allocMemory]: number of systems gathered on processor [p] and the first of them. *)
Definition myns (nsys nprocs p : nat) : nat :=
  let ns := nsys / nprocs in
  let nsextra := nsys mod nprocs in
  if p <? nsextra then ns + 1 else ns.

Definition sys0 (nsys nprocs p : nat) : nat :=
  let ns := nsys / nprocs in
  let nsextra := nsys mod nprocs in
  if p <? nsextra then ns * p + p else ns * p + nsextra.

(** cyclic_reduction.hxx:503 the number of values in one row of [recvbuffer]. *)
Definition recv_cap (nsys nprocs p : nat) : nat := (myns nsys nprocs p + 1) * 8.

(** cyclic_reduction.hxx:251-254 the number of systems sent to processor [p], as the sender computes it. *)
Definition nsp_of (nsys nprocs p : nat) : nat :=
  let ns := nsys / nprocs in
  let nsextra := nsys mod nprocs in
  if p <? nsextra then S ns else ns.

(** cyclic_reduction.hxx:249-271 the sender's running offset [s0] when it reaches processor [p]. *)
Fixpoint s0_send (nsys nprocs p : nat) : nat :=
  match p with
  | O => 0
  | S q => s0_send nsys nprocs q + nsp_of nsys nprocs q
  end.

(** cyclic_reduction.hxx:418-423 the offset at which the values received from [p] are stored in the scatter stage. *)
Definition s0_recv (nsys nprocs p : nat) : nat :=
  let ns := nsys / nprocs in
  let nsextra := nsys mod nprocs in
  if nsextra <? p then p * ns + nsextra else p * ns + p.

(** cyclic_reduction.hxx:264-269 the message for processor [d]: [8 * nsp] values read from the flat memory of [myif]
    (nsys rows of 8) starting at [&myif(s0, 0)]. *)
Definition gather_msg (nsys nprocs d : nat) (myif : nat -> nat -> F) : res (list F) :=
  let s0 := s0_send nsys nprocs d in
  let len := 8 * nsp_of nsys nprocs d in
  if 8 * s0 + len <=? 8 * nsys
  then Ok (map (fun k => myif ((8 * s0 + k) / 8) ((8 * s0 + k) mod 8)) (seq 0 len))
  else UB.

(** [MPI_Irecv(&recvbuffer(p, 0), len, ...)] completed by a message: the message must fit the posted length and that
    the row of [recvbuffer]. *)
Definition mpi_recv (cap posted : nat) (buf : nat -> F) (msg : list F) : res (nat -> F) :=
  if (length msg <=? posted) && (posted <=? cap)
  then Ok (fun k => match nth_error msg k with Some v => v | None => buf k end)
  else UB.

(** Copy of [m * w] values [src i j] to [dst (i) (off + j)] (lines 222-226 and 286-293). *)
Fixpoint copy_row (w off : nat) (src dst : nat -> F) : nat -> F :=
  match w with
  | O => dst
  | S j => upd (copy_row j off src dst) (off + j) (src j)
  end.

Fixpoint copy_rows (m w off : nat) (src : nat -> nat -> F) (dst : nat -> nat -> F) : nat -> nat -> F :=
  match m with
  | O => dst
  | S i => let d := copy_rows i w off src dst in upd d i (copy_row w off (src i) (d i))
  end.

(** cyclic_reduction.hxx:275-299 the loop around [MPI_Waitany]: messages are taken in the order [ord]; [inbox p] is the
    message of processor [p]. *)
Fixpoint gather_loop (nsys nprocs d : nat) (inbox : nat -> res (list F)) (buf0 : nat -> nat -> F)
    (ord : list nat) (ifcs : nat -> nat -> F) : res (nat -> nat -> F) :=
  match ord with
  | [] => Ok ifcs
  | p :: t =>
      do msg <- inbox p;
      do buf <- mpi_recv (recv_cap nsys nprocs d) (2 * myns nsys nprocs d * 4) (buf0 p) msg;
      gather_loop nsys nprocs d inbox buf0 t
        (copy_rows (myns nsys nprocs d) 8 (8 * p) (fun i j => buf (8 * i + j)) ifcs)
  end.

(** cyclic_reduction.hxx:319-343 the direct solution of the 2x2 system. *)
Definition solve2x2 (periodic : bool) (if2 : nat -> F) : F * F :=
  let a := if2 1 in
  let b := if periodic then if2 2 +! if2 0 else if2 2 in
  let c := if periodic then if2 4 +! if2 6 else if2 4 in
  let d := if2 5 in
  let b1 := if2 3 in
  let bn := if2 7 in
  let det := a *! d -! b *! c in
  ((d *! b1 -! b *! bn) /! det, (fopp c *! b1 +! a *! bn) /! det).

(** Memory of processor [p] before the call: the content of [ifcs], [recvbuffer], [ifx], [x1], [xn], [x] and of the
    local array [gam] of the two calls of [back_solve]. *)
Record memory := {
  m_ifcs : nat -> nat -> F;
  m_recv : nat -> nat -> F;
  m_ifx : nat -> nat -> F;
  m_x1 : nat -> F;
  m_xn : nat -> F;
  m_x : nat -> nat -> F;
  m_gam : nat -> nat -> F;
  m_gam2 : nat -> nat -> F }.

(** cyclic_reduction.hxx:204-347 on processor [d]: gather the interface equations of its systems, reduce them, solve.
    Result: [ifx] and the [x1], [xn] left by the 2x2 solves. [myif p] are the interface equations of processor [p], [ord]
    the order in which the messages arrive. *)
Definition interface_solve (nsys nprocs d : nat) (periodic : bool) (myif : nat -> nat -> nat -> F) (ord : list nat)
    (mem : memory) : res ((nat -> nat -> F) * (nat -> F) * (nat -> F)) :=
  let my := myns nsys nprocs d in
  if my =? 0 then Ok (m_ifx mem, m_x1 mem, m_xn mem)
  else
    let own := copy_rows my 8 (8 * d) (fun i j => myif d (sys0 nsys nprocs d + i) j) (m_ifcs mem) in
    do ifcs <- gather_loop nsys nprocs d (fun p => gather_msg nsys nprocs d (myif p)) (m_recv mem) ord own;
    do if2 <- (if 1 <? nprocs then for_sys (fun _ => f0) (fun i => reduce1 (2 * nprocs) (ifcs i)) my else Ok ifcs);
    let x1 := fun i => if i <? my then fst (solve2x2 periodic (if2 i)) else m_x1 mem i in
    let xn := fun i => if i <? my then snd (solve2x2 periodic (if2 i)) else m_xn mem i in
    do ifx <- for_sys (fun _ => f0)
                (fun i => back_solve1 (2 * nprocs) (ifcs i) (x1 i) (xn i) (m_gam mem i) (m_ifx mem i)) my;
    Ok (ifx, x1, xn).

(** cyclic_reduction.hxx:384-399 the message that processor [p] returns to another one, [d]: [ifp]. *)
Definition scatter_msg (nsys nprocs p d : nat) (ifx : nat -> nat -> F) : list F :=
  flat_map (fun i => [ifx i (2 * d); ifx i (2 * d + 1)]) (seq 0 (myns nsys nprocs p)).

(** The copies of lines 362-365 and 430-437: [m] consecutive values starting at [off]. *)
Fixpoint copy_vec (m off : nat) (src dst : nat -> F) : nat -> F :=
  match m with
  | O => dst
  | S i => upd (copy_vec i off src dst) (off + i) (src i)
  end.

(** cyclic_reduction.hxx:402-442 the loop around the second [MPI_Waitany], on processor [d]. Only processors with
    [nsp > 0] have a pending request (lines 367-379) and send (line 382). [x1], [xn] have [nsys] elements. *)
Fixpoint scatter_loop (nsys nprocs d : nat) (ifx : nat -> nat -> nat -> F) (buf0 : nat -> nat -> F)
    (ord : list nat) (x1 xn : nat -> F) : res ((nat -> F) * (nat -> F)) :=
  match ord with
  | [] => Ok (x1, xn)
  | p :: t =>
      let nsp := nsp_of nsys nprocs p in
      if nsp =? 0 then scatter_loop nsys nprocs d ifx buf0 t x1 xn
      else
        do buf <- mpi_recv (recv_cap nsys nprocs d) (2 * nsp) (buf0 p) (scatter_msg nsys nprocs p d (ifx p));
        let s0 := s0_recv nsys nprocs p in
        if s0 + nsp <=? nsys
        then scatter_loop nsys nprocs d ifx buf0 t
               (copy_vec nsp s0 (fun i => buf (2 * i)) x1)
               (copy_vec nsp s0 (fun i => buf (2 * i + 1)) xn)
        else UB
  end.

(** cyclic_reduction.hxx:349-443 on processor [d]; [ifx p] is the result of the interface solve of processor [p]. *)
Definition scatter (nsys nprocs d : nat) (ifx : nat -> nat -> nat -> F) (ord : list nat) (mem : memory)
    (x1 xn : nat -> F) : res ((nat -> F) * (nat -> F)) :=
  if 1 <? nprocs
  then
    let my := myns nsys nprocs d in
    if sys0 nsys nprocs d + my <=? nsys
    then scatter_loop nsys nprocs d ifx (m_recv mem) ord
           (copy_vec my (sys0 nsys nprocs d) (fun i => ifx d i (2 * d)) x1)
           (copy_vec my (sys0 nsys nprocs d) (fun i => ifx d i (2 * d + 1)) xn)
    else UB
  else Ok (x1, xn).

(** cyclic_reduction.hxx:170-446 [solve], on all processors together. [nloc p] is the number of rows of processor [p],
    [co p s] the coefficients of system [s] there ([coefs(s, 4*i+k)] after setCoefs and line 194), [ord1 p] and [ord2 p]
    the order in which [p] receives its messages in the two stages. Result: [x p s i]. *)
Definition solve_all (nsys nprocs : nat) (periodic : bool) (nloc : nat -> nat) (co : nat -> nat -> nat -> F)
    (ord1 ord2 : nat -> list nat) (mem : nat -> memory) : res (nat -> nat -> nat -> F) :=
  do myif <- for_sys (fun _ _ => f0)
               (fun p => for_sys (fun _ => f0) (fun s => reduce1 (nloc p) (co p s)) nsys) nprocs;
  do st <- for_sys (fun _ _ => f0, fun _ => f0, fun _ => f0)
             (fun p => interface_solve nsys nprocs p periodic myif (ord1 p) (mem p)) nprocs;
  let ifx := fun p => fst (fst (st p)) in
  do xs <- for_sys (fun _ => f0, fun _ => f0)
             (fun p => scatter nsys nprocs p ifx (ord2 p) (mem p) (snd (fst (st p))) (snd (st p))) nprocs;
  for_sys (fun _ _ => f0)
    (fun p => for_sys (fun _ => f0)
       (fun s => back_solve1 (nloc p) (co p s) (fst (xs p) s) (snd (xs p) s) (m_gam2 (mem p) s) (m_x (mem p) s)) nsys)
    nprocs.

(** cyclic_reduction.hxx:121-129 and 190-196: the coefficient array filled from the arguments of [setCoefs] and
    [solve]. *)
Definition fill_coefs (a b c rhs : nat -> F) : nat -> F :=
  fun k => let i := k / 4 in
    match k mod 4 with
    | 0 => a i
    | 1 => b i
    | 2 => c i
    | _ => rhs i
    end.
End Cyclic.

Arguments m_ifcs {F} _.
Arguments m_recv {F} _.
Arguments m_ifx {F} _.
Arguments m_x1 {F} _.
Arguments m_xn {F} _.
Arguments m_x {F} _.
Arguments m_gam {F} _.
Arguments m_gam2 {F} _.
