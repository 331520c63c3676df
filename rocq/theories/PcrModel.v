(** Model of LaplacePCR (src/invert/laplace/impls/pcr/pcr.cxx): cyclic reduction inside a processor, parallel cyclic reduction
    between processors, for [nsys] tridiagonal systems at once.

    Simplifications. dcomplex is an arbitrary type [F] with field operations (no rounding); a division by zero ends in [Bad]. The
    four matrices a, b, c, r are one array of cells, indexed (system, row); the loops over the systems kz are done for all
    systems at once (they touch different elements). Array bounds are not checked. log2 of a power of two is exact. The ranks are
    those within the row of processors: myrank = yproc * nprocs + xproc, and all messages stay in the row. The matrix rows come
    from tridagMatrix (LaplaceModel), the transforms in z before and after are FftModel. The communicator and the machine are
    MpiModel. *)
From Coq Require Import List Arith Bool.
From Verif Require Import MpiModel.
Import ListNotations.
Local Open Scope mpi_scope.

Section Pcr.
Variable F : Type.
Variables (f0 f1 : F) (fadd fmul fsub fdiv : F -> F -> F) (fopp : F -> F).
Variable is_zero : F -> bool.
Local Infix "+!" := fadd (at level 50, left associativity).
Local Infix "-!" := fsub (at level 50, left associativity).
Local Infix "*!" := fmul (at level 40, left associativity).
Local Infix "/!" := fdiv (at level 40, left associativity).

(** One row of a system: coefficients of the unknown before, of the unknown itself, of the unknown after, right hand side. *)
Record cell := mkCell { ca : F; cb : F; cc : F; cr : F }.
Definition matrix := nat -> nat -> cell.   (* system, row *)
Definition vector := nat -> nat -> F.
Definition msg := nat -> F.                (* a buffer of dcomplex *)
Notation prog := (prog msg).
Definition set_row (d : matrix) (i : nat) (v : nat -> cell) : matrix := fun kz k => if k =? i then v kz else d kz k.
Definition set_x (x : vector) (i : nat) (v : nat -> F) : vector := fun kz k => if k =? i then v kz else x kz k.

Variables (nsys xstart n_mpi nprocs xproc : nat).
Definition nonzero (v : nat -> F) : bool := forallb (fun kz => negb (is_zero (v kz))) (seq 0 nsys).

(** sbuf[0 + 4 * kz] = a(kz, i) ... (717-722, 842-847, 949-954), a(kz, i) = rbuf[0 + 4 * kz] ... (727-732). *)
Definition pack (d : matrix) (i : nat) : msg := fun j =>
  let t := d (j / 4) i in match j mod 4 with 0 => ca t | 1 => cb t | 2 => cc t | _ => cr t end.
Definition unpack (d : matrix) (i : nat) (m : msg) : matrix :=
  set_row d i (fun kz => mkCell (m (0 + 4 * kz)) (m (1 + 4 * kz)) (m (2 + 4 * kz)) (m (3 + 4 * kz))).

(** 629-656 eliminate_boundary_rows: 638-642 for the rows ix, ix+1, ... ([m] of them) of the first processor, *)
Fixpoint elim_in (m ix : nat) (d : matrix) : prog matrix :=
  match m with
  | O => Ret d
  | S m' =>
    must (nonzero (fun kz => cb (d kz (ix - 1)))) ;;
    elim_in m' (S ix) (set_row d ix (fun kz =>
      mkCell f0 (cb (d kz ix) -! cc (d kz (ix - 1)) *! ca (d kz ix) /! cb (d kz (ix - 1))) (cc (d kz ix))
             (cr (d kz ix) -! cr (d kz (ix - 1)) *! ca (d kz ix) /! cb (d kz (ix - 1)))))
  end.
(** 650-654 for the rows ix, ix-1, ... of the last. *)
Fixpoint elim_out (m ix : nat) (d : matrix) : prog matrix :=
  match m with
  | O => Ret d
  | S m' =>
    must (nonzero (fun kz => cb (d kz (ix + 1)))) ;;
    elim_out m' (ix - 1) (set_row d ix (fun kz =>
      mkCell (ca (d kz ix)) (cb (d kz ix) -! cc (d kz ix) *! ca (d kz (ix + 1)) /! cb (d kz (ix + 1))) f0
             (cr (d kz ix) -! cc (d kz ix) *! cr (d kz (ix + 1)) /! cb (d kz (ix + 1)))))
  end.
Definition firstX : bool := xproc =? 0.
Definition lastX : bool := xproc =? nprocs - 1.
(** 107-121: xs is 0 on the first processor and xstart elsewhere, xe is LocalNx - 1 on the last and xend elsewhere; the rows
    kept are xs ... xe. Not periodic. *)
Definition offset : nat := if firstX then xstart else 0.                                        (* xstart - xs, 594 *)
Definition nrows : nat := offset + n_mpi + (if lastX then xstart else 0).                        (* xe - xs + 1 *)
Definition eliminate_boundary_rows (d : matrix) : prog matrix :=
  mdo d <- (if firstX then elim_in xstart 1 d else Ret d);
  if lastX then elim_out xstart (nrows - 2) d else Ret d.

(** 661-682 apply_boundary_conditions. *)
Fixpoint bc_in (m : nat) (d : matrix) (x : vector) : prog vector :=   (* ix = m - 1, ..., 0 *)
  match m with
  | O => Ret x
  | S ix =>
    must (nonzero (fun kz => cb (d kz ix))) ;;
    bc_in ix d (set_x x ix (fun kz => (cr (d kz ix) -! cc (d kz ix) *! x kz (ix + 1)) /! cb (d kz ix)))
  end.
Fixpoint bc_out (m ix : nat) (d : matrix) (x : vector) : prog vector :=
  match m with
  | O => Ret x
  | S m' =>
    must (nonzero (fun kz => cb (d kz ix))) ;;
    bc_out m' (S ix) d (set_x x ix (fun kz => (cr (d kz ix) -! ca (d kz ix) *! x kz (ix - 1)) /! cb (d kz ix)))
  end.
Definition apply_boundary_conditions (d : matrix) (x : vector) : prog vector :=
  mdo x <- (if firstX then bc_in xstart d x else Ret x);
  if lastX then bc_out xstart (nrows - xstart) d x else Ret x.

(** 743-746, 939-942: rows [lo] and [hi] times alpha and gamma added to row [mid]. *)
Definition reduce_row (al ga : F) (lo mid hi : cell) : cell :=
  mkCell (al *! ca lo) (cb mid +! (al *! cc lo +! ga *! ca hi)) (ga *! cc hi) (cr mid +! (al *! cr lo +! ga *! cr hi)).
(** 735-748 the loop over i; [fuel] bounds the number of iterations (reaching it is [Bad]). *)
Fixpoint forward_rows (fuel i dist : nat) (d : matrix) : prog matrix :=
  match fuel with
  | O => Bad
  | S fuel' =>
    if n_mpi <? i then Ret d
    else
      let ip := i - dist in
      let inn := Nat.min (i + dist) (n_mpi + 1) in
      must (nonzero (fun kz => cb (d kz ip)) && nonzero (fun kz => cb (d kz inn))) ;;
      forward_rows fuel' (i + 2 * dist) dist (set_row d i (fun kz =>
        reduce_row (fopp (ca (d kz i)) /! cb (d kz ip)) (fopp (cc (d kz i)) /! cb (d kz inn)) (d kz ip) (d kz i) (d kz inn)))
  end.
(** 689-756 cr_forward_multiple_row; [nl] levels remain, dist_row is [dist]. Requests 0 and 1. *)
Fixpoint cr_forward (nl dist : nat) (d : matrix) : prog matrix :=
  match nl with
  | O => Ret d
  | S nl' =>
    when (xproc <? nprocs - 1) (irecv 0 (xproc + 1) 0) ;;
    when (0 <? xproc) (fill ;; isend 1 (xproc - 1) 0 (pack d dist)) ;;
    mdo d <- (if xproc <? nprocs - 1 then (mdo m <- wait_recv 0; Ret (unpack d (n_mpi + 1) m)) else Ret d);
    mdo d <- forward_rows (S n_mpi) (2 * dist) dist d;
    when (0 <? xproc) (wait_send 1) ;;
    cr_forward nl' (2 * dist) d
  end.

(** 849-913: the exchange of rows with the processors [dist] to the right and to the left; the tags of the two branches. *)
Definition exchange (rp sp rm sm dist : nat) (d : matrix) : prog matrix :=
  when (xproc + dist <? nprocs) (irecv 0 (xproc + dist) rp ;; isend 1 (xproc + dist) sp (pack d n_mpi)) ;;
  when (dist <=? xproc) (irecv 2 (xproc - dist) rm ;; isend 3 (xproc - dist) sm (pack d n_mpi)) ;;
  mdo d <- (if xproc + dist <? nprocs then (mdo m <- wait_recv 0; wait_send 1 ;; Ret (unpack d (n_mpi + 1) m)) else Ret d);
  if dist <=? xproc then (mdo m <- wait_recv 2; wait_send 3 ;; Ret (unpack d 0 m)) else Ret d.
(** 833-946 the levels of pcr_forward_single_row. *)
Fixpoint pcr_forward (nl dist : nat) (d : matrix) : prog matrix :=
  match nl with
  | O => Ret d
  | S nl' =>
    let ml := xproc / dist in
    let nlev := nprocs / dist in
    fill ;;
    mdo d <- (if (ml + 1) mod 2 =? 0 then exchange 202 203 200 201 dist d else exchange 201 200 203 202 dist d);
    must ((ml =? 0) || nonzero (fun kz => cb (d kz 0))) ;;
    must ((ml =? nlev - 1) || nonzero (fun kz => cb (d kz (n_mpi + 1)))) ;;
    pcr_forward nl' (2 * dist) (set_row d n_mpi (fun kz =>
      reduce_row (if ml =? 0 then f0 else fopp (ca (d kz n_mpi)) /! cb (d kz 0))
                 (if ml =? nlev - 1 then f0 else fopp (cc (d kz n_mpi)) /! cb (d kz (n_mpi + 1)))
                 (d kz 0) (d kz n_mpi) (d kz (n_mpi + 1))))
  end.
(** 948-1013 two by two systems for rows [lo] and [hi]. *)
Definition det2 (lo hi : cell) : F := cb lo *! cb hi -! cc lo *! ca hi.
Definition x_lo (lo hi : cell) : F := (cr lo *! cb hi -! cr hi *! cc lo) /! det2 lo hi.
Definition x_hi (lo hi : cell) : F := (cr hi *! cb lo -! cr lo *! ca hi) /! det2 lo hi.
Definition solve_pair (d : matrix) (x : vector) : prog (matrix * vector) :=
  let nh := nprocs / 2 in
  fill ;;
  if xproc <? nh then
    (irecv 0 (xproc + nh) 300 ;; isend 1 (xproc + nh) 301 (pack d n_mpi) ;;
     mdo m <- wait_recv 0;
     let d := unpack d (n_mpi + 1) m in
     must (nonzero (fun kz => det2 (d kz n_mpi) (d kz (n_mpi + 1)))) ;;
     wait_send 1 ;;
     Ret (d, set_x (set_x x n_mpi (fun kz => x_lo (d kz n_mpi) (d kz (n_mpi + 1)))) (n_mpi + 1) (fun kz => x_hi (d kz n_mpi) (d kz (n_mpi + 1)))))
  else
    (mdo d <- (if 0 <? nh then
                 (irecv 2 (xproc - nh) 301 ;; isend 3 (xproc - nh) 300 (pack d n_mpi) ;;
                  mdo m <- wait_recv 2; Ret (unpack d 0 m))
               else Ret d);
     must (nonzero (fun kz => det2 (d kz 0) (d kz n_mpi))) ;;
     when (0 <? nh) (wait_send 3) ;;
     Ret (d, set_x (set_x x 0 (fun kz => x_lo (d kz 0) (d kz n_mpi))) n_mpi (fun kz => x_hi (d kz 0) (d kz n_mpi)))).

(** 793-801. *)
Fixpoint back_rows (fuel i dist : nat) (d : matrix) (x : vector) : prog vector :=
  match fuel with
  | O => Bad
  | S fuel' =>
    must (nonzero (fun kz => cb (d kz i))) ;;
    let x := set_x x i (fun kz => (cr (d kz i) -! cc (d kz i) *! x kz (i + dist) -! ca (d kz i) *! x kz (i - dist)) /! cb (d kz i)) in
    if i <? 2 * dist then Ret x else back_rows fuel' (i - 2 * dist) dist d x
  end.
Fixpoint back_levels (nl dist : nat) (d : matrix) (x : vector) : prog vector :=
  match nl with
  | O => Ret x
  | S nl' => mdo x <- back_rows (S n_mpi) (n_mpi - dist) dist d x; back_levels nl' (dist / 2) d x
  end.
(** 762-806 cr_backward_multiple_row. *)
Definition cr_backward (d : matrix) (x : vector) : prog vector :=
  when (0 <? xproc) (irecv 0 (xproc - 1) 100) ;;
  when (xproc <? nprocs - 1) (isend 1 (xproc + 1) 100 (fun kz => x kz n_mpi)) ;;
  mdo x <- (if 0 <? xproc then (mdo m <- wait_recv 0; Ret (set_x x 0 m)) else Ret x);
  mdo x <- back_levels (Nat.log2 n_mpi) (n_mpi / 2) d x;
  when (xproc <? nprocs - 1) (wait_send 1) ;;
  Ret x.

(** 558-622 cr_pcr_solver: [d] are a_mpi, b_mpi, c_mpi, r_mpi, [x] is x_mpi. The loops run over the systems kz < nsys: x_mpi
    keeps what it had for the others (the last line). *)
Definition unit_row : cell := mkCell f0 f1 f0 f0.
Definition interior (d : matrix) : matrix := fun kz k => if (k =? 0) || (k =? n_mpi + 1) then unit_row else d kz (k - 1 + offset).
Definition interior_x (x : vector) : vector := fun kz k => if (k =? 0) || (k =? n_mpi + 1) then f0 else x kz (k - 1 + offset).
Definition copy_back (y x : vector) : vector := fun kz j => if (offset <=? j) && (j <? offset + n_mpi) then y kz (j - offset + 1) else x kz j.
Definition cr_pcr_solver (d : matrix) (x : vector) : prog vector :=
  mdo d <- eliminate_boundary_rows d;
  mdo w <- cr_forward (Nat.log2 n_mpi) 1 (interior d);
  mdo w <- pcr_forward (Nat.log2 nprocs - 1) 1 w;
  mdo s <- solve_pair w (interior_x x);
  mdo y <- cr_backward (fst s) (snd s);
  mdo z <- apply_boundary_conditions d (copy_back y x);
  Ret (fun kz j => if kz <? nsys then z kz j else x kz j).
End Pcr.
(** The calls made to one LaplacePCR object, and its member nsys (pcr.hxx:161, initially 0): set to nmode * ny by
    solve(Field3D, Field3D) (pcr.cxx:362), not set by solve(FieldPerp, FieldPerp) (141-314), which has nmode systems. *)
Inductive call := SolvePerp | Solve3D (ny : nat).
Definition nsys_of (nmode old : nat) (c : call) : nat := match c with SolvePerp => old | Solve3D ny => nmode * ny end.
Definition nsys_after (nmode : nat) (h : list call) : nat := fold_left (nsys_of nmode) h 0.
