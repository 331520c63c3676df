(** Model of the communicators of a BoutMesh: /repo/src/mesh/impls/bout/boutmesh.cxx:582-922 createCommunicators, 1564-1593
    firstY(int)/lastY(int), 2364-2402 ySize, 2404-2413 getYcomm, and /repo/src/mesh/surfaceiter.cxx.
    A communicator is the list of the world ranks of its processes, in the order of their ranks in it; MPI_COMM_NULL is
    [None].  MPI_Group_range_incl lists first, first+stride, .. up to last, and an invalid range is an MPI error (the default
    handler aborts: [Throw]); MPI_Group_union appends the ranks of the second group that are not in the first;
    MPI_Comm_create gives the communicator of the group to its members and MPI_COMM_NULL to the others (all processes
    make the same calls, with groups that do not depend on the calling process, as it requires); MPI_Comm_dup keeps the
    list and is an error on MPI_COMM_NULL.  Groups and communicators are not freed.  Debug output is left out. *)
From Coq Require Import ZArith List Bool.
From Verif Require Import Base MeshModel TopoModel.
Import ListNotations.
Open Scope Z_scope.

Definition inz (k : Z) (l : list Z) : bool := existsb (Z.eqb k) l.
Definition group_range_incl (npes first last stride : Z) : res (list Z) :=
  if (0 <=? first) && (first <=? last) && (last <? npes) && (0 <? stride)
  then Ok (map (fun k => first + Z.of_nat k * stride) (seq 0 (Z.to_nat ((last - first) / stride) + 1)))
  else Throw.
Definition group_union (a b : list Z) : list Z := a ++ filter (fun k => negb (inz k a)) b.
Definition comm_create (me : Z) (g : list Z) : option (list Z) := if inz me g then Some g else None.
Definition comm_dup (c : option (list Z)) : res (option (list Z)) := match c with Some _ => Ok c | None => Throw end.

(** boutmesh.cxx:2016-2057: the separatrix positions set by topology(). *)
Definition single_null (m : mesh) : bool := j21 (seps m) =? j12 (seps m).
Definition ixs_lower (m : mesh) (ix1 ix2 : Z) : Z := ix1.
Definition ixs_upper (m : mesh) (ix1 ix2 : Z) : Z := if single_null m then ix1 else ix2.
Definition ixs_outer (m : mesh) (ix1 ix2 : Z) : Z :=
  if single_null m then ix1 else if ix1 =? ix2 then ix1 else if ix1 <? ix2 then ix2 else ix1.

Record comms := mkcomms { comm_x : option (list Z); comm_inner : option (list Z); comm_middle : option (list Z); comm_outer : option (list Z) }.
Definition set_x (s : comms) c := mkcomms c (comm_inner s) (comm_middle s) (comm_outer s).
Definition set_inner (s : comms) c := mkcomms (comm_x s) c (comm_middle s) (comm_outer s).
Definition set_middle (s : comms) c := mkcomms (comm_x s) (comm_inner s) c (comm_outer s).
Definition set_outer (s : comms) c := mkcomms (comm_x s) (comm_inner s) (comm_middle s) c.

(** for (int i = 0; i < n; i++) body. *)
Fixpoint loop (k : nat) (i : Z) (body : Z -> comms -> res comms) (s : comms) : res comms :=
  match k with
  | O => Ok s
  | S k' => do s' <- body i s; loop k' (i + 1) body s'
  end.
Definition upto (n : Z) (body : Z -> comms -> res comms) (s : comms) : res comms := loop (Z.to_nat n) 0 body s.

Section C.
Variables (npes me : Z) (m : mesh) (ix1 ix2 : Z).
Let s := seps m.
Let ny := g_ny m.
Let lower := ixs_lower m ix1 ix2.
Let upper := ixs_upper m ix1 ix2.
Let inner := ixseps_inner m ix1 ix2.
Let outer := ixs_outer m ix1 ix2.

(** proc[0] = PROC_NUM(i, yp0), proc[1] = PROC_NUM(i, yp1), stride NXPE. *)
Definition ygroup (i yp0 yp1 : Z) : res (list Z) := group_range_incl npes (PROC_NUM m i yp0) (PROC_NUM m i yp1) (NXPE m).

(** 594-626: X communicators. *)
Definition xcomm (yp : Z) (st : comms) : res comms :=
  do g <- group_range_incl npes (PROC_NUM m 0 yp) (PROC_NUM m (NXPE m - 1) yp) 1;
  let c := comm_create me g in
  if yp =? PE_YIND m
  then match c with None => Throw | Some _ => Ok (set_x st c) end
  else match c with None => Ok st | Some _ => Throw end.

(** 636-663: outer SOL, single null. *)
Definition outer_single (i : Z) (st : comms) : res comms :=
  do g <- ygroup i 0 (NYPE m - 1);
  let c := comm_create me g in
  if i =? PE_XIND m
  then match c with None => Throw | Some _ => Ok (set_outer st c) end
  else match c with None => Ok st | Some _ => Throw end.
(** 664-698: double null. *)
Definition outer_double (i : Z) (st : comms) : res comms :=
  do yp <- YPROC m (nyin s - 1);
  do g <- ygroup i 0 yp;
  let st := match comm_create me g with Some _ => set_outer st (comm_create me g) | None => st end in
  do yp <- YPROC m (nyin s);
  do g <- ygroup i yp (NYPE m - 1);
  Ok (match comm_create me g with Some _ => set_outer st (comm_create me g) | None => st end).

(** 703-754: lower private flux region. *)
Definition lower_pf (i : Z) (st : comms) : res comms :=
  if (j11 s >=? 0) || (j22 s + 1 <? ny) then
    do g1 <- (if j11 s >=? 0 then do yp <- YPROC m (j11 s); ygroup i 0 yp else Ok []);
    do g2 <- (if j22 s + 1 <? ny then do yp <- YPROC m (j22 s + 1); ygroup i yp (NYPE m - 1) else Ok []);
    let c := comm_create me (group_union g1 g2) in
    match c with
    | Some _ => let st := set_inner st c in
                if lower =? outer then Ok (set_middle st (comm_inner st)) else Ok (set_middle st (comm_outer st))
    | None => Ok st
    end
  else Ok st.
(** 756-806: upper private flux region. *)
Definition upper_pf (i : Z) (st : comms) : res comms :=
  if negb (j21 s =? j12 s) then
    do y0 <- YPROC m (nyin s); do y1 <- YPROC m (j12 s);
    do g1 <- ygroup i y0 y1;
    do y0 <- YPROC m (j21 s + 1); do y1 <- YPROC m (nyin s - 1);
    do g2 <- ygroup i y0 y1;
    let c := comm_create me (group_union g1 g2) in
    match c with
    | Some _ => let st := set_inner st c in
                if upper =? outer then Ok (set_middle st (comm_inner st)) else Ok (set_middle st (comm_outer st))
    | None => Ok st
    end
  else Ok st.
(** 808-858: core. *)
Definition core_comm (i : Z) (st : comms) : res comms :=
  do g1 <- (if j21 s >? j11 s then
              do y0 <- YPROC m (j11 s + 1); do y1 <- YPROC m (j21 s);
              if (PROC_NUM m i y0 <? 0) || (PROC_NUM m i y1 <? 0) then Throw else ygroup i y0 y1
            else Ok []);
  do g2 <- (if j22 s >? j12 s then
              do y0 <- YPROC m (j12 s + 1); do y1 <- YPROC m (j22 s);
              if (PROC_NUM m i y0 <? 0) || (PROC_NUM m i y1 <? 0) then Ok [] else ygroup i y0 y1
            else Ok []);
  let c := comm_create me (group_union g1 g2) in
  match c with
  | Some _ => let st := set_inner st c in
              if inner =? outer then do d <- comm_dup (comm_inner st); Ok (set_middle st d) else Ok st
  | None => Ok st
  end.
Definition regions (i : Z) (st : comms) : res comms :=
  do st <- lower_pf i st; do st <- upper_pf i st; core_comm i st.

(** 866-918: between the separatrices. *)
Definition middle_lower (i : Z) (st : comms) : res comms :=
  do yp <- YPROC m (j21 s); do g1 <- ygroup i 0 yp;
  do yp <- YPROC m (j12 s + 1); do g2 <- ygroup i yp (NYPE m - 1);
  let c := comm_create me (group_union g1 g2) in
  Ok (match c with Some _ => set_middle st c | None => st end).
Definition middle_upper (i : Z) (st : comms) : res comms :=
  do y0 <- YPROC m (nyin s); do y1 <- YPROC m (j22 s); do g1 <- ygroup i y0 y1;
  do y0 <- YPROC m (j11 s + 1); do y1 <- YPROC m (nyin s - 1); do g2 <- ygroup i y0 y1;
  let c := comm_create me (group_union g1 g2) in
  Ok (match c with Some _ => set_middle st c | None => st end).

Definition createCommunicators : res comms :=
  do st <- upto (NYPE m) xcomm (mkcomms None None None None);
  do st <- (if j12 s =? j21 s then upto (NXPE m) outer_single st else upto (NXPE m) outer_double st);
  do st <- upto (NXPE m) regions st;
  if inner =? outer then do d <- comm_dup (comm_inner st); Ok (set_middle st d)
  else if upper >? lower then upto (NXPE m) middle_lower st else upto (NXPE m) middle_upper st.

(** 2404-2413. *)
Definition getYcomm (st : comms) (xpos : Z) : option (list Z) :=
  let xglobal := getGlobalXIndex m xpos in
  if xglobal <? inner then comm_inner st else if xglobal <? outer then comm_middle st else comm_outer st.

(** MPI_Comm_rank and MPI_Comm_size; calling them on MPI_COMM_NULL is an error. *)
Fixpoint index_of (k : Z) (l : list Z) : Z := match l with [] => 0 | a :: l' => if k =? a then 0 else 1 + index_of k l' end.
Definition comm_rank (c : option (list Z)) : res Z := match c with Some l => Ok (index_of me l) | None => Throw end.
Definition comm_size (c : option (list Z)) : res Z := match c with Some l => Ok (Z.of_nat (length l)) | None => Throw end.

(** 1564-1593 BoutMesh::firstY(int), lastY(int) (the three branches are getYcomm). *)
Definition mesh_firstY (st : comms) (xpos : Z) : res bool :=
  do k <- comm_rank (getYcomm st xpos); Ok (k =? 0).
Definition mesh_lastY (st : comms) (xpos : Z) : res bool :=
  do n <- comm_size (getYcomm st xpos); do k <- comm_rank (getYcomm st xpos); Ok (k =? n - 1).
(** surfaceiter.cxx:10-12 closed, 35-62 firstY, lastY; [core] is MYPE_IN_CORE. *)
Definition surf_closed (core : bool) (xpos : Z) : bool := periodicY m ix1 ix2 core xpos.
Definition surf_firstY (core : bool) (st : comms) (xpos : Z) : res bool :=
  if surf_closed core xpos then Ok false else mesh_firstY st xpos.
Definition surf_lastY (core : bool) (st : comms) (xpos : Z) : res bool :=
  if surf_closed core xpos then Ok false else mesh_lastY st xpos.

(** 2364-2402. *)
Definition ySize (xpos : Z) : Z :=
  let xglobal := getGlobalXIndex m xpos in
  let yglobal := getGlobalYIndexNoBoundaries m (MYG m) in
  if (xglobal <? lower) && ((yglobal <=? j11 s) || (yglobal >? j22 s)) then (j11 s + 1) + (ny - j22 s)
  else if (xglobal <? upper) && (yglobal >? j21 s) && (yglobal >=? j12 s) then j12 s - j21 s
  else if xglobal <? inner then (j21 s - j11 s) + (j22 s - j12 s)
  else if j21 s =? j12 s then ny
  else if (xglobal >=? inner) && (xglobal <? outer)
       then if lower <? upper then (j21 s + 1) + (ny - j12 s) else j22 s - j11 s
  else if yglobal <? nyin s then nyin s else ny - nyin s.
End C.
