(** Model of BoutMesh guard-cell communication: msg_len (/repo/src/mesh/mesh.cxx:369-383), pack_data, unpack_data,
    post_receiveX/Y, sendX/Y, send, wait (/repo/src/mesh/impls/bout/boutmesh.cxx:1069-1420, 2241-2312) and
    Mesh::communicate (mesh.cxx:316-337).

    Simplifications: fields are scalars (elementSize() = 1; FieldGroup splits vectors into components); 2D fields are
    stored with z = 0; shiftZ (twist-shift interpolation in wait) is not applied, i.e. the fields are not
    field-aligned or TwistShift is off; parallel slices are not computed; blocking MPI_Send is assumed to be buffered
    (no deadlock from blocking sends) and the send requests of async_send carry no state.  MPI_Waitany's choice of
    the next completed request is an arbitrary permutation, a parameter. *)
From Coq Require Import ZArith List Bool.
From Verif Require Import Base MeshModel TopoModel.
Import ListNotations.
Open Scope Z_scope.

Section Comm.
Context {V : Type}.

(** A field on one processor: is3D() and element access. *)
Record field := mkfield { is3D : bool; dat : Z -> Z -> Z -> V }.

(** `for (int j = a; j < b; j++)` *)
Fixpoint zrange_from (a : Z) (n : nat) : list Z := match n with O => [] | S n' => a :: zrange_from (a + 1) n' end.
Definition zrange (a b : Z) : list Z := zrange_from a (Z.to_nat (b - a)).

(** Mesh::msg_len *)
Definition msg_len (nz : Z) (vars : list field) (xge xlt yge ylt : Z) : Z :=
  fold_left (fun len v => if is3D v then len + (xlt - xge) * (ylt - yge) * nz
                          else len + (xlt - xge) * (ylt - yge)) vars 0.

(** Cells of one variable in the loop order of pack_data and unpack_data (x outermost, z innermost). *)
Definition cells (nz : Z) (d3 : bool) (xge xlt yge ylt : Z) : list (Z * Z * Z) :=
  flat_map (fun jx => flat_map (fun jy => map (fun jz => (jx, jy, jz)) (if d3 then zrange 0 nz else [0]))
                               (zrange yge ylt)) (zrange xge xlt).

(** pack_data: the values written to buffer[0], buffer[1], ... The x loop is `jx != xlt`: it does not stop when
    xlt < xge. *)
Definition pack_data (nz : Z) (vars : list field) (xge xlt yge ylt : Z) : res (list V) :=
  match vars with
  | [] => Ok []
  | _ => if xlt <? xge then UB else
         Ok (flat_map (fun v => map (fun c => match c with (x, y, z) => dat v x y z end)
                                    (cells nz (is3D v) xge xlt yge ylt)) vars)
  end.

(** unpack_data: buffer is read from position [len] on. *)
Definition set_cell (f : Z -> Z -> Z -> V) (c : Z * Z * Z) (v : V) : Z -> Z -> Z -> V :=
  fun x y z => match c with (cx, cy, cz) => if (x =? cx) && (y =? cy) && (z =? cz) then v else f x y z end.
Fixpoint unpack_cells (buf : Z -> V) (cs : list (Z * Z * Z)) (f : Z -> Z -> Z -> V) (len : Z) : (Z -> Z -> Z -> V) * Z :=
  match cs with
  | [] => (f, len)
  | c :: cs' => unpack_cells buf cs' (set_cell f c (buf len)) (len + 1)
  end.
Fixpoint unpack_vars (nz : Z) (vars : list field) (xge xlt yge ylt : Z) (buf : Z -> V) (len : Z) : list field * Z :=
  match vars with
  | [] => ([], len)
  | v :: vs => let r := unpack_cells buf (cells nz (is3D v) xge xlt yge ylt) (dat v) len in
               let s := unpack_vars nz vs xge xlt yge ylt buf (snd r) in
               (mkfield (is3D v) (fst r) :: fst s, snd s)
  end.
Definition unpack_data (nz : Z) (vars : list field) (xge xlt yge ylt : Z) (buf : Z -> V) : res (list field * Z) :=
  match vars with
  | [] => Ok ([], 0)
  | _ => if xlt <? xge then UB else Ok (unpack_vars nz vars xge xlt yge ylt buf 0)
  end.

(** Which directions one exchange covers: sendY+wait, sendX+wait (with_corners or not), send+wait. *)
Inductive mode := YOnly | XOnly (corners : bool) | Both.
Definition does_y (o : mode) : bool := match o with XOnly _ => false | _ => true end.
Definition does_x (o : mode) : bool := match o with YOnly => false | _ => true end.
Definition corners (o : mode) : bool := match o with XOnly b => b | _ => false end.

(** Tags, boutmesh.cxx:1069-1075. *)
Definition IN_SENT_UP := 0. Definition OUT_SENT_UP := 1. Definition IN_SENT_DOWN := 2.
Definition OUT_SENT_DOWN := 3. Definition IN_SENT_OUT := 4. Definition OUT_SENT_IN := 5.

(** A message in flight: destination, tag, data. *)
Definition msg := (Z * Z * list V)%type.

Definition send_one (dest tag : Z) (data : res (list V)) : res (list msg) :=
  if dest =? -1 then Ok [] else do d <- data; Ok [(dest, tag, d)].

(** sendX: boutmesh.cxx:1180-1212; sendY: l.1250-1330. Returns the messages sent. *)
Definition sendX (m : mesh) (c : conn) (nz : Z) (vars : list field) (crn : bool) : res (list msg) :=
  let y0 := if crn then 0 else MYG m in
  let y1 := if crn then LocalNy m else MYG m + MYSUB m in
  do a <- send_one (I_DEST c) IN_SENT_OUT (pack_data nz vars (MXG m) (2 * MXG m) y0 y1);
  do b <- send_one (O_DEST c) OUT_SENT_IN (pack_data nz vars (MXSUB m) (MXSUB m + MXG m) y0 y1);
  Ok (a ++ b).
Definition sendY (m : mesh) (c : conn) (nz : Z) (vars : list field) : res (list msg) :=
  do a <- send_one (U_IN c) IN_SENT_UP (pack_data nz vars 0 (U_XSPLIT c) (MYSUB m) (MYSUB m + MYG m));
  do b <- send_one (U_OUT c) OUT_SENT_UP (pack_data nz vars (U_XSPLIT c) (LocalNx m) (MYSUB m) (MYSUB m + MYG m));
  do d <- send_one (D_IN c) IN_SENT_DOWN (pack_data nz vars 0 (D_XSPLIT c) (MYG m) (2 * MYG m));
  do e <- send_one (D_OUT c) OUT_SENT_DOWN (pack_data nz vars (D_XSPLIT c) (LocalNx m) (MYG m) (2 * MYG m));
  Ok (a ++ b ++ d ++ e).
Definition send_all (o : mode) (m : mesh) (c : conn) (nz : Z) (vars : list field) : res (list msg) :=
  do xs <- (if does_x o then sendX m c nz vars (corners o) else Ok []);
  do ys <- (if does_y o then sendY m c nz vars else Ok []);
  Ok (xs ++ ys).

(** Receive requests 0..5 of a CommHandle: source, tag, expected length, position in the receive buffer where MPI
    writes it; post_receiveY l.1097-1133 (requests 0-3), post_receiveX l.1077-1095 (4, 5). *)
Record request := mkreq { rq_src : Z; rq_tag : Z; rq_len : Z; rq_off : Z }.
Definition post_receive (o : mode) (m : mesh) (c : conn) (nz : Z) (vars : list field) (i : nat) : request :=
  let yrows := if corners o then LocalNy m else MYSUB m in
  let ulen := if U_IN c =? -1 then 0 else msg_len nz vars 0 (U_XSPLIT c) 0 (MYG m) in
  let dlen := if D_IN c =? -1 then 0 else msg_len nz vars 0 (D_XSPLIT c) 0 (MYG m) in
  match i with
  | O => mkreq (U_IN c) IN_SENT_DOWN (msg_len nz vars 0 (U_XSPLIT c) 0 (MYG m)) 0
  | 1%nat => mkreq (U_OUT c) OUT_SENT_DOWN (msg_len nz vars (U_XSPLIT c) (LocalNx m) 0 (MYG m)) ulen
  | 2%nat => mkreq (D_IN c) IN_SENT_UP (msg_len nz vars 0 (D_XSPLIT c) 0 (MYG m)) 0
  | 3%nat => mkreq (D_OUT c) OUT_SENT_UP (msg_len nz vars (D_XSPLIT c) (LocalNx m) 0 (MYG m)) dlen
  | 4%nat => mkreq (I_DEST c) OUT_SENT_IN (msg_len nz vars 0 (MXG m) 0 yrows) 0
  | _ => mkreq (O_DEST c) IN_SENT_OUT (msg_len nz vars 0 (MXG m) 0 yrows) 0
  end.

(** Requests that are actually posted. *)
Definition pending (o : mode) (m : mesh) (c : conn) (nz : Z) (vars : list field) : list nat :=
  filter (fun i => negb (rq_src (post_receive o m c nz vars i) =? -1))
         ((if does_y o then [0; 1; 2; 3] else []) ++ (if does_x o then [4; 5] else []))%nat.

(** The message that matches a request of rank [me]: MPI matches (source, destination, tag). *)
Fixpoint find_msg (ms : list msg) (me tag : Z) : option (list V) :=
  match ms with
  | [] => None
  | (d, t, data) :: ms' => if (d =? me) && (t =? tag) then Some data else find_msg ms' me tag
  end.

(** MPI writes received data into the buffer at the posted position. *)
Definition write_buf (buf : Z -> V) (off : Z) (data : list V) : Z -> V :=
  fun i => if i <? off then buf i else nth (Z.to_nat (i - off)) data (buf i).

(** Completion of request [i] in wait(): the switch at l.1380-1420.  [ms] are the messages sent by the source rank.
    A missing message hangs (UB); a message longer than posted is MPI_ERR_TRUNCATE (Throw). *)
Definition complete (o : mode) (m : mesh) (c : conn) (nz me : Z) (vars0 : list field) (junk : Z -> V)
                    (ms : Z -> list msg) (i : nat) (vars : list field) : res (list field) :=
  let rq := post_receive o m c nz vars0 i in
  match find_msg (ms (rq_src rq)) me (rq_tag rq) with
  | None => UB
  | Some data =>
    if Z.of_nat (length data) >? rq_len rq then Throw else
    let buf := write_buf junk (rq_off rq) data in
    let y0 := if corners o then 0 else MYG m in
    let y1 := if corners o then LocalNy m else MYG m + MYSUB m in
    let ulen := msg_len nz vars 0 (U_XSPLIT c) 0 (MYG m) in
    let dlen := msg_len nz vars 0 (D_XSPLIT c) 0 (MYG m) in
    do r <- (match i with
     | O => unpack_data nz vars 0 (U_XSPLIT c) (MYSUB m + MYG m) (MYSUB m + 2 * MYG m) buf
     | 1%nat => unpack_data nz vars (U_XSPLIT c) (LocalNx m) (MYSUB m + MYG m) (MYSUB m + 2 * MYG m) (fun j => buf (ulen + j))
     | 2%nat => unpack_data nz vars 0 (D_XSPLIT c) 0 (MYG m) buf
     | 3%nat => unpack_data nz vars (D_XSPLIT c) (LocalNx m) 0 (MYG m) (fun j => buf (dlen + j))
     | 4%nat => unpack_data nz vars 0 (MXG m) y0 y1 buf
     | _ => unpack_data nz vars (MXSUB m + MXG m) (MXSUB m + 2 * MXG m) y0 y1 buf
     end);
    Ok (fst r)
  end.

(** wait(): complete the requests in the order MPI_Waitany reports them. *)
Fixpoint wait_all (o : mode) (m : mesh) (c : conn) (nz me : Z) (vars0 : list field) (junk : Z -> V)
                  (ms : Z -> list msg) (order : list nat) (vars : list field) : res (list field) :=
  match order with
  | [] => Ok vars
  | i :: rest => do v <- complete o m c nz me vars0 junk ms i vars;
                 wait_all o m c nz me vars0 junk ms rest v
  end.

(** One exchange on rank [me]; [W] gives every rank's fields before the exchange, all ranks having called it. *)
Definition sent_by (o : mode) (M : Z -> mesh) (C : Z -> conn) (nz : Z) (W : Z -> list field) (r : Z) : list msg :=
  match send_all o (M r) (C r) nz (W r) with Ok ms => ms | _ => [] end.
Definition exchange (o : mode) (M : Z -> mesh) (C : Z -> conn) (nz : Z) (junk : Z -> V)
                    (W : Z -> list field) (me : Z) (order : list nat) : res (list field) :=
  do _ <- send_all o (M me) (C me) nz (W me);
  wait_all o (M me) (C me) nz me (W me) junk (sent_by o M C nz W) order (W me).

(** Mesh::communicate, mesh.cxx:316-337, as seen from all ranks: with include_corner_cells a y exchange and then an x
    exchange with corners, otherwise one exchange of both. [od] gives each rank's completion order in each phase. *)
Definition communicate (corner_cells : bool) (M : Z -> mesh) (C : Z -> conn) (nz : Z) (junk : Z -> V)
                       (W : Z -> list field) (od : bool -> Z -> list nat) (me : Z) : res (list field) :=
  if corner_cells then
    (do _ <- exchange YOnly M C nz junk W me (od false me);
     let W1 := fun r => match exchange YOnly M C nz junk W r (od false r) with Ok v => v | _ => W r end in
     exchange (XOnly true) M C nz junk W1 me (od true me))
  else exchange Both M C nz junk W me (od false me).
End Comm.
Arguments field : clear implicits.
Arguments msg : clear implicits.
