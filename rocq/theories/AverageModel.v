(** Model of the averages and filters of /repo/src/physics/smoothing.cxx: averageX (121-222), averageY (224-330), Average_XY
    (332-352), Vol_Integral (354-374), nl_filter (404-430).

    f q x y z is the field on rank q (a Field2D does not depend on z). A communicator is the list of its world ranks (see
    YcommModel); MPI_Allreduce with MPI_SUM gives every member the sum of the inputs of the members, in the order of the list.
    All members of a communicator make the call (C69_agree). Every rank reduces over its own communicators, given by [st].
    BoutReal is R. *)
From Coq Require Import ZArith Reals List Bool.
From Verif Require Import Base MeshModel TopoModel YcommModel.
Import ListNotations.
Open Scope R_scope.

(** for (int i = a; i <= b; i++) s += g(i), from s = 0. *)
Definition sum_from_to (a b : Z) (g : Z -> R) : R := fold_left (fun s i => s + g i) (map (fun k => (a + Z.of_nat k)%Z) (seq 0 (Z.to_nat (b - a + 1)))) 0.
(** MPI_Allreduce, MPI_SUM; on MPI_COMM_NULL an error. *)
Definition sum_over (l : list Z) (v : Z -> R) : R := match l with [] => 0 | q :: t => fold_left Rplus (map v t) (v q) end.

Section A.
Variables (M : Z -> mesh) (ix1 ix2 : Z) (st : Z -> comms).

(** 129-137, 180-190: the average on rank q. *)
Definition local_x (f : Z -> Z -> Z -> Z -> R) (q y z : Z) : R :=
  sum_from_to (xstart (M q)) (xend (M q)) (fun x => f q x y z) / IZR (xend (M q) - xstart (M q) + 1).
(** 139-161, 192-219: the result on rank r at (x, y, z) for every x. *)
Definition averageX (f : Z -> Z -> Z -> Z -> R) (r x y z : Z) : res R :=
  match comm_x (st r) with
  | None => Throw
  | Some l => let np := Z.of_nat (length l) in
      if (np =? 1)%Z then Ok (local_x f r y z) else Ok (sum_over l (fun q => local_x f q y z) / IZR np)
  end.
(** 233-242, 283-293. *)
Definition local_y (f : Z -> Z -> Z -> Z -> R) (q x z : Z) : R :=
  sum_from_to (ystart (M q)) (yend (M q)) (fun y => f q x y z) / IZR (yend (M q) - ystart (M q) + 1).
(** 244-268, 295-327: the communicator is that of column 0, whatever x. *)
Definition averageY (f : Z -> Z -> Z -> Z -> R) (r x y z : Z) : res R :=
  match getYcomm (M r) ix1 ix2 (st r) 0 with
  | None => Throw
  | Some l => let np := Z.of_nat (length l) in
      if (np =? 1)%Z then Ok (local_y f r x z) else Ok (sum_over l (fun q => local_y f q x z) / IZR np)
  end.

(** 332-352; [ofR] the value of averageY, which is defined on all ranks or the program is aborted. *)
Definition ofR (v : res R) : R := match v with Ok a => a | _ => 0 end.
Definition Average_XY (f : Z -> Z -> Z -> Z -> R) (r : Z) : res R :=
  let Vol_Loc q := sum_from_to (xstart (M q)) (xend (M q)) (fun i => ofR (averageY f q i 0 0)) in
  match comm_x (st r), getYcomm (M r) ix1 ix2 (st r) 0 with
  | Some l, Some _ => if forallb (fun q => match getYcomm (M q) ix1 ix2 (st q) 0 with Some _ => true | None => false end) l
                      then Ok (sum_over l Vol_Loc / IZR (GlobalNx (M r) - 2 * xstart (M r))) else Throw
  | _, _ => Throw
  end.
(** boutmesh.cxx:2329-2335. *)
Definition numberOfYBoundaries (m : mesh) : Z := if negb (j21 (seps m) =? j12 (seps m))%Z then 2 else 1.
(** 354-374, with 2D metrics. *)
Definition Vol_Integral (J dx dy var : Z -> Z -> Z -> R) (r : Z) : res R :=
  do a <- Average_XY (fun q x y _ => J q x y * var q x y * dx q x y * dy q x y) r;
  Ok (a * (IZR ((GlobalNx (M r) - 2 * xstart (M r)) * (GlobalNy (M r) - numberOfYBoundaries (M r) * 2 * ystart (M r))) * PI * 2)).
End A.

(** ** 404-430 nl_filter. f.size() - 1 is computed in size_t, so an empty vector is read out of bounds ([UB]). *)
Definition nl_step (w : R) (f : nat -> R) (i : nat) : nat -> R :=
  let dp := f (i + 1)%nat - f i in
  let dm := f (i - 1)%nat - f i in
  if Rlt_dec 0 (dp * dm) then
    if Rlt_dec (Rabs dm) (Rabs dp) then
      let ep := w * 0.5 * dp in let em := w * dm in
      let e := if Rlt_dec (Rabs ep) (Rabs em) then ep else em in
      let f1 := fun j => if (j =? i + 1)%nat then f (i + 1)%nat - e else f j in
      fun j => if (j =? i)%nat then f1 i + e else f1 j
    else
      let ep := w * 0.5 * dm in let em := w * dp in
      let e := if Rlt_dec (Rabs ep) (Rabs em) then ep else em in
      let f1 := fun j => if (j =? i - 1)%nat then f (i - 1)%nat - e else f j in
      fun j => if (j =? i)%nat then f1 i + e else f1 j
  else f.
Definition nl_filter (n : nat) (w : R) (f : nat -> R) : res (nat -> R) :=
  if (n =? 0)%nat then UB else Ok (fold_left (nl_step w) (seq 1 (n - 2)) f).
