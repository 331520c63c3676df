(** Model of BoutMesh's domain decomposition: /repo/src/mesh/impls/bout/boutmesh.cxx.
    C++ [int] is unbounded [Z]; `/` and `%` are Z.quot / Z.rem, division by zero is [UB].
    Output to the log is not modelled. *)
From Coq Require Import ZArith Reals List Bool.
From Verif Require Import Base.
Import ListNotations.
Open Scope Z_scope.

(** C++ `a / b` and `a % b` on int. *)
Definition cdiv (a b : Z) : res Z := if b =? 0 then UB else Ok (Z.quot a b).
Definition cmod (a b : Z) : res Z := if b =? 0 then UB else Ok (Z.rem a b).

(** The poloidal (y) branch-cut indices held by BoutMesh: jyseps1_1, jyseps2_1, jyseps1_2, jyseps2_2 and
    ny_inner (boutmesh.hxx, members of the same names). *)
Record yseps := mkyseps { j11 : Z; j21 : Z; j12 : Z; j22 : Z; nyin : Z }.

(** BoutMesh::setYDecompositionIndices, boutmesh.cxx:106-156; returns the stored indices and
    numberOfXPoints.  The warnings written to the log are not modelled. *)
Definition setYDecompositionIndices (ny : Z) (s : yseps) : res (yseps * Z) :=
  let a := if j11 s <? -1 then -1 else j11 s in                                   (* l.116-120 *)
  let b := if j21 s <? a then a + 1 else j21 s in                                 (* l.122-127 *)
  let c := if j12 s <? b then b else j12 s in                                     (* l.128-133 *)
  let d := if j22 s >=? ny then ny - 1 else j22 s in                              (* l.134-139 *)
  do d' <- (if d <? c then (if c >=? ny then Throw else Ok c) else Ok d);          (* l.140-148 *)
  let nxp := if (a <? 0) && (d' >=? ny - 1) then 0
             else if b =? c then 1 else 2 in                                      (* l.150-156 *)
  Ok (mkyseps a b c d' (nyin s), nxp).

(** bout::checkBoutMeshYDecomposition, boutmesh.cxx:165-238: the boolean `success`. *)
Definition checkY (nype ny myg : Z) (s : yseps) : res bool :=
  do nloc <- cdiv ny nype;
  if (nloc <? myg) && negb (nype =? 1) then Ok false else                           (* l.174-178 *)
  do r1 <- cmod (j11 s + 1) nloc;
  if negb (r1 =? 0) then Ok false else                                            (* l.180-184 *)
  do ok <- (if negb (j21 s =? j12 s)
            then (do r2 <- cmod (j21 s - j11 s) nloc;
                  if negb (r2 =? 0) then Ok false else
                  do r3 <- cmod (j22 s - j12 s) nloc;
                  if negb (r3 =? 0) then Ok false else
                  do r4 <- cmod (nyin s - j21 s - 1) nloc;
                  if negb (r4 =? 0) then Ok false else
                  do r5 <- cmod (j12 s - nyin s + 1) nloc;
                  Ok (r5 =? 0))
            else (do r2 <- cmod (j22 s - j11 s) nloc; Ok (r2 =? 0)));
  if negb ok then Ok false else
  do r6 <- cmod (ny - j22 s - 1) nloc;                                              (* l.229-234 *)
  Ok (r6 =? 0).

(** BoutMesh::chooseProcessorSplit, boutmesh.cxx:241-280.  [user] is the option that is set: [inl v] for NXPE=v
    (which wins), [inr v] for NYPE=v.  Result: (NXPE, NYPE). *)
Definition chooseProcessorSplit (npes ny myg : Z) (s : yseps) (user : Z + Z) : res (Z * Z) :=
  do xy <- (match user with
            | inl nxpe => do r <- cmod npes nxpe;
                          if negb (r =? 0) then Throw else do q <- cdiv npes nxpe; Ok (nxpe, q)
            | inr nype => do r <- cmod npes nype;
                          if negb (r =? 0) then Throw else do q <- cdiv npes nype; Ok (q, nype)
            end);
  do ok <- checkY (snd xy) ny myg s;
  if negb ok then Throw else Ok xy.

(** `fabs(ideal - i) < fabs(ideal - NXPE)`, l.312, as an exact real comparison. *)
Definition closer (ideal : R) (i nxpe : Z) : bool :=
  if Rlt_dec (Rabs (ideal - IZR i)) (Rabs (ideal - IZR nxpe)) then true else false.

(** One iteration of the loop at boutmesh.cxx:292-317. *)
Definition split_step (npes mx ny myg : Z) (s : yseps) (ideal : R) (i best : Z) : res Z :=
  do r1 <- cmod npes i;
  if negb (r1 =? 0) then Ok best else
  do r2 <- cmod mx i;
  if negb (r2 =? 0) then Ok best else
  do q <- cdiv npes i;
  do r3 <- cmod ny q;
  if negb (r3 =? 0) then Ok best else
  do ok <- checkY q ny myg s;
  if negb ok then Ok best else
  Ok (if (best <? 1) || closer ideal i best then i else best).

(** The loop itself, `for (int i = 1; i <= NPES; i++)`: [n] iterations starting at [i]. *)
Fixpoint split_loop (n : nat) (npes mx ny myg : Z) (s : yseps) (ideal : R) (i best : Z) : res Z :=
  match n with
  | O => Ok best
  | S n' => do b <- split_step npes mx ny myg s ideal i best;
            split_loop n' npes mx ny myg s ideal (i + 1) b
  end.

(** BoutMesh::findProcessorSplit, boutmesh.cxx:282-327.  Simplification: `ideal` is the exact real square root
    (the C++ one is rounded; with ny = 0 it is infinite, here Coq's R division gives 0 on that input). *)
Definition findProcessorSplit (npes nx mxg ny myg : Z) (s : yseps) : res (Z * Z) :=
  let mx := nx - 2 * mxg in
  let ideal := sqrt (IZR (mx * npes) / IZR ny) in
  do nxpe <- split_loop (Z.to_nat npes) npes mx ny myg s ideal 1 (-1);
  if nxpe <? 1 then Throw else
  do nype <- cdiv npes nxpe;
  Ok (nxpe, nype).

(** The part of a BoutMesh object used by the index maps and the topology: one value per processor. *)
Record mesh := mkmesh {
  g_nx : Z; g_ny : Z;                     (* global grid, nx includes the x boundaries, ny excludes them *)
  MXG : Z; MYG : Z;                       (* guard cells *)
  NXPE : Z; NYPE : Z;                     (* processor grid *)
  PE_XIND : Z; PE_YIND : Z;               (* this processor *)
  MX : Z; MY : Z; MXSUB : Z; MYSUB : Z;   (* derived sizes *)
  LocalNx : Z; LocalNy : Z;
  GlobalNx : Z; GlobalNy : Z;
  xstart : Z; xend : Z; ystart : Z; yend : Z;
  OffsetX : Z; OffsetY : Z;
  seps : yseps
}.

(** BoutMesh::setDerivedGridSizes, boutmesh.cxx:329-395 (the z sizes, which use NZPE = 1, are omitted). *)
Definition setDerivedGridSizes (nx ny mxg myg nxpe nype px py : Z) (s : yseps) : res mesh :=
  if nx <=? 2 * mxg then Throw else                                               (* l.331-333 *)
  let gny := ny + 2 * myg in
  let gny := if negb (j12 s =? j21 s) then gny + 2 * myg else gny in              (* l.341-343 *)
  let mx := nx - 2 * mxg in
  do mxsub <- cdiv mx nxpe;
  do rx <- cmod mx nxpe;
  if negb (rx =? 0) then Throw else                                               (* l.352-357 *)
  do mysub <- cdiv ny nype;
  do ry <- cmod ny nype;
  if negb (ry =? 0) then Throw else                                               (* l.360-366 *)
  Ok (mkmesh nx ny mxg myg nxpe nype px py mx ny mxsub mysub
             (mxsub + 2 * mxg) (mysub + 2 * myg) nx gny
             mxg (mxg + mxsub - 1) myg (myg + mysub - 1) (px * mxsub) (py * mysub) s).

(** BoutMesh::load, boutmesh.cxx:478-494: from grid data and rank to the decomposed mesh.
    [user = None]: neither NXPE nor NYPE is set. *)
Definition load_decomposition (npes mype nx ny mxg myg : Z) (s : yseps) (user : option (Z + Z)) : res mesh :=
  do sn <- setYDecompositionIndices ny s;
  let s' := fst sn in
  do xy <- (match user with
            | Some u => chooseProcessorSplit npes ny myg s' u
            | None => findProcessorSplit npes nx mxg ny myg s'
            end);
  do py <- cdiv mype (fst xy);                                                     (* l.490 *)
  do px <- cmod mype (fst xy);                                                     (* l.491 *)
  setDerivedGridSizes nx ny mxg myg (fst xy) (snd xy) px py s'.

(** Index maps, boutmesh.cxx:1604-1685. *)
Definition PROC_NUM (m : mesh) (xind yind : Z) : Z :=
  if (xind >=? NXPE m) || (xind <? 0) then -1
  else if (yind >=? NYPE m) || (yind <? 0) then -1
  else yind * NXPE m + xind.

Definition getGlobalXIndex (m : mesh) (xl : Z) : Z := xl + PE_XIND m * MXSUB m.
Definition getGlobalXIndexNoBoundaries (m : mesh) (xl : Z) : Z := xl + PE_XIND m * MXSUB m - MXG m.
Definition getLocalXIndex (m : mesh) (xg : Z) : Z := xg - PE_XIND m * MXSUB m.
Definition getLocalXIndexNoBoundaries (m : mesh) (xg : Z) : Z := xg - PE_XIND m * MXSUB m + MXG m.

(** The test `jyseps1_2 > jyseps2_1 and PE_YIND * MYSUB + 2 * MYG + 1 > ny_inner`, l.1641 and l.1654. *)
Definition past_upper_target (m : mesh) : bool :=
  (j12 (seps m) >? j21 (seps m)) && (PE_YIND m * MYSUB m + 2 * MYG m + 1 >? nyin (seps m)).

Definition getGlobalYIndex (m : mesh) (yl : Z) : Z :=
  let yg := yl + PE_YIND m * MYSUB m in if past_upper_target m then yg + 2 * MYG m else yg.
Definition getLocalYIndex (m : mesh) (yg : Z) : Z :=
  let yl := yg - PE_YIND m * MYSUB m in if past_upper_target m then yl - 2 * MYG m else yl.
Definition getGlobalYIndexNoBoundaries (m : mesh) (yl : Z) : Z := yl + PE_YIND m * MYSUB m - MYG m.
Definition getLocalYIndexNoBoundaries (m : mesh) (yg : Z) : Z := yg - PE_YIND m * MYSUB m + MYG m.

(** YGLOBAL(int,int), YLOCAL, YPROC, XPROC: boutmesh.cxx:1665-1685. *)
Definition YGLOBAL (m : mesh) (yloc yproc : Z) : Z := yloc + yproc * MYSUB m - MYG m.
Definition YLOCAL (m : mesh) (yglo yproc : Z) : Z := yglo - yproc * MYSUB m + MYG m.
Definition YPROC (m : mesh) (yind : Z) : res Z :=
  if (yind <? 0) || (yind >=? g_ny m) then Ok (-1) else cdiv yind (MYSUB m).
Definition XPROC (m : mesh) (xind : Z) : res Z :=
  if xind >=? MXG m then cdiv (xind - MXG m) (MXSUB m) else Ok 0.
