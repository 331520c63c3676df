(** Model of BoutMesh's inter-processor connections: default_connections, set_connection, add_target and topology,
    /repo/src/mesh/impls/bout/boutmesh.cxx:1763-2100. *)
From Coq Require Import ZArith List Bool.
From Verif Require Import Base MeshModel.
Import ListNotations.
Open Scope Z_scope.

(** The connection members of BoutMesh (boutmesh.hxx: UDATA_XSPLIT, UDATA_INDEST, ... , IDATA_DEST, ODATA_DEST,
    TS_up_in, ...). *)
Record conn := mkconn {
  U_XSPLIT : Z; U_IN : Z; U_OUT : Z;
  D_XSPLIT : Z; D_IN : Z; D_OUT : Z;
  I_DEST : Z; O_DEST : Z;
  TS_ui : bool; TS_uo : bool; TS_di : bool; TS_do : bool
}.

Definition set_up (c : conn) (xs i o : Z) (ti to : bool) : conn :=
  mkconn xs i o (D_XSPLIT c) (D_IN c) (D_OUT c) (I_DEST c) (O_DEST c) ti to (TS_di c) (TS_do c).
Definition set_down (c : conn) (xs i o : Z) (ti to : bool) : conn :=
  mkconn (U_XSPLIT c) (U_IN c) (U_OUT c) xs i o (I_DEST c) (O_DEST c) (TS_ui c) (TS_uo c) ti to.

(** BoutMesh::default_connections, boutmesh.cxx:1763-1785. *)
Definition default_connections (m : mesh) (periodicX : bool) : conn :=
  let i := PROC_NUM m (PE_XIND m - 1) (PE_YIND m) in
  let o := PROC_NUM m (PE_XIND m + 1) (PE_YIND m) in
  let o := if periodicX && (PE_XIND m =? NXPE m - 1) then PROC_NUM m 0 (PE_YIND m) else o in
  let i := if periodicX && (PE_XIND m =? 0) then PROC_NUM m (NXPE m - 1) (PE_YIND m) else i in
  mkconn 0 (-1) (PROC_NUM m (PE_XIND m) (PE_YIND m + 1))
         0 (-1) (PROC_NUM m (PE_XIND m) (PE_YIND m - 1))
         i o false false false false.

(** BoutMesh::set_connection, boutmesh.cxx:1787-1910.  [mype] is MYPE. *)
Definition set_connection (m : mesh) (mype : Z) (c : conn) (ypos1 ypos2 xge xlt : Z) (ts : bool) : res conn :=
  if xlt <=? xge then Ok c else                                                   (* l.1788 *)
  if (ypos1 <? 0) || (ypos1 >=? MY m) then Ok c else                              (* l.1792: warning *)
  if (ypos2 <? 0) || (ypos2 >=? MY m) then Ok c else                              (* l.1797: warning *)
  do ype1 <- YPROC m ypos1;
  do ype2 <- YPROC m ypos2;
  let yind1 := YLOCAL m ypos1 ype1 in
  let yind2 := YLOCAL m ypos2 ype2 in
  do ud <- (if (yind1 =? MYG m) && (yind2 =? MYSUB m + MYG m - 1) then Ok (ype2, ype1)
            else if (yind2 =? MYG m) && (yind1 =? MYSUB m + MYG m - 1) then Ok (ype1, ype2)
            else Throw);                                                           (* l.1811-1823 *)
  let ypeup := fst ud in let ypedown := snd ud in
  if negb (xge =? 0) && negb (xlt =? MX m) then Throw else                         (* l.1826 *)
  let xge := getLocalXIndex m xge in
  let xlt := getLocalXIndex m xlt in
  if (xge >=? LocalNx m) || (xlt <=? 0) then Ok c else                            (* l.1841 *)
  let xge := if xge <? 0 then 0 else xge in
  let xlt := if xlt >? LocalNx m then LocalNx m else xlt in
  let c :=
    if mype =? PROC_NUM m (PE_XIND m) ypeup then                                   (* l.1852 *)
      if xge <=? MXG m
      then set_up c xlt (PROC_NUM m (PE_XIND m) ypedown) (if xlt =? LocalNx m then -1 else U_OUT c) ts (TS_uo c)
      else let uin := if U_XSPLIT c <=? 0 then U_OUT c else U_IN c in
           set_up c xge (if xge <=? 0 then -1 else uin) (PROC_NUM m (PE_XIND m) ypedown) (TS_ui c) ts
    else c in
  let c :=
    if mype =? PROC_NUM m (PE_XIND m) ypedown then                                 (* l.1880 *)
      if xge <=? MXG m
      then set_down c xlt (PROC_NUM m (PE_XIND m) ypeup) (if xlt =? LocalNx m then -1 else D_OUT c) ts (TS_do c)
      else let din := if D_XSPLIT c <=? 0 then D_OUT c else D_IN c in
           set_down c xge (if xge =? 0 then -1 else din) (PROC_NUM m (PE_XIND m) ypeup) (TS_di c) ts
    else c in
  Ok c.

(** BoutMesh::add_target, boutmesh.cxx:1912-1986. *)
Definition add_target (m : mesh) (mype : Z) (c : conn) (ypos xge xlt : Z) : res conn :=
  if xlt <=? xge then Ok c else
  if (ypos <? 0) || (ypos >=? MY m) then Ok c else
  do ypeup <- YPROC m ypos;
  do ypedown <- YPROC m (ypos + 1);
  if ypeup =? ypedown then Throw else
  let xge := getLocalXIndex m xge in
  let xlt := getLocalXIndex m xlt in
  if (xge >=? LocalNx m) || (xlt <=? 0) then Ok c else
  let c :=
    if mype =? PROC_NUM m (PE_XIND m) ypeup then
      if xge <=? MXG m
      then set_up c xlt (-1) (if xlt >=? LocalNx m then -1 else U_OUT c) (TS_ui c) (TS_uo c)
      else let uin := if U_XSPLIT c <=? 0 then U_OUT c else U_IN c in
           set_up c xge (if xge <=? 0 then -1 else uin) (-1) (TS_ui c) (TS_uo c)
    else c in
  let c :=
    if mype =? PROC_NUM m (PE_XIND m) ypedown then
      if xge <=? MXG m
      then set_down c xlt (-1) (if xlt >=? LocalNx m then -1 else D_OUT c) (TS_di c) (TS_do c)
      else let din := if D_XSPLIT c <=? 0 then D_OUT c else D_IN c in
           set_down c xge (if xge <=? 0 then -1 else din) (-1) (TS_di c) (TS_do c)
    else c in
  Ok c.

(** BoutMesh::topology, boutmesh.cxx:1992-2100: the connections of this processor, and MYPE_IN_CORE.
    ixseps_inner/outer/upper/lower are locals here.  The consistency checks l.1995-2008 that compare members just
    computed by setDerivedGridSizes are kept. *)
Definition topology (npes mype : Z) (m : mesh) (ix1 ix2 : Z) (periodicX : bool) : res (conn * bool) :=
  let s := seps m in
  if negb (npes =? NXPE m * NYPE m) then Throw else
  if negb (MYSUB m * NYPE m =? MY m) then Throw else
  if negb (MXSUB m * NXPE m =? MX m) then Throw else
  if (NXPE m >? 1) && (MXSUB m <? MXG m) then Throw else
  if MYSUB m <? MYG m then Throw else
  let c0 := default_connections m periodicX in
  do ci <- (if j21 s =? j12 s then
      (do c1 <- set_connection m mype c0 (j11 s + 1) (j22 s) 0 ix1 true;
       do c2 <- set_connection m mype c1 (j11 s) (j22 s + 1) 0 ix1 false;
       Ok (c2, ix1))
    else
      (do r1 <- cmod (nyin s - j21 s - 1) (MYSUB m);
       if negb (r1 =? 0) then Throw else
       do r2 <- cmod (j12 s - nyin s + 1) (MYSUB m);
       if negb (r2 =? 0) then Throw else
       (* ixseps_inner, ixseps_lower, ixseps_upper: l.2042-2059 *)
       let inner := if ix1 =? ix2 then ix1 else if ix1 <? ix2 then ix1 else ix2 in
       let lower := if ix1 =? ix2 then ix1 else if ix1 <? ix2 then ix1 else ix1 in
       let upper := if ix1 =? ix2 then ix1 else if ix1 <? ix2 then ix2 else ix2 in
       do c1 <- set_connection m mype c0 (j11 s + 1) (j22 s) 0 lower (ix1 <=? ix2);
       do c2 <- set_connection m mype c1 (j11 s) (j22 s + 1) 0 lower false;
       do c3 <- set_connection m mype c2 (j21 s) (j12 s + 1) 0 upper (ix1 >? ix2);
       do c4 <- set_connection m mype c3 (j21 s + 1) (j12 s) 0 upper false;
       do c5 <- add_target m mype c4 (nyin s - 1) 0 (g_nx m);
       Ok (c5, inner)));
  let c := fst ci in
  let y0 := PE_YIND m * MYSUB m in
  let core := (snd ci >? 0) &&
     (((y0 >? j11 s) && (y0 <=? j21 s)) || ((y0 >? j12 s) && (y0 <=? j22 s))) in    (* l.2082-2086 *)
  let c := if D_XSPLIT c >? LocalNx m
           then set_down c (LocalNx m) (D_IN c) (D_OUT c) (TS_di c) (TS_do c) else c in
  let c := if U_XSPLIT c >? LocalNx m
           then set_up c (LocalNx m) (U_IN c) (U_OUT c) (TS_ui c) (TS_uo c) else c in
  Ok (c, core).

(** BoutMesh::periodicY(int jx), boutmesh.cxx:2308-2310, with [core] = MYPE_IN_CORE and ixseps_inner as set by
    topology(). *)
Definition ixseps_inner (m : mesh) (ix1 ix2 : Z) : Z :=
  if j21 (seps m) =? j12 (seps m) then ix1
  else if ix1 =? ix2 then ix1 else if ix1 <? ix2 then ix1 else ix2.
Definition periodicY (m : mesh) (ix1 ix2 : Z) (core : bool) (jx : Z) : bool :=
  core && (getGlobalXIndex m jx <? ixseps_inner m ix1 ix2).
