(** Model of the finite-volume operators on one grid line: include/bout/fv_ops.hxx and src/mesh/fv_ops.cxx.
    A line is the set of cells with fixed (x,z) (for the Y operators), (y,z) or (x,y); cell quantities are functions of the
    index along the line. BoutReal is R. Metric components are per cell of the line. The transform to and from field-aligned
    coordinates is not modelled (it is the identity on the line). *)
From Coq Require Import Reals ZArith List Bool.
From Verif Require Import DerivModel.
Local Open Scope R_scope.
Import ListNotations.

(** What the mesh says about the line: mesh->ystart, yend, firstY(i), lastY(i), periodicY(i). *)
Record yline := YLine { ystart : Z; yend : Z; firstY : bool; lastY : bool; periodicY : bool }.
(** coord->J, dy, g_22 along the line. *)
Record metric := Metric { mJ : Z -> R; mdy : Z -> R; mg22 : Z -> R }.

(** result(i, j, k) += d. *)
Definition add (res : Z -> R) (j : Z) (d : R) : Z -> R := fun x => if Z.eqb x j then res x + d else res x.
(** for (int j = a; j <= b; j++) body. *)
Fixpoint loop_n (n : nat) (j : Z) (body : Z -> (Z -> R) -> (Z -> R)) (res : Z -> R) : Z -> R :=
  match n with O => res | S n => loop_n n (j + 1) body (body j res) end.
Definition loop (a b : Z) (body : Z -> (Z -> R) -> (Z -> R)) (res : Z -> R) : Z -> R := loop_n (Z.to_nat (b + 1 - a)) a body res.
Definition zero : Z -> R := fun _ => 0.

Definition BOUTMAX2 (a b : R) := if Rgt_dec b a then b else a.           (* utils.hxx:472-476 *)

(** fv_ops.hxx:231-238, 241-247: the factor of the face between j and j', J/sqrt(g_22) averaged. *)
Definition common (g : metric) (j j' : Z) : R := (mJ g j + mJ g j') / (sqrt (mg22 g j) + sqrt (mg22 g j')).
(** fv_ops.hxx:283-287. *)
Definition cell_edges (lim : stencil -> edges) (f : Z -> R) (j : Z) : edges := lim (populate SNone f j).
(** fv_ops.hxx:293-329: the right flux of cell j. *)
Definition div_par_right (y : yline) (lim : stencil -> edges) (f v w : Z -> R) (fixflux : bool) (j : Z) : R :=
  let s := cell_edges lim f j in
  let vpar := 1 / 2 * (v j + v (j + 1)%Z) in
  if lastY y && Z.eqb j (yend y) && negb (periodicY y) then
    let bndryval := 1 / 2 * (f j + f (j + 1)%Z) in
    if fixflux then bndryval * vpar else eR s * vpar + w j * (eR s - bndryval)
  else
    let amax := BOUTMAX2 (w j) (w (j + 1)%Z) in
    if Rgt_dec vpar amax then eR s * vpar else if Rlt_dec vpar (- amax) then 0 else eR s * (1 / 2) * (vpar + amax).
(** fv_ops.hxx:337-363: the left flux of cell j. *)
Definition div_par_left (y : yline) (lim : stencil -> edges) (f v w : Z -> R) (fixflux : bool) (j : Z) : R :=
  let s := cell_edges lim f j in
  let vpar := 1 / 2 * (v j + v (j - 1)%Z) in
  if firstY y && Z.eqb j (ystart y) && negb (periodicY y) then
    let bndryval := 1 / 2 * (f j + f (j - 1)%Z) in
    if fixflux then bndryval * vpar else eL s * vpar - w j * (eL s - bndryval)
  else
    let amax := BOUTMAX2 (w j) (w (j - 1)%Z) in
    if Rlt_dec vpar (- amax) then eL s * vpar else if Rgt_dec vpar amax then 0 else eL s * (1 / 2) * (vpar - amax).
(** fv_ops.hxx:183-370 FV::Div_par for one (i,k). *)
Definition Div_par (y : yline) (g : metric) (lim : stencil -> edges) (f v w : Z -> R) (fixflux : bool) : Z -> R :=
  let ys := if negb (firstY y) || periodicY y then (ystart y - 1)%Z else ystart y in
  let ye := if negb (lastY y) || periodicY y then (yend y + 1)%Z else yend y in
  loop ys ye (fun j res =>
    let flux_factor_rc := common g j (j + 1) / (mdy g j * mJ g j) in
    let flux_factor_rp := common g j (j + 1) / (mdy g (j + 1)%Z * mJ g (j + 1)%Z) in
    let flux_factor_lc := common g j (j - 1) / (mdy g j * mJ g j) in
    let flux_factor_lm := common g j (j - 1) / (mdy g (j - 1)%Z * mJ g (j - 1)%Z) in
    let flux := div_par_right y lim f v w fixflux j in
    let res := add res j (flux * flux_factor_rc) in
    let res := add res (j + 1) (- (flux * flux_factor_rp)) in
    let flux := div_par_left y lim f v w fixflux j in
    let res := add res j (- (flux * flux_factor_lc)) in
    add res (j - 1) (flux * flux_factor_lm)) zero.

(** fv_ops.cxx:181-246 FV::Div_par_K_Grad_par at cell j (Kup, fup, Kdown, fdown are the same line). *)
Definition K_Grad_par (y : yline) (g : metric) (K f : Z -> R) (bndry_flux : bool) (j : Z) : R :=
  let up :=
    if bndry_flux || periodicY y || negb (lastY y) || negb (Z.eqb j (yend y)) then
      let cc := 1 / 2 * (K j + K (j + 1)%Z) in
      let JJ := 1 / 2 * (mJ g j + mJ g (j + 1)%Z) in
      let g_22 := 1 / 2 * (mg22 g j + mg22 g (j + 1)%Z) in
      let gradient := 2 * (f (j + 1)%Z - f j) / (mdy g j + mdy g (j + 1)%Z) in
      (cc * JJ * gradient / g_22) / (mdy g j * mJ g j)
    else 0 in
  let down :=
    if bndry_flux || periodicY y || negb (firstY y) || negb (Z.eqb j (ystart y)) then
      let cc := 1 / 2 * (K j + K (j - 1)%Z) in
      let JJ := 1 / 2 * (mJ g j + mJ g (j - 1)%Z) in
      let g_22 := 1 / 2 * (mg22 g j + mg22 g (j - 1)%Z) in
      let gradient := 2 * (f j - f (j - 1)%Z) / (mdy g j + mdy g (j - 1)%Z) in
      (cc * JJ * gradient / g_22) / (mdy g j * mJ g j)
    else 0 in
  0 + up - down.

(** fv_ops.cxx:248-305 FV::D4DY4. *)
Definition D4DY4 (y : yline) (g : metric) (d f : Z -> R) : Z -> R :=
  let has_upper := negb (periodicY y) && lastY y in
  let has_lower := negb (periodicY y) && firstY y in
  let a := if has_lower then ystart y else (ystart y - 1)%Z in
  let b := if has_upper then (yend y - 1)%Z else yend y in
  loop a b (fun j res =>
    let dy3 := SQ (mdy g j) * mdy g j in
    let d3fdy3 := (f (j + 2)%Z - 3 * f (j + 1)%Z + 3 * f j - f (j - 1)%Z) / dy3 in
    let flux := 1 / 2 * (d j + d (j + 1)%Z) * (mJ g j + mJ g (j + 1)%Z) * d3fdy3 in
    let res := add res j (flux / (mJ g j * mdy g j)) in
    add res (j + 1) (- (flux / (mJ g (j + 1)%Z * mdy g (j + 1)%Z)))) zero.

(** fv_ops.cxx:307-430 FV::D4DY4_Index. coord->J(i, j, j) in lines 336 and 361 is read as J(i, j): with the default
    two-dimensional metrics the third index is ignored (with 3D metrics it would be a wrong z index). *)
Definition D4DY4_Index (y : yline) (g : metric) (f : Z -> R) (bndry_flux : bool) : Z -> R :=
  let has_upper := negb (periodicY y) && lastY y in
  let has_lower := negb (periodicY y) && firstY y in
  loop (ystart y) (yend y) (fun j res =>
    let res :=
      if bndry_flux || negb (Z.eqb j (yend y)) || negb has_upper then
        let cf := 1 / 4 * (mdy g j + mdy g (j + 1)%Z) * (mJ g j + mJ g (j + 1)%Z) in
        let d3 := if negb (Z.eqb j (yend y)) || negb has_upper
                  then f (j + 2)%Z - 3 * f (j + 1)%Z + 3 * f j - f (j - 1)%Z
                  else - (16 / 5 * (1 / 2) * (f (j + 1)%Z + f j) - 6 * f j + 4 * f (j - 1)%Z - 6 / 5 * f (j - 2)%Z) in
        let res := add res j (d3 * (cf / (mJ g j * mdy g j))) in
        add res (j + 1) (- (d3 * (cf / (mJ g (j + 1)%Z * mdy g (j + 1)%Z))))
      else res in
    if bndry_flux || negb (Z.eqb j (ystart y)) || negb has_lower then
      let cf := 1 / 4 * (mdy g j + mdy g (j + 1)%Z) * (mJ g j + mJ g (j - 1)%Z) in
      let d3 := if negb (Z.eqb j (ystart y)) || negb has_lower
                then f (j + 1)%Z - 3 * f j + 3 * f (j - 1)%Z - f (j - 2)%Z
                else - (- (16 / 5) * (1 / 2) * (f (j - 1)%Z + f j) + 6 * f j - 4 * f (j + 1)%Z + 6 / 5 * f (j + 2)%Z) in
      let res := add res j (- (d3 * (cf / (mJ g j * mdy g j)))) in
      add res (j - 1) (d3 * (cf / (mJ g (j - 1)%Z * mdy g (j - 1)%Z)))
    else res) zero.

(** fv_ops.cxx:34-63 FV::Div_a_Grad_perp, the X flux, for one (j,k): cells xstart..xend. *)
Definition Div_a_Grad_perp_X (xstart xend : Z) (J dx g11 a f : Z -> R) : Z -> R :=
  loop (xstart - 1) xend (fun i res =>
    let fout := 1 / 2 * (a i + a (i + 1)%Z) * (J i * g11 i + J (i + 1)%Z * g11 (i + 1)%Z) * (f (i + 1)%Z - f i) / (dx i + dx (i + 1)%Z) in
    let res := add res i (fout / (dx i * J i)) in
    add res (i + 1) (- (fout / (dx (i + 1)%Z * J (i + 1)%Z)))) zero.

(** fv_ops.cxx:479-570 FV::Div_Perp_Lap, restricted to a line in z of nz cells (f independent of x and g13 = 0, so that gR = gL = 0
    and only "Flow up" and "Flow down" contribute). *)
Definition Div_Perp_Lap_Z (nz : Z) (J dz g33 a f : Z -> R) (k : Z) : R :=
  let kp := ((k + 1) mod nz)%Z in
  let km := ((k - 1 + nz) mod nz)%Z in
  let gD := g33 k * (f k - f km) / dz k in
  let gU := g33 k * (f kp - f k) / dz k in
  0 + gU * (1 / 4) * (J k + J kp) * (a k + a kp) / (dz k * J k)
    + gD * (1 / 4) * (J km + J k) * (a km + a k) / (dz k * J k).
