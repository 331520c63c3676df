(** Specification vocabulary for the finite-volume operators. *)
From Coq Require Import Reals ZArith List Bool.
From Verif Require Import DerivModel DerivSpec FvModel.
Local Open Scope R_scope.

(** The volume of cell j (per unit dx dz). *)
Definition volume (g : metric) (j : Z) : R := mdy g j * mJ g j.
Definition good_metric (g : metric) : Prop := forall j, 0 < mJ g j /\ 0 < mdy g j /\ 0 < mg22 g j.
(** The cells a..b hold (flux through the upper face - flux through the lower face) / volume; [F j] is the flux through the
    face between j-1 and j. *)
Definition flux_form (g : metric) (a b : Z) (F : Z -> R) (res : Z -> R) : Prop :=
  forall j, (a <= j <= b)%Z -> res j * volume g j = F (j + 1)%Z - F j.
(** Total content of the cells a..b. *)
Definition total (g : metric) (a b : Z) (res : Z -> R) : R := sum_line (fun j => res j * volume g j) a (Z.to_nat (b + 1 - a)).

(** The upwind flux through the face between j-1 and j: the reconstruction on the upwind side when the flow is faster than all waves,
    the local Lax-Friedrichs average otherwise. *)
Definition upwind_face_flux (lim : stencil -> edges) (f v w : Z -> R) (j : Z) : R :=
  let v_face := (v (j - 1)%Z + v j) / 2 in
  let a_max := Rmax (w (j - 1)%Z) (w j) in
  let from_left := eR (lim (populate SNone f (j - 1)%Z)) in
  let from_right := eL (lim (populate SNone f j)) in
  if Rlt_dec a_max v_face then from_left * v_face
  else if Rlt_dec v_face (- a_max) then from_right * v_face
  else (from_left + from_right) / 2 * v_face + a_max / 2 * (from_left - from_right).
(** The geometric factor of the face between j-1 and j. *)
Definition face_factor (g : metric) (j : Z) : R := (mJ g (j - 1)%Z + mJ g j) / (sqrt (mg22 g (j - 1)%Z) + sqrt (mg22 g j)).
(** The flux of Div_par through the face between j-1 and j: the first and last face of an open line carry the boundary flux, the
    others the upwind flux. At the boundary either the product of the face averages (fixflux) or the edge value with a penalty. *)
Definition lower_boundary_flux (lim : stencil -> edges) (f v w : Z -> R) (fixflux : bool) (j : Z) : R :=
  let v_face := (v (j - 1)%Z + v j) / 2 in let f_face := (f (j - 1)%Z + f j) / 2 in let e := eL (lim (populate SNone f j)) in
  if fixflux then f_face * v_face else e * v_face - w j * (e - f_face).
Definition upper_boundary_flux (lim : stencil -> edges) (f v w : Z -> R) (fixflux : bool) (j : Z) : R :=
  let v_face := (v (j - 1)%Z + v j) / 2 in let f_face := (f (j - 1)%Z + f j) / 2 in let e := eR (lim (populate SNone f (j - 1)%Z)) in
  if fixflux then f_face * v_face else e * v_face + w (j - 1)%Z * (e - f_face).
Definition dp_face (y : yline) (g : metric) (lim : stencil -> edges) (f v w : Z -> R) (fixflux : bool) (j : Z) : R :=
  face_factor g j *
  (if firstY y && negb (periodicY y) && Z.eqb j (ystart y) then lower_boundary_flux lim f v w fixflux j
   else if lastY y && negb (periodicY y) && Z.eqb j (yend y + 1) then upper_boundary_flux lim f v w fixflux j
   else upwind_face_flux lim f v w j).
(** The diffusive flux K J/g_22 df/dy through a face; zero through the ends of an open line unless boundary fluxes are asked for. *)
Definition kg_face (y : yline) (g : metric) (K f : Z -> R) (bndry_flux : bool) (j : Z) : R :=
  if negb bndry_flux && negb (periodicY y) && (firstY y && Z.eqb j (ystart y) || lastY y && Z.eqb j (yend y + 1)) then 0
  else (K (j - 1)%Z + K j) * (mJ g (j - 1)%Z + mJ g j) / (mg22 g (j - 1)%Z + mg22 g j) * (f j - f (j - 1)%Z) / (mdy g (j - 1)%Z + mdy g j).
(** The flux of D4DY4; never through the ends of an open line. *)
Definition d4_face (y : yline) (g : metric) (d f : Z -> R) (j : Z) : R :=
  if negb (periodicY y) && (firstY y && Z.eqb j (ystart y) || lastY y && Z.eqb j (yend y + 1)) then 0
  else 1 / 2 * (d (j - 1)%Z + d j) * (mJ g (j - 1)%Z + mJ g j) *
       ((f (j + 1)%Z - 3 * f j + 3 * f (j - 1)%Z - f (j - 2)%Z) / mdy g (j - 1)%Z ^ 3).
(** The radial flux a J g^11 df/dx. *)
Definition dagp_face (J dx g11 a f : Z -> R) (i : Z) : R :=
  1 / 2 * (a (i - 1)%Z + a i) * (J (i - 1)%Z * g11 (i - 1)%Z + J i * g11 i) * (f i - f (i - 1)%Z) / (dx (i - 1)%Z + dx i).
