From Coq Require Import Reals ZArith List Lia Lra Psatz.
From Verif Require Import Base DerivModel DerivSpec InterpModel InterpSpec.
Import ListNotations.
Local Open Scope R_scope.

Lemma wrap_mod : forall n k, (0 < n)%Z -> wrap n k = (k mod n)%Z.
Proof.
  intros n k Hn. unfold wrap.
  pose proof (Z.rem_bound_abs k n ltac:(lia)) as B.
  rewrite Z.rem_mod_nonneg by lia. rewrite <- Zplus_mod_idemp_l.
  rewrite (Z.quot_rem' k n) at 2.
  replace (n * (k ÷ n) + Z.rem k n)%Z with (Z.rem k n + (k ÷ n) * n)%Z by ring. rewrite Z_mod_plus_full.
  rewrite Zplus_mod_idemp_l. replace (Z.rem k n + n)%Z with (Z.rem k n + 1 * n)%Z by ring. apply Z_mod_plus_full.
Qed.
Lemma rem_next : forall n k d, (0 < n)%Z -> (0 <= d)%Z -> Z.rem (k mod n + d) n = ((k + d) mod n)%Z.
Proof.
  intros n k d Hn Hd. pose proof (Z.mod_pos_bound k n Hn). rewrite Z.rem_mod_nonneg by lia. apply Zplus_mod_idemp_l.
Qed.
Lemma rem_prev : forall n k, (0 < n)%Z -> Z.rem (k mod n - 1 + n) n = ((k - 1) mod n)%Z.
Proof.
  intros n k Hn. pose proof (Z.mod_pos_bound k n Hn). rewrite Z.rem_mod_nonneg by lia.
  replace (k mod n - 1 + n)%Z with (k mod n - 1 + 1 * n)%Z by ring. rewrite Z_mod_plus_full. apply Zminus_mod_idemp_l.
Qed.

Lemma rd_mod : forall m f i k, (0 <= i < LocalNx m)%Z -> (0 < LocalNz m)%Z -> rd m f i (k mod LocalNz m) = Ok (f i (k mod LocalNz m)%Z).
Proof.
  intros m f i k Hi Hn. unfold rd. pose proof (Z.mod_pos_bound k _ Hn).
  replace ((0 <=? i) && (i <? LocalNx m) && (0 <=? k mod LocalNz m) && (k mod LocalNz m <? LocalNz m))%Z%bool with true; [reflexivity|].
  symmetry. rewrite !Bool.andb_true_iff, !Z.leb_le, !Z.ltb_lt. lia.
Qed.

Definition frac (r : R) : R := r - IZR (Int_part r).
Lemma frac_range : forall r, 0 <= frac r < 1.
Proof. intros r. unfold frac. destruct (base_Int_part r). lra. Qed.
Lemma check_ok : forall t, 0 <= t <= 1 -> check_range t = Ok tt.
Proof. intros t H. unfold check_range. destruct (Rlt_dec t 0); [lra|]. destruct (Rgt_dec t 1); [lra|]. reflexivity. Qed.
Lemma Int_part_le : forall r z, IZR z <= r -> (z <= Int_part r)%Z.
Proof.
  intros r z H. destruct (base_Int_part r) as (_ & H2). assert (IZR z < IZR (Int_part r + 1)) by (rewrite plus_IZR; lra).
  apply lt_IZR in H0. lia.
Qed.
Lemma Int_part_lt : forall r z, r < IZR z -> (Int_part r < z)%Z.
Proof. intros r z H. destruct (base_Int_part r) as (H1 & _). apply lt_IZR. lra. Qed.
Lemma Int_part_eq : forall r z, IZR z <= r < IZR z + 1 -> Int_part r = z.
Proof.
  intros r z (H1 & H2). apply Int_part_le in H1. assert (r < IZR (z + 1)) by (rewrite plus_IZR; lra). apply Int_part_lt in H. lia.
Qed.
Lemma Int_part_IZR : forall z, Int_part (IZR z) = z.
Proof. intros z. apply Int_part_eq. lra. Qed.
Lemma frac_IZR : forall z, frac (IZR z) = 0.
Proof. intros z. unfold frac. rewrite Int_part_IZR. ring. Qed.
Lemma Int_part_add : forall r z, Int_part (r + IZR z) = (Int_part r + z)%Z.
Proof. intros r z. apply Int_part_eq. rewrite plus_IZR. destruct (base_Int_part r). lra. Qed.
Lemma frac_add : forall r z, frac (r + IZR z) = frac r.
Proof. intros r z. unfold frac. rewrite Int_part_add, plus_IZR. ring. Qed.

Ltac poly H := let a := fresh "a" in let L := fresh "L" in destruct H as (a & L & H); unfold degree_le in L;
  repeat (destruct a as [|? a]; cbn [length] in L; try lia).

(** ** Bilinear *)
Definition bil (f : plane) (n i k : Z) (tx tz : R) : R :=
  (1 - tz) * ((1 - tx) * f i (k mod n)%Z + tx * f (i + 1)%Z (k mod n)%Z)
  + tz * ((1 - tx) * f i ((k + 1) mod n)%Z + tx * f (i + 1)%Z ((k + 1) mod n)%Z).
Lemma bilinear_eq : forall m f dx dz, (0 < LocalNz m)%Z -> (0 <= Int_part dx)%Z -> (Int_part dx < LocalNx m - 1)%Z ->
  bilinear m f dx dz = Ok (bil f (LocalNz m) (Int_part dx) (Int_part dz) (frac dx) (frac dz)).
Proof.
  intros m f dx dz Hn H0 H1. unfold bilinear, bilinear_weights. cbv zeta.
  fold (frac dx). fold (frac dz). rewrite !check_ok by (pose proof (frac_range dx); pose proof (frac_range dz); lra).
  cbn [bind]. unfold bilinear_point. cbn [bk bi w0 w1 w2 w3]. cbv zeta.
  rewrite wrap_mod, rem_next by lia. rewrite !rd_mod by lia. cbn [bind]. f_equal. unfold bil. ring.
Qed.
Lemma poly1_line : forall g x t, polynomial 1 g -> (1 - t) * g x + t * g (x + 1) = g (x + t).
Proof. intros g x t H. poly H; rewrite !H; cbn [peval]; ring. Qed.

(** ** Lagrange *)
Lemma lagrange_cubic : forall g x t, polynomial 3 g -> lagrange_4pt (g (x - 1)) (g x) (g (x + 1)) (g (x + 2)) t = g (x + t).
Proof.
  intros g x t H. unfold lagrange_4pt. replace 0.5 with (/ 2) by lra. poly H; rewrite !H; cbn [peval]; field.
Qed.
Lemma lagrange_at0 : forall a b c d, lagrange_4pt a b c d 0 = b.
Proof. intros. unfold lagrange_4pt. replace 0.5 with (/ 2) by lra. field. Qed.
Lemma lagrange_at1 : forall a b c d, lagrange_4pt a b c d 1 = c.
Proof. intros. unfold lagrange_4pt. replace 0.5 with (/ 2) by lra. field. Qed.
Lemma lagrange_const : forall a t, lagrange_4pt a a a a t = a.
Proof. intros. unfold lagrange_4pt. replace 0.5 with (/ 2) by lra. field. Qed.

Definition lrow (f : plane) (n j k : Z) (t : R) : R :=
  lagrange_4pt (f j ((k - 1) mod n)%Z) (f j (k mod n)%Z) (f j ((k + 1) mod n)%Z) (f j ((k + 2) mod n)%Z) t.
Definition lag (m : lmesh) (f : plane) (i k : Z) (tx tz : R) : R :=
  let n := LocalNz m in
  lagrange_4pt (lrow f n (if (i =? 0)%Z then 0%Z else (i - 1)%Z) k tz) (lrow f n i k tz) (lrow f n (i + 1) k tz)
    (lrow f n (if (i =? LocalNx m - 2)%Z then (i + 1)%Z else (i + 1 + 1)%Z) k tz) tx.
Lemma lagrange_row_eq : forall m f j k t, (0 < LocalNz m)%Z -> (0 <= j < LocalNx m)%Z ->
  lagrange_row m f j ((k - 1) mod LocalNz m) (k mod LocalNz m) ((k + 1) mod LocalNz m) ((k + 2) mod LocalNz m) t
  = Ok (lrow f (LocalNz m) j k t).
Proof. intros m f j k t Hn Hj. unfold lagrange_row. rewrite !rd_mod by assumption. reflexivity. Qed.
Lemma lagrange_point_eq : forall m f i k tx tz, (0 < LocalNz m)%Z -> (0 <= i < LocalNx m - 1)%Z ->
  lagrange_point m f (LW i k tx tz) = Ok (lag m f i k tx tz).
Proof.
  intros m f i k tx tz Hn Hi. unfold lagrange_point. cbn [li lk lt_x lt_z]. cbv zeta.
  rewrite wrap_mod by lia. rewrite !rem_next by lia. rewrite rem_prev by lia.
  destruct (Z.eqb_spec i 0); destruct (Z.eqb_spec i (LocalNx m - 2));
  rewrite !lagrange_row_eq by lia; cbn [bind]; unfold lag; cbv zeta;
  repeat match goal with |- context [(?a =? ?b)%Z] => destruct (Z.eqb_spec a b); try lia end; reflexivity.
Qed.
Lemma lagrange_eq : forall m f dx dz, (0 < LocalNz m)%Z -> (0 <= Int_part dx)%Z -> (Int_part dx < LocalNx m - 1)%Z -> (1 <= xend m)%Z ->
  lagrange m f dx dz = Ok (if (Int_part dx =? xend m)%Z then lag m f (xend m - 1) (Int_part dz) 1 (frac dz)
                           else lag m f (Int_part dx) (Int_part dz) (frac dx) (frac dz)).
Proof.
  intros m f dx dz Hn H0 H1 Hx. unfold lagrange, lagrange_weights. cbv zeta. fold (frac dx). fold (frac dz).
  pose proof (frac_range dx). pose proof (frac_range dz).
  destruct (Z.eqb_spec (Int_part dx) (xend m)) as [E|E]; rewrite !check_ok by lra; cbn [bind]; rewrite lagrange_point_eq by lia;
    [rewrite E|]; reflexivity.
Qed.

(** ** Hermite *)
Definition herm (t a b da db : R) : R := let h := hermite_basis t in a * h00 h + b * h01 h + da * h10 h + db * h11 h.
Lemma herm_quadratic : forall g x t, polynomial 2 g ->
  herm t (g x) (g (x + 1)) (1 / 2 * (g (x + 1) - g (x - 1))) (1 / 2 * (g (x + 2) - g x)) = g (x + t).
Proof. intros g x t H. unfold herm, hermite_basis. cbn [h00 h01 h10 h11]. poly H; rewrite !H; cbn [peval]; field. Qed.
Lemma herm_cubic : forall g g' x t a, degree_le 3 a -> (forall y, g y = peval a y) -> (forall y, g' y = peval (pderiv a) y) ->
  herm t (g x) (g (x + 1)) (g' x) (g' (x + 1)) = g (x + t).
Proof.
  intros g g' x t a L Hg Hg'. unfold herm, hermite_basis. cbn [h00 h01 h10 h11]. rewrite !Hg, !Hg'. unfold degree_le in L.
  repeat (destruct a as [|? a]; cbn [length] in L; try lia); cbn [pderiv pderiv_from peval]; ring.
Qed.
Lemma herm_0 : forall a b da db, herm 0 a b da db = a.
Proof. intros. unfold herm, hermite_basis. cbn [h00 h01 h10 h11]. ring. Qed.
Lemma herm_1 : forall a b da db, herm 1 a b da db = b.
Proof. intros. unfold herm, hermite_basis. cbn [h00 h01 h10 h11]. ring. Qed.

Lemma hermite_row_eq : forall m g gx i k t, (0 < LocalNz m)%Z -> (0 <= i)%Z -> (i + 1 < LocalNx m)%Z ->
  hermite_row m g gx i (k mod LocalNz m) (hermite_basis t)
  = Ok (herm t (g i (k mod LocalNz m)%Z) (g (i + 1)%Z (k mod LocalNz m)%Z) (gx i (k mod LocalNz m)%Z) (gx (i + 1)%Z (k mod LocalNz m)%Z)).
Proof. intros m g gx i k t Hn H0 H1. unfold hermite_row. rewrite !rd_mod by lia. reflexivity. Qed.

Definition spl (m : lmesh) (f fx fz fxz : plane) (i k : Z) (tx tz : R) : R :=
  let n := LocalNz m in let k0 := (k mod n)%Z in let k1 := ((k + 1) mod n)%Z in
  herm tz (herm tx (f i k0) (f (i + 1)%Z k0) (fx i k0) (fx (i + 1)%Z k0)) (herm tx (f i k1) (f (i + 1)%Z k1) (fx i k1) (fx (i + 1)%Z k1))
    (herm tx (fz i k0) (fz (i + 1)%Z k0) (fxz i k0) (fxz (i + 1)%Z k0)) (herm tx (fz i k1) (fz (i + 1)%Z k1) (fxz i k1) (fxz (i + 1)%Z k1)).
Lemma hermite_point_eq : forall m f fx fz fxz i k tx tz, (0 < LocalNz m)%Z -> (0 <= i)%Z -> (i + 1 < LocalNx m)%Z ->
  hermite_point m f fx fz fxz (HW i (k mod LocalNz m) (hermite_basis tx) (hermite_basis tz)) = Ok (spl m f fx fz fxz i k tx tz).
Proof.
  intros. unfold hermite_point. cbn [hi hk hx hz]. cbv zeta. rewrite !rem_next by lia. rewrite !hermite_row_eq by lia. reflexivity.
Qed.
Definition spl2 (m : lmesh) (f : plane) (i k : Z) (tx tz : R) : R :=
  spl m f (ddx_plane f) (ddz_plane (LocalNz m) f) (ddx_plane (ddz_plane (LocalNz m) f)) i k tx tz.

(** The corner and the offset after the limits at the ends of the X range. *)
Definition corner (m : lmesh) (dx : R) : Z * R :=
  if (xend m <=? Int_part dx)%Z then ((xend m - 1)%Z, 1)
  else if (Int_part dx <? xstart m)%Z then (xstart m, 0) else (Int_part dx, frac dx).
Lemma weights_eq : forall m dx dz, has_guards m ->
  hermite_weights m dx dz = Ok (HW (fst (corner m dx)) (Int_part dz mod LocalNz m) (hermite_basis (snd (corner m dx))) (hermite_basis (frac dz))).
Proof.
  intros m dx dz (G1 & G2 & G3 & G4). unfold hermite_weights, corner. cbv zeta. fold (frac dx). fold (frac dz). rewrite wrap_mod by lia.
  pose proof (frac_range dx). pose proof (frac_range dz).
  destruct (Z.leb_spec (xend m) (Int_part dx)).
  - replace (xend m - 1 <? xstart m)%Z with false by (symmetry; apply Z.ltb_ge; lia). rewrite !check_ok by lra. reflexivity.
  - destruct (Z.ltb_spec (Int_part dx) (xstart m)); rewrite !check_ok by lra; reflexivity.
Qed.
Lemma corner_range : forall m dx, has_guards m -> (xstart m <= fst (corner m dx) < xend m)%Z /\ 0 <= snd (corner m dx) <= 1 /\
  IZR (fst (corner m dx)) + snd (corner m dx) = clamp m dx.
Proof.
  intros m dx (G1 & G2 & G3 & G4). unfold corner, clamp. destruct (base_Int_part dx) as (B1 & B2). pose proof (frac_range dx).
  assert (IZR (xstart m) < IZR (xend m)) by (apply IZR_lt; lia).
  destruct (Z.leb_spec (xend m) (Int_part dx)); cbn [fst snd].
  - split; [lia|]. split; [lra|]. rewrite minus_IZR. apply IZR_le in H1. rewrite Rmin_right by lra. rewrite Rmax_right by lra. ring.
  - apply IZR_lt in H1 as H1'. assert (dx < IZR (xend m)) by (assert (IZR (Int_part dx + 1) <= IZR (xend m)) by (apply IZR_le; lia); rewrite plus_IZR in H2; lra).
    rewrite (Rmin_left dx) by lra.
    destruct (Z.ltb_spec (Int_part dx) (xstart m)); cbn [fst snd].
    + split; [lia|]. split; [lra|]. assert (IZR (Int_part dx + 1) <= IZR (xstart m)) by (apply IZR_le; lia). rewrite plus_IZR in H4.
      rewrite Rmax_left by lra. ring.
    + split; [lia|]. split; [lra|]. apply IZR_le in H3. rewrite Rmax_right by lra. unfold frac. ring.
Qed.
Lemma spline_eq : forall m f dx dz, has_guards m ->
  spline m f dx dz = Ok (spl2 m f (fst (corner m dx)) (Int_part dz) (snd (corner m dx)) (frac dz)).
Proof.
  intros m f dx dz G. pose proof (corner_range m dx G) as (C & _). destruct G as (G1 & G2 & G3 & G4) eqn:E.
  unfold spline. rewrite weights_eq by exact (conj G1 (conj G2 (conj G3 G4))). cbn [bind]. unfold spline_point. cbv zeta.
  rewrite hermite_point_eq by lia. reflexivity.
Qed.

Lemma ddx_eq : forall f i k, ddx_plane f i k = 1 / 2 * (f (i + 1)%Z k - f (i - 1)%Z k).
Proof. reflexivity. Qed.
Lemma ddz_eq : forall n f i k, (0 < n)%Z -> ddz_plane n f i (k mod n)%Z = 1 / 2 * (f i ((k + 1) mod n)%Z - f i ((k - 1) mod n)%Z).
Proof.
  intros n f i k Hn. unfold ddz_plane, DDX_C2, populate. cbn [p m]. rewrite Zplus_mod_idemp_l, Zminus_mod_idemp_l. reflexivity.
Qed.

Lemma spl2_quadratic : forall m f F i k tx tz, (0 < LocalNz m)%Z -> polynomial2 2 F -> sampled m f F (i - 1) (i + 2) (k - 1) (k + 2) ->
  spl2 m f i k tx tz = F (IZR i + tx) (IZR k + tz).
Proof.
  intros m f F i k tx tz Hn (P1 & P2) S. unfold spl2, spl. cbv zeta.
  rewrite !ddx_eq. rewrite !(ddz_eq _ _ _ _ Hn).
  replace (i + 1 + 1)%Z with (i + 2)%Z by ring. replace (i + 1 - 1)%Z with i by ring.
  replace (k + 1 + 1)%Z with (k + 2)%Z by ring. replace (k + 1 - 1)%Z with k by ring.
  rewrite !S by lia. rewrite !plus_IZR, !minus_IZR.
  pose proof (fun Z => herm_quadratic (fun X => F X Z) (IZR i) tx (P2 Z)) as Q. cbv beta in Q.
  rewrite !Q.
  assert (QD : forall Z1 Z2, herm tx (1 / 2 * (F (IZR i) Z1 - F (IZR i) Z2)) (1 / 2 * (F (IZR i + 1) Z1 - F (IZR i + 1) Z2))
     (1 / 2 * (1 / 2 * (F (IZR i + 1) Z1 - F (IZR i + 1) Z2) - 1 / 2 * (F (IZR i - 1) Z1 - F (IZR i - 1) Z2)))
     (1 / 2 * (1 / 2 * (F (IZR i + 2) Z1 - F (IZR i + 2) Z2) - 1 / 2 * (F (IZR i) Z1 - F (IZR i) Z2)))
     = 1 / 2 * (F (IZR i + tx) Z1 - F (IZR i + tx) Z2)).
  { intros Z1 Z2. rewrite <- (Q Z1), <- (Q Z2). unfold herm. ring. }
  rewrite !QD. apply (herm_quadratic (F (IZR i + tx)) (IZR k) tz (P1 _)).
Qed.

(** ** Z spline *)
Definition zspl (m : lmesh) (f : plane) (i k : Z) (t : R) : R :=
  let n := LocalNz m in let fz := ddz_plane n f in
  herm t (f i (k mod n)%Z) (f i ((k + 1) mod n)%Z) (fz i (k mod n)%Z) (fz i ((k + 1) mod n)%Z).
Lemma zspline_eq : forall m f i dz, (0 < LocalNz m)%Z -> (0 <= i < LocalNx m)%Z ->
  zspline m f i dz = Ok (zspl m f i (Int_part dz) (frac dz)).
Proof.
  intros m f i dz Hn Hi. unfold zspline, zspline_weights. cbv zeta. fold (frac dz). rewrite check_ok by (pose proof (frac_range dz); lra).
  cbn [bind]. unfold zspline_point. cbv zeta. rewrite wrap_mod by lia. rewrite Zplus_mod_idemp_l. rewrite !rd_mod by lia. reflexivity.
Qed.

(** ** Monotonic *)
Lemma max4 : forall a b c d, let v := MAX2 a (MAX2 b (MAX2 c d)) in (v = a \/ v = b \/ v = c \/ v = d) /\ a <= v /\ b <= v /\ c <= v /\ d <= v.
Proof.
  intros a b c d. cbv zeta. unfold MAX2. repeat destruct (Rgt_dec _ _); repeat match goal with |- _ /\ _ => split end; try lra; tauto.
Qed.
Lemma min4 : forall a b c d, let v := MIN2 a (MIN2 b (MIN2 c d)) in (v = a \/ v = b \/ v = c \/ v = d) /\ v <= a /\ v <= b /\ v <= c /\ v <= d.
Proof.
  intros a b c d. cbv zeta. unfold MIN2. repeat destruct (Rlt_dec _ _); repeat match goal with |- _ /\ _ => split end; try lra; tauto.
Qed.
Definition limited (a b c d v : R) : R :=
  let hi := MAX2 a (MAX2 b (MAX2 c d)) in let lo := MIN2 a (MIN2 b (MIN2 c d)) in
  let v := if Rgt_dec v hi then hi else v in if Rlt_dec v lo then lo else v.
Lemma monotonic_eq : forall m f dx dz, has_guards m ->
  let i := fst (corner m dx) in let k := Int_part dz in let n := LocalNz m in
  monotonic m f dx dz = Ok (limited (f i (k mod n)%Z) (f (i + 1)%Z (k mod n)%Z) (f i ((k + 1) mod n)%Z) (f (i + 1)%Z ((k + 1) mod n)%Z)
     (spl2 m f i k (snd (corner m dx)) (frac dz))).
Proof.
  intros m f dx dz G. cbv zeta. pose proof (corner_range m dx G) as (C & _). pose proof G as (G1 & G2 & G3 & G4).
  unfold monotonic. rewrite weights_eq by exact G. cbn [bind]. unfold monotonic_point. cbn [hi hk hx hz]. cbv zeta.
  rewrite wrap_mod by lia. rewrite Z.mod_mod by lia. unfold spline_point. cbv zeta. rewrite hermite_point_eq by lia. cbn [bind].
  rewrite rem_next by lia. rewrite !rd_mod by lia. cbn [bind]. reflexivity.
Qed.

(** ** Loops *)
Lemma pt_eqb_spec : forall p q, pt_eqb p q = true <-> p = q.
Proof.
  intros [[x y] z] [[x' y'] z']. cbn [pt_eqb]. rewrite !Bool.andb_true_iff, !Z.eqb_eq. split; [intros ((-> & ->) & ->); reflexivity|].
  intros E. injection E as -> -> ->. tauto.
Qed.
Lemma upd_same : forall A (st : pt -> option A) p a, upd st p a p = Some a.
Proof. intros. unfold upd. replace (pt_eqb p p) with true; [reflexivity|]. symmetry. apply pt_eqb_spec. reflexivity. Qed.
Lemma upd_other : forall A (st : pt -> option A) p a q, q <> p -> upd st p a q = st q.
Proof. intros A st p a q H. unfold upd. destruct (pt_eqb q p) eqn:E; [|reflexivity]. apply pt_eqb_spec in E. contradiction. Qed.
Lemma pt_dec : forall p q : pt, {p = q} + {p <> q}.
Proof. intros p q. destruct (pt_eqb p q) eqn:E; [left; apply pt_eqb_spec; exact E|right; intros H; apply pt_eqb_spec in H; congruence]. Qed.

Lemma calc_ok : forall W (calc : R -> R -> res W) skip dx dz region st st', calcWeights calc skip dx dz region st = Ok st' ->
  (forall p, In p region -> skip p = false -> exists w, calc (dx p) (dz p) = Ok w /\ st' p = Some w) /\
  (forall p, (~ In p region \/ skip p = true) -> st' p = st p).
Proof.
  intros W calc skip dx dz region. induction region as [|q region IH]; intros st st' H; cbn [calcWeights] in H.
  - injection H as <-. split; [intros p []|reflexivity].
  - destruct (skip q) eqn:Eq.
    + destruct (IH _ _ H) as (I1 & I2). split.
      * intros p [<-|Hp] Hs; [congruence|]. apply I1; assumption.
      * intros p Hp. apply I2. destruct Hp as [Hp|Hp]; [left; intros X; apply Hp; right; exact X|right; exact Hp].
    + destruct (calc (dx q) (dz q)) as [w| |] eqn:Ec; cbn [bind] in H; try discriminate H.
      destruct (IH _ _ H) as (I1 & I2). split.
      * intros p Hp Hs. destruct (in_dec pt_dec p region) as [Hin|Hnin]; [apply I1; assumption|].
        destruct Hp as [<-|Hp]; [|contradiction]. exists w. split; [exact Ec|]. rewrite I2 by (left; exact Hnin). apply upd_same.
      * intros p Hp. rewrite I2; [|destruct Hp as [Hp|Hp]; [left; intros X; apply Hp; right; exact X|right; exact Hp]].
        apply upd_other. intros ->. destruct Hp as [Hp|Hp]; [apply Hp; left; reflexivity|congruence].
Qed.
Lemma calc_total : forall W (calc : R -> R -> res W) skip dx dz region st,
  (forall p, In p region -> skip p = false -> exists w, calc (dx p) (dz p) = Ok w) -> exists st', calcWeights calc skip dx dz region st = Ok st'.
Proof.
  intros W calc skip dx dz region. induction region as [|q region IH]; intros st H; cbn [calcWeights]; [exists st; reflexivity|].
  destruct (skip q) eqn:Eq; [apply IH; intros; apply H; [right|]; assumption|].
  destruct (H q (or_introl eq_refl) Eq) as (w & ->). cbn [bind]. apply IH. intros; apply H; [right|]; assumption.
Qed.

Lemma loop_ok : forall W m (point : plane -> W -> res R) skip yo f st region out r,
  interpolate_loop m point skip yo f st region out = Ok r ->
  (forall x y z, In (x, y, z) region -> skip (x, y, z) = false ->
     exists w v, st (x, y, z) = Some w /\ point (fun i k => f (i, (y + yo)%Z, k)) w = Ok v /\ r (x, (y + yo)%Z, z) = Some v) /\
  (forall x y z, (~ In (x, y, z) region \/ skip (x, y, z) = true) -> r (x, (y + yo)%Z, z) = out (x, (y + yo)%Z, z)).
Proof.
  intros W m point skip yo f st region. induction region as [|[[x0 y0] z0] region IH]; intros out r H; cbn [interpolate_loop] in H.
  - injection H as <-. split; [intros x y z []|reflexivity].
  - destruct (skip (x0, y0, z0)) eqn:Eq.
    + destruct (IH _ _ H) as (I1 & I2). split.
      * intros x y z [E|Hp] Hs; [congruence|]. apply I1; assumption.
      * intros x y z Hp. apply I2. destruct Hp as [Hp|Hp]; [left; intros X; apply Hp; right; exact X|right; exact Hp].
    + cbv zeta in H. destruct ((0 <=? y0 + yo)%Z && (y0 + yo <? LocalNy m)%Z)%bool; [|discriminate H].
      destruct (st (x0, y0, z0)) as [w|] eqn:Es; cbn [bind ofopt] in H; [|discriminate H].
      destruct (point _ w) as [v| |] eqn:Ec; cbn [bind] in H; try discriminate H.
      destruct (IH _ _ H) as (I1 & I2). split.
      * intros x y z Hp Hs. destruct (in_dec pt_dec (x, y, z) region) as [Hin|Hnin]; [apply I1; assumption|].
        destruct Hp as [E|Hp]; [|contradiction]. injection E as -> -> ->. exists w, v. split; [exact Es|]. split; [exact Ec|].
        rewrite I2 by (left; exact Hnin). apply upd_same.
      * intros x y z Hp. rewrite I2; [|destruct Hp as [Hp|Hp]; [left; intros X; apply Hp; right; exact X|right; exact Hp]].
        apply upd_other. intros E. injection E as E1 E2 E3. assert (y = y0) by lia. subst.
        destruct Hp as [Hp|Hp]; [apply Hp; left; reflexivity|congruence].
Qed.
Lemma loop_total : forall W m (point : plane -> W -> res R) skip yo f st region out,
  (forall x y z, In (x, y, z) region -> skip (x, y, z) = false -> (0 <= y + yo < LocalNy m)%Z /\
     exists w v, st (x, y, z) = Some w /\ point (fun i k => f (i, (y + yo)%Z, k)) w = Ok v) ->
  exists r, interpolate_loop m point skip yo f st region out = Ok r.
Proof.
  intros W m point skip yo f st region. induction region as [|[[x0 y0] z0] region IH]; intros out H; cbn [interpolate_loop]; [exists out; reflexivity|].
  destruct (skip (x0, y0, z0)) eqn:Eq; [apply IH; intros; apply H; [right|]; assumption|]. cbv zeta.
  destruct (H x0 y0 z0 (or_introl eq_refl) Eq) as (Hy & w & v & -> & E).
  replace ((0 <=? y0 + yo)%Z && (y0 + yo <? LocalNy m)%Z)%bool with true.
  - cbn [ofopt bind]. rewrite E. cbn [bind]. apply IH. intros; apply H; [right|]; assumption.
  - symmetry. rewrite Bool.andb_true_iff, Z.leb_le, Z.ltb_lt. lia.
Qed.
