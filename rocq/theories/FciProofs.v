(** Proofs about FciModel. *)
From Coq Require Import Reals ZArith List Lia Lra Bool FinFun.
From Verif Require Import Base InterpModel InterpSpec InterpProofs FciModel FciSpec.
Import ListNotations.
Local Open Scope R_scope.

Lemma in_zr : forall a b i, In i (zr a b) <-> (a <= i <= b)%Z.
Proof.
  intros a b i. unfold zr. rewrite in_map_iff. split.
  - intros (k & <- & H). apply in_seq in H. lia.
  - intros H. exists (Z.to_nat (i - a)). split; [lia|]. apply in_seq. lia.
Qed.
Lemma nodup_zr : forall a b, NoDup (zr a b).
Proof. intros a b. unfold zr. apply Injective_map_NoDup; [intros i j H; lia|apply seq_NoDup]. Qed.
Lemma in_interior : forall m p, In p (interior m) <-> in_domain m p.
Proof.
  intros m [[x y] z]. unfold interior, in_domain. rewrite in_flat_map. split.
  - intros (x' & Hx & H). apply in_flat_map in H. destruct H as (y' & Hy & H). apply in_map_iff in H. destruct H as (z' & E & Hz). injection E as -> -> ->.
    apply in_zr in Hx. apply in_zr in Hy. apply in_zr in Hz. lia.
  - intros (Hx & Hy & Hz). exists x. split; [apply in_zr; exact Hx|]. apply in_flat_map. exists y. split; [apply in_zr; exact Hy|]. apply in_map_iff. exists z. split; [reflexivity|].
    apply in_zr. lia.
Qed.
Lemma nodup_flat_map : forall {A B} (f : A -> list B) l, NoDup l -> (forall a, In a l -> NoDup (f a)) ->
  (forall a a' b, In a l -> In a' l -> In b (f a) -> In b (f a') -> a = a') -> NoDup (flat_map f l).
Proof.
  induction l as [|a l IH]; intros N Hf Hd; cbn [flat_map]; [constructor|]. inversion N; subst.
  assert (NoDup (flat_map f l)) by (apply IH; [assumption|intros; apply Hf; right; assumption|intros; eapply Hd; try (right; eassumption); eassumption]).
  assert (D : forall b, In b (f a) -> ~ In b (flat_map f l)).
  { intros b Hb Hc. apply in_flat_map in Hc. destruct Hc as (a' & Ha' & Hb'). assert (a = a') by (eapply Hd; [left; reflexivity|right; exact Ha'|exact Hb|exact Hb']). subst. contradiction. }
  specialize (Hf a (or_introl eq_refl)). clear IH Hd N. induction (f a) as [|b fa IHf]; cbn [app]; [assumption|]. inversion Hf; subst.
  constructor.
  - rewrite in_app_iff. intros [X|X]; [contradiction|]. apply (D b); [left; reflexivity|exact X].
  - apply IHf; [assumption|intros; apply D; right; assumption].
Qed.
Lemma nodup_interior : forall m, NoDup (interior m).
Proof.
  intros m. unfold interior. apply nodup_flat_map; [apply nodup_zr| |].
  - intros x _. apply nodup_flat_map; [apply nodup_zr| |].
    + intros y _. apply Injective_map_NoDup; [intros i j H; congruence|apply nodup_zr].
    + intros y y' b _ _ H1 H2. apply in_map_iff in H1. apply in_map_iff in H2. destruct H1 as (? & <- & _). destruct H2 as (? & E & _). congruence.
  - intros x x' b _ _ H1 H2. apply in_flat_map in H1. apply in_flat_map in H2. destruct H1 as (? & _ & H1). destruct H2 as (? & _ & H2).
    apply in_map_iff in H1. apply in_map_iff in H2. destruct H1 as (? & <- & _). destruct H2 as (? & E & _). congruence.
Qed.

(** Classification of a line. *)
Definition stays_b (m : fmesh) (l : lines) (p : pt) : bool :=
  andb (if Rle_dec (IZR (xstart (lm m))) (xt l p) then true else false) (if Rle_dec (xt l p) (IZR (xend (lm m))) then true else false).
Definition leaves_in (m : fmesh) (l : lines) (p : pt) : bool := andb (negb (stays_b m l p)) (if Rlt_dec (xt l p) 0 then true else false).
Definition leaves_out (m : fmesh) (l : lines) (p : pt) : bool := andb (negb (stays_b m l p)) (negb (if Rlt_dec (xt l p) 0 then true else false)).
Lemma stays_b_spec : forall m l p, stays_b m l p = true <-> stays m l p.
Proof. intros. unfold stays_b, stays. destruct (Rle_dec _ _), (Rle_dec _ _); cbn [andb]; split; intros; try discriminate; try tauto; lra. Qed.
Lemma stays_b_false : forall m l p, stays_b m l p = false <-> ~ stays m l p.
Proof. intros. rewrite <- stays_b_spec. destruct (stays_b m l p); split; congruence. Qed.

Lemma fold_lines : forall m g l o region mask inner outer,
  exists mask', fold_left (add_line m g l o) region (mask, inner, outer) =
      (mask', inner ++ map (make_hit m g l o) (filter (leaves_in m l) region), outer ++ map (make_hit m g l o) (filter (leaves_out m l) region)) /\
    forall q, mask' q = true <-> mask q = true \/ In q region /\ stays_b m l q = false.
Proof.
  intros m g l o region. induction region as [|i region IH]; intros mask inner outer; cbn [fold_left filter map].
  - exists mask. rewrite !app_nil_r. split; [reflexivity|]. intros q. split; [auto|intros [H|[[] _]]; exact H].
  - assert (EI : leaves_in m l i = andb (negb (stays_b m l i)) (if Rlt_dec (xt l i) 0 then true else false)) by reflexivity.
    assert (EO : leaves_out m l i = andb (negb (stays_b m l i)) (negb (if Rlt_dec (xt l i) 0 then true else false))) by reflexivity.
    rewrite EI, EO. clear EI EO. unfold add_line at 2. fold (stays_b m l i). destruct (stays_b m l i) eqn:E; cbn [negb andb].
    + destruct (IH mask inner outer) as (mask' & E' & H). exists mask'. split; [exact E'|]. intros q. rewrite H. cbn [In]. split; [intuition|]. intros [X|[[X|X] Y]]; [auto| |auto]. subst. congruence.
    + set (mask1 := fun q => if pt_eqb q i then true else mask q).
      assert (Hm : forall q, mask1 q = true \/ In q region /\ stays_b m l q = false <-> mask q = true \/ (i = q \/ In q region) /\ stays_b m l q = false).
      { intros q. unfold mask1. destruct (pt_eqb q i) eqn:Eq.
        - assert (i = q). { destruct q as [[? ?] ?], i as [[? ?] ?]. cbn in Eq. rewrite !andb_true_iff, !Z.eqb_eq in Eq. destruct Eq as ((-> & ->) & ->). reflexivity. }
          subst. intuition.
        - assert (i <> q). { intros ->. destruct q as [[? ?] ?]. cbn in Eq. rewrite !Z.eqb_refl in Eq. discriminate. }
          intuition. }
      destruct (Rlt_dec (xt l i) 0); cbn [negb map].
      * destruct (IH mask1 (inner ++ [make_hit m g l o i]) outer) as (mask' & E' & H). exists mask'. rewrite E', <- app_assoc. split; [reflexivity|]. intros q. rewrite H. cbn [In]. apply Hm.
      * destruct (IH mask1 inner (outer ++ [make_hit m g l o i])) as (mask' & E' & H). exists mask'. rewrite E', <- app_assoc. split; [reflexivity|]. intros q. rewrite H. cbn [In]. apply Hm.
Qed.

Section Maps.
Variable W : Type.
Variable calc : R -> R -> res W.
Variable point : plane -> W -> res R.
Variables (m : fmesh) (g : grid).

Definition hits_in (l : lines) (o : Z) := map (make_hit m g l o) (filter (leaves_in m l) (interior m)).
Definition hits_out (l : lines) (o : Z) := map (make_hit m g l o) (filter (leaves_out m l) (interior m)).
(** What a map should be. *)
Definition good_map (k : fmap W) (l : lines) : Prop :=
  (forall p, In p (interior m) -> exists w, calc (xt l p) (zt l p) = Ok w /\ mweights k p = Some w) /\
  (forall p, mmask k p = true <-> In p (interior m) /\ stays_b m l p = false).
Lemma FCIMap_ok : forall o l inner outer, o <> 0%Z -> line_data g o = Some l -> (forall p, In p (interior m) -> exists w, calc (xt l p) (zt l p) = Ok w) ->
  exists k, FCIMap calc m g o inner outer = Ok (k, inner ++ hits_in l o, outer ++ hits_out l o) /\ moffset k = o /\ good_map k l.
Proof.
  intros o l inner outer Ho Hl Hc. unfold FCIMap. rewrite (proj2 (Z.eqb_neq o 0) Ho), Hl.
  destruct (calc_total W calc (fun _ => false) (xt l) (zt l) (interior m) (fun _ => None)) as (w & Hw). { intros p Hp _. exact (Hc p Hp). }
  rewrite Hw. cbn [bind]. destruct (fold_lines m g l o (interior m) (fun _ => false) inner outer) as (mask & -> & Hm).
  exists (mkMap o w mask). split; [reflexivity|]. split; [reflexivity|]. split; cbn [mweights mmask].
  - intros p Hp. exact (proj1 (calc_ok _ _ _ _ _ _ _ _ Hw) p Hp eq_refl).
  - intros p. rewrite Hm. intuition congruence.
Qed.

(** The maps, offset after offset. *)
Inductive good_maps : Z -> list (fmap W) -> Prop :=
| gm_nil o : good_maps o []
| gm_cons o kf kb ks lf lb : line_data g o = Some lf -> line_data g (- o) = Some lb -> moffset kf = o -> moffset kb = (- o)%Z -> good_map kf lf -> good_map kb lb ->
    good_maps (o + 1) ks -> good_maps o (kf :: kb :: ks).
Lemma build_ok : forall n o t, (1 <= o)%Z ->
  (forall o', (o <= Z.abs o' < o + Z.of_nat n)%Z -> exists l, line_data g o' = Some l /\ forall p, In p (interior m) -> exists w, calc (xt l p) (zt l p) = Ok w) ->
  exists t' ks, build_maps calc m g n o t = Ok t' /\ field_line_maps t' = field_line_maps t ++ ks /\ good_maps o ks /\ length ks = (2 * n)%nat.
Proof.
  induction n as [|n IH]; intros o t Ho H; cbn [build_maps].
  - exists t, []. split; [reflexivity|]. split; [rewrite app_nil_r; reflexivity|]. split; constructor.
  - destruct (H o ltac:(lia)) as (lf & Ef & Cf). destruct (H (- o)%Z ltac:(lia)) as (lb & Eb & Cb).
    destruct (FCIMap_ok o lf (fwd_in t) (fwd_out t) ltac:(lia) Ef Cf) as (kf & -> & Of & Gf). cbn [bind].
    destruct (FCIMap_ok (- o)%Z lb (bkwd_in t) (bkwd_out t) ltac:(lia) Eb Cb) as (kb & -> & Ob & Gb). cbn [bind].
    destruct (IH (o + 1)%Z (mkT (fwd_in t ++ hits_in lf o) (bkwd_in t ++ hits_in lb (- o)) (fwd_out t ++ hits_out lf o) (bkwd_out t ++ hits_out lb (- o)) (field_line_maps t ++ [kf; kb])) ltac:(lia)) as (t' & ks & E & F & G & L).
    { intros o' Ho'. apply H. lia. }
    exists t', (kf :: kb :: ks). split; [exact E|]. split.
    + rewrite F. cbn [field_line_maps]. rewrite <- app_assoc. reflexivity.
    + split; [econstructor; eassumption|]. cbn [length]. lia.
Qed.

(** Interpolation with a good map. *)
Lemma interpolate_good : forall k l o f, moffset k = o -> good_map k l -> (Z.abs o <= ystart m)%Z -> fits m ->
  (forall p, In p (interior m) -> stays m l p -> exists v, interpolated calc point f l o p v) ->
  exists r, interpolate (lm m) point (mmask k) (moffset k) f (mweights k) (interior m) = Ok r /\
    forall p, In p (interior m) -> (stays m l p -> exists v, r (image o p) = Some v /\ interpolated calc point f l o p v) /\ (~ stays m l p -> r (image o p) = None).
Proof.
  intros k l o f Ho (Gw & Gm) Habs (F1 & F2) Hi. rewrite Ho. unfold interpolate.
  destruct (loop_total W (lm m) point (mmask k) o f (mweights k) (interior m) (fun _ => None)) as (r & Hr).
  { intros x y z Hp Hs. pose proof (proj1 (in_interior m (x, y, z)) Hp) as D. unfold in_domain in D. split; [lia|].
    assert (S : stays m l (x, y, z)). { apply stays_b_spec. destruct (stays_b m l (x, y, z)) eqn:E; [reflexivity|]. assert (mmask k (x, y, z) = true) by (apply Gm; auto). congruence. }
    destruct (Hi _ Hp S) as (v & Hv). destruct (Gw _ Hp) as (w & Ew & Es). unfold interpolated in Hv. rewrite Ew in Hv. cbn [bind] in Hv. exists w, v. split; assumption. }
  exists r. split; [exact Hr|]. destruct (loop_ok _ _ _ _ _ _ _ _ _ _ Hr) as (J1 & J2). intros [[x y] z] Hp. split.
  - intros S. assert (Hs : mmask k (x, y, z) = false). { destruct (mmask k (x, y, z)) eqn:E; [|reflexivity]. apply Gm in E. destruct E as (_ & E). apply stays_b_false in E. contradiction. }
    destruct (J1 x y z Hp Hs) as (w & v & Es & Ep & Er). exists v. split; [exact Er|]. destruct (Gw _ Hp) as (w' & Ew & Es'). unfold interpolated. rewrite Ew. cbn [bind]. congruence.
  - intros NS. unfold image. rewrite J2; [reflexivity|]. right. apply Gm. split; [exact Hp|]. apply stays_b_false. exact NS.
Qed.

Lemma calc_slices_ok : forall ks o fld, (1 <= o)%Z -> good_maps o ks -> fits m -> (2 * o + Z.of_nat (length ks) <= 2 * ystart m + 2)%Z ->
  (forall o' l p, (o <= Z.abs o' <= ystart m)%Z -> line_data g o' = Some l -> In p (interior m) -> stays m l p -> exists v, interpolated calc point (base fld) l o' p v) ->
  exists fld', calc_slices point m ks fld = Ok fld' /\ base fld' = base fld /\
    (forall o', (Z.abs o' < o)%Z -> slice fld' o' = slice fld o') /\
    forall o' l p, (o <= Z.abs o')%Z -> (2 * Z.abs o' < 2 * o + Z.of_nat (length ks))%Z -> line_data g o' = Some l -> In p (interior m) ->
      (stays m l p -> exists v, slice fld' o' (image o' p) = Some v /\ interpolated calc point (base fld) l o' p v) /\ (~ stays m l p -> slice fld' o' (image o' p) = None).
Proof.
  intros ks o fld Ho G F. revert fld. induction G as [o|o kf kb ks lf lb Ef Eb Of Ob Gf Gb G IH]; intros fld L Hi.
  - cbn [calc_slices length]. exists fld. repeat split; intros; cbn [length] in *; lia.
  - cbn [length] in L. cbn [calc_slices].
    destruct (interpolate_good kf lf o (base fld) Of Gf ltac:(lia) F) as (rf & -> & Rf). { intros p Hp S. apply (Hi o lf p); try assumption. lia. }
    cbn [bind]. cbn [base set_slice].
    destruct (interpolate_good kb lb (- o)%Z (base fld) Ob Gb ltac:(lia) F) as (rb & -> & Rb). { intros p Hp S. apply (Hi (- o)%Z lb p); try assumption. lia. }
    cbn [bind]. rewrite Of, Ob.
    destruct (IH ltac:(lia) (set_slice (set_slice fld o rf) (- o) rb) ltac:(lia)) as (fld' & -> & B & S1 & S2).
    { intros o' l p Ho' El Hp S. cbn [base set_slice]. apply (Hi o' l p); try assumption. lia. }
    cbn [base set_slice] in *. exists fld'. split; [reflexivity|]. split; [exact B|]. split.
    + intros o' Ho'. rewrite S1 by lia. cbn [slice set_slice]. rewrite (proj2 (Z.eqb_neq o' (- o))), (proj2 (Z.eqb_neq o' o)) by lia. reflexivity.
    + intros o' l p Ho' Ho'' El Hp. cbn [length] in Ho''. destruct (Z_lt_le_dec (Z.abs o') (o + 1)) as [Hlt|Hge].
      * rewrite S1 by exact Hlt. cbn [slice set_slice]. assert (o' = o \/ o' = (- o)%Z) as [-> | ->] by lia.
        -- rewrite (proj2 (Z.eqb_neq o (- o))), Z.eqb_refl by lia. rewrite Ef in El. injection El as <-. apply Rf; assumption.
        -- rewrite Z.eqb_refl. rewrite Eb in El. injection El as <-. apply Rb; assumption.
      * apply S2; [exact Hge|lia|exact El|exact Hp].
Qed.
End Maps.

(** *** Boundary conditions *)
Lemma hpt_make : forall m g l o p, hpt (make_hit m g l o p) = p.
Proof. intros m g l o [[x y] z]. reflexivity. Qed.
Lemma hlength_make : forall m g l o p, hlength (make_hit m g l o p) = 0.5 * dyg g p.
Proof. intros m g l o [[x y] z]. reflexivity. Qed.
Lemma foot_make : forall m g l o p, in_domain m p -> foot m g l o p (s_x (make_hit m g l o p)) (s_y (make_hit m g l o p)) (s_z (make_hit m g l o p)).
Proof.
  intros m g l o [[x y] z] (_ & _ & Hz). cbn [foot]. split.
  - cbn [make_hit s_y]. lra.
  - cbv zeta beta iota delta [make_hit s_x s_z].
    assert (EX : forall F : pt -> R, 0.5 * (F ((x + 1)%Z, y, z) - F ((x - 1)%Z, y, z)) = xdiff F (x, y, z)) by (intros; cbn [xdiff]; lra).
    assert (EZ : forall F : pt -> R, (if (z =? 0)%Z then F (x, y, zp m z) - F (x, y, z) else if (z =? LocalNz (lm m) - 1)%Z then F (x, y, z) - F (x, y, zm m z) else 0.5 * (F (x, y, zp m z) - F (x, y, zm m z))) = zdiff m F (x, y, z)).
    { intros F. cbn [zdiff]. unfold zp, zm. destruct (Z.eqb_spec z 0) as [->|H0]; [reflexivity|]. destruct (Z.eqb_spec z (LocalNz (lm m) - 1)) as [H1|H1].
      - rewrite (Z.mod_small (z - 1)) by lia. reflexivity.
      - rewrite (Z.mod_small (z - 1)), (Z.mod_small (z + 1)) by lia. lra. }
    rewrite !EX, !EZ. intros D. split; field; exact D.
Qed.

(** next_value looks at the base and, for some conditions, at one value of the opposite slice. *)
Definition needs_prev (c : condition) : bool := match c with Dirichlet_O3 | Dirichlet_interp => true | _ => false end.
Lemma next_value_ext : forall c v dy dir f f' h, base f = base f' ->
  (needs_prev c = true -> slice f (- dir)%Z (image (- dir) (hpt h)) = slice f' (- dir)%Z (image (- dir) (hpt h))) -> next_value c v dy dir f h = next_value c v dy dir f' h.
Proof.
  intros c v dy dir f f' h B S. unfold next_value. destruct (hpt h) as [[x y] z] eqn:E. cbn [image] in S.
  replace (y - dir)%Z with (y + - dir)%Z by lia. rewrite B. destruct c; cbn [needs_prev] in S; try reflexivity; rewrite (S eq_refl); reflexivity.
Qed.
Lemma image_inj : forall o p q, image o p = image o q -> p = q.
Proof. intros o [[x y] z] [[x' y'] z'] H. cbn in H. injection H as -> H ->. f_equal. f_equal. lia. Qed.

Lemma apply_points_ok : forall c v dy dir hs st0 f, dir <> 0%Z ->
  (forall h h', In h hs -> In h' hs -> hpt h = hpt h' -> h = h') ->
  base f = base st0 ->
  (forall h, In h hs -> needs_prev c = true -> slice f (- dir)%Z (image (- dir) (hpt h)) = slice st0 (- dir)%Z (image (- dir) (hpt h))) ->
  (forall h, In h hs -> exists r, next_value c v dy dir st0 h = Ok r) ->
  exists f', apply_points c v dy dir hs f = Ok f' /\ base f' = base st0 /\
    (forall o, o <> dir -> slice f' o = slice f o) /\
    (forall h, In h hs -> exists r, next_value c v dy dir st0 h = Ok r /\ slice f' dir (image dir (hpt h)) = Some r) /\
    (forall q, (forall h, In h hs -> image dir (hpt h) <> q) -> slice f' dir q = slice f dir q).
Proof.
  intros c v dy dir hs st0. induction hs as [|h hs IH]; intros f Hd Hu B P T; cbn [apply_points].
  - exists f. repeat split; auto. intros h [].
  - destruct (T h (or_introl eq_refl)) as (r & Er). rewrite (next_value_ext c v dy dir f st0 h B (P h (or_introl eq_refl))), Er. cbn [bind].
    destruct (hpt h) as [[x y] z] eqn:E. set (f1 := set_slice f dir (upd (slice f dir) (x, (y + dir)%Z, z) r)).
    assert (S1 : forall o, o <> dir -> slice f1 o = slice f o). { intros o Ho. cbn [f1 slice set_slice]. rewrite (proj2 (Z.eqb_neq o dir) Ho). reflexivity. }
    assert (S2 : slice f1 dir = upd (slice f dir) (x, (y + dir)%Z, z) r). { cbn [f1 slice set_slice]. rewrite Z.eqb_refl. reflexivity. }
    destruct (IH f1 Hd) as (f' & E' & B' & O' & H' & N').
    + intros h1 h2 H1 H2. apply Hu; right; assumption.
    + exact B.
    + intros h' Hh'. rewrite S1 by lia. apply P. right. exact Hh'.
    + intros h' Hh'. apply T. right. exact Hh'.
    + exists f'. split; [exact E'|]. split; [exact B'|]. split; [intros o Ho; rewrite O', S1 by exact Ho; reflexivity|]. split.
      * intros h' [<-|Hh']; [|apply H'; exact Hh'].
        destruct (in_dec pt_dec (hpt h) (map hpt hs)) as [Hin|Hnin].
        -- apply in_map_iff in Hin. destruct Hin as (h2 & E2 & H2). assert (h2 = h) by (apply Hu; [right; exact H2|left; reflexivity|exact E2]). subst h2. apply H'. exact H2.
        -- exists r. split; [exact Er|]. rewrite N'.
           ++ rewrite S2, E. apply upd_same.
           ++ intros h2 H2 EI. apply image_inj in EI. apply Hnin. rewrite <- EI. apply in_map. exact H2.
      * intros q Hq. rewrite N' by (intros h2 H2; apply Hq; right; exact H2). rewrite S2. apply upd_other. intros X. apply (Hq h (or_introl eq_refl)). rewrite E. cbn [image]. congruence.
Qed.

(** The four regions of a mesh with one slice in each direction. *)
Section One.
Variable W : Type.
Variable calc : R -> R -> res W.
Variables (m : fmesh) (g : grid).
Hypothesis one : ystart m = 1%Z.
Variables (lf lb : lines).
Hypothesis Ef : line_data g 1 = Some lf.
Hypothesis Eb : line_data g (-1) = Some lb.
Lemma transform_one : forall t, FCITransform calc m g = Ok t ->
  fwd_in t = hits_in m g lf 1 /\ fwd_out t = hits_out m g lf 1 /\ bkwd_in t = hits_in m g lb (-1) /\ bkwd_out t = hits_out m g lb (-1).
Proof.
  intros t. unfold FCITransform. rewrite one. change (Z.to_nat 1) with 1%nat. cbn [build_maps fwd_in fwd_out bkwd_in bkwd_out field_line_maps].
  unfold FCIMap. change (1 =? 0)%Z with false. change (-1 =? 0)%Z with false. cbv iota. change (- (1))%Z with (-1)%Z. rewrite Ef, Eb.
  destruct (calcWeights calc _ (xt lf) _ _ _); cbn [bind]; try discriminate.
  destruct (fold_lines m g lf 1 (interior m) (fun _ => false) [] []) as (mask & -> & _). cbn [bind].
  destruct (calcWeights calc _ (xt lb) _ _ _); cbn [bind]; try discriminate.
  change (-1 =? 0)%Z with false. cbv iota.
  destruct (fold_lines m g lb (-1) (interior m) (fun _ => false) [] []) as (mask' & -> & _). cbn [bind].
  intros H. injection H as <-. cbn [fwd_in fwd_out bkwd_in bkwd_out app]. repeat split.
Qed.
Lemma in_hits_in : forall l o h, In h (hits_in m g l o) <-> exists p, h = make_hit m g l o p /\ In p (interior m) /\ stays_b m l p = false /\ xt l p < 0.
Proof.
  intros l o h. unfold hits_in. rewrite in_map_iff. split.
  - intros (p & <- & H). apply filter_In in H. destruct H as (Hp & H). unfold leaves_in in H. exists p. destruct (stays_b m l p); [discriminate H|]. destruct (Rlt_dec _ _); [|discriminate H]. auto.
  - intros (p & -> & Hp & S & X). exists p. split; [reflexivity|]. apply filter_In. split; [exact Hp|]. unfold leaves_in. rewrite S. destruct (Rlt_dec _ _); [reflexivity|contradiction].
Qed.
Lemma in_hits_out : forall l o h, In h (hits_out m g l o) <-> exists p, h = make_hit m g l o p /\ In p (interior m) /\ stays_b m l p = false /\ ~ xt l p < 0.
Proof.
  intros l o h. unfold hits_out. rewrite in_map_iff. split.
  - intros (p & <- & H). apply filter_In in H. destruct H as (Hp & H). unfold leaves_out in H. exists p. destruct (stays_b m l p); [discriminate H|]. destruct (Rlt_dec _ _); [discriminate H|]. auto.
  - intros (p & -> & Hp & S & X). exists p. split; [reflexivity|]. apply filter_In. split; [exact Hp|]. unfold leaves_out. rewrite S. destruct (Rlt_dec _ _); [contradiction|reflexivity].
Qed.
Lemma hits_unique_in : forall l o h h', In h (hits_in m g l o) -> In h' (hits_in m g l o) -> hpt h = hpt h' -> h = h'.
Proof. intros l o h h' H H'. apply in_hits_in in H. apply in_hits_in in H'. destruct H as (p & -> & _). destruct H' as (p' & -> & _). rewrite !hpt_make. congruence. Qed.
Lemma hits_unique_out : forall l o h h', In h (hits_out m g l o) -> In h' (hits_out m g l o) -> hpt h = hpt h' -> h = h'.
Proof. intros l o h h' H H'. apply in_hits_out in H. apply in_hits_out in H'. destruct H as (p & -> & _). destruct H' as (p' & -> & _). rewrite !hpt_make. congruence. Qed.

Definition line_of (o : Z) : lines := if (o =? 1)%Z then lf else lb.
(** One region with points [hs], all on lines that leave in direction [o]. *)
Lemma apply_region : forall c v dy name o hs st0 f, o = 1%Z \/ o = (-1)%Z ->
  (forall h, In h hs -> exists p, h = make_hit m g (line_of o) o p /\ In p (interior m) /\ stays_b m (line_of o) p = false) ->
  (forall h, In h hs -> exists r, next_value c v dy o st0 h = Ok r) ->
  (needs_prev c = true -> forall p, In p (interior m) -> stays_b m (line_of o) p = false -> stays_b m (line_of (- o)) p = true) ->
  base f = base st0 ->
  (forall o' p, o' = 1%Z \/ o' = (-1)%Z -> In p (interior m) -> stays_b m (line_of o') p = true -> slice f o' (image o' p) = slice st0 o' (image o' p)) ->
  exists f', apply m c v dy (mkRegion name o hs) f = Ok f' /\ base f' = base st0 /\
    (forall o' p, o' = 1%Z \/ o' = (-1)%Z -> In p (interior m) -> stays_b m (line_of o') p = true -> slice f' o' (image o' p) = slice st0 o' (image o' p)) /\
    (forall h, In h hs -> exists r, next_value c v dy o st0 h = Ok r /\ slice f' o (image o (hpt h)) = Some r) /\
    (forall o' q, (o' = o -> forall h, In h hs -> image o (hpt h) <> q) -> slice f' o' q = slice f o' q).
Proof.
  intros c v dy name o hs st0 f Ho Hh T Prev B K. unfold apply. rewrite one. change (1 <? 1)%Z with false. cbv iota. cbn [bdir bpoints].
  destruct (apply_points_ok c v dy o hs st0 f) as (f' & E & B' & O' & H' & N').
  - lia.
  - intros h h' Hi Hi' E. destruct (Hh h Hi) as (p & -> & _). destruct (Hh h' Hi') as (p' & -> & _). rewrite !hpt_make in E. congruence.
  - exact B.
  - intros h Hi Hn. destruct (Hh h Hi) as (p & -> & Hp & S). rewrite hpt_make. apply K; [lia|exact Hp|]. apply Prev; assumption.
  - exact T.
  - exists f'. split; [exact E|]. split; [exact B'|]. split; [|split; [exact H'|]].
    + intros o' p Ho' Hp S. destruct (Z.eq_dec o' o) as [->|Hne]; [|rewrite O' by exact Hne; apply K; assumption].
      rewrite N'; [apply K; assumption|]. intros h Hi X. apply image_inj in X. destruct (Hh h Hi) as (p' & -> & _ & S'). rewrite hpt_make in X. congruence.
    + intros o' q Hq. destruct (Z.eq_dec o' o) as [->|Hne]; [apply N'; apply Hq; reflexivity|rewrite O' by exact Hne; reflexivity].
Qed.

Lemma conditions : forall c v dy t st0, FCITransform calc m g = Ok t ->
  (forall o p, o = 1%Z \/ o = (-1)%Z -> In p (interior m) -> stays_b m (line_of o) p = false -> exists r, next_value c v dy o st0 (make_hit m g (line_of o) o p) = Ok r) ->
  (needs_prev c = true -> forall o p, o = 1%Z \/ o = (-1)%Z -> In p (interior m) -> stays_b m (line_of o) p = false -> stays_b m (line_of (- o)) p = true) ->
  exists f', applyParallelBoundary m c v dy t st0 = Ok f' /\ base f' = base st0 /\
    forall o p, o = 1%Z \/ o = (-1)%Z -> In p (interior m) ->
      (stays m (line_of o) p -> slice f' o (image o p) = slice st0 o (image o p)) /\
      (~ stays m (line_of o) p -> exists r, next_value c v dy o st0 (make_hit m g (line_of o) o p) = Ok r /\ slice f' o (image o p) = Some r).
Proof.
  intros c v dy t st0 Ht T Prev. destruct (transform_one t Ht) as (E1 & E2 & E3 & E4).
  unfold applyParallelBoundary, par_boundary. rewrite E1, E2, E3, E4. cbn [apply_all].
  assert (I1 : forall h, In h (hits_in m g lf 1) -> exists p, h = make_hit m g (line_of 1) 1 p /\ In p (interior m) /\ stays_b m (line_of 1) p = false).
  { intros h H. apply in_hits_in in H. destruct H as (p & -> & Hp & S & _). exists p. auto. }
  assert (I2 : forall h, In h (hits_in m g lb (-1)) -> exists p, h = make_hit m g (line_of (-1)) (-1) p /\ In p (interior m) /\ stays_b m (line_of (-1)) p = false).
  { intros h H. apply in_hits_in in H. destruct H as (p & -> & Hp & S & _). exists p. auto. }
  assert (I3 : forall h, In h (hits_out m g lf 1) -> exists p, h = make_hit m g (line_of 1) 1 p /\ In p (interior m) /\ stays_b m (line_of 1) p = false).
  { intros h H. apply in_hits_out in H. destruct H as (p & -> & Hp & S & _). exists p. auto. }
  assert (I4 : forall h, In h (hits_out m g lb (-1)) -> exists p, h = make_hit m g (line_of (-1)) (-1) p /\ In p (interior m) /\ stays_b m (line_of (-1)) p = false).
  { intros h H. apply in_hits_out in H. destruct H as (p & -> & Hp & S & _). exists p. auto. }
  destruct (apply_region c v dy FCI_forward 1 _ st0 st0 ltac:(lia) I1) as (f1 & -> & B1 & K1 & H1 & N1).
  { intros h H. destruct (I1 h H) as (p & -> & Hp & S). apply T; auto. }
  { intros Hn p. apply Prev; auto. }
  { reflexivity. }
  { intros; reflexivity. }
  cbn [bind]. destruct (apply_region c v dy FCI_backward (-1) _ st0 f1 ltac:(lia) I2) as (f2 & -> & B2 & K2 & H2 & N2).
  { intros h H. destruct (I2 h H) as (p & -> & Hp & S). apply T; auto. }
  { intros Hn p. apply Prev; auto. }
  { exact B1. }
  { exact K1. }
  cbn [bind]. destruct (apply_region c v dy FCI_forward 1 _ st0 f2 ltac:(lia) I3) as (f3 & -> & B3 & K3 & H3 & N3).
  { intros h H. destruct (I3 h H) as (p & -> & Hp & S). apply T; auto. }
  { intros Hn p. apply Prev; auto. }
  { exact B2. }
  { exact K2. }
  cbn [bind]. destruct (apply_region c v dy FCI_backward (-1) _ st0 f3 ltac:(lia) I4) as (f4 & -> & B4 & K4 & H4 & N4).
  { intros h H. destruct (I4 h H) as (p & -> & Hp & S). apply T; auto. }
  { intros Hn p. apply Prev; auto. }
  { exact B3. }
  { exact K3. }
  cbn [bind]. exists f4. split; [reflexivity|]. split; [exact B4|]. intros o p Ho Hp. split.
  - intros S. apply K4; [exact Ho|exact Hp|apply stays_b_spec; exact S].
  - intros NS. apply stays_b_false in NS. destruct Ho as [-> | ->].
    + change (line_of 1) with lf in *. destruct (Rlt_dec (xt lf p) 0) as [X|X].
      * assert (Hi : In (make_hit m g lf 1 p) (hits_in m g lf 1)) by (apply in_hits_in; exists p; auto).
        destruct (H1 _ Hi) as (r & Er & Es). exists r. split; [exact Er|]. rewrite hpt_make in Es. rewrite N4 by lia. rewrite N3.
        -- rewrite N2 by lia. exact Es.
        -- intros _ h H Y. apply image_inj in Y. apply in_hits_out in H. destruct H as (p' & -> & _ & _ & Z'). rewrite hpt_make in Y. subst p'. contradiction.
      * assert (Hi : In (make_hit m g lf 1 p) (hits_out m g lf 1)) by (apply in_hits_out; exists p; auto).
        destruct (H3 _ Hi) as (r & Er & Es). exists r. split; [exact Er|]. rewrite hpt_make in Es. rewrite N4 by lia. exact Es.
    + change (line_of (-1)) with lb in *. destruct (Rlt_dec (xt lb p) 0) as [X|X].
      * assert (Hi : In (make_hit m g lb (-1) p) (hits_in m g lb (-1))) by (apply in_hits_in; exists p; auto).
        destruct (H2 _ Hi) as (r & Er & Es). exists r. split; [exact Er|]. rewrite hpt_make in Es. rewrite N4.
        -- rewrite N3 by lia. exact Es.
        -- intros _ h H Y. apply image_inj in Y. apply in_hits_out in H. destruct H as (p' & -> & _ & _ & Z'). rewrite hpt_make in Y. subst p'. contradiction.
      * assert (Hi : In (make_hit m g lb (-1) p) (hits_out m g lb (-1))) by (apply in_hits_out; exists p; auto).
        destruct (H4 _ Hi) as (r & Er & Es). exists r. split; [exact Er|]. rewrite hpt_make in Es. exact Es.
Qed.
End One.
