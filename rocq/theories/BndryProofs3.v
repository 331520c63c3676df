Require Import ZArith List Bool Reals Lia Lra FinFun.
Require Import Verif.Base Verif.BndryModel Verif.BndrySpec Verif.BndryProofs Verif.BndryProofs2.
Import ListNotations.
Local Open Scope Z_scope.

(* ---------- assignments on one line ---------- *)
Notation lstmt := (Z * R * list (R * Z))%type.
Definition ltgt (s : lstmt) : Z := fst (fst s).
Definition lval (g : Z -> R) (s : lstmt) : R :=
  fold_left (fun a t => a + fst t * g (snd t))%R (snd s) (snd (fst s)).
Definition lexec (g : Z -> R) (s : lstmt) : Z -> R := fun k => if k =? ltgt s then lval g s else g k.
Definition lrun (l : list lstmt) (g : Z -> R) : Z -> R := fold_left lexec l g.
Definition lreads (s : lstmt) : list Z := map snd (snd s).

Definition place (b : breg) (p : pos) (z : Z) (s : lstmt) : stmt :=
  mkS (off b p (ltgt s)) z (snd (fst s)) (map (fun t => (fst t, off b p (snd t))) (snd s)).
Definition lshift (d : Z) (s : lstmt) : lstmt :=
  (ltgt s + d, snd (fst s), map (fun t => (fst t, snd t + d)) (snd s)).

Definition run1 (f : field) (s : stmt) : field := upd f (s_tgt s) (s_z s) (value f (s_z s) (s_cst s) (s_trm s)).
Definition run_all (l : list stmt) (f : field) : field := fold_left run1 l f.

Definition stmt_ok (m : lmesh) (s : stmt) : Prop :=
  in_bounds m (s_tgt s) (s_z s) = true /\ forall t, In t (s_trm s) -> in_bounds m (snd t) (s_z s) = true.

Lemma exec_all_run m l : Forall (stmt_ok m) l -> forall f, exec_all m f l = Ok (run_all l f).
Proof.
  induction 1 as [|s l [Ht Hr] _ IH]; intros f; [reflexivity|]. cbn [exec_all]. unfold exec. rewrite Ht.
  assert (E : forallb (fun t => in_bounds m (snd t) (s_z s)) (s_trm s) = true) by (apply forallb_forall; auto).
  rewrite E. cbn [andb bind]. apply IH.
Qed.

Lemma pos_eqb_spec p q : reflect (p = q) (pos_eqb p q).
Proof.
  unfold pos_eqb. destruct p as [a c], q as [a' c']; cbn [fst snd].
  destruct (Z.eqb_spec a a') as [->|]; cbn [andb]; [|constructor; congruence].
  destruct (Z.eqb_spec c c') as [->|]; constructor; congruence.
Qed.

(* a placed statement acts on its own line only *)
Lemma run1_place m b p z s f k t z' :
  run1 f (place b p z s) (gcell m b k t) z' =
  if (t =? tang b p) && (z' =? z) then
    lexec (fun k => f (gcell m b k t) z') (lshift (kof m b p) s) k
  else f (gcell m b k t) z'.
Proof.
  unfold run1, upd. cbn [s_tgt s_z s_cst s_trm place].
  assert (P : p = gcell m b (kof m b p) (tang b p)) by (symmetry; apply gcell_kof).
  set (k0 := kof m b p) in *. set (t0 := tang b p) in *. clearbody k0 t0. subst p.
  rewrite off_gcell.
  destruct (Z.eqb_spec t t0) as [->|Nt]; destruct (Z.eqb_spec z' z) as [->|Nz]; cbn [andb]; rewrite ?andb_false_r; try reflexivity.
  - rewrite andb_true_r. unfold lexec, lshift, ltgt. cbn [fst snd].
    destruct (pos_eqb_spec (gcell m b k t0) (gcell m b (k0 + fst (fst s)) t0)) as [E|E].
    + apply gcell_inj in E as [-> _]. rewrite Z.add_comm, Z.eqb_refl.
      unfold value, lval. cbn [fst snd].
      generalize (snd (fst s)). induction (snd s) as [|u l IH]; intros c; [reflexivity|].
      cbn [map fold_left fst snd]. rewrite off_gcell, IH. f_equal. f_equal. f_equal. f_equal. f_equal. lia.
    + destruct (Z.eqb_spec k (fst (fst s) + k0)) as [->|]; [|reflexivity].
      exfalso. apply E. f_equal. lia.
  - destruct (pos_eqb_spec (gcell m b k t) (gcell m b (k0 + ltgt s) t0)) as [E|E]; [|reflexivity].
    apply gcell_inj in E as [_ ->]. contradiction.
Qed.

Lemma lrun_app l l' g : lrun (l ++ l') g = lrun l' (lrun l g).
Proof. apply fold_left_app. Qed.

Lemma lexec_ext g h s : (forall k, g k = h k) -> forall k, lexec g s k = lexec h s k.
Proof.
  intros E k. unfold lexec. destruct (k =? ltgt s); [|apply E]. unfold lval.
  generalize (snd (fst s)). induction (snd s) as [|u l IH]; intros c; [reflexivity|].
  cbn [fold_left]. rewrite IH, E. reflexivity.
Qed.
Lemma lrun_ext l : forall g h, (forall k, g k = h k) -> forall k, lrun l g k = lrun l h k.
Proof.
  induction l as [|s l IH]; intros g h E k; [apply E|]. cbn [lrun fold_left].
  apply IH. intros; now apply lexec_ext.
Qed.

(* a program of placed statements: (position, z, statement) *)
Notation pst := (pos * Z * lstmt)%type.
Definition unplace (b : breg) (u : pst) : stmt := place b (fst (fst u)) (snd (fst u)) (snd u).
Definition on_line (b : breg) (t z : Z) (u : pst) : bool := (t =? tang b (fst (fst u))) && (z =? snd (fst u)).
Definition line_prog (m : lmesh) (b : breg) (t z : Z) (l : list pst) : list lstmt :=
  map (fun u => lshift (kof m b (fst (fst u))) (snd u)) (filter (on_line b t z) l).

Lemma run_all_line m b l : forall f k t z,
  run_all (map (unplace b) l) f (gcell m b k t) z =
  lrun (line_prog m b t z l) (fun k => f (gcell m b k t) z) k.
Proof.
  induction l as [|u l IH]; intros f k t z; [reflexivity|].
  unfold run_all in *. cbn [map fold_left]. rewrite IH. unfold line_prog. cbn [filter].
  destruct (on_line b t z u) eqn:O.
  - cbn [map lrun fold_left]. apply lrun_ext. intros k'. unfold unplace.
    rewrite run1_place. unfold on_line in O. rewrite O. reflexivity.
  - apply lrun_ext. intros k'. unfold unplace. rewrite run1_place. unfold on_line in O. rewrite O. reflexivity.
Qed.

(* ---------- programs built line by line ---------- *)
(* body p is a sequence of statements on p's line; for each z, those at z are K p z *)
Definition kernel (b : breg) (zs : list Z) (body : pos -> list stmt) (K : pos -> Z -> list lstmt) : Prop :=
  forall p, exists l : list pst, body p = map (unplace b) l /\
    (forall u, In u l -> fst (fst u) = p /\ In (snd (fst u)) zs) /\
    (forall z, In z zs -> filter (fun u : pst => z =? snd (fst u)) l = map (fun s => (p, z, s)) (K p z)).

Lemma kernel_by_z b zs body K : NoDup zs ->
  (forall p, body p = flat_map (fun z => map (place b p z) (K p z)) zs) -> kernel b zs body K.
Proof.
  intros N H p. exists (flat_map (fun z => map (fun s => (p, z, s)) (K p z)) zs).
  split; [|split].
  - rewrite H. clear. induction zs as [|z zs IH]; [reflexivity|]. cbn [flat_map].
    rewrite map_app, IH, map_map. reflexivity.
  - intros u Hu. apply in_flat_map in Hu as [z [Hz Hu]]. apply in_map_iff in Hu as [s [<- _]]. auto.
  - intros z Hz. rewrite filter_flat_map. rewrite (flat_map_single _ _ z N Hz).
    + induction (K p z) as [|s l IH]; [reflexivity|]. cbn [map filter fst snd]. rewrite Z.eqb_refl. f_equal. apply IH.
    + intros z' _ Hne. induction (K p z') as [|s l IH]; [reflexivity|]. cbn [map filter fst snd].
      destruct (Z.eqb_spec z z'); [congruence|]. apply IH.
Qed.

Lemma filter_map_comm {A B} (P : B -> bool) (f : A -> B) l : filter P (map f l) = map f (filter (fun a => P (f a)) l).
Proof. induction l as [|a l IH]; [reflexivity|]. cbn [map filter]. rewrite IH. destruct (P (f a)); reflexivity. Qed.

Lemma filter_ext_in' {A} (P Q : A -> bool) l : (forall a, In a l -> P a = Q a) -> filter P l = filter Q l.
Proof. apply filter_ext_in. Qed.

Lemma filter_false {A} (P : A -> bool) l : (forall a, In a l -> P a = false) -> filter P l = [].
Proof.
  induction l as [|a l IH]; intros H; [reflexivity|]. cbn [filter]. rewrite H by now left. apply IH. intros; apply H; now right.
Qed.

(* statements of the flattened program on the line (t,z) *)
Lemma line_of_program m b zs body K ps t z :
  kernel b zs body K -> In z zs ->
  exists L : list pst, flat_map body ps = map (unplace b) L /\
    line_prog m b t z L = flat_map (fun p => map (lshift (kof m b p)) (K p z)) (filter (fun p => tang b p =? t) ps) /\
    (forall u, In u L -> In (fst (fst u)) ps /\ In (snd (fst u)) zs /\ In (snd u) (K (fst (fst u)) (snd (fst u)))).
Proof.
  intros HK Hz. induction ps as [|p ps IH].
  - exists []. split; [reflexivity|split; [reflexivity|intros u []]].
  - destruct IH as (L & E & P & I). destruct (HK p) as (l & El & Il & Fl).
    exists (l ++ L). split; [|split].
    + cbn [flat_map]. rewrite El, E, map_app. reflexivity.
    + unfold line_prog in *. rewrite filter_app, map_app, P. cbn [filter].
      assert (X : filter (on_line b t z) l = if tang b p =? t then map (fun s => (p, z, s)) (K p z) else []).
      { destruct (Z.eqb_spec (tang b p) t) as [<-|N].
        - rewrite <- (Fl z Hz). apply filter_ext_in'. intros u Hu. unfold on_line.
          rewrite (proj1 (Il u Hu)), Z.eqb_refl. reflexivity.
        - apply filter_false. intros u Hu. unfold on_line. rewrite (proj1 (Il u Hu)).
          destruct (Z.eqb_spec t (tang b p)); [congruence|reflexivity]. }
      rewrite X. destruct (tang b p =? t); cbn [map flat_map app]; [|reflexivity].
      rewrite map_map. cbn [fst snd]. reflexivity.
    + intros u Hu. apply in_app_iff in Hu as [Hu|Hu].
      * destruct (Il u Hu) as [Ep Ez]. split; [left; auto|split; [auto|]].
        assert (In u (filter (fun u : pst => snd (fst u) =? snd (fst u)) l)) as Hf.
        { apply filter_In. split; [auto|apply Z.eqb_refl]. }
        assert (In u (filter (fun v : pst => snd (fst u) =? snd (fst v)) l)) as Hg.
        { apply filter_In. split; [auto|apply Z.eqb_refl]. }
        rewrite (Fl _ Ez) in Hg. apply in_map_iff in Hg as [s [Es Hs]]. rewrite Ep. apply (f_equal snd) in Es. cbn [snd] in Es. rewrite <- Es. exact Hs.
      * destruct (I u Hu) as (A & B & C). split; [now right|auto].
Qed.

(* main lemma: running a 1-d boundary condition *)
Section Apply.
Variables (m : lmesh) (b : breg) (d : Z).
Hypothesis F : fits m b d.
Hypothesis Hd : 0 <= d.
Let zs := zrange 0 (LNz m).

Definition cells_ok (k : Z) (l : list lstmt) : Prop :=
  forall s, In s l -> - d <= k + ltgt s < b_width b /\ (forall j, In j (lreads s) -> - d <= k + j < b_width b).

Lemma place_ok k t z s : b_lo b <= t <= b_hi b -> 0 <= z < LNz m ->
  - d <= k + ltgt s < b_width b /\ (forall j, In j (lreads s) -> - d <= k + j < b_width b) ->
  stmt_ok m (place b (gcell m b k t) z s).
Proof.
  intros Ht Hz [H1 H2]. split; cbn [place s_tgt s_z s_trm].
  - rewrite off_gcell. now apply (in_bounds_gcell m b d).
  - intros u Hu. apply in_map_iff in Hu as [v [<- Hv]]. cbn [snd]. rewrite off_gcell.
    apply (in_bounds_gcell m b d); auto. apply H2. unfold lreads. now apply in_map.
Qed.

Lemma filter_map_line k t : b_lo b <= t <= b_hi b ->
  filter (fun p => tang b p =? t) (map (gcell m b k) (zrange (b_lo b) (b_hi b + 1))) = [gcell m b k t].
Proof.
  intros Ht. rewrite filter_map_comm.
  rewrite (filter_zrange_eq (gcell m b k) (fun u => tang b (gcell m b k u))); auto; [intros; apply tang_gcell|lia].
Qed.
Lemma filter_map_line_out k t : ~ (b_lo b <= t <= b_hi b) ->
  filter (fun p => tang b p =? t) (map (gcell m b k) (zrange (b_lo b) (b_hi b + 1))) = [].
Proof.
  intros Ht. apply filter_false. intros p Hp. apply in_map_iff in Hp as [u [<- Hu]]. rewrite tang_gcell.
  apply in_zrange in Hu. apply Z.eqb_neq. lia.
Qed.

Lemma lshift0 s : lshift 0 s = s.
Proof.
  destruct s as [[a c] l]. unfold lshift, ltgt. cbn [fst snd]. rewrite Z.add_0_r. f_equal.
  induction l as [|[u v] l IH]; [reflexivity|]. cbn [map fst snd]. rewrite IH. do 2 f_equal. lia.
Qed.

(* the result on any line, for a program over positions ps *)
Lemma run_program body K ps f :
  kernel b zs body K ->
  (forall p, In p ps -> exists k t, p = gcell m b k t /\ b_lo b <= t <= b_hi b /\ forall z, 0 <= z < LNz m -> cells_ok k (K p z)) ->
  exists f', exec_all m f (flat_map body ps) = Ok f' /\
    (forall t z, 0 <= z < LNz m -> forall k, f' (gcell m b k t) z =
       lrun (flat_map (fun p => map (lshift (kof m b p)) (K p z)) (filter (fun p => tang b p =? t) ps))
            (fun k => f (gcell m b k t) z) k) /\
    (forall p z, ~ (0 <= z < LNz m) -> f' p z = f p z).
Proof.
  intros HK Hps. exists (run_all (flat_map body ps) f).
  destruct (Z_lt_le_dec 0 (LNz m)) as [Hnz|Hnz].
  2:{ assert (E : flat_map body ps = []).
      { clear Hps. induction ps as [|p ps' IH]; [reflexivity|]. cbn [flat_map]. rewrite IH.
        destruct (HK p) as (l & -> & Il & _). destruct l as [|u l]; [reflexivity|].
        destruct (Il u (or_introl eq_refl)) as [_ Hz]. apply in_zrange in Hz. lia. }
      rewrite E. split; [reflexivity|]. split; [intros; lia|reflexivity]. }
  split; [|split].
  - apply exec_all_run. apply Forall_forall. intros s Hs.
    destruct (line_of_program m b zs body K ps 0 0 HK ltac:(apply in_zrange; lia)) as (L & E & _ & I).
    rewrite E in Hs. apply in_map_iff in Hs as [u [<- Hu]]. destruct (I u Hu) as (Hp & Hz & Hk).
    apply in_zrange in Hz. destruct (Hps _ Hp) as (k & t & Ep & Ht & Hc).
    unfold unplace. rewrite Ep. apply place_ok; auto. apply (Hc _ Hz). exact Hk.
  - intros t z Hz k.
    destruct (line_of_program m b zs body K ps t z HK ltac:(apply in_zrange; lia)) as (L & E & P & I).
    rewrite E, run_all_line, P. reflexivity.
  - intros p z Hz.
    destruct (line_of_program m b zs body K ps 0 0 HK ltac:(apply in_zrange; lia)) as (L & E & _ & I).
    rewrite E. rewrite <- (gcell_kof m b p) at 1. rewrite run_all_line.
    unfold line_prog. rewrite filter_false; [cbn [map]; unfold lrun; cbn [fold_left]; now rewrite gcell_kof|].
    intros u Hu. destruct (I u Hu) as (_ & Hu2 & _). apply in_zrange in Hu2. unfold on_line.
    destruct (Z.eqb_spec z (snd (fst u))); [lia|apply andb_false_r].
Qed.

Lemma apply1d_spec body K f fuel k0 :
  0 < b_width b -> b_hi b + 1 - b_lo b <= Z.of_nat fuel ->
  kernel b zs body K ->
  (forall p z, cells_ok 0 (K p z)) ->
  (forall p z s, In s (K p z) -> k0 <= ltgt s) ->
  exists f', apply1d m b fuel body f = Ok f' /\
    on_lines m b f f' (fun l l' p z => forall k, l' k = lrun (K p z) l k) /\
    only_changes m b k0 (b_width b) f f'.
Proof.
  intros Hw Hf HK Hc Hk0. unfold apply1d. rewrite (walk1d_spec m b d) by auto.
  destruct (run_program body K (map (gcell m b 0) (zrange (b_lo b) (b_hi b + 1))) f HK) as (f' & E & L & O).
  { intros p Hp. apply in_map_iff in Hp as [t [<- Ht]]. apply in_zrange in Ht. exists 0, t.
    split; [auto|]. split; [lia|]. auto. }
  exists f'. split; [exact E|]. split.
  - intros t z Ht Hz k. rewrite (L t z Hz k). rewrite filter_map_line by auto.
    cbn [flat_map]. rewrite app_nil_r, kof_gcell.
    apply (f_equal (fun l => lrun l (fun k => f (gcell m b k t) z) k)).
    rewrite <- map_id. apply map_ext. apply lshift0.
  - intros p z Hn. destruct (Z_le_gt_dec 0 z) as [Z0|Z0]; [|apply O; lia].
    destruct (Z_lt_le_dec z (LNz m)) as [Z1|Z1]; [|apply O; lia].
    rewrite <- (gcell_kof m b p). rewrite (L _ z ltac:(lia)). set (k := kof m b p). set (t := tang b p).
    destruct (Z_le_gt_dec (b_lo b) t) as [T0|T0]; [destruct (Z_le_gt_dec t (b_hi b)) as [T1|T1]|].
    + rewrite filter_map_line by lia. cbn [flat_map]. rewrite app_nil_r, kof_gcell.
      assert (G : ~ (k0 <= k < b_width b)).
      { intros Hk. apply Hn. split; [|lia]. exists k, t. split; [auto|]. split; [lia|]. symmetry; apply gcell_kof. }
      assert (forall l g, (forall s, In s l -> k0 <= ltgt s < b_width b) -> lrun l g k = g k) as X.
      { clear -G. induction l as [|s l IH]; intros g H; [reflexivity|]. cbn [lrun fold_left]. fold (lrun l (lexec g s)).
        rewrite IH by (intros; apply H; now right). unfold lexec.
        destruct (Z.eqb_spec k (ltgt s)) as [->|]; [|reflexivity]. exfalso. apply G. apply H. now left. }
      rewrite X; [reflexivity|]. intros s Hs. apply in_map_iff in Hs as [s' [<- Hs']]. rewrite lshift0.
      pose proof (Hk0 _ _ _ Hs'). pose proof (Hc _ _ _ Hs'). lia.
    + rewrite filter_map_line_out by lia. reflexivity.
    + rewrite filter_map_line_out by lia. reflexivity.
Qed.

(* running at every guard cell, from inside out *)
Lemma apply_all_spec body K f fuel :
  b_lo b <= b_hi b -> b_width b * (b_hi b + 1 - b_lo b) <= Z.of_nat fuel ->
  kernel b zs body K ->
  (forall k t z, 0 <= k < b_width b -> cells_ok k (K (gcell m b k t) z)) ->
  (forall p z s, In s (K p z) -> ltgt s = 0) ->
  exists f', apply_all m b fuel body f = Ok f' /\
    (forall t z, b_lo b <= t <= b_hi b -> 0 <= z < LNz m -> forall k,
       f' (gcell m b k t) z =
       lrun (flat_map (fun k => map (lshift k) (K (gcell m b k t) z)) (zrange 0 (b_width b)))
            (fun k => f (gcell m b k t) z) k) /\
    only_changes m b 0 (b_width b) f f'.
Proof.
  intros Hlh Hf HK Hc Hk0. unfold apply_all. rewrite (walk_all_spec m b d) by auto.
  destruct (run_program body K (all_cells m b) f HK) as (f' & E & L & O).
  { intros p Hp. apply in_all_cells in Hp as (k & t & Hk & Ht & ->). exists k, t. auto. }
  exists f'. split; [exact E|].
  assert (Shape : forall t z, b_lo b <= t <= b_hi b ->
     flat_map (fun p => map (lshift (kof m b p)) (K p z)) (filter (fun p => tang b p =? t) (all_cells m b))
     = flat_map (fun k => map (lshift k) (K (gcell m b k t) z)) (zrange 0 (b_width b))).
  { intros t z Ht. rewrite filter_all_cells by auto. generalize (zrange 0 (b_width b)).
    induction l as [|k l IH]; [reflexivity|]. cbn [map flat_map]. rewrite IH, kof_gcell. reflexivity. }
  split.
  - intros t z Ht Hz k. rewrite (L t z Hz k), Shape by auto. reflexivity.
  - intros p z Hn. destruct (Z_le_gt_dec 0 z) as [Z0|Z0]; [|apply O; lia].
    destruct (Z_lt_le_dec z (LNz m)) as [Z1|Z1]; [|apply O; lia].
    rewrite <- (gcell_kof m b p). rewrite (L _ z ltac:(lia)). set (k := kof m b p). set (t := tang b p).
    destruct (Z_le_gt_dec (b_lo b) t) as [T0|T0]; [destruct (Z_le_gt_dec t (b_hi b)) as [T1|T1]|].
    + rewrite Shape by lia.
      assert (G : ~ (0 <= k < b_width b)).
      { intros Hk. apply Hn. split; [|lia]. exists k, t. split; [auto|]. split; [lia|]. symmetry; apply gcell_kof. }
      assert (forall l g, (forall s, In s l -> 0 <= ltgt s < b_width b) -> lrun l g k = g k) as X.
      { clear -G. induction l as [|s l IH]; intros g H; [reflexivity|]. cbn [lrun fold_left]. fold (lrun l (lexec g s)).
        rewrite IH by (intros; apply H; now right). unfold lexec.
        destruct (Z.eqb_spec k (ltgt s)) as [->|]; [|reflexivity]. exfalso. apply G. apply H. now left. }
      rewrite X; [reflexivity|]. intros s Hs. apply in_flat_map in Hs as [u [Hu Hs]].
      apply in_map_iff in Hs as [s' [<- Hs']]. apply in_zrange in Hu.
      unfold lshift, ltgt. cbn [fst]. pose proof (Hk0 _ _ _ Hs') as Z. unfold ltgt in Z. lia.
    + rewrite filter_false; [reflexivity|]. intros q Hq. apply in_all_cells in Hq as (k' & t' & _ & Ht' & ->).
      rewrite tang_gcell. apply Z.eqb_neq. lia.
    + rewrite filter_false; [reflexivity|]. intros q Hq. apply in_all_cells in Hq as (k' & t' & _ & Ht' & ->).
      rewrite tang_gcell. apply Z.eqb_neq. lia.
Qed.
End Apply.

(* ---------- sequences of extrapolations ---------- *)
Lemma lval_ext g h s : (forall j, In j (lreads s) -> g j = h j) -> lval g s = lval h s.
Proof.
  unfold lval, lreads. generalize (snd (fst s)). induction (snd s) as [|u l IH]; intros c H; [reflexivity|].
  cbn [fold_left]. rewrite H by now left. apply IH. intros; apply H; now right.
Qed.

Lemma lrun_seq (e : Z -> lstmt) a w g :
  (forall i, ltgt (e i) = i) -> (forall i j, In j (lreads (e i)) -> j < i) ->
  let h := lrun (map e (zrange a w)) g in
  (forall k, ~ (a <= k < w) -> h k = g k) /\ (forall k, a <= k < w -> h k = lval h (e k)).
Proof.
  intros Ht Hr. destruct (Z_le_gt_dec w a) as [C|C].
  { rewrite zrange_empty by lia. cbn [map lrun fold_left]. split; [reflexivity|lia]. }
  assert (X : forall n, let h := lrun (map e (zrange a (a + Z.of_nat n))) g in
     (forall k, ~ (a <= k < a + Z.of_nat n) -> h k = g k) /\ (forall k, a <= k < a + Z.of_nat n -> h k = lval h (e k))).
  { induction n as [|n IH].
    - rewrite zrange_empty by lia. cbn [map lrun fold_left]. split; [reflexivity|lia].
    - replace (a + Z.of_nat (S n)) with (a + Z.of_nat n + 1) by lia. rewrite zrange_snoc by lia.
      rewrite map_app, lrun_app. set (h0 := lrun (map e (zrange a (a + Z.of_nat n))) g) in *.
      destruct IH as [I1 I2]. cbn [map lrun fold_left].
      set (i := a + Z.of_nat n) in *. unfold lexec. rewrite Ht. split.
      + intros k Hk. destruct (Z.eqb_spec k i); [lia|]. apply I1. lia.
      + intros k Hk. destruct (Z.eqb_spec k i) as [->|N].
        * apply lval_ext. intros j Hj. apply Hr in Hj. destruct (Z.eqb_spec j i); [lia|reflexivity].
        * rewrite I2 by lia. apply lval_ext. intros j Hj. apply Hr in Hj. destruct (Z.eqb_spec j i); [lia|reflexivity]. }
  specialize (X (Z.to_nat (w - a))). replace (a + Z.of_nat (Z.to_nat (w - a))) with w in X by lia. exact X.
Qed.
