Require Import ZArith List Bool Reals Lia Lra FinFun.
Require Import Verif.Base Verif.BndryModel Verif.BndrySpec Verif.BndryProofs Verif.BndryProofs2 Verif.BndryProofs3 Verif.BndryProofs4 Verif.BndryProofs5.
Import ListNotations.
Local Open Scope Z_scope.

(* ---------- conditions run at every guard cell ---------- *)
(* one assignment per guard cell, reading inwards *)
Lemma all_line (m : lmesh) b d body (K : pos -> Z -> lstmt) f fuel :
  fits m b d -> 0 <= d -> b_lo b <= b_hi b -> enough b fuel ->
  (forall p, body p = map (fun z => place b p z (K p z)) (zrange 0 (LNz m))) ->
  (forall p z, ltgt (K p z) = 0) ->
  (forall p z j, In j (lreads (K p z)) -> - d <= j < 0) ->
  exists f', apply_all m b fuel body f = Ok f' /\
    (forall t z, b_lo b <= t <= b_hi b -> 0 <= z < LNz m ->
       forall k, 0 <= k < b_width b ->
       f' (gcell m b k t) z = lval (fun j => f' (gcell m b (k + j) t) z) (K (gcell m b k t) z)) /\
    only_changes m b 0 (b_width b) f f'.
Proof.
  intros F Hd Hlh [Hf _] HB HT HR.
  assert (KK : kernel b (zrange 0 (LNz m)) body (fun p z => [K p z])).
  { apply kernel_zs. intros p. rewrite HB. generalize (zrange 0 (LNz m)). induction l as [|z l IH]; [reflexivity|]. cbn [map flat_map app]. now f_equal. }
  destruct (apply_all_spec m b d F Hd body (fun p z => [K p z]) f fuel Hlh Hf KK) as (f' & E & L & O).
  - intros k t z Hk. apply cells_ok_cons; [|apply cells_ok_nil]. rewrite HT. split; [lia|].
    intros j Hj. apply HR in Hj. lia.
  - intros p z s [<-|[]]. apply HT.
  - exists f'. split; [exact E|]. split; [|exact O].
    intros t z Ht Hz k Hk.
    set (e := fun k => lshift k (K (gcell m b k t) z)).
    assert (X : forall k, f' (gcell m b k t) z = lrun (map e (zrange 0 (b_width b))) (fun k => f (gcell m b k t) z) k).
    { intros k'. rewrite (L t z Ht Hz). reflexivity. }
    destruct (lrun_seq e 0 (b_width b) (fun k => f (gcell m b k t) z)) as [_ B].
    + intros i. unfold e, lshift, ltgt. cbn [fst]. pose proof (HT (gcell m b i t) z) as T. unfold ltgt in T. lia.
    + intros i j Hj. unfold e, lshift, lreads in Hj. cbn [snd] in Hj. rewrite map_map in Hj. apply in_map_iff in Hj as [u [<- Hu]].
      cbn [snd]. assert (- d <= snd u < 0) by (apply (HR (gcell m b i t) z); unfold lreads; now apply in_map). lia.
    + rewrite X, B by auto. unfold e. unfold lval, lshift. cbn [fst snd].
      assert (G : forall (h : Z -> R) l c, (forall j, h j = f' (gcell m b j t) z) ->
         fold_left (fun a u => (a + fst u * h (snd u))%R) (map (fun u : R * Z => (fst u, snd u + k)) l) c =
         fold_left (fun a u => (a + fst u * f' (gcell m b (k + snd u) t) z)%R) l c).
      { intros h. induction l as [|u l IH]; intros c Hh; [reflexivity|]. cbn [map fold_left fst snd]. rewrite IH by auto.
        rewrite Hh. do 3 f_equal. f_equal. f_equal. lia. }
      apply G. intros j. now rewrite X.
Qed.

Lemma map_place_flat {A} (g h : A -> stmt) l : (forall z, g z = h z) -> map g l = map h l.
Proof. intros; apply map_ext; auto. Qed.

(* ---------- time derivatives ---------- *)
Lemma fold_upd_z (v : Z -> R) p zs : forall d q k,
  fold_left (fun d z => upd d p z (v z)) zs d q k =
  if pos_eqb q p && existsb (Z.eqb k) zs then v k else d q k.
Proof.
  induction zs as [|z zs IH]; intros d q k; cbn [fold_left existsb]; [now rewrite andb_false_r|].
  rewrite IH. unfold upd. destruct (pos_eqb q p); cbn [andb]; [|reflexivity].
  destruct (Z.eqb_spec k z) as [->|]; cbn [orb]; [destruct (existsb (Z.eqb z) zs); reflexivity|reflexivity].
Qed.
Lemma fold_upd (v : pos -> Z -> R) zs ps : forall d q k,
  fold_left (fun d p => fold_left (fun d z => upd d p z (v p z)) zs d) ps d q k =
  if existsb (pos_eqb q) ps && existsb (Z.eqb k) zs then v q k else d q k.
Proof.
  induction ps as [|p ps IH]; intros d q k; cbn [fold_left existsb]; [reflexivity|].
  rewrite IH, fold_upd_z. destruct (pos_eqb_spec q p) as [->|]; cbn [orb andb]; [|reflexivity].
  destruct (existsb (Z.eqb k) zs); rewrite ?andb_false_r; [destruct (existsb (pos_eqb p) ps); reflexivity|reflexivity].
Qed.

Lemma strip_dec m b z q : existsb (pos_eqb q) (all_cells m b) && existsb (Z.eqb z) (zrange 0 (LNz m)) = true <->
  in_strip m b 0 (b_width b) q /\ 0 <= z < LNz m.
Proof.
  rewrite andb_true_iff, !existsb_exists. rewrite <- in_all_cells. split.
  - intros [[p [Hp E]] [u [Hu Eu]]]. destruct (pos_eqb_spec q p) as [->|]; [|discriminate]. apply Z.eqb_eq in Eu as ->.
    apply in_zrange in Hu. auto.
  - intros [Hq Hz]. split; [exists q; split; [auto|]; destruct (pos_eqb_spec q q); congruence|].
    exists z. split; [now apply in_zrange|apply Z.eqb_refl].
Qed.

Lemma set_all m b d fuel (v : vfun) dt : fits m b d -> 0 <= d -> b_lo b <= b_hi b -> enough b fuel ->
  exists ps, walk_all m b fuel = Some ps /\
   let dt' := fold_left (fun d p => fold_left (fun d z => upd d p z (v p z)) (zrange 0 (LNz m)) d) ps dt in
   only_changes m b 0 (b_width b) dt dt' /\
   forall p z, in_strip m b 0 (b_width b) p -> 0 <= z < LNz m -> dt' p z = v p z.
Proof.
  intros F Hd Hlh [Hf _]. exists (all_cells m b). split; [now apply (walk_all_spec m b d)|]. cbv zeta. split.
  - intros p z N. rewrite fold_upd. destruct (existsb _ _ && _) eqn:E; [|reflexivity]. exfalso. apply N. now apply strip_dec.
  - intros p z Hp Hz. rewrite fold_upd. replace (existsb _ _ && _) with true; [reflexivity|]. symmetry. now apply strip_dec.
Qed.

Lemma exec_oob m f s : in_bounds m (s_tgt s) (s_z s) = false -> exec m f s = UB.
Proof. intros E. unfold exec. rewrite E. reflexivity. Qed.

Lemma exec_all_oob m l : forall f s, In s l -> in_bounds m (s_tgt s) (s_z s) = false -> exec_all m f l = UB.
Proof.
  induction l as [|u l IH]; intros f s Hs E; [destruct Hs|]. cbn [exec_all].
  destruct Hs as [->|Hs]; [now rewrite exec_oob|].
  unfold exec at 1. destruct (_ && _); [|reflexivity]. cbn [bind]. now apply (IH _ s).
Qed.

Lemma classic_strip m b z q : (in_strip m b 0 (b_width b) q /\ 0 <= z < LNz m) \/ ~ (in_strip m b 0 (b_width b) q /\ 0 <= z < LNz m).
Proof.
  destruct (existsb (pos_eqb q) (all_cells m b) && existsb (Z.eqb z) (zrange 0 (LNz m))) eqn:E.
  - left. now apply strip_dec.
  - right. intros H. apply strip_dec in H. congruence.
Qed.
