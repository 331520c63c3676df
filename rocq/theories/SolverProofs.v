Require Import ZArith List Bool Lia FinFun.
Require Import Verif.Base Verif.SolverModel Verif.SolverSpec.
Import ListNotations.
Local Open Scope Z_scope.

Definition slot : Type := place * vflags.
Definition pl (x : slot) : place := fst x.

Section S.
Variable V : Type.
Variables (zero one : V).
Notation state := (state V).
Notation store := (store V).

(* ---------- the traversal as a list ---------- *)
Fixpoint vslots (mk : nat -> place) (bnd : bool) (fs : list vflags) (k : nat) : list slot :=
  match fs with
  | [] => []
  | f :: fs' => (if bnd && negb (evolve_bndry f) then [] else [(mk k, f)]) ++ vslots mk bnd fs' (S k)
  end.
Definition zslots (s : solver) (bnd : bool) (i z : Z) : list slot := vslots (fun k => In3 k i z) bnd (f3d s) 0.
Definition cslots (s : solver) (bnd : bool) (i : Z) : list slot :=
  vslots (fun k => In2 k i) bnd (f2d s) 0 ++ flat_map (zslots s bnd i) (zrange (nz s)).
Definition slots (s : solver) : list slot :=
  flat_map (cslots s true) (bndry2 s) ++ flat_map (cslots s false) (bulk2 s).

Definition step (s : solver) (o : op) (x : state) (sl : slot) : state :=
  match fst sl with
  | In2 k i => slot_op2 V zero one o k (snd sl) i x
  | In3 k i z => slot_op3 V zero one o k (snd sl) (ind2Dto3D s i z) x
  end.

Lemma fold_flat {A B C} (f : A -> B -> A) (g : C -> list B) l : forall a, fold_left f (flat_map g l) a = fold_left (fun a c => fold_left f (g c) a) l a.
Proof. induction l as [|c l IH]; intros a; [reflexivity|]. cbn [flat_map fold_left]. now rewrite fold_left_app, IH. Qed.
Lemma fold_ext {A B} (f g : A -> B -> A) l : (forall a b, f a b = g a b) -> forall a, fold_left f l a = fold_left g l a.
Proof. intros H. induction l as [|b l IH]; intros a; [reflexivity|]. cbn [fold_left]. now rewrite H, IH. Qed.

Lemma each_var_slots s o body mk bnd : (forall k f x, body k f x = step s o x (mk k, f)) ->
  forall fs k x, each_var V body bnd fs k x = fold_left (step s o) (vslots mk bnd fs k) x.
Proof.
  intros H. induction fs as [|f fs IH]; intros k x; [reflexivity|]. cbn [each_var vslots]. rewrite fold_left_app, IH.
  destruct (bnd && negb (evolve_bndry f)); [reflexivity|]. cbn [fold_left]. now rewrite H.
Qed.
Lemma loop_cell s o bnd i x : loop_vars_op V zero one s o bnd x i = fold_left (step s o) (cslots s bnd i) x.
Proof.
  unfold loop_vars_op, cslots. rewrite fold_left_app, fold_flat.
  rewrite (each_var_slots s o _ (fun k => In2 k i) bnd) by reflexivity. apply fold_ext.
  intros y z. unfold zslots. now apply each_var_slots.
Qed.
Lemma loop_slots s o u m : loop_vars V zero one s o u m = fold_left (step s o) (slots s) (0, u, m).
Proof.
  unfold loop_vars, slots. rewrite fold_left_app, !fold_flat.
  rewrite (fold_ext (loop_vars_op V zero one s o true) (fun a c => fold_left (step s o) (cslots s true c) a)) by (intros; apply loop_cell).
  apply fold_ext. intros; apply loop_cell.
Qed.

(* ---------- members ---------- *)
Lemma in_zrange n z : In z (zrange n) <-> 0 <= z < n.
Proof.
  unfold zrange. rewrite in_map_iff. split.
  - intros (k & <- & H). apply in_seq in H. lia.
  - intros H. exists (Z.to_nat z). split; [lia|]. apply in_seq. lia.
Qed.
Lemma nodup_zrange n : NoDup (zrange n).
Proof. unfold zrange. apply FinFun.Injective_map_NoDup; [|apply seq_NoDup]. intros a b. lia. Qed.
Lemma zrange_length n : Z.of_nat (length (zrange n)) = Z.max 0 n.
Proof. unfold zrange. rewrite map_length, seq_length. lia. Qed.

Lemma in_vslots mk bnd fs : forall k0 w f, In (w, f) (vslots mk bnd fs k0) <->
  exists k, nth_error fs k = Some f /\ w = mk (k0 + k)%nat /\ (bnd = true -> evolve_bndry f = true).
Proof.
  induction fs as [|g fs IH]; intros k0 w f; cbn [vslots].
  - split; [contradiction|]. intros ([|k] & E & _); discriminate.
  - rewrite in_app_iff, IH. split.
    + intros [H|(k & E & -> & B)].
      * destruct (bnd && negb (evolve_bndry g)) eqn:C; [contradiction|]. destruct H as [[= <- <-]|[]]. exists O. rewrite Nat.add_0_r.
        repeat split; auto. intros ->. cbn in C. now destruct (evolve_bndry g).
      * exists (S k). rewrite <- plus_n_Sm. cbn [nth_error]. auto.
    + intros ([|k] & E & -> & B); cbn [nth_error] in E.
      * left. injection E as ->. rewrite Nat.add_0_r. destruct bnd; [rewrite (B eq_refl)|]; cbn; auto.
      * right. exists k. rewrite <- plus_n_Sm. cbn. auto.
Qed.
Lemma in_cslots s bnd i w f : In (w, f) (cslots s bnd i) <->
  (bnd = true -> evolve_bndry f = true) /\
  ((exists k, nth_error (f2d s) k = Some f /\ w = In2 k i) \/
   (exists k z, nth_error (f3d s) k = Some f /\ 0 <= z < nz s /\ w = In3 k i z)).
Proof.
  unfold cslots. rewrite in_app_iff, in_vslots, in_flat_map. split.
  - intros [(k & E & -> & B)|(z & Hz & H)].
    + split; [exact B|]. left. exists k. cbn. auto.
    + apply in_zrange in Hz. unfold zslots in H. apply in_vslots in H as (k & E & -> & B). split; [exact B|]. right. exists k, z. cbn. auto.
  - intros (B & [(k & E & ->)|(k & z & E & Hz & ->)]).
    + left. exists k. cbn. auto.
    + right. exists z. split; [now apply in_zrange|]. unfold zslots. apply in_vslots. exists k. cbn. auto.
Qed.
Lemma in_slots s w f : In (w, f) (slots s) <-> evolved s w /\ flags_of s w = Some f.
Proof.
  unfold slots. rewrite in_app_iff, !in_flat_map. split.
  - intros [(i & Hi & H)|(i & Hi & H)]; apply in_cslots in H as (B & [(k & E & ->)|(k & z & E & Hz & ->)]); cbn [evolved flags_of]; (split; [exists f|exact E]);
      repeat split; auto; try lia; unfold evolves_at; auto.
  - intros [Hw Hf]. destruct w as [k i|k i z]; cbn [evolved flags_of] in *.
    + destruct Hw as (g & E & H). assert (g = f) as -> by congruence. destruct H as [H|[H B]]; [right|left]; exists i; (split; [exact H|]); apply in_cslots; split; eauto. discriminate.
    + destruct Hw as (g & E & H & Hz). assert (g = f) as -> by congruence. destruct H as [H|[H B]]; [right|left]; exists i; (split; [exact H|]); apply in_cslots; split; eauto.
      * discriminate.
      * right. eauto.
      * right. eauto.
Qed.

Lemma nodup_app {A} (l l' : list A) : NoDup l -> NoDup l' -> (forall x, In x l -> ~ In x l') -> NoDup (l ++ l').
Proof.
  induction l as [|a l IH]; intros H1 H2 H; [exact H2|]. inversion H1; subst. cbn [app]. constructor.
  - rewrite in_app_iff. intros [X|X]; [contradiction|]. apply (H a); [now left|exact X].
  - apply IH; auto. intros x Hx. apply H. now right.
Qed.
Lemma nodup_flat {A B} (g : A -> list B) l : NoDup l -> (forall a, In a l -> NoDup (g a)) ->
  (forall a b x, In a l -> In b l -> In x (g a) -> In x (g b) -> a = b) -> NoDup (flat_map g l).
Proof.
  induction l as [|a l IH]; intros H1 H2 H3; [constructor|]. inversion H1; subst. cbn [flat_map]. apply nodup_app.
  - apply H2. now left.
  - apply IH; auto. { intros; apply H2; now right. } intros; eapply H3; eauto; now right.
  - intros x Hx Hx'. apply in_flat_map in Hx' as (b & Hb & Hx'). assert (a = b) as -> by (eapply H3; eauto; [now left|now right]). contradiction.
Qed.
Lemma nodup_vslots mk bnd fs : (forall a b, mk a = mk b -> a = b) -> forall k, NoDup (map pl (vslots mk bnd fs k)).
Proof.
  intros I. induction fs as [|f fs IH]; intros k; [constructor|]. cbn [vslots]. rewrite map_app. apply nodup_app; [|apply IH|].
  - destruct (bnd && _); repeat constructor. auto.
  - intros x Hx Hy. destruct (bnd && _); [contradiction|]. destruct Hx as [<- |[]]. cbn [pl fst] in *.
    apply in_map_iff in Hy as ([w g] & E & H). apply in_vslots in H as (j & _ & -> & _). cbn [pl fst] in E. apply I in E. lia.
Qed.
Lemma in_pl w l : In w (map pl l) <-> exists f, In (w, f) l.
Proof. rewrite in_map_iff. split; [intros ([x f] & <- & H); exists f; exact H|intros (f & H); exists (w, f); auto]. Qed.
Lemma map_flat {A B C} (f : B -> C) (g : A -> list B) l : map f (flat_map g l) = flat_map (fun a => map f (g a)) l.
Proof. induction l as [|a l IH]; [reflexivity|]. cbn [flat_map]. now rewrite map_app, IH. Qed.
Lemma nodup_cslots s bnd i : NoDup (map pl (cslots s bnd i)).
Proof.
  unfold cslots. rewrite map_app. apply nodup_app.
  - apply nodup_vslots. now intros a b [= ->].
  - rewrite map_flat. apply nodup_flat; [apply nodup_zrange| |].
    + intros z _. apply nodup_vslots. now intros a b [= ->].
    + intros a b x _ _ Ha Hb. apply in_pl in Ha as (f & Ha). apply in_pl in Hb as (g & Hb). unfold zslots in *.
      apply in_vslots in Ha as (k & _ & -> & _). apply in_vslots in Hb as (j & _ & E & _). now injection E.
  - intros x Hx Hy. apply in_pl in Hx as (f & Hx). apply in_vslots in Hx as (k & _ & -> & _).
    apply in_pl in Hy as (g & Hy). apply in_flat_map in Hy as (z & _ & Hy). apply in_vslots in Hy as (j & _ & E & _). discriminate.
Qed.
Lemma cslots_cell s bnd i w f : In (w, f) (cslots s bnd i) -> match w with In2 _ j | In3 _ j _ => j = i end.
Proof. intros H. apply in_cslots in H as (_ & [(k & _ & ->)|(k & z & _ & _ & ->)]); reflexivity. Qed.
Lemma nodup_slots s : good_mesh s -> NoDup (map pl (slots s)).
Proof.
  intros (N1 & N2 & N3 & _). unfold slots. rewrite map_app, !map_flat.
  assert (X : forall b1 b2 i j x, In x (map pl (cslots s b1 i)) -> In x (map pl (cslots s b2 j)) -> i = j).
  { intros b1 b2 i j x H1 H2. apply in_pl in H1 as (f & H1). apply in_pl in H2 as (g & H2). apply cslots_cell in H1. apply cslots_cell in H2. destruct x; congruence. }
  apply nodup_app.
  - apply nodup_flat; auto. { intros; apply nodup_cslots. } intros; eauto.
  - apply nodup_flat; auto. { intros; apply nodup_cslots. } intros; eauto.
  - intros x H1 H2. apply in_flat_map in H1 as (i & Hi & H1). apply in_flat_map in H2 as (j & Hj & H2).
    assert (i = j) as -> by eauto. now apply (N3 j).
Qed.

(* ---------- the traversal, executed ---------- *)
Definition N (s : solver) : Z := Z.of_nat (length (slots s)).
Definition at_ (s : solver) (p : Z) : place := nth (Z.to_nat p) (map pl (slots s)) (In2 0 0).

Lemma layout_at s : good_mesh s -> layout s (N s) (at_ s).
Proof.
  intros G. pose proof (nodup_slots s G) as ND. unfold N, at_. split; [|split].
  - intros p Hp. assert (In (nth (Z.to_nat p) (map pl (slots s)) (In2 0 0)) (map pl (slots s))) as H by (apply nth_In; rewrite map_length; lia).
    apply in_pl in H as (f & H). now apply in_slots in H.
  - intros p q Hp Hq E. rewrite NoDup_nth in ND. apply (ND (Z.to_nat p) (Z.to_nat q)) in E; rewrite ?map_length; lia.
  - intros w Hw. assert (exists f, flags_of s w = Some f) as (f & Hf) by (destruct w; cbn in Hw; destruct Hw as (f & E & _); eauto).
    assert (In w (map pl (slots s))) as I by (apply in_pl; exists f; apply in_slots; auto).
    destruct (In_nth _ _ (In2 0 0) I) as (n & Hn & E). rewrite map_length in Hn. exists (Z.of_nat n). rewrite Nat2Z.id. split; [lia|exact E].
Qed.

Definition idval (x : slot) : V := if constraint (snd x) then zero else one.
Lemma idx_inj s i z i' z' : 1 <= nz s -> 0 <= z < nz s -> 0 <= z' < nz s -> i * nz s + z = i' * nz s + z' -> i = i' /\ z = z'.
Proof. intros. assert (i = i') as -> by nia. lia. Qed.

(* saving *)
Lemma save_fold s o (rd : slot -> store -> V) : (forall sl p u m, step s o (p, u, m) sl = (p + 1, zupd V u p (rd sl m), m)) ->
  forall l p u m, exists u', fold_left (step s o) l (p, u, m) = (p + Z.of_nat (length l), u', m) /\
   (forall q, ~ p <= q < p + Z.of_nat (length l) -> u' q = u q) /\
   (forall n sl, nth_error l n = Some sl -> u' (p + Z.of_nat n) = rd sl m).
Proof.
  intros H. induction l as [|sl l IH]; intros p u m.
  - exists u. cbn [fold_left length]. split; [f_equal; f_equal; lia|]. split; [auto|]. intros [|n]; discriminate.
  - cbn [fold_left length]. rewrite H. destruct (IH (p + 1) (zupd V u p (rd sl m)) m) as (u' & E & O & I). exists u'. split; [|split].
    + rewrite E. f_equal. f_equal. lia.
    + intros q Hq. rewrite O by lia. unfold zupd. destruct (Z.eqb_spec q p); [lia|reflexivity].
    + intros [|n] sl' Hn; cbn [nth_error] in Hn.
      * injection Hn as <-. rewrite O by lia. unfold zupd. cbn [Z.of_nat]. rewrite Z.add_0_r, Z.eqb_refl. reflexivity.
      * rewrite <- (I n sl' Hn). f_equal. lia.
Qed.

(* loading: wr writes the value into the store, rd reads it back *)
Lemma load_fold s o (rd : place -> store -> V) (wr : place -> V -> store -> store) (ok : place -> Prop) :
  (forall sl p u m, step s o (p, u, m) sl = (p + 1, u, wr (pl sl) (u p) m)) ->
  (forall w v m, rd w (wr w v m) = v) -> (forall w w' v m, ok w -> ok w' -> w <> w' -> rd w' (wr w v m) = rd w' m) ->
  forall l p u m, NoDup (map pl l) -> (forall sl, In sl l -> ok (pl sl)) ->
  exists m', fold_left (step s o) l (p, u, m) = (p + Z.of_nat (length l), u, m') /\
    m' = fold_left (fun m x => wr (pl (fst x)) (snd x) m) (combine l (map (fun n => u (p + Z.of_nat n)) (seq 0 (length l)))) m /\
    (forall n sl, nth_error l n = Some sl -> rd (pl sl) m' = u (p + Z.of_nat n)) /\
    (forall w, ok w -> ~ In w (map pl l) -> rd w m' = rd w m).
Proof.
  intros H RW RO. induction l as [|sl l IH]; intros p u m ND OK.
  - exists m. cbn [fold_left length combine seq map]. split; [f_equal; f_equal; lia|]. repeat split; auto. intros [|n]; discriminate.
  - inversion ND as [|? ? Nin ND']; subst. cbn [fold_left length]. rewrite H.
    destruct (IH (p + 1) u (wr (pl sl) (u p) m) ND') as (m' & E & F & I & O). { intros x Hx. apply OK. now right. }
    exists m'. split; [|split; [|split]].
    + rewrite E. f_equal. f_equal. lia.
    + rewrite F. cbn [seq map combine fold_left fst snd]. rewrite Z.add_0_r. f_equal. f_equal.
      rewrite <- seq_shift, map_map. apply map_ext. intros a. f_equal. lia.
    + intros [|n] sl' Hn; cbn [nth_error] in Hn.
      * injection Hn as <-. rewrite O; [|apply OK; now left|exact Nin]. rewrite RW. f_equal. lia.
      * rewrite (I n sl' Hn). f_equal. lia.
    + intros w Hw Nw. cbn [map In] in Nw. rewrite O; [|exact Hw|tauto]. apply RO; [apply OK; now left|exact Hw|]. tauto.
Qed.
End S.
