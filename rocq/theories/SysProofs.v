From Coq Require Import Ascii String List Arith ZArith Bool Lia.
From Verif Require Import Base SysModel SysSpec.
Import ListNotations.
Local Open Scope Z_scope.

(** * Message stack *)
Definition ms_wf (s : mstack) : Prop := (ms_pos s <= List.length (ms_stack s))%nat.
Definition ms_abs (s : mstack) : list string := firstn (ms_pos s) (ms_stack s).

Lemma vec_set_some {A} (l : list A) j v : (j < List.length l)%nat -> exists l', vec_set l j v = Some l' /\
  List.length l' = List.length l /\ firstn j l' = firstn j l /\ nth_error l' j = Some v.
Proof.
  revert j. induction l as [|a l IH]; intros j H; cbn in H; [lia|]. destruct j as [|j]; cbn.
  - eexists; repeat split; reflexivity.
  - destruct (IH j ltac:(lia)) as (l' & E & E1 & E2 & E3). rewrite E. eexists; repeat split; cbn; congruence.
Qed.
Lemma firstn_S_nth {A} (l : list A) i x : nth_error l i = Some x -> firstn (S i) l = firstn i l ++ [x].
Proof.
  revert i. induction l as [|a l IH]; intros i H; destruct i; cbn in *; try discriminate.
  - now injection H as ->.
  - f_equal. now apply IH.
Qed.
Lemma ms_abs_len s : ms_wf s -> List.length (ms_abs s) = ms_pos s.
Proof. intros H. unfold ms_abs. apply firstn_length_le. exact H. Qed.

Lemma ms_push_ok m s : ms_wf s -> exists s', ms_push m s = Ok (s', ms_pos s) /\ ms_wf s' /\ ms_abs s' = ms_abs s ++ [m] /\ ms_pos s' = S (ms_pos s).
Proof.
  intros H. unfold ms_push, ms_wf in *. destruct (Nat.leb_spec (List.length (ms_stack s)) (ms_pos s)).
  - eexists; split; [reflexivity|]. cbn [ms_stack ms_pos]. split; [rewrite app_length; cbn; lia|]. split; [|reflexivity].
    unfold ms_abs. cbn [ms_stack ms_pos]. replace (ms_pos s) with (List.length (ms_stack s)) by lia.
    rewrite firstn_all. rewrite firstn_all2; [reflexivity|]. rewrite app_length. cbn. lia.
  - destruct (vec_set_some (ms_stack s) (ms_pos s) m ltac:(lia)) as (st & E & E1 & E2 & E3). rewrite E.
    eexists; split; [reflexivity|]. cbn [ms_stack ms_pos]. split; [lia|]. split; [|reflexivity].
    unfold ms_abs. cbn [ms_stack ms_pos]. rewrite (firstn_S_nth _ _ _ E3), E2. reflexivity.
Qed.
Lemma removelast_firstn' {A} (l : list A) n : (n <= List.length l)%nat -> removelast (firstn n l) = firstn (pred n) l.
Proof. intros H. destruct n as [|n]; [reflexivity|]. cbn [pred]. apply removelast_firstn. lia. Qed.

Lemma ms_pop_id_ok i s : ms_wf s -> ms_wf (ms_pop_id i s) /\
  ms_abs (ms_pop_id i s) = if i <=? Z.of_nat (List.length (ms_abs s)) then firstn (Z.to_nat i) (ms_abs s) else ms_abs s.
Proof.
  intros H. rewrite ms_abs_len by assumption. unfold ms_pop_id, ms_wf in *.
  set (j := if i <? 0 then 0 else i). assert (Hj : Z.to_nat j = Z.to_nat i) by (unfold j; destruct (Z.ltb_spec i 0); lia).
  assert (Hc : (j <=? Z.of_nat (ms_pos s)) = (i <=? Z.of_nat (ms_pos s))).
  { unfold j. destruct (Z.ltb_spec i 0); [|reflexivity]. destruct (Z.leb_spec i (Z.of_nat (ms_pos s))); [|lia]. apply Z.leb_le. lia. }
  rewrite Hc. destruct (Z.leb_spec i (Z.of_nat (ms_pos s))).
  - unfold ms_abs. cbn [ms_stack ms_pos]. rewrite Hj. split; [lia|]. rewrite firstn_firstn. f_equal. lia.
  - split; [assumption|reflexivity].
Qed.

Lemma ms_step_ok o s : ms_wf s -> exists s', ms_step o s = Ok s' /\ ms_wf s' /\ ms_abs s' = spec_step o (ms_abs s).
Proof.
  intros H. destruct o as [m| |i|]; cbn [ms_step spec_step].
  - destruct (ms_push_ok m s H) as (s' & E & W & A & _). rewrite E. cbn [bind fst]. eauto.
  - eexists; split; [reflexivity|]. unfold ms_wf, ms_abs, ms_pop in *. cbn [ms_stack ms_pos]. split; [lia|].
    symmetry. now apply removelast_firstn'.
  - eexists; split; [reflexivity|]. now apply ms_pop_id_ok.
  - eexists; split; [reflexivity|]. unfold ms_wf, ms_abs; cbn. split; [lia|reflexivity].
Qed.
Lemma ms_run_ok ops : forall s, ms_wf s -> exists s', ms_run ops s = Ok s' /\ ms_wf s' /\ ms_abs s' = spec_run ops (ms_abs s).
Proof.
  induction ops as [|o ops IH]; intros s H; cbn [ms_run].
  - exists s. auto.
  - destruct (ms_step_ok o s H) as (s1 & E & W & A). rewrite E. cbn [bind].
    destruct (IH s1 W) as (s2 & E2 & W2 & A2). exists s2. split; [assumption|]. split; [assumption|]. rewrite A2, A. reflexivity.
Qed.

Lemma str_app_assoc (a b c : string) : ((a ++ b) ++ c)%string = (a ++ (b ++ c))%string.
Proof. induction a as [|x a IH]; cbn; [reflexivity|]. now rewrite IH. Qed.
Lemma str_app_nil (a : string) : (a ++ "")%string = a.
Proof. induction a as [|x a IH]; cbn; [reflexivity|]. now rewrite IH. Qed.
Lemma concat_cons (x : string) l : String.concat "" (x :: l) = (x ++ String.concat "" l)%string.
Proof. destruct l; cbn; [now rewrite str_app_nil|reflexivity]. Qed.

Lemma ms_dump_ok st : forall n acc, (n <= List.length st)%nat ->
  ms_dump_from st n acc = Ok (acc ++ String.concat "" (map dump_line (rev (firstn n st))))%string.
Proof.
  induction n as [|i IH]; intros acc H; cbn [ms_dump_from].
  - cbn. now rewrite str_app_nil.
  - destruct (nth_error st i) as [m|] eqn:E; [|apply nth_error_None in E; lia].
    rewrite IH by lia. rewrite (firstn_S_nth _ _ _ E), rev_app_distr. cbn [rev app map]. rewrite concat_cons. f_equal.
    unfold dump_line at 2. destruct (String.eqb m ""); [reflexivity|]. now rewrite str_app_assoc.
Qed.

Lemma ms_history ops : exists s, ms_run ops ms_init = Ok s /\ ms_getDump s = Ok (dump_text (spec_run ops [])).
Proof.
  destruct (ms_run_ok ops ms_init) as (s & E & W & A); [unfold ms_wf; cbn; lia|]. exists s. split; [assumption|].
  unfold ms_getDump, dump_text. rewrite ms_dump_ok by exact W. unfold ms_abs in A at 1. rewrite A. reflexivity.
Qed.

Lemma trun_ok p : forall s, ms_wf s -> exists s', trun p s = Ok (s', snd (trace_left p)) /\ ms_wf s' /\
  ms_abs s' = ms_abs s ++ fst (trace_left p).
Proof.
  induction p as [| |a IHa b IHb|m body IH|body IHb handler IHh]; intros s H; cbn [trun trace_left].
  - exists s. cbn. rewrite app_nil_r. auto.
  - exists s. cbn. rewrite app_nil_r. auto.
  - destruct (IHa s H) as (s1 & E1 & W1 & A1). rewrite E1. cbn [bind fst snd].
    destruct (trace_left a) as [la ea]. cbn [fst snd] in *. destruct ea.
    + exists s1. cbn. auto.
    + destruct (IHb s1 W1) as (s2 & E2 & W2 & A2). destruct (trace_left b) as [lb eb]. cbn [fst snd] in *.
      exists s2. rewrite E2. split; [reflexivity|]. split; [assumption|]. now rewrite A2, A1, app_assoc.
  - destruct (ms_push_ok m s H) as (s1 & E1 & W1 & A1 & P1). rewrite E1. cbn [bind fst snd].
    destruct (IH s1 W1) as (s2 & E2 & W2 & A2). rewrite E2. cbn [bind fst snd].
    destruct (trace_left body) as [l e]. cbn [fst snd] in *. destruct e.
    + exists s2. cbn [fst snd]. split; [reflexivity|]. split; [assumption|]. rewrite A2, A1, <- app_assoc. reflexivity.
    + eexists. split; [reflexivity|]. destruct (ms_pop_id_ok (Z.of_nat (ms_pos s)) s2 W2) as [W3 A3].
      split; [assumption|]. rewrite A3. cbn [fst]. rewrite app_nil_r. pose proof (ms_abs_len s H) as HL.
      assert (HL2 : (ms_pos s <= List.length (ms_abs s2))%nat) by (rewrite A2, A1, !app_length, HL; lia).
      destruct (Z.leb_spec (Z.of_nat (ms_pos s)) (Z.of_nat (List.length (ms_abs s2)))); [|lia].
      rewrite Nat2Z.id, A2, A1, <- app_assoc, <- HL, firstn_app, firstn_all, Nat.sub_diag. cbn [firstn]. apply app_nil_r.
  - destruct (IHb s H) as (s1 & E1 & W1 & A1). rewrite E1. cbn [bind fst snd].
    destruct (trace_left body) as [l e]. cbn [fst snd] in *. destruct e.
    + destruct (IHh s1 W1) as (s2 & E2 & W2 & A2). destruct (trace_left handler) as [lh eh]. cbn [fst snd] in *.
      exists s2. rewrite E2. split; [reflexivity|]. split; [assumption|]. now rewrite A2, A1, app_assoc.
    + exists s1. auto.
Qed.
Fixpoint throw_free (p : tprog) : bool :=
  match p with TSkip => true | TThrow => false | TSeq a b => throw_free a && throw_free b
  | TTrace _ b => throw_free b | TTry b _ => throw_free b end.
Lemma throw_free_left p : throw_free p = true -> trace_left p = ([], false).
Proof.
  induction p as [| |a IHa b IHb|m body IH|body IHb handler IHh]; cbn; intros H; try discriminate; auto.
  - apply andb_true_iff in H. destruct H as [H1 H2]. rewrite (IHa H1), (IHb H2). reflexivity.
  - rewrite (IH H). reflexivity.
  - rewrite (IHb H). reflexivity.
Qed.
Lemma trace_dump ops p : exists s s', ms_run ops ms_init = Ok s /\ trun p s = Ok (s', snd (trace_left p)) /\
  ms_getDump s' = Ok (dump_text (spec_run ops [] ++ fst (trace_left p))).
Proof.
  destruct (ms_run_ok ops ms_init) as (s & E & W & A); [unfold ms_wf; cbn; lia|].
  destruct (trun_ok p s W) as (s' & E' & W' & A'). exists s, s'. split; [assumption|]. split; [assumption|].
  unfold ms_getDump, dump_text. rewrite ms_dump_ok by exact W'. change (firstn (ms_pos s') (ms_stack s')) with (ms_abs s').
  rewrite A', A. reflexivity.
Qed.

(** * Timers *)
Definition t_inv (l : string) (h : list (Z * tev)) : Prop :=
  match t_run h l with
  | None => open_scopes l h = 0 /\ (forall now, busy l h now = 0) /\ (forall now, busy_since_reset l h now = 0) /\ activations l h = 0%nat
  | Some i =>
      open_scopes l h = Z.of_nat (ti_counter i) /\ ti_running i = negb (ti_counter i =? 0)%nat /\
      ti_hits i = activations l h /\
      (forall now, busy l h now = if ti_running i then ti_total i + (now - ti_started i) else ti_total i) /\
      (forall now, busy_since_reset l h now = if ti_running i then ti_time i + (now - ti_started i) else ti_time i)
  end.

Lemma t_put_same l i m : t_put l i m l = Some i.
Proof. unfold t_put. now rewrite String.eqb_refl. Qed.
Lemma t_put_other l k i m : k <> l -> t_put l i m k = m k.
Proof. unfold t_put. intros H. apply String.eqb_neq in H. now rewrite H. Qed.

Ltac zb := repeat match goal with
  | |- context [Z.ltb ?a ?b] => destruct (Z.ltb_spec a b)
  | |- context [Nat.eqb ?a ?b] => destruct (Nat.eqb_spec a b)
  | H : context [Nat.eqb ?a ?b] |- _ => destruct (Nat.eqb_spec a b)
  end; cbn [negb] in *; try lia.

Lemma t_inv_all l : forall h, bracketed h -> t_inv l h.
Proof.
  induction h as [|[t e] h IH]; intros HB.
  - unfold t_inv. cbn. auto.
  - assert (HBh : bracketed h) by (destruct e; cbn in HB; tauto). specialize (IH HBh).
    (* events of other labels *)
    assert (Hother : forall k, k <> l -> (e = TStart k \/ e = TStop k \/ e = TReset k) -> t_inv l ((t, e) :: h)).
    { intros k Hk He. assert (HkE : String.eqb k l = false) by now apply String.eqb_neq.
      assert (HO : open_scopes l ((t, e) :: h) = open_scopes l h) by (destruct He as [->|[->| ->]]; cbn [open_scopes]; rewrite ?HkE; lia).
      assert (HA : activations l ((t, e) :: h) = activations l h) by (destruct He as [->|[->| ->]]; cbn [activations]; rewrite ?HkE; cbn [andb]; lia).
      assert (HR : is_reset l e = false) by (destruct He as [->|[->| ->]]; cbn; auto).
      assert (HM : t_run ((t, e) :: h) l = t_run h l).
      { assert (l <> k) by congruence. cbn [t_run]. destruct He as [->|[->| ->]]; cbn [t_step]; unfold t_start, t_stop, t_reset; rewrite ?t_put_other by assumption; try reflexivity.
        destruct (ti_running _); cbn [fst]; rewrite ?t_put_other by assumption; reflexivity. }
      unfold t_inv in *. rewrite HM. destruct (t_run h l) as [i|].
      - destruct IH as (I1 & I2 & I3 & I4 & I5). rewrite HO, HA. split; [assumption|]. split; [assumption|]. split; [assumption|].
        split; intros now; cbn [busy busy_since_reset]; rewrite HR || idtac; rewrite HO; rewrite ?I4, ?I5, I2; rewrite I1; zb.
      - destruct IH as (I1 & I2 & I3 & I4). rewrite HO, HA. split; [assumption|]. split; [|split; [|assumption]]; intros now;
          cbn [busy busy_since_reset]; rewrite ?HR, HO, ?I2, ?I3, I1; reflexivity. }
    destruct e as [k|k|k].
    + destruct (string_dec k l) as [->|Hk]; [|eauto]. clear Hother.
      unfold t_inv in *. cbn [t_run t_step]. unfold t_start. rewrite t_put_same. cbn [ti_counter ti_running ti_hits ti_time ti_total ti_started].
      cbn [open_scopes activations]. rewrite String.eqb_refl. cbn [andb]. unfold t_get. destruct (t_run h l) as [i|] eqn:Ei.
      * destruct IH as (I1 & I2 & I3 & I4 & I5).
        assert (HO : open_scopes l h + 1 = Z.of_nat (S (ti_counter i))) by lia.
        destruct (Nat.eqb_spec (ti_counter i) 0) as [E|E]; cbn [ti_counter ti_running ti_hits ti_time ti_total ti_started].
        -- split; [lia|]. split; [reflexivity|]. split; [replace (open_scopes l h =? 0) with true by (symmetry; apply Z.eqb_eq; lia); lia|].
           split; intros now; cbn [busy busy_since_reset open_scopes is_reset]; rewrite String.eqb_refl, ?I4, ?I5, I2, HO; zb.
        -- split; [lia|]. split; [rewrite I2; zb|]. split; [replace (open_scopes l h =? 0) with false by (symmetry; apply Z.eqb_neq; lia); lia|].
           split; intros now; cbn [busy busy_since_reset open_scopes is_reset]; rewrite String.eqb_refl, ?I4, ?I5, I2, HO; zb.
      * destruct IH as (I1 & I2 & I3 & I4). cbn [ti_counter Nat.eqb ti_running ti_hits ti_time ti_total ti_started].
        split; [lia|]. split; [reflexivity|]. split; [rewrite I4, I1; reflexivity|].
        split; intros now; cbn [busy busy_since_reset open_scopes is_reset]; rewrite String.eqb_refl, ?I2, ?I3, I1; cbn; lia.
    + destruct (string_dec k l) as [->|Hk]; [|eauto]. clear Hother. cbn [bracketed] in HB. destruct HB as [HP _].
      unfold t_inv in *. cbn [t_run t_step]. unfold t_stop. rewrite t_put_same.
      cbn [open_scopes activations]. unfold t_get. destruct (t_run h l) as [i|] eqn:Ei; [|destruct IH; lia].
      destruct IH as (I1 & I2 & I3 & I4 & I5). rewrite String.eqb_refl.
      assert (HO : open_scopes l h - 1 = Z.of_nat (pred (ti_counter i))) by lia.
      assert (HC : ti_running i = true) by (rewrite I2; destruct (Nat.eqb_spec (ti_counter i) 0); [lia|reflexivity]).
      destruct (Nat.eqb_spec (pred (ti_counter i)) 0) as [E|E]; cbn [ti_counter ti_running ti_hits ti_time ti_total ti_started].
      * split; [lia|]. split; [rewrite E; reflexivity|]. split; [assumption|].
        split; intros now; cbn [busy busy_since_reset open_scopes is_reset]; rewrite String.eqb_refl, ?I4, ?I5, HC, HO; zb.
      * split; [lia|]. split; [rewrite HC; zb|]. split; [assumption|].
        split; intros now; cbn [busy busy_since_reset open_scopes is_reset]; rewrite String.eqb_refl, ?I4, ?I5, HC, HO; zb.
    + destruct (string_dec k l) as [->|Hk]; [|eauto]. clear Hother.
      unfold t_inv in *. cbn [t_run t_step]. unfold t_reset. cbn [open_scopes activations]. unfold t_get.
      destruct (t_run h l) as [i|] eqn:Ei.
      * destruct IH as (I1 & I2 & I3 & I4 & I5).
        destruct (ti_running i) eqn:HC; cbn [fst]; rewrite t_put_same; cbn [ti_counter ti_running ti_hits ti_time ti_total ti_started].
        -- split; [assumption|]. split; [assumption|]. split; [assumption|].
           split; intros now; cbn [busy busy_since_reset open_scopes is_reset]; rewrite ?String.eqb_refl, ?I4, ?I5, I1; zb.
        -- split; [assumption|]. split; [assumption|]. split; [assumption|].
           split; intros now; cbn [busy busy_since_reset open_scopes is_reset]; rewrite ?String.eqb_refl, ?I4, ?I5, I1; zb.
      * destruct IH as (I1 & I2 & I3 & I4). cbn [ti_running fst]. rewrite t_put_same. cbn [ti_counter ti_running ti_hits ti_time ti_total ti_started Nat.eqb].
        split; [assumption|]. split; [reflexivity|]. split; [now symmetry|].
        split; intros now; cbn [busy busy_since_reset open_scopes is_reset]; rewrite ?String.eqb_refl, ?I2, I1; reflexivity.
Qed.

Lemma t_exact l h now : bracketed h ->
  t_getTotal l now (t_run h) = busy l h now /\
  t_getTime l now (t_run h) = busy_since_reset l h now /\
  snd (t_reset l now (t_run h)) = busy_since_reset l h now /\
  ti_hits (t_get l now (t_run h)) = activations l h.
Proof.
  intros HB. pose proof (t_inv_all l h HB) as HI. unfold t_inv in HI. unfold t_getTotal, t_getTime, t_reset, t_get.
  destruct (t_run h l) as [i|].
  - destruct HI as (I1 & I2 & I3 & I4 & I5). rewrite I4, I5. repeat split; auto. destruct (ti_running i); reflexivity.
  - destruct HI as (I1 & I2 & I3 & I4). cbn. rewrite I2, I3, I4. auto.
Qed.
