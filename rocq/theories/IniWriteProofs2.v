From Coq Require Import Ascii String List Arith Bool ZArith Lia.
From Verif Require Import Base StringsModel StringsSpec OptionsModel OptionsSpec OptionsProofs OptionsProofs2 IniModel IniSpec IniProofs IniProofs2 IniProofs3 IniProofs4 IniWriteModel IniWriteSpec IniWriteProofs.
Import ListNotations.

Section WithV.
Context {V : Type} (tostr : V -> str).
Notation doc := (doc tostr).
Notation acts := (acts tostr).
Notation vtext := (vtext tostr).

Lemma meaning_app_settings sec (l : list (str * opt V)) d :
  meaning sec (map (fun nc => Setting (fst nc) (vtext (inf (snd nc)))) l ++ d) =
  map (fun nc => Put (sec ++ [fst nc]) (VS (vtext (inf (snd nc))))) l ++ meaning sec d.
Proof. induction l as [|a l IH]; [reflexivity|]. cbn [map app meaning]. now rewrite IH. Qed.

Lemma existsb_filter (cs : list (str * opt V)) : existsb is_val cs = false -> filter is_val cs = [].
Proof. induction cs as [|c r IH]; [reflexivity|]. cbn [existsb filter]. destruct (is_val c); [discriminate|exact IH]. Qed.

(** inside a section, whatever the current section was *)
Lemma meaning_doc : forall (o : opt V) p, p <> [] -> forall sec d, exists sec', meaning sec (doc p o ++ d) = acts p o ++ meaning sec' d.
Proof.
  induction o as [i f cs IH] using opt_ind'. intros p N sec d. cbn [IniWriteProofs.doc IniWriteProofs.acts].
  assert (P3 : forall l, incl l cs -> forall sec, exists sec',
     meaning sec ((fix go (l : list (str * opt V)) := match l with [] => [] | (n, c) :: r => (if i_sect (inf c) then doc (p ++ [n]) c else []) ++ go r end) l ++ d) =
     (fix go (l : list (str * opt V)) := match l with [] => [] | (n, c) :: r => (if i_sect (inf c) then acts (p ++ [n]) c else []) ++ go r end) l ++ meaning sec' d).
  { induction l as [|[n c] r IHl]; intros HI s; [now exists s|]. assert (In (n, c) cs) as IN by (apply HI; now left).
    assert (HI' : incl r cs) by (intros z Z; apply HI; now right). rewrite <- !app_assoc. destruct (i_sect (inf c)); [|exact (IHl HI' s)].
    destruct (IH n c IN (p ++ [n]) ltac:(now destruct p) s
      ((fix go (l : list (str * opt V)) := match l with [] => [] | (n, c) :: r => (if i_sect (inf c) then doc (p ++ [n]) c else []) ++ go r end) r ++ d)) as (s1 & E).
    rewrite E. destruct (IHl HI' s1) as (s2 & E2). rewrite E2. exists s2. now rewrite app_assoc. }
  rewrite <- !app_assoc. destruct p as [|a p]; [congruence|].
  destruct (existsb is_val cs) eqn:EX.
  - cbn [app meaning]. rewrite meaning_app_settings. destruct (P3 cs (incl_refl _) (a :: p)) as (s & E). exists s. f_equal. etransitivity; [apply f_equal; exact E|]. apply app_assoc.
  - rewrite (existsb_filter cs EX). cbn [app map]. apply P3. apply incl_refl.
Qed.
Lemma meaning_root (o : opt V) : meaning [] (doc [] o) = acts [] o.
Proof.
  destruct o as [i f cs]. cbn [IniWriteProofs.doc IniWriteProofs.acts app]. rewrite meaning_app_settings. f_equal.
  generalize (@nil str) at 1 as sec. induction cs as [|[n c] r IH]; intros sec; [reflexivity|].
  destruct (i_sect (inf c)); [|exact (IH sec)]. destruct (meaning_doc c ([] ++ [n]) ltac:(discriminate) sec
     ((fix go (l : list (str * opt V)) := match l with [] => [] | (n, c) :: r => (if i_sect (inf c) then doc ([] ++ [n]) c else []) ++ go r end) r)) as (s & E).
  etransitivity; [exact E|]. f_equal. apply IH.
Qed.

(** what the actions are *)
Lemma In_go {A} (g : str -> opt V -> list A) (cs : list (str * opt V)) a :
  In a ((fix go (l : list (str * opt V)) := match l with [] => [] | (n, c) :: r => (if i_sect (inf c) then g n c else []) ++ go r end) cs) <->
  exists n c, In (n, c) cs /\ i_sect (inf c) = true /\ In a (g n c).
Proof.
  induction cs as [|[n c] r IH]; [split; [intros []|now intros (n & c & [] & _)]|].
  rewrite in_app_iff, IH. split.
  - intros [H|(m & d & H1 & H2)]; [|exists m, d; split; [now right|assumption]]. destruct (i_sect (inf c)) eqn:E; [|destruct H]. exists n, c. auto using in_eq.
  - intros (m & d & [H|H] & E & J); [injection H as -> ->; left; now rewrite E|right; eauto].
Qed.
Lemma In_acts : forall (o : opt V), wf o -> i_sect (inf o) = true -> forall p a, In a (acts p o) <->
  (exists q n c, node_at (q ++ [n]) o = Some c /\ i_sect (inf c) = false /\ a = Put (p ++ q ++ [n]) (VS (vtext (inf c)))) \/
  (exists q n c, p ++ q <> [] /\ node_at (q ++ [n]) o = Some c /\ i_sect (inf c) = false /\ a = Enter (p ++ q)).
Proof.
  induction o as [i f cs IH] using opt_ind'. intros W S p a. cbn [IniWriteProofs.acts]. inversion W as [? ? ? ND WC _]; subst.
  rewrite !in_app_iff, in_map_iff, In_go.
  assert (EX : existsb is_val cs = true <-> exists n c, In (n, c) cs /\ i_sect (inf c) = false).
  { rewrite existsb_exists. split; [intros ([n c] & I & E)|intros (n & c & I & E); exists (n, c)].
    - exists n, c. split; [assumption|]. unfold is_val in E. cbn [snd] in E. now destruct (i_sect (inf c)).
    - split; [assumption|]. unfold is_val. cbn [snd]. now rewrite E. }
  assert (NA : forall n c q, In (n, c) cs -> node_at (n :: q) (Node i f cs) = node_at q c).
  { intros n c q I. cbn [node_at kids]. now rewrite (In_find n c cs ND I). }
  assert (AN : forall n q c, node_at (n :: q) (Node i f cs) = Some c -> exists d, In (n, d) cs /\ node_at q d = Some c).
  { intros n q c E. cbn [node_at kids] in E. destruct (find_child n cs) as [d|] eqn:F; [|discriminate]. exists d. split; [now apply find_In|assumption]. }
  split.
  - intros [H|[([n c] & <- & H)|(n & c & I & SC & H)]].
    + destruct p as [|x p]; [destruct H|]. destruct (existsb is_val cs) eqn:E; [|destruct H]. destruct H as [<-|[]]. right.
      destruct (proj1 EX eq_refl) as (n & c & I & SC). exists [], n, c. rewrite app_nil_r. split; [discriminate|]. split; [cbn [app]; now rewrite (NA n c [] I)|]. now split.
    + left. apply filter_In in H. destruct H as [I E]. unfold is_val in E. cbn [snd] in E. exists [], n, c. cbn [app fst snd]. split; [now rewrite (NA n c [] I)|].
      split; [now destruct (i_sect (inf c))|reflexivity].
    + apply (IH n c I (WC n c I) SC) in H. destruct H as [(q & m & d & E1 & E2 & ->)|(q & m & d & E0 & E1 & E2 & ->)]; [left|right]; exists (n :: q), m, d.
      * split; [cbn [app]; now rewrite (NA n c _ I)|]. split; [assumption|]. now rewrite <- app_assoc.
      * rewrite <- app_assoc. cbn [app]. split; [now destruct p|]. split; [now rewrite (NA n c _ I)|]. now split.
  - intros [(q & n & c & E1 & E2 & ->)|(q & n & c & E0 & E1 & E2 & ->)].
    + destruct q as [|m q].
      * cbn [app] in *. destruct (AN n [] c E1) as (d & I & E). injection E as ->. right. left. exists (n, c). split; [reflexivity|]. apply filter_In. split; [assumption|]. unfold is_val. cbn [snd]. now rewrite E2.
      * cbn [app] in E1. destruct (AN m (q ++ [n]) c E1) as (d & I & E). right. right. exists m, d. split; [assumption|].
        assert (SD : i_sect (inf d) = true). { destruct (i_sect (inf d)) eqn:SD; [reflexivity|]. destruct (wf_value d (WC m d I) SD) as (KD & _). exfalso. destruct q; cbn [app node_at] in E; rewrite KD in E; discriminate. }
        split; [assumption|]. apply (IH m d I (WC m d I) SD). left. exists q, n, c. split; [assumption|]. split; [assumption|]. now rewrite <- app_assoc.
    + destruct q as [|m q].
      * rewrite app_nil_r in *. left. destruct p as [|x p]; [congruence|]. cbn [app] in E1. destruct (AN n [] c E1) as (d & I & E). injection E as ->.
        assert (EX1 : existsb is_val cs = true) by (apply EX; eauto). rewrite EX1. now left.
      * cbn [app] in E1. destruct (AN m (q ++ [n]) c E1) as (d & I & E). right. right. exists m, d. split; [assumption|].
        assert (SD : i_sect (inf d) = true). { destruct (i_sect (inf d)) eqn:SD; [reflexivity|]. destruct (wf_value d (WC m d I) SD) as (KD & _). exfalso. destruct q; cbn [app node_at] in E; rewrite KD in E; discriminate. }
        split; [assumption|]. apply (IH m d I (WC m d I) SD). right. exists q, n, c. rewrite <- app_assoc. split; [assumption|]. split; [assumption|]. now split.
Qed.

Lemma snoc_case {A} (p : list A) : p = [] \/ exists q n, p = q ++ [n].
Proof. destruct p using rev_ind; [now left|right; eauto]. Qed.
Lemma info_value p (o : opt V) : i_sect (info_at p o) = false -> exists c, node_at p o = Some c /\ inf c = info_at p o.
Proof. unfold info_at. destruct (node_at p o) as [c|]; [eauto|discriminate]. Qed.

Section O.
Variable o : opt V.
Hypothesis W : wf o.
Hypothesis S : i_sect (inf o) = true.

Lemma put_iff p v : In (Put p v) (acts [] o) <-> i_sect (info_at p o) = false /\ v = VS (vtext (info_at p o)).
Proof.
  rewrite (In_acts o W S []). cbn [app]. split.
  - intros [(q & n & c & E1 & E2 & H)|(q & n & c & _ & _ & _ & H)]; [|discriminate]. injection H as -> ->. unfold info_at. rewrite E1. now split.
  - intros [E ->]. destruct (info_value p o E) as (c & E1 & E2). left. destruct (snoc_case p) as [->|(q & n & ->)].
    + rewrite info_at_nil in E. congruence.
    + exists q, n, c. rewrite E2. auto.
Qed.
Lemma enter_above p : In (Enter p) (acts [] o) -> exists n, i_sect (info_at (p ++ [n]) o) = false.
Proof.
  rewrite (In_acts o W S []). intros [(q & n & c & _ & _ & H)|(q & n & c & _ & E1 & E2 & H)]; [discriminate|]. injection H as ->. exists n. unfold info_at. now rewrite E1.
Qed.
Lemma below_value p s : s <> [] -> i_sect (info_at p o) = false -> node_at (p ++ s) o = None.
Proof.
  intros N E. destruct (info_value p o E) as (c & E1 & E2). rewrite node_at_app, E1. rewrite <- E2 in E. destruct (wf_value c (wf_node_at p o c W E1) E) as (K & _).
  destruct s; [congruence|]. cbn [node_at]. now rewrite K.
Qed.
Lemma acts_consistent : consistent (acts [] o).
Proof.
  intros a b Ha Hb. destruct a as [|p v]; [exact I|]. apply put_iff in Ha. destruct Ha as [E ->]. split.
  - intros (r & N & EP).
    assert (X : exists t, node_at (place b ++ t) o <> None).
    { destruct b as [q|q w]; cbn [place].
      - apply enter_above in Hb. destruct Hb as (n & Hb). exists [n]. destruct (info_value _ o Hb) as (c & E1 & _). now rewrite E1.
      - apply put_iff in Hb. destruct Hb as [Hb _]. exists []. rewrite app_nil_r. destruct (info_value _ o Hb) as (c & E1 & _). now rewrite E1. }
    destruct X as (t & X). rewrite EP, <- app_assoc in X. apply X. apply below_value; [|assumption]. now destruct r.
  - intros w ->. apply put_iff in Hb. apply Hb.
Qed.
Lemma acts_fit : Forall (fits root0) (acts [] o).
Proof.
  apply Forall_forall. intros a _. split.
  - intros q _. destruct q; reflexivity.
  - destruct a as [|p v]; [exact I|]. intros (c & E & K). destruct p as [|n p]; cbn in E; [injection E as <-; now apply K|discriminate].
Qed.
Lemma last_put_iff p v : last_put p v (acts [] o) <-> i_sect (info_at p o) = false /\ v = VS (vtext (info_at p o)).
Proof.
  split; [intros H; apply put_iff; now apply last_put_In|]. intros H. apply put_iff in H.
  destruct (put_cases p (acts [] o)) as [N|(w & L)]; [exfalso; exact (N v H)|].
  pose proof (last_put_In _ _ _ L) as J. apply put_iff in H, J. destruct H as [_ ->], J as [_ ->]. assumption.
Qed.
End O.
End WithV.

(** * Reading back *)
Lemma round_trip {V} (tostr : V -> str) attr filename (o : opt V) : filename <> DEFAULT_SOURCE -> wf o -> named o -> savable tostr attr o ->
  exists text o', write tostr attr o = Ok text /\ read filename text root0 = (o', Ok tt) /\ wf o' /\
    forall p, entry_at p o' = match text_at tostr p o with Some t => Some (Some (VS t), Some filename) | None => None end.
Proof.
  intros ND W N SV. pose proof SV as (S & SV'). destruct (read_written tostr attr filename o root0 W N SV) as (text & E1 & E2).
  rewrite meaning_root in E2. destruct (perform filename (acts tostr [] o) root0) as [o' r] eqn:EP.
  assert (G : Forall good_action (acts tostr [] o)).
  { apply Forall_forall. intros a Ha. apply (In_acts tostr o W S []) in Ha.
    assert (GP : forall q c, node_at q o = Some c -> good_path q).
    { clear - W SV'. induction q as [|n q IH] using rev_ind; intros c E; [constructor|].
      pose proof E as E'. rewrite node_at_app in E'. destruct (node_at q o) as [d|] eqn:Q; [|discriminate]. apply Forall_app. split; [eapply IH; reflexivity|]. constructor; [|constructor].
      destruct (SV' q n c E) as [X Y]. destruct (i_sect (inf c)).
      - destruct (X eq_refl) as ((A & B & _) & _). now split.
      - destruct (Y eq_refl) as (((A & _ & B & _) & _) & _). now split. }
    destruct Ha as [(q & n & c & A & _ & ->)|(q & n & c & A0 & A & _ & ->)].
    - split; [exact (GP _ _ A)|cbn [place app]; now destruct q].
    - specialize (GP _ _ A). apply Forall_app in GP. split; [exact (proj1 GP)|assumption]. }
  assert (WR : wf (root0 : tree)) by apply wf_fresh.
  assert (PT : plain_tree filename (root0 : tree)).
  { split; [assumption|]. split; intros p; [|destruct p; reflexivity]. intros v. unfold entry_at. destruct p; discriminate. }
  assert (OK : r = Ok tt).
  { change r with (snd (o', r)). rewrite <- EP. apply perform_success; try assumption. split; [now apply acts_consistent|apply acts_fit]. }
  subst r. destruct (perform_state filename _ G root0 o' _ WR EP) as (W' & _ & X). destruct (X eq_refl) as (I1 & I2 & _).
  exists text, o'. split; [assumption|]. split; [assumption|]. split; [assumption|]. intros p. unfold text_at, entry_at at 2. unfold entry.
  destruct (i_sect (info_at p o)) eqn:E.
  - unfold entry_at. rewrite I2; [now destruct p|]. intros w J. apply (put_iff tostr o W S) in J. destruct J as [J _]. congruence.
  - destruct (info_value p o E) as (c & C1 & C2). rewrite <- C2 in E. destruct (wf_value c (wf_node_at p o c W C1) E) as (_ & (v & Hv) & _).
    rewrite <- C2, Hv. apply I1. apply (last_put_iff tostr o W S). rewrite <- C2. split; [assumption|]. unfold vtext. now rewrite Hv.
Qed.
