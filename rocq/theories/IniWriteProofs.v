From Coq Require Import Ascii String List Arith Bool ZArith Lia.
From Verif Require Import Base StringsModel StringsSpec OptionsModel OptionsSpec OptionsProofs OptionsProofs2 IniModel IniSpec IniProofs IniProofs2 IniProofs3 IniProofs4 IniWriteModel IniWriteSpec.
Import ListNotations.

Definition uds := MkFlags true false false true true.

Section WithV.
Context {V : Type} (tostr : V -> str) (attr : str -> option str * option str).

Lemma write_uds (o : opt V) : write tostr attr o = Ok (format tostr attr uds o).
Proof. reflexivity. Qed.

Definition is_val (nc : str * opt V) : bool := negb (i_sect (inf (snd nc))).
Definition vtext (i : info V) : str := match i_val i with Some v => tostr v | None => chars "false" end.

(** the document and the lines that are written for the section at [p] *)
Fixpoint doc (p : path) (o : opt V) : list item :=
  match o with
  | Node i f cs =>
      (match p with [] => [] | _ => if existsb is_val cs then [Header p] else [] end) ++
      map (fun nc => Setting (fst nc) (vtext (inf (snd nc)))) (filter is_val cs) ++
      (fix go (l : list (str * opt V)) := match l with [] => [] | (n, c) :: r => (if i_sect (inf c) then doc (p ++ [n]) c else []) ++ go r end) cs
  end.
Fixpoint lns (p : path) (o : opt V) : list str :=
  match o with
  | Node i f cs =>
      (match p with [] => [] | _ => if existsb is_val cs then [[]; "["%char :: path_name p ++ ["]"%char]] else [] end) ++
      map (fun nc => format tostr attr uds (snd nc)) (filter is_val cs) ++
      (fix go (l : list (str * opt V)) := match l with [] => [] | (n, c) :: r => (if i_sect (inf c) then lns (p ++ [n]) c else []) ++ go r end) cs
  end.
(** the actions it stands for *)
Fixpoint acts (p : path) (o : opt V) : list action :=
  match o with
  | Node i f cs =>
      (match p with [] => [] | _ => if existsb is_val cs then [Enter p] else [] end) ++
      map (fun nc => Put (p ++ [fst nc]) (VS (vtext (inf (snd nc))))) (filter is_val cs) ++
      (fix go (l : list (str * opt V)) := match l with [] => [] | (n, c) :: r => (if i_sect (inf c) then acts (p ++ [n]) c else []) ++ go r end) cs
  end.

Definition endl (ls : list str) : str := flat_map (fun l => l ++ [newline]) ls.
Lemma endl_app a b : endl (a ++ b) = endl a ++ endl b.
Proof. apply flat_map_app. Qed.
Lemma endl_text ls : endl ls = text_of (ls ++ [[]]).
Proof.
  unfold text_of. induction ls as [|l ls IH]; [reflexivity|]. cbn [endl flat_map app]. fold (endl ls). rewrite IH.
  destruct (ls ++ [[]]) eqn:E; [destruct ls; discriminate|]. cbn [join]. rewrite <- app_assoc. reflexivity.
Qed.

Lemma path_name_snoc p n : p <> [] -> path_name (p ++ [n]) = path_name p ++ colon :: n.
Proof.
  induction p as [|a p IH]; [congruence|]. intros _. destruct p as [|b p]; [reflexivity|].
  change (path_name ((a :: b :: p) ++ [n])) with (a ++ colon :: path_name ((b :: p) ++ [n])). rewrite IH by discriminate.
  change (path_name (a :: b :: p)) with (a ++ colon :: path_name (b :: p)). rewrite <- app_assoc. reflexivity.
Qed.
Lemma path_name_nonempty p : p <> [] -> good_path p -> path_name p <> [].
Proof.
  intros N G. destruct p as [|a p]; [congruence|]. inversion G as [|? ? [A _] _]; subst. unfold path_name. destruct p; cbn [join]; [assumption|]. destruct a; [congruence|discriminate].
Qed.

Definition go_str (g : opt V -> str) := fix sections (l : list (str * opt V)) : str :=
  match l with [] => [] | (n, c) :: r => if i_sect (inf c) then g c ++ sections r else sections r end.

(** [named] from a path on *)
Definition named_at (p : path) (o : opt V) : Prop := forall q c, node_at q o = Some c -> full c = path_name (p ++ q).
Lemma named_child p i f cs n c : NoDup (map fst cs) -> named_at p (Node i f cs) -> In (n, c) cs -> named_at (p ++ [n]) c.
Proof.
  intros ND H I q d E. rewrite <- app_assoc. apply H. cbn [app node_at kids]. now rewrite (In_find n c cs ND I).
Qed.
Definition names_good (o : opt V) : Prop := forall q n c, node_at (q ++ [n]) o = Some c -> n <> [] /\ ~ In colon n.
Lemma names_good_child i f cs n c : NoDup (map fst cs) -> names_good (Node i f cs) -> In (n, c) cs -> names_good c.
Proof. intros ND H I q m d E. apply (H (n :: q) m d). cbn [app node_at kids]. now rewrite (In_find n c cs ND I). Qed.

Lemma format_lines : forall o p, wf o -> good_path p -> named_at p o -> names_good o -> i_sect (inf o) = true ->
  format tostr attr uds o = endl (lns p o).
Proof.
  induction o as [i f cs IH] using opt_ind'. intros p W G N M S. cbn [inf] in S. cbn [format lns]. rewrite S. cbn [negb].
  inversion W as [? ? ? ND WC _]; subst.
  assert (F : f = path_name p) by (rewrite <- (app_nil_r p); exact (N [] _ eq_refl)). subst f.
  rewrite !endl_app. f_equal; [|f_equal].
  - cbn [f_inline uds negb andb]. destruct p as [|a p]; [reflexivity|].
    destruct (path_name (a :: p)) eqn:EP; [now apply path_name_nonempty in EP|]. rewrite <- EP. cbn [negb andb].
    unfold is_val. destruct (existsb _ cs); [|reflexivity]. unfold endl. cbn [flat_map app]. rewrite app_nil_r, <- app_assoc. reflexivity.
  - clear. induction cs as [|[n c] r IH]; [reflexivity|]. cbn [filter]. unfold is_val at 1. cbn [snd].
    destruct (negb (i_sect (inf c))); [|assumption]. cbn [map endl flat_map snd]. rewrite <- app_assoc. cbn [app]. f_equal. f_equal. exact IH.
  - assert (forall l, incl l cs -> (fix sections (l : list (str * opt V)) : str :=
         match l with [] => [] | (n, c) :: r => if i_sect (inf c) then format tostr attr uds c ++ sections r else sections r end) l =
       endl ((fix go (l : list (str * opt V)) := match l with [] => [] | (n, c) :: r => (if i_sect (inf c) then lns (p ++ [n]) c else []) ++ go r end) l)) as X.
    { induction l as [|[n c] r IHl]; intros HI; [reflexivity|]. rewrite IHl by (intros z Z; apply HI; now right).
      assert (In (n, c) cs) as IN by (apply HI; now left).
      rewrite endl_app. destruct (i_sect (inf c)) eqn:SC; [|reflexivity]. f_equal. apply (IH n c IN); try assumption.
      - exact (WC n c IN).
      - apply Forall_app. split; [assumption|]. constructor; [|constructor]. apply (M [] n c). cbn [app node_at kids]. now rewrite (In_find n c cs ND IN).
      - now apply (named_child p i (path_name p) cs).
      - now apply (names_good_child i (path_name p) cs n). }
    apply X. apply incl_refl.
Qed.

(** the line of a value *)
Lemma name_of_path p n : ~ In colon n -> name_of (path_name (p ++ [n])) = n.
Proof.
  intros C. unfold name_of.
  assert (K : forall s k acc, ~ In colon s -> find_last (Ascii.eqb colon) s k acc = acc).
  { induction s as [|c s IH]; intros k acc I; [reflexivity|]. cbn [find_last]. destruct (Ascii.eqb_spec colon c) as [E|_]; [exfalso; apply I; left; symmetry; exact E|]. apply IH. intros J. apply I. right. assumption. }
  destruct p as [|a p]; [cbn [app]; change (path_name [n]) with n; now rewrite K|].
  rewrite path_name_snoc by discriminate. generalize (path_name (a :: p)) as s. intros s.
  assert (L : forall s k acc, find_last (Ascii.eqb colon) (s ++ colon :: n) k acc = Some (k + List.length s)).
  { clear s. induction s as [|c s IH]; intros k acc; cbn [app find_last].
    - rewrite Ascii.eqb_refl, K by assumption. f_equal. cbn [List.length]. lia.
    - rewrite IH. f_equal. cbn [List.length]. lia. }
  rewrite L. now rewrite Nat.add_0_l, skipn_mid.
Qed.

Lemma bare_nil cs : bare cs [].
Proof. split; [exact I|now left]. Qed.
Lemma fmt_join_line l : Forall one_line l -> one_line (fmt_join l).
Proof.
  induction l as [|x l IH]; intros H; [intros []|]. inversion H; subst. cbn [fmt_join]. destruct l as [|y l]; [assumption|].
  intros J. apply in_app_or in J. destruct J as [J|J]; [now apply H2|]. apply in_app_or in J. destruct J as [J|J]; [|now apply IH].
  cbn in J. destruct J as [J|[J|[]]]; discriminate.
Qed.
Lemma prefix_line s t : one_line s -> one_line t -> one_line (s ++ t).
Proof. intros A B J. apply in_app_or in J. destruct J; auto. Qed.
Lemma chars_line s : forallb (fun c => negb (Ascii.eqb c newline)) (chars s) = true -> one_line (chars s).
Proof. intros H J. rewrite forallb_forall in H. specialize (H _ J). now rewrite Ascii.eqb_refl in H. Qed.

Lemma comments_line fl (i : info V) fn : (forall s, i_src i = Some s -> one_line s) ->
  (forall t, fst (attr fn) = Some t -> one_line t) -> (forall t, snd (attr fn) = Some t -> one_line t) -> Forall one_line (comments attr fl i fn).
Proof.
  intros A B C. unfold comments. repeat rewrite Forall_app. split; [|split].
  - destruct (_ && _); constructor; [|constructor]. destruct (i_cond i); apply chars_line; reflexivity.
  - destruct (f_doc fl); [|constructor]. apply Forall_app. split.
    + destruct (fst (attr fn)) eqn:E; constructor; [|constructor]. apply prefix_line; [apply chars_line; reflexivity|now apply B].
    + destruct (snd (attr fn)) eqn:E; constructor; [|constructor]. apply prefix_line; [apply chars_line; reflexivity|now apply C].
  - destruct (f_source fl); [|constructor]. destruct (i_src i) as [[|c s]|] eqn:E; constructor; [|constructor].
    apply prefix_line; [apply chars_line; reflexivity|now apply A].
Qed.
Definition tail_of (cs : list str) : str := match cs with [] => [] | _ => "009"%char :: "009"%char :: chars "# " ++ fmt_join cs end.
Lemma tail_line cs : Forall one_line cs -> one_line (tail_of cs).
Proof.
  intros H. unfold tail_of. destruct cs as [|c cs]; [intros []|]. intros J. apply fmt_join_line in H. destruct J as [J|[J|J]]; try discriminate.
  apply in_app_or in J. destruct J as [J|J]; [|now apply H]. cbn in J. destruct J as [J|[J|[]]]; discriminate.
Qed.

Definition shown (v : str) : str := match v with [] => [""""; """"]%char | _ => v end.
Lemma value_line (i : info V) p n : ~ In colon n ->
  format_value tostr attr uds i (path_name (p ++ [n])) = n ++ chars " = " ++ shown (vtext i) ++ tail_of (comments attr uds i (path_name (p ++ [n]))).
Proof.
  intros C. unfold format_value. cbn [f_inline f_key uds andb]. rewrite name_of_path by assumption. cbv zeta. unfold shown, vtext, tail_of. rewrite <- app_assoc. destruct (comments _ _ _ _); reflexivity.
Qed.

Lemma value_lay (n v : str) cs : plain_key n -> plain_text v -> 
  lay ((n ++ [" "%char]) ++ eqc :: (" "%char :: shown v)) (n ++ chars " = " ++ shown v ++ tail_of cs).
Proof.
  intros (K & K2 & K3 & K4) (T1 & T2 & T3 & T4).
  exists [], (match cs with [] => [] | _ => ["009"; "009"]%char end), (match cs with [] => [] | _ => chars "# " ++ fmt_join cs end).
  assert (SH : Forall (fun x => ~ In x comment_chars) (shown v)).
  { destruct v; cbn [shown]; [|assumption]. repeat constructor; cbn; intuition discriminate. }
  split; [|split; [|split; [|split; [|split; [|split]]]]].
  - assert (X : tail_of cs = match cs with [] => [] | _ => ["009"; "009"]%char end ++ match cs with [] => [] | _ => chars "# " ++ fmt_join cs end) by (destruct cs; reflexivity).
    rewrite X. change (chars " = ") with [" "; eqc; " "]%char. rewrite <- !app_assoc. reflexivity.
  - constructor.
  - destruct cs; [constructor|]. constructor; [right; now left|]. constructor; [right; now left|constructor].
  - destruct cs; [now left|right]. cbn. eexists _, _. split; [reflexivity|]. now left.
  - apply Forall_app. split; [apply Forall_app; split; [assumption|]|].
    + constructor; [cbn; intuition discriminate|constructor].
    + constructor; [cbn; intuition discriminate|]. constructor; [cbn; intuition discriminate|assumption].
  - destruct K as (K1 & _ & _ & (K5 & _)). destruct n as [|c n]; [congruence|]. cbn. cbn in K5. intros J. apply K5. cbn in *. intuition.
  - right. destruct v as [|a v].
    + cbn [shown]. exists ((n ++ [" "%char]) ++ [eqc; " "%char; """"%char]), """"%char. split; [rewrite <- !app_assoc; reflexivity|cbn; intuition discriminate].
    + destruct T3 as (_ & [T3|(q & c & T3 & T5)]); [discriminate|]. cbn [shown]. rewrite T3.
      exists ((n ++ [" "%char]) ++ eqc :: " "%char :: q), c. split; [rewrite <- !app_assoc; reflexivity|]. cbn in *. intuition.
Qed.

Lemma lay_blank : lay [] [].
Proof. exists [], [], []. split; [reflexivity|]. split; [constructor|]. split; [constructor|]. split; [now left|]. split; [constructor|]. split; [exact I|now left]. Qed.

Lemma writes_app d1 l1 d2 l2 : writes d1 l1 -> writes d2 l2 -> writes (d1 ++ d2) (l1 ++ l2).
Proof.
  intros H. revert d2 l2. induction H; intros d2 l2 HH; cbn [app]; [assumption| | | |].
  - apply wr_blank; auto.
  - eapply wr_header; eauto.
  - eapply wr_flag; eauto.
  - rewrite <- app_assoc. eapply wr_pair; eauto.
Qed.

Lemma header_of p : p <> [] -> Forall plain_section p -> header_text p (path_name p) /\ lay ("["%char :: path_name p ++ ["]"%char]) ("["%char :: path_name p ++ ["]"%char]) /\ one_line (path_name p).
Proof.
  intros N F.
  assert (C : Forall (fun x => ~ In x comment_chars) (path_name p) /\ one_line (path_name p)).
  { clear N. unfold path_name. induction p as [|a p IH]; [split; [constructor|intros []]|]. inversion F as [|? ? (_ & A & B) F']; subst. destruct (IH F') as [X Y].
    destruct p as [|b p]; [now split|]. change (join colon (a :: b :: p)) with (a ++ colon :: join colon (b :: p)). split.
    - apply Forall_app. split; [assumption|]. constructor; [cbn; intuition discriminate|assumption].
    - intros J. apply in_app_or in J. destruct J as [J|[J|J]]; [now apply B|discriminate|now apply Y]. }
  destruct C as [C1 C2]. split; [|split; [|assumption]].
  - exists (path_name p). split; [|split; [apply pad_self|reflexivity]].
    clear C1 C2. induction p as [|a p IH]; [congruence|]. inversion F as [|? ? (A & _) F']; subst. destruct p as [|b p]; [now constructor|].
    change (path_name (a :: b :: p)) with (a ++ [] ++ colon :: [] ++ path_name (b :: p)). constructor; auto. apply IH; [discriminate|assumption].
  - exists [], [], []. split; [now rewrite !app_nil_r|]. split; [constructor|]. split; [constructor|]. split; [now left|]. split; [|split].
    + constructor; [cbn; intuition discriminate|]. apply Forall_app. split; [assumption|]. repeat constructor. cbn. intuition discriminate.
    + cbn. intuition discriminate.
    + right. exists ("["%char :: path_name p), "]"%char. split; [reflexivity|]. cbn. intuition discriminate.
Qed.

(** [savable] from a path on *)
Definition savable_at (p : path) (o : opt V) : Prop :=
  forall q n c, node_at (q ++ [n]) o = Some c ->
     (i_sect (inf c) = true -> plain_section n) /\
     (i_sect (inf c) = false -> plain_key n /\ (forall v, i_val (inf c) = Some v -> plain_text (tostr v)) /\
        (forall s, i_src (inf c) = Some s -> one_line s) /\
        (forall t, fst (attr (path_name (p ++ q ++ [n]))) = Some t -> one_line t) /\
        (forall t, snd (attr (path_name (p ++ q ++ [n]))) = Some t -> one_line t)).
Lemma savable_child p i f cs n c : NoDup (map fst cs) -> savable_at p (Node i f cs) -> In (n, c) cs -> savable_at (p ++ [n]) c.
Proof.
  intros ND H J q m d E. rewrite <- app_assoc. apply (H (n :: q) m d). cbn [app node_at kids]. now rewrite (In_find n c cs ND J).
Qed.

Lemma plain_key_nocolon n : plain_key n -> ~ In colon n.
Proof. now intros ((_ & _ & C & _) & _). Qed.

Lemma setting_writes p i n : plain_key n -> plain_text (vtext i) ->
  (forall s, i_src i = Some s -> one_line s) -> (forall t, fst (attr (path_name (p ++ [n]))) = Some t -> one_line t) ->
  (forall t, snd (attr (path_name (p ++ [n]))) = Some t -> one_line t) ->
  writes [Setting n (vtext i)] [format_value tostr attr uds i (path_name (p ++ [n]))] /\
  one_line (format_value tostr attr uds i (path_name (p ++ [n]))).
Proof.
  intros K T A B C. rewrite value_line by (now apply plain_key_nocolon). split.
  - change [?x] with (x :: [] ++ []). eapply (wr_pair [] _ [] n (n ++ [" "%char]) (vtext i) (" "%char :: shown (vtext i)) [] (vtext i)).
    + apply K.
    + exists [], [" "%char]. split; [reflexivity|]. split; [constructor|]. repeat constructor.
    + apply T.
    + destruct (vtext i) as [|a v] eqn:E; cbn [shown].
      * exists [" "; """"; """"]%char, []. split; [reflexivity|]. split; repeat constructor; cbn; tauto.
      * exists [" "%char], []. split; [cbn [app]; now rewrite app_nil_r|]. split; repeat constructor.
    + destruct K as ((K1 & _) & K2 & _). destruct n; [congruence|]. exact K2.
    + now apply value_lay.
    + constructor. apply T.
    + constructor.
  - destruct K as (_ & _ & _ & K). destruct T as (_ & T & _). apply prefix_line; [assumption|]. apply prefix_line; [apply chars_line; reflexivity|]. apply prefix_line.
    + destruct (vtext i); cbn [shown]; [|assumption]. intros [J|[J|[]]]; discriminate.
    + apply tail_line. now apply comments_line.
Qed.

Lemma doc_writes : forall o p, wf o -> named_at p o -> savable_at p o -> Forall plain_section p -> i_sect (inf o) = true ->
  writes (doc p o) (lns p o) /\ Forall one_line (lns p o).
Proof.
  induction o as [i f cs IH] using opt_ind'. intros p W N SV G S. cbn [doc lns].
  inversion W as [? ? ? ND WC _]; subst.
  assert (P1 : writes (match p with [] => [] | _ => if existsb is_val cs then [Header p] else [] end)
                 (match p with [] => [] | _ => if existsb is_val cs then [[]; "["%char :: path_name p ++ ["]"%char]] else [] end) /\
               Forall one_line (match p with [] => [] | _ => if existsb is_val cs then [[]; "["%char :: path_name p ++ ["]"%char]] else [] end)).
  { destruct p as [|a p]; [split; constructor|]. destruct (existsb is_val cs); [|split; constructor].
    destruct (header_of (a :: p)) as (H1 & H2 & H3); [discriminate|assumption|]. split.
    - apply wr_blank; [|eapply wr_header; eauto; constructor]. exact lay_blank.
    - constructor; [intros []|]. constructor; [|constructor]. intros [J|J]; [discriminate|]. apply in_app_or in J. destruct J as [J|[J|[]]]; [now apply H3|discriminate]. }
  assert (P2 : forall l, incl l cs -> writes (map (fun nc => Setting (fst nc) (vtext (inf (snd nc)))) (filter is_val l)) (map (fun nc => format tostr attr uds (snd nc)) (filter is_val l)) /\
     Forall one_line (map (fun nc => format tostr attr uds (snd nc)) (filter is_val l))).
  { induction l as [|[n c] r IHl]; intros HI; [split; constructor|].
    assert (In (n, c) cs) as IN by (apply HI; now left). destruct IHl as [Q1 Q2]; [intros z Z; apply HI; now right|].
    cbn [filter]. change (is_val (n, c)) with (negb (i_sect (inf c))). destruct (i_sect (inf c)) eqn:SC; cbn [negb]; [split; assumption|]. cbn [map fst snd].
    assert (E0 : node_at ([] ++ [n]) (Node i f cs) = Some c) by (cbn [app node_at kids]; now rewrite (In_find n c cs ND IN)).
    destruct (SV [] n c E0) as [_ X]. destruct (X SC) as (K & T & A & B & C).
    pose proof (N ([] ++ [n]) c E0) as FN. cbn [app] in FN, B, C.
    destruct (wf_value c (WC n c IN) SC) as (_ & (v & Hv) & _).
    assert (EF : format tostr attr uds c = format_value tostr attr uds (inf c) (path_name (p ++ [n]))).
    { destruct c as [ci cf cc]. cbn [inf] in *. cbn [format]. rewrite SC. cbn [negb]. cbn [full] in FN. now rewrite FN. }
    rewrite EF. destruct (setting_writes p (inf c) n K) as [R1 R2]; try assumption.
    { unfold vtext. rewrite Hv. now apply T. }
    split; [|now constructor]. exact (writes_app _ _ _ _ R1 Q1). }
  assert (P3 : forall l, incl l cs -> writes
     ((fix go (l : list (str * opt V)) := match l with [] => [] | (n, c) :: r => (if i_sect (inf c) then doc (p ++ [n]) c else []) ++ go r end) l)
     ((fix go (l : list (str * opt V)) := match l with [] => [] | (n, c) :: r => (if i_sect (inf c) then lns (p ++ [n]) c else []) ++ go r end) l) /\
     Forall one_line ((fix go (l : list (str * opt V)) := match l with [] => [] | (n, c) :: r => (if i_sect (inf c) then lns (p ++ [n]) c else []) ++ go r end) l)).
  { induction l as [|[n c] r IHl]; intros HI; [split; constructor|].
    assert (In (n, c) cs) as IN by (apply HI; now left). destruct IHl as [Q1 Q2]; [intros z Z; apply HI; now right|].
    destruct (i_sect (inf c)) eqn:SC; [|now split].
    assert (E0 : node_at ([] ++ [n]) (Node i f cs) = Some c) by (cbn [app node_at kids]; now rewrite (In_find n c cs ND IN)).
    destruct (SV [] n c E0) as [X _].
    destruct (IH n c IN (p ++ [n])) as [R1 R2]; try assumption.
    - exact (WC n c IN).
    - now apply (named_child p i f cs).
    - now apply (savable_child p i f cs).
    - apply Forall_app. split; [assumption|]. constructor; [now apply X|constructor].
    - split; [now apply writes_app|apply Forall_app; now split]. }
  destruct P1 as [A1 A2], (P2 cs (incl_refl _)) as [B1 B2], (P3 cs (incl_refl _)) as [C1 C2]. split.
  - apply writes_app; [assumption|]. now apply writes_app.
  - apply Forall_app. split; [assumption|]. apply Forall_app. now split.
Qed.

Lemma read_written filename o r : wf o -> named o -> savable tostr attr o ->
  exists text, write tostr attr o = Ok text /\ read filename text r = perform filename (meaning [] (doc [] o)) r.
Proof.
  intros W N (S & SV). rewrite write_uds. eexists. split; [reflexivity|].
  assert (NA : named_at [] o) by exact N.
  assert (SA : savable_at [] o) by (intros q n c E; apply (SV q n c E)).
  rewrite (format_lines o []); try assumption; [|constructor|].
  - rewrite endl_text. destruct (doc_writes o [] W NA SA (Forall_nil _) S) as [A B].
    apply read_doc.
    + rewrite <- (app_nil_r (doc [] o)). apply writes_app; [assumption|]. apply wr_blank; [|constructor].
      exact lay_blank.
    + destruct (lns [] o); discriminate.
    + apply Forall_app. split; [assumption|]. constructor; [intros []|constructor].
  - intros q n c E. destruct (SV q n c E) as [X Y]. destruct (i_sect (inf c)).
    + destruct (X eq_refl) as ((A & B & _) & _). now split.
    + destruct (Y eq_refl) as (((A & _ & B & _) & _) & _). now split.
Qed.
End WithV.
