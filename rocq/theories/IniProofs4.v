From Coq Require Import Ascii String List Arith Bool ZArith Lia.
From Verif Require Import Base StringsModel StringsSpec StringsProofs OptionsModel OptionsSpec OptionsProofs OptionsProofs2 IniModel IniSpec IniProofs IniProofs2 IniProofs3.
Import ListNotations.

(** * Any text *)
Definition calm {A} (k : tree -> tree * res A) : Prop := forall c, wf c -> wf (fst (k c)) /\ snd (k c) <> UB.
Lemma on_child_calm {A} n (k : tree -> tree * res A) : calm k -> forall o, wf o -> i_sect (inf o) = true -> wf (fst (on_child n k o)) /\ snd (on_child n k o) <> UB.
Proof.
  intros HK o W S. split.
  - assert (E : on_child n k o = walk [n] k o) by (cbn [walk]; rewrite S; reflexivity). rewrite E. apply wf_walk; [|assumption]. intros c Wc. now apply HK.
  - destruct o as [i f cs]. unfold on_child. destruct (find_child n cs) as [c|] eqn:E.
    + assert (Wc : wf c) by (eapply wf_child; [exact W|exact E]). destruct (HK c Wc) as [_ X]. destruct (k c); exact X.
    + destruct (HK (Node info0 (child_full f n) []) (wf_fresh _)) as [_ X]. destruct (k _); exact X.
Qed.
Lemma op_index_calm {A} : forall fuel name (k : tree -> tree * res A), List.length name < fuel -> calm k -> calm (op_index fuel name k).
Proof.
  induction fuel as [|fuel IH]; intros name k HL HK o W; [lia|]. cbn [op_index].
  destruct (i_sect (inf o)) eqn:S; cbn [negb]; [|split; [assumption|discriminate]].
  destruct name as [|c name]; [now apply HK|].
  pose proof (find_first_spec (Ascii.eqb colon) (c :: name) 0) as FS. destruct (find_first (Ascii.eqb colon) (c :: name) 0) as [pos|].
  - destruct FS as (p & ch & q & E & -> & _). cbn [Nat.add]. rewrite E. rewrite firstn_mid, skipn_mid.
    assert (HL2 : List.length p < fuel /\ List.length q < fuel) by (rewrite E in HL; rewrite app_length in HL; cbn [List.length] in HL; lia).
    apply IH; [tauto| |assumption]. apply IH; tauto.
  - now apply on_child_calm.
Qed.
Lemma index_calm {A} name (k : tree -> tree * res A) : calm k -> calm (index name k).
Proof. intros H. apply op_index_calm; [lia|assumption]. Qed.
Lemma in_section_calm {A} sec (k : tree -> tree * res A) : calm k -> calm (in_section sec k).
Proof. intros H. induction sec as [|n r IH]; [assumption|]. cbn [in_section]. now apply index_calm. Qed.
Lemma assign_calm v s : calm (assign veqb v s).
Proof.
  intros c W. split; [now apply (wf_assign veqb veqb_ok)|].
  destruct (assign_node veqb veqb_ok v s c) as [(_ & _ & ->)|(_ & ->)]; try discriminate. intros X. now destruct (wf_value c W X).
Qed.
Lemma id_calm : calm (fun c : tree => (c, Ok tt)).
Proof. intros c W. split; [assumption|discriminate]. Qed.
Lemma parse_noub b : parse b <> UB.
Proof. unfold parse. destruct (find_first _ b 0); [|discriminate]. destruct (trim _ _); [discriminate|]. destruct (find_first _ _ 0); discriminate. Qed.
Lemma continue_noub : forall ls n v, continue_value n v ls <> UB.
Proof. induction ls as [|l ls IH]; intros n v; cbn [continue_value]; destruct (0 <? n)%Z; try discriminate. apply IH. Qed.
Lemma continue_len : forall ls n v w r, continue_value n v ls = Ok (w, r) -> List.length r <= List.length ls.
Proof.
  induction ls as [|l ls IH]; intros n v w r H; cbn [continue_value] in H; destruct (0 <? n)%Z; try discriminate; try (injection H as _ <-; lia).
  apply IH in H. cbn [List.length]. lia.
Qed.
Lemma read_calm f : forall fuel sec ls, List.length ls < fuel -> calm (read_lines fuel f sec ls).
Proof.
  induction fuel as [|fuel IH]; intros sec ls HL o W; [lia|]. cbn [read_lines]. destruct ls as [|l rest]; [split; [assumption|discriminate]|].
  cbn [List.length] in HL. destruct (getNextLine l) as [|c b]; [apply IH; [lia|assumption]|].
  destruct (Ascii.eqb c "[").
  - destruct (find_last _ _ 0 None); [|split; [assumption|discriminate]]. destruct (trim _ _) as [|x t]; [split; [assumption|discriminate]|].
    set (sec' := header_names _ _). clearbody sec'. destruct (in_section_calm sec' _ id_calm o W) as [X Y].
    destruct (in_section sec' _ o) as [o' [u| |]]; cbn [fst snd] in *; [apply IH; [lia|assumption]|split; [assumption|discriminate]|congruence].
  - pose proof (parse_noub (c :: b)) as NP. destruct (parse (c :: b)) as [[key v]| |]; [|split; [assumption|discriminate]|congruence].
    pose proof (continue_noub rest (count_brackets v) v) as NC. destruct (continue_value _ v rest) as [[v' rest']| |] eqn:EC; [|split; [assumption|discriminate]|congruence].
    apply continue_len in EC. destruct (in_section_calm sec _ (index_calm key _ (assign_calm (VS v') f)) o W) as [X Y].
    destruct (in_section sec _ o) as [o' [u| |]]; cbn [fst snd] in *; [apply IH; [lia|assumption]|split; [assumption|discriminate]|congruence].
Qed.

(** Only clean values are stored. *)
Section Clean.
Variable f : str.
Definition tidy {A} (k : tree -> tree * res A) : Prop := forall c, only_clean_from f c (fst (k c)).
Lemma clean_refl c : only_clean_from f c c.
Proof. intros p. now left. Qed.
Lemma clean_trans a b c : only_clean_from f a b -> only_clean_from f b c -> only_clean_from f a c.
Proof. intros H1 H2 p. destruct (H2 p) as [E|X]; [|now right]. rewrite E. apply H1. Qed.
Lemma on_child_tidy {A} n (k : tree -> tree * res A) : tidy k -> tidy (on_child n k).
Proof.
  intros HK [i g cs] p. unfold on_child. destruct (find_child n cs) as [c|] eqn:E.
  - specialize (HK c). destruct (k c) as [c1 r]. cbn [fst] in *. destruct p as [|m p]; [now left|].
    unfold entry_at. rewrite !info_at_cons. cbn [kids]. destruct (str_dec m n) as [->|N].
    + rewrite (find_replace_same _ _ _ _ E), E. apply HK.
    + rewrite find_replace_other by assumption. now left.
  - specialize (HK (Node info0 (child_full g n) [])). destruct (k _) as [c1 r]. cbn [fst] in *. destruct p as [|m p]; [now left|].
    unfold entry_at. rewrite !info_at_cons. cbn [kids]. destruct (str_dec m n) as [->|N].
    + rewrite (find_insert_same _ _ _ E), E. specialize (HK p). unfold entry_at in HK. rewrite info_at_fresh in HK. apply HK.
    + rewrite find_insert_other by assumption. now left.
Qed.
Lemma op_index_tidy {A} : forall fuel name (k : tree -> tree * res A), tidy k -> tidy (op_index fuel name k).
Proof.
  induction fuel as [|fuel IH]; intros name k HK o; [apply clean_refl|]. cbn [op_index]. destruct (negb _); [apply clean_refl|].
  destruct name as [|c name]; [apply HK|]. destruct (find_first _ _ 0); [apply IH, IH, HK|]. now apply on_child_tidy.
Qed.
Lemma in_section_tidy {A} sec (k : tree -> tree * res A) : tidy k -> tidy (in_section sec k).
Proof. intros H. induction sec as [|n r IH]; [assumption|]. cbn [in_section]. now apply op_index_tidy. Qed.
Lemma id_tidy : tidy (fun c : tree => (c, Ok tt)).
Proof. intros c. apply clean_refl. Qed.
Lemma assign_tidy v : Forall (fun c => ~ In c comment_chars) v -> tidy (assign veqb (VS v) f).
Proof.
  intros HV c p. unfold tree in *.
  assert (H : fst (assign veqb (VS v) f c) = c \/ (kids (fst (assign veqb (VS v) f c)) = kids c /\ inf (fst (assign veqb (VS v) f c)) = written (VS v) f (inf c))).
  { unfold assign, set_checked, set_no_check. destruct (isSet c) as [b| |]; [|now left|now left].
    destruct (b && _); [destruct (negb (val_is _ _ _)); [destruct (_ || _)|]|]; try (now left); destruct (kids c) as [|x l] eqn:EK; try (now left);
      right; cbn [fst]; rewrite kids_set_inf, inf_set_inf; split; (assumption || reflexivity). }
  destruct H as [->|[H1 H2]]; [now left|]. destruct p as [|m p].
  - right. exists v. unfold entry_at, info_at. cbn [node_at]. rewrite H2. split; [reflexivity|assumption].
  - left. unfold entry_at. rewrite !info_at_cons, H1. reflexivity.
Qed.
Lemma next_clean l : Forall (fun c => ~ In c comment_chars) (getNextLine l).
Proof.
  unfold getNextLine. destruct (trimComments_spec l comment_chars) as (r & _ & F & _). destruct (trim_spec (trimComments l comment_chars) ws_trim) as (p & q & E & _).
  rewrite E in F. rewrite !Forall_app in F. tauto.
Qed.
Lemma skipn_Forall {A} (P : A -> Prop) n l : Forall P l -> Forall P (skipn n l).
Proof. intros H. rewrite <- (firstn_skipn n l) in H. now apply Forall_app in H. Qed.
Lemma trim_Forall (P : ascii -> Prop) cs l : Forall P l -> Forall P (trim l cs).
Proof. intros H. destruct (trim_spec l cs) as (p & q & E & _). rewrite E in H. rewrite !Forall_app in H. tauto. Qed.
Lemma parse_clean b k v : Forall (fun c => ~ In c comment_chars) b -> parse b = Ok (k, v) -> Forall (fun c => ~ In c comment_chars) v.
Proof.
  intros HB H. unfold parse in H. destruct (find_first _ b 0) as [pos|].
  - destruct (trim (firstn pos b) quote_ws); [discriminate|]. destruct (find_first _ _ 0); [discriminate|]. injection H as _ <-. now apply trim_Forall, skipn_Forall.
  - injection H as _ <-. repeat constructor; intros [X|[X|[]]]; discriminate.
Qed.
Lemma continue_clean : forall ls n v w r, Forall (fun c => ~ In c comment_chars) v -> continue_value n v ls = Ok (w, r) -> Forall (fun c => ~ In c comment_chars) w.
Proof.
  induction ls as [|l ls IH]; intros n v w r HV H; cbn [continue_value] in H; destruct (0 <? n)%Z; try discriminate; try (injection H as <- _; assumption).
  apply IH in H; [assumption|]. apply Forall_app. split; [assumption|apply next_clean].
Qed.
Lemma read_tidy : forall fuel sec ls, tidy (read_lines fuel f sec ls).
Proof.
  induction fuel as [|fuel IH]; intros sec ls o; [apply clean_refl|]. cbn [read_lines]. destruct ls as [|l rest]; [apply clean_refl|].
  pose proof (next_clean l) as NC. destruct (getNextLine l) as [|c b]; [apply IH|].
  destruct (Ascii.eqb c "[").
  - destruct (find_last _ _ 0 None); [|apply clean_refl]. destruct (trim _ _) as [|x t]; [apply clean_refl|].
    set (sec' := header_names _ _). clearbody sec'. pose proof (in_section_tidy sec' _ id_tidy o) as X.
    destruct (in_section sec' _ o) as [o' [u| |]]; cbn [fst snd] in *; try assumption. eapply clean_trans; [exact X|apply IH].
  - destruct (parse (c :: b)) as [[key v]| |] eqn:EP; [|apply clean_refl|apply clean_refl].
    apply parse_clean in EP; [|assumption].
    destruct (continue_value _ v rest) as [[v' rest']| |] eqn:EC; [|apply clean_refl|apply clean_refl].
    apply continue_clean in EC; [|assumption]. pose proof (in_section_tidy sec _ (op_index_tidy (S (List.length key)) key _ (assign_tidy v' EC)) o) as X.
    change (op_index (S (List.length key)) key (assign veqb (VS v') f)) with (index key (assign veqb (VS v') f)) in X.
    destruct (in_section sec _ o) as [o' [u| |]]; cbn [fst snd] in *; try assumption. eapply clean_trans; [exact X|apply IH].
Qed.
End Clean.

(** * Command lines *)
Lemma walk_id_again {A} p (k : tree -> tree * res A) : forall o,
  match walk p (fun c : tree => (c, Ok tt)) o with
  | (o1, Ok _) => walk p k o1 = walk p k o
  | (o1, Throw) => walk p k o = (o1, Throw)
  | (o1, UB) => False
  end.
Proof.
  induction p as [|n p IH]; intros o; [reflexivity|]. cbn [walk]. destruct (i_sect (inf o)) eqn:S; cbn [negb]; [|reflexivity].
  destruct o as [i g cs]. cbn [inf] in S. unfold on_child. destruct (find_child n cs) as [c|] eqn:E.
  - specialize (IH c). destruct (walk p (fun c : tree => (c, Ok tt)) c) as [c1 [u| |]]; [| |assumption].
    + cbn [inf]. rewrite S. cbn [negb]. rewrite (find_replace_same _ _ _ _ E), IH. destruct (walk p k c) as [c2 r2]. f_equal. f_equal.
      clear - E. induction cs as [|[m d] cs IH]; [reflexivity|]. cbn [replace_child find_child] in *. destruct (str_eqb n m) eqn:X; cbn [replace_child]; rewrite X; [reflexivity|].
      f_equal. now apply IH.
    + now rewrite IH.
  - specialize (IH (Node info0 (child_full g n) [])). destruct (walk p (fun c : tree => (c, Ok tt)) _) as [c1 [u| |]]; [| |assumption].
    + cbn [inf]. rewrite S. cbn [negb]. rewrite (find_insert_same _ _ _ E), IH. destruct (walk p k (Node info0 (child_full g n) [])) as [c2 r2]. f_equal. f_equal.
      clear - E. induction cs as [|[m d] cs IH]; [cbn [insert_child replace_child]; now rewrite str_eqb_refl|]. cbn [insert_child find_child] in *.
      destruct (str_eqb n m) eqn:X; [discriminate|]. destruct (str_ltb n m); cbn [replace_child]; [now rewrite str_eqb_refl|]. rewrite X. f_equal. now apply IH.
    + now rewrite IH.
Qed.

Lemma cmd_good p : cmd_name p -> good_path p /\ p <> [].
Proof. intros (N & F & _). split; [|assumption]. eapply Forall_impl; [|exact F]. intros n (A & B & _). auto. Qed.
Lemma path_name_bare p : p <> [] -> Forall (fun n => n <> [] /\ ~ In colon n /\ ~ In eqc n /\ bare ws_trim n) p ->
  bare ws_trim (path_name p) /\ path_name p <> [] /\ ~ In eqc (path_name p).
Proof.
  intros N F. induction F as [|n r (A & B & C & D) F IH]; [congruence|]. destruct r as [|m r].
  - unfold path_name. cbn [join]. auto.
  - assert (X : m :: r <> []) by discriminate. specialize (IH X). destruct IH as ([I1 I2] & I3 & I4).
    change (path_name (n :: m :: r)) with (n ++ colon :: path_name (m :: r)). split; [split|split].
    + destruct n as [|c n]; [congruence|]. exact (proj1 D).
    + destruct I2 as [I2|(q & c & I2 & Hc)]; [congruence|]. right. exists (n ++ colon :: q), c. rewrite I2, <- app_assoc. auto.
    + destruct n; discriminate.
    + rewrite in_app_iff. intros [Y|[Y|Y]]; [auto|discriminate|auto].
Qed.
Lemma key_sections_path p : p <> [] -> Forall (fun n => n <> [] /\ ~ In colon n /\ ~ In eqc n /\ bare ws_trim n) p ->
  forall fuel, List.length (path_name p) < fuel -> exists key, key_sections fuel (path_name p) = (removelast p, key) /\ p = removelast p ++ [key].
Proof.
  intros N F. induction F as [|n r (A & B & C & D) F IH]; [congruence|]. intros fuel HF. destruct fuel as [|fuel]; [lia|]. cbn [key_sections].
  destruct r as [|m r].
  - exists n. unfold path_name. cbn [join]. rewrite find_first_none by assumption. auto.
  - assert (X : m :: r <> []) by discriminate. specialize (IH X). destruct (path_name_bare (m :: r) X F) as (Y & _).
    change (path_name (n :: m :: r)) with (n ++ colon :: path_name (m :: r)) in *. rewrite app_length in HF. cbn [List.length] in HF.
    rewrite find_first_app' by assumption. cbn [Nat.add]. rewrite firstn_mid, skipn_mid, bare_trim by assumption.
    destruct (IH fuel) as (key & K1 & K2); [lia|]. rewrite K1. exists key. cbn [removelast]. cbn [removelast] in K2. split; [reflexivity|]. cbn [app]. f_equal. exact K2.
Qed.
Lemma last_snoc (s : str) c d : List.last (s ++ [c]) d = c.
Proof. induction s as [|x s IH]; [reflexivity|]. cbn [app]. destruct (s ++ [c]) eqn:E; [destruct s; discriminate|]. exact IH. Qed.
Lemma last_not_eq s : ~ In eqc s -> Ascii.eqb (List.last s zero) eqc = false.
Proof.
  intros H. apply Ascii.eqb_neq. intros E. destruct s as [|c s]; [discriminate|]. destruct (exists_last (l := c :: s)) as (q & x & X); [discriminate|].
  rewrite X in *. rewrite last_snoc in E. apply H. rewrite in_app_iff. right. now left.
Qed.
Lemma commands_hd acts args b rest : commands acts args -> args = b :: rest -> hd zero b <> eqc.
Proof.
  assert (H : forall p n s, cmd_name p -> dashed (path_name p) n -> hd zero (n ++ s) <> eqc).
  { intros p n s (N & F & D) HD. destruct (path_name_bare p N F) as (_ & X & Y). destruct (path_name p) as [|c t]; [congruence|].
    destruct HD as [-> | ->]; cbn; [|discriminate]. intros ->. apply Y. now left. }
  assert (H0 : forall p n, cmd_name p -> dashed (path_name p) n -> hd zero n <> eqc) by (intros p n A B; rewrite <- (app_nil_r n); eauto).
  intros HC E. destruct HC; try discriminate; injection E as <- _; eauto. cbn. discriminate.
Qed.
(** Joining the words of an item gives name=value. *)
Lemma find_last_eq n v : ~ In eqc n -> ~ In eqc v -> find_last (Ascii.eqb eqc) (n ++ eqc :: v) 0 None = Some (List.length n).
Proof.
  intros Hn Hv. pose proof (find_last_spec (Ascii.eqb eqc) (n ++ eqc :: v) 0 None) as S. destruct (find_last _ _ 0 None) as [m|].
  - destruct S as [(p & c & q & E & -> & Ec & Fq)|[E _]]; [|discriminate]. apply Ascii.eqb_eq in Ec. subst c. cbn [Nat.add].
    assert (p = n); [|congruence]. clear Fq. revert p E. induction n as [|x n IH]; intros [|y p] E; cbn in E.
    + reflexivity.
    + injection E as <- E. exfalso. apply Hv. rewrite E, in_app_iff. right. now left.
    + injection E as -> _. exfalso. apply Hn. now left.
    + injection E as -> E. f_equal. apply IH; [intros X; apply Hn; now right|assumption].
  - destruct S as [_ S]. rewrite Forall_app in S. destruct S as [_ S]. inversion S as [|? ? X _]. now rewrite Ascii.eqb_refl in X.
Qed.
(** The treatment of a complete item. *)
Definition run_item (buffer : str) (o : tree) : tree * res unit :=
  match find_first (Ascii.eqb eqc) buffer 0 with
  | None => index buffer (assign veqb (VB true) CMD) o
  | Some startpos =>
      match find_last (Ascii.eqb eqc) buffer 0 None with
      | None => (o, UB)
      | Some endpos =>
        if negb (startpos =? endpos) then (o, Throw)
        else
          let key := trim (firstn startpos buffer) ws_trim in
          let value := trim (skipn (startpos + 1) buffer) ws_trim in
          let (secs, key) := key_sections (S (List.length key)) key in
          match in_section secs (fun c => (c, Ok tt)) o with
          | (o1, Ok _) => match key, value with [], _ | _, [] => (o1, Throw) | _, _ => in_section secs (index key (assign veqb (VS value) CMD)) o1 end
          | x => x
          end
      end
  end.
Definition undash (w : str) : str := match w with c :: t => if Ascii.eqb c dash then t else c :: t | [] => [] end.
Lemma parse_args_step fuel w rest o b : undash w = b -> b <> [] ->
  parse_args (S fuel) (w :: rest) o = let (buffer, rest) := join_args b rest in match run_item buffer o with (o', Ok _) => parse_args fuel rest o' | x => x end.
Proof.
  intros E N. destruct w as [|c t]; [cbn in E; congruence|]. cbn [parse_args].
  change (if Ascii.eqb c dash then t else c :: t) with (undash (c :: t)). rewrite E. destruct b as [|x b]; [congruence|].
  destruct (join_args (x :: b) rest) as [buf rest']. unfold run_item.
  destruct (find_first (Ascii.eqb eqc) buf 0) as [sp|]; [|destruct (index buf _ o) as [o' [u| |]]; reflexivity].
  destruct (find_last (Ascii.eqb eqc) buf 0 None) as [ep|]; [|reflexivity]. destruct (negb (sp =? ep)); [reflexivity|].
  destruct (key_sections _ _) as [secs key]. destruct (in_section secs (fun c : tree => (c, Ok tt)) o) as [o1 [u| |]]; try reflexivity.
  destruct key as [|kc key]; [reflexivity|]. destruct (trim (skipn (sp + 1) buf) ws_trim) as [|vc v]; [reflexivity|].
  destruct (in_section secs _ o1) as [o' [w| |]]; reflexivity.
Qed.
Lemma run_flag p o : cmd_name p -> run_item (path_name p) o = perform1 CMD (Put p (VB true)) o.
Proof. intros (N & F & _). destruct (path_name_bare p N F) as (_ & _ & X). unfold run_item. rewrite find_first_none' by assumption. reflexivity. Qed.
Lemma run_value p v o : cmd_name p -> cmd_value v -> run_item (path_name p ++ eqc :: v) o = perform1 CMD (Put p (VS v)) o.
Proof.
  intros HP (V1 & V2 & V3). destruct (cmd_good p HP) as [G _]. destruct HP as (N & F & _). destruct (path_name_bare p N F) as (B & _ & X). unfold run_item.
  rewrite find_first_app', find_last_eq by assumption. cbn [Nat.add]. rewrite Nat.eqb_refl. cbn [negb]. rewrite firstn_mid, skipn_mid, !bare_trim by assumption.
  destruct (key_sections_path p N F (S (List.length (path_name p)))) as (key & K1 & K2); [lia|]. rewrite K1.
  assert (GK : good_path (removelast p) /\ key <> [] /\ ~ In colon key).
  { rewrite K2 in G. apply Forall_app in G. destruct G as [G1 G2]. inversion G2 as [|? ? [G3 G4] _]; auto. }
  destruct GK as (GS & KN & KC). rewrite in_section_walk by assumption.
  pose proof (walk_id_again (removelast p) (index key (assign veqb (VS v) CMD)) o) as HW.
  assert (HP : perform1 CMD (Put p (VS v)) o = walk (removelast p) (index key (assign veqb (VS v) CMD)) o).
  { rewrite K2 at 1. rewrite <- in_section_put by assumption. now apply in_section_walk. }
  rewrite HP. unfold tree, path, str in *. destruct (walk (removelast p) (fun c : opt value => (c, Ok tt)) o) as [o1 [u| |]]; [|symmetry; exact HW|destruct HW].
  destruct key as [|kc key]; [congruence|]. destruct v as [|vc v]; [congruence|]. rewrite in_section_walk by assumption. exact HW.
Qed.
Lemma commands_perform acts args : commands acts args -> forall fuel o, List.length args < fuel -> parse_args fuel args o = perform CMD acts o.
Proof.
  assert (D : forall p n s, cmd_name p -> dashed (path_name p) n -> undash (n ++ s) = path_name p ++ s).
  { intros p n s (N & F & D) HD. destruct (path_name_bare p N F) as (_ & X & _). destruct (path_name p) as [|c t] eqn:E; [congruence|]. cbn [hd] in D. apply Ascii.eqb_neq in D.
    destruct HD as [-> | ->]; cbn [app undash]; [now rewrite D|now rewrite Ascii.eqb_refl]. }
  assert (NN : forall p s, cmd_name p -> path_name p ++ s <> []).
  { intros p s (N & F & _). destruct (path_name_bare p N F) as (_ & X & _). destruct (path_name p); [congruence|discriminate]. }
  assert (NE : forall p, cmd_name p -> ~ In eqc (path_name p)).
  { intros p (N & F & _). now destruct (path_name_bare p N F) as (_ & _ & X). }
  induction 1 as [|acts args HC IH|p n acts args HP HD HC IH|p n v acts args HP HD HV HC IH|p n v acts args HP HD HV HC IH|p n v acts args HP HD HV HC IH|p n v acts args HP HD HV HC IH];
    intros fuel o HF; (destruct fuel as [|fuel]; [cbn [List.length] in HF; lia|]); cbn [List.length] in HF.
  - reflexivity.
  - cbn [parse_args]. apply IH. lia.
  - pose proof (D p n [] HP HD) as E2. rewrite !app_nil_r in E2. rewrite (parse_args_step _ _ _ _ _ E2) by (rewrite <- (app_nil_r (path_name p)); auto).
    assert (EJ : join_args (path_name p) args = (path_name p, args)).
    { unfold join_args. destruct args as [|b rest]; [reflexivity|]. rewrite last_not_eq by auto.
      pose proof (commands_hd _ _ b rest HC eq_refl) as X. apply Ascii.eqb_neq in X. now rewrite X. }
    rewrite EJ, run_flag by assumption. cbn [perform]. destruct (perform1 CMD _ o) as [o' [u| |]]; try reflexivity. apply IH. lia.
  - pose proof (D p n (eqc :: v) HP HD) as E2. rewrite (parse_args_step _ _ _ _ _ E2) by auto.
    assert (EJ : join_args (path_name p ++ eqc :: v) args = (path_name p ++ eqc :: v, args)).
    { unfold join_args. destruct args as [|b rest]; [reflexivity|]. destruct HV as (V1 & V2 & V3).
      assert (EL : Ascii.eqb (List.last (path_name p ++ eqc :: v) zero) eqc = false).
      { destruct (exists_last V1) as (q & x & ->). replace (path_name p ++ eqc :: q ++ [x]) with ((path_name p ++ eqc :: q) ++ [x]) by (rewrite <- app_assoc; reflexivity).
        rewrite last_snoc. apply Ascii.eqb_neq. intros ->. apply V2. rewrite in_app_iff. right. now left. }
      rewrite EL. pose proof (commands_hd _ _ b rest HC eq_refl) as X. apply Ascii.eqb_neq in X. now rewrite X. }
    rewrite EJ, run_value by assumption. cbn [perform]. destruct (perform1 CMD _ o) as [o' [u| |]]; try reflexivity. apply IH. lia.
  - pose proof (D p n [eqc] HP HD) as E2. rewrite (parse_args_step _ _ _ _ _ E2) by auto.
    assert (EJ : join_args (path_name p ++ [eqc]) (v :: args) = (path_name p ++ eqc :: v, args)).
    { unfold join_args. rewrite last_snoc, Ascii.eqb_refl, <- app_assoc. reflexivity. }
    rewrite EJ, run_value by assumption. cbn [perform]. destruct (perform1 CMD _ o) as [o' [u| |]]; try reflexivity. apply IH. lia.
  - pose proof (D p n [] HP HD) as E2. rewrite !app_nil_r in E2. rewrite (parse_args_step _ _ _ _ _ E2) by (rewrite <- (app_nil_r (path_name p)); auto).
    assert (EJ : join_args (path_name p) ((eqc :: v) :: args) = (path_name p ++ eqc :: v, args)).
    { unfold join_args. rewrite last_not_eq by auto. cbn [hd tl]. rewrite Ascii.eqb_refl. destruct HV as (V1 & _). destruct v; [congruence|reflexivity]. }
    rewrite EJ, run_value by assumption. cbn [perform]. destruct (perform1 CMD _ o) as [o' [u| |]]; try reflexivity. apply IH. lia.
  - pose proof (D p n [] HP HD) as E2. rewrite !app_nil_r in E2. rewrite (parse_args_step _ _ _ _ _ E2) by (rewrite <- (app_nil_r (path_name p)); auto).
    assert (EJ : join_args (path_name p) ([eqc] :: v :: args) = (path_name p ++ eqc :: v, args)).
    { unfold join_args. rewrite last_not_eq by auto. cbn [hd tl]. rewrite Ascii.eqb_refl, <- app_assoc. reflexivity. }
    rewrite EJ, run_value by assumption. cbn [perform]. destruct (perform1 CMD _ o) as [o' [u| |]]; try reflexivity. apply IH. lia.
Qed.
Lemma commands_good acts args : commands acts args -> Forall good_action acts.
Proof. induction 1; try (constructor; [split; cbn [place]; now apply cmd_good|assumption]); [constructor|assumption]. Qed.
Lemma writes_good d ls : writes d ls -> forall sec, good_path sec -> Forall good_action (meaning sec d).
Proof.
  induction 1 as [|d l ls HL HW IH|d l ls names s HH HL HW IH|d l ls k K1 K2 K3 K4 HL HW IH|d l ls k k' v1 v1' more v HK HP HV HPv HH HL HC HW IH]; intros sec G; cbn [meaning].
  - constructor.
  - now apply IH.
  - destruct (header_trim _ _ HH) as (_ & _ & _ & T4 & T5). constructor; [split; assumption|]. now apply IH.
  - constructor; [split; [apply good_app; [assumption|now apply good_one]|destruct sec; discriminate]|]. now apply IH.
  - destruct HK as (K1 & _ & K3 & _). constructor; [split; [apply good_app; [assumption|now apply good_one]|destruct sec; discriminate]|]. now apply IH.
Qed.

(** Any argument vector. *)
Lemma join_len buf rest b' r' : join_args buf rest = (b', r') -> List.length r' <= List.length rest.
Proof.
  unfold join_args. destruct rest as [|b [|d r]]; intros H.
  - injection H as _ <-. lia.
  - destruct (Ascii.eqb _ _); [injection H as _ <-; cbn; lia|]. destruct (Ascii.eqb (hd zero b) eqc); [destruct (tl b)|]; injection H as _ <-; cbn; lia.
  - destruct (Ascii.eqb _ _); [injection H as _ <-; cbn; lia|]. destruct (Ascii.eqb (hd zero b) eqc); [destruct (tl b)|]; injection H as _ <-; cbn; lia.
Qed.
Lemma run_item_calm b : calm (run_item b).
Proof.
  intros o W. unfold run_item. pose proof (find_first_spec (Ascii.eqb eqc) b 0) as FS. destruct (find_first _ b 0) as [sp|].
  - destruct (find_last (Ascii.eqb eqc) b 0 None) as [ep|] eqn:EL.
    + destruct (negb _); [split; [assumption|discriminate]|]. destruct (key_sections _ _) as [secs key].
      destruct (in_section_calm secs _ id_calm o W) as [X Y]. destruct (in_section secs _ o) as [o1 [u| |]]; cbn [fst snd] in *; [|split; [assumption|discriminate]|congruence].
      destruct key as [|kc key]; [split; [assumption|discriminate]|]. destruct (trim _ _) as [|vc v]; [split; [assumption|discriminate]|].
      apply in_section_calm; [|assumption]. apply index_calm, assign_calm.
    + exfalso. destruct FS as (p & c & q & -> & _ & Ec & _). apply Ascii.eqb_eq in Ec. subst c.
      apply (find_last_some (p ++ eqc :: q) eqc); [rewrite in_app_iff; right; now left|assumption].
  - apply index_calm; [apply assign_calm|assumption].
Qed.
Lemma args_calm : forall fuel args, List.length args < fuel -> calm (parse_args fuel args).
Proof.
  induction fuel as [|fuel IH]; intros args HF o W; [lia|]. destruct args as [|[|c t] rest]; cbn [List.length] in HF.
  - split; [assumption|discriminate].
  - cbn [parse_args]. apply IH; [lia|assumption].
  - destruct (undash (c :: t)) as [|x b] eqn:EB.
    + cbn [parse_args]. change (if Ascii.eqb c dash then t else c :: t) with (undash (c :: t)). rewrite EB. split; [assumption|discriminate].
    + rewrite (parse_args_step _ _ _ _ _ EB) by discriminate. destruct (join_args (x :: b) rest) as [buf rest'] eqn:EJ. apply join_len in EJ.
      destruct (run_item_calm buf o W) as [X Y]. destruct (run_item buf o) as [o' [u| |]]; cbn [fst snd] in *; [apply IH; [lia|assumption]|split; [assumption|discriminate]|congruence].
Qed.
