From Coq Require Import Ascii String List Arith Bool ZArith Lia.
From Verif Require Import Base StringsModel StringsSpec OptionsModel OptionsSpec OptionsProofs OptionsProofs2 IniModel IniSpec IniProofs IniProofs2 IniProofs3 IniProofs4 IniWriteModel IniWriteSpec IniWriteProofs IniWriteProofs2.
Import ListNotations.

(** * Options know their path *)
Section WithV.
Context {V : Type} (veqb : V -> V -> bool).
Inductive nm : str -> opt V -> Prop :=
| nm_node : forall i f cs, (forall n c, In (n, c) cs -> n <> [] /\ ~ In colon n /\ nm (child_full f n) c) -> nm f (Node i f cs).

Lemma nm_full f o : nm f o -> full o = f.
Proof. now intros []. Qed.
Lemma nm_fresh f : nm f (Node info0 f []).
Proof. constructor. intros n c []. Qed.
Lemma nm_set_inf f i o : nm f o -> nm f (set_inf i o).
Proof. intros [j g cs H]. now constructor. Qed.

Definition keeps_nm {A} (k : opt V -> opt V * res A) : Prop := forall f c, nm f c -> nm f (fst (k c)).
Lemma nm_on_child {A} n (k : opt V -> opt V * res A) : n <> [] -> ~ In colon n -> keeps_nm k -> keeps_nm (on_child n k).
Proof.
  intros N C K f o [i g cs H]. unfold on_child. destruct (find_child n cs) as [c|] eqn:E.
  - pose proof (H n c (find_In n c cs E)) as (_ & _ & X). specialize (K _ _ X). destruct (k c) as [c' r]. cbn [fst] in *. constructor.
    intros m d J. destruct (str_dec m n) as [->|M].
    + assert (c' = d \/ In (n, d) cs) as [<-|J'] by (destruct (In_replace n c' cs n d J); auto); [auto|]. now apply H.
    + assert (In (m, d) cs) as J'.
      { clear - J M. induction cs as [|[a b] r IH]; [exact J|]. cbn [replace_child] in J. destruct (str_eqb n a) eqn:E.
        - destruct J as [J|J]; [|now right]. apply str_eqb_eq in E. congruence.
        - destruct J as [J|J]; [now left|right; auto]. }
      now apply H.
  - pose proof (K _ _ (nm_fresh (child_full g n))) as X. destruct (k _) as [c' r]. cbn [fst] in *. constructor.
    intros m d J. apply In_insert in J. destruct J as [J|J]; [now apply H|]. injection J as -> ->. auto.
Qed.
Lemma find_first_colon s : forall k pos, find_first (Ascii.eqb colon) s k = Some pos -> k <= pos.
Proof. induction s as [|c s IH]; intros k pos; cbn [find_first]; [discriminate|]. destruct (Ascii.eqb colon c); [intros [= ->]; lia|]. intros H. apply IH in H. lia. Qed.
Lemma find_first_no s : forall k, find_first (Ascii.eqb colon) s k = None -> ~ In colon s.
Proof.
  induction s as [|c s IH]; intros k H; [intros []|]. cbn [find_first] in H. destruct (Ascii.eqb_spec colon c) as [E|E]; [discriminate|]. intros [J|J]; [congruence|]. exact (IH _ H J).
Qed.
Lemma nm_op_index {A} : forall fuel name (k : opt V -> opt V * res A), keeps_nm k -> keeps_nm (op_index fuel name k).
Proof.
  induction fuel as [|fuel IH]; intros name k K f o H; cbn [op_index]; [assumption|]. destruct (negb _); [assumption|].
  destruct name as [|c name]; [now apply K|]. destruct (find_first (Ascii.eqb colon) (c :: name) 0) eqn:E.
  - apply IH; [|assumption]. now apply IH.
  - apply nm_on_child; try assumption; [discriminate|]. exact (find_first_no _ _ E).
Qed.
Lemma nm_index {A} name (k : opt V -> opt V * res A) : keeps_nm k -> keeps_nm (index name k).
Proof. apply nm_op_index. Qed.

Lemma nm_snc v s : keeps_nm (set_no_check v s).
Proof. intros f c H. unfold set_no_check. destruct (kids c); [|exact H]. cbn [fst]. now apply nm_set_inf. Qed.
Lemma nm_assign v s : keeps_nm (assign veqb v s).
Proof.
  intros f c H. unfold assign, set_checked. destruct (isSet c); try exact H.
  destruct (_ && _); [destruct (negb _); [destruct (_ || _)|]|]; try (now apply nm_snc); exact H.
Qed.
Lemma nm_force v s : keeps_nm (force veqb v s).
Proof. intros f c H. apply nm_assign. now apply nm_set_inf. Qed.
Lemma nm_repeat v b s : keeps_nm (assignRepeat veqb v b s).
Proof.
  intros f c H. unfold assignRepeat. pose proof (nm_force v s f c H) as X. destruct (force veqb v s c) as [o' [u| |]]; cbn [fst] in *; try assumption.
  destruct b; [now apply nm_set_inf|assumption].
Qed.
Lemma nm_as conv : keeps_nm (as_ conv).
Proof. intros f c H. unfold as_. destruct (i_sect _); [exact H|]. destruct (i_val _); [|exact H]. destruct (conv _); [|exact H]. now apply nm_set_inf. Qed.
Lemma nm_wd conv d : keeps_nm (withDefault veqb conv d).
Proof.
  intros f c H. unfold withDefault. destruct (i_sect _).
  - pose proof (nm_assign d DEFAULT_SOURCE f c H) as X. destruct (assign veqb d DEFAULT_SOURCE c) as [o' [u| |]]; cbn [fst] in *; try assumption. now apply nm_set_inf.
  - pose proof (nm_as conv f c H) as X. destruct (as_ conv c) as [o' [x| |]]; cbn [fst] in *; try assumption. destruct (i_src _); [|assumption]. destruct (_ && _); assumption.
Qed.
Lemma nm_ov conv d : keeps_nm (overrideDefault veqb conv d).
Proof.
  intros f c H. unfold overrideDefault. destruct (i_sect _); [|now apply nm_as].
  pose proof (nm_assign d (chars "user_default") f c H) as X. destruct (assign veqb d (chars "user_default") c) as [o' [u| |]]; cbn [fst] in *; try assumption. now apply nm_set_inf.
Qed.
Lemma nm_cond : forall o f, nm f o -> nm f (set_cond o).
Proof.
  induction o as [i g cs IH] using opt_ind'. intros f H. inversion H as [? ? ? X]; subst. cbn [set_cond]. constructor. intros n c J.
  assert (exists d, In (n, d) cs /\ c = set_cond d) as (d & J1 & ->).
  { clear - J. induction cs as [|[a b] r IH]; [destruct J|]. destruct J as [J|J]; [injection J as -> <-; exists b; split; [now left|reflexivity]|]. destruct (IH J) as (d & A & B). exists d. split; [now right|assumption]. }
  destruct (X n d J1) as (A & B & C). split; [assumption|]. split; [assumption|]. now apply (IH n d J1).
Qed.
Lemma nm_step op o : nm [] o -> nm [] (ostep veqb op o).
Proof.
  intros H. destruct op; cbn [ostep]; apply nm_index; try assumption.
  - apply nm_assign.
  - apply nm_force.
  - apply nm_repeat.
  - apply nm_as.
  - apply nm_wd.
  - apply nm_ov.
  - intros f c X. cbn [fst]. now apply nm_cond.
Qed.
Lemma nm_run ops : forall o, nm [] o -> nm [] (orun veqb ops o).
Proof. induction ops as [|op ops IH]; intros o H; [assumption|]. apply IH. now apply nm_step. Qed.

Lemma child_full_path p n : good_path p -> child_full (path_name p) n = path_name (p ++ [n]).
Proof.
  intros G. destruct p as [|a p]; [reflexivity|]. unfold child_full. destruct (path_name (a :: p)) eqn:E; [exfalso; now apply (path_name_nonempty (a :: p)) in E|].
  rewrite <- E. symmetry. apply path_name_snoc. discriminate.
Qed.
Lemma nm_named_at : forall q p (o c : opt V), good_path p -> nm (path_name p) o -> node_at q o = Some c -> full c = path_name (p ++ q).
Proof.
  induction q as [|n q IH]; intros p o c G H E.
  - injection E as ->. rewrite app_nil_r. now apply nm_full.
  - cbn [node_at] in E. destruct (find_child n (kids o)) as [d|] eqn:F; [|discriminate]. pose proof (nm_full _ _ H) as HF. inversion H as [i f cs X E1 E2]; subst.
    cbn [kids] in F. destruct (X n d (find_In n d cs F)) as (A & B & C). rewrite child_full_path in C by assumption.
    change (n :: q) with ([n] ++ q). rewrite app_assoc. apply (IH _ d c); try assumption. apply Forall_app. split; [assumption|]. constructor; [now split|constructor].
Qed.
Lemma nm_named o : nm [] o -> named o.
Proof. intros H q c E. apply (nm_named_at q [] o c); [constructor|assumption|assumption]. Qed.
End WithV.

Lemma nm_id : keeps_nm (fun c : tree => (c, Ok tt)).
Proof. now intros f c H. Qed.
Lemma nm_in_section {A} sec : forall (k : tree -> tree * res A), keeps_nm k -> keeps_nm (in_section sec k).
Proof. induction sec as [|n r IH]; intros k K; cbn [in_section]; [assumption|]. apply nm_index. now apply IH. Qed.
Lemma nm_read f : forall fuel sec ls o, nm [] o -> nm [] (fst (read_lines fuel f sec ls o)).
Proof.
  induction fuel as [|fuel IH]; intros sec ls o H; cbn [read_lines]; [assumption|]. destruct ls as [|l rest]; [assumption|].
  destruct (getNextLine l) as [|c b]; [now apply IH|].
  destruct (Ascii.eqb c "[").
  - destruct (find_last _ _ 0 None); [|assumption]. destruct (trim _ _) as [|x t]; [assumption|].
    set (sec' := header_names _ _). clearbody sec'. pose proof (nm_in_section sec' _ nm_id [] o H) as X.
    destruct (in_section sec' _ o) as [o' [u| |]]; cbn [fst] in *; [now apply IH|assumption|assumption].
  - destruct (parse (c :: b)) as [[key v]| |]; try assumption. destruct (continue_value _ v rest) as [[v' rest']| |]; try assumption.
    pose proof (nm_in_section sec _ (nm_index key _ (nm_assign veqb (VS v') f)) [] o H) as X.
    destruct (in_section sec _ o) as [o' [u| |]]; cbn [fst] in *; [now apply IH|assumption|assumption].
Qed.
Lemma nm_args : forall fuel args o, nm [] o -> nm [] (fst (parse_args fuel args o)).
Proof.
  induction fuel as [|fuel IH]; intros args o H; cbn [parse_args]; [assumption|]. destruct args as [|[|c t] rest]; [assumption|now apply IH|].
  destruct (if Ascii.eqb c dash then t else c :: t) as [|x b]; [assumption|]. destruct (join_args (x :: b) rest) as [buf r].
  destruct (find_first _ buf 0).
  - destruct (find_last _ buf 0 None); [|assumption]. destruct (negb _); [assumption|]. destruct (key_sections _ _) as [secs key].
    pose proof (nm_in_section secs _ nm_id [] o H) as X. destruct (in_section secs _ o) as [o1 [u| |]]; cbn [fst] in X; try assumption.
    destruct key as [|k0 key]; [assumption|]. destruct (trim (skipn _ buf) ws_trim) as [|v0 v]; [assumption|].
    pose proof (nm_in_section secs _ (nm_index (k0 :: key) _ (nm_assign veqb (VS (v0 :: v)) CMD)) [] o1 X) as Y.
    destruct (in_section secs _ o1) as [o' [u'| |]]; cbn [fst] in *; [now apply IH|assumption|assumption].
  - pose proof (nm_index buf _ (nm_assign veqb (VB true) CMD) [] o H) as X. destruct (index buf _ o) as [o' [u| |]]; cbn [fst] in *; [now apply IH|assumption|assumption].
Qed.

