From Coq Require Import Ascii String List Arith Bool ZArith Lia.
From Verif Require Import Base StringsModel StringsSpec StringsProofs OptionsModel OptionsSpec OptionsProofs OptionsProofs2 IniModel IniSpec.
Import ListNotations.

(** * Strings *)
Lemma trimLeft_app cs l s : Forall (fun x => In x cs) l -> begins_outside cs s -> trimLeft (l ++ s) cs = s.
Proof.
  intros Hl Hs. destruct (trimLeft_spec (l ++ s) cs) as (pre & E & F & B). set (t := trimLeft (l ++ s) cs) in *. clearbody t.
  revert pre E F. induction Hl as [|x l Hx Hl IH]; intros pre E F.
  - cbn in E. destruct pre as [|y pre]; [now symmetry|]. subst s. exfalso. inversion F; subst. cbn in Hs. contradiction.
  - destruct pre as [|y pre].
    + cbn in E. subst t. exfalso. cbn in B. contradiction.
    + cbn in E. injection E as <- E. inversion F; subst. now apply IH with pre.
Qed.
Lemma app_inj_end {A} (P : A -> Prop) (s t r q : list A) : s ++ r = t ++ q -> Forall P r -> Forall P q ->
  (s = [] \/ exists p c, s = p ++ [c] /\ ~ P c) -> (t = [] \/ exists p c, t = p ++ [c] /\ ~ P c) -> s = t.
Proof.
  intros E Hr Hq Hs Ht. revert r q E Hr Hq. intros r. induction r as [|x r IH] using rev_ind; intros q E Hr Hq.
  - rewrite app_nil_r in E.
    destruct q as [|y q'] eqn:EQ; [rewrite app_nil_r in E; assumption|]. destruct (exists_last (l := y :: q')) as (q2 & z & Ez); [discriminate|].
    rewrite Ez in *. exfalso. destruct Hs as [->|(p & c & -> & Hc)].
    + destruct t; [destruct q2|]; discriminate.
    + rewrite app_assoc in E. apply app_inj_tail in E. destruct E as [_ ->]. apply Hc. apply Forall_app in Hq. destruct Hq as [_ Hq]. now inversion Hq.
  - destruct q as [|y q'] eqn:EQ.
    + rewrite app_nil_r in E. exfalso. destruct Ht as [->|(p & c & -> & Hc)].
      * destruct s; [destruct r|]; discriminate.
      * rewrite app_assoc in E. apply app_inj_tail in E. destruct E as [_ ->]. apply Hc. apply Forall_app in Hr. destruct Hr as [_ Hr]. now inversion Hr.
    + destruct (exists_last (l := y :: q')) as (q2 & z & Ez); [discriminate|]. rewrite Ez in *. rewrite !app_assoc in E. apply app_inj_tail in E. destruct E as [E _].
      apply Forall_app in Hr, Hq. apply IH with q2; tauto.
Qed.
Lemma trimRight_app cs r s : Forall (fun x => In x cs) r -> ends_outside cs s -> trimRight (s ++ r) cs = s.
Proof.
  intros Hr Hs. destruct (trimRight_spec (s ++ r) cs) as (post & E & F & B). symmetry. eapply app_inj_end; [exact E|exact Hr|exact F|exact Hs|exact B].
Qed.
Lemma trim_pad cs s t : bare cs s -> pad cs s t -> trim t cs = s.
Proof.
  intros [B1 B2] (l & r & -> & Hl & Hr). unfold trim. rewrite app_assoc.
  destruct s as [|x s].
  - rewrite app_nil_r. destruct (trimRight_spec (l ++ r) cs) as (post & E & F & B).
    assert (ET : trimRight (l ++ r) cs = []).
    { destruct B as [B|(p & c & B & Hc)]; [assumption|]. exfalso. apply Hc. assert (HF : Forall (fun x => In x cs) (l ++ r)) by (apply Forall_app; auto).
      rewrite E, B in HF. rewrite Forall_forall in HF. apply HF. rewrite !in_app_iff. left. right. now left. }
    rewrite ET. reflexivity.
  - rewrite trimRight_app; [apply trimLeft_app; assumption|assumption|].
    destruct B2 as [B2|(p & c & B2 & Hc)]; [discriminate|]. right. exists (l ++ p), c. rewrite B2, app_assoc. auto.
Qed.
Lemma bare_trim cs s : bare cs s -> trim s cs = s.
Proof. intros H. apply trim_pad; [assumption|]. exists [], []. rewrite app_nil_r. repeat split; constructor. Qed.

Lemma find_first_none' ch n : ~ In ch n -> forall k, find_first (Ascii.eqb ch) n k = None.
Proof.
  induction n as [|c n IH]; intros H k; [reflexivity|]. cbn [find_first]. destruct (Ascii.eqb ch c) eqn:E.
  - apply Ascii.eqb_eq in E. exfalso. apply H. now left.
  - apply IH. intros X; apply H; now right.
Qed.
Lemma find_first_app' ch n s : ~ In ch n -> forall k, find_first (Ascii.eqb ch) (n ++ ch :: s) k = Some (k + List.length n).
Proof.
  induction n as [|c n IH]; intros H k; cbn [app find_first List.length].
  - rewrite Ascii.eqb_refl. f_equal. lia.
  - destruct (Ascii.eqb ch c) eqn:E; [apply Ascii.eqb_eq in E; exfalso; apply H; now left|].
    rewrite IH by (intros X; apply H; now right). f_equal. lia.
Qed.
Lemma firstn_mid {A} (n s : list A) : firstn (List.length n) (n ++ s) = n.
Proof. rewrite firstn_app, firstn_all, Nat.sub_diag. apply app_nil_r. Qed.
Lemma skipn_mid {A} (n : list A) c s : skipn (List.length n + 1) (n ++ c :: s) = s.
Proof. rewrite skipn_app, skipn_all2 by lia. replace (List.length n + 1 - List.length n) with 1 by lia. reflexivity. Qed.

Lemma trimComments_app s c : Forall (fun x => ~ In x comment_chars) s -> (c = [] \/ exists x c', c = x :: c' /\ In x comment_chars) ->
  trimComments (s ++ c) comment_chars = s.
Proof.
  intros Hs Hc. unfold trimComments, find_first_of.
  assert (H : forall k, find_first (fun x => inset x comment_chars) (s ++ c) k = match c with [] => None | _ => Some (k + List.length s) end).
  { induction Hs as [|x s Hx Hs IH]; intros k.
    - cbn [app]. destruct Hc as [->|(x & c' & -> & Hx)]; [reflexivity|]. cbn [find_first]. apply inset_spec in Hx. rewrite Hx. f_equal. cbn; lia.
    - cbn [app find_first]. apply inset_false in Hx. rewrite Hx, IH. destruct c; [reflexivity|]. f_equal. cbn [List.length]. lia. }
  rewrite H. destruct c; [now rewrite app_nil_r|]. apply firstn_mid.
Qed.
Lemma ws_no_comment x : In x ws_trim -> ~ In x comment_chars.
Proof. cbn. intros [<-|[<-|[<-|[]]]] [H|[H|[]]]; discriminate. Qed.
Lemma lay_next b l : lay b l -> getNextLine l = b.
Proof.
  intros (p & r & c & -> & Hp & Hr & Hc & Hb & B1 & B2). unfold getNextLine.
  replace (p ++ b ++ r ++ c) with ((p ++ b ++ r) ++ c) by (rewrite <- !app_assoc; reflexivity).
  rewrite trimComments_app; [| |assumption].
  - apply trim_pad; [split; assumption|]. exists p, r. auto.
  - rewrite !Forall_app. repeat split; try assumption; eapply Forall_impl; try eassumption; apply ws_no_comment.
Qed.
