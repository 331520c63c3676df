(** Properties C13, C14, C15, C39: the Options tree. Every statement is about the tree reached by an arbitrary history [ops] of
    calls on an initially empty root (OptionsModel.oop), for an arbitrary type V of values whose equality test decides equality. *)
From Coq Require Import Ascii String List Arith Bool.
From Verif Require Import Base StringsModel StringsSpec OptionsModel OptionsSpec OptionsProofs OptionsProofs2.
Import ListNotations.

Definition decides {V} (veqb : V -> V -> bool) : Prop := forall a b, veqb a b = true <-> a = b.
Section P.
Context {V : Type} (veqb : V -> V -> bool) (D : decides veqb) (ops : list (oop V)).
Let o := orun veqb ops root0.

(** C13: options[a:b:c] is options[a][b][c]. *)
Theorem C13_compound_name : forall {A} p q (k : opt V -> opt V * res A) (t : opt V), good_path p -> good_path q -> p <> [] -> q <> [] ->
  index (path_name (p ++ q)) k t = index (path_name p) (index (path_name q) k) t.
Proof. exact (@index_compound V). Qed.
(** C13: an assignment either succeeds, recording the value at its path and changing nothing recorded elsewhere, or throws and
    changes nothing recorded anywhere. *)
Theorem C13_assign : forall p v s o' r, good_path p -> p <> [] -> index (path_name p) (assign veqb v s) o = (o', r) ->
  (r = Ok tt /\ info_at p o' = written v s (info_at p o) /\ forall q, q <> p -> info_at q o' = info_at q o) \/
  (r = Throw /\ forall q, info_at q o' = info_at q o).
Proof.
  intros p v s o' r G N H. destruct (assign_spec veqb D p o G N (wf_reachable veqb D ops) v s o' r H) as [(? & ? & ? & ? & ? & ?)|(? & ? & ?)]; auto.
Qed.
(** C13: reading after a successful assignment, at the same path and at any other. *)
Theorem C13_read_after_write : forall p q v s conv o', good_path p -> p <> [] -> good_path q -> q <> [] ->
  index (path_name p) (assign veqb v s) o = (o', Ok tt) ->
  (q = p -> snd (index (path_name q) (as_ conv) o') = match conv v with Some x => Ok x | None => Throw end) /\
  (q <> p -> snd (index (path_name q) (as_ conv) o') = snd (index (path_name q) (as_ conv) o)).
Proof.
  intros p q v s conv o' Gp Np Gq Nq H. rewrite (read_after_assign veqb D p q v s conv o o' (wf_reachable veqb D ops) Gp Np Gq Nq H).
  destruct (path_dec q p); split; auto; contradiction.
Qed.
(** C13: what reading returns, and that reading changes nothing but the "used" mark of what it read. *)
Theorem C13_read : forall p conv o' r, good_path p -> p <> [] -> index (path_name p) (as_ conv) o = (o', r) ->
  r = read_as conv (info_at p o) /\
  info_at p o' = (match r with Ok _ => mark_used (info_at p o) | _ => info_at p o end) /\
  (forall q, q <> p -> info_at q o' = info_at q o).
Proof. intros p conv o' r G N. exact (read_spec p o G N (wf_reachable veqb D ops) conv o' r). Qed.

(** C14: when an assignment is refused. *)
Theorem C14_assign_refused : forall p v s o' r, good_path p -> p <> [] -> index (path_name p) (assign veqb v s) o = (o', r) ->
  (r = Throw <-> (~ reachable_path p o \/ has_children p o \/ conflict v s (info_at p o))).
Proof.
  intros p v s o' r G N H. destruct (assign_spec veqb D p o G N (wf_reachable veqb D ops) v s o' r H) as [(-> & H1 & H2 & H3 & _)|(-> & H1 & _)].
  - split; [discriminate|tauto].
  - tauto.
Qed.
(** C14: a different source always overwrites a value. *)
Theorem C14_other_source_wins : forall p v s w t o' r, good_path p -> p <> [] -> entry_at p o = Some (Some w, Some t) -> s <> t ->
  index (path_name p) (assign veqb v s) o = (o', r) -> r = Ok tt /\ entry_at p o' = Some (Some v, Some s).
Proof.
  intros p v s w t o' r G N HE NS H. pose proof (wf_reachable veqb D ops) as W.
  assert (ES : i_sect (info_at p o) = false) by (unfold entry_at, entry in HE; destruct (i_sect (info_at p o)); congruence).
  assert (ET : i_src (info_at p o) = Some t) by (unfold entry_at, entry in HE; rewrite ES in HE; congruence).
  destruct (assign_spec veqb D p o G N W v s o' r H) as [(-> & _ & _ & _ & E & _)|(-> & [X|[X|(_ & _ & X & _)]] & _)].
  - unfold entry_at. rewrite E. auto.
  - exfalso. apply X. now apply value_reachable.
  - exfalso. revert X. now apply value_no_children.
  - congruence.
Qed.
(** C14: force overwrites whatever value is there; it is refused only when a value is in the way or the target is a section
    with contents. *)
Theorem C14_force : forall p v s o' r, good_path p -> p <> [] -> index (path_name p) (force veqb v s) o = (o', r) ->
  (r = Ok tt /\ info_at p o' = written v s (info_at p o) /\ (forall q, q <> p -> info_at q o' = info_at q o)) \/
  (r = Throw /\ (~ reachable_path p o \/ has_children p o) /\ forall q, info_at q o' = info_at q o).
Proof.
  intros p v s o' r G N H. destruct (force_spec veqb D p o G N (wf_reachable veqb D ops) v s o' r H) as [(? & ? & ? & ? & ?)|(? & ? & ?)]; auto.
Qed.
Theorem C14_force_value : forall p v s e, good_path p -> p <> [] -> entry_at p o = Some e -> snd (index (path_name p) (force veqb v s) o) = Ok tt.
Proof.
  intros p v s e G N HE. pose proof (wf_reachable veqb D ops) as W.
  assert (ES : i_sect (info_at p o) = false) by (unfold entry_at, entry in HE; destruct (i_sect (info_at p o)); congruence).
  destruct (index (path_name p) (force veqb v s) o) as [o' r] eqn:H.
  destruct (force_spec veqb D p o G N W v s o' r H) as [(-> & _)|(-> & [X|X] & _)]; [reflexivity|exfalso; apply X; now apply value_reachable|exfalso; revert X; now apply value_no_children].
Qed.
(** C14: withDefault on a value: the value and its source stay; the (converted) value is returned, except that a default that
    differs from a previous default throws. On an unset option it records and returns the default. *)
Theorem C14_withDefault : forall p conv def o' r, good_path p -> p <> [] -> index (path_name p) (withDefault veqb conv def) o = (o', r) ->
  (forall q, q <> p -> info_at q o' = info_at q o) /\
  match entry_at p o with
  | Some (Some v, Some s) =>
      entry_at p o' = entry_at p o /\
      match conv v with
      | None => r = Throw
      | Some x => (r = Ok x /\ (s = DEFAULT_SOURCE -> x = def) \/ r = Throw /\ s = DEFAULT_SOURCE /\ x <> def) /\ info_at p o' = mark_used (info_at p o)
      end
  | Some _ => False
  | None =>
      (r = Ok def /\ reachable_path p o /\ ~ has_children p o /\
         info_at p o' = mark_used (written def DEFAULT_SOURCE (info_at p o))) \/
      (r = Throw /\ (~ reachable_path p o \/ has_children p o) /\ info_at p o' = info_at p o)
  end.
Proof. intros p conv def o' r G N. exact (withDefault_spec veqb D p o G N (wf_reachable veqb D ops) conv def o' r). Qed.
Theorem C14_overrideDefault : forall p conv def o' r, good_path p -> p <> [] -> index (path_name p) (overrideDefault veqb conv def) o = (o', r) ->
  (forall q, q <> p -> info_at q o' = info_at q o) /\
  match entry_at p o with
  | Some (Some v, _) =>
      match conv v with
      | None => r = Throw /\ info_at p o' = info_at p o
      | Some x => r = Ok x /\ info_at p o' = mark_used (info_at p o)
      end
  | Some _ => False
  | None =>
      (r = Ok def /\ reachable_path p o /\ ~ has_children p o /\ info_at p o' = written def (chars "user_default") (info_at p o)) \/
      (r = Throw /\ (~ reachable_path p o \/ has_children p o) /\ info_at p o' = info_at p o)
  end.
Proof. intros p conv def o' r G N. exact (override_spec veqb D p o G N (wf_reachable veqb D ops) conv def o' r). Qed.
(** C14: isSet is true exactly for a value whose source is not "default". *)
Theorem C14_isSet : forall p o' r, good_path p -> p <> [] -> index (path_name p) (fun c => (c, isSet c)) o = (o', r) ->
  (forall q, info_at q o' = info_at q o) /\
  ((reachable_path p o /\ exists b, r = Ok b /\ (b = true <-> exists v s, entry_at p o = Some (Some v, Some s) /\ s <> DEFAULT_SOURCE)) \/
   (r = Throw /\ ~ reachable_path p o)).
Proof. intros p o' r G N. exact (isSet_spec p o G N (wf_reachable veqb D ops) o' r). Qed.
(** C14: assignRepeat overwrites; with save_repeat the option may from then on be overwritten by the same source. *)
Theorem C14_assignRepeat : forall p v b s o' r, good_path p -> p <> [] -> index (path_name p) (assignRepeat veqb v b s) o = (o', r) ->
  (r = Ok tt /\ reachable_path p o /\ ~ has_children p o /\
     info_at p o' = MkInfo (Some v) (Some s) (b || i_tdim (info_at p o)) (i_cond (info_at p o)) false false /\
     (forall q, q <> p -> info_at q o' = info_at q o)) \/
  (r = Throw /\ (~ reachable_path p o \/ has_children p o) /\ forall q, info_at q o' = info_at q o).
Proof. intros p v b s o' r G N. exact (repeat_spec veqb D p o G N (wf_reachable veqb D ops) v b s o' r). Qed.

(** C15: the report contains a value at a path exactly when the tree has an unused leaf there, with the same record. *)
Theorem C15_report : forall excl q, i_sect (inf o) = true ->
  (unused_leaf excl (info_at q o) -> info_at q (getUnused excl o) = info_at q o) /\
  (~ unused_leaf excl (info_at q o) -> entry_at q (getUnused excl o) = None).
Proof.
  intros excl q HS. destruct (unused_info excl q o (wf_reachable veqb D ops) HS) as [H1 H2]. split; [exact H1|].
  intros H. unfold entry_at, entry. now rewrite (H2 H).
Qed.
(** C15: the report has no empty sections. *)
Theorem C15_no_empty_sections : forall excl q c, i_sect (inf o) = true -> q <> [] -> node_at q (getUnused excl o) = Some c ->
  exists s, unused_leaf excl (info_at (q ++ s) o).
Proof. intros excl q c HS. exact (unused_no_empty_sections excl q o c (wf_reachable veqb D ops) HS). Qed.
Theorem C15_check : i_sect (inf o) = true ->
  (checkForUnusedOptions o = Throw <-> exists q, unused_leaf [chars "Output"; chars "user_default"] (info_at q o)) /\
  (checkForUnusedOptions o = Ok tt \/ checkForUnusedOptions o = Throw).
Proof. exact (check_unused_spec o (wf_reachable veqb D ops)). Qed.

(** C39: getFlattenedKeys lists the full name of every value, each once, and nothing else. *)
Theorem C39_flattened_keys : i_sect (inf o) = true ->
  NoDup (getFlattenedKeys o) /\ forall k, In k (getFlattenedKeys o) <-> exists p, good_path p /\ entry_at p o <> None /\ k = path_name p.
Proof. exact (flattened_spec o (wf_reachable veqb D ops) (named_reachable veqb ops)). Qed.
End P.

(** Non-vacuity: a concrete history (values are naturals) reaching a tree with two levels, a conflict, a default and an unused leaf. *)
Definition ex_ops : list (oop nat) :=
  [OAssign (chars "a:b") 1 (chars "file"); OWithDefault (chars "a:c") Some 2; OGet (chars "a:b") Some;
   OAssign (chars "mesh:nx") 16 (chars "file"); OAssign (chars "a:b") 3 (chars "file"); OAssign (chars "a:b") 3 (chars "cmd")].
Definition ex_tree := orun Nat.eqb ex_ops root0.
Example C13_case : decides Nat.eqb /\ good_path [chars "a"; chars "b"] /\
  entry_at [chars "a"; chars "b"] ex_tree = Some (Some 3, Some (chars "cmd")) /\
  snd (index (chars "a:b") (assign Nat.eqb 4 (chars "cmd")) ex_tree) = Throw /\
  snd (index (chars "a:b") (as_ Some) ex_tree) = Ok 3 /\
  snd (index (chars "a:c") (withDefault Nat.eqb Some 5) ex_tree) = Throw.
Proof.
  split; [exact Nat.eqb_eq|]. split; [repeat constructor; try discriminate; cbn; intros H; decompose [or] H; try discriminate; assumption|].
  repeat split; vm_compute; reflexivity.
Qed.
Example C15_case : i_sect (inf ex_tree) = true /\ unused_leaf default_excl (info_at [chars "mesh"; chars "nx"] ex_tree) /\
  checkForUnusedOptions ex_tree = Throw /\ ~ unused_leaf default_excl (info_at [chars "a"; chars "c"] ex_tree).
Proof.
  split; [reflexivity|]. split; [|split; [reflexivity|]].
  - unfold unused_leaf. vm_compute. repeat split. intros s E. injection E as <-. intros H. decompose [or] H; try discriminate; assumption.
  - intros (_ & H & _). vm_compute in H. discriminate.
Qed.
Example C39_case : getFlattenedKeys ex_tree = [chars "a:b"; chars "a:c"; chars "mesh:nx"].
Proof. reflexivity. Qed.
Print Assumptions C13_compound_name. Print Assumptions C13_assign. Print Assumptions C13_read_after_write. Print Assumptions C13_read.
Print Assumptions C14_assign_refused. Print Assumptions C14_other_source_wins. Print Assumptions C14_force. Print Assumptions C14_force_value.
Print Assumptions C14_withDefault. Print Assumptions C14_overrideDefault. Print Assumptions C14_isSet. Print Assumptions C14_assignRepeat.
Print Assumptions C15_report. Print Assumptions C15_no_empty_sections. Print Assumptions C15_check. Print Assumptions C39_flattened_keys.
