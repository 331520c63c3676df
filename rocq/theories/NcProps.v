(** C90, C91, C92: OptionsNetCDF. *)
From Coq Require Import List Arith ZArith Reals String Bool Lia.
From Verif Require Import NcModel NcSpec NcProofs NcProofs2 NcProofs3 NcProofs4 NcProofs5 NcProofs6 NcProofs7 NcProofs8.
Import ListNotations.
Local Open Scope nat_scope.
Open Scope string_scope.

(* ------------------------------------------------------------------ *)
(** * C90: what is in the file *)

(** After any history of objects, writes and restarts, whether or not writes
    threw: the file holds the records of every variable in order, one per
    write, and the last value of every other variable, of the entries written
    since the file was last replaced; a write that threw has written the
    entries before some place of its tree and none of the others. *)
Theorem C90_history : forall l w bs, run start l = (w, bs) -> Forall op_ok l ->
  exists dn, Forall2 done_by (log l bs) dn /\
    match w_disk w with
    | Some f => holds f (List.concat dn)
    | None => log l bs = []
    end.
Proof.
  intros l w bs E H. destruct (run_start l w bs E H) as (dn & D & I). exists dn. split; [exact D|].
  destruct (w_disk w); [apply Inv_holds, I|exact I].
Qed.

Theorem C90_all_written : forall l w bs f, run start l = (w, bs) -> Forall op_ok l ->
  Forall (fun b => b = true) bs -> w_disk w = Some f -> holds f (written l bs).
Proof.
  intros l w bs f E H B Df. destruct (C90_history l w bs E H) as (dn & D & I). rewrite Df in I.
  rewrite <- (done_all l bs dn B D). exact I.
Qed.

(** No write throws when every variable keeps its type, shape and time
    dimension and no name is both a value and a section. *)
Theorem C90_no_throw : forall S l w bs, run start l = (w, bs) -> Forall op_ok l -> planned S l ->
  Forall (fun b => b = true) bs.
Proof. exact planned_ok. Qed.

(** The records of a boolean are not its values. *)
Definition bool_tree : opt := OSec [("flag", OVal (VBool true) [("time_dimension", AStr "t")])].

Theorem C90_bool_record_refuted :
  ~ (forall l w bs f, run start l = (w, bs) -> Forall op_ok l -> Forall (fun b => b = true) bs ->
       w_disk w = Some f -> forall k v i x, get k (f_vars f) = Some v ->
       nth_error (records k (written l bs)) i = Some x -> shape x = [] ->
       v_cells v [i] = Some (element x [])).
Proof.
  intros H. pose (l := [New replace; Write bool_tree "t"]).
  destruct (run start l) as [w bs] eqn:E. 
  assert (Bs : bs = [true; true]) by (vm_compute in E; injection E as _ <-; reflexivity). subst bs.
  assert (OK : Forall op_ok l).
  { repeat constructor; cbn; try tauto; intros [h|[h|[h|[]]]] || intros [h|[]]; discriminate h. }
  destruct (w_disk w) as [f|] eqn:Df; [|vm_compute in E; injection E as <-; discriminate Df].
  specialize (H l w [true; true] f E OK ltac:(repeat constructor) Df ([], "flag")).
  assert (Fv : exists v, get ([], "flag") (f_vars f) = Some v /\ v_cells v [0] = Some CJunk).
  { vm_compute in E. injection E as <-. cbn [w_disk] in Df. injection Df as <-. eexists. split; reflexivity. }
  destruct Fv as (v & G & Cv). specialize (H v 0 (VBool true) G eq_refl eq_refl). rewrite Cv in H. discriminate H.
Qed.

(** An option that carries the attribute current_time_index, as options read
    from a file with a time dimension do, overwrites one record forever. *)
Definition index_tree (z : Z) : opt :=
  OSec [("a", OVal (VInt z) [("time_dimension", AStr "t"); ("current_time_index", AInt 0)])].

Theorem C90_index_attribute_refuted :
  ~ (forall l w bs f, run start l = (w, bs) ->
       (forall o t, In (Write o t) l -> forall e, In e (entries o [] t) ->
          val_ok (e_val e) /\ NoDup (map fst (e_atts e)) /\ ~ In (e_time e) ["x"; "y"; "z"]) ->
       Forall (fun b => b = true) bs -> w_disk w = Some f -> holds f (written l bs)).
Proof.
  intros H. pose (l := [New replace; Write (index_tree 1) "t"; Write (index_tree 2) "t"]).
  destruct (run start l) as [w bs] eqn:E.
  assert (Bs : bs = [true; true; true]) by (vm_compute in E; injection E as _ <-; reflexivity). subst bs.
  assert (OK : forall o t, In (Write o t) l -> forall e, In e (entries o [] t) ->
          val_ok (e_val e) /\ NoDup (map fst (e_atts e)) /\ ~ In (e_time e) ["x"; "y"; "z"]).
  { intros o t Hin e He. destruct Hin as [Hin|[Hin|[Hin|[]]]]; [discriminate Hin| |]; injection Hin as <- <-;
      (destruct He as [<-|[]]; cbn [e_val e_atts e_time]; split; [exact Logic.I|]; split;
       [repeat constructor; cbn; intros h; repeat (destruct h as [h|h]; try discriminate h); exact h
       |intros h; repeat (destruct h as [h|h]; try discriminate h); exact h]). }
  destruct (w_disk w) as [f|] eqn:Df; [|vm_compute in E; injection E as <-; discriminate Df].
  specialize (H l w _ f E OK ltac:(repeat constructor) Df ([], "a")). destruct H as (_ & H & _).
  destruct H as (v & G & C); [discriminate|].
  destruct (C 1 []) as [C1 _]. specialize (C1 (VInt 2) eq_refl (Forall2_nil _)).
  vm_compute in E. injection E as <-. cbn [w_disk] in Df. injection Df as <-. injection G as <-.
  vm_compute in C1. discriminate C1.
Qed.

(* ------------------------------------------------------------------ *)
(** * C91: verifyTimesteps *)

(** No complaint in a history in which every write of a dimension writes all
    the variables of the dimension, whatever order the library has for
    dimensions. *)
Theorem C91_silent : forall same S l w bs f, run start l = (w, bs) -> Forall op_ok l -> planned S l ->
  complete (map fst (log l bs)) -> w_disk w = Some f ->
  verifyTimesteps same f = Some [].
Proof.
  intros same S l w bs f E H P C Df. pose proof (planned_ok S l w bs E H P) as B.
  destruct (run_start l w bs E H) as (dn & D & I). rewrite Df in I.
  apply (inv_verify same f _ (plan_time S) I).
  - exact (run_start_nodup l w bs f E Df).
  - exact (planned_time S l bs dn P D).
  - intros k k' h h' t. rewrite (complete_count S l bs dn P B D C k h), (complete_count S l bs dn P B D C k' h'), t. reflexivity.
Qed.

(** If it does not complain then a variable that is not the first of its group
    to have the dimension has at least as many records as the others. *)
Theorem C91_lagging_partial : forall same S l w bs f p n1 n2 n3, (forall x, same x x = true) ->
  run start l = (w, bs) -> Forall op_ok l -> planned S l ->
  w_disk w = Some f -> verifyTimesteps same f = Some [] ->
  records (p, n1) (written l bs) <> [] -> records (p, n2) (written l bs) <> [] ->
  records (p, n3) (written l bs) <> [] ->
  s_time S (p, n1) = s_time S (p, n2) -> s_time S (p, n3) = s_time S (p, n2) ->
  String.ltb n1 n2 = true ->
  List.length (records (p, n3) (written l bs)) <= List.length (records (p, n2) (written l bs)).
Proof.
  intros same S l w bs f p n1 n2 n3 R E H P Df V N1 N2 N3 t1 t3 L. pose proof (planned_ok S l w bs E H P) as B.
  destruct (run_start l w bs E H) as (dn & D & I). rewrite Df in I. rewrite (done_all l bs dn B D) in I.
  unfold records in *. rewrite !map_length.
  assert (N : forall k, map e_val (filter (is_record k) (written l bs)) <> [] -> recs k (written l bs) <> []).
  { intros k h e. apply h. unfold recs in e. rewrite e. reflexivity. }
  assert (T : forall k e, In e (recs k (written l bs)) -> e_time e = plan_time S k).
  { rewrite <- (done_all l bs dn B D). exact (planned_time S l bs dn P D). }
  apply (silent_records same f _ (plan_time S) p n1 n2 n3 R I (run_start_nodup l w bs f E Df) (run_start_gok l w bs f E Df) T V
           (N _ N1) (N _ N2) (N _ N3)); unfold plan_time; [rewrite t1|rewrite t3|exact L]; reflexivity.
Qed.

(** The first variable of a dimension can lag without complaint. *)
Definition two (z : Z) : opt :=
  OSec [("a", OVal (VInt z) [("time_dimension", AStr "t")]); ("b", OVal (VInt z) [("time_dimension", AStr "t")])].
Definition only_b (z : Z) : opt := OSec [("b", OVal (VInt z) [("time_dimension", AStr "t")])].
Definition same_dim (a b : key) : bool := if key_dec a b then true else false.

Theorem C91_first_refuted :
  ~ (forall l w bs f, run start l = (w, bs) -> Forall op_ok l -> Forall (fun b => b = true) bs ->
       w_disk w = Some f -> verifyTimesteps same_dim f = Some [] ->
       forall k k', records k (written l bs) <> [] -> records k' (written l bs) <> [] -> fst k = fst k' ->
       List.length (records k (written l bs)) = List.length (records k' (written l bs))).
Proof.
  intros H. pose (l := [New replace; Write (two 1) "t"; Write (only_b 2) "t"]).
  destruct (run start l) as [w bs] eqn:E.
  assert (Bs : bs = [true; true; true]) by (vm_compute in E; injection E as _ <-; reflexivity). subst bs.
  assert (OK : Forall op_ok l).
  { repeat constructor; cbn; try tauto; intros h; repeat (destruct h as [h|h]; try discriminate h); exact h. }
  destruct (w_disk w) as [f|] eqn:Df; [|vm_compute in E; injection E as <-; discriminate Df].
  assert (V : verifyTimesteps same_dim f = Some []).
  { vm_compute in E. injection E as <-. cbn [w_disk] in Df. injection Df as <-. vm_compute. reflexivity. }
  specialize (H l w _ f E OK ltac:(repeat constructor) Df V ([], "a") ([], "b")).
  assert (X : List.length (records ([], "a") (written l [true; true; true])) = 1 /\
              List.length (records ([], "b") (written l [true; true; true])) = 2) by (split; vm_compute; reflexivity).
  destruct X as [X1 X2]. rewrite X1, X2 in H.
  discriminate H; [| |reflexivity]; intros e; [rewrite e in X1; discriminate X1|rewrite e in X2; discriminate X2].
Qed.

(* ------------------------------------------------------------------ *)
(** * C92: reading back *)

(** A value without time dimension comes back as it was last written, with
    its attributes. *)
Theorem C92_plain : forall l w bs f fn, run start l = (w, bs) -> Forall op_ok l ->
  Forall (fun b => b = true) bs -> w_disk w = Some f ->
  forall k l' e, filter (is_plain k) (written l bs) = (l' ++ [e])%list ->
  exists att, read_var fn f k = Some (readback (e_val e), att) /\
    (forall m a, lookup_att m (e_atts e) = Some a -> lookup_att m att = Some (att_readback a)) /\
    In ("source", AStr fn) att.
Proof.
  intros l w bs f fn E H B Df k l' e Ep. destruct (run_start l w bs E H) as (dn & D & I). rewrite Df in I.
  pose proof (done_ok l bs dn H D) as OK. rewrite (done_all l bs dn B D) in I, OK.
  destruct (plain_read f _ k fn I OK l' e Ep) as (att & h1 & h2). exists att. split; [exact h1|]. split; [exact h2|].
  revert h1. unfold read_var. destruct (get k (f_vars f)) as [v|]; [|discriminate]. intros [= _ <-].
  unfold read_attributes. apply in_or_app. right. left. reflexivity.
Qed.

(** A series along a time dimension: at least one step for every record, fill
    values after the last one. *)
Theorem C92_series : forall l w bs f fn, run start l = (w, bs) -> Forall op_ok l ->
  Forall (fun b => b = true) bs -> w_disk w = Some f ->
  forall k x vs, records k (written l bs) = x :: vs ->
  exists n att, S (List.length vs) <= n /\ read_var fn f k = Some (series n x vs, att).
Proof.
  intros l w bs f fn E H B Df k x vs Ep. destruct (run_start l w bs E H) as (dn & D & I). rewrite Df in I.
  pose proof (done_ok l bs dn H D) as OK. rewrite (done_all l bs dn B D) in I, OK.
  destruct (series_read f _ k fn I OK x vs Ep) as (n & att & v & h1 & h2 & _). exists n, att. auto.
Qed.

(** In a complete history there are no fill values. *)
Theorem C92_complete_series : forall S l w bs f fn, run start l = (w, bs) -> Forall op_ok l ->
  planned S l -> complete (map fst (log l bs)) -> w_disk w = Some f ->
  forall k x vs, records k (written l bs) = x :: vs ->
  exists att, read_var fn f k = Some (series (List.length (x :: vs)) x vs, att).
Proof.
  intros S l w bs f fn E H P C Df k x vs Ep. pose proof (planned_ok S l w bs E H P) as B.
  destruct (run_start l w bs E H) as (dn & D & I). rewrite Df in I.
  pose proof (done_ok l bs dn H D) as OK. rewrite (done_all l bs dn B D) in I, OK.
  destruct (series_read f _ k fn I OK x vs Ep) as (n & att & v & h1 & h2 & G & (d & r & Ed & En) & _).
  exists att. rewrite h2. repeat f_equal. rewrite En.
  rewrite (full_size f (written l bs) (plan_time S) I) with (k := k) (v := v) (r := r); [|..|exact G|exact Ed].
  - unfold records in Ep. change (filter (is_record k) (written l bs)) with (recs k (written l bs)) in Ep.
    rewrite <- Ep, map_length. reflexivity.
  - rewrite <- (done_all l bs dn B D). exact (planned_time S l bs dn P D).
  - intros k1 k2 a1 a2 t. rewrite <- (done_all l bs dn B D) in a1, a2 |- *.
    rewrite (complete_count S l bs dn P B D C k1 a1), (complete_count S l bs dn P B D C k2 a2), t. reflexivity.
  - intros Z. unfold records in Ep. change (filter (is_record k) (written l bs)) with (recs k (written l bs)) in Ep.
    rewrite Z in Ep. discriminate Ep.
Qed.

(** The attributes of a series are those of its last record. *)
Theorem C92_series_attributes : forall l w bs f fn, run start l = (w, bs) -> Forall op_ok l ->
  Forall (fun b => b = true) bs -> w_disk w = Some f ->
  forall k l' e, filter (is_record k) (written l bs) = (l' ++ [e])%list ->
  exists rv att, read_var fn f k = Some (rv, att) /\
    (forall m a, lookup_att m (e_atts e) = Some a -> lookup_att m att = Some (att_readback a)).
Proof.
  intros l w bs f fn E H B Df k l' e Ep. destruct (run_start l w bs E H) as (dn & D & I). rewrite Df in I.
  pose proof (done_ok l bs dn H D) as OK. rewrite (done_all l bs dn B D) in I, OK.
  assert (X : exists x vs, records k (written l bs) = x :: vs).
  { unfold records. rewrite Ep, map_app. destruct (map e_val l'); cbn [map app]; eauto. }
  destruct X as (x & vs & X). destruct (series_read f _ k fn I OK x vs X) as (n & att & v & _ & h2 & _ & _ & h3).
  exists (series n x vs), att. split; [exact h2|]. exact (h3 l' e Ep).
Qed.

(** Series of three-dimensional fields, of integers and of booleans are not
    read, and a series of strings stops the reading. *)
Theorem C92_series_refuted :
  ~ (forall l w bs f fn, run start l = (w, bs) -> Forall op_ok l -> Forall (fun b => b = true) bs ->
       w_disk w = Some f -> forall k x vs att rv, records k (written l bs) = x :: vs ->
       read_var fn f k = Some (rv, att) -> rv <> RNone /\ rv <> RThrow).
Proof.
  intros H. pose (l := [New replace; Write (two 1) "t"]).
  destruct (run start l) as [w bs] eqn:E.
  assert (Bs : bs = [true; true]) by (vm_compute in E; injection E as _ <-; reflexivity). subst bs.
  assert (OK : Forall op_ok l).
  { repeat constructor; cbn; try tauto; intros h; repeat (destruct h as [h|h]; try discriminate h); exact h. }
  destruct (w_disk w) as [f|] eqn:Df; [|vm_compute in E; injection E as <-; discriminate Df].
  assert (X : records ([], "a") (written l [true; true]) = [VInt 1]) by (vm_compute; reflexivity).
  destruct (C92_series l w _ f "f" E OK ltac:(repeat constructor) Df _ _ _ X) as (n & att & _ & R).
  destruct (H l w _ f "f" E OK ltac:(repeat constructor) Df _ _ _ att _ X R) as [h _]. apply h. reflexivity.
Qed.

Theorem C92_lost_series : forall l w bs f fn, run start l = (w, bs) -> Forall op_ok l ->
  Forall (fun b => b = true) bs -> w_disk w = Some f ->
  forall k x vs, records k (written l bs) = x :: vs ->
  match x with
  | VField3D _ _ _ _ | VInt _ | VBool _ => exists att, read_var fn f k = Some (RNone, att)
  | VStr _ => exists att, read_var fn f k = Some (RThrow, att)
  | _ => True
  end.
Proof.
  intros l w bs f fn E H B Df k x vs Ep. destruct (C92_series l w bs f fn E H B Df k x vs Ep) as (n & att & _ & R).
  destruct x; try exact Logic.I; exists att; exact R.
Qed.

(* ------------------------------------------------------------------ *)
(** * A case *)

(** Two objects, a restart in append mode, a section, a field, a scalar over
    time and a plain value. *)
Definition case_tree (r : R) (b c : R) : opt :=
  OSec [("n", OSec [("f", OVal (VField2D 1 2 [b; c]) [("time_dimension", AStr "t"); ("units", AStr "m")]);
                    ("x", OVal (VReal r) [("time_dimension", AStr "t")])]);
        ("nout", OVal (VReal r) [("written", ABool true)])].
Definition case_ops (r : R) : list op :=
  [New replace; Write (case_tree r 0 1) "t"; New append; Write (case_tree 0 1 r) "t"].
Definition case_schema : schema :=
  {| s_nx := 1; s_ny := 2; s_nz := 1;
     s_type := fun _ => TDouble;
     s_shape := fun k => if key_dec k (["n"], "f") then [1; 2] else [];
     s_time := fun k => if key_dec k ([], "nout") then None else Some "t" |}.

Lemma case_ok : forall r, Forall op_ok (case_ops r) /\ planned case_schema (case_ops r).
Proof.
  intros r. split.
  - repeat constructor; cbn; try lia; intros h; repeat (destruct h as [h|h]; try discriminate h); exact h.
  - split.
    + intros o t [H|[H|[]]]; injection H as <- <-; repeat constructor.
    + intros o t o' t' p n [H|[H|[]]] [H'|[H'|[]]]; injection H as <- <-; injection H' as <- <-;
        intros [S|[]]; injection S as <- <-; intros e [<-|[<-|[<-|[]]]]; discriminate.
Qed.

Example C90_case : forall r w bs, run start (case_ops r) = (w, bs) ->
  bs = [true; true; true; true] /\
  exists f v, w_disk w = Some f /\ get (["n"], "x") (f_vars f) = Some v /\
    v_cells v [0] = Some (CReal r) /\ v_cells v [1] = Some (CReal 0) /\ v_cells v [2] = None.
Proof.
  intros r w bs E. destruct (case_ok r) as [OK P].
  pose proof (C90_no_throw _ _ _ _ E OK P) as B.
  assert (Bs : bs = [true; true; true; true]).
  { vm_compute in E. injection E as _ <-. reflexivity. }
  split; [exact Bs|]. subst bs. destruct (w_disk w) as [f|] eqn:Df.
  - pose proof (C90_all_written _ _ _ _ E OK B Df (["n"], "x")) as (_ & h & _).
    destruct h as (v & G & C); [discriminate|]. exists f, v. split; [reflexivity|]. split; [exact G|].
    split; [|split].
    + exact (proj1 (C 0 []) (VReal r) eq_refl (Forall2_nil _)).
    + exact (proj1 (C 1 []) (VReal 0) eq_refl (Forall2_nil _)).
    + exact (proj2 (C 2 []) eq_refl).
  - vm_compute in E. injection E as <-. discriminate Df.
Qed.

Example C91_case : forall r w bs, run start (case_ops r) = (w, bs) ->
  complete (map fst (log (case_ops r) bs)) /\ exists f, w_disk w = Some f.
Proof.
  intros r w bs E. destruct (C90_case r w bs E) as (-> & f & v & Df & _). split; [|exists f; exact Df].
  change (map fst (log (case_ops r) [true; true; true; true])) with [(case_tree r 0 1, "t"); (case_tree 0 1 r, "t")].
  split.
  - intros o t [H|[H|[]]]; injection H as <- <-; repeat constructor; cbn; intros h; repeat (destruct h as [h|h]; try discriminate h); exact h.
  - intros o o' t k H H' (e & He & Hr).
    assert (K : k = (["n"], "f") \/ k = (["n"], "x")).
    { destruct (is_record_facts _ _ Hr) as (hk & _ & ht).
      destruct H as [H|[H|[]]]; injection H as <- <-; destruct He as [<-|[<-|[<-|[]]]]; cbn [e_key] in hk; auto; discriminate ht. }
    destruct K as [-> | ->]; destruct H' as [H'|[H'|[]]]; injection H' as <- <-;
      (eexists; split; [left; reflexivity|reflexivity]) || (eexists; split; [right; left; reflexivity|reflexivity]).
Qed.

Example C92_case : forall r w bs f, run start (case_ops r) = (w, bs) -> w_disk w = Some f ->
  (exists att, read_var "file" f (["n"], "x") = Some (RArray 2 [Some (CReal r); Some (CReal 0)], att)) /\
  (exists att, read_var "file" f (["n"], "f") =
     Some (RTensor 2 1 2 [Some (CReal 0); Some (CReal 1); Some (CReal 1); Some (CReal r)], att)) /\
  (exists att, read_var "file" f ([], "nout") = Some (RDouble (Some (CReal 0)), att) /\
     lookup_att "written" att = Some (AInt 1)).
Proof.
  intros r w bs f E Df. destruct (case_ok r) as [OK P]. pose proof (C90_no_throw _ _ _ _ E OK P) as B.
  destruct (C91_case r w bs E) as [C _]. destruct (C90_case r w bs E) as (-> & _). split; [|split].
  - exact (C92_complete_series _ _ _ _ _ "file" E OK P C Df (["n"], "x") (VReal r) [VReal 0] eq_refl).
  - exact (C92_complete_series _ _ _ _ _ "file" E OK P C Df (["n"], "f") (VField2D 1 2 [0%R; 1%R]) [VField2D 1 2 [1%R; r]] eq_refl).
  - set (mk := fun x : R => {| e_key := ([], "nout"); e_val := VReal x; e_atts := [("written", ABool true)]; e_time := "t" |}).
    destruct (C92_plain _ _ _ _ "file" E OK B Df ([], "nout") [mk r] (mk 0%R) eq_refl) as (att & h1 & h2 & _).
    exists att. split; [exact h1|]. exact (h2 "written" (ABool true) eq_refl).
Qed.

Print Assumptions C90_history.
Print Assumptions C91_silent.
Print Assumptions C91_lagging_partial.
Print Assumptions C92_complete_series.
Print Assumptions C92_lost_series.
