(** The lists of y positions built by createCommunicators follow the field lines. *)
From Coq Require Import ZArith List Bool Lia FinFun.
From Verif Require Import Base MeshModel TopoModel TopoProofs TopoProofs2 TopoProofs3 RangeSpec RangeProofs.
Import ListNotations.
Open Scope Z_scope.

Definition chained (nx : Z -> option Z) (l : list Z) : Prop := forall l1 u v l2, l = l1 ++ u :: v :: l2 -> nx u = Some v.
Lemma chained_nil nx : chained nx []. Proof. intros [|? ?] u v l2 H; discriminate. Qed.
Lemma chained_cons nx u l : chained nx l -> (forall v, hd_error l = Some v -> nx u = Some v) -> chained nx (u :: l).
Proof.
  intros H1 H2 [|w l1] x y l2 E; cbn [app] in E; injection E as E1 E2; subst; [apply H2; reflexivity|apply (H1 l1 x y l2); reflexivity].
Qed.
Lemma hd_ints u v : u <= v -> hd_error (ints u v) = Some u. Proof. intros. rewrite ints_cons by lia. reflexivity. Qed.
Lemma last_ints u v : u <= v -> hd_error (rev (ints u v)) = Some v.
Proof. intros. rewrite (ints_split u (v - 1) v) by lia. rewrite rev_app_distr. replace (v - 1 + 1) with v by lia. rewrite (ints_cons v v), ints_nil by lia. reflexivity. Qed.
Lemma chained_ints nx u v : (forall q, u <= q < v -> nx q = Some (q + 1)) -> chained nx (ints u v).
Proof.
  intros H. remember (Z.to_nat (v - u + 1)) as k eqn:E. revert u E H. induction k as [|k IH]; intros u E H.
  - rewrite ints_nil by lia. apply chained_nil.
  - rewrite ints_cons by lia. apply chained_cons.
    + apply IH; [lia|]. intros; apply H; lia.
    + intros w Hw. destruct (Z_le_gt_dec (u + 1) v); [rewrite hd_ints in Hw by lia; injection Hw as <-; apply H; lia|rewrite ints_nil in Hw by lia; discriminate].
Qed.
Lemma chained_app nx l1 l2 t h : hd_error (rev l1) = Some t -> hd_error l2 = Some h -> nx t = Some h -> chained nx l1 -> chained nx l2 -> chained nx (l1 ++ l2).
Proof.
  intros Ht Hh E. revert Ht. induction l1 as [|u l1 IH]; intros Ht C1 C2; [exact C2|].
  cbn [app]. destruct l1 as [|w l1].
  - cbn in Ht. injection Ht as ->. apply chained_cons; [exact C2|]. intros v Hv. cbn [app] in Hv. congruence.
  - apply chained_cons.
    + apply IH; [|intros a b c d Q; apply (C1 (u :: a) b c d); cbn [app]; now rewrite Q|exact C2].
      cbn [rev] in Ht |- *. rewrite <- app_assoc in Ht. destruct (rev l1); cbn in *; exact Ht.
    + intros v Hv. cbn in Hv. injection Hv as <-. apply (C1 [] u w l1). reflexivity.
Qed.
Lemma nodup_ints u v : NoDup (ints u v).
Proof. unfold ints. apply FinFun.Injective_map_NoDup; [intros x y; lia|apply seq_NoDup]. Qed.
Lemma nodup_ints2 u v w z : (forall q, u <= q <= v -> w <= q <= z -> False) -> NoDup (ints u v ++ ints w z).
Proof.
  intros H. remember (ints u v) as l eqn:E. assert (A : forall q, In q l -> u <= q <= v) by (intros q; subst l; apply in_ints). pose proof (nodup_ints u v) as N. rewrite <- E in N. clear E.
  induction N as [|q l Nq N IH]; [apply nodup_ints|]. cbn [app]. constructor.
  - rewrite in_app_iff, in_ints. intros [C|C]; [contradiction|]. apply (H q); [apply A; left; reflexivity|exact C].
  - apply IH. intros x Hx. apply A. right. exact Hx.
Qed.

Section N.
Variables (Y : Z) (k : cuts).
Hypothesis K : cuts_ok Y k.
Notation a := (cA k). Notation b := (cB k). Notation n := (cN k). Notation c := (cC k). Notation d := (cD k).
Definition nextp (x q : Z) : option Z :=
  match link_up k q with
  | Cut => None
  | NoLink => if q =? Y - 1 then None else Some (q + 1)
  | Link t xlt _ => if x <? xlt then Some t else if q =? Y - 1 then None else Some (q + 1)
  end.
Definition prevp (x q : Z) : option Z :=
  match link_down k q with
  | Cut => None
  | NoLink => if q =? 0 then None else Some (q - 1)
  | Link t xlt _ => if x <? xlt then Some t else if q =? 0 then None else Some (q - 1)
  end.
Definition kpf := ints 0 (a - 1) ++ ints d (Y - 1).
Definition kup := ints n (c - 1) ++ ints b (n - 1).
Definition kcore := if dn k then ints a (b - 1) ++ ints c (d - 1) else ints a (d - 1).
Definition klp (p : Z) := (p <? a) || (d <=? p).
Definition kuf (p : Z) := dn k && ((b <=? p) && (p <? c)).
Definition kinner p := if klp p then kpf else if kuf p then kup else kcore.
Definition kouter p := if dn k then if p <? n then ints 0 (n - 1) else ints n (Y - 1) else ints 0 (Y - 1).
Definition kmiddle p := if lo k <? up k then if kuf p then kup else ints 0 (b - 1) ++ ints c (Y - 1)
                        else if klp p then kpf else ints n (d - 1) ++ ints a (n - 1).
Definition xin := if dn k then Z.min (lo k) (up k) else lo k.
Definition xout := if dn k then Z.max (lo k) (up k) else lo k.
Definition klist (x p : Z) := if x <? xin then kinner p else if x <? xout then kmiddle p else kouter p.
Definition kclosed (x p : Z) := x < xin /\ klp p = false /\ kuf p = false.

Definition pline (x p : Z) (l : list Z) : Prop :=
  In p l /\ NoDup l /\ (forall q, In q l -> 0 <= q < Y) /\ chained (nextp x) l /\ (forall q, In q l -> klist x q = l) /\
  exists h t, hd_error l = Some h /\ hd_error (rev l) = Some t /\
    (kclosed x p -> nextp x t = Some h) /\ (~ kclosed x p -> prevp x h = None /\ nextp x t = None).

Ltac zb := repeat match goal with
  | |- context [?u =? ?v] => destruct (Z.eqb_spec u v); cbn [andb orb]; try (exfalso; lia)
  | |- context [?u <? ?v] => destruct (Z.ltb_spec u v); cbn [andb orb]; try (exfalso; lia)
  | |- context [?u <=? ?v] => destruct (Z.leb_spec u v); cbn [andb orb]; try (exfalso; lia)
  end.
Ltac nx D := unfold nextp, prevp, link_up, link_down; rewrite ?D; cbn [andb]; zb; try reflexivity; f_equal; lia.

Lemma hd_app u v l : u <= v -> hd_error (ints u v ++ l) = Some u.
Proof. intros. rewrite ints_cons by lia. reflexivity. Qed.
Lemma last_app l u v : u <= v -> hd_error (rev (l ++ ints u v)) = Some v.
Proof. intros. rewrite rev_app_distr. pose proof (last_ints u v H). destruct (rev (ints u v)); [discriminate|exact H0]. Qed.

(** One range, and two joined ranges. *)
Lemma pline1 x p u v : u <= p <= v -> 0 <= u -> v < Y -> (forall q, u <= q < v -> nextp x q = Some (q + 1)) ->
  (forall q, u <= q <= v -> klist x q = ints u v) ->
  (kclosed x p -> nextp x v = Some u) -> (~ kclosed x p -> prevp x u = None /\ nextp x v = None) -> pline x p (ints u v).
Proof.
  intros H1 H2 H3 H4 H5 H6 H7. split; [apply in_ints; lia|]. split; [apply nodup_ints|]. split; [intros q; rewrite in_ints; lia|].
  split; [apply chained_ints, H4|]. split; [intros q Hq; apply H5, in_ints, Hq|].
  exists u, v. split; [apply hd_ints; lia|]. split; [apply last_ints; lia|]. split; assumption.
Qed.
Lemma pline2 x p u v w z : u <= p <= v \/ w <= p <= z -> u <= v -> w <= z -> 0 <= u -> v < Y -> 0 <= w -> z < Y -> (v < w \/ z < u) ->
  (forall q, u <= q < v -> nextp x q = Some (q + 1)) -> nextp x v = Some w -> (forall q, w <= q < z -> nextp x q = Some (q + 1)) ->
  (forall q, u <= q <= v \/ w <= q <= z -> klist x q = ints u v ++ ints w z) ->
  (kclosed x p -> nextp x z = Some u) -> (~ kclosed x p -> prevp x u = None /\ nextp x z = None) -> pline x p (ints u v ++ ints w z).
Proof.
  intros H1 H2 H3 H4 H5 H6 H7 H8 H9 H10 H11 H12 H13 H14.
  split; [rewrite in_app_iff, !in_ints; lia|]. split; [apply nodup_ints2; lia|]. split; [intros q; rewrite in_app_iff, !in_ints; lia|].
  split; [apply (chained_app _ _ _ v w); [apply last_ints; lia|apply hd_ints; lia|exact H10|apply chained_ints, H9|apply chained_ints, H11]|].
  split; [intros q; rewrite in_app_iff, !in_ints; apply H12|].
  exists u, z. split; [apply hd_app; lia|]. split; [apply last_app; lia|]. split; assumption.
Qed.

Ltac kl D Dn := let q := fresh "q" in let Hq := fresh "Hq" in intros q Hq; unfold klist, kinner, kouter, kmiddle, klp, kuf, xin, xout; rewrite ?D; cbn [andb orb]; zb; try reflexivity.
Ltac kc D := unfold kclosed, klp, kuf, xin; rewrite ?D; cbn [andb orb].

Theorem klist_line x p : 0 <= p < Y -> (dn k = false -> up k = lo k) -> pline x p (klist x p).
Proof.
  intros Hp SN. destruct K as [KA KAD KD KE KN].
  destruct (dn k) eqn:DN.
  - clear SN. destruct (KN eq_refl) as (K1 & K2 & K3 & K4). clear KN.
    destruct (Z_lt_ge_dec x (Z.min (lo k) (up k))) as [XI|XI]; [|destruct (Z_lt_ge_dec x (Z.max (lo k) (up k))) as [XO|XO]].
    + destruct (Z_lt_ge_dec p a) as [PA|PA]; [|destruct (Z_lt_ge_dec p b) as [PB|PB]; [|destruct (Z_lt_ge_dec p c) as [PC|PC]; [|destruct (Z_lt_ge_dec p d) as [PD|PD]]]].
      1,5: replace (klist x p) with kpf by (symmetry; unfold klist, kinner, klp, kuf, xin, xout; rewrite DN; cbn [andb orb]; zb; reflexivity);
           apply pline2; [lia|lia|lia|lia|lia|lia|lia|lia|intros q Hq; nx DN|nx DN|intros q Hq; nx DN|kl DN DN|
             kc DN; zb; intros (_ & Q & _); discriminate|intros _; split; nx DN].
      1,3: replace (klist x p) with kcore by (symmetry; unfold klist, kinner, klp, kuf, xin, xout; rewrite DN; cbn [andb orb]; zb; reflexivity);
           unfold kcore; rewrite DN;
           apply pline2; [lia|lia|lia|lia|lia|lia|lia|lia|intros q Hq; nx DN|nx DN|intros q Hq; nx DN|
             kl DN DN; unfold kcore; rewrite DN; reflexivity|intros _; nx DN|kc DN; zb; intros Q; exfalso; apply Q; auto].
      replace (klist x p) with kup by (symmetry; unfold klist, kinner, klp, kuf, xin, xout; rewrite DN; cbn [andb orb]; zb; reflexivity).
      apply pline2; [lia|lia|lia|lia|lia|lia|lia|lia|intros q Hq; nx DN|nx DN|intros q Hq; nx DN|kl DN DN|
             kc DN; zb; intros (_ & _ & Q); discriminate|intros _; split; nx DN].
    + assert (NC : ~ kclosed x p) by (kc DN; lia).
      destruct (Z_lt_ge_dec (lo k) (up k)) as [LU|LU].
      * assert (PC : b <= p < c \/ (p < b \/ c <= p)) by lia. destruct PC as [PC|PC].
        -- replace (klist x p) with kup by (symmetry; unfold klist, kmiddle, klp, kuf, xin, xout; rewrite DN; cbn [andb orb]; zb; reflexivity).
           apply pline2; [lia|lia|lia|lia|lia|lia|lia|lia|intros q Hq; nx DN|nx DN|intros q Hq; nx DN|kl DN DN|contradiction|intros _; split; nx DN].
        -- replace (klist x p) with (ints 0 (b - 1) ++ ints c (Y - 1)) by (symmetry; unfold klist, kmiddle, klp, kuf, xin, xout; rewrite DN; cbn [andb orb]; zb; reflexivity).
           apply pline2; [lia|lia|lia|lia|lia|lia|lia|lia|intros q Hq; nx DN|nx DN|intros q Hq; nx DN|kl DN DN|contradiction|intros _; split; nx DN].
      * assert (PC : a <= p < d \/ (p < a \/ d <= p)) by lia. destruct PC as [PC|PC].
        -- replace (klist x p) with (ints n (d - 1) ++ ints a (n - 1)) by (symmetry; unfold klist, kmiddle, klp, kuf, xin, xout; rewrite DN; cbn [andb orb]; zb; reflexivity).
           apply pline2; [lia|lia|lia|lia|lia|lia|lia|lia|intros q Hq; nx DN|nx DN|intros q Hq; nx DN|kl DN DN|contradiction|intros _; split; nx DN].
        -- replace (klist x p) with kpf by (symmetry; unfold klist, kmiddle, klp, kuf, xin, xout; rewrite DN; cbn [andb orb]; zb; reflexivity).
           apply pline2; [lia|lia|lia|lia|lia|lia|lia|lia|intros q Hq; nx DN|nx DN|intros q Hq; nx DN|kl DN DN|contradiction|intros _; split; nx DN].
    + assert (NC : ~ kclosed x p) by (kc DN; lia).
      destruct (Z_lt_ge_dec p n) as [PN|PN].
      * replace (klist x p) with (ints 0 (n - 1)) by (symmetry; unfold klist, kouter, klp, kuf, xin, xout; rewrite DN; cbn [andb orb]; zb; reflexivity).
        apply pline1; [lia|lia|lia|intros q Hq; nx DN|kl DN DN|contradiction|intros _; split; nx DN].
      * replace (klist x p) with (ints n (Y - 1)) by (symmetry; unfold klist, kouter, klp, kuf, xin, xout; rewrite DN; cbn [andb orb]; zb; reflexivity).
        apply pline1; [lia|lia|lia|intros q Hq; nx DN|kl DN DN|contradiction|intros _; split; nx DN].
  - specialize (SN eq_refl). clear KN.
    destruct (Z_lt_ge_dec x (lo k)) as [XI|XI].
    + assert (PC : a <= p < d \/ (p < a \/ d <= p)) by lia. destruct PC as [PC|PC].
      * replace (klist x p) with kcore by (symmetry; unfold klist, kinner, klp, kuf, xin, xout; rewrite DN; cbn [andb orb]; zb; reflexivity).
        unfold kcore; rewrite DN.
        apply pline1; [lia|lia|lia|intros q Hq; nx DN|kl DN DN; unfold kcore; rewrite DN; reflexivity|intros _; nx DN|kc DN; zb; intros Q; exfalso; apply Q; auto].
      * replace (klist x p) with kpf by (symmetry; unfold klist, kinner, klp, kuf, xin, xout; rewrite DN; cbn [andb orb]; zb; reflexivity).
        apply pline2; [lia|lia|lia|lia|lia|lia|lia|lia|intros q Hq; nx DN|nx DN|intros q Hq; nx DN|kl DN DN|
             kc DN; zb; intros (_ & Q & _); discriminate|intros _; split; nx DN].
    + assert (NC : ~ kclosed x p) by (kc DN; lia).
      replace (klist x p) with (ints 0 (Y - 1)) by (symmetry; unfold klist, kouter, xin, xout; rewrite DN; cbn [andb orb]; zb; reflexivity).
      apply pline1; [lia|lia|lia|intros q Hq; nx DN|kl DN DN|contradiction|intros _; split; nx DN].
Qed.
End N.
