From Coq Require Import Reals ZArith Ascii String List Bool Lia Lra.
From Verif Require Import Base StringsModel OptionsModel OptionsProofs IniModel ExprModel ExprSpec ExprEvalModel ExprEvalProofs ExprProps OptConvModel.
Import ListNotations.
Local Open Scope R_scope.

Lemma near_unique (r : R) a b : Rabs (r - IZR a) < / 2 -> Rabs (r - IZR b) <= / 2 -> a = b.
Proof.
  intros H1 H2. assert (-1 < IZR a - IZR b < 1) as [A B].
  { unfold Rabs in *. destruct (Rcase_abs (r - IZR a)), (Rcase_abs (r - IZR b)); lra. }
  rewrite <- minus_IZR in A, B. apply lt_IZR in A, B. lia.
Qed.
Lemma ROUND_near r n : Rabs (r - IZR n) < / 2 -> ROUND r = n.
Proof.
  intros H. assert (H' : - / 2 < r - IZR n < / 2) by (unfold Rabs in H; destruct (Rcase_abs _); lra). unfold ROUND. destruct (Rlt_dec 0 r) as [P|P].
  - apply toint_pos; [|lra]. assert (-1 < IZR n) by lra. apply lt_IZR in H0. lia.
  - apply toint_neg; [|lra]. assert (IZR n < 1) by lra. apply lt_IZR in H0. lia.
Qed.
Lemma ROUND_error r : Rabs (r - IZR (ROUND r)) <= / 2.
Proof.
  unfold ROUND, toint. destruct (Rlt_dec 0 r) as [P|P].
  - destruct (Rle_dec 0 (r + / 2)); [|lra]. destruct (base_Int_part (r + / 2)) as [A B]. unfold Rabs. destruct (Rcase_abs _); lra.
  - destruct (Rle_dec 0 (r - / 2)); [lra|]. destruct (base_Int_part (- (r - / 2))) as [A B]. rewrite opp_IZR. unfold Rabs. destruct (Rcase_abs _); lra.
Qed.

Section WithParser.
Variable rtext : R -> str.
Variable L : lang.
Variable power : R -> R -> R.
Variable named : str -> list (ctx -> res R) -> ctx -> res R.
Variable resolved : str -> ctx -> res R.
Notation as_int := (as_int L power named resolved).
Notation as_real := (as_real L power named resolved).

Lemma as_int_num v r : as_real v = Ok r -> as_int v =
  (do result <- round_int r; if Rlt_dec (/ 1000) (Rabs (r - IZR result)) then Throw else Ok result) \/ exists n, v = OI n.
Proof.
  destruct v; cbn [OptConvModel.as_real OptConvModel.as_int]; intros H; [discriminate|right; eauto| |].
  - injection H as ->. left. reflexivity.
  - left. now rewrite H.
Qed.
Definition in_int (n : Z) : Prop := (int_min <= n <= int_max)%Z.
Lemma round_int_iff r n : round_int r = Ok n <-> ROUND r = n /\ in_int n.
Proof.
  unfold round_int, in_int. cbv zeta. destruct (Z.leb_spec int_min (ROUND r)), (Z.leb_spec (ROUND r) int_max); cbn [andb]; split; intros X.
  all: try discriminate.
  all: try (injection X as X; subst n; split; [reflexivity|lia]).
  all: destruct X as [<- X]; first [reflexivity|lia].
Qed.

Lemma as_int_ok v r n : as_real v = Ok r -> (forall m, v = OI m -> in_int m) ->
  (as_int v = Ok n <-> Rabs (r - IZR n) <= / 1000 /\ in_int n).
Proof.
  intros H HI. destruct (as_int_num v r H) as [E|(m & ->)].
  - rewrite E. clear E. split.
    + destruct (round_int r) as [k| |] eqn:E; cbn [bind]; [|discriminate|discriminate]. destruct (Rlt_dec _ _); [discriminate|]. intros [= ->]. apply round_int_iff in E. split; [lra|apply E].
    + intros [A B]. assert (E : ROUND r = n) by (apply ROUND_near; lra). rewrite (proj2 (round_int_iff r n) (conj E B)). cbn [bind]. destruct (Rlt_dec _ _); [lra|reflexivity].
  - cbn [OptConvModel.as_real] in H. injection H as <-. cbn [OptConvModel.as_int]. split.
    + intros [= <-]. split; [|now apply HI]. rewrite Rminus_diag_eq, Rabs_R0 by reflexivity. lra.
    + intros [A B]. f_equal. apply eq_IZR. assert (-1 < IZR m - IZR n < 1) as [C D] by (unfold Rabs in A; destruct (Rcase_abs _); lra).
      rewrite <- minus_IZR in C, D. apply lt_IZR in C, D. f_equal. lia.
Qed.
(** in range, what is not near an integer throws *)
Lemma as_int_throw v r : as_real v = Ok r -> (forall m, v <> OI m) -> IZR int_min - / 2 < r < IZR int_max + / 2 ->
  (as_int v = Throw <-> forall n, / 1000 < Rabs (r - IZR n)).
Proof.
  intros H HI RG. destruct (as_int_num v r H) as [E|(m & ->)]; [|now destruct (HI m)]. rewrite E. clear E.
  assert (G : in_int (ROUND r)).
  { pose proof (ROUND_error r) as X. assert (- / 2 <= r - IZR (ROUND r) <= / 2) as [A B] by (unfold Rabs in X; destruct (Rcase_abs _); lra).
    split.
    - assert (IZR int_min - 1 < IZR (ROUND r)) by lra. rewrite <- minus_IZR in H0. apply lt_IZR in H0. lia.
    - assert (IZR (ROUND r) < IZR int_max + 1) by lra. rewrite <- plus_IZR in H0. apply lt_IZR in H0. lia. }
  rewrite (proj2 (round_int_iff r (ROUND r)) (conj eq_refl G)). cbn [bind]. destruct (Rlt_dec _ _) as [X|X]; split; try discriminate; try reflexivity.
  - intros _ n. destruct (Rlt_dec (/ 1000) (Rabs (r - IZR n))) as [Y|Y]; [assumption|]. exfalso. assert (E : ROUND r = n) by (apply ROUND_near; lra). rewrite E in X. lra.
  - intros Y. exfalso. apply X. apply Y.
Qed.

(** * The text of an integer *)
Lemma digit_ok k : (0 <= k < 10)%Z -> isdigit (ascii_of_nat (48 + Z.to_nat k)) = true /\ code (ascii_of_nat (48 + Z.to_nat k)) = (48 + k)%Z.
Proof.
  intros H. assert (C : k = 0%Z \/ k = 1%Z \/ k = 2%Z \/ k = 3%Z \/ k = 4%Z \/ k = 5%Z \/ k = 6%Z \/ k = 7%Z \/ k = 8%Z \/ k = 9%Z) by lia.
  repeat (destruct C as [->|C]; [split; reflexivity|]). subst k. split; reflexivity.
Qed.
Lemma dvalue_app s : forall acc c, dvalue acc (s ++ [c]) = (10 * dvalue acc s + (code c - 48))%Z.
Proof. induction s as [|x s IH]; intros acc c; [reflexivity|]. cbn [app dvalue]. apply IH. Qed.
Lemma digits_of_ok : forall fuel n, (0 <= n < 10 ^ Z.of_nat fuel)%Z -> (0 < fuel)%nat ->
  digits (digits_of fuel n) /\ dvalue 0 (digits_of fuel n) = n /\ digits_of fuel n <> [].
Proof.
  induction fuel as [|fuel IH]; intros n H F; [lia|]. cbn [digits_of].
  destruct (digit_ok (n mod 10) (Z.mod_pos_bound n 10 ltac:(lia))) as [D1 D2].
  destruct (Z.ltb_spec n 10) as [C|C].
  - cbn [app]. split; [intros c [<-|[]]; exact D1|]. split; [|discriminate]. cbn [dvalue]. rewrite D2, Z.mod_small by lia. lia.
  - assert (P : (0 <= n / 10 < 10 ^ Z.of_nat fuel)%Z).
    { split; [apply Z.div_pos; lia|]. apply Z.div_lt_upper_bound; [lia|]. rewrite Nat2Z.inj_succ, Z.pow_succ_r in H by lia. lia. }
    assert (F' : (0 < fuel)%nat) by (destruct fuel; [cbn in P; pose proof (Z.div_str_pos n 10 ltac:(lia)); lia|lia]).
    destruct (IH _ P F') as (A & B & _). split; [|split].
    + intros c I. apply in_app_or in I. destruct I as [I|[<-|[]]]; [now apply A|exact D1].
    + rewrite dvalue_app, B, D2. pose proof (Z.div_mod n 10 ltac:(lia)). lia.
    + intros X. apply app_eq_nil in X. now destruct X.
Qed.
Lemma int_digits n : (0 <= n)%Z -> let ds := digits_of (S (Z.to_nat (Z.log2 n))) n in digits ds /\ dvalue 0 ds = n /\ ds <> [].
Proof.
  intros H ds. apply digits_of_ok; [|lia]. split; [assumption|]. rewrite Nat2Z.inj_succ, Z2Nat.id by apply Z.log2_nonneg.
  destruct (Z.eq_dec n 0) as [->|N]; [reflexivity|]. destruct (Z.log2_spec n ltac:(lia)) as [_ X]. eapply Z.lt_le_trans; [exact X|].
  apply Z.pow_le_mono_l. lia.
Qed.

Hypothesis WF : wf_lang L.
Hypothesis RS : forall nm, resolves L nm <> UB.
Hypothesis MINUS : exists q, prec L "-"%char = Some q.

Lemma num_spelled prev n : (0 <= n)%Z -> is_num prev = false ->
  spelled L prev [TNum (mkDec n 0)] (digits_of (S (Z.to_nat (Z.log2 n))) n).
Proof.
  intros H P. destruct (int_digits n H) as (A & B & C). set (ds := digits_of _ n) in *. clearbody ds.
  pose proof (sp_token L prev (TNum (mkDec n 0)) [] [] ds []) as X. cbn [app] in X. rewrite app_nil_r in X. apply X.
  - intros c [].
  - constructor. rewrite <- B. rewrite <- (app_nil_r ds) at 1. constructor; [assumption|assumption|constructor].
  - exact I.
  - intros Y. congruence.
  - constructor. intros c [].
Qed.
Lemma dec_int n : dec_R (mkDec n 0) = IZR n.
Proof. unfold dec_R. cbn [mant ten powerRZ]. ring. Qed.
Lemma parse_int_text n : parseExpression L power named resolved (int_text n) = Ok (IZR n).
Proof.
  unfold parseExpression. unfold int_text. destruct (Z.ltb_spec n 0) as [N|N].
  - cbn [app]. destruct MINUS as (q & Q). pose proof (num_spelled (TCh "-") (Z.abs n) ltac:(lia) eq_refl) as S. set (ds := digits_of _ _) in *.
    rewrite (C18_leading_minus L [TNum (mkDec (Z.abs n) 0)] ds (EVal (mkDec (Z.abs n) 0)) q WF RS Q S (D_num L _ _)) by (cbn [List.length]; lia).
    cbn [bind generate ExprModel.zero]. unfold binop. cbn. rewrite !dec_int. f_equal. rewrite Z.abs_neq, opp_IZR by lia. ring.
  - cbn [app]. rewrite Z.abs_eq by assumption. pose proof (num_spelled TEnd n N eq_refl) as S. set (ds := digits_of _ _) in *.
    rewrite (C17_parse L _ ds (EVal (mkDec n 0)) WF RS S (D_num L _ _) _ (le_n _)). cbn [bind generate]. now rewrite dec_int.
Qed.
Lemma int_text_int n : in_int n -> as_int (OS (int_text n)) = Ok n.
Proof.
  intros H. apply (as_int_ok (OS (int_text n)) (IZR n)); [exact (parse_int_text n)|discriminate|]. split; [|assumption].
  rewrite Rminus_diag_eq, Rabs_R0 by reflexivity. lra.
Qed.
Lemma as_bool_text (b : bool) : as_bool (OS (if b then chars "true" else chars "false")) = Ok b.
Proof. now destruct b. Qed.
End WithParser.
