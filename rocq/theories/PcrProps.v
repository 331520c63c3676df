(** C85: LaplacePCR solves tridiagonal systems by cyclic reduction on any power of two processors. *)
From Coq Require Import List Arith Bool Lia ZArith Field Reals Lra.
From Coquelicot Require Import Complex.
From Verif Require Import MpiModel MpiProofs MpiRounds PcrModel PcrSpec SptSpec PcrProofs PcrProofs3 PcrProofs6 PcrProofs7 PcrProofs8.
Import ListNotations.
Open Scope nat_scope.

Lemma halted_ret M V N eager (st : state M V) f : quiet M V N st (fun p => Ret (f p)) -> halted M V N eager st.
Proof. intros [A _] p Hp. unfold step. rewrite (A p Hp). reflexivity. Qed.

Section G.
Variable F : Type.
Variables (f0 f1 : F) (fadd fmul fsub fdiv : F -> F -> F) (fopp finv : F -> F).
Hypothesis FT : field_theory f0 f1 fadd fmul fsub fopp fdiv finv (@eq F).
Variable is_zero : F -> bool.
Hypothesis is_zero_spec : forall x, is_zero x = true <-> x = f0.
Variable nrm : F -> R.
Hypothesis nrm_nonneg : forall x, (0 <= nrm x)%R.
Hypothesis nrm_mul : forall x y, nrm (fmul x y) = (nrm x * nrm y)%R.
Hypothesis nrm_add : forall x y, (nrm (fadd x y) <= nrm x + nrm y)%R.
Hypothesis nrm_opp : forall x, nrm (fopp x) = nrm x.
Hypothesis nrm_0 : nrm f0 = 0%R.
Hypothesis nrm_1 : nrm f1 = 1%R.
Notation tri := (tri_solution F f0 fadd fmul).
Notation solver nsys xs n N p := (cr_pcr_solver F f0 f1 fadd fmul fsub fdiv fopp is_zero nsys xs n N p).

Lemma solves_general kn kN xs nsys eager (A B C R : nat -> nat -> F) (d : nat -> matrix F) (x0 : nat -> vector F) :
  let n := 2 ^ kn in let N := 2 ^ kN in let T := N * n in let nx := T + 2 * xs in
  1 <= xs ->
  (forall kz, kz < nsys -> dominated F nrm xs T (A kz) (B kz) (C kz)) ->
  (forall p kz j, p < N -> kz < nsys -> j < rows_held N n xs p ->
     let g := first_held n xs p + j in d p kz j = mkCell F (A kz g) (B kz g) (C kz g) (R kz g)) ->
  exists X : nat -> nat -> F,
    (forall kz, kz < nsys -> tri nx (A kz) (B kz) (C kz) (R kz) (X kz)) /\
    (forall kz Y, kz < nsys -> tri nx (A kz) (B kz) (C kz) (R kz) Y -> forall g, g < nx -> Y g = X kz g) /\
    always_returns N eager (initial (msg F) (vector F) (fun p => solver nsys xs n N p (d p) (x0 p)))
      (fun p x => forall kz j, (kz < nsys -> j < rows_held N n xs p -> x kz j = X kz (first_held n xs p + j)) /\ (nsys <= kz -> x kz j = x0 p kz j)).
Proof.
  intros n N T nx Hxs HD HR. set (G := fun kz g => mkCell F (A kz g) (B kz g) (C kz g) (R kz g)).
  assert (Hn : 1 <= n) by exact (pow2_pos kn). assert (HN : 1 <= N) by exact (pow2_pos kN). assert (HT : 1 <= T) by (unfold T; nia).
  assert (W : forall kz, kz < nsys -> (forall g, g < nx -> (left_of F nrm (G kz) g + right_of F nrm xs T (G kz) g <= nrm (B kz g))%R) /\ (forall g, g < xs + T -> (left_of F nrm (G kz) g < nrm (B kz g))%R) /\
     (forall g, xs <= g < nx -> (right_of F nrm xs T (G kz) g < nrm (B kz g))%R) /\ (forall g, g = xs \/ g = xs + T - 1 -> (left_of F nrm (G kz) g + right_of F nrm xs T (G kz) g < nrm (B kz g))%R)).
  { intros kz Hk. exact (HD kz Hk). }
  assert (pin : forall kz k, kz < nsys -> k < xs -> cb F (el F f0 fmul fsub fdiv (G kz) k) <> f0).
  { intros kz k Hk Hm. destruct (W kz Hk) as (W1 & W2 & W3 & W4). apply (pos_nz F f0 nrm nrm_0).
    eapply (inner_pivot F f0 f1 fadd fmul fsub fdiv fopp finv FT nrm) with (xs := xs) (T := T); eassumption. }
  assert (pout : forall kz k, kz < nsys -> k < xs -> cb F (eo F f0 fmul fsub fdiv (after_in F f0 fmul fsub fdiv (G kz) xs) (nx - 1) k) <> f0).
  { intros kz k Hk Hm. destruct (W kz Hk) as (W1 & W2 & W3 & W4). apply (pos_nz F f0 nrm nrm_0).
    eapply (outer_pivot F f0 f1 fadd fmul fsub fdiv fopp finv FT nrm) with (xs := xs) (T := T); eassumption. }
  set (E2 := fun kz => after_out F f0 fmul fsub fdiv (after_in F f0 fmul fsub fdiv (G kz) xs) (nx - 1) xs).
  assert (fa : forall kz, kz < nsys -> ca F (E2 kz xs) = f0).
  { intros kz Hk. destruct (W kz Hk) as (W1 & W2 & W3 & W4). eapply (E2_first_a F f0 f1 fadd fmul fsub fdiv fopp finv FT nrm) with (xs := xs) (T := T); eassumption. }
  assert (lc : forall kz, kz < nsys -> cc F (E2 kz (xs + T - 1)) = f0).
  { intros kz Hk. destruct (W kz Hk) as (W1 & W2 & W3 & W4). eapply (E2_last_c F f0 f1 fadd fmul fsub fdiv fopp finv FT nrm) with (xs := xs) (T := T); eassumption. }
  assert (dm : forall kz g, kz < nsys -> xs <= g < xs + T -> dom_row F nrm (E2 kz g)).
  { intros kz g Hk Hg. destruct (W kz Hk) as (W1 & W2 & W3 & W4). eapply (E2_dom F f0 f1 fadd fmul fsub fdiv fopp finv FT nrm) with (xs := xs) (T := T); eassumption. }
  assert (pv : forall kz l g, kz < nsys -> l <= kn + kN -> cb F (red F fadd fmul fdiv fopp (base F f0 f1 fmul fsub fdiv kn kN xs G kz) l g) <> f0).
  { intros kz l g Hk _. apply (pos_nz F f0 nrm nrm_0). apply (dom_pos F nrm nrm_nonneg). apply (dom_red F f0 f1 fadd fmul fsub fdiv fopp finv FT nrm); try assumption. intros z. unfold base.
    destruct (Z.leb_spec 1 z), (Z.leb_spec z (Z.of_nat (2 ^ kN * 2 ^ kn))); cbn [andb]; try (eapply dom_unit; eassumption). apply dm; [exact Hk|]. change (2 ^ kN * 2 ^ kn) with T in *. lia. }
  assert (rep : forall p kz j, p < 2 ^ kN -> kz < nsys -> j < nrows xs (2 ^ kn) (2 ^ kN) p -> d p kz j = G kz (first_of kn xs p + j)).
  { intros p kz j Hp Hk Hj. apply HR; assumption. }
  assert (EX : forall kz, kz < nsys -> exists y, tri nx (A kz) (B kz) (C kz) (R kz) y).
  { intros kz Hk. exact (exists_all F f0 f1 fadd fmul fsub fdiv fopp finv FT nsys kn kN xs Hxs G pin pout fa lc pv kz Hk). }
  assert (CH : exists X : nat -> nat -> F, forall kz, kz < nsys -> tri nx (A kz) (B kz) (C kz) (R kz) (X kz)).
  { clear - EX. induction nsys as [|m IH]; [exists (fun _ _ => f0); intros; lia|]. destruct IH as [X HX]; [intros; apply EX; lia|]. destruct (EX m ltac:(lia)) as [y Hy].
    exists (fun kz => if kz =? m then y else X kz). intros kz Hk. destruct (Nat.eqb_spec kz m) as [->|]; [exact Hy|apply HX; lia]. }
  destruct CH as [X HX]. exists X. split; [exact HX|].
  pose proof (runs F f0 f1 fadd fmul fsub fdiv fopp finv FT is_zero is_zero_spec nsys kn kN xs Hxs G pin pout fa lc pv eager d rep x0) as RUN.
  set (s0 := initial (msg F) (vector F) (fun p => solver nsys xs n N p (d p) (x0 p))) in *.
  destruct (RUN X HX) as (ed & xf & [K RK] & QE & VE). pose proof (halted_ret _ _ N eager ed _ QE) as HE. pose proof (sound_initial (msg F) (vector F) N eager (fun p => solver nsys xs n N p (d p) (x0 p))) as SD. fold s0 in SD.
  assert (ALL : forall k st, steps (msg F) (vector F) N eager k s0 st -> exists m ed', K = k + m /\ steps (msg F) (vector F) N eager m st ed' /\ eqst (msg F) (vector F) ed ed').
  { intros k st HS. eapply all_executions; eassumption. }
  split.
  - intros kz Y Hk HY. set (X' := fun kz' => if kz' =? kz then Y else X kz').
    assert (HX' : forall kz', kz' < nsys -> tri nx (A kz') (B kz') (C kz') (R kz') (X' kz')). { intros kz' Hk'. unfold X'. destruct (Nat.eqb_spec kz' kz) as [->|]; [exact HY|apply HX; exact Hk']. }
    destruct (RUN X' HX') as (ed2 & xf2 & [K2 RK2] & QE2 & VE2). destruct (ALL K2 ed2 RK2) as (m & ed' & EK & SM & EQ). pose proof (halted_ret _ _ N eager ed2 _ QE2) as HE2.
    assert (m = 0 /\ ed' = ed2) as [-> ->]. { destruct SM as [|m p st st' st'' Hp E SM]; [split; reflexivity|]. rewrite HE2 in E by exact Hp. discriminate. }
    assert (XX : forall p, p < N -> xf p = xf2 p). { intros p Hp. destruct QE as [QE _]. destruct QE2 as [QE2 _]. destruct EQ as [EQ _]. specialize (EQ p). rewrite (QE p Hp), (QE2 p Hp) in EQ. injection EQ as EQ. exact EQ. }
    assert (OW : forall g, g < nx -> exists p j, p < N /\ j < rows_held N n xs p /\ g = first_held n xs p + j).
    { intros g Hg. unfold rows_held, first_held. destruct (Nat.ltb_spec g (n + xs)).
      - exists 0, g. cbn [Nat.eqb]. destruct (0 =? N - 1); repeat split; lia.
      - destruct (Nat.ltb_spec g (xs + T)).
        + exists ((g - xs) / n), ((g - xs) mod n). pose proof (Nat.div_mod (g - xs) n ltac:(lia)) as DM. pose proof (Nat.mod_upper_bound (g - xs) n ltac:(lia)) as MB. set (q := (g - xs) / n) in *. set (r := (g - xs) mod n) in *.
          assert (1 <= q) by (destruct q; [lia|lia]). assert (q < N) by (unfold T in *; nia). destruct (Nat.eqb_spec q 0); [lia|]. split; [lia|]. split; [destruct (q =? N - 1); lia|]. nia.
        + exists (N - 1), (g - first_held n xs (N - 1)). rewrite Nat.eqb_refl. unfold first_held. destruct (Nat.eqb_spec (N - 1) 0); (split; [lia|]); unfold nx, T in *; [replace N with 1 in * by lia; split; lia|]. assert (N * n = (N - 1) * n + n) by nia. split; lia. }
    intros g Hg. destruct (OW g Hg) as (p & j & Hp & Hj & ->). destruct (VE p kz j Hp) as [V1 _]. destruct (VE2 p kz j Hp) as [V2 _]. specialize (V1 Hk Hj). specialize (V2 Hk Hj). unfold X' in V2. rewrite Nat.eqb_refl in V2.
    change (first_held n xs p) with (first_of kn xs p). rewrite <- V1, <- V2, XX by exact Hp. reflexivity.
  - exists K. intros k st HS. destruct (ALL k st HS) as (m & ed' & EK & SM & EQ). split; [lia|]. pose proof (halted_eq _ _ N eager _ _ EQ HE) as HE'.
    assert (M0 : halted (msg F) (vector F) N eager st <-> m = 0).
    { split; intros H; [destruct SM as [|m p s1 s2 s3 Hp E SM]; [reflexivity|rewrite H in E by exact Hp; discriminate]|]. subst m. inversion SM; subst. exact HE'. }
    split; [rewrite M0; lia|]. intros Ek. assert (m = 0) by lia. subst m. inversion SM; subst. destruct EQ as [EQ1 EQ2]. destruct QE as [QA QB]. split.
    + intros p Hp. exists (xf p). rewrite <- EQ1. split; [apply QA; exact Hp|]. intros kz j. exact (VE p kz j Hp).
    + intros c. rewrite <- EQ2. apply QB.
Qed.
End G.

(** dcomplex. *)
Definition czero (x : C) : bool := if Req_EM_T (fst x) 0 then if Req_EM_T (snd x) 0 then true else false else false.
Lemma czero_spec x : czero x = true <-> x = RtoC 0.
Proof.
  destruct x as [u v]. unfold czero. cbn [fst snd]. split.
  - destruct (Req_EM_T u 0) as [->|]; [|discriminate]. destruct (Req_EM_T v 0) as [->|]; [reflexivity|discriminate].
  - intros E. injection E as -> ->. destruct (Req_EM_T 0 0) as [_|NE]; [reflexivity|contradiction].
Qed.
Notation pcr_c nsys xs n N p := (cr_pcr_solver C (RtoC 0) (RtoC 1) Cplus Cmult Cminus Cdiv Copp czero nsys xs n N p).
Notation tri_c := (tri_solution C (RtoC 0) Cplus Cmult).

(** [kz]: system; row g of system kz has coefficients A, B, C and right hand side R. For any powers of two of processors and of
    rows per processor, whatever the messages the machine buffers ([eager]) and whatever the order of the steps: *)
Theorem C85_solves : forall kn kN xs nsys eager (A B C R : nat -> nat -> Complex.C) (d : nat -> matrix Complex.C) (x0 : nat -> vector Complex.C),
  let n := 2 ^ kn in let N := 2 ^ kN in let T := N * n in let nx := T + 2 * xs in
  1 <= xs ->
  (forall kz, kz < nsys -> dominated Complex.C Cmod xs T (A kz) (B kz) (C kz)) ->
  (forall p kz j, p < N -> kz < nsys -> j < rows_held N n xs p ->
     let g := first_held n xs p + j in d p kz j = mkCell Complex.C (A kz g) (B kz g) (C kz g) (R kz g)) ->
  exists X : nat -> nat -> Complex.C,
    (forall kz, kz < nsys -> tri_c nx (A kz) (B kz) (C kz) (R kz) (X kz)) /\
    (forall kz Y, kz < nsys -> tri_c nx (A kz) (B kz) (C kz) (R kz) Y -> forall g, g < nx -> Y g = X kz g) /\
    always_returns N eager (initial (msg Complex.C) (vector Complex.C) (fun p => pcr_c nsys xs n N p (d p) (x0 p)))
      (fun p x => forall kz j, (kz < nsys -> j < rows_held N n xs p -> x kz j = X kz (first_held n xs p + j)) /\ (nsys <= kz -> x kz j = x0 p kz j)).
Proof.
  intros kn kN xs nsys eager A B C R d x0.
  exact (solves_general Complex.C (RtoC 0) (RtoC 1) Cplus Cmult Cminus Cdiv Copp Cinv C_field_theory czero czero_spec Cmod Cmod_ge_0 Cmod_mult Cmod_triangle Cmod_opp Cmod_0 Cmod_1
    kn kN xs nsys eager A B C R d x0).
Qed.
(** Real coefficients. *)
Definition rzero (x : R) : bool := if Req_EM_T x 0 then true else false.
Lemma rzero_spec x : rzero x = true <-> x = 0%R.
Proof. unfold rzero. destruct (Req_EM_T x 0); split; intros; congruence || discriminate. Qed.
Notation pcr_r nsys xs n N p := (cr_pcr_solver R 0%R 1%R Rplus Rmult Rminus Rdiv Ropp rzero nsys xs n N p).
Theorem C85_solves_real : forall kn kN xs nsys eager (A B C D : nat -> nat -> R) (d : nat -> matrix R) (x0 : nat -> vector R),
  let n := 2 ^ kn in let N := 2 ^ kN in let T := N * n in let nx := T + 2 * xs in
  1 <= xs ->
  (forall kz, kz < nsys -> dominated R Rabs xs T (A kz) (B kz) (C kz)) ->
  (forall p kz j, p < N -> kz < nsys -> j < rows_held N n xs p ->
     let g := first_held n xs p + j in d p kz j = mkCell R (A kz g) (B kz g) (C kz g) (D kz g)) ->
  exists X : nat -> nat -> R,
    (forall kz, kz < nsys -> tri_solution R 0%R Rplus Rmult nx (A kz) (B kz) (C kz) (D kz) (X kz)) /\
    (forall kz Y, kz < nsys -> tri_solution R 0%R Rplus Rmult nx (A kz) (B kz) (C kz) (D kz) Y -> forall g, g < nx -> Y g = X kz g) /\
    always_returns N eager (initial (msg R) (vector R) (fun p => pcr_r nsys xs n N p (d p) (x0 p)))
      (fun p x => forall kz j, (kz < nsys -> j < rows_held N n xs p -> x kz j = X kz (first_held n xs p + j)) /\ (nsys <= kz -> x kz j = x0 p kz j)).
Proof.
  intros kn kN xs nsys eager A B C D d x0.
  exact (solves_general R 0%R 1%R Rplus Rmult Rminus Rdiv Ropp Rinv Rfield rzero rzero_spec Rabs Rabs_pos Rabs_mult Rabs_triang Rabs_Ropp Rabs_R0 Rabs_R1
    kn kN xs nsys eager A B C D d x0).
Qed.

(** x'' - x = f with Dirichlet boundary conditions half way between points, on any grid with one boundary point. *)
Definition eA (T : nat) (g : nat) : R := if g =? T + 1 then (/ 2)%R else 1%R.
Definition eB (T : nat) (g : nat) : R := if (g =? 0) || (g =? T + 1) then (/ 2)%R else (-3)%R.
Definition eC (g : nat) : R := if g =? 0 then (/ 2)%R else 1%R.
Lemma ex_dominated T : 1 <= T -> dominated R Rabs 1 T (eA T) (eB T) eC.
Proof.
  intros HT. unfold dominated, eA, eB, eC. cbv zeta. pose proof (Rabs_pos_eq (/ 2) ltac:(lra)) as H2. pose proof (Rabs_pos_eq 1 ltac:(lra)) as H1. pose proof (Rabs_left (-3) ltac:(lra)) as H3.
  repeat split; intros g Hg; destruct (Nat.eqb_spec g 0), (Nat.eqb_spec g (T + 1)), (Nat.ltb_spec (S g) (T + 2 * 1)); cbn [orb]; try (exfalso; lia); rewrite ?H1, ?H2, ?H3; lra.
Qed.
(** 4 processors of 8 rows each, right hand side 1: *)
Definition ex_rows (p kz j : nat) : cell R := let g := first_held 8 1 p + j in mkCell R (eA 32 g) (eB 32 g) (eC g) (if (g =? 0) || (g =? 33) then 0%R else 1%R).
Example C85_case : exists X : nat -> R,
  ((X 0%nat + X 1%nat = 0)%R /\ (forall g, 1 <= g <= 32 -> (X (g - 1)%nat - 3 * X g + X (g + 1)%nat = 1)%R) /\ (X 32%nat + X 33%nat = 0)%R) /\
  forall eager, always_returns 4 eager (initial (msg R) (vector R) (fun p => pcr_r 1 1 8 4 p (ex_rows p) (fun _ _ => 0%R)))
    (fun p x => forall j, j < rows_held 4 8 1 p -> x 0 j = X (first_held 8 1 p + j)).
Proof.
  pose proof (fun eager => C85_solves_real 3 2 1 1 eager (fun _ => eA 32) (fun _ => eB 32) (fun _ => eC) (fun _ g => if (g =? 0) || (g =? 33) then 0%R else 1%R) ex_rows (fun _ _ _ => 0%R) (le_n 1)
    (fun _ _ => ex_dominated 32 ltac:(lia)) (fun p kz j _ _ _ => eq_refl)) as H.
  destruct (H (fun _ _ => false)) as (X & S0 & U0 & _). exists (X 0). split.
  - specialize (S0 0 ltac:(lia)). split; [|split].
    + pose proof (S0 0 ltac:(cbn; lia)) as E. change (0 + eB 32 0 * X 0%nat 0%nat + eC 0 * X 0%nat 1%nat = 0)%R in E. unfold eB, eC in E. cbn [Nat.eqb orb] in E. lra.
    + intros g Hg. pose proof (S0 g ltac:(cbn; lia)) as E. destruct g as [|h]; [lia|]. unfold eA, eB, eC in E. destruct (Nat.eqb_spec (S h) 0), (Nat.eqb_spec (S h) (32 + 1)), (Nat.eqb_spec (S h) 33); try lia. cbn [orb] in E.
      assert (LT : (S (S h) <? 2 ^ 2 * 2 ^ 3 + 2 * 1) = true) by (apply Nat.ltb_lt; change (2 ^ 2 * 2 ^ 3 + 2 * 1) with 34; lia). rewrite LT in E. replace (S h - 1) with h by lia. replace (S h + 1) with (S (S h)) by lia. lra.
    + pose proof (S0 33 ltac:(cbn; lia)) as E. change (eA 32 33 * X 0%nat 32%nat + eB 32 33 * X 0%nat 33%nat + 0 = 0)%R in E. unfold eA, eB in E. cbn [Nat.eqb Nat.add orb] in E. lra.
  - intros eager. destruct (H eager) as (X2 & S2 & U2 & [K HK]). exists K. intros k st HS. destruct (HK k st HS) as (A1 & A2 & A3). split; [exact A1|]. split; [exact A2|]. intros EK. destruct (A3 EK) as [B1 B2]. split; [|exact B2].
    intros p Hp. destruct (B1 p Hp) as (v & V1 & V2). exists v. split; [exact V1|]. intros j Hj. destruct (V2 0 j) as [V3 _]. rewrite (V3 ltac:(lia) Hj). apply U0; [lia|apply S2; lia|].
    change (2 ^ 3) with 8. change (2 ^ 2) with 4. unfold rows_held, first_held in *. destruct (Nat.eqb_spec p 0), (Nat.eqb_spec p (4 - 1)); lia.
Qed.

(** solve(Field3D): nsys becomes nmode * ny whatever the object was used for before, so every mode of every slice is solved. *)
Theorem C85_field3d : forall nmode ny h kn kN xs eager (A B C R : nat -> nat -> Complex.C) (d : nat -> matrix Complex.C) (x0 : nat -> vector Complex.C),
  let n := 2 ^ kn in let N := 2 ^ kN in let T := N * n in let nx := T + 2 * xs in
  1 <= xs ->
  (forall kz, kz < nmode * ny -> dominated Complex.C Cmod xs T (A kz) (B kz) (C kz)) ->
  (forall p kz j, p < N -> kz < nmode * ny -> j < rows_held N n xs p ->
     let g := first_held n xs p + j in d p kz j = mkCell Complex.C (A kz g) (B kz g) (C kz g) (R kz g)) ->
  always_returns N eager (initial (msg Complex.C) (vector Complex.C) (fun p => pcr_c (nsys_after nmode (h ++ [Solve3D ny])) xs n N p (d p) (x0 p)))
    (fun p x => forall kz Y, kz < nmode * ny -> tri_c nx (A kz) (B kz) (C kz) (R kz) Y ->
       forall j, j < rows_held N n xs p -> x kz j = Y (first_held n xs p + j)) /\
  (forall kz, kz < nmode * ny -> exists Y, tri_c nx (A kz) (B kz) (C kz) (R kz) Y).
Proof.
  intros nmode ny h kn kN xs eager A B C R d x0 n N T nx H1 H2 H3.
  assert (E : nsys_after nmode (h ++ [Solve3D ny]) = nmode * ny) by (unfold nsys_after; rewrite fold_left_app; reflexivity). rewrite E.
  destruct (C85_solves kn kN xs (nmode * ny) eager A B C R d x0 H1 H2 H3) as (X & S0 & U0 & K & HK). split; [|intros kz Hk; exists (X kz); apply S0; exact Hk].
  exists K. intros k st HS. destruct (HK k st HS) as (B1 & B2 & B3). split; [exact B1|]. split; [exact B2|]. intros EK. destruct (B3 EK) as [D1 D2]. split; [|exact D2].
  intros p Hp. destruct (D1 p Hp) as (v & V1 & V2). exists v. split; [exact V1|]. intros kz Y Hk HY j Hj. destruct (V2 kz j) as [V3 _]. rewrite (V3 Hk Hj).
  symmetry. apply (U0 kz Y Hk HY). unfold rows_held, first_held in *. fold n N T nx in Hj |- *.
  assert (p * n + n <= N * n) by nia. unfold nx, T. destruct (p =? 0), (p =? N - 1); lia.
Qed.

(** solve(FieldPerp) does not set nsys. If the object never solved for a Field3D, the memory returned is never written: *)
Lemma one_step eager (P : nat -> prog (msg R) (vector R)) v : P 0 = Reuse (Ret v) -> always_returns 1 eager (initial (msg R) (vector R) P) (fun _ x => x = v).
Proof.
  intros E. exists 1. intros k st HS. inversion HS as [s0 Q1 Q2|k' p s1 s2 s3 Hp ES HS' Q1 Q2 Q3]; subst.
  - split; [lia|]. split; [|lia]. split; [|lia]. intros H. specialize (H 0 ltac:(lia)). unfold step in H. cbn [initial procs] in H. rewrite E in H. discriminate H.
  - replace p with 0 in ES by lia. unfold step in ES. cbn [initial procs] in ES. rewrite E in ES. cbn [existsb negb] in ES. injection ES as <-.
    inversion HS' as [s0 Q1 Q2|k'' p' s1' s2' s3' Hp' ES' HS'' Q1 Q2 Q3]; subst.
    + split; [lia|]. split; [split; [reflexivity|]|].
      * intros _ q Hq. replace q with 0 by lia. reflexivity.
      * intros _. split; [|reflexivity]. intros q Hq. replace q with 0 by lia. exists v. split; reflexivity.
    + replace p' with 0 in ES' by lia. discriminate ES'.
Qed.
Theorem C85_fieldperp_refuted : exists (A B C D : nat -> R) (d : matrix R) (x0 : vector R),
  dominated R Rabs 1 1 A B C /\ (forall j, j < 3 -> d 0 j = mkCell R (A j) (B j) (C j) (D j)) /\
  forall eager nmode h, (forall c, In c h -> c = SolvePerp) ->
    always_returns 1 eager (initial (msg R) (vector R) (fun p => pcr_r (nsys_after nmode h) 1 1 1 p d x0))
      (fun p x => x = x0 /\ ~ tri_solution R 0%R Rplus Rmult 3 A B C D (x 0)).
Proof.
  exists (eA 1), (eB 1), eC, (fun _ => 1%R), (fun _ j => mkCell R (eA 1 j) (eB 1 j) (eC j) 1%R), (fun _ _ => 0%R). split; [apply ex_dominated; lia|]. split; [reflexivity|].
  intros eager nmode h Hh. assert (E : nsys_after nmode h = 0).
  { unfold nsys_after. assert (G : forall s, fold_left (nsys_of nmode) h s = s); [|apply G]. induction h as [|c h IH]; intros s; [reflexivity|]. cbn [fold_left]. rewrite (Hh c (or_introl eq_refl)). cbn [nsys_of]. apply IH. intros c' Hc. apply Hh. right. exact Hc. }
  rewrite E. destruct (one_step eager (fun p => pcr_r 0 1 1 1 p (fun _ j => mkCell R (eA 1 j) (eB 1 j) (eC j) 1%R) (fun _ _ => 0%R)) (fun _ _ => 0%R) ltac:(lazy; reflexivity)) as [K HK].
  exists K. intros k st HS. destruct (HK k st HS) as (A1 & A2 & A3). split; [exact A1|]. split; [exact A2|]. intros EK. destruct (A3 EK) as [B1 B2]. split; [|exact B2]. intros p Hp. destruct (B1 p Hp) as (v & V1 & ->).
  exists (fun _ _ => 0%R). split; [exact V1|]. split; [reflexivity|]. intros S0. specialize (S0 1 ltac:(lia)). cbn in S0. lra.
Qed.

Print Assumptions C85_solves.
Print Assumptions C85_field3d.
Print Assumptions C85_solves_real.
Print Assumptions C85_fieldperp_refuted.
