(** Boundary conditions. *)
From Coq Require Import List Arith Bool ZArith Reals Lia Lra.
From Coquelicot Require Import Complex.
From Verif Require Import Base CyclicModel CyclicSpec CyclicProofs2 CyclicProofs3 CyclicProps FftModel FftSpec FftProofs FftProofs2 FftProofs3 FftProofs4
  LaplaceModel LaplaceSpec LaplaceProofs LaplaceProofs2 LaplaceProofs3.
Import ListNotations.
Local Open Scope R_scope.

Definition inner_bc (o : opts) (m : xdata) (w kz : nat) (kw : R) (ix : nat) : R * R :=
  let fl := inner o in
  let val := (-1 / sqrt (g_11 m ix) / dx m ix, 1 / sqrt (g_11 m ix) / dx m ix) in
  if (kz =? 0)%nat then
    if (b_dc_grad fl && (b_set fl || b_rhs fl))%bool then val
    else if b_dc_grad fl then (-1, 1)
    else if b_dc_gradpar fl then (1 / sqrt (g_22 m ix), -1 / sqrt (g_22 m (ix + 1)%nat))
    else if b_dc_gradparinv fl then (sqrt (g_22 m ix), - sqrt (g_22 m (ix + 1)%nat))
    else if b_dc_lap fl then (1, - exp (- sqrt (- cA m w) * dx m ix / sqrt (g11 m ix)))
    else if b_cylinder fl then (1, -1) else (0.5, 0.5)
  else
    if (b_ac_grad fl && (b_set fl || b_rhs fl))%bool then val
    else if b_ac_grad fl then (-1, 1)
    else if b_ac_lap fl then (1, - exp (-1 * sqrt (g33 m ix / g11 m ix) * kw * dx m ix))
    else if b_cylinder fl then (1, if (kz mod 2 =? 0)%nat then -1 else 1)
    else (0.5, 0.5).

Lemma low_get : forall w f t i, (i < w)%nat -> va (low_rows w f t) i = fst (fst (f i)) /\ vb (low_rows w f t) i = snd (fst (f i)) /\
  vc (low_rows w f t) i = snd (f i) /\ vk (low_rows w f t) i = vk t i.
Proof. intros w f t i H. unfold low_rows; cbn [va vb vc vk]. rewrite (proj2 (Nat.ltb_lt i w)) by lia. auto. Qed.
Lemma high_get : forall n w f t i, (i <= n)%nat -> (n - i < w)%nat ->
  va (high_rows n w f t) i = fst (fst (f (n - i)%nat)) /\ vb (high_rows n w f t) i = snd (fst (f (n - i)%nat)) /\
  vc (high_rows n w f t) i = snd (f (n - i)%nat) /\ vk (high_rows n w f t) i = vk t i.
Proof.
  intros n w f t i H H'. unfold high_rows; cbn [va vb vc vk]. rewrite (proj2 (Nat.ltb_lt _ w)), (proj2 (Nat.leb_le i n)) by lia. auto.
Qed.

Lemma inner_get : forall o gd m kz kw t t1 i, inner_rows o gd m kz kw t = Ok t1 -> (i < inbndry o gd)%nat ->
  let bc := inner_bc o m (inbndry o gd) kz kw i in
  va t1 i = RtoC 0 /\ vb t1 i = RtoC (fst bc) /\ vc t1 i = RtoC (snd bc) /\
  vk t1 i = if (b_rhs (inner o) || b_set (inner o))%bool then vk t i else RtoC 0.
Proof.
  intros o gd m kz kw t t1 i H Hi. unfold inner_rows in H. cbv zeta in H. unfold inner_bc. cbv zeta.
  set (t' := if (b_rhs (inner o) || b_set (inner o))%bool then t else low_zero (inbndry o gd) t) in *.
  assert (Hk : vk t' i = if (b_rhs (inner o) || b_set (inner o))%bool then vk t i else RtoC 0).
  { unfold t'. destruct (b_rhs (inner o) || b_set (inner o))%bool; [reflexivity|]. unfold low_zero; cbn [vk].
    rewrite (proj2 (Nat.ltb_lt i (inbndry o gd))) by lia. reflexivity. }
  repeat match type of H with
  | (if Rlt_dec ?a ?b then _ else _) = Ok _ => destruct (Rlt_dec a b)
  | (if ?c then _ else _) = Ok _ => destruct c
  end; try discriminate; injection H as <-;
  match goal with |- context [low_rows ?w ?f ?tt] => destruct (low_get w f tt i Hi) as (A & B & D & E) end;
  rewrite A, B, D, E, Hk; cbn [cr3 fst snd]; repeat split; reflexivity.
Qed.

Definition outer_bc (o : opts) (m : xdata) (win kz : nat) (kw : R) (pos loc : nat) : R * R :=
  let fl := outer o in
  let val := (-1 / sqrt (g_11 m loc) / dx m loc, 1 / sqrt (g_11 m loc) / dx m loc) in
  if (kz =? 0)%nat then
    if (b_dc_grad fl && (b_set fl || b_rhs fl))%bool then val
    else if b_dc_grad fl then (1, -1) else (0.5, 0.5)
  else
    if (b_ac_grad fl && (b_set fl || b_rhs fl))%bool then val
    else if b_ac_grad fl then (1, -1)
    else if b_ac_lap fl then (- exp (-1 * sqrt (g33 m pos / g11 m pos) * kw * dx m pos), 1)
    else (0.5, 0.5).

(** The DC conditions that the outer boundary takes from the inner flags. *)
Definition no_stray (o : opts) (kz : nat) : Prop :=
  kz = 0%nat -> b_dc_grad (outer o) = true \/ (b_dc_gradpar (inner o) = false /\ b_dc_gradparinv (inner o) = false /\ b_dc_lap (inner o) = false).

Lemma outer_get : forall o gd L n e m kz kw t t1 i, outer_rows o gd L n e m kz kw t = Ok t1 -> (i <= n)%nat -> (n - i < outbndry o gd)%nat -> (n <= e)%nat ->
  no_stray o kz ->
  let bc := outer_bc o m (inbndry o gd) kz kw (e - (n - i)) i in
  va t1 i = RtoC (fst bc) /\ vb t1 i = RtoC (snd bc) /\ vc t1 i = RtoC 0 /\
  vk t1 i = if (b_rhs (outer o) || b_set (outer o))%bool then vk t i else RtoC 0.
Proof.
  intros o gd L n e m kz kw t t1 i H Hi Hw He Hns. unfold outer_rows in H. cbv zeta in H. unfold outer_bc. cbv zeta.
  set (t' := if (b_rhs (outer o) || b_set (outer o))%bool then t else high_zero n (outbndry o gd) t) in *.
  assert (Hk : vk t' i = if (b_rhs (outer o) || b_set (outer o))%bool then vk t i else RtoC 0).
  { unfold t'. destruct (b_rhs (outer o) || b_set (outer o))%bool; [reflexivity|]. unfold high_zero; cbn [vk].
    rewrite (proj2 (Nat.ltb_lt _ _)), (proj2 (Nat.leb_le i n)) by lia. reflexivity. }
  destruct (Nat.eqb_spec kz 0) as [E0|E0].
  - destruct (b_dc_grad (outer o)) eqn:Eg; cbn [andb] in *.
    + destruct (b_set (outer o) || b_rhs (outer o))%bool; injection H as <-;
      match goal with |- context [high_rows ?a ?w ?f ?tt] => destruct (high_get a w f tt i Hi Hw) as (A & B & D & E) end;
      rewrite A, B, D, E, Hk; cbn [cr3 fst snd]; replace (n - (n - i))%nat with i by lia; repeat split; reflexivity.
    + destruct (Hns E0) as [X|(X1 & X2 & X3)]; [congruence|]. rewrite X1, X2, X3 in H. injection H as <-.
      match goal with |- context [high_rows ?a ?w ?f ?tt] => destruct (high_get a w f tt i Hi Hw) as (A & B & D & E) end.
      rewrite A, B, D, E, Hk. cbn [cr3 fst snd]. repeat split; reflexivity.
  - destruct (b_ac_grad (outer o) && (b_set (outer o) || b_rhs (outer o)))%bool; [|destruct (b_ac_grad (outer o)); [|destruct (b_ac_lap (outer o))]];
      injection H as <-;
      match goal with |- context [high_rows ?a ?w ?f ?tt] => destruct (high_get a w f tt i Hi Hw) as (A & B & D & E) end;
      rewrite A, B, D, E, Hk; cbn [cr3 fst snd]; try (replace (n - (n - i))%nat with i by lia); repeat split; reflexivity.
Qed.

Lemma rfft_zero : forall n k, rfft n (fun _ => 0) k = RtoC 0.
Proof.
  intros n k. apply C_eq; rewrite ?rfft_re, ?rfft_im; cbn [RtoC fst snd]; rewrite rsum_0 by (intros; ring); unfold Rdiv; ring.
Qed.

(** ** The inner condition of every mode *)
Lemma inner_mode : forall l o nz zl M rhs x0 mats p k q F X0,
  well_laid l -> periodicX o = false -> all_matrices l o nz zl M rhs x0 = Ok mats -> (k <= maxmode o)%nat ->
  gathers l o nz rhs F -> gathers l o nz x0 X0 ->
  p = 0%nat -> (q < inbndry o (g l))%nat ->
  let bc := inner_bc o M (inbndry o (g l)) k (kwave zl k) q in
  va (mats p k) q = RtoC 0 /\ vb (mats p k) q = RtoC (fst bc) /\ vc (mats p k) q = RtoC (snd bc) /\
  vk (mats p k) q = rfft nz (imposed (inner o) F X0 q) k.
Proof.
  intros l o nz zl M rhs x0 mats p k q F X0 Hl Hper H Hk HF HX Hp Hq bc. subst p. pose proof Hl as (L1 & L2 & L3).
  destruct (bndry_ge1 o (g l) L3) as ((B1 & B2) & (B3 & B4)).
  pose proof (mats_row l o nz zl M rhs x0 mats 0%nat k H L1 Hk) as E. pose proof (xs_le_xe l o 0%nat Hl) as Hxx.
  unfold tridagMatrix in E. cbv zeta in E. rewrite Hper in E. cbn [negb] in E.
  set (ncx := (xe l o 0 - xs l o 0)%nat) in *.
  match type of E with context [inner_rows _ _ _ _ _ ?tt] => set (t := tt) in E end.
  change (0 =? 0)%nat with true in E. cbv iota in E.
  assert (Exs : xs l o 0 = 0%nat) by (unfold xs; rewrite Hper; reflexivity).
  destruct (inner_rows o (g l) (view (0 * mx l) M) k (kwave zl k) t) as [t1| |] eqn:E1; cbn [bind] in E; try discriminate.
  destruct (inner_get _ _ _ _ _ _ _ q E1 Hq) as (A & B & D & V). 
  assert (Hncx : (mx l + g l <= ncx + 1)%nat).
  { unfold ncx, xe, LocalNx. rewrite Exs, Hper. destruct (0 =? np l - 1)%nat; cbn [negb andb]; lia. }
  assert (S : same_row (mats 0%nat k) t1 q).
  { destruct (Nat.eqb_spec 0 (np l - 1)) as [Ep|]; [|injection E as <-; apply same_row_refl].
    assert (Hn : (ncx + 1 = mx l + 2 * g l)%nat).
    { unfold ncx, xe. rewrite Hper, Exs. rewrite (proj2 (Nat.eqb_eq 0 (np l - 1)) Ep). cbn [negb andb]. unfold LocalNx. lia. }
    apply (outer_rows_other _ _ _ _ _ _ _ _ _ _ q E); lia. }
  destruct S as (S1 & S2 & S3 & S4). rewrite S1, S2, S3, S4, A, B, D, V. split; [reflexivity|].
  assert (EV : view (0 * mx l) M = M) by (destruct M; reflexivity). rewrite EV. split; [reflexivity|]. split; [reflexivity|].
  unfold t; cbn [vk]. rewrite Exs. cbn [Nat.add]. unfold imposed, source_row.
  rewrite (proj2 (Nat.ltb_lt q (inbndry o (g l)))) by lia. change (0 =? 0)%nat with true. cbn [andb].
  assert (Gat : forall f Fd, gathers l o nz f Fd -> rfft nz (f 0%nat q) k = rfft nz (Fd q) k).
  { intros f Fd Hf. apply rfft_ext. intros j Hj. rewrite (Hf 0%nat q j L1); [reflexivity| |exact Hj]. unfold ncx in Hncx. lia. }
  destruct (b_set (inner o)) eqn:Es; cbn [andb orb].
  - rewrite orb_true_r. apply Gat; auto.
  - rewrite orb_false_r. destruct (b_rhs (inner o)) eqn:Er.
    + rewrite <- (Gat rhs F HF).
      replace ((LocalNx l - q - 1 <? outbndry o (g l))%nat && b_set (outer o) && (0 =? np l - 1)%nat)%bool with false; [reflexivity|].
      symmetry. rewrite (proj2 (Nat.ltb_ge _ _)); [reflexivity|]. unfold LocalNx. lia.
    + symmetry. apply rfft_zero.
Qed.

(** ** The outer condition of every mode *)
Lemma outer_mode : forall l o nz zl M rhs x0 mats k ix F X0,
  well_laid l -> periodicX o = false -> all_matrices l o nz zl M rhs x0 = Ok mats -> (k <= maxmode o)%nat ->
  gathers l o nz rhs F -> gathers l o nz x0 X0 -> no_stray o k ->
  (ix < outbndry o (g l))%nat ->
  let p := (np l - 1)%nat in
  let q := (nrows l o p - 1 - ix)%nat in
  let i := (NX l - 1 - ix)%nat in
  let bc := outer_bc o (view (p * mx l) M) (inbndry o (g l)) k (kwave zl k) (LocalNx l - 1 - ix) q in
  (p < np l)%nat /\ (q < nrows l o p)%nat /\ i = (off (nrows l o) p + q)%nat /\ i = (p * mx l + (xs l o p + q))%nat /\
  va (mats p k) q = RtoC (fst bc) /\ vb (mats p k) q = RtoC (snd bc) /\ vc (mats p k) q = RtoC 0 /\
  vk (mats p k) q = rfft nz (imposed (outer o) F X0 i) k.
Proof.
  intros l o nz zl M rhs x0 mats k ix F X0 Hl Hper H Hk HF HX Hns Hix p q i bc. pose proof Hl as (L1 & L2 & L3).
  destruct (bndry_ge1 o (g l) L3) as ((B1 & B2) & (B3 & B4)).
  assert (Hp : (p < np l)%nat) by (unfold p; lia).
  pose proof (mats_row l o nz zl M rhs x0 mats p k H Hp Hk) as E. pose proof (xs_le_xe l o p Hl) as Hxx.
  assert (Exe : xe l o p = (LocalNx l - 1)%nat) by (unfold xe; rewrite Hper; unfold p; rewrite Nat.eqb_refl; reflexivity).
  assert (Exs : (xs l o p <= g l)%nat) by (unfold xs; destruct ((p =? 0)%nat && negb (periodicX o))%bool; lia).
  assert (Hnr : (nrows l o p = LocalNx l - xs l o p)%nat) by (unfold nrows; rewrite Exe; unfold LocalNx; lia).
  assert (HL : (LocalNx l = mx l + 2 * g l)%nat) by reflexivity.
  assert (Hq : (q < nrows l o p)%nat) by (unfold q; lia).
  assert (Qe : (q + ix + 1 + xs l o p = LocalNx l)%nat) by (unfold q; lia).
  assert (Hi2 : i = (p * mx l + (xs l o p + q))%nat).
  { assert (EP : (np l * mx l = p * mx l + mx l)%nat) by (unfold p; destruct (np l); [lia|cbn [Nat.mul Nat.sub]; rewrite Nat.sub_0_r; lia]).
    unfold i, q, NX. clear - EP Qe HL Hnr Hix B3 B4 Exs L2. fold q. rewrite EP. generalize dependent (p * mx l)%nat. intros. clearbody q p. clear Hnr. lia. }
  assert (Hi1 : i = (off (nrows l o) p + q)%nat) by (rewrite off_nrows by auto; rewrite Hi2; clear; lia).
  split; [exact Hp|]. split; [exact Hq|]. split; [exact Hi1|]. split; [exact Hi2|].
  unfold tridagMatrix in E. cbv zeta in E. rewrite Hper in E. cbn [negb] in E.
  set (ncx := (xe l o p - xs l o p)%nat) in *.
  match type of E with context [inner_rows _ _ _ _ _ ?tt] => set (t := tt) in E end.
  assert (Hncx : ncx = (nrows l o p - 1)%nat) by (unfold ncx, nrows; clear - Hxx; lia).
  destruct (if (p =? 0)%nat then inner_rows o (g l) (view (p * mx l) M) k (kwave zl k) t else Ok t) as [t1| |] eqn:E1; cbn [bind] in E; try discriminate.
  assert (Hqi : p = 0%nat -> (inbndry o (g l) <= q)%nat).
  { intros Hp0. assert (xs l o p = 0%nat) by (unfold xs; rewrite Hper, Hp0; reflexivity). unfold q. lia. }
  assert (S1 : same_row t1 t q).
  { destruct (Nat.eqb_spec p 0) as [Hp0|]; [|injection E1 as <-; apply same_row_refl].
    apply (inner_rows_other _ _ _ _ _ _ _ q E1). auto. }
  replace (p =? np l - 1)%nat with true in E by (symmetry; apply Nat.eqb_refl).
  destruct (outer_get _ _ _ _ _ _ _ _ _ _ q E ltac:(clear - Hq Hncx; clearbody q ncx; lia) ltac:(clear - Hncx Qe Hnr Hix; clearbody q ncx; lia) ltac:(unfold ncx; clear; lia) Hns) as (A & B & D & V).
  replace (xe l o p - (ncx - q))%nat with (LocalNx l - 1 - ix)%nat in A, B by (rewrite Exe, Hncx; clear - Qe Hnr Hq; clearbody q; lia).
  rewrite A, B, D, V. split; [reflexivity|]. split; [reflexivity|]. split; [reflexivity|].
  destruct S1 as (_ & _ & _ & S4). rewrite S4. unfold t; cbn [vk]. unfold imposed, source_row.
  assert (Gat : forall f Fd, gathers l o nz f Fd -> rfft nz (f p (xs l o p + q)%nat) k = rfft nz (Fd i) k).
  { intros f Fd Hf. apply rfft_ext. intros j Hj. rewrite (Hf p (xs l o p + q)%nat j Hp); [rewrite Hi2; reflexivity| |exact Hj]. rewrite Exe. clear - Qe; clearbody q; lia. }
  replace ((xs l o p + q <? inbndry o (g l))%nat && b_set (inner o) && (p =? 0)%nat)%bool with false.
  2:{ symmetry. destruct (Nat.eqb_spec p 0) as [Hp0|]; [|rewrite andb_false_r; reflexivity].
      rewrite (proj2 (Nat.ltb_ge _ _)); [reflexivity|]. specialize (Hqi Hp0). clear - Hqi; lia. }
  replace (p =? np l - 1)%nat with true by (symmetry; apply Nat.eqb_refl). cbn [orb]. rewrite andb_true_r.
  rewrite (proj2 (Nat.ltb_lt (LocalNx l - (xs l o p + q) - 1) _)) by (clear - Qe Hix; clearbody q; lia). cbn [andb].
  destruct (b_set (outer o)) eqn:Es.
  - rewrite orb_true_r. apply Gat; auto.
  - rewrite orb_false_r. destruct (b_rhs (outer o)) eqn:Er; [apply Gat; auto|symmetry; apply rfft_zero].
Qed.
