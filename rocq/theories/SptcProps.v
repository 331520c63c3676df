(** C83: the concurrent solve of LaplaceSPT. *)
From Coq Require Import List Arith Bool ZArith Lia Field.
From Verif Require SptModel SptSpec SptProps.
From Verif Require Import Base SptcModel SptcSpec SptcProofs SptcProofs3 SptcProofs2.
Import ListNotations.
Open Scope nat_scope.

Lemma finite_choice {X : Type} (P : nat -> X -> Prop) n : 1 <= n -> (forall s, s < n -> exists x, P s x) -> exists f, forall s, s < n -> P s (f s).
Proof.
  intros Hn. induction n as [|n IH]; intros H; [lia|]. destruct (H n ltac:(lia)) as [x Hx]. destruct n as [|n].
  - exists (fun _ => x). intros s Hs. replace s with 0 by lia. exact Hx.
  - destruct (IH ltac:(lia) ltac:(intros; apply H; lia)) as [f Hf]. exists (fun s => if s =? S n then x else f s). intros s Hs.
    destruct (Nat.eqb_spec s (S n)) as [->|]; [exact Hx|apply Hf; lia].
Qed.

Section T.
Variables L Msg : Type.
Variable fst0 : nat -> Msg -> L -> res (L * Msg).
Variables mid turn midb : nat -> nat -> L -> Msg -> res (L * Msg).
Variable fstb : nat -> L -> Msg -> res L.

Lemma all_good N ns ops c0 result : 2 <= N -> 1 <= ns -> code_for N ns ops -> initial N (fun r => flat_map (acts N r) ops) c0 ->
  one_by_one L Msg N fst0 mid turn midb fstb ns c0 result ->
  runs_well L Msg N fst0 mid turn midb fstb ns c0 result /\ can_finish L Msg N fst0 mid turn midb fstb c0.
Proof.
  intros HN Hn HO (HR & HH & HC) HS.
  destruct (finite_choice (fun s (x : (nat -> L) * (nat -> L) * (nat -> Msg) * (nat -> Msg)) => let '(w1, w2, fm, bm) := x in
      fst0 s (buf c0 0 s) (work c0 0 s) = Ok (w1 0, fm 0) /\ (forall r, 0 < r < N - 1 -> mid s r (work c0 r s) (fm (r - 1)) = Ok (w1 r, fm r)) /\
      turn s (N - 1) (work c0 (N - 1) s) (fm (N - 2)) = Ok (w1 (N - 1), bm (N - 1)) /\ (forall r, 0 < r < N - 1 -> midb s r (w1 r) (bm (S r)) = Ok (w2 r, bm r)) /\
      fstb s (w1 0) (bm 1) = Ok (w2 0) /\ forall r, r < N -> result s r = if r =? N - 1 then w1 r else w2 r) ns Hn) as [f Hf].
  { intros s Hs. destruct (chain_data _ _ _ _ _ _ _ _ _ _ (HS s Hs)) as (w1 & w2 & fm & bm & H). exists (w1, w2, fm, bm). exact H. }
  set (w1 := fun r s => fst (fst (fst (f s))) r). set (w2 := fun r s => snd (fst (fst (f s))) r). set (fm := fun r s => snd (fst (f s)) r). set (bm := fun r s => snd (f s) r).
  assert (K : forall s, s < ns -> fst0 s (buf c0 0 s) (work c0 0 s) = Ok (w1 0 s, fm 0 s) /\ (forall r, 0 < r < N - 1 -> mid s r (work c0 r s) (fm (r - 1) s) = Ok (w1 r s, fm r s)) /\
      turn s (N - 1) (work c0 (N - 1) s) (fm (N - 2) s) = Ok (w1 (N - 1) s, bm (N - 1) s) /\ (forall r, 0 < r < N - 1 -> midb s r (w1 r s) (bm (S r) s) = Ok (w2 r s, bm r s)) /\
      fstb s (w1 0 s) (bm 1 s) = Ok (w2 0 s) /\ forall r, r < N -> result s r = if r =? N - 1 then w1 r s else w2 r s).
  { intros s Hs. specialize (Hf s Hs). unfold w1, w2, fm, bm. destruct (f s) as [[[u1 u2] um] ub]. cbn [fst snd]. exact Hf. }
  clearbody w1 w2 fm bm. clear f Hf HS.
  assert (H0 : forall s, s < ns -> fst0 s (buf c0 0 s) (work c0 0 s) = Ok (w1 0 s, fm 0 s)) by (intros s Hs; apply (K s Hs)).
  assert (Hm : forall r s, s < ns -> 0 < r < N - 1 -> mid s r (work c0 r s) (fm (r - 1) s) = Ok (w1 r s, fm r s)) by (intros r s Hs Hr; apply (K s Hs); exact Hr).
  assert (Ht : forall s, s < ns -> turn s (N - 1) (work c0 (N - 1) s) (fm (N - 2) s) = Ok (w1 (N - 1) s, bm (N - 1) s)) by (intros s Hs; apply (K s Hs)).
  assert (Hb : forall r s, s < ns -> 0 < r < N - 1 -> midb s r (w1 r s) (bm (S r) s) = Ok (w2 r s, bm r s)) by (intros r s Hs Hr; apply (K s Hs); exact Hr).
  assert (Hz : forall s, s < ns -> fstb s (w1 0 s) (bm 1 s) = Ok (w2 0 s)) by (intros s Hs; apply (K s Hs)).
  assert (I0 : inv L Msg N ns (work c0) w1 w2 (buf c0) fm bm c0 (fun r _ => ini r)).
  { apply (inv_start L Msg N HN ns (work c0) w1 w2 (buf c0) fm bm c0 ops); try assumption; reflexivity. }
  assert (RW : runs_well L Msg N fst0 mid turn midb fstb ns c0 result).
  { intros n c ST.
    destruct (inv_steps L Msg N HN ns fst0 mid turn midb fstb (work c0) w1 w2 (buf c0) fm bm H0 Hm Ht Hb Hz n c0 c _ I0 ST) as (ph & I & E).
    split; [assert (total N ns ph <= 10 * ns * N) by (eapply total_bound; eassumption); lia|].
    split; [intros r a rest Hr ER; eapply (no_fault L Msg N HN ns fst0 mid turn midb fstb (work c0) w1 w2 (buf c0) fm bm H0 Hm Ht Hb Hz); eassumption|].
    split.
    - destruct (all_or (fun r => rem c r = []) (fun r => rem c r <> []) N) as [A|A]; [intros i _; destruct (rem c i); [left; reflexivity|right; discriminate]|left; exact A|right].
      apply (progress L Msg N HN ns fst0 mid turn midb fstb (work c0) w1 w2 (buf c0) fm bm H0 Hm Ht Hb Hz c ph ops HO I ops []); [reflexivity| |exact A].
      eapply (suffix_steps L Msg N fst0 mid turn midb fstb); eassumption.
    - intros FI. destruct (at_end L Msg N HN ns (work c0) w1 w2 (buf c0) fm bm c ph I FI) as [A B]. split; [|exact B].
      intros r s Hr Hs. destruct (A r s Hr Hs) as [A1 A2]. split; [|exact A2]. rewrite A1. symmetry. apply (K s Hs). exact Hr. }
  split; [exact RW|]. unfold can_finish.
  assert (G : forall m n c, n + m = S (10 * ns * N) -> steps L Msg N fst0 mid turn midb fstb n c0 c -> exists n c, steps L Msg N fst0 mid turn midb fstb n c0 c /\ finished N c).
  { induction m as [|m IH]; intros n c E ST; destruct (RW n c ST) as (B & _ & P & _); [lia|].
    destruct P as [P|(c' & P & _)]; [exists n, c; split; assumption|]. apply (IH (S n) c'); [lia|]. econstructor; eassumption. }
  apply (G _ 0 c0 eq_refl). constructor.
Qed.

(** Field3D, [ns] slices on [N] processors: the loops of solve end; every execution, with any order of the processors and any
    delay of the messages, has bounded length, never misuses a buffer or a request, never deadlocks, and gives for every slice
    the result of the calculation for this slice alone, one processor after the other. *)
Theorem C83_field3d : forall N ns (junk : nat -> nat -> ctl), 2 <= N -> 1 <= ns ->
  exists prog, (forall r, code3d (2 * N) N ns r (junk r) = Some (prog r)) /\
  forall c0 result, initial N prog c0 -> one_by_one L Msg N fst0 mid turn midb fstb ns c0 result ->
    runs_well L Msg N fst0 mid turn midb fstb ns c0 result /\ can_finish L Msg N fst0 mid turn midb fstb c0.
Proof.
  intros N ns junk HN Hn. destruct (visits3d N HN ns Hn) as (ops & E & F & C). exists (fun r => flat_map (acts N r) ops). split.
  - intros r. rewrite (solve3d_sim N HN r (2 * N) ns (junk r) (fun _ => 0)), E. reflexivity.
  - intros c0 result HI HS. apply (all_good N ns ops); try assumption. split; assumption.
Qed.
(** FieldPerp. *)
Theorem C83_fieldperp : forall N, 2 <= N ->
  exists prog, (forall r, codeperp (2 * N) N r = Some (prog r)) /\
  forall c0 result, initial N prog c0 -> one_by_one L Msg N fst0 mid turn midb fstb 1 c0 result ->
    runs_well L Msg N fst0 mid turn midb fstb 1 c0 result /\ can_finish L Msg N fst0 mid turn midb fstb c0.
Proof.
  intros N HN. destruct (visitsperp N HN) as (ops & E & F & C). exists (fun r => flat_map (acts N r) ops). split.
  - intros r. rewrite (solveperp_sim N HN r (2 * N)), E. reflexivity.
  - intros c0 result HI HS. apply (all_good N 1 ops); try assumption; [lia|]. split; assumption.
Qed.
End T.

(** With the calculations of LaplaceSPT and C82: whatever the schedule, every processor ends with its part of the solution of the
    system of every slice and mode. *)
Section Solve.
Variable F : Type.
Variables (f0 f1 : F) (fadd fmul fsub fdiv : F -> F -> F) (fopp finv : F -> F).
Hypothesis FT : field_theory f0 f1 fadd fmul fsub fopp fdiv finv (@eq F).
Variable is_zero : F -> bool.
Hypothesis is_zero_spec : forall x, is_zero x = true <-> x = f0.
Theorem C83_solution : forall N ns mx mxg modes (A B C R : nat -> nat -> nat -> F) (S : nat -> nat -> nat -> SptModel.rows F) (junk : nat -> nat -> ctl),
  2 <= N -> 1 <= ns -> 1 <= mx -> 1 <= mxg ->
  (forall s kz, s < ns -> kz < modes -> SptSpec.represents N mx mxg (A s kz) (B s kz) (C s kz) (R s kz)
     (fun p => SptModel.ra F (S s p kz)) (fun p => SptModel.rb F (S s p kz)) (fun p => SptModel.rc F (S s p kz)) (fun p => SptModel.rr F (S s p kz))) ->
  (forall s kz k, s < ns -> kz < modes -> 1 <= k <= N * mx + 2 * mxg -> SptSpec.minor F f1 fmul fsub (A s kz) (B s kz) (C s kz) k <> f0) ->
  let len := mx + 2 * mxg in let xend := mx + mxg - 1 in
  let fst0 s := SptModel.s_first F f0 fmul fsub fdiv is_zero len xend modes (S s) in
  let mid s := SptModel.s_mid F fmul fsub fdiv is_zero len mxg xend modes (S s) in
  let turn s := SptModel.s_turn F f0 fmul fsub fdiv is_zero len mxg xend modes (S s) in
  let midb (s : nat) := SptModel.s_midb F fmul fsub len mxg xend modes in
  let fstb (s : nat) := SptModel.s_fstb F fmul fsub len xend modes in
  exists prog, (forall r, code3d (2 * N) N ns r (junk r) = Some (prog r)) /\
  forall c0 n c, initial N prog c0 -> steps (SptModel.local F) (SptModel.message F) N fst0 mid turn midb fstb n c0 c ->
    n <= 10 * ns * N /\
    (forall r a rest, r < N -> rem c r = a :: rest -> ~ faulty _ _ N fst0 mid turn midb fstb c r a) /\
    (finished N c \/ exists c', step _ _ N fst0 mid turn midb fstb c c' /\ ~ needs_buffering _ _ N c c') /\
    (finished N c -> forall s kz, s < ns -> kz < modes -> exists x,
       SptSpec.tri_solution F f0 fadd fmul (N * mx + 2 * mxg) (A s kz) (B s kz) (C s kz) (R s kz) x /\
       forall p ix, p < N -> SptSpec.holds_point N mx mxg p ix -> SptModel.xk (work c p s kz) ix = x (p * mx + ix)).
Proof.
  intros N ns mx mxg modes A B C R S junk HN Hn Hmx Hmxg HR HM len xend fst0 mid turn midb fstb.
  destruct (C83_field3d (SptModel.local F) (SptModel.message F) fst0 mid turn midb fstb N ns junk HN Hn) as (prog & EP & HP). exists prog. split; [exact EP|].
  intros c0 n c HI ST.
  destruct (finite_choice (fun s (w' : nat -> SptModel.local F) => SptModel.chain _ _ N (fst0 s (buf c0 0 s)) (mid s) (turn s) (midb s) (fstb s) (fun r => work c0 r s) = Ok w' /\
     forall kz, kz < modes -> exists x, SptSpec.tri_solution F f0 fadd fmul (N * mx + 2 * mxg) (A s kz) (B s kz) (C s kz) (R s kz) x /\
       forall p ix, p < N -> SptSpec.holds_point N mx mxg p ix -> SptModel.xk (w' p kz) ix = x (p * mx + ix)) ns Hn) as [result Hres].
  { intros s Hs. destruct (SptProps.C82_solves F f0 f1 fadd fmul fsub fdiv fopp finv FT is_zero is_zero_spec N mx mxg modes (A s) (B s) (C s) (R s) (S s) (buf c0 0 s) (fun r => work c0 r s) HN Hmx Hmxg) as (w' & E & H).
    - intros kz Hk. apply HR; assumption.
    - intros kz k Hk H. apply HM; assumption.
    - exists w'. split; [exact E|]. intros kz Hk. destruct (H kz Hk) as (x & X1 & _ & X2). exists x. split; assumption. }
  destruct (HP c0 result HI) as [RW _]; [intros s Hs; apply Hres; exact Hs|]. destruct (RW n c ST) as (G1 & G2 & G3 & G4). split; [exact G1|]. split; [exact G2|]. split; [exact G3|].
  intros FI s kz Hs Hk. destruct (Hres s Hs) as [_ H]. destruct (H kz Hk) as (x & X1 & X2). exists x. split; [exact X1|].
  intros p ix Hp Hh. destruct (G4 FI) as [W _]. destruct (W p s Hp Hs) as [-> _]. apply X2; assumption.
Qed.
End Solve.

(** A case: three processors and two slices; the computations write down what was done. *)
Definition note_f (tag : nat) (s r : nat) (l : list nat) (m : list nat) : res (list nat * list nat) := Ok (l ++ [tag; s; r] ++ m, [tag; r]).
Definition ex0 (prog : nat -> list act) : cfg (list nat) (list nat) :=
  mkCfg prog (fun r s => [100 * s + r]) (fun _ _ => [77]) (fun _ _ => HNone) (fun _ _ _ => []).
Definition ex_chain (s : nat) := SptModel.chain (list nat) (list nat) 3 (fun l => note_f 1 s 0 l [77]) (note_f 2 s) (note_f 3 s) (note_f 4 s)
  (fun l m => do t <- note_f 5 s 0 l m; Ok (fst t)) (fun r => [100 * s + r]).
Example C83_case : exists prog, (forall r, code3d 6 3 2 r (fun _ => mkCtl 0 0) = Some (prog r)) /\
  prog 1 = [AIrecv 0 false; AIrecv 1 false; AWait 0; AMid 0; ASend 0 true; AIrecv 0 true; AWait 1; AMid 1; ASend 1 true;
            AWait 0; AMidb 0; ASend 0 false; AIrecv 1 true; AWait 1; AMidb 1; ASend 1 false] /\
  prog 2 = [AIrecv 0 false; AWait 0; ATurn 0; ASend 0 false; AIrecv 1 false; AWait 1; ATurn 1; ASend 1 false] /\
  match ex_chain 1 with Ok w => w 1 = [101; 2; 1; 1; 1; 0; 4; 1; 1; 3; 2] | _ => False end /\
  forall result, (forall s, s < 2 -> ex_chain s = Ok (result s)) ->
    runs_well _ _ 3 (fun s m l => note_f 1 s 0 l m) (note_f 2) (note_f 3) (note_f 4) (fun s l m => do t <- note_f 5 s 0 l m; Ok (fst t)) 2 (ex0 prog) result.
Proof.
  destruct (C83_field3d (list nat) (list nat) (fun s m l => note_f 1 s 0 l m) (note_f 2) (note_f 3) (note_f 4) (fun s l m => do t <- note_f 5 s 0 l m; Ok (fst t)) 3 2 (fun _ _ => mkCtl 0 0) ltac:(lia) ltac:(lia)) as (prog & E & H).
  exists prog. split; [exact E|]. split; [pose proof (E 1) as E1; vm_compute in E1; injection E1 as <-; reflexivity|].
  split; [pose proof (E 2) as E1; vm_compute in E1; injection E1 as <-; reflexivity|]. split; [vm_compute; reflexivity|].
  intros result HR. apply H; [split; [reflexivity|split; reflexivity]|exact HR].
Qed.

Print Assumptions C83_field3d.
Print Assumptions C83_fieldperp.
Print Assumptions C83_solution.
