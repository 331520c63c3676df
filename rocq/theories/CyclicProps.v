(** C25, C26: the parallel tridiagonal solver. *)
From Coq Require Import List Arith Bool Lia Permutation Field Reals Lra QArith Qcanon.
From Coquelicot Require Import Complex.
From Verif Require Import Base CyclicModel CyclicSpec CyclicProofs CyclicProofs2 CyclicProofs3 CyclicProofs4.
Import ListNotations.
Close Scope Q_scope.
Close Scope R_scope.
Close Scope Qc_scope.
Open Scope nat_scope.

(** The two instances used by the code: [CyclicReduce<BoutReal>] and [CyclicReduce<dcomplex>], with
    [std::abs(x) < 1e-10]. *)
Definition tinyR (x : R) : bool := if Rlt_dec (Rabs x) (/ 10 ^ 10) then true else false.
Definition tinyC (x : C) : bool := if Rlt_dec (Cmod x) (/ 10 ^ 10) then true else false.

Definition solveR := solve_all R 0%R Rplus Rmult Rminus Rdiv Ropp tinyR.
Definition solveC := solve_all C (RtoC 0) Cplus Cmult Cminus Cdiv Copp tinyC.

Lemma eps_pos : (0 < / 10 ^ 10)%R.
Proof. apply Rinv_0_lt_compat. lra. Qed.
Lemma tinyR0 : tinyR 0%R = true.
Proof. unfold tinyR. rewrite Rabs_R0. destruct (Rlt_dec 0 (/ 10 ^ 10)) as [|H]; [reflexivity|]. exfalso. apply H, eps_pos. Qed.
Lemma tinyC0 : tinyC (RtoC 0) = true.
Proof. unfold tinyC. rewrite Cmod_0. destruct (Rlt_dec 0 (/ 10 ^ 10)) as [|H]; [reflexivity|]. exfalso. apply H, eps_pos. Qed.

(** For every number of systems, of processors and of rows on each processor, every order of arrival of the messages,
    every coefficient, right hand side and previous content of memory: if [solve] does not report a zero pivot, then
    for every system whose matrix is non-singular the vector returned (its pieces taken together) satisfies every row. *)
Theorem C25_real_solution : forall nsys n per nloc a b c rhs ord1 ord2 mem x,
  1 <= n ->
  (forall p, p < n -> arrival_order n p (ord1 p)) ->
  (forall p, p < n -> arrival_order n p (ord2 p)) ->
  solveR nsys n per nloc (fun p s => fill_coefs R (a p s) (b p s) (c p s) (rhs p s)) ord1 ord2 mem = Ok x ->
  forall s, s < nsys ->
  let rows := distributed n nloc (fun p i => Row (a p s i) (b p s i) (c p s i) (rhs p s i)) in
  nonsingular R 0%R Rplus Rmult per rows ->
  solves R 0%R Rplus Rmult per rows (distributed n nloc (fun p => x p s)).
Proof. exact (solve_correct R 0%R 1%R Rplus Rmult Rminus Rdiv Ropp Rinv tinyR Rfield tinyR0). Qed.
Print Assumptions C25_real_solution.

Theorem C25_complex_solution : forall nsys n per nloc a b c rhs ord1 ord2 mem x,
  1 <= n ->
  (forall p, p < n -> arrival_order n p (ord1 p)) ->
  (forall p, p < n -> arrival_order n p (ord2 p)) ->
  solveC nsys n per nloc (fun p s => fill_coefs C (a p s) (b p s) (c p s) (rhs p s)) ord1 ord2 mem = Ok x ->
  forall s, s < nsys ->
  let rows := distributed n nloc (fun p i => Row (a p s i) (b p s i) (c p s i) (rhs p s i)) in
  nonsingular C (RtoC 0) Cplus Cmult per rows ->
  solves C (RtoC 0) Cplus Cmult per rows (distributed n nloc (fun p => x p s)).
Proof. exact (solve_correct C (RtoC 0) (RtoC 1) Cplus Cmult Cminus Cdiv Copp Cinv tinyC C_field_theory tinyC0). Qed.
Print Assumptions C25_complex_solution.

(** With at least two rows on every processor, no run reads or writes outside an array or message. *)
Theorem C25_no_undefined_behaviour : forall nsys n per nloc co ord1 ord2 mem,
  (forall p, p < n -> 2 <= nloc p) ->
  (forall p, p < n -> arrival_order n p (ord2 p)) ->
  solveR nsys n per nloc co ord1 ord2 mem <> UB.
Proof. exact (solve_not_ub R 0%R Rplus Rmult Rminus Rdiv Ropp tinyR). Qed.
Print Assumptions C25_no_undefined_behaviour.

(** Diagonally dominant systems (by at least 1e-10) are always solved: no zero pivot is reported and every row is
    satisfied. *)
Theorem C25_dominant_real : forall nsys n per nloc a b c rhs ord1 ord2 mem,
  1 <= n ->
  (forall p, p < n -> 2 <= nloc p) ->
  (forall p, p < n -> arrival_order n p (ord1 p)) ->
  (forall p, p < n -> arrival_order n p (ord2 p)) ->
  (forall p s i, p < n -> s < nsys -> i < nloc p ->
     (Rabs (a p s i) + Rabs (c p s i) + / 10 ^ 10 <= Rabs (b p s i))%R) ->
  exists x,
  solveR nsys n per nloc (fun p s => fill_coefs R (a p s) (b p s) (c p s) (rhs p s)) ord1 ord2 mem = Ok x /\
  forall s, s < nsys ->
  solves R 0%R Rplus Rmult per (distributed n nloc (fun p i => Row (a p s i) (b p s i) (c p s i) (rhs p s i)))
    (distributed n nloc (fun p => x p s)).
Proof.
  refine (solve_dom R 0%R 1%R Rplus Rmult Rminus Rdiv Ropp Rinv tinyR Rfield tinyR0 Rabs (/ 10 ^ 10)%R eps_pos
           Rabs_pos Rabs_mult Rabs_triang Rabs_Ropp Rabs_R0 _).
  intros x. unfold tinyR. destruct (Rlt_dec (Rabs x) (/ 10 ^ 10)); [intros _; assumption|discriminate].
Qed.
Print Assumptions C25_dominant_real.

Theorem C25_dominant_complex : forall nsys n per nloc a b c rhs ord1 ord2 mem,
  1 <= n ->
  (forall p, p < n -> 2 <= nloc p) ->
  (forall p, p < n -> arrival_order n p (ord1 p)) ->
  (forall p, p < n -> arrival_order n p (ord2 p)) ->
  (forall p s i, p < n -> s < nsys -> i < nloc p ->
     (Cmod (a p s i) + Cmod (c p s i) + / 10 ^ 10 <= Cmod (b p s i))%R) ->
  exists x,
  solveC nsys n per nloc (fun p s => fill_coefs C (a p s) (b p s) (c p s) (rhs p s)) ord1 ord2 mem = Ok x /\
  forall s, s < nsys ->
  solves C (RtoC 0) Cplus Cmult per (distributed n nloc (fun p i => Row (a p s i) (b p s i) (c p s i) (rhs p s i)))
    (distributed n nloc (fun p => x p s)).
Proof.
  refine (solve_dom C (RtoC 0) (RtoC 1) Cplus Cmult Cminus Cdiv Copp Cinv tinyC C_field_theory tinyC0 Cmod
           (/ 10 ^ 10)%R eps_pos Cmod_ge_0 Cmod_mult Cmod_triangle Cmod_opp Cmod_0 _).
  intros x. unfold tinyC. destruct (Rlt_dec (Cmod x) (/ 10 ^ 10)); [intros _; assumption|discriminate].
Qed.
Print Assumptions C25_dominant_complex.

(** A concrete periodic run on three processors with 2, 3 and 2 rows and 4 systems, computed with rationals: the
    solution of [-x_{i-1} + 4 x_i - x_{i+1} = rhs_i]. *)
Definition tinyQ (x : Qc) : bool := negb (Qle_bool (1 # 10000000000) (Qabs.Qabs (this x))).
Definition exn (p : nat) := if p =? 1 then 3 else 2.
Definition exq (n : nat) : Qc := Q2Qc (inject_Z (Z.of_nat n)).
Definition exmem : nat -> memory Qc := fun _ =>
  {| m_ifcs := fun _ _ => exq 7; m_recv := fun _ _ => exq 7; m_ifx := fun _ _ => exq 7; m_x1 := fun _ => exq 7;
     m_xn := fun _ => exq 7; m_x := fun _ _ => exq 7; m_gam := fun _ _ => exq 7; m_gam2 := fun _ _ => exq 7 |}.
Definition exord (p : nat) : list nat := match p with 0 => [2; 1] | 1 => [0; 2] | _ => [1; 0] end.
Definition exrhs (p s i : nat) : Qc := exq (s + 10 * p + i).
Definition exsolve := solve_all Qc (exq 0) Qcplus Qcmult Qcminus Qcdiv Qcopp tinyQ.

Definition exres : res (list (list Q)) :=
  do x <- exsolve 4 3 true exn (fun p s => fill_coefs Qc (fun _ => - exq 1)%Qc (fun _ => exq 4) (fun _ => - exq 1)%Qc (exrhs p s))
            exord exord exmem;
  Ok (map (fun s => map (fun v => this v) (distributed 3 exn (fun p => x p s))) (seq 0 4)).

Definition prev7 (k : nat) : nat := match k with 0 => 6 | S j => j end.
Definition exresid (x : list Q) (s : nat) : bool :=
  forallb (fun k : nat => Qeq_bool
    (- nth (prev7 k) x 0%Q + 4 * nth k x 0%Q - nth (Nat.modulo (k + 1)%nat 7) x 0%Q)%Q
    (this (nth k (distributed 3 exn (fun p i => exrhs p s i)) (exq 0)))) (seq 0 7).

Example C25_case :
  match exres with
  | Ok xs => forallb (fun s => exresid (nth s xs []) s) (seq 0 4) = true
  | _ => False
  end.
Proof. vm_compute. reflexivity. Qed.

Example C25_case_dominant :
  (forall p, p < 3 -> arrival_order 3 p (exord p)) /\
  (forall p, p < 3 -> 2 <= exn p) /\
  (Rabs (-1) + Rabs (-1) + / 10 ^ 10 <= Rabs 4)%R.
Proof.
  split; [|split].
  - intros p Hp. unfold arrival_order. destruct p as [|[|[|p]]]; [| | |lia]; cbn; try apply Permutation_refl; apply perm_swap.
  - intros p Hp. destruct p as [|[|[|p]]]; cbn; lia.
  - rewrite (Rabs_left (-1)) by lra. rewrite (Rabs_pos_eq 4) by lra.
    assert (/ 10 ^ 10 <= 1)%R by (rewrite <- Rinv_1; apply Rinv_le_contravar; lra). lra.
Qed.

(** ** C26 *)

(** Every system belongs to exactly one processor, each processor's systems are consecutive, and the numbers of systems
    differ by at most one. *)
Theorem C26_partition : forall nsys n, 1 <= n ->
  (forall s, s < nsys -> exists p, p < n /\ sys0 nsys n p <= s < sys0 nsys n p + myns nsys n p /\
     forall q, sys0 nsys n q <= s < sys0 nsys n q + myns nsys n q -> q = p) /\
  (forall p, p < n -> sys0 nsys n p + myns nsys n p <= nsys) /\
  sys0 nsys n 0 = 0 /\
  (forall p, sys0 nsys n (S p) = sys0 nsys n p + myns nsys n p) /\
  (forall p q, myns nsys n p <= myns nsys n q + 1).
Proof.
  intros nsys n Hn. split; [|split; [|split; [|split]]].
  - intros s Hs. destruct (range_cover nsys n s ltac:(lia) Hs) as (p & i & Hp & Hi & ->).
    exists p. split; [exact Hp|]. split; [lia|]. intros q (H1 & H2).
    exact (range_disjoint nsys n q p (sys0 nsys n p + i) H1 H2 ltac:(lia) ltac:(lia)).
  - exact (range_end nsys n).
  - rewrite sys0_min. lia.
  - exact (sys0_succ nsys n).
  - exact (myns_close nsys n).
Qed.
Print Assumptions C26_partition.

(** The ranges computed independently by sender and receiver agree, in both stages. *)
Theorem C26_offsets_agree : forall nsys n p,
  nsp_of nsys n p = myns nsys n p /\ s0_send nsys n p = sys0 nsys n p /\ s0_recv nsys n p = sys0 nsys n p.
Proof. intros. split; [apply nsp_myns|]. split; [apply s0_send_eq|apply s0_recv_eq]. Qed.
Print Assumptions C26_offsets_agree.

(** The receive buffer holds both kinds of message: all interface equations of the systems of this processor, and the
    solutions from any processor. *)
Theorem C26_buffer_large_enough : forall nsys n d p,
  8 * myns nsys n d <= recv_cap nsys n d /\ 2 * myns nsys n p <= recv_cap nsys n d.
Proof. intros. unfold recv_cap. pose proof (myns_close nsys n p d). lia. Qed.
Print Assumptions C26_buffer_large_enough.

(** Gather: whatever the order of arrival, processor [d] has, for each of its systems, the interface equations of every
    processor [p] for that system. *)
Theorem C26_gather : forall F nsys n d (myif : nat -> nat -> nat -> F) buf own ord,
  d < n -> arrival_order n d ord ->
  exists ifcs, gather_loop F nsys n d (fun p => gather_msg F nsys n d (myif p)) buf ord own = Ok ifcs /\
  forall p i j, p < n -> p <> d -> i < myns nsys n d -> j < 8 ->
    ifcs i (8 * p + j) = myif p (sys0 nsys n d + i) j.
Proof.
  intros F nsys n d myif buf own ord Hd Ho.
  destruct (gather_loop_spec F nsys n d myif buf ord own Hd) as (ifcs & E & H). exists ifcs. split; [exact E|].
  intros p i j Hp Hne Hi Hj. apply (H i Hi p j Hj). apply (arrival_in _ _ _ Ho). split; assumption.
Qed.
Print Assumptions C26_gather.

(** Scatter: every processor [d] ends with its two interface values of every system, as computed by the processor that
    solved it. *)
Theorem C26_scatter : forall F nsys n d (ifx : nat -> nat -> nat -> F) ord mem x1 xn,
  arrival_order n d ord -> d < n -> 1 < n ->
  exists x1' xn', scatter F nsys n d ifx ord mem x1 xn = Ok (x1', xn') /\
    forall s, s < nsys -> exists p i, p < n /\ i < myns nsys n p /\ s = sys0 nsys n p + i /\
      x1' s = ifx p i (2 * d) /\ xn' s = ifx p i (2 * d + 1).
Proof.
  intros F nsys n d ifx ord mem x1 xn Ho Hd Hn.
  destruct (scatter_spec F nsys n d ifx ord mem x1 xn Ho Hd Hn) as (a & b & E & H). exists a, b. split; [exact E|].
  intros s Hs. destruct (range_cover nsys n s ltac:(lia) Hs) as (p & i & Hp & Hi & ->).
  exists p, i. split; [exact Hp|]. split; [exact Hi|]. split; [reflexivity|]. apply H; assumption.
Qed.
Print Assumptions C26_scatter.

Example C26_case :
  map (myns 7 3) (seq 0 3) = [3; 2; 2] /\ map (sys0 7 3) (seq 0 3) = [0; 3; 5] /\
  map (myns 2 4) (seq 0 4) = [1; 1; 0; 0] /\ arrival_order 4 1 [3; 0; 2].
Proof.
  split; [reflexivity|]. split; [reflexivity|]. split; [reflexivity|].
  unfold arrival_order. cbn. apply (Permutation_cons_app [0; 2] []). apply Permutation_refl.
Qed.
