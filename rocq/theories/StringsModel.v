(** Model of the string helpers of src/sys/utils.cxx. A std::string is a list of characters. *)
From Coq Require Import Ascii String List Arith Bool.
From Verif Require Import Base.
Import ListNotations.

Definition str := list ascii.
Definition chars (s : string) : str := list_ascii_of_string s.
Definition inset (c : ascii) (cs : str) : bool := existsb (Ascii.eqb c) cs.

(** std::string::find_first_of / find_first_not_of / find_last_not_of: position, [None] is npos. *)
Fixpoint find_first (p : ascii -> bool) (s : str) (k : nat) : option nat :=
  match s with [] => None | c :: s' => if p c then Some k else find_first p s' (S k) end.
Fixpoint find_last (p : ascii -> bool) (s : str) (k : nat) (acc : option nat) : option nat :=
  match s with [] => acc | c :: s' => find_last p s' (S k) (if p c then Some k else acc) end.
Definition find_first_of (s cs : str) := find_first (fun c => inset c cs) s 0.
Definition find_first_not_of (s cs : str) := find_first (fun c => negb (inset c cs)) s 0.
Definition find_last_not_of (s cs : str) := find_last (fun c => negb (inset c cs)) s 0 None.

(** utils.cxx:127-130 trimRight: [str.erase(find_last_not_of(c) + 1)]; npos + 1 is 0. *)
Definition trimRight (s cs : str) : str :=
  match find_last_not_of s cs with Some k => firstn (k + 1) s | None => firstn 0 s end.
(** utils.cxx:132-135 trimLeft: [str.erase(0, find_first_not_of(c))]; erasing npos characters erases all. *)
Definition trimLeft (s cs : str) : str :=
  match find_first_not_of s cs with Some k => skipn k s | None => [] end.
(** utils.cxx:123-125 trim. *)
Definition trim (s cs : str) : str := trimLeft (trimRight s cs) cs.
(** utils.cxx:139-141 trimComments: [s.substr(0, find_first_of(c))]. *)
Definition trimComments (s cs : str) : str :=
  match find_first_of s cs with Some k => firstn k s | None => s end.

(** utils.hxx:629-653 default character sets. *)
Definition ws_trim : str := [" "; "009"; "013"]%char.       (* " \t\r" *)
Definition ws_left : str := [" "; "009"]%char.              (* " \t" *)
Definition comment_chars : str := ["#"; ";"]%char.

(** std::getline(ss, item, delim): extract up to and excluding the delimiter (which is consumed); fails only when the
    stream is already at its end. *)
Fixpoint getline (s : str) (delim : ascii) : str * str :=
  match s with
  | [] => ([], [])
  | c :: s' => if Ascii.eqb c delim then ([], s') else let (a, b) := getline s' delim in (c :: a, b)
  end.
(** utils.cxx:107-115 strsplit; [fuel] >= length of the string. *)
Fixpoint strsplit_loop (fuel : nat) (s : str) (delim : ascii) : list str :=
  match fuel, s with
  | S f, _ :: _ => let (item, rest) := getline s delim in item :: strsplit_loop f rest delim
  | _, _ => []
  end.
Definition strsplit (s : str) (delim : ascii) : list str := strsplit_loop (length s) s delim.

(** ::tolower in the "C" locale. *)
Definition tolower (c : ascii) : ascii :=
  let n := nat_of_ascii c in if (65 <=? n) && (n <=? 90) then ascii_of_nat (n + 32) else c.
(** utils.cxx:57-62. *)
Definition lowercase (s : str) : str := map tolower s.
(** utils.cxx:73-87 lowercasequote. *)
Fixpoint lowercasequote_loop (quote dquote : bool) (s : str) : str :=
  match s with
  | [] => []
  | c :: s' =>
    if Ascii.eqb c "'" then c :: lowercasequote_loop (xorb quote true) dquote s'
    else if Ascii.eqb c """" then c :: lowercasequote_loop quote (xorb dquote true) s'
    else if negb quote && negb dquote then tolower c :: lowercasequote_loop quote dquote s'
    else c :: lowercasequote_loop quote dquote s'
  end.
Definition lowercasequote (s : str) : str := lowercasequote_loop false false s.

(** utils.cxx:147-186 editDistance. The Matrix is a function of (row, column) updated pointwise; its initial contents are
    arbitrary ([d0]). [s !! k] reads past the end return [None], which never equals a character of the other string. *)
Definition mat := nat -> nat -> nat.
Definition mset (d : mat) (i j v : nat) : mat := fun a b => if (a =? i) && (b =? j) then v else d a b.
Definition chr_eq (s : str) (i : nat) (t : str) (j : nat) : bool :=
  match nth_error s i, nth_error t j with Some a, Some b => Ascii.eqb a b | _, _ => false end.
Definition cell (s t : str) (i : nat) (d : mat) (j : nat) : mat :=
  let cost := if chr_eq s (i - 1) t (j - 1) then 0 else 1 in
  let d := mset d i j (Nat.min (Nat.min (d (i - 1) j + 1) (d i (j - 1) + 1)) (d (i - 1) (j - 1) + cost)) in
  if (1 <? i) && (1 <? j) && chr_eq s (i - 1) t (j - 2) && chr_eq s (i - 2) t (j - 1)
  then mset d i j (Nat.min (d i j) (d (i - 2) (j - 2) + 1))
  else d.
Definition editDistance (d0 : mat) (s t : str) : nat :=
  let n1 := length s + 1 in
  let n2 := length t + 1 in
  let d := fold_left (fun d i => mset d i 0 i) (seq 0 n1) d0 in
  let d := fold_left (fun d j => mset d 0 j j) (seq 0 n2) d in
  let d := fold_left (fun d i => fold_left (cell s t i) (seq 1 (n2 - 1)) d) (seq 1 (n1 - 1)) d in
  d (n1 - 1) (n2 - 1).
