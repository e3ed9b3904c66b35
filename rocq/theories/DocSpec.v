(** * DocSpec: the languages that the documentation describes *)
From Coq Require Import List NArith Arith Bool.
From Verif Require Import Base Spec.
Import ListNotations.

(** A call answers exactly the membership in [L]. *)
Definition decides (call : word -> R bool) (L : word -> Prop) : Prop := forall w, exists b, call w = Ret b /\ (b = true <-> L w).

(** The symbols a, b, c, 0 and 1, and the symbol aa *)
Definition la : str := [97%N].
Definition lb : str := [98%N].
Definition lc : str := [99%N].
Definition l0 : str := [48%N].
Definition l1 : str := [49%N].
Definition laa : str := [97; 97]%N.

Definition occurrences (a : str) (w : word) : nat := count_occ (list_eq_dec N.eq_dec) w a.

(** dandy/src/lib.rs:55-59, dandy/src/parser/mod.rs:27-31: "strings of the alphabet 'a', 'b', 'c' with either only 'b's, two 'a's, or a
    'c' before the first occurrence of 'a'" *)
Definition documented_table_language (w : word) : Prop :=
  over [la; lb; lc] w /\
  ((forall x, In x w -> x = lb) \/ 2 <= occurrences la w \/ (exists u v, w = u ++ lc :: v /\ ~ In la u)).

(** dandy/src/dfa/mod.rs:15-16 "all strings with an odd number of a:s" *)
Definition odd_number_of_as (w : word) : Prop := over [la; lb] w /\ Nat.odd (occurrences la w) = true.
(** dandy/src/dfa/mod.rs:106-112: odd binary numbers *)
Definition odd_binary (w : word) : Prop := over [l0; l1] w /\ exists u, w = u ++ [l1].
(** dandy/src/dfa/mod.rs:172-180, 309 *)
Definition ends_with_a (w : word) : Prop := over [la; lb; lc] w /\ exists u, w = u ++ [la].
Definition starts_with_b (w : word) : Prop := over [la; lb; lc] w /\ exists u, w = lb :: u.
Definition contains_a (w : word) : Prop := over [la; lb; lc] w /\ In la w.
(** dandy/src/nfa/mod.rs:15-16, 180, 187 *)
Definition ends_with_aab (w : word) : Prop := over [la; lb] w /\ exists u, w = u ++ [la; la; lb].
Definition contains_babb (w : word) : Prop := over [la; lb] w /\ exists u v, w = u ++ [lb; la; lb; lb] ++ v.

(** [k] copies of [u] *)
Definition power (u : word) (k : nat) : word := concat (repeat u k).
(** dandy/src/regex/mod.rs:14-15 *)
Definition ab_plus (w : word) : Prop := exists k, 1 <= k /\ w = power [la; lb] k.
Definition ab_star (w : word) : Prop := exists k, w = power [la; lb] k.
(** dandy/src/parser/mod.rs:53: "strings starting with "ab" repeated 1 or many times, followed by "c"" *)
Definition ab_plus_c (w : word) : Prop := exists k, 1 <= k /\ w = power [la; lb] k ++ [lc].
(** dandy/src/parser/mod.rs:54: "all strings starting with a `c`, then any amount of `a`s and `b`s, and then a `c`" *)
Definition c_ab_c (w : word) : Prop := exists u, over [la; lb] u /\ w = [lc] ++ u ++ [lc].
(** dandy/src/regex/mod.rs:29: the expression of the example program *)
Definition zeros_one (w : word) : Prop := exists k, w = repeat l0 k ++ [l1] \/ w = repeat l0 k ++ [l1; l0].

(** dandy/src/regex/mod.rs:16: what the expression written there, 0*1(0+ε), means: zeros, a one, at least one zero *)
Definition zeros_one_zeros (w : word) : Prop := exists k j, w = repeat l0 k ++ [l1] ++ repeat l0 (S j).

(** The segmentation splits printable ASCII characters and epsilon into single characters. *)
Definition plain (s : str) : Prop := forall c, In c s -> (33 <= c <= 126)%N \/ c = 949%N.
Definition splits_plainly (graphemes : str -> list str) : Prop := forall s, plain s -> graphemes s = map (fun c => [c]) s.
