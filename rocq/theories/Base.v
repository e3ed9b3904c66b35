(** * Base: the computational substrate of the model

    Nothing here is specific to automata.  This file fixes how Rust's effects and containers are represented:
    panics and non-termination ([R]), vectors ([list]), hash sets and hash maps (lists plus an iteration-order
    oracle), [while] loops, and decimal printing. *)
From Coq Require Import List NArith Arith Bool Lia Permutation.
From Coq Require Decimal DecimalNat.
Import ListNotations.

(** ** Results: a Rust call either returns, panics, or loops for ever *)

(** Panics are those of [unwrap], [expect], indexing and [debug_assert!] (e.g. dandy/src/nfa/mod.rs:358, 411, 913,
    dandy/src/dfa/mod.rs:584). *)
Inductive R (A : Type) : Type :=
| Ret (a : A)
| Panic
| Diverge.
Arguments Ret {A} a.
Arguments Panic {A}.
Arguments Diverge {A}.

(** sequencing of two statements: the first one that does not return ends the execution (everywhere in dandy/src).
    E.g. the statements of dandy/src/nfa/mod.rs:345-416. *)
Definition bind {A B} (m : R A) (f : A -> R B) : R B :=
  match m with Ret a => f a | Panic => Panic | Diverge => Diverge end.

Notation "x <- m ;; k" := (bind m (fun x => k)) (at level 61, m at next level, right associativity).
Notation "' p <- m ;; k" := (bind m (fun x => match x with p => k end))
  (at level 61, p pattern, m at next level, right associativity).

(** a total function applied to the result of a call (everywhere in dandy/src). E.g. dandy/src/nfa/mod.rs:1183. *)
Definition rmap {A B} (f : A -> B) (m : R A) : R B := a <- m ;; Ret (f a).

(** [v.into_iter().map(f).collect()] where [f] may panic. E.g. dandy/src/nfa/mod.rs:350-360 *)
Fixpoint mapR {A B} (f : A -> R B) (l : list A) : R (list B) :=
  match l with
  | [] => Ret []
  | x :: xs => y <- f x ;; ys <- mapR f xs ;; Ret (y :: ys)
  end.

(** [for x in l { s = f(s, x) }]. E.g. dandy/src/nfa/mod.rs:1083-1094 *)
Fixpoint foldR {S A} (f : S -> A -> R S) (s : S) (l : list A) : R S :=
  match l with
  | [] => Ret s
  | x :: xs => s' <- f s x ;; foldR f s' xs
  end.

(** [opt.unwrap()] / [opt.expect(..)]. E.g. dandy/src/nfa/mod.rs:358, 383, 1113 *)
Definition unwrap {A} (o : option A) : R A :=
  match o with Some a => Ret a | None => Panic end.

(** [v[i]]. E.g. dandy/src/dfa/eval.rs:22, dandy/src/nfa/eval.rs:26, 54 *)
Definition index {A} (l : list A) (i : nat) : R A := unwrap (nth_error l i).

(** ** While loops
    [step s] is one round of the loop: [inl s'] means "go on with [s']", [inr b] means "the loop ended with [b]".
    [while k step s] runs at most [2^k] rounds; running out of rounds is [Diverge]. *)

(** dandy/src/nfa/eval.rs:76, dandy/src/nfa/mod.rs:509, 787, 995, 1080, 1173, 1251 and dandy/src/dfa/mod.rs:473,
    629, 716, 913 have such loops. *)
Fixpoint rounds {S B} (k : nat) (step : S -> R (S + B)) (s : S) : R (S + B) :=
  match k with
  | O => step s
  | Datatypes.S k' =>
      match rounds k' step s with
      | Ret (inl s') => rounds k' step s'
      | r => r
      end
  end.

(** the loops of the previous definition, with the end of the loop as the result. (dandy/src/nfa/mod.rs:1173-1182
    and the others) *)
Definition while {S B} (k : nat) (step : S -> R (S + B)) (s : S) : R B :=
  match rounds k step s with
  | Ret (inr b) => Ret b
  | Ret (inl _) => Diverge
  | Panic => Panic
  | Diverge => Diverge
  end.

(** ** Decidable equality, as used by [==], [HashSet] and [HashMap] *)
Class Eqb (A : Type) := {
  eqb : A -> A -> bool;
  eqb_spec : forall x y, reflect (x = y) (eqb x y)
}.

Global Instance Eqb_nat : Eqb nat := { eqb := Nat.eqb; eqb_spec := Nat.eqb_spec }.
Global Instance Eqb_N : Eqb N := { eqb := N.eqb; eqb_spec := N.eqb_spec }.
Global Instance Eqb_bool : Eqb bool := { eqb := Bool.eqb; eqb_spec := Bool.eqb_spec }.

(** [==] on [str] and [Vec] (e.g. dandy/src/nfa/mod.rs:357, dandy/src/dfa/mod.rs:649) *)
Fixpoint list_eqb {A} `{Eqb A} (l1 l2 : list A) : bool :=
  match l1, l2 with
  | [], [] => true
  | x :: xs, y :: ys => eqb x y && list_eqb xs ys
  | _, _ => false
  end.
Lemma list_eqb_spec {A} `{Eqb A} : forall l1 l2 : list A, reflect (l1 = l2) (list_eqb l1 l2).
Proof.
  induction l1 as [|x xs IH]; destruct l2 as [|y ys]; simpl; try (constructor; congruence).
  destruct (eqb_spec x y); simpl; [|constructor; congruence].
  destruct (IH ys); constructor; congruence.
Qed.
Global Instance Eqb_list {A} `{Eqb A} : Eqb (list A) := { eqb := list_eqb; eqb_spec := list_eqb_spec }.

(** [==] on pairs, the keys of dandy/src/dfa/mod.rs:906-910 and dandy/src/nfa/mod.rs:502-503 *)
Definition prod_eqb {A B} `{Eqb A} `{Eqb B} (p q : A * B) : bool :=
  eqb (fst p) (fst q) && eqb (snd p) (snd q).
Lemma prod_eqb_spec {A B} `{Eqb A} `{Eqb B} : forall p q : A * B, reflect (p = q) (prod_eqb p q).
Proof.
  intros [a b] [c d]; unfold prod_eqb; simpl.
  destruct (eqb_spec a c), (eqb_spec b d); simpl; constructor; congruence.
Qed.
Global Instance Eqb_prod {A B} `{Eqb A} `{Eqb B} : Eqb (A * B) := { eqb := prod_eqb; eqb_spec := prod_eqb_spec }.

(** [==] on [Option], part of the keys of dandy/src/nfa/mod.rs:502-503 *)
Definition option_eqb {A} `{Eqb A} (p q : option A) : bool :=
  match p, q with None, None => true | Some a, Some b => eqb a b | _, _ => false end.
Lemma option_eqb_spec {A} `{Eqb A} : forall p q : option A, reflect (p = q) (option_eqb p q).
Proof.
  intros [a|] [b|]; simpl; try (constructor; congruence).
  destruct (eqb_spec a b); constructor; congruence.
Qed.
Global Instance Eqb_option {A} `{Eqb A} : Eqb (option A) := { eqb := option_eqb; eqb_spec := option_eqb_spec }.

(** ** Strings: lists of Unicode scalar values *)

(** [&str], [String] and [Rc<str>] of dandy/src/dfa/mod.rs:235-250 and dandy/src/nfa/mod.rs:262-278 *)
Definition str : Type := list N.

(** ** HashSet: a list without repetitions; insertion appends *)

(** [s.contains(&x)], e.g. dandy/src/nfa/eval.rs:80, dandy/src/nfa/mod.rs:790 *)
Fixpoint mem {A} `{Eqb A} (x : A) (l : list A) : bool :=
  match l with [] => false | y :: ys => eqb x y || mem x ys end.

(** [s.insert(x)]: returns the set and whether [x] was new. E.g. dandy/src/nfa/mod.rs:1177, dandy/src/dfa/mod.rs:504 *)
Definition hs_insert {A} `{Eqb A} (x : A) (l : list A) : list A * bool :=
  if mem x l then (l, false) else (l ++ [x], true).

(** [iter.collect::<HashSet<_>>()]. E.g. dandy/src/nfa/eval.rs:51-56, dandy/src/nfa/mod.rs:387-391 *)
Definition hs_collect {A} `{Eqb A} (l : list A) : list A :=
  fold_left (fun s x => fst (hs_insert x s)) l [].

(** [a == b] on hash sets: same size and every element of [a] is in [b]. dandy/src/dfa/mod.rs:649; dandy/src/util.rs
    compares sets of symbols the same way *)
Definition hs_eqb {A} `{Eqb A} (a b : list A) : bool :=
  Nat.eqb (length a) (length b) && forallb (fun x => mem x b) a.

(** ** HashMap: association list without repeated keys; insertion overwrites *)

(** [m.get(&k)], e.g. dandy/src/nfa/eval.rs:45, dandy/src/dfa/eval.rs:46 *)
Fixpoint hm_get {K V} `{Eqb K} (k : K) (m : list (K * V)) : option V :=
  match m with
  | [] => None
  | (k', v) :: r => if eqb k k' then Some v else hm_get k r
  end.

(** [m.insert(k, v)], e.g. dandy/src/nfa/mod.rs:1073, 1096 *)
Fixpoint hm_insert {K V} `{Eqb K} (k : K) (v : V) (m : list (K * V)) : list (K * V) :=
  match m with
  | [] => [(k, v)]
  | (k', v') :: r => if eqb k k' then (k', v) :: r else (k', v') :: hm_insert k v r
  end.

(** [iter.collect::<HashMap<_,_>>()]. E.g. dandy/src/nfa/eval.rs:93-98, dandy/src/dfa/mod.rs:519-523 *)
Definition hm_collect {K V} `{Eqb K} (l : list (K * V)) : list (K * V) :=
  fold_left (fun m kv => hm_insert (fst kv) (snd kv) m) l [].

(** ** Iteration order of hash containers
    Rust's [HashMap]/[HashSet] iterate in an unspecified, randomly seeded order.  An oracle decides the order; it is
    given a tag naming the program point and the loop round, so that one oracle can represent every behaviour of an
    execution.  The only thing known is that it permutes the content. *)

(** Iterations: dandy/src/dfa/mod.rs:498, 510, 585, 608, 673, 680, 699 and dandy/src/nfa/mod.rs:605, 618, 767-880,
    1100 among others; each use names its lines. *)
Record hash_order : Type := {
  ho : forall A : Type, list nat -> list A -> list A;
  ho_perm : forall (A : Type) (tag : list nat) (l : list A), Permutation (ho A tag l) l
}.
Arguments ho _ {A} _ _.

(** ** Sorting and binary search, as in Rust's slices *)

(** one insertion of the sort of dandy/src/dfa/mod.rs:745, dandy/src/nfa/mod.rs:898 and 1277 *)
Fixpoint insert_sorted (x : nat) (l : list nat) : list nat :=
  match l with
  | [] => [x]
  | y :: ys => if x <=? y then x :: l else y :: insert_sorted x ys
  end.
(** [v.sort()] on [Vec<usize>]. dandy/src/dfa/mod.rs:745, dandy/src/nfa/mod.rs:898 and 1277 *)
Fixpoint sort (l : list nat) : list nat :=
  match l with [] => [] | x :: xs => insert_sorted x (sort xs) end.

(** [iter.position(|y| p(y))]. dandy/src/dfa/mod.rs:649, dandy/src/nfa/mod.rs:354-357 *)
Fixpoint position {A} (p : A -> bool) (l : list A) : option nat :=
  match l with
  | [] => None
  | x :: xs => if p x then Some 0 else option_map S (position p xs)
  end.

(** [v.binary_search(&x)] on a sorted vector without repetitions: [inl i] if [v[i] == x], otherwise [inr i] where
    [i] is the number of smaller elements (the documented contract of [slice::binary_search]).
    dandy/src/dfa/mod.rs:746, 759, dandy/src/nfa/mod.rs:899, 912 *)
Definition binary_search (v : list nat) (x : nat) : nat + nat :=
  match position (Nat.eqb x) v with
  | Some i => inl i
  | None => inr (length (filter (fun y => y <? x) v))
  end.

(** [a - b] for [usize]; an underflow panics where overflow checks are on (without them the result would be no valid index).
    dandy/src/dfa/mod.rs:748, dandy/src/nfa/mod.rs:901 *)
Definition usize_sub (a b : nat) : R nat := if b <=? a then Ret (a - b) else Panic.

(** [v.remove(i)]: panics when out of range. dandy/src/dfa/mod.rs:754-755, dandy/src/nfa/mod.rs:907-908 *)
Fixpoint remove_nth {A} (i : nat) (l : list A) : R (list A) :=
  match l, i with
  | [], _ => Panic
  | _ :: xs, O => Ret xs
  | x :: xs, S i' => r <- remove_nth i' xs ;; Ret (x :: r)
  end.

(** [v.pop()] : the last element and the rest. dandy/src/dfa/mod.rs:473, 629, 913, dandy/src/nfa/mod.rs:509, 1080,
    1251 *)
Definition pop {A} (l : list A) : option (list A * A) :=
  match rev l with [] => None | x :: r => Some (rev r, x) end.

(** [v.swap_remove(i)]: removes index [i], putting the last element in its place; panics when out of range.
    dandy/src/dfa/mod.rs:650 *)
Definition swap_remove {A} (i : nat) (l : list A) : R (list A) :=
  match pop l with
  | None => Panic
  | Some (r, x) =>
      if i =? length r then Ret r
      else if i <? length r then Ret (firstn i r ++ x :: skipn (S i) r)
      else Panic
  end.

(** [v[i] = x]; the index is checked by the caller. E.g. dandy/src/nfa/mod.rs:411-412 *)
Fixpoint set_nth {A} (i : nat) (x : A) (l : list A) : list A :=
  match l, i with
  | [], _ => []
  | _ :: ys, O => x :: ys
  | y :: ys, S i' => y :: set_nth i' x ys
  end.

(** [iter.enumerate()]. E.g. dandy/src/dfa/mod.rs:634, dandy/src/nfa/mod.rs:789 *)
Definition enumerate {A} (l : list A) : list (nat * A) := combine (seq 0 (length l)) l.

(** ** Decimal printing ([format!("{n}")] on [usize]) *)

(** e.g. dandy/src/nfa/mod.rs:398, 1110: the digits, most significant first *)
Fixpoint uint_str (u : Decimal.uint) : str :=
  match u with
  | Decimal.Nil => []
  | Decimal.D0 u => 48%N :: uint_str u
  | Decimal.D1 u => 49%N :: uint_str u
  | Decimal.D2 u => 50%N :: uint_str u
  | Decimal.D3 u => 51%N :: uint_str u
  | Decimal.D4 u => 52%N :: uint_str u
  | Decimal.D5 u => 53%N :: uint_str u
  | Decimal.D6 u => 54%N :: uint_str u
  | Decimal.D7 u => 55%N :: uint_str u
  | Decimal.D8 u => 56%N :: uint_str u
  | Decimal.D9 u => 57%N :: uint_str u
  end.

(** [n.to_string()], e.g. dandy/src/nfa/mod.rs:398, 943, 1110, dandy/src/regex/mod.rs:115 *)
Definition dec (n : nat) : str := uint_str (Nat.to_uint n).
