(** * RegexParserModel: dandy/src/parser/regex.rs

    The parameter [seg] stands for [UnicodeSegmentation::graphemes(true)] of the external crate. *)
From Coq Require Import List NArith Arith Bool.
From Verif Require Import Base Spec TableSpec ParserModel RegexModel.
Import ListNotations.

(** nom's [map] with a function that may panic. dandy/src/parser/regex.rs:22, 29, 46, 53 *)
Definition pmapR {A B} (f : A -> R B) (p : P A) : P B := pbind p (fun a i => b <- f a ;; Ret (Some (i, b))).

(** [complete::one_of]. dandy/src/parser/regex.rs:47, 54 *)
Definition one_of (cs : list N) : P N := fun i =>
  match i with
  | c :: i' => if mem c cs then Ret (Some (i', c)) else Ret None
  | [] => Ret None
  end.

(** dandy/src/parser/regex.rs:35-43 [wrap_multiple]; [remove(0)] panics when there are no items *)
Definition wrap_multiple (f : list regex_tree -> regex_tree) (items : list regex_tree) : R regex_tree :=
  if 1 <? length items then Ret (f items) else match items with x :: _ => Ret x | [] => Panic end.

(** dandy/src/parser/regex.rs:59-69 [apply_kleene] *)
Definition apply_kleene (x : regex_tree * option N) : R regex_tree :=
  let '(to_combine, kleene) := x in
  match kleene with
  | Some c => if N.eqb c 43 then Ret (RSequence [to_combine; RRepeat to_combine])
              else if N.eqb c 42 then Ret (RRepeat to_combine)
              else Panic
  | None => Ret to_combine
  end.

(** dandy/src/parser/regex.rs:88-95 [one_cluster] *)
Definition one_cluster (seg : str -> list str) : P regex_char := fun i =>
  match seg i with
  | [] => Ret None
  | g :: _ => Ret (Some (skipn (length g) i, RGrapheme g))
  end.

(** dandy/src/parser/regex.rs:97-102 *)
Definition empty_str : P regex_char := pvalue REpsilon (tag [949%N]).

(** dandy/src/parser/regex.rs:100-102 [empty_lang] *)
Definition empty_lang : P regex_char := pvalue REmpty (tag [8709%N]).

(** dandy/src/parser/regex.rs:83-85 *)
Definition escaped_char (seg : str -> list str) : P regex_char := preceded (tag [92%N]) (one_cluster seg).

(** dandy/src/parser/regex.rs:75-81 [normal_char] *)
Definition normal_char (seg : str -> list str) : P regex_char :=
  pverify (one_cluster seg) (fun rxc =>
    match rxc with
    | RGrapheme g => negb (is_reserved_char (match g with c :: _ => c | [] => 0%N end))
    | _ => true (* unreachable_unchecked: [one_cluster] only yields graphemes *)
    end).

(** dandy/src/parser/regex.rs:71-73 *)
Definition p_regex_char (seg : str -> list str) : P regex_char :=
  palt empty_lang (palt empty_str (palt (escaped_char seg) (normal_char seg))).

(** dandy/src/parser/regex.rs:52-57 *)
Definition combinated_char (seg : str -> list str) : P regex_tree :=
  pmapR apply_kleene (ppair (pmap RChar (p_regex_char seg)) (popt (one_of [43; 42]%N))).

(** dandy/src/parser/regex.rs:45-50; [expression] is a parameter to tie the knot below *)
Definition par_expr (expression : P regex_tree) : P regex_tree :=
  pmapR apply_kleene (ppair (delimited (tag [40%N]) expression (tag [41%N])) (popt (one_of [43; 42]%N))).

(** dandy/src/parser/regex.rs:28-33 *)
Definition p_sequence (seg : str -> list str) (expression : P regex_tree) : P regex_tree :=
  pmapR (wrap_multiple RSequence) (many1 (palt (par_expr expression) (combinated_char seg))).

(** dandy/src/parser/regex.rs:21-26 *)
Definition p_alternation (seg : str -> list str) (expression : P regex_tree) : P regex_tree :=
  pmapR (wrap_multiple RAlt) (separated_list1 (tag [124%N]) (p_sequence seg expression)).

(** dandy/src/parser/regex.rs:17-19; the recursion depth is bounded by [fuel], and running out of it is [Diverge] *)
Fixpoint expression (seg : str -> list str) (fuel : nat) : P regex_tree :=
  match fuel with
  | O => fun _ => Diverge
  | S fuel => p_alternation seg (expression seg fuel)
  end.

(** [str::trim]. [str::trim_start], the first half of the [trim] of dandy/src/parser/regex.rs:14 *)
Definition trim_start (s : str) : str := snd (span is_whitespace s).

(** dandy/src/parser/regex.rs:14: [str::trim] *)
Definition trim (s : str) : str := rev (trim_start (rev (trim_start s))).

(** dandy/src/parser/regex.rs:13-15 [full_regex] and dandy/src/parser/mod.rs:119-123 [regex] *)
Definition parse_regex (seg : str -> list str) (input : str) : R (option regex_tree) :=
  parse_with (fun i => let t := trim i in expression seg (S (length t)) t) input.
