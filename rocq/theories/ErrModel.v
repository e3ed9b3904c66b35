(** * ErrModel: the parsers with nom's errors

    The same parsers as in [ParserModel] and [RegexParserModel], now with the error they return: a kind and the input at which it
    was raised ([nom::error::Error], nom 7.1).  A combinator that tries alternatives reports the error of the last one; nom's
    [append] keeps the inner error. *)
From Coq Require Import String List NArith Arith Bool.
From Verif Require Import Base Spec TableSpec ErrSpec ParserModel RegexModel RegexParserModel Messages.
Import ListNotations.
Close Scope string_scope.
Open Scope list_scope.

(** nom's [IResult<&str, A>] with the error, as in dandy/src/parser/fa.rs:10 *)
Definition E (A : Type) : Type := str -> R (result (str * A) nom_error).

(** ** nom *)

(** a parser that succeeds without consuming; used to define the combinators of dandy/src/parser/fa.rs *)
Definition e_ret {A} (a : A) : E A := fun i => Ret (Ok (i, a)).

(** one parser after another, as in the [tuple] of dandy/src/parser/fa.rs:45-52 and 93-100: the first error is the
    result *)
Definition e_bind {A B} (p : E A) (f : A -> E B) : E B := fun i =>
  r <- p i ;;
  match r with
  | Err e => Ret (Err e)
  | Ok (i', a) => f a i'
  end.

(** [map]: dandy/src/parser/fa.rs:11, 42, 65, 90, 113, 143 *)
Definition e_map {A B} (f : A -> B) (p : E A) : E B := e_bind p (fun a => e_ret (f a)).

(** [map] with a function that may panic: dandy/src/parser/regex.rs:22, 29, 46, 53 *)
Definition e_mapR {A B} (f : A -> R B) (p : E A) : E B := e_bind p (fun a i => b <- f a ;; Ret (Ok (i, b))).

(** [value]: dandy/src/parser/fa.rs:34, 139, 150, 160, 164 *)
Definition e_value {A B} (b : B) (p : E A) : E B := e_map (fun _ => b) p.

(** [pair]: dandy/src/parser/fa.rs:14, 68, 160, 164 *)
Definition e_pair {A B} (p : E A) (q : E B) : E (A * B) := e_bind p (fun a => e_map (fun b => (a, b)) q).

(** [preceded]: dandy/src/parser/fa.rs:16, 70 *)
Definition e_preceded {A B} (p : E A) (q : E B) : E B := e_map snd (e_pair p q).

(** [terminated]: dandy/src/parser/fa.rs:15, 47, 49, 50, 69, 153 *)
Definition e_terminated {A B} (p : E A) (q : E B) : E A := e_map fst (e_pair p q).

(** [delimited]: dandy/src/parser/fa.rs:12, 28, 43, 66, 82, 91, 124, 126 *)
Definition e_delimited {A B C} (p : E A) (q : E B) (r : E C) : E B := e_preceded p (e_terminated q r).
(** [alt]: the error of the last alternative. dandy/src/parser/fa.rs:32, 113, 143, 153,
    dandy/src/parser/regex.rs:30, 72 *)
Definition e_alt {A} (p q : E A) : E A := fun i =>
  r <- p i ;;
  match r with
  | Err _ => q i
  | Ok x => Ret (Ok x)
  end.

(** [opt]: dandy/src/parser/fa.rs:46, 49, 94, 97, 160 *)
Definition e_opt {A} (p : E A) : E (option A) := fun i =>
  r <- p i ;;
  match r with
  | Err _ => Ret (Ok (i, None))
  | Ok (i', a) => Ret (Ok (i', Some a))
  end.
(** [verify]: its own error is raised where the verified part begins. dandy/src/parser/fa.rs:117, 132, 152,
    dandy/src/parser/regex.rs:76 *)
Definition e_verify {A} (p : E A) (f : A -> bool) : E A := fun i =>
  r <- p i ;;
  match r with
  | Ok (i', a) => if f a then Ret (Ok (i', a)) else Ret (Err (mk_error KVerify i))
  | Err e => Ret (Err e)
  end.

(** [recognize]: dandy/src/parser/fa.rs:153 *)
Definition e_recognize {A} (p : E A) : E str := fun i =>
  r <- p i ;;
  match r with
  | Ok (i', _) => Ret (Ok (i', firstn (length i - length i') i))
  | Err e => Ret (Err e)
  end.

(** the loop of [many0] and [many1]; [own] is the kind of its own error: dandy/src/parser/fa.rs:13, 17, 18, 21 *)
Fixpoint e_many_loop {A} (own : kind) (fuel : nat) (p : E A) (acc : list A) (i : str) : R (result (str * list A) nom_error) :=
  match fuel with
  | O => Diverge
  | S fuel =>
      r <- p i ;;
      match r with
      | Err _ => Ret (Ok (i, acc))
      | Ok (i1, o) =>
          if length i1 =? length i then Ret (Err (mk_error own i)) (* nom's infinite loop check *)
          else e_many_loop own fuel p (acc ++ [o]) i1
      end
  end.

(** [many0]: dandy/src/parser/fa.rs:13, 17, 21, 67, 71, 75 *)
Definition e_many0 {A} (p : E A) : E (list A) := fun i => e_many_loop KMany0 (S (length i)) p [] i.

(** [many1]: dandy/src/parser/fa.rs:18, 72, dandy/src/parser/regex.rs:30 *)
Definition e_many1 {A} (p : E A) : E (list A) := e_bind p (fun o i => e_many_loop KMany1 (S (length i)) p [o] i).

(** the loop of the separated lists: dandy/src/parser/fa.rs:18, 30, 51, 72, 84, 99, 126,
    dandy/src/parser/regex.rs:23 *)
Fixpoint e_sep_loop {A B} (fuel : nat) (sep : E B) (p : E A) (acc : list A) (i : str) : R (result (str * list A) nom_error) :=
  match fuel with
  | O => Diverge
  | S fuel =>
      r <- sep i ;;
      match r with
      | Err _ => Ret (Ok (i, acc))
      | Ok (i1, _) =>
          if length i1 =? length i then Ret (Err (mk_error KSeparatedList i1)) (* nom's infinite loop check *)
          else
            r2 <- p i1 ;;
            match r2 with
            | Err _ => Ret (Ok (i, acc))
            | Ok (i2, o) => e_sep_loop fuel sep p (acc ++ [o]) i2
            end
      end
  end.

(** [separated_list1]: dandy/src/parser/fa.rs:18, 30, 51, 72, 84, 99, dandy/src/parser/regex.rs:23 *)
Definition e_separated_list1 {A B} (sep : E B) (p : E A) : E (list A) :=
  e_bind p (fun o i => e_sep_loop (S (length i)) sep p [o] i).

(** [separated_list0]: dandy/src/parser/fa.rs:126 *)
Definition e_separated_list0 {A B} (sep : E B) (p : E A) : E (list A) := fun i =>
  r <- p i ;;
  match r with
  | Err _ => Ret (Ok (i, []))
  | Ok (i1, o) => e_sep_loop (S (length i1)) sep p [o] i1
  end.

(** [all_consuming]: dandy/src/parser/mod.rs:103, 112, 120 *)
Definition e_all_consuming {A} (p : E A) : E A := fun i =>
  r <- p i ;;
  match r with
  | Ok ([], a) => Ret (Ok ([], a))
  | Ok (i', _) => Ret (Err (mk_error KEof i'))
  | Err e => Ret (Err e)
  end.

(** A basic parser of [ParserModel] that raises an error of one kind where it begins. The parsers imported by
    dandy/src/parser/fa.rs:3-5 and dandy/src/parser/regex.rs:3-5 *)
Definition e_basic {A} (k : kind) (p : P A) : E A := fun i =>
  r <- p i ;; Ret (match r with Some x => Ok x | None => Err (mk_error k i) end).

(** [tag]: dandy/src/parser/fa.rs:113, 125, 127, 139, 143, 164 *)
Definition e_tag (t : str) : E unit := e_basic KTag (tag t).

(** [char]: dandy/src/parser/regex.rs:23, 47, 84, 98, 101 *)
Definition e_char (c : N) : E unit := e_basic KChar (tag [c]).

(** [one_of]: dandy/src/parser/regex.rs:47, 54 *)
Definition e_one_of (cs : list N) : E N := e_basic KOneOf (one_of cs).

(** [take_till1]: dandy/src/parser/fa.rs:118, 133 *)
Definition e_take_till1 (f : N -> bool) : E str := e_basic KTakeTill1 (take_till1 f).

(** [space0]: dandy/src/parser/fa.rs:29, 44, 83, 92, 126, 160 *)
Definition e_space0 : E str := e_basic KSpace space0.

(** [space1]: dandy/src/parser/fa.rs:31, 47, 49-51, 84, 95-99, 126 *)
Definition e_space1 : E str := e_basic KSpace space1.

(** [line_ending]: dandy/src/parser/fa.rs:15, 69, 153 *)
Definition e_line_ending : E unit := e_basic KCrLf line_ending.

(** [not_line_ending]: dandy/src/parser/fa.rs:164 *)
Definition e_not_line_ending : E str := e_basic KTag not_line_ending.

(** [eof]: dandy/src/parser/fa.rs:153 *)
Definition e_eof : E unit := e_basic KEof eof.

(** ** dandy/src/parser/fa.rs *)

(** dandy/src/parser/fa.rs:163-165 *)
Definition e_comment : E unit := e_value tt (e_pair (e_tag [35%N]) e_not_line_ending).
(** dandy/src/parser/fa.rs:159-161 *)
Definition e_space_comment : E unit := e_value tt (e_pair e_space0 (e_opt e_comment)).
(** dandy/src/parser/fa.rs:146-157 *)
Definition e_space_comment_line : E unit :=
  e_value tt (e_verify (e_recognize (e_terminated e_space_comment (e_alt e_line_ending e_eof)))
                       (fun consumed => negb (match consumed with [] => true | _ => false end))).
(** dandy/src/parser/fa.rs:142-144 *)
Definition e_arrow : E unit := e_map (fun _ => tt) (e_alt (e_tag [45; 62]%N) (e_tag [8594]%N)).
(** dandy/src/parser/fa.rs:138-140 *)
Definition e_accepting : E unit := e_value tt (e_tag [42%N]).
(** dandy/src/parser/fa.rs:131-136 *)
Definition e_state_name : E str := e_verify (e_take_till1 token_end) (fun elem => negb (mem elem reserved)).
(** dandy/src/parser/fa.rs:123-129 *)
Definition e_state_set : E (list str) :=
  e_delimited (e_tag [123%N]) (e_delimited e_space0 (e_separated_list0 e_space1 e_state_name) e_space0) (e_tag [125%N]).
(** dandy/src/parser/fa.rs:116-121 *)
Definition e_alphabet_elem : E str := e_verify (e_take_till1 token_end) (fun elem => negb (mem elem reserved)).
(** dandy/src/parser/fa.rs:112-114 *)
Definition e_eps : E unit := e_map (fun _ => tt) (e_alt (e_tag [949%N]) (e_tag [101; 112; 115]%N)).
(** The tuple at the beginning of a line: dandy/src/parser/fa.rs:45-50 and 93-98 *)
Definition e_line_prefix {A} (transitions : E A) : E (bool * bool * str * A) :=
  e_bind (e_opt (e_terminated e_arrow e_space1)) (fun initial =>
  e_bind (e_opt (e_terminated e_accepting e_space1)) (fun accepting =>
  e_bind (e_terminated e_state_name e_space1) (fun name =>
  e_map (fun ts => (match initial with Some _ => true | None => false end,
                    match accepting with Some _ => true | None => false end, name, ts)) transitions))).
(** dandy/src/parser/fa.rs:89-110 *)
Definition e_dfa_line : E parsed_dfa_state :=
  e_map (fun '(initial, accepting, name, transitions) =>
           {| pds_name := name; pds_initial := initial; pds_accepting := accepting; pds_transitions := transitions |})
        (e_delimited e_space0 (e_line_prefix (e_separated_list1 e_space1 e_state_name)) e_space_comment).
(** dandy/src/parser/fa.rs:81-87 *)
Definition e_dfa_head : E (list str) := e_delimited e_space0 (e_separated_list1 e_space1 e_alphabet_elem) e_space_comment.
(** dandy/src/parser/fa.rs:64-79 *)
Definition e_full_dfa : E parsed_dfa :=
  e_map (fun '(head, states) => {| pd_head := head; pd_states := states |})
        (e_delimited (e_many0 e_space_comment_line)
                     (e_pair (e_terminated e_dfa_head e_line_ending)
                             (e_preceded (e_many0 e_space_comment_line) (e_separated_list1 (e_many1 e_space_comment_line) e_dfa_line)))
                     (e_many0 e_space_comment_line)).
(** dandy/src/parser/fa.rs:41-62 *)
Definition e_nfa_line : E parsed_nfa_state :=
  e_map (fun '(initial, accepting, name, transitions) =>
           {| pns_name := name; pns_initial := initial; pns_accepting := accepting; pns_transitions := transitions |})
        (e_delimited e_space0 (e_line_prefix (e_separated_list1 e_space1 e_state_set)) e_space_comment).
(** dandy/src/parser/fa.rs:27-39 *)
Definition e_nfa_head : E (list nfa_entry) :=
  e_delimited e_space0 (e_separated_list1 e_space1 (e_alt (e_map Element e_alphabet_elem) (e_value Eps e_eps))) e_space_comment.
(** dandy/src/parser/fa.rs:10-25 *)
Definition e_full_nfa : E parsed_nfa :=
  e_map (fun '(head, states) => {| pn_head := head; pn_states := states |})
        (e_delimited (e_many0 e_space_comment_line)
                     (e_pair (e_terminated e_nfa_head e_line_ending)
                             (e_preceded (e_many0 e_space_comment_line) (e_separated_list1 (e_many1 e_space_comment_line) e_nfa_line)))
                     (e_many0 e_space_comment_line)).

(** dandy/src/parser/mod.rs:102-123 [parser::dfa], [parser::nfa], [parser::regex] with [finish] *)
Definition try_with {A} (p : E A) (input : str) : R (result A nom_error) :=
  r <- e_all_consuming p input ;; Ret (match r with Ok (_, a) => Ok a | Err e => Err e end).

(** dandy/src/parser/mod.rs:102-106 [dfa] *)
Definition try_dfa (input : str) : R (result parsed_dfa nom_error) := try_with e_full_dfa input.

(** dandy/src/parser/mod.rs:111-115 [nfa] *)
Definition try_nfa (input : str) : R (result parsed_nfa nom_error) := try_with e_full_nfa input.

(** ** dandy/src/parser/regex.rs *)
Section Regex.
Context (seg : str -> list str).
(** dandy/src/parser/regex.rs:88-95 [one_cluster] with [fail] *)
Definition e_one_cluster : E regex_char := e_basic KFail (one_cluster seg).
(** dandy/src/parser/regex.rs:97-102 *)
Definition e_empty_str : E regex_char := e_value REpsilon (e_char 949).

(** dandy/src/parser/regex.rs:100-102 [empty_lang] *)
Definition e_empty_lang : E regex_char := e_value REmpty (e_char 8709).
(** dandy/src/parser/regex.rs:83-85 *)
Definition e_escaped_char : E regex_char := e_preceded (e_char 92) e_one_cluster.
(** dandy/src/parser/regex.rs:75-81 *)
Definition e_normal_char : E regex_char :=
  e_verify e_one_cluster (fun rxc =>
    match rxc with
    | RGrapheme g => negb (is_reserved_char (match g with c :: _ => c | [] => 0%N end))
    | _ => true
    end).
(** dandy/src/parser/regex.rs:71-73 *)
Definition e_regex_char : E regex_char := e_alt e_empty_lang (e_alt e_empty_str (e_alt e_escaped_char e_normal_char)).
(** dandy/src/parser/regex.rs:52-57 *)
Definition e_combinated_char : E regex_tree :=
  e_mapR apply_kleene (e_pair (e_map RChar e_regex_char) (e_opt (e_one_of [43; 42]%N))).
(** dandy/src/parser/regex.rs:45-50 *)
Definition e_par_expr (expression : E regex_tree) : E regex_tree :=
  e_mapR apply_kleene (e_pair (e_delimited (e_char 40) expression (e_char 41)) (e_opt (e_one_of [43; 42]%N))).
(** dandy/src/parser/regex.rs:28-33 *)
Definition e_sequence (expression : E regex_tree) : E regex_tree :=
  e_mapR (wrap_multiple RSequence) (e_many1 (e_alt (e_par_expr expression) e_combinated_char)).
(** dandy/src/parser/regex.rs:21-26 *)
Definition e_alternation (expression : E regex_tree) : E regex_tree :=
  e_mapR (wrap_multiple RAlt) (e_separated_list1 (e_char 124) (e_sequence expression)).
(** dandy/src/parser/regex.rs:17-19 *)
Fixpoint e_expression (fuel : nat) : E regex_tree :=
  match fuel with
  | O => fun _ => Diverge
  | S fuel => e_alternation (e_expression fuel)
  end.
(** dandy/src/parser/regex.rs:13-15 and dandy/src/parser/mod.rs:119-123 *)
Definition try_regex (input : str) : R (result regex_tree nom_error) :=
  try_with (fun i => let t := trim i in e_expression (S (length t)) t) input.
End Regex.

(** ** Texts *)
(** [Debug] of [ErrorKind]. Part of the messages of dandy-cli/src/automata.rs:17-26 *)
Definition kind_text (k : kind) : str :=
  of_string (match k with
             | KTag => "Tag" | KTakeTill1 => "TakeTill1" | KVerify => "Verify" | KSpace => "Space" | KCrLf => "CrLf" | KEof => "Eof"
             | KChar => "Char" | KOneOf => "OneOf" | KFail => "Fail" | KMany0 => "Many0" | KMany1 => "Many1" | KSeparatedList => "SeparatedList"
             end).
(** [Display] of [Error]: "error {:?} at: {}". dandy-cli/src/automata.rs:17-26 print it with [{0}] *)
Definition error_display (e : nom_error) : str := of_string "error " ++ kind_text (ne_code e) ++ of_string " at: " ++ ne_input e.
(** derived [Debug] of [Error]; [quote] is [Debug] of [str]. dandy-wasm/src/lib.rs:165, 185, 207 and
    dandy-cli/src/equivalence.rs:164-180 print it with [{:?}] *)
Definition error_debug (quote : str -> str) (e : nom_error) : str :=
  of_string "Error { input: " ++ quote (ne_input e) ++ of_string ", code: " ++ kind_text (ne_code e) ++ of_string " }".
