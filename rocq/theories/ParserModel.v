(** * ParserModel: the combinators of nom and the table parsers of dandy/src/parser/fa.rs

    A parser maps the input to the rest and a value, or to a (recoverable) error [None]; the parsers of this code base never
    raise unrecoverable errors.  The content of errors is modelled in [ErrModel].  nom's combinators are modelled from nom 7.1 (see
    dandy/Cargo.toml); the loops of [many0], [many1] and the separated lists are bounded by the length of the input,
    and running out of rounds would be [Diverge]. *)
From Coq Require Import List NArith Arith Bool.
From Verif Require Import Base Spec TableSpec.
Import ListNotations.

(** nom's [IResult<&str, A>], as in dandy/src/parser/fa.rs:10 *)
Definition P (A : Type) : Type := str -> R (option (str * A)).

(** ** nom *)

(** a parser that succeeds without consuming; not a combinator of dandy/src/parser/fa.rs, used to define the others *)
Definition pret {A} (a : A) : P A := fun i => Ret (Some (i, a)).

(** one parser after another, as in the [tuple] of dandy/src/parser/fa.rs:45-52 and 93-100; used to define the
    others *)
Definition pbind {A B} (p : P A) (f : A -> P B) : P B := fun i =>
  r <- p i ;;
  match r with
  | None => Ret None
  | Some (i', a) => f a i'
  end.

(** [map]. dandy/src/parser/fa.rs:11, 42, 65, 90, 113, 143 *)
Definition pmap {A B} (f : A -> B) (p : P A) : P B := pbind p (fun a => pret (f a)).
(** [value]. dandy/src/parser/fa.rs:34, 139, 150, 160, 164 *)
Definition pvalue {A B} (b : B) (p : P A) : P B := pmap (fun _ => b) p.
(** [pair], [preceded], [terminated], [delimited]. dandy/src/parser/fa.rs:14, 68, 160, 164 *)
Definition ppair {A B} (p : P A) (q : P B) : P (A * B) := pbind p (fun a => pmap (fun b => (a, b)) q).

(** [preceded]: dandy/src/parser/fa.rs:16, 70 *)
Definition preceded {A B} (p : P A) (q : P B) : P B := pmap snd (ppair p q).

(** [terminated]: dandy/src/parser/fa.rs:15, 47, 49, 50, 69, 153 *)
Definition terminated {A B} (p : P A) (q : P B) : P A := pmap fst (ppair p q).

(** [delimited]: dandy/src/parser/fa.rs:12, 28, 43, 66, 82, 91, 124, 126 *)
Definition delimited {A B C} (p : P A) (q : P B) (r : P C) : P B := preceded p (terminated q r).

(** [alt((p, q))]. dandy/src/parser/fa.rs:32, 113, 143, 153; more than two alternatives are nested *)
Definition palt {A} (p q : P A) : P A := fun i =>
  r <- p i ;;
  match r with
  | None => q i
  | Some x => Ret (Some x)
  end.

(** [opt]. dandy/src/parser/fa.rs:46, 49, 94, 97, 160 *)
Definition popt {A} (p : P A) : P (option A) := fun i =>
  r <- p i ;;
  match r with
  | None => Ret (Some (i, None))
  | Some (i', a) => Ret (Some (i', Some a))
  end.

(** [verify]. dandy/src/parser/fa.rs:117, 132, 152 *)
Definition pverify {A} (p : P A) (f : A -> bool) : P A := fun i =>
  r <- p i ;;
  match r with
  | Some (i', a) => if f a then Ret (Some (i', a)) else Ret None
  | None => Ret None
  end.

(** [recognize]: the consumed part of the input (the rest is a suffix of the input). dandy/src/parser/fa.rs:153 *)
Definition recognize {A} (p : P A) : P str := fun i =>
  r <- p i ;;
  match r with
  | Some (i', _) => Ret (Some (i', firstn (length i - length i') i))
  | None => Ret None
  end.

(** The loop of [many0], and of [many1] after its first round. dandy/src/parser/fa.rs:13, 17, 18, 21 *)
Fixpoint many_loop {A} (fuel : nat) (p : P A) (acc : list A) (i : str) : R (option (str * list A)) :=
  match fuel with
  | O => Diverge
  | S fuel =>
      r <- p i ;;
      match r with
      | None => Ret (Some (i, acc))
      | Some (i1, o) =>
          if length i1 =? length i then Ret None (* nom's infinite loop check *)
          else many_loop fuel p (acc ++ [o]) i1
      end
  end.

(** [many0]: dandy/src/parser/fa.rs:13, 17, 21, 67, 71, 75 *)
Definition many0 {A} (p : P A) : P (list A) := fun i => many_loop (S (length i)) p [] i.

(** [many1]: dandy/src/parser/fa.rs:18, 72 *)
Definition many1 {A} (p : P A) : P (list A) := pbind p (fun o i => many_loop (S (length i)) p [o] i).

(** The loop of [separated_list0] and [separated_list1]. dandy/src/parser/fa.rs:18, 30, 51, 72, 84, 99, 126 *)
Fixpoint sep_loop {A B} (fuel : nat) (sep : P B) (p : P A) (acc : list A) (i : str) : R (option (str * list A)) :=
  match fuel with
  | O => Diverge
  | S fuel =>
      r <- sep i ;;
      match r with
      | None => Ret (Some (i, acc))
      | Some (i1, _) =>
          if length i1 =? length i then Ret None (* nom's infinite loop check *)
          else
            r2 <- p i1 ;;
            match r2 with
            | None => Ret (Some (i, acc))
            | Some (i2, o) => sep_loop fuel sep p (acc ++ [o]) i2
            end
      end
  end.

(** [separated_list1]: dandy/src/parser/fa.rs:18, 30, 51, 72, 84, 99 *)
Definition separated_list1 {A B} (sep : P B) (p : P A) : P (list A) :=
  pbind p (fun o i => sep_loop (S (length i)) sep p [o] i).

(** [separated_list0]: dandy/src/parser/fa.rs:126 *)
Definition separated_list0 {A B} (sep : P B) (p : P A) : P (list A) := fun i =>
  r <- p i ;;
  match r with
  | None => Ret (Some (i, []))
  | Some (i1, o) => sep_loop (S (length i1)) sep p [o] i1
  end.

(** [all_consuming]. dandy/src/parser/mod.rs:103, 112, 120 *)
Definition all_consuming {A} (p : P A) : P A := fun i =>
  r <- p i ;;
  match r with
  | Some ([], a) => Ret (Some ([], a))
  | _ => Ret None
  end.

(** [tag]. dandy/src/parser/fa.rs:113, 125, 127, 139, 143, 164 *)
Fixpoint tag (t : str) : P unit := fun i =>
  match t, i with
  | [], _ => Ret (Some (i, tt))
  | c :: t', d :: i' => if N.eqb c d then tag t' i' else Ret None
  | _ :: _, [] => Ret None
  end.

(** The longest prefix of characters satisfying [f], and the rest. The scan of [take_till1], [space0] and
    [not_line_ending] of dandy/src/parser/fa.rs *)
Fixpoint span (f : N -> bool) (i : str) : str * str :=
  match i with
  | c :: i' => if f c then let '(u, v) := span f i' in (c :: u, v) else ([], i)
  | [] => ([], [])
  end.

(** [take_till1]: characters up to one that satisfies [f]. dandy/src/parser/fa.rs:118, 133 *)
Definition take_till1 (f : N -> bool) : P str := fun i =>
  let '(u, v) := span (fun c => negb (f c)) i in
  match u with [] => Ret None | _ => Ret (Some (v, u)) end.

(** the characters of [space0] and [space1] of dandy/src/parser/fa.rs:4 *)
Definition is_space (c : N) : bool := N.eqb c 32 || N.eqb c 9.
(** [space0], [space1]: spaces and tabs. dandy/src/parser/fa.rs:29, 44, 83, 92, 126, 160 *)
Definition space0 : P str := fun i => let '(u, v) := span is_space i in Ret (Some (v, u)).

(** [space1]: dandy/src/parser/fa.rs:31, 47, 49-51, 84, 95-99, 126 *)
Definition space1 : P str := fun i =>
  let '(u, v) := span is_space i in match u with [] => Ret None | _ => Ret (Some (v, u)) end.

(** [line_ending]. dandy/src/parser/fa.rs:15, 69, 153 *)
Definition line_ending : P unit := palt (tag [10%N]) (tag [13%N; 10%N]).
(** [not_line_ending]: everything up to a line end; an error at a carriage return that is not part of a line end.
    dandy/src/parser/fa.rs:164 *)
Definition not_line_ending : P str := fun i =>
  let '(u, v) := span (fun c => negb (N.eqb c 10 || N.eqb c 13)) i in
  match v with
  | [] => Ret (Some (v, u))
  | c :: v' =>
      if N.eqb c 13 then match v' with
                         | d :: _ => if N.eqb d 10 then Ret (Some (v, u)) else Ret None
                         | [] => Ret None
                         end
      else Ret (Some (v, u))
  end.
(** [eof]. dandy/src/parser/fa.rs:153 *)
Definition eof : P unit := fun i => match i with [] => Ret (Some ([], tt)) | _ => Ret None end.

(** ** dandy/src/parser/fa.rs *)

(** [char::is_whitespace] of the Rust standard library. Used at dandy/src/parser/fa.rs:118, 133 *)
Definition is_whitespace (c : N) : bool :=
  ((9 <=? c) && (c <=? 13) || (c =? 32) || (c =? 133) || (c =? 160) || (c =? 5760) || ((8192 <=? c) && (c <=? 8202)) ||
   (c =? 8232) || (c =? 8233) || (c =? 8239) || (c =? 8287) || (c =? 12288))%N.

(** dandy/src/parser/fa.rs:118, 133: whitespace or one of [#{}] *)
Definition token_end (c : N) : bool := is_whitespace c || mem c [35; 123; 125]%N.
(** dandy/src/parser/fa.rs:119, 134 *)
Definition reserved : list str := [[949]; [101; 112; 115]; [8594]; [45; 62]; [42]]%N.

(** dandy/src/parser/fa.rs:163-165 *)
Definition p_comment : P unit := pvalue tt (ppair (tag [35%N]) not_line_ending).
(** dandy/src/parser/fa.rs:159-161 *)
Definition space_comment : P unit := pvalue tt (ppair space0 (popt p_comment)).
(** dandy/src/parser/fa.rs:146-157 *)
Definition space_comment_line : P unit :=
  pvalue tt (pverify (recognize (terminated space_comment (palt line_ending eof)))
                     (fun consumed => negb (match consumed with [] => true | _ => false end))).
(** dandy/src/parser/fa.rs:142-144 *)
Definition p_arrow : P unit := pmap (fun _ => tt) (palt (tag [45; 62]%N) (tag [8594]%N)).
(** dandy/src/parser/fa.rs:138-140 *)
Definition p_accepting : P unit := pvalue tt (tag [42%N]).
(** dandy/src/parser/fa.rs:131-136 *)
Definition state_name : P str := pverify (take_till1 token_end) (fun elem => negb (mem elem reserved)).
(** dandy/src/parser/fa.rs:123-129 *)
Definition state_set : P (list str) :=
  delimited (tag [123%N]) (delimited space0 (separated_list0 space1 state_name) space0) (tag [125%N]).
(** dandy/src/parser/fa.rs:116-121 *)
Definition alphabet_elem : P str := pverify (take_till1 token_end) (fun elem => negb (mem elem reserved)).
(** dandy/src/parser/fa.rs:112-114 *)
Definition p_eps : P unit := pmap (fun _ => tt) (palt (tag [949%N]) (tag [101; 112; 115]%N)).

(** The tuple at the beginning of a line: dandy/src/parser/fa.rs:45-50 and 93-98 *)
Definition line_prefix {A} (transitions : P A) : P (bool * bool * str * A) :=
  pbind (popt (terminated p_arrow space1)) (fun initial =>
  pbind (popt (terminated p_accepting space1)) (fun accepting =>
  pbind (terminated state_name space1) (fun name =>
  pmap (fun ts => (match initial with Some _ => true | None => false end,
                   match accepting with Some _ => true | None => false end, name, ts)) transitions))).

(** dandy/src/parser/fa.rs:89-110 *)
Definition dfa_line : P parsed_dfa_state :=
  pmap (fun '(initial, accepting, name, transitions) =>
          {| pds_name := name; pds_initial := initial; pds_accepting := accepting; pds_transitions := transitions |})
       (delimited space0 (line_prefix (separated_list1 space1 state_name)) space_comment).
(** dandy/src/parser/fa.rs:81-87 *)
Definition dfa_head : P (list str) := delimited space0 (separated_list1 space1 alphabet_elem) space_comment.
(** dandy/src/parser/fa.rs:64-79 *)
Definition full_dfa : P parsed_dfa :=
  pmap (fun '(head, states) => {| pd_head := head; pd_states := states |})
       (delimited (many0 space_comment_line)
                  (ppair (terminated dfa_head line_ending)
                         (preceded (many0 space_comment_line) (separated_list1 (many1 space_comment_line) dfa_line)))
                  (many0 space_comment_line)).

(** dandy/src/parser/fa.rs:41-62 *)
Definition nfa_line : P parsed_nfa_state :=
  pmap (fun '(initial, accepting, name, transitions) =>
          {| pns_name := name; pns_initial := initial; pns_accepting := accepting; pns_transitions := transitions |})
       (delimited space0 (line_prefix (separated_list1 space1 state_set)) space_comment).
(** dandy/src/parser/fa.rs:27-39 *)
Definition nfa_head : P (list nfa_entry) :=
  delimited space0 (separated_list1 space1 (palt (pmap Element alphabet_elem) (pvalue Eps p_eps))) space_comment.
(** dandy/src/parser/fa.rs:10-25 *)
Definition full_nfa : P parsed_nfa :=
  pmap (fun '(head, states) => {| pn_head := head; pn_states := states |})
       (delimited (many0 space_comment_line)
                  (ppair (terminated nfa_head line_ending)
                         (preceded (many0 space_comment_line) (separated_list1 (many1 space_comment_line) nfa_line)))
                  (many0 space_comment_line)).

(** dandy/src/parser/mod.rs:102-115 [parser::dfa], [parser::nfa]; [None] is an [Err] *)
Definition parse_with {A} (p : P A) (input : str) : R (option A) :=
  r <- all_consuming p input ;; Ret (option_map snd r).

(** dandy/src/parser/mod.rs:102-106 [dfa] *)
Definition parse_dfa (input : str) : R (option parsed_dfa) := parse_with full_dfa input.

(** dandy/src/parser/mod.rs:111-115 [nfa] *)
Definition parse_nfa (input : str) : R (option parsed_nfa) := parse_with full_nfa input.
