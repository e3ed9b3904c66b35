(** * RegexSpec: the documented concrete syntax of regular expressions

    dandy/src/parser/mod.rs:46-57 and dandy/src/regex/mod.rs:5-12.  Texts are lists of tokens: graphemes, reserved characters,
    and graphemes with a backslash before them. *)
From Coq Require Import List NArith Arith Bool.
From Verif Require Import Base Spec LayoutSpec.
Import ListNotations.
Local Open Scope N_scope.

(** Expressions as a user thinks of them, and the words they match *)
Inductive doc_regex : Type :=
| DEmpty
| DEps
| DSym (g : str)
| DSeq (a b : doc_regex)
| DAlt (a b : doc_regex)
| DStar (a : doc_regex)
| DPlus (a : doc_regex).

Inductive doc_lang : doc_regex -> word -> Prop :=
| dl_eps : doc_lang DEps []
| dl_sym g : doc_lang (DSym g) [g]
| dl_seq a b w1 w2 : doc_lang a w1 -> doc_lang b w2 -> doc_lang (DSeq a b) (w1 ++ w2)
| dl_alt_l a b w : doc_lang a w -> doc_lang (DAlt a b) w
| dl_alt_r a b w : doc_lang b w -> doc_lang (DAlt a b) w
| dl_star_nil a : doc_lang (DStar a) []
| dl_star_cons a w1 w2 : doc_lang a w1 -> doc_lang (DStar a) w2 -> doc_lang (DStar a) (w1 ++ w2)
| dl_plus a w1 w2 : doc_lang a w1 -> doc_lang (DStar a) w2 -> doc_lang (DPlus a) (w1 ++ w2).

(** The symbols of an expression, in order of occurrence *)
Fixpoint doc_symbols (e : doc_regex) : list str :=
  match e with
  | DEmpty | DEps => []
  | DSym g => [g]
  | DSeq a b | DAlt a b => doc_symbols a ++ doc_symbols b
  | DStar a | DPlus a => doc_symbols a
  end.

(** The reserved characters: ( ) ∅ ε | * + \ *)
Definition syntax_char (c : N) : Prop := In c [40; 41; 8709; 949; 124; 42; 43; 92].

(** Grapheme [g] begins with a reserved character *)
Definition syntax_head (g : str) : Prop := exists c g', g = c :: g' /\ syntax_char c.

(** [shows n e u]: the text [u] denotes [e] in a context of level [n]: alternation (0), sequence (1), repetition (2),
    primary expression (3) *)
Inductive shows : nat -> doc_regex -> list str -> Prop :=
| sh_sym g : ~ syntax_head g -> shows 3 (DSym g) [g]
| sh_escape g : g <> [] -> shows 3 (DSym g) [92 :: g]
| sh_eps : shows 3 DEps [[949]]
| sh_empty : shows 3 DEmpty [[8709]]
| sh_group e u : shows 0 e u -> shows 3 e ([40] :: u ++ [[41]])
| sh_star e u : shows 3 e u -> shows 2 (DStar e) (u ++ [[42]])
| sh_plus e u : shows 3 e u -> shows 2 (DPlus e) (u ++ [[43]])
| sh_seq a b u v : shows 1 a u -> shows 1 b v -> shows 1 (DSeq a b) (u ++ v)
| sh_alt a b u v : shows 0 a u -> shows 0 b v -> shows 0 (DAlt a b) (u ++ [124] :: v)
| sh_up n e u : shows (S n) e u -> shows n e u.

(** What segmentation into graphemes does: it divides any text into pieces *)
Definition divides (seg : str -> list str) : Prop := forall u, concat (seg u) = u /\ ~ In [] (seg u).

(** The tokens of a text, read from left to right: a reserved character is a token, whatever follows it; a backslash makes a
    token together with the grapheme after it, if there is one; elsewhere the first grapheme is a token. *)
Inductive tokens (seg : str -> list str) : list str -> Prop :=
| tk_nil : tokens seg []
| tk_reserved c gs : syntax_char c -> c <> 92 -> tokens seg gs -> tokens seg ([c] :: gs)
| tk_backslash : tokens seg [[92]]
| tk_escape g l gs : seg (g ++ concat gs) = g :: l -> tokens seg gs -> tokens seg ((92 :: g) :: gs)
| tk_symbol g l gs : ~ syntax_head g -> seg (g ++ concat gs) = g :: l -> tokens seg gs -> tokens seg (g :: gs).

(** Cutting off the graphemes [gs] at the front one by one does not change the segmentation of the rest *)
Inductive segmented (seg : str -> list str) : list str -> Prop :=
| seg_nil : seg [] = [] -> segmented seg []
| seg_cons g gs : seg (concat (g :: gs)) = g :: gs -> segmented seg gs -> segmented seg (g :: gs).

(** [u] is [v] with whitespace around it, and [v] neither begins nor ends with whitespace *)
Definition trims_to (u v : str) : Prop :=
  exists w1 w2, u = w1 ++ v ++ w2 /\ (forall c, In c w1 \/ In c w2 -> whitespace c) /\
    (forall c v', v = c :: v' -> ~ whitespace c) /\ (forall c v', v = v' ++ [c] -> ~ whitespace c).

(** The expression in which the symbols ε and ∅ are read as the empty word and the empty language *)
Fixpoint unescaped (t : regex_tree) : regex_tree :=
  match t with
  | RSequence l => RSequence (map unescaped l)
  | RAlt l => RAlt (map unescaped l)
  | RRepeat r => RRepeat (unescaped r)
  | RChar (RGrapheme [949]) => RChar REpsilon
  | RChar (RGrapheme [8709]) => RChar REmpty
  | RChar c => RChar c
  end.
