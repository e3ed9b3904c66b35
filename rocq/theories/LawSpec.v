(** * LawSpec: the laws of regular expressions

    The equational laws of Salomaa (two complete axiom systems for the algebra of regular events, 1966), stated for the
    expressions a user writes (dandy/src/parser/mod.rs:46-57), and putting expressions for symbols. *)
From Coq Require Import List NArith Bool.
From Verif Require Import Base Spec RegexSpec.
Import ListNotations.

(** The expression matches the empty word *)
Fixpoint has_empty (e : doc_regex) : bool :=
  match e with
  | DEmpty | DSym _ => false
  | DEps | DStar _ => true
  | DSeq a b => has_empty a && has_empty b
  | DAlt a b => has_empty a || has_empty b
  | DPlus a => has_empty a
  end.

(** What can be derived from the laws *)
Inductive law : doc_regex -> doc_regex -> Prop :=
| law_refl a : law a a
| law_sym a b : law a b -> law b a
| law_trans a b c : law a b -> law b c -> law a c
| law_in_seq a a' b b' : law a a' -> law b b' -> law (DSeq a b) (DSeq a' b')
| law_in_alt a a' b b' : law a a' -> law b b' -> law (DAlt a b) (DAlt a' b')
| law_in_star a a' : law a a' -> law (DStar a) (DStar a')
| law_alt_assoc a b c : law (DAlt a (DAlt b c)) (DAlt (DAlt a b) c)
| law_alt_comm a b : law (DAlt a b) (DAlt b a)
| law_alt_same a : law (DAlt a a) a
| law_alt_empty a : law (DAlt DEmpty a) a
| law_seq_assoc a b c : law (DSeq a (DSeq b c)) (DSeq (DSeq a b) c)
| law_eps_seq a : law (DSeq DEps a) a
| law_seq_eps a : law (DSeq a DEps) a
| law_empty_seq a : law (DSeq DEmpty a) DEmpty
| law_seq_empty a : law (DSeq a DEmpty) DEmpty
| law_alt_seq a b c : law (DSeq (DAlt a b) c) (DAlt (DSeq a c) (DSeq b c))
| law_seq_alt a b c : law (DSeq a (DAlt b c)) (DAlt (DSeq a b) (DSeq a c))
| law_star a : law (DStar a) (DAlt DEps (DSeq a (DStar a)))
| law_star_eps a : law (DStar (DAlt DEps a)) (DStar a)
| law_plus a : law (DPlus a) (DSeq a (DStar a))
| law_solve a b x : has_empty a = false -> law x (DAlt (DSeq a x) b) -> law x (DSeq (DStar a) b).

(** Expression [f g] in the place of every symbol [g] *)
Fixpoint put (f : str -> doc_regex) (e : doc_regex) : doc_regex :=
  match e with
  | DEmpty => DEmpty
  | DEps => DEps
  | DSym g => f g
  | DSeq a b => DSeq (put f a) (put f b)
  | DAlt a b => DAlt (put f a) (put f b)
  | DStar a => DStar (put f a)
  | DPlus a => DPlus (put f a)
  end.

(** [u] is a way to type the expression [e] *)
Definition types (seg : str -> list str) (u : str) (e : doc_regex) : Prop :=
  exists gs, tokens seg gs /\ trims_to u (concat gs) /\ shows 0 e gs.

(** Texts made of elements of [al] and reserved characters are divided into exactly these *)
Definition apart (seg : str -> list str) (al : list str) : Prop :=
  forall hs, (forall g, In g hs -> In g al \/ exists c, syntax_char c /\ g = [c]) -> segmented seg hs.
