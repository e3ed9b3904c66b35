(** * ErrSpec: which syntax error a text has

    The errors of the text format, described with the layouts of [LayoutSpec] alone: where the text stops being the beginning
    of a table, and what was missing there.  No parsing code here. *)
From Coq Require Import String List NArith Arith Bool.
From Verif Require Import Base Spec TableSpec LayoutSpec RegexSpec Messages.
Import ListNotations.
Close Scope string_scope.
Open Scope list_scope.
Local Open Scope N_scope.

(** [nom::error::ErrorKind] (nom 7.1), as far as it occurs in the parsers *)
Inductive kind : Type := KTag | KTakeTill1 | KVerify | KSpace | KCrLf | KEof | KChar | KOneOf | KFail | KMany0 | KMany1 | KSeparatedList.
(** [nom::error::Error]: [code] and [input], the rest of the text where the error was raised *)
Record nom_error : Type := mk_error { ne_code : kind; ne_input : str }.

(** ** Beginnings of texts *)
(** A token cannot continue here *)
Definition token_stop (v : str) : Prop :=
  match v with [] => True | c :: _ => whitespace c \/ c = 35 \/ c = 123 \/ c = 125 end.
Definition no_blank (v : str) : Prop := match v with [] => True | c :: _ => c <> 32 /\ c <> 9 end.
Definition starts_eol (v : str) : Prop := exists e w, v = e ++ w /\ eol e.
(** The end of the text or of the line *)
Definition line_over (v : str) : Prop := v = [] \/ starts_eol v.
Definition starts_comment (v : str) : Prop := exists c w, v = c ++ w /\ comment c /\ line_over w.
(** A line with nothing but blanks and possibly a comment, possibly the last one *)
Definition starts_junk (v : str) : Prop := trail v \/ exists l w, v = l ++ w /\ junk_line l.

(** All such lines skipped *)
Definition skipped (u v : str) : Prop :=
  exists j t, u = j ++ t ++ v /\ junk j /\ (t = [] /\ ~ starts_junk v \/ trail t /\ v = []).

(** No token here: there is no character for it, or it is a reserved word *)
Definition no_token (k : kind) (v : str) : Prop :=
  k = KTakeTill1 /\ token_stop v \/
  k = KVerify /\ exists w v', v = w ++ v' /\ In w reserved_words /\ token_stop v'.

(** What follows the last item of a line: blanks and a comment up to the end of the line, or blanks up to something that is
    neither the end of the line, nor a comment, nor another item *)
Definition line_tail (no_more : str -> str -> Prop) (t v : str) : Prop :=
  (exists b c, t = b ++ c /\ blank b /\ comment c /\ line_over v) \/
  (blank t /\ no_blank v /\ ~ starts_comment v /\ no_more t v).

(** ** The errors of a table *)
Section Table.
  (** the header; no header at the beginning of this line; no more entries *)
  Context (head : str -> Prop) (no_head : str -> kind -> str -> Prop) (no_entry : str -> str -> Prop).
  (** the lines of states; their separated list; no first cell; a first cell; no more cells *)
  Context (body : str -> Prop) (no_cell : str -> kind -> str -> Prop) (a_cell : str -> Prop) (no_more : str -> str -> Prop).

  (** The arrow and the star, when they are followed by blanks *)
  Definition markers (m v : str) : Prop :=
    exists a s, m = a ++ s /\
      ((exists w b, a = w ++ b /\ arrow_text w /\ blank1 b) \/
       a = [] /\ ~ exists w b x, s ++ v = w ++ b ++ x /\ arrow_text w /\ blank1 b) /\
      ((exists b, s = 42 :: b /\ blank1 b) \/
       s = [] /\ ~ exists b x, v = 42 :: b ++ x /\ blank1 b).

  (** The line of a state is not complete: no name, no blank after the name, or no first cell *)
  Definition line_error (v : str) (k : kind) (at_ : str) : Prop :=
    exists b w, v = b ++ w /\ blank b /\ no_blank w /\
    ((exists m, w = m ++ at_ /\ markers m at_ /\ no_blank at_ /\ no_token k at_) \/
     (exists i a name st, w = st ++ at_ /\ line_start i a name st /\ token_stop at_ /\ no_blank at_ /\ k = KSpace) \/
     (exists i a name st b1 x, w = st ++ b1 ++ x /\ line_start i a name st /\ blank1 b1 /\ no_blank x /\ no_cell x k at_)).
  (** The line of a state that is complete up to its first cell *)
  Definition starts_line (v : str) : Prop :=
    exists b i a name st b1 x, v = b ++ st ++ b1 ++ x /\ blank b /\ line_start i a name st /\ blank1 b1 /\ a_cell x.

  Definition table_error (u : str) (k : kind) (at_ : str) : Prop :=
    exists v, skipped u v /\
    (no_head v k at_ \/
     exists h t v1, v = h ++ t ++ v1 /\ head h /\ line_tail no_entry t v1 /\
     (k = KCrLf /\ at_ = v1 /\ ~ starts_eol v1 \/
      exists e w v2, v1 = e ++ w /\ eol e /\ skipped w v2 /\
      (line_error v2 k at_ \/
       exists ls t' v3, v2 = ls ++ t' ++ v3 /\ body ls /\ line_tail no_more t' v3 /\ k = KEof /\ at_ <> [] /\
       (at_ = v3 /\ ~ starts_eol v3 \/
        exists e w, v3 = e ++ w /\ eol e /\ skipped w at_ /\ ~ starts_line at_)))).
End Table.

(** ** DFA tables *)
Definition dfa_no_head (v : str) (k : kind) (at_ : str) : Prop := exists b, v = b ++ at_ /\ blank b /\ no_blank at_ /\ no_token k at_.
Definition no_more_tokens (t v : str) : Prop := (t = [] -> token_stop v) /\ exists k, no_token k v.
Definition dfa_no_cell (v : str) (k : kind) (at_ : str) : Prop := at_ = v /\ no_token k v.
Definition a_token (v : str) : Prop := exists t w, v = t ++ w /\ legal_token t /\ token_stop w.
Definition dfa_error : str -> kind -> str -> Prop :=
  table_error (fun h => exists es, dfa_head_text es h) dfa_no_head no_more_tokens
              (fun ls => exists ss, sep_by junk1 dfa_line_text ss ls) dfa_no_cell a_token no_more_tokens.

(** ** NFA tables *)
Definition no_entry (v : str) : Prop :=
  token_stop v \/ exists w v', v = w ++ v' /\ In w [[8594]; [45; 62]; [42]] /\ token_stop v'.
Definition nfa_no_head (v : str) (k : kind) (at_ : str) : Prop :=
  exists b, v = b ++ at_ /\ blank b /\ no_blank at_ /\ no_entry at_ /\ k = KTag.
Definition no_more_entries (t v : str) : Prop := (t = [] -> token_stop v) /\ no_entry v.
(** A set is missing, or it is not closed: after an opening brace and names there is neither another name nor a closing brace *)
Definition nfa_no_cell (v : str) (k : kind) (at_ : str) : Prop :=
  k = KTag /\
  (at_ = v /\ (forall w, v <> 123 :: w) \/
   exists b ns t, v = [123] ++ b ++ ns ++ t ++ at_ /\ blank b /\ blank t /\ no_blank at_ /\ (forall w, at_ <> 125 :: w) /\
     (ns = [] /\ t = [] /\ (exists k, no_token k at_) \/
      (exists names, sep_by blank1 token_text names ns) /\ no_more_tokens t at_)).
Definition a_set (v : str) : Prop := exists ts s w, v = s ++ w /\ set_text ts s.
Definition no_more_sets (t v : str) : Prop := t <> [] -> ~ a_set v.
Definition nfa_error : str -> kind -> str -> Prop :=
  table_error (fun h => exists es, nfa_head_text es h) nfa_no_head no_more_entries
              (fun ls => exists ss, sep_by junk1 nfa_line_text ss ls) nfa_no_cell a_set no_more_sets.

(** ** Expressions *)
(** [gs] are the tokens of the trimmed text. Where a beginning of the text is an expression, the error is at the end of the longest one *)
Definition an_expression (gs : list str) : Prop := exists e, shows 0 e gs.
Definition regex_error (gs : list str) (k : kind) (at_ : str) : Prop :=
  (gs = [] /\ k = KFail /\ at_ = []) \/
  (gs <> [] /\ k = KVerify /\ at_ = concat gs /\ forall g1 g2, gs = g1 ++ g2 -> ~ an_expression g1) \/
  (k = KEof /\ exists g1 g2, gs = g1 ++ g2 /\ g2 <> [] /\ at_ = concat g2 /\ an_expression g1 /\
     forall h1 h2, gs = h1 ++ h2 -> an_expression h1 -> (length h1 <= length g1)%nat).

(** ** Texts *)
(** The names of the kinds that occur *)
Inductive kind_name : kind -> str -> Prop :=
| kn_tag : kind_name KTag (of_string "Tag")
| kn_take : kind_name KTakeTill1 (of_string "TakeTill1")
| kn_verify : kind_name KVerify (of_string "Verify")
| kn_space : kind_name KSpace (of_string "Space")
| kn_crlf : kind_name KCrLf (of_string "CrLf")
| kn_eof : kind_name KEof (of_string "Eof")
| kn_fail : kind_name KFail (of_string "Fail").
(** [{}] and [{:?}]; [quoted] is the text in quotes, with escapes *)
Definition shown_error (k : kind) (at_ m : str) : Prop :=
  exists n, kind_name k n /\ m = of_string "error " ++ n ++ of_string " at: " ++ at_.
Definition debug_error (k : kind) (quoted m : str) : Prop :=
  exists n, kind_name k n /\ m = of_string "Error { input: " ++ quoted ++ of_string ", code: " ++ n ++ of_string " }".
