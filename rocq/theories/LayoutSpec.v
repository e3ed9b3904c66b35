(** * LayoutSpec: the texts that lay out a parsed table

    The documented text format (dandy/src/parser/mod.rs:5-45, dandy/src/lib.rs), as relations between a parsed table and
    a text.  No parsing code here. *)
From Coq Require Import List NArith Arith Bool.
From Verif Require Import Base Spec TableSpec.
Import ListNotations.
Local Open Scope N_scope.

(** [char::is_whitespace]: the characters with the Unicode property White_Space *)
Definition whitespace (c : N) : Prop :=
  (9 <= c /\ c <= 13) \/ c = 32 \/ c = 133 \/ c = 160 \/ c = 5760 \/ (8192 <= c /\ c <= 8202) \/
  c = 8232 \/ c = 8233 \/ c = 8239 \/ c = 8287 \/ c = 12288.

(** ε, eps, →, ->, * *)
Definition reserved_words : list str := [[949]; [101; 112; 115]; [8594]; [45; 62]; [42]].

(** A token (alphabet element or state name): not empty, without whitespace, '#' and braces, and not a reserved word *)
Definition legal_token (t : str) : Prop :=
  t <> [] /\ (forall c, In c t -> ~ whitespace c /\ c <> 35 /\ c <> 123 /\ c <> 125) /\ ~ In t reserved_words.

(** Spaces and tabs *)
Definition blank (u : str) : Prop := forall c, In c u -> c = 32 \/ c = 9.
Definition blank1 (u : str) : Prop := blank u /\ u <> [].

(** Line ends: LF or CRLF *)
Definition eol (u : str) : Prop := u = [10] \/ u = [13; 10].

(** '#' and everything up to the end of the line *)
Definition comment (u : str) : Prop := exists t, u = 35 :: t /\ forall c, In c t -> c <> 10 /\ c <> 13.

(** What may follow on any line: blanks, then possibly a comment *)
Definition trail (u : str) : Prop := exists b c, u = b ++ c /\ blank b /\ (c = [] \/ comment c).

(** The rest of a line that contains nothing but blanks and possibly a comment, with its line end *)
Definition junk_line (u : str) : Prop := exists t e, u = t ++ e /\ trail t /\ eol e.
(** Any number of such lines; at least one *)
Definition junk (u : str) : Prop := exists ls, u = concat ls /\ Forall junk_line ls.
Definition junk1 (u : str) : Prop := exists l ls, u = l ++ concat ls /\ junk_line l /\ Forall junk_line ls.

(** A non-empty list of items, laid out one after the other with separators in between *)
Inductive sep_by {A} (sep : str -> Prop) (item : A -> str -> Prop) : list A -> str -> Prop :=
| sep_by_one a u : item a u -> sep_by sep item [a] u
| sep_by_more a u s l v : item a u -> sep s -> sep_by sep item l v -> sep_by sep item (a :: l) (u ++ s ++ v).

Definition token_text (t u : str) : Prop := legal_token t /\ u = t.
Definition arrow_text (u : str) : Prop := u = [45; 62] \/ u = [8594].

(** [-> ] [* ] name: the beginning of a line; [b0], [b1] and [b2] are blanks *)
Definition line_start (initial accepting : bool) (name u : str) : Prop :=
  exists a s, u = a ++ s ++ name /\
    (if initial then exists w b, a = w ++ b /\ arrow_text w /\ blank1 b else a = []) /\
    (if accepting then exists b, s = 42 :: b /\ blank1 b else s = []) /\
    legal_token name.

Definition dfa_line_text (s : parsed_dfa_state) (u : str) : Prop :=
  exists b0 st b ts, u = b0 ++ st ++ b ++ ts /\ blank b0 /\ blank1 b /\
    line_start (pds_initial s) (pds_accepting s) (pds_name s) st /\
    sep_by blank1 token_text (pds_transitions s) ts.

Definition dfa_head_text (h : list str) (u : str) : Prop :=
  exists b ts, u = b ++ ts /\ blank b /\ sep_by blank1 token_text h ts.

(** The text of a DFA table: junk lines, the header, and the lines of the states, with at least a line end (and possibly
    more junk lines) between them, and junk at the end, where the last line end may be missing *)
Definition dfa_text (p : parsed_dfa) (u : str) : Prop :=
  exists j0 h j1 body j2 t, u = j0 ++ h ++ j1 ++ body ++ j2 ++ t /\
    junk j0 /\ dfa_head_text (pd_head p) h /\ junk1 j1 /\
    sep_by junk1 dfa_line_text (pd_states p) body /\ junk j2 /\ trail t.

(** NFA tables: the header may contain epsilon columns, the entries are sets *)
Definition entry_text (e : nfa_entry) (u : str) : Prop :=
  match e with
  | Element a => token_text a u
  | Eps => u = [949] \/ u = [101; 112; 115]
  end.

Definition set_text (ts : list str) (u : str) : Prop :=
  exists b1 v b2, u = [123] ++ b1 ++ v ++ b2 ++ [125] /\ blank b1 /\ blank b2 /\
    (ts = [] /\ v = [] \/ sep_by blank1 token_text ts v).

Definition nfa_line_text (s : parsed_nfa_state) (u : str) : Prop :=
  exists b0 st b ts, u = b0 ++ st ++ b ++ ts /\ blank b0 /\ blank1 b /\
    line_start (pns_initial s) (pns_accepting s) (pns_name s) st /\
    sep_by blank1 set_text (pns_transitions s) ts.

Definition nfa_head_text (h : list nfa_entry) (u : str) : Prop :=
  exists b ts, u = b ++ ts /\ blank b /\ sep_by blank1 entry_text h ts.

Definition nfa_text (p : parsed_nfa) (u : str) : Prop :=
  exists j0 h j1 body j2 t, u = j0 ++ h ++ j1 ++ body ++ j2 ++ t /\
    junk j0 /\ nfa_head_text (pn_head p) h /\ junk1 j1 /\
    sep_by junk1 nfa_line_text (pn_states p) body /\ junk j2 /\ trail t.

(** Every line feed replaced by CRLF *)
Fixpoint crlf (u : str) : str :=
  match u with
  | [] => []
  | c :: u' => if c =? 10 then 13 :: 10 :: crlf u' else c :: crlf u'
  end.

(** ** Aligned tables *)

(** One line: every cell but the last is padded to the width of its column, and every cell is followed by a blank *)
Fixpoint aligned_line (ws : list nat) (row : list str) : str :=
  match ws, row with
  | [_], [c] => c ++ [32]
  | w :: ws', c :: row' => c ++ repeat 32 (w - length c)%nat ++ [32] ++ aligned_line ws' row'
  | _, _ => []
  end.

(** [w] is the length of the longest cell in column [j] *)
Definition column_width (rows : list (list str)) (j w : nat) : Prop :=
  (forall row c, In row rows -> nth_error row j = Some c -> (length c <= w)%nat) /\
  exists row c, In row rows /\ nth_error row j = Some c /\ length c = w.

(** Lines with a line feed between them *)
Fixpoint lines_text (lines : list str) : str :=
  match lines with
  | [] => []
  | [l] => l
  | l :: ls => l ++ [10] ++ lines_text ls
  end.

(** The text shows the rows, one per line, with aligned columns *)
Definition aligned (rows : list (list str)) (u : str) : Prop :=
  exists ws, (forall row, In row rows -> length row = length ws) /\
    (forall j w, nth_error ws j = Some w -> column_width rows j w) /\
    u = lines_text (map (aligned_line ws) rows).

(** The cells of the table of a DFA: the header, and for each state the arrow, the star, the name and the targets' names *)
Definition flag_text (f : bool) (s : str) : str := if f then s else [].
Definition dfa_state_cells (d : dfa) (arrow : str) (s : dfa_state) (cells : list str) : Prop :=
  exists names, cells = [flag_text (ds_initial s) arrow; flag_text (ds_accepting s) [42]; ds_name s] ++ names /\
    Forall2 (fun t nm => exists st, nth_error (dfa_states d) t = Some st /\ ds_name st = nm) (ds_transitions s) names.
Definition dfa_cells (d : dfa) (arrow : str) (rows : list (list str)) : Prop :=
  exists body, rows = ([[]; []; []] ++ dfa_alphabet d) :: body /\ Forall2 (dfa_state_cells d arrow) (dfa_states d) body.

(** and of an NFA, where a cell is a set of names, with the epsilon column first *)
Fixpoint spaced (l : list str) : str :=
  match l with [] => [] | [x] => x | x :: xs => x ++ [32] ++ spaced xs end.
Definition nfa_set_cell (n : nfa) (ts : list nat) (cell : str) : Prop :=
  exists names, cell = [123] ++ spaced names ++ [125] /\
    Forall2 (fun t nm => exists st, nth_error (nfa_states n) t = Some st /\ ns_name st = nm) ts names.
Definition nfa_state_cells (n : nfa) (arrow : str) (s : nfa_state) (cells : list str) : Prop :=
  exists sets, cells = [flag_text (ns_initial s) arrow; flag_text (ns_accepting s) [42]; ns_name s] ++ sets /\
    Forall2 (nfa_set_cell n) (ns_eps s :: ns_transitions s) sets.
Definition nfa_cells (n : nfa) (eps arrow : str) (rows : list (list str)) : Prop :=
  exists body, rows = ([[]; []; []; eps] ++ nfa_alphabet n) :: body /\ Forall2 (nfa_state_cells n arrow) (nfa_states n) body.
