(** * Prop_ErrPage: the texts of syntax errors on the web page (C71) *)
From Coq Require Import Ascii String List NArith Arith Bool Lia.
From Verif Require Import Base Spec TableSpec LayoutSpec RegexSpec ErrSpec ParserModel RegexModel RegexParserModel Messages CliModel CliSpec
  ErrModel ErrCliModel ErrCliProofs DrawModel DrawSpec CanvasModel CanvasSpec PageModel PageSpec Prop_Canvas Prop_Page.
Import ListNotations.
Close Scope string_scope.
Open Scope list_scope.

(** In every session every click shows the truth (C58), where the text shown for a syntax error names the kind and the place of the error. *)
Theorem C71_page : forall fl (db : doubles fl) seg cap checks type_error quote es,
  let texts := wasm_syntax seg quote in
  finite_angles db -> proper_radii db -> 2 * length es + 1 < cap -> divides seg ->
  (exists pgs, page_run db seg cap checks (texts TDfa) (texts TNfa) (texts TRegex) type_error (page_init db) es = Ret pgs /\
    session_shows db seg (texts TDfa) (texts TNfa) (texts TRegex) (page_init db) es pgs) /\
  forall ty u, ~ text_parses seg ty u -> exists k a d, syntax_error seg ty u k a /\ debug_error k (quote a) d /\
    texts ty u = of_string (match ty with TDfa => "Error parsing DFA: " | TNfa => "Error parsing NFA: " | TRegex => "Error parsing Regex: " end) ++ d.
Proof.
  intros fl db seg cap checks te quote es texts FA PR Cap D. split; [apply C58_sessions; auto|]. intros ty u. apply wasm_texts. auto.
Qed.
Print Assumptions C71_page.

(** ** Example: an expression with a star too many *)
Definition ex_quote (u : str) : str := [34%N] ++ u ++ [34%N].
Definition singly (u : str) : list str := map (fun c => [c]) u.
Example C71_page_example : wasm_syntax singly ex_quote TRegex (of_string "a**b") =
  of_string "Error parsing Regex: Error { input: " ++ ex_quote (of_string "*b") ++ of_string ", code: Eof }".
Proof. vm_compute. reflexivity. Qed.
Example C71_page_session : exists pg, page_run ex_doubles singly 1000 true (wasm_syntax singly ex_quote TDfa) (wasm_syntax singly ex_quote TNfa)
    (wasm_syntax singly ex_quote TRegex) [] (page_init ex_doubles) [Edit RegexIn (of_string "a**b"); click BRegex] = Ret pg /\
  pg_text _ (last pg (page_init ex_doubles)) RegexBtn = of_string "Error parsing Regex: Error { input: " ++ ex_quote (of_string "*b") ++ of_string ", code: Eof }".
Proof. eexists. split; vm_compute; reflexivity. Qed.
