(** * PageModel: the web page

    Models the script of website/index.html on top of WasmModel and CanvasModel: the contents of the text areas, the texts of
    the buttons and of the error lines, the canvas, and the state of the wasm module.

    Outside of the model: the browser.  [value] of a text area gives the text with normalised line ends (HTML standard, "API
    value"); texts are lists of code points; the texts of syntax errors and of a TypeError are parameters; a panic ends the
    session. *)
From Coq Require Import Ascii String List NArith Arith Bool.
From Verif Require Import Base Spec TableSpec LayoutSpec DfaModel NfaModel RegexModel ValidateModel ParserModel TableModel
  RegexParserModel Messages WasmModel DrawModel CanvasModel.
Import ListNotations.
Close Scope string_scope.
Open Scope list_scope.

(** website/index.html:12-182: the text areas *)
Inductive area : Type :=
| DfaEq1 | DfaEq2 | NfaEq1 | NfaEq2          (* dfa-eq-dfa1, dfa-eq-dfa2, nfa-eq-nfa1, nfa-eq-nfa2 *)
| NfaToDfaIn | NfaToDfaOut                   (* nfa-to-dfa, nfa-to-dfa-out *)
| MinimizeIn | MinimizeOut                   (* dfa-minimize, dfa-minimize-out *)
| RegexIn | RegexOut                         (* regex-to-nfa, regex-to-nfa-out *)
| VisualizeIn.                               (* nfa-visualize *)
Definition area_dec : forall a b : area, {a = b} + {a <> b}.
Proof. decide equality. Defined.
(** website/index.html:12-182: the elements whose [innerText] the script sets *)
Inductive label : Type :=
| DfaEqCheck | DfaEqErrors | NfaEqCheck | NfaEqErrors  (* dfa-eq-check, dfa-eq-errors, nfa-eq-check, nfa-eq-errors *)
| MinimizeBtn | RegexBtn | VisualizeBtn.               (* dfa-minimize-btn, regex-to-nfa-btn, nfa-visualize-btn *)
Definition label_dec : forall a b : label, {a = b} + {a <> b}.
Proof. decide equality. Defined.
(** The areas that are not [readonly]. (website/index.html:12-182) *)
Definition editable (a : area) : bool := match a with NfaToDfaOut | MinimizeOut | RegexOut => false | _ => true end.
(** website/index.html:208-216: the buttons *)
Inductive button : Type := BDfaEq | BNfaEq | BNfaToDfa | BVisualize | BMinimize | BRegex.

(** HTML standard: normalising newlines. (Applied by [value], which the script reads at website/index.html:223-314) *)
Fixpoint normal_newlines (u : str) : str :=
  match u with
  | [] => []
  | c :: r =>
      if (c =? 13)%N then
        match r with
        | c' :: r' => if (c' =? 10)%N then 10%N :: normal_newlines r' else 10%N :: normal_newlines r
        | [] => [10%N]
        end
      else c :: normal_newlines r
  end.
(** ECMAScript: replace of a text by a text replaces its first occurrence; here LF by CR LF. (Used by
    website/index.html:283, 306, 317) *)
Fixpoint crlf_once (u : str) : str :=
  match u with [] => [] | c :: r => if (c =? 10)%N then 13%N :: 10%N :: r else c :: crlf_once r end.

Section Page.
Context {fl : floats} (db : doubles fl).
Context (seg : str -> list str) (cap : nat) (checks : bool).
(** The texts "Error parsing ...: {e:?}" for inputs with syntax errors, and of the exception for a method of [undefined] *)
Context (dfa_syntax nfa_syntax regex_syntax : str -> str) (type_error : str).

(** The state of website/index.html:1-326: what the text areas and labels hold, the canvases, and the state of the
    module *)
Record page : Type := mk_page {
  pg_value : area -> str;
  pg_text : label -> str;
  pg_doc : document db;
  pg_wasm : wasm_state
}.

(** [area.value], read by the script of website/index.html:188-324 *)
Definition value (pg : page) (a : area) : str := normal_newlines (pg_value pg a).

(** [area.value = ...], as in the script of website/index.html:188-324 *)
Definition set_value (a : area) (u : str) (pg : page) : page :=
  mk_page (fun a' => if area_dec a' a then u else pg_value pg a') (pg_text pg) (pg_doc pg) (pg_wasm pg).

(** [label.innerText = ...], as in the script of website/index.html:188-324 *)
Definition set_text (l : label) (u : str) (pg : page) : page :=
  mk_page (pg_value pg) (fun l' => if label_dec l' l then u else pg_text pg l') (pg_doc pg) (pg_wasm pg).

(** (the canvas of website/index.html:288-298 changes) *)
Definition set_doc (doc : document db) (pg : page) : page := mk_page (pg_value pg) (pg_text pg) doc (pg_wasm pg).

(** (the module called by website/index.html:188-324 changes) *)
Definition set_wasm (st : wasm_state) (pg : page) : page := mk_page (pg_value pg) (pg_text pg) (pg_doc pg) st.

(** A call of the module, and the JavaScript values of its results (dandy_wasm.js is generated by wasm-bindgen): [Err] is
    thrown, [None] is undefined.  The last branches do not occur. *)
Definition js_call (pg : page) (c : wasm_call) : R (page * wasm_result) :=
  '(st, r) <- wasm_step seg cap checks (pg_wasm pg) c ;; Ret (set_wasm st pg, r).

(** the load functions as called by website/index.html:218-321 *)
Definition js_load (syntax : str) (r : wasm_result) : result nat str :=
  match r with WLoad (Ok k) => Ok k | WLoad (Err (LInvalid m)) => Err m | _ => Err syntax end.

(** the results of nfa_to_dfa and regex_to_nfa, as passed on by website/index.html:282-283, 316-317 *)
Definition js_handle (r : wasm_result) : nat := match r with WHandle (Some k) => k | _ => 0 end.

(** the conditions of website/index.html:236, 264 *)
Definition js_truthy (r : wasm_result) : bool := match r with WOptBool (Some b) => b | WBool b => b | _ => false end.

(** the results of dfa_to_table and nfa_to_table, as used by website/index.html:274-321 *)
Definition js_text (r : wasm_result) : option str := match r with WOptStr o => o | _ => None end.

(** an undefined handle is passed to the module as 0 (website/index.html:218-272) *)
Definition handle_or_0 (r : result nat str) : nat := match r with Ok k => k | Err _ => 0 end.

(** website/index.html:222-232, 250-260 : errors += "Error parsing DFA 1: " + e + "\n" *)
Definition complaint (prefix : str) (r : result nat str) : str :=
  match r with Ok _ => [] | Err e => prefix ++ e ++ [10%N] end.

(** website/index.html:218-244 [checkDfaEq] *)
Definition check_dfas (pg : page) : R page :=
  '(pg, r1) <- js_call pg (CLoadDfa (value pg DfaEq1)) ;;
  let r1 := js_load (dfa_syntax (value pg DfaEq1)) r1 in
  '(pg, r2) <- js_call pg (CLoadDfa (value pg DfaEq2)) ;;
  let r2 := js_load (dfa_syntax (value pg DfaEq2)) r2 in
  let errors := complaint (of_string "Error parsing DFA 1: ") r1 ++ complaint (of_string "Error parsing DFA 2: ") r2 in
  pg <- match errors with
        | [] =>
            '(pg, equal) <- js_call pg (CCheckDfaEq (handle_or_0 r1) (handle_or_0 r2)) ;;
            let pg := set_text DfaEqCheck (of_string (if js_truthy equal then "Equivalent" else "Not equivalent")) pg in
            '(pg, _) <- js_call pg (CDeleteDfa (handle_or_0 r1)) ;;
            '(pg, _) <- js_call pg (CDeleteDfa (handle_or_0 r2)) ;;
            Ret pg
        | _ => Ret (set_text DfaEqCheck (of_string "Fix errors first!") pg)
        end ;;
  Ret (set_text DfaEqErrors errors pg).
(** website/index.html:246-272 [checkNfaEq] *)
Definition check_nfas (pg : page) : R page :=
  '(pg, r1) <- js_call pg (CLoadNfa (value pg NfaEq1)) ;;
  let r1 := js_load (nfa_syntax (value pg NfaEq1)) r1 in
  '(pg, r2) <- js_call pg (CLoadNfa (value pg NfaEq2)) ;;
  let r2 := js_load (nfa_syntax (value pg NfaEq2)) r2 in
  let errors := complaint (of_string "Error parsing NFA 1: ") r1 ++ complaint (of_string "Error parsing NFA 2: ") r2 in
  pg <- match errors with
        | [] =>
            '(pg, equal) <- js_call pg (CCheckNfaEq (handle_or_0 r1) (handle_or_0 r2)) ;;
            let pg := set_text NfaEqCheck (of_string (if js_truthy equal then "Equivalent" else "Not equivalent")) pg in
            '(pg, _) <- js_call pg (CDeleteNfa (handle_or_0 r1)) ;;
            '(pg, _) <- js_call pg (CDeleteNfa (handle_or_0 r2)) ;;
            Ret pg
        | _ => Ret (set_text NfaEqCheck (of_string "Fix errors first!") pg)
        end ;;
  Ret (set_text NfaEqErrors errors pg).

(** website/index.html:274-286 [nfaToDfa]; an undefined table throws, and nothing catches it *)
Definition nfa_to_dfa_click (h : hash_order) (pg : page) : R page :=
  '(pg, r) <- js_call pg (CLoadNfa (value pg NfaToDfaIn)) ;;
  match js_load (nfa_syntax (value pg NfaToDfaIn)) r with
  | Err e => Ret (set_value NfaToDfaOut e pg)
  | Ok nfa =>
      '(pg, r) <- js_call pg (CNfaToDfa h nfa) ;;
      let dfa := js_handle r in
      '(pg, r) <- js_call pg (CDfaToTable dfa) ;;
      match js_text r with
      | None => Ret pg
      | Some table =>
          let pg := set_value NfaToDfaOut (crlf_once table) pg in
          '(pg, _) <- js_call pg (CDeleteNfa nfa) ;;
          '(pg, _) <- js_call pg (CDeleteDfa dfa) ;;
          Ret pg
      end
  end.

(** website/index.html:297: the element that [visualizeNfa] draws on *)
Definition visualize_target : str := of_string "nfa-visualization".

(** website/index.html:288-298 [visualizeNfa] *)
Definition visualize_click (h : hash_order) (pg : page) : R page :=
  '(pg, r) <- js_call pg (CLoadNfa (value pg VisualizeIn)) ;;
  match js_load (nfa_syntax (value pg VisualizeIn)) r with
  | Err e => Ret (set_text VisualizeBtn e pg)
  | Ok nfa =>
      let pg := set_text VisualizeBtn (of_string "Visualize!") pg in
      '(doc, _) <- page_draw_nfa db h (pg_wasm pg) (pg_doc pg) nfa visualize_target ;;
      Ret (set_doc doc pg)
  end.

(** website/index.html:300-310 [minimizeDfa]; everything is inside of the try block *)
Definition minimize_click (h : hash_order) (dbg : bool) (pg : page) : R page :=
  '(pg, r) <- js_call pg (CLoadDfa (value pg MinimizeIn)) ;;
  match js_load (dfa_syntax (value pg MinimizeIn)) r with
  | Err e => Ret (set_text MinimizeBtn e pg)
  | Ok dfa =>
      let pg := set_text MinimizeBtn (of_string "Minimize!") pg in
      '(pg, _) <- js_call pg (CMinimizeDfa h dbg dfa) ;;
      '(pg, r) <- js_call pg (CDfaToTable dfa) ;;
      match js_text r with
      | None => Ret (set_text MinimizeBtn type_error pg)
      | Some table => Ret (set_value MinimizeOut (crlf_once table) pg)
      end
  end.

(** website/index.html:312-321 [regexToNfa] *)
Definition regex_click (h : hash_order) (pg : page) : R page :=
  '(pg, r) <- js_call pg (CLoadRegex (value pg RegexIn)) ;;
  match js_load (regex_syntax (value pg RegexIn)) r with
  | Err e => Ret (set_text RegexBtn e pg)
  | Ok regex =>
      let pg := set_text RegexBtn (of_string "Convert!") pg in
      '(pg, r) <- js_call pg (CRegexToNfa h regex) ;;
      '(pg, r) <- js_call pg (CNfaToTable (js_handle r)) ;;
      match js_text r with
      | None => Ret (set_text RegexBtn type_error pg)
      | Some table => Ret (set_value RegexOut (crlf_once table) pg)
      end
  end.

(** What the user does; a click carries the hash order of the run and whether debug assertions are on.
    (website/index.html:12-182, 208-216) *)
Inductive event : Type :=
| Edit (a : area) (u : str)
| Click (b : button) (h : hash_order) (dbg : bool).

(** website/index.html:208-216: what a button does; and what typing does to website/index.html:12-182 *)
Definition page_step (pg : page) (e : event) : R page :=
  match e with
  | Edit a u => Ret (if editable a then set_value a u pg else pg)
  | Click BDfaEq _ _ => check_dfas pg
  | Click BNfaEq _ _ => check_nfas pg
  | Click BNfaToDfa h _ => nfa_to_dfa_click h pg
  | Click BVisualize h _ => visualize_click h pg
  | Click BMinimize h dbg => minimize_click h dbg pg
  | Click BRegex h _ => regex_click h pg
  end.
(** A session: the pages after each event. On the page of website/index.html:1-326 *)
Fixpoint page_run (pg : page) (es : list event) : R (list page) :=
  match es with
  | [] => Ret []
  | e :: es => pg <- page_step pg e ;; pgs <- page_run pg es ;; Ret (pg :: pgs)
  end.

(** website/index.html:12-182: the page as loaded *)
Definition lines (l : list str) : str := join [10%N] l.

(** s with a subscript, as in website/index.html:12-182 *)
Definition sub (n : N) : str := [115%N; (8320 + n)%N].

(** the arrow of website/index.html:12-182 *)
Definition arrow_ : str := [8594%N].

(** a piece of text of website/index.html:12-182 *)
Definition sp (s : String.string) : str := of_string s.

(** website/index.html:12-182: an example that occurs more than once *)
Definition initial_nfa : str :=
  lines [sp "     " ++ [949%N] ++ sp "    a       b";
         arrow_ ++ sp " " ++ sub 0 ++ sp " {}   {" ++ sub 1 ++ sp "}    {" ++ sub 0 ++ sp " " ++ sub 2 ++ sp "}";
         sp "  " ++ sub 1 ++ sp " {" ++ sub 2 ++ sp "} {" ++ sub 4 ++ sp "}    {" ++ sub 3 ++ sp "}";
         sp "  " ++ sub 2 ++ sp " {}   {" ++ sub 1 ++ sp " " ++ sub 4 ++ sp "} {" ++ sub 3 ++ sp "}";
         sp "  " ++ sub 3 ++ sp " {" ++ sub 5 ++ sp "} {" ++ sub 4 ++ sp " " ++ sub 5 ++ sp "} {}";
         sp "  " ++ sub 4 ++ sp " {" ++ sub 3 ++ sp "} {}      {" ++ sub 5 ++ sp "}";
         sp "* " ++ sub 5 ++ sp " {}   {" ++ sub 5 ++ sp "}    {" ++ sub 5 ++ sp "}";
         sp "    "].

(** website/index.html:12-182: what the text areas hold at first *)
Definition initial_value (a : area) : str :=
  match a with
  | DfaEq1 =>
      lines [sp "       a  b  c";
             arrow_ ++ sp " * " ++ sub 0 ++ sp " " ++ sub 1 ++ sp " " ++ sub 0 ++ sp " " ++ sub 2;
             sp "    " ++ sub 1 ++ sp " " ++ sub 2 ++ sp " " ++ sub 1 ++ sp " " ++ sub 1;
             sp "  * " ++ sub 2 ++ sp " " ++ sub 2 ++ sp " " ++ sub 2 ++ sp " " ++ sub 2;
             sp "    "]
  | DfaEq2 => lines [sp "    a b c"; arrow_ ++ sp " * x z x y"; sp "  * y y y y"; sp "    z y a a"; sp "    a y z a"; sp "    "]
  | NfaEq1 =>
      lines [sp "     a    b    c";
             arrow_ ++ sp " " ++ sub 0 ++ sp " {" ++ sub 0 ++ sp "} {" ++ sub 1 ++ sp "} {" ++ sub 0 ++ sp " " ++ sub 2 ++ sp "}";
             sp "  " ++ sub 1 ++ sp " {}   {" ++ sub 3 ++ sp "} {" ++ sub 2 ++ sp "}";
             sp "  " ++ sub 2 ++ sp " {}   {" ++ sub 1 ++ sp "} {" ++ sub 4 ++ sp "}";
             sp "  " ++ sub 3 ++ sp " {" ++ sub 4 ++ sp "} {}   {" ++ sub 3 ++ sp "}";
             sp "* " ++ sub 4 ++ sp " {}   {" ++ sub 4 ++ sp "} {}";
             sp "     "]
  | NfaEq2 | NfaToDfaIn | VisualizeIn => initial_nfa
  | NfaToDfaOut => lines [sp "Convert an NFA and"; sp "the DFA will appear here"; sp "    "]
  | MinimizeIn => lines [sp "      a b c"; arrow_ ++ sp " * x z x y"; sp "  * y y y y"; sp "    z y a a"; sp "    a y z a"; sp "    "]
  | MinimizeOut => lines [sp "Minimize a DFA and the"; sp "result will appear here"; sp "    "]
  | RegexIn => lines [sp "(ab)+c"; sp "    "]
  | RegexOut => lines [sp "Convert a Regex and the"; sp "result will appear here"; sp "    "]
  end.

(** website/index.html:12-182: what the labels hold at first *)
Definition initial_text (l : label) : str :=
  match l with
  | DfaEqCheck | NfaEqCheck => sp "Check!"
  | DfaEqErrors | NfaEqErrors => []
  | MinimizeBtn => sp "Minimize!"
  | RegexBtn => sp "Convert!"
  | VisualizeBtn => sp "Visualize!"
  end.

(** website/index.html:185: the id of the canvas *)
Definition canvas_id : str := of_string "nfa-visualization".

(** website/index.html:12-186: the page as loaded *)
Definition page_init : page :=
  mk_page initial_value initial_text [(canvas_id, ECanvas db (Some (new_context db)))] wasm_init.
End Page.
