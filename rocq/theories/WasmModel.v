(** * WasmModel: the handle-based interface of dandy-wasm

    Models dandy-wasm/src/lib.rs as a state machine.  The three thread-local maps and the key generator are the state; every
    exported function is a call; a call gives a new state and a result, or panics.

    Not modelled: the drawing itself and the DOM (the two drawing calls carry the answer of the browser), the [Debug] text of
    syntax errors, and everything after a panic (a panic traps the wasm instance).  Wasm is single-threaded. *)
From Coq Require Import List NArith Arith Bool.
From Verif Require Import Base Spec TableSpec LayoutSpec DfaModel NfaModel RegexModel ValidateModel ParserModel TableModel
  RegexParserModel Messages.
Import ListNotations.

(** dandy-wasm/src/lib.rs:33-38: the statics; [ws_next] is the start of the range [KEYGEN] *)
Record wasm_state : Type := mk_wasm_state {
  ws_dfas : list (nat * dfa);
  ws_nfas : list (nat * nfa);
  ws_regexes : list (nat * regex_tree);
  ws_next : nat
}.

(** dandy-wasm/src/lib.rs:34-37: the initial values *)
Definition wasm_init : wasm_state := {| ws_dfas := []; ws_nfas := []; ws_regexes := []; ws_next := 1 |}.

(** The exported functions: dandy-wasm/src/lib.rs:51-219.  Calls whose result depends on hash orders carry the order; the drawing calls carry
    whether the browser has a canvas of the given name. *)
Inductive wasm_call : Type :=
| CRegexToNfa (h : hash_order) (regex : nat)
| CMinimizeDfa (h : hash_order) (dbg : bool) (dfa : nat)
| CDrawDfa (dfa : nat) (canvas : bool)
| CDrawNfa (nfa : nat) (canvas : bool)
| CCheckDfaEq (dfa1 dfa2 : nat)
| CCheckNfaEq (nfa1 nfa2 : nat)
| CDfaToNfa (dfa : nat)
| CNfaToDfa (h : hash_order) (nfa : nat)
| CDfaToTable (dfa : nat)
| CNfaToTable (nfa : nat)
| CDeleteRegex (regex : nat)
| CLoadRegex (input : str)
| CDeleteDfa (dfa : nat)
| CLoadDfa (input : str)
| CDeleteNfa (nfa : nat)
| CLoadNfa (input : str).

(** The [String] errors of the load functions: "Error parsing ...: {e:?}", whose text is not modelled, or the
    message of a validation error. (dandy-wasm/src/lib.rs:163, 183, 205) *)
Inductive load_error : Type := LSyntax | LInvalid (message : str).

(** The results of dandy-wasm/src/lib.rs:51-219; their Rust types are: *)
Inductive wasm_result : Type :=
| WHandle (o : option nat)              (* Option<usize> *)
| WBool (b : bool)                      (* bool *)
| WOptBool (o : option bool)            (* Option<bool> *)
| WOptStr (o : option str)              (* Option<String> *)
| WLoad (r : result nat load_error).    (* Result<usize, String> *)

(** [HashMap::remove] on the map; what it returns is [hm_get] before. (dandy-wasm/src/lib.rs:54, 159, 179, 201) *)
Definition hm_remove {V} (k : nat) (m : list (nat * V)) : list (nat * V) := filter (fun kv => negb (k =? fst kv)) m.

Section Wasm.
(** Grapheme segmentation (see RegexParserModel), the number of values of [usize], and whether overflow checks are on *)
Context (seg : str -> list str) (cap : nat) (checks : bool).

(** dandy-wasm/src/lib.rs:221-223 [gen_key]: [RangeFrom::next] steps the start before it returns the old one; stepping past the largest
    [usize] panics with overflow checks and wraps without *)
Definition gen_key (st : wasm_state) : R (nat * wasm_state) :=
  let k := ws_next st in
  let set n := {| ws_dfas := ws_dfas st; ws_nfas := ws_nfas st; ws_regexes := ws_regexes st; ws_next := n |} in
  if S k <? cap then Ret (k, set (S k)) else if checks then Panic else Ret (k, set 0).

(** dandy-wasm/src/lib.rs:191-197 [push_dfa] *)
Definition push_dfa (d : dfa) (st : wasm_state) : R (nat * wasm_state) :=
  '(k, st) <- gen_key st ;;
  Ret (k, {| ws_dfas := hm_insert k d (ws_dfas st); ws_nfas := ws_nfas st; ws_regexes := ws_regexes st; ws_next := ws_next st |}).
(** dandy-wasm/src/lib.rs:213-219 [push_nfa] *)
Definition push_nfa (n : nfa) (st : wasm_state) : R (nat * wasm_state) :=
  '(k, st) <- gen_key st ;;
  Ret (k, {| ws_dfas := ws_dfas st; ws_nfas := hm_insert k n (ws_nfas st); ws_regexes := ws_regexes st; ws_next := ws_next st |}).
(** dandy-wasm/src/lib.rs:169-175 [push_regex] *)
Definition push_regex (t : regex_tree) (st : wasm_state) : R (nat * wasm_state) :=
  '(k, st) <- gen_key st ;;
  Ret (k, {| ws_dfas := ws_dfas st; ws_nfas := ws_nfas st; ws_regexes := hm_insert k t (ws_regexes st); ws_next := ws_next st |}).

(** [Option::is_some], dandy-wasm/src/lib.rs:60, 159, 179, 201 *)
Definition is_some {A} (o : option A) : bool := match o with Some _ => true | None => false end.

(** One call. Of a function of dandy-wasm/src/lib.rs:51-219, each cited below *)
Definition wasm_step (st : wasm_state) (c : wasm_call) : R (wasm_state * wasm_result) :=
  match c with
  | CRegexToNfa h k => (* dandy-wasm/src/lib.rs:52-56 *)
      let o := hm_get k (ws_regexes st) in
      let st := {| ws_dfas := ws_dfas st; ws_nfas := ws_nfas st; ws_regexes := hm_remove k (ws_regexes st); ws_next := ws_next st |} in
      match o with
      | None => Ret (st, WHandle None)
      | Some t => '(k', st) <- push_nfa (regex_to_nfa h t) st ;; Ret (st, WHandle (Some k'))
      end
  | CMinimizeDfa h dbg k => (* dandy-wasm/src/lib.rs:59-61 *)
      match hm_get k (ws_dfas st) with
      | None => Ret (st, WBool false)
      | Some d =>
          d' <- dfa_minimize h dbg d ;;
          Ret ({| ws_dfas := hm_insert k d' (ws_dfas st); ws_nfas := ws_nfas st; ws_regexes := ws_regexes st; ws_next := ws_next st |},
               WBool true)
      end
  | CDrawDfa k canvas => (* dandy-wasm/src/lib.rs:64-89, without the drawing *)
      Ret (st, WBool (is_some (hm_get k (ws_dfas st)) && canvas))
  | CDrawNfa k canvas => (* dandy-wasm/src/lib.rs:92-117, without the drawing *)
      Ret (st, WBool (is_some (hm_get k (ws_nfas st)) && canvas))
  | CCheckDfaEq k1 k2 => (* dandy-wasm/src/lib.rs:120-124 *)
      match hm_get k1 (ws_dfas st), hm_get k2 (ws_dfas st) with
      | Some d1, Some d2 => b <- dfa_equivalent_to d1 d2 ;; Ret (st, WOptBool (Some b))
      | _, _ => Ret (st, WOptBool None)
      end
  | CCheckNfaEq k1 k2 => (* dandy-wasm/src/lib.rs:127-131 *)
      match hm_get k1 (ws_nfas st), hm_get k2 (ws_nfas st) with
      | Some n1, Some n2 => b <- nfa_equivalent_to n1 n2 ;; Ret (st, WOptBool (Some b))
      | _, _ => Ret (st, WOptBool None)
      end
  | CDfaToNfa k => (* dandy-wasm/src/lib.rs:134-138 *)
      match hm_get k (ws_dfas st) with
      | None => Ret (st, WHandle None)
      | Some d => '(k', st) <- push_nfa (dfa_to_nfa d) st ;; Ret (st, WHandle (Some k'))
      end
  | CNfaToDfa h k => (* dandy-wasm/src/lib.rs:141-145 *)
      match hm_get k (ws_nfas st) with
      | None => Ret (st, WHandle None)
      | Some n => d <- nfa_to_dfa h n ;; '(k', st) <- push_dfa d st ;; Ret (st, WHandle (Some k'))
      end
  | CDfaToTable k => (* dandy-wasm/src/lib.rs:148-150 *)
      match hm_get k (ws_dfas st) with
      | None => Ret (st, WOptStr None)
      | Some d => u <- dfa_to_table d ;; Ret (st, WOptStr (Some u))
      end
  | CNfaToTable k => (* dandy-wasm/src/lib.rs:153-155 *)
      match hm_get k (ws_nfas st) with
      | None => Ret (st, WOptStr None)
      | Some n => u <- nfa_to_table n ;; Ret (st, WOptStr (Some u))
      end
  | CDeleteRegex k => (* dandy-wasm/src/lib.rs:158-160 *)
      Ret ({| ws_dfas := ws_dfas st; ws_nfas := ws_nfas st; ws_regexes := hm_remove k (ws_regexes st); ws_next := ws_next st |},
           WBool (is_some (hm_get k (ws_regexes st))))
  | CLoadRegex u => (* dandy-wasm/src/lib.rs:163-167 *)
      o <- parse_regex seg u ;;
      match o with
      | None => Ret (st, WLoad (Err LSyntax))
      | Some t => '(k, st) <- push_regex t st ;; Ret (st, WLoad (Ok k))
      end
  | CDeleteDfa k => (* dandy-wasm/src/lib.rs:178-180 *)
      Ret ({| ws_dfas := hm_remove k (ws_dfas st); ws_nfas := ws_nfas st; ws_regexes := ws_regexes st; ws_next := ws_next st |},
           WBool (is_some (hm_get k (ws_dfas st))))
  | CLoadDfa u => (* dandy-wasm/src/lib.rs:183-189 *)
      o <- parse_dfa u ;;
      match o with
      | None => Ret (st, WLoad (Err LSyntax))
      | Some p =>
          match dfa_try_from p with
          | Err e => Ret (st, WLoad (Err (LInvalid (error_text e))))
          | Ok d => '(k, st) <- push_dfa d st ;; Ret (st, WLoad (Ok k))
          end
      end
  | CDeleteNfa k => (* dandy-wasm/src/lib.rs:200-202 *)
      Ret ({| ws_dfas := ws_dfas st; ws_nfas := hm_remove k (ws_nfas st); ws_regexes := ws_regexes st; ws_next := ws_next st |},
           WBool (is_some (hm_get k (ws_nfas st))))
  | CLoadNfa u => (* dandy-wasm/src/lib.rs:205-211 *)
      o <- parse_nfa u ;;
      match o with
      | None => Ret (st, WLoad (Err LSyntax))
      | Some p =>
          match nfa_try_from p with
          | Err e => Ret (st, WLoad (Err (LInvalid (error_text e))))
          | Ok n => '(k, st) <- push_nfa n st ;; Ret (st, WLoad (Ok k))
          end
      end
  end.

(** A session: the calls of the page, one after the other. Of functions of dandy-wasm/src/lib.rs:51-219 *)
Fixpoint wasm_run (st : wasm_state) (calls : list wasm_call) : R (wasm_state * list wasm_result) :=
  match calls with
  | [] => Ret (st, [])
  | c :: cs => '(st, r) <- wasm_step st c ;; '(st, rs) <- wasm_run st cs ;; Ret (st, r :: rs)
  end.
End Wasm.
