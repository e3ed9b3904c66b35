(** * WasmSpec: what a session with handles should look like

    Everything here is stated about histories: lists of calls with their results, the latest first.  There is no store of
    automata: what a handle refers to is read off the history. *)
From Coq Require Import List NArith Arith Bool.
From Verif Require Import Base Spec TableSpec LayoutSpec DfaModel NfaModel RegexModel TableModel RegexParserModel Messages MessageSpec WasmModel.
Import ListNotations.

Definition history : Type := list (wasm_call * wasm_result).

(** The handle a result hands out *)
Definition handle_of (r : wasm_result) : option nat :=
  match r with WHandle (Some k) => Some k | WLoad (Ok k) => Some k | _ => None end.
Definition handles (rs : list wasm_result) : list nat :=
  flat_map (fun r => match handle_of r with Some k => [k] | None => [] end) rs.
Definition issued (tr : history) (k : nat) : Prop := In k (handles (map snd tr)).

(** The calls that may hand out a handle *)
Definition creates (c : wasm_call) : bool :=
  match c with
  | CRegexToNfa _ _ | CDfaToNfa _ | CNfaToDfa _ _ | CLoadRegex _ | CLoadDfa _ | CLoadNfa _ => true
  | _ => false
  end.

(** The text is a legal table that denotes the automaton *)
Definition loads_dfa (u : str) (d : dfa) : Prop := exists t, dfa_text t u /\ dfa_well_formed t /\ dfa_denotes t d.
Definition loads_nfa (u : str) (n : nfa) : Prop := exists t, nfa_text t u /\ nfa_well_formed t /\ nfa_denotes t n.

Section Histories.
Context (seg : str -> list str).

(** After the history, the regex handle [k] is alive and refers to [t]: it was handed out when [t] was loaded, and was neither
    deleted nor consumed since. *)
Fixpoint live_regex (tr : history) (k : nat) (t : regex_tree) : Prop :=
  match tr with
  | [] => False
  | (c, r) :: tr =>
      match c with
      | CLoadRegex u => (r = WLoad (Ok k) /\ parse_regex seg u = Ret (Some t)) \/ (r <> WLoad (Ok k) /\ live_regex tr k t)
      | CDeleteRegex k' | CRegexToNfa _ k' => k <> k' /\ live_regex tr k t
      | _ => live_regex tr k t
      end
  end.

(** The same for DFAs and NFAs; minimizing changes the automaton in place. *)
Fixpoint live_dfa (tr : history) (k : nat) (d : dfa) : Prop :=
  match tr with
  | [] => False
  | (c, r) :: tr =>
      match c with
      | CLoadDfa u => (r = WLoad (Ok k) /\ loads_dfa u d) \/ (r <> WLoad (Ok k) /\ live_dfa tr k d)
      | CNfaToDfa h k' =>
          (r = WHandle (Some k) /\ exists n, live_nfa tr k' n /\ nfa_to_dfa h n = Ret d) \/
          (r <> WHandle (Some k) /\ live_dfa tr k d)
      | CMinimizeDfa h dbg k' =>
          (k = k' /\ exists d0, live_dfa tr k d0 /\ dfa_minimize h dbg d0 = Ret d) \/ (k <> k' /\ live_dfa tr k d)
      | CDeleteDfa k' => k <> k' /\ live_dfa tr k d
      | _ => live_dfa tr k d
      end
  end
with live_nfa (tr : history) (k : nat) (n : nfa) : Prop :=
  match tr with
  | [] => False
  | (c, r) :: tr =>
      match c with
      | CLoadNfa u => (r = WLoad (Ok k) /\ loads_nfa u n) \/ (r <> WLoad (Ok k) /\ live_nfa tr k n)
      | CDfaToNfa k' =>
          (r = WHandle (Some k) /\ exists d, live_dfa tr k' d /\ n = dfa_to_nfa d) \/
          (r <> WHandle (Some k) /\ live_nfa tr k n)
      | CRegexToNfa h k' =>
          (r = WHandle (Some k) /\ exists t, live_regex tr k' t /\ n = regex_to_nfa h t) \/
          (r <> WHandle (Some k) /\ live_nfa tr k n)
      | CDeleteNfa k' => k <> k' /\ live_nfa tr k n
      | _ => live_nfa tr k n
      end
  end.

Definition known_dfa (tr : history) (k : nat) : Prop := exists d, live_dfa tr k d.
Definition known_nfa (tr : history) (k : nat) : Prop := exists n, live_nfa tr k n.
Definition known_regex (tr : history) (k : nat) : Prop := exists t, live_regex tr k t.

(** A handle that was never handed out before; 0 is never handed out *)
Definition fresh_handle (tr : history) (k : nat) : Prop := k <> 0 /\ ~ issued tr k.

(** A boolean answer *)
Definition answers (r : wasm_result) (P : Prop) : Prop := (r = WBool true /\ P) \/ (r = WBool false /\ ~ P).

(** The result [r] of the call [c] is right after the history [tr]. *)
Definition expected (tr : history) (c : wasm_call) (r : wasm_result) : Prop :=
  match c with
  | CRegexToNfa _ k =>
      (known_regex tr k /\ exists k', r = WHandle (Some k') /\ fresh_handle tr k') \/ (~ known_regex tr k /\ r = WHandle None)
  | CDfaToNfa k =>
      (known_dfa tr k /\ exists k', r = WHandle (Some k') /\ fresh_handle tr k') \/ (~ known_dfa tr k /\ r = WHandle None)
  | CNfaToDfa _ k =>
      (known_nfa tr k /\ exists k', r = WHandle (Some k') /\ fresh_handle tr k') \/ (~ known_nfa tr k /\ r = WHandle None)
  | CMinimizeDfa _ _ k | CDeleteDfa k => answers r (known_dfa tr k)
  | CDeleteNfa k => answers r (known_nfa tr k)
  | CDeleteRegex k => answers r (known_regex tr k)
  | CDrawDfa k canvas => answers r (known_dfa tr k /\ canvas = true)
  | CDrawNfa k canvas => answers r (known_nfa tr k /\ canvas = true)
  | CCheckDfaEq k1 k2 =>
      (exists d1 d2 b, live_dfa tr k1 d1 /\ live_dfa tr k2 d2 /\ r = WOptBool (Some b) /\
         (b = true <-> same_set (dfa_alphabet d1) (dfa_alphabet d2) /\ forall w, dfa_lang d1 w <-> dfa_lang d2 w)) \/
      (~ (known_dfa tr k1 /\ known_dfa tr k2) /\ r = WOptBool None)
  | CCheckNfaEq k1 k2 =>
      (exists n1 n2 b, live_nfa tr k1 n1 /\ live_nfa tr k2 n2 /\ r = WOptBool (Some b) /\
         (b = true <-> same_set (nfa_alphabet n1) (nfa_alphabet n2) /\ forall w, nfa_lang n1 w <-> nfa_lang n2 w)) \/
      (~ (known_nfa tr k1 /\ known_nfa tr k2) /\ r = WOptBool None)
  | CDfaToTable k =>
      (exists d u, live_dfa tr k d /\ dfa_to_table d = Ret u /\ r = WOptStr (Some u)) \/ (~ known_dfa tr k /\ r = WOptStr None)
  | CNfaToTable k =>
      (exists n u, live_nfa tr k n /\ nfa_to_table n = Ret u /\ r = WOptStr (Some u)) \/ (~ known_nfa tr k /\ r = WOptStr None)
  | CLoadRegex u =>
      (exists t k, parse_regex seg u = Ret (Some t) /\ r = WLoad (Ok k) /\ fresh_handle tr k) \/
      (parse_regex seg u = Ret None /\ r = WLoad (Err LSyntax))
  | CLoadDfa u =>
      (exists d k, loads_dfa u d /\ r = WLoad (Ok k) /\ fresh_handle tr k) \/
      ((~ exists t, dfa_text t u) /\ r = WLoad (Err LSyntax)) \/
      (exists t e m, dfa_text t u /\ dfa_defect t e /\ describes e m /\ r = WLoad (Err (LInvalid m)))
  | CLoadNfa u =>
      (exists n k, loads_nfa u n /\ r = WLoad (Ok k) /\ fresh_handle tr k) \/
      ((~ exists t, nfa_text t u) /\ r = WLoad (Err LSyntax)) \/
      (exists t e m, nfa_text t u /\ nfa_defect t e /\ describes e m /\ r = WLoad (Err (LInvalid m)))
  end.

(** Every result of the history is right (given what came before). *)
Fixpoint explained (tr : history) : Prop :=
  match tr with
  | [] => True
  | (c, r) :: tr => expected tr c r /\ explained tr
  end.
End Histories.

(** Calls that neither delete nor change what the handle [k] refers to *)
Definition leaves_dfa (k : nat) (c : wasm_call) : Prop :=
  match c with CDeleteDfa k' => k' <> k | CMinimizeDfa _ _ k' => k' <> k | _ => True end.
Definition leaves_nfa (k : nat) (c : wasm_call) : Prop := match c with CDeleteNfa k' => k' <> k | _ => True end.
Definition leaves_regex (k : nat) (c : wasm_call) : Prop :=
  match c with CDeleteRegex k' => k' <> k | CRegexToNfa _ k' => k' <> k | _ => True end.

(** The history of a session, latest first *)
Definition session (calls : list wasm_call) (rs : list wasm_result) : history := rev (combine calls rs).
