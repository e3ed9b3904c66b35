(** * Histories: clients driving an evaluator

    A client of an evaluator calls [step] and [step_multiple] in any order.  A history is a list of such calls; running
    it threads the evaluator through the calls of [DfaModel] / [NfaModel]. *)
From Coq Require Import List NArith Arith Bool.
From Verif Require Import Base Spec DfaModel NfaModel.
Import ListNotations.

(** One call: dandy/src/dfa/eval.rs:41 / dandy/src/nfa/eval.rs:44 [step], dandy/src/dfa/eval.rs:58 /
    dandy/src/nfa/eval.rs:63 [step_multiple] *)
Inductive ev_call : Type :=
| CStep (elem : str)
| CStepMultiple (elems : list str).

(** The elements fed to the evaluator by a call and by a history *)
Definition call_word (c : ev_call) : word := match c with CStep a => [a] | CStepMultiple l => l end.
Definition history_word (cs : list ev_call) : word := concat (map call_word cs).

(** dandy/src/dfa/eval.rs:41-66: the evaluator after one call, the returned value is dropped *)
Definition de_call (e : dfa_eval) (c : ev_call) : R dfa_eval :=
  match c with
  | CStep a => '(e', _) <- de_step e a ;; Ret e'
  | CStepMultiple l => '(e', _) <- de_step_multiple e l ;; Ret e'
  end.
(** the evaluator after a history, starting from [Dfa::evaluator] *)
Definition de_run (d : dfa) (cs : list ev_call) : R dfa_eval := foldR de_call (dfa_evaluator d) cs.

(** dandy/src/nfa/eval.rs:44-71 *)
Definition ne_call (e : nfa_eval) (c : ev_call) : R nfa_eval :=
  match c with
  | CStep a => '(e', _) <- ne_step e a ;; Ret e'
  | CStepMultiple l => '(e', _) <- ne_step_multiple e l ;; Ret e'
  end.
Definition ne_run (n : nfa) (cs : list ev_call) : R nfa_eval := e <- nfa_evaluator n ;; foldR ne_call e cs.
