(** * FirstPageSpec: the automata on the page as it is loaded *)
From Coq Require Import Ascii String List NArith Arith Bool.
From Verif Require Import Base Spec DfaModel NfaModel Messages PageModel PageSpec.
Import ListNotations.
Close Scope string_scope.
Open Scope list_scope.

(** s with a subscript digit *)
Definition s_ (i : N) : str := [115%N; (8320 + i)%N].
Definition letters (l : list N) : list str := map (fun c => [c]) l.

(** website/index.html: dfa-eq-dfa1 *)
Definition page_dfa1 : dfa :=
  {| dfa_alphabet := letters [97; 98; 99]%N;
     dfa_states := [mk_dfa_state (s_ 0) true true [1; 0; 2]; mk_dfa_state (s_ 1) false false [2; 1; 1]; mk_dfa_state (s_ 2) false true [2; 2; 2]];
     dfa_initial := 0 |}.
(** dfa-eq-dfa2 and dfa-minimize *)
Definition page_dfa2 : dfa :=
  {| dfa_alphabet := letters [97; 98; 99]%N;
     dfa_states := [mk_dfa_state [120%N] true true [2; 0; 1]; mk_dfa_state [121%N] false true [1; 1; 1];
                    mk_dfa_state [122%N] false false [1; 3; 3]; mk_dfa_state [97%N] false false [1; 2; 3]];
     dfa_initial := 0 |}.
(** nfa-eq-nfa1 *)
Definition page_nfa1 : nfa :=
  {| nfa_alphabet := letters [97; 98; 99]%N;
     nfa_states := [mk_nfa_state (s_ 0) true false [] [[0]; [1]; [0; 2]]; mk_nfa_state (s_ 1) false false [] [[]; [3]; [2]];
                    mk_nfa_state (s_ 2) false false [] [[]; [1]; [4]]; mk_nfa_state (s_ 3) false false [] [[4]; []; [3]];
                    mk_nfa_state (s_ 4) false true [] [[]; [4]; []]];
     nfa_initial := 0 |}.
(** nfa-eq-nfa2, nfa-to-dfa and nfa-visualize *)
Definition page_nfa2 : nfa :=
  {| nfa_alphabet := letters [97; 98]%N;
     nfa_states := [mk_nfa_state (s_ 0) true false [] [[1]; [0; 2]]; mk_nfa_state (s_ 1) false false [2] [[4]; [3]];
                    mk_nfa_state (s_ 2) false false [] [[1; 4]; [3]]; mk_nfa_state (s_ 3) false false [5] [[4; 5]; []];
                    mk_nfa_state (s_ 4) false false [3] [[]; [5]]; mk_nfa_state (s_ 5) false true [] [[5]; [5]]];
     nfa_initial := 0 |}.

(** No text of these areas is edited *)
Definition untouched (areas : list area) (es : list event) : Prop :=
  forall e a, In e es -> In a areas -> edits a e = false.
