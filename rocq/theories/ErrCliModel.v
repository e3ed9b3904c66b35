(** * ErrCliModel: the texts of syntax errors in the messages of the command line and of the wasm bindings

    [CliModel] takes the texts of nom's errors from its environment, so its theorems hold for any texts; here they are the actual
    ones.  [quote] is [Debug] of [str] (quotes and escapes). *)
From Coq Require Import String List NArith Arith Bool.
From Verif Require Import Base Spec TableSpec LayoutSpec RegexSpec ErrSpec ParserModel RegexModel RegexParserModel ErrModel Messages CliModel.
Import ListNotations.
Close Scope string_scope.
Local Open Scope list_scope.

(** dandy-cli/src/automata.rs:13-27, equivalence.rs:164-180, enumerate.rs:6-15: [{}] and [{:?}] of the error *)
Definition nom_text (seg : str -> list str) (f : nom_error -> str) (ty : automata_type) (u : str) : str :=
  match ty with
  | TDfa => match try_dfa u with Ret (Err e) => f e | _ => [] end
  | TNfa => match try_nfa u with Ret (Err e) => f e | _ => [] end
  | TRegex => match try_regex seg u with Ret (Err e) => f e | _ => [] end
  end.

(** the environment of CliModel with the texts of dandy-cli/src/automata.rs:13-27,
    dandy-cli/src/equivalence.rs:164-180 and dandy-cli/src/enumerate.rs:6-15 *)
Definition with_nom (quote : str -> str) (env : cli_env) : cli_env :=
  mk_cli_env (ce_read env) (nom_text (ce_seg env) error_display) (nom_text (ce_seg env) (error_debug quote)) (ce_seg env) (ce_dbg env)
    (ce_log env) (ce_millis env).

(** dandy-wasm/src/lib.rs:164-165, 183-185 and 205-207: the text that [load_regex], [load_dfa] and [load_nfa] throw for a syntax error *)
Definition wasm_syntax (seg : str -> list str) (quote : str -> str) (ty : automata_type) (u : str) : str :=
  of_string (match ty with TDfa => "Error parsing DFA: " | TNfa => "Error parsing NFA: " | TRegex => "Error parsing Regex: " end) ++
  nom_text seg (error_debug quote) ty u.

(** ** Specification: which error a text of a type has *)

(** (Errors of dandy/src/parser/mod.rs:102-123) *)
Definition syntax_error (seg : str -> list str) (ty : automata_type) (u : str) (k : kind) (at_ : str) : Prop :=
  match ty with
  | TDfa => dfa_error u k at_
  | TNfa => nfa_error u k at_
  | TRegex => forall gs, tokens seg gs -> trims_to u (concat gs) -> regex_error gs k at_
  end.
