(** * FileModel: runs of dandy-cli that read the file they write

    CliModel.v reads every file as it was before the run.  Here the file of --out is emptied when it is created
    (dandy-cli/src/main.rs:286-296), and grows with every result (dandy-cli/src/main.rs:298-303), while the command reads files. *)
From Coq Require Import Ascii String List NArith Arith Bool.
From Verif Require Import Base Spec DfaModel NfaModel ValidateModel TableSpec TableModel ApiModel Messages CliModel.
Import ListNotations.
Close Scope string_scope.
Open Scope list_scope.

(** The files, as far as the tool sees them. Simplification: files are texts (or cannot be read, with a message); a
    path names the same file during the whole run; nobody else writes. dandy-cli/src/main.rs:286-296,
    dandy-cli/src/automata.rs:69-72, dandy-cli/src/test_files.rs:28-59 *)
Record machine : Type := mk_machine {
  m_text : str -> result str str;       (* fs::read_to_string *)
  m_same : str -> str -> bool;          (* the two paths name the same file *)
  m_create : str -> result unit str     (* File::create *)
}.

(** dandy-cli/src/main.rs:286-303: what is read from a path after [w] was written ([File::create] truncates; [write_all] on a [File] is not
    buffered) *)
Definition reading (m : machine) (out : option str) (w : str) (path : str) : result str str :=
  match out with
  | None => m_text m path
  | Some p => match m_create m p with
              | Err _ => m_text m path
              | Ok _ => if m_same m p path then Ok w else m_text m path
              end
  end.

(** the environment of CliModel with another content of the files (dandy-cli/src/automata.rs:69-72) *)
Definition with_read (env : cli_env) (rd : str -> result str str) : cli_env :=
  mk_cli_env rd (ce_nom_display env) (ce_nom_debug env) (ce_seg env) (ce_dbg env) (ce_log env) (ce_millis env).

(** dandy-cli/src/test_files.rs:28-59: the loop over the files, each read when its turn comes *)
Fixpoint test_each_files (at_ : str -> cli_env) (nf : nfa) (tt_ : test_type) (files : list str) (w : str) : Cmd unit :=
  match files with
  | [] => cret tt
  | file :: rest =>
      '(ev, r) <- test_each (at_ w) nf tt_ [file] ;;
      match r with
      | Err e => Ret (ev, Err e)
      | Ok _ => '(ev', r') <- test_each_files at_ nf tt_ rest (w ++ sink_of ev) ;; Ret (ev ++ ev', r')
      end
  end.

(** dandy-cli/src/main.rs:305-326.  [equivalence] (dandy-cli/src/equivalence.rs:36-96) and the enumerations (dandy-cli/src/enumerate.rs:6-26) read everything before they
    print a result; the set operations read the third file (dandy-cli/src/binary_op.rs:95-98), and [test_files] its files, in between. *)
Definition file_operation (env : cli_env) (m : machine) (hs : orders) (out : option str) (op : operation) : Cmd unit :=
  let at_ w := with_read env (reading m out w) in
  match op with
  | OpBinary o args =>
      with_error (of_string "Error in " ++ op_text o ++ of_string ": ")
        ('(ev, r) <- binary_combined (at_ []) hs args o ;;
         match r with
         | Err e => Ret (ev, Err e)
         | Ok combined =>
             '(ev', r') <- compare_combined (at_ (sink_of ev)) (fork hs 6) args o combined ;;
             Ret (ev ++ ev', r')
         end)
  | OpTestFile ty t a fs =>
      with_error (of_string "Error in testing file: ")
        ('(ev, r) <- test_load (at_ []) hs ty a ;;
         match r with
         | Err e => Ret (ev, Err e)
         | Ok nf => '(ev', r') <- test_each_files at_ nf t fs (sink_of ev) ;; Ret (ev ++ ev', r')
         end)
  | _ => run_operation (at_ []) hs op
  end.

(** dandy-cli/src/main.rs:283-331 [main]: what is printed, and the files afterwards *)
Definition file_main (env : cli_env) (m : machine) (hs : orders) (out : option str) (op : operation) : R (main_result * machine) :=
  '(ev, r) <- file_operation env m hs out op ;;
  Ret (finish (match out with None => None | Some p => Some (m_create m p) end) ev r,
       mk_machine (reading m out (sink_of ev)) (m_same m) (m_create m)).
