(** * TableModel: printing tables (dandy/src/table/mod.rs, and [to_table]/[ascii_table] of DFAs and NFAs) *)
From Coq Require Import List NArith Arith Bool.
From Verif Require Import Base Spec.
Import ListNotations.

(** dandy/src/table/mod.rs:4-8 [struct Table] *)
Record table : Type := mk_table {
  tb_row_len : list nat;
  tb_rows : list (list str)
}.

(** dandy/src/table/mod.rs:4: the derived [Default] *)
Definition table_default : table := mk_table [] [].

(** dandy/src/table/mod.rs:15-18: [iter_mut().zip(&row)]: widths beyond the row are kept *)
Fixpoint max_zip (row_len : list nat) (row : list str) : list nat :=
  match row_len, row with
  | l :: ls, s :: ss => max l (length s) :: max_zip ls ss
  | ls, [] => ls
  | [], _ => []
  end.

(** dandy/src/table/mod.rs:11-20 [push_row]; [resize] is only called to grow *)
Definition push_row (t : table) (row : list str) : table :=
  let row_len := if length (tb_row_len t) <? length row
                 then tb_row_len t ++ repeat 0 (length row - length (tb_row_len t)) else tb_row_len t in
  mk_table (max_zip row_len row) (tb_rows t ++ [row]).

(** dandy/src/table/mod.rs:23-31 [pad] *)
Definition pad (s : str) (l : nat) : str :=
  if length s <? l then s ++ repeat 32%N (l - length s) else s.

(** [slice.join(sep)]. dandy/src/table/mod.rs:46, 49, dandy/src/nfa/mod.rs:1215 *)
Fixpoint join (sep : str) (l : list str) : str :=
  match l with
  | [] => []
  | [x] => x
  | x :: xs => x ++ sep ++ join sep xs
  end.

(** dandy/src/table/mod.rs:22-50 [to_string]; [row_len.len() - 1] underflows when there are only empty rows *)
Definition table_to_string (t : table) (sep : str) : R str :=
  rows <- mapR (fun row =>
            match tb_row_len t with
            | [] => Panic
            | _ =>
                Ret (concat (map (fun '(s, l) => pad s l ++ sep)
                                 (combine row (firstn (length (tb_row_len t) - 1) (tb_row_len t) ++ [0]))))
            end) (tb_rows t) ;;
  Ret (join [10%N] rows).

(** ["*"]: dandy/src/dfa/mod.rs:883, dandy/src/nfa/mod.rs:1225 *)
Definition star_str : str := [42%N].

(** ["→"]: dandy/src/dfa/mod.rs:858, dandy/src/nfa/mod.rs:1188 *)
Definition arrow_str : str := [8594%N].

(** ["->"]: dandy/src/dfa/mod.rs:864, dandy/src/nfa/mod.rs:1194 *)
Definition ascii_arrow_str : str := [45; 62]%N.

(** ["ε"]: dandy/src/nfa/mod.rs:1188 *)
Definition eps_str : str := [949%N].

(** ["eps"]: dandy/src/nfa/mod.rs:1194 *)
Definition ascii_eps_str : str := [101; 112; 115]%N.

(** dandy/src/dfa/mod.rs:867-892 [gen_table] *)
Definition dfa_gen_table (d : dfa) (arrow : str) : R str :=
  let table := push_row table_default ([[]; []; []] ++ dfa_alphabet d) in
  table <- foldR (fun t s =>
             names <- mapR (fun c => x <- index (dfa_states d) c ;; Ret (ds_name x)) (ds_transitions s) ;;
             Ret (push_row t ([if ds_initial s then arrow else []; if ds_accepting s then star_str else []; ds_name s] ++ names)))
           table (dfa_states d) ;;
  table_to_string table [32%N].
(** dandy/src/dfa/mod.rs:857-859 [to_table] and 863-865 [ascii_table] *)
Definition dfa_to_table (d : dfa) : R str := dfa_gen_table d arrow_str.

(** dandy/src/dfa/mod.rs:863-865 [ascii_table] *)
Definition dfa_ascii_table (d : dfa) : R str := dfa_gen_table d ascii_arrow_str.

(** dandy/src/nfa/mod.rs:1204-1220: the printed sets of one state *)
Definition nfa_trans_strings (n : nfa) (s : nfa_state) : R (list str) :=
  mapR (fun trans =>
          names <- mapR (fun c => x <- index (nfa_states n) c ;; Ret (ns_name x)) trans ;;
          Ret ([123%N] ++ join [32%N] names ++ [125%N]))
       (ns_eps s :: ns_transitions s).

(** dandy/src/nfa/mod.rs:1197-1232 [gen_table] *)
Definition nfa_gen_table (n : nfa) (eps arrow : str) : R str :=
  let table := push_row table_default ([[]; []; []; eps] ++ nfa_alphabet n) in
  trans_strings <- mapR (nfa_trans_strings n) (nfa_states n) ;;
  table <- foldR (fun t '(idx, s) =>
             ts <- index trans_strings idx ;;
             Ret (push_row t ([if ns_initial s then arrow else []; if ns_accepting s then star_str else []; ns_name s] ++ ts)))
           table (enumerate (nfa_states n)) ;;
  table_to_string table [32%N].
(** dandy/src/nfa/mod.rs:1187-1189 [to_table] and 1193-1195 [ascii_table] *)
Definition nfa_to_table (n : nfa) : R str := nfa_gen_table n eps_str arrow_str.

(** dandy/src/nfa/mod.rs:1193-1195 [ascii_table] *)
Definition nfa_ascii_table (n : nfa) : R str := nfa_gen_table n ascii_eps_str ascii_arrow_str.
