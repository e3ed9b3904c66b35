(** * Tables whose end is missing: C102 *)
From Coq Require Import Ascii String List NArith Arith Bool Lia.
From Verif Require Import Base Spec DfaModel ValidateModel TableSpec LayoutSpec TableModel ApiModel Messages MessageSpec WasmModel WasmSpec CliModel CliSpec
  FileModel FileSpec ShareModel ShareSpec WriteModel WriteSpec ArgsModel ArgsSpec ProcessModel ProcessSpec ByteModel ByteSpec ByteProofs
  Examples Prop_Dfa Prop_Cli Prop_Args Prop_Share Prop_Byte CutSpec CutProofs CutNfaProofs CutProductProofs CutCommentProofs.
Import ListNotations.
Close Scope string_scope.
Open Scope list_scope.

(** The full claim: a text that remains of a table when its end is cut off is refused, or loads as an automaton with the same language. This is
    false for DFAs in general ([C102_cut_table_refuted]); it is proved below for tables in which no name of a state is the beginning of another one.
    It holds for all NFAs, because the last set of a line ends with a brace. *)

(** Any texts, with comments and any line ends *)
Theorem C102_cut_text_partial : forall u v d d', loads_dfa (u ++ v) d -> loads_dfa u d' ->
  (forall m y, In m (map ds_name (dfa_states d)) -> In (m ++ y) (map ds_name (dfa_states d)) -> y = []) ->
  dfa_alphabet d' = dfa_alphabet d /\ (forall w, dfa_lang d' w <-> dfa_lang d w) /\ ((forall q, q < length (dfa_states d) -> dfa_reachable d q) -> d' = d).
Proof. exact cut_any. Qed.
Print Assumptions C102_cut_text_partial.

(** The tables that are printed *)
Theorem C102_cut_table_partial : forall d table u, dfa_valid d -> dfa_alphabet d <> [] -> Forall legal_token (dfa_alphabet d) ->
  Forall (fun s => legal_token (ds_name s)) (dfa_states d) -> apart (map ds_name (dfa_states d)) -> dfa_to_table d = Ret table -> prefix_of u table ->
  load_dfa u = Ret None \/ exists d', load_dfa u = Ret (Some d') /\
    dfa_alphabet d' = dfa_alphabet d /\ (forall w, dfa_lang d' w <-> dfa_lang d w) /\ ((forall q, q < length (dfa_states d) -> dfa_reachable d q) -> d' = d).
Proof. exact cut_table. Qed.
Print Assumptions C102_cut_table_partial.

(** The same in bytes *)
Theorem C102_cut_bytes_partial : forall d table l l' u, dfa_valid d -> dfa_alphabet d <> [] -> Forall legal_token (dfa_alphabet d) ->
  Forall (fun s => legal_token (ds_name s)) (dfa_states d) -> apart (map ds_name (dfa_states d)) -> dfa_to_table d = Ret table -> rust_text table ->
  utf8 table l -> prefix_of l' l -> from_utf8 l' = Some u ->
  load_dfa u = Ret None \/ exists d', load_dfa u = Ret (Some d') /\
    dfa_alphabet d' = dfa_alphabet d /\ (forall w, dfa_lang d' w <-> dfa_lang d w) /\ ((forall q, q < length (dfa_states d) -> dfa_reachable d q) -> d' = d).
Proof. exact cut_bytes. Qed.
Print Assumptions C102_cut_bytes_partial.

(** NFAs: any texts, the tables that are printed, and the same in bytes *)
Theorem C102_cut_nfa_text : forall u v n n', loads_nfa (u ++ v) n -> loads_nfa u n' ->
  nfa_alphabet n' = nfa_alphabet n /\ (forall w, nfa_lang n' w <-> nfa_lang n w) /\ ((forall q, q < length (nfa_states n) -> nfa_reachable n q) -> n' = n).
Proof. exact nfa_cut_any. Qed.
Print Assumptions C102_cut_nfa_text.
Theorem C102_cut_nfa_table : forall n table u, nfa_valid n -> Forall legal_token (nfa_alphabet n) ->
  Forall (fun s => legal_token (ns_name s)) (nfa_states n) -> nfa_to_table n = Ret table -> prefix_of u table ->
  load_nfa u = Ret None \/ exists n', load_nfa u = Ret (Some n') /\
    nfa_alphabet n' = nfa_alphabet n /\ (forall w, nfa_lang n' w <-> nfa_lang n w) /\ ((forall q, q < length (nfa_states n) -> nfa_reachable n q) -> n' = n).
Proof. exact nfa_cut_table. Qed.
Print Assumptions C102_cut_nfa_table.
Theorem C102_cut_nfa_bytes : forall n table l l' u, nfa_valid n -> Forall legal_token (nfa_alphabet n) ->
  Forall (fun s => legal_token (ns_name s)) (nfa_states n) -> nfa_to_table n = Ret table -> rust_text table ->
  utf8 table l -> prefix_of l' l -> from_utf8 l' = Some u ->
  load_nfa u = Ret None \/ exists n', load_nfa u = Ret (Some n') /\
    nfa_alphabet n' = nfa_alphabet n /\ (forall w, nfa_lang n' w <-> nfa_lang n w) /\ ((forall q, q < length (nfa_states n) -> nfa_reachable n q) -> n' = n).
Proof. exact nfa_cut_bytes. Qed.
Print Assumptions C102_cut_nfa_bytes.

(** Unions, intersections and differences of DFAs: a cut table is refused, or nothing but blanks is missing, if the names of the states contain no
    closing parenthesis, and those of one side no comma. (Names that are not legal cannot be loaded in the first place.) *)
Theorem C102_cut_product_partial : forall h d1 d2 comb d table l l' u, dfa_valid d1 -> dfa_valid d2 -> dfa_alphabet d1 <> [] -> Forall legal_token (dfa_alphabet d1) ->
  Forall (fun s => legal_token (ds_name s)) (dfa_states d1) -> Forall (fun s => legal_token (ds_name s)) (dfa_states d2) ->
  (forall m, In m (map ds_name (dfa_states d1)) -> ~ In 44%N m) \/ (forall m, In m (map ds_name (dfa_states d2)) -> ~ In 44%N m) ->
  (forall s, In s (dfa_states d1) \/ In s (dfa_states d2) -> ~ In 41%N (ds_name s)) -> dfa_product_construction h d1 d2 comb = Ret (Some d) ->
  dfa_to_table d = Ret table -> rust_text table -> utf8 table l -> prefix_of l' l -> from_utf8 l' = Some u -> load_dfa u = Ret None \/ load_dfa u = Ret (Some d).
Proof. exact cut_product. Qed.
Print Assumptions C102_cut_product_partial.

(** The output file of a process of dandy-cli that ran out of space: if the complete file is the table of a DFA, what is found in its place is no
    text, is refused, or loads as a DFA with the same language. *)
Theorem C102_cut_output_partial : forall fails env files create hs argv x, byte_process fails env files create hs argv = Some x -> exists e e0 seen,
  finds files seen /\ x = Ret e /\ process healthy env seen create hs argv = Some (Ret e0) /\
  forall d, dfa_to_table d = Ret (brought e0 ToFile) -> dfa_valid d -> dfa_alphabet d <> [] -> Forall legal_token (dfa_alphabet d) ->
    Forall (fun s => legal_token (ds_name s)) (dfa_states d) -> apart (map ds_name (dfa_states d)) -> rust_text (brought e0 ToFile) ->
    forall u, from_utf8 (brought e ToFile) = Some u -> load_dfa u = Ret None \/ exists d', load_dfa u = Ret (Some d') /\
      dfa_alphabet d' = dfa_alphabet d /\ (forall w, dfa_lang d' w <-> dfa_lang d w) /\ ((forall q, q < length (dfa_states d) -> dfa_reachable d q) -> d' = d).
Proof.
  intros fails env files create hs argv x H. destruct (C101_reread fails env files create hs argv x H) as (e & e0 & seen & F & X & E & _ & _ & P & _).
  exists e, e0, seen. split; auto. split; auto. split; auto. intros d T V Na A N Ap Rt u U. destruct (proj1 (proj2 (C101_texts [] (brought e0 ToFile)))) as (l & Hl).
  exact (cut_bytes d _ l _ u V Na A N Ap T Rt Hl (proj1 (P ToFile l Hl)) U).
Qed.
Print Assumptions C102_cut_output_partial.

(** Nothing marks the end of a table: a file that was cut because the disk was full can be accepted as another automaton. *)
Definition cut_first : str := of_string " a" ++ [10%N] ++ of_string "-> n n".
Definition cut_second : str := of_string " a" ++ [10%N] ++ of_string "-> b b)c" ++ [10%N] ++ of_string "* b)c b)c".
Theorem C102_cut_table_refuted : exists files argv k, let run fails := byte_process fails (ex_env [] false) files (fun _ => Ok tt) ex_orders argv in
  exists e e0 l l0 t t0 d d0 w, run (room ToFile k) = Some (Ret e) /\ run healthy = Some (Ret e0) /\ re_file e = Some l /\ re_file e0 = Some l0 /\
  from_utf8 l = Some t /\ from_utf8 l0 = Some t0 /\ load_dfa t = Ret (Some d) /\ load_dfa t0 = Ret (Some d0) /\
  dfa_accepts d w = Ret false /\ dfa_accepts d0 w = Ret true.
Proof.
  exists (ex_bytes [(of_string "x", encode cut_first); (of_string "y", encode cut_second)]), (line ["-o"; "out"; "--less-logs"; "union"; "x"; "y"]%string), 55.
  intros run. do 8 eexists. exists [[97%N]; [97%N]].
  split; [vm_compute; reflexivity|]. split; [vm_compute; reflexivity|]. cbn [re_file]. do 2 (split; [reflexivity|]).
  do 2 (split; [vm_compute; reflexivity|]). do 2 (split; [vm_compute; reflexivity|]). split; vm_compute; reflexivity.
Qed.
Print Assumptions C102_cut_table_refuted.

(** Without a path to every state, the automaton can lose states, but not words. *)
Theorem C102_cut_states_refuted : exists d table u d', dfa_to_table d = Ret table /\ prefix_of u table /\ apart (map ds_name (dfa_states d)) /\
  load_dfa table = Ret (Some d) /\ load_dfa u = Ret (Some d') /\ length (dfa_states d') < length (dfa_states d).
Proof.
  exists (mk_dfa [[97%N]] [mk_dfa_state [112%N] true true [0]; mk_dfa_state [113%N] false false [0]] 0). eexists.
  exists [32; 32; 32; 32; 32; 32; 97; 32; 10; 8594; 32; 42; 32; 112; 32; 112; 32; 10]%N. eexists.
  split; [vm_compute; reflexivity|]. split; [exists (of_string "    q p "); reflexivity|].
  split; [intros m y; cbn; intuition (subst; cbn in *; congruence)|]. split; [vm_compute; reflexivity|]. split; [vm_compute; reflexivity|]. vm_compute. auto.
Qed.
Print Assumptions C102_cut_states_refuted.

(** ** Examples *)
Definition cut_dfa : dfa := mk_dfa [[97%N]] [mk_dfa_state [112%N] true true [1]; mk_dfa_state [113%N] false false [0]] 0.
(** The hypotheses hold, some cuts are refused, and one is not. *)
Example C102_cut_example : dfa_valid cut_dfa /\ Forall legal_token (dfa_alphabet cut_dfa) /\ Forall (fun s => legal_token (ds_name s)) (dfa_states cut_dfa) /\
  apart (map ds_name (dfa_states cut_dfa)) /\ (forall q, q < length (dfa_states cut_dfa) -> dfa_reachable cut_dfa q) /\
  exists table, dfa_to_table cut_dfa = Ret table /\ rust_text table /\
    map (fun k => load_dfa (firstn (length table - k) table)) [0; 1; 2; 4; 8; length table] =
      [Ret (Some cut_dfa); Ret (Some cut_dfa); Ret None; Ret None; Ret None; Ret None].
Proof.
  assert (L : forall c, In c [97; 112; 113]%N -> legal_token [c]).
  { intros c H. split; [discriminate|]. split.
    - intros x [<- |[]]. unfold whitespace. repeat split; cbn in H; intuition (subst; try lia; try discriminate).
    - cbn in *. intuition (subst; discriminate). }
  split.
  { constructor; cbn.
    - repeat constructor; auto.
    - repeat constructor; cbn; intuition discriminate.
    - auto.
    - intros [|[|q]] s; cbn; try (destruct q; discriminate); intros [= <-]; cbn; split; auto; discriminate.
    - intros [|[|q]] s; cbn; try (destruct q; discriminate); intros [= <-]; auto.
    - intros [|[|q]] s t; cbn; try (destruct q; discriminate); intros [= <-]; cbn; intros [<- |[]]; auto. }
  split; [apply Forall_forall; intros x [<- |[]]; apply L; cbn; auto|].
  split; [apply Forall_forall; intros x [<- |[<- |[]]]; apply L; cbn; auto|].
  split; [intros m y; cbn; intuition (subst; cbn in *; congruence)|]. split.
  { intros [|[|q]] H; [exists []; constructor| |cbn in H; lia]. exists [[97%N]]. econstructor; [|constructor]. exists 0. eexists. cbn. auto. }
  eexists. split; [vm_compute; reflexivity|]. split; [|vm_compute; reflexivity]. repeat constructor; left; reflexivity.
Qed.

(** A state [pq] and a state [p]; cut inside of the last line, the table is refused; without that line, the state is missing that
    cannot be reached. *)
Definition cut_nfa : nfa := mk_nfa [[97%N]] [mk_nfa_state [112%N] true true [] [[0]]; mk_nfa_state [112%N; 113%N] false false [0] [[1; 0]]] 0.
Example C102_cut_nfa_example : nfa_valid cut_nfa /\ Forall legal_token (nfa_alphabet cut_nfa) /\ Forall (fun s => legal_token (ns_name s)) (nfa_states cut_nfa) /\
  exists table n', nfa_to_table cut_nfa = Ret table /\ rust_text table /\ length (nfa_states n') = 1 /\
    map (fun k => load_nfa (firstn (length table - k) table)) [0; 1; 2; 4; 13; 14; 20; 21; length table] =
      [Ret (Some cut_nfa); Ret (Some cut_nfa); Ret None; Ret None; Ret None; Ret (Some n'); Ret (Some n'); Ret None; Ret None].
Proof.
  assert (L : forall t, In t [[97]; [112]; [112; 113]]%N -> legal_token t).
  { intros t H. split; [intros ->; cbn in H; intuition discriminate|]. split.
    - intros x Hx. assert (K : (x = 97 \/ x = 112 \/ x = 113)%N) by (cbn in H; intuition (subst; cbn in *; intuition auto)).
      unfold whitespace. clear - K. intuition (subst; try lia; try discriminate).
    - cbn in H |- *. clear - H. intuition (subst; discriminate). }
  split.
  { constructor; cbn.
    - repeat constructor; auto.
    - repeat constructor; cbn; intuition discriminate.
    - auto.
    - intros [|[|q]] s; cbn; try (destruct q; discriminate); intros [= <-]; cbn; split; auto; discriminate.
    - intros [|[|q]] s; cbn; try (destruct q; discriminate); intros [= <-]; auto.
    - intros [|[|q]] s ts t; cbn; try (destruct q; discriminate); intros [= <-]; cbn; intros [<- |[]]; cbn; intuition (subst; auto).
    - intros [|[|q]] s t; cbn; try (destruct q; discriminate); intros [= <-]; cbn; intuition (subst; auto). }
  split; [apply Forall_forall; intros x [<- |[]]; apply L; cbn; auto|].
  split; [apply Forall_forall; intros x [<- |[<- |[]]]; apply L; cbn; auto|].
  eexists. exists (mk_nfa [[97%N]] [mk_nfa_state [112%N] true true [] [[0]]] 0). split; [vm_compute; reflexivity|].
  split; [repeat constructor; left; reflexivity|]. split; [reflexivity|]. vm_compute. reflexivity.
Qed.

(** The union of an automaton with itself *)
Example C102_cut_product_example : exists d table, dfa_product_construction rev_order cut_dfa cut_dfa (fun s1 s2 => ds_accepting s1 || ds_accepting s2) = Ret (Some d) /\
  map ds_name (dfa_states d) = map of_string ["(p,p)"; "(q,q)"]%string /\ dfa_to_table d = Ret table /\
  map (fun k => load_dfa (firstn (length table - k) table)) [0; 1; 2; 3; 12; length table] =
    [Ret (Some d); Ret (Some d); Ret None; Ret None; Ret None; Ret None].
Proof. do 2 eexists. split; [vm_compute; reflexivity|]. split; [reflexivity|]. split; [vm_compute; reflexivity|]. vm_compute. reflexivity. Qed.

(** The union of two automata, written to a disk with room for 48 bytes and less *)
Definition cut_union : dfa := mk_dfa [[97%N]] [mk_dfa_state (of_string "(p,p)") true true [1]; mk_dfa_state (of_string "(q,q)") false false [0]] 0.
Definition cut_input : str := of_string " a" ++ [10%N] ++ of_string "-> * p q" ++ [10%N] ++ of_string "q p".
Definition cut_found (fails : world) : option (N * option (R (option dfa))) :=
  match byte_process fails (ex_env [] false) (ex_bytes [(of_string "x", encode cut_input); (of_string "y", encode cut_input)]) (fun _ => Ok tt) ex_orders
          (line ["-o"; "out"; "--less-logs"; "union"; "x"; "y"]%string) with
  | Some (Ret e) => option_map (fun l => (re_status e, option_map load_dfa (from_utf8 l))) (re_file e)
  | _ => None
  end.
Example C102_cut_output_example : cut_found healthy = Some (0%N, Some (Ret (Some cut_union))) /\
  map (fun k => cut_found (room ToFile k)) [0; 14; 30; 46; 47; 48] =
    [Some (101%N, Some (Ret None)); Some (101%N, None); Some (101%N, Some (Ret None)); Some (101%N, Some (Ret None));
     Some (101%N, Some (Ret (Some cut_union))); Some (0%N, Some (Ret (Some cut_union)))].
Proof. vm_compute. auto. Qed.

(** A text with a comment and CRLF, cut inside of the comment, before it, after the name before it, inside of that name, and after a carriage return *)
Definition cut_text : str := of_string "a # b" ++ [13; 10]%N ++ of_string "-> one two" ++ [13; 10]%N ++ of_string "two one # end".
Example C102_cut_text_example : exists d, loads_dfa cut_text d /\ apart (map ds_name (dfa_states d)) /\
  map (fun k => load_dfa (firstn (length cut_text - k) cut_text)) [0; 3; 5; 6; 7; 13] = [Ret (Some d); Ret (Some d); Ret (Some d); Ret (Some d); Ret None; Ret None].
Proof.
  exists (mk_dfa [[97%N]] [mk_dfa_state (of_string "one") true false [1]; mk_dfa_state (of_string "two") false false [0]] 0).
  split; [apply CanvasProofs.load_dfa_ret; vm_compute; reflexivity|]. split; [intros m y; cbn; intuition (subst; cbn in *; congruence)|]. vm_compute. reflexivity.
Qed.
