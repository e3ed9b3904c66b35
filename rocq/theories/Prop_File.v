(** * The files that a command reads and writes: C84 *)
From Coq Require Import Ascii String List NArith Arith Bool Lia.
From Verif Require Import Base Spec TableSpec LayoutSpec TableProofs DfaModel NfaModel ValidateModel TableModel RegexParserModel ApiModel Messages MessageSpec
  WasmModel WasmSpec CliModel CliSpec CliProofs Prop_RegexParser FileModel FileSpec FileProofs Examples Prop_Dfa Prop_Cli.
Import ListNotations.
Close Scope string_scope.
Open Scope list_scope.

(** Every run: what is printed and reported, and that no other file changes *)
Theorem C84_every_run : forall env m hs file op, exists res m' out lg r,
  file_main env m hs file op = Ret (res, m') /\ file_outcome env m file op out lg r /\
  (exists lines, interleaved out lg lines /\ mr_stdout res = with_lf lines) /\
  (ce_log env = false -> lg = []) /\
  mr_stderr res = with_lf (match file with
                           | Some p => match m_create m p with
                                       | Err e => [of_string "Error creating output file " ++ e;
                                                   of_string "Execution will continue but no data will be written to file"]
                                       | Ok _ => []
                                       end
                           | None => []
                           end ++ match r with Err e => [error_prefix op ++ e] | Ok _ => [] end) /\
  mr_file res = match file with
                | Some p => match m_create m p with Ok _ => Some (concat out) | Err _ => None end
                | None => None
                end /\
  only_written m m' file (mr_file res).
Proof. exact file_main_spec. Qed.
Print Assumptions C84_every_run.

(** If the file of --out is none of the files the command reads, the run is one of CliModel.v (C43, C44, C50, C51, C53, C76). *)
Theorem C84_apart : forall env m hs out op, apart m out op -> exists res m',
  file_main env m hs out op = Ret (res, m') /\
  cli_main (on env m) hs (match out with None => None | Some p => Some (m_create m p) end) op = Ret res /\
  only_written m m' out (mr_file res).
Proof. exact main_apart. Qed.
Print Assumptions C84_apart.

(** The file written by a set operation can be given to the next command: it contains a DFA for the result. *)
Theorem C84_read_again : forall env m hs p u o args a1 a2,
  m_create m p = Ok u -> apart m (Some p) (OpBinary o args) -> ba_enumerate args = None -> ba_compare_against args = None ->
  loads (on env m) (ba_first args) (ba_type args) a1 ->
  loads (on env m) (ba_second args) (match ba_second_type args with Some t => t | None => ba_type args end) a2 ->
  same_set (a_alphabet a1) (a_alphabet a2) -> a_alphabet a1 <> [] -> Forall legal_token (a_alphabet a1) ->
  exists res m' d, file_main env m hs (Some p) (OpBinary o args) = Ret (res, m') /\ mr_stderr res = [] /\
    (forall q, m_same m p q = true -> loads (on env m') q TDfa (ADfa d)) /\
    dfa_valid d /\ dfa_alphabet d = a_alphabet a1 /\
    (forall w, dfa_lang d w <-> set_op_spec o (a_lang a1 w) (a_lang a2 w)) /\
    (ba_minimized args = true -> minimal d).
Proof. exact main_chain. Qed.
Print Assumptions C84_read_again.

(** The listed words, redirected into a file, all pass test-file. *)
Theorem C84_words_pass : forall env m hs ty n f a, ce_log env = false -> loads (on env m) f ty a ->
  (forall w, a_lang a w -> concat w <> [] /\ ce_seg env (concat w) = w /\ ~ In 10%N (concat w) /\ forall l, concat w <> l ++ [13%N]) ->
  exists res m1 k, file_main env m hs None (OpEnumerateFile ty n f) = Ret (res, m1) /\ k <= n /\ mr_stderr res = [] /\
    forall m2 hs' q, m_text m2 f = m_text m f -> m_text m2 q = Ok (mr_stdout res) ->
      exists res' m3 ls, file_main env m2 hs' None (OpTestFile ty TLines f [q]) = Ret (res', m3) /\ length ls = k /\
        mr_stdout res = with_lf ls /\
        mr_stdout res' = with_lf ([of_string "Testing file " ++ q ++ of_string ":"] ++ map (fun l => of_string "[ OK ] " ++ l) ls ++
                                  [decimal k ++ of_string "/" ++ decimal k ++ of_string " lines passed in file " ++ q ++ of_string ":"]).
Proof. exact words_pass. Qed.
Print Assumptions C84_words_pass.

(** But if the file of --out is an input, the input is lost: the run fails, and the file is empty. *)
Theorem C84_input_lost : forall env m hs p u op q, ce_seg env [] = [] -> m_create m p = Ok u -> In q (inputs op) -> m_same m p q = true ->
  exists res m' e, file_main env m hs (Some p) op = Ret (res, m') /\
    mr_stdout res = [] /\ mr_stderr res = error_prefix op ++ e ++ [10%N] /\ mr_file res = Some [] /\ m_text m' q = Ok [].
Proof. exact main_input_lost. Qed.
Print Assumptions C84_input_lost.

(** If it is the automaton to compare with, the result is compared with itself. *)
Theorem C84_compare_self : forall env m hs p u o args a1 a2 q,
  m_create m p = Ok u -> m_same m p (ba_first args) = false -> m_same m p (ba_second args) = false ->
  ba_enumerate args = None -> ba_compare_against args = Some q -> ba_compared_type args = TDfa -> m_same m p q = true ->
  loads (on env m) (ba_first args) (ba_type args) a1 ->
  loads (on env m) (ba_second args) (match ba_second_type args with Some t => t | None => ba_type args end) a2 ->
  same_set (a_alphabet a1) (a_alphabet a2) -> a_alphabet a1 <> [] -> Forall legal_token (a_alphabet a1) ->
  exists res m' table, file_main env m hs (Some p) (OpBinary o args) = Ret (res, m') /\ mr_stderr res = [] /\
    mr_file res = Some (table ++ op_name o ++ of_string " of the two provided " ++ type_names (ba_type args) ++
                        of_string " is EQUIVALENT to the third DFA").
Proof. exact main_compare_self. Qed.
Print Assumptions C84_compare_self.

(** ** Examples, and what does not hold *)
Definition ex_machine (files : list (str * str)) : machine :=
  mk_machine (ce_read (ex_env files false)) (fun p q => eqb p q) (fun _ => Ok tt).
Definition ex_even : str := of_string " a b" ++ [10%N] ++ of_string "-> * e o o" ++ [10%N] ++ of_string "o e e".
Definition ex_ends_b : str := of_string " a b" ++ [10%N] ++ of_string "-> x x y" ++ [10%N] ++ of_string "* y x y".
Definition ex_two : list (str * str) :=
  [(of_string "even", ex_even); (of_string "b", ex_ends_b); (of_string "re", of_string "a|bb"); (of_string "c", of_string "other")].
Definition ex_args (enumerate : option nat) (third : option str) : binary_op_args :=
  mk_binary_op_args TDfa None TDfa true enumerate (of_string "even") (of_string "b") third.
Definition run := fun files out op => file_main (ex_env [] false) (ex_machine files) ex_orders out op.

(** The table of the intersection is written to "out" and read again. *)
Example C84_example : exists res m' res' m'',
  run ex_two (Some (of_string "out")) (OpBinary OIntersection (ex_args None None)) = Ret (res, m') /\
  file_main (ex_env [] false) m' ex_orders None (OpEnumerateFile TDfa 3 (of_string "out")) = Ret (res', m'') /\
  mr_stdout res' = of_string "ab" ++ [10%N] ++ of_string "bb" ++ [10%N] ++ of_string "aaab" ++ [10%N] /\ mr_stderr res' = [].
Proof. do 4 eexists. split; [vm_compute; reflexivity|]. split; [vm_compute; reflexivity|]. split; vm_compute; reflexivity. Qed.
Example C84_example_apart : apart (ex_machine ex_two) (Some (of_string "out")) (OpBinary OIntersection (ex_args None None)).
Proof. intros p q [= <-] [<-|[<-|[]]]; vm_compute; reflexivity. Qed.
Example C84_example_loads : exists a1 a2, loads (on (ex_env [] false) (ex_machine ex_two)) (of_string "even") TDfa (ADfa a1) /\
  loads (on (ex_env [] false) (ex_machine ex_two)) (of_string "b") TDfa (ADfa a2) /\
  dfa_alphabet a1 = [of_string "a"; of_string "b"] /\ dfa_alphabet a2 = dfa_alphabet a1 /\ Forall legal_token (dfa_alphabet a1).
Proof.
  destruct (load_file_spec (on (ex_env [] false) (ex_machine ex_two)) (of_string "even") TDfa) as [(a1 & E1 & L1)|(e & E1 & _)]; vm_compute in E1; [|discriminate].
  destruct (load_file_spec (on (ex_env [] false) (ex_machine ex_two)) (of_string "b") TDfa) as [(a2 & E2 & L2)|(e & E2 & _)]; vm_compute in E2; [|discriminate].
  injection E1 as <-. injection E2 as <-. do 2 eexists. split; [exact L1|]. split; [exact L2|]. split; [reflexivity|]. split; [reflexivity|].
  apply Forall_forall. intros x Hx. apply legal_tokenb_legal. destruct Hx as [<-|[<-|[]]]; vm_compute; reflexivity.
Qed.
(** --out with the name of the first input *)
Example C84_lost_example : exists res m',
  run ex_two (Some (of_string "even")) (OpBinary OIntersection (ex_args None None)) = Ret (res, m') /\
  m_text m' (of_string "even") = Ok [] /\ mr_stdout res = [] /\
  mr_stderr res = of_string "Error in Intersection: Error reading 1: Error parsing DFA: nom" ++ [10%N].
Proof. do 2 eexists. split; [vm_compute; reflexivity|]. repeat split; vm_compute; reflexivity. Qed.
(** With --enumerate the file cannot be read again. *)
Theorem C84_enumerate_refuted : exists files out args res m' res' m'',
  run files (Some out) (OpBinary OIntersection args) = Ret (res, m') /\ mr_stderr res = [] /\
  apart (ex_machine files) (Some out) (OpBinary OIntersection args) /\
  file_main (ex_env [] false) m' ex_orders None (OpEnumerateFile TDfa 3 out) = Ret (res', m'') /\
  mr_stdout res' = [] /\ mr_stderr res' <> [].
Proof.
  exists ex_two, (of_string "out"), (ex_args (Some 1) None). do 4 eexists. split; [vm_compute; reflexivity|]. split; [vm_compute; reflexivity|].
  split; [intros p q [= <-] [<-|[<-|[]]]; vm_compute; reflexivity|]. split; [vm_compute; reflexivity|]. split; [vm_compute; reflexivity|].
  vm_compute. discriminate.
Qed.
Print Assumptions C84_enumerate_refuted.
(** The words listed into the file of --out do not pass test-file. *)
Theorem C84_words_refuted : exists files out f res m' res' m'',
  run files (Some out) (OpEnumerateFile TRegex 2 f) = Ret (res, m') /\ m_text m' out = Ok (of_string "abb") /\
  mr_stdout res = of_string "a" ++ [10%N] ++ of_string "bb" ++ [10%N] /\
  file_main (ex_env [] false) m' ex_orders None (OpTestFile TRegex TFiles f [out]) = Ret (res', m'') /\
  mr_stdout res' = of_string "[FAIL] out failed on abb" ++ [10%N].
Proof.
  exists ex_two, (of_string "out"), (of_string "re"). do 4 eexists. split; [vm_compute; reflexivity|].
  split; [vm_compute; reflexivity|]. split; [vm_compute; reflexivity|]. split; vm_compute; reflexivity.
Qed.
Print Assumptions C84_words_refuted.
(** A wrong result is called equivalent when it is compared with the file it is written to; "c" is no automaton at all. *)
Example C84_self_example : exists res m',
  run ex_two (Some (of_string "c")) (OpBinary OIntersection (ex_args None (Some (of_string "c")))) = Ret (res, m') /\ mr_stderr res = [].
Proof. do 2 eexists. split; vm_compute; reflexivity. Qed.
(** The hypotheses of C84_words_pass: the words of a|bb *)
Example C84_words_example : exists res m' res' m'',
  run ex_two None (OpEnumerateFile TRegex 5 (of_string "re")) = Ret (res, m') /\
  file_main (ex_env [] false) (ex_machine ((of_string "t", mr_stdout res) :: ex_two)) ex_orders None
    (OpTestFile TRegex TLines (of_string "re") [of_string "t"]) = Ret (res', m'') /\
  mr_stdout res' = with_lf [of_string "Testing file t:"; of_string "[ OK ] a"; of_string "[ OK ] bb"; of_string "2/2 lines passed in file t:"].
Proof. do 4 eexists. split; [vm_compute; reflexivity|]. split; vm_compute; reflexivity. Qed.
Example C84_words_hypothesis : let t := RAlt [RChar (RGrapheme (of_string "a")); RSequence [RChar (RGrapheme (of_string "b")); RChar (RGrapheme (of_string "b"))]] in
  reads singles TRegex (of_string "a|bb") (ARegex t) /\
  forall w, a_lang (ARegex t) w -> concat w <> [] /\ singles (concat w) = w /\ ~ In 10%N (concat w) /\ forall l, concat w <> l ++ [13%N].
Proof.
  cbv zeta. split; [vm_compute; reflexivity|]. intros w H.
  assert (K : w = [of_string "a"] \/ w = [of_string "b"; of_string "b"]).
  { inversion H as [| | |l r w' Hi Hm| |]; subst. destruct Hi as [<-|[<-|[]]]; [inversion Hm; auto|]. inversion Hm as [| |l w' Hs| | |]; subst.
    inversion Hs as [|r l w1 w2 H1 H2]; subst. inversion H2 as [|r' l' w1' w2' H1' H2']; subst. inversion H2'; subst. inversion H1; inversion H1'; subst. auto. }
  assert (X : forall (l : str) s c, s <> [] -> last s c <> 13%N -> s <> l ++ [13%N]).
  { intros l s c _ Hl ->. apply Hl. apply last_last. }
  destruct K as [-> | ->]; (split; [discriminate|]); (split; [reflexivity|]); (split; [intros C; repeat destruct C as [C|C]; discriminate||auto|]);
    intros l; apply (X l _ 0%N); vm_compute; discriminate.
Qed.
