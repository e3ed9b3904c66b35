(** * ProcessProofs: the whole process *)
From Coq Require Import Ascii String List NArith Arith Bool Lia.
From Verif Require Import Base BaseLemmas Spec TableSpec LayoutSpec DfaModel NfaModel ValidateModel TableModel ApiModel Messages MessageSpec
  CliModel CliSpec CliProofs FileModel FileSpec FileProofs ShareModel ShareSpec ShareProofs WriteModel WriteSpec WriteProofs
  ArgsModel ArgsSpec ArgsProofs ProcessModel ProcessSpec.
Import ListNotations.
Close Scope string_scope.
Open Scope list_scope.

Lemma shared_told env seen hs op : exists ev r, shared_operation env seen hs op = Ret (ev, told op r) /\
  shared_outcome env seen op (outs ev) (log_lines ev) r /\ CliSpec.warns ev = [] /\ (ce_log env = false -> log_lines ev = []).
Proof. exact (shared_spec env seen hs op). Qed.

Theorem process_asked env seen create hs argv a : asks_for argv a -> exists ls r, says env seen a ls r /\
  forall fails, exists e, process fails env seen create hs argv = Some (Ret e) /\ ends fails (creating create) (da_out a) (da_command a) ls r e.
Proof.
  intros A. apply parse_args_spec in A.
  destruct (shared_told (with_log env (negb (da_no_log a))) seen hs (da_command a)) as (ev & r & E & H & W & Q).
  exists (marked ev), r. unfold says. rewrite marked_results, marked_logged. split.
  { split; [exact H|]. intros N. apply Q. cbn. rewrite N. reflexivity. }
  intros fails. unfold process. rewrite A. cbn [obind]. rewrite E. cbn [bind].
  pose proof (writes_shape (creating create) (da_out a) (da_command a) ev r) as S. unfold WriteProofs.create in S. cbn [m_create creating] in S. rewrite S.
  destruct (perform fails [] (pre (creating create) (da_out a) ++ flat_map (event_writes (created (creating create) (da_out a))) ev ++
                              post (da_command a) r)) as [ws status] eqn:P.
  eexists. split; [reflexivity|]. exact (ends_run fails (creating create) (da_out a) (da_command a) ev r ws status W P).
Qed.
Theorem process_refused fails env seen create hs argv : (forall a, ~ asks_for argv a) -> process fails env seen create hs argv = None.
Proof.
  intros H. unfold process. destruct (parse_args argv) as [a|] eqn:E; [|reflexivity]. exfalso. apply (H a). apply parse_args_spec. exact E.
Qed.
Theorem process_status fails env seen create hs argv x : process fails env seen create hs argv = Some x -> exists e, x = Ret e /\
  (re_status e = 0%N \/ (re_status e = 101%N /\ exists out err file st s n, fails out err file st s = Some n)).
Proof.
  intros H. assert (A : exists a, asks_for argv a).
  { unfold process in H. destruct (parse_args argv) as [a|] eqn:E; [|discriminate]. exists a. apply parse_args_spec. exact E. }
  destruct A as (a & A). destruct (process_asked env seen create hs argv a A) as (ls & r & _ & F). destruct (F fails) as (e & E & N).
  rewrite E in H. injection H as <-. exists e. split; auto.
  destruct N as [N1 N2 N3|before l after n N1 N2 N3|before b l after n N1 N2 N3 N4|before l after n p u N1 N2 N3 N4 N5 N6 N7|l n N1 N2 N3 N4]; cbn [re_status]; auto;
    right; (split; [reflexivity|]); unfold notice_write, print_write, file_write, error_write in *; do 6 eexists; eassumption.
Qed.

Theorem process_alone env m hs argv a : asks_for argv a -> apart m (da_out a) (da_command a) -> exists res m',
  dandy env m hs argv = Some (Ret (res, m')) /\
  process healthy env (fun _ => m_text m) (m_create m) hs argv = Some (Ret (mk_run_end (mr_stdout res) (mr_stderr res) (mr_file res) 0)).
Proof.
  intros A P. apply parse_args_spec in A.
  destruct (healthy_run (with_log env (negb (da_no_log a))) m hs (da_out a) (da_command a)) as (res & m' & E & W).
  exists res, m'. unfold dandy, process. rewrite A. cbn [obind]. split; [rewrite E; reflexivity|].
  rewrite (operation_snapshot _ _ hs (da_command a) (m_text m)) by (intros k p _; reflexivity).
  unfold write_main in W. rewrite (operation_apart _ _ _ _ _ P) in W.
  destruct (run_operation (with_read (with_log env (negb (da_no_log a))) (m_text m)) hs (da_command a)) as [[ev r]| |]; cbn [bind] in *; try discriminate.
  cbv zeta in *. match goal with |- context [perform ?f ?d ?t] => destruct (perform f d t) as [ws status] end.
  injection W as <- <- <- <- _. reflexivity.
Qed.

(** ** Failing writes cut the process short, and do nothing else *)
Lemma perform_prefix fails all : exists ws status, perform fails [] all = (ws, status) /\
  ((ws = all /\ status = 0%N) \/ (status = 101%N /\ forall st, prefix_of (arrived ws st) (arrived all st))).
Proof.
  destruct (perform_cases fails all []) as [[K _]|(b & st & s & a & n & T & _ & _ & K & _)]; rewrite K; do 2 eexists; (split; [reflexivity|]); [left; auto|right].
  split; auto. intros st'. rewrite T. cbn [app]. rewrite !arrived_app. unfold prefix_of. cbn [arrived flat_map fst snd]. rewrite app_nil_r.
  destruct (stream_eqb st st').
  - exists (skipn n s ++ arrived a st'). rewrite <- !app_assoc. f_equal. rewrite <- (firstn_skipn n s) at 1. rewrite <- app_assoc. auto.
  - exists (arrived a st'). rewrite app_nil_r. auto.
Qed.
Theorem process_prefix fails env seen create hs argv x : process fails env seen create hs argv = Some x -> exists e e0,
  x = Ret e /\ process healthy env seen create hs argv = Some (Ret e0) /\ re_status e0 = 0%N /\
  (forall st, prefix_of (brought e st) (brought e0 st)) /\ (re_file e = None <-> re_file e0 = None) /\ (re_status e = 0%N -> e = e0).
Proof.
  unfold process. destruct (parse_args argv) as [a|] eqn:E; [|discriminate]. cbn [obind]. intros [= <-].
  destruct (shared_told (with_log env (negb (da_no_log a))) seen hs (da_command a)) as (ev & r & -> & _). cbn [bind]. cbv zeta.
  match goal with |- context [perform healthy ?d ?t] => set (all := t) end.
  destruct (perform_prefix fails all) as (ws & status & -> & H). destruct (perform_prefix healthy all) as (ws0 & status0 & P0 & H0).
  assert (K : ws0 = all /\ status0 = 0%N).
  { destruct (perform_cases healthy all []) as [[K _]|(? & ? & ? & ? & ? & _ & _ & C & _)]; [|discriminate C]. rewrite K in P0. injection P0 as <- <-. auto. }
  destruct K as [-> ->]. rewrite P0. do 2 eexists. split; [reflexivity|]. split; [reflexivity|]. cbn [re_status re_file]. split; [reflexivity|].
  assert (Y : forall st, prefix_of (arrived ws st) (arrived all st)).
  { intros st. destruct H as [[-> _]|[_ X]]; auto. exists []. rewrite app_nil_r. auto. }
  split; [|split].
  - intros st. destruct st; cbn [brought re_stdout re_stderr re_file]; auto.
    destruct (da_out a) as [p|]; [destruct (create p)|]; cbn [maybe]; auto; exists []; auto.
  - destruct (da_out a) as [p|]; [destruct (create p)|]; split; congruence.
  - intros ->. destruct H as [[-> _]|[D _]]; [reflexivity|discriminate D].
Qed.
