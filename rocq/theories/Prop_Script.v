(** * Prop_Script: sequences of runs of dandy-cli that pass files to each other (C88) *)
From Coq Require Import Ascii String List NArith Arith Bool Lia.
From Verif Require Import Base Spec TableSpec LayoutSpec DfaModel ValidateModel TableModel ApiModel Messages CliModel CliSpec FileModel FileSpec ArgsModel ArgsSpec CliReproSpec
  ScriptSpec ScriptProofs ShippedSpec Examples.
From Verif Require Import BaseLemmas RegexParserModel.
From Verif Require Import Prop_Args Prop_Cli Prop_File Prop_CliRepro.
Import ListNotations.
Close Scope string_scope.
Open Scope list_scope.

(** Whatever was known about files before, the runs succeed, and afterwards everything holds that the operations tell; other files are not touched. *)
Theorem C88_script : forall env m K rs K' l, tells (m_same m) (creatable m) K rs K' -> Forall (holds env m) K -> Forall2 starts l rs ->
  exists results m', shell env m l = Some (Ret (results, m')) /\ Forall (fun res => mr_stderr res = []) results /\ length results = length rs /\
    Forall (holds env m') K' /\ forall q, (forall r, In r rs -> m_same m (sr_out r) q = false) -> m_text m' q = m_text m q.
Proof.
  intros env m K rs K' l T HK HS. destruct (script_correct env _ _ _ _ _ T m l) as (results & m' & E & Se & Len & _ & _ & HK' & Ot); auto.
  exists results, m'. auto.
Qed.
Print Assumptions C88_script.

(** A file about which something is known is compared with others truthfully, and its words are listed. *)
Theorem C88_compare : forall env m hs b ms argv f g bl, holds env m f -> holds env m g ->
  asks_for argv (mk_dandy_args None true (OpEquivalence (mk_equivalence_args (Some (f_type f)) (f_type g) false bl None (f_path f) [f_path g]))) ->
  exists v, (v = true <-> same_set (f_alphabet f) (f_alphabet g) /\ forall w, f_lang f w <-> f_lang g w) /\
    dandy (rebuilt env b ms) m hs argv =
    Some (Ret (mk_main_result (f_path g ++ of_string ": " ++
                               of_string (if bl then if v then "true" else "false" else if v then "Equivalent" else "Not Equivalent") ++ [10%N]) [] None, m)).
Proof. exact compare_run. Qed.
Print Assumptions C88_compare.
Theorem C88_enumerate : forall env m hs b ms argv f n, holds env m f ->
  asks_for argv (mk_dandy_args None true (OpEnumerateFile (f_type f) n (f_path f))) ->
  exists ws, first_words (f_alphabet f) (f_lang f) n ws /\
    dandy (rebuilt env b ms) m hs argv = Some (Ret (mk_main_result (with_lf (map word_text ws)) [] None, m)).
Proof. exact enumerate_run. Qed.
Print Assumptions C88_enumerate.

(** Temporary files: one file for each number, none of them one of the files [fs] *)
Definition temporary (m : machine) (tmp : nat -> str) (fs : list fact) : Prop :=
  (forall i j, m_same m (tmp i) (tmp j) = (i =? j)) /\ (forall i, creatable m (tmp i)) /\ forall f i, In f fs -> m_same m (tmp i) (f_path f) = false.

(** Every expression of set operations over files with the same elements: afterwards the last temporary file contains its value. *)
Theorem C88_expression : forall env m tmp A e k rs p t k' l, temporary m tmp (e_files e) ->
  A <> [] -> Forall legal_token A -> (forall f, In f (e_files e) -> holds env m f /\ same_set (f_alphabet f) A) ->
  runs_for tmp k e = (rs, (p, t), k') -> Forall2 starts l rs ->
  exists results m', shell env m l = Some (Ret (results, m')) /\ Forall (fun res => mr_stderr res = []) results /\
    holds env m' (mk_fact p t (e_alphabet e) (e_lang e)) /\ forall q, (forall i, m_same m (tmp i) q = false) -> m_text m' q = m_text m q.
Proof.
  intros env m tmp A e k rs p t k' l (T1 & T2 & T3) NA LA HF E HS.
  destruct (expression_tells (m_same m) (creatable m) tmp A e T1 T2 NA LA) with (k := k) (rs := rs) (p := p) (t := t) (k' := k') (K := e_files e)
    as (K' & HT & HI & _); auto. { intros f Hf. split; [apply HF; auto|]. intros i. apply T3. auto. }
  destruct (C88_script env m _ _ _ l HT) as (results & m' & R & Se & _ & HK & Ot); auto. { apply Forall_forall. intros f Hf. apply HF. auto. }
  exists results, m'. split; auto. split; auto. split; [rewrite Forall_forall in HK; auto|]. intros q Hq. apply Ot.
  intros r Hr. destruct (runs_for_out _ _ _ _ _ _ E) as (_ & O & _). destruct (O r Hr) as (i & _ & ->). auto.
Qed.
Print Assumptions C88_expression.

(** So the tool decides every equation between such expressions. *)
Theorem C88_equation : forall env m tmp A e1 e2 rs1 p1 t1 k1 rs2 p2 t2 k2 l, temporary m tmp (e_files e1 ++ e_files e2) ->
  A <> [] -> Forall legal_token A -> (forall f, In f (e_files e1 ++ e_files e2) -> holds env m f /\ same_set (f_alphabet f) A) ->
  runs_for tmp 0 e1 = (rs1, (p1, t1), k1) -> runs_for tmp k1 e2 = (rs2, (p2, t2), k2) -> Forall2 starts l (rs1 ++ rs2) ->
  exists results m', shell env m l = Some (Ret (results, m')) /\ Forall (fun res => mr_stderr res = []) results /\
    forall hs b ms argv,
      asks_for argv (mk_dandy_args None true (OpEquivalence (mk_equivalence_args (Some t1) t2 false true None p1 [p2]))) ->
      exists v, (v = true <-> forall w, e_lang e1 w <-> e_lang e2 w) /\
        dandy (rebuilt env b ms) m' hs argv = Some (Ret (mk_main_result (p2 ++ of_string ": " ++ of_string (if v then "true" else "false") ++ [10%N]) [] None, m')).
Proof.
  intros env m tmp A e1 e2 rs1 p1 t1 k1 rs2 p2 t2 k2 l (T1 & T2 & T3) NA LA HF E1 E2 HS.
  assert (HF1 : forall f, In f (e_files e1) -> same_set (f_alphabet f) A /\ forall i, m_same m (tmp i) (f_path f) = false)
    by (intros f Hf; split; [apply HF|intros i; apply T3]; apply in_app_iff; auto).
  assert (HF2 : forall f, In f (e_files e2) -> same_set (f_alphabet f) A /\ forall i, m_same m (tmp i) (f_path f) = false)
    by (intros f Hf; split; [apply HF|intros i; apply T3]; apply in_app_iff; auto).
  destruct (runs_for_out _ _ _ _ _ _ E1) as (_ & O1 & _). destruct (runs_for_out _ _ _ _ _ _ E2) as (_ & O2 & _).
  destruct (expression_tells (m_same m) (creatable m) tmp A e1 T1 T2 NA LA HF1 0 rs1 p1 t1 k1 (e_files e1 ++ e_files e2) E1)
    as (K1 & HT1 & I1 & S1 & F1 & _); [intros; apply in_app_iff; auto|].
  destruct (expression_tells (m_same m) (creatable m) tmp A e2 T1 T2 NA LA HF2 k1 rs2 p2 t2 k2 K1 E2) as (K2 & HT2 & I2 & S2 & _).
  { intros f Hf. apply (tells_keeps _ _ _ _ _ HT1); [apply in_app_iff; auto|]. intros r Hr. destruct (O1 r Hr) as (i & _ & ->). apply HF2. auto. }
  assert (I1' : In (mk_fact p1 t1 (e_alphabet e1) (e_lang e1)) K2).
  { apply (tells_keeps _ _ _ _ _ HT2); auto. intros r Hr. destruct (O2 r Hr) as (i & Hi & ->). apply F1. lia. }
  destruct (C88_script env m _ _ _ l (tells_app _ _ _ _ _ _ _ HT1 HT2)) as (results & m' & R & Se & _ & HK & _); auto.
  { apply Forall_forall. intros f Hf. apply HF. auto. }
  rewrite Forall_forall in HK. exists results, m'. split; auto. split; auto. intros hs b ms argv Q.
  destruct (C88_compare env m' hs b ms argv _ _ true (HK _ I1') (HK _ I2) Q) as (v & Hv & D). exists v. split; [|exact D].
  rewrite Hv. cbn [f_alphabet f_lang]. split; [intros [_ H]; exact H|]. intros H. split; [|exact H]. intros x. rewrite (S1 x), (S2 x). tauto.
Qed.
Print Assumptions C88_equation.

(** Which languages sequences of runs can compute from given files: every Boolean combination that leaves out the words of no file ... *)
Theorem C88_every_combination : forall env m tmp A fs fn, temporary m tmp fs ->
  A <> [] -> Forall legal_token A -> (forall f, In f fs -> holds env m f /\ same_set (f_alphabet f) A) ->
  fs <> [] -> fn (repeat false (length fs)) = false ->
  exists rs p t B L, (forall w bits, member_bits fs w bits -> (L w <-> fn bits = true)) /\ same_set B A /\
    forall l, Forall2 starts l rs ->
      exists results m', shell env m l = Some (Ret (results, m')) /\ Forall (fun res => mr_stderr res = []) results /\
        holds env m' (mk_fact p t B L) /\ forall q, (forall i, m_same m (tmp i) q = false) -> m_text m' q = m_text m q.
Proof.
  intros env m tmp A fs fn (T1 & T2 & T3) NA LA HF NF Z. destruct (expressible fs fn NF Z) as (e & He & D).
  destruct (runs_for tmp 0 e) as [[rs [p t]] k] eqn:E. exists rs, p, t, (e_alphabet e), (e_lang e). split; [exact D|].
  split; [apply e_alphabet_set; intros f Hf; apply HF; auto|]. intros l HS.
  apply (C88_expression env m tmp A e 0 rs p t k l); auto. do 2 (split; auto).
Qed.
Print Assumptions C88_every_combination.
(** ... and no others; so a word of none of the files is in no result: the complement of a file cannot be computed from that file. *)
Theorem C88_no_other : forall fs e, (forall f, In f (e_files e) -> In f fs) ->
  (exists fn, fn (repeat false (length fs)) = false /\ forall w bits, member_bits fs w bits -> (e_lang e w <-> fn bits = true)) /\
  forall w, (forall f, In f fs -> ~ f_lang f w) -> ~ e_lang e w.
Proof. intros fs e H. split; [exact (expressed fs e H)|]. intros w. apply outside. auto. Qed.
Print Assumptions C88_no_other.

(** ** Example: the symmetric difference as a union of differences, with two expressions and three temporary files *)
Definition ex_script_files : list (str * str) := [(of_string "a", of_string "(a|b)*a"); (of_string "b", of_string "b(a|b)*")].
Definition ex_call (argv : list string) : start := mk_start (strings argv) ex_orders true 7.
Example C88_example : exists results m' m'',
  shell (ex_env [] true) (ex_machine ex_script_files)
    (map ex_call [["-o"; "t0"; "difference"; "--type=regex"; "a"; "b"];
                  ["-o"; "t1"; "difference"; "--type=regex"; "b"; "a"];
                  ["-o"; "t2"; "union"; "-m"; "t0"; "t1"];
                  ["--less-logs"; "-ot3"; "symmetric-difference"; "-tregex"; "a"; "b"]]%string) = Some (Ret (results, m')) /\
  dandy (ex_env [] true) m' ex_orders (strings ["--less-logs"; "equivalence"; "--bool"; "t2"; "t3"; "t0"]%string) =
    Some (Ret (mk_main_result (of_string "t3: true" ++ [10%N] ++ of_string "t0: false" ++ [10%N]) [] None, m'')).
Proof. do 3 eexists. split; vm_compute; reflexivity. Qed.
(** The hypotheses of [C88_equation] for these files: temporary files t0, t1, ... *)
Definition ex_fact (name : string) (t : regex_tree) : fact := mk_fact (of_string name) TRegex (a_alphabet (ARegex t)) (matches t).
Definition ex_tree (u : str) : regex_tree := match parse_regex (ce_seg (ex_env [] true)) u with Ret (Some t) => t | _ => RChar REmpty end.
Definition ex_a : fact := ex_fact "a" (ex_tree (of_string "(a|b)*a")).
Definition ex_b : fact := ex_fact "b" (ex_tree (of_string "b(a|b)*")).
Definition ex_left : file_expr := EOp OUnion true (EOp ODifference false (EFile ex_a) (EFile ex_b)) (EOp ODifference false (EFile ex_b) (EFile ex_a)).
Definition ex_right : file_expr := EOp OSymmetricDifference false (EFile ex_a) (EFile ex_b).
Definition ex_tmp (i : nat) : str := of_string "t" ++ dec i.
Example C88_hypotheses : temporary (ex_machine ex_script_files) ex_tmp (e_files ex_left ++ e_files ex_right) /\
  (forall f, In f (e_files ex_left ++ e_files ex_right) ->
     holds (ex_env [] true) (ex_machine ex_script_files) f /\ same_set (f_alphabet f) [of_string "a"; of_string "b"]) /\
  exists rs1 p1 k1 rs2 p2 k2, runs_for ex_tmp 0 ex_left = (rs1, p1, k1) /\ runs_for ex_tmp k1 ex_right = (rs2, p2, k2) /\
    Forall2 starts (map (fun r => mk_start (arguments (run_args true None TDfa r)) ex_orders true 7) (firstn 2 rs1) ++
                    [mk_start (arguments (run_args true (Some TDfa) TDfa (nth 2 rs1 (mk_script_run OUnion true [] TDfa [] TDfa [])))) ex_orders false 8] ++
                    map (fun r => mk_start (arguments (run_args false (Some TRegex) TNfa r)) ex_orders true 7) rs2) (rs1 ++ rs2).
Proof.
  split; [split; [|split]|split].
  - intros i j. cbn [m_same ex_machine]. destruct (Nat.eqb_spec i j) as [->|N].
    + apply eqb_true. reflexivity.
    + destruct (eqb (ex_tmp i) (ex_tmp j)) eqn:E; auto. apply eqb_eq in E. unfold ex_tmp in E. apply app_inv_head in E. exfalso. apply N.
      apply dec_inj. exact E.
  - intros i. exists tt. reflexivity.
  - intros f i Hf. assert (H : f_path f = of_string "a" \/ f_path f = of_string "b").
    { cbn [ex_left ex_right e_files app In] in Hf. intuition (subst; auto). }
    cbn [m_same ex_machine]. unfold ex_tmp. destruct H as [-> | ->]; destruct (dec i); reflexivity.
  - assert (S : forall f, In f [ex_a; ex_b] -> holds (ex_env [] true) (ex_machine ex_script_files) f /\ same_set (f_alphabet f) [of_string "a"; of_string "b"]).
    { intros f [<-|[<-|[]]]; split; try (intros x; vm_compute; tauto).
      - exists (ARegex (ex_tree (of_string "(a|b)*a"))). split; [exists (of_string "(a|b)*a"); split; vm_compute; reflexivity|split; [reflexivity|intros w; reflexivity]].
      - exists (ARegex (ex_tree (of_string "b(a|b)*"))). split; [exists (of_string "b(a|b)*"); split; vm_compute; reflexivity|split; [reflexivity|intros w; reflexivity]]. }
    intros f Hf. apply S. cbn [ex_left ex_right e_files app In] in *. tauto.
  - do 6 eexists. split; [reflexivity|]. split; [reflexivity|].
    assert (W : forall nl sec cmp r o d n, match sec with Some t => t | None => sr_first_type r end = sr_second_type r ->
      sr_first r <> [] -> sr_second r <> [] -> sr_out r <> [] -> starts (mk_start (arguments (run_args nl sec cmp r)) o d n) r).
    { intros nl sec cmp r o d n H1 H2 H3 H4. exists nl, sec, cmp. split; auto. apply C85_exact, C85_written. cbn. split; [intros E; injection E; auto|].
      split; [discriminate|]. split; auto. split; auto. discriminate. }
    cbn [map firstn app nth]. repeat constructor; apply W; try reflexivity; try discriminate.
Qed.
(** [C88_every_combination] for them: exactly one of two; a word with known bits *)
Example C88_combination : (fun bs => match bs with [a; b] => xorb a b | _ => false end) (repeat false (length [ex_a; ex_b])) = false /\
  member_bits [ex_a; ex_b] [of_string "a"] [true; false].
Proof.
  assert (E1 : ex_tree (of_string "(a|b)*a") = RSequence [RRepeat (RAlt [RChar (RGrapheme (of_string "a")); RChar (RGrapheme (of_string "b"))]); RChar (RGrapheme (of_string "a"))]) by (vm_compute; reflexivity).
  assert (E2 : ex_tree (of_string "b(a|b)*") = RSequence [RChar (RGrapheme (of_string "b")); RRepeat (RAlt [RChar (RGrapheme (of_string "a")); RChar (RGrapheme (of_string "b"))])]) by (vm_compute; reflexivity).
  split; [reflexivity|]. apply Forall2_cons; [|apply Forall2_cons; [|constructor]]; cbn [f_lang ex_a ex_b ex_fact]; rewrite ?E1, ?E2.
  - split; auto. intros _. apply m_seq, (ms_cons _ _ [] _); [apply m_rep_nil|]. apply (ms_cons _ _ [of_string "a"] []); [apply m_char|apply ms_nil].
  - split; [discriminate|]. intros H. remember [of_string "a"] as w eqn:Ew. inversion H as [| |? ? H1| | |]; subst.
    inversion H1 as [|? ? w1 w2 H2 H3]. inversion H2; subst. discriminate.
Qed.
