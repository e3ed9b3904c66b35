(** * The page as it is loaded: C81 *)
From Coq Require Import Ascii String List NArith Arith Bool Lia.
From Verif Require Import Base BaseLemmas Spec TableSpec LayoutSpec DfaModel NfaModel RegexModel TableModel RegexParserModel Messages Examples DocSpec DocProofs
  ApiModel WasmModel WasmSpec WasmProofs DrawModel DrawSpec CanvasModel CanvasSpec CanvasProofs Prop_Draw Prop_Canvas PageModel PageSpec PageProofs Prop_Page
  FirstPageSpec FirstPageProofs TableProofs.
Import ListNotations.
Close Scope string_scope.
Open Scope list_scope.

(** All examples on the page are legal, and these automata; the buttons and the outputs say what to do; the canvas is empty *)
Theorem C81_inputs : forall fl (db : doubles fl), let pg := page_init db in let u a := value db pg a in
  loads_dfa (u DfaEq1) page_dfa1 /\ loads_dfa (u DfaEq2) page_dfa2 /\ loads_dfa (u MinimizeIn) page_dfa2 /\
  loads_nfa (u NfaEq1) page_nfa1 /\ loads_nfa (u NfaEq2) page_nfa2 /\ loads_nfa (u NfaToDfaIn) page_nfa2 /\ loads_nfa (u VisualizeIn) page_nfa2 /\
  (exists ctx, canvas_of db pg = Some ctx /\ cx_marks db ctx = []) /\ stored db pg = (0, 0, 0) /\
  map (pg_text db pg) [DfaEqCheck; NfaEqCheck; MinimizeBtn; RegexBtn; VisualizeBtn; DfaEqErrors; NfaEqErrors] =
    map of_string ["Check!"; "Check!"; "Minimize!"; "Convert!"; "Visualize!"; ""; ""]%string.
Proof.
  intros fl db pg u. destruct (first_texts fl db) as (H1 & H2 & H3 & H4 & H5 & H6 & H7).
  split; [exact H1|]. split; [exact H2|]. split; [exact H3|]. split; [exact H4|]. split; [exact H5|]. split; [exact H6|]. split; [exact H7|].
  split; [eexists; split; reflexivity|]. split; reflexivity.
Qed.
Print Assumptions C81_inputs.

(** Whatever else is done on the page: while the two texts are not edited, their comparison shows this *)
Theorem C81_dfa_comparison : forall fl (db : doubles fl) seg cap checks dfa_syntax nfa_syntax regex_syntax type_error es h dbg,
  finite_angles db -> proper_radii db -> 2 * length (es ++ [Click BDfaEq h dbg]) + 1 < cap -> untouched [DfaEq1; DfaEq2] es ->
  exists pgs pg,
    page_run db seg cap checks dfa_syntax nfa_syntax regex_syntax type_error (page_init db) (es ++ [Click BDfaEq h dbg]) = Ret (pgs ++ [pg]) /\
    pg_text db pg DfaEqCheck = of_string "Equivalent" /\ pg_text db pg DfaEqErrors = [].
Proof.
  intros fl db seg cap checks ds ns rs te es h dbg FA PR H U.
  destruct (last_click db seg cap checks ds ns rs te FA PR es BDfaEq h dbg [DfaEq1; DfaEq2] H (ltac:(intros a [<-|[<-|[]]]; reflexivity)) U) as (pgs & pg & E & S & K).
  exists pgs, pg. split; auto. destruct S as (_ & _ & (l1 & l2 & C1 & C2 & EE) & SV & _).
  rewrite (K DfaEq1 (or_introl eq_refl)) in C1, SV. rewrite (K DfaEq2 (or_intror (or_introl eq_refl))) in C2, SV. clear K. destruct (first_texts fl db) as (L1 & L2 & _). split.
  - destruct (SV _ _ L1 L2) as [(_ & T)|(N & _)]; [exact T|exfalso; apply N, page_dfas_equal].
  - destruct C1 as [(_ & ->)|(N & _)]; [|exfalso; apply N; eexists; exact L1]. destruct C2 as [(_ & ->)|(N & _)]; [|exfalso; apply N; eexists; exact L2]. exact EE.
Qed.
Print Assumptions C81_dfa_comparison.
Theorem C81_nfa_comparison : forall fl (db : doubles fl) seg cap checks dfa_syntax nfa_syntax regex_syntax type_error es h dbg,
  finite_angles db -> proper_radii db -> 2 * length (es ++ [Click BNfaEq h dbg]) + 1 < cap -> untouched [NfaEq1; NfaEq2] es ->
  exists pgs pg,
    page_run db seg cap checks dfa_syntax nfa_syntax regex_syntax type_error (page_init db) (es ++ [Click BNfaEq h dbg]) = Ret (pgs ++ [pg]) /\
    pg_text db pg NfaEqCheck = of_string "Not equivalent" /\ pg_text db pg NfaEqErrors = [].
Proof.
  intros fl db seg cap checks ds ns rs te es h dbg FA PR H U.
  destruct (last_click db seg cap checks ds ns rs te FA PR es BNfaEq h dbg [NfaEq1; NfaEq2] H (ltac:(intros a [<-|[<-|[]]]; reflexivity)) U) as (pgs & pg & E & S & K).
  exists pgs, pg. split; auto. destruct S as (_ & _ & (l1 & l2 & C1 & C2 & EE) & SV & _).
  rewrite (K NfaEq1 (or_introl eq_refl)) in C1, SV. rewrite (K NfaEq2 (or_intror (or_introl eq_refl))) in C2, SV. clear K. destruct (first_texts fl db) as (_ & _ & _ & L1 & L2 & _). split.
  - destruct (SV _ _ L1 L2) as [(N & _)|(_ & T)]; [exfalso; apply page_nfas_differ; exact N|exact T].
  - destruct C1 as [(_ & ->)|(N & _)]; [|exfalso; apply N; eexists; exact L1]. destruct C2 as [(_ & ->)|(N & _)]; [|exfalso; apply N; eexists; exact L2]. exact EE.
Qed.
Print Assumptions C81_nfa_comparison.

(** While the text is not edited, minimizing gives a table of three states, and no complaint *)
Theorem C81_minimize : forall fl (db : doubles fl) seg cap checks dfa_syntax nfa_syntax regex_syntax type_error es h dbg,
  finite_angles db -> proper_radii db -> 2 * length (es ++ [Click BMinimize h dbg]) + 1 < cap -> untouched [MinimizeIn] es ->
  exists pgs pg d,
    page_run db seg cap checks dfa_syntax nfa_syntax regex_syntax type_error (page_init db) (es ++ [Click BMinimize h dbg]) = Ret (pgs ++ [pg]) /\
    pg_text db pg MinimizeBtn = of_string "Minimize!" /\ loads_dfa (value db pg MinimizeOut) d /\
    (forall w, dfa_lang d w <-> dfa_lang page_dfa1 w) /\ length (dfa_states d) = 3.
Proof.
  intros fl db seg cap checks ds ns rs te es h dbg FA PR H U.
  destruct (last_click db seg cap checks ds ns rs te FA PR es BMinimize h dbg [MinimizeIn] H (ltac:(intros a [<-|[]]; reflexivity)) U) as (pgs & pg & E & S & K).
  destruct S as (_ & _ & S). rewrite (K MinimizeIn (or_introl eq_refl)) in S. clear K. destruct (first_texts fl db) as (_ & _ & L & _).
  destruct S as [(d0 & d & L0 & T & V & A & LW & M & _ & LD)|(N & _)]; [|exfalso; apply N; eexists; exact L].
  assert (d0 = page_dfa2) as -> by exact (loads_dfa_unique _ _ _ L0 L). exists pgs, pg, d. split; auto. split; auto. split; auto. split.
  - intros w. rewrite LW. symmetry. apply page_dfas_equal.
  - apply page_dfa2_fewest; auto.
Qed.
Print Assumptions C81_minimize.

(** While the text is not edited, the conversion gives the table of a DFA for the language of the NFA *)
Theorem C81_to_dfa : forall fl (db : doubles fl) seg cap checks dfa_syntax nfa_syntax regex_syntax type_error es h dbg,
  finite_angles db -> proper_radii db -> 2 * length (es ++ [Click BNfaToDfa h dbg]) + 1 < cap -> untouched [NfaToDfaIn] es ->
  exists pgs pg d,
    page_run db seg cap checks dfa_syntax nfa_syntax regex_syntax type_error (page_init db) (es ++ [Click BNfaToDfa h dbg]) = Ret (pgs ++ [pg]) /\
    loads_dfa (value db pg NfaToDfaOut) d /\ forall w, dfa_lang d w <-> nfa_lang page_nfa2 w.
Proof.
  intros fl db seg cap checks ds ns rs te es h dbg FA PR H U.
  destruct (last_click db seg cap checks ds ns rs te FA PR es BNfaToDfa h dbg [NfaToDfaIn] H (ltac:(intros a [<-|[]]; reflexivity)) U) as (pgs & pg & E & S & K).
  destruct S as (_ & _ & S). rewrite (K NfaToDfaIn (or_introl eq_refl)) in S. clear K. destruct (first_texts fl db) as (_ & _ & _ & _ & _ & L & _).
  destruct S as [(n & d & L0 & V & A & LW & _ & LD)|(N & _)]; [|exfalso; apply N; eexists; exact L].
  assert (n = page_nfa2) as -> by exact (loads_nfa_unique _ _ _ L0 L). exists pgs, pg, d. split; auto. split; auto. apply LD. discriminate.
Qed.
Print Assumptions C81_to_dfa.

(** While the expression is not edited, the conversion gives the table of an NFA for: one or more ab, and then c *)
Theorem C81_regex : forall fl (db : doubles fl) seg cap checks dfa_syntax nfa_syntax regex_syntax type_error es h dbg,
  splits_plainly seg ->
  finite_angles db -> proper_radii db -> 2 * length (es ++ [Click BRegex h dbg]) + 1 < cap -> untouched [RegexIn] es ->
  exists pgs pg n,
    page_run db seg cap checks dfa_syntax nfa_syntax regex_syntax type_error (page_init db) (es ++ [Click BRegex h dbg]) = Ret (pgs ++ [pg]) /\
    pg_text db pg RegexBtn = of_string "Convert!" /\ loads_nfa (value db pg RegexOut) n /\ nfa_alphabet n = [la; lb; lc] /\
    forall w, nfa_lang n w <-> ab_plus_c w.
Proof.
  intros fl db seg cap checks ds ns rs te es h dbg G FA PR H U.
  destruct (last_click db seg cap checks ds ns rs te FA PR es BRegex h dbg [RegexIn] H (ltac:(intros a [<-|[]]; reflexivity)) U) as (pgs & pg & E & S & K).
  destruct S as (_ & _ & S). rewrite (K RegexIn (or_introl eq_refl)) in S. clear K.
  assert (P : parse_regex seg (value db (page_init db) RegexIn) = Ret (Some t_plus_c)).
  { rewrite (plain_regex seg _ G) by (apply plainb_plain; vm_compute; reflexivity). vm_compute. reflexivity. }
  destruct S as [(t & n & table & L0 & T & V & LA & LW & ET & _ & HO)|(N & _)]; [|congruence].
  assert (t = t_plus_c) as -> by congruence. exists pgs, pg, n. split; auto. split; auto. split.
  - apply HO. rewrite LA. intros a I. cbn in I. destruct I as [<-|[<-|[<-|[]]]]; apply legal_tokenb_legal; vm_compute; reflexivity.
  - split; [exact LA|]. intros w. rewrite LW. apply t_plus_c_iff.
Qed.
Print Assumptions C81_regex.

(** While the text is not edited, the NFA is drawn *)
Theorem C81_visualize : forall fl (db : doubles fl) seg cap checks dfa_syntax nfa_syntax regex_syntax type_error es h dbg,
  finite_angles db -> proper_radii db -> 2 * length (es ++ [Click BVisualize h dbg]) + 1 < cap -> untouched [VisualizeIn] es ->
  exists pgs pg links levels before after,
    page_run db seg cap checks dfa_syntax nfa_syntax regex_syntax type_error (page_init db) (es ++ [Click BVisualize h dbg]) = Ret (pgs ++ [pg]) /\
    pg_text db pg VisualizeBtn = of_string "Visualize!" /\ layout 6 (nfa_labels page_nfa2) links levels /\
    canvas_of db (last pgs (page_init db)) = Some before /\ canvas_of db pg = Some after /\
    let sh := shapes (options_at fl (f_of_usize fl 0) (f_of_usize fl 0)) (map of_nfa_state (nfa_states page_nfa2)) links levels in
    (Forall (fun cs => drawable db (snd cs)) sh -> cx_marks db after = cx_marks db before ++ map (shape_mark db) sh ++ again db sh).
Proof.
  intros fl db seg cap checks ds ns rs te es h dbg FA PR H U.
  destruct (last_click db seg cap checks ds ns rs te FA PR es BVisualize h dbg [VisualizeIn] H (ltac:(intros a [<-|[]]; reflexivity)) U) as (pgs & pg & E & S & K).
  destruct S as (_ & S). rewrite (K VisualizeIn (or_introl eq_refl)) in S. clear K. destruct (first_texts fl db) as (_ & _ & _ & _ & _ & _ & L).
  destruct S as [(n & links & levels & c1 & c2 & L0 & T & LO & C1 & C2 & M)|(N & _)]; [|exfalso; apply N; eexists; exact L].
  assert (n = page_nfa2) as -> by exact (loads_nfa_unique _ _ _ L0 L). exists pgs, pg, links, levels, c1, c2. repeat (split; [assumption|]). exact M.
Qed.
Print Assumptions C81_visualize.

(** a session in which other texts are edited *)
Example C81_example : finite_angles ex_doubles /\ proper_radii ex_doubles /\ splits_plainly singles1 /\
  untouched [DfaEq1; DfaEq2] [Edit MinimizeIn [120%N]; click BMinimize; Edit NfaEq1 []; click BNfaEq] /\
  pg_text _ (ex_last ([Edit MinimizeIn [120%N]; click BMinimize; Edit NfaEq1 []; click BNfaEq] ++ [click BDfaEq])) DfaEqCheck = of_string "Equivalent".
Proof.
  split; [split; reflexivity|]. split; [split; reflexivity|]. split; [intros s _; reflexivity|]. split; [|computed].
  intros e a He [<-|[<-|[]]]; repeat (destruct He as [<-|He]; [reflexivity|]); destruct He.
Qed.

(** The files that the window of dandy-egui starts with hold the same automata as the page *)
Theorem C57_files : loads_dfa file_example_dfa page_dfa1 /\ loads_dfa file_example2_dfa page_dfa2 /\ loads_nfa file_example2_nfa page_nfa2.
Proof. split; [|split]; [apply load_dfa_ret|apply load_dfa_ret|apply load_nfa_ret]; vm_compute; reflexivity. Qed.
Print Assumptions C57_files.
