(** * Prop_PageHistory: which click an output of the page comes from (C59) *)
From Coq Require Import Ascii String List NArith ZArith Arith Bool Lia.
From Verif Require Import Base BaseLemmas Spec TableSpec LayoutSpec DfaModel NfaModel RegexParserModel Messages ApiModel WasmModel WasmSpec WasmProofs DrawModel DrawSpec CanvasModel CanvasSpec CanvasProofs
  Prop_Draw Prop_Canvas PageModel PageSpec PageProofs PageHistorySpec PageHistoryProofs Prop_Page.
Import ListNotations.
Close Scope string_scope.
Open Scope list_scope.

(** An output shows what the last click that delivered something has shown: the last click for the conversion to a DFA, and the
    last click with a legal text for minimization and the conversion of expressions; without such a click it shows what it showed
    when the page was loaded. *)
Theorem C59_outputs_exact : forall fl (db : doubles fl) seg cap checks dfa_syntax nfa_syntax regex_syntax type_error es b a,
  finite_angles db -> proper_radii db -> 2 * length es + 1 < cap -> output_of b = Some a ->
  exists pgs, page_run db seg cap checks dfa_syntax nfa_syntax regex_syntax type_error (page_init db) es = Ret pgs /\
    let at_ := before db (page_init db) pgs in
    ((forall k, clicked b es k -> ~ delivers db seg b (at_ k)) -> value db (at_ (length es)) a = value db (page_init db) a) /\
    (forall k, clicked b es k -> delivers db seg b (at_ k) -> (forall j, k < j -> clicked b es j -> ~ delivers db seg b (at_ j)) ->
       click_shows db seg dfa_syntax nfa_syntax regex_syntax b (at_ k) (at_ (S k)) /\
       value db (at_ (length es)) a = value db (at_ (S k)) a).
Proof.
  intros fl db seg cap checks ds ns rs te es b a FA PR H O.
  destruct (C58_sessions fl db seg cap checks ds ns rs te es FA PR H) as (pgs & E & S1). exists pgs. split; [exact E|].
  exact (history db seg ds ns rs b a O es (page_init db) pgs S1).
Qed.
Print Assumptions C59_outputs_exact.

(** The canvas shows the pictures of all texts that were legal when the button was clicked, one over the other *)
Theorem C59_canvas_exact : forall fl (db : doubles fl) seg cap checks dfa_syntax nfa_syntax regex_syntax type_error es,
  finite_angles db -> proper_radii db -> all_drawable db -> 2 * length es + 1 < cap ->
  exists pgs l ctx, page_run db seg cap checks dfa_syntax nfa_syntax regex_syntax type_error (page_init db) es = Ret pgs /\
    pictures db seg (page_init db) es pgs l /\ canvas_of db (last pgs (page_init db)) = Some ctx /\ cx_marks db ctx = concat l.
Proof.
  intros fl db seg cap checks ds ns rs te es FA PR AD H.
  destruct (C58_sessions fl db seg cap checks ds ns rs te es FA PR H) as (pgs & E & S1).
  destruct (canvas_history db seg ds ns rs AD es (page_init db) pgs (new_context db) S1 eq_refl) as (l & ctx & P & C & M).
  exists pgs, l, ctx. split; [exact E|]. split; [exact P|]. split; [exact C|exact M].
Qed.
Print Assumptions C59_canvas_exact.

Example C59_exact_example : finite_angles ex_doubles /\ proper_radii ex_doubles /\ all_drawable ex_doubles /\
  output_of BMinimize = Some MinimizeOut /\ clicked BMinimize [click BMinimize; Edit MinimizeIn [120%N]; click BMinimize] 0 /\
  delivers ex_doubles singles1 BMinimize (page_init ex_doubles) /\
  ~ delivers ex_doubles singles1 BMinimize (ex_last [click BMinimize; Edit MinimizeIn [120%N]]) /\
  ~ clicked BRegex [click BMinimize; Edit MinimizeIn [120%N]; click BMinimize] 0.
Proof.
  split; [split; reflexivity|]. split; [split; reflexivity|]. split.
  { intros sts links levels. unfold shapes. apply Forall_app. split; [repeat constructor|]. apply Forall_app. split.
    - apply Forall_concat, Forall_map, Forall_forall. intros [i s] _. unfold state_shapes. destruct (st_accepting s), (st_initial s); repeat constructor.
    - rewrite flat_map_concat_map. apply Forall_concat, Forall_map, Forall_forall. intros l _. repeat constructor. }
  split; [reflexivity|]. split; [exists (click BMinimize); split; reflexivity|]. split; [|split].
  - assert (E : load_dfa (value _ (page_init ex_doubles) MinimizeIn) =
              Ret (Some (match load_dfa (value _ (page_init ex_doubles) MinimizeIn) with Ret (Some d) => d | _ => ex_one end)))
      by (apply loads_default; computed).
    eexists. exact (proj2 (load_dfa_ret _ _ E)).
  - cbn [delivers]. replace (value _ (ex_last _) MinimizeIn) with [120%N] by (symmetry; computed).
    destruct (load_dfa_cases [120%N]) as [(d & F & _)|(_ & N)]; [discriminate (eq_trans (eq_sym F) (eq_refl : load_dfa [120%N] = Ret None))|exact N].
  - intros (e & E & C). injection E as <-. discriminate C.
Qed.
