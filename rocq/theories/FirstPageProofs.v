(** * The page as loaded: proofs *)
From Coq Require Import Ascii String List NArith Arith Bool Lia.
From Verif Require Import Base BaseLemmas Spec TableSpec LayoutSpec DfaModel NfaModel RegexModel TableModel RegexParserModel Messages Examples DocSpec DocProofs
  ApiModel WasmModel WasmSpec WasmProofs DrawModel DrawSpec CanvasModel CanvasSpec CanvasProofs PageModel PageSpec PageProofs
  Prop_Dfa Prop_Nfa Prop_Page FirstPageSpec.
Import ListNotations.
Close Scope string_scope.
Open Scope list_scope.

Lemma first_texts fl (db : doubles fl) : let u a := value db (page_init db) a in
  loads_dfa (u DfaEq1) page_dfa1 /\ loads_dfa (u DfaEq2) page_dfa2 /\ loads_dfa (u MinimizeIn) page_dfa2 /\
  loads_nfa (u NfaEq1) page_nfa1 /\ loads_nfa (u NfaEq2) page_nfa2 /\ loads_nfa (u NfaToDfaIn) page_nfa2 /\ loads_nfa (u VisualizeIn) page_nfa2.
Proof. cbv zeta. repeat split; first [apply load_dfa_ret|apply load_nfa_ret]; vm_compute; reflexivity. Qed.

Section Session.
Context {fl : floats} (db : doubles fl) (seg : str -> list str) (cap : nat) (checks : bool) (ds ns rs : str -> str) (te : str).
Hypothesis FA : finite_angles db.
Hypothesis PR : proper_radii db.

Lemma last_click es b h dbg areas : 2 * length (es ++ [Click b h dbg]) + 1 < cap -> (forall a, In a areas -> editable a = true) -> untouched areas es ->
  exists pgs pg, page_run db seg cap checks ds ns rs te (page_init db) (es ++ [Click b h dbg]) = Ret (pgs ++ [pg]) /\
    click_shows db seg ds ns rs b (last pgs (page_init db)) pg /\
    forall a, In a areas -> value db (last pgs (page_init db)) a = value db (page_init db) a.
Proof.
  intros H HE HU. destruct (C58_sessions fl db seg cap checks ds ns rs te _ FA PR H) as (pgs & E & S1).
  apply session_app in S1 as (pgs1 & pgs2 & -> & _ & S1 & S2). destruct pgs2 as [|pg [|x pgs2]]; [destruct S2| |destruct S2 as (_ & [])].
  exists pgs1, pg. split; auto. split; [apply S2|]. intros a Ha.
  apply (session_keeps db seg ds ns rs (edits a) a) with (es := es); auto.
  - intros. eapply event_keeps_input; eauto.
  - apply forallb_forall. intros e He. rewrite (HU e a He Ha). reflexivity.
Qed.
End Session.

Lemma page_dfas_equal : same_set (dfa_alphabet page_dfa1) (dfa_alphabet page_dfa2) /\ forall w, dfa_lang page_dfa1 w <-> dfa_lang page_dfa2 w.
Proof.
  destruct (C12_dfa_equivalent_to page_dfa1 page_dfa2) as (b & E & H); try (apply dfa_validb_valid; vm_compute; reflexivity).
  apply H. vm_compute in E. injection E as <-. reflexivity.
Qed.
Lemma page_nfas_differ : ~ (same_set (nfa_alphabet page_nfa1) (nfa_alphabet page_nfa2) /\ forall w, nfa_lang page_nfa1 w <-> nfa_lang page_nfa2 w).
Proof.
  intros (H & _). pose proof (proj1 (H [99%N]) (or_intror (or_intror (or_introl eq_refl)))) as F. cbn in F. intuition discriminate.
Qed.
Lemma page_dfa2_fewest d' : dfa_valid d' -> dfa_alphabet d' = dfa_alphabet page_dfa2 -> (forall w, dfa_lang d' w <-> dfa_lang page_dfa2 w) ->
  (forall e, dfa_valid e -> same_set (dfa_alphabet e) (dfa_alphabet page_dfa2) -> (forall w, dfa_lang e w <-> dfa_lang page_dfa2 w) ->
     length (dfa_states d') <= length (dfa_states e)) -> length (dfa_states d') = 3.
Proof.
  intros V A L M. assert (V2 : dfa_valid page_dfa2) by (apply dfa_validb_valid; vm_compute; reflexivity).
  destruct (C21_minimize id_order false page_dfa2 V2) as (e & E & VE & AE & LE & _ & ME).
  assert (length (dfa_states e) = 3) as E3 by (vm_compute in E; injection E as <-; reflexivity).
  assert (length (dfa_states d') <= length (dfa_states e)) by (apply M; auto; rewrite AE; intros x; tauto).
  assert (length (dfa_states e) <= length (dfa_states d')) by (apply ME; auto; rewrite A; intros x; tauto). lia.
Qed.
