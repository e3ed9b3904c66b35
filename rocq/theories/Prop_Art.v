(** * Properties of reading ASCII art *)
From Coq Require Import Ascii String List NArith Arith Bool Lia.
From Verif Require Import Base Spec DfaModel NfaModel Examples NfaBasics TableModel Messages DrawModel DrawSpec PictureFinal ArtSpec ArtProofs Prop_Draw.
Import ListNotations.
Close Scope string_scope.
Open Scope list_scope.

(** ** C83: what can be read off from ASCII art *)

(** the states, their order and whether they are accepting, all transitions between different states, and which states have loops;
    with the alphabet, the loops too *)
Theorem C83_dfa : forall h1 h2 d1 d2 art, dfa_plain d1 -> dfa_plain d2 -> dfa_ascii_art h1 d1 = Ret art -> dfa_ascii_art h2 d2 = Ret art ->
  map (fun s => (ds_name s, ds_accepting s)) (dfa_states d1) = map (fun s => (ds_name s, ds_accepting s)) (dfa_states d2) /\
  (forall p a t, p <> t -> (dfa_edge d1 p a t <-> dfa_edge d2 p a t)) /\
  (forall p, (exists a, dfa_edge d1 p a p) <-> (exists a, dfa_edge d2 p a p)) /\
  (same_set (dfa_alphabet d1) (dfa_alphabet d2) ->
     (forall p a t, dfa_edge d1 p a t <-> dfa_edge d2 p a t) /\ (forall p u, dfa_state_lang d1 p u <-> dfa_state_lang d2 p u)).
Proof.
  intros h1 h2 d1 d2 art P1 P2 E1 E2. rewrite <- E2 in E1. destruct (dfa_plain_seen _ _ _ _ P1 P2 E1) as (A & _). destruct (dfa_edges_seen _ _ _ _ P1 P2 E1) as (B & C).
  split; [exact A|]. split; [exact B|]. split; [exact C|]. intros SA. pose proof (dfa_all_seen _ _ _ _ P1 P2 SA E1) as D. split; [exact D|].
  intros p u. apply dfa_view_lang; auto.
Qed.
Print Assumptions C83_dfa.

(** the same, except that loops cannot be told apart *)
Theorem C83_nfa : forall h1 h2 n1 n2 art, nfa_plain n1 -> nfa_plain n2 -> nfa_ascii_art h1 n1 = Ret art -> nfa_ascii_art h2 n2 = Ret art ->
  map (fun s => (ns_name s, ns_accepting s)) (nfa_states n1) = map (fun s => (ns_name s, ns_accepting s)) (nfa_states n2) /\
  (forall p a t, p <> t -> (nfa_edge n1 p a t <-> nfa_edge n2 p a t)) /\
  (forall p t, p <> t -> (nfa_eps_edge n1 p t <-> nfa_eps_edge n2 p t)) /\
  (forall p, (nfa_eps_edge n1 p p \/ exists a, nfa_edge n1 p a p) <-> (nfa_eps_edge n2 p p \/ exists a, nfa_edge n2 p a p)).
Proof.
  intros h1 h2 n1 n2 art P1 P2 E1 E2. rewrite <- E2 in E1. destruct (nfa_plain_seen _ _ _ _ P1 P2 E1) as (A & _). destruct (nfa_edges_seen _ _ _ _ P1 P2 E1) as (B & C & D).
  auto.
Qed.
Print Assumptions C83_nfa.

(** the initial state is not shown: automata that agree in all else have the same art *)
Theorem C83_initial_unseen : forall h,
  (forall d1 d2, dfa_alphabet d1 = dfa_alphabet d2 -> map dfa_shown (dfa_states d1) = map dfa_shown (dfa_states d2) ->
     dfa_ascii_art h d1 = dfa_ascii_art h d2) /\
  (forall n1 n2, nfa_alphabet n1 = nfa_alphabet n2 -> map nfa_shown (nfa_states n1) = map nfa_shown (nfa_states n2) ->
     nfa_ascii_art h n1 = nfa_ascii_art h n2).
Proof. intros h. split; [apply dfa_art_shown|apply nfa_art_shown]. Qed.
Print Assumptions C83_initial_unseen.

(** DFAs over one alphabet have the same art exactly if they differ at most in the initial state *)
Theorem C83_dfa_exact : forall d1 d2, dfa_plain d1 -> dfa_plain d2 -> dfa_alphabet d1 = dfa_alphabet d2 ->
  ((exists h1 h2 art, dfa_ascii_art h1 d1 = Ret art /\ dfa_ascii_art h2 d2 = Ret art) <->
   map dfa_shown (dfa_states d1) = map dfa_shown (dfa_states d2)).
Proof.
  intros d1 d2 P1 P2 EA. split.
  - intros (h1 & h2 & art & E1 & E2). rewrite <- E2 in E1. exact (dfa_shown_seen h1 h2 d1 d2 P1 P2 EA E1).
  - intros ES. destruct (dp_fit _ P1) as (w & W & F). destruct (C46_dfa_partial id_order d1 w (dp_valid _ P1) W F) as (links & levels & _ & E).
    exists id_order, id_order. eexists. split; [exact E|]. rewrite <- E. symmetry. apply C83_initial_unseen; auto.
Qed.
Print Assumptions C83_dfa_exact.

(** two automata of the examples: [ex_pair] marks another state as initial *)
Lemma ex_pair_plain i : i < 2 -> dfa_plain (ex_pair i).
Proof.
  intros Hi. constructor.
  - destruct i as [|[|i]]; [| |lia]; apply dfa_validb_valid; vm_compute; reflexivity.
  - intros s [<-|[<-|[]]]; split; try discriminate; cbn; intuition discriminate.
  - intros a [<-|[]]. split; [discriminate|]. cbn. intuition discriminate.
  - exists 1. split.
    + split; [intros s [<-|[<-|[]]]; cbn; lia|exists [48%N]; split; [left|]; reflexivity].
    + intros p q Hp Hq Hpq. cbn in Hp, Hq. destruct p as [|[|p]], q as [|[|q]]; try lia; vm_compute; lia.
Qed.
Example C83_example : dfa_plain (ex_pair 0) /\ dfa_plain (ex_pair 1) /\ ex_pair 0 <> ex_pair 1 /\
  map dfa_shown (dfa_states (ex_pair 0)) = map dfa_shown (dfa_states (ex_pair 1)) /\
  dfa_ascii_art id_order (ex_pair 0) = dfa_ascii_art id_order (ex_pair 1).
Proof.
  split; [apply ex_pair_plain; lia|]. split; [apply ex_pair_plain; lia|]. split; [discriminate|]. split; [reflexivity|].
  apply C83_initial_unseen; reflexivity.
Qed.

(** names with spaces cannot be read off *)
Definition ex_spaces (name : str) : dfa :=
  {| dfa_alphabet := [el_a];
     dfa_states := [ mk_dfa_state name true false [1]; mk_dfa_state [49%N; 50%N] false true [0] ];
     dfa_initial := 0 |}.
Theorem C83_spaces_refuted : exists h d1 d2 art, dfa_valid d1 /\ dfa_valid d2 /\ dfa_ascii_art h d1 = Ret art /\ dfa_ascii_art h d2 = Ret art /\
  map ds_name (dfa_states d1) <> map ds_name (dfa_states d2).
Proof.
  exists id_order, (ex_spaces [48%N]), (ex_spaces [48%N; 32%N]). eexists. split; [apply dfa_validb_valid; vm_compute; reflexivity|].
  split; [apply dfa_validb_valid; vm_compute; reflexivity|]. split; [vm_compute; reflexivity|]. split; [vm_compute; reflexivity|]. discriminate.
Qed.
Print Assumptions C83_spaces_refuted.
