(** * Validation of parsed tables: C06, C07, C08 *)
From Coq Require Import List NArith Arith Bool Lia.
From Verif Require Import Base Spec TableSpec DefectSpec ValidateModel ValidateProofs DefectProofs Messages MessageSpec Examples.
Import ListNotations.

(** ** C06: conversion of a parsed DFA succeeds exactly on well-formed tables *)
Theorem C06_dfa_accepted_iff_well_formed : forall p, (exists d, dfa_try_from p = Ok d) <-> dfa_well_formed p.
Proof.
  intros p. split.
  - intros (d & E). apply (dfa_try_from_ok _ _ E).
  - apply dfa_try_from_complete.
Qed.
Print Assumptions C06_dfa_accepted_iff_well_formed.

(** and gives exactly the DFA the table denotes, which is valid and the only one *)
Theorem C06_dfa_faithful : forall p d, dfa_well_formed p -> (dfa_try_from p = Ok d <-> dfa_denotes p d).
Proof.
  intros p d W. split.
  - intros E. apply (dfa_try_from_ok _ _ E).
  - intros D. destruct (dfa_try_from_complete p W) as (d' & E). rewrite E. f_equal.
    apply (dfa_denotes_unique p); auto. apply (dfa_try_from_ok _ _ E).
Qed.
Print Assumptions C06_dfa_faithful.

Theorem C06_dfa_valid : forall p d, dfa_try_from p = Ok d -> dfa_valid d.
Proof. intros p d E. apply (dfa_try_from_ok _ _ E). Qed.
Print Assumptions C06_dfa_valid.

(** ** C07: the same for NFAs *)
Theorem C07_nfa_accepted_iff_well_formed : forall p, (exists n, nfa_try_from p = Ok n) <-> nfa_well_formed p.
Proof.
  intros p. split.
  - intros (n & E). apply (nfa_try_from_ok _ _ E).
  - apply nfa_try_from_complete.
Qed.
Print Assumptions C07_nfa_accepted_iff_well_formed.

Theorem C07_nfa_faithful : forall p n, nfa_well_formed p -> (nfa_try_from p = Ok n <-> nfa_denotes p n).
Proof.
  intros p d W. split.
  - intros E. apply (nfa_try_from_ok _ _ E).
  - intros D. destruct (nfa_try_from_complete p W) as (d' & E). rewrite E. f_equal.
    apply (nfa_denotes_unique p); auto. apply (nfa_try_from_ok _ _ E).
Qed.
Print Assumptions C07_nfa_faithful.

Theorem C07_nfa_valid : forall p n, nfa_try_from p = Ok n -> nfa_valid n.
Proof. intros p d E. apply (nfa_try_from_ok _ _ E). Qed.
Print Assumptions C07_nfa_valid.

(** ** C08: a reported error is a defect of the table *)
Theorem C08_dfa_error_is_real : forall p e, dfa_try_from p = Err e -> dfa_defect p e.
Proof. exact dfa_try_from_err. Qed.
Print Assumptions C08_dfa_error_is_real.

Theorem C08_nfa_error_is_real : forall p e, nfa_try_from p = Err e -> nfa_defect p e.
Proof. exact nfa_try_from_err. Qed.
Print Assumptions C08_nfa_error_is_real.

(** every table with a defect is rejected (with some error) *)
Theorem C08_dfa_defect_rejected : forall p e, dfa_defect p e -> exists e', dfa_try_from p = Err e'.
Proof.
  intros p e D. destruct (dfa_try_from p) as [d|e'] eqn:E; [|eauto]. exfalso.
  apply (dfa_well_formed_no_defect p e); auto. apply (dfa_try_from_ok _ _ E).
Qed.
Print Assumptions C08_dfa_defect_rejected.

Theorem C08_nfa_defect_rejected : forall p e, nfa_defect p e -> exists e', nfa_try_from p = Err e'.
Proof.
  intros p e D. destruct (nfa_try_from p) as [d|e'] eqn:E; [|eauto]. exfalso.
  apply (nfa_well_formed_no_defect p e); auto. apply (nfa_try_from_ok _ _ E).
Qed.
Print Assumptions C08_nfa_defect_rejected.

(** the error reported is the first defect, in the order of the header, the names, the rows from top to bottom and each row
    from left to right *)
Theorem C08_dfa_first_error : forall p e, dfa_try_from p = Err e <-> first_defect (fun a => a) (pd_head p) (map dfa_row (pd_states p)) e.
Proof. exact dfa_first_error. Qed.
Print Assumptions C08_dfa_first_error.

Theorem C08_nfa_first_error : forall p e, nfa_try_from p = Err e <-> first_defect entry_text (pn_head p) (map nfa_row (pn_states p)) e.
Proof. exact nfa_first_error. Qed.
Print Assumptions C08_nfa_first_error.

(** the message of every error names it, with the right names and numbers *)
Theorem C08_messages : forall e, describes e (error_text e).
Proof. exact error_text_describes. Qed.
Print Assumptions C08_messages.

(** ** Non-vacuity *)
Definition nm (c : N) : str := [c].
(** two states x and y over a, b; y is initial *)
Definition ex_parsed : parsed_dfa :=
  {| pd_head := [el_a; el_b];
     pd_states := [ {| pds_name := nm 120; pds_initial := false; pds_accepting := true; pds_transitions := [nm 121; nm 120] |};
                    {| pds_name := nm 121; pds_initial := true; pds_accepting := false; pds_transitions := [nm 120; nm 120] |} ] |}.
Example C06_example :
  dfa_well_formed ex_parsed /\
  dfa_try_from ex_parsed = Ok {| dfa_alphabet := [el_a; el_b];
     dfa_states := [ {| ds_name := nm 120; ds_initial := false; ds_accepting := true; ds_transitions := [1; 0] |};
                     {| ds_name := nm 121; ds_initial := true; ds_accepting := false; ds_transitions := [0; 0] |} ];
     dfa_initial := 1 |}.
Proof.
  assert (E : dfa_try_from ex_parsed = Ok {| dfa_alphabet := [el_a; el_b];
     dfa_states := [ {| ds_name := nm 120; ds_initial := false; ds_accepting := true; ds_transitions := [1; 0] |};
                     {| ds_name := nm 121; ds_initial := true; ds_accepting := false; ds_transitions := [0; 0] |} ];
     dfa_initial := 1 |}) by (vm_compute; reflexivity).
  split; auto. apply C06_dfa_accepted_iff_well_formed. eauto.
Qed.

(** the epsilon column in the middle *)
Definition ex_parsed_nfa : parsed_nfa :=
  {| pn_head := [Element el_a; Eps; Element el_b];
     pn_states := [ {| pns_name := nm 120; pns_initial := false; pns_accepting := true;
                       pns_transitions := [[nm 121; nm 120]; [nm 121]; []] |};
                    {| pns_name := nm 121; pns_initial := true; pns_accepting := false;
                       pns_transitions := [[]; []; [nm 120; nm 120]] |} ] |}.
Example C07_example :
  nfa_well_formed ex_parsed_nfa /\
  nfa_try_from ex_parsed_nfa = Ok {| nfa_alphabet := [el_a; el_b];
     nfa_states := [ {| ns_name := nm 120; ns_initial := false; ns_accepting := true; ns_eps := [1]; ns_transitions := [[1; 0]; []] |};
                     {| ns_name := nm 121; ns_initial := true; ns_accepting := false; ns_eps := []; ns_transitions := [[]; [0; 0]] |} ];
     nfa_initial := 1 |}.
Proof.
  assert (E : nfa_try_from ex_parsed_nfa = Ok {| nfa_alphabet := [el_a; el_b];
     nfa_states := [ {| ns_name := nm 120; ns_initial := false; ns_accepting := true; ns_eps := [1]; ns_transitions := [[1; 0]; []] |};
                     {| ns_name := nm 121; ns_initial := true; ns_accepting := false; ns_eps := []; ns_transitions := [[]; [0; 0]] |} ];
     nfa_initial := 1 |}) by (vm_compute; reflexivity).
  split; auto. apply C07_nfa_accepted_iff_well_formed. eauto.
Qed.

(** all six errors occur, for DFAs and for NFAs *)
Definition row (n : N) (i : bool) (ts : list N) : parsed_dfa_state :=
  {| pds_name := nm n; pds_initial := i; pds_accepting := false; pds_transitions := map nm ts |}.
Example C08_example :
  dfa_try_from {| pd_head := [el_a; el_b; el_a]; pd_states := [] |} = Err (DuplicateAlphabetSymbol el_a) /\
  dfa_try_from {| pd_head := [el_a]; pd_states := [row 120 true [120%N]; row 120 false [120%N]] |}
    = Err (DuplicateStateDefinition (nm 120)) /\
  dfa_try_from {| pd_head := [el_a]; pd_states := [row 120 true [120%N]; row 121 false []] |}
    = Err (WrongNumberOfTransitions (nm 121) 0 1) /\
  dfa_try_from {| pd_head := [el_a]; pd_states := [row 120 true [122%N]; row 121 false [120%N]] |}
    = Err (TransitionDoesNotExist (nm 120) (nm 122)) /\
  dfa_try_from {| pd_head := [el_a]; pd_states := [row 120 true [120%N]; row 121 true [120%N]] |}
    = Err MultipleInitialStates /\
  dfa_try_from {| pd_head := [el_a]; pd_states := [row 120 false [120%N]; row 121 false [120%N]] |}
    = Err MissingInitialState /\
  nfa_try_from {| pn_head := [Element el_a; Eps; Eps]; pn_states := [] |} = Err (DuplicateAlphabetSymbol epsilon_str).
Proof. repeat split; vm_compute; reflexivity. Qed.

(** a table with several defects: two initial rows, an unknown state in the second row and a third row that is too short; the
    unknown state is reported although the second mark precedes it in the row *)
Definition ex_defects : parsed_dfa :=
  {| pd_head := [el_a; el_b];
     pd_states := [row 120 true [120%N; 121%N]; row 121 true [120%N; 122%N]; row 123 false [120%N]] |}.
Example C08_first_example :
  first_defect (fun a => a) (pd_head ex_defects) (map dfa_row (pd_states ex_defects)) (TransitionDoesNotExist (nm 121) (nm 122)) /\
  dfa_defect ex_defects MultipleInitialStates /\ dfa_defect ex_defects (WrongNumberOfTransitions (nm 123) 1 2).
Proof.
  split; [apply C08_dfa_first_error; vm_compute; reflexivity|]. split; cbn.
  - exists 0, 1, (row 120 true [120%N; 121%N]), (row 121 true [120%N; 122%N]). repeat split. discriminate.
  - exists (row 123 false [120%N]). repeat split; [auto|discriminate].
Qed.
