(** * FnMutModel: the product constructions with a combinator that has a memory

    dandy/src/dfa/mod.rs:452-552 and dandy/src/nfa/mod.rs:475-676 take an [impl FnMut(..) -> bool], so the combinator may
    remember its earlier calls, and it may panic.  [DfaModel] and [NfaModel] model the constructions for combinators that are
    functions of the two states; here the memory [M] of the closure is passed from call to call. *)
From Coq Require Import List NArith Arith Bool.
From Verif Require Import Base Spec Search DfaModel NfaModel.
Import ListNotations.

Section SearchMut.
  Context {T K D M : Type} `{Eqb K}.
  Variable key : T -> K.
  Variable visit : T -> M -> R (D * list T * M).

  (** the loop of [Search], with the memory of the closure; it never returns early
      (dandy/src/dfa/mod.rs:473-492, dandy/src/nfa/mod.rs:509-601) *)
  Definition search_mut_step (st : list T * list K * list D * M) : R ((list T * list K * list D * M) + (list K * list D * M)) :=
    let '(stack, seen, out, m) := st in
    match pop stack with
    | None => Ret (inr (seen, out, m))
    | Some (rest, t) =>
        '(d, succs, m') <- visit t m ;;
        let '(stack', seen') := fold_left (push_new key) succs (rest, seen) in
        Ret (inl (stack', seen', out ++ [d], m'))
    end.
  Definition search_mut (k : nat) (t0 : T) (m : M) : R (list K * list D * M) :=
    while k search_mut_step ([t0], [key t0], [], m).
End SearchMut.

(** dandy/src/dfa/mod.rs:494-551: naming and numbering the collected pairs *)
Definition dfa_product_finish (h : hash_order) (d1 d2 : dfa) (explored : list (nat * nat))
           (state_data : list (nat * nat * bool * list (nat * nat))) : R dfa :=
  let q12 := (dfa_initial d1, dfa_initial d2) in
  let order := ho h [18] explored in
  named <- product_names (fun '(s1, s2) =>
                            a <- index (dfa_states d1) s1 ;; b <- index (dfa_states d2) s2 ;;
                            Ret (pair_name (ds_name a) (ds_name b))) [] order ;;
  let potential_names := hm_collect named in
  let names :=
    if length potential_names <? length state_data
    then hm_collect (map (fun '(idx, p) => (p, dec idx)) (enumerate order))
    else potential_names in
  let rev_state_idx_map := hm_collect (map (fun '(idx, (p, _, _)) => (p, idx)) (enumerate state_data)) in
  initial <- unwrap (hm_get q12 rev_state_idx_map) ;;
  states <- mapR (fun '(p, accepting, transitions) =>
                    name <- unwrap (hm_get p names) ;;
                    ts <- mapR (fun p' => unwrap (hm_get p' rev_state_idx_map)) transitions ;;
                    Ret {| ds_name := name; ds_initial := eqb p q12; ds_accepting := accepting;
                           ds_transitions := ts |}) state_data ;;
  Ret {| dfa_alphabet := dfa_alphabet d1; dfa_states := states; dfa_initial := initial |}.

(** dandy/src/dfa/mod.rs:452-552 [Dfa::product_construction]: the result and the memory of the combinator afterwards *)
Definition dfa_product_construction_mut {M} (h : hash_order) (d1 d2 : dfa)
           (combinator : M -> dfa_state * dfa_state -> R (bool * M)) (m : M) : R (option dfa * M) :=
  if negb (alphabet_equal (dfa_alphabet d1) (dfa_alphabet d2)) then Ret (None, m)
  else
    let visit p m :=
      succs <- de_pair_succs (dfa_alphabet d1) p ;;
      o1 <- de_current_state (fst p) ;; s1 <- unwrap o1 ;;
      o2 <- de_current_state (snd p) ;; s2 <- unwrap o2 ;;
      '(b, m') <- combinator m (s1, s2) ;;
      Ret ((de_pair_key p, b, map de_pair_key succs), succs, m') in
    '(explored, state_data, m') <- search_mut de_pair_key visit (S (length (dfa_states d1) * length (dfa_states d2)))
                                              (dfa_evaluator d1, dfa_evaluator d2) m ;;
    d <- dfa_product_finish h d1 d2 explored state_data ;;
    Ret (Some d, m').

(** dandy/src/nfa/mod.rs:603-675: naming and numbering the collected pairs *)
Definition nfa_product_finish (h : hash_order) (n1 n2 : nfa) (explored : list (option nat * option nat))
           (state_data : list (option nat * option nat * bool * list (list (option nat * option nat)) * list (option nat * option nat)))
  : R nfa :=
  let q12 := (Some (nfa_initial n1), Some (nfa_initial n2)) in
  let order := ho h [41] explored in
  named <- product_names (fun '(s1, s2) =>
                            a <- opt_name (nfa_states n1) s1 ;; b <- opt_name (nfa_states n2) s2 ;;
                            Ret (pair_name a b)) [] order ;;
  let potential_names := hm_collect named in
  let names :=
    if length potential_names <? length state_data
    then hm_collect (map (fun '(idx, p) => (p, dec idx)) (enumerate order))
    else potential_names in
  let rev_state_idx_map := hm_collect (map (fun '(idx, (p, _, _, _)) => (p, idx)) (enumerate state_data)) in
  initial <- unwrap (hm_get q12 rev_state_idx_map) ;;
  states <- mapR (fun '(p, accepting, transitions, eps) =>
                    name <- unwrap (hm_get p names) ;;
                    ts <- mapR (mapR (fun p' => unwrap (hm_get p' rev_state_idx_map))) transitions ;;
                    es <- mapR (fun p' => unwrap (hm_get p' rev_state_idx_map)) eps ;;
                    Ret {| ns_name := name; ns_initial := eqb p q12; ns_accepting := accepting;
                           ns_eps := es; ns_transitions := ts |}) state_data ;;
  Ret {| nfa_alphabet := nfa_alphabet n1; nfa_states := states; nfa_initial := initial |}.

(** dandy/src/nfa/mod.rs:475-676 [Nfa::product_construction]: the result and the memory of the combinator afterwards *)
Definition nfa_product_construction_mut {M} (h : hash_order) (n1 n2 : nfa)
           (combinator : M -> option nfa_state * option nfa_state -> R (bool * M)) (m : M) : R (option nfa * M) :=
  if negb (alphabet_equal (nfa_alphabet n1) (nfa_alphabet n2)) then Ret (None, m)
  else
    tr <- alphabet_translation (nfa_alphabet n1) (nfa_alphabet n2) ;;
    let visit (p : option nat * option nat) m :=
      let '(s1, s2) := p in
      transition_list <-
        mapR (fun elem =>
                other_elem <- index tr elem ;;
                on1 <- opt_targets (nfa_states n1) s1 elem ;;
                on2 <- opt_targets (nfa_states n2) s2 other_elem ;;
                Ret (elem_pairs on1 on2)) (seq 0 (length (nfa_alphabet n1))) ;;
      eps1 <- opt_eps (nfa_states n1) s1 ;;
      eps2 <- opt_eps (nfa_states n2) s2 ;;
      let eps := map (fun e1 => (Some e1, s2)) eps1 ++ map (fun e2 => (s1, Some e2)) eps2 in
      st1 <- opt_state (nfa_states n1) s1 ;;
      st2 <- opt_state (nfa_states n2) s2 ;;
      '(b, m') <- combinator m (st1, st2) ;;
      Ret ((p, b, transition_list, eps), concat transition_list ++ eps, m') in
    '(explored, state_data, m') <- search_mut (fun p => p) visit (S (S (length (nfa_states n1)) * S (length (nfa_states n2))))
                                              (Some (nfa_initial n1), Some (nfa_initial n2)) m ;;
    n <- nfa_product_finish h n1 n2 explored state_data ;;
    Ret (Some n, m').
