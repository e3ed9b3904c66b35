(** * DfaModel: dandy/src/dfa/mod.rs, dandy/src/dfa/eval.rs and dandy/src/util.rs *)
From Coq Require Import List NArith Arith Bool.
From Verif Require Import Base Spec Search.
Import ListNotations.

(** dandy/src/util.rs:5-13 [alphabet_equal] *)
Definition alphabet_equal (a b : list str) : bool :=
  if negb (length a =? length b) then false
  else hs_eqb (hs_collect a) (hs_collect b).

(** ** Evaluator *)

(** dandy/src/dfa/eval.rs:6-11 [struct DfaEvaluator] *)
Record dfa_eval : Type := mk_dfa_eval {
  de_dfa : dfa;
  de_rev_map : list (str * nat);
  de_current : nat;
  de_unknown : bool
}.

(** dandy/src/dfa/eval.rs:69-84 [From<&Dfa> for DfaEvaluator], dandy/src/dfa/mod.rs:852-854 [Dfa::evaluator] *)
Definition dfa_evaluator (d : dfa) : dfa_eval :=
  {| de_dfa := d;
     de_rev_map := hm_collect (map (fun p => (snd p, fst p)) (enumerate (dfa_alphabet d)));
     de_current := dfa_initial d;
     de_unknown := false |}.

(** dandy/src/dfa/eval.rs:18-24 [current_state] *)
Definition de_current_state (e : dfa_eval) : R (option dfa_state) :=
  if de_unknown e then Ret None
  else s <- index (dfa_states (de_dfa e)) (de_current e) ;; Ret (Some s).

(** dandy/src/dfa/eval.rs:14-16 [is_accepting] *)
Definition de_is_accepting (e : dfa_eval) : R bool :=
  o <- de_current_state e ;;
  Ret (match o with Some s => ds_accepting s | None => false end).

(** dandy/src/dfa/eval.rs:26-29 [current_state_idx] *)
Definition de_current_state_idx (e : dfa_eval) : nat := de_current e.

(** dandy/src/dfa/eval.rs:41-56 [step]: the evaluator afterwards and the returned state *)
Definition de_step (e : dfa_eval) (elem : str) : R (dfa_eval * option dfa_state) :=
  if de_unknown e then Ret (e, None)
  else match hm_get elem (de_rev_map e) with
       | None => Ret (mk_dfa_eval (de_dfa e) (de_rev_map e) (de_current e) true, None)
       | Some idx =>
           s <- index (dfa_states (de_dfa e)) (de_current e) ;;
           t <- index (ds_transitions s) idx ;;
           s' <- index (dfa_states (de_dfa e)) t ;;
           Ret (mk_dfa_eval (de_dfa e) (de_rev_map e) t false, Some s')
       end.

(** the [try_for_each] of dandy/src/dfa/eval.rs:59: stops at the first step returning [None] *)
Fixpoint de_steps (e : dfa_eval) (elems : list str) : R (dfa_eval * bool) :=
  match elems with
  | [] => Ret (e, true)
  | x :: xs =>
      '(e', o) <- de_step e x ;;
      match o with
      | None => Ret (e', false)
      | Some _ => de_steps e' xs
      end
  end.

(** dandy/src/dfa/eval.rs:58-66 [step_multiple] *)
Definition de_step_multiple (e : dfa_eval) (elems : list str) : R (dfa_eval * option dfa_state) :=
  '(e', ok) <- de_steps e elems ;;
  if ok then s <- index (dfa_states (de_dfa e')) (de_current e') ;; Ret (e', Some s)
  else Ret (mk_dfa_eval (de_dfa e') (de_rev_map e') (de_current e') true, None).

(** dandy/src/dfa/eval.rs:31-39 [step_all] *)
Definition de_step_all (e : dfa_eval) : R (list dfa_eval) :=
  mapR (fun elem => '(e', _) <- de_step e elem ;; Ret e') (dfa_alphabet (de_dfa e)).

(** dandy/src/dfa/mod.rs:788-792 [Dfa::accepts] *)
Definition dfa_accepts (d : dfa) (string : list str) : R bool :=
  '(e, _) <- de_step_multiple (dfa_evaluator d) string ;;
  de_is_accepting e.

(** dandy/src/dfa/mod.rs:814-819 [Dfa::accepts_graphemes]; [graphemes] stands for
    [UnicodeSegmentation::graphemes(true)] of the external crate *)
Definition dfa_accepts_graphemes (graphemes : str -> list str) (d : dfa) (string : str) : R bool :=
  '(e, _) <- de_step_multiple (dfa_evaluator d) (graphemes string) ;;
  de_is_accepting e.

(** dandy/src/dfa/mod.rs:845-849 [Dfa::graphemes_only] *)
Definition dfa_graphemes_only (graphemes : str -> list str) (d : dfa) : bool :=
  forallb (fun a => length (graphemes a) =? 1) (dfa_alphabet d).

(** ** Simple transformations *)

(** dandy/src/dfa/mod.rs:317-321 [Dfa::invert] *)
Definition dfa_invert (d : dfa) : dfa :=
  {| dfa_alphabet := dfa_alphabet d;
     dfa_states := map (fun s => mk_dfa_state (ds_name s) (ds_initial s) (negb (ds_accepting s)) (ds_transitions s))
                       (dfa_states d);
     dfa_initial := dfa_initial d |}.

(** dandy/src/dfa/mod.rs:273-289 [From<DfaState> for NfaState] *)
Definition dfa_state_to_nfa_state (s : dfa_state) : nfa_state :=
  {| ns_name := ds_name s;
     ns_initial := ds_initial s;
     ns_accepting := ds_accepting s;
     ns_eps := [];
     ns_transitions := map (fun t => [t]) (ds_transitions s) |}.

(** dandy/src/dfa/mod.rs:772-784 [Dfa::to_nfa] *)
Definition dfa_to_nfa (d : dfa) : nfa :=
  {| nfa_alphabet := dfa_alphabet d;
     nfa_states := map dfa_state_to_nfa_state (dfa_states d);
     nfa_initial := dfa_initial d |}.

(** ** Reachability *)

(** dandy/src/dfa/mod.rs:716-722: one round of the [while]; [new_states.drain()] yields the states in hash order.
    The last component counts rounds (for the oracle's tag only). *)
Definition dfa_reach_step (h : hash_order) (d : dfa) (st : list nat * list nat * nat)
  : R ((list nat * list nat * nat) + list nat) :=
  let '(reachables, new_states, i) := st in
  match new_states with
  | [] => Ret (inr reachables)
  | _ =>
      ts <- mapR (fun q => s <- index (dfa_states d) q ;; Ret (ds_transitions s)) (ho h [10; i] new_states) ;;
      let '(reachables', new') :=
        fold_left (fun '(r, acc) q => let '(r', new) := hs_insert q r in (r', if new then acc ++ [q] else acc))
                  (concat ts) (reachables, []) in
      Ret (inl (reachables', new', S i))
  end.

(** dandy/src/dfa/mod.rs:713-724 [Dfa::reachable_state_idx] *)
Definition dfa_reachable_state_idx (h : hash_order) (d : dfa) : R (list nat) :=
  while (S (length (dfa_states d))) (dfa_reach_step h d) ([dfa_initial d], [dfa_initial d], 0).

(** dandy/src/dfa/mod.rs:687-692 [Dfa::unreachable_state_idx] *)
Definition dfa_unreachable_state_idx (h : hash_order) (d : dfa) : R (list nat) :=
  reachables <- dfa_reachable_state_idx h d ;;
  Ret (filter (fun x => negb (mem x reachables)) (seq 0 (length (dfa_states d)))).

(** dandy/src/dfa/mod.rs:704-709 [Dfa::reachable_states] *)
Definition dfa_reachable_states (h : hash_order) (d : dfa) : R (list dfa_state) :=
  r <- dfa_reachable_state_idx h d ;;
  mapR (index (dfa_states d)) (ho h [11] r).

(** dandy/src/dfa/mod.rs:678-683 [Dfa::unreachable_states] *)
Definition dfa_unreachable_states (h : hash_order) (d : dfa) : R (list dfa_state) :=
  r <- dfa_unreachable_state_idx h d ;;
  mapR (index (dfa_states d)) (ho h [12] r).

(** [iter.any(p)] where [p] may panic (stops at the first hit). Used for dandy/src/dfa/mod.rs:696-701 and
    dandy/src/nfa/mod.rs:975-980 *)
Fixpoint anyR {A} (p : A -> R bool) (l : list A) : R bool :=
  match l with
  | [] => Ret false
  | x :: xs => b <- p x ;; if b then Ret true else anyR p xs
  end.

(** dandy/src/dfa/mod.rs:696-701 [Dfa::has_reachable_accepting_state] *)
Definition dfa_has_reachable_accepting_state (h : hash_order) (d : dfa) : R bool :=
  r <- dfa_reachable_state_idx h d ;;
  anyR (fun q => s <- index (dfa_states d) q ;; Ret (ds_accepting s)) (ho h [13] r).

(** dandy/src/dfa/mod.rs:727-734 [Dfa::remap_transitions]; the mapper may panic (see [dfa_remove_states]) *)
Definition dfa_remap_transitions (mapper : nat -> R (option nat)) (states : list dfa_state) : R (list dfa_state) :=
  mapR (fun s =>
          ts <- mapR (fun t => o <- mapper t ;; Ret (match o with Some t' => t' | None => t end)) (ds_transitions s) ;;
          Ret (mk_dfa_state (ds_name s) (ds_initial s) (ds_accepting s) ts)) states.

(** dandy/src/dfa/mod.rs:742-767 [Dfa::remove_states]; [dbg] is [cfg!(debug_assertions)].
    [to_remove] never has repetitions (it is collected from a set or from map keys). *)
Definition dfa_remove_states (dbg : bool) (to_remove : list nat) (d : dfa) : R dfa :=
  let to_remove := sort to_remove in
  match binary_search to_remove (dfa_initial d) with
  | inl _ => Panic
  | inr less_than =>
      initial <- usize_sub (dfa_initial d) less_than ;;
      '(states, old_state_idx) <-
         foldR (fun '(ss, old) idx => ss' <- remove_nth idx ss ;; old' <- remove_nth idx old ;; Ret (ss', old'))
               (dfa_states d, seq 0 (length (dfa_states d))) (rev to_remove) ;;
      let mapper idx :=
        match binary_search old_state_idx idx with
        | inl i => Ret (Some i)
        | inr _ => if dbg then Panic else Ret None
        end in
      states' <- dfa_remap_transitions mapper states ;;
      Ret {| dfa_alphabet := dfa_alphabet d; dfa_states := states'; dfa_initial := initial |}
  end.

(** dandy/src/dfa/mod.rs:672-675 [Dfa::remove_unreachable_states] *)
Definition dfa_remove_unreachable_states (h : hash_order) (dbg : bool) (d : dfa) : R dfa :=
  states <- dfa_unreachable_state_idx h d ;;
  dfa_remove_states dbg (ho h [14] states) d.

(** ** Equivalence classes (Hopcroft) *)

(** dandy/src/dfa/mod.rs:638-665: what happens to one block [y] of [p]; the set [x] holds the states whose
    [c]-transition enters the splitter. *)
Definition hopcroft_split (x : list nat) (w : list (list nat)) (y : list nat) : R (list (list nat) * list (list nat)) :=
  let inters := filter (fun q => mem q y) x in
  let diff := filter (fun q => negb (mem q x)) y in
  if negb (length inters =? 0) && negb (length diff =? 0) then
    w' <- (match position (fun hs => hs_eqb hs y) w with
           | Some idx => w1 <- swap_remove idx w ;; Ret (w1 ++ [inters; diff])
           | None => if length inters <=? length diff then Ret (w ++ [inters]) else Ret (w ++ [diff])
           end) ;;
    Ret (w', [inters; diff])
  else Ret (w, [y]).

(** the [map]/[flat_map]/[collect] over all blocks, threading [w]. dandy/src/dfa/mod.rs:638-666 *)
Fixpoint hopcroft_split_all (x : list nat) (w : list (list nat)) (p : list (list nat))
  : R (list (list nat) * list (list nat)) :=
  match p with
  | [] => Ret (w, [])
  | y :: p' =>
      '(w1, ys) <- hopcroft_split x w y ;;
      '(w2, p2) <- hopcroft_split_all x w1 p' ;;
      Ret (w2, ys ++ p2)
  end.

(** dandy/src/dfa/mod.rs:631-637: the states whose [c]-transition is in [a] *)
Definition hopcroft_preimage (d : dfa) (a : list nat) (c : nat) : R (list nat) :=
  l <- mapR (fun '(i, s) => t <- index (ds_transitions s) c ;; Ret (i, mem t a)) (enumerate (dfa_states d)) ;;
  Ret (map fst (filter snd l)).

(** dandy/src/dfa/mod.rs:629-667: one round of the [while] *)
Definition hopcroft_step (d : dfa) (st : list (list nat) * list (list nat))
  : R ((list (list nat) * list (list nat)) + list (list nat)) :=
  let '(w, p) := st in
  match pop w with
  | None => Ret (inr p)
  | Some (w', a) =>
      st' <- foldR (fun '(w, p) c => x <- hopcroft_preimage d a c ;; hopcroft_split_all x w p)
                   (w', p) (seq 0 (length (dfa_alphabet d))) ;;
      Ret (inl st')
  end.

(** dandy/src/dfa/mod.rs:617-669 [Dfa::state_equivalence_classes_idx] (a [Vec] of hash sets) *)
Definition dfa_state_equivalence_classes_idx (d : dfa) : R (list (list nat)) :=
  let part := map (fun '(i, s) => (i, ds_accepting s)) (enumerate (dfa_states d)) in
  let finals := map fst (filter snd part) in
  let nonfinals := map fst (filter (fun x => negb (snd x)) part) in
  if length finals =? 0 then Ret [nonfinals]
  else if length nonfinals =? 0 then Ret [finals]
  else while (2 * length (dfa_states d)) (hopcroft_step d) ([finals; nonfinals], [finals; nonfinals]).

(** dandy/src/dfa/mod.rs:603-613 [Dfa::state_equivalence_classes] *)
Definition dfa_state_equivalence_classes (h : hash_order) (d : dfa) : R (list (list dfa_state)) :=
  cs <- dfa_state_equivalence_classes_idx d ;;
  mapR (fun '(i, class) => mapR (index (dfa_states d)) (ho h [15; i] class)) (enumerate cs).

(** dandy/src/dfa/mod.rs:579-600 [Dfa::merge_nondistinguishable_states] *)
Definition dfa_merge_nondistinguishable_states (h : hash_order) (dbg : bool) (d : dfa) : R dfa :=
  classes <- dfa_state_equivalence_classes_idx d ;;
  pairs <- mapR (fun '(i, set) =>
                   match ho h [16; i] set with
                   | [] => if dbg then Panic else Ret []
                   | new :: olds => Ret (map (fun old => (old, new)) olds)
                   end) (enumerate classes) ;;
  let mapper := hm_collect (concat pairs) in
  states <- dfa_remap_transitions (fun t => Ret (hm_get t mapper)) (dfa_states d) ;;
  '(states, initial) <-
    (match hm_get (dfa_initial d) mapper with
     | Some new_initial =>
         s <- index states new_initial ;;
         Ret (set_nth new_initial (mk_dfa_state (ds_name s) true (ds_accepting s) (ds_transitions s)) states,
              new_initial)
     | None => Ret (states, dfa_initial d)
     end) ;;
  dfa_remove_states dbg (ho h [17] (map fst mapper))
                    {| dfa_alphabet := dfa_alphabet d; dfa_states := states; dfa_initial := initial |}.

(** dandy/src/dfa/mod.rs:572-575 [Dfa::minimize] *)
Definition dfa_minimize (h : hash_order) (dbg : bool) (d : dfa) : R dfa :=
  d' <- dfa_remove_unreachable_states h dbg d ;;
  dfa_merge_nondistinguishable_states h dbg d'.

(** ** Equivalence *)

(** The key of a pair of evaluators. dandy/src/dfa/mod.rs:909-910 and 925 *)
Definition de_pair_key (p : dfa_eval * dfa_eval) : nat * nat := (de_current_state_idx (fst p), de_current_state_idx (snd p)).

(** dandy/src/dfa/mod.rs:920-927 / 474-485: [d1], [d2] for every element of [self.alphabet] *)
Definition de_pair_succs (alphabet : list str) (p : dfa_eval * dfa_eval) : R (list (dfa_eval * dfa_eval)) :=
  mapR (fun elem => '(d1, _) <- de_step (fst p) elem ;; '(d2, _) <- de_step (snd p) elem ;; Ret (d1, d2)) alphabet.

(** dandy/src/dfa/mod.rs:899-931 [Dfa::equivalent_to] *)
Definition dfa_equivalent_to (d1 d2 : dfa) : R bool :=
  if negb (alphabet_equal (dfa_alphabet d1) (dfa_alphabet d2)) then Ret false
  else
    let visit p :=
      a1 <- de_is_accepting (fst p) ;;
      a2 <- de_is_accepting (snd p) ;;
      if negb (Bool.eqb a1 a2) then Ret None
      else succs <- de_pair_succs (dfa_alphabet d1) p ;; Ret (Some (tt, succs)) in
    r <- search de_pair_key visit (S (length (dfa_states d1) * length (dfa_states d2)))
                (dfa_evaluator d1, dfa_evaluator d2) ;;
    Ret (match r with None => false | Some _ => true end).

(** ** Product construction *)

(** [format!("({},{})", a, b)]. dandy/src/dfa/mod.rs:500-503 and dandy/src/nfa/mod.rs:608-612 *)
Definition pair_name (a b : str) : str := [40%N] ++ a ++ [44%N] ++ b ++ [41%N].

(** dandy/src/dfa/mod.rs:496-507: the [map_while] over the explored pairs, which stops at the first repeated name *)
Fixpoint product_names {K} (name : K -> R str) (hm : list str) (l : list K) : R (list (K * str)) :=
  match l with
  | [] => Ret []
  | p :: ps =>
      nm <- name p ;;
      let '(hm', new) := hs_insert nm hm in
      if new then r <- product_names name hm' ps ;; Ret ((p, nm) :: r) else Ret []
  end.

(** dandy/src/dfa/mod.rs:452-552 [Dfa::product_construction].  [combinator] is an [FnMut]; it is a function
    of the two states here, [FnMutModel] has closures with memory. *)
Definition dfa_product_construction (h : hash_order) (d1 d2 : dfa) (combinator : dfa_state -> dfa_state -> bool)
  : R (option dfa) :=
  if negb (alphabet_equal (dfa_alphabet d1) (dfa_alphabet d2)) then Ret None
  else
    let q12 := (dfa_initial d1, dfa_initial d2) in
    let visit p :=
      succs <- de_pair_succs (dfa_alphabet d1) p ;;
      o1 <- de_current_state (fst p) ;; s1 <- unwrap o1 ;;
      o2 <- de_current_state (snd p) ;; s2 <- unwrap o2 ;;
      Ret (Some ((de_pair_key p, combinator s1 s2, map de_pair_key succs), succs)) in
    r <- search de_pair_key visit (S (length (dfa_states d1) * length (dfa_states d2)))
                (dfa_evaluator d1, dfa_evaluator d2) ;;
    match r with
    | None => Ret None (* [visit] never returns early *)
    | Some (explored, state_data) =>
        let order := ho h [18] explored in
        named <- product_names (fun '(s1, s2) =>
                                  a <- index (dfa_states d1) s1 ;; b <- index (dfa_states d2) s2 ;;
                                  Ret (pair_name (ds_name a) (ds_name b))) [] order ;;
        let potential_names := hm_collect named in
        let names :=
          if length potential_names <? length state_data
          then hm_collect (map (fun '(idx, p) => (p, dec idx)) (enumerate order))
          else potential_names in
        let rev_state_idx_map := hm_collect (map (fun '(idx, (p, _, _)) => (p, idx)) (enumerate state_data)) in
        initial <- unwrap (hm_get q12 rev_state_idx_map) ;;
        states <- mapR (fun '(p, accepting, transitions) =>
                          name <- unwrap (hm_get p names) ;;
                          ts <- mapR (fun p' => unwrap (hm_get p' rev_state_idx_map)) transitions ;;
                          Ret {| ds_name := name; ds_initial := eqb p q12; ds_accepting := accepting;
                                 ds_transitions := ts |}) state_data ;;
        Ret (Some {| dfa_alphabet := dfa_alphabet d1; dfa_states := states; dfa_initial := initial |})
    end.

(** dandy/src/dfa/mod.rs:350-352 [Dfa::union] *)
Definition dfa_union (h : hash_order) (d1 d2 : dfa) : R (option dfa) :=
  dfa_product_construction h d1 d2 (fun s1 s2 => ds_accepting s1 || ds_accepting s2).
(** dandy/src/dfa/mod.rs:381-383 [Dfa::intersection] *)
Definition dfa_intersection (h : hash_order) (d1 d2 : dfa) : R (option dfa) :=
  dfa_product_construction h d1 d2 (fun s1 s2 => ds_accepting s1 && ds_accepting s2).
(** dandy/src/dfa/mod.rs:412-414 [Dfa::difference] *)
Definition dfa_difference (h : hash_order) (d1 d2 : dfa) : R (option dfa) :=
  dfa_product_construction h d1 d2 (fun s1 s2 => ds_accepting s1 && negb (ds_accepting s2)).
(** dandy/src/dfa/mod.rs:443-445 [Dfa::symmetric_difference] *)
Definition dfa_symmetric_difference (h : hash_order) (d1 d2 : dfa) : R (option dfa) :=
  dfa_product_construction h d1 d2 (fun s1 s2 => negb (Bool.eqb (ds_accepting s1) (ds_accepting s2))).
