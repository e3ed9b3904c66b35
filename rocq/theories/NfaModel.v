(** * NfaModel: dandy/src/nfa/mod.rs and dandy/src/nfa/eval.rs *)
From Coq Require Import List NArith Arith Bool.
From Verif Require Import Base Spec Search DfaModel.
Import ListNotations.

(** ** Epsilon closure *)

(** dandy/src/nfa/mod.rs:1174-1181: the two nested [for] loops, over the states of [old_new] *)
Definition nfa_closure_round (n : nfa) (all : list nat) (old_new : list nat) : R (list nat * list nat) :=
  foldR (fun '(all, new) state =>
           s <- index (nfa_states n) state ;;
           Ret (fold_left (fun '(all, new) t =>
                             let '(all', ins) := hs_insert t all in (all', if ins then new ++ [t] else new))
                          (ns_eps s) (all, new)))
        (all, []) old_new.

(** dandy/src/nfa/mod.rs:1173-1182: one round of the [while] *)
Definition nfa_closure_step (n : nfa) (st : list nat * list nat) : R ((list nat * list nat) + list nat) :=
  let '(all, new) := st in
  match new with
  | [] => Ret (inr all)
  | _ => st' <- nfa_closure_round n all new ;; Ret (inl st')
  end.

(** dandy/src/nfa/mod.rs:1166-1184 [Nfa::closure] (the result is a hash set) *)
Definition nfa_closure (n : nfa) (start : nat) : R (option (list nat)) :=
  if length (nfa_states n) <=? start then Ret None
  else all <- while (S (length (nfa_states n))) (nfa_closure_step n) ([start], [start]) ;; Ret (Some all).

(** ** Evaluator *)

(** dandy/src/nfa/eval.rs:7-12 [struct NfaEvaluator]; [ne_current] is a hash set.  Its list order is never observed
    except through [ne_current_states], which asks the oracle. *)
Record nfa_eval : Type := mk_nfa_eval {
  ne_nfa : nfa;
  ne_rev_map : list (str * nat);
  ne_current : list nat;
  ne_unknown : bool
}.

(** dandy/src/nfa/eval.rs:76-87: one round of the [while] of [include_closure].  [updated] becomes true exactly when
    [to_push] receives an element. *)
Definition ne_closure_step (n : nfa) (cur : list nat) : R (list nat + list nat) :=
  es <- mapR (fun q => s <- index (nfa_states n) q ;; Ret (ns_eps s)) cur ;;
  match hs_collect (filter (fun t => negb (mem t cur)) (concat es)) with
  | [] => Ret (inr cur)
  | to_push => Ret (inl (cur ++ to_push))
  end.

(** dandy/src/nfa/eval.rs:73-88 [include_closure] on the set of current states *)
Definition ne_include_closure (n : nfa) (cur : list nat) : R (list nat) :=
  while (S (length (nfa_states n))) (ne_closure_step n) cur.

(** dandy/src/nfa/eval.rs:91-109 [From<&Nfa> for NfaEvaluator], dandy/src/nfa/mod.rs:1161-1163 [Nfa::evaluator] *)
Definition nfa_evaluator (n : nfa) : R nfa_eval :=
  cur <- ne_include_closure n [nfa_initial n] ;;
  Ret {| ne_nfa := n;
         ne_rev_map := hm_collect (map (fun p => (snd p, fst p)) (enumerate (nfa_alphabet n)));
         ne_current := cur;
         ne_unknown := false |}.

(** dandy/src/nfa/eval.rs:23-28 [current_states] *)
Definition ne_current_states (h : hash_order) (e : nfa_eval) : R (list nfa_state) :=
  mapR (index (nfa_states (ne_nfa e))) (ho h [40] (ne_current e)).

(** dandy/src/nfa/eval.rs:30-32 [current_states_idx] *)
Definition ne_current_states_idx (e : nfa_eval) : list nat := ne_current e.

(** dandy/src/nfa/eval.rs:15-21 [is_accepting]; collecting the states into a [Vec] before [any] makes every index be
    looked up *)
Definition ne_is_accepting (e : nfa_eval) : R bool :=
  if ne_unknown e then Ret false
  else ss <- mapR (index (nfa_states (ne_nfa e))) (ne_current e) ;; Ret (existsb ns_accepting ss).

(** dandy/src/nfa/eval.rs:44-61 [step]: the evaluator afterwards and whether the result was [Some(())] *)
Definition ne_step (e : nfa_eval) (elem : str) : R (nfa_eval * bool) :=
  match hm_get elem (ne_rev_map e) with
  | None => Ret (mk_nfa_eval (ne_nfa e) (ne_rev_map e) (ne_current e) true, false)
  | Some idx =>
      ts <- mapR (fun q => s <- index (nfa_states (ne_nfa e)) q ;; index (ns_transitions s) idx) (ne_current e) ;;
      cur <- ne_include_closure (ne_nfa e) (hs_collect (concat ts)) ;;
      Ret (mk_nfa_eval (ne_nfa e) (ne_rev_map e) cur (ne_unknown e), true)
  end.

(** the [try_for_each] of dandy/src/nfa/eval.rs:64 *)
Fixpoint ne_steps (e : nfa_eval) (elems : list str) : R (nfa_eval * bool) :=
  match elems with
  | [] => Ret (e, true)
  | x :: xs =>
      '(e', ok) <- ne_step e x ;;
      if ok then ne_steps e' xs else Ret (e', false)
  end.

(** dandy/src/nfa/eval.rs:63-71 [step_multiple] *)
Definition ne_step_multiple (e : nfa_eval) (elems : list str) : R (nfa_eval * bool) :=
  '(e', ok) <- ne_steps e elems ;;
  if ok then Ret (e', true)
  else Ret (mk_nfa_eval (ne_nfa e') (ne_rev_map e') (ne_current e') true, false).

(** dandy/src/nfa/eval.rs:34-42 [step_all] *)
Definition ne_step_all (e : nfa_eval) : R (list nfa_eval) :=
  mapR (fun elem => '(e', _) <- ne_step e elem ;; Ret e') (nfa_alphabet (ne_nfa e)).

(** dandy/src/nfa/mod.rs:1126-1130 [Nfa::accepts] *)
Definition nfa_accepts (n : nfa) (string : list str) : R bool :=
  e <- nfa_evaluator n ;;
  '(e', _) <- ne_step_multiple e string ;;
  ne_is_accepting e'.

(** dandy/src/nfa/mod.rs:1137-1142 [Nfa::accepts_graphemes] *)
Definition nfa_accepts_graphemes (graphemes : str -> list str) (n : nfa) (string : str) : R bool :=
  e <- nfa_evaluator n ;;
  '(e', _) <- ne_step_multiple e (graphemes string) ;;
  ne_is_accepting e'.

(** dandy/src/nfa/mod.rs:1147-1151 [Nfa::graphemes_only] *)
Definition nfa_graphemes_only (graphemes : str -> list str) (n : nfa) : bool :=
  forallb (fun a => length (graphemes a) =? 1) (nfa_alphabet n).

(** dandy/src/nfa/mod.rs:1154-1158 [Nfa::has_epsilon_moves] *)
Definition nfa_has_epsilon_moves (n : nfa) : bool :=
  existsb (fun s => negb (length (ns_eps s) =? 0)) (nfa_states n).

(** dandy/src/nfa/mod.rs:1275-1279 [Nfa::set_to_vec] (sorting makes the set's iteration order irrelevant) *)
Definition set_to_vec (set : list nat) : list nat := sort set.

(** ** Reachability *)

(** dandy/src/nfa/mod.rs:995-1009: one round of the [while] *)
Definition nfa_reach_step (h : hash_order) (n : nfa) (st : list nat * list nat * nat)
  : R ((list nat * list nat * nat) + list nat) :=
  let '(reachables, new_states, i) := st in
  match new_states with
  | [] => Ret (inr reachables)
  | _ =>
      ts <- mapR (fun q => s <- index (nfa_states n) q ;;
                           o <- nfa_closure n q ;;
                           cl <- unwrap o ;;
                           Ret (concat (ns_transitions s) ++ ho h [31; i; q] cl)) (ho h [30; i] new_states) ;;
      let '(reachables', new') :=
        fold_left (fun '(r, acc) q => let '(r', new) := hs_insert q r in (r', if new then acc ++ [q] else acc))
                  (concat ts) (reachables, []) in
      Ret (inl (reachables', new', S i))
  end.

(** dandy/src/nfa/mod.rs:992-1011 [Nfa::reachable_state_idx] *)
Definition nfa_reachable_state_idx (h : hash_order) (n : nfa) : R (list nat) :=
  while (S (length (nfa_states n))) (nfa_reach_step h n) ([nfa_initial n], [nfa_initial n], 0).

(** dandy/src/nfa/mod.rs:966-971 [Nfa::unreachable_state_idx] *)
Definition nfa_unreachable_state_idx (h : hash_order) (n : nfa) : R (list nat) :=
  reachables <- nfa_reachable_state_idx h n ;;
  Ret (filter (fun x => negb (mem x reachables)) (seq 0 (length (nfa_states n)))).

(** dandy/src/nfa/mod.rs:983-988 [Nfa::reachable_states] *)
Definition nfa_reachable_states (h : hash_order) (n : nfa) : R (list nfa_state) :=
  r <- nfa_reachable_state_idx h n ;;
  mapR (index (nfa_states n)) (ho h [32] r).

(** dandy/src/nfa/mod.rs:957-962 [Nfa::unreachable_states] *)
Definition nfa_unreachable_states (h : hash_order) (n : nfa) : R (list nfa_state) :=
  r <- nfa_unreachable_state_idx h n ;;
  mapR (index (nfa_states n)) (ho h [33] r).

(** dandy/src/nfa/mod.rs:975-980 [Nfa::has_reachable_accepting_state] *)
Definition nfa_has_reachable_accepting_state (h : hash_order) (n : nfa) : R bool :=
  r <- nfa_reachable_state_idx h n ;;
  anyR (fun q => s <- index (nfa_states n) q ;; Ret (ns_accepting s)) (ho h [34] r).

(** ** Removing states *)

(** dandy/src/nfa/mod.rs:924-936 [Nfa::remap_transitions]; the mapper may panic *)
Definition nfa_remap_transitions (mapper : nat -> R (option nat)) (states : list nfa_state) : R (list nfa_state) :=
  let go t := o <- mapper t ;; Ret (match o with Some t' => t' | None => t end) in
  mapR (fun s =>
          ts <- mapR (mapR go) (ns_transitions s) ;;
          eps <- mapR go (ns_eps s) ;;
          Ret (mk_nfa_state (ns_name s) (ns_initial s) (ns_accepting s) eps ts)) states.

(** dandy/src/nfa/mod.rs:895-920 [Nfa::remove_states] *)
Definition nfa_remove_states (dbg : bool) (to_remove : list nat) (n : nfa) : R nfa :=
  let to_remove := sort to_remove in
  match binary_search to_remove (nfa_initial n) with
  | inl _ => Panic
  | inr less_than =>
      initial <- usize_sub (nfa_initial n) less_than ;;
      '(states, old_state_idx) <-
         foldR (fun '(ss, old) idx => ss' <- remove_nth idx ss ;; old' <- remove_nth idx old ;; Ret (ss', old'))
               (nfa_states n, seq 0 (length (nfa_states n))) (rev to_remove) ;;
      let mapper idx :=
        match binary_search old_state_idx idx with
        | inl i => Ret (Some i)
        | inr _ => if dbg then Panic else Ret None
        end in
      states' <- nfa_remap_transitions mapper states ;;
      Ret {| nfa_alphabet := nfa_alphabet n; nfa_states := states'; nfa_initial := initial |}
  end.

(** dandy/src/nfa/mod.rs:951-954 [Nfa::remove_unreachable_states] *)
Definition nfa_remove_unreachable_states (h : hash_order) (dbg : bool) (n : nfa) : R nfa :=
  states <- nfa_unreachable_state_idx h n ;;
  nfa_remove_states dbg (ho h [35] states) n.

(** [wanted] of [fresh_name("s_new")]. dandy/src/nfa/mod.rs:404 and 848 *)
Definition s_new : str := [115; 95; 110; 101; 119]%N.

(** dandy/src/nfa/mod.rs:938-947 [Nfa::fresh_name].  The unbounded range [(0..)] is cut after as many candidates as
    there are states plus one; running past it would be an endless search, hence [Diverge]. *)
Definition fresh_name (names : list str) (wanted : str) : R str :=
  if negb (mem wanted names) then Ret wanted
  else match find (fun nm => negb (mem nm names)) (map dec (seq 0 (S (length names)))) with
       | Some nm => Ret nm
       | None => Diverge
       end.

(** ** Epsilon removal *)

(** dandy/src/nfa/mod.rs:789-801 (and 830-841): one pass of the [for] over all states in the search for dead states *)
Definition dead_round (states : list nfa_state) (dead : list nat) : list nat * bool :=
  fold_left (fun '(dead, added) '(idx, s) =>
               if negb (mem idx dead) && negb (ns_accepting s) && negb (ns_initial s)
                  && forallb (forallb (fun t => mem t dead)) (ns_transitions s)
               then (dead ++ [idx], true) else (dead, added))
            (enumerate states) (dead, false).

(** dandy/src/nfa/mod.rs:786-802 (and 827-842): the [while added_states] loop *)
Definition dead_step (states : list nfa_state) (dead : list nat) : R (list nat + list nat) :=
  let '(dead', added) := dead_round states dead in
  if added then Ret (inl dead') else Ret (inr dead').

(** dandy/src/nfa/mod.rs:786-802 and 827-842: the whole loop *)
Definition dead_search (states : list nfa_state) (dead : list nat) : R (list nat) :=
  while (S (length states)) (dead_step states) dead.

(** dandy/src/nfa/mod.rs:767-780: replace every target by its closure (through a hash set) and drop epsilon moves *)
Definition inline_closures (h : hash_order) (closures : list (list nat)) (states : list nfa_state)
  : R (list nfa_state) :=
  mapR (fun '(q, s) =>
          ts <- mapR (fun '(c, targets) =>
                        cls <- mapR (index closures) targets ;;
                        Ret (ho h [36; q; c] (hs_collect (concat cls)))) (enumerate (ns_transitions s)) ;;
          Ret (mk_nfa_state (ns_name s) (ns_initial s) (ns_accepting s) [] ts)) (enumerate states).

(** [self.states[i].initial = b]. dandy/src/nfa/mod.rs:411, 412, 817 and 872 (the last one repeats 817) *)
Definition set_initial (i : nat) (b : bool) (states : list nfa_state) : R (list nfa_state) :=
  s <- index states i ;;
  Ret (set_nth i (mk_nfa_state (ns_name s) b (ns_accepting s) (ns_eps s) (ns_transitions s)) states).

(** dandy/src/nfa/mod.rs:811-875: the case where the initial state's closure has more than one non-dead state.
    Returns the states, the index of the initial state and the dead states. *)
Definition new_initial_state (h : hash_order) (alphabet_len old_initial : nat) (init_closure : list nat)
           (states : list nfa_state) (dead : list nat) : R (list nfa_state * nat * list nat) :=
  states <- set_initial old_initial false states ;;
  s <- index states old_initial ;;
  let old_state_dead := negb (ns_accepting s) && forallb (forallb (fun t => mem t dead)) (ns_transitions s) in
  dead <- (if old_state_dead then dead_search states (fst (hs_insert old_initial dead)) else Ret dead) ;;
  name <- (if old_state_dead then Ret (ns_name s) else fresh_name (map ns_name states) s_new) ;;
  transitions <- mapR (fun c =>
                         tss <- mapR (fun q => s <- index states q ;; index (ns_transitions s) c)
                                     (ho h [37; c] init_closure) ;;
                         Ret (filter (fun t => negb (mem t dead)) (ho h [38; c] (hs_collect (concat tss)))))
                      (seq 0 alphabet_len) ;;
  accs <- mapR (fun q => s <- index states q ;; Ret (ns_accepting s)) init_closure ;;
  let new_state := {| ns_name := name; ns_initial := true; ns_accepting := existsb (fun b => b) accs; ns_eps := [];
                      ns_transitions := transitions |} in
  Ret (states ++ [new_state], length states, dead).

(** dandy/src/nfa/mod.rs:756-887 [Nfa::remove_epsilon_moves].
    Simplification: [any] over the initial closure looks up all states instead of stopping at the first hit. *)
Definition nfa_remove_epsilon_moves (h : hash_order) (dbg : bool) (n : nfa) : R nfa :=
  if negb (nfa_has_epsilon_moves n) then Ret n
  else
    closures <- mapR (fun q => o <- nfa_closure n q ;; unwrap o) (seq 0 (length (nfa_states n))) ;;
    states <- inline_closures h closures (nfa_states n) ;;
    dead <- dead_search states [] ;;
    cl <- index closures (nfa_initial n) ;;
    let init_closure := filter (fun q => negb (mem q dead)) cl in
    '(states, initial, dead) <-
      (if 1 <? length init_closure
       then new_initial_state h (length (nfa_alphabet n)) (nfa_initial n) init_closure states dead
       else Ret (states, nfa_initial n, dead)) ;;
    let states :=
      map (fun s => mk_nfa_state (ns_name s) (ns_initial s) (ns_accepting s) (ns_eps s)
                                 (map (filter (fun t => negb (mem t dead))) (ns_transitions s))) states in
    nfa_remove_states dbg (ho h [39] dead)
                      {| nfa_alphabet := nfa_alphabet n; nfa_states := states; nfa_initial := initial |}.

(** dandy/src/nfa/mod.rs:681-684 [Nfa::optimize] *)
Definition nfa_optimize (h : hash_order) (dbg : bool) (n : nfa) : R nfa :=
  n' <- nfa_remove_unreachable_states h dbg n ;;
  nfa_remove_epsilon_moves h dbg n'.

(** ** Union *)

(** dandy/src/nfa/mod.rs:350-360 and 485-495: the position in [alphabet] of each element of [elems] *)
Definition alphabet_translation (elems alphabet : list str) : R (list nat) :=
  mapR (fun e => unwrap (position (eqb e) alphabet)) elems.

(** [v.windows(2).all(|v| v[0] < v[1])]. dandy/src/nfa/mod.rs:364 *)
Fixpoint increasing (l : list nat) : bool :=
  match l with
  | x :: ((y :: _) as l') => (x <? y) && increasing l'
  | _ => true
  end.

(** [vec.sort_by_key(|(_, b)| b)]: a stable sort by the second component. dandy/src/nfa/mod.rs:373 and 1101 (one
    insertion) *)
Fixpoint insert_by_snd {A} (x : A * nat) (l : list (A * nat)) : list (A * nat) :=
  match l with
  | [] => [x]
  | y :: ys => if snd x <=? snd y then x :: l else y :: insert_by_snd x ys
  end.

(** dandy/src/nfa/mod.rs:373 and 1101: the sort, by insertion *)
Fixpoint sort_by_snd {A} (l : list (A * nat)) : list (A * nat) :=
  match l with [] => [] | x :: xs => insert_by_snd x (sort_by_snd xs) end.

(** dandy/src/nfa/mod.rs:345-416 [Nfa::union]: [inl] is [Ok], [inr] is [Err] *)
Definition nfa_union (a b : nfa) : R (nfa + (nfa * nfa)) :=
  if negb (alphabet_equal (nfa_alphabet a) (nfa_alphabet b)) then Ret (inr (a, b))
  else
    tr <- alphabet_translation (nfa_alphabet b) (nfa_alphabet a) ;;
    let b_states :=
      if negb (increasing tr) then
        map (fun s => mk_nfa_state (ns_name s) (ns_initial s) (ns_accepting s) (ns_eps s)
                                   (map fst (sort_by_snd (combine (ns_transitions s) tr)))) (nfa_states b)
      else nfa_states b in
    let a_states := length (nfa_states a) in
    b_states <- nfa_remap_transitions (fun q => Ret (Some (q + a_states))) b_states ;;
    let b_init := nfa_initial b + a_states in
    let states := nfa_states a ++ b_states in
    let states :=
      if negb (length (hs_collect (map ns_name states)) =? length states) then
        map (fun '(i, s) => mk_nfa_state (dec (S i)) (ns_initial s) (ns_accepting s) (ns_eps s) (ns_transitions s))
            (enumerate states)
      else states in
    name <- fresh_name (map ns_name states) s_new ;;
    let new_state := {| ns_name := name; ns_initial := true; ns_accepting := false;
                        ns_eps := [nfa_initial a; b_init];
                        ns_transitions := repeat [] (length (nfa_alphabet a)) |} in
    states <- set_initial (nfa_initial a) false states ;;
    states <- set_initial b_init false states ;;
    Ret (inl {| nfa_alphabet := nfa_alphabet a; nfa_states := states ++ [new_state];
                nfa_initial := length states |}).

(** ** Product construction *)

(** [self.states[s].transitions[elem]] of an optional state; an absent state has no transitions.
    dandy/src/nfa/mod.rs:524-528 *)
Definition opt_targets (states : list nfa_state) (s : option nat) (elem : nat) : R (list nat) :=
  match s with
  | None => Ret []
  | Some q => st <- index states q ;; index (ns_transitions st) elem
  end.

(** dandy/src/nfa/mod.rs:571-589: the epsilon moves of an optional state *)
Definition opt_eps (states : list nfa_state) (s : option nat) : R (list nat) :=
  match s with
  | None => Ret []
  | Some q => st <- index states q ;; Ret (ns_eps st)
  end.

(** dandy/src/nfa/mod.rs:594-595: [s.map(|s| &states[s])] *)
Definition opt_state (states : list nfa_state) (s : option nat) : R (option nfa_state) :=
  match s with
  | None => Ret None
  | Some q => st <- index states q ;; Ret (Some st)
  end.

(** dandy/src/nfa/mod.rs:524-570: the [match] on the two (filtered) options; [filter] turns a state without targets
    into [None], so the four cases are decided by which target list is empty *)
Definition elem_pairs (on1 on2 : list nat) : list (option nat * option nat) :=
  match on1, on2 with
  | [], [] => []
  | _, [] => map (fun t1 => (Some t1, None)) on1
  | [], _ => map (fun t2 => (None, Some t2)) on2
  | _, _ => flat_map (fun t1 => map (fun t2 => (Some t1, Some t2)) on2) on1
  end.

(** "none". dandy/src/nfa/mod.rs:610-611 *)
Definition none_name : str := [110; 111; 110; 101]%N.

(** dandy/src/nfa/mod.rs:610-611: the name of an optional state *)
Definition opt_name (states : list nfa_state) (s : option nat) : R str :=
  match s with
  | None => Ret none_name
  | Some q => st <- index states q ;; Ret (ns_name st)
  end.

(** dandy/src/nfa/mod.rs:475-676 [Nfa::product_construction].  [combinator] is an [FnMut]; it is a function
    of the two optional states here, [FnMutModel] has closures with memory. *)
Definition nfa_product_construction (h : hash_order) (n1 n2 : nfa)
           (combinator : option nfa_state -> option nfa_state -> bool) : R (option nfa) :=
  if negb (alphabet_equal (nfa_alphabet n1) (nfa_alphabet n2)) then Ret None
  else
    tr <- alphabet_translation (nfa_alphabet n1) (nfa_alphabet n2) ;;
    let q12 := (Some (nfa_initial n1), Some (nfa_initial n2)) in
    let visit (p : option nat * option nat) :=
      let '(s1, s2) := p in
      transition_list <-
        mapR (fun elem =>
                other_elem <- index tr elem ;;
                on1 <- opt_targets (nfa_states n1) s1 elem ;;
                on2 <- opt_targets (nfa_states n2) s2 other_elem ;;
                Ret (elem_pairs on1 on2)) (seq 0 (length (nfa_alphabet n1))) ;;
      eps1 <- opt_eps (nfa_states n1) s1 ;;
      eps2 <- opt_eps (nfa_states n2) s2 ;;
      let eps := map (fun e1 => (Some e1, s2)) eps1 ++ map (fun e2 => (s1, Some e2)) eps2 in
      st1 <- opt_state (nfa_states n1) s1 ;;
      st2 <- opt_state (nfa_states n2) s2 ;;
      Ret (Some ((p, combinator st1 st2, transition_list, eps), concat transition_list ++ eps)) in
    r <- search (fun p => p) visit (S (S (length (nfa_states n1)) * S (length (nfa_states n2)))) q12 ;;
    match r with
    | None => Ret None (* [visit] never returns early *)
    | Some (explored, state_data) =>
        let order := ho h [41] explored in
        named <- product_names (fun '(s1, s2) =>
                                  a <- opt_name (nfa_states n1) s1 ;; b <- opt_name (nfa_states n2) s2 ;;
                                  Ret (pair_name a b)) [] order ;;
        let potential_names := hm_collect named in
        let names :=
          if length potential_names <? length state_data
          then hm_collect (map (fun '(idx, p) => (p, dec idx)) (enumerate order))
          else potential_names in
        let rev_state_idx_map := hm_collect (map (fun '(idx, (p, _, _, _)) => (p, idx)) (enumerate state_data)) in
        initial <- unwrap (hm_get q12 rev_state_idx_map) ;;
        states <- mapR (fun '(p, accepting, transitions, eps) =>
                          name <- unwrap (hm_get p names) ;;
                          ts <- mapR (mapR (fun p' => unwrap (hm_get p' rev_state_idx_map))) transitions ;;
                          es <- mapR (fun p' => unwrap (hm_get p' rev_state_idx_map)) eps ;;
                          Ret {| ns_name := name; ns_initial := eqb p q12; ns_accepting := accepting;
                                 ns_eps := es; ns_transitions := ts |}) state_data ;;
        Ret (Some {| nfa_alphabet := nfa_alphabet n1; nfa_states := states; nfa_initial := initial |})
    end.

(** dandy/src/nfa/mod.rs:450-455 [Nfa::intersection] *)
Definition nfa_intersection (h : hash_order) (n1 n2 : nfa) : R (option nfa) :=
  nfa_product_construction h n1 n2
    (fun s1 s2 => match s1, s2 with Some s1, Some s2 => ns_accepting s1 && ns_accepting s2 | _, _ => false end).

(** ** Subset construction *)

(** The mutable variables of the loop of [to_dfa]: [to_explore], [map], [accepting], [transitions], and the next
    number of the generator [gen]. dandy/src/nfa/mod.rs:1058-1067 *)
Record to_dfa_state : Type := mk_to_dfa_state {
  td_explore : list nfa_eval;
  td_map : list (list nat * nat);
  td_accepting : list nat;
  td_transitions : list (list nat * list nat);
  td_gen : nat
}.

(** dandy/src/nfa/mod.rs:1083-1094: one iteration of the [for] over [eval.step_all()]; [tr] is the row being built *)
Definition to_dfa_visit (st : to_dfa_state * list nat) (e : nfa_eval) : R (to_dfa_state * list nat) :=
  let '(s, tr) := st in
  is_accepting <- ne_is_accepting e ;;
  let key := set_to_vec (ne_current_states_idx e) in
  let '(explore, map', gen, x) :=
    match hm_get key (td_map s) with
    | Some x => (td_explore s, td_map s, td_gen s, x)
    | None => (td_explore s ++ [e], hm_insert key (td_gen s) (td_map s), S (td_gen s), td_gen s)
    end in
  let accepting := if is_accepting then fst (hs_insert x (td_accepting s)) else td_accepting s in
  Ret (mk_to_dfa_state explore map' accepting (td_transitions s) gen, tr ++ [x]).

(** dandy/src/nfa/mod.rs:1080-1097: one round of the [while] *)
Definition to_dfa_step (s : to_dfa_state) : R (to_dfa_state + to_dfa_state) :=
  match pop (td_explore s) with
  | None => Ret (inr s)
  | Some (rest, eval) =>
      evs <- ne_step_all eval ;;
      '(s', tr) <- foldR to_dfa_visit
                     (mk_to_dfa_state rest (td_map s) (td_accepting s) (td_transitions s) (td_gen s), []) evs ;;
      let key := set_to_vec (ne_current_states_idx eval) in
      Ret (inl (mk_to_dfa_state (td_explore s') (td_map s') (td_accepting s')
                                (hm_insert key tr (td_transitions s')) (td_gen s')))
  end.

(** dandy/src/nfa/mod.rs:1057-1122 [Nfa::to_dfa]; [map.iter()] yields the entries in hash order before sorting *)
Definition nfa_to_dfa (h : hash_order) (n : nfa) : R dfa :=
  e0 <- nfa_evaluator n ;;
  acc0 <- ne_is_accepting e0 ;;
  let key0 := set_to_vec (ne_current_states_idx e0) in
  s <- while (S (length (nfa_states n))) to_dfa_step
             (mk_to_dfa_state [e0] [(key0, 0)] (if acc0 then [0] else []) [] 1) ;;
  let sorted_keys := sort_by_snd (ho h [42] (td_map s)) in
  states <- mapR (fun '(key, k) =>
                    ts <- unwrap (hm_get key (td_transitions s)) ;;
                    Ret {| ds_name := dec k; ds_initial := k =? 0; ds_accepting := mem k (td_accepting s);
                           ds_transitions := ts |}) sorted_keys ;;
  Ret {| dfa_alphabet := nfa_alphabet n; dfa_states := states; dfa_initial := 0 |}.

(** ** Equivalence *)

(** dandy/src/nfa/mod.rs:1246-1249 and 1263-1266: the key under which a pair of evaluators is remembered *)
Definition ne_pair_key (p : nfa_eval * nfa_eval) : list nat * list nat :=
  (set_to_vec (ne_current_states_idx (fst p)), set_to_vec (ne_current_states_idx (snd p))).

(** dandy/src/nfa/mod.rs:1237-1272 [Nfa::equivalent_to] *)
Definition nfa_equivalent_to (n1 n2 : nfa) : R bool :=
  if negb (alphabet_equal (nfa_alphabet n1) (nfa_alphabet n2)) then Ret false
  else
    e1 <- nfa_evaluator n1 ;;
    e2 <- nfa_evaluator n2 ;;
    let visit p :=
      a1 <- ne_is_accepting (fst p) ;;
      a2 <- ne_is_accepting (snd p) ;;
      if negb (Bool.eqb a1 a2) then Ret None
      else succs <- mapR (fun elem => '(d1, _) <- ne_step (fst p) elem ;; '(d2, _) <- ne_step (snd p) elem ;;
                                      Ret (d1, d2)) (nfa_alphabet n1) ;;
           Ret (Some (tt, succs)) in
    r <- search ne_pair_key visit (S (length (nfa_states n1) + length (nfa_states n2))) (e1, e2) ;;
    Ret (match r with None => false | Some _ => true end).
