(** * WordsModel: dandy/src/nfa/words.rs

    Hash sets in this file are only queried with [any]/[all]/[contains]/[collect] into other sets, so no iteration order
    is observable and the order oracle is not needed. *)
From Coq Require Import List NArith Arith Bool.
From Verif Require Import Base Spec NfaModel.
Import ListNotations.

(** ** NumBool: dandy/src/nfa/words.rs:324-333, a boolean *)

(** dandy/src/nfa/words.rs:335-345 [Add for NumBool] *)
Definition nb_add (a b : bool) : bool := if negb a && negb b then false else true.
(** dandy/src/nfa/words.rs:353-363 [Mul for NumBool] *)
Definition nb_mul (a b : bool) : bool := if negb a || negb b then false else true.
(** dandy/src/nfa/words.rs:377-380 [Zero for NumBool] *)
Definition nb_zero : bool := false.

(** A square [DMatrix<NumBool>], as a list of rows. dandy/src/nfa/words.rs:74 *)
Definition matrix : Type := list (list bool).
(** [m[(i, j)]]. E.g. dandy/src/nfa/words.rs:210, 224, 236; out of range panics *)
Definition m_at (m : matrix) (i j : nat) : R bool := row <- index m i ;; index row j.
(** [DMatrix::from_fn(n, n, f)]. dandy/src/nfa/words.rs:283 and 289 *)
Definition m_from_fn (n : nat) (f : nat -> nat -> R bool) : R matrix :=
  mapR (fun i => mapR (fun j => f i j) (seq 0 n)) (seq 0 n).
(** [&a * &b] of the crate nalgebra: the sum over [k] of [a(i,k) * b(k,j)], with the operations of [NumBool].
    dandy/src/nfa/words.rs:272 *)
Definition m_mul (n : nat) (a b : matrix) : R matrix :=
  m_from_fn n (fun i j => foldR (fun acc k => x <- m_at a i k ;; y <- m_at b k j ;; Ret (nb_add acc (nb_mul x y)))
                                nb_zero (seq 0 n)).

(** ** The iterator *)

(** dandy/src/nfa/words.rs:72-81 [struct WordComponentIndices] (without the unused field [has_epsilon_moves]) *)
Record words_iter : Type := mk_words_iter {
  wi_nfa : nfa;
  wi_adj : list matrix;
  wi_final : list nat;
  wi_stack : list (list nat);
  wi_failed : bool;
  wi_last : option (list nat)
}.

(** dandy/src/nfa/words.rs:245-267 [is_reachable_in_one_step].  The branch for NFAs with epsilon moves is dead code:
    [new] panics before; only the other branch is modelled. *)
Definition is_reachable_in_one_step (n : nfa) (from to : nat) : R bool :=
  s <- index (nfa_states n) from ;; Ret (existsb (fun on_symbol => mem to on_symbol) (ns_transitions s)).

(** dandy/src/nfa/words.rs:280-286 [generate_adjacency_matrix] *)
Definition generate_adjacency_matrix (n : nfa) : R matrix :=
  m_from_fn (length (nfa_states n)) (fun from to => is_reachable_in_one_step n from to).

(** dandy/src/nfa/words.rs:288-290 [identity_matrix] *)
Definition identity_matrix (k : nat) : R matrix := m_from_fn k (fun x y => Ret (x =? y)).

(** dandy/src/nfa/words.rs:292-315 [WordComponentIndices::new]; [unimplemented!] panics *)
Definition words_new (n : nfa) : R words_iter :=
  let final_states := map fst (filter (fun '(_, s) => ns_accepting s) (enumerate (nfa_states n))) in
  if nfa_has_epsilon_moves n then Panic
  else
    id <- identity_matrix (length (nfa_states n)) ;;
    adj <- generate_adjacency_matrix n ;;
    Ret {| wi_nfa := n; wi_adj := [id; adj]; wi_final := final_states; wi_stack := []; wi_failed := false;
           wi_last := None |}.

(** dandy/src/nfa/words.rs:269-274 [generate_matrices_up_to] *)
Definition generate_matrices_step (size n : nat) (adj : list matrix) : R (list matrix + list matrix) :=
  if length adj <=? n then
    m1 <- index adj 1 ;;
    lst <- unwrap (option_map snd (pop adj)) ;;
    m <- m_mul size m1 lst ;;
    Ret (inl (adj ++ [m]))
  else Ret (inr adj).

(** dandy/src/nfa/words.rs:269-274 [generate_matrices_up_to]: the whole loop *)
Definition generate_matrices_up_to (size n : nat) (adj : list matrix) : R (list matrix) :=
  while (S n) (generate_matrices_step size n) adj.

(** [iter.any(p)] where [p] may panic. Rust stops at the first hit; here all items are looked at, so a panic that
    Rust would skip is not skipped. dandy/src/nfa/words.rs:145, 206-211, 220-226, 236 *)
Definition any_R {A} (p : A -> R bool) (l : list A) : R bool := bs <- mapR p l ;; Ret (existsb (fun b => b) bs).

(** [s.iter().flat_map(|u| nfa.states[u].transitions[idx]).collect::<HashSet<_>>()]. dandy/src/nfa/words.rs:160-164,
    174-177, 232-235 *)
Definition targets_on (n : nfa) (s : list nat) (idx : nat) : R (list nat) :=
  ts <- mapR (fun u => st <- index (nfa_states n) u ;; index (ns_transitions st) idx) s ;;
  Ret (hs_collect (concat ts)).

(** [s.iter().flat_map(|i| nfa.states[i].transitions.iter().flatten())] collected into a set.
    dandy/src/nfa/words.rs:139-143, 150-153 *)
Definition successors (n : nfa) (s : list nat) : R (list nat) :=
  ts <- mapR (fun u => st <- index (nfa_states n) u ;; Ret (concat (ns_transitions st))) s ;;
  Ret (hs_collect (concat ts)).

(** [set.filter(p)] where [p] may panic. dandy/src/nfa/words.rs:154, 158-167, 178, 236 *)
Definition filterR {A} (p : A -> R bool) (l : list A) : R (list A) :=
  bs <- mapR (fun x => b <- p x ;; Ret (x, b)) l ;; Ret (map fst (filter snd bs)).

(** dandy/src/nfa/words.rs:219-227: some final state is reachable from a [u]-target of [s] on [elem] in exactly as many
    steps as the matrix says *)
Definition elem_completes (n : nfa) (m : matrix) (final s : list nat) (elem : nat) : R bool :=
  any_R (fun u => any_R (fun f => st <- index (nfa_states n) u ;; ts <- index (ns_transitions st) elem ;;
                                  any_R (fun v => m_at m v f) ts) final) s.

(** [(0..k).find(p)]. dandy/src/nfa/words.rs:218-219 *)
Fixpoint find_R (p : nat -> R bool) (l : list nat) : R (option nat) :=
  match l with
  | [] => Ret None
  | x :: xs => b <- p x ;; if b then Ret (Some x) else find_R p xs
  end.

(** dandy/src/nfa/words.rs:216-240: the [for i in 0..n], where [k = n - i] rounds are left, [s] is [current_s] and
    [pushed] what was pushed so far; returns the word and the sets pushed on the stack *)
Fixpoint min_word_loop (n : nfa) (adj : list matrix) (final : list nat) (k : nat) (s : list nat)
  : R (list nat * list (list nat)) :=
  match k with
  | O => Ret ([], [])
  | S k' =>
      m <- index adj k' ;;
      o <- find_R (elem_completes n m final s) (seq 0 (length (nfa_alphabet n))) ;;
      c <- unwrap o ;;
      match k' with
      | O => Ret ([c], [])
      | _ =>
          new_s <- targets_on n s c ;;
          new_s <- filterR (fun v => any_R (fun f => m_at m v f) final) new_s ;;
          '(w, pushed) <- min_word_loop n adj final k' new_s ;;
          Ret (c :: w, new_s :: pushed)
      end
  end.

(** dandy/src/nfa/words.rs:198-243 [min_word] *)
Definition min_word (wi : words_iter) (n : nat) : R (words_iter * option (list nat)) :=
  adj <- generate_matrices_up_to (length (nfa_states (wi_nfa wi))) n (wi_adj wi) ;;
  let wi := mk_words_iter (wi_nfa wi) adj (wi_final wi) (wi_stack wi) (wi_failed wi) (wi_last wi) in
  s <- unwrap (option_map snd (pop (wi_stack wi))) ;;
  m <- index adj n ;;
  some <- any_R (fun from => any_R (fun to => m_at m from to) (wi_final wi)) s ;;
  if negb some then Ret (wi, None)
  else
    '(w, pushed) <- min_word_loop (wi_nfa wi) adj (wi_final wi) n s ;;
    Ret (mk_words_iter (wi_nfa wi) adj (wi_final wi) (wi_stack wi ++ pushed) (wi_failed wi) (wi_last wi), Some w).

(** dandy/src/nfa/words.rs:135-146 the closure [n_complete] *)
Definition n_complete (nf : nfa) (n from : nat) : R bool :=
  s <- foldR (fun s _ => successors nf s) [from] (seq 0 n) ;;
  any_R (fun idx => st <- index (nfa_states nf) idx ;; Ret (ns_accepting st)) s.

(** dandy/src/nfa/words.rs:149-167: the elements on which some state of [s] has a target that completes in [k] steps *)
Definition possible_elems (nf : nfa) (s : list nat) (k : nat) : R (list nat) :=
  r0 <- successors nf s ;;
  r <- filterR (n_complete nf k) r0 ;;
  filterR (fun idx => lhs <- targets_on nf s idx ;;
                      Ret (negb (length (filter (fun x => mem x r) lhs) =? 0)))
          (seq 0 (length (nfa_alphabet nf))).

(** dandy/src/nfa/words.rs:148-193: the [for i in (1..=word.len()).rev()] *)
Fixpoint next_word_loop (wi : words_iter) (word : list nat) (i : nat) : R (words_iter * option (list nat)) :=
  match i with
  | O => Ret (wi, None)
  | S i' =>
      let nf := wi_nfa wi in
      '(rest, s) <- unwrap (pop (wi_stack wi)) ;;
      a <- possible_elems nf s (length word - i) ;;
      x <- index word i' ;;
      if forallb (fun y => y <=? x) a then
        next_word_loop (mk_words_iter nf (wi_adj wi) (wi_final wi) rest (wi_failed wi) (wi_last wi)) word i'
      else
        b <- unwrap (find (fun y => x <? y) a) ;;
        t <- targets_on nf s b ;;
        t <- filterR (n_complete nf (length word - i)) t ;;
        let n := length word in
        let word := firstn i' word ++ [b] in
        if negb (i =? n) then
          '(wi, o) <- min_word (mk_words_iter nf (wi_adj wi) (wi_final wi) (wi_stack wi ++ [t]) (wi_failed wi)
                                              (wi_last wi)) (n - i) ;;
          w <- unwrap o ;;
          Ret (wi, Some (word ++ w))
        else Ret (wi, Some word)
  end.

(** dandy/src/nfa/words.rs:129-195 [next_word] *)
Definition next_word (wi : words_iter) (word : list nat) : R (words_iter * option (list nat)) :=
  next_word_loop wi word (length word).

(** dandy/src/nfa/words.rs:110-126: one round of the [while]; the state is (iterator, num_cec, len) *)
Definition put_next_step (st : words_iter * nat * nat) : R ((words_iter * nat * nat) + words_iter) :=
  let '(wi, num_cec, len) := st in
  if num_cec <? length (nfa_states (wi_nfa wi)) then
    let wi := mk_words_iter (wi_nfa wi) (wi_adj wi) (wi_final wi) [[nfa_initial (wi_nfa wi)]] (wi_failed wi) (wi_last wi) in
    '(wi, o) <- min_word wi len ;;
    match o with
    | None => Ret (inl (wi, S num_cec, S len))
    | Some w => Ret (inr (mk_words_iter (wi_nfa wi) (wi_adj wi) (wi_final wi) (wi_stack wi) (wi_failed wi) (Some w)))
    end
  else Ret (inr (mk_words_iter (wi_nfa wi) (wi_adj wi) (wi_final wi) (wi_stack wi) true None)).

(** dandy/src/nfa/words.rs:94-127 [put_next] *)
Definition put_next (wi : words_iter) : R words_iter :=
  if wi_failed wi then Ret wi
  else
    match wi_last wi with
    | Some last =>
        '(wi, o) <- next_word wi last ;;
        match o with
        | Some w => Ret (mk_words_iter (wi_nfa wi) (wi_adj wi) (wi_final wi) (wi_stack wi) (wi_failed wi) (Some w))
        | None => while (S (length (nfa_states (wi_nfa wi)))) put_next_step (wi, 0, length last + 1)
        end
    | None => while (S (length (nfa_states (wi_nfa wi)))) put_next_step (wi, 0, 0)
    end.

(** dandy/src/nfa/words.rs:86-89 [WordComponentIndices::next] *)
Definition wci_next (wi : words_iter) : R (words_iter * option (list nat)) :=
  wi' <- put_next wi ;; Ret (wi', wi_last wi').

(** dandy/src/nfa/words.rs:50-58 [WordComponents::next] *)
Definition wc_next (wi : words_iter) : R (words_iter * option (list str)) :=
  wi' <- put_next wi ;;
  match wi_last wi' with
  | None => Ret (wi', None)
  | Some cs => w <- mapR (index (nfa_alphabet (wi_nfa wi'))) cs ;; Ret (wi', Some w)
  end.

(** dandy/src/nfa/words.rs:19-29 [Words::next] *)
Definition words_next (wi : words_iter) : R (words_iter * option str) :=
  wi' <- put_next wi ;;
  match wi_last wi' with
  | None => Ret (wi', None)
  | Some cs => w <- foldR (fun s c => e <- index (nfa_alphabet (wi_nfa wi')) c ;; Ret (s ++ e)) [] cs ;; Ret (wi', Some w)
  end.

(** A client that creates an iterator (dandy/src/nfa/mod.rs:1022-1050 [words], [word_components],
    [word_component_indices]) and calls [next] [k] times; the results of the calls in order *)
Fixpoint iter_calls {A} (next : words_iter -> R (words_iter * option A)) (wi : words_iter) (k : nat)
  : R (list (option A)) :=
  match k with
  | O => Ret []
  | S k' => '(wi', o) <- next wi ;; os <- iter_calls next wi' k' ;; Ret (o :: os)
  end.

(** dandy/src/nfa/mod.rs:1048-1050 [word_component_indices], then [k] calls of [next] *)
Definition word_component_indices_calls (n : nfa) (k : nat) : R (list (option (list nat))) :=
  wi <- words_new n ;; iter_calls wci_next wi k.

(** dandy/src/nfa/mod.rs:1035-1037 [word_components], then [k] calls of [next] *)
Definition word_components_calls (n : nfa) (k : nat) : R (list (option (list str))) :=
  wi <- words_new n ;; iter_calls wc_next wi k.

(** dandy/src/nfa/mod.rs:1022-1024 [words], then [k] calls of [next] *)
Definition words_calls (n : nfa) (k : nat) : R (list (option str)) :=
  wi <- words_new n ;; iter_calls words_next wi k.
