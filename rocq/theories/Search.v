(** * Search: the worklist loop shared by several Rust functions

    [Dfa::equivalent_to] (dandy/src/dfa/mod.rs:907-930), [Dfa::product_construction] (dandy/src/dfa/mod.rs:463-492),
    [Nfa::equivalent_to] (dandy/src/nfa/mod.rs:1245-1271) and [Nfa::product_construction] all run the same loop: a [Vec]
    used as a stack of items to explore, a [HashSet] of the keys already seen, and for every popped item the successor
    items whose key is new are pushed.  The loop is written once here; the visit of one item is the parameter.

    Simplification: the successors of an item are computed before they are pushed one by one, whereas Rust interleaves
    computing and pushing.  Computing a successor reads neither the stack nor the set, so the result is the same. *)
From Coq Require Import List Arith Bool.
From Verif Require Import Base.
Import ListNotations.

Section Search.
  Context {T K D : Type} `{Eqb K}.
  Variable key : T -> K.
  (** [visit t]: [None] means "return early", [Some (d, succs)] gives the output for [t] and its successors. *)
  Variable visit : T -> R (option (D * list T)).

  (** [if explored.insert(key) { stack.push(item) }] *)
  Definition push_new (st : list T * list K) (t : T) : list T * list K :=
    let '(seen', new) := hs_insert (key t) (snd st) in
    if new then (fst st ++ [t], seen') else st.

  Definition search_step (st : list T * list K * list D) : R ((list T * list K * list D) + option (list K * list D)) :=
    let '(stack, seen, out) := st in
    match pop stack with
    | None => Ret (inr (Some (seen, out)))
    | Some (rest, t) =>
        v <- visit t ;;
        match v with
        | None => Ret (inr None)
        | Some (d, succs) =>
            let '(stack', seen') := fold_left push_new succs (rest, seen) in
            Ret (inl (stack', seen', out ++ [d]))
        end
    end.

  Definition search (k : nat) (t0 : T) : R (option (list K * list D)) :=
    while k search_step ([t0], [key t0], []).
End Search.
