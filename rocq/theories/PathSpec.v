(** * PathSpec: what is shown of any path

    Nothing of the code is modelled here. *)
From Coq Require Import List NArith Arith Bool.
From Verif Require Import Base CliSpec.
Import ListNotations.

(** The names in a path that is cut at its slashes: everything but "" and "." *)
Definition names (pieces : list str) : list str := filter (fun c => negb (eqb c []) && negb (eqb c [46%N])) pieces.
(** A path begins with a slash if something follows an empty first piece. *)
Definition absolute (pieces : list str) : Prop := exists p r, pieces = [] :: p :: r.

(** What is shown for [n] components, [n] not zero *)
Inductive shown (n : nat) (pieces : list str) : str -> Prop :=
| shown_root : absolute pieces -> length (names pieces) < n -> shown n pieces [47%N]
| shown_names : ~ (absolute pieces /\ length (names pieces) < n) -> (names pieces <> [] \/ hd [] pieces <> [46%N]) ->
    shown n pieces (slashed (last_n n (names pieces)))
| shown_here : names pieces = [] -> hd [] pieces = [46%N] -> shown n pieces [46%N].
