(** * The shown parts of any path *)
From Coq Require Import Ascii String List NArith Arith Bool Lia.
From Verif Require Import Base TableModel Messages CliModel CliSpec PathSpec PathProofs.
Import ListNotations.
Close Scope string_scope.
Open Scope list_scope.

(** ** C52, exactly: cutting any text at its slashes, empty pieces and "." are never shown, unless nothing else is left *)
Theorem C52_exact : forall pieces n s, (forall c, In c pieces -> ~ In 47%N c) -> n <> 0 ->
  (last_n_components (slashed pieces) (Some n) = Some s <-> shown n pieces s).
Proof.
  intros pieces n s F Hn. destruct (last_n_any pieces n) as (s' & E & S); [apply Forall_forall; exact F|exact Hn|]. rewrite E. split.
  - intros H. injection H as <-. exact S.
  - intros H. f_equal. apply (shown_unique n pieces); auto.
Qed.
Print Assumptions C52_exact.
Theorem C52_every_path : forall path, exists pieces, pieces <> [] /\ (forall c, In c pieces -> ~ In 47%N c) /\ path = slashed pieces.
Proof. intros path. destruct (pieces_exist path) as (cs & F & NE & E). exists cs. split; [exact NE|]. split; [|exact E]. apply Forall_forall. exact F. Qed.
Print Assumptions C52_every_path.

Example C52_exact_example :
  last_n_components (of_string "./x//y/./z/") (Some 9) = Some (of_string "x/y/z") /\
  last_n_components (of_string "./x//y/./z/") (Some 2) = Some (of_string "y/z") /\
  last_n_components (of_string "./.") (Some 2) = Some (of_string ".") /\
  last_n_components (of_string "//a/..") (Some 2) = Some (of_string "a/..") /\
  last_n_components (of_string "//a/..") (Some 3) = Some (of_string "/").
Proof. repeat split; vm_compute; reflexivity. Qed.
