(** * ShippedSpec: what the example files and benchmarks of the repository mean *)
From Coq Require Import String List NArith Arith Bool.
From Verif Require Import Base Spec Messages DocSpec.
Import ListNotations.
Local Open Scope list_scope.

(** lines of text, each ended by a line feed *)
Definition text (l : list str) : str := flat_map (fun s => s ++ [10%N]) l.
Definition strings (l : list string) : list str := map of_string l.

(** The language of the example tree: words of a and b with an even number of a *)
Definition even_number_of_as (w : word) : Prop := over [la; lb] w /\ Nat.even (occurrences la w) = true.

(** dandy/benches/example_regexes/regex6.txt:1: the words of the benchmarked expression *)
Definition bench_words : list str :=
  strings ["v"; "t"; "w"; "u"; "m"; "o"; "c"; "z"; "i"; "b"; "r"; "g"; "moblvpxmljcsudq"; "k"; "h"; "q"]%string.
