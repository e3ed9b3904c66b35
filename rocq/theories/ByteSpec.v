(** * ByteSpec: texts and bytes *)
From Coq Require Import Ascii String List NArith Arith Bool.
From Verif Require Import Base Spec DfaModel ValidateModel TableSpec TableModel ApiModel Messages CliModel FileModel ShareModel WriteModel ArgsModel
  CliSpec FileSpec ShareSpec WriteSpec ArgsSpec ByteModel.
Import ListNotations.
Close Scope string_scope.
Open Scope list_scope.

(** Unicode scalar values, the values of [char] *)
Definition scalar (c : N) : Prop := (c < 55296 \/ 57344 <= c < 1114112)%N.
(** Rust's strings *)
Definition rust_text (s : str) : Prop := Forall scalar s.

(** UTF-8: a character as one to four bytes, in the shortest form. (Numbers that are no characters get a form, too, but not always of
    bytes.) *)
Inductive utf8_char : N -> list N -> Prop :=
| utf8_1 c : (c < 128)%N -> utf8_char c [c]
| utf8_2 x y : (2 <= x < 32 -> y < 64 -> utf8_char (64 * x + y) [192 + x; 128 + y])%N
| utf8_3 x y z : (x < 16 -> y < 64 -> z < 64 -> 2048 <= 64 * (64 * x + y) + z -> utf8_char (64 * (64 * x + y) + z) [224 + x; 128 + y; 128 + z])%N
| utf8_4 w x y z : (x < 64 -> y < 64 -> z < 64 -> 65536 <= 64 * (64 * (64 * w + x) + y) + z ->
    utf8_char (64 * (64 * (64 * w + x) + y) + z) [240 + w; 128 + x; 128 + y; 128 + z])%N.
Inductive utf8 : str -> list N -> Prop :=
| utf8_nil : utf8 [] []
| utf8_cons c bs s l : utf8_char c bs -> utf8 s l -> utf8 (c :: s) (bs ++ l).

(** The texts that the reads find; bytes that are no text are an error. *)
Definition finds (files : byte_sights) (seen : sights) : Prop := forall k p,
  match files k p with
  | Err e => seen k p = Err e
  | Ok l => (exists s, rust_text s /\ utf8 s l /\ seen k p = Ok s) \/
            ((forall s, rust_text s -> ~ utf8 s l) /\ seen k p = Err (of_string "stream did not contain valid UTF-8"))
  end.

(** [t] is what is complete of [s] after [n] bytes. *)
Definition complete (n : nat) (s t : str) : Prop := exists rest l, s = t ++ rest /\ utf8 t l /\ length l <= n /\
  forall c r bs, rest = c :: r -> utf8_char c bs -> n < length l + length bs.

(** The beginning of a character, without its end *)
Definition cut_char (p : list N) : Prop := p = [] \/ exists c bs q, utf8_char c bs /\ bs = p ++ q /\ q <> [].

(** [e] in bytes is [t] in characters, up to a character that is cut in at most one stream, and only if a write failed. *)
Definition in_bytes (t e : run_end) : Prop :=
  re_status e = re_status t /\ (re_file e = None <-> re_file t = None) /\
  exists st p, cut_char p /\ (re_status t = 0%N -> p = []) /\ (st = ToFile -> re_file t = None -> p = []) /\
    forall st', exists l, utf8 (brought t st') l /\ brought e st' = l ++ (if stream_eqb st st' then p else []).

(** Writes that fail after some bytes, counted in characters *)
Definition counts (fails tfails : world) : Prop := forall out err file st s o e f l, utf8 out o -> utf8 err e -> utf8 file f -> utf8 s l ->
  match fails o e f st l with
  | None => tfails out err file st s = None
  | Some n => exists k, tfails out err file st s = Some k /\ complete n s (firstn k s)
  end.
