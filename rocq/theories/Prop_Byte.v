(** * The process in bytes: C101 *)
From Coq Require Import Ascii String List NArith Arith Bool.
From Verif Require Import Base Spec DfaModel ValidateModel TableSpec TableModel ApiModel Messages MessageSpec WasmModel WasmSpec CliModel CliSpec
  FileModel FileSpec ShareModel ShareSpec WriteModel WriteSpec ArgsModel ArgsSpec ProcessModel ProcessSpec ByteModel ByteSpec ByteProofs
  Examples Prop_Dfa Prop_Cli Prop_Args Prop_Share.
Import ListNotations.
Close Scope string_scope.
Open Scope list_scope.

(** Bytes are read as the text that they encode, if they encode one; every text is encoded in one way, as bytes. *)
Theorem C101_texts : forall l s,
  (from_utf8 l = Some s <-> rust_text s /\ utf8 s l) /\ (exists l', utf8 s l') /\ (forall l', utf8 s l -> utf8 s l' -> l = l') /\
  (rust_text s -> utf8 s l -> Forall (fun b => (b < 256)%N) l).
Proof. intros l s. split; [apply from_utf8_spec|]. split; [apply utf8_exists|]. split; [apply utf8_unique|apply utf8_bytes]. Qed.
Print Assumptions C101_texts.

(** The process in bytes is the process in characters (C100): what it reads are the texts of the files, what arrives is the encoding of what
    arrives there, apart from one character, which is cut if the write that fails stops inside of it. *)
Theorem C101_every_process : forall fails, exists tfails, counts fails tfails /\ forall env files create hs argv, exists seen, finds files seen /\
  match byte_process fails env files create hs argv, process tfails env seen create hs argv with
  | Some (Ret e), Some (Ret t) => in_bytes t e
  | None, None => True
  | _, _ => False
  end.
Proof. exact process_in_bytes. Qed.
Print Assumptions C101_every_process.

(** What arrived, read again: a prefix of what should have arrived, or no text at all; the latter for at most one stream, and never after
    status 0. Rust's strings are texts. *)
Theorem C101_reread : forall fails env files create hs argv x, byte_process fails env files create hs argv = Some x -> exists e e0 seen,
  finds files seen /\ x = Ret e /\ process healthy env seen create hs argv = Some (Ret e0) /\ re_status e0 = 0%N /\
  (re_file e = None <-> re_file e0 = None) /\
  (forall st l, utf8 (brought e0 st) l -> prefix_of (brought e st) l /\ (re_status e = 0%N -> brought e st = l)) /\
  ((forall st, rust_text (brought e0 st)) ->
    (forall st t, from_utf8 (brought e st) = Some t -> prefix_of t (brought e0 st)) /\
    (re_status e = 0%N -> forall st, from_utf8 (brought e st) = Some (brought e0 st)) /\
    (forall st st', from_utf8 (brought e st) = None -> from_utf8 (brought e st') = None -> st = st')).
Proof. exact process_reread. Qed.
Print Assumptions C101_reread.

(** ** Examples *)
(** The four lengths; surrogates, overlong forms and numbers above 0x10FFFF are refused. *)
Example C101_text_example : map encode_char [97; 233; 8594; 128512]%N = [[97]; [195; 169]; [226; 134; 146]; [240; 159; 152; 128]]%N /\
  from_utf8 [97; 195; 169; 226; 134; 146; 240; 159; 152; 128]%N = Some [97; 233; 8594; 128512]%N /\
  map from_utf8 [[237; 160; 128]; [192; 128]; [224; 128; 128]; [244; 144; 128; 128]; [128]; [226; 134]; [255]]%N = repeat None 7.
Proof. vm_compute. auto. Qed.

Definition ex_bytes (l : list (str * list N)) : byte_sights := fun _ p =>
  match find (fun f => eqb (fst f) p) l with Some f => Ok (snd f) | None => Err (of_string "missing") end.
(** The file of the second automaton is called e with an acute accent; its name is cut. *)
Example C101_cut_example :
  let run fails := byte_process fails (ex_env [] false) (ex_bytes [(of_string "x", encode ex_all); ([233%N], encode ex_all)]) (fun _ => Ok tt) ex_orders
    (map of_string ["-o"; "out"; "--less-logs"; "equivalence"; "x"]%string ++ [[233%N]]) in
  let result := encode (233%N :: of_string ": Equivalent") in
  run healthy = Some (Ret (mk_run_end (result ++ [10%N]) [] (Some result) 0)) /\
  run (room ToStdout 1) = Some (Ret (mk_run_end [195%N] [] (Some []) 101)) /\
  run (room ToFile 1) = Some (Ret (mk_run_end (result ++ [10%N]) [] (Some [195%N]) 101)) /\
  from_utf8 [195%N] = None /\ from_utf8 result = Some (233%N :: of_string ": Equivalent").
Proof. vm_compute. auto. Qed.
(** A file that is no text is reported. *)
Example C101_invalid_example :
  byte_process healthy (ex_env [] false) (ex_bytes [(of_string "x", encode ex_all); (of_string "y", [195%N])]) (fun _ => Ok tt) ex_orders
    (line ["--less-logs"; "equivalence"; "x"; "y"]%string) =
  Some (Ret (mk_run_end (of_string "y: Failed to read (stream did not contain valid UTF-8)" ++ [10%N]) [] None 0)).
Proof. vm_compute. auto. Qed.
