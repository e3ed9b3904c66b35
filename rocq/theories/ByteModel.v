(** * ByteModel: the process in bytes

    Files, pipes and terminals hold bytes.  [fs::read_to_string] decodes UTF-8, [println!], [eprintln!] and [write_all] encode it, and a
    write that fails may stop in the middle of a character. *)
From Coq Require Import Ascii String List NArith Arith Bool.
From Verif Require Import Base Spec DfaModel NfaModel ValidateModel TableSpec TableModel ApiModel Messages CliModel FileModel ShareModel WriteModel ArgsModel.
Import ListNotations.
Close Scope string_scope.
Open Scope list_scope.

(** [str::as_bytes]: UTF-8 (dandy-cli/src/main.rs:301; 299 by [println!]) *)
Definition encode_char (c : N) : list N :=
  (if c <? 128 then [c]
   else if c <? 2048 then [192 + c / 64; 128 + c mod 64]
   else if c <? 65536 then [224 + c / 4096; 128 + (c / 64) mod 64; 128 + c mod 64]
   else [240 + c / 262144; 128 + (c / 4096) mod 64; 128 + (c / 64) mod 64; 128 + c mod 64])%N.
(** dandy-cli/src/main.rs:301 [as_bytes] *)
Definition encode (s : str) : list N := flat_map encode_char s.

(** [fs::read_to_string] (dandy-cli/src/automata.rs:69, dandy-cli/src/equivalence.rs:41, 154, dandy-cli/src/test_files.rs:29) accepts
    UTF-8 without overlong forms, surrogates, and values above 0x10FFFF.  Simplification: the standard library refuses those by their
    first two bytes, here the value is computed first. *)
Definition continuation (b : N) : bool := ((128 <=? b) && (b <? 192))%N.
(** the first character, and the bytes after it (dandy-cli/src/automata.rs:69) *)
Definition decode_char (l : list N) : option (N * list N) :=
  (match l with
   | [] => None
   | b :: l1 =>
       if b <? 128 then Some (b, l1)
       else match l1 with
            | [] => None
            | x :: l2 =>
                if negb (continuation x) then None
                else if (192 <=? b) && (b <? 224) then
                       let c := (b - 192) * 64 + (x - 128) in if 128 <=? c then Some (c, l2) else None
                else match l2 with
                     | [] => None
                     | y :: l3 =>
                         if negb (continuation y) then None
                         else if (224 <=? b) && (b <? 240) then
                                let c := (b - 224) * 4096 + (x - 128) * 64 + (y - 128) in
                                if (2048 <=? c) && negb ((55296 <=? c) && (c <? 57344)) then Some (c, l3) else None
                         else match l3 with
                              | [] => None
                              | z :: l4 =>
                                  if negb (continuation z) then None
                                  else if (240 <=? b) && (b <? 248) then
                                         let c := (b - 240) * 262144 + (x - 128) * 4096 + (y - 128) * 64 + (z - 128) in
                                         if (65536 <=? c) && (c <? 1114112) then Some (c, l4) else None
                                  else None
                              end
                     end
            end
   end)%N.
(** dandy-cli/src/automata.rs:69: all characters; there are at most as many as bytes *)
Fixpoint decode_upto (fuel : nat) (l : list N) : option str :=
  match l with
  | [] => Some []
  | _ => match fuel with
         | O => None
         | S fuel => match decode_char l with
                     | Some (c, r) => option_map (cons c) (decode_upto fuel r)
                     | None => None
                     end
         end
  end.
(** dandy-cli/src/automata.rs:69: the text of some bytes *)
Definition from_utf8 (l : list N) : option str := decode_upto (length l) l.

(** What the reads find, in bytes: dandy-cli/src/automata.rs:69, dandy-cli/src/equivalence.rs:41, 154, dandy-cli/src/test_files.rs:29 *)
Definition byte_sights : Type := nat -> str -> result (list N) str.
(** [fs::read_to_string] (dandy-cli/src/automata.rs:69): the message is the standard library's *)
Definition read_to_string (files : byte_sights) : sights := fun k p =>
  match files k p with
  | Err e => Err e
  | Ok l => match from_utf8 l with Some s => Ok s | None => Err (of_string "stream did not contain valid UTF-8") end
  end.

(** dandy-cli/src/main.rs:283-331 [main]: as [process] in ProcessModel.v, with bytes.  [fails] says which writes fail, after how many
    bytes. *)
Definition byte_process (fails : world) (env : cli_env) (files : byte_sights) (create : str -> result unit str) (hs : orders) (argv : list str)
  : option (R run_end) :=
  args <+ parse_args argv ;;
  Some ('(ev, r) <- shared_operation (with_log env (negb (da_no_log args))) (read_to_string files) hs (da_command args) ;;
        let file := match da_out args with None => None | Some p => Some (create p) end in
        let '(ws, status) := perform fails [] (map (fun w => (fst w, encode (snd w))) (run_writes file ev r)) in
        Ret (mk_run_end (arrived ws ToStdout) (arrived ws ToStderr) (match file with Some (Ok _) => Some (arrived ws ToFile) | _ => None end) status)).
