(** C61: what is printed on stderr for the messages of a run. *)
From Coq Require Import List Arith NArith ZArith Bool Ascii String.
From Verif Require Import Base Model_Token Spec_Token Model_Utf8 Spec_Utf8 Model_Classify Model_Literal Model_Parse Spec_Parse Model_Sem
  Spec_Sem Spec_Errors Model_Names Spec_Names Model_Cli Spec_Run Spec_IR Model_LLVM Model_CGen Model_CFile Model_Pipeline Spec_Pipeline
  Spec_Printed Model_Errors Proof_Errors Proof_Errors2 Prop_LLVM Prop_Pipeline.
Import ListNotations.
Open Scope list_scope.
Open Scope N_scope.

(** * An outside for the examples *)

(** Files with mistakes. *)
Definition faulty (name : text) : option text :=
  if text_eqb name (u "type.sk") then Some (line "x: Int = true" ++ line "return x")
  else if text_eqb name (u "name.sk") then Some (line "x := 1" ++ line "y := x + zz")
  else if text_eqb name (u "parse.sk") then Some (line "if if {" ++ line "}")
  else if text_eqb name (u "quote.sk") then Some (line "noop" ++ line "noop" ++ u "x := ""abc")
  else if text_eqb name (u "byte.sk") then Some [97; 195; 169; 255; 10]
  else if text_eqb name (u "warn.sk") then Some ([239; 187; 191] ++ line "x := 1" ++ line "return 0")
  else if text_eqb name (u "tail.sk") then Some (u "if 1 +")
  else if text_eqb name (u "cut.sk") then Some (line "x := 1 + ]")
  else if text_eqb name (u "break.sk") then Some (line "if")
  else if text_eqb name (u "empty.sk") then Some []
  else None.
Definition wrong : outside toy :=
  mkoutside toy faulty (fun _ => true) (fun _ _ => false) (fun _ => false) (fun _ => Ok false)
    (fun _ => false) (fun _ => u "0x0p+0") (fun _ => true) (fun _ => true) (fun _ => true) (fun _ m => m) true
    (fun _ => true) (fun _ _ => true) (fun _ => Exited 0).
Definition screen (color : option text) (argv : list text) : res text := skull_errors toy unfolded wrong (u "No such file") color argv.

(** * Theorems *)

(** Each message of a run is printed, in order: the name of the file, the kind of message, the
    line and column if it has a location, and a sentence with the names and types that the
    message is about. The locations are those of characters of the file. Nothing is printed if
    -q was given. The exception is an operand that is missing at the end of the file. *)
Theorem messages_are_printed :
  forall H fold x why color argv c e notes b f, skull_main H fold x color argv = Ok (c, e, notes) ->
  cli_main color argv = Go b -> bd_filename b = Some f ->
  (forall contents, x_read H x f = Some contents -> Spec_Token.fits contents) ->
  (bd_quiet b = true -> notes = []) /\
  exists body lines,
    (forall contents, x_read H x f = Some contents -> text_of contents body \/ forall t, ~ text_of contents t) /\
    Forall (right_note body) notes /\
    skull_errors H fold x why color argv = Ok (List.concat lines) /\
    Forall2 (fun n t => printed (bd_color b) f body why n t \/
                        n = at_the_end /\ framed (bd_color b) f n (u "invalid expression near ""%s""") t) notes lines.
Proof. exact printed_l. Qed.
Print Assumptions messages_are_printed.

Example messages_are_printed_ex :
  screen None [u "type.sk"] = Ok (line "type.sk: Compilation error: line 1 column 10: expected type ""Int"", got ""Bool""") /\
  screen None [u "name.sk"] = Ok (line "name.sk: Compilation error: line 2 column 10: variable ""zz"" not found") /\
  screen None [u "parse.sk"] = Ok (line "parse.sk: Compilation error: line 1 column 4: invalid expression near ""if""") /\
  screen None [u "quote.sk"] = Ok (line "quote.sk: Compilation error: line 3 column 6: expected closing quote") /\
  screen None [u "byte.sk"] = Ok (line "byte.sk: Compilation error: illegal UTF8 sequence at character offset 2") /\
  screen None [u "warn.sk"; u "-E"] = Ok (line "warn.sk: Warning: BOM found" ++ line "warn.sk: Warning: line 1 column 1: variable ""x"" is unused") /\
  screen None [u "warn.sk"; u "-E"; u "-q"] = Ok [] /\
  screen None [u "cut.sk"] = Ok (line "cut.sk: Compilation error: line 1 column 8: expected expression after ""+""") /\
  screen None [u "empty.sk"] = Ok (line "empty.sk: Warning: file is empty").
Proof. vm_compute. repeat split. Qed.

(** Where an operand is missing at the end of the file, the sentence has no name filled in. *)
Theorem template_is_printed_refuted :
  exists H fold x why argv c e notes, skull_main H fold x None argv = Ok (c, e, notes) /\ In at_the_end notes /\
    skull_errors H fold x why None argv =
      Ok (line "tail.sk: Compilation error: line 1 column 6: expected expression after ""+""" ++
          line "tail.sk: Compilation error: invalid expression near ""%s""").
Proof.
  exists toy, unfolded, wrong, [], [u "tail.sk"], 1, [], [NoteParse (mkmsg (P_EXPECTED_EXPR (mktok (Some 5%nat) 1 T_OPER_PLUS (mkloc 1 6))) (Some (mkloc 1 6))); at_the_end].
  split; [vm_compute; reflexivity|]. split; [right; now left|vm_compute; reflexivity].
Qed.
Print Assumptions template_is_printed_refuted.

(** A message may take more than one line: it may name a line break. *)
Theorem one_line_per_message_refuted :
  exists H fold x why argv c e n, skull_main H fold x None argv = Ok (c, e, [n]) /\
    skull_errors H fold x why None argv =
      Ok (line "break.sk: Compilation error: line 1 column 3: invalid expression near """ ++ line """").
Proof.
  exists toy, unfolded, wrong, [], [u "break.sk"], 1, [], (NoteParse (mkmsg (P_INVALID_EXPR (Some (mktok (Some 2%nat) 1 T_NEWLINE (mkloc 1 3)))) (Some (mkloc 1 3)))).
  split; vm_compute; reflexivity.
Qed.
Print Assumptions one_line_per_message_refuted.
