(** Model of the driver: skull/real_main.c, skull/pipeline.c, skull/codegen/backend.c,
    skull/codegen/llvm/write.c and the writing half of skull/codegen/c/write.c.

    What the compiler does to the outside is a list of events. Messages are kept in order and
    printed when a file is done (skull/real_main.c:30); their text is in Model_Errors.v. Freeing
    and closing are not modelled. BUILD_DATA.filename is taken to be set, as skull/cli.c:55 does. *)
From Coq Require Import List Arith NArith ZArith Bool Ascii String.
From Verif Require Import Base Model_Token Model_Utf8 Model_Classify Model_Literal Model_Parse Model_Sem
  Model_Names Model_Cli Spec_Run Spec_IR Model_LLVM Model_CGen Model_CFile.
Import ListNotations.
Open Scope list_scope.
Open Scope N_scope.

Section Pipeline.
Variable H : host.
Variable fold : iop -> operand H -> operand H -> option (operand H).

(** How a command that was run by `sh` ended (skull/codegen/llvm/write.c:224-227). *)
Inductive status := Exited (code : N) | Killed (signal : N).

(** What the outside answers: the bytes of a file that can be opened and read (None if
    open_file fails, skull/common/io.c:52-73); whether a file can be opened for writing; whether a
    directory has a file (skull/semantic/import.c:23-35); whether a path is a directory
    (skull/common/io.c:106-111); iscntrl above 255 and ERANGE of strtod as in Model_Sem.v; the
    format `%a` and the test for zero as in Model_CGen.v. Then the parts of LLVM: linking the
    helpers (write.c:411-445), verifying (write.c:71-91), optimising with a list of passes
    (write.c:93-118), finding the machine (write.c:233-285), printing a module to a file
    (write.c:132-147) and emitting assembly (true) or an object (false) to a file
    (write.c:312-324). Last how a command ends. *)
Record outside := mkoutside {
  x_read : text -> option text;
  x_writable : text -> bool;
  x_module : text -> text -> bool;
  x_directory : text -> bool;
  x_wide : N -> res bool;
  x_range : fval -> bool;
  x_hex : fval -> text;
  x_zero : fval -> bool;
  x_helpers : module H -> bool;
  x_verify : module H -> bool;
  x_passes : N -> module H -> module H;
  x_machine : bool;
  x_print : text -> bool;
  x_emit : bool -> text -> bool;
  x_shell : text -> status }.
Variable x : outside.

(** What is written to a file: C text, or a module in one of three forms. *)
Inductive output := CText (t : text) | IRText (m : module H) | Assembly (m : module H) | Object (m : module H).

(** What the driver does to the outside. Lines that the driver prints to stderr by itself are
    `Said` with a number for the place. *)
Inductive event :=
| Wrote (file : text) (what : output)
| Ran (command : text)
| Removed (file : text)
| Said (place : N).

(** The messages of the stages (skull/common/errors.c:114-119). An empty file is an error
    (skull/pipeline.c:47) or a warning (skull/real_main.c:56). *)
Inductive note :=
| NoteDecode (at_ : N)
| NoteBom
| NoteLex (e : lexerr) (l : location)
| NoteParse (m : message)
| NoteCheck (m : smsg)
| NoteEmpty (fatal : bool).

(** What is left behind: BUILD_DATA, whether `extra_args` points to freed memory, the result
    (true is failure), the events and the messages. *)
Record run := mkrun {
  r_data : build_data;
  r_freed : bool;
  r_failed : bool;
  r_events : list event;
  r_notes : list note }.

(** Bytes in front of the first NUL: what C strings functions see, skull/common/str.c:119. *)
Fixpoint c_string (s : text) : text :=
  match s with [] => [] | c :: r => if c =? 0 then [] else c :: c_string r end.

(** The settings that the checks look at. A directory or a file name that is not built without
    an out of bounds access does not occur, see accepted names in Prop_Names.v. *)
Definition world_of (b : build_data) (file : text) : world :=
  mkworld (bd_werror b) (bd_quiet b) (x_wide x) (x_range x)
    (fun m => match current_file_dir file, filename_for_module m with
              | Ok d, Ok f => x_module x d f
              | _, _ => false
              end).

(** `linkage_name`, skull/semantic/assign.c:112 and skull/semantic/func.c:78-80. *)
Definition linkage_of (file : text) (ys : list symbol) (k : nat) : option text :=
  match nth_error ys k with
  | None => None
  | Some y =>
      let exported := match y_kind y with KVar v => v_exported v | KFunc f => f_export f | _ => false end in
      if exported then match mangle_name file (y_name y) with Ok t => Some t | UB => None end
      else Some (y_name y)
  end.

(** What surrounds the C back end. *)
Definition c_env (b : build_data) (file : text) (ys : list symbol) : cctx :=
  mkcctx ys (x_hex x) (x_zero x) (linkage_of file ys) (bd_debug b) file.

(** run_backend, skull/codegen/backend.c:7-23, for the C back end: gen_module_c and
    write_file_c, skull/codegen/c/write.c:28-46. Printing to a NULL stream is undefined. *)
Definition c_backend (b : build_data) (freed : bool) (base filename : text) (s : sst) (l : list tnode) : res run :=
  do t <- c_file (c_env b base (s_syms s)) l;
  do out <- get_new_filename (bd_out_file b) (bd_preprocess b) (bd_c_backend b) filename (u "c");
  if text_eqb out (u "-") || x_writable x out then
    Ok (mkrun b freed false [Wrote out (CText t)] [])
  else UB.

(** will_build_binary, skull/codegen/llvm/write.c:331-337. *)
Definition will_build_binary (b : build_data) : bool :=
  negb (bd_preprocess b || bd_compile_only b || bd_asm_backend b).

(** optimize_llvm, skull/codegen/llvm/write.c:93-118: None is PHASE_ERR. *)
Definition optimize_llvm (b : build_data) (m : module H) : option (module H) :=
  if bd_optimize1 b || bd_optimize2 b || bd_optimize3 b then
    if x_machine x then Some (x_passes x (if bd_optimize1 b then 1 else if bd_optimize2 b then 2 else 3) m)
    else None
  else Some m.

(** WEXITSTATUS, skull/codegen/llvm/write.c:226: the bits above the signal. *)
Definition wexitstatus (s : status) : N := match s with Exited c => c mod 256 | Killed _ => 0 end.

(** The command line of emit_native_binary, skull/codegen/llvm/write.c:193-198. *)
Definition link_command (object binary extra : text) : text :=
  u "cc -nostartfiles " ++ quote ++ object ++ quote ++ u " -o " ++ quote ++ binary ++ quote ++ u " " ++
  extra ++ u " -I/usr/include/skull -lm".

(** emit_native_binary, skull/codegen/llvm/write.c:187-212. `before` are the events so far.
    Reading freed memory is undefined. *)
Definition emit_native_binary (b : build_data) (freed : bool) (base out : text) (before : list event) : res run :=
  do binary <- get_binary_name base;
  if x_directory x binary then Ok (mkrun b freed true (before ++ [Said 1]) [])
  else
    do extra <- match bd_extra_args b with
                | None => Ok []
                | Some t => if freed then UB else Ok t
                end;
    let command := link_command out binary extra in
    let failed := negb (wexitstatus (x_shell x command) =? 0) in
    Ok (mkrun b (match bd_extra_args b with None => freed | Some _ => true end) failed
          (before ++ [Ran command; Removed out]) []).

(** emit_stage_1, skull/codegen/llvm/write.c:294-329, output_llvm_ir, 120-150, and what follows
    in write_llvm, 67-70. The file name of compile_file ends the output of IR to "-", but such a
    name is no source name (skull/real_main.c:42). *)
Definition emit_stage_1 (b : build_data) (freed : bool) (base filename : text) (m : module H) : res run :=
  if bd_preprocess b then
    if text_eqb filename (u "-") then Ok (mkrun b freed false [Said 2] [])
    else
      do out <- get_new_filename (bd_out_file b) (bd_preprocess b) (bd_c_backend b) filename (u "ll");
      if x_print x out then Ok (mkrun b freed false [Wrote out (IRText m)] [])
      else Ok (mkrun b freed true [Said 3] [])
  else if negb (x_machine x) then Ok (mkrun b freed true [Said 4] [])
  else
    do out <- match bd_out_file b with
              | Some o => Ok o
              | None => gen_filename base (if bd_asm_backend b then u "s" else u "o")
              end;
    let b := set_out_file b out in
    if negb (bd_asm_backend b) && text_eqb out (u "-") then Ok (mkrun b freed true [Said 5] [])
    else if negb (x_emit x (bd_asm_backend b) out) then Ok (mkrun b freed true [Said 6] [])
    else
      let event := Wrote out (if bd_asm_backend b then Assembly m else Object m) in
      if bd_compile_only b || bd_asm_backend b then Ok (mkrun b freed false [event] [])
      else emit_native_binary b freed base out [event].

(** run_backend for the LLVM back end: gen_module and write_llvm,
    skull/codegen/llvm/write.c:54-70. *)
Definition llvm_backend (b : build_data) (freed : bool) (base filename : text) (s : sst) (l : list tnode) : res run :=
  do m <- gen_module H fold (s_syms s) (bd_debug b) l;
  if will_build_binary b && negb (x_helpers x m) then Ok (mkrun b freed true [Said 7] [])
  else if negb (bd_llvm_no_verify b) && negb (x_verify x m) then Ok (mkrun b freed true [Said 8] [])
  else
    match optimize_llvm b m with
    | None => Ok (mkrun b freed true [Said 4] [])
    | Some m => emit_stage_1 b freed base filename m
    end.

(** The messages of a stage in front of what follows. *)
Definition with_notes (n : list note) (r : run) : run :=
  mkrun (r_data r) (r_freed r) (r_failed r) (r_events r) (n ++ r_notes r).

(** A file that a stage rejects. *)
Definition rejected (b : build_data) (freed : bool) (n : list note) : res run := Ok (mkrun b freed true [] n).

(** `node->type == AST_NODE_UNKNOWN && !node->child`, skull/pipeline.c:40. *)
Definition empty_tree (tree : list node) : bool :=
  match tree with
  | mknode N_UNKNOWN _ _ _ [] :: _ => true
  | _ => false
  end.

(** run_pipeline behind parse_ast_tree, skull/pipeline.c:39-75. `body` is the text that the
    tokens point into. *)
Definition check_and_generate (b : build_data) (freed : bool) (base filename body : text) (tree : list node)
    : res run :=
  if empty_tree tree then rejected b freed [NoteEmpty true]
  else
    match validate_ast_tree (world_of b base) body tree with
    | Model_Sem.Crash => UB
    | Stop m => rejected b freed (map NoteCheck (rev m))
    | Pass s l =>
        do r <- (if bd_c_backend b then c_backend b freed base filename s l
                 else llvm_backend b freed base filename s l);
        Ok (with_notes (map NoteCheck (rev (s_msgs s))) r)
    end.

(** run_pipeline, skull/pipeline.c:24-76. Running out of fuel does not occur: tokenizer_ends in
    Prop_Token.v, parser_finishes in Prop_Parse.v. *)
Definition run_pipeline (b : build_data) (freed : bool) (base filename contents : text) : res run :=
  match mbstoc32s (c_string contents) with
  | DecodeFuel => UB
  | IllegalAt i => rejected b freed [NoteDecode i]
  | Decoded src =>
      match tokenize (bd_werror b) src with
      | LexUB | LexFuel => UB
      | Rejected bom e =>
          rejected b freed ((if bom then [NoteBom] else []) ++
                            match e with Some (e, l) => [NoteLex e l] | None => [] end)
      | Tokens bom ts =>
          let body := if bom then tl src else src in
          do ts <- classify_tokens body ts;
          match parse_ast_tree ts with
          | Bad => UB
          | Fuel => UB
          | Ret m None =>
              rejected b freed ((if bom then [NoteBom] else []) ++ map NoteParse m)
          | Ret m (Some tree) =>
              do r <- check_and_generate b freed base filename body tree;
              Ok (with_notes ((if bom then [NoteBom] else []) ++ map NoteParse m) r)
          end
      end
  end.

(** compile_file, skull/real_main.c:41-64, with file_to_string, skull/common/io.c:20-44: an empty
    file gives NULL. *)
Definition compile_file (b : build_data) (freed : bool) (base filename : text) : res run :=
  if negb (name_accepted filename) then Ok (mkrun b freed true [Said 9] [])
  else
    match x_read x filename with
    | None => Ok (mkrun b freed true [Said 10] [])
    | Some [] => Ok (mkrun b freed (bd_werror b) [] [NoteEmpty false])
    | Some contents => run_pipeline b freed base filename contents
    end.

(** The loop of real_main, skull/real_main.c:28-33, with the messages that are printed in the
    end unless BUILD_DATA.quiet is set (skull/common/errors.c:262-265). *)
Fixpoint real_main_loop (b : build_data) (freed : bool) (base : text) (files : list text)
    : res (bool * list event * list note) :=
  match files with
  | [] => Ok (false, [], [])
  | f :: files =>
      do r <- compile_file b freed base f;
      let notes := if bd_quiet b then [] else r_notes r in
      if r_failed r then Ok (true, r_events r, notes)
      else
        do (failed, events, notes') <- real_main_loop (r_data r) (r_freed r) base files;
        Ok (failed, r_events r ++ events, notes ++ notes')
  end.

(** main, skull/cli.c:30-59, with real_main, skull/real_main.c:21-36: the exit code, the events
    and the messages that are printed. *)
Definition skull_main (color : option text) (argv : list text) : res (N * list event * list note) :=
  match cli_main color argv with
  | Exit c => Ok (c, [], [])
  | Model_Cli.Crash => UB
  | Go b =>
      match bd_filename b with
      | None => UB
      | Some f =>
          do (failed, events, notes) <- real_main_loop b false f [f];
          Ok (if failed then 1 else 0, events, notes)
      end
  end.
End Pipeline.
