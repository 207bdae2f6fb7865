(** Model of the command line handling in skull/cli.c. *)
From Coq Require Import List Arith NArith Bool Lia Ascii String.
From Verif Require Import Base Model_Names.
Import ListNotations.
Open Scope list_scope.
Open Scope N_scope.

(** The boolean fields of BuildData that options can set
    (skull/build_data.h:7-19; llvm_backend is set later by the pipeline). *)
Inductive flag :=
| FQuiet | FCBackend | FAsm | FDebug | FPreprocess | FCompileOnly | FWerror
| FO1 | FO2 | FO3 | FNoVerify | FColor.

(** struct BuildData, skull/build_data.h:3-20. *)
Record build_data := mkbd {
  bd_filename : option text;
  bd_out_file : option text;
  bd_extra_args : option text;
  bd_quiet : bool;
  bd_c_backend : bool;
  bd_asm_backend : bool;
  bd_debug : bool;
  bd_preprocess : bool;
  bd_compile_only : bool;
  bd_werror : bool;
  bd_optimize1 : bool;
  bd_optimize2 : bool;
  bd_optimize3 : bool;
  bd_llvm_no_verify : bool;
  bd_color : bool }.

(** Reading a field by name. *)
Definition get_flag (b : build_data) (f : flag) : bool :=
  match f with
  | FQuiet => bd_quiet b | FCBackend => bd_c_backend b | FAsm => bd_asm_backend b
  | FDebug => bd_debug b | FPreprocess => bd_preprocess b
  | FCompileOnly => bd_compile_only b | FWerror => bd_werror b
  | FO1 => bd_optimize1 b | FO2 => bd_optimize2 b | FO3 => bd_optimize3 b
  | FNoVerify => bd_llvm_no_verify b | FColor => bd_color b
  end.

(** Equality of field names. *)
Definition flag_eqb (a b : flag) : bool :=
  match a, b with
  | FQuiet, FQuiet | FCBackend, FCBackend | FAsm, FAsm | FDebug, FDebug
  | FPreprocess, FPreprocess | FCompileOnly, FCompileOnly | FWerror, FWerror
  | FO1, FO1 | FO2, FO2 | FO3, FO3 | FNoVerify, FNoVerify | FColor, FColor => true
  | _, _ => false
  end.

(** Storing true into a field by name (`*flag = true`, skull/cli.c:173). *)
Definition raise_flag (b : build_data) (f : flag) : build_data :=
  let s g := get_flag b g || flag_eqb f g in
  mkbd (bd_filename b) (bd_out_file b) (bd_extra_args b)
    (s FQuiet) (s FCBackend) (s FAsm) (s FDebug) (s FPreprocess) (s FCompileOnly)
    (s FWerror) (s FO1) (s FO2) (s FO3) (s FNoVerify) (s FColor).

(** `BUILD_DATA.filename = argv[0]`, skull/cli.c:70. *)
Definition set_filename (b : build_data) (t : text) : build_data :=
  mkbd (Some t) (bd_out_file b) (bd_extra_args b) (bd_quiet b) (bd_c_backend b)
    (bd_asm_backend b) (bd_debug b) (bd_preprocess b) (bd_compile_only b) (bd_werror b)
    (bd_optimize1 b) (bd_optimize2 b) (bd_optimize3 b) (bd_llvm_no_verify b) (bd_color b).

(** `BUILD_DATA.out_file = strdup(argv[1])`, skull/cli.c:134. *)
Definition set_out_file (b : build_data) (t : text) : build_data :=
  mkbd (bd_filename b) (Some t) (bd_extra_args b) (bd_quiet b) (bd_c_backend b)
    (bd_asm_backend b) (bd_debug b) (bd_preprocess b) (bd_compile_only b) (bd_werror b)
    (bd_optimize1 b) (bd_optimize2 b) (bd_optimize3 b) (bd_llvm_no_verify b) (bd_color b).

(** `BUILD_DATA.extra_args = squash_argv(argv + 1)`, skull/cli.c:151. *)
Definition set_extra_args (b : build_data) (t : text) : build_data :=
  mkbd (bd_filename b) (bd_out_file b) (Some t) (bd_quiet b) (bd_c_backend b)
    (bd_asm_backend b) (bd_debug b) (bd_preprocess b) (bd_compile_only b) (bd_werror b)
    (bd_optimize1 b) (bd_optimize2 b) (bd_optimize3 b) (bd_llvm_no_verify b) (bd_color b).

(** What a run of the argument code ends in: leaving the process with a code, going
    on with the collected settings, or undefined behaviour. Output text is not
    modelled. *)
Inductive outcome :=
| Exit (code : N)
| Go (b : build_data)
| Crash.

(** set_bool_flag and check_duplicate_flag, skull/cli.c:163-174: the settings, or
    the exit code. *)
Definition set_bool_flag (b : build_data) (f : flag) : build_data + N :=
  if get_flag b f then inr 1 else inl (raise_flag b f).

(** parse_long_option, skull/cli.c:230-259. `color_env` tells whether COLOR is set.
    usage and version return 0 (skull/cli.c:176-227; RELEASE is always defined by
    skull/cli.c:14-16, so the `git describe` branch is never compiled). *)
Definition parse_long_option (color_env : bool) (b : build_data) (arg : text) : build_data + N :=
  if text_eqb arg (u "version") then inr 0
  else if text_eqb arg (u "help") then inr 0
  else if text_eqb arg (u "c-backend") then set_bool_flag b FCBackend
  else if text_eqb arg (u "werror") then set_bool_flag b FWerror
  else if text_eqb arg (u "llvm-no-verify") then set_bool_flag b FNoVerify
  else if text_eqb arg (u "color") then
    if color_env then inr 1 else set_bool_flag b FColor
  else inr 1.

(** Character at index i of a C string (0 at the terminator). *)
Definition at_ (t : text) (i : nat) : N := nth i t 0.

(** The letters tested by the switch in handle_args, skull/cli.c:84-158. *)
Definition c_dash := chr "-".

(** handle_args, skull/cli.c:66-161; recursion on the remaining arguments. *)
Fixpoint handle_args (color_env : bool) (b : build_data) (argv : list text) : outcome :=
  match argv with
  | [] => Go b
  | a :: rest =>
      if negb (at_ a 0 =? c_dash) then handle_args color_env (set_filename b a) rest
      else
        let first_char := at_ a 1 in
        let continue (r : build_data + N) :=
          match r with
          | inl b' => handle_args color_env b' rest
          | inr code => Exit code
          end in
        if negb (first_char =? chr "O") &&
           (negb (first_char =? 0) && negb (first_char =? c_dash) && negb (at_ a 2 =? 0))
        then Exit 1
        else if first_char =? chr "h" then Exit 0
        else if first_char =? chr "v" then Exit 0
        else if first_char =? chr "c" then continue (set_bool_flag b FCompileOnly)
        else if first_char =? chr "S" then continue (set_bool_flag b FAsm)
        else if first_char =? chr "E" then continue (set_bool_flag b FPreprocess)
        else if first_char =? chr "g" then continue (set_bool_flag b FDebug)
        else if first_char =? chr "q" then continue (set_bool_flag b FQuiet)
        else if first_char =? chr "O" then
          if at_ a 2 =? chr "1" then continue (set_bool_flag b FO1)
          else if at_ a 2 =? chr "2" then continue (set_bool_flag b FO2)
          else if at_ a 2 =? chr "3" then continue (set_bool_flag b FO3)
          else Exit 1
        else if first_char =? chr "o" then
          match bd_out_file b with
          | Some _ => Exit 1
          | None =>
              match rest with
              | [] => Exit 1
              | o :: rest' => handle_args color_env (set_out_file b o) rest'
              end
          end
        else if first_char =? c_dash then
          if negb (at_ a 2 =? 0) then continue (parse_long_option color_env b (skipn 2 a))
          else
            match rest with
            | [] => Exit 1
            | _ => match squash_argv rest with
                   | Ok t => Go (set_extra_args b t)
                   | UB => Crash
                   end
            end
        else Exit 1
  end.

(** handle_env, skull/cli.c:61-64: the value of COLOR, if any. *)
Definition handle_env (color : option text) : build_data :=
  mkbd None None None false false false false false false false false false false false
    (match color with Some t => at_ t 0 =? chr "1" | None => false end).

(** `_Bool` as a summand. *)
Definition b2n (b : bool) : N := if b then 1 else 0.

(** build_data_valid, skull/cli.c:291-330. *)
Definition build_data_valid (b : build_data) : bool :=
  if 1 <? b2n (bd_optimize1 b) + b2n (bd_optimize2 b) + b2n (bd_optimize3 b) then false
  else if bd_c_backend b && bd_llvm_no_verify b then false
  else if bd_quiet b && bd_werror b then false
  else if bd_asm_backend b && bd_c_backend b then false
  else if 1 <? b2n (bd_preprocess b) + b2n (bd_asm_backend b) + b2n (bd_compile_only b) then false
  else true.

(** main up to the call of real_main, skull/cli.c:30-54; `argv` are the arguments
    behind the program name. `Go` means real_main is called on `bd_filename`. *)
Definition cli_main (color : option text) (argv : list text) : outcome :=
  match argv with
  | [] => Exit 0
  | _ =>
      match handle_args (match color with Some _ => true | None => false end)
                        (handle_env color) argv with
      | Exit c => Exit c
      | Crash => Crash
      | Go b =>
          if negb (build_data_valid b) then Exit 1
          else match bd_filename b with
               | None => Exit 1
               | Some f => match strrstr f (u ".sk") with
                           | None => Exit 1
                           | Some _ => Go b
                           end
               end
      end
  end.
