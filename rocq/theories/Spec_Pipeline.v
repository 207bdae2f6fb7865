(** What a run of the compiler may do to the outside. *)
From Coq Require Import List Arith NArith ZArith Bool Ascii String.
From Verif Require Import Base Model_Token Model_Utf8 Spec_Utf8 Model_Classify Model_Literal Model_Parse Spec_Parse Model_Sem
  Spec_Sem Model_Names Spec_Names Model_Cli Spec_Run Spec_IR Model_LLVM Model_CGen Model_CFile Model_Pipeline.
Import ListNotations.
Open Scope list_scope.
Open Scope N_scope.

Section Pipeline.
Variable H : host.
Variable fold : iop -> operand H -> operand H -> option (operand H).
Variable x : outside H.

(** Events that change files or run programs. *)
Definition touches (e : event H) : Prop := match e with Said _ _ => False | _ => True end.

(** `t` is what stands in front of the first NUL byte of `bytes`. *)
Definition until_nul (bytes t : text) : Prop :=
  ~ In 0 t /\ (bytes = t \/ exists rest, bytes = t ++ 0 :: rest).

(** The bytes are the UTF-8 form of the text `body`, perhaps behind a byte order mark. *)
Definition holds_text (bytes body : text) : Prop :=
  exists t, until_nul bytes t /\ (utf8 body t \/ utf8 (65279 :: body) t).

(** The tokens of a text. *)
Definition lexed (body : text) (ts : list token) : Prop :=
  exists raw, tokenize_text body = LOk raw /\ classify_tokens body raw = Ok ts.

(** The file holds a program that passes all checks; s and l are what the checks found out. *)
Definition file_accepted (b : build_data) (base file : text) (s : sst) (l : list tnode) : Prop :=
  exists bytes body ts tree,
    x_read H x file = Some bytes /\ holds_text bytes body /\ lexed body ts /\
    accepted (world_of H x b base) body ts tree s l.

(** The module for the program, or what the optimiser makes of it if one of -O1, -O2, -O3 is
    given. *)
Definition has_module (b : build_data) (s : sst) (l : list tnode) (m : module H) : Prop :=
  exists m0, gen_module H fold (s_syms s) (bd_debug b) l = Ok m0 /\
    (bd_optimize1 b = false /\ bd_optimize2 b = false /\ bd_optimize3 b = false /\ m = m0 \/
     exists level, (level = 1 /\ bd_optimize1 b = true \/ level = 2 /\ bd_optimize2 b = true \/
                    level = 3 /\ bd_optimize3 b = true) /\ m = x_passes H x level m0).

(** An output that is made from the program. *)
Definition made_from (b : build_data) (base : text) (s : sst) (l : list tnode) (o : output H) : Prop :=
  match o with
  | CText _ t => bd_c_backend b = true /\ c_file (c_env H x b base (s_syms s)) l = Ok t
  | IRText _ m => bd_c_backend b = false /\ bd_preprocess b = true /\ has_module b s l m
  | Assembly _ m => bd_c_backend b = false /\ bd_asm_backend b = true /\ has_module b s l m
  | Object _ m => bd_c_backend b = false /\ bd_asm_backend b = false /\ has_module b s l m
  end.

(** The name of the output: the argument of -o, `-` for -E, or the hidden file beside the
    source. *)
Definition named (b : build_data) (dash : bool) (path ext out : text) : Prop :=
  match bd_out_file b with
  | Some o => out = o
  | None => if dash then out = u "-" else hidden_sibling ext path out
  end.

(** Everything a successful run does for a program, by the kind of output that is asked for.
    The executable is named like the source without its last extension. *)
Inductive delivered (b : build_data) (base file : text) (s : sst) (l : list tnode) : list (event H) -> Prop :=
| dl_c : forall out t, bd_c_backend b = true -> named b (bd_preprocess b) file (u "c") out ->
    made_from b base s l (CText H t) ->
    delivered b base file s l [Wrote H out (CText H t)]
| dl_ir : forall out m, bd_c_backend b = false -> bd_preprocess b = true -> named b true file (u "ll") out ->
    made_from b base s l (IRText H m) -> delivered b base file s l [Wrote H out (IRText H m)]
| dl_asm : forall out m, bd_c_backend b = false -> bd_preprocess b = false -> bd_asm_backend b = true ->
    named b false base (u "s") out -> made_from b base s l (Assembly H m) ->
    delivered b base file s l [Wrote H out (Assembly H m)]
| dl_object : forall out m, bd_c_backend b = false -> bd_preprocess b = false -> bd_asm_backend b = false ->
    bd_compile_only b = true -> named b false base (u "o") out -> made_from b base s l (Object H m) ->
    delivered b base file s l [Wrote H out (Object H m)]
| dl_binary : forall out m name ext binary command, bd_c_backend b = false -> bd_preprocess b = false ->
    bd_asm_backend b = false -> bd_compile_only b = false ->
    named b false base (u "o") out -> made_from b base s l (Object H m) ->
    base = name ++ chr "." :: ext -> ~ In (chr ".") ext -> binary = name -> x_directory H x binary = false ->
    command = link_command out binary (match bd_extra_args b with Some t => t | None => [] end) ->
    (exists n, x_shell H x command = Exited n /\ n mod 256 = 0 \/ x_shell H x command = Killed n) ->
    delivered b base file s l [Wrote H out (Object H m); Ran H command; Removed H out].
End Pipeline.
