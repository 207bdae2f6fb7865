(** Model of the functions that build file names and symbol names in malloc'ed
    buffers: skull/common/io.c (gen_filename), skull/semantic/mangle.c,
    skull/codegen/abi.c, skull/codegen/shared.c, skull/semantic/import.c,
    skull/common/str.c (strrstr), skull/cli.c (squash_argv), skull/real_main.c
    (name checks). *)
From Coq Require Import List Arith NArith Bool Lia Ascii String.
From Verif Require Import Base.
Import ListNotations.
Open Scope list_scope.
Open Scope N_scope.

(** A char buffer; `None` is a byte not yet written. Models the blocks returned by
    Malloc (skull/common/malloc.c:17-22). *)
Definition buf := list (option N).

(** Malloc(n), skull/common/malloc.c:17-22 (failure exits, not modelled). *)
Definition malloc (n : N) : buf := repeat None (N.to_nat n).

(** `size_t` subtraction with wrap around (LP64). *)
Definition size_sub (a b : N) : N := (a + 2 ^ 64 - b) mod 2 ^ 64.

(** strlen *)
Definition strlen (s : text) : N := N.of_nat (List.length s).

(** Store `cs` from index `off` on, undefined when it does not fit. *)
Definition put (b : buf) (off : N) (cs : list N) : res buf :=
  if off + N.of_nat (List.length cs) <=? N.of_nat (List.length b) then
    Ok (firstn (N.to_nat off) b ++ map Some cs ++
        skipn (N.to_nat off + List.length cs) b)
  else UB.

(** `b[off] = c` *)
Definition put1 (b : buf) (off c : N) : res buf := put b off [c].

(** strncpy(b + off, src, n): writes exactly n bytes, padding with NUL; checked
    against the size of the block before anything is written. *)
Definition strncpy (b : buf) (off : N) (src : text) (n : N) : res buf :=
  if off + n <=? N.of_nat (List.length b) then
    put b off (firstn (N.to_nat n) (src ++ repeat 0 (N.to_nat n)))
  else UB.

(** Reading a buffer as a C string: undefined when no NUL is found or when an
    unwritten byte is met first. *)
Fixpoint cstr (b : buf) : res text :=
  match b with
  | [] => UB
  | None :: _ => UB
  | Some c :: b' => if c =? 0 then Ok [] else do t <- cstr b'; Ok (c :: t)
  end.

(** strrchr: index of the last `c`. *)
Fixpoint strrchr (s : text) (c : N) : option nat :=
  match s with
  | [] => None
  | x :: s' => match strrchr s' c with
               | Some i => Some (S i)
               | None => if x =? c then Some O else None
               end
  end.

(** Character constants of the C code. *)
Definition slash : N := chr "/".
Definition dot : N := chr ".".

(** gen_filename, skull/common/io.c:79-104. *)
Definition gen_filename (filename ext : text) : res text :=
  let len := strlen filename in
  let ext_len := strlen ext in
  let new := malloc (len + 3 + ext_len) in
  do new <-
    match strrchr filename slash with
    | None =>
        do new <- put1 new 0 dot;
        strncpy new 1 filename (len + 1)
    | Some off =>
        let offset := N.of_nat off in
        do new <- strncpy new 0 filename (len + 1);
        do new <- put1 new (offset + 1) dot;
        strncpy new (offset + 2) (skipn (off + 1) filename) (len - offset)
    end;
  do new <- put1 new (len + 1) dot;
  do new <- strncpy new (len + 2) ext (ext_len + 1);
  cstr new.

(** The part of a path after its last slash: skull/semantic/mangle.c:10-12,
    skull/codegen/abi.c:13-17. *)
Definition basename (s : text) : text :=
  match strrchr s slash with Some i => skipn (i + 1) s | None => s end.

(** mangle_name, skull/semantic/mangle.c:9-25; `filename` is BUILD_DATA.filename. *)
Definition mangle_name (filename name : text) : res text :=
  let module_name := basename filename in
  let module_len := size_sub (strlen module_name) 2 in
  let name_len := strlen name in
  let new := malloc ((module_len + name_len + 2) mod 2 ^ 64) in
  do new <- strncpy new 0 module_name module_len;
  do new <- put1 new module_len dot;
  do new <- strncpy new module_len name name_len;
  do new <- put1 new (module_len + name_len) 0;
  cstr new.

(** create_main_func_name, skull/codegen/abi.c:10-27; `None` is a NULL name. *)
Definition create_main_func_name (filename : option text) : res text :=
  let filename := match filename with None => [] | Some f => f end in
  let filename := basename filename in
  let len := match filename with [] => 2 | _ => size_sub (strlen filename) 1 end in
  let ret := malloc len in
  do ret <- put1 ret 0 dot;
  do ret <- strncpy ret 1 filename (size_sub len 1);
  do ret <- put1 ret (size_sub len 1) 0;
  cstr ret.

(** filename_for_module, skull/semantic/import.c:49-58. *)
Definition filename_for_module (module_name : text) : res text :=
  let len := strlen module_name in
  let b := malloc (len + 4) in
  do b <- strncpy b 0 module_name len;
  do b <- strncpy b len (u ".sk") 4;
  do b <- put1 b (len + 3) 0;
  cstr b.

(** current_file_dir, skull/semantic/import.c:60-72. *)
Definition current_file_dir (filename : text) : res text :=
  let directory := map Some filename ++ [Some 0] in
  do directory <-
    match strrchr filename slash with
    | Some (S i) => put1 directory (N.of_nat (S i)) 0
    | _ => do d <- put1 directory 0 dot; put1 d 1 0
    end;
  cstr directory.

(** get_binary_name, skull/codegen/llvm/write.c:151-157; without a dot the code
    subtracts from a null pointer. *)
Definition get_binary_name (filename : text) : res text :=
  match strrchr filename dot with
  | None => UB
  | Some i => do b <- put1 (map Some filename ++ [Some 0]) (N.of_nat i) 0; cstr b
  end.

(** Does `sub` start here? `strncmp(look, sub, sub_len) == 0`,
    skull/common/str.c:217. *)
Fixpoint starts_with (s sub : text) : bool :=
  match sub, s with
  | [], _ => true
  | y :: sub', x :: s' => (x =? y) && starts_with s' sub'
  | _ :: _, [] => false
  end.

(** The downward loop of strrstr: look at index i, then i-1, ... 0
    (skull/common/str.c:216-221). *)
Fixpoint strrstr_from (s sub : text) (i : nat) : option nat :=
  if starts_with (skipn i s) sub then Some i
  else match i with O => None | S i' => strrstr_from s sub i' end.

(** strrstr, skull/common/str.c:207-222; index of the last occurrence. *)
Definition strrstr (s sub : text) : option nat :=
  if (List.length s <? List.length sub)%nat then None
  else strrstr_from s sub (List.length s - List.length sub).

(** The name checks at the start of compile_file, skull/real_main.c:42-48. *)
Definition name_accepted (filename : text) : bool :=
  match strrstr filename (u ".sk") with
  | None => false
  | Some O => false
  | Some _ => match strrstr filename (u "/.sk") with None => true | Some _ => false end
  end.

(** get_new_filename, skull/codegen/shared.c:9-20; the first three arguments are
    BUILD_DATA.out_file, BUILD_DATA.preprocess and BUILD_DATA.c_backend. *)
Definition get_new_filename (out_file : option text) (preprocess c_backend : bool)
    (filename ext : text) : res text :=
  match out_file with
  | Some o => if preprocess || c_backend then Ok o
              else gen_filename filename ext
  | None => if preprocess then Ok (u "-") else gen_filename filename ext
  end.

(** Second loop of squash_argv, skull/cli.c:275-281. *)
Fixpoint squash_loop (argv : list text) (out : buf) (wrote : N) : res (buf * N) :=
  match argv with
  | [] => Ok (out, wrote)
  | a :: argv' =>
      let current_len := strlen a + 1 in
      do out <- put out wrote (a ++ [0]);
      let wrote := wrote + current_len in
      do out <- put1 out (size_sub wrote 1) (chr " ");
      squash_loop argv' out wrote
  end.

(** squash_argv, skull/cli.c:261-286. *)
Definition squash_argv (argv : list text) : res text :=
  let len := fold_right (fun a n => strlen a + 1 + n) 0 argv in
  do r <- squash_loop argv (malloc len) 0;
  let '(out, wrote) := r in
  do out <- put1 out (size_sub wrote 1) 0;
  cstr out.
