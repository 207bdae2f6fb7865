(** Model of the names in LLVM modules: which names LLVMAddFunction and LLVMAddGlobal are
    called with, and what is added to a module for an executable,
    skull/codegen/llvm/write.c:342-444. The log of Model_LLVM.v says what is added to the
    module and in which order. *)
From Coq Require Import List Arith NArith ZArith Bool Ascii String.
From Verif Require Import Base Model_Names Model_Parse Model_Sem Spec_Run Spec_IR Model_LLVM.
Import ListNotations.
Open Scope list_scope.
Open Scope nat_scope.

(** What a name of the module stands for: the main function, a variable or function of the
    program, a helper that is called, `_start` and `exit` (write.c:352 and 368), and what
    skull/shim.ll brings along. *)
Inductive thing := OfMain | OfVar (k : nat) | OfFun (k : nat) | OfHelper (f : callee) | OfStart | OfExit | OfShim.

(** A global value of LLVM: its name, whether it is a function, whether its linkage is
    LLVMPrivateLinkage (else LLVMExternalLinkage; skull/codegen/llvm/assign.c:71-74,
    func.c:72-77), whether it has a body or an initial value, and whether shim.ll refers to it. *)
Record entry := mkentry { en_thing : thing; en_name : text; en_fun : bool; en_private : bool; en_body : bool; en_shim : bool }.

Section Names.
(** The name that LLVM chooses if a name is taken: the names in the module, the name. *)
Variable fresh : list text -> text -> text.
(** The symbols after the checks, and BUILD_DATA.filename. *)
Variable ys : list symbol.
Variable filename : text.

(** `linkage_name`, skull/semantic/assign.c:112 and func.c:78-80. *)
Definition linkage_name (y : symbol) (exported : bool) : res text :=
  if exported then mangle_name filename (y_name y) else Ok (y_name y).

(** LLVMAddFunction and LLVMAddGlobal with LLVMSetLinkage, e.g. skull/codegen/llvm/func.c:66-77. *)
Definition taken (n : text) (l : list entry) : bool := existsb (fun e => text_eqb (en_name e) n) l.
Definition add (t : thing) (n : text) (fn private body : bool) (l : list entry) : list entry :=
  l ++ [mkentry t (if taken n l then fresh (map en_name l) n else n) fn private body false].

(** The names of helpers, skull/codegen/llvm/expr.c:308-312 and 421. *)
Definition helper_text (f : callee) : text :=
  u (match f with CIntPow => "_int_pow" | CFloatPow => "_float_pow" | _ => "_strcmp" end)%string.

(** LLVMGetNamedFunction and LLVMAddFunction, skull/codegen/llvm/expr.c:442-455. *)
Definition add_helper (f : callee) (l : list entry) : list entry :=
  if existsb (fun e => en_fun e && text_eqb (en_name e) (helper_text f)) l then l
  else add (OfHelper f) (helper_text f) true false false l.

(** setup_var_llvm, skull/codegen/llvm/assign.c:65-83; add_func, func.c:53-78; and
    create_and_call_builtin_oper, expr.c:434-456. *)
Definition add_act (a : act) (l : list entry) : res (list entry) :=
  match a with
  | ActVar k =>
      do y <- deref ys k;
      match y_kind y with
      | KVar v => do n <- linkage_name y (v_exported v); Ok (add (OfVar k) n false (negb (v_exported v)) true l)
      | _ => UB
      end
  | ActFun k body =>
      do y <- deref ys k;
      match y_kind y with
      | KFunc f =>
          do n <- linkage_name y (f_export f);
          Ok (add (OfFun k) n true (negb (f_external f || f_export f)) body l)
      | _ => UB
      end
  | ActCall (CSym _) => Ok l
  | ActCall f => Ok (add_helper f l)
  end.
Fixpoint add_acts (log : list act) (l : list entry) : res (list entry) :=
  match log with [] => Ok l | a :: r => do l <- add_act a l; add_acts r l end.

(** LLVMLinkModules2, skull/codegen/llvm/write.c:436, for one name of skull/shim.ll: a private
    value of that name gets another name; a declaration is replaced by a definition; two
    definitions are an error (None). *)
Definition rename (n : text) (l : list entry) : list entry :=
  map (fun e => if text_eqb (en_name e) n then mkentry (en_thing e) (fresh (map en_name l) n) (en_fun e) (en_private e) (en_body e) (en_shim e) else e) l.
Definition link_one (n : text) (fn body : bool) (l : list entry) : option (list entry) :=
  let new := mkentry OfShim n fn false body true in
  match List.find (fun e => text_eqb (en_name e) n) l with
  | None => Some (l ++ [new])
  | Some e =>
      if en_private e then Some (rename n l ++ [new])
      else if body && en_body e then None
      else Some (map (fun e => if text_eqb (en_name e) n then mkentry (en_thing e) n (if body then fn else en_fun e) false (body || en_body e) true else e) l)
  end.
(** llvm_insert_builtins, skull/codegen/llvm/write.c:413-444, with the globals of
    skull/shim.ll:1, 3, 75 and 77. *)
Definition insert_builtins (l : list entry) : option (list entry) :=
  match link_one (u "_float_pow") false true l with
  | None => None
  | Some l =>
      match link_one (u "_strcmp") true true l with
      | None => None
      | Some l => match link_one (u "pow") true false l with None => None | Some l => link_one (u "_int_pow") true true l end
      end
  end.
(** add_start_shim, skull/codegen/llvm/write.c:347-406. *)
Definition add_start_shim (l : list entry) : option (list entry) :=
  insert_builtins (add OfExit (u "exit") true false false (add OfStart (u "_start") true false true l)).

(** The names of a module: setup_llvm_state, skull/codegen/llvm/shared.c:33-37, what the
    program adds, and write.c:59 with `binary` for will_build_binary(). None if linking
    fails. *)
Definition module_names (binary : bool) (log : list act) : res (option (list entry)) :=
  do m <- create_main_func_name (Some filename);
  do l <- add_acts log [mkentry OfMain m true false true false];
  Ok (if binary then add_start_shim l else Some l).
End Names.

(** gen_module, skull/codegen/llvm/core.c:17-23: what it adds to the module and calls. *)
Definition gen_log (H : host) (fold : iop -> operand H -> operand H -> option (operand H)) (ys : list symbol) (debug : bool)
    (l : list tnode) : res (list act) :=
  do (g, fl) <- gen_tree H fold (debug_syms ys debug l) debug l (setup_llvm_state H); Ok (g_log H g).
