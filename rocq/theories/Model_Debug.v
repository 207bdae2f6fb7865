(** How debug builds describe types to a debugger, after skull/codegen/llvm/debug.c. *)
From Coq Require Import List Arith NArith Bool Ascii String.
From Verif Require Import Base Model_Sem Model_Errors.
Import ListNotations.
Open Scope list_scope.
Open Scope N_scope.

(** DW_ATE, skull/codegen/llvm/debug.h:18-37; only the encodings that are in use. *)
Inductive encoding := DW_ATE_boolean | DW_ATE_float | DW_ATE_signed | DW_ATE_signed_char | DW_ATE_UTF.

(** What LLVMDIBuilderCreateBasicType and LLVMDIBuilderCreatePointerType make of their arguments,
    skull/codegen/llvm/debug.c:142-155, 189-195. Flags, alignments and address spaces are 0
    everywhere and left out. *)
Inductive dtype :=
| DBasic (name : text) (bits : N) (e : encoding)
| DPointer (to : dtype) (bits : N) (name : text).

(** type_to_llvm_di_type, skull/codegen/llvm/debug.c:140-196. `sizeof(double) * CHAR_BIT` is 64. *)
Fixpoint type_to_llvm_di_type (t : ty) : dtype :=
  match t with
  | TStr => DPointer (DBasic (u "char") 8 DW_ATE_signed_char) 64 (type_name t)
  | TRef inner => DPointer (type_to_llvm_di_type inner) 64 (type_name t)
  | TBool => DBasic (type_name t) 1 DW_ATE_boolean
  | TInt => DBasic (type_name t) 64 DW_ATE_signed
  | TFloat => DBasic (type_name t) 64 DW_ATE_float
  | TRune => DBasic (type_name t) 32 DW_ATE_UTF
  | TVoid => DBasic (type_name t) 0 DW_ATE_signed
  end.

(** type_to_di_type, skull/codegen/llvm/debug.c:224-236, None is NULL. The DI_TYPE_ variables hold
    what setup_debug_info puts into them (56-60). *)
Definition type_to_di_type (t : ty) : option dtype :=
  match t with
  | TBool => Some (type_to_llvm_di_type TBool)
  | TInt => Some (type_to_llvm_di_type TInt)
  | TFloat => Some (type_to_llvm_di_type TFloat)
  | TRune => Some (type_to_llvm_di_type TRune)
  | TStr => Some (type_to_llvm_di_type TStr)
  | TRef _ => Some (type_to_llvm_di_type t)
  | TVoid => None
  end.

(** `di_param_types` of add_llvm_func_debug_info, skull/codegen/llvm/debug.c:316-325: an array of
    `num_params + 1` entries, of which the first is set at 319 and the others by the loop. *)
Fixpoint fill_params (ps : list ty) : list (option dtype) :=
  match ps with [] => [] | p :: ps => type_to_di_type p :: fill_params ps end.
Definition di_param_types (ret : ty) (ps : list ty) : list (option dtype) := type_to_di_type ret :: fill_params ps.
