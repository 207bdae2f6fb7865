(** When a module is valid LLVM IR, after the LLVM Language Reference: what the LLVM verifier
    looks at for the instructions of Spec_IR.v. *)
From Coq Require Import List Arith NArith ZArith Bool.
From Verif Require Import Base Model_Literal Model_Parse Model_Sem Spec_Sem Spec_Sem2 Spec_Run Spec_IR.
Import ListNotations.
Open Scope list_scope.
Open Scope nat_scope.

(** * Types *)

(** Types of LLVM; pointers say what they point at (as before LLVM 15). *)
Inductive ltype := LInt (bits : nat) | LDouble | LVoid | LPointer (t : ltype).

(** type_to_llvm_type, skull/codegen/llvm/types.c:13-40. *)
Fixpoint type_to_llvm_type (t : ty) : ltype :=
  match t with
  | TBool => LInt 1
  | TInt => LInt 64
  | TFloat => LDouble
  | TRune => LInt 32
  | TStr => LPointer (LInt 8)
  | TVoid => LVoid
  | TRef t => LPointer (type_to_llvm_type t)
  end.
Local Notation llt := type_to_llvm_type.

Section Valid.
Variable H : host.
(** The symbols of the program say which types functions have. *)
Variable ys : list symbol.

Definition fun_type (k : nat) (ps : list ltype) (r : ltype) : Prop :=
  exists y f, nth_error ys k = Some y /\ y_kind y = KFunc f /\ ps = map llt (f_params f) /\ r = llt (f_ret f).
(** The same with None for the main function, which has no parameters and gives an `i64`. *)
Definition own_type (o : option nat) (ps : list ltype) (r : ltype) : Prop :=
  match o with Some k => fun_type k ps r | None => ps = [] /\ r = LInt 64 end.

Inductive value_type : sv (h_float H) -> ltype -> Prop :=
| vt_int : forall z, value_type (SvInt z) (LInt 64)
| vt_float : forall f, value_type (SvFloat f) LDouble
| vt_bool : forall b, value_type (SvBool b) (LInt 1)
| vt_rune : forall c, value_type (SvRune c) (LInt 32)
| vt_str : forall s, value_type (SvStr s) (LPointer (LInt 8)).

(** What an instruction on two operands of the type t gives. *)
Definition op_type (o : iop) (t : ltype) : option ltype :=
  match o, t with
  | (NswAdd | NswSub | NswMul | ExactSDiv | SRem | Shl | LShr | And | Or | Xor), LInt n => Some (LInt n)
  | (IEq | ISlt | ISgt | ISle | ISge), (LInt _ | LPointer _) => Some (LInt 1)
  | (FAdd | FSub | FMul | FDiv | FRem), LDouble => Some LDouble
  | (FOeq | FOlt | FOgt | FOle | FOge), LDouble => Some (LInt 1)
  | _, _ => None
  end.

(** The functions of skull/shim.ll. *)
Definition helper_type (f : callee) : option (list ltype * ltype) :=
  match f with
  | CSym _ => None
  | CIntPow => Some ([LInt 64; LInt 64], LInt 64)
  | CFloatPow => Some ([LDouble; LDouble], LDouble)
  | CStrcmp => Some ([LPointer (LInt 8); LPointer (LInt 8)], LInt 1)
  end.

(** Operands in a function with parameters of the types ps; rt and gt are the types of registers
    and global variables. There are no values of type `void`. *)
Inductive operand_type (rt gt : nat -> option ltype) (ps : list ltype) : operand H -> ltype -> Prop :=
| op_val : forall v t, value_type v t -> operand_type rt gt ps (OVal v) t
| op_reg : forall r t, rt r = Some t -> t <> LVoid -> operand_type rt gt ps (OReg r) t
| op_arg : forall i t, nth_error ps i = Some t -> t <> LVoid -> operand_type rt gt ps (OArg i) t
| op_glob : forall n t, gt n = Some t -> operand_type rt gt ps (OGlob n) (LPointer t).

(** Instructions in a function with parameters of the types ps that returns r; fs are the
    functions of the module. *)
Inductive instr_type (rt gt : nat -> option ltype) (fs : nat -> Prop) (ps : list ltype) (ret : ltype) : instr H -> Prop :=
| in_load : forall r t p, operand_type rt gt ps p (LPointer (llt t)) -> rt r = Some (llt t) -> t <> TVoid ->
    instr_type rt gt fs ps ret (ILoad r t p)
| in_store : forall v p t, operand_type rt gt ps v t -> operand_type rt gt ps p (LPointer t) -> instr_type rt gt fs ps ret (IStore v p)
| in_alloca : forall r t, rt r = Some (LPointer (llt t)) -> t <> TVoid -> instr_type rt gt fs ps ret (IAlloca r t)
| in_bin : forall r o a b t t', operand_type rt gt ps a t -> operand_type rt gt ps b t -> op_type o t = Some t' -> rt r = Some t' ->
    instr_type rt gt fs ps ret (IBin r o a b)
| in_helper : forall r f l ts t, helper_type f = Some (ts, t) -> Forall2 (operand_type rt gt ps) l ts -> rt r = Some t ->
    instr_type rt gt fs ps ret (ICall r f l)
| in_call : forall r k l ts t, fs k -> fun_type k ts t -> Forall2 (operand_type rt gt ps) l ts -> rt r = Some t ->
    instr_type rt gt fs ps ret (ICall r (CSym k) l)
| in_ret : forall o, operand_type rt gt ps o ret -> instr_type rt gt fs ps ret (IRet (Some o))
| in_ret_void : ret = LVoid -> instr_type rt gt fs ps ret (IRet None)
| in_br : forall b, instr_type rt gt fs ps ret (IBr b)
| in_cond : forall c yes no, operand_type rt gt ps c (LInt 1) -> instr_type rt gt fs ps ret (ICondBr c yes no)
| in_unreachable : instr_type rt gt fs ps ret IUnreachable.

(** Initial values of global variables. *)
Inductive init_type (gt : nat -> option ltype) : tv H -> ltype -> Prop :=
| ii_val : forall v t, value_type v t -> init_type gt (V v) t
| ii_null : forall t, init_type gt Null (LPointer t)
| ii_addr : forall n t, gt n = Some t -> init_type gt (Addr (AGlob n)) (LPointer t).

(** * Registers and blocks *)

Definition in_operand (o : operand H) : list nat := match o with OReg r => [r] | _ => [] end.
Definition used (i : instr H) : list nat :=
  match i with
  | ILoad _ _ p => in_operand p
  | IStore v p => in_operand v ++ in_operand p
  | IBin _ _ a b => in_operand a ++ in_operand b
  | ICall _ _ l => flat_map in_operand l
  | IRet (Some o) => in_operand o
  | ICondBr c _ _ => in_operand c
  | IAlloca _ _ | IRet None | IBr _ | IUnreachable => []
  end.
Definition set_by (i : instr H) : list nat :=
  match i with ILoad r _ _ | IAlloca r _ | IBin r _ _ _ | ICall r _ _ => [r] | _ => [] end.
Definition targets (i : instr H) : list nat :=
  match i with IBr b => [b] | ICondBr _ yes no => [yes; no] | _ => [] end.

(** `path M a p b`: a run can get from the start of block a to the start of block b through
    the blocks p. *)
Inductive path (M : module H) (a : nat) : list nat -> nat -> Prop :=
| pt_start : path M a [] a
| pt_step : forall p b code i c, path M a p b -> nth_error (m_blocks H M) b = Some code -> In i code -> In c (targets i) ->
    path M a (b :: p) c.
Definition first_block (M : module H) (b : nat) : Prop := b = m_main H M \/ exists k, In (k, Some b) (m_funs H M).

(** A module is valid: there are types for the registers and the global variables, and a
    function for each block, such that
    - each block ends with its only terminator;
    - all instructions have operands of the types they need, and returns fit the function;
    - branches stay in the function and do not go to its first block;
    - no register is set at two places;
    - on each way to an instruction the registers that it uses are set;
    - each function is declared once and its first block is a block of its own;
    - global variables have initial values of their types. *)
Record valid_with (M : module H) (own : nat -> option nat) (rt gt : nat -> option ltype) : Prop := mkvalid {
  va_ended : forall code, In code (m_blocks H M) -> well_ended H code;
  va_typed : forall b code i, nth_error (m_blocks H M) b = Some code -> In i code ->
    exists ps ret, own_type (own b) ps ret /\ instr_type rt gt (fun k => lookup (m_funs H M) k <> None) ps ret i;
  va_targets : forall b code i c, nth_error (m_blocks H M) b = Some code -> In i code -> In c (targets i) ->
    c < List.length (m_blocks H M) /\ own c = own b /\ ~ first_block M c;
  va_once : NoDup (flat_map set_by (List.concat (m_blocks H M)));
  va_before : forall a p b c d i r, first_block M a -> path M a p b -> nth_error (m_blocks H M) b = Some (c ++ i :: d) -> In r (used i) ->
    In r (flat_map set_by c) \/
    exists e code, In e p /\ nth_error (m_blocks H M) e = Some code /\ In r (flat_map set_by code);
  va_funs : NoDup (map fst (m_funs H M));
  va_main : own (m_main H M) = None /\ m_main H M < List.length (m_blocks H M);
  va_first : forall k b, In (k, Some b) (m_funs H M) -> own b = Some k /\ b < List.length (m_blocks H M);
  va_globals : forall n v, nth_error (m_init H M) n = Some v -> exists t, gt n = Some t /\ init_type gt v t }.
Definition valid (M : module H) : Prop := exists own rt gt, valid_with M own rt gt.
End Valid.

(** What LLVM may return instead of a new instruction: a constant or one of the operands, of the
    type that the instruction would have had. *)
Definition folds_typed (H : host) (fold : iop -> operand H -> operand H -> option (operand H)) : Prop :=
  forall o a b c, fold o a b = Some c ->
  (c = a \/ c = b \/ exists v, c = OVal v) /\
  forall rt gt ps t t', operand_type H rt gt ps a t -> operand_type H rt gt ps b t -> op_type o t = Some t' -> operand_type H rt gt ps c t'.

(** * Programs with valid modules *)

(** No jump stands directly in the block of a namespace. *)
Definition is_jump (t : ntype) : bool := match t with N_RETURN | N_UNREACHABLE | N_BREAK | N_CONTINUE => true | _ => false end.
Definition spaces_open (l : list tnode) : Prop :=
  forall n m, in_checked n l -> tn_type n = N_NAMESPACE -> In m (tn_child n) -> is_jump (tn_type m) = false.
(** No `return` has an expression of type Void. *)
Definition values_returned (l : list tnode) : Prop :=
  forall n y, in_checked n l -> tn_type n = N_RETURN -> tn_pay n = XExpr y -> x_ty y <> TVoid.
