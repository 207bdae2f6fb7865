(** The part of LLVM IR that the LLVM back end writes, after the LLVM Language Reference.
    Values have no types here: a load gives what was stored last. Overflow with `nsw` and an
    inexact `sdiv exact` give poison; dividing by zero and branching on poison are undefined,
    so there is no rule for them. *)
From Coq Require Import List Arith NArith ZArith Bool.
From Verif Require Import Base Model_Sem Spec_Run Model_Helpers.
Import ListNotations.
Open Scope list_scope.
Open Scope Z_scope.

Section IR.
Variable H : host.
Local Notation val := (sv (h_float H)).

(** Addresses of global variables and of cells made by `alloca`. *)
Inductive addr := AGlob (n : nat) | ACell (n : nat).
Inductive tv := V (v : val) | Addr (a : addr) | Null | Poison.

(** Operands: constants, registers, parameters, addresses of global variables. *)
Inductive operand := OVal (v : val) | OReg (r : nat) | OArg (i : nat) | OGlob (n : nat).

Inductive iop :=
| NswAdd | NswSub | NswMul | ExactSDiv | SRem | Shl | LShr | And | Or | Xor
| IEq | ISlt | ISgt | ISle | ISge
| FAdd | FSub | FMul | FDiv | FRem | FOeq | FOlt | FOgt | FOle | FOge.

Inductive callee := CSym (k : nat) | CIntPow | CFloatPow | CStrcmp.

Inductive instr :=
| ILoad (r : nat) (t : ty) (p : operand)
| IStore (v p : operand)
| IAlloca (r : nat) (t : ty)
| IBin (r : nat) (o : iop) (a b : operand)
| ICall (r : nat) (f : callee) (args : list operand)
| IRet (v : option operand)
| IBr (b : nat)
| ICondBr (c : operand) (yes no : nat)
| IUnreachable.

(** A module: the basic blocks of all functions, the first block of each function that has a
    body, the first block of the main function, and the initial values of global variables. *)
Record module := mkmodule {
  m_blocks : list (list instr);
  m_funs : list (nat * option nat);
  m_main : nat;
  m_init : list tv }.

Record mem := mkmem { m_glob : nat -> tv; m_cells : list tv }.

(** * Instructions *)

Definition operand_value (args : list tv) (regs : nat -> option tv) (o : operand) : option tv :=
  match o with
  | OVal v => Some (V v)
  | OReg r => regs r
  | OArg i => nth_error args i
  | OGlob n => Some (Addr (AGlob n))
  end.

Definition nsw (z : Z) : option tv := if in64 z then Some (V (SvInt z)) else Some Poison.
Definition shifted (n z : Z) : option tv := if (0 <=? n) && (n <? 64) then Some (V (SvInt z)) else Some Poison.
Definition flag (b : bool) : option tv := Some (V (SvBool b)).
Definition real (f : h_float H) : option tv := Some (V (SvFloat f)).

(** None if undefined. *)
Definition bin_value (o : iop) (a b : tv) : option tv :=
  match o, a, b with
  | NswAdd, V (SvInt x), V (SvInt y) => nsw (x + y)
  | NswSub, V (SvInt x), V (SvInt y) => nsw (x - y)
  | NswMul, V (SvInt x), V (SvInt y) => nsw (x * y)
  | ExactSDiv, V (SvInt x), V (SvInt y) =>
      if (y =? 0) || negb (in64 (Z.quot x y)) then None
      else if Z.rem x y =? 0 then Some (V (SvInt (Z.quot x y))) else Some Poison
  | SRem, V (SvInt x), V (SvInt y) =>
      if (y =? 0) || negb (in64 (Z.quot x y)) then None else Some (V (SvInt (Z.rem x y)))
  | Shl, V (SvInt x), V (SvInt y) => shifted y (wrap64 (x * 2 ^ y))
  | LShr, V (SvInt x), V (SvInt y) => shifted y (wrap64 (x mod 2 ^ 64 / 2 ^ y))
  | And, V (SvBool x), V (SvBool y) => flag (x && y)
  | Or, V (SvBool x), V (SvBool y) => flag (x || y)
  | Xor, V (SvBool x), V (SvBool y) => flag (xorb x y)
  | IEq, V (SvInt x), V (SvInt y) => flag (x =? y)
  | IEq, V (SvBool x), V (SvBool y) => flag (Bool.eqb x y)
  | IEq, V (SvRune x), V (SvRune y) => flag (x =? y)%N
  | ISlt, V (SvInt x), V (SvInt y) => flag (x <? y)
  | ISgt, V (SvInt x), V (SvInt y) => flag (y <? x)
  | ISle, V (SvInt x), V (SvInt y) => flag (x <=? y)
  | ISge, V (SvInt x), V (SvInt y) => flag (y <=? x)
  | FAdd, V (SvFloat x), V (SvFloat y) => real (h_add H x y)
  | FSub, V (SvFloat x), V (SvFloat y) => real (h_sub H x y)
  | FMul, V (SvFloat x), V (SvFloat y) => real (h_mul H x y)
  | FDiv, V (SvFloat x), V (SvFloat y) => real (h_div H x y)
  | FRem, V (SvFloat x), V (SvFloat y) => real (h_rem H x y)
  | FOeq, V (SvFloat x), V (SvFloat y) => flag (h_eq H x y)
  | FOlt, V (SvFloat x), V (SvFloat y) => flag (h_lt H x y)
  | FOgt, V (SvFloat x), V (SvFloat y) => flag (h_lt H y x)
  | FOle, V (SvFloat x), V (SvFloat y) => flag (h_le H x y)
  | FOge, V (SvFloat x), V (SvFloat y) => flag (h_le H y x)
  | (ExactSDiv | SRem), _, Poison => None
  | _, Poison, _ | _, _, Poison => Some Poison
  | _, _, _ => None
  end.

(** The functions of skull/shim.ll. `_float_pow` (line 1) is no function there but a variable that
    holds the address of `pow`; a call of it runs what is not code. *)
Definition helper_value (f : callee) (args : list tv) : option tv :=
  match f, args with
  | CIntPow, [V (SvInt x); V (SvInt y)] =>
      match int_pow x y with Some (Ok z) => Some (V (SvInt z)) | Some UB => Some Poison | None => None end
  | CStrcmp, [V (SvStr x); V (SvStr y)] => flag (strcmp x y)
  | _, _ => None
  end.

Definition load (m : mem) (p : tv) : option tv :=
  match p with
  | Addr (AGlob n) => Some (m_glob m n)
  | Addr (ACell n) => nth_error (m_cells m) n
  | _ => None
  end.
Definition store (m : mem) (p v : tv) : option mem :=
  match p with
  | Addr (AGlob n) => Some (mkmem (fun i => if Nat.eqb i n then v else m_glob m i) (m_cells m))
  | Addr (ACell n) =>
      if (n <? List.length (m_cells m))%nat then Some (mkmem (m_glob m) (upd (m_cells m) n (fun _ => v))) else None
  | _ => None
  end.
Definition set_reg (regs : nat -> option tv) (r : nat) (v : tv) : nat -> option tv := put regs r v.

(** All arguments are values. *)
Fixpoint plain_values (l : list tv) : option (list val) :=
  match l with
  | [] => Some []
  | V v :: r => option_map (cons v) (plain_values r)
  | _ => None
  end.
Fixpoint all_values (args : list tv) (regs : nat -> option tv) (l : list operand) : option (list tv) :=
  match l with
  | [] => Some []
  | o :: r => match operand_value args regs o, all_values args regs r with Some v, Some vs => Some (v :: vs) | _, _ => None end
  end.

(** * Runs *)

(** `run M args regs m out code v m' out'`: the instructions `code`, in a call with arguments
    `args`, return v (None for `ret void`). *)
Inductive run (M : module) : list tv -> (nat -> option tv) -> mem -> h_out H -> list instr ->
    option tv -> mem -> h_out H -> Prop :=
| ru_load : forall args regs m out r t p a v code x m' out',
    operand_value args regs p = Some a -> load m a = Some v ->
    run M args (set_reg regs r v) m out code x m' out' ->
    run M args regs m out (ILoad r t p :: code) x m' out'
| ru_store : forall args regs m out v p a b m1 code x m' out',
    operand_value args regs v = Some b -> operand_value args regs p = Some a -> store m a b = Some m1 ->
    run M args regs m1 out code x m' out' ->
    run M args regs m out (IStore v p :: code) x m' out'
| ru_alloca : forall args regs m out r t code x m' out',
    run M args (set_reg regs r (Addr (ACell (List.length (m_cells m))))) (mkmem (m_glob m) (m_cells m ++ [Poison])) out
      code x m' out' ->
    run M args regs m out (IAlloca r t :: code) x m' out'
| ru_bin : forall args regs m out r o a b va vb v code x m' out',
    operand_value args regs a = Some va -> operand_value args regs b = Some vb -> bin_value o va vb = Some v ->
    run M args (set_reg regs r v) m out code x m' out' ->
    run M args regs m out (IBin r o a b :: code) x m' out'
| ru_helper : forall args regs m out r f l vs v code x m' out',
    all_values args regs l = Some vs -> helper_value f vs = Some v ->
    run M args (set_reg regs r v) m out code x m' out' ->
    run M args regs m out (ICall r f l :: code) x m' out'
| ru_call : forall args regs m out r k l vs b body y m1 out1 code x m' out',
    all_values args regs l = Some vs -> lookup (m_funs M) k = Some (Some b) -> nth_error (m_blocks M) b = Some body ->
    run M vs (fun _ => None) m out body y m1 out1 ->
    run M args (set_reg regs r (match y with Some v => v | None => V SvVoid end)) m1 out1 code x m' out' ->
    run M args regs m out (ICall r (CSym k) l :: code) x m' out'
| ru_external : forall args regs m out r k l vs ws v out1 code x m' out',
    all_values args regs l = Some vs -> lookup (m_funs M) k = Some None -> plain_values vs = Some ws ->
    h_call H k ws out = Some (v, out1) ->
    run M args (set_reg regs r (V v)) m out1 code x m' out' ->
    run M args regs m out (ICall r (CSym k) l :: code) x m' out'
| ru_ret : forall args regs m out o v code, operand_value args regs o = Some v ->
    run M args regs m out (IRet (Some o) :: code) (Some v) m out
| ru_ret_void : forall args regs m out code, run M args regs m out (IRet None :: code) None m out
| ru_br : forall args regs m out b body code x m' out',
    nth_error (m_blocks M) b = Some body -> run M args regs m out body x m' out' ->
    run M args regs m out (IBr b :: code) x m' out'
| ru_cond : forall args regs m out c (t : bool) yes no body code x m' out',
    operand_value args regs c = Some (V (SvBool t)) -> nth_error (m_blocks M) (if t then yes else no) = Some body ->
    run M args regs m out body x m' out' ->
    run M args regs m out (ICondBr c yes no :: code) x m' out'.

(** The main function returns the exit code. *)
Definition module_exits (M : module) (out : h_out H) (code : Z) (out' : h_out H) : Prop :=
  exists body m', nth_error (m_blocks M) (m_main M) = Some body /\
  run M [] (fun _ => None) (mkmem (fun n => nth n (m_init M) Poison) []) out body (Some (V (SvInt code))) m' out'.

(** * Shape *)

(** Exactly one instruction ends a basic block, and it is the last one. *)
Definition terminator (i : instr) : bool :=
  match i with IRet _ | IBr _ | ICondBr _ _ _ | IUnreachable => true | _ => false end.
Definition well_ended (b : list instr) : Prop :=
  exists l t, b = l ++ [t] /\ terminator t = true /\ forall i, In i l -> terminator i = false.
End IR.
Arguments V {H} _.
Arguments Addr {H} _.
Arguments Null {H}.
Arguments Poison {H}.
Arguments OVal {H} _.
Arguments OReg {H} _.
Arguments OArg {H} _.
Arguments OGlob {H} _.
Arguments ILoad {H} _ _ _.
Arguments IStore {H} _ _.
Arguments IAlloca {H} _ _.
Arguments IBin {H} _ _ _ _.
Arguments ICall {H} _ _ _.
Arguments IRet {H} _.
Arguments IBr {H} _.
Arguments ICondBr {H} _ _ _.
Arguments IUnreachable {H}.
