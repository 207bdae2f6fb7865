(** For which programs the C file does what the program does. *)
From Coq Require Import List Arith NArith ZArith Bool Ascii String.
From Verif Require Import Base Model_Token Model_Literal Model_Parse Model_Sem Spec_Sem Spec_Sem2 Model_CGen Spec_C Spec_CGen Spec_CProg Spec_CBack Spec_Run Spec_LLVM Spec_CRun.
Import ListNotations.
Open Scope list_scope.
Open Scope Z_scope.

Section Behave.
Variable H : host.
Local Notation val := (sv (h_float H)).

(** * Values *)

(** A value of the program as a value of an object in C. *)
Definition in_c (v : val) : cval H :=
  match v with
  | SvInt z => VI H CLong z
  | SvFloat f => VD H f
  | SvBool b => truth_value H b
  | SvRune c => VI H CUInt (Z.of_N c)
  | SvStr s => VS H s
  | SvVoid => VV H
  end.

(** Operations that C performs as Spec_Run.v says: remainders of integers (not of floating
    point numbers) whose quotient fits, positive exponents, shifts of numbers that are not negative, to
    the left as far as no bit is lost. *)
Definition c_exact1 (o : unop) (v : val) : Prop := True.
Definition c_exact2 (o : binop) (a b : val) : Prop :=
  match o, a, b with
  | BMod, SvInt x, SvInt y => in64 (Z.quot x y) = true
  | BMod, SvFloat _, _ => False
  | BPow, SvInt x, SvInt y => 1 <= y
  | BLshift, SvInt x, SvInt y => 0 <= x /\ in64 (x * 2 ^ y) = true
  | BRshift, SvInt x, _ => 0 <= x
  | _, _, _ => True
  end.

Variable env : cctx.
Variable M : machine H.

(** The C compiler reads the numbers that `%a` writes. *)
Record numbers_agree : Prop := {
  na_zero : forall f, ce_zero env f = true -> m_float H M (u "0.0") = Some (h_lit H f);
  na_plain : forall f, finite_hex (ce_hex env f) -> m_float H M (ce_hex env f) = Some (h_lit H f);
  na_minus : forall f h, ce_hex env f = chr "-" :: h -> exists g, m_float H M h = Some g /\ h_neg H g = h_lit H f }.

(** The linker finds the functions from outside by their names. *)
Definition link_name (k : nat) (x : text) (f : func) : text :=
  match (if f_export f then ce_linkage env k else None) with Some n => n | None => x end.
Definition links_agree : Prop := forall k x f vs o v o', is_fun env k x f -> f_external f = true ->
  h_call H k vs o = Some (v, o') -> m_link H M (link_name k x f) (map in_c vs) o = Some (in_c v, o').

(** * Programs *)

(** The variables that are defined at the top of a list of statements, and all that is put
    outside of functions. *)
Definition tops (n : tnode) : list nat := match tn_pay n with XDef k _ => [k] | _ => [] end.
Definition outside (n : tnode) : list nat :=
  match tn_pay n with XDef k _ => [k] | XProto k _ => flat_map tops (tn_child n) ++ [k] | _ => [] end.
Definition name_of (k : nat) : text := match nth_error (ce_syms env) k with Some y => y_name y | None => [] end.

(** Integer expressions of type `int`: constants as far as 32 bits, and what is computed from
    them. All others are of type `long`. *)
Definition in32 (z : Z) : bool := (- 2 ^ 31 <=? z) && (z <? 2 ^ 31).
Fixpoint wide (x : texpr) : bool :=
  match x with
  | XVar _ _ _ _ | XCall _ _ _ _ => true
  | XConst _ (VInt z) _ => negb (in32 z)
  | XConst _ _ _ => false
  | XUn _ a _ _ => wide a
  | XBin o a b _ _ =>
      match o with
      | BPow => true
      | BLshift | BRshift => wide a
      | _ => wide a || wide b
      end
  end.
(** The value of such an expression, as long as 32 bits suffice. *)
Definition small_result (z : Z) : option Z := if in32 z then Some z else None.
Fixpoint small (x : texpr) : option Z :=
  match x with
  | XConst _ (VInt z) _ => small_result z
  | XUn UNeg a _ _ => match small a with Some z => small_result (- z) | None => None end
  | XBin o a b _ _ =>
      match small a, small b with
      | Some x, Some y =>
          match o with
          | BAdd => small_result (x + y)
          | BSub => small_result (x - y)
          | BMult => small_result (x * y)
          | BDiv => if y =? 0 then None else small_result (Z.quot x y)
          | BMod => if (y =? 0) || negb (in32 (Z.quot x y)) then None else small_result (Z.rem x y)
          | BLshift => if (0 <=? x) && (0 <=? y) && (y <? 32) then small_result (x * 2 ^ y) else None
          | BRshift => if (0 <=? x) && (0 <=? y) && (y <? 32) then small_result (x / 2 ^ y) else None
          | _ => None
          end
      | _, _ => None
      end
  | _ => None
  end.
Definition sized (p : texpr) : Prop :=
  match p with
  | XUn UNeg _ TInt _ | XBin _ _ _ TInt _ => wide p = true \/ small p <> None
  | _ => True
  end.

(** Operands and arguments: one of them at most calls functions, and then the others do not
    read variables of the program that can be assigned to. The right operand of `and` and
    `or`, which C may skip, calls none. *)
Fixpoint has_calls (x : texpr) : bool :=
  match x with
  | XCall _ _ _ _ => true
  | XUn _ a _ _ => has_calls a
  | XBin _ a b _ _ => has_calls a || has_calls b
  | _ => false
  end.
Definition shared (l : list tnode) (k : nat) : Prop := mutable (ce_syms env) k = true /\ In k (flat_map tops l).
Definition apart (l : list tnode) (xs : list texpr) : Prop :=
  (List.length (filter has_calls xs) <= 1)%nat /\
  (existsb has_calls xs = true ->
   forall x t k ty c, In x xs -> has_calls x = false -> xpart (XVar t k ty c) x -> ~ shared l k).
Definition unordered (l : list tnode) (p : texpr) : Prop :=
  match p with
  | XBin (BAnd | BOr) _ b _ _ => has_calls b = false
  | XBin _ a b _ _ => apart l [a; b]
  | XCall _ _ args _ => apart l args
  | _ => True
  end.

(** Expressions that C accepts as initialisers of variables outside of functions. *)
Definition constant_part (p : texpr) : Prop :=
  match p with
  | XVar _ _ _ _ | XCall _ _ _ _ => False
  | XBin o a _ _ _ => o <> BPow /\ (x_ty a = TStr -> o <> BIs /\ o <> BIsnt)
  | _ => True
  end.

Record behaved (l : list tnode) : Prop := {
  (** There are no namespaces, and functions are defined at the top of the program. *)
  bh_spaces : forall n, in_checked n l -> tn_type n <> N_NAMESPACE;
  bh_functions : forall n, in_checked n l -> tn_type n = N_FUNCTION_PROTO -> In n l;
  (** What is put outside of functions has different names, other than those that are taken. *)
  bh_names : NoDup (map name_of (flat_map outside l));
  bh_taken : forall k, In k (flat_map outside l) ->
    ~ In (name_of k) (m_headers H M) /\ ~ In (name_of k) (map u ["main"; "init"; "_strcmp"; "_int_pow"; "_float_pow"]%string);
  bh_headers : ~ In (u "main") (m_headers H M) /\ ~ In (u "init") (m_headers H M);
  (** Variables are no longer than their functions run: those at the top of a function that
      can be assigned to are not initialised by constants, and functions that call
      themselves have only constants there. *)
  bh_lives : forall n m k ks j y, In n l -> tn_pay n = XProto k ks -> In m (tn_child n) -> tn_pay m = XDef j y ->
    (x_cexpr y = true -> mutable (ce_syms env) j = false) /\ (x_cexpr y = false -> ~ is_called k (tn_child n));
  (** Where variables are initialised by constants, C has constants, too, and they have values. *)
  bh_constants : forall n k y o, In n l \/ (exists m, In m l /\ tn_type m = N_FUNCTION_PROTO /\ In n (tn_child m)) -> tn_pay n = XDef k y -> x_cexpr y = true ->
    (forall p, xpart p y -> constant_part p) /\ exists v, eval H (ce_syms env) c_exact1 c_exact2 (start H o) y v (start H o);
  (** Sizes and orders. *)
  bh_sized : forall n p, in_checked n l -> uses n p -> sized p;
  bh_order : forall n p, in_checked n l -> uses n p -> unordered l p;
  (** There are no variables of type Void, and no such values are returned. *)
  bh_void : forall k x v, is_var env k x v -> v_type v <> TVoid;
  bh_returns : forall n e, in_checked n l -> tn_type n = N_RETURN -> tn_pay n = XExpr e -> x_ty e <> TVoid;
  (** No variable hides a helper function. *)
  bh_helpers : forall k x v h, is_var env k x v -> x <> helper_name h }.
End Behave.
