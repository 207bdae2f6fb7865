(** What the C text of an expression has to be. *)
From Coq Require Import List Arith NArith ZArith Bool Ascii String.
From Verif Require Import Base Model_Token Model_Literal Model_Parse Model_Sem Spec_Sem Model_CGen Spec_C.
Import ListNotations.
Open Scope list_scope.
Open Scope N_scope.

(** The operators of C for the operators of Skull. *)
Inductive c_unary : unop -> string -> Prop :=
| cu_neg : c_unary UNeg "-"
| cu_not : c_unary UNot "!"
| cu_ref : c_unary URef "&"
| cu_deref : c_unary UDeref "*".
Inductive c_binary : binop -> string -> Prop :=
| cb_add : c_binary BAdd "+"
| cb_sub : c_binary BSub "-"
| cb_mult : c_binary BMult "*"
| cb_div : c_binary BDiv "/"
| cb_mod : c_binary BMod "%"
| cb_lshift : c_binary BLshift "<<"
| cb_rshift : c_binary BRshift ">>"
| cb_is : c_binary BIs "=="
| cb_isnt : c_binary BIsnt "!="
| cb_less : c_binary BLess "<"
| cb_gtr : c_binary BGtr ">"
| cb_less_eq : c_binary BLessEq "<="
| cb_gtr_eq : c_binary BGtrEq ">="
| cb_and : c_binary BAnd "&&"
| cb_or : c_binary BOr "||"
| cb_xor : c_binary BXor "^".

Definition call2 (f : string) (a b : cexp) : cexp := CCall (CId (u f)) [a; b].

(** A finite number as `%a` writes it without its sign: 0xh.hhhp+d (C11 7.21.6.1). *)
Definition hex_digit (c : N) : bool := is_digit c || ((chr "a" <=? c) && (c <=? chr "f")).
Definition finite_hex (t : text) : Prop := exists h f s d,
  t = u "0x" ++ h :: f ++ chr "p" :: s :: d /\ hex_digit h = true /\ (s = chr "+" \/ s = chr "-") /\
  d <> [] /\ forallb is_digit d = true /\
  (f = [] \/ exists g, f = chr "." :: g /\ forallb hex_digit g = true).

(** `same env x e`: the C expression e has the operators, names and constants of the checked
    expression x. Powers and comparisons of strings are calls of helper functions. *)
Inductive same (env : cctx) : texpr -> cexp -> Prop :=
| sm_var : forall t k ty c y v, nth_error (ce_syms env) k = Some y -> y_kind y = KVar v ->
    same env (XVar t k ty c) (CId (y_name y))
| sm_int : forall t z c ty, (0 <= z)%Z -> c_constant c = Some (Z.to_N z, ty) -> ty = CInt \/ ty = CLong ->
    same env (XConst t (VInt z) TInt) (CNum c)
| sm_negative : forall t z c ty, (z < 0)%Z -> c_constant c = Some (Z.to_N (- z), ty) -> ty = CInt \/ ty = CLong ->
    same env (XConst t (VInt z) TInt) (CUn (u "-") (CNum c))
| sm_bool : forall t (b : bool) c ty, c_constant c = Some (if b then 1 else 0, ty) ->
    same env (XConst t (VBool b) TBool) (CNum c)
| sm_rune : forall t r c ty, c_constant c = Some (r, ty) -> same env (XConst t (VRune r) TRune) (CNum c)
| sm_zero : forall t f, ce_zero env f = true -> same env (XConst t (VFloat f) TFloat) (CNum (u "0.0"))
| sm_float : forall t f, finite_hex (ce_hex env f) -> same env (XConst t (VFloat f) TFloat) (CNum (ce_hex env f))
| sm_negative_float : forall t f h, ce_hex env f = chr "-" :: h -> finite_hex h ->
    same env (XConst t (VFloat f) TFloat) (CUn (u "-") (CNum h))
| sm_str : forall t s, same env (XConst t (VStr s) TStr) (CStr s)
| sm_unary : forall o op x ty c e, c_unary o op -> same env x e -> same env (XUn o x ty c) (CUn (u op) e)
| sm_binary : forall o op x y ty c a b, c_binary o op -> (x_ty x = TStr -> o <> BIs /\ o <> BIsnt) ->
    same env x a -> same env y b -> same env (XBin o x y ty c) (CBin (u op) a b)
| sm_equal : forall x y ty c a b, x_ty x = TStr -> same env x a -> same env y b ->
    same env (XBin BIs x y ty c) (call2 "_strcmp" a b)
| sm_differ : forall x y ty c a b, x_ty x = TStr -> same env x a -> same env y b ->
    same env (XBin BIsnt x y ty c) (CUn (u "!") (call2 "_strcmp" a b))
| sm_int_pow : forall x y c a b, same env x a -> same env y b ->
    same env (XBin BPow x y TInt c) (call2 "_int_pow" a b)
| sm_float_pow : forall x y c a b, same env x a -> same env y b ->
    same env (XBin BPow x y TFloat c) (call2 "_float_pow" a b)
| sm_call : forall t k args ty y f es, nth_error (ce_syms env) k = Some y -> y_kind y = KFunc f ->
    same_all env args es -> same env (XCall t k args ty) (CCall (CId (y_name y)) es)
with same_all (env : cctx) : list texpr -> list cexp -> Prop :=
| sa_nil : same_all env [] []
| sa_cons : forall x xs e es, same env x e -> same_all env xs es -> same_all env (x :: xs) (e :: es).

(** Characters that mean themselves between the quotes of a string literal. *)
Definition plain_chars (s : text) : Prop := forall c, In c s -> c <> chr """" /\ c <> 10 /\ c <> 92.

(** Expressions for which the claim holds: their names can be names in C, their strings need
    no escapes, and their numbers have literals in C. *)
Definition printable_part (env : cctx) (x : texpr) : Prop :=
  match x with
  | XVar _ k _ _ | XCall _ k _ _ => forall y, nth_error (ce_syms env) k = Some y -> c_name (y_name y) = true
  | XConst _ (VInt z) _ => (z <> - 2 ^ 63)%Z
  | XConst _ (VStr s) _ => plain_chars s
  | XConst _ (VFloat f) _ => exists h, finite_hex h /\ (ce_hex env f = h \/ ce_hex env f = chr "-" :: h)
  | _ => True
  end.
Definition printable (env : cctx) (x : texpr) : Prop := forall p, xpart p x -> printable_part env p.

(** The value and the type of a C expression that is an integer constant or its negation. *)
Inductive int_reading : cexp -> Z -> ctype -> Prop :=
| ir_plain : forall c n ty, c_constant c = Some (n, ty) -> int_reading (CNum c) (Z.of_N n) ty
| ir_minus : forall c n ty, c_constant c = Some (n, ty) -> ty = CInt \/ ty = CLong ->
    int_reading (CUn (u "-") (CNum c)) (- Z.of_N n) ty.
Definition holds (ty : ctype) (z : Z) : Prop :=
  match ty with
  | CInt => (- 2 ^ 31 <= z < 2 ^ 31)%Z
  | CUInt => (0 <= z < 2 ^ 32)%Z
  | CLong => (- 2 ^ 63 <= z < 2 ^ 63)%Z
  | CULong => (0 <= z < 2 ^ 64)%Z
  end.
