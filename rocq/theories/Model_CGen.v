(** Model of the C back end: skull/codegen/c/{expr,types,assign,flow,func,core,shared,debug,
    write}.c. Texts are the strings that `uvsnprintf` builds (skull/common/str.c:228-252); a
    NULL pointer given for `%s` and a failed assert are undefined behaviour. *)
From Coq Require Import List Arith NArith ZArith Bool Lia Ascii String.
From Verif Require Import Base Model_Token Model_Literal Model_Parse Model_Sem.
Import ListNotations.
Open Scope list_scope.
Open Scope N_scope.

(** A digit as printf writes it, used at skull/codegen/c/expr.c:64, 67, 80. *)
Definition digit_char (d : N) : N := if d <? 10 then chr "0" + d else chr "A" + (d - 10).

(** The digits of n in front of acc; fuel is at least the number of digits. *)
Fixpoint digits_loop (fuel : nat) (base n : N) (acc : text) : text :=
  match fuel with
  | O => acc
  | S f =>
      let acc := digit_char (n mod base) :: acc in
      if n / base =? 0 then acc else digits_loop f base (n / base) acc
  end.
Definition digits (base n : N) : text := digits_loop (S (N.to_nat (N.log2 n))) base n [].

(** `%li`, skull/codegen/c/expr.c:64 and 67. *)
Definition fmt_li (z : Z) : text :=
  if (z <? 0)%Z then chr "-" :: digits 10 (Z.to_N (- z)) else digits 10 (Z.to_N z).

(** INT_MAX and INT_MIN (<limits.h>) on the modelled machine, skull/codegen/c/expr.c:63. *)
Definition INT_MAX : Z := 2147483647.
Definition INT_MIN : Z := -2147483648.

(** What surrounds the C back end: the symbols of the checked program, `%a` of a float and
    whether all bits of a float are 0 (skull/codegen/c/expr.c:70-74; both are left open),
    the linkage names of symbols (skull/semantic/symbol.h), and BUILD_DATA.debug and
    BUILD_DATA.filename. *)
Record cctx := mkcctx {
  ce_syms : list symbol;
  ce_hex : fval -> text;
  ce_zero : fval -> bool;
  ce_linkage : nat -> option text;
  ce_debug : bool;
  ce_file : text }.

(** gen_expr_const_c, skull/codegen/c/expr.c:58-87. A value that is not of its type is
    another member of the union and never looked at. *)
Definition gen_expr_const_c (env : cctx) (ty : ty) (v : value) : res text :=
  match ty, v with
  | TInt, VInt i =>
      if (INT_MAX <? i)%Z || (i <? INT_MIN)%Z then Ok (fmt_li i ++ u "L") else Ok (fmt_li i)
  | TFloat, VFloat f => if ce_zero env f then Ok (u "0.0") else Ok (ce_hex env f)
  | TBool, VBool b => Ok (if b then u "1" else u "0")
  | TRune, VRune c => Ok (u "0x" ++ digits 16 c)
  | TStr, VStr s => Ok (chr """" :: s ++ [chr """"])
  | _, _ => UB
  end.

(** The format strings of gen_expr_binary_c, skull/codegen/c/expr.c:89-136: what is written
    in front of, between and behind the operands. `l` is the type of the left operand and
    `t` the type of the expression. The flags called_... are part of Model_CFile.v. *)
Definition binary_fmt (o : binop) (l t : ty) : res (text * text * text) :=
  let infix op := Ok (u "(", u " " ++ u op ++ u " ", u ")") in
  let call f := Ok (u f ++ u "(", u ", ", u ")") in
  match o with
  | BAdd => infix "+"%string
  | BSub => infix "-"%string
  | BMult => infix "*"%string
  | BDiv => infix "/"%string
  | BMod => infix "%"%string
  | BLshift => infix "<<"%string
  | BRshift => infix ">>"%string
  | BIs => if ty_eqb l TStr then call "_strcmp"%string else infix "=="%string
  | BIsnt => if ty_eqb l TStr then call "!_strcmp"%string else infix "!="%string
  | BLess => infix "<"%string
  | BGtr => infix ">"%string
  | BLessEq => infix "<="%string
  | BGtrEq => infix ">="%string
  | BAnd => infix "&&"%string
  | BOr => infix "||"%string
  | BXor => infix "^"%string
  | BPow =>
      if ty_eqb t TInt then call "_int_pow"%string
      else if ty_eqb t TFloat then call "_float_pow"%string
      else UB
  end.

(** The format strings of gen_expr_unary_c, skull/codegen/c/expr.c:147-156. *)
Definition unary_fmt (o : unop) : text * text :=
  match o with
  | UNeg => (u "-(", u ")")
  | UNot => (u "!", [])
  | URef => (u "&", [])
  | UDeref => (u "*", [])
  end.

(** `symbol->var->name`, skull/codegen/c/expr.c:26; the name of a variable is the name of
    its symbol (skull/semantic/assign.c:110). *)
Definition var_name (ys : list symbol) (k : nat) : res text :=
  do y <- deref ys k;
  match y_kind y with KVar _ => Ok (y_name y) | _ => UB end.

(** The loop of gen_expr_func_call_c, skull/codegen/c/expr.c:176-191: `n` arguments are left
    and `list` is param_list, None for NULL. *)
Definition args_loop (gen : texpr -> res text) :=
  fix go (n : nat) (args : list texpr) (list : option text) {struct args} : res (option text) :=
    match n, args with
    | O, _ => Ok list
    | S _, [] => UB
    | S n, a :: r =>
        do x <- gen a;
        go n r (Some (match list with None => x | Some old => old ++ u ", " ++ x end))
    end.

(** gen_expr_c, skull/codegen/c/expr.c:21-56, with gen_expr_binary_c, 138-145,
    gen_expr_unary_c, 158-163, and gen_expr_func_call_c, 165-200. *)
Fixpoint gen_expr_c (env : cctx) (x : texpr) {struct x} : res text :=
  match x with
  | XConst _ v ty => gen_expr_const_c env ty v
  | XVar _ k _ _ => var_name (ce_syms env) k
  | XBin o l r ty _ =>
      do (a, m, z) <- binary_fmt o (x_ty l) ty;
      do lhs <- gen_expr_c env l;
      do rhs <- gen_expr_c env r;
      Ok (a ++ lhs ++ m ++ rhs ++ z)
  | XUn o r _ _ =>
      let '(a, z) := unary_fmt o in
      do rhs <- gen_expr_c env r;
      Ok (a ++ rhs ++ z)
  | XCall _ k args _ =>
      do y <- deref (ce_syms env) k;
      match y_kind y with
      | KFunc f =>
          if f_num f =? 0 then Ok (y_name y ++ u "()")
          else
            do list <- args_loop (gen_expr_c env) (N.to_nat (f_num f)) args None;
            match list with
            | None => UB
            | Some list => Ok (y_name y ++ u "(" ++ list ++ u ")")
            end
      | _ => UB
      end
  end.
