(** For which programs a C compiler accepts the C file. *)
From Coq Require Import List Arith NArith ZArith Bool Ascii String.
From Verif Require Import Base Model_Token Model_Literal Model_Parse Model_Sem Spec_Sem Spec_Sem2 Model_CGen Spec_C Spec_CGen Spec_CProg Spec_CBack Spec_LLVM Spec_CBehave.
Import ListNotations.
Open Scope list_scope.

Section Ready.
Variables (strict : bool) (headers : list text) (env : cctx) (l : list tnode).

(** An expression that is a string constant with a name (or a reference). *)
Definition named_string (x : texpr) : Prop := exists t k ty c n y, x = XVar t k ty c /\ mutable (ce_syms env) k = false /\ in_checked n l /\ tn_pay n = XDef k y /\
  (x_ty y = TStr \/ exists r, x_ty y = TRef r).

Record c_ready : Prop := {
  (** There are no namespaces, and functions are defined at the top of the program. *)
  cr_spaces : forall n, in_checked n l -> tn_type n <> N_NAMESPACE;
  cr_functions : forall n, in_checked n l -> tn_type n = N_FUNCTION_PROTO -> In n l;
  (** What is put outside of functions has different names, other than those that are taken; no
      name is declared by a header. *)
  cr_names : NoDup (map (name_of env) (flat_map outside l));
  cr_taken : forall k, In k (flat_map outside l) -> ~ In (name_of env k) (map u ["main"; "init"; "_strcmp"; "_int_pow"; "_float_pow"]%string);
  cr_headers : forall k y, nth_error (ce_syms env) k = Some y -> (exists v, y_kind y = KVar v) \/ (exists f, y_kind y = KFunc f) -> ~ In (y_name y) headers;
  cr_reserved : ~ In (u "main") headers /\ ~ In (u "init") headers;
  (** Where variables are initialised by constants, C has constants, too. *)
  cr_constants : forall n k y p, In n l \/ (exists m, In m l /\ tn_type m = N_FUNCTION_PROTO /\ In n (tn_child m)) ->
    tn_pay n = XDef k y -> x_cexpr y = true -> xpart p y -> constant_part p;
  (** There are no remainders of floating point numbers. *)
  cr_mod : forall n a b c, in_checked n l -> ~ uses n (XBin BMod a b TFloat c);
  (** There are no variables of type Void, and no such values are returned. *)
  cr_void : forall k x v, is_var env k x v -> v_type v <> TVoid;
  cr_returns : forall n e, in_checked n l -> tn_type n = N_RETURN -> tn_pay n = XExpr e -> x_ty e <> TVoid;
  (** No variable hides a helper function. *)
  cr_helpers : forall k x v h, is_var env k x v -> x <> helper_name h;
  (** Where the compiler is strict, string constants with names are not copied. *)
  cr_strings : strict = true -> forall n, in_checked n l ->
    (forall x, In (tn_type n) [N_VAR_DEF; N_VAR_ASSIGN; N_RETURN] -> checked_expr n = Some x -> ~ named_string x) /\
    (forall t k args ty x, uses n (XCall t k args ty) -> In x args -> ~ named_string x) }.
End Ready.
