(** Vocabulary for statements about the messages: what they point at, and how they read. *)
From Coq Require Import List Arith NArith ZArith Bool Ascii String.
From Verif Require Import Base Model_Token Model_Utf8 Model_Classify Model_Literal Model_Parse Model_Sem.
From Verif Require Import Spec_Parse Spec_Sem.
Import ListNotations.
Open Scope list_scope.
Open Scope N_scope.

(** * What the messages of the checks point at *)

(** The words that want a block, and their tokens. *)
Definition block_word (ty : ttype) (w : text) : Prop :=
  In (ty, w) [(T_KW_IF, u "if"); (T_KW_ELIF, u "elif"); (T_KW_ELSE, u "else"); (T_KW_WHILE, u "while")].

(** What a message says fits the token t of the program at its location: a name is the one
    spelled there, a token in it is t, keywords are the ones complained about, and types that
    should be the same are not. *)
Definition fits_token (src : text) (ts : list token) (t : token) (c : scode) : Prop :=
  match c with
  | S_VAR_NOT_FOUND n | S_VAR_ALREADY_DEFINED n | S_NO_REDEFINE_FUNC n | S_SHADOW_VAR n
  | S_ALIAS_ALREADY_DEFINED n | S_WARN_VAR_NOT_CONST n | S_WARN_VAR_UNUSED n | S_WARN_FUNC_UNUSED n =>
      spells src t n
  | S_NO_REDEFINE_X_AS_Y old n new => spells src t n /\ old <> new
  | S_MISSING_DECLARATION q | S_NON_INT_MAIN q | S_REASSIGN_CONST q | S_REDUNDANT_REASSIGN q
  | S_NO_NESTED q => q = t
  | S_LITERAL q e => q = t /\
      match e with ERR_BAD_ESCAPE w => exists a b, src = a ++ w ++ b | _ => True end
  | S_TYPE_NOT_FOUND q => hd_error q = Some t
  | S_NO_VOID_ASSIGN q => exists x, hd_error q = Some x /\ In x ts
  | S_MISSING_BLOCK w => block_word (t_type t) w
  | S_FUNC_TYPE_MISMATCH want got | S_EXPECTED_SAME_TYPE want got => want <> got
  | S_DIV_BY_ZERO => t_type t = T_INT_CONST
  | S_BREAK_NOT_IN_WHILE => t_type t = T_KW_BREAK
  | S_CONTINUE_NOT_IN_WHILE => t_type t = T_KW_CONTINUE
  | S_ELSE_ELIF_MISSING_IF => t_type t = T_KW_ELSE \/ t_type t = T_KW_ELIF
  | S_RETURN_MISSING_EXPR => t_type t = T_KW_RETURN
  | S_EXPECTED_RETURN _ | S_NO_VOID_RETURN _ | S_POW_BAD_TYPE _ | S_WARN_TRIVIAL_TYPE _ | S_LOAD_MODULE _ => False
  | _ => True
  end.

(** The names of the functions of a program and of the modules it imports. *)
Definition function_name (src : text) (tree : list node) (x : text) : Prop :=
  exists n t ret k ext exp ps, in_tree n tree /\ n_pay n = PProto t ret k ext exp ps /\ spells src t x.
Definition module_name (src : text) (tree : list node) (x : text) : Prop :=
  exists n t q r, in_tree n tree /\ n_type n = N_IMPORT /\ n_token n = t :: q :: r /\ spells src q x.

(** The messages without a location. *)
Definition fits_program (src : text) (tree : list node) (c : scode) : Prop :=
  match c with
  | S_EXPECTED_RETURN x | S_NO_VOID_RETURN x => function_name src tree x
  | S_LOAD_MODULE x => module_name src tree x
  | S_POW_BAD_TYPE t => t <> TInt /\ t <> TFloat
  | S_WARN_TRIVIAL_TYPE _ => True
  | _ => False
  end.

Definition check_points (src : text) (ts : list token) (tree : list node) (m : smsg) : Prop :=
  match sm_loc m with
  | Some l => exists t, In t ts /\ l = t_loc t /\ fits_token src ts t (sm_code m)
  | None => fits_program src tree (sm_code m)
  end.
