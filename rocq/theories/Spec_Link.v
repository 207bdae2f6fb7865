(** Names in object files. *)
From Coq Require Import List Arith NArith ZArith Bool Ascii String.
From Verif Require Spec_Pipeline.
From Verif Require Import Base Model_Token Spec_Token Spec_Classify Spec_Names Spec_Sem Model_Parse Model_Sem Spec_Run Spec_IR Model_LLVM Model_Link.
Import ListNotations.
Open Scope list_scope.
Open Scope nat_scope.

(** * What an object file has *)

(** The module has a call of the function. *)
Definition calls {H : host} (M : module H) (f : callee) : Prop :=
  exists code r l, In code (m_blocks H M) /\ In (ICall r f l) code.

(** Names that other files can use, and names that others have to define. A declaration that
    is not used leaves no trace in the object file. *)
Definition defines (T : list entry) (n : text) : Prop :=
  exists e, In e T /\ en_private e = false /\ en_body e = true /\ en_name e = n.
Definition used_in {H : host} (M : module H) (e : entry) : Prop :=
  en_shim e = true \/ match en_thing e with OfFun k => calls M (CSym k) | _ => True end.
Definition asks {H : host} (M : module H) (T : list entry) (n : text) : Prop :=
  exists e, In e T /\ en_private e = false /\ en_body e = false /\ used_in M e /\ en_name e = n.

(** What LLVM does with names that are taken: it puts a dot and a number behind them. *)
Definition renames (fresh : list text -> text -> text) : Prop :=
  forall l n, ~ In (fresh l n) l /\ exists d, fresh l n = n ++ chr "." :: d /\ d <> [] /\ Forall digit d.

(** The helpers of skull/shim.ll, and what the file of an executable defines besides. *)
Inductive helper_name : callee -> text -> Prop :=
| hn_strcmp : helper_name CStrcmp (u "_strcmp")
| hn_int : helper_name CIntPow (u "_int_pow")
| hn_float : helper_name CFloatPow (u "_float_pow").
Definition start_names : list text := [u "_start"; u "_strcmp"; u "_int_pow"; u "_float_pow"].

(** * What a program has *)

Section Program.
Variable ys : list symbol.
Definition name_of (k : nat) : text := match nth_error ys k with Some y => y_name y | None => [] end.
Definition exported (k : nat) : bool :=
  match nth_error ys k with
  | Some y => match y_kind y with KVar v => v_exported v | KFunc f => f_export f | _ => false end
  | None => false
  end.
Definition external (k : nat) : bool :=
  match nth_error ys k with
  | Some y => match y_kind y with KFunc f => f_external f | _ => false end
  | None => false
  end.

(** The functions of a program, and the variables that are not in functions. What stands in a
    block behind a statement that leaves it does not count. *)
Definition last_in_block (n : tnode) : bool :=
  match tn_type n with N_RETURN | N_UNREACHABLE | N_BREAK | N_CONTINUE => true | _ => false end.
Definition in_block (f : tnode -> list nat) : list tnode -> list nat :=
  fix go l := match l with [] => [] | n :: r => f n ++ (if last_in_block n then [] else go r) end.
Fixpoint declares (main : bool) (n : tnode) : list nat :=
  match n with
  | mktnode t _ p c =>
      match t, p with
      | N_VAR_DEF, XDef k _ => if main then [k] else []
      | N_FUNCTION_PROTO, XProto k _ => k :: (if external k then [] else in_block (declares false) c)
      | (N_IF | N_ELIF | N_ELSE | N_WHILE | N_NAMESPACE), _ => in_block (declares main) c
      | _, _ => []
      end
  end.
Definition declared (l : list tnode) : list nat := in_block (declares true) l.

(** No two exported names are the same. No external function shares its name with another
    function or variable, unless that is exported. In a program that is to be an executable
    nothing but what is exported is called exit. *)
Record apart (binary : bool) (l : list tnode) : Prop := mkapart {
  ap_exported : forall j k, In j (declared l) -> In k (declared l) -> exported j = true -> exported k = true ->
    name_of j = name_of k -> j = k;
  ap_external : forall j k, In j (declared l) -> In k (declared l) -> external j = true -> exported k = false ->
    name_of j = name_of k -> j = k;
  ap_exit : binary = true -> forall k, In k (declared l) -> exported k = false -> name_of k <> u "exit" }.
End Program.

(** M is the module of the checked program l, and T has the names of its object file. *)
Definition object_file (H : host) (fold : iop -> operand H -> operand H -> option (operand H)) (fresh : list text -> text -> text)
    (filename : text) (binary debug : bool) (ys : list symbol) (l : list tnode) (M : module H) (T : list entry) : Prop :=
  gen_module H fold ys debug l = Ok M /\
  exists log, gen_log H fold ys debug l = Ok log /\ module_names fresh ys filename binary log = Ok (Some T).

(** The file is called m.sk. *)
Definition module_name (filename m : text) : Prop :=
  has_base filename (m ++ u ".sk") /\ nz m /\ Spec_Names.fits m.
(** The name is empty or begins with a dot. *)
Definition dot_file (m : text) : Prop := m = [] \/ exists r, m = chr "." :: r.

(** The text is a program that passes the checks. *)
Definition checked_program (w : world) (src : text) (ts : list token) (tree : list node) (s : sst) (l : list tnode) : Prop :=
  source src /\ Spec_Token.fits src /\ Spec_Pipeline.lexed src ts /\ accepted w src ts tree s l /\ no_call_blocks tree /\ few_arguments tree.
