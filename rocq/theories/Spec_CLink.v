(** Names in the object files that are made of C files. *)
From Coq Require Import List Arith NArith Bool Ascii String.
From Verif Require Import Base Model_Token Model_Parse Model_Sem Model_Names Model_CGen Spec_CProg Spec_CBack Spec_Link.
Import ListNotations.
Open Scope list_scope.
Open Scope nat_scope.

(** * What an object file has *)

(** The linker knows a function by the label of its declaration, or else by its name. *)
Definition given (ds : list cdef) (f n : text) : Prop := exists s t ps, In (FProto s t f ps (Some n)) ds.
Definition linker_name (ds : list cdef) (f n : text) : Prop := given ds f n \/ n = f /\ ~ exists n', given ds f n'.
(** Names that other files can use: variables and functions that are not static, and the
    helpers. *)
Definition c_defines (hs : list helper) (ds : list cdef) (n : text) : Prop :=
  (exists q t x lb i, In (FVar false q t x lb i) ds /\ n = match lb with Some z => z | None => x end) \/
  (exists t f ps b, In (FFunc false t f ps b) ds /\ linker_name ds f n) \/
  (exists h, In h hs /\ n = Spec_CProg.helper_name h).
(** Names that the file takes from other files: functions that are only declared. *)
Definition c_takes (ds : list cdef) (n : text) : Prop :=
  exists t f ps lb, In (FProto false t f ps lb) ds /\ (forall s t' ps' b, ~ In (FFunc s t' f ps' b) ds) /\ linker_name ds f n.

(** * What a program has *)

Section Program.
Variable ys : list symbol.
(** The functions of a program, and the variables at the top of the program or of a function. *)
Fixpoint c_declares (top : bool) (n : tnode) : list nat :=
  match n with
  | mktnode t _ p c =>
      match t, p with
      | N_VAR_DEF, XDef k _ => if top then [k] else []
      | N_FUNCTION_PROTO, XProto k _ => k :: (if external ys k then [] else flat_map (c_declares true) c)
      | (N_IF | N_ELIF | N_ELSE | N_WHILE | N_NAMESPACE), _ => flat_map (c_declares false) c
      | _, _ => []
      end
  end.
Definition c_declared (l : list tnode) : list nat := flat_map (c_declares true) l.

(** Nothing that is exported or external is called main or init, and no external function
    shares its name with another function or variable. *)
Record c_apart (l : list tnode) : Prop := mkcapart {
  ca_main : forall k, In k (c_declared l) -> exported ys k || external ys k = true -> name_of ys k <> u "main" /\ name_of ys k <> u "init";
  ca_external : forall j k, In j (c_declared l) -> In k (c_declared l) -> external ys j = true -> name_of ys j = name_of ys k -> j = k }.
(** What is exported is a function, or a variable at the top of the program, and it is not
    behind a statement that leaves its block. *)
Definition plain_exports (l : list tnode) : Prop :=
  forall k, exported ys k = true -> (In k (c_declared l) <-> In k (declared ys l)).
End Program.

(** The linkage names are those of skull/semantic/mangle.c. *)
Definition mangled (env : cctx) : Prop :=
  forall k t, ce_linkage env k = Some t -> mangle_name (ce_file env) (name_of (ce_syms env) k) = Ok t.
