(** What debuggers ought to be told about variables. *)
From Coq Require Import List Arith NArith Bool.
From Verif Require Import Base Model_Token Model_Parse Model_Sem Model_Where Spec_Where Model_Vars.
Import ListNotations.
Open Scope list_scope.

Section Vars.
Variable ys : list symbol.

Definition line_of (k : nat) (n : N) : Prop :=
  (exists y, nth_error ys k = Some y /\ n = l_line (y_loc y)) \/ (nth_error ys k = None /\ n = 0%N).
Definition constant (k : nat) : Prop := exists y v, nth_error ys k = Some y /\ y_kind y = KVar v /\ v_const v = true.

(** [describes c f n r]: [r] describes a variable of the statement [n], which has the scope [c] and the
    function [f] around it: those of the main program belong to the whole file, others to the scope; parameters are
    numbered from one and belong to their function, at its line. *)
Inductive describes (c : dscope) : option nat -> tnode -> vrec -> Prop :=
| de_global : forall tok k e ch n, line_of k n ->
    describes c None (mktnode N_VAR_DEF tok (XDef k e) ch) (mkvrec k 0 None n PGlobal None)
| de_local : forall g tok k e ch n p, line_of k n -> (constant k /\ p = PValue \/ ~ constant k /\ p = PCell) ->
    describes c (Some g) (mktnode N_VAR_DEF tok (XDef k e) ch) (mkvrec k 0 (Some c) n p (Some g))
| de_param : forall f tok g ks ch i k n, opens ys (mktnode N_FUNCTION_PROTO tok (XProto g ks) ch) (Some g) ->
    nth_error ks i = Some k -> line_of g n ->
    describes c f (mktnode N_FUNCTION_PROTO tok (XProto g ks) ch) (mkvrec k (S i) (Some (ScFun (Some g))) n PCell (Some g)).

(** Debuggers take the place for an address: it has to be one. *)
Definition addressable (r : vrec) : Prop := r_place r <> PValue.
End Vars.
