(** What is claimed about the code of the LLVM back end. *)
From Coq Require Import List Arith NArith ZArith Bool.
From Verif Require Import Base Model_Literal Model_Parse Model_Sem Spec_Sem Spec_Sem2 Spec_Run Spec_IR.
Import ListNotations.
Open Scope list_scope.
Open Scope nat_scope.

(** * Programs *)

(** No part of an expression takes a reference or follows one. *)
Definition no_references (l : list tnode) : Prop :=
  forall n o x t c, in_checked n l -> uses n (XUn o x t c) -> o <> URef /\ o <> UDeref.

(** The variables that are defined with `mut`, those of functions left out. *)
Definition mutable (ys : list symbol) (k : nat) : bool :=
  match nth_error ys k with
  | Some y => match y_kind y with KVar v => negb (v_const v) | _ => false end
  | None => false
  end.
Fixpoint mut_defs (ys : list symbol) (n : tnode) : list nat :=
  match n with
  | mktnode t _ p c =>
      match p with XDef k _ => if mutable ys k then [k] else [] | _ => [] end ++
      match t with N_FUNCTION_PROTO => [] | _ => flat_map (mut_defs ys) c end
  end.
(** No such variable is defined inside of a loop. *)
Fixpoint steady (ys : list symbol) (n : tnode) : bool :=
  match n with
  | mktnode t _ _ c =>
      match t with
      | N_FUNCTION_PROTO => true
      | N_WHILE => match flat_map (mut_defs ys) c with [] => forallb (steady ys) c | _ :: _ => false end
      | _ => forallb (steady ys) c
      end
  end.

(** * Operations *)

(** Where the code computes what Spec_Run.v says: for the negation of numbers where it is the
    difference from zero, for divisions of integers without rest, for remainders of
    divisions whose quotient fits, and for powers of integers with positive exponents. *)
Definition exact1 (H : host) (o : unop) (v : sv (h_float H)) : Prop :=
  match o, v with
  | UNeg, SvFloat f => h_sub H (h_zero H) f = h_neg H f
  | _, _ => True
  end.
Definition exact2 (H : host) (o : binop) (a b : sv (h_float H)) : Prop :=
  match o, a, b with
  | BDiv, SvInt x, SvInt y => Z.rem x y = 0%Z
  | BMod, SvInt x, SvInt y => in64 (Z.quot x y) = true
  | BPow, SvInt x, SvInt y => (1 <= y)%Z
  | BPow, SvFloat _, SvFloat _ => False
  | _, _, _ => True
  end.

(** What LLVM may return instead of a new instruction: a constant or one of the operands,
    with the value that the instruction would have had, if that is not poison. *)
Definition folds_well (H : host) (fold : iop -> operand H -> operand H -> option (operand H)) : Prop :=
  forall o a b c, fold o a b = Some c ->
  (c = a \/ c = b \/ exists v, c = OVal v) /\
  forall args regs va vb v, operand_value H args regs a = Some va -> operand_value H args regs b = Some vb ->
    bin_value H o va vb = Some (V v) -> operand_value H args regs c = Some (V v).
