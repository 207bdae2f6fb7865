(** Runs of programs, step by step: an interpreter that tells apart how a run ends. *)
From Coq Require Import List Arith NArith ZArith Bool.
From Verif Require Import Base Model_Literal Model_Parse Spec_Parse Model_Sem Spec_Sem Spec_Sem2 Spec_Run.
Import ListNotations.
Open Scope list_scope.
Open Scope Z_scope.

(** A run fails if the result of an operation does not exist or does not fit, if a function
    from outside does not return or returns something else than it was declared with, or if
    a statement `unreachable` is reached. *)
Inductive fault := FArithmetic | FOutside | FUnreachable.

(** The answer after some steps: the run has ended, it has failed, it has got stuck because
    a name has no value, a value is not of the expected type or a statement has no meaning
    at its place; or it still goes on. *)
Inductive answer (A : Type) :=
| Done (a : A)
| Fails (f : fault)
| Wrong
| Later.
Arguments Done {A} _.
Arguments Fails {A} _.
Arguments Wrong {A}.
Arguments Later {A}.
Definition next {A B} (x : answer A) (k : A -> answer B) : answer B :=
  match x with Done a => k a | Fails f => Fails f | Wrong => Wrong | Later => Later end.

Section Steps.
Variable H : host.
Variable ys : list symbol.
Local Notation val := (sv (h_float H)).
Local Notation rst := (rst H).
Local Notation outcome := (outcome H).

(** Operands that an operator can be used with. *)
Definition suits1 (o : unop) (v : val) : bool :=
  match o, v with
  | UNeg, (SvInt _ | SvFloat _) | UNot, SvBool _ => true
  | _, _ => false
  end.
Definition suits2 (o : binop) (a b : val) : bool :=
  match o, a, b with
  | (BAdd | BSub | BMult | BDiv | BMod | BPow | BLess | BGtr | BLessEq | BGtrEq), SvInt _, SvInt _ => true
  | (BAdd | BSub | BMult | BDiv | BMod | BPow | BLess | BGtr | BLessEq | BGtrEq), SvFloat _, SvFloat _ => true
  | (BLshift | BRshift), SvInt _, SvInt _ => true
  | (BAnd | BOr | BXor), SvBool _, SvBool _ => true
  | (BIs | BIsnt), SvInt _, SvInt _ | (BIs | BIsnt), SvFloat _, SvFloat _ | (BIs | BIsnt), SvBool _, SvBool _
  | (BIs | BIsnt), SvRune _, SvRune _ | (BIs | BIsnt), SvStr _, SvStr _ => true
  | _, _, _ => false
  end.
Definition result_of (suits : bool) (r : option val) (s : rst) : answer (val * rst) :=
  match r with Some v => Done (v, s) | None => if suits then Fails FArithmetic else Wrong end.

Definition expect (v : val) (t : ty) (s : rst) (otherwise : answer (val * rst)) : answer (val * rst) :=
  if of_type H v t then Done (v, s) else otherwise.

(** For the relation of Spec_Run.v: no operation is left out. *)
Definition every1 (o : unop) (v : val) : Prop := True.
Definition every2 (o : binop) (a b : val) : Prop := True.

(** f bounds the depth of the run. *)
Fixpoint run_expr (f : nat) (s : rst) (x : texpr) {struct f} : answer (val * rst) :=
  match f with
  | O => Later
  | S f =>
      match x with
      | XVar _ k ty _ => match read H s k with Some v => expect v ty s Wrong | None => Wrong end
      | XConst _ v ty => expect (literal_of H v) ty s Wrong
      | XUn o x _ _ => next (run_expr f s x) (fun r => result_of (suits1 o (fst r)) (unary H o (fst r)) (snd r))
      | XBin o x y _ _ =>
          next (run_expr f s x) (fun p => next (run_expr f (snd p) y) (fun q =>
            result_of (suits2 o (fst p) (fst q)) (binary H o (fst p) (fst q)) (snd q)))
      | XCall _ k args ty =>
          next (run_exprs f s args) (fun a =>
            let (vs, s1) := a in
            if is_external ys k then
              match h_call H k vs (r_out H s1) with
              | Some (v, o) => expect v ty (set_out H s1 o) (Fails FOutside)
              | None => Fails FOutside
              end
            else
              match lookup (r_funs H s1) k with
              | Some (ps, body) =>
                  if Nat.eqb (List.length ps) (List.length vs) then
                    next (run_block f (enter_call H s1 ps vs) body) (fun r =>
                      match returned H (fst r) with
                      | Some v => expect v ty (leave_call H s1 (snd r)) Wrong
                      | None => Wrong
                      end)
                  else Wrong
              | None => Wrong
              end)
      end
  end
with run_exprs (f : nat) (s : rst) (l : list texpr) {struct f} : answer (list val * rst) :=
  match f with
  | O => Later
  | S f =>
      match l with
      | [] => Done ([], s)
      | x :: l => next (run_expr f s x) (fun p => next (run_exprs f (snd p) l) (fun q => Done (fst p :: fst q, snd q)))
      end
  end
with run_block (f : nat) (s : rst) (l : list tnode) {struct f} : answer (outcome * rst) :=
  match f with
  | O => Later
  | S f =>
      match l with
      | [] => Done (ONormal, s)
      | n :: r =>
          match tn_type n, tn_pay n with
          | (N_COMMENT | N_NOOP | N_IMPORT), _ | N_VAR_DEF, XAlias => run_block f s r
          | N_VAR_DEF, XDef k e => next (run_expr f s e) (fun p => run_block f (define H (snd p) k (fst p)) r)
          | N_VAR_ASSIGN, XSet k e =>
              next (run_expr f s e) (fun p => match assign H (snd p) k (fst p) with Some s2 => run_block f s2 r | None => Wrong end)
          | N_EXPR, XExpr e => next (run_expr f s e) (fun p => run_block f (snd p) r)
          | N_RETURN, XExpr e => next (run_expr f s e) (fun p => Done (OReturn (Some (fst p)), snd p))
          | N_RETURN, XNone => Done (OReturn None, s)
          | N_BREAK, _ => Done (OBreak, s)
          | N_CONTINUE, _ => Done (OContinue, s)
          | N_UNREACHABLE, _ => Fails FUnreachable
          | N_IF, _ => run_branch f s n r
          | N_WHILE, XExpr e =>
              next (run_expr f s e) (fun p =>
                match p with
                | (SvBool false, s1) => run_block f s1 r
                | (SvBool true, s1) =>
                    next (run_block f s1 (tn_child n)) (fun q =>
                      match q with
                      | (ONormal, s2) | (OContinue, s2) => run_block f (close H s1 s2) (n :: r)
                      | (OBreak, s2) => run_block f (close H s1 s2) r
                      | (OReturn v, s2) => Done (OReturn v, close H s1 s2)
                      end)
                | _ => Wrong
                end)
          | N_NAMESPACE, _ => next (run_block f s (tn_child n)) (fun q => run_after f (snd q) (fst q) r)
          | N_FUNCTION_PROTO, XProto k ps =>
              if is_external ys k then run_block f s r else run_block f (declare H s k ps (tn_child n)) r
          | _, _ => Wrong
          end
      end
  end
with run_branch (f : nat) (s : rst) (n : tnode) (r : list tnode) {struct f} : answer (outcome * rst) :=
  match f with
  | O => Later
  | S f =>
      match tn_pay n with
      | XExpr e =>
          next (run_expr f s e) (fun p =>
            match p with
            | (SvBool true, s1) => next (run_block f s1 (tn_child n)) (fun q => run_after f (close H s1 (snd q)) (fst q) (behind r))
            | (SvBool false, s1) => run_otherwise f s1 r
            | _ => Wrong
            end)
      | _ => Wrong
      end
  end
with run_otherwise (f : nat) (s : rst) (r : list tnode) {struct f} : answer (outcome * rst) :=
  match f with
  | O => Later
  | S f =>
      match r with
      | n :: r' =>
          match tn_type n with
          | N_COMMENT => run_otherwise f s r'
          | N_ELIF => run_branch f s n r'
          | N_ELSE => next (run_block f s (tn_child n)) (fun q => run_after f (close H s (snd q)) (fst q) r')
          | _ => run_block f s r
          end
      | [] => run_block f s []
      end
  end
with run_after (f : nat) (s : rst) (o : outcome) (r : list tnode) {struct f} : answer (outcome * rst) :=
  match f with
  | O => Later
  | S f => match o with ONormal => run_block f s r | _ => Done (o, s) end
  end.

(** A whole program, as in Spec_Run.v; a program that ends in any other way has gone wrong. *)
Definition run_program (f : nat) (l : list tnode) (o : h_out H) : answer (Z * h_out H) :=
  next (run_block f (start H o) l) (fun r =>
    match fst r with
    | ONormal => Done (0, r_out H (snd r))
    | OReturn (Some (SvInt z)) => Done (z, r_out H (snd r))
    | _ => Wrong
    end).
End Steps.

(** * Programs that cannot go wrong *)

(** What the program itself returns is an Int, and functions without a result return nothing.
    (Why the checks do not see to this: ints_returned_refuted, nothing_returned_refuted.) *)
Definition ints_returned (tree : list node) (l : list tnode) : Prop :=
  forall n x, in_main n x tree l -> n_type n = N_RETURN -> exists y, tn_pay x = XExpr y /\ x_ty y = TInt.
Definition nothing_returned (ys : list symbol) (l : list tnode) : Prop :=
  forall n k ks y f m e, in_checked n l -> tn_pay n = XProto k ks -> nth_error ys k = Some y -> y_kind y = KFunc f -> f_ret f = TVoid ->
  in_checked m (tn_child n) -> tn_type m = N_RETURN -> tn_pay m = XExpr e -> x_ty e = TVoid.
