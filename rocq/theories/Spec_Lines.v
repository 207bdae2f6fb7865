(** Line directives in C files: which there should be, and what it means that they are all that
    a debug build adds. *)
From Coq Require Import List Arith NArith Bool Ascii String.
From Verif Require Import Base Model_Token Model_Literal Model_Parse Model_Sem Model_CGen Spec_C.
Import ListNotations.
Open Scope list_scope.
Open Scope N_scope.

(** C11, 6.10.4: `# line digit-sequence "s-char-sequence" new-line`. *)
Inductive directive (file : text) (n : N) : text -> Prop :=
| di_line : forall ds, ds <> [] -> c_digits 10 0 ds = Some n -> directive file n (u "#line " ++ ds ++ u " " ++ [34] ++ file ++ [34] ++ [10]).

(** [marked file ns d p]: the text [d] is [p] with line directives for [ns], in that order, each
    of them right behind a line break. *)
Inductive marked (file : text) : list N -> text -> text -> Prop :=
| mk_same : forall t, marked file [] t t
| mk_line : forall n x, directive file n x -> marked file [n] (10 :: x) [10]
| mk_app : forall ms ns d e p q, marked file ms d p -> marked file ns e q -> marked file (ms ++ ns) (d ++ e) (p ++ q).

(** * The directives of a program: the line of each statement

    A statement comes before those in its block. What stands in functions is apart; a function
    comes behind the functions in it. No directive is there for comments, imports, aliases, external
    functions and constants at the top of the program or of a function. *)
Section Lines.
Variable ys : list symbol.
Definition constant_var (k : nat) : bool :=
  match nth_error ys k with Some (mksym _ _ (KVar v)) => match v_cexpr v with Some b => b | None => false end | _ => false end.
Definition external_fun (k : nat) : bool := match nth_error ys k with Some (mksym _ _ (KFunc f)) => f_external f | _ => false end.
Definition own_line (tok : list token) : list N := match tok with t :: _ => [l_line (t_loc t)] | [] => [] end.

(** Those of a statement itself and those of functions in it. *)
Fixpoint line_marks (top : bool) (n : tnode) : list N * list N :=
  match n with
  | mktnode ty tok p c =>
      let inside top := (List.concat (map (fun m => fst (line_marks top m)) c), List.concat (map (fun m => snd (line_marks top m)) c)) in
      match ty with
      | N_UNKNOWN | N_IMPORT | N_COMMENT => ([], [])
      | N_VAR_DEF =>
          match p with
          | XDef k _ => if top && constant_var k then ([], []) else (own_line tok, [])
          | _ => ([], [])
          end
      | N_IF | N_ELIF | N_ELSE | N_WHILE | N_NAMESPACE => let '(own, fs) := inside false in (own_line tok ++ own, fs)
      | N_FUNCTION_PROTO =>
          match p with
          | XProto k _ => if external_fun k then ([], []) else let '(own, fs) := inside true in ([], fs ++ own_line tok ++ own)
          | _ => ([], [])
          end
      | _ => (own_line tok, [])
      end
  end.
Definition statement_marks (l : list tnode) : list N := List.concat (map (fun n => fst (line_marks true n)) l).
Definition function_marks (l : list tnode) : list N := List.concat (map (fun n => snd (line_marks true n)) l).
End Lines.

(** The same build with or without `-g`. *)
Definition with_debug (b : bool) (env : cctx) : cctx := mkcctx (ce_syms env) (ce_hex env) (ce_zero env) (ce_linkage env) b (ce_file env).

(** * The lines of a C file as a compiler counts them (C11, 6.10.4p3) *)
Fixpoint split_at (c : N) (t : text) : list text :=
  match t with
  | [] => [[]]
  | d :: r => if d =? c then [] :: split_at c r else match split_at c r with l :: ls => (d :: l) :: ls | [] => [[d]] end
  end.
Definition line_number (l : text) : option N :=
  match split_at 32 l with w :: ds :: _ => if text_eqb w (u "#line") then c_digits 10 0 ds else None | _ => None end.
Fixpoint counted (n : N) (ls : list text) : list (N * text) :=
  match ls with
  | [] => []
  | l :: r => match line_number l with Some k => counted k r | None => (n, l) :: counted (n + 1) r end
  end.
Definition presumed (t : text) : list (N * text) := counted 1 (split_at 10 t).
