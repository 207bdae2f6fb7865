(** What a checked program does when it runs. The documentation (docs/expressions.md,
    docs/variables.md, docs/control_flow.md, docs/functions.md) names the statements and the
    operators; this file writes their usual meaning down. Results that do not fit into 64
    bits, divisions by zero and shifts by 64 or more have no meaning. Both operands of `and`
    and `or` are evaluated. Variables of a namespace live on behind its block. References are left out. *)
From Coq Require Import List Arith NArith ZArith Bool.
From Verif Require Import Base Model_Literal Model_Parse Model_Sem.
Import ListNotations.
Open Scope list_scope.
Open Scope Z_scope.

(** Values; F is the type of floating point numbers. A call of a function that returns
    nothing has the value SvVoid. *)
Inductive sv (F : Type) :=
| SvInt (z : Z)
| SvFloat (f : F)
| SvBool (b : bool)
| SvRune (c : N)
| SvStr (s : text)
| SvVoid.
Arguments SvInt {F} _.
Arguments SvFloat {F} _.
Arguments SvBool {F} _.
Arguments SvRune {F} _.
Arguments SvStr {F} _.
Arguments SvVoid {F}.

(** The machine that the program runs on: its floating point arithmetic, and the functions
    from outside, which may change the outside and need not return. *)
Record host := mkhost {
  h_float : Type;
  h_lit : fval -> h_float;
  h_zero : h_float;
  h_neg : h_float -> h_float;
  h_add : h_float -> h_float -> h_float;
  h_sub : h_float -> h_float -> h_float;
  h_mul : h_float -> h_float -> h_float;
  h_div : h_float -> h_float -> h_float;
  h_rem : h_float -> h_float -> h_float;
  h_pow : h_float -> h_float -> h_float;
  h_eq : h_float -> h_float -> bool;
  h_lt : h_float -> h_float -> bool;
  h_le : h_float -> h_float -> bool;
  h_out : Type;
  h_call : nat -> list (sv h_float) -> h_out -> option (sv h_float * h_out) }.

(** * Operators *)

Definition in64 (z : Z) : bool := (- 2 ^ 63 <=? z) && (z <? 2 ^ 63).
Definition wrap64 (z : Z) : Z := (z + 2 ^ 63) mod 2 ^ 64 - 2 ^ 63.

Section Operators.
Variable H : host.
Local Notation val := (sv (h_float H)).

Definition fit (z : Z) : option val := if in64 z then Some (SvInt z) else None.
Definition shift (b : Z) (z : Z) : option val := if (0 <=? b) && (b <? 64) then Some (SvInt z) else None.

Definition unary (o : unop) (v : val) : option val :=
  match o, v with
  | UNeg, SvInt z => fit (- z)
  | UNeg, SvFloat f => Some (SvFloat (h_neg H f))
  | UNot, SvBool b => Some (SvBool (negb b))
  | _, _ => None
  end.

Definition equal (a b : val) : option bool :=
  match a, b with
  | SvInt x, SvInt y => Some (x =? y)
  | SvFloat x, SvFloat y => Some (h_eq H x y)
  | SvBool x, SvBool y => Some (Bool.eqb x y)
  | SvRune x, SvRune y => Some (x =? y)%N
  | SvStr x, SvStr y => Some (text_eqb x y)
  | _, _ => None
  end.

Definition binary (o : binop) (a b : val) : option val :=
  match o, a, b with
  | BAdd, SvInt x, SvInt y => fit (x + y)
  | BSub, SvInt x, SvInt y => fit (x - y)
  | BMult, SvInt x, SvInt y => fit (x * y)
  | BDiv, SvInt x, SvInt y => if y =? 0 then None else fit (Z.quot x y)
  | BMod, SvInt x, SvInt y => if y =? 0 then None else fit (Z.rem x y)
  | BPow, SvInt x, SvInt y => if y <? 0 then None else fit (x ^ y)
  | BLshift, SvInt x, SvInt y => shift y (wrap64 (x * 2 ^ y))
  | BRshift, SvInt x, SvInt y => shift y (wrap64 (x mod 2 ^ 64 / 2 ^ y))
  | BLess, SvInt x, SvInt y => Some (SvBool (x <? y))
  | BGtr, SvInt x, SvInt y => Some (SvBool (y <? x))
  | BLessEq, SvInt x, SvInt y => Some (SvBool (x <=? y))
  | BGtrEq, SvInt x, SvInt y => Some (SvBool (y <=? x))
  | BAdd, SvFloat x, SvFloat y => Some (SvFloat (h_add H x y))
  | BSub, SvFloat x, SvFloat y => Some (SvFloat (h_sub H x y))
  | BMult, SvFloat x, SvFloat y => Some (SvFloat (h_mul H x y))
  | BDiv, SvFloat x, SvFloat y => Some (SvFloat (h_div H x y))
  | BMod, SvFloat x, SvFloat y => Some (SvFloat (h_rem H x y))
  | BPow, SvFloat x, SvFloat y => Some (SvFloat (h_pow H x y))
  | BLess, SvFloat x, SvFloat y => Some (SvBool (h_lt H x y))
  | BGtr, SvFloat x, SvFloat y => Some (SvBool (h_lt H y x))
  | BLessEq, SvFloat x, SvFloat y => Some (SvBool (h_le H x y))
  | BGtrEq, SvFloat x, SvFloat y => Some (SvBool (h_le H y x))
  | BAnd, SvBool x, SvBool y => Some (SvBool (x && y))
  | BOr, SvBool x, SvBool y => Some (SvBool (x || y))
  | BXor, SvBool x, SvBool y => Some (SvBool (xorb x y))
  | BIs, _, _ => option_map SvBool (equal a b)
  | BIsnt, _, _ => option_map (fun e => SvBool (negb e)) (equal a b)
  | _, _, _ => None
  end.

Definition literal_of (v : value) : val :=
  match v with
  | VInt z => SvInt z
  | VFloat f => SvFloat (h_lit H f)
  | VBool b => SvBool b
  | VRune c => SvRune c
  | VStr s => SvStr s
  end.

(** The values of a type. No character of a string is 0. *)
Definition of_type (v : val) (t : ty) : bool :=
  match t, v with
  | TInt, SvInt z => in64 z
  | TFloat, SvFloat _ | TBool, SvBool _ | TVoid, SvVoid => true
  | TRune, SvRune c => (c <? 2 ^ 32)%N
  | TStr, SvStr s => forallb (fun c => negb (c =? 0)%N) s
  | _, _ => false
  end.

(** * States *)

(** The values of the variables of the program and, inside of a function, of its own
    variables; the functions that were declared, with parameters and body; the outside. *)
Record rst := mkrst {
  r_glob : nat -> option val;
  r_loc : option (nat -> option val);
  r_funs : list (nat * (list nat * list tnode));
  r_out : h_out H }.

Definition put {A} (f : nat -> option A) (k : nat) (v : A) (i : nat) : option A :=
  if Nat.eqb i k then Some v else f i.
Definition local (s : rst) (k : nat) : option val :=
  match r_loc s with Some f => f k | None => None end.
Definition read (s : rst) (k : nat) : option val :=
  match local s k with Some v => Some v | None => r_glob s k end.
Definition set_glob (s : rst) (k : nat) (v : val) : rst := mkrst (put (r_glob s) k v) (r_loc s) (r_funs s) (r_out s).
Definition set_loc (s : rst) (f : nat -> option val) (k : nat) (v : val) : rst :=
  mkrst (r_glob s) (Some (put f k v)) (r_funs s) (r_out s).
(** A definition makes a variable of the function that is running, or of the program. *)
Definition define (s : rst) (k : nat) (v : val) : rst :=
  match r_loc s with Some f => set_loc s f k v | None => set_glob s k v end.
(** Only a variable that exists can be assigned to. *)
Definition assign (s : rst) (k : nat) (v : val) : option rst :=
  match r_loc s, local s k, r_glob s k with
  | Some f, Some _, _ => Some (set_loc s f k v)
  | _, None, Some _ => Some (set_glob s k v)
  | _, _, _ => None
  end.
Definition declare (s : rst) (k : nat) (ps : list nat) (body : list tnode) : rst :=
  mkrst (r_glob s) (r_loc s) ((k, (ps, body)) :: r_funs s) (r_out s).
Fixpoint lookup {A} (l : list (nat * A)) (k : nat) : option A :=
  match l with [] => None | (i, a) :: r => if Nat.eqb i k then Some a else lookup r k end.
Fixpoint bind_all (ps : list nat) (vs : list val) : nat -> option val :=
  match ps, vs with
  | p :: ps, v :: vs => put (bind_all ps vs) p v
  | _, _ => fun _ => None
  end.
(** Variables and functions live to the end of the block they are declared in. *)
Definition outer {A} (f g : nat -> option A) (i : nat) : option A := match f i with Some _ => g i | None => None end.
Definition close (s inner : rst) : rst :=
  mkrst (outer (r_glob s) (r_glob inner))
    (match r_loc s, r_loc inner with Some f, Some g => Some (outer f g) | _, _ => None end)
    (r_funs s) (r_out inner).
(** Into a function and back. *)
Definition enter_call (s : rst) (ps : list nat) (vs : list val) : rst :=
  mkrst (r_glob s) (Some (bind_all ps vs)) (r_funs s) (r_out s).
Definition leave_call (s inner : rst) : rst := mkrst (r_glob inner) (r_loc s) (r_funs s) (r_out inner).
Definition set_out (s : rst) (o : h_out H) : rst := mkrst (r_glob s) (r_loc s) (r_funs s) o.

(** * Statements *)

(** How a block ends. *)
Inductive outcome := ONormal | OBreak | OContinue | OReturn (v : option val).

(** What the call of a function gives. *)
Definition returned (o : outcome) : option val :=
  match o with
  | ONormal | OReturn None => Some SvVoid
  | OReturn (Some v) => Some v
  | OBreak | OContinue => None
  end.

(** The statements behind the branches that belong to an `if`. *)
Fixpoint behind (l : list tnode) : list tnode :=
  match l with
  | n :: r =>
      match tn_type n with
      | N_COMMENT | N_ELIF => behind r
      | N_ELSE => r
      | _ => l
      end
  | [] => []
  end.

Definition is_external (ys : list symbol) (k : nat) : bool :=
  match nth_error ys k with Some y => match y_kind y with KFunc f => f_external f | _ => false end | None => false end.

(** `ok1` and `ok2` restrict the operations that may be performed. `exec s l o s'`: the
    statements l, started in state s, end with o in state s'. *)
Variable ys : list symbol.
Variable ok1 : unop -> val -> Prop.
Variable ok2 : binop -> val -> val -> Prop.

Inductive eval : rst -> texpr -> val -> rst -> Prop :=
| ev_var : forall s t k ty c v, read s k = Some v -> of_type v ty = true -> eval s (XVar t k ty c) v s
| ev_const : forall s t v ty, of_type (literal_of v) ty = true -> eval s (XConst t v ty) (literal_of v) s
| ev_un : forall s s1 o x ty c v v', eval s x v s1 -> ok1 o v -> unary o v = Some v' -> eval s (XUn o x ty c) v' s1
| ev_bin : forall s s1 s2 o x y ty c a b v, eval s x a s1 -> eval s1 y b s2 -> ok2 o a b -> binary o a b = Some v ->
    eval s (XBin o x y ty c) v s2
| ev_call : forall s s1 s2 t k args ty vs ps body o v, evals s args vs s1 ->
    lookup (r_funs s1) k = Some (ps, body) -> List.length ps = List.length vs ->
    exec (enter_call s1 ps vs) body o s2 -> returned o = Some v -> of_type v ty = true ->
    eval s (XCall t k args ty) v (leave_call s1 s2)
| ev_external : forall s s1 t k args ty vs v o, evals s args vs s1 -> is_external ys k = true ->
    h_call H k vs (r_out s1) = Some (v, o) -> of_type v ty = true ->
    eval s (XCall t k args ty) v (set_out s1 o)
with evals : rst -> list texpr -> list val -> rst -> Prop :=
| evs_nil : forall s, evals s [] [] s
| evs_cons : forall s s1 s2 x xs v vs, eval s x v s1 -> evals s1 xs vs s2 -> evals s (x :: xs) (v :: vs) s2
with exec : rst -> list tnode -> outcome -> rst -> Prop :=
| ex_nil : forall s, exec s [] ONormal s
| ex_skip : forall s s' n r o, In (tn_type n) [N_COMMENT; N_NOOP; N_IMPORT] \/ tn_type n = N_VAR_DEF /\ tn_pay n = XAlias ->
    exec s r o s' -> exec s (n :: r) o s'
| ex_define : forall s s1 s' n r k e v o, tn_type n = N_VAR_DEF -> tn_pay n = XDef k e -> eval s e v s1 ->
    exec (define s1 k v) r o s' -> exec s (n :: r) o s'
| ex_assign : forall s s1 s2 s' n r k e v o, tn_type n = N_VAR_ASSIGN -> tn_pay n = XSet k e -> eval s e v s1 ->
    assign s1 k v = Some s2 -> exec s2 r o s' -> exec s (n :: r) o s'
| ex_call : forall s s1 s' n r e v o, tn_type n = N_EXPR -> tn_pay n = XExpr e -> eval s e v s1 ->
    exec s1 r o s' -> exec s (n :: r) o s'
| ex_return : forall s s1 n r e v, tn_type n = N_RETURN -> tn_pay n = XExpr e -> eval s e v s1 ->
    exec s (n :: r) (OReturn (Some v)) s1
| ex_leave : forall s n r, tn_type n = N_RETURN -> tn_pay n = XNone -> exec s (n :: r) (OReturn None) s
| ex_break : forall s n r, tn_type n = N_BREAK -> exec s (n :: r) OBreak s
| ex_continue : forall s n r, tn_type n = N_CONTINUE -> exec s (n :: r) OContinue s
| ex_if : forall s s' n r o, tn_type n = N_IF -> branch s n r o s' -> exec s (n :: r) o s'
| ex_stop : forall s s1 n r e, tn_type n = N_WHILE -> tn_pay n = XExpr e -> eval s e (SvBool false) s1 ->
    forall o s', exec s1 r o s' -> exec s (n :: r) o s'
| ex_again : forall s s1 s2 s' n r e o1 o, tn_type n = N_WHILE -> tn_pay n = XExpr e -> eval s e (SvBool true) s1 ->
    exec s1 (tn_child n) o1 s2 -> o1 = ONormal \/ o1 = OContinue ->
    exec (close s1 s2) (n :: r) o s' -> exec s (n :: r) o s'
| ex_quit : forall s s1 s2 s' n r e o, tn_type n = N_WHILE -> tn_pay n = XExpr e -> eval s e (SvBool true) s1 ->
    exec s1 (tn_child n) OBreak s2 -> exec (close s1 s2) r o s' -> exec s (n :: r) o s'
| ex_return_inside : forall s s1 s2 n r e v, tn_type n = N_WHILE -> tn_pay n = XExpr e -> eval s e (SvBool true) s1 ->
    exec s1 (tn_child n) (OReturn v) s2 -> exec s (n :: r) (OReturn v) (close s1 s2)
| ex_space : forall s s1 s' n r o1 o, tn_type n = N_NAMESPACE -> exec s (tn_child n) o1 s1 -> after s1 o1 r o s' ->
    exec s (n :: r) o s'
| ex_function : forall s s' n r k ps o, tn_type n = N_FUNCTION_PROTO -> tn_pay n = XProto k ps -> is_external ys k = false ->
    exec (declare s k ps (tn_child n)) r o s' -> exec s (n :: r) o s'
| ex_external : forall s s' n r k ps o, tn_type n = N_FUNCTION_PROTO -> tn_pay n = XProto k ps -> is_external ys k = true ->
    exec s r o s' -> exec s (n :: r) o s'
(** The branch n of an `if`, and what comes behind it. *)
with branch : rst -> tnode -> list tnode -> outcome -> rst -> Prop :=
| br_true : forall s s1 s2 s' n r e o1 o, tn_pay n = XExpr e -> eval s e (SvBool true) s1 ->
    exec s1 (tn_child n) o1 s2 -> after (close s1 s2) o1 (behind r) o s' -> branch s n r o s'
| br_false : forall s s1 s' n r e o, tn_pay n = XExpr e -> eval s e (SvBool false) s1 ->
    otherwise s1 r o s' -> branch s n r o s'
(** The statements behind a branch that was not taken. *)
with otherwise : rst -> list tnode -> outcome -> rst -> Prop :=
| ot_comment : forall s s' n r o, tn_type n = N_COMMENT -> otherwise s r o s' -> otherwise s (n :: r) o s'
| ot_elif : forall s s' n r o, tn_type n = N_ELIF -> branch s n r o s' -> otherwise s (n :: r) o s'
| ot_else : forall s s1 s' n r o1 o, tn_type n = N_ELSE -> exec s (tn_child n) o1 s1 -> after (close s s1) o1 r o s' ->
    otherwise s (n :: r) o s'
| ot_end : forall s s' r o, exec s r o s' -> otherwise s r o s'
(** The statements behind a block that ended with o1. *)
with after : rst -> outcome -> list tnode -> outcome -> rst -> Prop :=
| af_normal : forall s r o s', exec s r o s' -> after s ONormal r o s'
| af_jump : forall s r o, o <> ONormal -> after s o r o s.

(** A whole program: its exit code is what it returns, or 0. *)
Definition start (o : h_out H) : rst := mkrst (fun _ => None) None [] o.
Definition exits (l : list tnode) (o : h_out H) (code : Z) (o' : h_out H) : Prop :=
  exists out s', exec (start o) l out s' /\ r_out s' = o' /\
  (out = ONormal /\ code = 0 \/ out = OReturn (Some (SvInt code))).
End Operators.
Arguments ONormal {H}.
Arguments OBreak {H}.
Arguments OContinue {H}.
Arguments OReturn {H} _.
