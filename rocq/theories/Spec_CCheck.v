(** What a C compiler checks before it translates the programs of Spec_CProg.v: the constraints
    of C11 on names (6.2.1, 6.7, 6.9), on the types of operands (6.5), of initialisers and
    assigned values (6.5.16.1, 6.7.9), on jumps and on `return` (6.8.6). Left out: that
    constant expressions have values (6.6p4, see Spec_CRun.v), and pointers other than
    strings, with which nothing but copying and comparing is accepted here. *)
From Coq Require Import List Arith NArith ZArith Bool Ascii String.
From Verif Require Import Base Spec_C Spec_CProg.
Import ListNotations.
Open Scope string_scope.
Open Scope list_scope.
Open Scope N_scope.

(** * Types of expressions *)

(** Integers, floating point numbers, pointers (to constant objects or not), nothing. *)
Inductive ckind := KdInt | KdFloat | KdPtr (const : bool) (t : cty) | KdVoid.
(** What reading an object gives. `const char *x` is a pointer to constant characters. *)
Definition kind_of (const : bool) (t : cty) : ckind :=
  match t with
  | TyInt | TyInt64 | TyChar32 | TyBool | TyChar => KdInt
  | TyDouble => KdFloat
  | TyPtr t => KdPtr const t
  | TyVoid => KdVoid
  end.
Definition modifiable (const : bool) (t : cty) : bool := match t with TyPtr _ => true | _ => negb const end.

Fixpoint cty_eqb (a b : cty) : bool :=
  match a, b with
  | TyInt, TyInt | TyInt64, TyInt64 | TyDouble, TyDouble | TyChar32, TyChar32 | TyBool, TyBool | TyVoid, TyVoid | TyChar, TyChar => true
  | TyPtr a, TyPtr b => cty_eqb a b
  | _, _ => false
  end.
Fixpoint ctys_eqb (a b : list (bool * cty)) : bool :=
  match a, b with
  | [], [] => true
  | (p, x) :: a, (q, y) :: b => Bool.eqb p q && cty_eqb x y && ctys_eqb a b
  | _, _ => false
  end.

Definition arithmetic (k : ckind) : bool := match k with KdInt | KdFloat => true | _ => false end.
Definition integral (k : ckind) : bool := match k with KdInt => true | _ => false end.
Definition scalar (k : ckind) : bool := match k with KdVoid => false | _ => true end.

(** * Names *)

(** Objects and functions: whether they have internal linkage, whether they are defined, and
    their types. *)
Inductive entity := EObject (const : bool) (t : cty) | EFunction (static defined : bool) (t : cty) (ps : list (bool * cty)).
(** Scopes, the innermost first; file scope is the last one. *)
Definition cscope := list (text * entity).
Fixpoint find_here (f : cscope) (x : text) : option entity :=
  match f with
  | [] => None
  | (y, d) :: f => if text_eqb y x then Some d else find_here f x
  end.
Fixpoint find_name (ss : list cscope) (x : text) : option entity :=
  match ss with
  | [] => None
  | f :: ss => match find_here f x with Some d => Some d | None => find_name ss x end
  end.
Definition declare_name (ss : list cscope) (x : text) (d : entity) : list cscope :=
  match ss with [] => [[(x, d)]] | f :: ss => ((x, d) :: f) :: ss end.

(** * Expressions *)

(** Floating constants (6.4.4.2): digits with a point between them, or hexadecimal digits with a
    binary exponent. *)
Fixpoint digits_then (d : N -> bool) (t : text) : text :=
  match t with
  | c :: r => if d c then digits_then d r else t
  | [] => []
  end.
Definition dec (c : N) : bool := (48 <=? c) && (c <=? 57).
Definition hex (c : N) : bool := dec c || ((97 <=? c) && (c <=? 102)) || ((65 <=? c) && (c <=? 70)).
Definition all_digits (t : text) : bool := match t with [] => false | _ => forallb dec t end.
Definition exponent (t : text) : bool :=
  match t with
  | 112 :: (43 | 45) :: d => all_digits d
  | 112 :: d => all_digits d
  | _ => false
  end.
Definition floating (t : text) : bool :=
  match t with
  | 48 :: 120 :: h :: r => hex h && match digits_then hex r with 46 :: f => exponent (digits_then hex f) | r => exponent r end
  | c :: r => dec c && match digits_then dec r with 46 :: f => all_digits f | _ => false end
  | [] => false
  end.

(** Whether compilers have to insist on the last constraint of 6.5.16.1p1: a pointer to
    constant objects is not assigned to a pointer to other objects. (GCC and Clang warn.) *)
Section Checks.
Variable strict : bool.
(** The names that headers declare, as functions, objects, types or macros. *)
Variable headers : list text.

(** Values that can be assigned to an object of type t (6.5.16.1). *)
Definition assignable (const : bool) (t : cty) (k : ckind) : bool :=
  match t, k with
  | TyPtr a, KdPtr c b => cty_eqb a b && (const || negb c || negb strict)
  | TyPtr _, _ => false
  | TyBool, KdPtr _ _ => true
  | TyVoid, _ => false
  | _, _ => arithmetic k
  end.

Definition one_of (op : text) (l : list string) : bool := existsb (fun s => text_eqb op (u s)) l.
Definition unary_kind (op : text) (k : ckind) : option ckind :=
  if one_of op ["-"] then (if arithmetic k then Some k else None)
  else if one_of op ["!"] then (if scalar k then Some KdInt else None)
  else None.
Definition binary_kind (op : text) (a b : ckind) : option ckind :=
  if one_of op ["+"; "-"; "*"; "/"] then
    (if arithmetic a && arithmetic b then Some (if integral a && integral b then KdInt else KdFloat) else None)
  else if one_of op ["%"; "<<"; ">>"; "^"] then (if integral a && integral b then Some KdInt else None)
  else if one_of op ["<"; ">"; "<="; ">="; "=="; "!="] then
    match a, b with
    | KdPtr _ a, KdPtr _ b => if cty_eqb a b then Some KdInt else None
    | _, _ => if arithmetic a && arithmetic b then Some KdInt else None
    end
  else if one_of op ["&&"; "||"] then (if scalar a && scalar b then Some KdInt else None)
  else None.

Fixpoint expr_kind (ss : list cscope) (e : cexp) : option ckind :=
  match e with
  | CId x => match find_name ss x with Some (EObject q t) => Some (kind_of q t) | _ => None end
  | CNum s => match c_constant s with Some _ => Some KdInt | None => if floating s then Some KdFloat else None end
  | CStr _ => Some (KdPtr false TyChar)
  | CCall (CId f) es =>
      match find_name ss f with
      | Some (EFunction _ _ t ps) =>
          if (fix args (ps : list (bool * cty)) (es : list cexp) {struct es} : bool :=
                match ps, es with
                | [], [] => true
                | (q, p) :: ps, e :: es => match expr_kind ss e with Some k => assignable q p k && args ps es | None => false end
                | _, _ => false
                end) ps es
          then Some (kind_of false t) else None
      | _ => None
      end
  | CCall _ _ => None
  | CUn op a => match expr_kind ss a with Some k => unary_kind op k | None => None end
  | CBin op a b => match expr_kind ss a, expr_kind ss b with Some k, Some j => binary_kind op k j | _, _ => None end
  end.
Definition expr_fits (ss : list cscope) (const : bool) (t : cty) (e : cexp) : bool :=
  match expr_kind ss e with Some k => assignable const t k | None => false end.
Definition condition (ss : list cscope) (e : cexp) : bool := match expr_kind ss e with Some k => scalar k | None => false end.
Definition some_kind (ss : list cscope) (e : cexp) : bool := match expr_kind ss e with Some _ => true | None => false end.

(** * Statements *)

Definition is_void (t : cty) : bool := match t with TyVoid => true | _ => false end.
Definition from_header (x : text) : bool := existsb (text_eqb x) headers.
(** A name that can be declared in the innermost scope. *)
Definition undeclared (ss : list cscope) (x : text) : bool :=
  negb (from_header x) && match ss with f :: _ => match find_here f x with Some _ => false | None => true end | [] => true end.

(** `ret` is the type of the function, and `loop` says whether the statement is in a loop. The
    result are the scopes behind the statement. *)
Fixpoint check_stmt (ret : cty) (loop : bool) (ss : list cscope) (s : cstmt) {struct s} : option (list cscope) :=
  let block := fix block (loop : bool) (ss : list cscope) (l : list cstmt) {struct l} : bool :=
    match l with
    | [] => true
    | s :: r => match check_stmt ret loop ss s with Some ss => block loop ss r | None => false end
    end in
  let keep (b : bool) := if b then Some ss else None in
  match s with
  | CDecl q t x e =>
      let ss' := declare_name ss x (EObject q t) in
      if negb (is_void t) && undeclared ss x && expr_fits ss' q t e then Some ss' else None
  | CAssign x e =>
      match find_name ss x with
      | Some (EObject q t) => keep (modifiable q t && expr_fits ss q t e)
      | _ => None
      end
  | CExpr e | CVoid e => keep (some_kind ss e)
  | CIf e b o =>
      keep (condition ss e && block loop ([] :: ss) b &&
            match o with Some s => match check_stmt ret loop ss s with Some _ => true | None => false end | None => true end)
  | CWhile e b => keep (condition ss e && block true ([] :: ss) b)
  | CReturn None => keep (is_void ret)
  | CReturn (Some e) => keep (negb (is_void ret) && expr_fits ss false ret e)
  | CBreak | CContinue => keep loop
  | CBlock b => keep (block loop ([] :: ss) b)
  end.
Fixpoint check_block (ret : cty) (loop : bool) (ss : list cscope) (l : list cstmt) {struct l} : bool :=
  match l with
  | [] => true
  | s :: r => match check_stmt ret loop ss s with Some ss => check_block ret loop ss r | None => false end
  end.

(** * Translation units *)

(** Expressions of constants and operators (6.6). *)
Fixpoint constant_expr (e : cexp) : bool :=
  match e with
  | CNum _ | CStr _ => true
  | CUn _ e => constant_expr e
  | CBin _ a b => constant_expr a && constant_expr b
  | CId _ | CCall _ _ => false
  end.

Fixpoint distinct (l : list text) : bool :=
  match l with
  | [] => true
  | x :: l => negb (existsb (text_eqb x) l) && distinct l
  end.
(** Parameters (6.7.6.3); those of programs are not constant. *)
Definition param_types (ps : list (cty * text)) : list (bool * cty) := map (fun p => (false, fst p)) ps.
Definition check_params (ps : list (cty * text)) : bool :=
  forallb (fun p => negb (is_void (fst p)) && negb (from_header (snd p))) ps && distinct (map snd ps).
(** Declarations of a function agree with those before (6.7p4, 6.2.2p7). *)
Definition agrees (g : cscope) (static : bool) (t : cty) (f : text) (ps : list (cty * text)) : bool :=
  negb (from_header f) &&
  match find_here g f with
  | None => true
  | Some (EFunction s _ t' ts) => Bool.eqb s static && cty_eqb t' t && ctys_eqb ts (param_types ps)
  | Some (EObject _ _) => false
  end.
Definition defined_before (g : cscope) (f : text) : bool := match find_here g f with Some (EFunction _ d _ _) => d | _ => false end.

(** A definition behind those in g; the result is the file scope behind it. *)
Definition check_def (g : cscope) (d : cdef) : option cscope :=
  match d with
  | FVar s q t x l i =>
      if negb (is_void t) && undeclared [g] x && match i with Some e => constant_expr e && expr_fits [g] q t e | None => true end
      then Some ((x, EObject q t) :: g) else None
  | FProto s t f ps l =>
      if check_params ps && agrees g s t f ps then Some ((f, EFunction s (defined_before g f) t (param_types ps)) :: g) else None
  | FFunc s t f ps b =>
      let g' := (f, EFunction s true t (param_types ps)) :: g in
      if check_params ps && agrees g s t f ps && negb (defined_before g f) &&
         check_block t false [map (fun p => (snd p, EObject false (fst p))) ps; g'] b
      then Some g' else None
  end.
Fixpoint check_defs (g : cscope) (ds : list cdef) : option cscope :=
  match ds with
  | [] => Some g
  | d :: ds => match check_def g d with Some g => check_defs g ds | None => None end
  end.

(** The helpers (Spec_CProg.v). `_float_pow` is a pointer to a function, which is called as a function is. *)
Definition helper_entity (h : helper) : entity :=
  match h with
  | HStrcmp => EFunction false true TyBool [(true, TyPtr TyChar); (true, TyPtr TyChar)]
  | HIntPow => EFunction false true TyInt64 [(false, TyInt64); (false, TyInt64)]
  | HFloatPow => EFunction false true TyDouble [(false, TyDouble); (false, TyDouble)]
  end.
Definition helper_scope (hs : list helper) : cscope := map (fun h => (helper_name h, helper_entity h)) hs.

(** Functions with internal linkage are defined (6.9p3), and `main` is a function without parameters. *)
Definition complete (g : cscope) : bool :=
  forallb (fun p => match snd p with EFunction true _ _ _ => defined_before g (fst p) | _ => true end) g &&
  match find_here g (u "main") with Some (EFunction false true TyInt []) => true | _ => false end.

Definition compiles_as (hs : list helper) (ds : list cdef) : Prop :=
  match check_defs (helper_scope hs) ds with Some g => complete g = true | None => False end.
End Checks.
