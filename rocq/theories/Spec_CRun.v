(** What the programs of Spec_CProg.v do when they run: C11 6.5 (expressions), 6.8
    (statements), 6.7.9 (initialisers), for a machine with 32 bit `int` and 64 bit `long`
    whose conversions to signed types keep the low bits (as GCC does). A program has a meaning
    here only if C fixes it: operands and arguments may be evaluated in any order, so one of
    them at most may call functions, and then the others may not depend on what is called. *)
From Coq Require Import List Arith NArith ZArith Bool Ascii String.
From Verif Require Import Base Spec_C Spec_CProg Spec_Run Model_Helpers.
Import ListNotations.
Open Scope string_scope.
Open Scope list_scope.
Open Scope Z_scope.

Section CRun.
Variable H : host.

(** Values of expressions behind the integer promotions: integers with their types, floating
    point numbers, strings, the null pointer, and the value of a call of a void function. *)
Inductive cval := VI (t : ctype) (z : Z) | VD (f : h_float H) | VS (s : text) | VNull | VV.

(** What is outside of the program: the values of floating constants, the functions of other
    modules by the names that the linker uses, and the names that headers declare. *)
Record machine := mkmachine {
  m_float : text -> option (h_float H);
  m_link : text -> list cval -> h_out H -> option (cval * h_out H);
  m_headers : list text }.
Variable M : machine.

(** * Arithmetic *)

Definition bits (t : ctype) : Z := match t with CInt | CUInt => 32 | CLong | CULong => 64 end.
Definition is_signed (t : ctype) : bool := match t with CInt | CLong => true | _ => false end.
Definition within (t : ctype) (z : Z) : bool :=
  if is_signed t then (- 2 ^ (bits t - 1) <=? z) && (z <? 2 ^ (bits t - 1)) else (0 <=? z) && (z <? 2 ^ bits t).
(** A result of type t: signed integers do not overflow, unsigned ones wrap around (6.2.5p9, 6.5p5). *)
Definition result (t : ctype) (z : Z) : option cval :=
  if is_signed t then (if within t z then Some (VI t z) else None) else Some (VI t (z mod 2 ^ bits t)).
(** The usual arithmetic conversions (6.3.1.8). *)
Definition common (a b : ctype) : ctype :=
  match a, b with
  | CULong, _ | _, CULong => CULong
  | CLong, _ | _, CLong => CLong
  | CUInt, _ | _, CUInt => CUInt
  | CInt, CInt => CInt
  end.
Definition cast (t : ctype) (z : Z) : Z := if is_signed t then z else z mod 2 ^ bits t.
Definition truth_value (b : bool) : cval := VI CInt (if b then 1 else 0).

Definition c_unary_value (op : string) (v : cval) : option cval :=
  match op, v with
  | "-", VI t z => result t (- z)
  | "-", VD f => Some (VD (h_neg H f))
  | "!", VI _ z => Some (truth_value (z =? 0))
  | _, _ => None
  end.

(** Multiplicative, additive, shift, relational and equality operators and exclusive or
    (6.5.5 to 6.5.9, 6.5.11). *)
Definition c_integers (op : string) (t1 : ctype) (z1 : Z) (t2 : ctype) (z2 : Z) : option cval :=
  let t := common t1 t2 in
  let a := cast t z1 in
  let b := cast t z2 in
  match op with
  | "+" => result t (a + b)
  | "-" => result t (a - b)
  | "*" => result t (a * b)
  | "/" => if b =? 0 then None else result t (Z.quot a b)
  | "%" => if (b =? 0) || negb (within t (Z.quot a b)) then None else result t (Z.rem a b)
  | "<<" =>
      if (0 <=? z2) && (z2 <? bits t1) && (negb (is_signed t1) || (0 <=? z1)) then result t1 (z1 * 2 ^ z2) else None
  | ">>" => if (0 <=? z2) && (z2 <? bits t1) && (0 <=? z1) then Some (VI t1 (z1 / 2 ^ z2)) else None
  | "<" => Some (truth_value (a <? b))
  | ">" => Some (truth_value (b <? a))
  | "<=" => Some (truth_value (a <=? b))
  | ">=" => Some (truth_value (b <=? a))
  | "==" => Some (truth_value (a =? b))
  | "!=" => Some (truth_value (negb (a =? b)))
  | "^" => Some (VI t (Z.lxor a b))
  | _ => None
  end.
Definition c_floats (op : string) (a b : h_float H) : option cval :=
  match op with
  | "+" => Some (VD (h_add H a b))
  | "-" => Some (VD (h_sub H a b))
  | "*" => Some (VD (h_mul H a b))
  | "/" => Some (VD (h_div H a b))
  | "<" => Some (truth_value (h_lt H a b))
  | ">" => Some (truth_value (h_lt H b a))
  | "<=" => Some (truth_value (h_le H a b))
  | ">=" => Some (truth_value (h_le H b a))
  | "==" => Some (truth_value (h_eq H a b))
  | "!=" => Some (truth_value (negb (h_eq H a b)))
  | _ => None
  end.
Definition c_binary_value (op : string) (a b : cval) : option cval :=
  match a, b with
  | VI t1 z1, VI t2 z2 => c_integers op t1 z1 t2 z2
  | VD x, VD y => c_floats op x y
  | _, _ => None
  end.
Definition truth (v : cval) : option bool := match v with VI _ z => Some (negb (z =? 0)) | _ => None end.

(** Constants (6.4.4). *)
Definition number_value (s : text) : option cval :=
  match c_constant s with
  | Some (n, t) => Some (VI t (Z.of_N n))
  | None => option_map VD (m_float M s)
  end.

(** Conversion to the type of an object, as by assignment (6.5.16.1); the values of objects
    are kept the way they are read. *)
Definition wrap32 (z : Z) : Z := (z + 2 ^ 31) mod 2 ^ 32 - 2 ^ 31.
Definition convert (t : cty) (v : cval) : option cval :=
  match t, v with
  | TyInt, VI _ z => Some (VI CInt (wrap32 z))
  | TyInt64, VI _ z => Some (VI CLong (wrap64 z))
  | TyChar32, VI _ z => Some (VI CUInt (z mod 2 ^ 32))
  | TyBool, VI _ z => Some (truth_value (negb (z =? 0)))
  | TyDouble, VD f => Some (VD f)
  | TyPtr TyChar, VS s => Some (VS s)
  | _, _ => None
  end.
(** Objects with static storage duration start with 0 (6.7.9p10). *)
Definition zero (t : cty) : option cval :=
  match t with
  | TyInt => Some (VI CInt 0)
  | TyInt64 => Some (VI CLong 0)
  | TyChar32 => Some (VI CUInt 0)
  | TyBool => Some (VI CInt 0)
  | TyDouble => Some (VD (h_zero H))
  | TyPtr _ => Some VNull
  | TyVoid | TyChar => None
  end.

(** * States *)

(** Objects; those at file scope by their names, those of the function that runs by block,
    innermost first; and the outside. *)
Record cell := mkcell { k_const : bool; k_type : cty; k_val : cval }.
Definition frame := list (text * cell).
Record cstate := mkcstate { c_glob : text -> option cell; c_frames : list frame; c_out : h_out H }.

Fixpoint in_frame (f : frame) (x : text) : option cell :=
  match f with
  | [] => None
  | (y, k) :: f => if text_eqb y x then Some k else in_frame f x
  end.
Fixpoint in_frames (fs : list frame) (x : text) : option cell :=
  match fs with
  | [] => None
  | f :: fs => match in_frame f x with Some k => Some k | None => in_frames fs x end
  end.
Definition find (c : cstate) (x : text) : option cell :=
  match in_frames (c_frames c) x with Some k => Some k | None => c_glob c x end.

Definition set_val (k : cell) (v : cval) : cell := mkcell (k_const k) (k_type k) v.
Definition put_cell (g : text -> option cell) (x : text) (k : cell) (y : text) : option cell :=
  if text_eqb y x then Some k else g y.
Fixpoint set_frame (f : frame) (x : text) (v : cval) : frame :=
  match f with
  | [] => []
  | (y, k) :: f => if text_eqb y x then (y, set_val k v) :: f else (y, k) :: set_frame f x v
  end.
Fixpoint set_frames (fs : list frame) (x : text) (v : cval) : list frame :=
  match fs with
  | [] => []
  | f :: fs => match in_frame f x with Some _ => set_frame f x v :: fs | None => f :: set_frames fs x v end
  end.
(** The object that x names gets the value v. *)
Definition store (c : cstate) (x : text) (v : cval) : cstate :=
  match in_frames (c_frames c) x with
  | Some _ => mkcstate (c_glob c) (set_frames (c_frames c) x v) (c_out c)
  | None =>
      match c_glob c x with
      | Some k => mkcstate (put_cell (c_glob c) x (set_val k v)) (c_frames c) (c_out c)
      | None => c
      end
  end.
(** Into a block and out of it; a new object in the innermost block. *)
Definition enter_block (c : cstate) : cstate := mkcstate (c_glob c) ([] :: c_frames c) (c_out c).
Definition leave_block (c : cstate) : cstate := mkcstate (c_glob c) (tl (c_frames c)) (c_out c).
Definition add_cell (c : cstate) (x : text) (k : cell) : cstate :=
  mkcstate (c_glob c) (match c_frames c with f :: fs => ((x, k) :: f) :: fs | [] => [[(x, k)]] end) (c_out c).
Definition declared_here (c : cstate) (x : text) : Prop := exists f fs, c_frames c = f :: fs /\ in_frame f x <> None.
(** Into a function and back. *)
Definition enter_function (c : cstate) (f : frame) : cstate := mkcstate (c_glob c) [f] (c_out c).
Definition leave_function (c inner : cstate) : cstate := mkcstate (c_glob inner) (c_frames c) (c_out inner).

(** * Programs *)

(** The helpers and the definitions of the program. *)
Variable hs : list helper.
Variable ds : list cdef.

(** The helpers as Model_Helpers.v has them. *)
Definition helper_value (h : helper) (vs : list cval) : option cval :=
  match h, vs with
  | HIntPow, [VI _ a; VI _ b] =>
      match int_pow (wrap64 a) (wrap64 b) with Some (Ok z) => Some (VI CLong z) | _ => None end
  | HFloatPow, [VD a; VD b] => Some (VD (h_pow H a b))
  | HStrcmp, [VS a; VS b] => Some (truth_value (strcmp a b))
  | _, _ => None
  end.

(** Whether an expression calls functions of the program or of other modules, and the variables
    it reads. *)
Definition is_helper (f : text) : bool := existsb (text_eqb f) (map helper_name [HStrcmp; HIntPow; HFloatPow]).
Fixpoint calling (e : cexp) : bool :=
  match e with
  | CId _ | CNum _ | CStr _ => false
  | CCall (CId f) es => negb (is_helper f) || existsb calling es
  | CCall _ _ => true
  | CUn _ e => calling e
  | CBin _ a b => calling a || calling b
  end.
Fixpoint reading (e : cexp) : list text :=
  match e with
  | CId x => [x]
  | CNum _ | CStr _ => []
  | CCall _ es => flat_map reading es
  | CUn _ e => reading e
  | CBin _ a b => reading a ++ reading b
  end.
(** The order in which the expressions es are evaluated does not matter: evaluating them one after
    the other leads from c to c'. *)
Definition any_order (c c' : cstate) (es : list cexp) : Prop :=
  (List.length (filter calling es) <= 1)%nat /\
  forall e x, In e es -> calling e = false -> In x (reading e) -> find c x = find c' x.

Inductive coutcome := CNormal | CBroken | CContinued | CReturned (v : option cval).

(** Parameters are objects that are initialised by the arguments (6.5.2.2p4). *)
Fixpoint arguments (ps : list (cty * text)) (vs : list cval) : option frame :=
  match ps, vs with
  | [], [] => Some []
  | (t, x) :: ps, v :: vs =>
      match convert t v, arguments ps vs with
      | Some w, Some f => Some ((x, mkcell false t w) :: f)
      | _, _ => None
      end
  | _, _ => None
  end.
Fixpoint converted (ts : list cty) (vs : list cval) : option (list cval) :=
  match ts, vs with
  | [], [] => Some []
  | t :: ts, v :: vs => match convert t v, converted ts vs with Some w, Some ws => Some (w :: ws) | _, _ => None end
  | _, _ => None
  end.
(** What a call gives (6.8.6.4). A function that should return something and does not has no value here. *)
Definition call_value (t : cty) (o : coutcome) : option cval :=
  match t, o with
  | TyVoid, (CNormal | CReturned None) => Some VV
  | TyVoid, _ => None
  | _, CReturned (Some v) => convert t v
  | _, _ => None
  end.

Definition defined (f : text) (t : cty) (ps : list (cty * text)) (b : list cstmt) : Prop := exists s, In (FFunc s t f ps b) ds.
(** A function that is only declared, with the name that the linker uses. *)
Definition elsewhere (f : text) (t : cty) (ps : list (cty * text)) (link : text) : Prop :=
  exists label, In (FProto false t f ps label) ds /\ link = match label with Some l => l | None => f end /\
  forall t' ps' b, ~ defined f t' ps' b.

Inductive ceval : cstate -> cexp -> cval -> cstate -> Prop :=
| cv_id : forall c x k, find c x = Some k -> ceval c (CId x) (k_val k) c
| cv_num : forall c s v, number_value s = Some v -> ceval c (CNum s) v c
| cv_str : forall c s, ceval c (CStr s) (VS s) c
| cv_un : forall c c1 op e v w, ceval c e v c1 -> c_unary_value op v = Some w -> ceval c (CUn (u op) e) w c1
| cv_bin : forall c c1 c2 op a b x y v, ceval c a x c1 -> ceval c1 b y c2 -> any_order c c2 [a; b] -> c_binary_value op x y = Some v ->
    ceval c (CBin (u op) a b) v c2
(** `&&` and `||` evaluate their right operand only if they need it (6.5.13, 6.5.14). *)
| cv_and_false : forall c c1 a b x, ceval c a x c1 -> truth x = Some false -> ceval c (CBin (u "&&") a b) (truth_value false) c1
| cv_and_true : forall c c1 c2 a b x y t, ceval c a x c1 -> truth x = Some true -> ceval c1 b y c2 -> truth y = Some t ->
    ceval c (CBin (u "&&") a b) (truth_value t) c2
| cv_or_true : forall c c1 a b x, ceval c a x c1 -> truth x = Some true -> ceval c (CBin (u "||") a b) (truth_value true) c1
| cv_or_false : forall c c1 c2 a b x y t, ceval c a x c1 -> truth x = Some false -> ceval c1 b y c2 -> truth y = Some t ->
    ceval c (CBin (u "||") a b) (truth_value t) c2
| cv_helper : forall c c1 h es vs v, cevals c es vs c1 -> any_order c c1 es -> In h hs -> in_frames (c_frames c) (helper_name h) = None ->
    helper_value h vs = Some v -> ceval c (CCall (CId (helper_name h)) es) v c1
| cv_call : forall c c1 c2 f t ps b es vs fr o v, cevals c es vs c1 -> any_order c c1 es -> in_frames (c_frames c) f = None ->
    defined f t ps b -> arguments ps vs = Some fr -> cexec (enter_function c1 fr) b o c2 -> call_value t o = Some v ->
    ceval c (CCall (CId f) es) v (leave_function c1 c2)
| cv_outside : forall c c1 f t ps link es vs ws v o, cevals c es vs c1 -> any_order c c1 es -> in_frames (c_frames c) f = None ->
    elsewhere f t ps link -> converted (map fst ps) vs = Some ws -> m_link M link ws (c_out c1) = Some (v, o) ->
    (if match t with TyVoid => true | _ => false end then v = VV else convert t v = Some v) ->
    ceval c (CCall (CId f) es) v (mkcstate (c_glob c1) (c_frames c1) o)
with cevals : cstate -> list cexp -> list cval -> cstate -> Prop :=
| cvs_nil : forall c, cevals c [] [] c
| cvs_cons : forall c c1 c2 e es v vs, ceval c e v c1 -> cevals c1 es vs c2 -> cevals c (e :: es) (v :: vs) c2
with cexec : cstate -> list cstmt -> coutcome -> cstate -> Prop :=
| cx_nil : forall c, cexec c [] CNormal c
| cx_decl : forall c c1 c' q t x e r v w o, ~ In x (reading e) -> ceval c e v c1 -> ~ declared_here c1 x -> convert t v = Some w ->
    cexec (add_cell c1 x (mkcell q t w)) r o c' -> cexec c (CDecl q t x e :: r) o c'
| cx_assign : forall c c1 c' x e r k v w o, ceval c e v c1 -> find c1 x = Some k -> k_const k = false -> convert (k_type k) v = Some w ->
    cexec (store c1 x w) r o c' -> cexec c (CAssign x e :: r) o c'
| cx_expr : forall c c1 c' e r v o, ceval c e v c1 -> cexec c1 r o c' -> cexec c (CExpr e :: r) o c'
| cx_void : forall c c1 c' e r v o, ceval c e v c1 -> cexec c1 r o c' -> cexec c (CVoid e :: r) o c'
| cx_then : forall c c1 c2 c' e b other r v o1 o, ceval c e v c1 -> truth v = Some true ->
    cexec (enter_block c1) b o1 c2 -> cafter (leave_block c2) o1 r o c' -> cexec c (CIf e b other :: r) o c'
| cx_skip : forall c c1 c' e b r v o, ceval c e v c1 -> truth v = Some false -> cexec c1 r o c' -> cexec c (CIf e b None :: r) o c'
| cx_else : forall c c1 c' e b other r v o, ceval c e v c1 -> truth v = Some false -> cexec c1 (other :: r) o c' ->
    cexec c (CIf e b (Some other) :: r) o c'
| cx_stop : forall c c1 c' e b r v o, ceval c e v c1 -> truth v = Some false -> cexec c1 r o c' -> cexec c (CWhile e b :: r) o c'
| cx_again : forall c c1 c2 c' e b r v o1 o, ceval c e v c1 -> truth v = Some true -> cexec (enter_block c1) b o1 c2 ->
    o1 = CNormal \/ o1 = CContinued -> cexec (leave_block c2) (CWhile e b :: r) o c' -> cexec c (CWhile e b :: r) o c'
| cx_quit : forall c c1 c2 c' e b r v o, ceval c e v c1 -> truth v = Some true -> cexec (enter_block c1) b CBroken c2 ->
    cexec (leave_block c2) r o c' -> cexec c (CWhile e b :: r) o c'
| cx_inside : forall c c1 c2 e b r v w, ceval c e v c1 -> truth v = Some true -> cexec (enter_block c1) b (CReturned w) c2 ->
    cexec c (CWhile e b :: r) (CReturned w) (leave_block c2)
| cx_return : forall c r, cexec c (CReturn None :: r) (CReturned None) c
| cx_result : forall c c1 e r v, ceval c e v c1 -> cexec c (CReturn (Some e) :: r) (CReturned (Some v)) c1
| cx_break : forall c r, cexec c (CBreak :: r) CBroken c
| cx_continue : forall c r, cexec c (CContinue :: r) CContinued c
| cx_block : forall c c1 c' b r o1 o, cexec (enter_block c) b o1 c1 -> cafter (leave_block c1) o1 r o c' -> cexec c (CBlock b :: r) o c'
(** The statements behind a statement that ended with o1. *)
with cafter : cstate -> coutcome -> list cstmt -> coutcome -> cstate -> Prop :=
| ca_normal : forall c r o c', cexec c r o c' -> cafter c CNormal r o c'
| ca_jump : forall c r o, o <> CNormal -> cafter c o r o c.

(** Initialisers at file scope are constant expressions (6.7.9p4, 6.6). *)
Fixpoint constant (e : cexp) : bool :=
  match e with
  | CNum _ | CStr _ => true
  | CUn _ e => constant e
  | CBin _ a b => constant a && constant b
  | CId _ | CCall _ _ => false
  end.
Definition first_value (t : cty) (init : option cexp) (o : h_out H) (v : cval) : Prop :=
  match init with
  | None => zero t = Some v
  | Some e => constant e = true /\
      exists w, ceval (mkcstate (fun _ => None) [] o) e w (mkcstate (fun _ => None) [] o) /\ convert t w = Some v
  end.
Inductive globals (o : h_out H) : list cdef -> (text -> option cell) -> Prop :=
| gl_nil : globals o [] (fun _ => None)
| gl_var : forall s q t x l i r g v, globals o r g -> first_value t i o v -> globals o (FVar s q t x l i :: r) (put_cell g x (mkcell q t v))
| gl_other : forall d r g, (forall s q t x l i, d <> FVar s q t x l i) -> globals o r g -> globals o (d :: r) g.

(** Names are defined once, none is declared by a header or names both a variable and a
    function, and the declarations of a function agree (6.9p3, 6.7p4). *)
Definition defined_names (d : cdef) : list text :=
  match d with FVar _ _ _ x _ _ => [x] | FFunc _ _ f _ _ => [f] | FProto _ _ _ _ _ => [] end.
Definition agreeing (t : cty) (f : text) (ps : list (cty * text)) (l : option text) (d : cdef) : Prop :=
  match d with
  | FProto _ t' f' ps' l' => f' = f -> t' = t /\ map fst ps' = map fst ps /\ l' = l
  | FFunc _ t' f' ps' _ => f' = f -> t' = t /\ map fst ps' = map fst ps
  | FVar _ _ _ _ _ _ => True
  end.
Definition distinct_names : Prop :=
  NoDup (map helper_name hs ++ flat_map defined_names ds) /\
  (forall s t f ps l d, In (FProto s t f ps l) ds -> In d ds -> agreeing t f ps l d) /\
  (forall d x, In d ds -> In x (defined_names d) -> ~ In x (m_headers M)) /\
  (forall s t f ps l s' q t' l' i, In (FProto s t f ps l) ds -> ~ In (FVar s' q t' f l' i) ds /\ ~ In f (map helper_name hs) /\ ~ In f (m_headers M)).

(** The program, started with the outside o, ends with the exit code and leaves o' behind. *)
Definition c_exits (o : h_out H) (code : Z) (o' : h_out H) : Prop :=
  distinct_names /\
  exists g c', globals o ds g /\ ceval (mkcstate g [] o) (CCall (CId (u "main")) []) (VI CInt code) c' /\ c_out c' = o'.
End CRun.
