(** What an accepted program may rely on: returns and unused names. *)
From Coq Require Import List Arith NArith ZArith Bool.
From Verif Require Import Base Model_Token Model_Parse Spec_Parse Model_Sem Spec_Sem.
Import ListNotations.
Open Scope list_scope.

(** * Returns *)

(** No function is defined inside of a function. *)
Definition functionless (tree : list node) : Prop := forall n, in_tree n tree -> n_type n <> N_FUNCTION_PROTO.
Definition flat (tree : list node) : Prop := forall f, in_tree f tree -> n_type f = N_FUNCTION_PROTO -> functionless (n_child f).

(** No external functions are declared. *)
Definition no_externals (tree : list node) : Prop :=
  forall n name ret num ext exp ps, in_tree n tree -> n_pay n = PProto name ret num ext exp ps -> ext = false.

(** The checked return x fits a function with the result type r. *)
Definition return_fits (r : ty) (x : tnode) : Prop :=
  (exists y, tn_pay x = XExpr y /\ (r <> TVoid -> x_ty y = r)) \/ tn_pay x = XNone /\ r = TVoid.

(** A block ends by returning a value: only statements that do nothing are behind it. *)
Definition ends_with_value (l : list node) : Prop :=
  exists a n v b, l = a ++ n :: b /\ n_type n = N_RETURN /\ n_pay n = PExpr v /\ Forall (fun m => idle (n_type m)) b.

(** Nodes that belong to the main program: those that are not inside of functions. *)
Inductive in_main (n : node) (x : tnode) : list node -> list tnode -> Prop :=
| im_here : forall l xs, in_main n x (n :: l) (x :: xs)
| im_next : forall m y l xs, in_main n x l xs -> in_main n x (m :: l) (y :: xs)
| im_below : forall m y l xs, n_type m <> N_FUNCTION_PROTO -> in_main n x (n_child m) (tn_child y) -> in_main n x (m :: l) (y :: xs).

(** * Uses of names *)

(** The parts of a program that belong to it after the checks. *)
Inductive in_checked (x : tnode) : list tnode -> Prop :=
| ic_here : forall l, In x l -> in_checked x l
| ic_below : forall y l, In y l -> in_checked x (tn_child y) -> in_checked x l.

(** The program reads the variable with the number k, assigns to it, calls the function. *)
Definition is_read (k : nat) (l : list tnode) : Prop := exists x t ty c, in_checked x l /\ uses x (XVar t k ty c).
Definition is_assigned (k : nat) (l : list tnode) : Prop := exists x y, in_checked x l /\ tn_pay x = XSet k y.
Definition is_called (k : nat) (l : list tnode) : Prop := exists x t args ty, in_checked x l /\ uses x (XCall t k args ty).

(** The numbers of all declarations, in the order of the text. *)
Definition numbers_here (x : tnode) : list nat :=
  match tn_pay x with XDef k _ | XSpace k => [k] | XProto k ks => k :: ks | _ => [] end.
Fixpoint numbers (x : tnode) : list nat :=
  match x with mktnode _ _ _ c => numbers_here x ++ flat_map numbers c end.

(** The warnings about names that are not used. *)
Definition unused_code (c : scode) : Prop :=
  exists name, c = S_WARN_VAR_UNUSED name \/ c = S_WARN_VAR_NOT_CONST name \/ c = S_WARN_FUNC_UNUSED name.

(** The warnings about a declaration, with its name and where it is. *)
Inductive deserves (src : text) (l : list tnode) (n : node) (x : tnode) : smsg -> Prop :=
| ds_unused : forall t name r v i c k y, n_pay n = PVarDef (t :: r) v i c false -> tn_pay x = XDef k y -> ~ is_read k l -> spells src t name ->
    deserves src l n x (mksmsg (S_WARN_VAR_UNUSED name) (Some (t_loc t)))
| ds_constant : forall t name r v i e k y, n_pay n = PVarDef (t :: r) v i false e -> tn_pay x = XDef k y -> ~ is_assigned k l -> spells src t name ->
    deserves src l n x (mksmsg (S_WARN_VAR_NOT_CONST name) (Some (t_loc t)))
| ds_uncalled : forall t name ret num ext exp ps k ks, n_pay n = PProto t ret num ext exp ps -> tn_pay x = XProto k ks -> ~ is_called k l -> spells src t name ->
    deserves src l n x (mksmsg (S_WARN_FUNC_UNUSED name) (Some (t_loc t))).
