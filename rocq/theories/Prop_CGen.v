(** Theorems about the C text of expressions. *)
From Coq Require Import List Arith NArith ZArith Bool Lia Ascii String.
From Verif Require Import Base Model_Token Model_Literal Model_Parse Spec_Parse Model_Sem Spec_Sem Proof_Sem Proof_Sem2 Proof_Sem4 Proof_Sem5 Proof_SemEx
  Prop_Sem Model_CGen Spec_C Spec_CGen Proof_C Proof_C2 Proof_CGen Proof_CGen2.
Import ListNotations.
Open Scope list_scope.
Open Scope N_scope.

(** C30: the C text of every expression of an accepted program has exactly one reading as a C
    expression, and this reading has the operators, names and constants of the expression. *)
Theorem generated_expressions_read_back : forall w src ts tree s l n x y env,
  accepted w src ts tree s l -> no_call_blocks tree -> few_arguments tree -> ce_syms env = s_syms s ->
  paired n x tree l -> checked_expr x = Some y -> printable env y ->
  exists t e, gen_expr_c env y = Ok t /\ is_c_expression t e /\ same env y e.
Proof. exact generated_l. Qed.
Print Assumptions generated_expressions_read_back.

(** The surroundings in the examples: a C library whose `%a` writes 0x1.8p+1 for every number. *)
Definition surroundings (src : text) : cctx :=
  mkcctx (s_syms (state_of plain src)) (fun _ => u "0x1.8p+1") (fun _ => false) (fun _ => None) false [].
Definition busy : text :=
  line "twice(n: Int, s: Str) Int {" ++
  line "  return n + n" ++
  line "}" ++
  line "a := 3" ++
  line "mut b := - 5" ++
  line "b = a * b - twice(b, ""x y"") ^ 2" ++
  line "c := b < 100000000000" ++
  line "d := ""p"" isnt ""q""" ++
  line "if c and d {" ++
  line "  b = 1" ++
  line "}" ++
  line "return b".
Definition generates (src : text) (t : text) (x : tnode) : bool :=
  match checked_expr x with
  | Some y => match gen_expr_c (surroundings src) y with
              | Ok t' => text_eqb t' t && forallb (printable_partb (surroundings src)) (xparts y)
              | _ => false end
  | None => false
  end.
Example generated_expressions_read_back_ex :
  accepted plain busy (tokens_of busy) (tree_of plain busy) (state_of plain busy) (checked_of plain busy) /\
  no_call_blocks (tree_of plain busy) /\ few_arguments (tree_of plain busy) /\
  (exists n x y, paired n x (tree_of plain busy) (checked_of plain busy) /\ checked_expr x = Some y /\ printable (surroundings busy) y /\
     gen_expr_c (surroundings busy) y = Ok (u "((a * b) - _int_pow(twice(b, ""x y""), 2))")) /\
  (exists n x y, paired n x (tree_of plain busy) (checked_of plain busy) /\ checked_expr x = Some y /\ printable (surroundings busy) y /\
     gen_expr_c (surroundings busy) y = Ok (u "!_strcmp(""p"", ""q"")")).
Proof.
  split; [apply compiles_accepted; vm_compute; reflexivity|].
  split; [apply no_call_blocks_of; vm_compute; reflexivity|].
  split; [apply few_arguments_of; vm_compute; reflexivity|].
  assert (G : forall t n x, generates busy t x = true -> paired n x (tree_of plain busy) (checked_of plain busy) ->
    exists n x y, paired n x (tree_of plain busy) (checked_of plain busy) /\ checked_expr x = Some y /\ printable (surroundings busy) y /\
     gen_expr_c (surroundings busy) y = Ok t).
  { intros t n x H P. unfold generates in H. destruct (checked_expr x) as [y|] eqn:E; [|discriminate H].
    destruct (gen_expr_c (surroundings busy) y) as [t'|] eqn:F; [|discriminate H].
    apply andb_prop in H as [H1 H2]. apply text_eqb_eq in H1. rewrite H1 in F.
    exists n, x, y. split; [exact P|]. split; [exact E|]. split; [exact (printable_of _ _ H2)|exact F]. }
  split.
  - destruct (find_pair (fun n x => generates busy (u "((a * b) - _int_pow(twice(b, ""x y""), 2))") x) (tree_of plain busy) (checked_of plain busy)) as (n & x & P & H);
      [vm_compute; reflexivity|]. exact (G _ n x H P).
  - destruct (find_pair (fun n x => generates busy (u "!_strcmp(""p"", ""q"")") x) (tree_of plain busy) (checked_of plain busy)) as (n & x & P & H);
      [vm_compute; reflexivity|]. exact (G _ n x H P).
Qed.

(** Without `printable` the claim is false. An accepted program whose expression is lost: *)
Definition loses (env : cctx) (src : text) (t : text) : Prop :=
  exists ts tree s l n x y, accepted plain src ts tree s l /\ no_call_blocks tree /\ few_arguments tree /\ ce_syms env = s_syms s /\
  paired n x tree l /\ checked_expr x = Some y /\ gen_expr_c env y = Ok t /\
  ~ exists e, is_c_expression t e /\ same env y e.
Definition writes (env : cctx) (t : text) (p : texpr -> bool) (x : tnode) : bool :=
  match checked_expr x with
  | Some y => p y && match gen_expr_c env y with Ok t' => text_eqb t' t | _ => false end
  | None => false
  end.
Lemma loses_l : forall env src t (p : texpr -> bool), compiles plain src = true -> no_call_blocksb (tree_of plain src) = true ->
  few_argumentsb (tree_of plain src) = true -> ce_syms env = s_syms (state_of plain src) ->
  existsb (fun q => writes env t p (snd q)) (pairs (tree_of plain src) (checked_of plain src)) = true ->
  (forall y e, p y = true -> is_c_expression t e -> same env y e -> False) -> loses env src t.
Proof.
  intros env src t p C N F E X H. pose proof (compiles_accepted plain src C) as A.
  destruct (find_pair (fun n x => writes env t p x) (tree_of plain src) (checked_of plain src)) as (n & x & P & W); [exact X|].
  unfold writes in W. destruct (checked_expr x) as [y|] eqn:Y; [|discriminate W]. apply andb_prop in W as [W1 W2].
  destruct (gen_expr_c env y) as [t'|] eqn:G; [|discriminate W2]. apply text_eqb_eq in W2. rewrite W2 in G.
  exists (tokens_of src), (tree_of plain src), (state_of plain src), (checked_of plain src), n, x, y.
  split; [exact A|]. split; [exact (no_call_blocks_of _ N)|]. split; [exact (few_arguments_of _ F)|]. split; [exact E|].
  split; [exact P|]. split; [exact Y|]. split; [exact G|]. intros (e & I & S). exact (H y e W1 I S).
Qed.

Definition keyword_name : text := line "int := 5" ++ line "return int".
Definition quoted : text := line "mut s := ""x""" ++ line "s = ""a\""b""".
Definition lowest : text := line "mut n := 1" ++ line "n = -9223372036854775808".
Definition unbounded : text := line "mut n := 1.5" ++ line "n = Infinity".
(** A C library writes `inf` for infinite numbers. *)
Definition library (src : text) : cctx :=
  mkcctx (s_syms (state_of plain src)) (fun f => match f with F_inf => u "inf" | _ => u "0x1.8p+0" end) (fun _ => false) (fun _ => None) false [].
Theorem generated_expressions_read_back_refuted :
  loses (library keyword_name) keyword_name (u "int") /\
  loses (library quoted) quoted (u """a""b""") /\
  loses (library lowest) lowest (u "-9223372036854775808L") /\
  loses (library unbounded) unbounded (u "inf").
Proof.
  repeat split.
  - apply (loses_l _ _ _ (fun _ => true)); try (vm_compute; reflexivity).
    intros y e _ (ts & T & R & _) _. assert (V : c_tokens (u "int") = Some [KId (u "int")]) by (vm_compute; reflexivity). rewrite V in T. assert (ts = [KId (u "int")]) as -> by congruence.
    revert R. apply no_reading. intro f. do 16 (destruct f as [|f]; [reflexivity|]). reflexivity.
  - apply (loses_l _ _ _ (fun _ => true)); try (vm_compute; reflexivity).
    intros y e _ (ts & T & R & _) _. vm_compute in T. discriminate T.
  - apply (loses_l _ _ _ (fun y => match y with XConst _ (VInt z) TInt => (z =? - 2 ^ 63)%Z | _ => false end)); try (vm_compute; reflexivity).
    intros y e P (ts & T & R & _) Y.
    destruct y as [|t [z| | | |] [] | | |]; try discriminate P. apply Z.eqb_eq in P.
    assert (R2 : reads 12 ts (CUn (u "-") (CNum (u "9223372036854775808L")))).
    { assert (V : c_tokens (u "-9223372036854775808L") = Some [KOp (u "-"); KNum (u "9223372036854775808L")]) by (vm_compute; reflexivity). rewrite V in T. assert (ts = [KOp (u "-"); KNum (u "9223372036854775808L")]) as -> by congruence.
      apply (reads_higher 2 12); [lia|lia|]. apply R_un; [vm_compute; tauto|apply (reads_higher 0 2); [lia|lia|constructor]]. }
    pose proof (reads_unique _ _ _ R R2) as Q. subst e.
    inversion Y as [| |t0 z0 c ty L K T0| | | | | | | | | | | | | ]. vm_compute in K. congruence.
  - apply (loses_l _ _ _ (fun y => match y with XConst _ (VFloat F_inf) TFloat => true | _ => false end)); try (vm_compute; reflexivity).
    intros y e P (ts & T & R & _) Y.
    destruct y as [|t [|[]| | |] [] | | |]; try discriminate P.
    assert (R2 : reads 12 ts (CId (u "inf"))).
    { assert (V : c_tokens (u "inf") = Some [KId (u "inf")]) by (vm_compute; reflexivity). rewrite V in T. assert (ts = [KId (u "inf")]) as -> by congruence. apply (reads_higher 0 12); [lia|lia|]. constructor. reflexivity. }
    pose proof (reads_unique _ _ _ R R2) as Q. subst e. inversion Y.
Qed.
Print Assumptions generated_expressions_read_back_refuted.

(** C39: every integer but the lowest reads back from its C text as the same number, in a type
    that holds it. *)
Theorem integer_constants_survive : forall env z, (- 2 ^ 63 < z < 2 ^ 63)%Z ->
  exists t e ty, gen_expr_const_c env TInt (VInt z) = Ok t /\ is_c_expression t e /\ int_reading e z ty /\ holds ty z.
Proof. exact constant_l. Qed.
Print Assumptions integer_constants_survive.
Example integer_constants_survive_ex :
  gen_expr_const_c (library busy) TInt (VInt 2147483647) = Ok (u "2147483647") /\
  gen_expr_const_c (library busy) TInt (VInt (-2147483648)) = Ok (u "-2147483648") /\
  gen_expr_const_c (library busy) TInt (VInt 2147483648) = Ok (u "2147483648L") /\
  c_constant (u "2147483648L") = Some (2147483648, CLong) /\ c_constant (u "2147483647") = Some (2147483647, CInt).
Proof. vm_compute. auto. Qed.

(** The lowest integer does not: the text is read, but the constant in it has no type. *)
Theorem integer_constants_survive_refuted : exists t, (forall env, gen_expr_const_c env TInt (VInt (- 2 ^ 63)) = Ok t) /\
  forall e z ty, is_c_expression t e -> ~ int_reading e z ty.
Proof.
  exists (u "-9223372036854775808L"). split; [reflexivity|]. intros e z ty (ts & T & R & _) I.
  assert (R2 : reads 12 ts (CUn (u "-") (CNum (u "9223372036854775808L")))).
  { assert (V : c_tokens (u "-9223372036854775808L") = Some [KOp (u "-"); KNum (u "9223372036854775808L")]) by (vm_compute; reflexivity). rewrite V in T. assert (ts = [KOp (u "-"); KNum (u "9223372036854775808L")]) as -> by congruence.
    apply (reads_higher 2 12); [lia|lia|]. apply R_un; [vm_compute; tauto|apply (reads_higher 0 2); [lia|lia|constructor]]. }
  pose proof (reads_unique _ _ _ R R2) as Q. subst e. inversion I as [|c n ty0 K T0]. vm_compute in K. congruence.
Qed.
Print Assumptions integer_constants_survive_refuted.
