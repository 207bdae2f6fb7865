(** Theorems about programs that the checks accept. *)
From Coq Require Import List Arith NArith ZArith Bool Lia Ascii String.
From Verif Require Import Base Model_Token Model_Utf8 Spec_Utf8 Spec_Classify Model_Literal Spec_Literal Model_Parse Spec_Parse Model_Sem Spec_Sem
  Proof_Sem Proof_Sem2 Proof_Sem4 Proof_Sem5 Proof_SemEx.
Import ListNotations.
Open Scope list_scope.
Open Scope N_scope.

(** The examples use this program. All options are off and all modules are found. *)
Definition plain : world := mkworld false false (fun _ => Ok false) (fun _ => false) (fun _ => true).
Definition sample : text :=
  line "# a comment" ++
  line "limit := 10" ++
  line "mut total := 0" ++
  line "Number := Int" ++
  line "add(a: Int, b: & Float) Int {" ++
  line "  return a + 1" ++
  line "}" ++
  line "namespace math {" ++
  line "  pi := 3.5" ++
  line "}" ++
  line "r := math.pi" ++
  line "p := & r" ++
  line "while total < limit {" ++
  line "  if total is 5 {" ++
  line "    break" ++
  line "  } elif total > 7 {" ++
  line "    continue" ++
  line "    noop" ++
  line "  }" ++
  line "  # nearly there" ++
  line "  else { noop }" ++
  line "  total = add(total, p)" ++
  line "}" ++
  line "m: Number = total mod 3" ++
  line "add(m, p)" ++
  line "return 0".
Definition sample_tree : list node := tree_of plain sample.
Definition sample_state : sst := state_of plain sample.
Definition sample_checked : list tnode := checked_of plain sample.

Lemma sample_accepted : accepted plain sample (tokens_of sample) sample_tree sample_state sample_checked.
Proof. apply compiles_accepted. vm_compute. reflexivity. Qed.
Lemma sample_calls : no_call_blocks sample_tree.
Proof. apply no_call_blocks_of. vm_compute. reflexivity. Qed.
Lemma sample_arguments : few_arguments sample_tree.
Proof. apply few_arguments_of. vm_compute. reflexivity. Qed.
Lemma sample_aliases : plain_aliases sample_tree sample_checked.
Proof. apply plain_aliases_of. vm_compute. reflexivity. Qed.

(** C17: each `break` and `continue` is inside of a loop of the same function. *)
Theorem jumps_stay_inside_loops : forall w src ts tree s l b n, accepted w src ts tree s l -> no_call_blocks tree ->
  enclosed false tree b n -> n_type n = N_BREAK \/ n_type n = N_CONTINUE -> b = true.
Proof. exact jumps_l. Qed.
Print Assumptions jumps_stay_inside_loops.

Example jumps_stay_inside_loops_ex : accepted plain sample (tokens_of sample) sample_tree sample_state sample_checked /\
  no_call_blocks sample_tree /\ exists b n, enclosed false sample_tree b n /\ n_type n = N_BREAK /\ b = true.
Proof.
  split; [exact sample_accepted|]. split; [exact sample_calls|].
  destruct (find_place (fun b n => match n_type n with N_BREAK => b | _ => false end) sample_tree) as (b & n & E & H); [vm_compute; reflexivity|].
  exists b, n. split; [exact E|]. destruct (n_type n); try discriminate H; auto.
Qed.

(** C17 needs the hypothesis about calls: a block behind a call is not checked. *)
Theorem jumps_stay_inside_loops_refuted : exists src tree s l n,
  accepted plain src (tokens_of src) tree s l /\ enclosed false tree false n /\ n_type n = N_BREAK.
Proof.
  set (src := line "f(a: Int) { noop }" ++ line "f(1) { break }").
  exists src, (tree_of plain src), (state_of plain src), (checked_of plain src).
  destruct (find_place (fun b n => match n_type n with N_BREAK => negb b | _ => false end) (tree_of plain src)) as (b & n & E & H); [vm_compute; reflexivity|].
  exists n. split; [apply compiles_accepted; vm_compute; reflexivity|].
  destruct b, (n_type n); try discriminate H; auto.
Qed.
Print Assumptions jumps_stay_inside_loops_refuted.

Example jumps_stay_inside_loops_refuted_ex : compiles plain (line "f(a: Int) { noop }" ++ line "f(1) { continue }") = true /\
  compiles plain (line "break") = false.
Proof. vm_compute. auto. Qed.

(** C18: an `else` or `elif` stands behind an `if` or `elif`, with only comments between. *)
Theorem else_follows_if : forall w src ts tree s l a n b, accepted w src ts tree s l -> no_call_blocks tree ->
  block_of tree (a ++ n :: b) -> n_type n = N_ELSE \/ n_type n = N_ELIF ->
  exists a1 m cs, a = a1 ++ m :: cs /\ (n_type m = N_IF \/ n_type m = N_ELIF) /\ Forall (fun c => n_type c = N_COMMENT) cs.
Proof. intros w src ts tree s l a n b A NC B. exact (else_l w src ts tree s l _ a n b A NC B eq_refl). Qed.
Print Assumptions else_follows_if.

Example else_follows_if_ex : accepted plain sample (tokens_of sample) sample_tree sample_state sample_checked /\
  no_call_blocks sample_tree /\ exists a n b, block_of sample_tree (a ++ n :: b) /\ n_type n = N_ELSE /\ (List.length a = 3)%nat.
Proof.
  split; [exact sample_accepted|]. split; [exact sample_calls|].
  destruct (find_cut (fun a n b => match n_type n with N_ELSE => Nat.eqb (List.length a) 3 | _ => false end) sample_tree) as (a & n & b & E & H); [vm_compute; reflexivity|].
  exists a, n, b. split; [exact E|]. destruct (n_type n); try discriminate H. apply Nat.eqb_eq in H. auto.
Qed.

(** C19: behind a jump there are only comments, `noop` and `unreachable`. *)
Theorem no_code_behind_jumps : forall w src ts tree s l a n b, accepted w src ts tree s l -> no_call_blocks tree ->
  block_of tree (a ++ n :: b) -> leaves (n_type n) -> Forall (fun m => idle (n_type m)) b.
Proof. intros w src ts tree s l a n b A NC B. exact (dead_code_l w src ts tree s l _ a n b A NC B eq_refl). Qed.
Print Assumptions no_code_behind_jumps.

Example no_code_behind_jumps_ex : accepted plain sample (tokens_of sample) sample_tree sample_state sample_checked /\
  no_call_blocks sample_tree /\ exists a n b, block_of sample_tree (a ++ n :: b) /\ n_type n = N_CONTINUE /\ (List.length b = 1)%nat.
Proof.
  split; [exact sample_accepted|]. split; [exact sample_calls|].
  destruct (find_cut (fun a n b => match n_type n with N_CONTINUE => Nat.eqb (List.length b) 1 | _ => false end) sample_tree) as (a & n & b & E & H); [vm_compute; reflexivity|].
  exists a, n, b. split; [exact E|]. destruct (n_type n); try discriminate H. apply Nat.eqb_eq in H. auto.
Qed.

(** C19 is not true with "only comments". *)
Theorem only_comments_behind_jumps_refuted : exists src tree s l a n b m,
  accepted plain src (tokens_of src) tree s l /\ no_call_blocks tree /\ block_of tree (a ++ n :: b) /\
  n_type n = N_RETURN /\ In m b /\ n_type m = N_NOOP.
Proof.
  set (src := line "return 1" ++ line "noop").
  exists src, (tree_of plain src), (state_of plain src), (checked_of plain src).
  destruct (find_cut (fun a n b => match n_type n, b with N_RETURN, [m] => match n_type m with N_NOOP => true | _ => false end | _, _ => false end) (tree_of plain src))
    as (a & n & b & E & H); [vm_compute; reflexivity|].
  destruct (n_type n) eqn:TN; try discriminate H. destruct b as [|m [|]]; try discriminate H. exists a, n, [m], m.
  split; [apply compiles_accepted; vm_compute; reflexivity|]. split; [apply no_call_blocks_of; vm_compute; reflexivity|].
  split; [exact E|]. split; [exact TN|]. split; [now left|]. destruct (n_type m); try discriminate H; auto.
Qed.
Print Assumptions only_comments_behind_jumps_refuted.

Example only_comments_behind_jumps_refuted_ex : compiles plain (line "return 1" ++ line "unreachable" ++ line "noop") = true /\
  compiles plain (line "return 1" ++ line "x := 1") = false.
Proof. vm_compute. auto. Qed.

(** C48: only these statements have a block, and these have one that is not empty. *)
Theorem blocks_belong_to_statements : forall w src ts tree s l n, accepted w src ts tree s l -> no_call_blocks tree -> in_tree n tree ->
  (In (n_type n) [N_IF; N_ELIF; N_ELSE; N_WHILE] -> n_child n <> []) /\
  (n_child n <> [] -> In (n_type n) [N_IF; N_ELIF; N_ELSE; N_WHILE; N_FUNCTION_PROTO; N_NAMESPACE]).
Proof. exact blocks_l. Qed.
Print Assumptions blocks_belong_to_statements.

Example blocks_belong_to_statements_ex : accepted plain sample (tokens_of sample) sample_tree sample_state sample_checked /\
  no_call_blocks sample_tree /\ exists n, in_tree n sample_tree /\ n_type n = N_WHILE.
Proof.
  split; [exact sample_accepted|]. split; [exact sample_calls|].
  destruct (find_node (fun n => match n_type n with N_WHILE => true | _ => false end) sample_tree) as (n & E & H); [vm_compute; reflexivity|].
  exists n. split; [exact E|]. destruct (n_type n); try discriminate H; auto.
Qed.

(** C47: an accepted program is well formed: there are declarations such that names, types,
    values and blocks are as Spec_Sem.v says, and the checked tree records them. *)
Theorem accepted_programs_are_well_formed : forall w src ts tree s l, accepted w src ts tree s l ->
  no_call_blocks tree -> few_arguments tree -> well_formed w src tree l.
Proof. exact well_formed_l. Qed.
Print Assumptions accepted_programs_are_well_formed.

Example accepted_programs_are_well_formed_ex : accepted plain sample (tokens_of sample) sample_tree sample_state sample_checked /\
  no_call_blocks sample_tree /\ few_arguments sample_tree /\ List.length sample_tree = 12%nat.
Proof.
  split; [exact sample_accepted|]. split; [exact sample_calls|]. split; [exact sample_arguments|]. vm_compute. reflexivity.
Qed.

(** C47: no node is lost on the way to the code generators. *)
Theorem every_node_is_checked : forall w src ts tree s l, accepted w src ts tree s l -> no_call_blocks tree -> few_arguments tree ->
  forall n, in_tree n tree -> exists x, paired n x tree l /\ tn_type x = n_type n /\ tn_token x = n_token n.
Proof. exact all_checked_l. Qed.
Print Assumptions every_node_is_checked.

Example every_node_is_checked_ex : accepted plain sample (tokens_of sample) sample_tree sample_state sample_checked /\
  no_call_blocks sample_tree /\ few_arguments sample_tree /\ exists n, in_tree n sample_tree /\ n_type n = N_CONTINUE.
Proof.
  split; [exact sample_accepted|]. split; [exact sample_calls|]. split; [exact sample_arguments|].
  destruct (find_node (fun n => match n_type n with N_CONTINUE => true | _ => false end) sample_tree) as (n & E & H); [vm_compute; reflexivity|].
  exists n. split; [exact E|]. destruct (n_type n); try discriminate H; auto.
Qed.

(** C20: what is assigned to is not declared as a constant and is not a parameter. *)
Theorem constants_never_change : forall w src ts tree s l, accepted w src ts tree s l -> no_call_blocks tree -> few_arguments tree ->
  forall n x k z, paired n x tree l -> tn_pay x = XSet k z ->
  (forall d y name v i c ex a, paired d y tree l -> n_pay d = PVarDef name v i c ex -> tn_pay y = XDef k a -> c = false) /\
  (forall d y j ks, paired d y tree l -> tn_pay y = XProto j ks -> ~ In k ks).
Proof. exact constants_l. Qed.
Print Assumptions constants_never_change.

Example constants_never_change_ex : accepted plain sample (tokens_of sample) sample_tree sample_state sample_checked /\
  no_call_blocks sample_tree /\ few_arguments sample_tree /\
  exists n x k z d y name v i c ex a, paired n x sample_tree sample_checked /\ tn_pay x = XSet k z /\
    paired d y sample_tree sample_checked /\ n_pay d = PVarDef name v i c ex /\ tn_pay y = XDef k a.
Proof.
  split; [exact sample_accepted|]. split; [exact sample_calls|]. split; [exact sample_arguments|].
  destruct (find_pair (fun n x => match tn_pay x with XSet 2 _ => true | _ => false end) sample_tree sample_checked) as (n & x & P & H); [vm_compute; reflexivity|].
  destruct (find_pair (fun n x => match n_pay n, tn_pay x with PVarDef _ _ _ _ _, XDef 2 _ => true | _, _ => false end) sample_tree sample_checked)
    as (d & y & P2 & H2); [vm_compute; reflexivity|].
  destruct (tn_pay x) as [| | |k z| | |] eqn:X; try discriminate H. destruct (n_pay d) as [|name v i c ex| | |] eqn:N; try discriminate H2.
  destruct (tn_pay y) as [| |k2 a| | | |] eqn:Y; try discriminate H2. assert (k = 2%nat) as -> by (destruct k as [|[|[|]]]; auto; discriminate H).
  assert (k2 = 2%nat) as -> by (destruct k2 as [|[|[|]]]; auto; discriminate H2).
  exists n, x, 2%nat, z, d, y, name, v, i, c, ex, a. auto.
Qed.

(** C21: a name that is declared is not visible already. *)
Theorem names_are_declared_once : forall w src ts tree s l, accepted w src ts tree s l -> no_call_blocks tree -> few_arguments tree ->
  plain_aliases tree l ->
  forall n x nm o d y, visible src n x tree l nm o d y -> ~ In (chr ".") nm ->
  forall nm' o', declares_below src n x nm' o' -> nm' <> nm.
Proof. exact once_l. Qed.
Print Assumptions names_are_declared_once.

Definition two : text := line "a := 1" ++ line "b := a".
Example names_are_declared_once_ex : accepted plain two (tokens_of two) (tree_of plain two) (state_of plain two) (checked_of plain two) /\
  no_call_blocks (tree_of plain two) /\ few_arguments (tree_of plain two) /\ plain_aliases (tree_of plain two) (checked_of plain two) /\
  exists n x d y, visible two n x (tree_of plain two) (checked_of plain two) (u "a") (Some 1%nat) d y /\ declares_below two n x (u "b") (Some 2%nat).
Proof.
  split; [apply compiles_accepted; vm_compute; reflexivity|]. split; [apply no_call_blocks_of; vm_compute; reflexivity|].
  split; [apply few_arguments_of; vm_compute; reflexivity|]. split; [apply plain_aliases_of; vm_compute; reflexivity|].
  assert (T : exists d n y x, tree_of plain two = [d; n] /\ checked_of plain two = [y; x] /\
    declares two d y (u "a") (Some 1%nat) /\ declares two n x (u "b") (Some 2%nat)).
  { eexists _, _, _, _. split; [vm_compute; reflexivity|]. split; [vm_compute; reflexivity|].
    split; (eapply dc_variable; [reflexivity|reflexivity|apply spells_of; vm_compute; reflexivity]). }
  destruct T as (d & n & y & x & -> & -> & D1 & D2). exists n, x, d, y. split; [|now constructor]. apply vi_ahead; [exact D1|constructor].
Qed.

(** C21 does not hold for aliases with a written type: they have no meaning, and the name
    can be declared again in a block. *)
Definition hidden : text := line "x: Int = Int" ++ line "f(a: Int) { x := 1" ++ line "y := x" ++ line "return }".
Theorem names_are_declared_once_refuted : exists src tree s l d n y x dn t,
  accepted plain src (tokens_of src) tree s l /\ no_call_blocks tree /\ few_arguments tree /\ tree = [d; n] /\ l = [y; x] /\
  (exists r v i c ex, n_pay d = PVarDef (t :: r) v i c ex) /\ tn_pay y = XAlias /\ spells src t (u "x") /\
  nth_error (n_child n) 0 = Some dn /\ exists z, paired dn z tree l /\ declares src dn z (u "x") (Some 4%nat).
Proof.
  assert (T : exists d n y x dn z c t, tree_of plain hidden = [d; n] /\ checked_of plain hidden = [y; x] /\
    (exists r v i c ex, n_pay d = PVarDef (t :: r) v i c ex) /\ tn_pay y = XAlias /\ spells hidden t (u "x") /\
    n_child n = dn :: c /\ (exists c', tn_child x = z :: c') /\ declares hidden dn z (u "x") (Some 4%nat)).
  { eexists _, _, _, _, _, _, _, _. split; [vm_compute; reflexivity|]. split; [vm_compute; reflexivity|].
    split; [repeat eexists|]. split; [reflexivity|]. split; [apply spells_of; vm_compute; reflexivity|]. split; [reflexivity|].
    split; [eexists; reflexivity|]. eapply dc_variable; [reflexivity|reflexivity|apply spells_of; vm_compute; reflexivity]. }
  destruct T as (d & n & y & x & dn & z & c & t & T1 & T2 & P & A & SP & C & (c' & C') & DC).
  exists hidden, (tree_of plain hidden), (state_of plain hidden), (checked_of plain hidden), d, n, y, x, dn, t.
  split; [apply compiles_accepted; vm_compute; reflexivity|]. split; [apply no_call_blocks_of; vm_compute; reflexivity|].
  split; [apply few_arguments_of; vm_compute; reflexivity|]. split; [exact T1|]. split; [exact T2|]. split; [exact P|].
  split; [exact A|]. split; [exact SP|]. split; [now rewrite C|]. exists z. split; [|exact DC]. rewrite T1, T2. apply pa_next, pa_below.
  rewrite C, C'. constructor.
Qed.
Print Assumptions names_are_declared_once_refuted.

Example names_are_declared_once_refuted_ex : compiles plain (line "x := Int" ++ line "f(a: Int) { x := 1" ++ line "return }") = false /\
  compiles plain (line "x := 2" ++ line "f(a: Int) { x := 1" ++ line "return }") = false /\
  compiles plain (line "y: Int = Int" ++ line "if true { y := 2" ++ line "z := y" ++ line "}") = true.
Proof. vm_compute. auto. Qed.

(** C22: a variable that is used is declared before, in the same or in an enclosing block,
    or is a parameter. *)
Theorem variables_are_declared_first : forall w src ts tree s l, accepted w src ts tree s l -> no_call_blocks tree -> few_arguments tree ->
  forall n x t k ty c nm, paired n x tree l -> uses x (XVar t k ty c) -> spells src t nm -> ~ In (chr ".") nm ->
  exists d y, visible src n x tree l nm (Some k) d y /\
    ((exists a, tn_pay y = XDef k a /\ x_ty a = ty) \/ exists j ks, tn_pay y = XProto j ks /\ In k ks).
Proof. exact visible_var. Qed.
Print Assumptions variables_are_declared_first.

Example variables_are_declared_first_ex : accepted plain sample (tokens_of sample) sample_tree sample_state sample_checked /\
  no_call_blocks sample_tree /\ few_arguments sample_tree /\
  exists n x t k ty c, paired n x sample_tree sample_checked /\ uses x (XVar t k ty c) /\ spells sample t (u "total") /\ n_type n = N_VAR_ASSIGN.
Proof.
  split; [exact sample_accepted|]. split; [exact sample_calls|]. split; [exact sample_arguments|].
  destruct (find_use (fun n x y => match y, n_type n with XVar t _ _ _, N_VAR_ASSIGN => spellb sample t (u "total") | _, _ => false end)
    sample_tree sample_checked) as (n & x & y & P & U & H); [vm_compute; reflexivity|].
  destruct y as [t k ty c| | | |]; try discriminate H. exists n, x, t, k, ty, c. split; [exact P|]. split; [exact U|].
  destruct (n_type n); try discriminate H. split; [now apply spells_of|reflexivity].
Qed.

(** C22: the same for the target of an assignment, which is declared with `mut`. *)
Theorem targets_are_declared_first : forall w src ts tree s l, accepted w src ts tree s l -> no_call_blocks tree -> few_arguments tree ->
  forall n x k z t r nm, paired n x tree l -> tn_pay x = XSet k z -> n_token n = t :: r -> spells src t nm -> ~ In (chr ".") nm ->
  exists d y name v i ex a, visible src n x tree l nm (Some k) d y /\ n_pay d = PVarDef name v i false ex /\
    tn_pay y = XDef k a /\ x_ty a = x_ty z.
Proof. exact visible_set. Qed.
Print Assumptions targets_are_declared_first.

Example targets_are_declared_first_ex : accepted plain sample (tokens_of sample) sample_tree sample_state sample_checked /\
  no_call_blocks sample_tree /\ few_arguments sample_tree /\
  exists n x k z t r, paired n x sample_tree sample_checked /\ tn_pay x = XSet k z /\ n_token n = t :: r /\ spells sample t (u "total").
Proof.
  split; [exact sample_accepted|]. split; [exact sample_calls|]. split; [exact sample_arguments|].
  destruct (find_pair (fun n x => match tn_pay x, n_token n with XSet _ _, t :: _ => spellb sample t (u "total") | _, _ => false end)
    sample_tree sample_checked) as (n & x & P & H); [vm_compute; reflexivity|].
  destruct (tn_pay x) as [| | |k z| | |] eqn:X; try discriminate H. destruct (n_token n) as [|t r] eqn:T; try discriminate H.
  exists n, x, k, z, t, r. split; [exact P|]. split; [exact X|]. split; [exact T|]. now apply spells_of.
Qed.

(** C22: a function that is called is declared before. *)
Theorem functions_are_declared_first : forall w src ts tree s l, accepted w src ts tree s l -> no_call_blocks tree -> few_arguments tree ->
  forall n x t k xs ty nm, paired n x tree l -> uses x (XCall t k xs ty) -> spells src t nm -> ~ In (chr ".") nm ->
  exists d y ks, visible src n x tree l nm (Some k) d y /\ tn_pay y = XProto k ks.
Proof. exact visible_fun. Qed.
Print Assumptions functions_are_declared_first.

Example functions_are_declared_first_ex : accepted plain sample (tokens_of sample) sample_tree sample_state sample_checked /\
  no_call_blocks sample_tree /\ few_arguments sample_tree /\
  exists n x t k xs ty, paired n x sample_tree sample_checked /\ uses x (XCall t k xs ty) /\ spells sample t (u "add") /\ n_type n = N_VAR_ASSIGN.
Proof.
  split; [exact sample_accepted|]. split; [exact sample_calls|]. split; [exact sample_arguments|].
  destruct (find_use (fun n x y => match y, n_type n with XCall t _ _ _, N_VAR_ASSIGN => spellb sample t (u "add") | _, _ => false end)
    sample_tree sample_checked) as (n & x & y & P & U & H); [vm_compute; reflexivity|].
  destruct y as [| |t k xs ty| |]; try discriminate H. exists n, x, t, k, xs, ty. split; [exact P|]. split; [exact U|].
  destruct (n_type n); try discriminate H. split; [now apply spells_of|reflexivity].
Qed.

(** C23: the expression of each node has a type by the rules of Spec_Sem.v, only one, and
    it is the type that is recorded; all names used for this are visible, or name a type. *)
Theorem expressions_are_well_typed : forall w src ts tree s l, accepted w src ts tree s l -> no_call_blocks tree -> few_arguments tree ->
  exists D, forall n x y, paired n x tree l -> checked_expr x = Some y ->
  exists e v, node_expr n = Some v /\ elab D w src e v y /\
    (forall ty, has_type D src e v ty <-> ty = x_ty y) /\
    forall nm k, In (nm, k) e -> (exists d z, visible src n x tree l nm (Some k) d z) \/ exists ty, D k = Some (DType ty).
Proof.
  intros w src ts tree s l A NC FA. destruct (typed_l _ _ _ _ _ _ A NC FA) as (D & H). exists D. intros n x y P C.
  destruct (H n x y P C) as (e & v & E1 & E2 & E3 & E4). exists e, v. split; [exact E1|]. split; [exact E2|]. split; [|exact E4].
  intro ty. split; [intro T; exact (has_type_one _ _ _ _ _ T _ E3)|intros ->; exact E3].
Qed.
Print Assumptions expressions_are_well_typed.

Example expressions_are_well_typed_ex : accepted plain sample (tokens_of sample) sample_tree sample_state sample_checked /\
  no_call_blocks sample_tree /\ few_arguments sample_tree /\
  exists n x y, paired n x sample_tree sample_checked /\ checked_expr x = Some y /\ x_ty y = TRef TFloat.
Proof.
  split; [exact sample_accepted|]. split; [exact sample_calls|]. split; [exact sample_arguments|].
  destruct (find_pair (fun n x => match checked_expr x with Some y => ty_eqb (x_ty y) (TRef TFloat) | _ => false end)
    sample_tree sample_checked) as (n & x & P & H); [vm_compute; reflexivity|].
  destruct (checked_expr x) as [y|] eqn:X; try discriminate H. exists n, x, y. split; [exact P|]. split; [exact X|].
  destruct (x_ty y) as [| | | | | |t]; try discriminate H. destruct t; try discriminate H. reflexivity.
Qed.

(** C23, C25: operands and results of all operators, wherever they are. No integer is
    divided by a literal zero. Conditions are Bool. *)
Theorem operators_get_their_types : forall w src ts tree s l, accepted w src ts tree s l -> no_call_blocks tree -> few_arguments tree ->
  forall n x, paired n x tree l ->
  (forall o a b r c, uses x (XBin o a b r c) -> x_ty a = x_ty b /\ oper_type o (x_ty a) r /\
     (o = BDiv \/ o = BMod -> forall t ty, b <> XConst t (VInt 0) ty)) /\
  (forall o a r c, uses x (XUn o a r c) ->
     match o with
     | UNeg => r = x_ty a /\ is_number r
     | UNot => r = TBool /\ x_ty a = TBool
     | URef => r = TRef (x_ty a) /\ is_ident a = true
     | UDeref => x_ty a = TRef r /\ is_ident a = true
     end) /\
  (forall t v ty, uses x (XConst t v ty) -> literal_value w src t v ty) /\
  (In (n_type n) [N_IF; N_ELIF; N_WHILE] -> exists y, checked_expr x = Some y /\ x_ty y = TBool).
Proof. exact operators_l. Qed.
Print Assumptions operators_get_their_types.

Example operators_get_their_types_ex : accepted plain sample (tokens_of sample) sample_tree sample_state sample_checked /\
  no_call_blocks sample_tree /\ few_arguments sample_tree /\
  exists n x o a b r c, paired n x sample_tree sample_checked /\ uses x (XBin o a b r c) /\ o = BMod.
Proof.
  split; [exact sample_accepted|]. split; [exact sample_calls|]. split; [exact sample_arguments|].
  destruct (find_use (fun n x y => match y with XBin BMod _ _ _ _ => true | _ => false end)
    sample_tree sample_checked) as (n & x & y & P & U & H); [vm_compute; reflexivity|].
  destruct y as [| | | |o a b r c]; try discriminate H. exists n, x, o, a, b, r, c. split; [exact P|]. split; [exact U|].
  destruct o; try discriminate H. reflexivity.
Qed.

(** C25: such divisions are rejected, whatever the literal looks like. *)
Example zero_divisors_ex : compiles plain (line "x := 1 / 0") = false /\ compiles plain (line "x := 1 mod 0x0") = false /\
  compiles plain (line "x := 2 + (1 / (0b0))") = false /\ compiles plain (line "x := 1 / 2") = true.
Proof. vm_compute. auto. Qed.

(** C25 does not hold for the tree of the parser: the expression behind the type of an
    alias is neither checked nor used. *)
Theorem no_division_by_zero_refuted : exists src tree s l n e t a,
  accepted plain src (tokens_of src) tree s l /\ no_call_blocks tree /\ few_arguments tree /\ tree = [n] /\
  node_expr n = Some e /\ part (EBin BDiv a (EConst t)) e /\ eval_integer src t = Ok (Val 0%Z).
Proof.
  set (src := line "X := &Int(1 / 0)").
  assert (T : exists n o name p k a t, tree_of plain src = [n] /\ node_expr n = Some (EUn o (Some (ECall name [(p, EBin BDiv a (EConst t))] k))) /\
    eval_integer src t = Ok (Val 0%Z)).
  { eexists _, _, _, _, _, _, _. split; [vm_compute; reflexivity|]. split; [vm_compute; reflexivity|vm_compute; reflexivity]. }
  destruct T as (n & o & name & p & k & a & t & T1 & T2 & T3).
  exists src, (tree_of plain src), (state_of plain src), (checked_of plain src). eexists n, _, t, a.
  split; [apply compiles_accepted; vm_compute; reflexivity|]. split; [apply no_call_blocks_of; vm_compute; reflexivity|].
  split; [apply few_arguments_of; vm_compute; reflexivity|]. split; [exact T1|]. split; [exact T2|]. split; [|exact T3].
  apply pt_un. eapply pt_arg; [now left|constructor].
Qed.
Print Assumptions no_division_by_zero_refuted.

Example no_division_by_zero_refuted_ex : compiles plain (line "f(a: Int) { return }" ++ line "f(1 / 0)") = false /\
  compiles plain (line "X := &Int(1 / 0)") = true.
Proof. vm_compute. auto. Qed.

(** C24: whatever is stored in a variable has the type of its first value, and so has
    every use. *)
Theorem stored_values_have_the_declared_type : forall w src ts tree s l, accepted w src ts tree s l -> no_call_blocks tree -> few_arguments tree ->
  forall d y k a, paired d y tree l -> tn_pay y = XDef k a ->
  (forall n x z, paired n x tree l -> tn_pay x = XSet k z -> x_ty z = x_ty a) /\
  (forall n x t ty c, paired n x tree l -> uses x (XVar t k ty c) -> ty = x_ty a).
Proof. exact stored_l. Qed.
Print Assumptions stored_values_have_the_declared_type.

Example stored_values_have_the_declared_type_ex : accepted plain sample (tokens_of sample) sample_tree sample_state sample_checked /\
  no_call_blocks sample_tree /\ few_arguments sample_tree /\
  exists d y a n x z, paired d y sample_tree sample_checked /\ tn_pay y = XDef 2 a /\ paired n x sample_tree sample_checked /\ tn_pay x = XSet 2 z.
Proof.
  split; [exact sample_accepted|]. split; [exact sample_calls|]. split; [exact sample_arguments|].
  destruct (find_pair (fun n x => match tn_pay x with XSet 2 _ => true | _ => false end) sample_tree sample_checked) as (n & x & P & H); [vm_compute; reflexivity|].
  destruct (find_pair (fun n x => match tn_pay x with XDef 2 _ => true | _ => false end) sample_tree sample_checked) as (d & y & P2 & H2); [vm_compute; reflexivity|].
  destruct (tn_pay x) as [| | |k z| | |] eqn:X; try discriminate H. destruct (tn_pay y) as [| |k2 a| | | |] eqn:Y; try discriminate H2.
  assert (k = 2%nat) as -> by (destruct k as [|[|[|]]]; auto; discriminate H). assert (k2 = 2%nat) as -> by (destruct k2 as [|[|[|]]]; auto; discriminate H2).
  exists d, y, a, n, x, z. auto.
Qed.

(** C24: a value of type Void is only ever that of a variable or of what a reference
    points to, not that of a call or an operation. *)
Theorem void_is_not_computed : forall w src ts tree s l, accepted w src ts tree s l -> no_call_blocks tree -> few_arguments tree ->
  forall d y k a, paired d y tree l -> tn_pay y = XDef k a -> x_ty a = TVoid ->
  exists t j c, a = XVar t j TVoid c \/ exists c', a = XUn UDeref (XVar t j (TRef TVoid) c) TVoid c'.
Proof. exact void_l. Qed.
Print Assumptions void_is_not_computed.

Definition void_text : text := line "f(a: Void) { x := a" ++ line "return }".
Example void_is_not_computed_ex : accepted plain void_text (tokens_of void_text) (tree_of plain void_text) (state_of plain void_text) (checked_of plain void_text) /\
  no_call_blocks (tree_of plain void_text) /\ few_arguments (tree_of plain void_text) /\
  exists d y k a, paired d y (tree_of plain void_text) (checked_of plain void_text) /\ tn_pay y = XDef k a /\ x_ty a = TVoid.
Proof.
  split; [apply compiles_accepted; vm_compute; reflexivity|]. split; [apply no_call_blocks_of; vm_compute; reflexivity|].
  split; [apply few_arguments_of; vm_compute; reflexivity|].
  destruct (find_pair (fun n x => match tn_pay x with XDef _ a => ty_eqb (x_ty a) TVoid | _ => false end) (tree_of plain void_text) (checked_of plain void_text))
    as (d & y & P & H); [vm_compute; reflexivity|].
  destruct (tn_pay y) as [| |k a| | | |] eqn:Y; try discriminate H. exists d, y, k, a. split; [exact P|]. split; [exact Y|].
  destruct (x_ty a); try discriminate H. reflexivity.
Qed.

(** C24: so "no variable has type Void" is wrong: a parameter can be of type Void, and its
    value can be stored. *)
Theorem no_void_variables_refuted : exists src tree s l d y k a,
  accepted plain src (tokens_of src) tree s l /\ no_call_blocks tree /\ few_arguments tree /\
  paired d y tree l /\ tn_pay y = XDef k a /\ x_ty a = TVoid.
Proof.
  destruct void_is_not_computed_ex as (A & NC & FA & d & y & k & a & P & X & T).
  exists void_text, (tree_of plain void_text), (state_of plain void_text), (checked_of plain void_text), d, y, k, a. auto 8.
Qed.
Print Assumptions no_void_variables_refuted.

Example no_void_variables_refuted_ex : compiles plain (line "f(a: & Void) { x := * a" ++ line "return }") = true /\
  compiles plain (line "f(a: Int) { return }" ++ line "x := f(1)") = false.
Proof. vm_compute. auto. Qed.

(** C26: calls have as many arguments as the function has parameters, and a parameter
    has the type of the argument wherever it is used. *)
Theorem calls_match_declarations : forall w src ts tree s l, accepted w src ts tree s l -> no_call_blocks tree -> few_arguments tree ->
  forall n x t k xs r d y name ret num ext exp ps ks, paired n x tree l -> uses x (XCall t k xs r) ->
  paired d y tree l -> n_pay d = PProto name ret num ext exp ps -> tn_pay y = XProto k ks ->
  List.length xs = List.length ps /\ List.length ks = List.length ps /\
  (forall i a j, nth_error xs i = Some a -> nth_error ks i = Some j ->
     forall m z q ty c, paired m z tree l -> uses z (XVar q j ty c) -> ty = x_ty a) /\
  (ret = [] -> r = TVoid).
Proof. exact calls_l. Qed.
Print Assumptions calls_match_declarations.

Example calls_match_declarations_ex : accepted plain sample (tokens_of sample) sample_tree sample_state sample_checked /\
  no_call_blocks sample_tree /\ few_arguments sample_tree /\
  exists n x t xs r d y name ret num ext exp ps ks m z q ty c, paired n x sample_tree sample_checked /\ uses x (XCall t 4 xs r) /\
  paired d y sample_tree sample_checked /\ n_pay d = PProto name ret num ext exp ps /\ tn_pay y = XProto 4 ks /\
  nth_error ks 0 = Some 5%nat /\ paired m z sample_tree sample_checked /\ uses z (XVar q 5 ty c).
Proof.
  split; [exact sample_accepted|]. split; [exact sample_calls|]. split; [exact sample_arguments|].
  destruct (find_use (fun n x y => match y with XCall _ 4 _ _ => true | _ => false end)
    sample_tree sample_checked) as (n & x & y1 & P & U & H); [vm_compute; reflexivity|].
  destruct y1 as [| |t k xs r| |]; try discriminate H. assert (k = 4%nat) as -> by (destruct k as [|[|[|[|[|]]]]]; auto; discriminate H).
  destruct (find_pair (fun n x => match tn_pay x, n_pay n with XProto 4 [5%nat; _], PProto _ _ _ _ _ _ => true | _, _ => false end)
    sample_tree sample_checked) as (d & y & P2 & H2); [vm_compute; reflexivity|].
  destruct (n_pay d) as [| | |name ret num ext exp ps|] eqn:X.
  1-3, 5: exfalso; revert H2; clear; destruct (tn_pay y) as [| | | |k ks| |]; try discriminate;
    destruct k as [|[|[|[|[|]]]]]; try discriminate; destruct ks as [|[|[|[|[|[|[|]]]]]] [|? [|]]]; discriminate.
  destruct (tn_pay y) as [| | | |k ks| |] eqn:Y; try discriminate H2.
  assert (k = 4%nat) as -> by (destruct k as [|[|[|[|[|]]]]]; auto; discriminate H2).
  assert (KS : nth_error ks 0 = Some 5%nat) by (destruct ks as [|[|[|[|[|[|[|]]]]]] [|? [|]]]; try discriminate H2; reflexivity).
  destruct (find_use (fun n x y => match y with XVar _ 5 _ _ => true | _ => false end)
    sample_tree sample_checked) as (m & z & y3 & P3 & U3 & H3); [vm_compute; reflexivity|].
  destruct y3 as [q j ty c| | | |]; try discriminate H3. assert (j = 5%nat) as -> by (destruct j as [|[|[|[|[|[|]]]]]]; auto; discriminate H3).
  exists n, x, t, xs, r, d, y, name, ret, num, ext, exp, ps, ks, m, z, q, ty, c. auto 12.
Qed.

(** C26 does not hold for calls with 2^16 or more arguments: the parser counts them in 16
    bits, and only this number is compared. (The tree is what the parser gives for `f`
    followed by 65537 times `1`; it is given as a tree because that text is long.) *)
Definition many_text : text := line "f(a: Int) { return }" ++ line "f(1)".
Definition many_args (tree : list node) : list node :=
  map (fun n => match n with
    | mknode ty tok te (PExpr (ECall name [a] k)) c => mknode ty tok te (PExpr (ECall name (repeat a (N.to_nat 65537)) k)) c
    | _ => n end) tree.
Theorem calls_match_refuted : exists tree s l f n name args k d ps ret num ext exp,
  validate_ast_tree plain many_text tree = Pass s l /\ tree = [d; n] /\ n_pay n = PExpr (ECall name args k) /\
  N.of_nat (List.length args) = 65537 /\ k = w16 (N.of_nat (List.length args)) /\
  n_pay d = PProto f ret num ext exp ps /\ List.length ps = 1%nat.
Proof.
  assert (T : exists d ty tok te name a k c f ret num ext exp ps, tree_of plain many_text = [d; mknode ty tok te (PExpr (ECall name [a] k)) c] /\
    n_pay d = PProto f ret num ext exp ps /\ List.length ps = 1%nat /\ k = 1 /\
    match n_pay d with PExpr _ => false | _ => true end = true).
  { eexists _, _, _, _, _, _, _, _, _, _, _, _, _, _. split; [vm_compute; reflexivity|]. repeat split. }
  destruct T as (d & ty & tok & te & name & a & k & c & f & ret & num & ext & exp & ps & T & PD & LP & K & ND).
  assert (V : match validate_ast_tree plain many_text (many_args (tree_of plain many_text)) with Pass _ _ => true | _ => false end = true) by (vm_compute; reflexivity).
  assert (M : many_args (tree_of plain many_text) = [d; mknode ty tok te (PExpr (ECall name (repeat a (N.to_nat 65537)) k)) c]).
  { rewrite T. unfold many_args. cbn [map]. f_equal. destruct d as [ty1 tok1 te1 [| | | |e] c1]; auto. discriminate ND. }
  destruct (validate_ast_tree plain many_text (many_args (tree_of plain many_text))) as [s l| |] eqn:VE; try discriminate V.
  exists (many_args (tree_of plain many_text)), s, l, f, (mknode ty tok te (PExpr (ECall name (repeat a (N.to_nat 65537)) k)) c), name, (repeat a (N.to_nat 65537)), k, d, ps, ret, num, ext, exp.
  split; [exact VE|]. split; [exact M|]. split; [reflexivity|]. rewrite repeat_length, N2Nat.id. split; [reflexivity|].
  split; [rewrite K; reflexivity|]. split; [exact PD|exact LP].
Qed.
Print Assumptions calls_match_refuted.

Example calls_match_refuted_ex : compiles plain (line "f(a: Int) { return }" ++ line "f(1, 1)") = false /\
  compiles plain (line "f(a: Int) { return }" ++ line "f(1.0)") = false /\ compiles plain many_text = true.
Proof. vm_compute. auto. Qed.
