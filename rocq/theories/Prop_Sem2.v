(** Theorems about the returns of programs that the checks accept. *)
From Coq Require Import List Arith NArith ZArith Bool Lia Ascii String.
From Verif Require Import Base Model_Token Model_Utf8 Spec_Utf8 Spec_Classify Model_Literal Spec_Literal Model_Parse Spec_Parse Model_Sem Spec_Sem Spec_Sem2
  Proof_SemEx Proof_Sem6 Prop_Sem.
Import ListNotations.
Open Scope list_scope.
Open Scope N_scope.

(** The examples use this program. *)
Definition returning : text :=
  line "sign(a: Int) Int {" ++
  line "  if a < 0 {" ++
  line "    return - 1" ++
  line "  }" ++
  line "  return 1" ++
  line "  noop" ++
  line "}" ++
  line "quiet(a: Int) {" ++
  line "  if a is 0 { return }" ++
  line "  sign(a)" ++
  line "}" ++
  line "quiet(1)" ++
  line "if true { return sign(5) }" ++
  line "return 0".
Definition returning_tree : list node := tree_of plain returning.
Definition returning_state : sst := state_of plain returning.
Definition returning_checked : list tnode := checked_of plain returning.

Lemma returning_accepted : accepted plain returning (tokens_of returning) returning_tree returning_state returning_checked.
Proof. apply compiles_accepted. vm_compute. reflexivity. Qed.
Lemma returning_calls : no_call_blocks returning_tree.
Proof. apply no_call_blocks_of. vm_compute. reflexivity. Qed.
Lemma returning_arguments : few_arguments returning_tree.
Proof. apply few_arguments_of. vm_compute. reflexivity. Qed.

Definition is_function (n : node) : bool := match n_type n with N_FUNCTION_PROTO => true | _ => false end.
Definition flatb (t : list node) : bool :=
  forallb (fun f => negb (is_function f) || forallb (fun n => negb (is_function n)) (all_nodes (n_child f))) (all_nodes t).
Lemma flat_of : forall t, flatb t = true -> flat t.
Proof.
  intros t H f IF TF n IN TN. unfold flatb in H. rewrite forallb_forall in H. apply in_tree_nodes in IF. apply H in IF.
  unfold is_function in IF. rewrite TF in IF. cbn [negb orb] in IF. rewrite forallb_forall in IF. apply in_tree_nodes in IN. apply IF in IN.
  rewrite TN in IN. discriminate IN.
Qed.
Definition no_externalsb (t : list node) : bool :=
  forallb (fun n => match n_pay n with PProto _ _ _ ext _ _ => negb ext | _ => true end) (all_nodes t).
Lemma no_externals_of : forall t, no_externalsb t = true -> no_externals t.
Proof.
  intros t H n name ret num ext exp ps I P. unfold no_externalsb in H. rewrite forallb_forall in H. apply in_tree_nodes in I. apply H in I.
  rewrite P in I. now destruct ext.
Qed.

Lemma find_main : forall (p : node -> tnode -> bool) l xs,
  existsb (fun q => p (fst q) (snd q)) (combine l xs) = true -> exists n x, in_main n x l xs /\ p n x = true.
Proof.
  intros p l. induction l as [|m l IH]; intros [|y xs] H; try discriminate H. cbn [combine existsb fst snd] in H. apply orb_true_iff in H as [H|H].
  - exists m, y. split; [constructor|exact H].
  - destruct (IH xs H) as (n & x & I & E). exists n, x. split; [now apply im_next|exact E].
Qed.

(** C27: in a function with a result each return gives a value of that type, and the
    block ends with one; a function without result does not end with a value. *)
Theorem returns_match_functions : forall w src ts tree s l, accepted w src ts tree s l -> no_call_blocks tree -> few_arguments tree -> flat tree ->
  exists D e, block_ok D w src [] tree l e /\
  forall f fx name ret num ext exp ps k ks, paired f fx tree l -> n_pay f = PProto name ret num ext exp ps -> tn_pay fx = XProto k ks ->
  exists params r, D k = Some (DFun params r) /\
    (forall n x, paired n x (n_child f) (tn_child fx) -> n_type n = N_RETURN -> return_fits r x) /\
    (ext = false -> r <> TVoid -> ends_with_value (n_child f)) /\
    (ext = false -> r = TVoid -> forall a n b v, n_child f = a ++ n :: b -> n_type n = N_RETURN -> n_pay n <> PExpr v).
Proof. exact returns_l. Qed.
Print Assumptions returns_match_functions.

Example returns_match_functions_ex : accepted plain returning (tokens_of returning) returning_tree returning_state returning_checked /\
  no_call_blocks returning_tree /\ few_arguments returning_tree /\ flat returning_tree /\
  exists f fx, paired f fx returning_tree returning_checked /\
    match n_pay f, tn_pay fx with PProto _ (_ :: _) _ false _ _, XProto _ _ => (1 <? List.length (n_child f))%nat | _, _ => false end = true.
Proof.
  split; [exact returning_accepted|]. split; [exact returning_calls|]. split; [exact returning_arguments|].
  split; [apply flat_of; vm_compute; reflexivity|].
  apply (find_pair (fun f fx => match n_pay f, tn_pay fx with PProto _ (_ :: _) _ false _ _, XProto _ _ => (1 <? List.length (n_child f))%nat | _, _ => false end)).
  vm_compute. reflexivity.
Qed.

(** C27: what the program itself returns is an integer. *)
Theorem programs_return_integers : forall w src ts tree s l, accepted w src ts tree s l -> no_call_blocks tree -> flat tree -> no_externals tree ->
  forall n x, in_main n x tree l -> n_type n = N_RETURN -> exists y, tn_pay x = XExpr y /\ x_ty y = TInt.
Proof. exact in_main_l. Qed.
Print Assumptions programs_return_integers.

Example programs_return_integers_ex : accepted plain returning (tokens_of returning) returning_tree returning_state returning_checked /\
  no_call_blocks returning_tree /\ flat returning_tree /\ no_externals returning_tree /\
  exists n x, in_main n x returning_tree returning_checked /\ n_type n = N_RETURN.
Proof.
  split; [exact returning_accepted|]. split; [exact returning_calls|]. split; [apply flat_of; vm_compute; reflexivity|].
  split; [apply no_externals_of; vm_compute; reflexivity|].
  destruct (find_main (fun n x => match n_type n with N_RETURN => true | _ => false end) returning_tree returning_checked) as (n & x & I & H);
    [vm_compute; reflexivity|]. exists n, x. split; [exact I|]. destruct (n_type n); try discriminate H; auto.
Qed.

(** C27 is false for functions inside of functions: behind them the checks compare with
    the wrong function. *)
Theorem returns_match_refuted : exists src tree s l f fx name t r num exp ps k ks n x y,
  accepted plain src (tokens_of src) tree s l /\ no_call_blocks tree /\ few_arguments tree /\
  paired f fx tree l /\ n_pay f = PProto name (t :: r) num false exp ps /\ spells src t (u "Int") /\ tn_pay fx = XProto k ks /\
  In (n, x) (combine (n_child f) (tn_child fx)) /\ n_type n = N_RETURN /\ tn_pay x = XExpr y /\ x_ty y = TStr.
Proof.
  set (src := line "f(a: Int) Int {" ++ line "g(b: Int) Str {" ++ line "h(c: Int) { noop }" ++ line "return ""y""" ++ line "}" ++ line "return ""x""" ++ line "}").
  exists src, (tree_of plain src), (state_of plain src), (checked_of plain src).
  set (good := fun n x => match n_type n, tn_pay x with N_RETURN, XExpr y => ty_eqb (x_ty y) TStr | _, _ => false end).
  destruct (find_pair (fun f fx => match n_pay f, tn_pay fx with PProto _ (t :: _) _ false _ _, XProto _ _ =>
      spellb src t (u "Int") && existsb (fun q => good (fst q) (snd q)) (combine (n_child f) (tn_child fx))
    | _, _ => false end) (tree_of plain src) (checked_of plain src)) as (f & fx & PF & H); [vm_compute; reflexivity|].
  destruct (n_pay f) as [| | |name [|t r] num [|] exp ps|] eqn:NP; try discriminate H. destruct (tn_pay fx) as [| | | |k ks| |] eqn:TP; try discriminate H.

  apply andb_true_iff in H as (H1 & H2). apply existsb_exists in H2 as ((n & x) & I & HN). cbn [fst snd] in HN. unfold good in HN.
  destruct (n_type n) eqn:T; try discriminate HN. destruct (tn_pay x) as [| | | | |y|] eqn:P; try discriminate HN.
  exists f, fx, name, t, r, num, exp, ps, k, ks, n, x, y.
  split; [apply compiles_accepted; vm_compute; reflexivity|]. split; [apply no_call_blocks_of; vm_compute; reflexivity|].
  split; [apply few_arguments_of; vm_compute; reflexivity|]. split; [exact PF|]. split; [exact NP|].
  split; [now apply spells_of|]. split; [exact TP|]. split; [exact I|]. split; [exact T|]. split; [exact P|].
  destruct (x_ty y); try discriminate HN. reflexivity.
Qed.
Print Assumptions returns_match_refuted.

Example returns_match_refuted_ex :
  compiles plain (line "f(a: Int) Int {" ++ line "g(b: Int) Str {" ++ line "return ""y""" ++ line "}" ++ line "return ""x""" ++ line "}") = false /\
  compiles plain (line "f(a: Int) Int {" ++ line "g(b: Int) Str {" ++ line "h(c: Int) { noop }" ++ line "return ""y""" ++ line "}" ++ line "return 1" ++ line "}") = false.
Proof. vm_compute. auto. Qed.

(** C27: the checks forget that an external function has ended: behind its declaration
    the program may return something else. *)
Theorem programs_return_integers_refuted : exists src tree s l n x y,
  accepted plain src (tokens_of src) tree s l /\ no_call_blocks tree /\ flat tree /\
  in_main n x tree l /\ n_type n = N_RETURN /\ tn_pay x = XExpr y /\ x_ty y = TStr.
Proof.
  set (src := line "external puts(s: Str) Str" ++ line "return ""x""").
  exists src, (tree_of plain src), (state_of plain src), (checked_of plain src).
  destruct (find_main (fun n x => match n_type n, tn_pay x with N_RETURN, XExpr y => ty_eqb (x_ty y) TStr | _, _ => false end) (tree_of plain src) (checked_of plain src))
    as (n & x & I & H); [vm_compute; reflexivity|].
  destruct (n_type n) eqn:T; try discriminate H. destruct (tn_pay x) as [| | | | |y|] eqn:P; try discriminate H.
  exists n, x, y. split; [apply compiles_accepted; vm_compute; reflexivity|]. split; [apply no_call_blocks_of; vm_compute; reflexivity|].
  split; [apply flat_of; vm_compute; reflexivity|]. split; [exact I|]. split; [exact T|]. split; [exact P|]. destruct (x_ty y); try discriminate H. reflexivity.
Qed.
Print Assumptions programs_return_integers_refuted.

Example programs_return_integers_refuted_ex : compiles plain (line "return ""x""") = false /\
  compiles plain (line "external puts(s: Str) Str" ++ line "return 1") = false.
Proof. vm_compute. auto. Qed.

(** C27: a function without result may return a value from an inner block. *)
Theorem no_values_from_void_refuted : exists src tree s l f fx ret num exp ps name k ks n x y,
  accepted plain src (tokens_of src) tree s l /\ no_call_blocks tree /\ flat tree /\
  paired f fx tree l /\ n_pay f = PProto name ret num false exp ps /\ ret = [] /\ tn_pay fx = XProto k ks /\
  paired n x (n_child f) (tn_child fx) /\ n_type n = N_RETURN /\ tn_pay x = XExpr y /\ x_ty y = TInt.
Proof.
  set (src := line "f(a: Int) {" ++ line "if a is 1 { return 5 }" ++ line "}").
  exists src, (tree_of plain src), (state_of plain src), (checked_of plain src).
  destruct (find_pair (fun f fx => match n_pay f, tn_pay fx with PProto _ [] _ false _ _, XProto _ _ =>
      existsb (fun q => match n_type (fst q), tn_pay (snd q) with N_RETURN, XExpr y => ty_eqb (x_ty y) TInt | _, _ => false end) (pairs (n_child f) (tn_child fx))
    | _, _ => false end) (tree_of plain src) (checked_of plain src)) as (f & fx & PF & H); [vm_compute; reflexivity|].
  destruct (n_pay f) as [| | |name [|] num [|] exp ps|] eqn:NP; try discriminate H. destruct (tn_pay fx) as [| | | |k ks| |] eqn:TP; try discriminate H.
  destruct (find_pair (fun n x => match n_type n, tn_pay x with N_RETURN, XExpr y => ty_eqb (x_ty y) TInt | _, _ => false end) _ _ H) as (n & x & PN & HN).
  destruct (n_type n) eqn:T; try discriminate HN. destruct (tn_pay x) as [| | | | |y|] eqn:P; try discriminate HN.
  exists f, fx, [], num, exp, ps, name, k, ks, n, x, y.
  split; [apply compiles_accepted; vm_compute; reflexivity|]. split; [apply no_call_blocks_of; vm_compute; reflexivity|].
  split; [apply flat_of; vm_compute; reflexivity|]. repeat (split; [first [exact PF|exact NP|exact TP|exact PN|exact T|exact P|reflexivity]|]).
  destruct (x_ty y); try discriminate HN. reflexivity.
Qed.
Print Assumptions no_values_from_void_refuted.

Example no_values_from_void_refuted_ex : compiles plain (line "f(a: Int) { return 5 }") = false /\
  compiles plain (line "f(a: Int) Int {" ++ line "if a is 1 { return 5 }" ++ line "}") = false.
Proof. vm_compute. auto. Qed.
