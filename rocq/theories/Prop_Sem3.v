(** Theorems about the warnings for names that are not used. *)
From Coq Require Import List Arith NArith ZArith Bool Lia Ascii String.
From Verif Require Import Base Model_Token Model_Utf8 Spec_Utf8 Spec_Classify Model_Literal Spec_Literal Model_Parse Spec_Parse Model_Sem Spec_Sem Spec_Sem2
  Proof_SemEx Proof_Sem7 Proof_Sem8 Prop_Sem Prop_Sem2.
Import ListNotations.
Open Scope list_scope.
Open Scope N_scope.

(** The examples use these programs. *)
Definition strict : world := mkworld true false (w_wide plain) (w_range plain) (w_module plain).
Definition wasteful : text :=
  line "a := 1" ++
  line "mut b := a" ++
  line "export c := 2" ++
  line "f(p: Int) {" ++ line "  q := 1" ++ line "}" ++
  line "g() Int { return 1 }" ++
  line "if g() is 1 {" ++
  line "  mut d := 3" ++
  line "  d = 4" ++
  line "}".
Definition wasteful_tree : list node := tree_of plain wasteful.
Definition wasteful_state : sst := state_of plain wasteful.
Definition wasteful_checked : list tnode := checked_of plain wasteful.
Lemma wasteful_accepted : accepted plain wasteful (tokens_of wasteful) wasteful_tree wasteful_state wasteful_checked.
Proof. apply compiles_accepted. vm_compute. reflexivity. Qed.
Lemma wasteful_calls : no_call_blocks wasteful_tree.
Proof. apply no_call_blocks_of. vm_compute. reflexivity. Qed.

(** An unused variable in front of a block with an unused variable. *)
Definition lenient : text := line "x := 1" ++ line "g() Bool { return true }" ++ line "if g() {" ++ line "  y := 2" ++ line "}".
(** All names are used. *)
Definition thrifty : text :=
  line "f(p: Int) {" ++ line "  q := 1" ++ line "}" ++ line "mut x := 1" ++ line "if x is 1 {" ++ line "  y := 2" ++ line "  x = y" ++ line "  f(y)" ++ line "}".

Definition has (k : nat) (l : list nat) : bool := existsb (Nat.eqb k) l.
Definition deservesb (src : text) (l : list tnode) (n : node) (x : tnode) (c : scode) : bool :=
  match n_pay n, tn_pay x, c with
  | PVarDef (t :: _) _ _ _ false, XDef k _, S_WARN_VAR_UNUSED nm => spellb src t nm && negb (has k (flat_map (all reads_here) l))
  | PVarDef (t :: _) _ _ false _, XDef k _, S_WARN_VAR_NOT_CONST nm => spellb src t nm && negb (has k (flat_map (all sets_here) l))
  | PProto t _ _ _ _ _, XProto k _, S_WARN_FUNC_UNUSED nm => spellb src t nm && negb (has k (flat_map (all calls_here) l))
  | _, _, _ => false
  end.
Lemma has_not : forall k l, negb (has k l) = true -> ~ In k l.
Proof.
  intros k l H I. unfold has in H. apply negb_true_iff in H. assert (E : existsb (Nat.eqb k) l = true); [|congruence].
  apply existsb_exists. exists k. split; [exact I|apply Nat.eqb_refl].
Qed.
Lemma deserves_of : forall src l n x c, deservesb src l n x c = true -> exists t, deserves src l n x (mksmsg c (Some (t_loc t))).
Proof.
  intros src l n x c H. unfold deservesb in H. destruct (n_pay n) as [|[|t r] v i cn ex|e|t ret num ext exp ps|e] eqn:PN; try discriminate H;
    destruct (tn_pay x) as [| |k y|k y|k ks|y|k] eqn:PX; try (destruct ex, cn; discriminate H); try discriminate H.
  - destruct c; try (destruct ex, cn; discriminate H).
    + destruct cn; [destruct ex; discriminate H|]. exists t. assert (X : spellb src t name && negb (has k (flat_map (all sets_here) l)) = true) by (destruct ex; exact H).
      apply andb_true_iff in X as (X1 & X2). apply (ds_constant src l n x t name r v i ex k y PN PX); [rewrite is_assigned_in; now apply has_not|now apply spells_of].
    + destruct ex; [destruct cn; discriminate H|]. exists t. assert (X : spellb src t name && negb (has k (flat_map (all reads_here) l)) = true) by (destruct cn; exact H).
      apply andb_true_iff in X as (X1 & X2). apply (ds_unused src l n x t name r v i cn k y PN PX); [rewrite is_read_in; now apply has_not|now apply spells_of].
  - destruct c; try discriminate H. exists t. apply andb_true_iff in H as (X1 & X2).
    apply (ds_uncalled src l n x t name ret num ext exp ps k ks PN PX); [rewrite is_called_in; now apply has_not|now apply spells_of].
Qed.

(** C29: every variable and function of the main program that is not used is reported
    with its name, and every variable that could be constant. *)
Theorem unused_names_are_reported : forall w src ts tree s l, accepted w src ts tree s l -> no_call_blocks tree -> w_quiet w = false ->
  forall n x m, in_main n x tree l -> deserves src l n x m -> In m (s_msgs s).
Proof. exact reported_l. Qed.
Print Assumptions unused_names_are_reported.

Example unused_names_are_reported_ex : accepted plain wasteful (tokens_of wasteful) wasteful_tree wasteful_state wasteful_checked /\
  no_call_blocks wasteful_tree /\ w_quiet plain = false /\
  (exists n x t, in_main n x wasteful_tree wasteful_checked /\ deserves wasteful wasteful_checked n x (mksmsg (S_WARN_VAR_NOT_CONST (u "b")) (Some (t_loc t)))) /\
  map sm_code (s_msgs wasteful_state) = [S_WARN_VAR_UNUSED (u "d"); S_WARN_FUNC_UNUSED (u "f"); S_WARN_VAR_UNUSED (u "b"); S_WARN_VAR_NOT_CONST (u "b")].
Proof.
  split; [exact wasteful_accepted|]. split; [exact wasteful_calls|]. split; [reflexivity|]. split; [|vm_compute; reflexivity].
  destruct (find_main (fun n x => deservesb wasteful wasteful_checked n x (S_WARN_VAR_NOT_CONST (u "b"))) wasteful_tree wasteful_checked) as (n & x & I & H); [vm_compute; reflexivity|].
  apply deserves_of in H as (t & H). exists n, x, t. auto.
Qed.

(** C29: nothing else is reported as unused, and with --quiet nothing at all. *)
Theorem only_unused_names_are_reported : forall w src ts tree s l, accepted w src ts tree s l -> no_call_blocks tree ->
  forall m, In m (s_msgs s) -> unused_code (sm_code m) ->
  w_quiet w = false /\ exists n x, in_main n x tree l /\ deserves src l n x m.
Proof. exact only_l. Qed.
Print Assumptions only_unused_names_are_reported.

Example only_unused_names_are_reported_ex : accepted plain wasteful (tokens_of wasteful) wasteful_tree wasteful_state wasteful_checked /\
  no_call_blocks wasteful_tree /\ (exists m, In m (s_msgs wasteful_state) /\ sm_code m = S_WARN_FUNC_UNUSED (u "f")) /\
  s_msgs (state_of plain thrifty) = [] /\ compiles plain thrifty = true.
Proof.
  split; [exact wasteful_accepted|]. split; [exact wasteful_calls|]. split; [|vm_compute; auto].
  assert (E : existsb (fun m => match sm_code m with S_WARN_FUNC_UNUSED n => if list_eq_dec N.eq_dec n (u "f") then true else false | _ => false end) (s_msgs wasteful_state) = true) by (vm_compute; reflexivity).
  apply existsb_exists in E as (m & I & E). exists m. split; [exact I|]. destruct (sm_code m); try discriminate E. destruct (list_eq_dec N.eq_dec name (u "f")) as [-> |]; [reflexivity|discriminate E].
Qed.

(** C29 with warnings as errors: a name of the module level that is not used is accepted
    only if a block behind it has such a name, too. *)
Theorem unused_names_are_errors : forall w src ts tree s l, accepted w src ts tree s l -> no_call_blocks tree -> w_quiet w = false -> w_werror w = true ->
  forall a n b a' x b', tree = a ++ n :: b -> l = a' ++ x :: b' -> List.length a = List.length a' -> forall m, deserves src l n x m ->
  exists q y, In (q, y) (combine b b') /\ n_type q <> N_FUNCTION_PROTO /\
  exists n2 x2 m2, in_main n2 x2 (n_child q) (tn_child y) /\ deserves src l n2 x2 m2.
Proof. exact werror_l. Qed.
Print Assumptions unused_names_are_errors.

Example unused_names_are_errors_ex : compiles strict thrifty = true /\ compiles strict (line "x := 1" ++ line "g() Bool { return true }" ++ line "if g() { noop }") = false /\
  compiles strict (line "x := 1") = false /\ compiles strict (line "mut x := 1" ++ line "if x is 1 { noop }") = false /\ compiles strict (line "f() { noop }") = false /\
  exists n b x b' c t, accepted strict lenient (tokens_of lenient) (tree_of strict lenient) (state_of strict lenient) (checked_of strict lenient) /\
    no_call_blocks (tree_of strict lenient) /\ tree_of strict lenient = [] ++ n :: b /\ checked_of strict lenient = [] ++ x :: b' /\
    deserves lenient (checked_of strict lenient) n x (mksmsg c (Some (t_loc t))).
Proof.
  split; [vm_compute; reflexivity|]. split; [vm_compute; reflexivity|]. split; [vm_compute; reflexivity|]. split; [vm_compute; reflexivity|].
  split; [vm_compute; reflexivity|].
  assert (A : compiles strict lenient = true) by (vm_compute; reflexivity). apply compiles_accepted in A.
  assert (NC : no_call_blocksb (tree_of strict lenient) = true) by (vm_compute; reflexivity). apply no_call_blocks_of in NC.
  assert (H : match tree_of strict lenient, checked_of strict lenient with n :: _, x :: _ => deservesb lenient (checked_of strict lenient) n x (S_WARN_VAR_UNUSED (u "x")) | _, _ => false end = true)
    by (vm_compute; reflexivity).
  revert A NC H. generalize (tree_of strict lenient) as t, (state_of strict lenient) as s, (checked_of strict lenient) as l. intros t s l A NC H.
  destruct t as [|n b]; [discriminate H|]. destruct l as [|x b']; [discriminate H|]. apply deserves_of in H as (t & H). exists n, b, x, b', (S_WARN_VAR_UNUSED (u "x")), t. auto.
Qed.

(** C29 is false as it stands: a block with unused names makes the compiler forget the
    errors before it. *)
Theorem unused_names_are_errors_refuted : exists src tree s l n x t name,
  accepted strict src (tokens_of src) tree s l /\ no_call_blocks tree /\ hd_error tree = Some n /\ hd_error l = Some x /\
  deserves src l n x (mksmsg (S_WARN_VAR_UNUSED name) (Some (t_loc t))).
Proof.
  exists lenient, (tree_of strict lenient), (state_of strict lenient), (checked_of strict lenient).
  destruct unused_names_are_errors_ex as (_ & _ & _ & _ & _ & n & b & x & b' & c & t & A & NC & T & C & D).
  assert (H : match tree_of strict lenient, checked_of strict lenient with n :: _, x :: _ => deservesb lenient (checked_of strict lenient) n x (S_WARN_VAR_UNUSED (u "x")) | _, _ => false end = true)
    by (vm_compute; reflexivity). rewrite T, C in H. cbn [app] in H. apply deserves_of in H as (t' & H). exists n, x, t', (u "x").
  split; [exact A|]. split; [exact NC|]. split; [rewrite T; reflexivity|]. split; [rewrite C; reflexivity|]. rewrite C. exact H.
Qed.
Print Assumptions unused_names_are_errors_refuted.

Example unused_names_are_errors_refuted_ex : compiles strict lenient = true /\ compiles strict (line "x := 1" ++ line "g() Bool { return true }" ++ line "if g() {" ++ line "  noop" ++ line "}") = false /\
  compiles strict (line "g() Bool { return true }" ++ line "if g() {" ++ line "  y := 2" ++ line "}") = true.
Proof. vm_compute. auto. Qed.

(** C29: the names declared in functions are never reported. *)
Theorem locals_are_reported_refuted : exists src tree s l n x t name,
  accepted strict src (tokens_of src) tree s l /\ no_call_blocks tree /\ paired n x tree l /\
  deserves src l n x (mksmsg (S_WARN_VAR_UNUSED name) (Some (t_loc t))) /\ s_msgs s = [].
Proof.
  exists thrifty, (tree_of strict thrifty), (state_of strict thrifty), (checked_of strict thrifty).
  destruct (find_pair (fun n x => deservesb thrifty (checked_of strict thrifty) n x (S_WARN_VAR_UNUSED (u "q"))) (tree_of strict thrifty) (checked_of strict thrifty)) as (n & x & P & H);
    [vm_compute; reflexivity|]. apply deserves_of in H as (t & H). exists n, x, t, (u "q").
  split; [apply compiles_accepted; vm_compute; reflexivity|]. split; [apply no_call_blocks_of; vm_compute; reflexivity|]. split; [exact P|]. split; [exact H|].
  vm_compute. reflexivity.
Qed.
Print Assumptions locals_are_reported_refuted.

Example locals_are_reported_refuted_ex : compiles strict (line "q := 1") = false /\ compiles strict (line "f(p: Int) {" ++ line "  q := 1" ++ line "}" ++ line "f(1)") = true.
Proof. vm_compute. auto. Qed.

(** C49: no two declarations of an accepted program have the same number. *)
Theorem declarations_are_distinct : forall w src ts tree s l, accepted w src ts tree s l -> NoDup (flat_map numbers l).
Proof. exact numbers_l. Qed.
Print Assumptions declarations_are_distinct.

Example declarations_are_distinct_ex : accepted plain wasteful (tokens_of wasteful) wasteful_tree wasteful_state wasteful_checked /\
  List.length (flat_map numbers wasteful_checked) = 8%nat.
Proof. split; [exact wasteful_accepted|vm_compute; reflexivity]. Qed.
