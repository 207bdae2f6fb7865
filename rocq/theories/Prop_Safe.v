(** Accepted programs do not go wrong. *)
From Coq Require Import List Arith NArith ZArith Bool Lia Ascii String.
From Verif Require Import Base Model_Token Model_Literal Model_Parse Spec_Parse Model_Sem Spec_Sem Spec_Sem2 Spec_Run Spec_IR Spec_LLVM Spec_Loops Spec_Safe
  Proof_SemEx Proof_RunEx Proof_Sem6 Prop_Sem Prop_Sem2 Prop_LLVM Prop_LLVM2 Prop_Backends Proof_Safe Proof_Safe7 Proof_Safe8.
Import ListNotations.
Open Scope list_scope.
Open Scope N_scope.

(** * Deciding the hypotheses for examples *)

Fixpoint nmains (n : node) (x : tnode) {struct n} : list (node * tnode) :=
  match n with mknode t _ _ _ c =>
    (n, x) :: match t with N_FUNCTION_PROTO => [] | _ => (fix go l xs := match l, xs with
      | m :: l, y :: xs => nmains m y ++ go l xs
      | _, _ => [] end) c (tn_child x) end
  end.
Fixpoint mains (l : list node) (xs : list tnode) : list (node * tnode) :=
  match l, xs with m :: l, y :: xs => nmains m y ++ mains l xs | _, _ => [] end.
Lemma nmains_eq : forall n x, nmains n x = (n, x) :: match n_type n with N_FUNCTION_PROTO => [] | _ => mains (n_child n) (tn_child x) end.
Proof. intros [ty tok te p c] x. reflexivity. Qed.
Lemma in_main_mains : forall n x l xs, in_main n x l xs -> In (n, x) (mains l xs).
Proof.
  intros n x l xs H. induction H as [l xs|m y l xs H IH|m y l xs F H IH]; cbn [mains]; apply in_app_iff.
  - left. rewrite nmains_eq. now left.
  - now right.
  - left. rewrite nmains_eq. right. destruct (n_type m); try exact IH. now destruct F.
Qed.
Definition intb (t : ty) : bool := match t with TInt => true | _ => false end.
Definition ints_returnedb (tree : list node) (l : list tnode) : bool :=
  forallb (fun q => match n_type (fst q) with N_RETURN => match tn_pay (snd q) with XExpr y => intb (x_ty y) | _ => false end | _ => true end) (mains tree l).
Lemma ints_returned_of : forall tree l, ints_returnedb tree l = true -> ints_returned tree l.
Proof.
  intros tree l E n x I T. unfold ints_returnedb in E. rewrite forallb_forall in E. apply in_main_mains in I. apply E in I. cbn [fst snd] in I. rewrite T in I.
  destruct (tn_pay x) as [| |k1 y1|k1 y1|g ps|y1|k1]; try discriminate I. exists y1. split; [reflexivity|]. destruct (x_ty y1); try discriminate I. reflexivity.
Qed.
Definition nothing_returnedb (ys : list symbol) (l : list tnode) : bool :=
  forallb (fun n => match tn_pay n with
    | XProto k _ => match nth_error ys k with
        | Some y => match y_kind y with
            | KFunc f => negb (voidb (f_ret f)) || forallb (fun m => match tn_type m, tn_pay m with N_RETURN, XExpr e => voidb (x_ty e) | _, _ => true end) (flat_map tnodes (tn_child n))
            | _ => true end
        | None => true end
    | _ => true end) (flat_map tnodes l).
Lemma nothing_returned_of : forall ys l, nothing_returnedb ys l = true -> nothing_returned ys l.
Proof.
  intros ys l E n k ks y f m e C P NE K R D T Q. unfold nothing_returnedb in E. rewrite forallb_forall in E. apply in_checked_tnodes in C. apply E in C.
  rewrite P, NE, K, R in C. cbn [voidb negb orb] in C. rewrite forallb_forall in C. apply in_checked_tnodes in D. apply C in D. rewrite T, Q in D.
  destruct (x_ty e); try discriminate D. reflexivity.
Qed.

(** * An example *)

(** Globals, recursion, loops with jumps, namespaces and functions without a result. *)
Definition busy : text :=
  line "external puts(x: Str)" ++
  line "mut total := 0" ++
  line "namespace util {" ++
  line "  limit := 4" ++
  line "}" ++
  line "fact(n: Int) Int {" ++
  line "  if n < 2 {" ++
  line "    return 1" ++
  line "  }" ++
  line "  return n * fact(n - 1)" ++
  line "}" ++
  line "greet(name: Str) {" ++
  line "  puts(name)" ++
  line "  if total > 100 {" ++
  line "    return" ++
  line "  }" ++
  line "  puts("" again"")" ++
  line "}" ++
  line "mut i := 0" ++
  line "while true {" ++
  line "  i = i + 1" ++
  line "  if i > util.limit {" ++
  line "    break" ++
  line "  }" ++
  line "  elif i is 2 {" ++
  line "    continue" ++
  line "  }" ++
  line "  total = total + fact(i)" ++
  line "}" ++
  line "greet(""done"")" ++
  line "return total".
Notation run_of f src := (run_program toy (s_syms (state_of plain src)) f%nat (checked_of plain src) []).
Lemma busy_runs : run_of 60 busy = Done (31%Z, [[SvStr (u "done")]; [SvStr (u " again")]]).
Proof. vm_compute. reflexivity. Qed.

(** * Theorems *)

(** The runs of Spec_Safe.v are those of Spec_Run.v. *)
Theorem runs_are_the_programs : forall H ys l o code o', exits H ys (every1 H) (every2 H) l o code o' <-> exists f, run_program H ys f l o = Done (code, o').
Proof. exact program_exits. Qed.
Print Assumptions runs_are_the_programs.
Example runs_are_the_programs_ex : exits toy (s_syms (state_of plain busy)) (every1 toy) (every2 toy) (checked_of plain busy) [] 31%Z [[SvStr (u "done")]; [SvStr (u " again")]].
Proof. refine (proj2 (runs_are_the_programs toy (s_syms (state_of plain busy)) (checked_of plain busy) [] 31%Z _) _). exists 60%nat. exact busy_runs. Qed.


(** C59: an accepted program never goes wrong, however long it runs. *)
Theorem accepted_programs_never_go_wrong : forall H w src ts tree s l, accepted w src ts tree s l ->
  no_call_blocks tree -> few_arguments tree -> flat tree -> has_statements tree -> no_references l -> comparable l ->
  ints_returned tree l -> nothing_returned (s_syms s) l ->
  forall f o, run_program H (s_syms s) f l o <> Wrong.
Proof. exact never_wrong_l. Qed.
Print Assumptions accepted_programs_never_go_wrong.
Example accepted_programs_never_go_wrong_ex :
  accepted plain busy (tokens_of busy) (tree_of plain busy) (state_of plain busy) (checked_of plain busy) /\
  (forall f, run_of f busy <> Wrong) /\ run_of 60 busy = Done (31%Z, [[SvStr (u "done")]; [SvStr (u " again")]]).
Proof.
  assert (A : accepted plain busy (tokens_of busy) (tree_of plain busy) (state_of plain busy) (checked_of plain busy)) by (apply compiles_accepted; vm_compute; reflexivity).
  split; [exact A|]. split; [|exact busy_runs]. intro f.
  apply (accepted_programs_never_go_wrong toy plain busy (tokens_of busy) (tree_of plain busy) (state_of plain busy) (checked_of plain busy) A);
    [apply no_call_blocks_of|apply few_arguments_of|apply flat_of|apply has_statements_of|apply no_references_of|apply comparable_of|apply ints_returned_of|apply nothing_returned_of];
    vm_compute; reflexivity.
Qed.

(** Each of the last conditions is needed: all of the others hold, and the run goes wrong. *)
Record stuck (src : text) (f : nat) : Prop := {
  st_accepted : accepted plain src (tokens_of src) (tree_of plain src) (state_of plain src) (checked_of plain src);
  st_calls : no_call_blocks (tree_of plain src);
  st_arguments : few_arguments (tree_of plain src);
  st_references : no_references (checked_of plain src);
  st_wrong : run_of f src = Wrong }.
Ltac stuck := constructor; [apply compiles_accepted|apply no_call_blocks_of|apply few_arguments_of|apply no_references_of|]; vm_compute; reflexivity.

(** Behind the declaration of a function from outside, the program is taken for that function. *)
Definition outside : text :=
  line "external sine(x: Float) Float" ++
  line "if true {" ++
  line "  return 1.5" ++
  line "}" ++
  line "return 2.5".
Theorem ints_returned_refuted : stuck outside 20 /\ flat (tree_of plain outside) /\ has_statements (tree_of plain outside) /\
  comparable (checked_of plain outside) /\ nothing_returned (s_syms (state_of plain outside)) (checked_of plain outside).
Proof.
  split; [stuck|]. split; [apply flat_of|split; [apply has_statements_of|split; [apply comparable_of|apply nothing_returned_of]]]; vm_compute; reflexivity.
Qed.
Print Assumptions ints_returned_refuted.

(** A value is returned from a function without a result. *)
Definition silent : text :=
  line "show(x: Int) {" ++
  line "  if x > 0 {" ++
  line "    return x" ++
  line "  }" ++
  line "}" ++
  line "show(1)" ++
  line "return 0".
Theorem nothing_returned_refuted : stuck silent 20 /\ flat (tree_of plain silent) /\ has_statements (tree_of plain silent) /\
  comparable (checked_of plain silent) /\ ints_returned (tree_of plain silent) (checked_of plain silent).
Proof.
  split; [stuck|]. split; [apply flat_of|split; [apply has_statements_of|split; [apply comparable_of|apply ints_returned_of]]]; vm_compute; reflexivity.
Qed.
Print Assumptions nothing_returned_refuted.

(** A function in a function uses a variable of the outer one. *)
Definition inner : text :=
  line "outer(x: Int) Int {" ++
  line "  inner() Int {" ++
  line "    return x" ++
  line "  }" ++
  line "  return inner()" ++
  line "}" ++
  line "return outer(1)".
Theorem flat_refuted : stuck inner 20 /\ has_statements (tree_of plain inner) /\
  comparable (checked_of plain inner) /\ ints_returned (tree_of plain inner) (checked_of plain inner) /\
  nothing_returned (s_syms (state_of plain inner)) (checked_of plain inner).
Proof.
  split; [stuck|]. split; [apply has_statements_of|split; [apply comparable_of|split; [apply ints_returned_of|apply nothing_returned_of]]]; vm_compute; reflexivity.
Qed.
Print Assumptions flat_refuted.

(** Calls without a result are compared. *)
Definition voids : text :=
  line "show() {" ++
  line "  noop" ++
  line "}" ++
  line "if show() is show() {" ++
  line "  noop" ++
  line "}" ++
  line "return 0".
Theorem comparable_refuted : stuck voids 20 /\ flat (tree_of plain voids) /\ has_statements (tree_of plain voids) /\
  ints_returned (tree_of plain voids) (checked_of plain voids) /\ nothing_returned (s_syms (state_of plain voids)) (checked_of plain voids).
Proof.
  split; [stuck|]. split; [apply flat_of|split; [apply has_statements_of|split; [apply ints_returned_of|apply nothing_returned_of]]]; vm_compute; reflexivity.
Qed.
Print Assumptions comparable_refuted.


(** Without functions from outside, the program itself can only return an Int. *)
Theorem accepted_programs_never_go_wrong_alone : forall H w src ts tree s l, accepted w src ts tree s l ->
  no_call_blocks tree -> few_arguments tree -> flat tree -> has_statements tree -> no_references l -> comparable l ->
  no_externals tree -> nothing_returned (s_syms s) l ->
  forall f o, run_program H (s_syms s) f l o <> Wrong.
Proof.
  intros H w src ts tree s l A NC FA FL HS NR C NX NO. apply (accepted_programs_never_go_wrong H w src ts tree s l A NC FA FL HS NR C); [|exact NO].
  exact (in_main_l w src ts tree s l A NC FL NX).
Qed.
Print Assumptions accepted_programs_never_go_wrong_alone.
Example accepted_programs_never_go_wrong_alone_ex :
  no_externals (tree_of plain nested) /\ (forall f, run_of f nested <> Wrong) /\ run_of 100 nested = Done (4%Z, []).
Proof.
  assert (NX : no_externals (tree_of plain nested)) by (apply no_externals_of; vm_compute; reflexivity).
  split; [exact NX|]. split; [|vm_compute; reflexivity]. intro f.
  apply (accepted_programs_never_go_wrong_alone toy plain nested (tokens_of nested) (tree_of plain nested) (state_of plain nested) (checked_of plain nested));
    [apply compiles_accepted|apply no_call_blocks_of|apply few_arguments_of|apply flat_of|apply has_statements_of|apply no_references_of|apply comparable_of|exact NX|apply nothing_returned_of];
    vm_compute; reflexivity.
Qed.


(** A run has one answer; an exit code and the calls of functions from outside are determined by the program. *)
Theorem answers_agree : forall H ys f g l o, run_program H ys f l o <> Later -> run_program H ys g l o <> Later -> run_program H ys f l o = run_program H ys g l o.
Proof. exact program_one. Qed.
Print Assumptions answers_agree.
Example answers_agree_ex : run_of 10 busy = Later /\ forall g, run_of g busy <> Later -> run_of g busy = Done (31%Z, [[SvStr (u "done")]; [SvStr (u " again")]]).
Proof.
  split; [vm_compute; reflexivity|]. intros g N1. rewrite <- busy_runs. apply (answers_agree toy (s_syms (state_of plain busy)) g 60 (checked_of plain busy) []); [exact N1|].
  intro E. pose proof (eq_trans (eq_sym busy_runs) E) as Q. discriminate Q.
Qed.

Theorem programs_are_deterministic : forall H ys ok1 ok2 l o c1 o1 c2 o2,
  exits H ys ok1 ok2 l o c1 o1 -> exits H ys ok1 ok2 l o c2 o2 -> c1 = c2 /\ o1 = o2.
Proof.
  intros H ys ok1 ok2 l o c1 o1 c2 o2 E1 E2.
  apply (exits_one H ys l o); (eapply exits_weaken; [| |first [exact E1|exact E2]]); intros; exact I.
Qed.
Print Assumptions programs_are_deterministic.
Example programs_are_deterministic_ex : forall code o, exits toy (s_syms (state_of plain busy)) (exact1 toy) (exact2 toy) (checked_of plain busy) [] code o ->
  code = 31%Z /\ o = [[SvStr (u "done")]; [SvStr (u " again")]].
Proof.
  intros code o E. refine (programs_are_deterministic toy (s_syms (state_of plain busy)) (exact1 toy) (exact2 toy) (checked_of plain busy) [] code o 31%Z _ E _).
  apply (result_exits 200). vm_compute. reflexivity.
Qed.


