(** For which programs the LLVM back end makes a module. *)
From Coq Require Import List Arith NArith ZArith Bool Lia Ascii String.
From Verif Require Import Base Model_Token Model_Literal Model_Parse Spec_Parse Model_Sem Spec_Sem Spec_Sem2 Spec_Run Spec_IR Model_LLVM Spec_LLVM
  Spec_Loops Proof_SemEx Proof_RunEx Prop_Sem Proof_LLVM11 Proof_LLVM12 Proof_LLVM14 Prop_LLVM.
Import ListNotations.
Open Scope list_scope.
Open Scope N_scope.

(** * Deciding the hypotheses for examples *)

Definition has_statementsb (t : list node) : bool := forallb (fun n => match n_type n with N_UNKNOWN => false | _ => true end) (all_nodes t).
Lemma has_statements_of : forall t, has_statementsb t = true -> has_statements t.
Proof.
  intros t E n I Q. unfold has_statementsb in E. rewrite forallb_forall in E. apply in_tree_nodes in I. apply E in I. rewrite Q in I. discriminate I.
Qed.
Definition voidb (t : ty) : bool := match t with TVoid => true | _ => false end.
Definition no_voidb (ys : list symbol) : bool :=
  forallb (fun y => match y_kind y with KVar v => negb (voidb (v_type v)) | KFunc f => negb (existsb voidb (f_params f)) | _ => true end) ys.
Lemma no_void_of : forall ys, no_voidb ys = true -> no_void ys.
Proof.
  intros ys E y I. unfold no_voidb in E. rewrite forallb_forall in E. apply E in I. destruct (y_kind y) as [v|f| |]; auto.
  - intro Q. rewrite Q in I. discriminate I.
  - intro Q. apply negb_true_iff in I. assert (X : existsb voidb (f_params f) = true) by (apply existsb_exists; exists TVoid; auto). congruence.
Qed.
Definition comparableb (l : list tnode) : bool :=
  forallb (fun n => match checked_expr n with
    | Some e => forallb (fun p => match p with XBin (BIs | BIsnt) _ b _ _ => match x_ty b with TVoid | TRef _ => false | _ => true end | _ => true end) (xparts e)
    | None => true end) (flat_map tnodes l).
Lemma comparable_of : forall l, comparableb l = true -> comparable l.
Proof.
  intros l E n o a b t c C (e & CE & P) Q. unfold comparableb in E. rewrite forallb_forall in E. apply in_checked_tnodes in C. apply E in C. rewrite CE in C.
  rewrite forallb_forall in C. apply xpart_xparts in P. apply C in P. destruct Q as [-> | ->]; destruct (x_ty b); try discriminate P; split; discriminate.
Qed.
Definition loops_apartb (l : list tnode) : bool :=
  forallb (fun n => match tn_type n with
    | N_WHILE => forallb (fun m => match tn_type m with N_WHILE => false | _ => true end) (flat_map tnodes (tn_child n))
    | _ => true end) (flat_map tnodes l).
Lemma loops_apart_of : forall l, loops_apartb l = true -> loops_apart l.
Proof.
  intros l E n m I T J Q. unfold loops_apartb in E. rewrite forallb_forall in E. apply in_checked_tnodes in I. apply E in I. rewrite T in I.
  rewrite forallb_forall in I. apply in_checked_tnodes in J. apply I in J. rewrite Q in J. discriminate J.
Qed.
Lemma follow_of : forall ys l, match run false (flat_map (marks ys) l) with Some _ => true | None => false end = true -> jumps_follow_starts ys l.
Proof. intros ys l E. apply follow_run. destruct (run false _); [discriminate|discriminate E]. Qed.

(** * Theorems *)

(** C32: there is code for an accepted program exactly if each `break` and `continue` stands
    behind the start of a loop, with neither the start nor the end of another loop between
    them (in the order of the text). *)
Theorem code_made : forall H fold w src ts tree s l debug, accepted w src ts tree s l ->
  no_call_blocks tree -> few_arguments tree -> has_statements tree -> no_void (s_syms s) -> comparable l ->
  (exists M, gen_module H fold (s_syms s) debug l = Ok M) <-> jumps_follow_starts (s_syms s) l.
Proof. exact module_made_l. Qed.
Print Assumptions code_made.

(** A jump in front of an inner loop and a jump in an inner loop. *)
Definition nested : text :=
  line "pairs(limit: Int) Int {" ++
  line "  mut i := 0" ++
  line "  mut n := 0" ++
  line "  while true {" ++
  line "    i = i + 1" ++
  line "    if i > limit {" ++
  line "      break" ++
  line "    }" ++
  line "    mut j := 0" ++
  line "    while true {" ++
  line "      j = j + 1" ++
  line "      if j > i {" ++
  line "        break" ++
  line "      }" ++
  line "      elif (j mod 2) is 0 {" ++
  line "        continue" ++
  line "      }" ++
  line "      n = n + 1" ++
  line "    }" ++
  line "  }" ++
  line "  return n" ++
  line "}" ++
  line "return pairs(3)".
Example code_made_ex : jumps_follow_starts (s_syms (state_of plain nested)) (checked_of plain nested) /\
  exists M, gen_module toy unfolded (s_syms (state_of plain nested)) false (checked_of plain nested) = Ok M.
Proof.
  assert (J : jumps_follow_starts (s_syms (state_of plain nested)) (checked_of plain nested)) by (apply follow_of; vm_compute; reflexivity).
  split; [exact J|]. refine (proj2 (code_made toy unfolded plain nested (tokens_of nested) (tree_of plain nested) (state_of plain nested) (checked_of plain nested) false _ _ _ _ _ _) J);
    [apply compiles_accepted|apply no_call_blocks_of|apply few_arguments_of
    |apply has_statements_of|apply no_void_of|apply comparable_of]; vm_compute; reflexivity.
Qed.

(** Programs without a loop in a loop always have code. *)
Theorem code_made_flat : forall H fold w src ts tree s l debug, accepted w src ts tree s l ->
  no_call_blocks tree -> few_arguments tree -> has_statements tree -> no_void (s_syms s) -> comparable l -> loops_apart l ->
  exists M, gen_module H fold (s_syms s) debug l = Ok M.
Proof.
  intros H fold w src ts tree s l debug A NC FA HS NV C LA. apply (code_made H fold w src ts tree s l debug A NC FA HS NV C).
  exact (apart_follow _ _ _ _ _ _ A NC FA LA).
Qed.
Print Assumptions code_made_flat.

Example code_made_flat_ex : exists M, gen_module toy unfolded (s_syms (state_of plain program)) true (checked_of plain program) = Ok M.
Proof.
  apply (code_made_flat toy unfolded plain program (tokens_of program) (tree_of plain program) (state_of plain program) (checked_of plain program) true); [apply compiles_accepted|apply no_call_blocks_of|apply few_arguments_of
    |apply has_statements_of|apply no_void_of|apply comparable_of|apply loops_apart_of]; vm_compute; reflexivity.
Qed.

(** Accepted programs that jump like this are compiled, and their code does what they do. *)
Theorem code_made_runs : forall H fold debug w src ts tree s l o code o', folds_well H fold ->
  accepted w src ts tree s l -> no_call_blocks tree -> few_arguments tree -> has_statements tree -> no_void (s_syms s) -> comparable l ->
  no_references l -> forallb (steady (s_syms s)) l = true -> jumps_follow_starts (s_syms s) l ->
  exits H (s_syms s) (exact1 H) (exact2 H) l o code o' ->
  exists M, gen_module H fold (s_syms s) debug l = Ok M /\ module_exits H M o code o' /\
    forall code2 o2, module_exits H M o code2 o2 -> code2 = code /\ o2 = o'.
Proof.
  intros H fold debug w src ts tree s l o code o' FW A NC FA HS NV C NR ST J E.
  destruct (proj2 (code_made H fold w src ts tree s l debug A NC FA HS NV C) J) as (M & G). exists M. split; [exact G|].
  exact (code_runs H fold debug w src ts tree s l M o code o' FW A NC FA NR ST G E).
Qed.
Print Assumptions code_made_runs.

Example code_made_runs_ex : exits toy (s_syms (state_of plain nested)) (exact1 toy) (exact2 toy) (checked_of plain nested) [] 4%Z [] /\
  forall debug, exists M, gen_module toy unfolded (s_syms (state_of plain nested)) debug (checked_of plain nested) = Ok M /\ module_exits toy M [] 4%Z [].
Proof.
  assert (E : exits toy (s_syms (state_of plain nested)) (exact1 toy) (exact2 toy) (checked_of plain nested) [] 4%Z [])
    by (apply (result_exits 200); vm_compute; reflexivity).
  split; [exact E|]. intro debug.
  destruct (code_made_runs toy unfolded debug plain nested (tokens_of nested) (tree_of plain nested) (state_of plain nested) (checked_of plain nested) [] 4%Z [] unfolded_well)
    as (M & G & R & _); [apply compiles_accepted|apply no_call_blocks_of|apply few_arguments_of
    |apply has_statements_of|apply no_void_of|apply comparable_of|apply no_references_of| |apply follow_of| |]; [vm_compute; reflexivity..|exact E|].
  exists M. auto.
Qed.

(** With a jump behind an inner loop, the compiler hands a NULL pointer to LLVM. *)
Definition behind : text :=
  line "mut i := 0" ++
  line "while true {" ++
  line "  while i < 3 {" ++
  line "    i = i + 1" ++
  line "  }" ++
  line "  break" ++
  line "}" ++
  line "return i".
Theorem code_made_refuted :
  accepted plain behind (tokens_of behind) (tree_of plain behind) (state_of plain behind) (checked_of plain behind) /\
  no_call_blocks (tree_of plain behind) /\ few_arguments (tree_of plain behind) /\ has_statements (tree_of plain behind) /\
  no_void (s_syms (state_of plain behind)) /\ comparable (checked_of plain behind) /\
  gen_module toy unfolded (s_syms (state_of plain behind)) false (checked_of plain behind) = UB.
Proof.
  split; [apply compiles_accepted|split; [apply no_call_blocks_of|split; [apply few_arguments_of|split; [apply has_statements_of|split; [apply no_void_of|split; [apply comparable_of|]]]]]];
  vm_compute; reflexivity.
Qed.
Print Assumptions code_made_refuted.
