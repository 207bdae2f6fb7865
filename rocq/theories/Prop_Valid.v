(** Modules of the LLVM back end are valid. *)
From Coq Require Import List Arith NArith ZArith Bool Lia Ascii String.
From Verif Require Import Base Model_Token Model_Literal Model_Parse Spec_Parse Model_Sem Spec_Sem Spec_Sem2 Spec_Run Spec_IR Model_LLVM Spec_LLVM Spec_Loops Spec_Safe Spec_Valid
  Proof_SemEx Proof_RunEx Proof_Sem6 Prop_Sem Prop_Sem2 Prop_LLVM Prop_LLVM2 Prop_Backends Prop_Safe Proof_Valid2.
Import ListNotations.
Open Scope list_scope.
Open Scope N_scope.

(** * Deciding the hypotheses for examples *)

Definition spaces_openb (l : list tnode) : bool :=
  forallb (fun n => match tn_type n with N_NAMESPACE => forallb (fun m => negb (is_jump (tn_type m))) (tn_child n) | _ => true end) (flat_map tnodes l).
Lemma spaces_open_of : forall l, spaces_openb l = true -> spaces_open l.
Proof.
  intros l E n m C T I. unfold spaces_openb in E. rewrite forallb_forall in E. apply in_checked_tnodes in C. apply E in C. rewrite T in C. rewrite forallb_forall in C. apply C in I.
  now destruct (is_jump (tn_type m)).
Qed.
Definition values_returnedb (l : list tnode) : bool :=
  forallb (fun n => match tn_type n, tn_pay n with N_RETURN, XExpr y => negb (voidb (x_ty y)) | _, _ => true end) (flat_map tnodes l).
Lemma values_returned_of : forall l, values_returnedb l = true -> values_returned l.
Proof.
  intros l E n y C T P Q. unfold values_returnedb in E. rewrite forallb_forall in E. apply in_checked_tnodes in C. apply E in C. rewrite T, P, Q in C. discriminate C.
Qed.

(** LLVM may compute sums of constants, and leave out an `and` with true. *)
Definition folding (o : iop) (a b : operand toy) : option (operand toy) :=
  match o, a, b with
  | NswAdd, OVal (SvInt x), OVal (SvInt y) => Some (OVal (SvInt (x + y)))
  | And, _, OVal (SvBool true) => Some a
  | _, _, _ => None
  end.
Lemma folding_typed : folds_typed toy folding.
Proof.
  intros o a b c E. unfold folding in E. destruct o; try discriminate E.
  - destruct a as [[x| | | | |]| | |]; try discriminate E. destruct b as [[y| | | | |]| | |]; try discriminate E. injection E as <-. split; [right; right; eauto|].
    intros rt gt ps t t' A B T. inversion A as [v t0 V| | |]; subst. inversion V; subst. cbn in T. injection T as <-. repeat constructor.
  - assert (Q : c = a) by (destruct a as [[x| | | | |]| | |]; destruct b as [[y| |[|]| | |]| | |]; try discriminate E; now injection E). subst c. split; [now left|].
    intros rt gt ps t t' A B T. destruct t; cbn in T; try discriminate T. injection T as <-. exact A.
Qed.
Lemma unfolded_typed : folds_typed toy unfolded.
Proof. intros o a b c E. discriminate E. Qed.

(** * Theorems *)

(** C62: the module of an accepted program is valid, in debug builds and in others, whatever
    LLVM folds. *)
Theorem modules_are_valid : forall H fold w src ts tree s l debug M, accepted w src ts tree s l ->
  no_call_blocks tree -> few_arguments tree -> flat tree -> has_statements tree -> no_references l -> comparable l ->
  ints_returned tree l -> nothing_returned (s_syms s) l -> spaces_open l -> values_returned l -> folds_typed H fold ->
  gen_module H fold (s_syms s) debug l = Ok M -> valid H (s_syms s) M.
Proof. exact modules_valid. Qed.
Print Assumptions modules_are_valid.
Example modules_are_valid_ex :
  accepted plain busy (tokens_of busy) (tree_of plain busy) (state_of plain busy) (checked_of plain busy) /\
  (forall debug, exists M, gen_module toy folding (s_syms (state_of plain busy)) debug (checked_of plain busy) = Ok M /\ valid toy (s_syms (state_of plain busy)) M) /\
  generated busy = true /\ List.length (m_blocks toy (code_of busy)) = 14%nat /\ List.length (m_funs toy (code_of busy)) = 3%nat /\ List.length (m_init toy (code_of busy)) = 3%nat.
Proof.
  assert (A : accepted plain busy (tokens_of busy) (tree_of plain busy) (state_of plain busy) (checked_of plain busy)) by (apply compiles_accepted; vm_compute; reflexivity).
  split; [exact A|]. split; [|repeat split; vm_compute; reflexivity]. intro debug.
  assert (N0 : match gen_module toy folding (s_syms (state_of plain busy)) debug (checked_of plain busy) with Ok _ => true | UB => false end = true) by (destruct debug; vm_compute; reflexivity).
  destruct (gen_module toy folding (s_syms (state_of plain busy)) debug (checked_of plain busy)) as [M|] eqn:G; [|discriminate N0].
  exists M. split; [reflexivity|].
  refine (modules_are_valid toy folding plain busy (tokens_of busy) (tree_of plain busy) (state_of plain busy) (checked_of plain busy) debug M A _ _ _ _ _ _ _ _ _ _ folding_typed G);
    [apply no_call_blocks_of|apply few_arguments_of|apply flat_of|apply has_statements_of|apply no_references_of|apply comparable_of|apply ints_returned_of|apply nothing_returned_of|apply spaces_open_of|apply values_returned_of];
    vm_compute; reflexivity.
Qed.

(** Each of the last conditions is needed: the others hold, and the module is not valid. *)
Record invalid (src : text) : Prop := {
  iv_accepted : accepted plain src (tokens_of src) (tree_of plain src) (state_of plain src) (checked_of plain src);
  iv_calls : no_call_blocks (tree_of plain src);
  iv_arguments : few_arguments (tree_of plain src);
  iv_statements : has_statements (tree_of plain src);
  iv_references : no_references (checked_of plain src);
  iv_comparable : comparable (checked_of plain src);
  iv_generated : gen_module toy unfolded (s_syms (state_of plain src)) false (checked_of plain src) = Ok (code_of src);
  iv_invalid : ~ valid toy (s_syms (state_of plain src)) (code_of src) }.
Ltac invalid := constructor; [apply compiles_accepted; vm_compute; reflexivity|apply no_call_blocks_of; vm_compute; reflexivity|apply few_arguments_of; vm_compute; reflexivity
  |apply has_statements_of; vm_compute; reflexivity|apply no_references_of; vm_compute; reflexivity|apply comparable_of; vm_compute; reflexivity|apply generated_code; vm_compute; reflexivity|].

(** `return` directly in a namespace: the block goes on behind it. *)
Definition leaving : text :=
  line "namespace a {" ++
  line "  return 1" ++
  line "}" ++
  line "return 2".
Theorem spaces_open_refuted : invalid leaving /\ flat (tree_of plain leaving) /\ ints_returned (tree_of plain leaving) (checked_of plain leaving) /\
  nothing_returned (s_syms (state_of plain leaving)) (checked_of plain leaving) /\ values_returned (checked_of plain leaving).
Proof.
  split; [|split; [apply flat_of|split; [apply ints_returned_of|split; [apply nothing_returned_of|apply values_returned_of]]]; vm_compute; reflexivity]. invalid.
  assert (B : m_blocks toy (code_of leaving) = [[IRet (Some (OVal (SvInt 1))); IRet (Some (OVal (SvInt 2)))]]) by (vm_compute; reflexivity).
  intros (own & rt & gt & V). assert (W : well_ended toy [IRet (Some (OVal (SvInt 1))); IRet (Some (OVal (SvInt 2)))]) by (apply (va_ended _ _ _ _ _ _ V); rewrite B; now left).
  destruct W as (b & i & E & T & W). destruct b as [|x b]; [discriminate E|]. injection E as <- E. specialize (W _ (or_introl eq_refl)). discriminate W.
Qed.
Print Assumptions spaces_open_refuted.

(** The result of a call that has none is returned. *)
Definition novalue : text :=
  line "quiet() {" ++
  line "  noop" ++
  line "}" ++
  line "show(x: Int) {" ++
  line "  if x > 0 {" ++
  line "    return quiet()" ++
  line "  }" ++
  line "}" ++
  line "show(1)" ++
  line "return 0".
Lemma result_void : forall src k, match nth_error (s_syms (state_of plain src)) k with Some y => match y_kind y with KFunc f => f_ret f = TVoid | _ => True end | None => True end ->
  forall ps r, fun_type (s_syms (state_of plain src)) k ps r -> r = LVoid.
Proof. intros src k E ps r (y & f & Y & K & _ & ->). rewrite Y, K in E. now rewrite E. Qed.
Theorem values_returned_refuted : invalid novalue /\ flat (tree_of plain novalue) /\ ints_returned (tree_of plain novalue) (checked_of plain novalue) /\
  nothing_returned (s_syms (state_of plain novalue)) (checked_of plain novalue) /\ spaces_open (checked_of plain novalue).
Proof.
  split; [|split; [apply flat_of|split; [apply ints_returned_of|split; [apply nothing_returned_of|apply spaces_open_of]]]; vm_compute; reflexivity]. invalid.
  assert (B : nth_error (m_blocks toy (code_of novalue)) 4 = Some [ICall 0 (CSym 1) []; IRet (Some (OReg 0))]) by (vm_compute; reflexivity).
  assert (R : match nth_error (s_syms (state_of plain novalue)) 1 with Some y => match y_kind y with KFunc f => f_ret f = TVoid | _ => True end | None => True end) by (vm_compute; reflexivity).
  intros (own & rt & gt & V).
  destruct (va_typed _ _ _ _ _ _ V _ _ _ B (or_introl eq_refl)) as (ps & ret & O1 & T1). destruct (va_typed _ _ _ _ _ _ V _ _ _ B (or_intror (or_introl eq_refl))) as (ps2 & ret2 & O2 & T2).
  assert (K1 : rt 0%nat = Some LVoid). { inversion T1; subst; [match goal with K : helper_type (CSym 1) = _ |- _ => discriminate K end|]. match goal with K : fun_type _ 1 _ ?t |- _ => rewrite (result_void novalue 1 R _ _ K) in * end. assumption. }
  inversion T2; subst. match goal with K : operand_type _ _ _ _ (OReg 0) _ |- _ => inversion K; subst end. congruence.
Qed.
Print Assumptions values_returned_refuted.

(** A function in a function uses a register of the outer one. *)
Definition crossing : text :=
  line "outer(x: Int) Int {" ++
  line "  y := x + 1" ++
  line "  inner() Int {" ++
  line "    return y" ++
  line "  }" ++
  line "  return inner()" ++
  line "}" ++
  line "return outer(1)".
Theorem flat_code_refuted : invalid crossing /\ ints_returned (tree_of plain crossing) (checked_of plain crossing) /\
  nothing_returned (s_syms (state_of plain crossing)) (checked_of plain crossing) /\ spaces_open (checked_of plain crossing) /\ values_returned (checked_of plain crossing).
Proof.
  split; [|split; [apply ints_returned_of|split; [apply nothing_returned_of|split; [apply spaces_open_of|apply values_returned_of]]]; vm_compute; reflexivity]. invalid.
  assert (B : nth_error (m_blocks toy (code_of crossing)) 2 = Some ([] ++ [IRet (Some (OReg 0))])) by (vm_compute; reflexivity).
  assert (F : m_funs toy (code_of crossing) = [(4%nat, Some 2%nat); (1%nat, Some 1%nat)]) by (vm_compute; reflexivity).
  intros (own & rt & gt & V).
  assert (FB : first_block toy (code_of crossing) 2) by (right; exists 4%nat; rewrite F; now left).
  destruct (va_before _ _ _ _ _ _ V 2%nat [] 2%nat [] [] (IRet (Some (OReg 0))) 0%nat FB (pt_start _ _ _) B (or_introl eq_refl)) as [[]|(e & code & [] & _)].
Qed.
Print Assumptions flat_code_refuted.

(** Behind the declaration of a function from outside, the program returns a Float. *)
Theorem ints_code_refuted : invalid Prop_Safe.outside /\ flat (tree_of plain Prop_Safe.outside) /\
  nothing_returned (s_syms (state_of plain Prop_Safe.outside)) (checked_of plain Prop_Safe.outside) /\ spaces_open (checked_of plain Prop_Safe.outside) /\ values_returned (checked_of plain Prop_Safe.outside).
Proof.
  split; [|split; [apply flat_of|split; [apply nothing_returned_of|split; [apply spaces_open_of|apply values_returned_of]]]; vm_compute; reflexivity]. invalid.
  assert (B : m_blocks toy (code_of Prop_Safe.outside) = [[ICondBr (OVal (SvBool true)) 2 1]; [IRet (Some (OVal (SvFloat (0 : h_float toy)%Z)))]; [IRet (Some (OVal (SvFloat (0 : h_float toy)%Z)))]]) by (vm_compute; reflexivity).
  intros (own & rt & gt & V).
  destruct (va_targets _ _ _ _ _ _ V 0%nat [ICondBr (OVal (SvBool true)) 2 1] (ICondBr (OVal (SvBool true)) 2 1) 1%nat) as (_ & O1 & _); [rewrite B; reflexivity|now left|cbn; auto|].
  pose proof (proj1 (va_main _ _ _ _ _ _ V)) as O2.
  assert (M : m_main toy (code_of Prop_Safe.outside) = 0%nat) by (vm_compute; reflexivity). rewrite M in O2.
  destruct (va_typed _ _ _ _ _ _ V 1%nat [IRet (Some (OVal (SvFloat (0 : h_float toy)%Z)))] (IRet (Some (OVal (SvFloat (0 : h_float toy)%Z))))) as (ps & ret & O3 & T); [rewrite B; reflexivity|now left|].
  rewrite O1, O2 in O3. destruct O3 as (-> & ->). inversion T; subst. match goal with K : operand_type _ _ _ _ _ _ |- _ => inversion K; subst end.
  match goal with K : value_type _ _ _ |- _ => inversion K end.
Qed.
Print Assumptions ints_code_refuted.

(** A value is returned from a function without a result. *)
Theorem nothing_code_refuted : invalid silent /\ flat (tree_of plain silent) /\ ints_returned (tree_of plain silent) (checked_of plain silent) /\
  spaces_open (checked_of plain silent) /\ values_returned (checked_of plain silent).
Proof.
  split; [|split; [apply flat_of|split; [apply ints_returned_of|split; [apply spaces_open_of|apply values_returned_of]]]; vm_compute; reflexivity]. invalid.
  assert (B1 : nth_error (m_blocks toy (code_of silent)) 1 = Some [IBin 0 ISgt (OArg 0) (OVal (SvInt 0)); ICondBr (OReg 0) 3 2]) by (vm_compute; reflexivity).
  assert (B3 : nth_error (m_blocks toy (code_of silent)) 3 = Some [IRet (Some (OArg 0))]) by (vm_compute; reflexivity).
  assert (F : m_funs toy (code_of silent) = [(1%nat, Some 1%nat)]) by (vm_compute; reflexivity).
  assert (R : match nth_error (s_syms (state_of plain silent)) 1 with Some y => match y_kind y with KFunc f => f_ret f = TVoid | _ => True end | None => True end) by (vm_compute; reflexivity).
  intros (own & rt & gt & V).
  destruct (va_targets _ _ _ _ _ _ V 1%nat _ (ICondBr (OReg 0) 3 2) 3%nat B1 (or_intror (or_introl eq_refl)) (or_introl eq_refl)) as (_ & O1 & _).
  destruct (va_first _ _ _ _ _ _ V 1%nat 1%nat) as (O2 & _); [rewrite F; exact (or_introl eq_refl)|].
  destruct (va_typed _ _ _ _ _ _ V 3%nat _ _ B3 (or_introl eq_refl)) as (ps & ret & O3 & T). rewrite O1, O2 in O3. pose proof (result_void silent 1 R _ _ O3) as Q. subst ret.
  inversion T; subst. match goal with K : operand_type _ _ _ _ _ _ |- _ => inversion K; subst end. congruence.
Qed.
Print Assumptions nothing_code_refuted.
