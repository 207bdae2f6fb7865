From Coq Require Import List Arith NArith ZArith Bool Ascii String.
From Verif Require Import Base Model_Token Model_Literal Model_Parse Spec_Parse Model_Sem Spec_Sem Spec_Sem2 Spec_Accept
  Proof_SemEx Proof_Accept5 Proof_AcceptEx Prop_Sem.
Import ListNotations.
Open Scope list_scope.
Open Scope N_scope.

(** C53: a program that keeps the rules of the language passes the checks. *)
Theorem legal_programs_are_accepted : forall w src ts m tree, parse_ast_tree ts = Ret m (Some tree) ->
  no_call_blocks tree -> few_arguments tree -> w_werror w = false ->
  legal w src tree -> exists s l, accepted w src ts tree s l.
Proof. exact legal_accepted_l. Qed.
Print Assumptions legal_programs_are_accepted.

Definition parsed (src : text) : list node := match parse_ast_tree (tokens_of src) with Ret _ (Some t) => t | _ => [] end.
Lemma parsed_parse : forall src, match parse_ast_tree (tokens_of src) with Ret _ (Some _) => true | _ => false end = true ->
  exists m, parse_ast_tree (tokens_of src) = Ret m (Some (parsed src)).
Proof. intros src H. unfold parsed. destruct (parse_ast_tree (tokens_of src)) as [m [t|]| |]; try discriminate H. exists m. reflexivity. Qed.

(** The names that the program of Prop_Sem.v declares, in order. *)
Definition sample_names : list (option decl) :=
  [ Some (DVar TInt false) (* limit *); Some (DVar TInt true) (* total *); Some (DType (Some TInt)) (* Number *);
    Some (DFun [TInt; TRef TFloat] TInt) (* add *); Some (DVar TInt false) (* a *); Some (DVar (TRef TFloat) false) (* b *);
    None (* math, open *); Some (DVar TFloat false) (* pi *);
    Some (DSpace [(u "pi", 7%nat); (u "math", 6%nat); (u "add", 3%nat); (u "Number", 2%nat); (u "total", 1%nat); (u "limit", 0%nat)]) (* math *);
    Some (DVar TFloat false) (* r *); Some (DVar (TRef TFloat) false) (* p *); Some (DVar TInt false) (* m *) ].
Example legal_programs_are_accepted_ex : exists m, parse_ast_tree (tokens_of sample) = Ret m (Some (parsed sample)) /\
  no_call_blocks (parsed sample) /\ few_arguments (parsed sample) /\ w_werror plain = false /\ legal plain sample (parsed sample) /\
  (List.length (parsed sample) = 12)%nat /\ exists s l, accepted plain sample (tokens_of sample) (parsed sample) s l.
Proof.
  destruct (parsed_parse sample) as (m & P); [vm_compute; reflexivity|]. exists m.
  assert (NC : no_call_blocks (parsed sample)) by (apply no_call_blocks_of; vm_compute; reflexivity).
  assert (FA : few_arguments (parsed sample)) by (apply few_arguments_of; vm_compute; reflexivity).
  assert (L : legal plain sample (parsed sample)) by (apply (legalb_legal sample_names true plain sample (parsed sample)); vm_compute; reflexivity).
  refine (conj P (conj NC (conj FA (conj eq_refl (conj L (conj _ _)))))); [vm_compute; reflexivity|].
  exact (legal_programs_are_accepted plain sample (tokens_of sample) m (parsed sample) P NC FA eq_refl L).
Qed.

(** The rules tie what external functions return to whether the main program may return. That
    is no rule one would expect, but without it C53 is false: here are two statements that
    keep the rules each on its own, share no names, and are rejected together. *)
Theorem legal_statements_are_accepted_refuted : exists src m f r, parse_ast_tree (tokens_of src) = Ret m (Some [f; r]) /\
  no_call_blocks [f; r] /\ few_arguments [f; r] /\ legal plain src [f] /\ legal plain src [r] /\
  n_type f = N_FUNCTION_PROTO /\ n_type r = N_RETURN /\ forall s l, ~ accepted plain src (tokens_of src) [f; r] s l.
Proof.
  set (src := line "external f() Float" ++ line "return 0").
  assert (P : exists m, parse_ast_tree (tokens_of src) = Ret m (Some (parsed src))) by (apply parsed_parse; vm_compute; reflexivity).
  destruct P as (m & P).
  assert (E : exists f r, parsed src = [f; r] /\ legal plain src [f] /\ legal plain src [r] /\ n_type f = N_FUNCTION_PROTO /\ n_type r = N_RETURN).
  { exists (hd (mknode N_UNKNOWN [] [] PNone []) (parsed src)), (hd (mknode N_UNKNOWN [] [] PNone []) (tl (parsed src))). split; [vm_compute; reflexivity|].
    split; [apply (legalb_legal [Some (DFun [] TFloat)] false); vm_compute; reflexivity|].
    split; [apply (legalb_legal [] true); vm_compute; reflexivity|]. split; vm_compute; reflexivity. }
  destruct E as (f & r & E & LF & LR & TF & TR). exists src, m, f, r. rewrite <- E. split; [exact P|].
  split; [apply no_call_blocks_of; vm_compute; reflexivity|]. split; [apply few_arguments_of; vm_compute; reflexivity|].
  refine (conj LF (conj LR (conj TF (conj TR _)))). intros s l (_ & V).
  assert (X : match validate_ast_tree plain src (parsed src) with Pass _ _ => false | _ => true end = true) by (vm_compute; reflexivity).
  rewrite V in X. discriminate X.
Qed.
Print Assumptions legal_statements_are_accepted_refuted.
