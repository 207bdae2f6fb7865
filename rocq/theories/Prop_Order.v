(** Declarations stand before their uses. *)
From Coq Require Import List Arith NArith ZArith Bool Ascii String.
From Verif Require Import Base Model_Token Model_Literal Model_Parse Spec_Parse Model_Sem Spec_Sem Spec_Sem2 Spec_Order
  Proof_SemEx Prop_Sem Proof_Order2 Prop_LLVM.
Import ListNotations.
Open Scope list_scope.
Open Scope N_scope.

(** C22: every variable that is read or assigned to and every function that is called, also
    under a name with dots, is declared by a node that stands earlier in the text. *)
Theorem declared_first : forall w src ts tree s l, accepted w src ts tree s l -> no_call_blocks tree -> few_arguments tree ->
  forall a x b k, flat_map listing l = a ++ x :: b -> mentions x k -> exists y, In y a /\ In k (numbers_here y).
Proof. exact declared_first_l. Qed.
Print Assumptions declared_first.

(** The definition of `c` in the program of Prop_LLVM.v reads `a.b`. *)
Lemma find_mention : forall src nm l,
  existsb (fun q => match checked_expr (snd (fst q)) with
    | Some e => existsb (fun p => match p with XVar t _ _ _ => spellb src t nm | _ => false end) (xparts e) | None => false end)
    (cuts [] (flat_map listing l)) = true ->
  exists a x b t k ty c, flat_map listing l = a ++ x :: b /\ uses x (XVar t k ty c) /\ spells src t nm.
Proof.
  intros src nm l E. apply existsb_exists in E as (((a & x) & b) & I & E). cbn [fst snd] in E. destruct (checked_expr x) as [e|] eqn:CE; [|discriminate E].
  apply existsb_exists in E as (y & IY & E). destruct y as [t k ty c| | | |]; try discriminate E. exists a, x, b, t, k, ty, c.
  split; [exact (cuts_ok _ _ [] _ _ _ I)|]. split; [exists e; split; [exact CE|now apply xparts_xpart]|now apply spells_of].
Qed.
Example declared_first_ex :
  accepted plain program (tokens_of program) (tree_of plain program) (state_of plain program) (checked_of plain program) /\
  no_call_blocks (tree_of plain program) /\ few_arguments (tree_of plain program) /\
  exists a x b t k ty c, flat_map listing (checked_of plain program) = a ++ x :: b /\ uses x (XVar t k ty c) /\ spells program t (u "a.b") /\
    mentions x k /\ exists y, In y a /\ In k (numbers_here y).
Proof.
  assert (A : accepted plain program (tokens_of program) (tree_of plain program) (state_of plain program) (checked_of plain program))
    by (apply compiles_accepted; vm_compute; reflexivity).
  assert (NC : no_call_blocks (tree_of plain program)) by (apply no_call_blocks_of; vm_compute; reflexivity).
  assert (FA : few_arguments (tree_of plain program)) by (apply few_arguments_of; vm_compute; reflexivity).
  refine (conj A (conj NC (conj FA _))).
  destruct (find_mention program (u "a.b") (checked_of plain program)) as (a & x & b & t & k & ty & c & E & U & Q); [vm_compute; reflexivity|].
  exists a, x, b, t, k, ty, c. assert (M : mentions x k) by (left; eauto). refine (conj E (conj U (conj Q (conj M _)))).
  exact (declared_first _ _ _ _ _ _ A NC FA a x b k E M).
Qed.
