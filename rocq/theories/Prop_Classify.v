(** C04 (classifier), C05, C06: the classes of words. *)
From Coq Require Import List Arith NArith Bool Lia Ascii String.
From Verif Require Import Base Model_Token Model_Classify Spec_Token Spec_Classify
  Proof_Token Proof_Classify Proof_Classify2.
Import ListNotations.
Open Scope list_scope.
Open Scope N_scope.

(** C04: whatever the tokenizer gives for a text is classified without following a null
    pointer or reading behind the text, unless it is the single empty token. *)
Theorem classifier_ends : forall werror src w ts, source src -> fits src ->
  tokenize werror src = Tokens w ts -> ts <> [empty_token] ->
  exists ts', classify_tokens (behind_bom src) ts = Ok ts' /\ Forall2 (classified (behind_bom src)) ts ts'.
Proof. exact classifier_total_l. Qed.
Print Assumptions classifier_ends.

Example classifier_ends_ex : exists ts ts',
  tokenize false (u "x: Int = f(-1_0, y.z)") = Tokens false ts /\ ts <> [empty_token] /\
  classify_tokens (u "x: Int = f(-1_0, y.z)") ts = Ok ts' /\
  map t_type ts' = [T_NEW_IDENTIFIER; T_IDENTIFIER; T_OPER_EQUAL; T_IDENTIFIER; T_PAREN_OPEN; T_INT_CONST; T_COMMA; T_DOT_IDENTIFIER; T_PAREN_CLOSE] /\
  map t_len ts' = [1; 3; 1; 1; 1; 4; 1; 3; 1].
Proof. eexists _, _. split; [vm_compute; reflexivity|]. split; [discriminate|]. split; [vm_compute; reflexivity|]. split; reflexivity. Qed.

(** C04 is false for a text of blanks without newline: a null pointer is followed. *)
Theorem classifier_ends_refuted : exists src ts, source src /\ fits src /\
  tokenize false src = Tokens false ts /\ classify_tokens src ts = UB.
Proof.
  exists (u " "), [empty_token]. split; [intro H; vm_compute in H; destruct H as [H|H]; [discriminate|destruct H]|].
  repeat split; reflexivity.
Qed.
Print Assumptions classifier_ends_refuted.

(** The same happens for the empty text. *)
Example classifier_ends_refuted_ex : exists ts, tokenize false [] = Tokens false ts /\ classify_tokens [] ts = UB.
Proof. eexists. split; [vm_compute; reflexivity|reflexivity]. Qed.

(** C05: a token on a word gets the type ty exactly when the word is in the grammar of
    ty; it keeps its place, and its length unless a colon is cut off. *)
Theorem word_gets_its_class : forall src t w, on_word src t w -> w <> [] -> t_type t = T_UNKNOWN ->
  exists t', classify_token src t = Ok t' /\ classified src t t' /\
    (forall ty, ty <> T_UNKNOWN -> (t_type t' = ty <-> is_class w ty)).
Proof. exact classify_word_l. Qed.
Print Assumptions word_gets_its_class.

Example word_gets_its_class_ex :
  let t := mktok (Some 2%nat) 6 T_UNKNOWN (mkloc 1 3) in
  on_word (u "= -1_0.5 x") t (u "-1_0.5") /\ is_class (u "-1_0.5") T_FLOAT_CONST /\
  exists t', classify_token (u "= -1_0.5 x") t = Ok t' /\ t_type t' = T_FLOAT_CONST /\ t_len t' = 6.
Proof.
  cbv zeta. split; [exists (u "= "), (u " x"); repeat split|]. split.
  - apply ic_float, (fl_neg (u "1_0") (u "5")); [|discriminate|].
    + apply dg_under; [unfold digit; cbn; lia|]. apply dg_one. unfold digit; cbn; lia.
    + constructor; [unfold digit; cbn; lia|constructor].
  - eexists. split; [vm_compute; reflexivity|split; reflexivity].
Qed.

(** C05: the classes do not overlap. *)
Theorem classes_disjoint : forall w a b, is_class w a -> is_class w b -> a = b.
Proof. exact class_unique_l. Qed.
Print Assumptions classes_disjoint.

Example classes_disjoint_ex : is_class (u "0b1") T_INT_CONST /\ ~ is_class (u "0b1") T_IDENTIFIER.
Proof.
  assert (H : is_class (u "0b1") T_INT_CONST).
  { apply ic_int; [apply (int_bin (u "1")), dg_one; now right|]. intros (r & E). discriminate. }
  split; [exact H|]. intro X. now pose proof (class_unique_l _ _ _ H X).
Qed.

(** C05 is false for integers with an underscore behind a leading zero: the grammar has
    them, the classifier does not. *)
Theorem integer_grammar_complete_refuted : exists w t, int_word w /\ on_word w t w /\
  t_type t = T_UNKNOWN /\ classify_token w t = Ok t.
Proof.
  exists (u "0_1"), (mktok (Some 0%nat) 3 T_UNKNOWN (mkloc 1 1)). split.
  - apply int_dec, (dg_under _ (chr "0") (u "1")); [unfold digit; cbn; lia|]. apply dg_one. unfold digit; cbn; lia.
  - split; [exists [], []; repeat split|]. split; reflexivity.
Qed.
Print Assumptions integer_grammar_complete_refuted.

(** The same digits without the leading zero are an integer. *)
Example integer_grammar_complete_refuted_ex : forall lc,
  classify_token (u "1_1") (mktok (Some 0%nat) 3 T_UNKNOWN lc) = Ok (mktok (Some 0%nat) 3 T_INT_CONST lc).
Proof. reflexivity. Qed.

(** C05 is false for strings: a word of two strings with something between them is one
    string token although it is not one quoted text. *)
Theorem string_token_is_one_literal_refuted : exists src ts ts' t, source src /\ fits src /\
  tokenize false src = Tokens false ts /\ classify_tokens src ts = Ok ts' /\ ts' = [t] /\
  t_type t = T_STR_CONST /\ on_word src t src /\
  forall body, quoted 34 body -> src <> 34 :: body ++ [34].
Proof.
  exists ([34] ++ u "a" ++ [34] ++ u "x" ++ [34] ++ u "b" ++ [34]). eexists _, _, (mktok (Some 0%nat) 7 T_STR_CONST (mkloc 1 1)).
  split; [intro H; vm_compute in H; repeat (destruct H as [H|H]; [discriminate|]); destruct H|].
  split; [reflexivity|]. split; [vm_compute; reflexivity|]. split; [vm_compute; reflexivity|]. split; [reflexivity|].
  split; [reflexivity|]. split; [exists [], []; repeat split|].
  intros body Q E. apply (f_equal (@tl N)) in E. cbn [tl app] in E.
  destruct Q as [|c s N1 N2 Q|c s H Q|c s N1 N2 Q]; cbn [app] in E; try discriminate.
  apply (f_equal (@tl N)) in E. cbn [tl] in E.
  destruct Q as [|c' s' N3 N4 Q|c' s' H Q|c' s' N3 N4 Q]; cbn [app] in E; try discriminate.
  pose proof (f_equal (hd 0) E) as E0. apply N3. symmetry. exact E0.
Qed.
Print Assumptions string_token_is_one_literal_refuted.

(** A plain string is of that form. *)
Example string_token_is_one_literal_refuted_ex : is_class ([34] ++ u "ab" ++ [34]) T_STR_CONST /\ quoted 34 (u "ab").
Proof. split; [apply ic_str; exact (str_any (u "ab"))|]. repeat (apply q_char; [discriminate|discriminate|]). constructor. Qed.

(** C06: the text a token with the type of a name covers is never a reserved word, and
    the text of a newly declared name is never the name of a built-in type. *)
Theorem names_are_not_reserved : forall src t t' w n, on_word src t w -> w <> [] -> t_type t = T_UNKNOWN ->
  classify_token src t = Ok t' -> name_type (t_type t') -> on_word src t' n ->
  ~ In n reserved /\ (t_type t' = T_NEW_IDENTIFIER -> ~ In n type_names).
Proof. exact names_not_reserved_l. Qed.
Print Assumptions names_are_not_reserved.

Example names_are_not_reserved_ex :
  let src := u "iff: if: Int: If" in
  let tok b l ty := mktok (Some b) l ty (mkloc 1 1) in
  classify_tokens src [tok 0%nat 4 T_UNKNOWN; tok 5%nat 3 T_UNKNOWN; tok 9%nat 4 T_UNKNOWN; tok 14%nat 2 T_UNKNOWN] =
  Ok [tok 0%nat 3 T_NEW_IDENTIFIER; tok 5%nat 3 T_UNKNOWN; tok 9%nat 4 T_UNKNOWN; tok 14%nat 2 T_IDENTIFIER] /\
  on_word src (tok 0%nat 3 T_NEW_IDENTIFIER) (u "iff").
Proof. cbv zeta. split; [vm_compute; reflexivity|]. exists [], (u ": if: Int: If"). repeat split. Qed.
