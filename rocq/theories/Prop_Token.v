(** C01-C04 (tokenizer): layout, lines, columns, termination and errors. *)
From Coq Require Import List Arith NArith Bool Lia Ascii String.
From Verif Require Import Base Model_Token Spec_Token Proof_Token Proof_Token5.
Import ListNotations.
Open Scope list_scope.
Open Scope N_scope.

(** A program text used below: definition, comment, string with a newline, call. *)
Definition sample : text :=
  u "x := 1 # one" ++ [newline] ++ u "f(x, " ++ [34] ++ u "a" ++ [newline] ++ u "b" ++ [34] ++ u ")" ++ [newline].

(** C04: for every text without NUL that fits 32 bit counters the tokenizer ends with
    tokens or with a rejection, never with undefined behaviour. *)
Theorem tokenizer_ends : forall werror src, source src -> fits src ->
  (exists w ts, tokenize werror src = Tokens w ts) \/ (exists w e, tokenize werror src = Rejected w e).
Proof. exact tokenizer_total_l. Qed.
Print Assumptions tokenizer_ends.

Lemma sample_source : source sample.
Proof. unfold source. intro H. vm_compute in H. repeat (destruct H as [H|H]; [discriminate|]). destruct H. Qed.
Lemma sample_fits : fits sample.
Proof. reflexivity. Qed.
Example tokenizer_ends_ex : exists w ts, tokenize false sample = Tokens w ts /\ List.length ts = 12%nat.
Proof. eexists _, _. split; [vm_compute; reflexivity|reflexivity]. Qed.

(** C04: a text is accepted exactly when it has a lexical structure (and, with warnings
    as errors, no byte order mark). *)
Theorem tokenizer_accepts_exactly : forall werror src, source src -> fits src ->
  ((exists w ts, tokenize werror src = Tokens w ts) <->
   (exists ls, lexed 0 (behind_bom src) ls) /\ ~ (werror = true /\ has_bom src)).
Proof. exact tokens_iff_l. Qed.
Print Assumptions tokenizer_accepts_exactly.

Example tokenizer_accepts_exactly_ex :
  (exists w ts, tokenize true (u "a b") = Tokens w ts) /\
  (forall w ts, tokenize true (bom :: u "a b") <> Tokens w ts) /\
  (forall w ts, tokenize true (u "a #b") <> Tokens w ts).
Proof. split; [eexists _, _; vm_compute; reflexivity|]. split; intros w ts; vm_compute; discriminate. Qed.

(** C04: a rejection is for exactly one reason; the text has been read up to a place
    where nothing lexical can be read, and the error names what is wrong there and where. *)
Theorem tokenizer_rejects_with_reason : forall werror src w e, source src -> fits src ->
  tokenize werror src = Rejected w e ->
  (w = true <-> has_bom src) /\
  ((e = None /\ werror = true /\ has_bom src) \/
   (exists x l, e = Some (x, l) /\
     (exists px s, behind_bom src = px ++ s /\ reached px s /\ stuck s x /\ complains_at (behind_bom src) px s x l) /\
     forall ls, ~ lexed 0 (behind_bom src) ls)).
Proof. exact rejected_l. Qed.
Print Assumptions tokenizer_rejects_with_reason.

Example tokenizer_rejects_with_reason_ex :
  tokenize false (u "a " ++ [34] ++ u "b") = Rejected false (Some (E_NO_CLOSING_QUOTE, mkloc 1 3)) /\
  tokenize false (u "a #{ #{ ") = Rejected false (Some (E_NESTED_BLOCK_COMMENT, mkloc 1 7)) /\
  tokenize false (u "a #{ b") = Rejected false (Some (E_NO_CLOSING_COMMENT, mkloc 1 3)) /\
  tokenize false (u "a #b") = Rejected false (Some (E_INVALID_COMMENT_START, mkloc 1 3)).
Proof. repeat split. Qed.

(** The lexical structure of a text is unique. *)
Theorem lexical_structure_unique : forall p s ls ls', lexed p s ls -> lexed p s ls' -> ls = ls'.
Proof. intros p s ls ls' H. exact (lexed_unique p s ls H ls'). Qed.
Print Assumptions lexical_structure_unique.

Example lexical_structure_unique_ex : lexed 0 (u "a,") [mklex 0 1 KWord; mklex 1 1 (KDelim (chr ","))].
Proof.
  apply (lx_word 0 [97] false (u ",")).
  - apply (wd_one [97] false). constructor.
    + cbn. intros H. repeat (destruct H as [H|H]; [discriminate|]). destruct H.
    + cbn. intros H. repeat (destruct H as [H|H]; [discriminate|]). destruct H.
    + cbn. intros H. repeat (destruct H as [H|H]; [discriminate|]). destruct H.
    + discriminate.
  - right. exists (chr ","), []. split; [reflexivity|]. right. cbn. tauto.
  - apply lx_delim; [cbn; tauto|constructor].
Qed.

(** C01: the tokens stand, in order and one for one, for the lexemes of the text; a text
    without lexemes gives a single empty token. *)
Theorem tokens_stand_for_lexemes : forall werror src w ts, source src -> fits src ->
  tokenize werror src = Tokens w ts ->
  (w = true <-> has_bom src) /\
  exists ls, lexed 0 (behind_bom src) ls /\
    (ls = [] -> ts = [empty_token]) /\
    (ls <> [] -> Forall2 (stands_for (behind_bom src)) ts ls).
Proof. exact tokens_are_l. Qed.
Print Assumptions tokens_stand_for_lexemes.

Example tokens_stand_for_lexemes_ex :
  tokenize false (u "f(x)") = Tokens false
    [mktok (Some 0%nat) 1 T_UNKNOWN (mkloc 1 1); mktok (Some 1%nat) 1 T_PAREN_OPEN (mkloc 1 2);
     mktok (Some 2%nat) 1 T_UNKNOWN (mkloc 1 3); mktok (Some 3%nat) 1 T_PAREN_CLOSE (mkloc 1 4)].
Proof. reflexivity. Qed.

(** C01: nothing but blank space is left out, nothing is covered twice. *)
Theorem tokens_cover_source : forall werror src w ts, source src -> fits src ->
  tokenize werror src = Tokens w ts -> ts <> [empty_token] ->
  Forall (fun t => t_begin t <> None) ts /\ covers 0 (behind_bom src) (map span ts).
Proof. exact tokens_cover_l. Qed.
Print Assumptions tokens_cover_source.

Example tokens_cover_source_ex : exists ts, tokenize false sample = Tokens false ts /\
  map span ts = [(0, 1); (2, 2); (5, 1); (7, 5); (12, 1); (13, 1); (14, 1); (15, 1); (16, 1); (18, 5); (23, 1); (24, 1)]%nat.
Proof. eexists. split; [vm_compute; reflexivity|reflexivity]. Qed.

(** C01: only a text of blanks without a newline gives the empty token. *)
Theorem empty_token_only_for_blank_text : forall werror src w, source src -> fits src ->
  tokenize werror src = Tokens w [empty_token] ->
  Forall blank (behind_bom src) /\ ~ In newline (behind_bom src).
Proof. exact empty_token_blank_l. Qed.
Print Assumptions empty_token_only_for_blank_text.

Example empty_token_only_for_blank_text_ex : tokenize false (u "  ") = Tokens false [empty_token].
Proof. reflexivity. Qed.

(** C02: the line of a token is one plus the number of newlines in front of it. *)
Theorem token_lines_right : forall werror src w ts t b, source src -> fits src ->
  tokenize werror src = Tokens w ts -> In t ts -> t_begin t = Some b ->
  l_line (t_loc t) = N.of_nat (1 + newlines (firstn b (behind_bom src))).
Proof. exact token_line_l. Qed.
Print Assumptions token_lines_right.

Example token_lines_right_ex : exists ts, tokenize false sample = Tokens false ts /\
  map (fun t => l_line (t_loc t)) ts = [1;1;1;1;1;2;2;2;2;2;3;3].
Proof. eexists. split; [vm_compute; reflexivity|reflexivity]. Qed.

(** C03: the column of a token is one plus the number of characters in front of it on
    its line, if no quote and no comment stand there. *)
Theorem token_columns_right : forall werror src w ts t b, source src -> fits src ->
  tokenize werror src = Tokens w ts -> In t ts -> t_begin t = Some b ->
  simple_line (behind_bom src) b ->
  l_column (t_loc t) = N.of_nat (1 + List.length (last_line (firstn b (behind_bom src)))).
Proof. exact token_column_l. Qed.
Print Assumptions token_columns_right.

Example token_columns_right_ex : exists ts, tokenize false sample = Tokens false ts /\
  map (fun t => l_column (t_loc t)) (firstn 4 ts) = [1;3;6;8].
Proof. eexists. split; [vm_compute; reflexivity|reflexivity]. Qed.

(** C03 is false without that condition: behind a string the column is too small. *)
Theorem token_columns_right_refuted :
  exists src ts t b, source src /\ fits src /\ tokenize false src = Tokens false ts /\ In t ts /\
    t_begin t = Some b /\
    l_column (t_loc t) <> N.of_nat (1 + List.length (last_line (firstn b src))).
Proof.
  exists ([34] ++ u "ab" ++ [34] ++ u " c").
  eexists _, (mktok (Some 5%nat) 1 T_UNKNOWN (mkloc 1 3)), 5%nat.
  split; [intro H; vm_compute in H; repeat (destruct H as [H|H]; [discriminate|]); destruct H|].
  split; [reflexivity|]. split; [vm_compute; reflexivity|].
  split; [vm_compute; tauto|]. split; [reflexivity|]. vm_compute. discriminate.
Qed.
Print Assumptions token_columns_right_refuted.

(** The recorded column of the witness: 3 instead of 6. *)
Example token_columns_right_refuted_ex : exists t ts,
  tokenize false ([34] ++ u "ab" ++ [34] ++ u " c") = Tokens false [t; ts] /\ l_column (t_loc ts) = 3.
Proof. eexists _, _. split; [vm_compute; reflexivity|reflexivity]. Qed.
