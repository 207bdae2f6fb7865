(** C07-C09, C43: the values of literals. *)
From Coq Require Import List Arith NArith ZArith Bool Lia Ascii String.
From Verif Require Import Base Model_Token Model_Utf8 Model_Classify Model_Literal
  Spec_Token Spec_Classify Spec_Utf8 Spec_Literal Proof_Utf8 Proof_Classify Proof_Classify2 Proof_Literal Proof_Literal2.
Import ListNotations.
Open Scope list_scope.
Open Scope N_scope.

(** C07: an integer literal followed by a separator (or nothing) has the value of its
    digits, or gives the overflow error exactly when that value does not fit. For a
    literal with base prefix the text behind it must not be a separator and an underscore. *)
Theorem integer_literal_value : forall pre w post t v, int_value w v -> stops post -> Forall scalar post -> source post ->
  (prefixed w -> ~ under_behind post) ->
  t_begin t = Some (List.length pre) -> t_len t = N.of_nat (List.length w) ->
  (int64 v -> eval_integer (pre ++ w ++ post) t = Ok (Val v)) /\
  (~ int64 v -> eval_integer (pre ++ w ++ post) t = Ok (Bad ERR_OVERFLOW)).
Proof. exact integer_value_l. Qed.
Print Assumptions integer_literal_value.

Example integer_literal_value_ex :
  int_value (u "0x1_F") 31 /\ stops (u " y") /\ Forall scalar (u " y") /\ source (u " y") /\ ~ under_behind (u " y") /\
  eval_integer (u "x := 0x1_F y") (mktok (Some 5%nat) 5 T_INT_CONST (mkloc 1 6)) = Ok (Val 31%Z) /\
  eval_integer (u "9223372036854775808") (mktok (Some 0%nat) 19 T_INT_CONST (mkloc 1 1)) = Ok (Bad ERR_OVERFLOW) /\
  eval_integer (u "-9223372036854775808") (mktok (Some 0%nat) 20 T_INT_CONST (mkloc 1 1)) = Ok (Val (- 2 ^ 63)%Z).
Proof.
  split.
  { apply (iv_hex (u "1_F") 2).
    - apply dg_under; [left; unfold digit; cbn; lia|]. apply dg_one. right; right. cbn. lia.
    - apply (nb_digit 16 (chr "1") 1 (u "_F") 1 15); [left; reflexivity|]. apply nb_under.
      apply (nb_digit 16 (chr "F") 15 [] 0 0); [right; reflexivity|constructor]. }
  split; [right; exists (chr " "), (u "y"); split; [reflexivity|left; cbn; tauto]|].
  split; [repeat constructor; cbn; lia|].
  split; [intro H; cbn in H; repeat (destruct H as [H|H]; [discriminate|]); destruct H|].
  split; [intros (c & r & E); discriminate|]. repeat split.
Qed.

(** C07: every word in the integer grammar has a value. *)
Theorem integer_words_have_values : forall w, int_word w -> exists v, int_value w v.
Proof. exact int_value_exists_l. Qed.
Print Assumptions integer_words_have_values.

Example integer_words_have_values_ex : int_word (u "0b10") /\ int_value (u "0b10") 2.
Proof.
  assert (D : digits binary_digit (u "10")) by (apply dg_more; [now right|apply dg_one; now left]).
  split; [now apply (int_bin (u "10"))|]. apply (iv_bin (u "10") 2); [assumption|].
  apply (nb_digit 2 (chr "1") 1 (u "0") 1 0); [left; reflexivity|]. apply (nb_digit 2 (chr "0") 0 [] 0 0); [left; reflexivity|constructor].
Qed.

(** C07: digits have one value only. *)
Theorem digits_have_one_value : forall base s n v n' v', number base s n v -> number base s n' v' -> v' = v.
Proof. intros base s n v n' v' H H'. exact (proj2 (number_unique base s n v H n' v' H')). Qed.
Print Assumptions digits_have_one_value.

Example digits_have_one_value_ex : number 10 (u "12") 2 12.
Proof. apply (nb_digit 10 (chr "1") 1 (u "2") 1 2); [left; reflexivity|]. apply (nb_digit 10 (chr "2") 2 [] 0 0); [left; reflexivity|constructor]. Qed.

(** C07 is false when a separator and an underscore follow a prefixed literal: the
    conversion then leaves its buffer. The text below is accepted by the tokenizer, its
    second word is a comment. *)
Theorem integer_literal_safe_refuted : exists src ts ts' t, source src /\ fits src /\ Forall scalar src /\
  tokenize false src = Tokens false ts /\ classify_tokens src ts = Ok ts' /\
  hd_error ts' = Some t /\ t_type t = T_INT_CONST /\ map t_type (tl ts') = [T_COMMENT] /\
  eval_integer src t = UB.
Proof.
  exists (u "0x1 _# a"). eexists _, _, _.
  split; [intro H; cbn in H; repeat (destruct H as [H|H]; [discriminate|]); destruct H|].
  split; [reflexivity|]. split; [repeat constructor; cbn; lia|].
  split; [vm_compute; reflexivity|]. split; [vm_compute; reflexivity|]. split; [reflexivity|]. repeat split.
Qed.
Print Assumptions integer_literal_safe_refuted.

(** Without the underscore the literal is evaluated. *)
Example integer_literal_safe_refuted_ex :
  eval_integer (u "0x1 # a") (mktok (Some 0%nat) 3 T_INT_CONST (mkloc 1 1)) = Ok (Val 1%Z).
Proof. reflexivity. Qed.

(** C08: what a rune literal gives, case by case: a control character, no valid escape,
    more than one item, no valid code point, or its one item. Characters above 255 only
    if the library's iscntrl answers false for them. *)
Theorem rune_literal_value : forall wide pre body post t,
  let src := pre ++ (39 :: body ++ [39]) ++ post in
  quoted 39 body -> body <> [] -> (hd 0 body < 256 \/ wide (hd 0 body) = Ok false) ->
  t_begin t = Some (List.length pre) ->
  (control (hd 0 body) -> eval_rune wide src t = Ok (Bad ERR_NO_CONTROL_CHAR)) /\
  (~ control (hd 0 body) ->
   ((forall c r, ~ item body c r) -> exists w, wrong body w /\ eval_rune wide src t = Ok (Bad (ERR_BAD_ESCAPE w))) /\
   (forall c r, item body c r ->
     (r <> [] -> eval_rune wide src t = Ok (Bad ERR_RUNE_TOO_LONG)) /\
     (r = [] -> ~ scalar c -> eval_rune wide src t = Ok (Bad ERR_ILLEGAL_SEQ)) /\
     (r = [] -> scalar c -> eval_rune wide src t = Ok (Val c)))).
Proof. exact rune_value_l. Qed.
Print Assumptions rune_literal_value.

Example rune_literal_value_ex :
  let tok := mktok (Some 0%nat) 0 T_RUNE_CONST (mkloc 1 1) in
  item (u "\x41") 65 [] /\ quoted 39 (u "\x41") /\
  eval_rune strict ([39] ++ u "\x41" ++ [39]) tok = Ok (Val 65) /\
  eval_rune strict ([39] ++ u "\xD800" ++ [39]) tok = Ok (Bad ERR_ILLEGAL_SEQ) /\
  eval_rune strict ([39] ++ u "\na" ++ [39]) tok = Ok (Bad ERR_RUNE_TOO_LONG) /\
  eval_rune strict ([39] ++ u "\q" ++ [39]) tok = Ok (Bad (ERR_BAD_ESCAPE (u "\q"))) /\
  eval_rune strict ([39] ++ u "\xyz" ++ [39]) tok = Ok (Bad (ERR_BAD_ESCAPE (u "\xy"))) /\
  eval_rune strict ([39] ++ u "\x" ++ [39]) tok = Ok (Bad (ERR_BAD_ESCAPE (u "\x"))) /\
  eval_rune strict [39; 9; 39] tok = Ok (Bad ERR_NO_CONTROL_CHAR).
Proof.
  cbv zeta. split.
  - apply (it_hex (u "41") 2 65 []); [discriminate|cbn; lia| | |right; discriminate].
    + repeat constructor; unfold digit; cbn; lia.
    + apply (nb_digit 16 (chr "4") 4 (u "1") 1 1); [left; reflexivity|]. apply (nb_digit 16 (chr "1") 1 [] 0 0); [left; reflexivity|constructor].
  - split; [apply (q_back 39 (chr "x") (u "41")); [discriminate|discriminate|]; repeat (apply q_char; [discriminate|discriminate|]); constructor|].
    repeat split.
Qed.

(** C08 is false for characters above 255: iscntrl is called with a value outside its
    domain. *)
Theorem rune_literal_safe_refuted : exists c t, scalar c /\ ~ control c /\
  rune_word [39; c; 39] /\ eval_rune strict [39; c; 39] t = UB.
Proof.
  exists 9786, (mktok (Some 0%nat) 3 T_RUNE_CONST (mkloc 1 1)).
  split; [unfold scalar; lia|]. split; [unfold control; lia|]. split; [constructor|reflexivity].
Qed.
Print Assumptions rune_literal_safe_refuted.

(** A character below 256 is fine. *)
Example rune_literal_safe_refuted_ex : eval_rune strict [39; 233; 39] (mktok (Some 0%nat) 3 T_RUNE_CONST (mkloc 1 1)) = Ok (Val 233).
Proof. reflexivity. Qed.

(** C08 is false for two literals without a blank between them: they are one rune token,
    and the second one is dropped. *)
Theorem rune_token_is_one_literal_refuted : exists src ts ts' t, source src /\ fits src /\
  tokenize false src = Tokens false ts /\ classify_tokens src ts = Ok ts' /\ ts' = [t] /\
  t_type t = T_RUNE_CONST /\ on_word src t src /\ eval_rune strict src t = Ok (Val newline) /\
  (exists more, more <> [] /\ src = [39; 92; chr "n"; 39] ++ more).
Proof.
  exists ([39; 92; chr "n"; 39] ++ [39; chr "a"; 39]). eexists _, _, (mktok (Some 0%nat) 7 T_RUNE_CONST (mkloc 1 1)).
  split; [intro H; vm_compute in H; repeat (destruct H as [H|H]; [discriminate|]); destruct H|].
  split; [reflexivity|]. split; [vm_compute; reflexivity|]. split; [vm_compute; reflexivity|]. split; [reflexivity|].
  split; [reflexivity|]. split; [exists [], []; repeat split|]. split; [reflexivity|]. exists [39; chr "a"; 39]. split; [discriminate|reflexivity].
Qed.
Print Assumptions rune_token_is_one_literal_refuted.

(** With a blank between them they are two tokens. *)
Example rune_token_is_one_literal_refuted_ex : exists t t',
  tokenize false ([39; 92; chr "n"; 39] ++ u " " ++ [39; chr "a"; 39]) = Tokens false [t; t'].
Proof. eexists _, _. vm_compute. reflexivity. Qed.

(** C09: the value of a string literal is its text read item by item, cut at the first
    NUL and encoded; an invalid escape and an invalid code point are errors. *)
Theorem string_literal_value : forall pre body post t,
  let src := pre ++ (34 :: body ++ [34]) ++ post in
  quoted 34 body -> t_begin t = Some (List.length pre) -> t_len t = N.of_nat (List.length (34 :: body ++ [34])) ->
  (forall v s, unescaped body v -> until_nul v s ->
     (forall b, utf8 s b -> const_str src t = Some (Ok (Val b))) /\
     (~ Forall scalar s -> const_str src t = Some (Ok (Bad ERR_ILLEGAL_SEQ)))) /\
  ((forall v, ~ unescaped body v) -> exists w, broken body w /\ const_str src t = Some (Ok (Bad (ERR_BAD_ESCAPE w)))).
Proof. exact const_str_l. Qed.
Print Assumptions string_literal_value.

Example string_literal_value_ex :
  let tok n := mktok (Some 0%nat) n T_STR_CONST (mkloc 1 1) in
  unescaped (u "a\n") (u "a" ++ [10]) /\ quoted 34 (u "a\n") /\
  const_str ([34] ++ u "a\n" ++ [34]) (tok 5) = Some (Ok (Val [97; 10])) /\
  const_str ([34] ++ u "a\0b" ++ [34]) (tok 6) = Some (Ok (Val [97])) /\
  const_str ([34] ++ u "\xE9" ++ [34]) (tok 6) = Some (Ok (Val [195; 169])) /\
  const_str ([34] ++ u "a\q" ++ [34]) (tok 5) = Some (Ok (Bad (ERR_BAD_ESCAPE (u "\q")))).
Proof.
  cbv zeta. split.
  - apply (un_item _ 97 (u "\n")); [apply (it_plain 97 (u "\n")); discriminate|].
    apply (un_item _ 10 []); [apply (it_simple (chr "n") 10 []); unfold simple_escapes; cbn [In]; tauto|constructor].
  - split; [apply q_char; [discriminate|discriminate|]; apply (q_back 34 (chr "n") []); [discriminate|discriminate|]; apply q_char; [discriminate|discriminate|constructor]|].
    repeat split.
Qed.

(** C09: a literal has at most one reading. *)
Theorem string_reading_unique : forall s t t', unescaped s t -> unescaped s t' -> t = t'.
Proof. intros s t t' H H'. exact (unescaped_unique s t H t' H'). Qed.
Print Assumptions string_reading_unique.

Example string_reading_unique_ex : unescaped (u "\t") [9].
Proof. apply (un_item _ 9 []); [apply (it_simple (chr "t") 9 []); unfold simple_escapes; cbn [In]; tauto|constructor]. Qed.

(** C43: a float literal is one of the special values or is converted from exactly its
    own characters without the underscores. *)
Theorem float_literal_text : forall src t w, on_word src t w -> float_word w ->
  eval_float src t = Ok (if text_eqb (u "Infinity") w then F_inf else if text_eqb (u "-Infinity") w then F_neg_inf
    else if text_eqb (u "NaN") w then F_nan else F_strtod (filter (fun c => negb (c =? chr "_")) w)).
Proof. exact float_value_l. Qed.
Print Assumptions float_literal_text.

Example float_literal_text_ex :
  on_word (u "x := -1_0.25") (mktok (Some 5%nat) 7 T_FLOAT_CONST (mkloc 1 6)) (u "-1_0.25") /\
  eval_float (u "x := -1_0.25") (mktok (Some 5%nat) 7 T_FLOAT_CONST (mkloc 1 6)) = Ok (F_strtod (u "-10.25")).
Proof. split; [exists (u "x := "), []; repeat split|reflexivity]. Qed.

(** C43: a boolean literal is true exactly when it is spelled true. *)
Theorem bool_literal_value : forall src t w, on_word src t w -> bool_word w -> (eval_bool t = true <-> w = u "true").
Proof. exact bool_value_l. Qed.
Print Assumptions bool_literal_value.

Example bool_literal_value_ex : on_word (u "false") (mktok (Some 0%nat) 5 T_BOOL_CONST (mkloc 1 1)) (u "false") /\
  eval_bool (mktok (Some 0%nat) 5 T_BOOL_CONST (mkloc 1 1)) = false.
Proof. split; [exists [], []; repeat split|reflexivity]. Qed.
