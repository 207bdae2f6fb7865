(** The C text of an expression: constants, tokens and reading. *)
From Coq Require Import List Arith NArith ZArith Bool Lia Ascii String.
From Verif Require Import Base Model_Token Model_Literal Model_Parse Model_Sem Spec_Sem Model_CGen Spec_C Proof_C Proof_C2 Spec_CGen.
Import ListNotations.
Open Scope list_scope.
Open Scope N_scope.

(** * Numbers *)

Definition is_up (c : N) : bool := (chr "A" <=? c) && (c <=? chr "F").

Lemma digit_char_dec : forall d, d < 10 -> is_digit (digit_char d) = true.
Proof.
  intros d H. unfold digit_char. rewrite (proj2 (N.ltb_lt d 10) H). unfold is_digit.
  change (chr "0") with 48. change (chr "9") with 57. apply andb_true_iff. rewrite !N.leb_le. lia.
Qed.
Lemma digit_char_hex : forall d, d < 16 -> is_digit (digit_char d) || is_up (digit_char d) = true.
Proof.
  intros d H. destruct (d <? 10) eqn:E.
  - apply N.ltb_lt in E. rewrite digit_char_dec by exact E. reflexivity.
  - unfold digit_char. rewrite E. apply N.ltb_ge in E. apply orb_true_iff. right. unfold is_up.
    change (chr "A") with 65. change (chr "F") with 70. apply andb_true_iff. rewrite !N.leb_le. lia.
Qed.
Lemma digit_char_value : forall d, d < 16 -> c_digit (digit_char d) = Some d.
Proof.
  intros d H. unfold c_digit. destruct (d <? 10) eqn:E.
  - apply N.ltb_lt in E. rewrite digit_char_dec by exact E. unfold digit_char. rewrite (proj2 (N.ltb_lt d 10) E).
    f_equal. change (chr "0") with 48. lia.
  - unfold digit_char. rewrite E. apply N.ltb_ge in E. unfold is_digit.
    change (chr "A") with 65. change (chr "F") with 70. change (chr "a") with 97. change (chr "f") with 102.
    change (chr "0") with 48. change (chr "9") with 57.
    replace ((48 <=? 65 + (d - 10)) && (65 + (d - 10) <=? 57)) with false by (symmetry; apply andb_false_iff; right; apply N.leb_gt; lia).
    replace ((97 <=? 65 + (d - 10)) && (65 + (d - 10) <=? 102)) with false by (symmetry; apply andb_false_iff; left; apply N.leb_gt; lia).
    replace ((65 <=? 65 + (d - 10)) && (65 + (d - 10) <=? 70)) with true by (symmetry; apply andb_true_iff; rewrite !N.leb_le; lia).
    f_equal. lia.
Qed.

Lemma digits_loop_value : forall base, 2 <= base <= 16 -> forall f n acc, n < 2 ^ N.of_nat f -> (0 < f)%nat ->
  c_digits base 0 (digits_loop f base n acc) = c_digits base n acc.
Proof.
  intros base B. induction f as [|f IH]; intros n acc L F; [lia|]. cbn [digits_loop].
  pose proof (N.mod_lt n base ltac:(lia)) as M. pose proof (N.div_mod n base ltac:(lia)) as D.
  destruct (n / base =? 0) eqn:E.
  - apply N.eqb_eq in E. cbn [c_digits]. rewrite digit_char_value by lia. rewrite (proj2 (N.ltb_lt _ _) M).
    f_equal. lia.
  - apply N.eqb_neq in E. destruct f as [|f].
    + assert (n < 2) by (cbn in L; lia). exfalso. apply E. apply N.div_small. lia.
    + rewrite IH.
      * cbn [c_digits]. rewrite digit_char_value by lia. rewrite (proj2 (N.ltb_lt _ _) M). f_equal. lia.
      * apply N.div_lt_upper_bound; [lia|]. rewrite Nat2N.inj_succ, N.pow_succ_r' in L. nia.
      * lia.
Qed.

Lemma log2_fuel : forall n, n < 2 ^ N.of_nat (S (N.to_nat (N.log2 n))).
Proof.
  intro n. rewrite Nat2N.inj_succ, N2Nat.id. destruct (N.eq_dec n 0) as [->|H]; [reflexivity|].
  apply N.log2_spec. lia.
Qed.

Lemma digits_value : forall base n, 2 <= base <= 16 -> c_digits base 0 (digits base n) = Some n.
Proof.
  intros base n B. unfold digits. rewrite digits_loop_value; [reflexivity|exact B|apply log2_fuel|lia].
Qed.

Lemma digits_loop_chars : forall (p : N -> bool) base, 0 < base -> (forall d, d < base -> p (digit_char d) = true) ->
  forall f n acc, forallb p acc = true -> forallb p (digits_loop f base n acc) = true.
Proof.
  intros p base B P. induction f as [|f IH]; intros n acc A; cbn [digits_loop]; [exact A|].
  assert (X : forallb p (digit_char (n mod base) :: acc) = true).
  { cbn [forallb]. rewrite P by (apply N.mod_lt; lia). exact A. }
  destruct (n / base =? 0); auto.
Qed.

Lemma digits_dec : forall n, forallb is_digit (digits 10 n) = true.
Proof. intro n. apply digits_loop_chars; [lia|exact digit_char_dec|reflexivity]. Qed.
Lemma digits_hex : forall n, forallb (fun c => is_digit c || is_up c) (digits 16 n) = true.
Proof. intro n. apply (digits_loop_chars (fun c => is_digit c || is_up c)); [lia|exact digit_char_hex|reflexivity]. Qed.

Lemma digits_loop_head : forall f n acc, n <> 0 -> n < 2 ^ N.of_nat f ->
  exists d r, digits_loop f 10 n acc = digit_char d :: r /\ 0 < d < 10.
Proof.
  induction f as [|f IH]; intros n acc Z0 L; [cbn in L; lia|]. cbn [digits_loop].
  pose proof (N.mod_lt n 10 ltac:(lia)) as M. pose proof (N.div_mod n 10 ltac:(lia)) as D.
  destruct (n / 10 =? 0) eqn:E.
  - apply N.eqb_eq in E. do 2 eexists. split; [reflexivity|]. lia.
  - apply N.eqb_neq in E. apply IH; [exact E|].
    apply N.div_lt_upper_bound; [lia|]. rewrite Nat2N.inj_succ, N.pow_succ_r' in L. nia.
Qed.

Lemma digits_head : forall n, n <> 0 -> exists d r, digits 10 n = digit_char d :: r /\ 0 < d < 10.
Proof. intros n H. apply digits_loop_head; [exact H|apply log2_fuel]. Qed.

Lemma digits_nonempty : forall base n, digits base n <> [].
Proof.
  intros base n. unfold digits. cbn [digits_loop].
  assert (X : forall f n acc, acc <> [] -> digits_loop f base n acc <> []).
  { induction f as [|f IH]; intros m acc A; cbn [digits_loop]; [exact A|].
    destruct (m / base =? 0); [discriminate|]. apply IH. discriminate. }
  destruct (n / base =? 0); [discriminate|]. apply X. discriminate.
Qed.

Lemma split_long : forall t, split_suffix (t ++ u "L") = (t, true).
Proof.
  intro t. unfold split_suffix. rewrite rev_app_distr. cbn. now rewrite rev_involutive.
Qed.
Lemma split_plain : forall t, forallb (fun c => is_digit c || is_up c || (c =? chr "x")) t = true -> split_suffix t = (t, false).
Proof.
  intros t F. unfold split_suffix. destruct (rev t) as [|c r] eqn:E; [reflexivity|].
  destruct (c =? chr "L") eqn:L; [|reflexivity]. apply N.eqb_eq in L. subst c. rewrite forallb_forall in F.
  assert (I : In (chr "L") t) by (apply in_rev; rewrite E; now left). apply F in I. discriminate I.
Qed.

Lemma dec_class : forall t, forallb is_digit t = true -> forallb (fun c => is_digit c || is_up c || (c =? chr "x")) t = true.
Proof. intros t F. rewrite forallb_forall in *. intros c I. rewrite (F c I). reflexivity. Qed.

(** A decimal constant without and with suffix. *)
Lemma decimal_constant : forall n (long : bool), c_constant (if long then digits 10 n ++ u "L" else digits 10 n) =
  if n =? 0 then Some (0, if long then CLong else CInt) else first_type (if long then [CLong] else [CInt; CLong]) n.
Proof.
  intros n long. unfold c_constant.
  replace (split_suffix _) with (digits 10 n, long);
    [|destruct long; [symmetry; apply split_long|symmetry; apply split_plain, dec_class, digits_dec]].
  destruct (n =? 0) eqn:Z0.
  - apply N.eqb_eq in Z0. subst n. destruct long; reflexivity.
  - apply N.eqb_neq in Z0. destruct (digits_head n Z0) as (d & r & E & D).
    pose proof (digits_value 10 n ltac:(lia)) as V. rewrite E in V |- *.
    assert (d = 1 \/ d = 2 \/ d = 3 \/ d = 4 \/ d = 5 \/ d = 6 \/ d = 7 \/ d = 8 \/ d = 9) as C by lia.
    destruct C as [->|[->|[->|[->|[->|[->|[->|[->| ->]]]]]]]];
      match type of V with context [digit_char ?k] => let c := eval vm_compute in (digit_char k) in change (digit_char k) with c in V |- * end;
      cbv iota; rewrite V; reflexivity.
Qed.

Lemma whole_word_number : forall c r, is_digit c = true -> forallb is_word r = true -> whole_number (c :: r).
Proof.
  intros c r D W. split; [exact D|]. clear D. revert c. induction r as [|d r IH]; intro c; [reflexivity|].
  cbn [forallb] in W. apply andb_true_iff in W as [W1 W2]. cbn [number]. rewrite W1. cbn [orb]. rewrite IH by exact W2. reflexivity.
Qed.

Lemma digit_word : forall c, is_digit c = true -> is_word c = true.
Proof. intros c H. unfold is_word. rewrite H. apply orb_true_r. Qed.
Lemma digits_word : forall t, forallb is_digit t = true -> forallb is_word t = true.
Proof. intros t F. rewrite forallb_forall in *. auto using digit_word. Qed.

Lemma decimal_number : forall n, whole_number (digits 10 n) /\ whole_number (digits 10 n ++ u "L").
Proof.
  intro n. pose proof (digits_dec n) as D. destruct (digits 10 n) as [|c r] eqn:E; [exfalso; exact (digits_nonempty _ _ E)|].
  cbn [forallb] in D. apply andb_true_iff in D as [D1 D2]. split; [apply whole_word_number; auto using digits_word|].
  cbn [app]. apply whole_word_number; [exact D1|]. rewrite forallb_app. rewrite digits_word by exact D2. reflexivity.
Qed.

Lemma up_word : forall c, is_up c = true -> is_word c = true.
Proof.
  intros c H. unfold is_up in H. apply andb_true_iff in H as [H1 H2]. unfold is_word, is_letter.
  replace ((chr "A" <=? c) && (c <=? chr "Z")) with true; [now rewrite orb_true_r|].
  symmetry. apply andb_true_iff. split; [exact H1|]. apply N.leb_le in H2. apply N.leb_le. change (chr "F") with 70 in H2. change (chr "Z") with 90. lia.
Qed.

Lemma hex_number : forall n, whole_number (u "0x" ++ digits 16 n).
Proof.
  intro n. cbn [app u list_ascii_of_string map]. apply (whole_word_number 48 (120 :: digits 16 n)); [reflexivity|]. cbn [forallb].
  apply andb_true_iff. split; [reflexivity|]. pose proof (digits_hex n) as D. rewrite forallb_forall in *.
  intros c I. apply D in I. apply orb_true_iff in I as [I|I]; [now apply digit_word|now apply up_word].
Qed.

Lemma hex_constant : forall n, n < 2 ^ 31 -> c_constant (u "0x" ++ digits 16 n) = Some (n, CInt).
Proof.
  intros n B. unfold c_constant. rewrite split_plain.
  - pose proof (digits_nonempty 16 n) as NE. pose proof (digits_value 16 n ltac:(lia)) as V.
    destruct (digits 16 n) as [|d h]; [contradiction|]. cbn [app u list_ascii_of_string map]. cbv beta iota.
    change (N_of_ascii "0") with 48. change (N_of_ascii "x") with 120. cbv iota. rewrite V.
    unfold first_type. cbn [find fits]. now rewrite (proj2 (N.ltb_lt _ _) B).
  - cbn [app u list_ascii_of_string map forallb]. apply andb_true_iff. split; [reflexivity|].
    apply andb_true_iff. split; [reflexivity|]. pose proof (digits_hex n) as D. rewrite forallb_forall in *.
    intros c I. apply D in I. now rewrite I.
Qed.

(** * Tokens of texts *)

(** The text is made of these tokens wherever it stands in front of a blank, `)`, `,` or `;`. *)
Record lexes (t : text) (ts : list ctok) : Prop := {
  lx_head : exists c r, t = c :: r /\ c <> chr "=";
  lx_toks : forall rest, stop rest -> c_tokens (t ++ rest) = option_map (app ts) (c_tokens rest) }.

Lemma map_cons_app : forall (a : ctok) b x, option_map (cons a) (option_map (app b) x) = option_map (app (a :: b)) x.
Proof. intros a b [x|]; reflexivity. Qed.
Lemma map_app_app : forall (a b : list ctok) x, option_map (app a) (option_map (app b) x) = option_map (app (a ++ b)) x.
Proof. intros a b [x|]; cbn [option_map]; [now rewrite app_assoc|reflexivity]. Qed.
Lemma map_app_cons : forall (a : list ctok) b x, option_map (app a) (option_map (cons b) x) = option_map (app (a ++ [b])) x.
Proof. intros a b [x|]; cbn [option_map]; [now rewrite <- app_assoc|reflexivity]. Qed.
Lemma map_cons_one : forall (a : ctok) x, option_map (cons a) x = option_map (app [a]) x.
Proof. reflexivity. Qed.

Ltac flat_map_opt := match goal with |- context [c_tokens ?r] => destruct (c_tokens r); cbn [option_map]; [|reflexivity];
  f_equal; cbn [app]; repeat (rewrite <- app_assoc; cbn [app]); reflexivity end.

Lemma digit_not_eq : forall c, is_digit c = true -> c <> chr "=" /\ c <> chr "-" /\ c <> chr ">" /\ c <> chr "&".
Proof. intros c H. repeat split; intros ->; discriminate H. Qed.

Lemma number_lexes : forall t, whole_number t -> lexes t [KNum t].
Proof.
  intros t W. constructor.
  - destruct t as [|c r]; [destruct W|]. exists c, r. split; [reflexivity|]. apply digit_not_eq. apply W.
  - intros rest S. now apply lex_number.
Qed.

Lemma negative_lexes : forall t, whole_number t -> lexes (chr "-" :: t) [KOp (u "-"); KNum t].
Proof.
  intros t W. constructor; [exists (chr "-"), t; split; [reflexivity|discriminate]|]. intros rest S.
  destruct t as [|c r]; [destruct W|]. cbn [app]. destruct (digit_not_eq c (proj1 W)) as (H1 & H2 & H3 & _).
  rewrite lex_minus by auto. change (c :: r ++ rest) with ((c :: r) ++ rest). rewrite lex_number by auto. now rewrite map_cons_one, map_app_cons.
Qed.

Lemma letter_not_eq : forall c, is_letter c = true -> c <> chr "=" /\ c <> chr "&".
Proof. intros c H. split; intros ->; discriminate H. Qed.

Lemma name_parts : forall n, c_name n = true -> exists c a, n = c :: a /\ is_letter c = true /\ forallb is_word a = true.
Proof.
  intros [|c a] H; [discriminate H|]. unfold c_name in H. apply andb_true_iff in H as [H _].
  apply andb_true_iff in H as [H1 H2]. cbn [forallb] in H2. apply andb_true_iff in H2 as [_ H2]. eauto.
Qed.

Lemma name_lexes : forall n, c_name n = true -> lexes n [KId n].
Proof.
  intros n H. destruct (name_parts n H) as (c & a & -> & L & W). constructor.
  - exists c, a. split; [reflexivity|]. now apply letter_not_eq.
  - intros rest S. apply lex_word; auto using stop_ends.
Qed.

Lemma ref_lexes : forall n, c_name n = true -> lexes (chr "&" :: n) [KOp (u "&"); KId n].
Proof.
  intros n H. pose proof (name_lexes n H) as X. destruct (name_parts n H) as (c & a & -> & L & W).
  constructor; [exists (chr "&"), (c :: a); split; [reflexivity|discriminate]|]. intros rest S. cbn [app].
  destruct (letter_not_eq c L) as [E A]. rewrite lex_amp by auto. change (c :: a ++ rest) with ((c :: a) ++ rest).
  rewrite (lx_toks _ _ X) by exact S. apply map_cons_app.
Qed.

Lemma not_lexes : forall t ts, lexes t ts -> lexes (chr "!" :: t) (KOp (u "!") :: ts).
Proof.
  intros t ts X. constructor; [exists (chr "!"), t; split; [reflexivity|discriminate]|]. intros rest S.
  destruct (lx_head _ _ X) as (c & r & -> & E). cbn [app]. rewrite lex_not by auto. change (c :: r ++ rest) with ((c :: r) ++ rest).
  rewrite (lx_toks _ _ X) by exact S. apply map_cons_app.
Qed.

Lemma deref_lexes : forall t ts, lexes t ts -> lexes (chr "*" :: t) (KOp (u "*") :: ts).
Proof.
  intros t ts X. constructor; [exists (chr "*"), t; split; [reflexivity|discriminate]|]. intros rest S.
  destruct (lx_head _ _ X) as (c & r & -> & E). cbn [app]. rewrite lex_star by auto. change (c :: r ++ rest) with ((c :: r) ++ rest).
  rewrite (lx_toks _ _ X) by exact S. apply map_cons_app.
Qed.

Lemma paren_stop : forall r, stop (chr ")" :: r).
Proof. intro r. left. cbn. auto. Qed.
Lemma comma_stop : forall r, stop (chr "," :: r).
Proof. intro r. left. cbn. auto. Qed.
Lemma blank_stop : forall r, stop (chr " " :: r).
Proof. intro r. left. cbn. auto. Qed.

Lemma neg_lexes : forall t ts, lexes t ts -> lexes (u "-(" ++ t ++ u ")") (KOp (u "-") :: KOp (u "(") :: ts ++ [KOp (u ")")]).
Proof.
  intros t ts X. constructor; [exists (chr "-"), (chr "(" :: t ++ u ")"); split; [reflexivity|discriminate]|]. intros rest S.
  change ((u "-(" ++ t ++ u ")") ++ rest) with (chr "-" :: chr "(" :: (t ++ u ")") ++ rest).
  rewrite lex_minus by discriminate. rewrite lex_open. rewrite <- app_assoc. change (u ")" ++ rest) with (chr ")" :: rest).
  rewrite (lx_toks _ _ X) by apply paren_stop. rewrite lex_close, map_app_cons, !map_cons_app. reflexivity.
Qed.

Lemma infix_lexes : forall op l r a b, In op infix_ops -> lexes l a -> lexes r b ->
  lexes (u "(" ++ l ++ (u " " ++ op ++ u " ") ++ r ++ u ")") (KOp (u "(") :: (a ++ KOp op :: b) ++ [KOp (u ")")]).
Proof.
  intros op l r a b I X Y. constructor.
  { eexists; eexists; split; [reflexivity|discriminate]. }
  intros rest S.
  replace ((u "(" ++ l ++ (u " " ++ op ++ u " ") ++ r ++ u ")") ++ rest)
    with (chr "(" :: l ++ chr " " :: op ++ chr " " :: r ++ chr ")" :: rest)
    by (rewrite <- !app_assoc; reflexivity).
  rewrite lex_open, (lx_toks _ _ X) by apply blank_stop. rewrite lex_infix by exact I.
  rewrite (lx_toks _ _ Y) by apply paren_stop. rewrite lex_close. flat_map_opt.
Qed.

(** Arguments between parentheses behind a name. *)
Lemma call_head : forall n rest, c_name n = true ->
  c_tokens (n ++ chr "(" :: rest) = option_map (app [KId n; KOp (u "(")]) (c_tokens rest).
Proof.
  intros n rest H. destruct (name_parts n H) as (c & a & -> & L & W). rewrite lex_word; auto.
  - rewrite lex_open. apply (map_cons_app (KId (c :: a)) [KOp (u "(")] (c_tokens rest)).
  - cbn. split; [reflexivity|discriminate].
Qed.

Lemma call_lexes : forall n t ts, c_name n = true ->
  (forall rest, stop rest -> c_tokens (t ++ rest) = option_map (app ts) (c_tokens rest)) ->
  lexes (n ++ u "(" ++ t ++ u ")") (KId n :: KOp (u "(") :: ts ++ [KOp (u ")")]).
Proof.
  intros n t ts H X. constructor.
  - destruct (name_parts n H) as (c & a & -> & L & W). exists c, (a ++ u "(" ++ t ++ u ")"). split; [reflexivity|]. now apply letter_not_eq.
  - intros rest S. replace ((n ++ u "(" ++ t ++ u ")") ++ rest) with (n ++ chr "(" :: t ++ chr ")" :: rest)
      by (rewrite <- !app_assoc; reflexivity).
    rewrite call_head by exact H. rewrite X by apply paren_stop. rewrite lex_close, map_app_cons, map_app_app. reflexivity.
Qed.

Lemma comma_lexes : forall t ts t' ts', lexes t ts -> lexes t' ts' ->
  lexes (t ++ u ", " ++ t') (ts ++ KOp (u ",") :: ts').
Proof.
  intros t ts t' ts' X Y. constructor.
  - destruct (lx_head _ _ X) as (c & r & -> & E). exists c, (r ++ u ", " ++ t'). auto.
  - intros rest S. replace ((t ++ u ", " ++ t') ++ rest) with (t ++ chr "," :: chr " " :: t' ++ rest)
      by (rewrite <- !app_assoc; reflexivity).
    rewrite (lx_toks _ _ X) by apply comma_stop. rewrite lex_comma, lex_blank by reflexivity.
    rewrite (lx_toks _ _ Y) by exact S. rewrite map_cons_app, map_app_app. reflexivity.
Qed.
