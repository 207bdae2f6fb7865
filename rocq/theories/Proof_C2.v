(** Tokens of C, one step at a time. *)
From Coq Require Import List Arith NArith ZArith Bool Lia Ascii String.
From Verif Require Import Base Spec_C.
Import ListNotations.
Open Scope list_scope.
Open Scope N_scope.

Lemma span_len : forall p t a b, span p t = (a, b) -> (List.length b <= List.length t)%nat.
Proof.
  induction t as [|c r IH]; intros a b H; cbn [span] in H; [injection H as <- <-; auto|].
  destruct (p c).
  - destruct (span p r) as [a' b'] eqn:E. injection H as <- <-. specialize (IH _ _ eq_refl). cbn [List.length]. lia.
  - injection H as <- <-. auto.
Qed.

Lemma number_len : forall t q a b, number q t = (a, b) -> (List.length b <= List.length t)%nat.
Proof.
  induction t as [|c r IH]; intros q a b H; cbn [number] in H; [injection H as <- <-; auto|].
  match type of H with (if ?g then _ else _) = _ => destruct g end.
  - destruct (number c r) as [a' b'] eqn:E. injection H as <- <-. apply IH in E. cbn [List.length]. lia.
  - injection H as <- <-. auto.
Qed.

Lemma literal_len : forall n t a b, (List.length t <= n)%nat -> literal_end t = Some (a, b) -> (List.length b < List.length t)%nat.
Proof.
  induction n as [|n IH]; intros [|c r] a b L H; cbn [List.length] in *; try lia; cbn [literal_end] in H; try discriminate H.
  destruct (c =? chr """"); [injection H as <- <-; lia|]. destruct (c =? 10); [discriminate H|]. destruct (c =? 92).
  - destruct r as [|d r']; [discriminate H|]. destruct (d =? 10); [discriminate H|].
    destruct (literal_end r') as [[a' b']|] eqn:E; [|discriminate H]. injection H as <- <-.
    cbn [List.length] in *. apply IH in E; lia.
  - destruct (literal_end r) as [[a' b']|] eqn:E; [|discriminate H]. injection H as <- <-. apply IH in E; lia.
Qed.

Lemma behind_some : forall p t r, behind p t = Some r -> t = p ++ r.
Proof.
  induction p as [|x p IH]; intros [|y t] r H; cbn [behind] in H; try discriminate H; try (injection H as <-; reflexivity).
  destruct (x =? y) eqn:E; [|discriminate H]. apply N.eqb_eq in E. subst y. cbn. f_equal. auto.
Qed.

Lemma longest_some : forall ps t p r, longest ps t = Some (p, r) -> t = p ++ r /\ In p ps.
Proof.
  induction ps as [|q ps IH]; intros t p r H; cbn [longest] in H; [discriminate H|].
  destruct (behind q t) as [r'|] eqn:E.
  - injection H as <- <-. apply behind_some in E. split; [exact E|]. now left.
  - apply IH in H. split; [tauto|]. right. tauto.
Qed.

Lemma punct_len : forall t p r, longest punctuators t = Some (p, r) -> (List.length r < List.length t)%nat.
Proof.
  intros t p r H. apply longest_some in H as [-> I]. rewrite app_length.
  assert (0 < List.length p)%nat; [|lia].
  assert (F : forallb (fun p => Nat.ltb 0 (List.length p)) punctuators = true) by reflexivity.
  rewrite forallb_forall in F. apply F in I. now apply Nat.ltb_lt.
Qed.

Lemma ctokens_fuel : forall f g t, (List.length t < f)%nat -> (List.length t < g)%nat -> ctokens f t = ctokens g t.
Proof.
  induction f as [|f IH]; intros [|g] t F G; try lia. cbn [ctokens].
  destruct t as [|c r]; [reflexivity|]. cbn [List.length] in F, G.
  destruct (is_blank c); [apply IH; lia|].
  destruct (is_letter c) eqn:LC.
  - destruct (span is_word (c :: r)) as [a b] eqn:E.
    assert (L : (List.length b <= List.length r)%nat).
    { cbn [span] in E. unfold is_word in E at 1. rewrite LC in E. cbn [orb] in E.
      destruct (span is_word r) as [a' b'] eqn:E'. injection E as <- <-. exact (span_len _ _ _ _ E'). }
    destruct (_ && _); [reflexivity|]. f_equal. apply IH; lia.
  - destruct (_ || _).
    + destruct (number c r) as [a b] eqn:E. apply number_len in E. f_equal. apply IH; lia.
    + destruct (c =? chr """").
      * destruct (literal_end r) as [[a b]|] eqn:E; [|reflexivity]. apply (literal_len _ _ _ _ (le_n _)) in E. f_equal. apply IH; lia.
      * destruct (_ && _); [reflexivity|].
        destruct (longest punctuators (c :: r)) as [[p b]|] eqn:E; [|reflexivity].
        apply punct_len in E. cbn [List.length] in E. f_equal. apply IH; lia.
Qed.

Lemma ctokens_eq : forall f t, (List.length t < f)%nat -> ctokens f t = c_tokens t.
Proof. intros f t L. apply ctokens_fuel; auto. Qed.

Lemma lex_nil : c_tokens [] = Some [].
Proof. reflexivity. Qed.

Lemma lex_blank : forall c r, is_blank c = true -> c_tokens (c :: r) = c_tokens r.
Proof. intros c r B. unfold c_tokens at 1. cbn [ctokens]. rewrite B. apply ctokens_eq. cbn; lia. Qed.

(** Characters behind which a word or number ends. *)
Definition ends_word (t : text) : Prop := match t with [] => True | c :: _ => is_word c = false /\ c <> chr """" end.
Definition stop (t : text) : Prop :=
  match t with [] => True | c :: _ => In c (u " ),;") \/ c = 10 end.

Lemma letter_not_blank : forall c, is_letter c = true -> is_blank c = false.
Proof.
  intros c H. unfold is_letter, is_blank in *. change (chr "a") with 97 in *. change (chr "z") with 122 in *.
  change (chr "A") with 65 in *. change (chr "Z") with 90 in *. change (chr "_") with 95 in *. change (chr " ") with 32 in *.
  destruct (c =? 32) eqn:E1; [apply N.eqb_eq in E1; subst; discriminate H|].
  destruct (c =? 9) eqn:E2; [apply N.eqb_eq in E2; subst; discriminate H|].
  destruct (c =? 10) eqn:E3; [apply N.eqb_eq in E3; subst; discriminate H|]. reflexivity.
Qed.

Lemma span_word : forall a rest, forallb is_word a = true -> ends_word rest -> span is_word (a ++ rest) = (a, rest).
Proof.
  induction a as [|c a IH]; intros rest F S.
  - cbn [app]. destruct rest as [|c r]; [reflexivity|]. cbn [span]. destruct S as [-> _]. reflexivity.
  - cbn [forallb] in F. apply andb_true_iff in F as [F1 F2]. cbn [app span]. rewrite F1, IH by auto. reflexivity.
Qed.

Lemma lex_word : forall c a rest, is_letter c = true -> forallb is_word a = true -> ends_word rest ->
  c_tokens ((c :: a) ++ rest) = option_map (cons (KId (c :: a))) (c_tokens rest).
Proof.
  intros c a rest L W S. unfold c_tokens at 1. cbn [ctokens app]. rewrite (letter_not_blank c L), L.
  change (c :: a ++ rest) with ((c :: a) ++ rest). rewrite span_word; auto.
  - replace (hd 0 rest =? chr """") with false; [|symmetry; destruct rest as [|d r]; [reflexivity|]; cbn [hd]; apply N.eqb_neq; apply S].
    rewrite andb_false_r. f_equal. apply ctokens_eq. cbn [List.length app]. rewrite app_length. lia.
  - cbn [forallb]. unfold is_word at 1. rewrite L. exact W.
Qed.

Lemma digit_facts : forall c, is_digit c = true -> is_blank c = false /\ is_letter c = false.
Proof.
  intros c H. unfold is_digit, is_letter, is_blank in *. change (chr "a") with 97 in *. change (chr "z") with 122 in *.
  change (chr "A") with 65 in *. change (chr "Z") with 90 in *. change (chr "_") with 95 in *. change (chr " ") with 32 in *.
  change (chr "0") with 48 in *. change (chr "9") with 57 in *.
  apply andb_true_iff in H as [H1 H2]. apply N.leb_le in H1, H2. split.
  - rewrite !orb_false_iff, !N.eqb_neq. lia.
  - rewrite !orb_false_iff, !andb_false_iff, !N.leb_gt, N.eqb_neq. lia.
Qed.

(** A preprocessing number all of whose characters are taken, whatever stands behind. *)
Definition whole_number (t : text) : Prop :=
  match t with [] => False | c :: r => is_digit c = true /\ number c r = (r, []) end.

Lemma stop_char : forall c, In c (u " ),;") \/ c = 10 ->
  is_word c = false /\ c <> chr """" /\ c <> chr "." /\ c <> chr "+" /\ c <> chr "-" /\ c <> chr "(" /\ c <> chr "=".
Proof. intros c [H| ->]; [cbn in H; destruct H as [<-|[<-|[<-|[<-|[]]]]]|]; vm_compute; repeat split; discriminate. Qed.

Lemma stop_ends : forall t, stop t -> ends_word t.
Proof. intros [|c r] H; [exact I|]. apply stop_char in H. cbn. tauto. Qed.

Lemma number_stop : forall r c rest, number c r = (r, []) -> stop rest -> number c (r ++ rest) = (r, rest).
Proof.
  induction r as [|d r IH]; intros c rest H S.
  - cbn [app]. destruct rest as [|e rest]; [reflexivity|]. cbn [number].
    apply stop_char in S as (-> & _ & D & P & M & _). apply N.eqb_neq in D, P, M. rewrite D, P, M. reflexivity.
  - cbn [number app] in *. match type of H with (if ?g then _ else _) = _ => destruct g end; [|discriminate H].
    destruct (number d r) as [a b] eqn:E. assert (a = r /\ b = []) as [-> ->] by (split; congruence).
    rewrite IH; auto.
Qed.

Lemma lex_number : forall t rest, whole_number t -> stop rest ->
  c_tokens (t ++ rest) = option_map (cons (KNum t)) (c_tokens rest).
Proof.
  intros [|c r] rest W S; [destruct W|]. destruct W as [D N0]. unfold c_tokens at 1. cbn [ctokens app].
  destruct (digit_facts c D) as [-> ->]. rewrite D. cbn [orb]. rewrite number_stop; auto.
  f_equal. apply ctokens_eq. cbn [List.length]. rewrite app_length. lia.
Qed.

(** Characters that stand for themselves in a string literal. *)
Definition plain_char (c : N) : bool := negb ((c =? chr """") || (c =? 10) || (c =? 92)).

Lemma literal_plain : forall s rest, forallb plain_char s = true -> literal_end (s ++ chr """" :: rest) = Some (s, rest).
Proof.
  induction s as [|c s IH]; intros rest F; [reflexivity|]. cbn [forallb] in F. apply andb_true_iff in F as [F1 F2].
  unfold plain_char in F1. rewrite negb_true_iff, !orb_false_iff in F1. destruct F1 as [[F1 F3] F4].
  cbn [app literal_end]. rewrite F1, F3, F4, IH by auto. reflexivity.
Qed.

Lemma lex_string : forall s rest, forallb plain_char s = true ->
  c_tokens (chr """" :: s ++ chr """" :: rest) = option_map (cons (KStr s)) (c_tokens rest).
Proof.
  intros s rest F. unfold c_tokens at 1. cbn [ctokens].
  change (is_blank (chr """")) with false. change (is_letter (chr """")) with false. change (is_digit (chr """")) with false.
  change (chr """" =? chr ".") with false. change (chr """" =? chr """") with true. cbn [orb andb].
  rewrite literal_plain by auto. f_equal. apply ctokens_eq. cbn [List.length]. rewrite !app_length. cbn [List.length]. lia.
Qed.

(** Punctuators. *)
Lemma lex_punct : forall c r p b, longest punctuators (c :: r) = Some (p, b) ->
  is_blank c = false -> is_letter c = false -> is_digit c = false -> (c =? chr ".") = false -> (c =? chr """") = false ->
  ((c =? chr "/") && ((hd 0 r =? chr "/") || (hd 0 r =? chr "*"))) = false ->
  c_tokens (c :: r) = option_map (cons (KOp p)) (c_tokens b).
Proof.
  intros c r p b L H1 H2 H3 H4 H5 H6. unfold c_tokens at 1. cbn [ctokens].
  rewrite H1, H2, H3, H4, H5, H6, L. cbn [orb andb]. f_equal. apply ctokens_eq.
  apply punct_len in L. cbn [List.length] in *. lia.
Qed.

Ltac punct := match goal with |- _ = option_map (cons (KOp ?p)) (c_tokens ?b) => apply (lex_punct _ _ p b); reflexivity end.

Lemma lex_open : forall r, c_tokens (chr "(" :: r) = option_map (cons (KOp (u "("))) (c_tokens r).
Proof. intro r. punct. Qed.
Lemma lex_close : forall r, c_tokens (chr ")" :: r) = option_map (cons (KOp (u ")"))) (c_tokens r).
Proof. intro r. punct. Qed.
Lemma lex_comma : forall r, c_tokens (chr "," :: r) = option_map (cons (KOp (u ","))) (c_tokens r).
Proof. intro r. punct. Qed.

Ltac punct2 := unfold punctuators, u, chr; cbn [map list_ascii_of_string]; cbn [longest behind];
  repeat match goal with H : (?a =? ?c) = false |- _ => rewrite H; clear H end; reflexivity.

Lemma lex_not : forall c r, c <> chr "=" -> c_tokens (chr "!" :: c :: r) = option_map (cons (KOp (u "!"))) (c_tokens (c :: r)).
Proof.
  intros c r H. assert (H1 : (chr "=" =? c) = false) by (apply N.eqb_neq; congruence). unfold chr in H1.
  apply lex_punct; try reflexivity. punct2.
Qed.
Lemma lex_star : forall c r, c <> chr "=" -> c_tokens (chr "*" :: c :: r) = option_map (cons (KOp (u "*"))) (c_tokens (c :: r)).
Proof.
  intros c r H. assert (H1 : (chr "=" =? c) = false) by (apply N.eqb_neq; congruence). unfold chr in H1.
  apply lex_punct; try reflexivity. punct2.
Qed.
Lemma lex_amp : forall c r, c <> chr "=" -> c <> chr "&" -> c_tokens (chr "&" :: c :: r) = option_map (cons (KOp (u "&"))) (c_tokens (c :: r)).
Proof.
  intros c r H G. assert (H1 : (chr "=" =? c) = false) by (apply N.eqb_neq; congruence).
  assert (H2 : (chr "&" =? c) = false) by (apply N.eqb_neq; congruence). unfold chr in H1, H2.
  apply lex_punct; try reflexivity. punct2.
Qed.
Lemma lex_minus : forall c r, c <> chr "=" -> c <> chr "-" -> c <> chr ">" ->
  c_tokens (chr "-" :: c :: r) = option_map (cons (KOp (u "-"))) (c_tokens (c :: r)).
Proof.
  intros c r H G K. assert (H1 : (chr "=" =? c) = false) by (apply N.eqb_neq; congruence).
  assert (H2 : (chr "-" =? c) = false) by (apply N.eqb_neq; congruence).
  assert (H3 : (chr ">" =? c) = false) by (apply N.eqb_neq; congruence). unfold chr in H1, H2, H3.
  apply lex_punct; try reflexivity. punct2.
Qed.

(** An infix operator between blanks. *)
Definition infix_ops : list text :=
  map u ["+"; "-"; "*"; "/"; "%"; "<<"; ">>"; "=="; "!="; "<"; ">"; "<="; ">="; "&&"; "||"; "^"]%string.
Lemma lex_infix : forall op r, In op infix_ops ->
  c_tokens (chr " " :: op ++ chr " " :: r) = option_map (cons (KOp op)) (c_tokens r).
Proof.
  intros op r I. rewrite lex_blank by reflexivity. cbn in I.
  repeat (destruct I as [<-|I]; [cbn [app];
    (etransitivity; [eapply lex_punct; reflexivity|]); f_equal; apply lex_blank; reflexivity|]).
  contradiction.
Qed.
