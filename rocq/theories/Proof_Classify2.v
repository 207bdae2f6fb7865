(** The classifier as a whole: totality, classes of words, no overlap. *)
From Coq Require Import List Arith NArith Bool Lia Ascii String.
From Verif Require Import Base Model_Token Model_Utf8 Model_Classify Spec_Token Spec_Classify
  Proof_Utf8 Proof_Classify Proof_Token5.
Import ListNotations.
Open Scope list_scope.
Open Scope N_scope.

(** ** A token on a word *)
Lemma from_ptr_at : forall pre r, from_ptr (pre ++ r) (Some (List.length pre)) = Ok r.
Proof.
  intros pre r. unfold from_ptr. rewrite app_length.
  assert (H : (List.length pre <=? List.length pre + List.length r)%nat = true) by (apply Nat.leb_le; lia).
  rewrite H. now rewrite skipn_app, skipn_all, Nat.sub_diag.
Qed.

Lemma on_ptr : forall src t w, on_word src t w -> exists post, from_ptr src (t_begin t) = Ok (w ++ post).
Proof. intros src t w (pre & post & -> & E & _). exists post. rewrite E. apply from_ptr_at. Qed.

Lemma on_string : forall src t w, on_word src t w -> token_to_string src t = Ok w.
Proof.
  intros src t w H. destruct (on_ptr _ _ _ H) as (post & E). destruct H as (_ & _ & _ & _ & L).
  unfold token_to_string. rewrite E. cbn [bind]. rewrite L, Nnat.Nat2N.id.
  now rewrite firstn_app, firstn_all, Nat.sub_diag, app_nil_r.
Qed.

Lemma c32sncmp_ok : forall a b post, List.length a = List.length b ->
  c32sncmp a (b ++ post) (List.length b) = text_eqb a b.
Proof.
  induction a as [|x a IH]; intros [|y b] post L; try discriminate.
  - cbn. destruct post; reflexivity.
  - cbn [app c32sncmp List.length text_eqb]. destruct (x =? y); [|reflexivity]. apply IH. now injection L.
Qed.

Lemma on_cmp : forall src t w s, on_word src t w -> token_cmp src s t = Ok (text_eqb s w).
Proof.
  intros src t w s H. destruct (on_ptr _ _ _ H) as (post & E). destruct H as (_ & _ & _ & _ & L).
  unfold token_cmp. rewrite L. destruct (N.of_nat (List.length s) =? N.of_nat (List.length w)) eqn:EL.
  - apply N.eqb_eq, Nnat.Nat2N.inj in EL. rewrite E. cbn [bind]. rewrite Nnat.Nat2N.id. now rewrite c32sncmp_ok.
  - apply N.eqb_neq in EL. symmetry. f_equal. apply text_eqb_neq. intros ->. now apply EL.
Qed.

Lemma on_last : forall src t w, on_word src t w -> w <> [] ->
  (do s <- from_ptr src (t_begin t); rd s (N.to_nat (t_len t) - 1)) = Ok (last w 0).
Proof.
  intros src t w H Nw. destruct (on_ptr _ _ _ H) as (post & E). destruct H as (_ & _ & _ & _ & L).
  rewrite E. cbn [bind]. rewrite L, Nnat.Nat2N.id. unfold rd. rewrite app_length.
  assert (0 < List.length w)%nat by (destruct w; [congruence|cbn; lia]).
  assert (X : (List.length w - 1 <? List.length w + List.length post)%nat = true) by (apply Nat.ltb_lt; lia).
  rewrite X. rewrite app_nth1 by lia. now rewrite nth_last.
Qed.

Lemma try_str_ok : forall src t w l, on_word src t w ->
  try_str src t l = Ok (option_map snd (find (fun p => text_eqb (fst p) w) l)).
Proof.
  intros src t w l H. induction l as [|(s, ty) l IH]; [reflexivity|].
  cbn [try_str find fst]. rewrite (on_cmp _ _ _ _ H). cbn [bind]. destruct (text_eqb s w); [reflexivity|apply IH].
Qed.

(** ** What a word becomes, as a function *)
Definition word_type (w : text) : option ttype :=
  match w with
  | [c] => match single_char c with Some ty => Some ty | None => option_map snd (find (fun p => text_eqb (fst p) w) keywords) end
  | _ => option_map snd (find (fun p => text_eqb (fst p) w) keywords)
  end.

Lemma word_type_sound : forall w ty, word_type w = Some ty -> In (w, ty) word_table.
Proof.
  assert (K : forall w ty, option_map snd (find (fun p => text_eqb (fst p) w) keywords) = Some ty -> In (w, ty) word_table).
  { intros w ty H. destruct (find _ keywords) as [(s, ty')|] eqn:F; [|discriminate].
    apply find_some in F as (I & E). cbn [fst] in E. apply text_eqb_eq in E. subst s.
    cbn [option_map snd] in H. apply some_inj in H. subst ty'.
    revert I. unfold keywords, word_table. cbn [In]. tauto. }
  intros w ty. unfold word_type. destruct w as [|c [|d w]]; try apply K.
  destruct (single_char c) as [ty'|] eqn:S; [|apply K]. intro H. apply some_inj in H. subst ty'.
  revert S. unfold single_char.
  repeat match goal with |- (if ?c =? ?k then _ else _) = _ -> _ =>
    let E := fresh in destruct (c =? k) eqn:E;
    [apply N.eqb_eq in E; subst c; intro S; apply some_inj in S; subst ty; unfold word_table; cbn [In u]; tauto|clear E] end.
  discriminate.
Qed.

Lemma word_type_complete : forall w ty, In (w, ty) word_table -> word_type w = Some ty.
Proof.
  intros w ty H. unfold word_table in H. cbn [In] in H.
  repeat (destruct H as [H|H]; [apply pair_equal_spec in H as (<- & <-); vm_compute; reflexivity|]). destruct H.
Qed.

Lemma word_type_none : forall w, word_type w = None <-> forall ty, ~ In (w, ty) word_table.
Proof.
  intro w. split.
  - intros E ty H. apply word_type_complete in H. congruence.
  - intro H. destruct (word_type w) as [ty|] eqn:E; [|reflexivity]. apply word_type_sound in E. now apply H in E.
Qed.

(** ** The classifier behind the word table *)
Definition rest_type (src w : text) (t : token) : res token :=
  if is_constant_integer_str w then Ok (set_type t T_INT_CONST)
  else
    do fl <- is_constant_float_str w;
    if fl then Ok (set_type t T_FLOAT_CONST)
    else if is_constant_bool_str w then Ok (set_type t T_BOOL_CONST)
    else if is_constant_rune_str w then Ok (set_type t T_RUNE_CONST)
    else if is_constant_str_str w then Ok (set_type t T_STR_CONST)
    else if is_valid_identifier_str w then classify_identifier src w t
    else Ok t.

Lemma classify_steps : forall src t w, on_word src t w -> w <> [] -> t_type t = T_UNKNOWN ->
  classify_token src t = match word_type w with Some ty => Ok (set_type t ty) | None => rest_type src w t end.
Proof.
  intros src t w H Nw Ht. unfold classify_token. rewrite Ht.
  rewrite (on_string _ _ _ H), (try_str_ok _ _ _ _ H).
  destruct (on_ptr _ _ _ H) as (post & E). destruct H as (_ & _ & _ & _ & L). rewrite E, L.
  unfold word_type, rest_type.
  destruct w as [|c [|d w]]; [congruence| |].
  - cbn [List.length]. change (N.of_nat 1 =? 1) with true. cbv iota. cbn [bind app rd nth List.length Nat.ltb].
    cbn. destruct (single_char c); [reflexivity|]. cbn [bind]. destruct (option_map _ _); reflexivity.
  - assert (X : (N.of_nat (List.length (c :: d :: w)) =? 1) = false) by (apply N.eqb_neq; cbn [List.length]; lia).
    rewrite X. cbn [bind]. destruct (option_map _ _); reflexivity.
Qed.

Definition float_b (w : text) : bool := match is_constant_float_str w with Ok b => b | UB => false end.
Definition has_dot (w : text) : bool := existsb (fun c => c =? chr ".") w.

(** The class of a word as a function. *)
Definition class_of (w : text) : option ttype :=
  match word_type w with
  | Some ty => Some ty
  | None =>
      if is_constant_integer_str w then Some T_INT_CONST
      else if float_b w then Some T_FLOAT_CONST
      else if is_constant_bool_str w then Some T_BOOL_CONST
      else if is_constant_rune_str w then Some T_RUNE_CONST
      else if is_constant_str_str w then Some T_STR_CONST
      else if is_valid_identifier_str w then
        if last w 0 =? colon then
          if has_dot w then None
          else if is_reserved_str (removelast w) || existsb (text_eqb (removelast w)) builtin_names then None
          else Some T_NEW_IDENTIFIER
        else Some (if has_dot w then T_DOT_IDENTIFIER else T_IDENTIFIER)
      else None
  end.

(** The token that comes out. *)
Definition become (t : token) (c : option ttype) : token :=
  match c with
  | None => t
  | Some T_NEW_IDENTIFIER => set_len (set_type t T_NEW_IDENTIFIER) (t_len t - 1)
  | Some ty => set_type t ty
  end.

Lemma set_unknown : forall t, t_type t = T_UNKNOWN -> set_type t T_UNKNOWN = t.
Proof. intros [b l ty lc] H. cbn in H. now subst ty. Qed.

Lemma word_type_not_new : forall w, word_type w <> Some T_NEW_IDENTIFIER.
Proof.
  intros w H. apply word_type_sound in H. unfold word_table in H. cbn [In] in H.
  repeat (destruct H as [H|H]; [apply pair_equal_spec in H as (_ & H); discriminate|]). destruct H.
Qed.

Lemma float_b_ok : forall w, w <> [] -> is_constant_float_str w = Ok (float_b w) /\ (float_b w = true <-> float_word w).
Proof. intros w Nw. destruct (float_ok w Nw) as (b & E & H). unfold float_b. rewrite E. auto. Qed.

Lemma removelast_firstn_len : forall (w : text), removelast w = firstn (List.length w - 1) w.
Proof. intro w. rewrite removelast_firstn_len. f_equal. lia. Qed.

Lemma name_char_ascii : forall c, name_char c -> c < 128.
Proof. intros c [H|[H|[->| ->]]]; unfold letter, digit in *; cbn in *; lia. Qed.
Lemma letter_name_char : forall c, letter c -> name_char c.
Proof. unfold name_char. tauto. Qed.

Lemma nameish_ascii : forall n, nameish n -> Forall (fun c => c < 128) n.
Proof.
  intros n (c & r & -> & H & F). constructor; [apply name_char_ascii, letter_name_char, H|].
  eapply Forall_impl; [|exact F]. exact name_char_ascii.
Qed.

Lemma name_nameish : forall n, name n -> nameish n.
Proof. intros n (c & r & E & H & F & _). exists c, r. auto. Qed.

Lemma nameish_chars : forall n, nameish n -> Forall name_char n.
Proof. intros n (c & r & -> & H & F). constructor; [now apply letter_name_char|assumption]. Qed.

Lemma last_in : forall (w : text), w <> [] -> In (last w 0) w.
Proof. intros w H. destruct (snoc w H) as (a & x & ->). rewrite last_last. apply in_or_app. right. now left. Qed.

Lemma nameish_nonempty : forall n, nameish n -> n <> [].
Proof. intros n (c & r & -> & _). discriminate. Qed.

Lemma nameish_last : forall n, nameish n -> last n 0 <> colon.
Proof.
  intros n H. pose proof (nameish_chars n H) as F. rewrite Forall_forall in F.
  apply name_char_facts, F, last_in, nameish_nonempty, H.
Qed.

Lemma has_dot_ok : forall w, has_dot w = true <-> dotted w.
Proof.
  intro w. unfold has_dot, dotted. rewrite existsb_exists. split.
  - intros (x & I & E). apply N.eqb_eq in E. now subst x.
  - intro I. exists (chr "."). split; [assumption|apply N.eqb_refl].
Qed.

Lemma has_dot_snoc : forall n, has_dot (n ++ [colon]) = has_dot n.
Proof. intro n. unfold has_dot. rewrite existsb_app. cbn. now rewrite orb_false_r. Qed.

Lemma reserved_ok : forall w, is_reserved_str w = true <-> In w reserved.
Proof.
  intro w. unfold is_reserved_str. rewrite existsb_exists. split.
  - intros (x & I & E). apply text_eqb_eq in E. subst x. revert I. unfold reserved_words, reserved. cbn [In]. tauto.
  - intro I. exists w. split; [|apply text_eqb_refl]. revert I. unfold reserved_words, reserved. cbn [In]. tauto.
Qed.

Lemma types_ok : forall w, existsb (text_eqb w) builtin_names = true <-> In w type_names.
Proof.
  intro w. rewrite existsb_exists. split.
  - intros (x & I & E). apply text_eqb_eq in E. subst x. revert I. unfold builtin_names, type_names. cbn [In]. tauto.
  - intro I. exists w. split; [|apply text_eqb_refl]. revert I. unfold builtin_names, type_names. cbn [In]. tauto.
Qed.

Lemma classify_is : forall src t w, on_word src t w -> w <> [] -> t_type t = T_UNKNOWN ->
  classify_token src t = Ok (become t (class_of w)).
Proof.
  intros src t w H Nw Ht. rewrite (classify_steps _ _ _ H Nw Ht). unfold class_of.
  destruct (word_type w) as [ty|] eqn:W.
  - pose proof (word_type_not_new w). destruct ty; try reflexivity. congruence.
  - unfold rest_type. destruct (is_constant_integer_str w); [reflexivity|].
    destruct (float_b_ok w Nw) as (-> & _). cbn [bind].
    destruct (float_b w); [reflexivity|]. destruct (is_constant_bool_str w); [reflexivity|].
    destruct (is_constant_rune_str w); [reflexivity|]. destruct (is_constant_str_str w); [reflexivity|].
    destruct (is_valid_identifier_str w) eqn:V; [|reflexivity].
    unfold classify_identifier. fold (has_dot w).
    assert (L : t_len t = N.of_nat (List.length w)) by (destruct H as (_ & _ & _ & _ & L); exact L).
    assert (L0 : (t_len t =? 0) = false).
    { apply N.eqb_neq. rewrite L. destruct w; [congruence|cbn [List.length]; lia]. }
    rewrite L0. pose proof (on_last _ _ _ H Nw) as OL.
    destruct (from_ptr src (t_begin t)) as [s|]; [|discriminate]. cbn [bind] in OL |- *. rewrite OL. cbn [bind].
    destruct (last w 0 =? colon) eqn:EL.
    + destruct (has_dot w); [now rewrite set_unknown|].
      rewrite L, Nnat.Nat2N.id, <- removelast_firstn_len.
      destruct (is_reserved_str (removelast w)); [cbn [orb]; now rewrite set_unknown|]. cbn [orb].
      apply ident_ok in V as [V|(n & E & V)].
      { apply name_nameish, nameish_last in V. apply N.eqb_eq in EL. contradiction. }
      subst w. rewrite removelast_last. unfold is_type_str. rewrite (ascii_mbs n) by (now apply nameish_ascii). cbn [bind].
      destruct (existsb _ _); [now rewrite set_unknown|]. now rewrite <- L.
    + destruct (has_dot w); reflexivity.
Qed.

(** ** The function agrees with the grammar *)
Lemma table_not : forall w ty, In (w, ty) word_table ->
  is_constant_integer_str w = false /\ float_b w = false /\ is_constant_bool_str w = false /\
  is_constant_rune_str w = false /\ is_constant_str_str w = false /\ has_dot w = false /\ last w 0 <> colon /\
  (letter (hd 0 w) -> In w reserved).
Proof.
  intros w ty H. unfold word_table in H. cbn [In] in H.
  repeat (destruct H as [H|H]; [apply pair_equal_spec in H as (<- & _);
    repeat (split; [vm_compute; first [reflexivity|discriminate]|]);
    first [intros _; unfold reserved; cbn [In]; tauto | unfold letter; cbn; lia]|]). destruct H.
Qed.

Lemma int_chars : forall s, int_word s -> (digit (hd 0 s) \/ hd 0 s = chr "-") /\ ~ In (chr ".") s /\ ~ In (chr "I") s.
Proof.
  assert (D : forall (D : N -> Prop) s, digits D s -> (forall c, D c -> c <> chr "." /\ c <> chr "I") -> ~ In (chr ".") s /\ ~ In (chr "I") s).
  { intros D s H HD. induction H as [d Hd|d s Hd Hs (I1 & I2)|d s Hd Hs (I1 & I2)]; apply HD in Hd as (A & B); cbn [In].
    - intuition congruence.
    - intuition congruence.
    - split; intros [X|[X|X]]; try congruence; try contradiction; discriminate. }
  intros s [x H|x H|x H|x H|x H]; apply D in H as HD; try (unfold hex_digit, octal_digit, binary_digit, digit; cbn; intros; lia).
  - split; [|assumption]. left. apply digits_head in H as (d & r & -> & H). exact H.
  - split; [now right|]. cbn [In]. split; intros [X|X]; try discriminate; tauto.
  - split; [left; unfold digit; cbn; lia|]. cbn. split; intros [X|[X|X]]; try discriminate; tauto.
  - split; [left; unfold digit; cbn; lia|]. cbn. split; intros [X|[X|X]]; try discriminate; tauto.
  - split; [left; unfold digit; cbn; lia|]. cbn. split; intros [X|[X|X]]; try discriminate; tauto.
Qed.

Lemma float_chars : forall s, float_word s ->
  (digit (hd 0 s) \/ hd 0 s = chr "-" \/ s = u "NaN" \/ s = u "Infinity") /\
  (In (chr ".") s \/ In (chr "I") s \/ s = u "NaN").
Proof.
  intros s [| | |a b Ha Hb Hd|a b Ha Hb Hd]; [cbn; tauto|cbn; tauto|cbn; tauto| |].
  - split.
    + left. apply digits_head in Ha as (d & r & -> & H). exact H.
    + left. apply in_or_app. right. now left.
  - split; [right; now left|]. left. right. apply in_or_app. right. now left.
Qed.

Lemma float_not_int : forall w, float_word w -> is_constant_integer_str w = false.
Proof.
  intros w F. destruct (is_constant_integer_str w) eqn:E0; [|reflexivity]. pose proof E0 as E.
  apply int_ok in E as (E & _). apply int_chars in E as (_ & A & B). apply float_chars in F as (_ & [F|[F|F]]); try contradiction.
  subst w. vm_compute in E0. discriminate.
Qed.

Lemma false_iff : forall (b : bool) P, (b = true <-> P) -> ~ P -> b = false.
Proof. intros [] P H N; [|reflexivity]. exfalso. now apply N, H. Qed.

Lemma head_letter : forall w, letter (hd 0 w) -> w <> u "NaN" -> w <> u "Infinity" ->
  is_constant_integer_str w = false /\ float_b w = false /\ is_constant_rune_str w = false /\ is_constant_str_str w = false.
Proof.
  intros w L N1 N2. assert (Nw : w <> []) by (intros ->; destruct L as [(L & _)|(L & _)]; apply L; reflexivity).
  repeat split.
  - eapply false_iff; [apply int_ok|]. intros (X & _). apply int_chars in X as ([X|X] & _); remember (hd 0 w) as h; clear - L X; unfold letter, digit in *; cbn in *; lia.
  - eapply false_iff; [apply (float_b_ok w Nw)|]. intros X. apply float_chars in X as ([X|[X|[X|X]]] & _); try contradiction; remember (hd 0 w) as h; clear - L X; unfold letter, digit in *; cbn in *; lia.
  - eapply false_iff; [apply rune_ok|]. intro X; revert L; destruct X; intro L; destruct L as [(L & _)|(L & _)]; apply L; reflexivity.
  - eapply false_iff; [apply str_ok|]. intro X; revert L; destruct X; intro L; destruct L as [(L & _)|(L & _)]; apply L; reflexivity.
Qed.

Lemma word_none_unless : forall w,
  (forall ty, In (w, ty) word_table -> False) -> word_type w = None.
Proof. intros w H. apply word_type_none. exact H. Qed.

Lemma not_reserved_neq : forall w, ~ In w reserved -> w <> u "NaN" /\ w <> u "Infinity" /\ ~ bool_word w.
Proof.
  intros w H. repeat split; [intros ->|intros ->|intro X; destruct X]; apply H; unfold reserved; cbn [In]; tauto.
Qed.

Lemma reserved_has_class : forall w, In w reserved ->
  (exists ty, word_type w = Some ty) \/ float_b w = true \/ is_constant_bool_str w = true.
Proof.
  intros w H. unfold reserved in H. cbn [In] in H.
  repeat (destruct H as [<-|H]; [first [left; eexists; vm_compute; reflexivity|right; left; vm_compute; reflexivity|right; right; vm_compute; reflexivity]|]).
  destruct H.
Qed.

Lemma name_letter : forall w, nameish w -> letter (hd 0 w).
Proof. intros w (c & r & -> & H & _). exact H. Qed.

Lemma snoc_letter : forall n, nameish n -> letter (hd 0 (n ++ [colon])).
Proof. intros n (c & r & -> & H & _). exact H. Qed.

Lemma reserved_last : forall w, In w reserved -> last w 0 <> colon /\ has_dot w = false.
Proof.
  intros w H. unfold reserved in H. cbn [In] in H.
  repeat (destruct H as [<-|H]; [split; [vm_compute; discriminate|reflexivity]|]). destruct H.
Qed.

Lemma class_complete : forall w ty, is_class w ty -> class_of w = Some ty.
Proof.
  intros w ty [s t H|s H Z|s H|s H|s H|s H|s H D R|s H D|s H D R T]; unfold class_of.
  - now rewrite (word_type_complete _ _ H).
  - assert (E : is_constant_integer_str s = true) by (apply int_ok; auto).
    rewrite word_none_unless, E; [reflexivity|]. intros ty0 I. apply table_not in I as (X & _). congruence.
  - assert (Ns : s <> []). { apply float_chars in H as (_ & [X|[X|X]]); intros ->; [destruct X|destruct X|discriminate]. }
    assert (E : float_b s = true) by (now apply (float_b_ok s Ns)).
    rewrite word_none_unless, (float_not_int _ H), E; [reflexivity|]. intros ty0 I. apply table_not in I as (_ & X & _). congruence.
  - destruct H; reflexivity.
  - assert (E : is_constant_rune_str s = true) by (now apply rune_ok).
    rewrite word_none_unless by (intros ty0 I; apply table_not in I as (_ & _ & _ & X & _); congruence).
    assert (Ns : s <> []) by (destruct H; discriminate).
    assert (E1 : is_constant_integer_str s = false).
    { eapply false_iff; [apply int_ok|]. intros (X & _). apply int_chars in X as ([X|X] & _); destruct H; unfold digit in X; cbn in X; lia. }
    assert (E2 : float_b s = false).
    { eapply false_iff; [apply (float_b_ok s Ns)|]. intros X. apply float_chars in X as ([X|[X|[X|X]]] & _); destruct H; try (unfold digit in X; cbn in X; lia); discriminate. }
    assert (E3 : is_constant_bool_str s = false).
    { eapply false_iff; [apply bool_ok|]. intros X. destruct H; remember (39 :: _) as z eqn:Ez; destruct X; discriminate. }
    now rewrite E1, E2, E3, E.
  - assert (E : is_constant_str_str s = true) by (now apply str_ok).
    rewrite word_none_unless by (intros ty0 I; apply table_not in I as (_ & _ & _ & _ & X & _); congruence).
    assert (Ns : s <> []) by (destruct H; discriminate).
    assert (E1 : is_constant_integer_str s = false).
    { eapply false_iff; [apply int_ok|]. intros (X & _). apply int_chars in X as ([X|X] & _); destruct H; unfold digit in X; cbn in X; lia. }
    assert (E2 : float_b s = false).
    { eapply false_iff; [apply (float_b_ok s Ns)|]. intros X. apply float_chars in X as ([X|[X|[X|X]]] & _); destruct H; try (unfold digit in X; cbn in X; lia); discriminate. }
    assert (E3 : is_constant_bool_str s = false).
    { eapply false_iff; [apply bool_ok|]. intros X. destruct H; remember (34 :: _) as z eqn:Ez; destruct X; discriminate. }
    assert (E4 : is_constant_rune_str s = false).
    { eapply false_iff; [apply rune_ok|]. intros X. destruct H; remember (34 :: _) as z eqn:Ez; destruct X; discriminate. }
    now rewrite E1, E2, E3, E4, E.
  - pose proof (name_nameish _ H) as Hn. pose proof (name_letter _ Hn) as Hl.
    destruct (not_reserved_neq _ R) as (N1 & N2 & N3). destruct (head_letter _ Hl N1 N2) as (E1 & E2 & E3 & E4).
    rewrite word_none_unless by (intros ty0 I; apply table_not in I as (_ & _ & _ & _ & _ & _ & _ & X); auto).
    rewrite E1, E2, E3, E4. rewrite (false_iff _ _ (bool_ok s) N3).
    assert (E5 : is_valid_identifier_str s = true) by (apply ident_ok; now left). rewrite E5.
    pose proof (nameish_last _ Hn) as E6. apply N.eqb_neq in E6. rewrite E6.
    now rewrite (false_iff _ _ (has_dot_ok s) D).
  - pose proof (name_nameish _ H) as Hn. pose proof (name_letter _ Hn) as Hl.
    apply has_dot_ok in D.
    assert (R : ~ In s reserved) by (intro X; apply reserved_last in X as (_ & X); congruence).
    destruct (not_reserved_neq _ R) as (N1 & N2 & N3). destruct (head_letter _ Hl N1 N2) as (E1 & E2 & E3 & E4).
    rewrite word_none_unless by (intros ty0 I; apply table_not in I as (_ & _ & _ & _ & _ & _ & _ & X); auto).
    rewrite E1, E2, E3, E4. rewrite (false_iff _ _ (bool_ok s) N3).
    assert (E5 : is_valid_identifier_str s = true) by (apply ident_ok; now left). rewrite E5.
    pose proof (nameish_last _ Hn) as E6. apply N.eqb_neq in E6. now rewrite E6, D.
  - pose proof (name_nameish _ H) as Hn. pose proof (snoc_letter _ Hn) as Hl.
    assert (R' : ~ In (s ++ [colon]) reserved).
    { intro X. apply reserved_last in X as (X & _). rewrite last_last in X. congruence. }
    destruct (not_reserved_neq _ R') as (N1 & N2 & N3). destruct (head_letter _ Hl N1 N2) as (E1 & E2 & E3 & E4).
    rewrite word_none_unless by (intros ty0 I; apply table_not in I as (_ & _ & _ & _ & _ & _ & _ & X); auto).
    rewrite E1, E2, E3, E4. rewrite (false_iff _ _ (bool_ok _) N3).
    assert (E5 : is_valid_identifier_str (s ++ [colon]) = true) by (apply ident_ok; right; eauto). rewrite E5.
    rewrite last_last, N.eqb_refl, has_dot_snoc, (false_iff _ _ (has_dot_ok s) D), removelast_last.
    now rewrite (false_iff _ _ (reserved_ok s) R), (false_iff _ _ (types_ok s) T).
Qed.

Lemma class_sound : forall w ty, w <> [] -> class_of w = Some ty -> is_class w ty.
Proof.
  intros w ty Nw. unfold class_of. destruct (word_type w) as [t|] eqn:W.
  { intro H. apply some_inj in H. subst t. apply ic_word. now apply word_type_sound. }
  destruct (is_constant_integer_str w) eqn:E1.
  { intro H. apply some_inj in H. subst ty. apply int_ok in E1 as (A & B). now apply ic_int. }
  destruct (float_b w) eqn:E2.
  { intro H. apply some_inj in H. subst ty. apply ic_float. now apply (float_b_ok w Nw). }
  destruct (is_constant_bool_str w) eqn:E3.
  { intro H. apply some_inj in H. subst ty. apply ic_bool. now apply bool_ok. }
  destruct (is_constant_rune_str w) eqn:E4.
  { intro H. apply some_inj in H. subst ty. apply ic_rune. now apply rune_ok. }
  destruct (is_constant_str_str w) eqn:E5.
  { intro H. apply some_inj in H. subst ty. apply ic_str. now apply str_ok. }
  destruct (is_valid_identifier_str w) eqn:V; [|discriminate].
  apply ident_ok in V as [V|(n & -> & V)].
  - pose proof (nameish_last _ (name_nameish _ V)) as E6. apply N.eqb_neq in E6. rewrite E6.
    intro H. apply some_inj in H. subst ty. destruct (has_dot w) eqn:D.
    + apply ic_dotted; [assumption|]. now apply has_dot_ok.
    + apply ic_name; [assumption| |].
      * intro X. apply has_dot_ok in X. congruence.
      * intro X. apply reserved_has_class in X as [(t & X)|[X|X]]; congruence.
  - rewrite last_last, N.eqb_refl, has_dot_snoc, removelast_last. destruct (has_dot n) eqn:D; [discriminate|].
    destruct (is_reserved_str n) eqn:R; [discriminate|]. cbn [orb]. destruct (existsb _ _) eqn:T; [discriminate|].
    intro H. apply some_inj in H. subst ty.
    assert (Nd : ~ dotted n) by (intro X; apply has_dot_ok in X; congruence).
    apply ic_new; [|assumption| |].
    + destruct V as (c & r & -> & Hl & F). exists c, r. repeat split; try assumption.
      intro X. apply Nd. unfold dotted. rewrite <- X. apply last_in. discriminate.
    + intro X. apply reserved_ok in X. congruence.
    + intro X. apply types_ok in X. congruence.
Qed.

Lemma class_unique_l : forall w a b, is_class w a -> is_class w b -> a = b.
Proof. intros w a b A B. apply class_complete in A. apply class_complete in B. apply some_inj. congruence. Qed.

Lemma class_none : forall w, w <> [] -> class_of w = None <-> no_class w.
Proof.
  intros w Nw. split.
  - intros E ty H. apply class_complete in H. congruence.
  - intro H. destruct (class_of w) as [ty|] eqn:E; [|reflexivity]. apply class_sound in E; [|assumption]. now apply H in E.
Qed.

Lemma class_known : forall w ty, is_class w ty -> ty <> T_UNKNOWN.
Proof.
  intros w ty [s t H| | | | | | | |]; try discriminate.
  unfold word_table in H. cbn [In] in H.
  repeat (destruct H as [H|H]; [apply pair_equal_spec in H as (_ & <-); discriminate|]). destruct H.
Qed.

Lemma become_fields : forall t c, t_begin (become t c) = t_begin t /\ t_loc (become t c) = t_loc t /\
  t_type (become t c) = match c with Some ty => ty | None => t_type t end /\
  t_len (become t c) = match c with Some T_NEW_IDENTIFIER => t_len t - 1 | _ => t_len t end.
Proof. intros t [ty|]; [destruct ty|]; repeat split. Qed.

Lemma classify_word_l : forall src t w, on_word src t w -> w <> [] -> t_type t = T_UNKNOWN ->
  exists t', classify_token src t = Ok t' /\ classified src t t' /\
    (forall ty, ty <> T_UNKNOWN -> (t_type t' = ty <-> is_class w ty)).
Proof.
  intros src t w H Nw Ht. exists (become t (class_of w)). split; [now apply classify_is|].
  destruct (become_fields t (class_of w)) as (F1 & F2 & F3 & F4). split.
  - split; [assumption|]. split; [assumption|]. split; [congruence|]. intros _. exists w. split; [assumption|]. split; [assumption|].
    destruct (class_of w) as [ty|] eqn:E.
    + right. rewrite F3. split; [now apply class_sound|]. rewrite F4. split; [intros ->; reflexivity|].
      intro X. destruct ty; congruence.
    + left. split; [|reflexivity]. now apply class_none.
  - intros ty Nty. rewrite F3. destruct (class_of w) as [ty'|] eqn:E.
    + split; [intros <-; now apply class_sound|]. intro X. apply class_complete in X. congruence.
    + rewrite Ht. split; [congruence|]. intro X. apply class_complete in X. congruence.
Qed.

Lemma classify_typed : forall src t, t_type t <> T_UNKNOWN -> classify_token src t = Ok t.
Proof. intros src t H. unfold classify_token. destruct (t_type t); congruence. Qed.

Lemma lexed_in : forall p s ls, lexed p s ls -> forall x, In x ls ->
  exists pre w post, s = pre ++ w ++ post /\ x_begin x = (p + List.length pre)%nat /\ x_len x = List.length w /\ w <> [].
Proof.
  intros p s ls H. induction H as [p|p c s ls B N H IH|p c s ls D H IH|p w cm s ls W S H IH]; intros x I.
  - destruct I.
  - destruct (IH x I) as (pre & w & post & -> & E1 & E2 & E3). exists (c :: pre), w, post. repeat split; try assumption. cbn [List.length]. lia.
  - destruct I as [<-|I].
    + exists [], [c], s. cbn [x_begin x_len]. repeat split; try discriminate. cbn. lia.
    + destruct (IH x I) as (pre & w & post & -> & E1 & E2 & E3). exists (c :: pre), w, post. repeat split; try assumption. cbn [List.length]. lia.
  - destruct I as [<-|I].
    + exists [], w, s. cbn [x_begin x_len]. repeat split; [cbn; lia|]. intros ->.
      remember [] as e eqn:Ee. destruct W as [y c s P|y c w c' s P W]; subst.
      * remember [] as e eqn:Ee. destruct P; try discriminate.
      * apply app_eq_nil in Ee as (-> & _). remember [] as e eqn:Ee. destruct P; discriminate.
    + destruct (IH x I) as (pre & w' & post & -> & E1 & E2 & E3). exists (w ++ pre), w', post.
      rewrite <- app_assoc. repeat split; try assumption. rewrite app_length. lia.
Qed.

Lemma classify_all : forall src ts, Forall (fun t => exists w, w <> [] /\ on_word src t w) ts ->
  exists ts', classify_tokens src ts = Ok ts' /\ Forall2 (classified src) ts ts'.
Proof.
  intros src ts. induction ts as [|t ts IH]; intro F.
  - exists []. split; [reflexivity|constructor].
  - apply Forall_cons_iff in F as ((w & Nw & H) & F). destruct (IH F) as (ts' & E & F2). cbn [classify_tokens]. rewrite E.
    assert (D : t_type t = T_UNKNOWN \/ t_type t <> T_UNKNOWN) by (destruct (t_type t); auto; right; discriminate).
    destruct D as [D|D].
    + destruct (classify_word_l _ _ _ H Nw D) as (t' & Et & C & _). rewrite Et. cbn [bind]. exists (t' :: ts'). split; [reflexivity|now constructor].
    + rewrite (classify_typed _ _ D). cbn [bind]. exists (t :: ts'). split; [reflexivity|]. constructor; [|assumption].
      split; [reflexivity|]. split; [reflexivity|]. split; [reflexivity|contradiction].
Qed.

Lemma classifier_total_l : forall werror src w ts, source src -> fits src ->
  tokenize werror src = Tokens w ts -> ts <> [empty_token] ->
  exists ts', classify_tokens (behind_bom src) ts = Ok ts' /\ Forall2 (classified (behind_bom src)) ts ts'.
Proof.
  intros werror src w ts S F E Ne. destruct (tokens_are_l _ _ _ _ S F E) as (_ & ls & L & E1 & E2).
  apply classify_all. destruct ls as [|l ls]; [now rewrite E1 in Ne|].
  specialize (E2 ltac:(discriminate)). apply Forall_forall. intros t I.
  destruct (forall2_in _ _ _ _ _ _ E2 I) as (x & Ix & (B & Ln & _)).
  destruct (lexed_in _ _ _ L x Ix) as (pre & v & post & Es & Eb & El & Nv).
  exists v. split; [assumption|]. exists pre, post. split; [assumption|]. rewrite B, Ln, Eb, El. auto.
Qed.

Lemma on_word_unique : forall src t a b, on_word src t a -> on_word src t b -> a = b.
Proof.
  intros src t a b A B. apply on_string in A. apply on_string in B. congruence.
Qed.

Lemma names_not_reserved_l : forall src t t' w n, on_word src t w -> w <> [] -> t_type t = T_UNKNOWN ->
  classify_token src t = Ok t' -> name_type (t_type t') -> on_word src t' n ->
  ~ In n reserved /\ (t_type t' = T_NEW_IDENTIFIER -> ~ In n type_names).
Proof.
  intros src t t' w n H Nw Ht E Nt On. destruct (classify_word_l _ _ _ H Nw Ht) as (t'' & E' & (Cb & Cl & _ & C) & _).
  assert (t'' = t') by congruence. subst t''. destruct (C Ht) as (w' & Nw' & H' & Cases).
  assert (w' = w) by (eapply on_word_unique; eassumption). subst w'.
  destruct Cases as [(_ & ->)|(K & L1 & L2)].
  { rewrite Ht in Nt. destruct Nt as [X|[X|X]]; discriminate. }
  assert (Same : t_type t' <> T_NEW_IDENTIFIER -> n = w).
  { intro X. apply (on_word_unique src t' n w); [assumption|]. destruct H as (pre & post & A & B & D).
    exists pre, post. split; [assumption|]. rewrite Cb, (L2 X). auto. }
  remember (t_type t') as ty eqn:Ety. destruct K as [s ty I|s I Z|s I|s I|s I|s I|s I D R|s I D|s I D R T].
  - exfalso. unfold word_table in I. cbn [In] in I.
    repeat (destruct I as [I|I]; [apply pair_equal_spec in I as (_ & <-); destruct Nt as [X|[X|X]]; discriminate|]). destruct I.
  - destruct Nt as [X|[X|X]]; discriminate.
  - destruct Nt as [X|[X|X]]; discriminate.
  - destruct Nt as [X|[X|X]]; discriminate.
  - destruct Nt as [X|[X|X]]; discriminate.
  - destruct Nt as [X|[X|X]]; discriminate.
  - rewrite Same by discriminate. split; [assumption|discriminate].
  - rewrite Same by discriminate. split; [|discriminate]. intro X. apply reserved_last in X as (_ & X).
    apply has_dot_ok in D. congruence.
  - assert (n = s).
    { apply (on_word_unique src t' n s); [assumption|]. destruct H as (pre & post & A & B & D').
      exists pre, ([colon] ++ post). split; [now rewrite A, <- app_assoc|]. split; [congruence|].
      rewrite (L1 eq_refl), D', app_length. cbn [List.length]. lia. }
    subst n. split; auto.
Qed.
