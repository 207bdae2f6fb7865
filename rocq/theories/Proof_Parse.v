(** Proofs about the parser: expressions. *)
From Coq Require Import List Arith NArith Bool Lia.
From Verif Require Import Base Model_Token Model_Parse Spec_Parse.
Import ListNotations.
Open Scope list_scope.
Open Scope N_scope.

Definition tof (n : N) : ttype :=
  nth (N.to_nat n)
    [T_UNKNOWN; T_IDENTIFIER; T_NEW_IDENTIFIER; T_DOT_IDENTIFIER; T_KW_MUT; T_KW_RETURN;
     T_KW_UNREACHABLE; T_KW_IF; T_KW_ELIF; T_KW_ELSE; T_KW_WHILE; T_KW_EXTERNAL; T_KW_EXPORT;
     T_KW_NOOP; T_KW_BREAK; T_KW_CONTINUE; T_KW_IMPORT; T_KW_NAMESPACE; T_NEWLINE; T_COMMA;
     T_BRACKET_OPEN; T_BRACKET_CLOSE; T_PAREN_OPEN; T_PAREN_CLOSE; T_OPER_EQUAL; T_OPER_PLUS;
     T_OPER_DASH; T_OPER_STAR; T_OPER_DIV; T_OPER_MOD; T_OPER_AUTO_EQUAL; T_OPER_NOT;
     T_OPER_IS; T_OPER_ISNT; T_OPER_AND; T_OPER_OR; T_OPER_XOR; T_OPER_LESS_THAN;
     T_OPER_GTR_THAN; T_OPER_LESS_THAN_EQ; T_OPER_GTR_THAN_EQ; T_OPER_LSHIFT; T_OPER_RSHIFT;
     T_OPER_POW; T_OPER_REF; T_INT_CONST; T_FLOAT_CONST; T_BOOL_CONST; T_RUNE_CONST;
     T_STR_CONST; T_COMMENT] T_UNKNOWN.

Lemma tof_tnum : forall t, tof (tnum t) = t.
Proof. now destruct t. Qed.

Lemma ttype_eqb_eq : forall a b, ttype_eqb a b = true <-> a = b.
Proof.
  intros a b. unfold ttype_eqb. rewrite N.eqb_eq. split; [|congruence].
  intro H. now rewrite <- (tof_tnum a), <- (tof_tnum b), H.
Qed.

Lemma ttype_eqb_neq : forall a b, ttype_eqb a b = false <-> a <> b.
Proof. intros a b. rewrite <- (ttype_eqb_eq a b). now destruct (ttype_eqb a b). Qed.

Lemma ttype_eqb_refl : forall a, ttype_eqb a a = true.
Proof. intro a. now apply ttype_eqb_eq. Qed.

Lemma tok_is_true : forall ts ty, tok_is ts ty = true <-> exists t r, ts = t :: r /\ t_type t = ty.
Proof.
  intros [|t r] ty; cbn [tok_is].
  - split; [discriminate|]. intros (? & ? & E & _). discriminate.
  - rewrite ttype_eqb_eq. split; [eauto|]. intros (? & ? & E & X). now inversion E; subst.
Qed.

Lemma ident_like_true : forall t, is_identifier_like t = true <-> name_like (t_type t).
Proof.
  intro t. unfold is_identifier_like, name_like. rewrite orb_true_iff, !ttype_eqb_eq. tauto.
Qed.

(** Outcome r is a value satisfying Q, or undefined behaviour if `safe` fails. *)
Definition wp {S A} (safe : Prop) (r : out S A) (Q : S -> A -> Prop) : Prop :=
  match r with Ret s a => Q s a | Bad => ~ safe | Fuel => False end.

Lemma wp_bind : forall S A T B safe (r : out S A) (k : S -> A -> out T B) Q,
  wp safe r (fun s a => wp safe (k s a) Q) -> wp safe (obind r k) Q.
Proof. intros S A T B safe [s a| |] k Q H; exact H. Qed.

Lemma wp_mono : forall S A safe (r : out S A) (P Q : S -> A -> Prop),
  wp safe r P -> (forall s a, P s a -> Q s a) -> wp safe r Q.
Proof. intros S A safe [s a| |] P Q H HQ; cbn in *; auto. Qed.

Lemma wp_safe : forall S A (safe safe' : Prop) (r : out S A) Q,
  wp safe r Q -> (safe' -> safe) -> wp safe' r Q.
Proof. intros S A safe safe' [s a| |] Q H HS; cbn in *; auto. Qed.

(** Token types that appear in expressions. *)
Definition etok (ty : ttype) : bool :=
  starts_operand ty || oper_token ty || ttype_eqb ty T_PAREN_CLOSE || ttype_eqb ty T_COMMA.

Definition located (ts : list token) (m : message) : Prop :=
  exists t, In t ts /\ m_loc m = Some (t_loc t) /\ tells (m_code m) t.

(** s' is reached from s by consuming `used`. *)
Record adv (s s' : pst) (used : list token) : Prop := mkadv {
  a_tok : p_tok s = used ++ p_tok s';
  a_types : Forall (fun t => etok (t_type t) = true) used;
  a_err : p_err s = true -> p_err s' = true;
  a_msgs : exists new, p_msgs s' = new ++ p_msgs s /\
    (p_err s' = false -> new = []) /\
    (p_err s' = true -> p_err s = true \/ new <> []) /\
    Forall (located (p_tok s)) new }.

Lemma located_app : forall a b m, located b m -> located (a ++ b) m.
Proof. intros a b m (t & H & E). exists t. rewrite in_app_iff. tauto. Qed.

Lemma adv_refl : forall s, adv s s [].
Proof.
  intro s. constructor; auto. exists []. repeat split; auto.
Qed.

Lemma adv_trans : forall s s1 s2 u1 u2, adv s s1 u1 -> adv s1 s2 u2 -> adv s s2 (u1 ++ u2).
Proof.
  intros s s1 s2 u1 u2 [T1 Y1 E1 (n1 & M1 & F1 & G1 & L1)] [T2 Y2 E2 (n2 & M2 & F2 & G2 & L2)].
  constructor.
  - now rewrite T1, T2, app_assoc.
  - now apply Forall_app.
  - auto.
  - exists (n2 ++ n1). rewrite M2, M1, app_assoc. split; [easy|]. split.
    { intro H. rewrite (F2 H). destruct (p_err s1) eqn:X; [rewrite (E2 eq_refl) in H; discriminate|].
      now rewrite F1. }
    split.
    { intro H. destruct (G2 H) as [X|X].
      - destruct (G1 X) as [Y|Y]; [tauto|]. right. intro Z. apply app_eq_nil in Z. tauto.
      - right. intro Z. apply app_eq_nil in Z. tauto. }
    apply Forall_app. split; [|exact L1]. rewrite T1.
    eapply Forall_impl; [|exact L2]. intros m. apply located_app.
Qed.

Lemma adv_tok : forall s t r, p_tok s = t :: r -> etok (t_type t) = true ->
  adv s (set_tok s r) [t].
Proof.
  intros s t r E Y. constructor; cbn; auto. exists []. repeat split; auto.
Qed.

Lemma adv_fail : forall s s' u c t, adv s s' u -> In t (p_tok s) -> tells c t ->
  adv s (fail c (Some (t_loc t)) s') u.
Proof.
  intros s s' u c t [T Y E (n & M & F & G & L)] I TL. constructor; cbn; auto.
  exists (mkmsg c (Some (t_loc t)) :: n). rewrite M. split; [easy|]. split; [discriminate|].
  split; [now right|]. constructor; [|easy]. now exists t.
Qed.

Lemma adv_len : forall s s' u, adv s s' u -> (length (p_tok s) = length u + length (p_tok s'))%nat.
Proof. intros s s' u H. now rewrite (a_tok _ _ _ H), app_length. Qed.

Lemma adv_err_false : forall s s' u, adv s s' u -> p_err s' = false -> p_err s = false.
Proof.
  intros s s' u H E. destruct (p_err s) eqn:X; [|easy]. now rewrite (a_err _ _ _ H X) in E.
Qed.

Lemma uho_app : forall a b, unary_has_operand (a ++ b) -> unary_has_operand b.
Proof. induction a as [|t a IH]; intros b H; [easy|]. apply IH, H. Qed.

Lemma adv_uho : forall s s' u, adv s s' u -> unary_has_operand (p_tok s) ->
  unary_has_operand (p_tok s').
Proof. intros s s' u H X. rewrite (a_tok _ _ _ H) in X. now apply uho_app in X. Qed.

Lemma syms_app : forall a b, syms (a ++ b) = syms a ++ syms b.
Proof. intros a b. unfold syms. apply flat_map_app. Qed.

(** What an expression parser gives for state s. *)
Definition eres (s s' : pst) (e : option expr) : Prop :=
  exists used, adv s s' used /\
    match e with
    | Some e => used <> [] /\ (p_err s' = false ->
        yield e = syms used /\ (unary_has_operand (p_tok s) -> complete e))
    | None => p_err s' = false -> used = [] end.

Definition espec (n : nat) (pe : eparser) : Prop := forall s, (length (p_tok s) < n)%nat ->
  wp True (pe s) (fun s' e => eres s s' e /\ (e <> None -> p_err s' = false)).

Lemma etok_operand : forall ty, starts_operand ty = true -> etok ty = true.
Proof. intros ty H. unfold etok. now rewrite H. Qed.
Lemma etok_oper : forall ty, oper_token ty = true -> etok ty = true.
Proof. intros ty H. unfold etok. rewrite H. now rewrite orb_true_r. Qed.

Lemma cons_neq : forall A (x : A) l, x :: l <> [].
Proof. discriminate. Qed.
Lemma app_ne : forall A (a b : list A), a <> [] -> a ++ b <> [].
Proof. intros A [|x a] b H; [easy|discriminate]. Qed.

Lemma head_in : forall s t r, p_tok s = t :: r -> In t (p_tok s).
Proof. intros s t r E. rewrite E. now left. Qed.

Lemma paren_spec : forall n pe s t r, espec n pe -> (length (p_tok s) < S n)%nat ->
  p_tok s = t :: r -> t_type t = T_PAREN_OPEN ->
  wp True (parse_paren_expr pe s) (eres s).
Proof.
  intros n pe s t r HP HL E Y. unfold parse_paren_expr. rewrite E.
  unfold next_token. rewrite E. cbn [obind].
  assert (A0 : adv s (set_tok s r) [t]) by (apply adv_tok; [easy|now rewrite Y]).
  apply wp_bind. eapply wp_mono; [apply HP; rewrite E in HL; cbn in *; lia|].
  cbn beta. intros s1 [e|] ((used & A1 & H) & HE); cbn beta iota.
  - destruct H as (HN & H). specialize (HE ltac:(discriminate)).
    pose proof (adv_trans _ _ _ _ _ A0 A1) as A2.
    destruct (tok_is (p_tok s1) T_PAREN_CLOSE) eqn:X.
    + apply tok_is_true in X as (b & r1 & X & Yb). rewrite X. cbn [obind wp].
      exists (([t] ++ used) ++ [b]). split.
      * apply adv_trans with s1; [exact A2|]. apply adv_tok; [easy|]. now rewrite Yb.
      * split; [discriminate|]. cbn [set_tok p_err]. intro Z.
        destruct (H Z) as (H1 & H2). split.
        -- rewrite !syms_app, H1. cbn [syms flat_map app]. unfold sym_of. rewrite Y, Yb. cbn.
           now rewrite app_nil_r.
        -- intro U. apply H2. cbn [set_tok p_tok]. rewrite E in U. apply U.
    + cbn [wp]. exists ([t] ++ used). split.
      * apply adv_fail; [easy| |solve [reflexivity|exact I]]. now apply head_in with r.
      * cbn. discriminate.
  - cbn [wp]. exists ([t] ++ used). split.
    + apply adv_fail; [now apply adv_trans with (set_tok s r)| |solve [reflexivity|exact I]]. now apply head_in with r.
    + cbn. discriminate.
Qed.

Definition yields (args : list (list token * expr)) : list sym :=
  flat_map (fun a => yield (snd a)) args.

Lemma yields_app : forall a b, yields (a ++ b) = yields a ++ yields b.
Proof. intros a b. apply flat_map_app. Qed.

Lemma call_loop_spec : forall n pe f name args k s s0, espec n pe ->
  (length (p_tok s) < n)%nat -> (length (p_tok s) < f)%nat ->
  (forall t, In t (p_tok s) -> In t (p_tok s0)) -> In name (p_tok s0) ->
  wp True (call_loop pe f name args k s) (fun s' a =>
    exists used new, p_tok s = used ++ p_tok s' /\
      Forall (fun t => etok (t_type t) = true) used /\
      (p_err s = true -> p_err s' = true) /\
      p_msgs s' = new ++ p_msgs s /\ (p_err s' = false -> new = []) /\
      (p_err s' = true -> p_err s = true \/ new <> []) /\ Forall (located (p_tok s0)) new /\
      match a with
      | None => p_err s' = true
      | Some (args1, k1) => exists more t r, args1 = more ++ args /\
          p_tok s' = t :: r /\ t_type t = T_PAREN_CLOSE /\
          (p_err s' = false -> yields (rev more) = syms used /\
             (unary_has_operand (p_tok s) -> forall p e, In (p, e) more -> complete e))
      end).
Proof.
  intros n pe f. induction f as [|f IH]; intros name args k s s0 HP HL HF HI HN; [lia|].
  cbn [call_loop]. destruct (p_tok s) as [|t r] eqn:E.
  - cbn [wp]. exists [], [mkmsg P_UNCLOSED_FUNC_CALL (Some (t_loc name))].
    repeat split; auto; try discriminate. + now right; discriminate.
    + constructor; [|easy]. now exists name.
  - destruct (ttype_eqb (t_type t) T_COMMA) eqn:Y.
    { cbn [wp]. exists [], [mkmsg P_UNEXPECTED_COMMA (Some (t_loc t))].
      repeat split; auto; try discriminate. + now right; discriminate.
      + constructor; [|easy]. exists t. split; [apply HI; now left|easy]. }
    apply wp_bind. eapply wp_mono; [apply HP; rewrite E; exact HL|]. cbn beta.
    intros s1 e ((used & A & H) & HE). set (args1 := match e with Some e0 => _ | None => _ end).
    set (k1 := match e with Some _ => _ | None => _ end). clearbody k1.
    assert (exists m, args1 = m ++ args /\ (p_err s1 = false -> yields (rev m) = syms used /\
              (unary_has_operand (p_tok s) -> forall p e, In (p, e) m -> complete e))) as (m & EM & HM).
    { destruct e as [e|]; unfold args1.
      - exists [(p_tok s, e)]. rewrite E. split; [easy|]. intro Z. destruct H as (_ & H).
        destruct (H Z) as (H1 & H2). cbn. rewrite app_nil_r. split; [easy|]. intros U p e0 [X|[]].
        inversion X; subst. apply H2. now rewrite E.
      - exists []. split; [easy|]. intro Z. rewrite (H Z). split; [easy|]. intros _ p e []. }
    clearbody args1.
    assert (HI1 : forall x, In x (p_tok s1) -> In x (p_tok s0)).
    { intros x X. apply HI. rewrite <- E, (a_tok _ _ _ A). apply in_or_app. now right. }
    assert (HL1 : Forall (located (p_tok s0)) (match e with _ => [] end)) by constructor.
    clear HL1. destruct A as [T1 Y1 E1 (n1 & M1 & F1 & G1 & L1)]. rewrite E in *.
    assert (L1' : Forall (located (p_tok s0)) n1).
    { eapply Forall_impl; [|exact L1]. intros x (q & Q & Z & W). exists q. auto. }
    destruct (p_tok s1) as [|t1 r1] eqn:E1t.
    { cbn [wp]. exists used, (mkmsg P_MISSING_CLOSING_PAREN (Some (t_loc t)) :: n1). cbn [fail set_err report p_tok p_err p_msgs].
      rewrite E1t, M1. repeat split; auto; try discriminate. - now right; discriminate.
      - constructor; [|easy]. exists t. split; [apply HI; now left|easy]. }
    destruct (ttype_eqb (t_type t1) T_NEWLINE) eqn:Y2.
    { cbn [wp]. exists used, (mkmsg P_MISSING_CLOSING_PAREN (Some (t_loc t1)) :: n1). cbn [fail set_err report p_tok p_err p_msgs].
      rewrite E1t, M1. repeat split; auto; try discriminate. - now right; discriminate.
      - constructor; [|easy]. exists t1. split; [apply HI1; now left|easy]. }
    destruct (ttype_eqb (t_type t1) T_PAREN_CLOSE) eqn:Y3.
    { apply ttype_eqb_eq in Y3. cbn [wp]. exists used, n1. rewrite E1t. repeat split; auto.
      exists m, t1, r1. repeat split; auto. - apply HM; assumption. - intros U. apply HM; assumption. }
    destruct (ttype_eqb (t_type t1) T_COMMA) eqn:Y4.
    2:{ cbn [wp]. exists used, (mkmsg P_EXPECTED_COMMA (Some (t_loc t1)) :: n1). cbn [fail set_err report p_tok p_err p_msgs].
      rewrite E1t, M1. repeat split; auto; try discriminate. - now right; discriminate.
      - constructor; [|easy]. exists t1. split; [apply HI1; now left|easy]. }
    apply ttype_eqb_eq in Y4.
    assert (HT : t :: r = used ++ t1 :: r1) by exact T1.
    assert (HLr : (length (t :: r) = length used + S (length r1))%nat)
      by (rewrite HT, app_length; cbn; lia).
    eapply wp_mono; [apply (IH name args1 k1 (set_tok s1 r1) s0 HP)|].
    + cbn [set_tok p_tok]. cbn [length] in *. lia.
    + cbn [set_tok p_tok]. cbn [length] in *. lia.
    + cbn [set_tok p_tok]. intros x X. apply HI1. now right.
    + easy.
    + cbn beta. cbn [set_tok p_tok p_err p_msgs].
      intros s2 a (used2 & n2 & T2 & YY2 & E2 & M2 & F2 & G2 & L2 & HA).
      exists ((used ++ [t1]) ++ used2), (n2 ++ n1). split.
      { rewrite HT, T2, <- !app_assoc. reflexivity. }
      split. { apply Forall_app. split; [|easy]. apply Forall_app. split; [easy|].
               constructor; [now rewrite Y4|constructor]. }
      split; [auto|]. split; [now rewrite M2, M1, app_assoc|]. split.
      { intro Z. rewrite (F2 Z). destruct (p_err s1) eqn:X; [rewrite (E2 eq_refl) in Z; discriminate|].
        now rewrite F1. }
      split.
      { intro Z. destruct (G2 Z) as [X|X].
        - destruct (G1 X) as [Q|Q]; [tauto|]. right. intro ZZ. apply app_eq_nil in ZZ. tauto.
        - right. intro ZZ. apply app_eq_nil in ZZ. tauto. }
      split. { now apply Forall_app. }
      destruct a as [(args2, k2)|]; [|exact HA].
      destruct HA as (more & q & r2 & EA & TQ & YQ & HY).
      exists (more ++ m), q, r2. rewrite EA, EM, app_assoc.
      split; [easy|]. split; [easy|]. split; [easy|]. intro ZZ.
      assert (Z1 : p_err s1 = false).
      { destruct (p_err s1) eqn:X; [|easy]. rewrite (E2 eq_refl) in ZZ; discriminate. }
      destruct (HM Z1) as (Q1 & Q1'). destruct (HY ZZ) as (Q2 & Q2'). split.
      * rewrite rev_app_distr, yields_app, Q1, Q2, !syms_app.
        assert (X : syms [t1] = []) by (unfold syms, sym_of; cbn; now rewrite Y4).
        now rewrite X, app_nil_r.
      * intros U p e0 Hin.
        apply in_app_or in Hin as [X|X]; [|now apply (Q1' U p)].
        apply (Q2' (uho_app (used ++ [t1]) r1 ltac:(rewrite <- app_assoc; cbn; now rewrite <- HT)) p e0 X).
Qed.

Lemma call_spec : forall n pe f s t p r, espec n pe -> (length (p_tok s) < S n)%nat ->
  (length (p_tok s) < S f)%nat ->
  p_tok s = t :: p :: r -> name_like (t_type t) -> t_type p = T_PAREN_OPEN ->
  wp True (parse_func_call pe f s) (eres s).
Proof.
  intros n pe f s t p r HP HL HF E Y YP. unfold parse_func_call. rewrite E.
  apply wp_bind. rewrite E in *. cbn [length] in *.
  eapply wp_mono; [apply (call_loop_spec n pe f t [] 0 (set_tok s r) s HP)|].
  - cbn [set_tok p_tok]. lia.
  - cbn [set_tok p_tok]. lia.
  - intros x X. rewrite E. right. right. exact X.
  - rewrite E. now left.
  - cbn beta. cbn [set_tok p_tok p_err p_msgs].
    intros s' a (used & new & T & YY & E1 & M & F & G & L & HA).
    assert (A : adv s s' ([t; p] ++ used)).
    { constructor; auto.
      - now rewrite E, T.
      - apply Forall_app. split; [|easy]. constructor; [|constructor; [now rewrite YP|constructor]].
        destruct Y as [Y|Y]; now rewrite Y.
      - exists new. auto. }
    destruct a as [(args1, k1)|].
    + destruct HA as (more & q & r2 & EA & TQ & YQ & HY). unfold next_token. rewrite TQ.
      cbn [obind wp]. exists (([t; p] ++ used) ++ [q]). split.
      * apply adv_trans with s'; [exact A|]. apply adv_tok; [easy|now rewrite YQ].
      * split; [discriminate|]. cbn [set_tok p_err]. intro Z. destruct (HY Z) as (H1 & H2).
        rewrite app_nil_r in EA. subst args1. split.
        -- assert (Hq : syms [q] = []) by (unfold syms, sym_of; cbn; now rewrite YQ).
           assert (Hp : sym_of p = []) by (unfold sym_of; now rewrite YP).
           assert (Ht : sym_of t = [Word t]) by (unfold sym_of; destruct Y as [Y|Y]; now rewrite Y).
           rewrite !syms_app, Hq, app_nil_r, <- H1. cbn [syms flat_map]. rewrite Ht, Hp.
           cbn [yield app]. reflexivity.
        -- intro U. constructor. intros q1 e Hin. rewrite <- in_rev in Hin.
           rewrite E in U. apply (H2 (uho_app [t; p] r U) q1 e Hin).
    + cbn [wp]. exists ([t; p] ++ used). split; [exact A|]. intro Z. congruence.
Qed.

Lemma single_token_operand : forall ty, is_single_token_expr ty = true -> starts_operand ty = true /\
  layout ty = false /\ oper_token ty = false.
Proof. destruct ty; cbn; intro H; (discriminate || auto). Qed.


(** A parenthesised expression that gives nothing has failed. *)
Lemma paren_none : forall pe s s', parse_paren_expr pe s = Ret s' None -> p_err s' = true.
Proof.
  intros pe s s' H. unfold parse_paren_expr in H. destruct (p_tok s) as [|t r] eqn:E; [discriminate|].
  unfold next_token in H. rewrite E in H. cbn [obind] in H.
  destruct (pe (set_tok s r)) as [s1 [e|]| |]; cbn [obind] in H; try discriminate.
  - destruct (tok_is (p_tok s1) T_PAREN_CLOSE); [|now inversion H].
    destruct (p_tok s1); cbn [obind] in H; discriminate.
  - now inversion H.
Qed.

Lemma call_none : forall pe f s s', parse_func_call pe f s = Ret s' None -> p_err s' = true.
Proof.
  intros pe f s s' H. unfold parse_func_call in H.
  destruct (p_tok s) as [|t [|p r]]; try discriminate.
  revert H. generalize (@nil (list token * expr)) as args, 0 as k, (set_tok s r) as s0.
  induction f as [|f IH]; intros args k s0 H; [discriminate|]. cbn [call_loop] in H.
  destruct (p_tok s0) as [|x q]; [now inversion H|].
  destruct (ttype_eqb (t_type x) T_COMMA); [now inversion H|].
  destruct (pe s0) as [s1 e| |]; cbn [obind] in H; try discriminate.
  destruct (p_tok s1) as [|t1 r1] eqn:E1; [now inversion H|].
  destruct (ttype_eqb (t_type t1) T_NEWLINE); [now inversion H|].
  destruct (ttype_eqb (t_type t1) T_PAREN_CLOSE).
  { cbn [obind] in H. unfold next_token in H. rewrite E1 in H. discriminate. }
  destruct (ttype_eqb (t_type t1) T_COMMA); [|now inversion H].
  eapply IH. exact H.
Qed.

Lemma wp_ret : forall S A safe (r : out S A) Q, wp safe r Q ->
  wp safe r (fun s a => r = Ret s a /\ Q s a).
Proof. intros S A safe [s a| |] Q H; cbn in *; auto. Qed.

Lemma root_spec : forall n pe f s t r, espec n pe -> (length (p_tok s) < S n)%nat ->
  (length (p_tok s) < S f)%nat -> p_tok s = t :: r ->
  wp True (parse_root_expr pe f s) (fun s' e => eres s s' e /\
    (e = None -> p_err s' = false -> starts_operand (t_type t) = false)).
Proof.
  intros n pe f s t r HP HL HF E. unfold parse_root_expr. rewrite E.
  destruct (ttype_eqb (t_type t) T_PAREN_OPEN) eqn:Y.
  { apply ttype_eqb_eq in Y. eapply wp_mono; [apply wp_ret; eapply paren_spec; eauto|].
    intros s1 e (R & H). split; [exact H|]. intros EN ER. subst e. apply paren_none in R. congruence. }
  destruct (is_identifier_like t && tok_is r T_PAREN_OPEN) eqn:Y2.
  { apply andb_true_iff in Y2 as (Y2 & Y3). apply ident_like_true in Y2.
    apply tok_is_true in Y3 as (p & r1 & -> & YP).
    eapply wp_mono; [apply wp_ret; eapply call_spec; eauto|].
    intros s1 e (R & H). split; [exact H|]. intros EN ER. subst e. apply call_none in R. congruence. }
  destruct (is_single_token_expr (t_type t)) eqn:Y3.
  - unfold parse_single_token_expr, next_token. rewrite E. cbn [obind wp].
    split; [|discriminate]. exists [t].
    destruct (single_token_operand _ Y3) as (X1 & X2 & X3). split.
    + apply adv_tok; [easy|]. now apply etok_operand.
    + split; [discriminate|]. intros _. split.
      * unfold syms, sym_of. cbn. rewrite X2, X3. now destruct (is_identifier_like t).
      * intros _. destruct (is_identifier_like t); constructor.
  - cbn [wp]. split.
    + exists []. split; [apply adv_refl|easy].
    + intros _ _. destruct (t_type t); cbn in *; congruence.
Qed.

Lemma unary_oper_token : forall ty o, get_potential_unary_oper ty = Some o ->
  ty = un_token o /\ oper_token ty = true /\ layout ty = false.
Proof. destruct ty; cbn; intros o H; inversion H; subst; auto. Qed.

Lemma unary_none : forall ty, get_potential_unary_oper ty = None -> ~ unary_token ty.
Proof. intros ty H (o & E). subst ty. destruct o; discriminate. Qed.

Lemma eres_cons_un : forall s t r o s' e, p_tok s = t :: r -> t_type t = un_token o ->
  eres (set_tok s r) s' (Some e) -> eres s s' (Some (EUn o (Some e))).
Proof.
  intros s t r o s' e E Y (used & A & HN & H). exists ([t] ++ used).
  assert (YT : oper_token (t_type t) = true /\ layout (t_type t) = false) by (rewrite Y; now destruct o).
  destruct YT as (Y1 & Y2). split.
  - apply adv_trans with (set_tok s r); [|exact A]. apply adv_tok; [easy|]. now apply etok_oper.
  - split; [discriminate|]. intro Z. destruct (H Z) as (H1 & H2). split.
    + cbn [yield]. rewrite H1. cbn [app syms flat_map]. unfold sym_of at 1. rewrite Y1, Y2. now rewrite Y.
    + intro U. constructor. apply H2. rewrite E in U. apply U.
Qed.

Lemma single_spec : forall n pe f s, espec n pe -> (length (p_tok s) < S n)%nat ->
  (length (p_tok s) < S f)%nat ->
  wp True (parse_single_expr pe f s) (eres s).
Proof.
  intros n pe f s HP HL HF. unfold parse_single_expr.
  destruct (p_tok s) as [|t r] eqn:E.
  { cbn. exists []. split; [apply adv_refl|easy]. }
  destruct (get_potential_unary_oper (t_type t)) as [o|] eqn:Y.
  2:{ eapply wp_mono; [eapply root_spec; eauto; rewrite E; auto|]. cbn beta. tauto. }
  unfold next_token. rewrite E. cbn [obind set_tok p_tok].
  destruct (unary_oper_token _ _ Y) as (Y1 & Y2 & Y3).
  assert (A0 : adv s (set_tok s r) [t]) by (apply adv_tok; [easy|]; now apply etok_oper).
  destruct r as [|x r].
  { cbn [wp]. exists [t]. split; [|cbn; discriminate]. change (mkpst [] (p_err s) (p_msgs s)) with (set_tok s []).
    apply adv_fail; [easy| |solve [reflexivity|exact I]]. now apply head_in with []. }
  destruct (get_potential_unary_oper (t_type x)) as [o2|] eqn:YX.
  { cbn [wp]. exists [t]. split; [|cbn; discriminate].
    change (mkpst (x :: r) (p_err s) (p_msgs s)) with (set_tok s (x :: r)).
    apply adv_fail; [easy| |solve [reflexivity|exact I]]. rewrite E. right. now left. }
  apply wp_bind. eapply wp_mono; [eapply (root_spec n pe f (set_tok s (x :: r)) x r HP)|].
  - cbn [set_tok p_tok length] in *. lia.
  - cbn [set_tok p_tok length] in *. lia.
  - easy.
  - cbn beta. intros s1 [e|] (H & HN); cbn [wp].
    + now apply eres_cons_un with t (x :: r).
    + destruct H as (used & A & H). exists ([t] ++ used). split; [now apply adv_trans with (set_tok s (x :: r))|].
      split; [discriminate|]. intro Z. rewrite (H Z). split.
      * cbn [yield app syms flat_map]. unfold sym_of. rewrite Y2, Y3. now rewrite Y1.
      * intro U. exfalso. rewrite E in U. destruct U as (U & _).
        destruct U as (x' & r' & X & U); [now exists o|]. inversion X; subst x' r'.
        specialize (HN eq_refl Z). destruct U as [U|U]; [congruence|]. now apply unary_none in YX.
Qed.

Lemma binary_oper_token : forall ty o, token_type_to_binary_expr_type ty = Some (inl o) ->
  ty = bin_token o /\ oper_token ty = true /\ layout ty = false.
Proof. destruct ty; cbn; intros o H; inversion H; subst; auto. Qed.

Lemma rhs_spec : forall n pe f s, espec n pe -> (length (p_tok s) < S n)%nat ->
  (length (p_tok s) < S f)%nat ->
  wp True (parse_expr_rhs pe f s) (fun s' x => exists used, adv s s' used /\
    match x with
    | None => p_err s' = false -> used = []
    | Some (o, e) => used <> [] /\ (p_err s' = false ->
        syms used = Oper (bin_token o) :: yield e /\
        (unary_has_operand (p_tok s) -> complete e)) end).
Proof.
  intros n pe f s HP HL HF. unfold parse_expr_rhs.
  destruct (p_tok s) as [|t r] eqn:E.
  { cbn. exists []. split; [apply adv_refl|easy]. }
  destruct (token_type_to_binary_expr_type (t_type t)) as [[o|o]|] eqn:Y.
  - destruct (binary_oper_token _ _ Y) as (Y1 & Y2 & Y3).
    unfold next_token. rewrite E. cbn [obind].
    assert (A0 : adv s (set_tok s r) [t]) by (apply adv_tok; [easy|]; now apply etok_oper).
    apply wp_bind. eapply wp_mono; [apply (single_spec n pe f (set_tok s r) HP)|].
    + cbn [set_tok p_tok length] in *. lia.
    + cbn [set_tok p_tok length] in *. lia.
    + intros s1 [e|] (used & A & H); cbn [wp].
      * exists ([t] ++ used). split; [now apply adv_trans with (set_tok s r)|].
        split; [discriminate|]. intro Z. destruct H as (_ & H). destruct (H Z) as (H1 & H2). split.
        -- rewrite H1. cbn [app syms flat_map]. unfold sym_of at 1. rewrite Y2, Y3. now rewrite Y1.
        -- intro U. apply H2, U.
      * exists ([t] ++ used). split; [|cbn; discriminate].
        apply adv_fail; [now apply adv_trans with (set_tok s r)| |solve [reflexivity|exact I]]. now apply head_in with r.
  - cbn [wp]. exists []. split; [|cbn; discriminate]. apply adv_fail; [apply adv_refl| |solve [reflexivity|exact I]].
    now apply head_in with r.
  - cbn [wp]. exists []. split; [apply adv_refl|easy].
Qed.

Lemma bin_prec_min : forall o, 2 <= bin_prec o.
Proof. destruct o; cbn; lia. Qed.

Lemma rotate_yield : forall top o r, yield (rotate top o r) = yield top ++ Oper (bin_token o) :: yield r.
Proof.
  intros top o r. unfold rotate. destruct (N.ltb_spec (bin_prec o) (expr_prec top)) as [H|H]; [|reflexivity].
  pose proof (bin_prec_min o). destruct top as [t|t|nm a k|u x|b l x]; cbn [expr_prec] in H; try lia.
  - cbn [get_rhs set_rhs yield]. destruct x; reflexivity.
  - cbn [get_rhs set_rhs yield]. now rewrite <- app_assoc.
Qed.

Lemma rotate_complete : forall top o r, complete top -> complete r -> complete (rotate top o r).
Proof.
  intros top o r HT HR. unfold rotate. destruct (N.ltb_spec (bin_prec o) (expr_prec top)) as [H|H];
    [|now constructor].
  pose proof (bin_prec_min o). destruct HT; cbn [expr_prec] in H; try lia; cbn [get_rhs set_rhs].
  - now constructor; constructor.
  - now constructor; [|constructor].
Qed.

Lemma loop_spec : forall n pe f top s, espec n pe -> (length (p_tok s) < S n)%nat ->
  (length (p_tok s) < f)%nat ->
  wp True (expr_loop pe f top s) (fun s' e => exists used, adv s s' used /\
    match e with
    | None => p_err s' = true
    | Some e => p_err s' = false /\ yield e = yield top ++ syms used /\
        (unary_has_operand (p_tok s) -> complete top -> complete e) end).
Proof.
  intros n pe f. induction f as [|f IH]; intros top s HP HL HF; [lia|]. cbn [expr_loop].
  apply wp_bind. eapply wp_mono; [apply (rhs_spec n pe f s HP HL HF)|]. cbn beta.
  intros s1 x (used & A & H). destruct (p_err s1) eqn:EE.
  { cbn [wp]. exists used. auto. }
  destruct x as [(o, e)|].
  - destruct H as (HN & H). destruct (H eq_refl) as (H1 & H2).
    pose proof (adv_len _ _ _ A) as AL. assert (0 < length used)%nat by (destruct used; [easy|cbn; lia]).
    eapply wp_mono; [apply (IH (rotate top o e) s1 HP); lia|]. cbn beta.
    intros s2 [e2|] (used2 & A2 & H3).
    + destruct H3 as (H3 & H4 & H5). exists (used ++ used2). split; [now apply adv_trans with s1|].
      split; [easy|]. split.
      * rewrite H4, rotate_yield, syms_app, H1. now rewrite <- app_assoc.
      * intros U C. apply H5; [now apply (adv_uho s s1 used)|]. apply rotate_complete; auto.
    + exists (used ++ used2). split; [now apply adv_trans with s1|easy].
  - cbn [wp]. exists used. split; [easy|]. split; [easy|]. rewrite (H eq_refl). cbn.
    rewrite app_nil_r. auto.
Qed.

Theorem expression_spec : forall f, espec f (parse_expression f).
Proof.
  induction f as [|f IH]; intros s HL; [lia|]. cbn [parse_expression].
  destruct (p_tok s) as [|t r] eqn:E.
  { cbn. split; [|congruence]. exists []. split; [apply adv_refl|easy]. }
  apply wp_bind. eapply wp_mono; [apply (single_spec f _ f s IH); rewrite E; cbn in *; lia|].
  intros s1 h (used & A & H). destruct (p_err s1) eqn:EE.
  { cbn [wp]. split; [|congruence]. exists used. split; [easy|congruence]. }
  destruct h as [e|].
  - destruct H as (HN & H). destruct (H eq_refl) as (H1 & H2).
    pose proof (adv_len _ _ _ A) as AL. rewrite E in AL. cbn [length] in AL, HL.
    assert (0 < length used)%nat by (destruct used; [easy|cbn; lia]).
    eapply wp_mono; [apply (loop_spec f _ f e s1 IH); lia|]. cbn beta.
    intros s2 [e2|] (used2 & A2 & H3).
    + destruct H3 as (H3 & H4 & H5). split; [|easy]. exists (used ++ used2).
      split; [now apply adv_trans with s1|]. split; [now apply app_ne|]. intros _.
      split; [now rewrite H4, H1, syms_app|].
      intro U. apply H5; [now apply (adv_uho s s1 used)|auto].
    + split; [|congruence]. exists (used ++ used2). split; [now apply adv_trans with s1|congruence].
  - cbn [wp]. split; [|congruence]. exists used. split; [easy|auto].
Qed.
