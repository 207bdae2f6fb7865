(** Proofs about the parser: function heads, blocks and whole programs. *)
From Coq Require Import List Arith NArith Bool Lia.
From Verif Require Import Base Model_Token Model_Parse Spec_Parse Proof_Parse Proof_Parse2.
Import ListNotations.
Open Scope list_scope.
Open Scope N_scope.

Lemma proto_params_spec : forall fuel ts acc, (length ts < fuel)%nat ->
  exists ps rest a, proto_params fuel ts acc = Some (rev acc ++ ps, rest) /\ ts = a ++ rest /\
    (rest <> [] -> params_written ts ps rest).
Proof.
  induction fuel as [|f IH]; intros ts acc HL; [lia|]. cbn [proto_params].
  destruct (is_explicit_type ts) as [[|b after]|] eqn:EX.
  - exists [], [], ts. rewrite !app_nil_r. repeat split; auto. easy.
  - apply explicit_type_spec in EX as (x & ty & EY & YX & B). subst ts.
    destruct (ttype_eqb (t_type b) T_COMMA) eqn:YB.
    + apply ttype_eqb_eq in YB.
      destruct (IH after (mkparam (ty ++ b :: after) x :: acc)) as (ps & rest & a & E & EA & HP).
      { cbn in HL. rewrite app_length in HL. cbn in HL. lia. }
      exists (mkparam (ty ++ b :: after) x :: ps), rest, (x :: ty ++ b :: a). split.
      * rewrite E. cbn. now rewrite <- app_assoc.
      * split; [rewrite EA; cbn; rewrite <- app_assoc; reflexivity|]. intro HN. apply pw_more; auto.
    + exists [mkparam (ty ++ b :: after) x], (b :: after), (x :: ty). split; [easy|].
      split; [easy|]. intros _. now apply pw_last.
  - exists [], ts, []. rewrite app_nil_r. split; [easy|]. split; [easy|]. intros _. constructor.
Qed.

Lemma accept_proto_spec : forall c name ext exp params ret pre x r1,
  p_err (n_st c) = false -> ptok c = pre ++ x :: r1 ->
  head_written (ptok c) (x :: r1) name ret (w16 (N.of_nat (length params))) ext exp
    (firstn (N.to_nat (w16 (N.of_nat (length params)))) params) ->
  wp (safe_end (ptok c)) (accept_proto c name ext exp params ret (x :: r1)) (spost c).
Proof.
  intros c name ext exp params ret pre x r1 E T HW. unfold accept_proto. cbn [wp spost].
  apply push_pushed with (pre ++ [x]); auto.
  - destruct pre; discriminate.
  - cbn. now rewrite <- app_assoc.
  - unfold own_syms. cbn [yield_opt]. rewrite app_nil_r. change (p_tok (n_st c)) with (ptok c).
    now rewrite T, through_app.
  - exists []. reflexivity.
  - cbn. exists name, ret, (w16 (N.of_nat (length params))), ext, exp. eauto.
  - change (p_tok (n_st c)) with (ptok c). rewrite T. now destruct pre.
  - intros _ e Q. discriminate.
Qed.

Lemma proto_spec : forall c, p_err (n_st c) = false -> ptok c <> [] ->
  wp (safe_end (ptok c)) (parse_function_proto c) (spost c).
Proof.
  intros c E HNE. unfold parse_function_proto.
  destruct (p_tok (n_st c)) as [|t r] eqn:ET; [unfold ptok in HNE; congruence|].
  set (ext := ttype_eqb (t_type t) T_KW_EXTERNAL). set (exp := ttype_eqb (t_type t) T_KW_EXPORT).
  set (ts := if ext || exp then r else t :: r).
  assert (exists mods, t :: r = mods ++ ts /\ modifiers mods [T_KW_EXTERNAL; T_KW_EXPORT] /\
     modifier mods T_KW_EXTERNAL ext /\ modifier mods T_KW_EXPORT exp /\
     (ts = [] -> t_type t <> T_NEWLINE)) as (mods & EM & MM & M1 & M2 & HT).
  { unfold ts, ext, exp, modifiers, modifier.
    destruct (ttype_eqb (t_type t) T_KW_EXTERNAL) eqn:X1.
    - apply ttype_eqb_eq in X1. exists [t]. cbn. split; [easy|]. split; [right; exists t; auto|].
      split; [split; eauto|]. split; [|congruence]. rewrite ttype_eqb_eq. split; [congruence|].
      intros (m & Q & Z). inversion Q; subst m. congruence.
    - destruct (ttype_eqb (t_type t) T_KW_EXPORT) eqn:X2.
      + apply ttype_eqb_eq in X2. exists [t]. cbn. split; [easy|]. split; [right; exists t; auto|].
        split; [split; [discriminate|]; intros (m & Q & Z); inversion Q; subst m; congruence|].
        split; [split; eauto|congruence].
      + exists []. cbn. split; [easy|]. split; [now left|].
        split; [|split; [|discriminate]]; (split; [discriminate|]; intros (m & Q & Z); discriminate). }
  assert (TC : ptok c = mods ++ ts) by (unfold ptok; now rewrite ET).
  clearbody ext exp ts.
  destruct (token_cmp2 ts T_IDENTIFIER T_PAREN_OPEN) as [[|]|] eqn:CM; [|now cbn|].
  2:{ cbn [wp]. destruct ts as [|q ts]; [|discriminate]. rewrite app_nil_r in TC.
      intro S. destruct MM as [->|(m & -> & _)]; [congruence|].
      assert (m = t) by (unfold ptok in TC; congruence). subst m. rewrite TC in S.
      apply (safe_end_last []) in S. now apply HT. }
  apply token_cmp2_true in CM as (name & po & last & -> & YN & YP).
  destruct (proto_params_spec (S (length last)) last []) as (ps & rest & a & EP & EA & HP); [lia|].
  rewrite EP. cbn [rev app]. destruct rest as [|b after].
  { cbn [wp spost]. exists [], [mkmsg P_MISSING_CLOSING_PAREN (Some (t_loc po))].
    repeat split; auto; try discriminate. constructor; [|constructor]. do 2 right. exists po.
    split; [|easy]. rewrite TC. apply in_or_app. right. right. now left. }
  specialize (HP ltac:(discriminate)).
  assert (TB : ptok c = (mods ++ name :: po :: a) ++ b :: after).
  { rewrite TC, EA, <- app_assoc. reflexivity. }
  assert (HR : forall code x, In x (ptok c) -> tells code x -> reported c (with_st c (report code (Some (t_loc x)) (n_st c)))).
  { intros code x I TL. exists [], [mkmsg code (Some (t_loc x))]. repeat split; auto; try discriminate.
    constructor; [|constructor]. do 2 right. now exists x. }
  assert (IB : In b (ptok c)) by (rewrite TB; apply in_or_app; right; now left).
  assert (HW : forall te ret stop rest, t_type b = T_PAREN_CLOSE ->
     t_type stop = (if ext then T_NEWLINE else T_BRACKET_OPEN) ->
     ((ret = [] /\ after = stop :: rest /\ te = b :: after) \/
       (exists ty lst, ret = after /\ after = ty ++ lst :: stop :: rest /\
          bare_type (ty ++ [lst]) /\ te = lst :: stop :: rest)) ->
     head_written (ptok c) te name ret (w16 (N.of_nat (length ps))) ext exp
       (firstn (N.to_nat (w16 (N.of_nat (length ps)))) ps)).
  { intros te ret stop rest YB YS H. exists mods, po, last, b, after, ps.
    repeat (split; [assumption || reflexivity|]). exists stop, rest. auto. }
  unfold finish_proto.
  destruct (if ttype_eqb (t_type b) T_PAREN_CLOSE then is_potential_type after else None)
    as [[|e aft]|] eqn:EPT.
  - exfalso. destruct (ttype_eqb (t_type b) T_PAREN_CLOSE); [|discriminate].
    apply potential_type_spec in EPT as (ty & e & aft & _ & Q & _). discriminate.
  - destruct (ttype_eqb (t_type b) T_PAREN_CLOSE) eqn:YB; [|discriminate]. apply ttype_eqb_eq in YB.
    apply potential_type_spec in EPT as (ty & e' & aft' & E1 & Q & BT). inversion Q; subst e' aft'.
    destruct (tok_is aft (if ext then T_NEWLINE else T_BRACKET_OPEN)) eqn:TS.
    + apply tok_is_true in TS as (stop & rst & -> & YS).
      apply accept_proto_spec with ((mods ++ name :: po :: a) ++ b :: ty); auto.
      * rewrite TB, E1, <- !app_assoc. reflexivity.
      * apply (HW _ _ stop rst YB YS). right. exists ty, e. auto.
    + cbn [wp spost]. apply HR; [|destruct ext; exact I]. rewrite TB, E1. apply in_or_app. right. right. apply in_or_app. right. now left.
  - destruct (ttype_eqb (t_type b) T_PAREN_CLOSE && tok_is after (if ext then T_NEWLINE else T_BRACKET_OPEN)) eqn:TS.
    + apply andb_true_iff in TS as (YB & TS). apply ttype_eqb_eq in YB.
      apply tok_is_true in TS as (stop & rst & EAF & YS).
      apply accept_proto_spec with (mods ++ name :: po :: a); auto.
      apply (HW _ _ stop rst YB YS). left. auto.
    + destruct (negb (S (length after) =? length last)%nat); [cbn [wp spost]; now apply HR|].
      destruct (ext && _); [cbn [wp spost]; now apply HR|]. now cbn.
Qed.

(** * Blocks *)

(** What the parser of a block or program gives. *)
Definition tpost (ts0 : list token) (inner : bool) (s s' : pst) (tr : option (list node)) : Prop :=
  match tr with
  | None => exists used new, p_tok s = used ++ p_tok s' /\ p_msgs s' = new ++ p_msgs s /\
      p_err s' = true /\ (new <> [] \/ quiet_end (p_tok s)) /\ Forall (located' (p_tok s)) new
  | Some tree => exists used, p_tok s = used ++ p_tok s' /\ p_err s' = false /\
      p_msgs s' = p_msgs s /\ tree <> [] /\ tall (fine ts0) tree /\
      (if inner then exists t r, p_tok s' = t :: r /\ t_type t = T_BRACKET_CLOSE else p_tok s' = []) /\
      (blocks_follow true (p_tok s) -> flat_map node_syms tree = syms used)
  end.

Definition tspec (ts0 : list token) (n : nat) (sub : pst -> out pst (option (list node))) : Prop :=
  forall s, (S (length (p_tok s)) < n)%nat -> p_err s = false -> (exists a, ts0 = a ++ p_tok s) ->
    wp (safe_end (p_tok s)) (sub s) (tpost ts0 true s).

(** Effect of one or more steps of the statement loop. *)
Definition follows (c : nctx) : Prop :=
  n_pend c = [] /\ (n_done c = [] -> blocks_follow true (ptok c)) /\
  exists b, blocks_follow b (ptok c).
Definition readc (c : nctx) : list sym := flat_map node_syms (rev (n_done c)).

Definition moved (ts0 : list token) (c c' : nctx) (used : list token) : Prop :=
  ptok c = used ++ ptok c' /\ p_err (n_st c') = false /\ pmsg c' = pmsg c /\
  (tall (fine ts0) (n_done c) -> tall (fine ts0) (n_pend c) ->
    tall (fine ts0) (n_done c') /\ tall (fine ts0) (n_pend c')) /\
  (follows c -> follows c' /\ readc c' = readc c ++ syms used).

Lemma blocks_follow_app : forall a b fr, blocks_follow fr (a ++ b) -> exists fr', blocks_follow fr' b.
Proof.
  induction a as [|t a IH]; intros b fr H; [now exists fr|]. cbn [app blocks_follow] in H.
  destruct (t_type t); try (eapply IH; exact H). apply IH with true. apply H.
Qed.

Lemma moved_trans : forall ts0 c1 c2 c3 u1 u2, moved ts0 c1 c2 u1 -> moved ts0 c2 c3 u2 ->
  moved ts0 c1 c3 (u1 ++ u2).
Proof.
  intros ts0 c1 c2 c3 u1 u2 (T1 & E1 & M1 & F1 & R1) (T2 & E2 & M2 & F2 & R2).
  split; [now rewrite T1, T2, app_assoc|]. split; [easy|]. split; [congruence|]. split.
  { intros H H0. destruct (F1 H H0). now apply F2. }
  intro H. destruct (R1 H) as (X & Y). destruct (R2 X) as (X2 & Z). split; [easy|].
  now rewrite Z, Y, syms_app, app_assoc.
Qed.

Lemma pushed_moved : forall ts0 c c', (exists a, ts0 = a ++ ptok c) -> pushed c c' ->
  exists used, used <> [] /\ moved ts0 c c' used.
Proof.
  intros ts0 c c' (a0 & T0) (used & n & HN & T & E & M & D & P & CH & O & (a & TA) & W & NT & C).
  exists used. split; [easy|].
  assert (FN : fine ts0 n).
  { split; [exists (a0 ++ a); now rewrite T0, TA, app_assoc|]. split; [easy|]. split; [|intros _; exact NT].
    intros U. apply C. rewrite T0 in U. now apply uho_app in U. }
  split; [easy|]. split; [easy|]. split; [easy|]. split.
  { intros H1 H2. split.
    - rewrite D. apply tall_cons; auto. now rewrite CH.
    - rewrite P. apply tall_nil. }
  intros (HP & _ & b & H). split.
  { split; [easy|]. split; [intros X; rewrite D in X; discriminate|].
    rewrite T in H. now apply blocks_follow_app in H. }
  unfold readc. rewrite D. cbn [rev]. rewrite flat_map_app. cbn [flat_map].
  rewrite node_syms_own, O, CH, HP. cbn. now rewrite !app_nil_r.
Qed.

Lemma failed_fail : forall c c', reported c c' -> failed c (with_st c' (set_err (n_st c'))).
Proof. intros c c' (u & n & H1 & H2 & H3 & H4). exists u, n. repeat split; auto. Qed.

Lemma sub_tree_spec : forall ts0 n sub c t r, tspec ts0 n sub -> p_err (n_st c) = false ->
  (exists a, ts0 = a ++ ptok c) -> ptok c = t :: r -> t_type t = T_BRACKET_OPEN ->
  (length (ptok c) < n)%nat ->
  wp (safe_end (ptok c)) (parse_ast_sub_tree_ sub c)
    (fun c' _ => failed c c' \/ exists used, used <> [] /\ moved ts0 c c' used).
Proof.
  intros ts0 n sub c t r HS E (a0 & T0) ET Y HL. unfold parse_ast_sub_tree_.
  assert (ET' : p_tok (n_st c) = t :: r) by exact ET. rewrite ET'.
  set (G := let* (s0, _) := next_token (n_st c) in _).
  assert (HG : (forall m d, n_done c = m :: d -> n_child m = []) ->
     wp (safe_end (ptok c)) G (fun c' _ => failed c c' \/ exists used, used <> [] /\ moved ts0 c c' used)).
  { intro HC. unfold G, next_token. rewrite ET'. cbn [obind set_tok p_tok p_msgs].
    apply wp_bind. eapply wp_safe with (safe_end r).
    2:{ rewrite ET. apply (safe_end_app [t]). }
    eapply wp_mono; [apply (HS (mkpst r false (p_msgs (n_st c))))|].
    { cbn [p_tok]. rewrite ET in HL. cbn in HL. lia. }
    { easy. }
    { exists (a0 ++ [t]). rewrite <- app_assoc. cbn. now rewrite T0, ET. }
    cbn beta. intros s1 [tree|] H; cbn [tpost p_tok p_msgs] in H.
    2:{ destruct H as (used & new & T & M & EE & Q & L). cbn [wp]. left. exists (t :: used), new.
        repeat split; auto.
        - rewrite ET. unfold ptok. cbn. now f_equal.
        - rewrite ET. destruct Q as [Q|Q]; [now left|]. right. now apply (quiet_end_app [t]).
        - rewrite ET. eapply Forall_impl; [|exact L]. intro m. apply (located'_app [t]). }
    destruct H as (used & T & EE & M & HN & FT & (b & r1 & TB & YB) & RD).
    destruct tree as [|[ty tok te p ch] tree]; [easy|]. rewrite EE.
    destruct tok as [|tk tok].
    { cbn [p_tok]. rewrite TB. cbn [wp]. left.
      exists (t :: used), [mkmsg P_EMPTY_BLOCK (Some (t_loc b))]. repeat split; auto.
      - rewrite ET. unfold ptok. cbn. f_equal. now rewrite <- TB.
      - cbn. unfold pmsg. now rewrite M.
      - left. discriminate.
      - constructor; [|constructor]. do 2 right. exists b. split; [|easy]. rewrite ET, T, TB. right. apply in_or_app. right. now left. }
    unfold next_token. cbn [p_tok]. rewrite TB. cbn [obind].
    set (tree1 := mknode ty (tk :: tok) te p ch :: tree) in *.
    assert (TT : ptok c = (t :: used ++ [b]) ++ r1).
    { rewrite ET, T, TB. cbn. now rewrite <- app_assoc. }
    destruct (n_done c) as [|[ty2 a2 b2 p2 ch2] d] eqn:ED; cbn [wp]; right; exists (t :: used ++ [b]); (split; [discriminate|]).
    - split; [exact TT|]. split; [cbn; exact E|]. split; [exact M|]. split; [intros _ _; split; [apply tall_nil|exact FT]|].
      intros (_ & X & _). specialize (X ED). rewrite ET in X. cbn [blocks_follow] in X. rewrite Y in X.
      destruct X. discriminate.
    - split; [exact TT|]. split; [cbn; exact E|]. split; [exact M|]. split.
      { intros F1 F2. split; [|exact F2]. rewrite ED in F1. apply tall_inv in F1 as (F1 & _ & F3). apply tall_cons; auto. }
      intros (X1 & X2 & bb & X3). split.
      { split; [exact X1|]. split; [discriminate|]. rewrite TT in X3. now apply blocks_follow_app in X3. }
      unfold readc. cbn [n_done]. rewrite ED. cbn [rev]. rewrite !flat_map_app. cbn [flat_map]. rewrite !app_nil_r.
      rewrite <- app_assoc. f_equal. rewrite !node_syms_own. cbn [n_child].
      pose proof (HC _ _ eq_refl) as HC1. cbn in HC1. subst ch2. cbn [flat_map]. rewrite app_nil_r.
      change (own (mknode ty2 a2 b2 p2 tree1)) with (own (mknode ty2 a2 b2 p2 [])). f_equal.
      rewrite RD.
      + change (t :: used ++ [b]) with ([t] ++ used ++ [b]). rewrite !syms_app.
        assert (Z1 : syms [t] = []) by (unfold syms, sym_of; cbn; now rewrite Y).
        assert (Z2 : syms [b] = []) by (unfold syms, sym_of; cbn; now rewrite YB).
        rewrite Z1, Z2. cbn. now rewrite app_nil_r.
      + rewrite ET in X3. cbn [blocks_follow] in X3. rewrite Y in X3. apply X3. }
  destruct (n_done c) as [|[ty2 a2 b2 p2 [|c2 ch2]] d] eqn:ED.
  - apply HG. discriminate.
  - apply HG. intros m d' X. inversion X; subst. reflexivity.
  - cbn [wp]. left. exists [], [mkmsg P_UNEXPECTED_CODE_BLOCK (Some (t_loc t))]. repeat split; auto.
    + left. discriminate.
    + constructor; [|constructor]. do 2 right. exists t. rewrite ET. split; [now left|easy].
Qed.

Lemma ast_node_spec : forall ts0 n sub f indent c, tspec ts0 n sub -> p_err (n_st c) = false ->
  (exists a, ts0 = a ++ ptok c) -> ptok c <> [] -> (length (ptok c) < n)%nat ->
  (length (ptok c) < f)%nat ->
  wp (safe_end (ptok c)) (parse_ast_node sub f indent c) (fun c' d =>
    failed c c' \/
    (d = false /\ exists used, used <> [] /\ moved ts0 c c' used) \/
    (d = true /\ c' = c /\ indent <> 0%nat /\ exists t r, ptok c = t :: r /\ t_type t = T_BRACKET_CLOSE)).
Proof.
  intros ts0 n sub f indent c HS E T0 HNE HL HF. unfold parse_ast_node.
  destruct (p_tok (n_st c)) as [|t r] eqn:ET; [unfold ptok in HNE; congruence|].
  assert (ETC : ptok c = t :: r) by exact ET.
  set (Q := fun (c' : nctx) (d : bool) => _ \/ _).
  set (cont := fun x : out nctx unit => let* (c1, _) := x in Ret c1 false).
  assert (HC1 : forall x, wp True x (fun c' _ => failed c c' \/ pushed c c') -> wp (safe_end (ptok c)) (cont x) Q).
  { intros x H. unfold cont. apply wp_bind. eapply wp_safe with True; [|easy]. eapply wp_mono; [exact H|].
    intros c' _ [X|X]; cbn [wp]; [now left|]. right. left. split; [easy|]. now apply pushed_moved. }
  assert (HC2 : forall x, wp True x (fun c' _ => pushed c c') -> wp (safe_end (ptok c)) (cont x) Q).
  { intros x H. apply HC1. eapply wp_mono; [exact H|]. cbn beta. tauto. }
  assert (HK : forall ty k, keyword ty k -> t_type t = k -> keyword ty (t_type t)) by (intros; congruence).
  assert (HSKIP : layout (t_type t) = true -> t_type t = T_NEWLINE \/ t_type t = T_COMMA ->
     wp (safe_end (ptok c)) (let* (s1, _) := next_token (n_st c) in Ret (with_st c s1) false) Q).
  { intros LY YY. unfold next_token. rewrite ET. cbn [obind wp]. right. left. split; [easy|]. exists [t]. split; [discriminate|].
    split; [now rewrite ETC|]. split; [exact E|]. split; [easy|]. split; [auto|].
    assert (Z1 : syms [t] = []) by (unfold syms, sym_of; cbn; now rewrite LY).
    intros (X1 & X2 & bb & X3). rewrite Z1, app_nil_r. split; [|easy]. rewrite ETC in X2, X3.
    cbn [blocks_follow] in X2, X3.
    split; [exact X1|]. split; [intro D; specialize (X2 D)|]; destruct YY as [YY|YY]; rewrite YY in *; eauto. }
  assert (HDEF : wp (safe_end (ptok c))
    (let* (c1, r1) := parse_function_proto c in
          let* (c2, r2) := match r1 with
                           | RESULT_IGNORE => parse_var_def f c1 | _ => Ret c1 r1 end in
          let* (c3, r3) := match r2 with
                           | RESULT_IGNORE => parse_var_assign f c2 | _ => Ret c2 r2 end in
          let* (c4, r4) :=
            match r3 with
            | RESULT_IGNORE =>
                let last := p_tok (n_st c3) in
                let* (s4, e) := parse_expression f (n_st c3) in
                match e with
                | Some e =>
                    Ret (push_ast_node c3 s4 last (p_tok s4) N_EXPR (PExpr e)) RESULT_IGNORE
                | None =>
                    if p_err s4 then Ret (with_st c3 s4) RESULT_ERROR
                    else Ret (with_st c3
                                (report (P_UNEXPECTED_TOKEN (hd_error (p_tok s4)))
                                   (option_map t_loc (hd_error (p_tok s4))) s4)) RESULT_ERROR
                end
            | _ => Ret c3 r3
            end in
          match r4 with
          | RESULT_ERROR => Ret (with_st c4 (set_err (n_st c4))) false
          | _ => Ret c4 false
          end) Q).
  { assert (HPUSH : forall c', pushed c c' -> Q c' false).
    { intros c' H. right. left. split; [easy|]. now apply pushed_moved. }
    assert (HREP : forall c', reported c c' -> Q (with_st c' (set_err (n_st c'))) false).
    { intros c' H. left. now apply failed_fail. }
    apply wp_bind. eapply wp_mono; [apply (proto_spec c E HNE)|]. intros c1 [| |] H1; cbn [spost] in H1; cbn [obind wp].
    - now apply HPUSH.
    - subst c1. apply wp_bind. eapply wp_mono; [apply (var_def_spec f c E HNE HF)|].
      intros c2 [| |] H2; cbn [spost] in H2; cbn [obind wp].
      + now apply HPUSH.
      + subst c2. apply wp_bind. eapply wp_mono; [apply (assign_spec f c E HNE HF)|].
        intros c3 [| |] H3; cbn [spost] in H3; cbn [obind wp].
        * now apply HPUSH.
        * subst c3. apply wp_bind. cbv zeta. apply wp_bind. eapply wp_safe with True; [|easy].
          eapply wp_mono; [apply (expr_run (n_st c) E f HF)|]. cbn beta.
          intros s4 [e|] (used & A & H4).
          -- cbn [wp obind]. apply HPUSH. destruct H4 as (HN & HE & HM & HY & HCC).
             apply push_pushed with used; auto.
             ++ apply (a_tok _ _ _ A).
             ++ exists []. reflexivity.
             ++ cbn. eauto.
             ++ intros U e0 Z. inversion Z; subst e0. now apply HCC.
          -- destruct (p_err s4) eqn:EE.
             ++ cbn [wp obind]. apply HREP. now apply (err_reported c s4 (n_st c) used []).
             ++ cbn [wp obind]. apply HREP.
                apply (adv_reported c s4 (n_st c) used [] _ (p_err s4) A); auto.
                destruct (H4 eq_refl) as (-> & _).
                destruct (p_tok s4) as [|b q1] eqn:EB; cbn; [pose proof (a_tok _ _ _ A) as Z; rewrite EB in Z; contradiction|].
                do 2 right. exists b. split; [|easy].
                unfold ptok. rewrite (a_tok _ _ _ A), EB. apply in_or_app. right. now left.
        * now apply HREP.
      + now apply HREP.
    - now apply HREP. }
  destruct (t_type t) eqn:Y; try exact HDEF;
    try (apply HSKIP; [easy|]; tauto);
    try (apply HC2; eapply simple_spec; eauto; [rewrite Y; unfold keyword; cbn; tauto|cbn; tauto]);
    try (apply HC1; eapply condition_spec; eauto; [rewrite Y; unfold keyword; cbn; tauto|cbn; tauto]).
  - apply HC1. eapply return_spec; eauto.
  - apply HC1. eapply import_spec; eauto.
  - apply HC1. eapply namespace_spec; eauto.
  - unfold cont. apply wp_bind. eapply wp_mono; [apply (sub_tree_spec ts0 n sub c t r); auto|].
    intros c' _ [X|X]; cbn [wp]; [now left|]. right. left. auto.
  - destruct indent; cbn [wp].
    + left. exists [], [mkmsg P_MISSING_OPEN_BRAK (Some (t_loc t))]. repeat split; auto. * left. discriminate.
      * constructor; [|constructor]. do 2 right. exists t. rewrite ETC. split; [now left|easy].
    + right. right. repeat split; auto. eauto.
Qed.

Lemma tree_loop_spec : forall ts0 n sub f indent c, tspec ts0 n sub -> p_err (n_st c) = false ->
  (exists a, ts0 = a ++ ptok c) -> (length (ptok c) < n)%nat -> (length (ptok c) < f)%nat ->
  wp (safe_end (ptok c)) (tree_loop sub f indent c) (fun c' _ =>
    failed c c' \/
    exists used, moved ts0 c c' used /\
      (ptok c' = [] \/ (indent <> 0%nat /\ exists t r, ptok c' = t :: r /\ t_type t = T_BRACKET_CLOSE))).
Proof.
  intros ts0 n sub f. induction f as [|f IH]; intros indent c HS E T0 HL HF; [lia|]. cbn [tree_loop].
  assert (HREFL : moved ts0 c c []).
  { split; [easy|]. split; [easy|]. split; [easy|]. split; [auto|]. intro X. split; [easy|]. cbn. now rewrite app_nil_r. }
  destruct (p_tok (n_st c)) as [|t r] eqn:ET.
  { cbn [wp]. right. exists []. auto. }
  apply wp_bind. eapply wp_mono; [apply (ast_node_spec ts0 n sub (S f) indent c); auto|].
  { unfold ptok. rewrite ET. discriminate. }
  cbn beta. intros c1 d [F|[(-> & used & HN & MV)|(-> & -> & HI & HB)]].
  - destruct F as (u & nw & F1 & F2 & F3 & F4). rewrite F3, orb_true_r. cbn [wp]. left. exists u, nw. auto.
  - destruct MV as (T1 & E1 & MV). rewrite E1. cbn [orb].
    assert (LEN : (length (ptok c) = length used + length (ptok c1))%nat) by (now rewrite T1, app_length).
    assert (0 < length used)%nat by (destruct used; [easy|cbn; lia]).
    eapply wp_safe with (safe_end (ptok c1)).
    2:{ rewrite T1. apply safe_end_app. }
    eapply wp_mono; [apply (IH indent c1 HS E1)|]; try lia.
    { destruct T0 as (a0 & T0). exists (a0 ++ used). now rewrite <- app_assoc, <- T1. }
    cbn beta. intros c2 _ [F|(used2 & MV2 & HE)].
    + left. destruct F as (u & nw & F1 & F2 & F3 & F4 & F5). exists (used ++ u), nw.
      split; [now rewrite T1, F1, app_assoc|].
      split; [rewrite F2; f_equal; apply MV|]. split; [easy|]. split.
      * destruct F4 as [F4|F4]; [now left|]. right. rewrite T1. now apply quiet_end_app.
      * eapply Forall_impl; [|exact F5]. intro m. rewrite T1. apply located'_app.
    + right. exists (used ++ used2). split; [|easy]. apply moved_trans with c1; [|easy]. split; [exact T1|]. split; [exact E1|exact MV].
  - cbn [orb wp]. right. exists []. split; [easy|]. right. auto.
Qed.

Lemma tree_spec_gen : forall ts0 f indent s, (S (length (p_tok s)) < f)%nat -> p_err s = false ->
  (exists a, ts0 = a ++ p_tok s) ->
  wp (safe_end (p_tok s)) (parse_ast_tree_ f indent s)
    (tpost ts0 (match indent with O => false | S _ => true end) s).
Proof.
  intros ts0 f. induction f as [|f IH]; intros indent s HL E T0; [lia|]. cbn [parse_ast_tree_].
  apply wp_bind.
  eapply wp_mono; [apply (tree_loop_spec ts0 f (parse_ast_tree_ f (S indent)) f indent (mknctx s [] []))|]; auto.
  { intros s1 H1 H2 H3. apply (IH (S indent) s1 H1 H2 H3). }
  { unfold ptok. cbn [n_st]. lia. }
  { unfold ptok. cbn [n_st]. lia. }
  cbn beta. intros c' _ [F|(used & MV & HE)].
  - destruct F as (u & nw & F1 & F2 & F3 & F4). rewrite F3. cbn [wp tpost]. exists u, nw. auto.
  - destruct MV as (T1 & E1 & M1 & FN & RD). rewrite E1. unfold ptok in T1. cbn [n_st] in T1.
    assert (HOK : (if (match indent with O => false | S _ => true end) then exists t r, p_tok (n_st c') = t :: r /\ t_type t = T_BRACKET_CLOSE else p_tok (n_st c') = []) ->
       tpost ts0 (match indent with O => false | S _ => true end) s (n_st c')
         (Some match n_done c' with [] => [mknode N_UNKNOWN [] [] PNone (n_pend c')] | _ :: _ => rev (n_done c') end)).
    { intro HX. exists used. split; [easy|]. split; [easy|]. split; [easy|].
      destruct (FN (tall_nil _) (tall_nil _)) as (F1 & F2). cbn [n_pend n_done] in F1, F2.
      split. { destruct (n_done c'); [discriminate|]. cbn. now destruct (rev l). }
      split.
      { destruct (n_done c') eqn:ED.
        - apply tall_cons; [|exact F2|apply tall_nil]. split; [exists ts0; cbn; now rewrite app_nil_r|].
          split; [easy|]. split; [discriminate|]. intro X. now destruct X.
        - now apply tall_rev. }
      split; [exact HX|]. intro BF.
      destruct RD as ((P & _) & RD). { split; [easy|]. split; [auto|]. exists true. exact BF. }
      unfold readc in RD. cbn [n_done rev flat_map app] in RD. rewrite <- RD.
      destruct (n_done c') eqn:ED; [|easy]. rewrite P. reflexivity. }
    unfold ptok in HE. destruct (p_tok (n_st c')) as [|t r] eqn:EP.
    + destruct indent; cbn [wp].
      * apply HOK. reflexivity.
      * cbn [tpost]. exists used, [mkmsg P_EOF_NO_BRACKET None].
        split; [cbn; now rewrite EP|]. split; [cbn; f_equal; exact M1|]. split; [easy|].
        split; [left; discriminate|]. constructor; [now left|constructor].
    + destruct HE as [HE|(HI & t' & r' & HE & YE)]; [discriminate|]. inversion HE; subst t' r'.
      destruct indent; [easy|]. cbn [wp]. apply HOK. eauto.
Qed.

Definition parsed (ts : list token) (ms : list message) (tr : option (list node)) : Prop :=
  match tr with
  | None => (ms <> [] \/ quiet_end ts) /\ Forall (located' ts) ms
  | Some tree => ms = [] /\ tree <> [] /\ tall (fine ts) tree /\
      (blocks_follow true ts -> flat_map node_syms tree = syms ts)
  end.

Lemma parse_spec : forall ts, wp (safe_end ts) (parse_ast_tree ts) (parsed ts).
Proof.
  intro ts. unfold parse_ast_tree. apply wp_bind.
  eapply wp_mono; [apply (tree_spec_gen ts (S (S (length ts))) 0 (mkpst ts false []))|].
  { cbn. lia. } { easy. } { now exists []. }
  cbn beta. intros s [tree|] H; cbn [tpost p_tok p_msgs] in H; cbn [wp].
  - destruct H as (used & T & E & M & HN & F & TE & RD). rewrite E, M. cbn [rev option_map parsed].
    split; [easy|]. rewrite TE, app_nil_r in T. subst used.
    destruct tree as [|[ty [|tk tok] te p ch] tree]; [easy| |]; cbn [set_head_token].
    + split; [discriminate|].
      apply tall_inv in F as (F1 & F2 & F3). destruct F1 as (_ & W & C & X). cbn [n_type n_token] in X.
      assert (ty = N_UNKNOWN) as -> by (destruct ty; auto; exfalso; now apply X).
      split.
      { apply tall_cons; auto. split; [now exists []|]. split; [exact W|]. split; [exact C|]. intro Z. now destruct Z. }
      intro BF. rewrite <- (RD BF). cbn [flat_map node_syms]. reflexivity.
    + split; [discriminate|]. auto.
  - destruct H as (used & new & T & M & E & Q & L). rewrite E, M. cbn [parsed]. rewrite app_nil_r. split.
    + destruct Q as [Q|Q]; [|now right]. left. intro X. apply Q.
      rewrite <- (rev_involutive new), X. reflexivity.
    + now apply Forall_rev.
Qed.
