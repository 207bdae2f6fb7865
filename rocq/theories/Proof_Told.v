(** Proofs that the messages of the checks point at what they are about. *)
From Coq Require Import List Arith NArith ZArith Bool Lia Ascii String.
From Verif Require Import Base Model_Token Model_Utf8 Model_Classify Model_Literal Model_Parse Model_Sem.
From Verif Require Import Spec_Parse Spec_Sem Spec_Errors Proof_Parse Proof_Parse2 Proof_Parse4 Proof_Parse5 Proof_Sem Proof_Sem2 Proof_Sem4 Proof_Sem7 Proof_Sem8 Model_Classify Model_Literal.
Import ListNotations.
Open Scope list_scope.
Open Scope N_scope.

(** * Escapes *)

Lemma rd0 : forall s c, rd s 0 = Ok c -> c <> 0 -> exists r, s = c :: r.
Proof.
  intros [|x r] c H N; cbn in H; inversion H; subst; [congruence|]. eauto.
Qed.

Lemma escape_prefix : forall s, c32sunescape s = Ok None -> exists b, s = bad_escape s ++ b.
Proof.
  intros s H. unfold c32sunescape in H. apply bind_ok in H as (c & RC & H).
  destruct (c =? 92) eqn:C; cbn [negb] in H; [|discriminate]. apply N.eqb_eq in C. subst c.
  destruct (rd0 _ _ RC) as (r & ->); [discriminate|]. destruct r as [|e r]; [exists []; reflexivity|].
  unfold bad_escape. destruct r as [|o r]; [exists []; reflexivity|].
  destruct ((e =? chr "x") && negb ((o =? 39) || (o =? 34))); [exists r|exists (o :: r)]; reflexivity.
Qed.

Lemma from_ptr_suffix : forall src p s, from_ptr src p = Ok s -> exists a, src = a ++ s.
Proof.
  intros src [b|] s H; cbn in H; [|discriminate]. destruct (b <=? List.length src)%nat; [|discriminate]. inversion H; subst.
  exists (firstn b src). symmetry. apply firstn_skipn.
Qed.

Definition escaped (src : text) (e : literr) : Prop :=
  match e with ERR_BAD_ESCAPE w => exists a b, src = a ++ w ++ b | _ => True end.

Lemma suffix_escaped : forall src a s, src = a ++ s -> c32sunescape s = Ok None -> escaped src (ERR_BAD_ESCAPE (bad_escape s)).
Proof.
  intros src a s E H. destruct (escape_prefix s H) as (b & EB). exists a, b. rewrite E. f_equal. exact EB.
Qed.

Lemma rune_escaped : forall wide src t e, eval_rune wide src t = Ok (Model_Literal.Bad e) -> escaped src e.
Proof.
  intros wide src t e H. unfold eval_rune in H. apply bind_ok in H as (s & HS & H). apply from_ptr_suffix in HS as (a & EA).
  apply bind_ok in H as (c & _ & H). apply bind_ok in H as (k & _ & H). destruct k; [inversion H; exact I|].
  apply bind_ok in H as (r & HR & H). destruct r as [(v, adv)|].
  - apply bind_ok in H as (q & _ & H). destruct (negb (q =? 39)); [inversion H; exact I|]. destruct (c32rtomb v); inversion H; exact I.
  - assert (EE : e = ERR_BAD_ESCAPE (bad_escape s)) by congruence. subst e. exact (suffix_escaped src a s EA HR).
Qed.

Lemma loop_escaped : forall src fuel cap s left out e a, src = a ++ s ->
  str_loop fuel cap s left out = Some (Ok (Model_Literal.Bad e)) -> escaped src e.
Proof.
  intros src fuel cap. induction fuel as [|f IH]; intros s left out e a ES H; cbn [str_loop] in H; [discriminate|].
  destruct s as [|x s].
  - destruct (List.length out <? cap)%nat; discriminate.
  - destruct left as [|left]; [destruct (List.length out <? cap)%nat; discriminate|].
    destruct (List.length out <? cap)%nat; [|discriminate]. destruct (c32sunescape (x :: s)) as [[(v, adv)|]|] eqn:U; [| |discriminate].
    + apply (IH _ _ _ _ (a ++ firstn (adv + 1) (x :: s))) in H; [exact H|]. rewrite <- app_assoc, firstn_skipn. exact ES.
    + assert (EE : e = ERR_BAD_ESCAPE (bad_escape (x :: s))) by congruence. subst e. exact (suffix_escaped src a _ ES U).
Qed.

Lemma str_escaped : forall src t e, const_str src t = Some (Ok (Model_Literal.Bad e)) -> escaped src e.
Proof.
  intros src t e H. unfold const_str in H. destruct (eval_str src t) as [[[v|e']|]|] eqn:E; try discriminate.
  - destruct (c32stombs (cut_nul v)); inversion H; exact I.
  - assert (EE : e = e') by congruence. subst e'. unfold eval_str in E. destruct (from_ptr src (option_map S (t_begin t))) as [s|] eqn:F; [|discriminate].
    apply from_ptr_suffix in F as (a & EA). exact (loop_escaped src _ _ _ _ _ _ a EA E).
Qed.

Lemma integer_escaped : forall src t e, eval_integer src t = Ok (Model_Literal.Bad e) -> e = ERR_OVERFLOW.
Proof.
  intros src t e H. unfold eval_integer in H. apply bind_ok in H as (s & _ & H). apply bind_ok in H as (c & _ & H).
  apply bind_ok in H as ((off, base) & _ & H). apply bind_ok in H as (n1 & _ & H). apply bind_ok in H as (n2 & _ & H).
  destruct (strtoll n2 base) as (ret, er). destruct (((ret =? LLONG_MAX)%Z || (ret =? LLONG_MIN)%Z) && er); congruence.
Qed.

(** * The checks *)

Section Told.

Variable w : world.
Variable src : text.
Variable ts : list token.
Variable tree : list node.

Local Notation P := (check_points src ts tree).

(** The node as the parser makes it. *)
Definition made (n : node) : Prop :=
  (exists a, ts = a ++ n_token n) /\ written n /\ (forall e, node_expr n = Some e -> shaped ts e) /\
  (n_type n <> N_UNKNOWN -> n_token n <> []).

Hypothesis MADE : forall n, in_tree n tree -> made n.

Definition sym_ok (y : symbol) : Prop := exists t, In t ts /\ y_loc y = t_loc t /\ spells src t (y_name y).
Definition named (l : list symbol) (k : nat) : Prop :=
  k = 0%nat \/ exists y, nth_error l k = Some y /\ function_name src tree (y_name y).

Record good (s : sst) : Prop := {
  g_msgs : Forall P (s_msgs s);
  g_some : (0 < List.length (s_syms s))%nat;
  g_syms : forall k y, nth_error (s_syms s) (S k) = Some y -> sym_ok y;
  g_cur : named (s_syms s) (s_cur s);
  g_last : forall l, s_last s = Some l -> named (s_syms s) l }.

Definition held (s0 s : sst) : Prop :=
  s_cur s0 <> 0%nat -> s_cur s <> 0%nat /\ (s_last s0 <> Some 0%nat -> s_last s <> Some 0%nat).

Definition told {A} (s0 : sst) (Q : sst -> A -> Prop) (r : sres A) : Prop :=
  match r with
  | Pass s a => good s /\ held s0 s /\ Q s a
  | Stop m => Forall P m
  | Crash => True
  end.

Lemma held_refl : forall s, held s s.
Proof. intros s H. auto. Qed.
Lemma held_trans : forall a b c, held a b -> held b c -> held a c.
Proof. intros a b c X Y H. destruct (X H) as (H1 & H2). destruct (Y H1) as (H3 & H4). auto. Qed.
Lemma held_same : forall a b, s_cur b = s_cur a -> s_last b = s_last a -> held a b.
Proof. intros a b E1 E2 H. rewrite E1, E2. auto. Qed.

Lemma told_bind : forall A B s0 Q (R : sst -> B -> Prop) (r : sres A) f, told s0 Q r ->
  (forall s a, good s -> held s0 s -> Q s a -> told s R (f s a)) -> told s0 R (sbind r f).
Proof.
  intros A B s0 Q R [s a|m|] f H F; cbn in *; auto. destruct H as (G & H & HQ). specialize (F s a G H HQ).
  destruct (f s a) as [s2 b|m|]; cbn in *; auto. destruct F as (F1 & F2 & F3). split; [auto|]. split; [|auto].
  exact (held_trans _ _ _ H F2).
Qed.
Lemma told_get : forall A B s0 (R : sst -> B -> Prop) (r : res A) f, (forall a, r = Ok a -> told s0 R (f a)) -> told s0 R (rbind r f).
Proof. intros A B s0 R [a|] f H; cbn; auto. Qed.
Lemma told_weak : forall A s0 (Q R : sst -> A -> Prop) r, told s0 Q r -> (forall s a, good s -> Q s a -> R s a) -> told s0 R r.
Proof. intros A s0 Q R [s a|m|] H F; cbn in *; auto. destruct H as (G & H & HQ). auto. Qed.
Lemma told_from : forall A s0 s1 (Q : sst -> A -> Prop) r, held s0 s1 -> told s1 Q r -> told s0 Q r.
Proof.
  intros A s0 s1 Q [s a|m|] H F; cbn in *; auto. destruct F as (G & H1 & HQ). split; [auto|]. split; [|auto]. exact (held_trans _ _ _ H H1).
Qed.
Lemma told_pass : forall A s (Q : sst -> A -> Prop) a, good s -> Q s a -> told s Q (Pass s a).
Proof. intros. cbn. auto using held_refl. Qed.
Lemma told_stop : forall A s0 s (Q : sst -> A -> Prop), good s -> told s0 Q (Stop (s_msgs s)).
Proof. intros. cbn. now apply g_msgs. Qed.

Lemma fail_at : forall A s0 (Q : sst -> A -> Prop) c t s, good s -> In t ts -> fits_token src ts t c ->
  told s0 Q (reject c (Some (t_loc t)) s).
Proof.
  intros A s0 Q c t s G I F. cbn. constructor; [|now apply g_msgs]. exists t. auto.
Qed.
Lemma fail_no : forall A s0 (Q : sst -> A -> Prop) c s, good s -> fits_program src tree c -> told s0 Q (reject c None s).
Proof. intros A s0 Q c s G F. cbn. constructor; [exact F|now apply g_msgs]. Qed.
Lemma fail_loc : forall A s0 (Q : sst -> A -> Prop) c tok s, good s ->
  (forall t r, tok = t :: r -> In t ts /\ fits_token src ts t c) ->
  told s0 Q (rbind (loc_of tok) (fun l => reject c (Some l) s)).
Proof.
  intros A s0 Q c [|t r] s G F; cbn [loc_of rbind]; [exact I|]. destruct (F t r eq_refl). now apply fail_at.
Qed.

(** ** States *)

Lemma good_same : forall s s', s_msgs s' = s_msgs s -> s_syms s' = s_syms s -> s_cur s' = s_cur s -> s_last s' = s_last s ->
  good s -> good s'.
Proof. intros s s' E1 E2 E3 E4 [A B C D E]. constructor; rewrite ?E1, ?E2, ?E3, ?E4; auto. Qed.

Lemma named_upd : forall l i k j, named l j -> named (upd l i (put_kind k)) j.
Proof.
  intros l i k j [E|(y & E & F)]; [now left|]. right. destruct (Nat.eq_dec i j) as [->|NE].
  - exists (put_kind k y). split; [now apply nth_upd_same|exact F].
  - exists y. split; [now rewrite nth_upd_other|exact F].
Qed.

Lemma good_kind : forall s i k, good s -> good (set_kind s i k).
Proof.
  intros s i k [A B C D E]. constructor; cbn [set_kind set_syms s_msgs s_syms s_cur s_last]; auto.
  - now rewrite upd_length.
  - intros j y H. destruct (Nat.eq_dec i (S j)) as [->|NE].
    + destruct (nth_error (s_syms s) (S j)) as [z|] eqn:Z.
      * rewrite (nth_upd_same _ _ _ _ _ Z) in H. inversion H; subst. destruct (C j z Z) as (t & T). exists t. exact T.
      * apply nth_error_None in Z. rewrite <- (upd_length _ (s_syms s) (S j) (put_kind k)) in Z. apply nth_error_None in Z. congruence.
    + rewrite nth_upd_other in H by exact NE. now apply (C j).
  - now apply named_upd.
  - intros l H. apply named_upd. auto.
Qed.
Lemma held_kind : forall s i k, held s (set_kind s i k).
Proof. intros. now apply held_same. Qed.

Lemma good_say : forall s c l, good s -> P (mksmsg c l) -> good (say c l s).
Proof. intros s c l [A B C D E] H. constructor; cbn [say set_msgs s_msgs s_syms s_cur s_last]; auto. Qed.

Lemma named_app : forall l y k, named l k -> named (l ++ [y]) k.
Proof.
  intros l y k [E|(z & E & F)]; [now left|]. right. exists z. split; [|exact F]. rewrite nth_error_app1; [exact E|].
  apply nth_error_Some. congruence.
Qed.

Lemma good_app : forall s y, good s -> sym_ok y -> good (set_syms s (s_syms s ++ [y])).
Proof.
  intros s y [A B C D E] H. constructor; cbn [set_syms s_msgs s_syms s_cur s_last]; auto.
  - rewrite app_length. lia.
  - intros k z Z. destruct (lt_dec (S k) (List.length (s_syms s))) as [L|L].
    + rewrite nth_error_app1 in Z by exact L. now apply (C k).
    + rewrite nth_error_app2 in Z by lia. destruct (S k - List.length (s_syms s))%nat as [|j]; cbn in Z; [inversion Z; now subst|].
      now destruct j.
  - now apply named_app.
  - intros l L. apply named_app. auto.
Qed.

Definition same4 (s s' : sst) : Prop :=
  s_msgs s' = s_msgs s /\ s_syms s' = s_syms s /\ s_cur s' = s_cur s /\ s_last s' = s_last s.

Lemma reset_4 : forall s s', reset_scope_head s = Ok s' -> same4 s s'.
Proof. intros s s' H. unfold reset_scope_head in H. apply bind_ok in H as (h & _ & H). inversion H; subst. now repeat split. Qed.
Lemma restore_4 : forall s s', restore_parent_scope s = Ok s' -> same4 s s'.
Proof.
  intros s s' H. unfold restore_parent_scope in H. apply bind_ok in H as (s1 & H1 & H). apply reset_4 in H1.
  destruct (s_scope s1); [|inversion H; subst; exact H1]. apply bind_ok in H as (c & _ & H). inversion H; subst. exact H1.
Qed.
Lemma adjacent_4 : forall s s', make_adjacent_scope s = Ok s' -> same4 s s'.
Proof. intros s s' H. unfold make_adjacent_scope in H. destruct (s_scope s); [|discriminate]. inversion H; subst. now repeat split. Qed.
Lemma child_4 : forall s s', make_child_scope s = Ok s' -> same4 s s'.
Proof.
  intros s s' H. unfold make_child_scope in H. destruct (s_scope s).
  - apply bind_ok in H as (c & _ & H). destruct (c_child c); inversion H; subst; now repeat split.
  - unfold make_scope in H. apply bind_ok in H as (c & _ & H). destruct (c_child c); inversion H; subst; now repeat split.
Qed.
Lemma good_4 : forall s s', same4 s s' -> good s -> good s'.
Proof. intros s s' (A & B & C & D). now apply good_same. Qed.
Lemma held_4 : forall s s', same4 s s' -> held s s'.
Proof. intros s s' (A & B & C & D). now apply held_same. Qed.

Lemma told_4 : forall A s (Q : sst -> A -> Prop) (r : res sst) f, (forall s', r = Ok s' -> same4 s s') -> good s ->
  (forall s', good s' -> same4 s s' -> told s' Q (f s')) -> told s Q (rbind r f).
Proof.
  intros A s Q r f H G F. apply told_get. intros s' E. specialize (H s' E). apply told_from with s'; [now apply held_4|].
  apply F; [now apply good_4 with s|exact H].
Qed.

Definition any {A} (s : sst) (a : A) : Prop := True.

Lemma add_told : forall s y, good s -> sym_ok y ->
  told s (fun s' o => s_cur s' = s_cur s /\ s_last s' = s_last s /\
    forall k, o = Some k -> k <> 0%nat /\ nth_error (s_syms s') k = Some y) (scope_add_symbol s y).
Proof.
  intros s y G OK. unfold scope_add_symbol. apply told_get. intros old _. destruct old as [t|].
  - destruct OK as (tk & I & L & SP).
    destruct (redefinition t (symtype_of (y_kind y)) (y_name y)) as [c|] eqn:R.
    + cbn. split; [|split; [now apply held_same|]; split; [easy|]; split; [easy|discriminate]].
      apply good_say; [exact G|]. exists tk. split; [exact I|]. split; [exact L|]. cbn [sm_code].
      unfold redefinition in R. destruct t, (y_kind y); cbn in R; inversion R; subst; cbn [fits_token]; try exact SP;
        (split; [exact SP|discriminate]).
    + cbn. split; [exact G|]. split; [apply held_refl|]. split; [easy|]. split; [easy|discriminate].
  - assert (X : exists s1 i, (match s_scope s with Some i => (s, i) | None => make_scope s end) = (s1, i) /\ same4 s s1).
    { destruct (s_scope s) as [i|]; [exists s, i|unfold make_scope; eexists _, _]; (split; [reflexivity|now repeat split]). }
    destruct X as (s1 & i & -> & S4). apply told_get. intros c _. cbv zeta.
    destruct (assoc match c_syms c with Some t => t | None => [] end (y_name y)) as [k|].
    + destruct S4 as (A & B & C & D). cbn. split; [apply (good_same s); auto|]. split; [now apply held_same|].
      split; [exact C|]. split; [exact D|discriminate].
    + destruct S4 as (A & B & C & D). cbn [told]. split; [|split; [|split; [exact C|split; [exact D|]]]].
      * apply (good_same (set_syms s (s_syms s ++ [y]))); cbn; auto; [now rewrite B|]. now apply good_app.
      * now apply held_same.
      * intros k E. inversion E; subst k. cbn. rewrite B. split; [pose proof (g_some _ G); lia|].
        rewrite nth_error_app2 by lia. rewrite Nat.sub_diag. reflexivity.
Qed.

Lemma stop_told : forall s y, good s -> sym_ok y ->
  told s (fun s' k => s_cur s' = s_cur s /\ s_last s' = s_last s /\ k <> 0%nat /\ nth_error (s_syms s') k = Some y) (add_or_stop s y).
Proof.
  intros s y G OK. unfold add_or_stop. eapply told_bind; [apply (add_told s y G OK)|].
  intros s1 o G1 H1 (E1 & E2 & K). destruct o as [k|]; [|now apply told_stop]. destruct (K k eq_refl) as (K1 & K2).
  apply told_pass; auto.
Qed.

Lemma mbs_ok : forall t n, In t ts -> token_to_mbs_str src t = Ok n -> forall k, sym_ok (mksym n (t_loc t) k).
Proof. intros t n I H k. exists t. split; [exact I|]. split; [reflexivity|]. cbn. now apply mbs_spells. Qed.

(** ** Expressions *)

Lemma var_told : forall s t, good s -> In t ts -> told s any (scope_find_var src s t).
Proof.
  intros s t G I. unfold scope_find_var. apply told_get. intros n N. apply mbs_spells in N. apply told_get. intros [k|] _.
  - apply told_get. intros y _. destruct (y_kind y) as [v| |a|[sc|]]; try exact Logic.I; try (apply fail_at; auto).
    destruct (v_defined v); [now apply told_pass|now apply fail_at].
  - now apply fail_at.
Qed.

Definition there (s : sst) (x : texpr) : Prop := In (x_token x) ts.

Lemma literal_told : forall A s t (r : lit A) k, good s -> In t ts -> (forall e, r = Model_Literal.Bad e -> escaped src e) ->
  (forall a, told s there (k a)) -> told s there (literal s t r k).
Proof.
  intros A s t [a|e] k G I E K; cbn [literal]; [apply K|]. apply fail_at; auto. cbn. split; [reflexivity|]. exact (E e eq_refl).
Qed.

Lemma const_told : forall s t, good s -> In t ts -> told s there (validate_const_expr w src s t).
Proof.
  intros s t G I. unfold validate_const_expr.
  destruct (t_type t); try (now apply told_stop).
  - apply told_get. intros r R. apply literal_told; auto.
    + intros e ->. apply integer_escaped in R. now rewrite R.
    + intro z. now apply told_pass.
  - apply told_get. intros f _. destruct (w_range w f); [apply fail_at; auto; cbn; auto|now apply told_pass].
  - now apply told_pass.
  - apply told_get. intros r R. apply literal_told; auto.
    + intros e ->. exact (rune_escaped _ _ _ _ R).
    + intro z. now apply told_pass.
  - destruct (const_str src t) as [[r|]|] eqn:R; try exact Logic.I. apply literal_told; auto.
    + intros e ->. exact (str_escaped _ _ _ R).
    + intro z. now apply told_pass.
Qed.

Lemma numeric_told : forall t ty s, good s -> In t ts -> told s any (is_numeric (Some (t_loc t)) ty s).
Proof. intros t ty s G I. unfold is_numeric. destruct (numeric ty); [now apply told_pass|now apply fail_at]. Qed.
Lemma bool_told : forall t ty s, good s -> In t ts -> told s any (validate_bool_operand (Some (t_loc t)) ty s).
Proof.
  intros t ty s G I. unfold validate_bool_operand. destruct (ty_eqb ty TBool) eqn:E; [now apply told_pass|]. apply fail_at; auto.
  cbn. intros <-. discriminate.
Qed.
Lemma div_told : forall r s, good s -> there s r -> told s any (is_div_by_zero src r s).
Proof.
  intros r s G H. unfold is_div_by_zero. destruct r; try (now apply told_pass).
  destruct (ttype_eqb (t_type t) T_INT_CONST) eqn:E; [|now apply told_pass]. apply told_get. intros [z|] _; [|now apply told_pass].
  destruct (z =? 0)%Z; [|now apply told_pass]. apply fail_at; auto. cbn. now apply ttype_eqb_eq.
Qed.

Lemma unary_told : forall o r s, good s -> there s r -> told s any (validate_unary o r s).
Proof.
  intros o r s G H. unfold validate_unary, x_loc. destruct o.
  - eapply told_bind; [now apply numeric_told|]. intros. now apply told_pass.
  - eapply told_bind; [now apply bool_told|]. intros. now apply told_pass.
  - destruct (is_ident r); [now apply told_pass|now apply fail_at].
  - destruct (is_ident r); [|now apply fail_at]. destruct (x_ty r); try (now apply fail_at). now apply told_pass.
Qed.

Lemma binary_told : forall o l r s, good s -> there s l -> there s r -> told s any (validate_binary src o l r s).
Proof.
  intros o l r s G L R. unfold validate_binary, x_loc.
  destruct o; try (eapply told_bind; [now apply numeric_told|]; intros; now apply told_pass);
    try (eapply told_bind; [now apply bool_told|]; intros; now apply told_pass); try (now apply told_pass);
    try (destruct (ty_eqb (x_ty r) TInt); [now apply told_pass|now apply fail_at]);
    try (eapply told_bind; [now apply div_told|]; intros; eapply told_bind; [now apply numeric_told|]; intros; now apply told_pass).
  destruct (numeric (x_ty r)) eqn:E.
  - eapply told_bind; [now apply numeric_told|]; intros; now apply told_pass.
  - apply fail_no; auto. cbn. split; intros X; rewrite X in E; discriminate.
Qed.

Lemma func_told : forall s t, good s -> In t ts -> told s any (find_func_by_token src s t).
Proof.
  intros s t G I. unfold find_func_by_token. apply told_get. intros n N. apply told_get. intros [kf|] _; [now apply told_pass|].
  apply fail_at; auto. reflexivity.
Qed.

Lemma head_told : forall s name args n, good s -> In name ts ->
  (forall p a, In (p, a) args -> exists t r, p = t :: r /\ In t ts) -> told s any (call_head src s name args n).
Proof.
  intros s name args n G I A. unfold call_head. eapply told_bind; [now apply func_told|]. intros s1 (k, f) G1 _ _. cbv zeta.
  apply told_from with (set_kind s1 k (KFunc (mark_called f))); [apply held_kind|].
  pose proof (good_kind s1 k (KFunc (mark_called f)) G1) as G2.
  destruct (negb (f_num f =? n)); [now apply fail_at|].
  destruct args as [|([|t r], a) args]; try (now apply told_pass).
  destruct (f_num f =? 0); [|now apply told_pass]. destruct (A _ _ (or_introl eq_refl)) as (t' & r' & E & J). inversion E; subst.
  now apply fail_at.
Qed.

Lemma args_told : forall ve args, (forall p a, In (p, a) args -> exists t r, p = t :: r /\ In t ts) ->
  (forall p a, In (p, a) args -> forall s, good s -> told s there (ve s a)) ->
  forall tys s, good s -> told s any (check_args ve s args tys).
Proof.
  intros ve args. induction args as [|(p, a) args IH]; intros PT VE tys s G; cbn [check_args]; destruct tys as [|t tys];
    try (now apply told_pass); try exact Logic.I.
  eapply told_bind; [now apply (VE p a (or_introl eq_refl))|]. intros s1 x G1 _ X.
  destruct (ty_eqb (x_ty x) t) eqn:E.
  - eapply told_bind; [apply IH; auto|].
    + intros q b H. apply (PT q b). now right.
    + intros q b H. apply (VE q b). now right.
    + intros. now apply told_pass.
  - apply fail_loc; auto. intros t0 r ->. destruct (PT _ _ (or_introl eq_refl)) as (t' & r' & Y & J). inversion Y; subst.
    split; [exact J|]. cbn. intros ->. rewrite (proj2 (ty_eqb_eq _ _) eq_refl) in E. discriminate.
Qed.

Lemma expr_told : forall e, shaped ts e -> forall s, good s -> told s there (validate_expr w src s e).
Proof.
  fix IH 2. intros e H. destruct H as [t I Y|t I Y|name args n I Y E PT SH|o r SH|o l r SL SR]; intros s G; cbn [validate_expr].
  - unfold validate_ident_expr. eapply told_bind; [now apply var_told|]. intros s1 (k, v) G1 _ _.
    apply told_from with (set_kind s1 k (KVar (mark_read v))); [apply held_kind|]. apply told_pass; [now apply good_kind|exact I].
  - now apply const_told.
  - eapply told_bind; [now apply head_told|]. intros s1 (k, f) G1 _ _.
    eapply told_bind; [apply args_told; [exact PT| |exact G1]|].
    + intros p a J. exact (IH a (SH p a J)).
    + intros s2 xs G2 _ _. apply told_pass; [exact G2|exact I].
  - destruct r as [r|]; [|exact Logic.I]. eapply told_bind; [exact (IH r (SH r eq_refl) s G)|]. intros s1 x G1 _ X.
    eapply told_bind; [exact (unary_told o x s1 G1 X)|]. intros s2 t G2 _ _. apply told_pass; [exact G2|exact X].
  - eapply told_bind; [exact (IH r SR s G)|]. intros s1 x G1 _ X. destruct l as [l|]; [|exact Logic.I].
    eapply told_bind; [exact (IH l (SL l eq_refl) s1 G1)|]. intros s2 y G2 _ YT.
    destruct (ty_eqb (x_ty y) (x_ty x)) eqn:E.
    + eapply told_bind; [exact (binary_told o y x s2 G2 YT X)|]. intros s3 t G3 _ _. apply told_pass; [exact G3|exact YT].
    + apply fail_at; [exact G2|exact X|]. cbn. intro Q. rewrite Q, (proj2 (ty_eqb_eq _ _) eq_refl) in E. discriminate.
Qed.

(** ** Statements *)

(** A list of tokens of the program. *)
Definition from (l : list token) : Prop := forall t, In t l -> In t ts.
Lemma from_tl : forall l, from l -> from (tl l).
Proof. intros [|t l] H; [exact H|]. intros q I. apply H. now right. Qed.
Lemma from_hd : forall t l, from (t :: l) -> In t ts.
Proof. intros t l H. apply H. now left. Qed.
Lemma from_app : forall a b, from (a ++ b) -> from b.
Proof. intros a b H t I. apply H. apply in_or_app. now right. Qed.

Lemma alias_told : forall s tok e c, good s -> from tok -> told s any (validate_stmt_type_alias src s tok e c).
Proof.
  intros s tok e c G F. unfold validate_stmt_type_alias. destruct (negb c).
  - apply fail_loc; auto. intros t r E. split; [|exact Logic.I]. apply (from_tl _ F). rewrite E. now left.
  - cbv zeta. destruct (negb (match e with EVar _ | EUn URef _ => true | _ => false end)).
    + apply fail_loc; auto. intros t r E. split; [|exact Logic.I]. apply (from_tl _ (from_tl _ F)). rewrite E. now left.
    + destruct tok as [|t [|q r]]; try exact Logic.I. apply told_get. intros ty _. apply told_get. intros n N.
      eapply told_bind; [apply stop_told; [exact G|exact (mbs_ok t n (from_hd _ _ F) N _)]|]. intros. now apply told_pass.
Qed.

Lemma void_told : forall d x s, good s -> there s x -> (exists t, hd_error d = Some t /\ In t ts) -> told s any (is_void_func_assign d x s).
Proof.
  intros d x s G T D. unfold is_void_func_assign. destruct x as [ | |name k l ty| | ]; try (now apply told_pass).
  destruct ty; try (now apply told_pass). apply fail_at; auto.
Qed.

Lemma declared_told : forall s name x i, good s -> from name -> told s any (declared_type src s name x i).
Proof.
  intros s name x i G F. unfold declared_type. destruct i; [now apply told_pass|]. apply told_get. intros [t|] _; [now apply told_pass|].
  apply fail_loc; auto. intros t r E. split; [apply (from_tl _ F); rewrite E; now left|]. cbn. now rewrite E.
Qed.

Lemma to_var_told : forall s nt r x i c e, good s -> from (nt :: r) -> there s x -> told s any (node_to_var src s (nt :: r) x i c e).
Proof.
  intros s nt r x i c e G F T. unfold node_to_var.
  eapply told_bind; [apply void_told; auto; exists nt; split; [reflexivity|exact (from_hd _ _ F)]|]. intros s1 u G1 _ _.
  eapply told_bind; [now apply declared_told|]. intros s2 t G2 _ _.
  apply told_get. intros (n, v) V. apply variable_spells in V as (SP & _).
  eapply told_bind; [apply stop_told; [exact G2|]|].
  - exists nt. split; [exact (from_hd _ _ F)|]. split; [reflexivity|exact SP].
  - intros. now apply told_pass.
Qed.

Lemma compatible_told : forall x v s, good s -> there s x -> told s any (is_expr_compatible_with_var x v s).
Proof.
  intros x v s G T. unfold is_expr_compatible_with_var. destruct (ty_eqb (x_ty x) (v_type v)) eqn:E; [now apply told_pass|].
  apply fail_at; auto. cbn. intro Q. rewrite Q, (proj2 (ty_eqb_eq _ _) eq_refl) in E. discriminate.
Qed.

Lemma warn_told : forall c l s, good s -> P (mksmsg c l) -> told s any (warn w c l s).
Proof.
  intros c l s G H. unfold warn. destruct (w_werror w).
  - cbn. constructor; [exact H|now apply g_msgs].
  - cbn. split; [now apply good_say|]. split; [now apply held_same|exact Logic.I].
Qed.

Lemma def_told : forall s tok te nt r e i c x, good s -> from tok -> from (nt :: r) -> shaped ts e ->
  told s any (validate_stmt_var_def w src s tok te (nt :: r) e i c x).
Proof.
  intros s tok te nt r e i c x G F1 F2 SH. unfold validate_stmt_var_def. destruct te as [|q rest]; [exact Logic.I|].
  apply told_get. intros [ty|] _; [now apply alias_told|].
  eapply told_bind; [now apply expr_told|]. intros s1 y G1 _ T. eapply told_bind; [now apply to_var_told|].
  intros s2 (k, v) G2 _ _. cbv zeta. set (v' := mark_defined (x_cexpr y) v).
  apply told_from with (set_kind s2 k (KVar v')); [apply held_kind|]. pose proof (good_kind s2 k (KVar v') G2) as G3.
  eapply told_bind; [now apply compatible_told|]. intros s3 u0 G4 _ _.
  destruct (is_const_lit y && negb i); [|now apply told_pass].
  eapply told_bind; [apply warn_told; [exact G4|exact Logic.I]|]. intros. now apply told_pass.
Qed.

Lemma redundant_told : forall k x s, good s -> there s x -> told s any (is_redundant_reassign k x s).
Proof.
  intros k x s G T. unfold is_redundant_reassign. destruct x; try (now apply told_pass). destruct (k =? sym)%nat; [|now apply told_pass].
  apply fail_at; auto. reflexivity.
Qed.

Lemma assign_told : forall s tok e, good s -> from tok -> shaped ts e -> told s any (validate_stmt_var_assign w src s tok e).
Proof.
  intros s [|t r] e G F SH; unfold validate_stmt_var_assign; [exact Logic.I|]. pose proof (from_hd _ _ F) as I.
  eapply told_bind; [now apply var_told|]. intros s1 (k, v) G1 _ _. destruct (v_const v); [apply fail_at; auto; reflexivity|]. cbv zeta.
  apply told_from with (set_kind s1 k (KVar (mark_reassigned v))); [apply held_kind|].
  pose proof (good_kind s1 k (KVar (mark_reassigned v)) G1) as G2.
  eapply told_bind; [now apply expr_told|]. intros s3 x G3 _ T. eapply told_bind; [now apply compatible_told|].
  intros s4 u4 G4 _ _. eapply told_bind; [now apply redundant_told|]. intros. now apply told_pass.
Qed.

Lemma func_expr_told : forall s tok e, good s -> from tok -> shaped ts e -> told s any (validate_expr_func w src s tok e).
Proof.
  intros s tok e G F SH. unfold validate_expr_func.
  assert (L : told (A := tpay) s any (get l := loc_of tok in reject S_NO_DANGLING_EXPR (Some l) s)).
  { apply fail_loc; auto. intros t r ->. split; [exact (from_hd _ _ F)|exact Logic.I]. }
  destruct e; try exact L. eapply told_bind; [now apply expr_told|]. intros. now apply told_pass.
Qed.

Lemma from_node : forall n, in_tree n tree -> from (n_token n).
Proof. intros n I t J. destruct (MADE n I) as ((a & E) & _). rewrite E. apply in_or_app. now right. Qed.

Lemma sane_told : forall n s, good s -> in_tree n tree -> told s any (assert_sane_child n s).
Proof.
  intros n s G I. unfold assert_sane_child. destruct (n_child n) as [|c l] eqn:E; [now apply told_pass|].
  destruct (may_have_child n); [now apply told_pass|]. apply fail_loc; auto. intros t r ET. split; [|exact Logic.I].
  assert (J : in_tree c tree).
  { clear - E I. induction I as [l0 I|m l0 J K IH]; [apply it_below with n; [exact I|]; apply it_here; rewrite E; now left|].
    now apply it_below with m. }
  apply (from_node c J). rewrite ET. now left.
Qed.

Lemma dead_told : forall l s, good s -> (forall n, In n l -> in_tree n tree) -> told s any (no_dead_code_below l s).
Proof.
  induction l as [|n l IH]; intros s G I; cbn [no_dead_code_below]; [now apply told_pass|].
  assert (L : told (A := unit) s any (get l := loc_of (n_token n) in reject S_UNREACHABLE_CODE (Some l) s)).
  { apply fail_loc; auto. intros t r E. split; [|exact Logic.I]. apply (from_node n (I n (or_introl eq_refl))). rewrite E. now left. }
  assert (R : told s any (no_dead_code_below l s)) by (apply IH; [exact G|intros m J; apply I; now right]).
  destruct (n_type n); assumption.
Qed.

Lemma return_expr_told : forall x s, good s -> there s x -> told s any (is_valid_return_expr x s).
Proof.
  intros x s G T. unfold is_valid_return_expr. destruct ((s_cur s =? s_main s)%nat && negb (ty_eqb (x_ty x) TInt)).
  - apply fail_at; auto. reflexivity.
  - apply told_get. intros (y, f) _. destruct (negb (ty_eqb (f_ret f) TVoid) && negb (ty_eqb (x_ty x) (f_ret f))) eqn:E; [|now apply told_pass].
    apply fail_at; auto. cbn. intro Q. rewrite <- Q, (proj2 (ty_eqb_eq _ _) eq_refl), andb_false_r in E. discriminate.
Qed.

Lemma return_told : forall s tok e after, good s -> from tok -> (forall t r, tok = t :: r -> t_type t = T_KW_RETURN) ->
  (forall x, e = Some x -> shaped ts x) ->
  (forall n, In n after -> in_tree n tree) -> told s any (validate_stmt_return w src s tok e after).
Proof.
  intros s tok e after G F KW SH AF. unfold validate_stmt_return.
  eapply told_bind with (Q := any).
  { destruct after as [|n l]; [now apply told_pass|]. apply sane_told; [exact G|]. apply AF. now left. }
  intros s1 u1 G1 _ _. destruct e as [e|].
  - eapply told_bind; [apply expr_told; auto|]. intros s2 x G2 _ T. eapply told_bind; [now apply return_expr_told|].
    intros s3 u3 G3 _ _. eapply told_bind; [now apply dead_told|]. intros. now apply told_pass.
  - apply told_get. intros (y, f) _. destruct (negb (ty_eqb (f_ret f) TVoid)).
    + apply fail_loc; auto. intros t r ->. split; [exact (from_hd _ _ F)|exact (KW t r eq_refl)].
    + eapply told_bind; [now apply dead_told|]. intros. now apply told_pass.
Qed.

Lemma missing_told : forall wd tok ch s, good s -> from tok -> (forall t r, tok = t :: r -> block_word (t_type t) wd) ->
  told s any (is_missing_block wd tok ch s).
Proof.
  intros wd tok [|c l] s G F KW; unfold is_missing_block; [|now apply told_pass]. apply fail_loc; auto. intros t r ->.
  split; [exact (from_hd _ _ F)|exact (KW t r eq_refl)].
Qed.

Lemma lone_told : forall b tok s, good s -> from tok -> (forall t r, tok = t :: r -> t_type t = T_KW_ELSE \/ t_type t = T_KW_ELIF) ->
  told s any (validate_control_not_missing_if b tok s).
Proof.
  intros b tok s G F KW. unfold validate_control_not_missing_if. destruct (has_if_before b); [now apply told_pass|].
  apply fail_loc; auto. intros t r ->. split; [exact (from_hd _ _ F)|exact (KW t r eq_refl)].
Qed.

Lemma condition_told : forall s e, good s -> shaped ts e -> told s any (validate_condition w src s e).
Proof.
  intros s e G SH. unfold validate_condition. eapply told_bind; [now apply expr_told|]. intros s1 x G1 _ T.
  eapply told_bind with (Q := any); [|intros; now apply told_pass].
  unfold validate_bool_expr. destruct (negb (ty_eqb (x_ty x) TBool)); [now apply fail_at|].
  destruct x as [ |t v ty| | | ]; try (now apply told_pass). destruct v as [ | |b| | ]; try (now apply told_pass).
  apply warn_told; [exact G1|]. exists t. split; [exact T|]. split; [reflexivity|]. now destruct b.
Qed.

Definition subs (sub : sst -> sres (list tnode)) : Prop := forall s, good s -> told s any (sub s).

Lemma setup_told : forall sub s, subs sub -> good s -> told s any (setup_and_validate sub s).
Proof.
  intros sub s H G. unfold setup_and_validate. apply told_4; [apply child_4|exact G|]. intros s1 G1 _.
  eapply told_bind; [now apply H|]. intros s2 c G2 _ _. apply told_4; [apply reset_4|exact G2|]. intros s3 G3 _.
  apply told_4; [apply restore_4|exact G3|]. intros s4 G4 _. apply told_4; [apply adjacent_4|exact G4|]. intros s5 G5 _.
  now apply told_pass.
Qed.

Lemma good_depth : forall s d, good s -> good (set_depth s d).
Proof. intros s d. now apply good_same. Qed.
Lemma held_depth : forall s d, held s (set_depth s d).
Proof. intros. now apply held_same. Qed.

Lemma while_told : forall sub s tok e ch, subs sub -> good s -> from tok -> (forall t r, tok = t :: r -> t_type t = T_KW_WHILE) ->
  shaped ts e -> told s any (validate_control_while w src sub s tok e ch).
Proof.
  intros sub s tok e ch H G F KW SH. unfold validate_control_while. cbv zeta.
  eapply told_from; [apply held_depth|]. pose proof (good_depth s ((s_depth s + 1) mod 2 ^ 32) G) as G0.
  eapply told_bind; [apply missing_told; [exact G0|exact F|]|].
  { intros t r E. rewrite (KW t r E). right; right; right; now left. }
  intros s1 u1 G1 _ _. eapply told_bind; [now apply condition_told|]. intros s2 x G2 _ _.
  eapply told_bind; [now apply setup_told|]. intros s3 c G3 _ _.
  eapply told_from; [apply (held_depth _ ((s_depth s3 + 2 ^ 32 - 1) mod 2 ^ 32))|]. apply told_pass; [now apply good_depth|exact Logic.I].
Qed.

Lemma space_told : forall sub s tok, subs sub -> good s -> from tok -> told s any (validate_control_namespace src sub s tok).
Proof.
  intros sub s tok H G F. unfold validate_control_namespace. destruct tok as [|q [|t r]]; try exact Logic.I.
  assert (I : In t ts) by (apply F; right; now left). apply told_get. intros n N.
  eapply told_bind; [apply stop_told; [exact G|exact (mbs_ok t n I N _)]|]. intros s1 k G1 _ _.
  eapply told_bind; [now apply setup_told|]. intros s2 c G2 _ _. destruct (s_scope s2) as [i|]; [|exact Logic.I].
  apply told_get. intros here _. destruct (c_last here) as [j|]; [|exact Logic.I]. apply told_get. intros before _.
  apply told_get. intros inside _. eapply told_from; [apply (held_kind s2 k (KSpace inside))|].
  apply told_pass; [now apply good_kind|exact Logic.I].
Qed.

(** ** Functions *)

Lemma return_type_told : forall s ret, good s -> from ret -> told s (fun s' _ => s' = s) (validate_return_type src s ret).
Proof.
  intros s [|t r] G F; unfold validate_return_type; [now apply told_pass|]. apply told_get. intros [x|] _; [now apply told_pass|].
  apply fail_at; [exact G|exact (from_hd _ _ F)|reflexivity].
Qed.

Lemma add_param_told : forall s y, good s -> sym_ok y -> told s any (scope_add_param s y).
Proof.
  intros s y G OK. unfold scope_add_param. pose proof OK as (t & I & L & SP). apply told_get. intros [k|] _.
  - rewrite L. now apply fail_at.
  - apply told_get. intros [o|] _; [exact Logic.I|]. eapply told_bind; [now apply add_told|]. intros s1 [k|] G1 _ _; [now apply told_pass|].
    rewrite L. now apply fail_at.
Qed.

Lemma params_told : forall ext ps s, good s -> (forall p, In p ps -> In (pm_name p) ts /\ from (pm_type p)) ->
  told s any (params_loop src ext s ps).
Proof.
  intros ext ps. induction ps as [|p ps IH]; intros s G F; cbn [params_loop]; [now apply told_pass|].
  destruct (F p (or_introl eq_refl)) as (I & FT). apply told_get. intros [t|] _.
  - apply told_get. intros (n, v) V. apply variable_spells in V as (SP & _). cbv zeta.
    eapply told_bind; [apply add_param_told; [exact G|]|].
    { exists (pm_name p). split; [exact I|]. split; [reflexivity|exact SP]. }
    intros s1 k G1 _ _. eapply told_bind; [apply IH; [exact G1|]|intros; now apply told_pass].
    intros q J. apply F. now right.
  - apply fail_loc; auto. intros t r E. split; [apply FT; rewrite E; now left|]. cbn. now rewrite E.
Qed.

Lemma func_params_told : forall s ext num ps, good s -> (forall p, In p ps -> In (pm_name p) ts /\ from (pm_type p)) ->
  told s any (validate_func_params src s ext num ps).
Proof.
  intros s ext num ps G F. unfold validate_func_params. destruct (num =? 0); [now apply told_pass|].
  apply told_4; [apply child_4|exact G|]. intros s1 G1 _. eapply told_bind; [apply params_told; [exact G1|]|].
  - intros p I. apply F. rewrite <- (firstn_skipn (N.to_nat num) ps). apply in_or_app. now left.
  - intros s2 l G2 _ _. apply told_4; [apply restore_4|exact G2|]. intros s3 G3 _. now apply told_pass.
Qed.

Lemma func_head_told : forall s name ret num ext exp ps, good s -> In name ts -> from ret ->
  (forall p, In p ps -> In (pm_name p) ts /\ from (pm_type p)) ->
  (forall x, spells src name x -> function_name src tree x) ->
  match func_head src s name ret num ext exp ps with
  | Pass s' _ => good s' /\ s_cur s' <> 0%nat /\ (s_cur s <> 0%nat -> s_last s' <> Some 0%nat)
  | Stop m => Forall P m
  | Crash => True
  end.
Proof.
  intros s name ret num ext exp ps G I FR FP FN. unfold func_head.
  destruct (is_top_lvl_scope s) as [top|]; cbn [rbind]; [|exact Logic.I].
  destruct ((exp || ext) && negb top). { exact (fail_at (nat * list nat) s any (S_NO_NESTED name) name s G I eq_refl). }
  pose proof (return_type_told s ret G FR) as HR. destruct (validate_return_type src s ret) as [s1 r|m|]; cbn [sbind]; [|exact HR|exact Logic.I].
  destruct HR as (G1 & _ & E1). subst s1. destruct (token_to_mbs_str src name) as [n|] eqn:N; cbn [rbind]; [|exact Logic.I]. cbv zeta.
  set (f := mkfunc ext exp r num [] false).
  pose proof (stop_told s (mksym n (t_loc name) (KFunc f)) G (mbs_ok name n I N _)) as HA.
  destruct (add_or_stop s (mksym n (t_loc name) (KFunc f))) as [s2 k|m|]; cbn [sbind]; [|exact HA|exact Logic.I].
  destruct HA as (G2 & _ & EC & EL & K0 & KY).
  assert (NM : named (s_syms s2) k) by (right; exists (mksym n (t_loc name) (KFunc f)); split; [exact KY|apply FN; now apply mbs_spells]).
  set (s3 := set_funcs s2 k (Some (s_cur s))).
  assert (G3 : good s3).
  { destruct G2 as [A B C D E]. constructor; cbn; auto. intros l X. inversion X; subst. now rewrite <- EC. }
  pose proof (func_params_told s3 ext num ps G3 FP) as HP.
  destruct (validate_func_params src s3 ext num ps) as [s4 l|m|]; cbn [sbind]; [|exact HP|exact Logic.I].
  destruct HP as (G4 & H4 & _). split; [now apply good_kind|]. destruct (H4 K0) as (H5 & H6). split; [exact H5|].
  intro X. apply H6. cbn. congruence.
Qed.

Lemma func_end_told : forall s child, good s -> s_cur s <> 0%nat ->
  match func_end s child with
  | Pass s' _ => good s' /\ s_last s' = s_last s /\ (s_last s <> Some 0%nat -> s_cur s' <> 0%nat)
  | Stop m => Forall P m
  | Crash => True
  end.
Proof.
  intros s child G C. unfold func_end. destruct (current_func s) as [(y, f)|] eqn:CF; cbn [rbind]; [|exact Logic.I].
  assert (FN : function_name src tree (y_name y)).
  { unfold current_func in CF. apply bind_ok in CF as (y0 & D & CF). apply deref_ok in D.
    destruct (y_kind y0); inversion CF; subst. destruct (g_cur _ G) as [Z|(z & Z & F)]; [contradiction|]. congruence. }
  destruct (f_external f); [auto|]. destruct (negb (returned_value child) && negb (ty_eqb (f_ret f) TVoid)).
  { exact (fail_no unit s any (S_EXPECTED_RETURN (y_name y)) s G FN). }
  destruct (returned_value child && ty_eqb (f_ret f) TVoid).
  { exact (fail_no unit s any (S_NO_VOID_RETURN (y_name y)) s G FN). }
  destruct (s_last s) as [l|] eqn:L; [|exact Logic.I]. split.
  - destruct G as [A B C' D E]. constructor; cbn; auto. intros k X. inversion X; subst. auto.
  - cbn. split; [reflexivity|]. intros H X. apply H. now rewrite X.
Qed.

Lemma decl_told : forall sub s name ret num ext exp ps child, subs sub -> good s -> In name ts -> from ret ->
  (forall p, In p ps -> In (pm_name p) ts /\ from (pm_type p)) ->
  (forall x, spells src name x -> function_name src tree x) ->
  told s any (validate_stmt_func_decl src sub s name ret num ext exp ps child).
Proof.
  intros sub s name ret num ext exp ps child H G I FR FP FN. unfold validate_stmt_func_decl. cbv zeta.
  pose proof (func_head_told (set_depth s 0) name ret num ext exp ps (good_depth s 0 G) I FR FP FN) as HH.
  destruct (func_head src (set_depth s 0) name ret num ext exp ps) as [s1 (k, l)|m|]; cbn [sbind]; [|exact HH|exact Logic.I].
  destruct HH as (G1 & C1 & L1). pose proof (setup_told sub s1 H G1) as HS.
  destruct (setup_and_validate sub s1) as [s2 c|m|]; cbn [sbind]; [|exact HS|exact Logic.I].
  destruct HS as (G2 & H2 & _). destruct (H2 C1) as (C2 & L2). pose proof (func_end_told s2 child G2 C2) as HE.
  destruct (func_end s2 child) as [s3 u3|m|]; cbn [sbind]; [|exact HE|exact Logic.I]. destruct HE as (G3 & E3 & C3).
  cbn [told]. split; [now apply good_depth|]. split; [|exact Logic.I]. intro X. cbn [set_depth s_cur s_last].
  assert (L2' : s_last s2 <> Some 0%nat) by (apply L2, L1; exact X). split; [exact (C3 L2')|]. intros _. now rewrite E3.
Qed.

(** ** Nodes *)

Lemma import_told : forall s n, good s -> in_tree n tree -> n_type n = N_IMPORT -> told s any (validate_stmt_import w src s (n_token n)).
Proof.
  intros s n G I T. unfold validate_stmt_import. destruct (n_token n) as [|q [|t r]] eqn:E; try exact Logic.I.
  apply told_get. intros x X. destruct (w_module w x); [now apply told_pass|]. apply fail_no; auto. cbn. exists n, q, t, r.
  apply mbs_spells in X. auto.
Qed.

Lemma begins_hd : forall tok ty t r, begins tok ty -> tok = t :: r -> keyword ty (t_type t).
Proof. intros tok ty t r (t' & r' & E & K) E'. rewrite E in E'. inversion E'; subst. exact K. Qed.
Lemma keyword_is : forall ty k, keyword ty k ->
  match ty with
  | N_RETURN => k = T_KW_RETURN | N_IF => k = T_KW_IF | N_ELIF => k = T_KW_ELIF | N_ELSE => k = T_KW_ELSE
  | N_WHILE => k = T_KW_WHILE | N_BREAK => k = T_KW_BREAK | N_CONTINUE => k = T_KW_CONTINUE | _ => True
  end.
Proof. intros ty k H. unfold keyword in H. cbn [In] in H. repeat destruct H as [H|H]; inversion H; subst; auto. Qed.

Lemma params_from : forall l ps rest, params_written l ps rest -> from l -> forall p, In p ps -> In (pm_name p) ts /\ from (pm_type p).
Proof.
  intros l ps rest H. induction H as [rest|x ty rest T B|x ty comma more ps rest T B C M IH]; intros F p I; [destruct I| |].
  - destruct I as [<-|[]]. cbn. split; [exact (from_hd _ _ F)|exact (from_tl _ F)].
  - destruct I as [<-|I].
    + cbn. split; [exact (from_hd _ _ F)|exact (from_tl _ F)].
    + apply IH; [|exact I]. exact (from_tl _ (from_app _ _ (from_tl _ F))).
Qed.

Lemma from_rest : forall l ps rest, params_written l ps rest -> from l -> from rest.
Proof.
  intros l ps rest H. induction H as [rest|x ty rest T B|x ty comma more ps rest T B C M IH]; intro F; [exact F| |].
  - exact (from_app _ _ (from_tl _ F)).
  - apply IH. exact (from_tl _ (from_app _ _ (from_tl _ F))).
Qed.

Lemma by_type_told : forall sub before after n s, subs sub -> good s -> in_tree n tree ->
  (forall m, In m after -> in_tree m tree) -> told s any (validate_by_type w src sub before after n s).
Proof.
  intros sub before after n s H G I AF. destruct (MADE n I) as (_ & WR & SH & _). pose proof (from_node n I) as F.
  unfold validate_by_type. cbv zeta. unfold written in WR.
  destruct (n_type n) eqn:T.
  - now apply told_pass.
  - destruct WR as (name & e & i & c & x & PY & DW). rewrite PY.
    assert (SE : shaped ts e) by (apply SH; unfold node_expr; now rewrite PY).
    destruct DW as (mods & E & _ & _ & _ & D).
    assert (FN : from name) by (rewrite E in F; exact (from_app _ _ F)).
    assert (X : exists nt r, name = nt :: r) by (destruct i; [destruct D as (a & b & r & -> & _)|destruct D as (a & b & r & q & -> & _)]; eauto).
    destruct X as (nt & r & ->). eapply told_bind; [now apply def_told|]. intros. now apply told_pass.
  - destruct WR as (e & x & q & r & PY & _). rewrite PY.
    assert (SE : shaped ts e) by (apply SH; unfold node_expr; now rewrite PY).
    eapply told_bind; [now apply assign_told|]. intros. now apply told_pass.
  - destruct WR as (name & ret & k & ext & exp & ps & PY & HW). rewrite PY.
    destruct HW as (mods & po & inner & pc & aft & all & E & _ & _ & _ & _ & _ & PW & _ & _ & EP & stop & rest & _ & RT).
    assert (F1 : from (name :: po :: inner)) by (rewrite E in F; exact (from_app _ _ F)).
    pose proof (from_tl _ (from_tl _ F1)) as F2. cbn [tl] in F2.
    pose proof (from_rest _ _ _ PW F2) as F3.
    apply decl_told; auto.
    + exact (from_hd _ _ F1).
    + destruct RT as [(-> & _)|(ty & last & -> & _)]; [intros t []|exact (from_tl _ F3)].
    + intros p J. apply (params_from _ _ _ PW F2). rewrite EP in J. rewrite <- (firstn_skipn (N.to_nat k) all). apply in_or_app. now left.
    + intros x SP. exists n, name, ret, k, ext, exp, ps. auto.
  - destruct WR as (e & PY). rewrite PY. assert (SE : shaped ts e) by (apply SH; unfold node_expr; now rewrite PY).
    eapply told_bind; [now apply func_expr_told|]. intros. now apply told_pass.
  - destruct WR as (B & PY).
    assert (KW : forall t r, n_token n = t :: r -> t_type t = T_KW_RETURN) by (intros t r E; exact (keyword_is _ _ (begins_hd _ _ _ _ B E))).
    destruct PY as [PY|(e & PY)]; rewrite PY.
    + eapply told_bind; [apply return_told; auto; discriminate|]. intros. now apply told_pass.
    + assert (SE : shaped ts e) by (apply SH; unfold node_expr; now rewrite PY).
      eapply told_bind; [apply return_told; auto; intros x X; inversion X; now subst|]. intros. now apply told_pass.
  - eapply told_bind; [now apply dead_told|]. intros. now apply told_pass.
  - destruct WR as (B & e & PY). rewrite PY. assert (SE : shaped ts e) by (apply SH; unfold node_expr; now rewrite PY).
    eapply told_bind; [apply missing_told; auto|].
    { intros t r E. rewrite (keyword_is _ _ (begins_hd _ _ _ _ B E)). now left. }
    intros s1 u1 G1 _ _. eapply told_bind; [now apply condition_told|]. intros s2 x G2 _ _.
    eapply told_bind; [now apply setup_told|]. intros. now apply told_pass.
  - destruct WR as (B & e & PY). rewrite PY. assert (SE : shaped ts e) by (apply SH; unfold node_expr; now rewrite PY).
    eapply told_bind; [apply missing_told; auto|].
    { intros t r E. rewrite (keyword_is _ _ (begins_hd _ _ _ _ B E)). right. now left. }
    intros s1 u1 G1 _ _. eapply told_bind; [apply lone_told; auto|].
    { intros t r E. right. exact (keyword_is _ _ (begins_hd _ _ _ _ B E)). }
    intros s2 u2 G2 _ _. eapply told_bind; [now apply condition_told|]. intros s3 x G3 _ _.
    eapply told_bind; [now apply setup_told|]. intros. now apply told_pass.
  - destruct WR as (B & PY).
    eapply told_bind; [apply lone_told; auto|].
    { intros t r E. left. exact (keyword_is _ _ (begins_hd _ _ _ _ B E)). }
    intros s1 u1 G1 _ _. eapply told_bind; [apply missing_told; auto|].
    { intros t r E. rewrite (keyword_is _ _ (begins_hd _ _ _ _ B E)). right; right. now left. }
    intros s2 u2 G2 _ _. eapply told_bind; [now apply setup_told|]. intros. now apply told_pass.
  - destruct WR as (B & e & PY). rewrite PY. assert (SE : shaped ts e) by (apply SH; unfold node_expr; now rewrite PY).
    eapply told_bind; [apply while_told; auto|].
    { intros t r E. exact (keyword_is _ _ (begins_hd _ _ _ _ B E)). }
    intros s1 (x, c) G1 _ _. now apply told_pass.
  - eapply told_bind; [now apply import_told|]. intros. now apply told_pass.
  - eapply told_bind; [now apply space_told|]. intros s1 (k, c) G1 _ _. now apply told_pass.
  - now apply told_pass.
  - now apply told_pass.
  - destruct WR as (B & PY). destruct (0 <? s_depth s).
    + eapply told_bind; [now apply dead_told|]. intros. now apply told_pass.
    + apply fail_loc; auto. intros t r E. split; [apply F; rewrite E; now left|]. exact (keyword_is _ _ (begins_hd _ _ _ _ B E)).
  - destruct WR as (B & PY). destruct (0 <? s_depth s).
    + eapply told_bind; [now apply dead_told|]. intros. now apply told_pass.
    + apply fail_loc; auto. intros t r E. split; [apply F; rewrite E; now left|]. exact (keyword_is _ _ (begins_hd _ _ _ _ B E)).
Qed.

Lemma in_tree_child : forall n c l, in_tree n l -> In c (n_child n) -> in_tree c l.
Proof.
  intros n c l I J. induction I as [l0 I|m l0 K L IH].
  - apply it_below with n; [exact I|]. now apply it_here.
  - now apply it_below with m.
Qed.

Lemma node_told : forall n before after s, good s -> in_tree n tree -> (forall m, In m after -> in_tree m tree) ->
  told s any (validate_ast_node w src before after n s).
Proof.
  fix IH 1. intros n before after s G I AF. destruct n as [ty tok te pay child]. cbn [validate_ast_node].
  eapply told_bind; [exact (sane_told _ s G I)|]. intros s1 u1 G1 _ _.
  assert (CH : forall m, In m child -> in_tree m tree) by (intros m J; exact (in_tree_child _ m tree I J)).
  assert (W : forall b s, good s -> told s any (walk (validate_ast_node w src) b child s)).
  { clear - IH CH. induction child as [|m l IHl]; intros b s G; cbn [walk].
    - exact (told_pass _ s any _ G Logic.I).
    - eapply told_bind.
      + exact (IH m b l s G (CH m (or_introl eq_refl)) (fun q J => CH q (or_intror J))).
      + intros s1 x G1 _ _. eapply told_bind; [exact (IHl (fun q J => CH q (or_intror J)) _ s1 G1)|].
        intros s2 xs G2 _ _. exact (told_pass _ s2 any _ G2 Logic.I). }
  eapply told_bind; [exact (by_type_told _ before after _ s1 (W []) G1 I AF)|].
  intros s2 (p, c) G2 _ _. exact (told_pass _ s2 any _ G2 Logic.I).
Qed.

Lemma walk_told : forall l b s, good s -> (forall m, In m l -> in_tree m tree) -> told s any (walk (validate_ast_node w src) b l s).
Proof.
  induction l as [|m l IH]; intros b s G CH; cbn [walk]; [now apply told_pass|].
  eapply told_bind; [apply node_told; auto; [apply CH; now left|intros q J; apply CH; now right]|].
  intros s1 x G1 _ _. eapply told_bind; [apply IH; auto; intros q J; apply CH; now right|]. intros. now apply told_pass.
Qed.

End Told.

(** ** Programs *)

Lemma visited_all : forall (f : tnode -> list nat) k x l, visited x l -> In k (f x) -> In k (flat_map (Proof_Sem7.all f) l).
Proof.
  intros f k x l V. induction V as [l I|y l I T1 T2 V IH]; intro K; apply in_flat_map.
  - exists x. split; [exact I|]. destruct x. cbn [Proof_Sem7.all]. apply in_or_app. now left.
  - exists y. split; [exact I|]. destruct y. cbn [Proof_Sem7.all]. apply in_or_app. right. exact (IH K).
Qed.

Lemma parse_made : forall ts ms tree, parse_ast_tree ts = Ret ms (Some tree) -> forall n, in_tree n tree -> made ts n.
Proof.
  intros ts ms tree H n I. pose proof (parse_shaped _ _ _ H n I) as SH. apply parsed_of in H as (_ & _ & F & _).
  destruct (F n I) as (A & B & _ & D). repeat split; auto.
Qed.

Lemma checks_point : forall w src ts ms tree, parse_ast_tree ts = Ret ms (Some tree) ->
  match validate_ast_tree w src tree with
  | Pass s _ => Forall (check_points src ts tree) (s_msgs s)
  | Stop m => Forall (check_points src ts tree) m
  | Crash => True
  end.
Proof.
  intros w src ts ms tree HP. pose proof (parse_made _ _ _ HP) as M.
  assert (G0 : good src ts tree setup_semantic_state).
  { constructor; cbn [setup_semantic_state s_msgs s_syms s_cur s_last List.length].
    - constructor.
    - lia.
    - intros [|k] y H; discriminate.
    - now left.
    - discriminate. }
  pose proof (walk_told w src ts tree M tree [] setup_semantic_state G0 (fun n I => it_here n tree I)) as HW.
  unfold validate_ast_tree. destruct (walk (validate_ast_node w src) [] tree setup_semantic_state) as [s1 l|m|] eqn:E; cbn [sbind]; [|exact HW|exact I].
  destruct HW as (G1 & _ & _). destruct (reset_scope_head s1) as [s2|] eqn:R; cbn [rbind]; [|exact I].
  pose proof (good_4 _ _ _ _ _ (reset_4 _ _ R) G1) as G2. pose proof (reset_4 _ _ R) as (EM & ES & _).
  assert (H : hists setup_semantic_state s1 l).
  { pose proof (walk_hist w src tree (proj2 (Forall_forall _ _) (fun n _ => nodes_hist w src n)) _ _ _ _ E) as (A & _). exact A. }
  unfold check_unused_symbols. destruct (w_quiet w); [cbn [sbind]; exact (g_msgs _ _ _ _ G2)|].
  destruct (unused_loop (unused_node w (s_syms s2)) l (s_msgs s2, false)) as [st|] eqn:U; cbn [rbind]; [|exact I].
  apply tree_outcome in U. destruct (oc_msgs _ _ _ _ _ U) as (new & EN & MN). cbn [fst] in EN.
  assert (F : Forall (check_points src ts tree) (fst st)).
  { rewrite EN. apply Forall_app. split; [|exact (g_msgs _ _ _ _ G2)]. apply Forall_forall. intros m IM. apply MN in IM as (x & V & N).
    assert (K : forall k y, In k (Spec_Sem2.numbers_here x) -> nth_error (s_syms s2) k = Some y -> sym_ok src ts y).
    { intros k y IK EK. destruct k as [|k]; [|exact (g_syms _ _ _ _ G2 k y EK)].
      pose proof (hs_range _ _ _ _ _ _ _ H 0%nat (visited_all Spec_Sem2.numbers_here 0%nat x l V IK)) as B. cbn in B. lia. }
    unfold noted in N. unfold Spec_Sem2.numbers_here in K.
    destruct (tn_type x); try contradiction; destruct (tn_pay x) as [| |k e|k e|k ps|e|k]; try contradiction.
    - destruct N as (y & v & EY & _ & N). destruct (K k y (or_introl eq_refl) EY) as (t & IT & L & SP).
      destruct N as [(-> & _)|(-> & _)]; exists t; auto.
    - destruct N as (y & v & EY & _ & -> & _). destruct (K k y (or_introl eq_refl) EY) as (t & IT & L & SP). exists t; auto. }
  destruct (snd st); cbn [sbind]; [exact F|exact F].
Qed.
