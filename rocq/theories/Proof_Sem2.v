(** Proofs about the semantic checks: names, types and expressions. *)
From Coq Require Import List Arith NArith ZArith Bool Lia Ascii String.
From Verif Require Import Base Model_Token Model_Utf8 Model_Classify Model_Literal Model_Parse Model_Sem.
From Verif Require Import Spec_Utf8 Spec_Parse Spec_Sem Proof_Utf8 Proof_Parse Proof_Parse2 Proof_Parse5 Proof_Sem.
Import ListNotations.
Open Scope list_scope.
Open Scope N_scope.

(** * Names in scope *)

Definition table (c : scope) : list (text * nat) := match c_syms c with Some t => t | None => [] end.
Definition upper (c : scope) : option nat := match c_parent c with Some p => Some p | None => c_last c end.

Fixpoint env_at (fuel : nat) (scs : list scope) (i : nat) : env :=
  match fuel with
  | O => []
  | S f => match nth_error scs i with
           | None => []
           | Some c => table c ++ match upper c with Some p => env_at f scs p | None => [] end
           end
  end.
Definition env_of (scs : list scope) (i : nat) : env := env_at (S i) scs i.
Definition env_from (scs : list scope) (o : option nat) : env := match o with Some i => env_of scs i | None => [] end.
Definition cenv (s : sst) : env := env_from (s_scopes s) (s_scope s).

(** Scopes point to older ones. *)
Definition linked (scs : list scope) : Prop :=
  forall i c p, nth_error scs i = Some c -> c_parent c = Some p \/ c_last c = Some p -> (p < i)%nat.

Lemma upper_less : forall scs i c p, linked scs -> nth_error scs i = Some c -> upper c = Some p -> (p < i)%nat.
Proof.
  intros scs i c p L H U. apply (L i c p H). unfold upper in U. destruct (c_parent c); [left|right]; exact U.
Qed.

Lemma env_at_more : forall scs, linked scs -> forall f g i, (i < f)%nat -> (i < g)%nat -> env_at f scs i = env_at g scs i.
Proof.
  intros scs L f. induction f as [|f IH]; intros [|g] i H1 H2; try lia. cbn [env_at].
  destruct (nth_error scs i) as [c|] eqn:E; [|easy]. destruct (upper c) as [p|] eqn:U; [|easy].
  pose proof (upper_less _ _ _ _ L E U). f_equal. apply IH; lia.
Qed.

Lemma env_of_eq : forall scs i c, linked scs -> nth_error scs i = Some c ->
  env_of scs i = table c ++ env_from scs (upper c).
Proof.
  intros scs i c L E. unfold env_of. cbn [env_at]. rewrite E. f_equal. destruct (upper c) as [p|] eqn:U; [|easy].
  cbn [env_from]. pose proof (upper_less _ _ _ _ L E U). apply env_at_more; [easy|lia|lia].
Qed.

Lemma env_of_none : forall scs i, nth_error scs i = None -> env_of scs i = [].
Proof. intros scs i E. unfold env_of. cbn. now rewrite E. Qed.

(** Only older scopes count. *)
Definition alike (c c' : scope) : Prop := table c' = table c /\ c_parent c' = c_parent c /\ c_last c' = c_last c.

Lemma env_stable : forall scs scs', linked scs -> linked scs' -> forall n i, (i < n)%nat ->
  (forall j, (j <= i)%nat -> exists c c', nth_error scs j = Some c /\ nth_error scs' j = Some c' /\ alike c c') ->
  env_of scs' i = env_of scs i.
Proof.
  intros scs scs' L L' n. induction n as [|n IH]; intros i HN H; [lia|].
  destruct (H i (le_n i)) as (c & c' & E & E' & T & P & Q). rewrite (env_of_eq _ _ _ L E), (env_of_eq _ _ _ L' E').
  assert (U : upper c' = upper c) by (unfold upper; now rewrite P, Q). rewrite T, U. f_equal.
  destruct (upper c) as [p|] eqn:UC; [|easy]. cbn [env_from]. pose proof (upper_less _ _ _ _ L E UC).
  apply IH; [lia|]. intros j HJ. apply H. lia.
Qed.

(** * What the symbols declare *)

Definition sig (s : sst) (k : nat) : option decl :=
  match nth_error (s_syms s) k with
  | None => None
  | Some y => match y_kind y with
              | KVar v => Some (DVar (v_type v) (negb (v_const v)))
              | KFunc f => if N.of_nat (List.length (f_params f)) =? f_num f
                           then Some (DFun (f_params f) (f_ret f)) else None
              | KAlias t => Some (DType t)
              | KSpace (Some e) => Some (DSpace (env_of (s_scopes s) e))
              | KSpace None => None
              end
  end.

Definition knows (D : decls) (s : sst) : Prop := forall k d, sig s k = Some d -> D k = Some d.

Lemma calm_sig : forall s s', calm s s' -> forall k, sig s' k = sig s k.
Proof.
  intros s s' C k. unfold sig. rewrite (cm_scopes _ _ C). destruct (nth_error (s_syms s) k) as [y|] eqn:E.
  - destruct (cm_syms _ _ C k y E) as (y' & -> & _ & _ & K). destruct (y_kind y), (y_kind y'); cbn in K; try contradiction.
    + decompose [and] K. congruence.
    + decompose [and] K. replace (f_params f0) with (f_params f) by congruence. replace (f_num f0) with (f_num f) by congruence.
      replace (f_ret f0) with (f_ret f) by congruence. reflexivity.
    + congruence.
    + subst. reflexivity.
  - apply nth_error_None in E. rewrite <- (cm_len _ _ C) in E. apply nth_error_None in E. now rewrite E.
Qed.

Lemma calm_knows : forall D s s', calm s s' -> knows D s' <-> knows D s.
Proof. intros D s s' C. split; intros H k d E; apply H; rewrite <- E; [|symmetry]; now rewrite (calm_sig _ _ C). Qed.

Lemma calm_cenv : forall s s', calm s s' -> cenv s' = cenv s.
Proof. intros s s' C. unfold cenv. now rewrite (cm_scopes _ _ C), (cm_scope _ _ C). Qed.

(** * Looking up a name *)

Lemma split_dot_some : forall n a b, split_dot n = Some (a, b) -> n = a ++ chr "." :: b /\ ~ In (chr ".") a.
Proof.
  induction n as [|c n IH]; intros a b H; cbn [split_dot] in H; [discriminate|].
  destruct (c =? chr ".") eqn:E.
  - apply N.eqb_eq in E. inversion H; subst. auto.
  - destruct (split_dot n) as [(a', b')|]; [|discriminate]. inversion H; subst.
    destruct (IH a' b eq_refl) as (-> & NI). split; [easy|]. intros [X|X]; [|auto]. subst c. apply N.eqb_neq in E. contradiction.
Qed.

Lemma split_dot_none : forall n, split_dot n = None <-> ~ In (chr ".") n.
Proof.
  induction n as [|c n IH]; cbn [split_dot]; [now split|]. destruct (c =? chr ".") eqn:E.
  - apply N.eqb_eq in E. split; [discriminate|]. intro H. exfalso. apply H. now left.
  - apply N.eqb_neq in E. destruct (split_dot n) as [(a, b)|].
    + split; [discriminate|]. intro H. exfalso. destruct IH as (_ & IH). assert (X : Some (a, b) = None); [|discriminate].
      apply IH. intro I. apply H. now right.
    + split; [|easy]. intros _ [X|X]; [congruence|]. now apply IH in X.
Qed.

Lemma assoc_app : forall a b n, assoc (a ++ b) n = match assoc a n with Some k => Some k | None => assoc b n end.
Proof. induction a as [|(m, j) a IH]; intros b n; cbn; [easy|]. destruct (text_eqb m n); auto. Qed.

Lemma assoc_resolves : forall D e n k, ~ In (chr ".") n -> assoc e n = Some k <-> resolves D e n k.
Proof.
  intros D e n k ND. split.
  - induction e as [|(m, j) e IH]; cbn; intro H; [discriminate|]. destruct (text_eqb m n) eqn:E.
    + apply text_eqb_true in E. inversion H; subst. now constructor.
    + apply re_there; auto. intros ->. destruct (text_eqb m m) eqn:X; [discriminate|]. rewrite (proj2 (text_eqb_true m m) eq_refl) in X. discriminate.
  - intro H. induction H as [n k e ND'|m j e n k ND' NE H IH|e a j inside b k ND' H IH HD H2 IH2].
    + cbn. now rewrite (proj2 (text_eqb_true n n) eq_refl).
    + cbn. destruct (text_eqb m n) eqn:E; [apply text_eqb_true in E; congruence|auto].
    + exfalso. apply ND. apply in_or_app. right. now left.
Qed.

Lemma find_name_plain : forall ys scs n, linked scs -> ~ In (chr ".") n -> forall f o r,
  find_name f scs ys o n = Ok r -> r = assoc (env_from scs o) n.
Proof.
  intros ys scs n L ND f. apply split_dot_none in ND. induction f as [|f IH]; intros o r H; cbn [find_name] in H; [discriminate|].
  destruct o as [i|]; [|now inversion H]. apply bind_ok in H as (c & HC & H). apply deref_ok in HC. cbn [env_from].
  rewrite (env_of_eq _ _ _ L HC), assoc_app. unfold table, upper. destruct (c_syms c) as [tab|].
  - rewrite ND in H. destruct (assoc tab n) as [k|]; [now inversion H|].
    destruct (c_parent c) as [p|]; [now apply IH|]. destruct (c_last c) as [p|]; [now apply IH|]. now inversion H.
  - cbn [assoc]. destruct (c_parent c) as [p|]; [now apply IH|]. destruct (c_last c) as [p|]; [now apply IH|]. now inversion H.
Qed.

Lemma find_name_resolves : forall D scs ys, linked scs ->
  (forall j y e, nth_error ys j = Some y -> y_kind y = KSpace (Some e) -> D j = Some (DSpace (env_of scs e))) ->
  forall f o n k, find_name f scs ys o n = Ok (Some k) -> resolves D (env_from scs o) n k.
Proof.
  intros D scs ys L HD f. induction f as [|f IH]; intros o n k H; [discriminate|].
  destruct (split_dot n) as [(a, b)|] eqn:SD.
  - cbn [find_name] in H. destruct o as [i|]; [|discriminate]. apply bind_ok in H as (c & HC & H). apply deref_ok in HC.
    cbn [env_from]. rewrite SD in H. destruct (c_syms c) as [tab|] eqn:CS.
    + apply bind_ok in H as (k1 & H1 & H). destruct k1 as [k1|]; [|discriminate]. apply bind_ok in H as (y & HY & H).
      apply deref_ok in HY. destruct (split_dot_some _ _ _ SD) as (-> & ND). destruct (y_kind y) as [v|fu|t|[e|]] eqn:K; try discriminate.
      * apply (re_inside D _ a k1 (env_of scs e) b k ND).
        -- apply (IH (Some i) a k1 H1).
        -- apply (HD k1 y e HY K).
        -- apply (IH (Some e) b k H).
      * destruct f; discriminate.
    + rewrite (env_of_eq _ _ _ L HC). unfold table, upper. rewrite CS. cbn [app].
      destruct (c_parent c) as [p|]; [now apply (IH (Some p))|]. destruct (c_last c) as [p|]; [now apply (IH (Some p))|]. discriminate.
  - apply split_dot_none in SD. apply assoc_resolves; [easy|]. symmetry. now apply (find_name_plain ys scs n L SD (S f)).
Qed.

Lemma knows_space : forall D s, knows D s -> forall j y e, nth_error (s_syms s) j = Some y -> y_kind y = KSpace (Some e) ->
  D j = Some (DSpace (env_of (s_scopes s) e)).
Proof. intros D s H j y e E K. apply H. unfold sig. now rewrite E, K. Qed.

Lemma lookup_resolves : forall D s n k, linked (s_scopes s) -> knows D s -> scope_find_name s n = Ok (Some k) ->
  resolves D (cenv s) n k.
Proof.
  intros D s n k L K H. unfold scope_find_name in H.
  apply (find_name_resolves D (s_scopes s) (s_syms s) L (knows_space D s K)) in H. exact H.
Qed.

Lemma lookup_plain : forall s n r, linked (s_scopes s) -> ~ In (chr ".") n -> scope_find_name s n = Ok r -> r = assoc (cenv s) n.
Proof. intros s n r L ND H. unfold scope_find_name in H. now apply find_name_plain in H. Qed.

(** * Types *)

Lemma mbs_spells : forall src t n, token_to_mbs_str src t = Ok n -> spells src t n.
Proof.
  intros src t n H. unfold token_to_mbs_str in H. apply bind_ok in H as (x & H1 & H). unfold token_to_string in H1.
  apply bind_ok in H1 as (y & H2 & H1). unfold from_ptr in H2. destruct (t_begin t) as [b|] eqn:B; [|discriminate].
  inversion H1; subst. exists b. split; [easy|]. destruct (c32stombs _) as [m|] eqn:C; [|discriminate]. inversion H; subst.
  apply encode_some_l in C. destruct (b <=? List.length src)%nat; [|discriminate]. now inversion H2; subst.
Qed.

Lemma builtin_found : forall n t, find_builtin_type n = Some t <-> builtin n t.
Proof.
  intros n t. unfold find_builtin_type, types_builtin. split.
  - cbn [find_builtin_in]. repeat match goal with |- context [text_eqb n ?x] => destruct (text_eqb n x) eqn:?E end;
      intro H; inversion H; subst; apply text_eqb_true in E || apply text_eqb_true in E0 || idtac;
      repeat match goal with H : text_eqb n _ = true |- _ => apply text_eqb_true in H end; subst; constructor.
  - intros []; reflexivity.
Qed.

Lemma type_found : forall D src s ts ty, linked (s_scopes s) -> knows D s -> token_to_type src s ts = Ok (Some ty) ->
  type_at D src (cenv s) ts ty.
Proof.
  intros D src s ts. induction ts as [|t r IH]; intros ty L K H; cbn [token_to_type] in H; [discriminate|].
  destruct (is_identifier_like t) eqn:I.
  - apply ident_like_true in I. apply bind_ok in H as (n & HN & H). apply mbs_spells in HN. unfold find_type in H.
    apply bind_ok in H as (k & HK & H). destruct k as [k|].
    + apply bind_ok in H as (y & HY & H). apply deref_ok in HY.
      assert (Q : y_kind y = KAlias (Some ty) \/ find_builtin_type n = Some ty).
      { destruct (y_kind y); inversion H; auto. }
      destruct Q as [Q|Q].
      * apply ta_alias with n k; auto; [now apply lookup_resolves|]. apply K. unfold sig. now rewrite HY, Q.
      * apply builtin_found in Q. now apply ta_builtin with n.
    + inversion H. apply builtin_found in H1. now apply ta_builtin with n.
  - destruct (ttype_eqb (t_type t) T_OPER_REF) eqn:R; [|discriminate]. apply ttype_eqb_eq in R.
    apply bind_ok in H as (x & HX & H). destruct x as [x|]; [|discriminate]. inversion H; subst. apply ta_ref; auto.
Qed.

(** * Expressions *)

Definition ready (s : sst) : Prop := forall k y f, nth_error (s_syms s) k = Some y -> y_kind y = KFunc f ->
  N.of_nat (List.length (f_params f)) = f_num f.

Lemma calm_ready : forall s s', calm s s' -> ready s -> ready s'.
Proof.
  intros s s' C R k y f E K. destruct (nth_error (s_syms s) k) as [y0|] eqn:E0.
  - destruct (cm_syms _ _ C k y0 E0) as (y' & E1 & _ & _ & KK). assert (y' = y) by congruence. subst y'.
    rewrite K in KK. destruct (y_kind y0) eqn:K0; cbn in KK; try contradiction. decompose [and] KK.
    pose proof (R k y0 f0 E0 K0). congruence.
  - apply nth_error_None in E0. rewrite <- (cm_len _ _ C) in E0. apply nth_error_None in E0. congruence.
Qed.

(** Calls count their arguments. *)
Definition counts (e : expr) : Prop := forall name args n, part (ECall name args n) e -> n = N.of_nat (List.length args).

Lemma counts_arg : forall name args n p a, counts (ECall name args n) -> In (p, a) args -> counts a.
Proof. intros name args n p a H I nm ar m P. apply (H nm). now apply pt_arg with p a. Qed.

Lemma const_elab : forall D w src e s t s' x, validate_const_expr w src s t = Pass s' x -> elab D w src e (EConst t) x.
Proof.
  intros D w src e s t s' x H. unfold validate_const_expr in H. destruct (t_type t) eqn:T; try discriminate.
  - apply rbind_pass in H as (r & HR & H). apply literal_pass in H as (z & -> & H). inversion H; subst. constructor. now constructor.
  - apply rbind_pass in H as (r & HR & H). destruct (w_range w r); [discriminate|]. inversion H; subst. constructor. now constructor.
  - inversion H; subst. constructor. now constructor.
  - apply rbind_pass in H as (r & HR & H). apply literal_pass in H as (z & -> & H). inversion H; subst. constructor. now constructor.
  - destruct (const_str src t) as [[r|]|] eqn:C; try discriminate. apply literal_pass in H as (z & -> & H). inversion H; subst. constructor. now constructor.
Qed.

Lemma ident_elab : forall D w src s t s' x, linked (s_scopes s) -> knows D s ->
  validate_ident_expr src s t = Pass s' x -> elab D w src (cenv s) (EVar t) x.
Proof.
  intros D w src s t s' x L K H. unfold validate_ident_expr in H. apply sbind_pass in H as (s1 & (k, v) & H1 & H).
  apply find_var_spec in H1 as (-> & n & y & HN & HF & HY & HK & _). inversion H; subst.
  apply el_var with n (negb (v_const v)).
  - now apply mbs_spells.
  - now apply lookup_resolves.
  - apply K. unfold sig. now rewrite HY, HK.
Qed.

Lemma is_ident_var : forall D w src e a x, elab D w src e a x -> is_ident x = true -> exists t, a = EVar t.
Proof. intros D w src e a x H I. destruct H; try discriminate. eauto. Qed.

Lemma numeric_number : forall t, numeric t = true -> is_number t.
Proof. intros t H. unfold numeric in H. apply orb_true_iff in H as [H|H]; apply ty_eqb_eq in H; [left|right]; exact H. Qed.

Lemma binary_typed : forall src o l r s s' t, validate_binary src o l r s = Pass s' t -> oper_type o (x_ty r) t.
Proof.
  intros src o l r s s' t H. unfold validate_binary in H. cbv zeta in H.
  destruct o; try (inversion H; subst; apply ot_equal; cbn; tauto).
  all: try (apply sbind_pass in H as (s1 & u & H1 & H); inversion H; subst; apply numeric_same in H1 as (_ & H1);
            apply numeric_number in H1; first [apply ot_arith; [cbn; tauto|exact H1]|apply ot_order; [cbn; tauto|exact H1]]; fail).
  all: try (apply sbind_pass in H as (s1 & u & H1 & H); inversion H; subst; apply boolop_same in H1 as (_ & ->); apply ot_logic; cbn; tauto).
  all: try (destruct (ty_eqb (x_ty r) TInt) eqn:E; [|discriminate]; apply ty_eqb_eq in E; inversion H; subst; rewrite E; apply ot_shift; cbn; tauto).
  - apply sbind_pass in H as (s0 & u0 & _ & H). apply sbind_pass in H as (s1 & u & H1 & H). inversion H; subst.
    apply numeric_same in H1 as (_ & H1). apply numeric_number in H1. apply ot_arith; [cbn; tauto|exact H1].
  - apply sbind_pass in H as (s0 & u0 & _ & H). apply sbind_pass in H as (s1 & u & H1 & H). inversion H; subst.
    apply numeric_same in H1 as (_ & H1). apply numeric_number in H1. apply ot_arith; [cbn; tauto|exact H1].
  - destruct (numeric (x_ty r)) eqn:E; [|discriminate]. apply sbind_pass in H as (s1 & u & H1 & H). inversion H; subst.
    apply numeric_number in E. apply ot_arith; [cbn; tauto|exact E].
Qed.

Lemma binary_zero : forall D w src e b o l r s s' t, elab D w src e b r -> validate_binary src o l r s = Pass s' t ->
  o = BDiv \/ o = BMod -> forall q ty, r <> XConst q (VInt 0) ty.
Proof.
  intros D w src e b o l r s s' t E H O q ty ->. unfold validate_binary in H. cbv zeta in H.
  assert (Z : exists s1 u, is_div_by_zero src (XConst q (VInt 0) ty) s = Pass s1 u).
  { destruct O as [->| ->]; apply sbind_pass in H as (s1 & u & H & _); eauto. }
  destruct Z as (s1 & u & Z). unfold is_div_by_zero in Z. inversion E as [|t0 v0 ty0 LV| | | | | |]; subst.
  inversion LV as [z T EV X| | | |]; subst z. rewrite T in Z. cbn [ttype_eqb] in Z.
  replace (ttype_eqb T_INT_CONST T_INT_CONST) with true in Z by reflexivity.
  apply rbind_pass in Z as (v & HV & Z). rewrite EV in HV. inversion HV; subst v. discriminate.
Qed.

Lemma args_elab : forall D w src ve args s tys s' xs,
  Forall (fun a => forall s s' x, linked (s_scopes s) -> ready s -> knows D s -> ve s (snd a) = Pass s' x ->
    elab D w src (cenv s) (snd a) x) args ->
  Forall (fun a => forall s s' x, ve s (snd a) = Pass s' x -> calm s s') args ->
  linked (s_scopes s) -> ready s -> knows D s ->
  check_args ve s args tys = Pass s' xs -> List.length args = List.length tys ->
  elabs D w src (cenv s) (map snd args) xs /\ map x_ty xs = tys.
Proof.
  intros D w src ve args. induction args as [|(tk, a) args IH]; intros s tys s' xs HT HC L R K H LE; destruct tys as [|t tys]; try discriminate.
  - cbn in H. inversion H; subst. split; constructor.
  - cbn [check_args] in H. inversion HT as [|? ? T1 T2]; subst. inversion HC as [|? ? C1 C2]; subst.
    apply sbind_pass in H as (s1 & x & H1 & H). pose proof (T1 _ _ _ L R K H1) as TT. apply C1 in H1.
    destruct (ty_eqb (x_ty x) t) eqn:E; [|unwind H]. apply ty_eqb_eq in E. subst t.
    apply sbind_pass in H as (s2 & xs1 & H2 & H). inversion H; subst. cbn [map snd].
    destruct (IH s1 tys s' xs1) as (Q1 & Q2); auto.
    + now rewrite (cm_scopes _ _ H1).
    + now apply calm_ready with s.
    + now apply (calm_knows D _ _ H1).
    + rewrite (calm_cenv _ _ H1) in Q1. split; [now constructor|now f_equal].
Qed.

Lemma expr_elab : forall D w src e s s' x, counts e -> linked (s_scopes s) -> ready s -> knows D s ->
  validate_expr w src s e = Pass s' x -> elab D w src (cenv s) e x.
Proof.
  intros D w src e. induction e using expr_ind'; intros s s' x CT L R K H'; cbn [validate_expr] in H'.
  - now apply (ident_elab D w) in H'.
  - now apply (const_elab D w src (cenv s)) in H'.
  - apply sbind_pass in H' as (s1 & (k, f) & H1 & H'). pose proof H1 as H1'. apply call_head_calm in H1'.
    apply call_head_spec in H1 as (E1 & FN & nm & y & HN & HF & HY & HK).
    apply sbind_pass in H' as (s2 & xs & H2 & H'). inversion H'; subst s2 x. clear H'.
    pose proof (CT _ _ _ (pt_self _)) as CN. pose proof (R k y f HY HK) as RD.
    assert (LE : List.length args = List.length (f_params f)) by lia.
    assert (H3 : check_args (validate_expr w src) s1 args (f_params f) = Pass s' xs).
    { destruct (f_num f =? 0) eqn:Z; [|exact H2]. apply N.eqb_eq in Z.
      assert (f_params f = []) as ->; [|exact H2]. apply length_zero_iff_nil. lia. }
    assert (Q : elabs D w src (cenv s1) (map snd args) xs /\ map x_ty xs = f_params f).
    { apply (args_elab D w src (validate_expr w src) args s1 (f_params f) s' xs); auto.
      * apply Forall_forall. intros (p, a) I. rewrite Forall_forall in H. intros t1 t2 x1 L1 R1 K1 HV.
        apply (H (p, a) I t1 t2 x1); auto. now apply (counts_arg name args n p a).
      * apply Forall_forall. intros (p, a) I t1 t2 x1 HV. now apply expr_calm in HV.
      * now rewrite (cm_scopes _ _ H1').
      * now apply calm_ready with s.
      * now apply (calm_knows D _ _ H1'). }
    rewrite (calm_cenv _ _ H1') in Q. destruct Q as (Q1 & Q2).
    apply el_call with nm (f_params f).
    + now apply mbs_spells.
    + now apply lookup_resolves.
    + apply K. unfold sig. rewrite HY, HK. rewrite (proj2 (N.eqb_eq _ _) RD). reflexivity.
    + exact Q1.
    + exact Q2.
  - discriminate.
  - assert (CE : counts e). { intros nm ar m P. apply (CT nm). now apply pt_un. }
    apply sbind_pass in H' as (s1 & r & H1 & H'). pose proof (IHe _ _ _ CE L R K H1) as T1.
    apply sbind_pass in H' as (s2 & t & H2 & H'). inversion H'; subst. unfold validate_unary in H2. cbv zeta in H2.
    destruct o.
    + apply sbind_pass in H2 as (s3 & u & H3 & H2). inversion H2; subst. apply numeric_same in H3 as (_ & H3).
      apply el_neg; [easy|]. now apply numeric_number.
    + apply sbind_pass in H2 as (s3 & u & H3 & H2). inversion H2; subst. apply boolop_same in H3 as (_ & H3). now apply el_not.
    + destruct (is_ident r) eqn:I; [|discriminate]. inversion H2; subst. destruct (is_ident_var _ _ _ _ _ _ T1 I) as (tk & ->).
      now apply el_ref.
    + destruct (is_ident r) eqn:I; [|discriminate]. destruct (x_ty r) eqn:X; try discriminate. inversion H2; subst.
      destruct (is_ident_var _ _ _ _ _ _ T1 I) as (tk & ->). now apply el_deref.
  - apply sbind_pass in H' as (s1 & r & H1 & H'). discriminate.
  - assert (C1 : counts e1). { intros nm ar m P. apply (CT nm). now apply pt_left. }
    assert (C2 : counts e2). { intros nm ar m P. apply (CT nm). now apply pt_right. }
    apply sbind_pass in H' as (s1 & r & H1 & H'). pose proof (IHe2 _ _ _ C2 L R K H1) as T2. apply expr_calm in H1.
    apply sbind_pass in H' as (s2 & l & H2 & H').
    assert (T1 : elab D w src (cenv s1) e1 l).
    { apply (IHe1 s1 s2 l); auto; [now rewrite (cm_scopes _ _ H1)|now apply calm_ready with s|now apply (calm_knows D _ _ H1)]. }
    rewrite (calm_cenv _ _ H1) in T1. destruct (ty_eqb (x_ty l) (x_ty r)) eqn:E; [|discriminate]. apply ty_eqb_eq in E.
    apply sbind_pass in H' as (s3 & t & H3 & H'). inversion H'; subst.
    apply el_bin; auto; [now apply binary_typed in H3|now apply (binary_zero D w src (cenv s) e2 o l r s2 s' t)].
Qed.
