(** Proofs that programs that keep the rules pass the checks: names, types, expressions. *)
From Coq Require Import List Arith NArith ZArith Bool Lia Ascii String.
From Verif Require Import Base Model_Token Model_Utf8 Model_Classify Model_Literal Model_Parse Model_Sem.
From Verif Require Import Spec_Utf8 Spec_Classify Spec_Parse Spec_Sem Spec_Sem2 Spec_Accept.
From Verif Require Import Proof_Utf8 Proof_Classify Proof_Classify2 Proof_Parse Proof_Parse2 Proof_Parse5 Proof_Sem Proof_Sem2 Proof_Sem3 Proof_Sem4.
Import ListNotations.
Open Scope list_scope.
Open Scope nat_scope.

(** * Names of tokens *)

Lemma spells_mbs : forall src t n, spells src t n -> n <> [] -> token_to_mbs_str src t = Ok n.
Proof.
  intros src t n (b & B & U) NE. unfold token_to_mbs_str, token_to_string, from_ptr. rewrite B.
  destruct (b <=? List.length src) eqn:LE.
  - cbn [bind]. apply encode_some_l in U. now rewrite U.
  - apply Nat.leb_gt in LE. rewrite skipn_all2 in U by lia. rewrite firstn_nil in U. inversion U; subst. congruence.
Qed.

Lemma spells_variable : forall src t n ty c i x d, spells src t n -> name n -> 
  make_variable src t ty c i x d = Ok (n, mkvar ty c false false i x d None).
Proof.
  intros src t n ty c i x d (b & B & U) NM. unfold make_variable, token_to_string, from_ptr. rewrite B.
  assert (NI : nameish n) by (now apply name_nameish).
  assert (UN : utf8 n n). { apply encode_some_l. apply ascii_mbs. now apply nameish_ascii. }
  pose proof (utf8_decode_det _ _ U _ UN) as E. destruct (b <=? List.length src) eqn:LE.
  - cbn [bind]. rewrite E. rewrite (proj2 (ident_ok n) (or_introl NM)). apply encode_some_l in UN. now rewrite UN.
  - apply Nat.leb_gt in LE. rewrite skipn_all2 in E by lia. rewrite firstn_nil in E. subst n.
    destruct NM as (c0 & r & X & _). discriminate.
Qed.

Lemma name_not_nil : forall n, name n -> n <> [].
Proof. intros n (c & r & -> & _). discriminate. Qed.

(** * Looking up names *)

Lemma find_up : forall scs ys n, linked scs -> ~ In (chr ".") n -> forall f i, i < List.length scs -> i < f ->
  find_name f scs ys (Some i) n = Ok (assoc (env_of scs i) n).
Proof.
  intros scs ys n L ND f. pose proof (proj2 (split_dot_none n) ND) as SD.
  induction f as [|f IH]; intros i LI LF; [lia|]. cbn [find_name].
  destruct (nth_error scs i) as [c|] eqn:E; [|apply nth_error_None in E; lia].
  unfold deref at 1. rewrite E. cbn [bind]. rewrite (env_of_eq _ _ _ L E), assoc_app. unfold table.
  assert (UP : match c_parent c with
      | Some p => find_name f scs ys (Some p) n
      | None => match c_last c with Some p => find_name f scs ys (Some p) n | None => Ok None end
      end = Ok (assoc (env_from scs (upper c)) n)).
  { unfold upper. destruct (c_parent c) as [p|] eqn:EP; [|destruct (c_last c) as [p|] eqn:EL; [|reflexivity]].
    - pose proof (L i c p E (or_introl EP)). apply IH; lia.
    - pose proof (L i c p E (or_intror EL)). apply IH; lia. }
  destruct (c_syms c) as [tab|]; [|exact UP]. rewrite SD. destruct (assoc tab n); [reflexivity|exact UP].
Qed.

Lemma find_plain_total : forall s n, inv s -> ~ In (chr ".") n -> scope_find_name s n = Ok (assoc (cenv s) n).
Proof.
  intros s n I ND. unfold scope_find_name, cenv. pose proof (iv_cur _ I) as C. destruct (s_scope s) as [i|].
  - cbn [env_from]. apply find_up; auto; [apply (iv_links _ I)|lia|]. cbn. lia.
  - reflexivity.
Qed.

Lemma split_dot_at : forall a b, ~ In (chr ".") a -> split_dot (a ++ chr "." :: b) = Some (a, b).
Proof.
  induction a as [|c a IH]; intros b ND; [reflexivity|]. cbn [app split_dot].
  destruct (N.eqb_spec c (chr ".")) as [->|NE]; [exfalso; apply ND; now left|]. rewrite IH; [reflexivity|]. intro X. apply ND. now right.
Qed.

Lemma find_deep : forall s, inv s -> forall en n k, resolves (sig s) en n k ->
  forall i f, en = env_of (s_scopes s) i -> i < List.length (s_scopes s) ->
  S (List.length n) * (2 + List.length (s_scopes s)) <= f -> find_name f (s_scopes s) (s_syms s) (Some i) n = Ok (Some k).
Proof.
  intros s I en n k H. induction H as [n k en ND|m j en n k ND NE H IH|en a j ins b k ND H IH HD H2 IH2]; intros i f EQ LI LF.
  - rewrite (find_up _ _ n (iv_links _ I) ND) by (try lia; cbn in LF; lia). rewrite <- EQ. f_equal.
    apply (assoc_resolves (sig s)); [exact ND|now constructor].
  - rewrite (find_up _ _ n (iv_links _ I) ND) by (try lia; cbn in LF; lia). rewrite <- EQ. f_equal.
    apply (assoc_resolves (sig s)); [exact ND|now constructor].
  - clear IH. apply (assoc_resolves (sig s) en a j ND) in H.
    unfold sig in HD. destruct (nth_error (s_syms s) j) as [y|] eqn:EY; [|discriminate].
    destruct (y_kind y) as [v|fu|t|[e|]] eqn:K; try discriminate.
    { destruct (N.of_nat (List.length (f_params fu)) =? f_num fu)%N; discriminate. }
    assert (EI : ins = env_of (s_scopes s) e) by (now inversion HD). pose proof (iv_space _ I j y e EY K) as LE.
    rewrite app_length in LF. cbn [List.length] in LF.
    set (W := 2 + List.length (s_scopes s)) in *.
    assert (LF' : S i + S (List.length b) * W <= f) by (assert (S (S (List.length b)) * W <= f) by nia; unfold W in *; nia).
    clear LF. revert i f EQ LI LF'.
    assert (Q : forall m i f, i < m -> assoc (env_of (s_scopes s) i) a = Some j -> i < List.length (s_scopes s) ->
      S i + S (List.length b) * W <= f -> find_name f (s_scopes s) (s_syms s) (Some i) (a ++ chr "." :: b) = Ok (Some k)).
    { induction m as [|m IHm]; intros i f LM A LI LF; [lia|]. destruct f as [|f]; [lia|]. cbn [find_name].
      destruct (nth_error (s_scopes s) i) as [c|] eqn:E; [|apply nth_error_None in E; lia].
      unfold deref at 1. rewrite E. cbn [bind]. rewrite (split_dot_at a b ND).
      destruct (c_syms c) as [tab|] eqn:CS.
      - rewrite (find_up _ _ a (iv_links _ I) ND) by (try lia; nia). rewrite A. cbn [bind]. unfold deref. rewrite EY. cbn [bind]. rewrite K.
        apply IH2; [exact EI|lia|]. unfold W in *. lia.
      - rewrite (env_of_eq _ _ _ (iv_links _ I) E) in A. unfold table in A. rewrite CS in A. cbn [app] in A. unfold upper in A.
        destruct (c_parent c) as [p|] eqn:EP; [|destruct (c_last c) as [p|] eqn:EL; [|discriminate]].
        + pose proof (iv_links _ I i c p E (or_introl EP)). apply IHm; [lia|exact A|lia|lia].
        + pose proof (iv_links _ I i c p E (or_intror EL)). apply IHm; [lia|exact A|lia|lia]. }
    intros i f EQ LI LF. apply (Q (S i)); auto. now rewrite <- EQ.
Qed.

Lemma find_total : forall s n k, inv s -> resolves (sig s) (cenv s) n k -> scope_find_name s n = Ok (Some k).
Proof.
  intros s n k I H. unfold scope_find_name. pose proof (iv_cur _ I) as C. unfold cenv in H. destruct (s_scope s) as [i|].
  - apply (find_deep s I _ n k H i); [reflexivity|lia|lia].
  - exfalso. cbn [env_from] in H. remember (@nil (text * nat)) as en eqn:E. induction H; try discriminate. auto.
Qed.

(** * The state and the rules *)

Definition envrel (P : nat -> nat -> Prop) (a b : env) : Prop :=
  Forall2 (fun x y => fst x = fst y /\ P (snd x) (snd y)) a b.
Definition says (P : nat -> nat -> Prop) (o : option decl) (d : decl) : Prop :=
  match d with
  | DSpace E => exists E', o = Some (DSpace E') /\ envrel P E' E
  | _ => o = Some d
  end.

(** The symbol a of the checks stands for the declaration b of the rules if P a b. *)
Record rel (P : nat -> nat -> Prop) (D : decls) (s : sst) (e : env) : Prop := mkrel {
  rl_env : envrel P (cenv s) e;
  rl_dec : forall a b d, P a b -> D b = Some d -> says P (sig s a) d;
  rl_dom : forall a b, P a b -> a < List.length (s_syms s);
  rl_uni : forall a b c t m t' m', P a b -> P a c -> D b = Some (DVar t m) -> D c = Some (DVar t' m') -> b = c;
  rl_names : Forall (fun x : text * nat => fst x <> []) e;
  rl_vars : forall k y v, nth_error (s_syms s) k = Some y -> y_kind y = KVar v -> v_defined v = true }.

Lemma envrel_more : forall (P Q : nat -> nat -> Prop) a b, (forall x y, P x y -> Q x y) -> envrel P a b -> envrel Q a b.
Proof. intros P Q a b H F. induction F as [|x y a b (E & R) F IH]; constructor; auto. Qed.

Lemma says_more : forall (P Q : nat -> nat -> Prop) o d, (forall x y, P x y -> Q x y) -> says P o d -> says Q o d.
Proof. intros P Q o d H. destruct d; cbn; auto. intros (E & A & B). exists E. split; [exact A|]. now apply (envrel_more P). Qed.

Lemma says_some : forall P o d, says P o d -> exists d', o = Some d'.
Proof. intros P o d H. destruct d; cbn in H; eauto. destruct H as (E & H & _). eauto. Qed.

Lemma transport : forall P D s e, rel P D s e -> forall E n k, resolves D E n k -> forall E', envrel P E' E ->
  exists k', resolves (sig s) E' n k' /\ P k' k.
Proof.
  intros P D s e R E n k H. induction H as [n k E ND|m j E n k ND NE H IH|E a j ins b k ND H IH HD H2 IH2]; intros E' F.
  - inversion F as [|(n', k') y a b (X & Y) F' EA]; subst. cbn in X, Y. subst n'. exists k'. split; [now constructor|exact Y].
  - inversion F as [|(n', k') y a b (X & Y) F' EA]; subst. cbn in X, Y. subst n'. destruct (IH _ F') as (k1 & R1 & P1).
    exists k1. split; [now constructor|exact P1].
  - destruct (IH _ F) as (j' & R1 & P1). pose proof (rl_dec _ _ _ _ R j' j _ P1 HD) as (I' & S1 & F1).
    destruct (IH2 _ F1) as (k' & R2 & P2). exists k'. split; [|exact P2]. now apply re_inside with j' I'.
Qed.

Lemma resolved_not_nil : forall D e n k, Forall (fun x : text * nat => fst x <> []) e -> resolves D e n k -> n <> [].
Proof.
  intros D e n k F H. induction H as [n k E ND|m j E n k ND NE H IH|E a j ins b k ND H IH HD H2 IH2].
  - apply Forall_inv in F. exact F.
  - apply Forall_inv_tail in F. auto.
  - destruct a; discriminate.
Qed.

(** A name of the program is found. *)
Lemma found : forall P D s e src t n k, rel P D s e -> inv s -> spells src t n -> resolves D e n k ->
  token_to_mbs_str src t = Ok n /\ exists k', scope_find_name s n = Ok (Some k') /\ P k' k.
Proof.
  intros P D s e src t n k R I SP H. split.
  - apply spells_mbs; [exact SP|]. apply (resolved_not_nil D e n k); [apply (rl_names _ _ _ _ R)|exact H].
  - destruct (transport P D s e R e n k H _ (rl_env _ _ _ _ R)) as (k' & H' & PK). exists k'. split; [|exact PK].
    now apply find_total.
Qed.

Lemma names_table : forall s n k, inv s -> assoc (cenv s) n = Some k -> forall ty, ~ builtin n ty.
Proof.
  intros s n k I A ty BI. unfold cenv in A.
  assert (QQ : forall m i, i < m -> assoc (env_of (s_scopes s) i) n = Some k -> False).
  { induction m as [|m IH]; intros i LT B; [lia|]. destruct (nth_error (s_scopes s) i) as [c|] eqn:EC.
    - rewrite (env_of_eq _ _ _ (iv_links _ I) EC), assoc_app in B. destruct (assoc (table c) n) as [k'|] eqn:A'.
      + assert (IN : In (n, k') (table c)).
        { clear - A'. induction (table c) as [|(m, j) tb IH]; cbn in A'; [discriminate|].
          destruct (text_eqb m n) eqn:E; [apply text_eqb_true in E; inversion A'; subst; now left|right; auto]. }
        now apply (iv_names _ I i c n k' ty EC IN).
      + destruct (upper c) as [p|] eqn:U; [|discriminate]. cbn [env_from] in B.
        pose proof (upper_less _ _ _ _ (iv_links _ I) EC U). apply (IH p); [lia|exact B].
    - rewrite env_of_none in B by exact EC. discriminate. }
  destruct (s_scope s) as [i|]; [|discriminate]. apply (QQ (S i) i); [lia|exact A].
Qed.

Lemma builtin_plain : forall n ty, builtin n ty -> ~ In (chr ".") n /\ n <> [].
Proof.
  intros n ty BI. split; [|destruct BI; discriminate].
  intro ID. destruct BI; cbn in ID; repeat (destruct ID as [ID|ID]; [discriminate|]); contradiction.
Qed.

Lemma resolved_not_builtin : forall s n k ty, inv s -> scope_find_name s n = Ok (Some k) -> ~ builtin n ty.
Proof.
  intros s n k ty I H BI. pose proof (builtin_plain _ _ BI) as (ND & _). rewrite (find_plain_total s n I ND) in H.
  inversion H as [H1]. now apply (names_table s n k I H1 ty).
Qed.

Lemma not_builtin_none : forall n, (forall ty, ~ builtin n ty) -> find_builtin_type n = None.
Proof. intros n H. destruct (find_builtin_type n) as [t|] eqn:E; [|reflexivity]. apply builtin_found in E. exfalso. now apply (H t). Qed.

Lemma like_name : forall t, name_like (t_type t) -> is_identifier_like t = true.
Proof. intros t H. now apply ident_like_true. Qed.

(** * Types *)

Lemma sig_kind : forall s k d, sig s k = Some d -> exists y, nth_error (s_syms s) k = Some y.
Proof. intros s k d H. unfold sig in H. destruct (nth_error (s_syms s) k) as [y|]; [eauto|discriminate]. Qed.

Lemma sig_var : forall s k t m, sig s k = Some (DVar t m) -> exists y v, nth_error (s_syms s) k = Some y /\ y_kind y = KVar v /\
  v_type v = t /\ v_const v = negb m.
Proof.
  intros s k t m H. destruct (sig_kind _ _ _ H) as (y & E). rewrite (sig_at _ _ _ E) in H.
  destruct (y_kind y) as [v|f|o|[o|]] eqn:K; try discriminate; [|destruct (_ =? _)%N; discriminate].
  exists y, v. inversion H; subst. rewrite negb_involutive. auto.
Qed.

Lemma sig_fun : forall s k ps r, sig s k = Some (DFun ps r) -> exists y f, nth_error (s_syms s) k = Some y /\ y_kind y = KFunc f /\
  f_params f = ps /\ f_ret f = r /\ N.of_nat (List.length ps) = f_num f.
Proof.
  intros s k ps r H. destruct (sig_kind _ _ _ H) as (y & E). rewrite (sig_at _ _ _ E) in H.
  destruct (y_kind y) as [v|f|o|[o|]] eqn:K; try discriminate. destruct (N.eqb_spec (N.of_nat (List.length (f_params f))) (f_num f)); [|discriminate].
  exists y, f. inversion H; subst. auto.
Qed.

Lemma sig_type : forall s k t, sig s k = Some (DType t) -> exists y, nth_error (s_syms s) k = Some y /\ y_kind y = KAlias t.
Proof.
  intros s k t H. destruct (sig_kind _ _ _ H) as (y & E). rewrite (sig_at _ _ _ E) in H.
  destruct (y_kind y) as [v|f|o|[o|]] eqn:K; try discriminate; [destruct (_ =? _)%N; discriminate|].
  exists y. inversion H; subst. auto.
Qed.

Lemma type_total : forall P D s e src ts ty, rel P D s e -> inv s -> type_at D src e ts ty -> token_to_type src s ts = Ok (Some ty).
Proof.
  intros P D s e src ts ty R I H. induction H as [t r n ty NL SP BI|t r n k ty NL SP RE HD|t r ty T H IH]; cbn [token_to_type].
  - rewrite (like_name _ NL). destruct (builtin_plain _ _ BI) as (ND & NE). rewrite (spells_mbs _ _ _ SP NE). cbn [bind].
    unfold find_type. rewrite (find_plain_total s n I ND). cbn [bind].
    destruct (assoc (cenv s) n) as [k|] eqn:A; [exfalso; now apply (names_table s n k I A ty)|].
    now rewrite (proj2 (builtin_found n ty) BI).
  - rewrite (like_name _ NL). destruct (found _ _ _ _ _ _ _ _ R I SP RE) as (EN & k' & F & PK). rewrite EN. cbn [bind].
    unfold find_type. rewrite F. cbn [bind]. pose proof (rl_dec _ _ _ _ R k' k _ PK HD) as SG. cbn in SG.
    destruct (sig_type _ _ _ SG) as (y & EY & K). unfold deref. rewrite EY. cbn [bind]. now rewrite K.
  - assert (NI : is_identifier_like t = false).
    { destruct (is_identifier_like t) eqn:E; [|reflexivity]. apply ident_like_true in E. rewrite T in E. unfold name_like in E.
      repeat (destruct E as [E|E]; try discriminate). }
    rewrite NI, T. cbn [ttype_eqb]. replace (ttype_eqb T_OPER_REF T_OPER_REF) with true by reflexivity. rewrite IH. reflexivity.
Qed.

Lemma no_type_total : forall P D s e src ts, rel P D s e -> inv s -> no_type_at D src e ts -> token_to_type src s ts = Ok None.
Proof.
  intros P D s e src ts R I H.
  assert (Q : forall t n k' , name_like (t_type t) -> token_to_mbs_str src t = Ok n -> scope_find_name s n = Ok (Some k') ->
    (exists y, nth_error (s_syms s) k' = Some y /\ forall o, y_kind y <> KAlias o) -> forall r, token_to_type src s (t :: r) = Ok None).
  { intros t n k' NL EN F (y & EY & K) r. cbn [token_to_type]. rewrite (like_name _ NL), EN. cbn [bind]. unfold find_type. rewrite F. cbn [bind].
    unfold deref. rewrite EY. cbn [bind].
    assert (B : find_builtin_type n = None) by (apply not_builtin_none; intro ty; now apply (resolved_not_builtin s n k')).
    destruct (y_kind y) as [v|f|o|o] eqn:KY; try (now rewrite B). exfalso. now apply (K o). }
  induction H as [t r NL NR|t r n k ty m NL SP RE HD|t r n k ps ty NL SP RE HD|t r T H IH].
  - cbn [token_to_type]. destruct (is_identifier_like t) eqn:E; [exfalso; apply NL; now apply ident_like_true|].
    destruct (ttype_eqb (t_type t) T_OPER_REF) eqn:E2; [apply ttype_eqb_eq in E2; contradiction|reflexivity].
  - destruct (found _ _ _ _ _ _ _ _ R I SP RE) as (EN & k' & F & PK). apply (Q t n k' NL EN F).
    pose proof (rl_dec _ _ _ _ R k' k _ PK HD) as SG. cbn in SG. destruct (sig_var _ _ _ _ SG) as (y & v & EY & K & _).
    exists y. split; [exact EY|]. rewrite K. discriminate.
  - destruct (found _ _ _ _ _ _ _ _ R I SP RE) as (EN & k' & F & PK). apply (Q t n k' NL EN F).
    pose proof (rl_dec _ _ _ _ R k' k _ PK HD) as SG. cbn in SG. destruct (sig_fun _ _ _ _ SG) as (y & v & EY & K & _).
    exists y. split; [exact EY|]. rewrite K. discriminate.
  - cbn [token_to_type]. assert (NI : is_identifier_like t = false).
    { destruct (is_identifier_like t) eqn:E; [|reflexivity]. apply ident_like_true in E. rewrite T in E. unfold name_like in E.
      repeat (destruct E as [E|E]; try discriminate). }
    rewrite NI, T. replace (ttype_eqb T_OPER_REF T_OPER_REF) with true by reflexivity. rewrite IH. reflexivity.
Qed.

(** * Steps that keep the relation *)

Lemma calm_vars : forall s s', calm s s' -> (forall k y v, nth_error (s_syms s) k = Some y -> y_kind y = KVar v -> v_defined v = true) ->
  forall k y v, nth_error (s_syms s') k = Some y -> y_kind y = KVar v -> v_defined v = true.
Proof.
  intros s s' C H k y v E K. destruct (nth_error (s_syms s) k) as [y0|] eqn:E0.
  - destruct (cm_syms _ _ C k y0 E0) as (y' & E1 & _ & _ & KK). assert (y' = y) by congruence. subst y'.
    rewrite K in KK. destruct (y_kind y0) as [v0|f0|t0|c0] eqn:K0; cbn in KK; try contradiction.
    pose proof (H k y0 v0 E0 K0). decompose [and] KK. congruence.
  - apply nth_error_None in E0. rewrite <- (cm_len _ _ C) in E0. apply nth_error_None in E0. congruence.
Qed.

Lemma calm_rel : forall P D s s' e, calm s s' -> rel P D s e -> rel P D s' e.
Proof.
  intros P D s s' e C [A B DM U N V]. constructor; auto.
  - now rewrite (calm_cenv _ _ C).
  - intros a b d PA HD. rewrite (calm_sig _ _ C). now apply (B a b).
  - intros a b PA. rewrite (cm_len _ _ C). now apply (DM a b).
  - now apply (calm_vars s).
Qed.

(** * Expressions *)

Lemma range_part : forall w src a v, in_range w src v -> part a v -> in_range w src a.
Proof.
  intros w src a v R P t f PT. apply R. clear - P PT. induction P; auto; econstructor; eauto.
Qed.

Lemma literal_total : forall w src s t v ty, literal_value w src t v ty -> in_range w src (EConst t) ->
  validate_const_expr w src s t = Pass s (XConst t v ty).
Proof.
  intros w src s t v ty H R. unfold validate_const_expr. destruct H as [z T E|f T E|T|c T E|b T E]; rewrite T; try rewrite E; cbn; auto.
  now rewrite (R t f (pt_self _) T E).
Qed.

Lemma numeric_of : forall t, is_number t -> numeric t = true.
Proof. intros t [->| ->]; reflexivity. Qed.

Lemma ty_eqb_refl : forall t, ty_eqb t t = true.
Proof. intro t. now apply ty_eqb_eq. Qed.

(** What is known of the checked form of an expression. *)
Definition akin (P : nat -> nat -> Prop) (y x : texpr) : Prop :=
  x_ty x = x_ty y /\
  match y with
  | XVar t k _ _ => exists k' c, x = XVar t k' (x_ty y) c /\ P k' k
  | XConst t v ty => x = XConst t v ty
  | XCall name _ _ ty => exists k' xs, x = XCall name k' xs ty
  | XUn o _ _ _ => exists r c, x = XUn o r (x_ty y) c
  | XBin o _ _ _ _ => exists l r c, x = XBin o l r (x_ty y) c
  end.

Lemma var_total : forall P D s e src t n k ty m, rel P D s e -> inv s -> spells src t n -> resolves D e n k ->
  D k = Some (DVar ty m) -> exists k' v, scope_find_var src s t = Pass s (k', v) /\ P k' k /\ v_type v = ty /\ v_const v = negb m /\
    exists y, nth_error (s_syms s) k' = Some y /\ y_kind y = KVar v.
Proof.
  intros P D s e src t n k ty m R I SP RE HD. destruct (found _ _ _ _ _ _ _ _ R I SP RE) as (EN & k' & F & PK).
  pose proof (rl_dec _ _ _ _ R k' k _ PK HD) as SG. cbn in SG. destruct (sig_var _ _ _ _ SG) as (y & v & EY & K & VT & VC).
  exists k', v. unfold scope_find_var. rewrite EN. cbn [rbind]. rewrite F. cbn [rbind]. unfold deref. rewrite EY. cbn [rbind].
  rewrite K, (rl_vars _ _ _ _ R k' y v EY K). split; [reflexivity|]. split; [exact PK|]. split; [exact VT|]. split; [exact VC|]. eauto.
Qed.

Lemma unary_shape : forall o (r : texpr) t (c : bool), x_ty (XUn o r t c) = t.
Proof. reflexivity. Qed.

Lemma args_total : forall P D w src en args xs, 
  Forall (fun a => forall y, elab D w src en (snd a) y -> counts (snd a) -> in_range w src (snd a) -> forall s, rel P D s en -> inv s -> ready s ->
    exists s' x, validate_expr w src s (snd a) = Pass s' x /\ akin P y x) args ->
  elabs D w src en (map snd args) xs -> Forall (fun a => counts (snd a) /\ in_range w src (snd a)) args ->
  forall s, rel P D s en -> inv s -> ready s ->
  exists s' ys, check_args (validate_expr w src) s args (map x_ty xs) = Pass s' ys.
Proof.
  intros P D w src en args. induction args as [|(p, a) args IH]; intros xs F E C s R I RD; cbn [map snd] in E.
  - inversion E; subst. cbn. eauto.
  - inversion E as [|? ? x xr E1 E2]; subst. inversion F as [|? ? F1 F2]; subst. inversion C as [|? ? (C1 & R1) C2]; subst. cbn [snd] in *.
    destruct (F1 x E1 C1 R1 s R I RD) as (s1 & x1 & H1 & (A1 & _)). pose proof (expr_calm _ _ _ _ _ _ H1) as CM.
    destruct (IH xr F2 E2 C2 s1 (calm_rel _ _ _ _ _ CM R) (calm_inv _ _ CM I) (calm_ready _ _ CM RD)) as (s2 & ys & H2).
    exists s2, (x1 :: ys). cbn [check_args map]. rewrite H1. cbn [sbind]. rewrite A1, ty_eqb_refl, H2. reflexivity.
Qed.

Lemma expr_total : forall P D w src en v y, elab D w src en v y -> counts v -> in_range w src v ->
  forall s, rel P D s en -> inv s -> ready s ->
  exists s' x, validate_expr w src s v = Pass s' x /\ akin P y x.
Proof.
  intros P D w src en v. induction v using expr_ind'; intros y E CT RG s R I RD; cbn [validate_expr].
  - inversion E as [t0 n k ty m c SP RE HD| | | | | | |]; subst.
    destruct (var_total _ _ _ _ _ _ _ _ _ _ R I SP RE HD) as (k' & v & F & PK & VT & _). unfold validate_ident_expr. rewrite F. cbn [sbind].
    eexists. eexists. split; [reflexivity|]. cbn. subst ty. split; [reflexivity|]. eauto.
  - inversion E as [|t0 v ty LV| | | | | |]; subst. exists s, (XConst t v ty). split; [now apply literal_total|]. split; reflexivity.
  - inversion E as [| |nm ar num nn k ps r xs SP RE HD EA TY| | | | |]; subst.
    destruct (found _ _ _ _ _ _ _ _ R I SP RE) as (EN & k' & F & PK).
    pose proof (rl_dec _ _ _ _ R k' k _ PK HD) as SG. cbn in SG. destruct (sig_fun _ _ _ _ SG) as (z & f & EY & K & FP & FR & FN).
    pose proof (CT _ _ _ (pt_self _)) as CN.
    assert (LX : List.length (map x_ty xs) = List.length args).
    { rewrite map_length. rewrite <- (map_length snd args). clear - EA. induction EA; cbn; auto. }
    assert (CH : call_head src s name args n = Pass (set_kind s k' (KFunc (mark_called f))) (k', f)).
    { unfold call_head, find_func_by_token, find_func_by_name. rewrite EN. cbn [rbind]. rewrite F. cbn [bind]. unfold deref. rewrite EY. cbn [bind]. rewrite K.
      cbn [rbind sbind]. assert (EQ : f_num f = n) by (rewrite <- FN, CN, LX; reflexivity). rewrite EQ, N.eqb_refl. cbn [negb].
      destruct args as [|([|t tr], a) args]; auto. destruct (N.eqb_spec n 0) as [Z|Z]; [|reflexivity]. rewrite CN in Z. cbn in Z. lia. }
    rewrite CH. cbn [sbind]. pose proof (call_head_calm _ _ _ _ _ _ _ CH) as CM.
    set (s1 := set_kind s k' (KFunc (mark_called f))) in *.
    destruct (args_total P D w src en args xs) with (s := s1) as (s2 & ys & HA).
    + apply Forall_forall. intros (p, a) IN y E1 C1 R1 s0 RL I0 RD0. rewrite Forall_forall in H. cbn [snd] in *. now apply (H (p, a) IN).
    + exact EA.
    + apply Forall_forall. intros (p, a) IN. cbn [snd]. split; [now apply (counts_arg name args n p a)|].
      apply (range_part w src a (ECall name args n) RG). apply pt_arg with p a; [exact IN|constructor].
    + now apply calm_rel with s.
    + now apply calm_inv with s.
    + now apply calm_ready with s.
    + assert (HB : check_args (validate_expr w src) s1 args (if (f_num f =? 0)%N then [] else f_params f) = Pass s2 ys).
      { rewrite FP. destruct (N.eqb_spec (f_num f) 0) as [Z|Z]; [|exact HA]. rewrite Z in FN.
        destruct (map x_ty xs) as [|q qs] eqn:MQ; [exact HA|cbn in FN; lia]. }
      rewrite HB. cbn [sbind]. exists s2, (XCall name k' ys (f_ret f)). split; [reflexivity|]. cbn. rewrite FR. split; [reflexivity|]. eauto.
  - exfalso. inversion E.
  - assert (CE : counts v). { intros nm ar q PP. apply (CT nm). now apply pt_un. }
    assert (RE : in_range w src v) by (apply (range_part w src v _ RG); apply pt_un; constructor).
    inversion E as [| | |a x c EA NB|a x c EA TB|t x c EA|t x ty c EA TR|]; subst;
      destruct (IHv _ EA CE RE s R I RD) as (s1 & x1 & H1 & (A1 & A2)); rewrite H1; cbn [sbind]; unfold validate_unary; cbv zeta.
    + unfold is_numeric. rewrite A1, (numeric_of _ NB). cbn [sbind]. eexists. eexists. split; [reflexivity|]. split; cbn [x_ty]; [auto|]; rewrite ?A1; eauto.
    + unfold validate_bool_operand. rewrite A1, TB. cbn [ty_eqb sbind]. eexists. eexists. split; [reflexivity|]. split; cbn [x_ty]; [auto|]; rewrite ?A1; eauto.
    + inversion EA; subst. destruct A2 as (k' & cc & -> & _). cbn [is_ident sbind]. eexists. eexists. split; [reflexivity|]. split; cbn [x_ty]; [auto|]; rewrite ?A1; eauto.
    + inversion EA; subst. destruct A2 as (k' & cc & -> & _). cbn [x_ty] in *. cbn [is_ident]. rewrite TR. cbn [sbind]. eexists. eexists. split; [reflexivity|]. split; cbn [x_ty]; [auto|]; rewrite ?A1; eauto.
  - exfalso. inversion E.
  - assert (C1 : counts v1). { intros nm ar q PP. apply (CT nm). now apply pt_left. }
    assert (C2 : counts v2). { intros nm ar q PP. apply (CT nm). now apply pt_right. }
    assert (R1 : in_range w src v1) by (apply (range_part w src v1 _ RG); apply pt_left; constructor).
    assert (R2 : in_range w src v2) by (apply (range_part w src v2 _ RG); apply pt_right; constructor).
    inversion E as [| | | | | | |o0 a b xa xb r c EA EB TE OT NZ]; subst.
    destruct (IHv2 _ EB C2 R2 s R I RD) as (s1 & x2 & H2 & A2). pose proof (expr_calm _ _ _ _ _ _ H2) as CM.
    destruct (IHv1 _ EA C1 R1 s1 (calm_rel _ _ _ _ _ CM R) (calm_inv _ _ CM I) (calm_ready _ _ CM RD)) as (s2 & x1 & H1 & A1).
    rewrite H2. cbn [sbind]. rewrite H1. cbn [sbind]. destruct A1 as (A1 & _). rewrite A1, (proj1 A2), TE, ty_eqb_refl.
    assert (B : exists s3, validate_binary src o x1 x2 s2 = Pass s3 r).
    { assert (DZ : o = BDiv \/ o = BMod -> is_div_by_zero src x2 s2 = Pass s2 tt).
      { intro O. specialize (NZ O). unfold is_div_by_zero. destruct x2 as [| t2 v2' ty2| | |]; try reflexivity.
        destruct A2 as (_ & A2). destruct xb as [?|t3 v3 ty3|?|?|?];
          try (destruct A2 as (? & ? & X & _); discriminate); try (destruct A2 as (? & ? & X); discriminate); try (destruct A2 as (? & ? & ? & X); discriminate).
        inversion A2; subst t3 v3 ty3. inversion EB as [|? ? ? LV| | | | | |]; subst.
        destruct (ttype_eqb (t_type t2) T_INT_CONST) eqn:TT; [|reflexivity]. apply ttype_eqb_eq in TT.
        inversion LV as [z T EV| | | |]; subst; try congruence. rewrite EV. cbn [rbind].
        destruct (Z.eqb_spec z 0) as [->|NZZ]; [exfalso; now apply (NZ t2 TInt)|reflexivity]. }
      unfold validate_binary, is_numeric, validate_bool_operand. cbv zeta. rewrite (proj1 A2). inversion OT as [oo t IN NB|oo IN|oo t IN NB|oo t IN|oo IN]; subst; cbn in IN.
      - pose proof (numeric_of _ NB) as NN. repeat (destruct IN as [<-|IN]); try contradiction; rewrite ?DZ by tauto; cbn [sbind]; rewrite ?NN; cbn [sbind]; eauto.
      - repeat (destruct IN as [<-|IN]); try contradiction; rewrite <- ?H3, <- ?H0; cbn [ty_eqb sbind]; eauto.
      - pose proof (numeric_of _ NB) as NN. repeat (destruct IN as [<-|IN]); try contradiction; rewrite NN; cbn [sbind]; eauto.
      - repeat (destruct IN as [<-|IN]); try contradiction; eauto.
      - repeat (destruct IN as [<-|IN]); try contradiction; rewrite <- ?H3, <- ?H0; cbn [ty_eqb sbind]; eauto. }
    destruct B as (s3 & B). rewrite B. cbn [sbind]. eexists. eexists. split; [reflexivity|]. split; cbn [x_ty]; [auto|]; rewrite ?A1; eauto.
Qed.
