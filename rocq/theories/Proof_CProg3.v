(** The text of a generated file reads back as the program. *)
From Coq Require Import List Arith NArith ZArith Bool Lia Ascii String.
From Verif Require Import Base Model_Token Model_Literal Model_Parse Model_Sem Spec_Sem Spec_Sem2 Proof_Sem8 Model_Names Model_CGen Model_CFile Spec_C Proof_C Proof_C2 Spec_CGen Proof_CGen
  Proof_CGen2 Spec_CProg Proof_CProg Spec_CBack Proof_CProg2.
Import ListNotations.
Open Scope list_scope.
Open Scope N_scope.

Lemma bind_some : forall A B (m : res A) (k : A -> res B) r, bind m k = Ok r -> exists x, m = Ok x /\ k x = Ok r.
Proof. intros A B [x|] k r H; [eauto|discriminate H]. Qed.

(** Branches follow an `if`: `open` says whether an `if` or `elif` was just closed. *)
Fixpoint chain (open : bool) (l : list tnode) : Prop :=
  match l with
  | [] => True
  | n :: r =>
      match tn_type n with
      | N_ELIF => open = true /\ chain true r
      | N_ELSE => open = true /\ chain false r
      | N_IF => chain true r
      | N_COMMENT => chain open r
      | _ => chain false r
      end
  end.

Section Back.
Variable env : cctx.
Variable c23 : bool.
Hypothesis symbols_fine : forall k y, nth_error (ce_syms env) (S k) = Some y -> writable_symbol c23 y.
Hypothesis first_main : forall y, nth_error (ce_syms env) 0 = Some y -> y_name y = [] /\ forall v, y_kind y <> KVar v.
Hypothesis labels_fine : forall k t, ce_linkage env k = Some t -> plain_chars t.
Hypothesis file_fine : plain_chars (ce_file env).

Definition okn (n : tnode) : Prop :=
  (forall y, checked_expr n = Some y -> good env y) /\
  (forall k ks x f, tn_pay n = XProto k ks -> is_fun env k x f -> N.to_nat (f_num f) = List.length ks /\ k <> 0%nat) /\
  (tn_type n = N_EXPR -> exists t k args ty, tn_pay n = XExpr (XCall t k args ty)) /\
  chain false (tn_child n).

(** * Types, names and parameters *)

Fixpoint ptrs (k : nat) (t : cty) : cty := match k with O => t | S k => ptrs k (TyPtr t) end.
Lemma ptrs_out : forall k t, TyPtr (ptrs k t) = ptrs (S k) t.
Proof. induction k as [|k IH]; intro t; [reflexivity|]. cbn [ptrs]. rewrite IH. reflexivity. Qed.
Lemma type_toks_shape : forall t, (c23 = false -> ~ has_bool t) -> exists n t0 k, type_toks t = KId n :: repeat (op "*") k /\ type_word c23 n t0 /\ c_type t = ptrs k t0.
Proof.
  induction t; intro B; cbn [type_toks c_type].
  - exists (u "bool"), TyBool, 0%nat. repeat split. unfold type_word, type_words. apply in_or_app. right. destruct c23; [left; reflexivity|]. exfalso. now apply B.
  - exists (u "int64_t"), TyInt64, 0%nat. repeat split. unfold type_word, type_words. apply in_or_app. left. cbn. tauto.
  - exists (u "double"), TyDouble, 0%nat. repeat split. unfold type_word, type_words. apply in_or_app. left. cbn. tauto.
  - exists (u "char32_t"), TyChar32, 0%nat. repeat split. unfold type_word, type_words. apply in_or_app. left. cbn. tauto.
  - exists (u "char"), TyChar, 1%nat. repeat split. unfold type_word, type_words. apply in_or_app. left. cbn. tauto.
  - exists (u "void"), TyVoid, 0%nat. repeat split. unfold type_word, type_words. apply in_or_app. left. cbn. tauto.
  - destruct (IHt B) as (n & t0 & k & E & W & C). exists n, t0, (S k). split; [|split; [exact W|rewrite C; apply ptrs_out]].
    rewrite E. cbn [app]. f_equal. rewrite <- repeat_cons. reflexivity.
Qed.
Lemma stars_repeat : forall k t r, hd_error r <> Some (op "*") -> stars_at t (repeat (op "*") k ++ r) (ptrs k t) r.
Proof.
  induction k as [|k IH]; intros t r H; [now constructor|]. cbn [repeat app]. constructor.
  cbn [ptrs]. now apply IH.
Qed.
Lemma type_read : forall t x r, (c23 = false -> ~ has_bool t) -> type_at c23 (type_toks t ++ KId x :: r) (c_type t) (KId x :: r).
Proof.
  intros t x r B. destruct (type_toks_shape t B) as (n & t0 & k & E & W & C). rewrite E, C. exists n, t0, (repeat (op "*") k ++ KId x :: r).
  split; [reflexivity|]. split; [exact W|]. apply stars_repeat. discriminate.
Qed.

Lemma var_spec : forall k x v, sym_var_c env k = Ok (x, v) -> is_var env k x v.
Proof.
  intros k x v H. unfold sym_var_c, deref in H. destruct (nth_error (ce_syms env) k) as [y|] eqn:E; [|discriminate H]. cbn [bind] in H.
  destruct (y_kind y) as [v0|f|a|a] eqn:K; try discriminate H. exists y. split; [exact E|]. assert (y_name y = x /\ v0 = v) as (<- & <-) by (split; congruence). auto.
Qed.
Lemma var_fine : forall k x v, is_var env k x v -> usable c23 x /\ (c23 = false -> ~ has_bool (v_type v)).
Proof.
  intros k x v (y & E & <- & K). destruct k as [|k]; [exfalso; exact (proj2 (first_main y E) v K)|].
  pose proof (symbols_fine k y E) as W. unfold writable_symbol in W. rewrite K in W. exact W.
Qed.
Lemma fun_fine : forall k x f, is_fun env k x f -> k <> 0%nat -> usable c23 x /\ (c23 = false -> ~ has_bool (f_ret f)).
Proof.
  intros k x v (y & E & <- & K) NZ. destruct k as [|k]; [now destruct NZ|].
  pose proof (symbols_fine k y E) as W. unfold writable_symbol in W. rewrite K in W. exact W.
Qed.
Lemma called_fine : forall t k args ty y, good env (XCall t k args ty) -> nth_error (ce_syms env) k = Some y -> k <> 0%nat.
Proof.
  intros t k args ty y G E ->. specialize (G _ (xp_self _)). cbn [good_part] in G. destruct G as (z & f & EZ & _ & NM & _).
  assert (z = y) as -> by congruence. rewrite (proj1 (first_main y E)) in NM. discriminate NM.
Qed.
Lemma usable_word : forall x, usable c23 x -> wordb x = true /\ c_name x = true /\ is_type_word c23 x = false.
Proof.
  intros x (C & B). split; [now apply name_wordb|]. split; [exact C|]. unfold is_type_word, type_words. rewrite existsb_app.
  apply orb_false_iff. split.
  - cbn [existsb fst]. rewrite !(c_name_not x) by (exact C || reflexivity). reflexivity.
  - destruct c23; [|reflexivity]. cbn [existsb fst]. rewrite orb_false_r. apply text_eqb_neq. intros ->. apply (B eq_refl). left. reflexivity.
Qed.
Lemma usable_no_type : forall x r, usable c23 x -> no_type c23 (KId x :: r).
Proof.
  intros x r U n r' E t W. injection E as <- <-. destruct (usable_word x U) as (_ & _ & T).
  assert (X : is_type_word c23 x = true) by (apply is_type_word_spec; eauto). congruence.
Qed.
Lemma name_piece : forall x, usable c23 x -> piece x [KId x].
Proof. intros x U. apply piece_word. now apply usable_word. Qed.
Lemma name_starts : forall x, usable c23 x -> starts x.
Proof. intros x U. apply wordb_flat. now apply usable_word. Qed.

(** `type name` *)
Lemma decl_piece : forall t x, usable c23 x -> piece (skull_type_to_c_type t ++ chr " " :: x) (type_toks t ++ [KId x]).
Proof. intros t x U. apply piece_sp; [apply piece_type|now apply name_piece]. Qed.

Lemma params_read : forall ks old out, params_c env (List.length ks) ks old = Ok out -> ks <> [] ->
  exists t toks ps, out = Some (match old with Some o => o ++ u ", " ++ t | None => t end) /\ piece t toks /\ ps <> [] /\ Forall2 (param_of env) ks ps /\
    forall r, params_at c23 (toks ++ op ")" :: r) ps r.
Proof.
  induction ks as [|k ks IH]; intros old out H NE; [contradiction|]. cbn [List.length params_c] in H. apply bind_some in H as (p & H1 & H).
  unfold gen_param_c in H1. apply bind_some in H1 as ((x, v) & H1 & EP). apply var_spec in H1. destruct (var_fine _ _ _ H1) as (U & B).
  assert (p = skull_type_to_c_type (v_type v) ++ chr " " :: x) as -> by (injection EP as <-; reflexivity).
  destruct ks as [|k' ks].
  - cbn [List.length params_c] in H. injection H as <-. exists (skull_type_to_c_type (v_type v) ++ chr " " :: x), (type_toks (v_type v) ++ [KId x]), [(c_type (v_type v), x)].
    split; [destruct old; reflexivity|]. split; [now apply decl_piece|]. split; [discriminate|]. split; [constructor; [exists x, v; auto|constructor]|].
    intro r. apply G_last_param; [|now apply usable_word]. rewrite <- app_assoc. cbn [app]. now apply type_read.
  - destruct (IH _ _ H) as (t & toks & ps & E & P & NP & F & R); [discriminate|].
    exists ((skull_type_to_c_type (v_type v) ++ chr " " :: x) ++ u ", " ++ t), ((type_toks (v_type v) ++ [KId x]) ++ op "," :: toks), ((c_type (v_type v), x) :: ps).
    split; [rewrite E; destruct old; [rewrite <- !app_assoc; reflexivity|reflexivity]|]. split; [apply piece_comma; [now apply decl_piece|exact P]|].
    split; [discriminate|]. split; [constructor; [exists x, v; auto|exact F]|].
    intro r. apply G_more_params with (toks ++ op ")" :: r); [|now apply usable_word|exact NP|apply R].
    rewrite <- !app_assoc. cbn [app]. now apply type_read.
Qed.

(** The parameter list of a function. *)
Lemma list_read : forall f ks out, N.to_nat (f_num f) = List.length ks -> params_c env (N.to_nat (f_num f)) ks None = Ok out ->
  exists toks ps, piece (match out with Some t => t | None => u "void" end) toks /\ Forall2 (param_of env) ks ps /\ forall r, params_at c23 (toks ++ op ")" :: r) ps r.
Proof.
  intros f ks out E H. rewrite E in H. destruct ks as [|k ks].
  - cbn [List.length params_c] in H. injection H as <-. exists [kw "void"], []. split; [apply piece_word; reflexivity|]. split; [constructor|]. intro r. apply G_void_params.
  - destruct (params_read _ _ _ H) as (t & toks & ps & -> & P & _ & F & R); [discriminate|]. exists toks, ps. auto.
Qed.

(** * Statements *)

Lemma semi_to : forall ts e r, reads 2 ts e -> expr_to ";" (ts ++ op ";" :: r) e r.
Proof. intros ts e r R. exists ts. split; [reflexivity|]. apply (reads_higher 2); [lia|lia|exact R]. Qed.
Lemma paren_to : forall ts e r, reads 2 ts e -> expr_to ")" (ts ++ op ")" :: r) e r.
Proof. intros ts e r R. exists ts. split; [reflexivity|]. apply (reads_higher 2); [lia|lia|exact R]. Qed.

(** A block that reads back. *)
Definition blk (top : bool) (l : list tnode) (ts : list ctok) (ds : list cdef) (b : list cstmt) : Prop :=
  stands env top l b ds /\ forall rest cs r, stmts_at c23 rest cs r -> stmts_at c23 (ts ++ rest) (b ++ cs) r.

(** What is known of a single statement with the tokens ts and the definitions ds in front. *)
Definition plain_own (top : bool) (n : tnode) (ts : list ctok) (ds : list cdef) : Prop := exists cs,
  (forall l cs' ds', stands env top l cs' ds' -> stands env top (n :: l) (cs ++ cs') (ds ++ ds')) /\
  (forall rest l r, stmts_at c23 rest l r -> stmts_at c23 (ts ++ rest) (cs ++ l) r).
Definition own (top : bool) (n : tnode) (ts : list ctok) (ds : list cdef) : Prop :=
  match tn_type n with
  | N_IF => exists ce b,
      (forall l o ds2 r cs ds3, others env l o ds2 r -> stands env top r cs ds3 -> stands env top (n :: l) (CIf ce b o :: cs) (ds ++ ds2 ++ ds3)) /\
      (forall r2 o r, else_at c23 r2 o r -> stmt_at c23 (ts ++ r2) (CIf ce b o) r)
  | N_ELIF => exists ce b,
      (forall l o ds2 r, others env l o ds2 r -> others env (n :: l) (Some (CIf ce b o)) (ds ++ ds2) r) /\
      (forall r2 o r, else_at c23 r2 o r -> else_at c23 (ts ++ r2) (Some (CIf ce b o)) r)
  | N_ELSE => exists b, (forall l, others env (n :: l) (Some (CBlock b)) ds l) /\ (forall r, else_at c23 (ts ++ r) (Some (CBlock b)) r)
  | N_COMMENT => ts = [] /\ ds = [] /\ plain_own top n ts ds
  | _ => plain_own top n ts ds
  end.
Inductive owns (top : bool) : list tnode -> list ctok -> list cdef -> Prop :=
| on_nil : owns top [] [] []
| on_cons : forall n l t1 t2 d1 d2, own top n t1 d1 -> owns top l t2 d2 -> owns top (n :: l) (t1 ++ t2) (d1 ++ d2).

Lemma owns_blk : forall top l ts ds, owns top l ts ds ->
  (chain false l -> exists b, blk top l ts ds b) /\
  (chain true l -> exists o r ds2 ds3 cs, others env l o ds2 r /\ ds = ds2 ++ ds3 /\ stands env top r cs ds3 /\
     forall rest cs' r', stmts_at c23 rest cs' r' -> exists mid, else_at c23 (ts ++ rest) o mid /\ stmts_at c23 mid (cs ++ cs') r').
Proof.
  intros top l ts ds O. induction O as [|n l t1 t2 d1 d2 O1 O2 (IHA & IHB)].
  - split.
    + intros _. exists []. split; [constructor|]. auto.
    + intros _. exists None, [], [], [], []. split; [apply ot_none; discriminate|]. split; [reflexivity|]. split; [constructor|].
      intros rest cs' r' S. exists rest. split; [|exact S]. apply G_no_else. intro E. apply (else_head c23) in E. exact (stmts_head c23 _ _ _ S E).
  - assert (PLAIN : plain_own top n t1 d1 -> chain false l -> exists b, blk top (n :: l) (t1 ++ t2) (d1 ++ d2) b).
    { intros (cs & S & T) C. destruct (IHA C) as (b & SB & TB). exists (cs ++ b). split; [now apply S|]. intros rest cs' r SR. rewrite <- !app_assoc. apply T. now apply TB. }
    assert (NONE : (tn_type n <> N_ELIF /\ tn_type n <> N_ELSE) -> (exists b, blk top (n :: l) (t1 ++ t2) (d1 ++ d2) b) ->
      exists o r ds2 ds3 cs, others env (n :: l) o ds2 r /\ d1 ++ d2 = ds2 ++ ds3 /\ stands env top r cs ds3 /\
        forall rest cs' r', stmts_at c23 rest cs' r' -> exists mid, else_at c23 ((t1 ++ t2) ++ rest) o mid /\ stmts_at c23 mid (cs ++ cs') r').
    { intros NT (b & SB & TB). exists None, (n :: l), [], (d1 ++ d2), b. split; [apply ot_none; intros n0 r0 E0; injection E0 as <- <-; exact NT|].
      split; [reflexivity|]. split; [exact SB|]. intros rest cs' r' SR. eexists. split; [|apply TB; exact SR]. apply G_no_else. intro E. apply (else_head c23) in E.
      exact (stmts_head c23 _ _ _ (TB _ _ _ SR) E). }
    unfold own in O1. cbn [chain].
    assert (IFB : tn_type n = N_IF -> chain true l -> exists b, blk top (n :: l) (t1 ++ t2) (d1 ++ d2) b).
    { intros T C. rewrite T in O1. destruct O1 as (ce & b & S & P). destruct (IHB C) as (o & r & ds2 & ds3 & cs & OT & -> & SR & M).
      exists (CIf ce b o :: cs). split; [now apply S with r|]. intros rest cs' r' SR'. destruct (M _ _ _ SR') as (mid & EM & SM). rewrite <- app_assoc. cbn [app].
      eapply G_cons; [apply P; exact EM|exact SM]. }
    destruct (tn_type n) eqn:T; try (split; [now apply PLAIN|intro C; apply NONE; [split; discriminate|now apply PLAIN]]).
    + split; [now apply IFB|]. intro C. apply NONE; [split; discriminate|now apply IFB].
    + split; [intros (X & _); discriminate X|]. intros (_ & C). destruct O1 as (ce & b & S & P). destruct (IHB C) as (o & r & ds2 & ds3 & cs & OT & -> & SR & M).
      exists (Some (CIf ce b o)), r, (d1 ++ ds2), ds3, cs. split; [now apply S|]. split; [now rewrite app_assoc|]. split; [exact SR|].
      intros rest cs' r' SR'. destruct (M _ _ _ SR') as (mid & EM & SM). exists mid. split; [|exact SM]. rewrite <- app_assoc. now apply P.
    + split; [intros (X & _); discriminate X|]. intros (_ & C). destruct O1 as (b & S & P). destruct (IHA C) as (cs & SB & TB).
      exists (Some (CBlock b)), l, d1, d2, cs. split; [apply S|]. split; [reflexivity|]. split; [exact SB|].
      intros rest cs' r' SR'. exists (t2 ++ rest). split; [rewrite <- app_assoc; apply P|now apply TB].
    + destruct O1 as (-> & -> & PO). split; [now apply PLAIN|]. intro C. destruct (IHB C) as (o & r & ds2 & ds3 & cs & OT & -> & SR & M).
      exists o, r, ds2, ds3, cs. split; [now apply ot_comment|]. auto.
Qed.

Lemma ok_inj : forall (A : Type) (a b : A), Ok a = Ok b -> a = b.
Proof. intros A a b H. congruence. Qed.

(** * What is put in front *)

Definition glob (g : cst) (ds : list cdef) : Prop := exists ts, lns (old_globals g) ts /\ forall rest ds', unit_at c23 rest ds' -> unit_at c23 (ts ++ rest) (ds ++ ds').
Definition reads_as (ts : list ctok) (ds : list cdef) : Prop := forall rest ds', unit_at c23 rest ds' -> unit_at c23 (ts ++ rest) (ds ++ ds').
Lemma reads_app : forall a x b y, reads_as a x -> reads_as b y -> reads_as (a ++ b) (x ++ y).
Proof. intros a x b y A B rest ds' U. rewrite <- !app_assoc. apply A. now apply B. Qed.
Lemma reads_def : forall ts d, (forall r, def_at c23 (ts ++ r) d r) -> reads_as ts [d].
Proof. intros ts d H rest ds' U. cbn [app]. eapply G_def; [apply H|exact U]. Qed.

Lemma glob_add : forall g ds line ts d, glob g ds -> lns line ts -> reads_as ts d -> glob (set_globals g (old_globals g ++ [10] ++ line)) (ds ++ d).
Proof.
  intros g ds line ts d (ts0 & L0 & R0) L R. exists (ts0 ++ ts). split; [unfold old_globals; cbn [k_globals set_globals]; now apply lns_app|]. now apply reads_app.
Qed.
Lemma lns_nil_inv : forall ts, lns [] ts -> ts = [].
Proof. intros ts H. specialize (H []). cbn in H. rewrite app_nil_r in H. congruence. Qed.
Lemma glob_first : forall g ds line ts d, glob g ds -> lns line ts -> reads_as ts d ->
  glob (set_globals g (match k_globals g with Some old => old ++ [10] ++ line | None => line end)) (ds ++ d).
Proof.
  intros g ds line ts d G L R. destruct (k_globals g) as [old|] eqn:E.
  - pose proof (glob_add g ds line ts d G L R) as X. unfold old_globals in X. rewrite E in X. exact X.
  - destruct G as (ts0 & L0 & R0). unfold old_globals in L0. rewrite E in L0. apply lns_nil_inv in L0. subst ts0. exists ts.
    split; [exact L|]. exact (reads_app [] ds ts d R0 R).
Qed.
Lemma glob_same : forall g g' ds, k_globals g' = k_globals g -> glob g ds -> glob g' ds.
Proof. intros g g' ds E (ts & L & R). exists ts. unfold old_globals. rewrite E. auto. Qed.

Lemma note_keeps : forall x g, k_globals (note_expr env x g) = k_globals g /\ k_indent (note_expr env x g) = k_indent g.
Proof.
  assert (NB : forall o l t g, k_globals (note_binary o l t g) = k_globals g /\ k_indent (note_binary o l t g) = k_indent g).
  { intros o l t g. destruct o; cbn [note_binary]; try (destruct (ty_eqb l TStr)); try (destruct (ty_eqb t TInt)); try (destruct (ty_eqb t TFloat)); auto. }
  intro x. induction x as [t k ty c|t v ty|t k args ty F|o r ty c IH|o l r ty c IHl IHr] using texpr_ind'; intro g; cbn [note_expr]; auto.
  - destruct (nth_error (ce_syms env) k) as [[a b [v|f|z|z]]|]; auto. generalize (N.to_nat (f_num f)). intro m. revert m g.
    induction F as [|a0 args H F IH]; intros m g; [destruct m; auto|]. destruct m as [|m]; [auto|].
    destruct (IH m (note_expr env a0 g)) as (I1 & I2). destruct (H g) as (H1 & H2). split; [rewrite I1; exact H1|rewrite I2; exact H2].
  - destruct (IHr (note_expr env l (note_binary o (x_ty l) ty g))) as (-> & ->). destruct (IHl (note_binary o (x_ty l) ty g)) as (-> & ->). apply NB.
Qed.

(** Expressions in statements. *)
Lemma expr_back : forall n e g t g', okn n -> checked_expr n = Some e -> expr_c env e g = Ok (t, g') ->
  exists ts ce, piece t ts /\ reads 2 ts ce /\ same env e ce /\ gen_expr_c env e = Ok t /\ k_globals g' = k_globals g /\ k_indent g' = k_indent g.
Proof.
  intros n e g t g' (G & _) C H. unfold expr_c in H. apply bind_some in H as (t0 & H1 & H). assert (t0 = t /\ note_expr env e g = g') as (-> & <-) by (split; congruence).
  destruct (expr_piece env e t (G e C) H1) as (ts & ce & P & R & S). exists ts, ce. destruct (note_keeps e g) as (K1 & K2). auto 10.
Qed.

Lemma stand_app : forall (a : cdef) ds, a :: ds = [a] ++ ds.
Proof. reflexivity. Qed.

Lemma asm_piece : forall l, plain_chars l -> piece (u "__asm__(" ++ quote ++ l ++ quote ++ u ")") (kw "__asm__" :: op "(" :: [KStr l] ++ [op ")"]).
Proof.
  intros l P. replace (u "__asm__(" ++ quote ++ l ++ quote ++ u ")") with (u "__asm__" ++ u "(" ++ (quote ++ l ++ quote) ++ u ")") by (rewrite <- !app_assoc; reflexivity).
  apply piece_call; [reflexivity|now apply piece_string].
Qed.

Ltac retext := repeat (rewrite <- app_assoc || rewrite <- app_comm_cons); reflexivity.
Ltac word_piece := apply piece_word; reflexivity.

(** Definitions at the top *)
Lemma var_read : forall (st q : bool) t x l lt i it r, (c23 = false -> ~ has_bool t) -> c_name x = true ->
  label_at (lt ++ it ++ r) l (it ++ r) -> init_at (it ++ r) i r ->
  def_at c23 ((if st then [kw "static"] else []) ++ (if q then [kw "const"] else []) ++ type_toks t ++ KId x :: lt ++ it ++ r)
    (FVar st q (c_type t) x l i) r.
Proof.
  intros st q t x l lt i it r B C L I. eapply G_var; [reflexivity|reflexivity|apply type_read; exact B|exact C|exact L|exact I].
Qed.
Ltac var_text st q t x lt it := match goal with |- def_at _ (?a ++ ?r) (FVar _ _ _ _ ?l ?i) _ =>
  replace (a ++ r) with ((if st : bool then [kw "static"] else []) ++ (if q : bool then [kw "const"] else []) ++ type_toks t ++ KId x :: lt ++ it ++ r) by retext;
  refine (var_read st q t x l lt i it r _ _ _ _) end.
Lemma constant_back : forall n k e x v g g', okn n -> tn_type n = N_VAR_DEF -> tn_pay n = XDef k e -> is_var env k x v -> v_cexpr v = Some true ->
  gen_stmt_constexpt_global_var env k x v e g = Ok g' ->
  exists ds, plain_own true n [] ds /\ (forall ds0, glob g ds0 -> glob g' (ds0 ++ ds)) /\ k_indent g' = k_indent g.
Proof.
  intros n k e x v g g' OK T P V C H. unfold gen_stmt_constexpt_global_var in H. apply bind_some in H as ((value, g1) & H1 & H).
  destruct (expr_back n e g value g1 OK) as (ts & ce & PC & R & S & _ & K1 & K2); [unfold checked_expr; now rewrite P|exact H1|].
  destruct (var_fine _ _ _ V) as (U & B). destruct (usable_word x U) as (_ & CN & _).
  assert (OWN : forall label, labelled env k (v_exported v) label ->
    plain_own true n [] [FVar (negb (v_exported v)) (v_const v) (c_type (v_type v)) x label (Some ce)]).
  { intros label L. exists []. split.
    - intros l cs ds SD. cbn [app]. now apply (sd_constant env n l k e x v label ce cs ds).
    - auto. }
  destruct (v_exported v) eqn:EX.
  - destruct (v_const v) eqn:CV; [|discriminate H]. apply bind_some in H as (l & HL & H). unfold linkage in HL. destruct (ce_linkage env k) as [l0|] eqn:EL; [|discriminate HL].
    assert (l0 = l) as -> by congruence. exists [FVar false true (c_type (v_type v)) x (Some l) (Some ce)]. split; [apply OWN; split; [now rewrite EL|discriminate]|].
    split; [|assert (set_globals g1 (old_globals g1 ++ [10] ++ u "const " ++ skull_type_to_c_type (v_type v) ++ u " " ++ x ++ u " __asm__(" ++ quote ++ l ++ quote ++ u ") = " ++ value ++ u ";") = g') as <- by congruence; exact K2].
    intros ds0 G. apply (glob_same g g1) in G; [|exact K1].
    set (line := (u "const" ++ chr " " :: ((skull_type_to_c_type (v_type v) ++ chr " " :: x) ++ chr " " :: (u "__asm__(" ++ quote ++ l ++ quote ++ u ")")) ++ chr " " :: (u "=" ++ chr " " :: value)) ++ u ";").
    assert (g' = set_globals g1 (old_globals g1 ++ [10] ++ line)) as ->.
    { unfold line. assert (EQ : set_globals g1 (old_globals g1 ++ [10] ++ u "const " ++ skull_type_to_c_type (v_type v) ++ u " " ++ x ++ u " __asm__(" ++ quote ++ l ++ quote ++ u ") = " ++ value ++ u ";") = g') by congruence.
      rewrite <- EQ. f_equal. f_equal. retext. }
    refine (glob_add g1 ds0 line _ _ G (lns_piece _ _ _ _) (reads_def _ _ _)).
    + apply piece_semi. apply (piece_sp _ [kw "const"]); [word_piece|]. apply piece_sp; [|apply piece_sp; [apply piece_equal|exact PC]].
      apply piece_sp; [now apply decl_piece|apply asm_piece; exact (labels_fine _ _ EL)].
    + discriminate.
    + intro r. var_text false true (v_type v) x [kw "__asm__"; op "("; KStr l; op ")"] (op "=" :: ts ++ [op ";"]); [exact B|exact CN|apply G_label|].
      cbn [app]. rewrite <- app_assoc. apply G_init. now apply semi_to.
  - assert (EQ : set_globals g1 (old_globals g1 ++ [10] ++ (if v_const v then u "static const " else u "static ") ++ skull_type_to_c_type (v_type v) ++ u " " ++ x ++ u " = " ++ value ++ u ";") = g').
    { clear - H. exact (ok_inj _ _ _ H). }
    exists [FVar true (v_const v) (c_type (v_type v)) x None (Some ce)]. split; [apply OWN; reflexivity|]. split; [|rewrite <- EQ; exact K2].
    intros ds0 G. apply (glob_same g g1) in G; [|exact K1].
    set (front := if v_const v then u "static" ++ chr " " :: u "const" else u "static").
    set (line := (front ++ chr " " :: ((skull_type_to_c_type (v_type v) ++ chr " " :: x) ++ chr " " :: (u "=" ++ chr " " :: value))) ++ u ";").
    assert (g' = set_globals g1 (old_globals g1 ++ [10] ++ line)) as ->.
    { rewrite <- EQ. f_equal. f_equal. unfold line, front. destruct (v_const v); retext. }
    refine (glob_add g1 ds0 line _ _ G (lns_piece _ _ _ _) (reads_def _ _ _)).
    + apply piece_semi. apply (piece_sp _ (kw "static" :: if v_const v then [kw "const"] else [])).
      * unfold front. destruct (v_const v); [apply (piece_sp _ [kw "static"]); word_piece|word_piece].
      * apply piece_sp; [now apply decl_piece|apply piece_sp; [apply piece_equal|exact PC]].
    + unfold line, front. destruct (v_const v); discriminate.
    + intro r. var_text true (v_const v) (v_type v) x (@nil ctok) (op "=" :: ts ++ [op ";"]); [exact B|exact CN|apply G_no_label; discriminate|].
      cbn [app]. rewrite <- app_assoc. apply G_init. now apply semi_to.
Qed.

Lemma assign_back : forall x e n g t g', okn n -> checked_expr n = Some e -> usable c23 x -> gen_stmt_var_assign_c_ env x e g = Ok (t, g') ->
  exists ts ce, lns t (KId x :: op "=" :: ts ++ [op ";"]) /\ starts t /\ reads 2 ts ce /\ same env e ce /\ k_globals g' = k_globals g /\ k_indent g' = k_indent g.
Proof.
  intros x e n g t g' OK C U H. unfold gen_stmt_var_assign_c_ in H. apply bind_some in H as ((value, g1) & H1 & H).
  destruct (expr_back n e g value g1 OK C H1) as (ts & ce & PC & R & S & _ & K1 & K2).
  assert (x ++ u " = " ++ value ++ u ";" = t /\ g1 = g') as (<- & <-) by (split; congruence).
  exists ts, ce. split; [|split; [now apply starts_app, name_starts|auto]].
  replace (x ++ u " = " ++ value ++ u ";") with ((x ++ chr " " :: (u "=" ++ chr " " :: value)) ++ u ";") by retext.
  apply lns_piece; [|apply starts_app, starts_app; now apply name_starts].
  apply (piece_semi _ (KId x :: op "=" :: ts)). apply (piece_sp _ [KId x]); [now apply name_piece|]. apply (piece_sp _ [op "="]); [apply piece_equal|exact PC].
Qed.
Lemma assign_read : forall x ts ce rest l r, usable c23 x -> reads 2 ts ce -> stmts_at c23 rest l r ->
  stmts_at c23 ((KId x :: op "=" :: ts ++ [op ";"]) ++ rest) (CAssign x ce :: l) r.
Proof.
  intros x ts ce rest l r U R S. cbn [app]. rewrite <- app_assoc. cbn [app]. eapply G_cons; [|exact S]. apply G_assign; [now apply usable_word|now apply usable_no_type|].
  now apply semi_to.
Qed.

(** What a statement does to the text and to the state. *)
Definition does (top : bool) (n : tnode) (g g' : cst) (str : option text) : Prop := exists ts ds, own top n ts ds /\
  match str with None => ts = [] | Some t => lns t ts /\ starts t end /\ (forall ds0, glob g ds0 -> glob g' (ds0 ++ ds)) /\ k_indent g' = k_indent g.

Lemma plain_does : forall top n g g' t ts cs, (forall d, plain_own top n ts d -> own top n ts d) ->
  (forall l cs' ds', stands env top l cs' ds' -> stands env top (n :: l) (cs ++ cs') ds') ->
  (forall rest l r, stmts_at c23 rest l r -> stmts_at c23 (ts ++ rest) (cs ++ l) r) ->
  lns t ts -> starts t -> k_globals g' = k_globals g -> k_indent g' = k_indent g -> does top n g g' (Some t).
Proof.
  intros top n g g' t ts cs O S R L ST K1 K2. exists ts, []. split; [apply O; exists cs; auto|]. split; [auto|]. split; [|exact K2].
  intros ds0 G. rewrite app_nil_r. exact (glob_same g g' ds0 K1 G).
Qed.

Lemma def_back : forall n k e g str g', okn n -> tn_type n = N_VAR_DEF -> tn_pay n = XDef k e -> gen_stmt_var_def_c env k e g = Ok (str, g') ->
  does (k_indent g =? 1) n g g' str.
Proof.
  intros n k e g str g' OK T P H. unfold gen_stmt_var_def_c in H. apply bind_some in H as ((x, v) & V & H). apply var_spec in V.
  destruct (var_fine _ _ _ V) as (U & B). destruct (usable_word x U) as (_ & CN & _).
  assert (CE : checked_expr n = Some e) by (unfold checked_expr; now rewrite P).
  assert (TOP : forall top ts d, plain_own top n ts d -> own top n ts d) by (intros top ts d Q; unfold own; rewrite T; exact Q).
  destruct (k_indent g =? 1) eqn:I.
  - unfold gen_stmt_global_var in H. destruct (v_cexpr v) as [[|]|] eqn:C; [| |discriminate H].
    + apply bind_some in H as (g1 & H1 & H). assert (str = None /\ g1 = g') as (-> & <-) by (split; congruence).
      destruct (constant_back n k e x v g g1 OK T P V C H1) as (ds & O & G & K). exists [], ds. split; [now apply TOP|]. auto.
    + apply bind_some in H as (g1 & H1 & H). apply bind_some in H as ((t, g2) & H2 & H). assert (str = Some t /\ g2 = g') as (-> & <-) by (split; congruence).
      destruct (assign_back x e n g1 t g2 OK CE U H2) as (ts & ce & L & ST & R & S & K1 & K2).
      assert (OWN : forall label, labelled env k (v_exported v) label ->
        plain_own true n (KId x :: op "=" :: ts ++ [op ";"]) [FVar (negb (v_exported v)) false (c_type (v_type v)) x label None]).
      { intros label LB. exists [CAssign x ce]. split.
        - intros l cs ds SD. cbn [app]. now apply (sd_outside env n l k e x v label ce cs ds).
        - intros rest l r SR. now apply assign_read. }
      destruct (v_exported v) eqn:EX.
      * apply bind_some in H1 as (l & HL & H1). unfold linkage in HL. destruct (ce_linkage env k) as [l0|] eqn:EL; [|discriminate HL]. assert (l0 = l) as -> by congruence.
        set (line := ((skull_type_to_c_type (v_type v) ++ chr " " :: x) ++ chr " " :: (u "__asm__(" ++ quote ++ l ++ quote ++ u ")")) ++ u ";").
        assert (g1 = set_globals g (old_globals g ++ [10] ++ line)) as ->.
        { assert (EQ : set_globals g (old_globals g ++ [10] ++ skull_type_to_c_type (v_type v) ++ u " " ++ x ++ u " __asm__(" ++ quote ++ l ++ quote ++ u ");") = g1) by congruence.
          rewrite <- EQ. f_equal. f_equal. unfold line. retext. }
        eexists _, _. split; [apply TOP, (OWN (Some l)); split; [now rewrite EL|discriminate]|]. split; [auto|]. split; [|exact K2].
        intros ds0 G. apply (glob_same _ g2 _ K1).
        refine (glob_add g ds0 line _ _ G (lns_piece _ _ _ _) (reads_def _ _ _)).
        -- apply piece_semi. apply piece_sp; [now apply decl_piece|apply asm_piece; exact (labels_fine _ _ EL)].
        -- unfold line. apply starts_app, starts_app, starts_app. apply type_flat.
        -- intro r. var_text false false (v_type v) x [kw "__asm__"; op "("; KStr l; op ")"] [op ";"]; [exact B|exact CN|apply G_label|apply G_no_init].
      * set (line := (u "static" ++ chr " " :: (skull_type_to_c_type (v_type v) ++ chr " " :: x)) ++ u ";").
        assert (g1 = set_globals g (old_globals g ++ [10] ++ line)) as ->.
        { assert (EQ : set_globals g (old_globals g ++ [10] ++ u "static " ++ skull_type_to_c_type (v_type v) ++ u " " ++ x ++ u ";") = g1) by congruence.
          rewrite <- EQ. f_equal. f_equal. unfold line. retext. }
        eexists _, _. split; [apply TOP, (OWN None); reflexivity|]. split; [auto|]. split; [|exact K2].
        intros ds0 G. apply (glob_same _ g2 _ K1).
        refine (glob_add g ds0 line _ _ G (lns_piece _ _ _ _) (reads_def _ _ _)).
        -- apply piece_semi. apply (piece_sp _ [kw "static"]); [word_piece|now apply decl_piece].
        -- discriminate.
        -- intro r. var_text true false (v_type v) x (@nil ctok) [op ";"]; [exact B|exact CN|apply G_no_label; discriminate|apply G_no_init].
  - apply bind_some in H as ((t, g1) & H1 & H). assert (str = Some t /\ g1 = g') as (-> & <-) by (split; congruence). clear H.
    unfold gen_stmt_stack_var in H1. apply bind_some in H1 as ((value, g2) & H1 & H). destruct (expr_back n e g value g2 OK CE H1) as (ts & ce & PC & R & S & _ & K1 & K2).
    set (line := ((skull_type_to_c_type (v_type v) ++ chr " " :: x) ++ chr " " :: (u "=" ++ chr " " :: value)) ++ u ";").
    assert ((if v_const v then u "const" ++ chr " " :: line else line) = t /\ g2 = g1) as (<- & <-).
    { unfold line. split; [|congruence]. assert (EQ : (if v_const v then u "const " else []) ++ skull_type_to_c_type (v_type v) ++ u " " ++ x ++ u " = " ++ value ++ u ";" = t) by congruence.
      rewrite <- EQ. destruct (v_const v); retext. }
    assert (PL : piece line (((type_toks (v_type v) ++ [KId x]) ++ [op "="] ++ ts) ++ [op ";"])).
    { apply piece_semi. apply piece_sp; [now apply decl_piece|]. apply piece_sp; [apply piece_equal|exact PC]. }
    apply plain_does with (ts := (if v_const v then [kw "const"] else []) ++ ((type_toks (v_type v) ++ [KId x]) ++ [op "="] ++ ts) ++ [op ";"]) (cs := [CDecl (v_const v) (c_type (v_type v)) x ce]); auto.
    + intros l cs ds SD. cbn [app]. now apply (sd_local env n l k e x v ce cs ds).
    + intros rest l r SR. cbn [app]. rewrite <- !app_assoc. cbn [app]. eapply G_cons; [|exact SR]. apply G_decl with (ts' := ts ++ op ";" :: rest); [now apply type_read|exact CN|].
      now apply semi_to.
    + destruct (v_const v).
      * apply lns_piece; [apply (piece_sp _ [kw "const"]); [word_piece|exact PL]|discriminate].
      * apply lns_piece; [exact PL|]. unfold line. apply starts_app, starts_app, starts_app. apply type_flat.
    + destruct (v_const v); [discriminate|]. unfold line. apply starts_app, starts_app, starts_app. apply type_flat.
Qed.

(** * Blocks *)

Lemma debug_back : forall tok t t' ts, apply_debug_info env tok t = Ok t' -> lns t ts -> lns t' ts.
Proof.
  intros tok t t' ts H L. unfold apply_debug_info in H. destruct (ce_debug env); [|now apply ok_inj in H; subst t'].
  destruct tok as [|k tok]; [discriminate H|]. apply ok_inj in H. subst t'.
  pose proof (lns_directive (u "line " ++ fmt_li (Z.of_N (l_line (t_loc k))) ++ u " " ++ quote ++ ce_file env ++ quote) t ts) as X.
  replace (u "#line " ++ fmt_li (Z.of_N (l_line (t_loc k))) ++ u " " ++ quote ++ ce_file env ++ quote ++ [10] ++ t)
    with (chr "#" :: (u "line " ++ fmt_li (Z.of_N (l_line (t_loc k))) ++ u " " ++ quote ++ ce_file env ++ quote) ++ [10] ++ t) by retext.
  apply X; [|exact L]. rewrite !flat_app, (plain_flat _ file_fine). unfold fmt_li.
  destruct (Z.of_N (l_line (t_loc k)) <? 0)%Z eqn:Z0; [apply Z.ltb_lt in Z0; lia|]. rewrite dec_flat. reflexivity.
Qed.

(** What is known behind a statement and behind a block. *)
Definition text_is (str : option text) (ts : list ctok) : Prop := match str with None => ts = [] | Some t => lns t ts end.
Definition done (top : bool) (n : tnode) (g g' : cst) (str : option text) : Prop := exists ts ds, own top n ts ds /\
  text_is str ts /\ (forall ds0, glob g ds0 -> glob g' (ds0 ++ ds)) /\ k_indent g' = k_indent g.
Definition all_done (top : bool) (l : list tnode) (g g' : cst) (str : option text) : Prop := exists ts ds, owns top l ts ds /\
  text_is str ts /\ (forall ds0, glob g ds0 -> glob g' (ds0 ++ ds)) /\ k_indent g' = k_indent g.

Lemma does_done : forall top n g g' str tok t', does top n g g' str ->
  match str with None => t' = None | Some t => exists x, apply_debug_info env tok (get_indentation g' ++ t) = Ok x /\ t' = Some x end ->
  done top n g g' t'.
Proof.
  intros top n g g' str tok t' (ts & ds & O & T & G & K) H. exists ts, ds. split; [exact O|]. split; [|auto]. destruct str as [t|]; [|subst t'; exact T].
  destruct H as (x & H & ->). destruct T as (L & S). cbn [text_is]. refine (debug_back _ _ _ _ H _). unfold get_indentation. now apply lns_tabs.
Qed.

Definition gen_fine (l : list tnode) : Prop := forall n, In n l -> forall g str g', 1 <= k_indent g -> gen_node_c env n g = Ok (str, g') ->
  done (k_indent g =? 1) n g g' str.

Lemma loop_back : forall l, gen_fine l -> forall acc g t g' ats, 1 <= k_indent g -> tree_loop_c (gen_node_c env) l acc g = Ok (t, g') -> text_is acc ats ->
  exists ts ds, owns (k_indent g =? 1) l ts ds /\ text_is t (ats ++ ts) /\ (forall ds0, glob g ds0 -> glob g' (ds0 ++ ds)) /\ k_indent g' = k_indent g.
Proof.
  induction l as [|n l IH]; intros F acc g t g' ats I H T.
  - assert (acc = t /\ g = g') as (<- & <-) by (cbn [tree_loop_c] in H; split; congruence). exists [], []. split; [constructor|]. rewrite app_nil_r.
    split; [exact T|]. split; [|reflexivity]. intros ds0 G. now rewrite app_nil_r.
  - cbn [tree_loop_c] in H. apply bind_some in H as ((t1, g1) & H1 & H).
    destruct (F n (or_introl eq_refl) g t1 g1 I H1) as (ts1 & ds1 & O1 & T1 & G1 & K1).
    assert (T2 : text_is (match t1, acc with Some t1, Some old => Some (old ++ [10] ++ t1) | Some t1, None => Some t1 | None, _ => acc end) (ats ++ ts1)).
    { destruct t1 as [t1|]; cbn [text_is] in T1.
      - destruct acc as [a|]; cbn [text_is] in T |- *; [now apply lns_app|]. subst ats. exact T1.
      - subst ts1. now rewrite app_nil_r. }
    assert (I1 : 1 <= k_indent g1) by now rewrite K1.
    destruct (IH (fun m M => F m (or_intror M)) _ g1 t g' (ats ++ ts1) I1 H T2) as (ts2 & ds2 & O2 & T3 & G2 & K2).
    exists (ts1 ++ ts2), (ds1 ++ ds2). rewrite K1 in O2. split; [now constructor|]. split; [now rewrite app_assoc|]. split; [|congruence].
    intros ds0 G. rewrite app_assoc. now apply G2, G1.
Qed.

Lemma tree_back : forall l g t g', gen_fine l -> gen_tree_with (gen_node_c env) l g = Ok (t, g') -> all_done (k_indent g =? 0) l g g' t.
Proof.
  intros l g t g' F H. unfold gen_tree_with in H. apply bind_some in H as ((t1, g1) & H1 & H).
  assert (t1 = t /\ set_indent g1 (k_indent g1 - 1) = g') as (-> & <-) by (split; congruence).
  assert (I : 1 <= k_indent (set_indent g (k_indent g + 1))) by (cbn [k_indent set_indent]; lia).
  destruct (loop_back l F None _ t g1 [] I H1 eq_refl) as (ts & ds & O & T & G & K). cbn [k_indent set_indent] in O, K.
  exists ts, ds. split; [replace (k_indent g =? 0) with (k_indent g + 1 =? 1); [exact O|]|].
  - destruct (k_indent g =? 0) eqn:E; [apply N.eqb_eq in E; rewrite E; reflexivity|]. apply N.eqb_neq in E. apply N.eqb_neq. lia.
  - split; [exact T|]. split; [|cbn [k_indent set_indent]; lia]. intros ds0 G0. apply (glob_same g1); [reflexivity|]. apply G. exact (glob_same g _ _ eq_refl G0).
Qed.

(** A block that is not empty: the braces and what is between them. *)
Lemma block_back : forall n g t g', okn n -> gen_fine (tn_child n) -> gen_tree_with (gen_node_c env) (tn_child n) g = Ok (Some t, g') ->
  exists ts ds b, blk (k_indent g =? 0) (tn_child n) ts ds b /\ lns t ts /\ (forall ds0, glob g ds0 -> glob g' (ds0 ++ ds)) /\ k_indent g' = k_indent g.
Proof.
  intros n g t g' (_ & _ & _ & C) F H. destruct (tree_back _ _ _ _ F H) as (ts & ds & O & T & G & K).
  destruct (owns_blk _ _ _ _ O) as (B & _). destruct (B C) as (b & BK). exists ts, ds, b. auto.
Qed.

Lemma block_text : forall head hts t ts k, piece head hts -> starts head -> lns t ts ->
  lns (head ++ [10] ++ t ++ [10] ++ repeat 9 k ++ u "}") (hts ++ ts ++ [op "}"]).
Proof.
  intros head hts t ts k P S L. apply lns_app; [now apply lns_piece|]. apply lns_app; [exact L|]. apply lns_tabs; [discriminate|].
  apply lns_piece; [exact piece_close|discriminate].
Qed.
Lemma braces_read : forall top l ts ds b r, blk top l ts ds b -> block_at c23 (op "{" :: ts ++ op "}" :: r) b r.
Proof. intros top l ts ds b r (_ & B). constructor. rewrite <- (app_nil_r b). apply B. constructor. Qed.

(** `word (expression) { ... }` *)
Lemma control_back : forall word wts n g t g', okn n -> gen_fine (tn_child n) -> 1 <= k_indent g -> piece word wts -> starts word ->
  gen_control_block_c env word (tn_pay n) (gen_tree_with (gen_node_c env) (tn_child n)) g = Ok (t, g') ->
  exists e ce ets ts ds b, tn_pay n = XExpr e /\ same env e ce /\ reads 2 ets ce /\ blk false (tn_child n) ts ds b /\
    lns t (wts ++ op "(" :: ets ++ op ")" :: op "{" :: ts ++ [op "}"]) /\ starts t /\
    (forall ds0, glob g ds0 -> glob g' (ds0 ++ ds)) /\ k_indent g' = k_indent g.
Proof.
  intros word wts n g t g' OK F I PW SW H. unfold gen_control_block_c in H. apply bind_some in H as (e & E & H).
  assert (tn_pay n = XExpr e) as P by (destruct (tn_pay n); try discriminate E; cbn [node_expr] in E; congruence).
  apply bind_some in H as ((x, g1) & H1 & H). apply bind_some in H as ((t1, g2) & H2 & H). apply bind_some in H as (t2 & H3 & H).
  assert (t1 = Some t2) as -> by (destruct t1 as [t1|]; [cbn [str_arg] in H3; congruence|discriminate H3]).
  destruct (expr_back n e g x g1 OK) as (ets & ce & PC & R & S & _ & K1 & K2); [unfold checked_expr; now rewrite P|exact H1|].
  destruct (block_back n g1 t2 g2 OK F H2) as (ts & ds & b & B & L & G & K3).
  replace (k_indent g1 =? 0) with false in B by (symmetry; apply N.eqb_neq; rewrite K2; lia).
  assert (word ++ u " (" ++ x ++ u ") {" ++ [10] ++ t2 ++ [10] ++ get_indentation g2 ++ u "}" = t /\ g2 = g') as (<- & <-) by (split; congruence).
  exists e, ce, ets, ts, ds, b. split; [exact P|]. split; [exact S|]. split; [exact R|]. split; [exact B|]. split; [|split; [now apply starts_app|split; [|congruence]]].
  - set (head := word ++ chr " " :: ((u "(" ++ x ++ u ")") ++ chr " " :: u "{")).
    replace (word ++ u " (" ++ x ++ u ") {" ++ [10] ++ t2 ++ [10] ++ get_indentation g2 ++ u "}") with (head ++ [10] ++ t2 ++ [10] ++ get_indentation g2 ++ u "}")
      by (unfold head; retext).
    replace (wts ++ op "(" :: ets ++ op ")" :: op "{" :: ts ++ [op "}"]) with ((wts ++ (op "(" :: ets ++ [op ")"]) ++ [op "{"]) ++ ts ++ [op "}"]) by retext.
    unfold get_indentation. apply block_text; [|unfold head; now apply starts_app|exact L].
    unfold head. apply piece_sp; [exact PW|]. apply piece_sp; [now apply piece_paren|exact piece_open].
  - intros ds0 G0. apply G. exact (glob_same g g1 _ K1 G0).
Qed.

Lemma own_plain : forall top n ts ds, ~ In (tn_type n) [N_IF; N_ELIF; N_ELSE; N_COMMENT] -> plain_own top n ts ds -> own top n ts ds.
Proof. intros top n ts ds T P. unfold own. destruct (tn_type n); try exact P; exfalso; apply T; cbn; tauto. Qed.

Lemma paren_parts : forall ets ce r, reads 2 ets ce -> expr_to ")" (ets ++ op ")" :: r) ce r.
Proof. intros ets ce r R. now apply paren_to. Qed.

Lemma if_does : forall top n g t g', okn n -> gen_fine (tn_child n) -> 1 <= k_indent g -> tn_type n = N_IF ->
  gen_control_block_c env (u "if") (tn_pay n) (gen_tree_with (gen_node_c env) (tn_child n)) g = Ok (t, g') -> does top n g g' (Some t).
Proof.
  intros top n g t g' OK F I T H. destruct (control_back (u "if") [kw "if"] n g t g' OK F I) as (e & ce & ets & ts & ds & b & P & S & R & B & L & ST & G & K);
    [word_piece|discriminate|exact H|]. exists ([kw "if"] ++ op "(" :: ets ++ op ")" :: op "{" :: ts ++ [op "}"]), ds. split; [|auto].
  unfold own. rewrite T. exists ce, b. split.
  - intros l o ds2 r cs ds3 O SD. exact (sd_if env top n l e ce b ds o ds2 r cs ds3 T P S (proj1 B) O SD).
  - intros r2 o r E.
    replace (([kw "if"] ++ op "(" :: ets ++ op ")" :: op "{" :: ts ++ [op "}"]) ++ r2) with (kw "if" :: op "(" :: ets ++ op ")" :: op "{" :: ts ++ op "}" :: r2) by retext.
    eapply G_if; [now apply paren_to|exact (braces_read _ _ _ _ _ _ B)|exact E].
Qed.
Lemma elif_does : forall top n g t g', okn n -> gen_fine (tn_child n) -> 1 <= k_indent g -> tn_type n = N_ELIF ->
  gen_control_block_c env (u "else if") (tn_pay n) (gen_tree_with (gen_node_c env) (tn_child n)) g = Ok (t, g') -> does top n g g' (Some t).
Proof.
  intros top n g t g' OK F I T H. destruct (control_back (u "else if") [kw "else"; kw "if"] n g t g' OK F I) as (e & ce & ets & ts & ds & b & P & S & R & B & L & ST & G & K);
    [apply (piece_sp (u "else") [kw "else"] (u "if") [kw "if"]); word_piece|discriminate|exact H|].
  exists ([kw "else"; kw "if"] ++ op "(" :: ets ++ op ")" :: op "{" :: ts ++ [op "}"]), ds. split; [|auto].
  unfold own. rewrite T. exists ce, b. split.
  - intros l o ds2 r O. exact (ot_elif env n l e ce b ds o ds2 r T P S (proj1 B) O).
  - intros r2 o r E.
    replace (([kw "else"; kw "if"] ++ op "(" :: ets ++ op ")" :: op "{" :: ts ++ [op "}"]) ++ r2) with (kw "else" :: kw "if" :: op "(" :: ets ++ op ")" :: op "{" :: ts ++ op "}" :: r2) by retext.
    apply G_else_if. eapply G_if; [now apply paren_to|exact (braces_read _ _ _ _ _ _ B)|exact E].
Qed.
Lemma while_does : forall top n g t g', okn n -> gen_fine (tn_child n) -> 1 <= k_indent g -> tn_type n = N_WHILE ->
  gen_control_block_c env (u "while") (tn_pay n) (gen_tree_with (gen_node_c env) (tn_child n)) g = Ok (t, g') -> does top n g g' (Some t).
Proof.
  intros top n g t g' OK F I T H. destruct (control_back (u "while") [kw "while"] n g t g' OK F I) as (e & ce & ets & ts & ds & b & P & S & R & B & L & ST & G & K);
    [word_piece|discriminate|exact H|]. exists ([kw "while"] ++ op "(" :: ets ++ op ")" :: op "{" :: ts ++ [op "}"]), ds. split; [|auto].
  unfold own. rewrite T. exists [CWhile ce b]. split.
  - intros l cs ds2 SD. exact (sd_while env top n l e ce b ds cs ds2 T P S (proj1 B) SD).
  - intros rest l r E. cbn [app].
    replace (kw "while" :: op "(" :: (ets ++ op ")" :: op "{" :: ts ++ [op "}"]) ++ rest) with (kw "while" :: op "(" :: ets ++ op ")" :: op "{" :: ts ++ op "}" :: rest) by retext.
    eapply G_cons; [|exact E]. eapply G_while; [now apply paren_to|exact (braces_read _ _ _ _ _ _ B)].
Qed.
Lemma else_does : forall top n g t g', okn n -> gen_fine (tn_child n) -> 1 <= k_indent g -> tn_type n = N_ELSE ->
  gen_control_else_c (gen_tree_with (gen_node_c env) (tn_child n)) g = Ok (t, g') -> does top n g g' (Some t).
Proof.
  intros top n g t g' OK F I T H. unfold gen_control_else_c in H. apply bind_some in H as ((t1, g2) & H2 & H). apply bind_some in H as (t2 & H3 & H).
  assert (t1 = Some t2) as -> by (destruct t1 as [t1|]; [cbn [str_arg] in H3; congruence|discriminate H3]).
  destruct (block_back n g t2 g2 OK F H2) as (ts & ds & b & B & L & G & K3).
  replace (k_indent g =? 0) with false in B by (symmetry; apply N.eqb_neq; lia).
  assert (u "else {" ++ [10] ++ t2 ++ [10] ++ get_indentation g2 ++ u "}" = t /\ g2 = g') as (<- & <-) by (split; congruence).
  exists ([kw "else"; op "{"] ++ ts ++ [op "}"]), ds. split; [|split; [|auto]].
  - unfold own. rewrite T. exists b. split.
    + intro l. exact (ot_else env n l b ds T (proj1 B)).
    + intro r. replace (([kw "else"; op "{"] ++ ts ++ [op "}"]) ++ r) with (kw "else" :: op "{" :: ts ++ op "}" :: r) by retext. apply G_else. exact (braces_read _ _ _ _ _ _ B).
  - split; [|discriminate]. unfold get_indentation. apply block_text; [|discriminate|exact L]. apply (piece_sp (u "else") [kw "else"] (u "{") [op "{"]); [word_piece|exact piece_open].
Qed.
Lemma space_does : forall top n g t g', okn n -> gen_fine (tn_child n) -> 1 <= k_indent g -> tn_type n = N_NAMESPACE ->
  gen_control_namespace_c env (tn_pay n) (gen_tree_with (gen_node_c env) (tn_child n)) g = Ok (t, g') ->
  (forall k y, tn_pay n = XSpace k -> nth_error (ce_syms env) k = Some y -> plain_chars (y_name y)) -> does top n g g' (Some t).
Proof.
  intros top n g t g' OK F I T H PN. unfold gen_control_namespace_c in H. destruct (tn_pay n) as [| |k0 e|k0 e|k0 ks|e|k] eqn:P; try discriminate H.
  apply bind_some in H as ((t1, g2) & H2 & H). apply bind_some in H as (y & Y & H). apply bind_some in H as (t2 & H3 & H).
  assert (t1 = Some t2) as -> by (destruct t1 as [t1|]; [cbn [str_arg] in H3; congruence|discriminate H3]).
  assert (NY : nth_error (ce_syms env) k = Some y) by (unfold deref in Y; destruct (nth_error (ce_syms env) k); [congruence|discriminate Y]).
  pose proof (PN k y eq_refl NY) as PL.
  destruct (block_back n g t2 g2 OK F H2) as (ts & ds & b & B & L & G & K3).
  replace (k_indent g =? 0) with false in B by (symmetry; apply N.eqb_neq; lia).
  assert (quote ++ y_name y ++ quote ++ u "; {" ++ [10] ++ t2 ++ [10] ++ get_indentation g2 ++ u "}" = t /\ g2 = g') as (<- & <-) by (split; congruence).
  exists ([KStr (y_name y); op ";"; op "{"] ++ ts ++ [op "}"]), ds. split; [|split; [|auto]].
  - apply own_plain; [rewrite T; intros [X|[X|[X|[X|[]]]]]; discriminate X|]. exists [CExpr (CStr (y_name y)); CBlock b]. split.
    + intros l cs ds2 SD. exact (sd_space env top n l k y b ds cs ds2 T P NY (proj1 B) SD).
    + intros rest l r E.
      replace (([KStr (y_name y); op ";"; op "{"] ++ ts ++ [op "}"]) ++ rest) with (KStr (y_name y) :: op ";" :: op "{" :: ts ++ op "}" :: rest) by retext.
      cbn [app]. eapply G_cons; [|eapply G_cons; [apply G_block; exact (braces_read _ _ _ _ _ _ B)|exact E]].
      apply G_expr; [intros m r0 X; discriminate X|]. apply (semi_to [KStr (y_name y)]). apply (reads_higher 0); [lia|lia|constructor].
  - split; [|discriminate]. unfold get_indentation.
    replace (quote ++ y_name y ++ quote ++ u "; {" ++ [10] ++ t2 ++ [10] ++ repeat 9 (N.to_nat (if 64 <=? k_indent g2 then 63 else k_indent g2)) ++ u "}")
      with (((quote ++ y_name y ++ quote) ++ u ";") ++ chr " " :: u "{" ++ [10] ++ t2 ++ [10] ++ repeat 9 (N.to_nat (if 64 <=? k_indent g2 then 63 else k_indent g2)) ++ u "}")
      by retext.
    match goal with |- lns (?a ++ chr " " :: ?b ++ ?c) _ => replace (a ++ chr " " :: b ++ c) with ((a ++ chr " " :: b) ++ c) by (rewrite <- app_assoc; reflexivity) end.
    apply block_text; [|discriminate|exact L]. apply (piece_sp _ [KStr (y_name y); op ";"] (u "{") [op "{"]); [|exact piece_open].
    apply (piece_semi _ [KStr (y_name y)]). now apply piece_string.
Qed.

(** * Functions *)

Lemma head_piece : forall t x list pts, usable c23 x -> piece list pts ->
  piece (skull_type_to_c_type t ++ chr " " :: (x ++ u "(" ++ list ++ u ")")) (type_toks t ++ KId x :: op "(" :: pts ++ [op ")"]) /\
  starts (skull_type_to_c_type t ++ chr " " :: (x ++ u "(" ++ list ++ u ")")).
Proof.
  intros t x list pts U P. split; [|apply starts_app, type_flat]. apply piece_sp; [apply piece_type|]. apply piece_call; [now apply usable_word|exact P].
Qed.

Lemma proto_read : forall t x pts ps l lts, (c23 = false -> ~ has_bool t) -> usable c23 x -> (forall r, params_at c23 (pts ++ op ")" :: r) ps r) ->
  (forall r, label_at (lts ++ op ";" :: r) l (op ";" :: r)) ->
  reads_as ((type_toks t ++ KId x :: op "(" :: pts ++ [op ")"]) ++ lts ++ [op ";"]) [FProto false (c_type t) x ps l].
Proof.
  intros t x pts ps l lts B U P L. apply reads_def. intro r.
  replace (((type_toks t ++ KId x :: op "(" :: pts ++ [op ")"]) ++ lts ++ [op ";"]) ++ r) with (type_toks t ++ KId x :: op "(" :: pts ++ op ")" :: lts ++ op ";" :: r) by retext.
  eapply (G_proto c23 _ false); [reflexivity|now apply type_read|now apply usable_word|apply P|apply L].
Qed.

Lemma function_does : forall top n tok k ks g g', okn n -> gen_fine (tn_child n) -> tn_type n = N_FUNCTION_PROTO -> tn_pay n = XProto k ks ->
  gen_function_def_c env tok k ks (gen_tree_with (gen_node_c env) (tn_child n)) g = Ok g' -> does top n g g' None.
Proof.
  intros top n tok k ks g g' OK F T P H. unfold gen_function_def_c in H. apply bind_some in H as ((out, g1) & H & HG).
  assert (set_globals g1 (match k_globals g1 with Some old => old ++ [10] ++ out | None => out end) = g') as <- by congruence. clear HG.
  unfold gen_function_prototype_c in H. apply bind_some in H as (y & Y & H).
  assert (NY : nth_error (ce_syms env) k = Some y) by (unfold deref in Y; destruct (nth_error (ce_syms env) k); [congruence|discriminate Y]).
  destruct (y_kind y) as [v|f|a|a] eqn:KY; try discriminate H. set (x := y_name y) in *. assert (IF : is_fun env k x f) by (exists y; auto).
  assert (OP : N.to_nat (f_num f) = List.length ks /\ k <> 0%nat) by (destruct OK as (_ & O & _); exact (O _ _ _ _ P IF)).
  destruct (fun_fine k x f IF (proj2 OP)) as (U & B).
  apply bind_some in H as (list & HL & H). destruct (list_read f ks list) as (pts & ps & PP & PF & PR); [exact (proj1 OP)|exact HL|].
  set (lt := match list with Some t => t | None => u "void" end) in *. apply bind_some in H as (fwd & HF & H).
  destruct (head_piece (f_ret f) x lt pts U PP) as (HP & HS).
  set (htext := skull_type_to_c_type (f_ret f) ++ chr " " :: (x ++ u "(" ++ lt ++ u ")")) in *.
  set (hts := type_toks (f_ret f) ++ KId x :: op "(" :: pts ++ [op ")"]) in *.
  assert (NS : ~ In (tn_type n) [N_IF; N_ELIF; N_ELSE; N_COMMENT]) by (rewrite T; intros [X|[X|[X|[X|[]]]]]; discriminate X).
  assert (OWN : forall d, (forall l cs ds, stands env top l cs ds -> stands env top (n :: l) cs (d ++ ds)) -> own top n [] d).
  { intros d S. apply own_plain; [exact NS|]. exists []. split; [exact S|]. auto. }
  (* the label *)
  assert (LAB : exists label lts ltext, labelled env k (f_export f) label /\ (forall r, label_at (lts ++ op ";" :: r) label (op ";" :: r)) /\
    (f_export f = true -> fwd = ltext ++ [10] ++ []) /\ (f_export f = false -> fwd = [] /\ ltext = htext ++ u ";") /\
    lns ltext (hts ++ lts ++ [op ";"])).
  { destruct (f_export f).
    - apply bind_some in HF as (l & LK & HF). unfold linkage in LK. destruct (ce_linkage env k) as [l0|] eqn:EL; [|discriminate LK]. assert (l0 = l) as -> by congruence.
      exists (Some l), [kw "__asm__"; op "("; KStr l; op ")"], ((htext ++ chr " " :: (u "__asm__(" ++ quote ++ l ++ quote ++ u ")")) ++ u ";").
      split; [split; [now rewrite EL|discriminate]|]. split; [intro r; apply G_label|]. split; [|split; [discriminate|]].
      + intros _. apply ok_inj in HF. subst fwd. unfold htext. retext.
      + apply lns_piece; [|apply starts_app, starts_app; exact HS].
        rewrite (app_assoc hts). apply piece_semi. apply piece_sp; [exact HP|]. apply asm_piece. exact (labels_fine _ _ EL).
    - exists None, [], (htext ++ u ";"). split; [reflexivity|]. split; [intro r; apply G_no_label; discriminate|]. split; [discriminate|]. split; [intros _; split; [congruence|reflexivity]|].
      apply lns_piece; [now apply piece_semi|now apply starts_app]. }
  destruct LAB as (label & lts & ltext & LB & LR & FW1 & FW2 & LL).
  pose proof (proto_read (f_ret f) x pts ps label lts B U PR LR) as RP. fold hts in RP.
  destruct (f_external f) eqn:EX.
  - assert (RES : lns out (hts ++ lts ++ [op ";"]) /\ g1 = g).
    { destruct (f_export f).
      - assert (fwd = out /\ g = g1) as (<- & <-) by (split; congruence). split; [|reflexivity]. rewrite (FW1 eq_refl).
        pose proof (lns_app _ _ _ _ LL lns_nil) as Z. rewrite !app_nil_r in Z. exact Z.
      - destruct (FW2 eq_refl) as (_ & E). split; [|congruence]. replace out with ltext; [exact LL|]. rewrite E. unfold htext.
        assert (skull_type_to_c_type (f_ret f) ++ u " " ++ x ++ u "(" ++ lt ++ u ");" = out) as <- by congruence. retext. }
    destruct RES as (LO & ->). exists [], [FProto false (c_type (f_ret f)) x ps label]. split.
    + apply OWN. intros l cs ds SD. exact (sd_external env top n l k ks x f label ps cs ds T P IF EX LB PF SD).
    + split; [reflexivity|]. split; [|reflexivity]. intros ds0 G. now apply (glob_first g ds0 out (hts ++ lts ++ [op ";"])).
  - apply bind_some in H as ((t1, g2) & H2 & H). apply bind_some in H as (t2 & H3 & H). apply bind_some in H as (out' & H4 & H).
    assert (t1 = Some t2) as -> by (destruct t1 as [t1|]; [cbn [str_arg] in H3; congruence|discriminate H3]).
    assert (out' = out /\ set_indent g2 (k_indent g) = g1) as (-> & <-) by (split; congruence).
    destruct (block_back n (set_indent g 0) t2 g2 OK F H2) as (ts & ds & b & BK & L & G & K3). cbn [k_indent set_indent N.eqb] in BK, K3.
    assert (RB : reads_as ((if f_export f then [] else [kw "static"]) ++ (hts ++ [op "{"]) ++ ts ++ [op "}"]) [FFunc (negb (f_export f)) (c_type (f_ret f)) x ps b]).
    { apply reads_def. intro r. unfold hts.
      replace (((if f_export f then [] else [kw "static"]) ++ ((type_toks (f_ret f) ++ KId x :: op "(" :: pts ++ [op ")"]) ++ [op "{"]) ++ ts ++ [op "}"]) ++ r)
        with ((if f_export f then [] else [kw "static"]) ++ type_toks (f_ret f) ++ KId x :: op "(" :: pts ++ op ")" :: op "{" :: ts ++ op "}" :: r)
        by (repeat (rewrite <- app_assoc || rewrite <- app_comm_cons); reflexivity).
      eapply (G_func c23 _ (negb (f_export f))); [destruct (f_export f); reflexivity|now apply type_read|now apply usable_word|apply PR|exact (braces_read _ _ _ _ _ _ BK)]. }
    set (body := (if f_export f then htext else u "static" ++ chr " " :: htext) ++ chr " " :: u "{").
    assert (LBODY : lns (body ++ [10] ++ t2 ++ [10] ++ repeat 9 0 ++ u "}") ((if f_export f then [] else [kw "static"]) ++ (hts ++ [op "{"]) ++ ts ++ [op "}"])).
    { pose proof (block_text body ((if f_export f then [] else [kw "static"]) ++ hts ++ [op "{"]) t2 ts 0) as X. rewrite <- !app_assoc in X. rewrite <- !app_assoc. apply X; [| |exact L].
      - unfold body. rewrite app_assoc. apply piece_sp; [|exact piece_open]. destruct (f_export f); [exact HP|]. apply (piece_sp _ [kw "static"]); [word_piece|exact HP].
      - unfold body. apply starts_app. destruct (f_export f); [exact HS|discriminate]. }
    assert (LO : lns out ((if f_export f then hts ++ lts ++ [op ";"] else []) ++ (if f_export f then [] else [kw "static"]) ++ (hts ++ [op "{"]) ++ ts ++ [op "}"])).
    { refine (debug_back _ _ _ _ H4 _). unfold body in LBODY. destruct (f_export f).
      - rewrite (FW1 eq_refl).
        replace ((ltext ++ [10] ++ []) ++ [] ++ skull_type_to_c_type (f_ret f) ++ u " " ++ x ++ u "(" ++ lt ++ u ") {" ++ [10] ++ t2 ++ [10] ++ u "}")
          with (ltext ++ [10] ++ (htext ++ chr " " :: u "{") ++ [10] ++ t2 ++ [10] ++ repeat 9 0 ++ u "}") by (unfold htext; retext).
        now apply lns_app.
      - destruct (FW2 eq_refl) as (-> & _). cbn [app]. cbn [app] in LBODY.
        match goal with |- lns ?a _ => replace a with (((u "static" ++ chr " " :: htext) ++ chr " " :: u "{") ++ 10 :: t2 ++ 10 :: repeat 9 0 ++ u "}") by (unfold htext; retext) end.
        exact LBODY. }
    exists [], (ds ++ (if f_export f then [FProto false (c_type (f_ret f)) x ps label] else []) ++ [FFunc (negb (f_export f)) (c_type (f_ret f)) x ps b]). split.
    + apply OWN. intros l cs ds' SD. rewrite <- !app_assoc. exact (sd_function env top n l k ks x f label ps b ds cs ds' T P IF EX LB PF (proj1 BK) SD).
    + split; [reflexivity|]. split; [|reflexivity]. intros ds0 G0. rewrite app_assoc.
      refine (glob_first (set_indent g2 (k_indent g)) (ds0 ++ ds) out _ _ _ LO _).
      * apply (glob_same g2); [reflexivity|]. apply G. exact (glob_same g _ _ eq_refl G0).
      * apply reads_app; [|exact RB]. destruct (f_export f); [exact RP|]. intros rest ds' UA. exact UA.
Qed.

(** * Statements *)

Definition space_fine (n : tnode) : Prop := forall k y, tn_pay n = XSpace k -> nth_error (ce_syms env) k = Some y -> plain_chars (y_name y).

Lemma call_no_type : forall t k args ty txt ts r, good env (XCall t k args ty) -> gen_expr_c env (XCall t k args ty) = Ok txt -> piece txt ts ->
  no_type c23 (ts ++ r).
Proof.
  intros t k args ty txt ts r G H [PT PF]. cbn [gen_expr_c] in H. unfold deref in H.
  destruct (nth_error (ce_syms env) k) as [y|] eqn:E; [|discriminate H]. cbn [bind] in H.
  destruct (y_kind y) as [v|f|a|a] eqn:K; try discriminate H.
  destruct (fun_fine k (y_name y) f) as (U & _); [exists y; auto|exact (called_fine t k args ty y G E)|]. destruct (usable_word _ U) as (W & _).
  assert (X : exists a, txt = y_name y ++ u "(" ++ a).
  { destruct (f_num f =? 0); [exists (u ")"); apply ok_inj in H; subst txt; reflexivity|]. apply bind_some in H as ([a|] & _ & H); [|discriminate H].
    apply ok_inj in H. subst txt. exists (a ++ u ")"). reflexivity. }
  destruct X as (a & ->). specialize (PT [] I). rewrite app_nil_r in PT. rewrite lex_wordb in PT; [|exact W|split; [reflexivity|discriminate]].
  destruct (c_tokens (u "(" ++ a)) as [m|]; [|discriminate PT]. cbn in PT. rewrite app_nil_r in PT.
  assert (ts = KId (y_name y) :: m) as -> by congruence. cbn [app]. now apply usable_no_type.
Qed.

Ltac not_if T := rewrite T; let X := fresh in intros [X|[X|[X|[X|[]]]]]; discriminate X.

Lemma none_does : forall top n g, In (tn_type n) [N_COMMENT; N_IMPORT; N_UNKNOWN] \/ tn_type n = N_VAR_DEF /\ tn_pay n = XAlias -> does top n g g None.
Proof.
  intros top n g H. assert (P : plain_own top n [] []) by (exists []; split; [intros l cs ds S; now apply sd_none|auto]).
  exists [], []. split; [unfold own; destruct (tn_type n); auto; exfalso; destruct H as [[H|[H|[H|[]]]]|(H & _)]; discriminate H|]. split; [reflexivity|]. split; [|reflexivity].
  intros ds0 G. now rewrite app_nil_r.
Qed.

Lemma assign_does : forall top n k e g t g', okn n -> tn_type n = N_VAR_ASSIGN -> tn_pay n = XSet k e -> gen_stmt_var_assign_c env k e g = Ok (t, g') -> does top n g g' (Some t).
Proof.
  intros top n k e g t g' OK T P H. unfold gen_stmt_var_assign_c in H. apply bind_some in H as ((x, v) & V & H). apply var_spec in V.
  destruct (var_fine _ _ _ V) as (U & B). destruct (assign_back x e n g t g' OK) as (ts & ce & L & ST & R & S & K1 & K2); [unfold checked_expr; now rewrite P|exact U|exact H|].
  apply plain_does with (ts := KId x :: op "=" :: ts ++ [op ";"]) (cs := [CAssign x ce]); auto.
  - intros d. apply own_plain. not_if T.
  - intros l cs ds SD. exact (sd_assign env top n l k e x v ce cs ds T P V S SD).
  - intros rest l r SR. now apply assign_read.
Qed.

Lemma word_does : forall top n g t ts c, ~ In (tn_type n) [N_IF; N_ELIF; N_ELSE; N_COMMENT] ->
  (forall l cs ds, stands env top l cs ds -> stands env top (n :: l) (c :: cs) ds) -> (forall r, stmt_at c23 (ts ++ r) c r) ->
  lns t ts -> starts t -> does top n g g (Some t).
Proof.
  intros top n g t ts c NI S R L ST. apply plain_does with (ts := ts) (cs := [c]); auto.
  - intro d. now apply own_plain.
  - intros rest l r SR. eapply G_cons; [apply R|exact SR].
Qed.

Lemma number_zero : piece (u "0") [KNum (u "0")].
Proof. apply piece_number; [now apply whole_word_number|reflexivity]. Qed.
Lemma number_one : piece (u "1") [KNum (u "1")].
Proof. apply piece_number; [now apply whole_word_number|reflexivity]. Qed.

Lemma noop_piece : piece (u "(void)0;") [op "("; kw "void"; op ")"; KNum (u "0"); op ";"].
Proof.
  constructor; [|reflexivity]. intros rest S. pose proof (piece_semi _ _ number_zero) as [Z _].
  change (u "(void)0;" ++ rest) with (chr "(" :: u "void" ++ chr ")" :: (u "0" ++ u ";") ++ rest).
  rewrite lex_open. rewrite lex_wordb; [|reflexivity|split; [reflexivity|discriminate]]. rewrite lex_close. rewrite Z by exact S.
  destruct (c_tokens rest); reflexivity.
Qed.

Lemma return_does : forall top n g t g', okn n -> tn_type n = N_RETURN -> gen_stmt_return_c env (tn_pay n) g = Ok (t, g') -> does top n g g' (Some t).
Proof.
  intros top n g t g' OK T H. unfold gen_stmt_return_c in H.
  assert (CASES : (tn_pay n = XNone /\ u "return;" = t /\ g = g') \/ exists e x, tn_pay n = XExpr e /\ expr_c env e g = Ok (x, g') /\ u "return " ++ x ++ u ";" = t).
  { destruct (tn_pay n) as [| |k0 e|k0 e|k0 ks|e|k] eqn:P; try discriminate H.
    - left. repeat split; congruence.
    - right. cbn [node_expr bind] in H. apply bind_some in H as ((x, g1) & H1 & H). exists e, x. assert (g1 = g') as -> by congruence. repeat split; [exact H1|congruence]. }
  destruct CASES as [(P & <- & <-)|(e & x & P & H1 & <-)].
  - apply word_does with (ts := [kw "return"; op ";"]) (c := CReturn None); [not_if T| | | |discriminate].
    + intros l cs ds SD. exact (sd_return env top n l cs ds T P SD).
    + intro r. apply G_return.
    + apply lns_piece; [|discriminate]. apply (piece_semi (u "return") [kw "return"]). word_piece.
  - destruct (expr_back n e g x g' OK) as (ts & ce & PC & R & S & _ & K1 & K2); [unfold checked_expr; now rewrite P|exact H1|].
    apply plain_does with (ts := kw "return" :: ts ++ [op ";"]) (cs := [CReturn (Some ce)]); auto.
    + intro d. apply own_plain. not_if T.
    + intros l cs ds SD. exact (sd_result env top n l e ce cs ds T P S SD).
    + intros rest l r SR. eapply G_cons; [|exact SR]. cbn [app]. rewrite <- app_assoc. apply G_result. now apply semi_to.
    + replace (u "return " ++ x ++ u ";") with ((u "return" ++ chr " " :: x) ++ u ";") by retext. apply lns_piece; [|discriminate].
      apply (piece_semi _ (kw "return" :: ts)). apply (piece_sp _ [kw "return"]); [word_piece|exact PC].
    + discriminate.
Qed.

Lemma call_does : forall top n g t g', okn n -> tn_type n = N_EXPR -> gen_stmt_func_call_c env (tn_pay n) g = Ok (t, g') -> does top n g g' (Some t).
Proof.
  intros top n g t g' OK T H. pose proof OK as (GD & _ & CL & _). destruct (CL T) as (t0 & k & args & ty & P). rewrite P in H.
  unfold gen_stmt_func_call_c in H. cbn [node_expr bind] in H. apply bind_some in H as ((x, g1) & H1 & H).
  assert (x ++ u ";" = t /\ g1 = g') as (<- & <-) by (split; congruence).
  assert (CE : checked_expr n = Some (XCall t0 k args ty)) by (unfold checked_expr; now rewrite P).
  destruct (expr_back n _ g x g1 OK CE H1) as (ts & ce & PC & R & S & GE & K1 & K2).
  assert (ST : starts x).
  { cbn [gen_expr_c] in GE. unfold deref in GE. destruct (nth_error (ce_syms env) k) as [y|] eqn:E; [|discriminate GE]. cbn [bind] in GE.
    destruct (y_kind y) as [v|f|a|a] eqn:K; try discriminate GE. destruct (fun_fine k (y_name y) f) as (U & _); [exists y; auto|exact (called_fine t0 k args ty y (GD _ CE) E)|].
    destruct (f_num f =? 0); [apply ok_inj in GE; subst x; now apply starts_app, name_starts|]. apply bind_some in GE as ([a|] & _ & GE); [|discriminate GE].
    apply ok_inj in GE. subst x. now apply starts_app, name_starts. }
  apply plain_does with (ts := ts ++ [op ";"]) (cs := [CExpr ce]); auto.
  - intro d. apply own_plain. not_if T.
  - intros l cs ds SD. exact (sd_call env top n l _ ce cs ds T P S SD).
  - intros rest l r SR. eapply G_cons; [|exact SR]. rewrite <- app_assoc. cbn [app]. apply G_expr; [|now apply semi_to].
    exact (call_no_type t0 k args ty x ts _ (GD _ CE) GE PC).
  - apply lns_piece; [now apply piece_semi|now apply starts_app].
  - now apply starts_app.
Qed.

Lemma node_back : forall n, (forall m, in_checked m [n] -> okn m /\ space_fine m) -> forall g str g', 1 <= k_indent g -> gen_node_c env n g = Ok (str, g') ->
  done (k_indent g =? 1) n g g' str.
Proof.
  intro n. induction n as [ty tok p c F] using tnode_ind'. intros OKS g str g' I H.
  destruct (OKS (mktnode ty tok p c)) as (OK & SF); [apply ic_here; now left|].
  assert (FINE : gen_fine (tn_child (mktnode ty tok p c))).
  { intros m M g0 s0 g0' I0 H0. rewrite Forall_forall in F. cbn [tn_child] in M. apply (F m M); [|exact I0|exact H0].
    intros m' IC. apply OKS. apply (ic_below _ (mktnode ty tok p c)); [now left|]. cbn [tn_child]. inversion IC as [l J|y l J K]; subst l.
    - destruct J as [<-|[]]. now apply ic_here.
    - destruct J as [<-|[]]. now apply (ic_below _ m). }
  cbn [gen_node_c] in H. apply bind_some in H as ((s1, g1) & H1 & H).
  cut (does (k_indent g =? 1) (mktnode ty tok p c) g g1 s1).
  { intro D. assert (g1 = g') as <-.
    { destruct s1 as [t|]; [|congruence]. apply bind_some in H as (x & _ & H). congruence. }
    refine (does_done _ _ _ _ _ tok _ D _). destruct s1 as [t|]; [|congruence]. apply bind_some in H as (x & HX & H). exists x. split; [exact HX|congruence]. }
  clear H. set (n := mktnode ty tok p c) in *.
  assert (SOME : forall (r : res (text * cst)), (do (t, g) <- r; Ok (Some t, g)) = Ok (s1, g1) -> exists t, r = Ok (t, g1) /\ s1 = Some t).
  { intros r E. apply bind_some in E as ((t, g2) & -> & E). exists t. split; congruence. }
  assert (NI : forall t, tn_type n = t -> ~ In t [N_IF; N_ELIF; N_ELSE; N_COMMENT] -> ~ In (tn_type n) [N_IF; N_ELIF; N_ELSE; N_COMMENT]) by (intros t -> X; exact X).
  destruct ty eqn:TY.
  - assert (s1 = None /\ g = g1) as (-> & <-) by (split; congruence). apply none_does. left. cbn. tauto.
  - destruct p as [| |k0 e|k0 e|k0 ks|e|k] eqn:P; try discriminate H1.
    + assert (s1 = None /\ g = g1) as (-> & <-) by (split; congruence). apply none_does. right. split; reflexivity.
    + exact (def_back n k0 e g s1 g1 OK eq_refl eq_refl H1).
  - destruct p as [| |k0 e|k0 e|k0 ks|e|k] eqn:P; try discriminate H1. apply SOME in H1 as (t & H1 & ->). exact (assign_does _ n k0 e g t g1 OK eq_refl eq_refl H1).
  - destruct p as [| |k0 e|k0 e|k0 ks|e|k] eqn:P; try discriminate H1. apply bind_some in H1 as (g2 & H1 & H). assert (s1 = None /\ g2 = g1) as (-> & ->) by (split; congruence).
    exact (function_does _ n tok k0 ks g g1 OK FINE eq_refl eq_refl H1).
  - apply SOME in H1 as (t & H1 & ->). exact (call_does _ n g t g1 OK eq_refl H1).
  - apply SOME in H1 as (t & H1 & ->). exact (return_does _ n g t g1 OK eq_refl H1).
  - assert (s1 = Some (u "while (1) {}") /\ g = g1) as (-> & <-) by (split; congruence).
    apply word_does with (ts := [kw "while"; op "("; KNum (u "1"); op ")"; op "{"; op "}"]) (c := CWhile (CNum (u "1")) []); [cbn; intros [X|[X|[X|[X|[]]]]]; discriminate X| | | |discriminate].
    + intros l cs ds SD. exact (sd_unreachable env _ n l cs ds eq_refl SD).
    + intro r. cbn [app]. eapply G_while; [apply (paren_to [KNum (u "1")])|constructor; constructor]. apply (reads_higher 0); [lia|lia|constructor].
    + apply lns_piece; [|discriminate]. apply (piece_sp (u "while (1)") [kw "while"; op "("; KNum (u "1"); op ")"] (u "{}") [op "{"; op "}"]); [|exact piece_braces].
      apply (piece_sp (u "while") [kw "while"] (u "(1)") [op "("; KNum (u "1"); op ")"]); [word_piece|]. exact (piece_paren _ _ number_one).
  - apply SOME in H1 as (t & H1 & ->). exact (if_does _ n g t g1 OK FINE I eq_refl H1).
  - apply SOME in H1 as (t & H1 & ->). exact (elif_does _ n g t g1 OK FINE I eq_refl H1).
  - apply SOME in H1 as (t & H1 & ->). exact (else_does _ n g t g1 OK FINE I eq_refl H1).
  - apply SOME in H1 as (t & H1 & ->). exact (while_does _ n g t g1 OK FINE I eq_refl H1).
  - assert (s1 = None /\ g = g1) as (-> & <-) by (split; congruence). apply none_does. left. cbn. tauto.
  - apply SOME in H1 as (t & H1 & ->). exact (space_does _ n g t g1 OK FINE I eq_refl H1 SF).
  - assert (s1 = None /\ g = g1) as (-> & <-) by (split; congruence). apply none_does. left. cbn. tauto.
  - assert (s1 = Some (u "(void)0;") /\ g = g1) as (-> & <-) by (split; congruence).
    apply word_does with (ts := [op "("; kw "void"; op ")"; KNum (u "0"); op ";"]) (c := CVoid (CNum (u "0"))); [cbn; intros [X|[X|[X|[X|[]]]]]; discriminate X| | | |discriminate].
    + intros l cs ds SD. exact (sd_noop env _ n l cs ds eq_refl SD).
    + intro r. apply (G_void c23 [KNum (u "0")]). apply (reads_higher 0); [lia|lia|constructor].
    + apply lns_piece; [exact noop_piece|discriminate].
  - assert (s1 = Some (u "break;") /\ g = g1) as (-> & <-) by (split; congruence).
    apply word_does with (ts := [kw "break"; op ";"]) (c := CBreak); [cbn; intros [X|[X|[X|[X|[]]]]]; discriminate X| | | |discriminate].
    + intros l cs ds SD. exact (sd_break env _ n l cs ds eq_refl SD).
    + intro r. apply G_break.
    + apply lns_piece; [|discriminate]. apply (piece_semi (u "break") [kw "break"]). word_piece.
  - assert (s1 = Some (u "continue;") /\ g = g1) as (-> & <-) by (split; congruence).
    apply word_does with (ts := [kw "continue"; op ";"]) (c := CContinue); [cbn; intros [X|[X|[X|[X|[]]]]]; discriminate X| | | |discriminate].
    + intros l cs ds SD. exact (sd_continue env _ n l cs ds eq_refl SD).
    + intro r. apply G_continue.
    + apply lns_piece; [|discriminate]. apply (piece_semi (u "continue") [kw "continue"]). word_piece.
Qed.

(** The whole tree. *)
Lemma program_back : forall l, (forall m, in_checked m l -> okn m /\ space_fine m) -> chain false l -> forall t g,
  gen_tree_c env l setup_c_state = Ok (t, g) ->
  exists ts ds b, blk true l ts ds b /\ text_is t ts /\ glob g ds.
Proof.
  intros l OKS C t g H. assert (F : gen_fine l).
  { intros n M g0 s0 g0' I0 H0. apply node_back; [|exact I0|exact H0]. intros m IC. apply OKS. inversion IC as [l' J|y l' J K]; subst l'; destruct J as [<-|[]].
    - now apply ic_here.
    - now apply (ic_below _ n). }
  destruct (tree_back l setup_c_state t g F H) as (ts & ds & O & T & G & _). destruct (owns_blk _ _ _ _ O) as (B & _). destruct (B C) as (b & BK).
  exists ts, ds, b. split; [exact BK|]. split; [exact T|]. apply (G []). exists []. split; [exact lns_nil|]. intros rest ds' UA. exact UA.
Qed.
End Back.
