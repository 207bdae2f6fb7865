(** The file as a whole, for accepted programs. *)
From Coq Require Import List Arith NArith ZArith Bool Lia Ascii String.
From Verif Require Import Proof_Sem7 Proof_Order.
From Verif Require Import Base Model_Token Model_Literal Model_Parse Model_Sem Spec_Parse Spec_Sem Spec_Sem2 Proof_Sem Proof_Sem2 Proof_Sem4 Proof_Sem5 Proof_Sem6 Proof_Sem8
  Model_Names Spec_Names Proof_Names Model_CGen Model_CFile Spec_C Proof_C Proof_C2 Spec_CGen
  Proof_CGen Proof_CGen2 Proof_LLVM11 Spec_CProg Proof_CProg Spec_CBack Proof_CProg2 Proof_CProg3 Proof_CProg4.
Import ListNotations.
Open Scope list_scope.
Open Scope N_scope.

(** * The text around the statements *)

Lemma nil_piece : piece [] [].
Proof. constructor; [|reflexivity]. intros rest _. cbn [app]. now destruct (c_tokens rest). Qed.
Lemma nothing_app : forall (o : option (list ctok)), option_map (app []) o = o.
Proof. now intros [l|]. Qed.

Lemma line_gone : forall env rest, plain_chars (ce_file env) -> toks ((if ce_debug env then u "#line 1 " ++ quote ++ ce_file env ++ quote ++ [10] else []) ++ rest) = toks rest.
Proof.
  intros env rest P. destruct (ce_debug env); [|reflexivity].
  pose proof (lns_directive (u "line 1 " ++ quote ++ ce_file env ++ quote) [] []) as X. unfold lns in X.
  assert (F : flatb (u "line 1 " ++ quote ++ ce_file env ++ quote) = true) by (rewrite !flat_app, (plain_flat _ P); reflexivity).
  specialize (X F lns_nil rest). rewrite nothing_app in X. rewrite <- X.
  assert (Y : forall r, toks (10 :: r) = toks r) by (intro r; pose proof (lns_nil r) as Z; rewrite nothing_app in Z; exact Z).
  replace ((chr "#" :: (u "line 1 " ++ quote ++ ce_file env ++ quote) ++ [10] ++ []) ++ 10 :: rest) with (chr "#" :: (u "line 1 " ++ quote ++ ce_file env ++ quote) ++ 10 :: 10 :: rest)
    by (repeat (rewrite <- app_assoc || rewrite <- app_comm_cons); reflexivity).
  replace ((u "#line 1 " ++ quote ++ ce_file env ++ quote ++ [10]) ++ rest) with (chr "#" :: (u "line 1 " ++ quote ++ ce_file env ++ quote) ++ 10 :: rest)
    by (repeat (rewrite <- app_assoc || rewrite <- app_comm_cons); reflexivity).
  unfold toks at 1 2. cbn [no_directives]. change (chr "#" =? 10) with false. change (chr "#" =? chr "#") with true. cbn match. rewrite !directive_line by exact F.
  rewrite !lex_blank by reflexivity. symmetry. apply Y.
Qed.

Lemma flags_code : forall g, exists hs, no_tabs (print_builtins g) = List.concat (map helper_code hs) /\ (forall h, flag h g = true <-> In h hs) /\ NoDup hs.
Proof.
  intros [o a b c n]. unfold print_builtins, flag. cbn [k_strcmp k_int_pow k_float_pow].
  exists ((if c then [HStrcmp] else []) ++ (if a then [HIntPow] else []) ++ (if b then [HFloatPow] else [])). split.
  - destruct c, a, b; vm_compute; reflexivity.
  - split; [intros [| |]; destruct c, a, b; cbn; intuition congruence|]. destruct c, a, b; cbn [app]; repeat constructor; cbn; intuition congruence.
Qed.

Section Unit.
Variable c23 : bool.
Lemma int_at : forall x r, type_at c23 (kw "int" :: KId x :: r) TyInt (KId x :: r).
Proof. intros x r. exists (u "int"), TyInt, (KId x :: r). split; [reflexivity|]. split; [unfold type_word, type_words; apply in_or_app; left; left; reflexivity|]. constructor. discriminate. Qed.

Lemma head_text : forall x, wordb (u x) = true -> piece (u "int" ++ chr " " :: (u x ++ u "(" ++ u "void" ++ u ")")) [kw "int"; kw x; op "("; kw "void"; op ")"].
Proof.
  intros x W. apply (piece_sp _ [kw "int"]); [apply piece_word; reflexivity|]. apply (piece_call (u x) (u "void") [kw "void"]); [exact W|apply piece_word; reflexivity].
Qed.

Lemma shim_back : forall env l m tree ts ds b, plain_chars (ce_file env) -> plain_chars m -> blk env c23 true l ts ds b -> text_is tree ts ->
  exists used, toks (print_main_shim env m tree) = Some used /\
    unit_at c23 used [FProto true TyInt (u "init") [] (Some m); FFunc true TyInt (u "init") [] (b ++ [CReturn (Some (CNum (u "0")))]);
                      FFunc false TyInt (u "main") [] [CReturn (Some (CCall (CId (u "init")) []))]].
Proof.
  intros env l m tree ts ds b PF PM (_ & BK) T.
  assert (T' : lns (match tree with Some t => t | None => [] end) ts) by (destruct tree; cbn [text_is] in T; [exact T|subst ts; exact lns_nil]).
  set (line := if ce_debug env then u "#line 1 " ++ quote ++ ce_file env ++ quote ++ [10] else []).
  set (h := u "static" ++ chr " " :: (u "int" ++ chr " " :: (u "init" ++ u "(" ++ u "void" ++ u ")"))).
  set (hts := [kw "static"; kw "int"; kw "init"; op "("; kw "void"; op ")"]).
  assert (PH : piece h hts) by (apply (piece_sp _ [kw "static"]); [apply piece_word; reflexivity|apply head_text; reflexivity]).
  set (l1 := (h ++ chr " " :: (u "__asm__(" ++ quote ++ m ++ quote ++ u ")")) ++ u ";").
  assert (L1 : lns l1 ((hts ++ [kw "__asm__"; op "("; KStr m; op ")"]) ++ [op ";"])).
  { apply lns_piece; [|discriminate]. apply piece_semi. apply piece_sp; [exact PH|now apply asm_piece]. }
  set (l2 := h ++ chr " " :: u "{"). assert (L2 : lns l2 (hts ++ [op "{"])) by (apply lns_piece; [apply piece_sp; [exact PH|exact piece_open]|discriminate]).
  set (l3 := repeat 9 1 ++ ((u "return" ++ chr " " :: u "0") ++ u ";")).
  assert (L3 : lns l3 [kw "return"; KNum (u "0"); op ";"]).
  { apply lns_tabs; [discriminate|]. apply lns_piece; [|discriminate]. apply (piece_semi _ [kw "return"; KNum (u "0")]). apply (piece_sp _ [kw "return"]); [apply piece_word; reflexivity|exact number_zero]. }
  assert (L4 : lns (u "}") [op "}"]) by (apply lns_piece; [exact piece_close|discriminate]).
  set (l5 := (u "int" ++ chr " " :: (u "main" ++ u "(" ++ u "void" ++ u ")")) ++ chr " " :: (u "{" ++ chr " " :: (((u "return" ++ chr " " :: (u "init" ++ u "(" ++ [] ++ u ")")) ++ u ";") ++ chr " " :: u "}"))).
  assert (L5 : lns l5 [kw "int"; kw "main"; op "("; kw "void"; op ")"; op "{"; kw "return"; kw "init"; op "("; op ")"; op ";"; op "}"]).
  { apply lns_piece; [|discriminate]. apply (piece_sp _ [kw "int"; kw "main"; op "("; kw "void"; op ")"]); [apply head_text; reflexivity|].
    apply (piece_sp _ [op "{"]); [exact piece_open|]. apply (piece_sp _ [kw "return"; kw "init"; op "("; op ")"; op ";"]); [|exact piece_close].
    apply (piece_semi _ [kw "return"; kw "init"; op "("; op ")"]). apply (piece_sp _ [kw "return"]); [apply piece_word; reflexivity|].
    apply (piece_call (u "init") [] []); [reflexivity|exact nil_piece]. }
  assert (E : print_main_shim env m tree = line ++ l1 ++ 10 :: l2 ++ 10 :: (match tree with Some t => t | None => [] end) ++ 10 :: l3 ++ 10 :: u "}" ++ 10 :: line ++ l5 ++ 10 :: []).
  { unfold print_main_shim. fold line. unfold l1, l2, l3, l5, h. repeat (rewrite <- app_assoc || rewrite <- app_comm_cons). reflexivity. }
  rewrite E. unfold line. rewrite line_gone by exact PF. rewrite L1, L2, T', L3, L4. rewrite line_gone by exact PF. rewrite L5. change (toks []) with (Some (@nil ctok)).
  cbn [option_map]. eexists. split; [reflexivity|].
  unfold hts. cbn [app].
  eapply G_def.
  { eapply (G_proto c23 _ true); [reflexivity|apply int_at|reflexivity|apply G_void_params|apply G_label]. }
  eapply G_def.
  { eapply (G_func c23 _ true); [reflexivity|apply int_at|reflexivity|apply G_void_params|]. constructor. apply BK. eapply G_cons; [|apply G_nil].
    apply G_result. apply (semi_to [KNum (u "0")]). apply (reads_higher 0); [lia|lia|constructor]. }
  eapply G_def; [|apply G_end].
  eapply (G_func c23 _ false); [reflexivity|apply int_at|reflexivity|apply G_void_params|]. constructor. eapply G_cons; [|apply G_nil].
  apply G_result. apply (semi_to [kw "init"; op "("; op ")"]). apply (reads_higher 1); [lia|lia|].
  apply (R_call [KId (u "init")] (CId (u "init")) [] []); [|now left]. apply (reads_higher 0); [lia|lia|]. apply R_id. reflexivity.
Qed.
End Unit.

Lemma file_back : forall env c23 l t m, (forall k y, nth_error (ce_syms env) (S k) = Some y -> writable_symbol c23 y) ->
  (forall y, nth_error (ce_syms env) 0 = Some y -> y_name y = [] /\ forall v, y_kind y <> KVar v) -> (forall k t, ce_linkage env k = Some t -> plain_chars t) -> plain_chars (ce_file env) ->
  (forall n, in_checked n l -> okn env n /\ space_fine env n) -> (forall n, in_checked n l -> shape env n) -> chain false l ->
  create_main_func_name (Some (ce_file env)) = Ok m -> plain_chars m -> c_file env l = Ok t ->
  exists hs ds, is_c_file c23 t hs ds /\ unit_stands env l m ds /\ helped l hs /\ NoDup hs.
Proof.
  intros env c23 l t m SF FM LF FF OKS SH CH EM PM H. unfold c_file in H. apply bind_some in H as ((tree, g) & HT & H). apply bind_some in H as (m' & HM & H).
  assert (m' = m) as -> by congruence. apply ok_inj in H. subst t.
  destruct (program_back env c23 SF FM LF FF l OKS CH tree g HT) as (ts & ds & b & BK & TX & (gts & GL & GR)).
  destruct (shim_back c23 env l m tree ts ds b FF PM BK TX) as (used & US & UA).
  destruct (flags_code g) as (hs & HC & HF & ND).
  exists hs, (ds ++ [FProto true TyInt (u "init") [] (Some m); FFunc true TyInt (u "init") [] (b ++ [CReturn (Some (CNum (u "0")))]);
                      FFunc false TyInt (u "main") [] [CReturn (Some (CCall (CId (u "init")) []))]]).
  split; [|split].
  - exists (print_builtins g), (print_globals g ++ print_main_shim env m tree). split; [|split; [exact HC|]].
    + change includes with (headers_c ++ [10]). rewrite <- app_assoc. reflexivity.
    + exists (gts ++ used). split; [|split; [now apply GR|intros ds' U'; symmetry; refine (unit_det c23 _ _ U' _ _); now apply GR]].
      fold (toks (print_globals g ++ print_main_shim env m tree)). unfold print_globals. unfold old_globals in GL. destruct (k_globals g) as [og|].
      * rewrite <- app_assoc. cbn [app]. rewrite GL. pose proof (lns_nil (print_main_shim env m tree)) as X. cbn [app] in X. rewrite X, US. reflexivity.
      * apply lns_nil_inv in GL. subst gts. exact US.
  - exists b, ds. split; [apply BK|reflexivity].
  - split; [|exact ND]. intros n o a b0 t0 c h IC (e & CE & XP) HH. apply HF. refine (program_helps env l tree g SH HT n e h IC CE _). exists o, a, b0, t0, c. auto.
Qed.

(** * Accepted programs *)

Lemma block_types : forall D w src e tree l e', block_ok D w src e tree l e' -> map tn_type l = map n_type tree.
Proof.
  intros D w src e tree l e' B. induction B as [e|e n l' x xs e1 e2 S0 B IH]; [reflexivity|]. cbn [map]. rewrite IH. f_equal. inversion S0; subst; cbn [tn_type]; congruence.
Qed.

Fixpoint chain_t (open : bool) (l : list ntype) : Prop :=
  match l with
  | [] => True
  | N_ELIF :: r => open = true /\ chain_t true r
  | N_ELSE :: r => open = true /\ chain_t false r
  | N_IF :: r => chain_t true r
  | N_COMMENT :: r => chain_t open r
  | _ :: r => chain_t false r
  end.
Lemma chain_types : forall l open, chain open l <-> chain_t open (map tn_type l).
Proof. induction l as [|n l IH]; intro open; [reflexivity|]. cbn [chain map chain_t]. destruct (tn_type n); try apply IH; now rewrite IH. Qed.

(** An `if` or `elif` is the last statement, up to comments; nearest first. *)
Fixpoint openb (q : list ntype) : bool :=
  match q with N_IF :: _ | N_ELIF :: _ => true | N_COMMENT :: r => openb r | _ => false end.
Lemma chain_open : forall l q, (forall a n b, l = a ++ n :: b -> n = N_ELSE \/ n = N_ELIF -> openb (rev a ++ q) = true) -> chain_t (openb q) l.
Proof.
  induction l as [|n l IH]; intros q H; [exact I|].
  assert (R : chain_t (openb (n :: q)) l).
  { apply IH. intros a m b E T. specialize (H (n :: a) m b). cbn [rev] in H. rewrite <- app_assoc in H. apply H; [now rewrite E|exact T]. }
  assert (O : n = N_ELSE \/ n = N_ELIF -> openb q = true) by (intro T; exact (H [] n l eq_refl T)).
  destruct n; cbn [chain_t openb] in *; auto.
Qed.

Lemma block_chain : forall w src ts tree s l blk, accepted w src ts tree s l -> no_call_blocks tree -> block_of tree blk -> chain_t false (map n_type blk).
Proof.
  intros w src ts tree s l blk A NC B. apply (chain_open (map n_type blk) []). intros a n b E T.
  apply map_eq_app in E as (a' & r & -> & <- & E). destruct r as [|n' b']; [discriminate E|]. cbn [map] in E. assert (n_type n' = n) as N0 by congruence.
  destruct (else_l w src ts tree s l _ a' n' b' A NC B eq_refl) as (a1 & m & cs & -> & M & C); [rewrite N0; exact T|].
  rewrite app_nil_r, <- map_rev, rev_app_distr. cbn [rev]. rewrite <- app_assoc, map_app. apply Forall_rev in C.
  induction C as [|c cs' HC C IH]; [cbn; now destruct M as [-> | ->]|]. cbn [map app openb]. now rewrite HC.
Qed.

Lemma seq_later : forall a l b, seq a l b -> forall x k, in_checked x l -> In k (numbers_here x) -> (a <= k)%nat.
Proof.
  intros a l b Q. induction Q as [a b L|a x l b c d L U N1 S1 IH1 S2 IH2]; intros y k C I.
  - inversion C as [? J|? ? J]; destruct J.
  - pose proof (seq_le _ _ _ S1). inversion C as [? J|z ? J D]; subst.
    + destruct J as [<-|J]; [now apply N1|]. assert (c <= k)%nat; [|lia]. apply IH2 with y; [now apply ic_here|exact I].
    + destruct J as [<-|J]; [apply IH1 in I; [lia|exact D]|]. assert (c <= k)%nat; [|lia]. apply IH2 with y; [now apply ic_below with z|exact I].
Qed.
Lemma declared_later : forall w src ts tree s l, accepted w src ts tree s l -> forall x k, in_checked x l -> In k (numbers_here x) -> k <> 0%nat.
Proof.
  intros w src ts tree s l A x k C I. apply accepted_walk in A as (s1 & A).
  assert (Q : seq (List.length (s_syms setup_semantic_state)) l (List.length (s_syms s1))).
  { eapply walk_seq; [|exact A]. apply Forall_forall. intros n _. apply nodes_seq. }
  pose proof (seq_later _ _ _ Q x k C I) as LE. cbn in LE. lia.
Qed.
Lemma first_symbol : forall w src ts tree s l env, accepted w src ts tree s l -> ce_syms env = s_syms s ->
  forall y, nth_error (ce_syms env) 0 = Some y -> y_name y = [] /\ forall v, y_kind y <> KVar v.
Proof.
  intros w src ts tree s l env (_ & H) -> y E. unfold validate_ast_tree in H. apply sbind_pass in H as (s1 & l1 & H1 & H).
  apply rbind_pass in H as (s2 & H2 & H). apply sbind_pass in H as (s3 & v & H3 & H). inversion H; subst s3 l1. clear H.
  assert (E1 : s_syms s = s_syms s1).
  { assert (E2 : s_syms s2 = s_syms s1).
    { unfold reset_scope_head in H2. apply bind_ok in H2 as (h & _ & H2). inversion H2; subst. reflexivity. }
    rewrite <- E2. unfold check_unused_symbols in H3. destruct (w_quiet w); [inversion H3; subst; reflexivity|].
    apply rbind_pass in H3 as (st & _ & H3). destruct (snd st); [discriminate H3|]. inversion H3; subst. reflexivity. }
  assert (HS : hists setup_semantic_state s1 l).
  { refine (proj1 (walk_hist w src tree _ _ _ _ _ H1)). apply Forall_forall. intros n _. apply nodes_hist. }
  destruct (hs_keep _ _ _ _ _ _ _ HS 0%nat main_symbol eq_refl) as (y' & E' & (N' & _) & K'). rewrite E1 in E. assert (y' = y) as -> by congruence.
  split; [exact N'|]. intros w0 KV. rewrite KV in K'. exact K'.
Qed.

Lemma accepted_nodes : forall w src ts tree s l env c23, accepted w src ts tree s l -> no_call_blocks tree -> few_arguments tree -> ce_syms env = s_syms s -> writable c23 env l ->
  chain false l /\ forall n, in_checked n l -> (okn env n /\ space_fine env n) /\ shape env n.
Proof.
  intros w src ts tree s l env c23 A NC FA ES (WS & WP & WL & WF & WX). pose proof (declared_later _ _ _ _ _ _ A) as DL. destruct (final_symbols _ _ _ _ _ _ A NC FA) as (s1 & e & EQ & RD & B). split.
  - apply chain_types. rewrite (block_types _ _ _ _ _ _ _ B). exact (block_chain _ _ _ _ _ _ _ A NC (bo_top _)).
  - intros x C. destruct (checked_paired _ _ _ _ _ C _ _ _ B) as (n & P). destruct (located _ _ _ _ _ _ _ P _ _ B) as (en & en' & S0 & _).
    assert (IT : in_tree n tree) by exact (paired_in _ _ _ _ P).
    assert (GD : forall y, checked_expr x = Some y -> good env y).
    { intros y CE. destruct (elab_use _ _ _ _ _ _ _ y S0) as (a & E); [exists y; split; [exact CE|constructor]|].
      apply (elab_good s1 w src en a y env RD); [congruence|exact E|exact (WP x y C CE)]. }
    split; [split|].
    + split; [exact GD|]. split; [|split].
      * intros k ks nm f PY (y & NY & <- & KF). clear P. inversion S0; subst x; cbn [tn_pay] in PY; try discriminate PY. assert (k0 = k /\ ks0 = ks) as (-> & ->) by (split; congruence).
        match goal with E : sig s1 k = Some (DFun _ _) |- _ => destruct (sig_fun _ _ _ _ E) as (f' & F1 & _ & F2) end.
        unfold Model_LLVM.sym_func, Model_Sem.deref in F1. rewrite <- EQ, <- ES, NY in F1. cbn [bind] in F1. rewrite KF in F1. assert (f = f') as -> by congruence.
        split; [|apply (DL _ k C); now left]. rewrite F2.
        match goal with E : params_ok _ _ _ _ _ _ _ |- _ => clear - E; induction E as [|e p ps t ts' n0 k0 ks e' _ _ _ _ _ IH]; [reflexivity|cbn [List.length]; now rewrite IH] end.
      * intro T. clear P. inversion S0; subst x; cbn [tn_type] in T; try discriminate T; cbn [tn_pay].
        -- match goal with E : elab _ _ _ _ (ECall _ _ _) _ |- _ => inversion E; subst end. eauto.
        -- match goal with E : In (n_type n) _ |- _ => rewrite T in E; destruct E as [E|[E|[E|[]]]]; discriminate E end.
        -- match goal with E : In (n_type n) _ |- _ => rewrite T in E; repeat (destruct E as [E|E]; [discriminate E|]); destruct E end.
      * destruct (stmt_child _ _ _ _ _ _ _ S0) as (e1 & e2 & BC). apply chain_types. rewrite (block_types _ _ _ _ _ _ _ BC). exact (block_chain _ _ _ _ _ _ _ A NC (bo_below _ _ IT)).
    + intros k y PY NY. assert (W : writable_symbol c23 y). { destruct k as [|k]; [|exact (WS k y NY)]. exfalso. apply (DL x 0%nat C); [|reflexivity]. unfold numbers_here. rewrite PY. now left. } clear P. inversion S0; subst x; cbn [tn_pay] in PY; try discriminate PY. assert (k0 = k) as -> by congruence.
      match goal with E : sig s1 k = Some (DSpace _) |- _ => unfold sig in E; rewrite <- EQ, <- ES, NY in E end. unfold writable_symbol in W.
      destruct (y_kind y) as [v|f|a|[a|]]; try exact W; exfalso; try congruence. destruct (_ =? _) in *; congruence.
    + split; [exact GD|]. pose proof (WX x) as WXX. clear P. inversion S0; subst x; cbn [tn_type tn_pay tn_child checked_expr] in *; auto.
      * match goal with E : In (n_type n) _ |- _ => destruct E as [<-|[<-|[<-|[]]]]; exact I end.
      * intros k' ks' nm f PY IF EX. exact (WXX k' ks' nm f C PY IF EX).
      * match goal with E : In (n_type n) _ |- _ => repeat (destruct E as [<-|E]; [auto|]); destruct E end.
Qed.

Theorem c_programs_l : forall w src ts tree s l env c23 m t, accepted w src ts tree s l -> no_call_blocks tree -> few_arguments tree -> ce_syms env = s_syms s ->
  writable c23 env l -> has_base (ce_file env) (m ++ u ".sk") -> nz m -> Spec_Names.fits m -> c_file env l = Ok t ->
  exists hs ds, is_c_file c23 t hs ds /\ unit_stands env l (chr "." :: m) ds /\ helped l hs /\ NoDup hs.
Proof.
  intros w src ts tree s l env c23 m t A NC FA ES W HB NZ FI H. destruct (accepted_nodes w src ts tree s l env c23 A NC FA ES W) as (CH & ND).
  destruct W as (WS & WP & WL & WF & WX).
  apply (file_back env c23 l t (chr "." :: m) WS (first_symbol _ _ _ _ _ _ env A ES) WL WF); auto.
  - intros n C. exact (proj1 (ND n C)).
  - intros n C. exact (proj2 (ND n C)).
  - now apply main_name_ok.
  - intros c [<-|I]; [repeat split; discriminate|]. apply WF. destruct HB as (_ & [-> |(dir & ->)]).
    + apply in_or_app. now left.
    + apply in_or_app. right. right. apply in_or_app. now left.
Qed.
