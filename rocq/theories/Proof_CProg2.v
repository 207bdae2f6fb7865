(** Tokens of generated lines. *)
From Coq Require Import List Arith NArith ZArith Bool Lia Ascii String.
From Verif Require Import Base Model_Token Model_Literal Model_Parse Model_Sem Spec_Sem Model_Names Model_CGen Model_CFile Spec_C Proof_C Proof_C2 Spec_CGen Proof_CGen
  Proof_CGen2 Spec_CProg Proof_CProg Spec_CBack.
Import ListNotations.
Open Scope list_scope.
Open Scope N_scope.

Definition flatb (t : text) : bool := forallb (fun c => negb (c =? 10)) t.
Definition starts (t : text) : Prop := match t with c :: _ => c <> chr "#" | [] => False end.
(** A piece of a line that is made of these tokens in front of blanks, `)`, `,` and `;`. *)
Record piece (t : text) (ts : list ctok) : Prop := mkpiece {
  pc_toks : forall rest, stop rest -> c_tokens (t ++ rest) = option_map (app ts) (c_tokens rest);
  pc_flat : flatb t = true }.

Lemma flat_app : forall a b, flatb (a ++ b) = flatb a && flatb b.
Proof. intros a b. apply forallb_app. Qed.
Lemma starts_app : forall a b, starts a -> starts (a ++ b).
Proof. intros [|c a] b H; [destruct H|exact H]. Qed.
Lemma semi_stop : forall r, stop (chr ";" :: r).
Proof. intro r. left. cbn. auto. Qed.

Lemma piece_sp : forall a x b y, piece a x -> piece b y -> piece (a ++ chr " " :: b) (x ++ y).
Proof.
  intros a x b y [A1 A2] [B1 B2]. constructor.
  - intros rest S. rewrite <- app_assoc. cbn [app]. rewrite A1 by apply blank_stop. rewrite lex_blank by reflexivity. rewrite B1 by exact S.
    now rewrite map_app_app.
  - rewrite flat_app, A2. exact B2.
Qed.
Lemma piece_semi : forall a x, piece a x -> piece (a ++ u ";") (x ++ [op ";"]).
Proof.
  intros a x [A1 A2]. constructor.
  - intros rest S. rewrite <- app_assoc. change (u ";" ++ rest) with (chr ";" :: rest). rewrite A1 by apply semi_stop.
    replace (c_tokens (chr ";" :: rest)) with (option_map (cons (KOp (u ";"))) (c_tokens rest)) by (symmetry; punct).
    now rewrite map_app_cons.
  - rewrite flat_app, A2. reflexivity.
Qed.
Lemma piece_comma : forall a x b y, piece a x -> piece b y -> piece (a ++ u ", " ++ b) (x ++ op "," :: y).
Proof.
  intros a x b y [A1 A2] [B1 B2]. constructor.
  - intros rest S. replace ((a ++ u ", " ++ b) ++ rest) with (a ++ chr "," :: chr " " :: b ++ rest) by (rewrite <- !app_assoc; reflexivity).
    rewrite A1 by apply comma_stop. rewrite lex_comma, lex_blank by reflexivity. rewrite B1 by exact S. now rewrite map_cons_app, map_app_app.
  - rewrite !flat_app, A2, B2. reflexivity.
Qed.
Lemma piece_paren : forall a x, piece a x -> piece (u "(" ++ a ++ u ")") (op "(" :: x ++ [op ")"]).
Proof.
  intros a x [A1 A2]. constructor.
  - intros rest S. replace ((u "(" ++ a ++ u ")") ++ rest) with (chr "(" :: a ++ chr ")" :: rest) by (cbn [app u map list_ascii_of_string]; rewrite <- app_assoc; reflexivity).
    rewrite lex_open, A1 by apply paren_stop. rewrite lex_close, map_app_cons. now rewrite map_cons_app.
  - rewrite !flat_app, A2. reflexivity.
Qed.

(** Words *)
Definition wordb (t : text) : bool := match t with [] => false | c :: a => is_letter c && forallb is_word a end.
Lemma word_flat : forall a, forallb is_word a = true -> flatb a = true.
Proof.
  intros a H. unfold flatb. rewrite forallb_forall in *. intros c I. specialize (H c I). destruct (c =? 10) eqn:E; [|reflexivity].
  apply N.eqb_eq in E. subst c. discriminate H.
Qed.
Lemma letter_word : forall c, is_letter c = true -> is_word c = true.
Proof. intros c H. unfold is_word. now rewrite H. Qed.
Lemma wordb_flat : forall t, wordb t = true -> flatb t = true /\ starts t.
Proof.
  intros [|c a] H; [discriminate H|]. cbn [wordb] in H. apply andb_true_iff in H as (L & W). split.
  - apply word_flat. cbn [forallb]. now rewrite W, (letter_word _ L).
  - cbn [starts]. intros ->. discriminate L.
Qed.
Lemma lex_wordb : forall t rest, wordb t = true -> ends_word rest -> c_tokens (t ++ rest) = option_map (cons (KId t)) (c_tokens rest).
Proof. intros [|c a] rest H E; [discriminate H|]. cbn [wordb] in H. apply andb_true_iff in H as (L & W). now apply lex_word. Qed.
Lemma piece_word : forall t, wordb t = true -> piece t [KId t].
Proof.
  intros t H. constructor.
  - intros rest S. apply lex_wordb; [exact H|]. now apply stop_ends.
  - now apply wordb_flat.
Qed.
Lemma name_wordb : forall n, c_name n = true -> wordb n = true.
Proof. intros n H. destruct (name_parts n H) as (c & a & -> & L & W). cbn [wordb]. now rewrite L. Qed.

(** `word(arguments)`. *)
Lemma piece_call : forall n a x, wordb n = true -> piece a x -> piece (n ++ u "(" ++ a ++ u ")") (KId n :: op "(" :: x ++ [op ")"]).
Proof.
  intros n a x H P. pose proof (piece_paren a x P) as [A1 A2]. destruct (wordb_flat n H) as (F & S). constructor.
  - intros rest SR. rewrite <- app_assoc. rewrite lex_wordb; [|exact H|].
    + rewrite A1 by exact SR. now rewrite map_cons_app.
    + rewrite <- app_assoc. cbn. split; [reflexivity|discriminate].
  - rewrite flat_app, F. exact A2.
Qed.

(** Single punctuators. *)
Lemma stop_cases : forall rest, stop rest -> rest = [] \/ exists r, rest = 32 :: r \/ rest = 41 :: r \/ rest = 44 :: r \/ rest = 59 :: r \/ rest = 10 :: r.
Proof.
  intros [|c r] H; [auto|]. right. exists r. destruct H as [H| ->]; [|tauto]. cbn in H. intuition (subst; auto).
Qed.
Lemma piece_equal : piece (u "=") [op "="].
Proof.
  constructor; [|reflexivity]. intros rest S. change (u "=" ++ rest) with (chr "=" :: rest).
  change (option_map (app [op "="]) (c_tokens rest)) with (option_map (cons (KOp (u "="))) (c_tokens rest)).
  destruct (stop_cases rest S) as [->|(r & [-> | [-> | [-> | [-> | ->]]]])]; punct.
Qed.
Lemma piece_open : piece (u "{") [op "{"].
Proof.
  constructor; [|reflexivity]. intros rest S. change (u "{" ++ rest) with (chr "{" :: rest).
  change (option_map (app [op "{"]) (c_tokens rest)) with (option_map (cons (KOp (u "{"))) (c_tokens rest)). punct.
Qed.
Lemma piece_close : piece (u "}") [op "}"].
Proof.
  constructor; [|reflexivity]. intros rest S. change (u "}" ++ rest) with (chr "}" :: rest).
  change (option_map (app [op "}"]) (c_tokens rest)) with (option_map (cons (KOp (u "}"))) (c_tokens rest)). punct.
Qed.
Lemma piece_braces : piece (u "{}") [op "{"; op "}"].
Proof.
  constructor; [|reflexivity]. intros rest S. destruct piece_close as [C _].
  change (u "{}" ++ rest) with (chr "{" :: chr "}" :: rest).
  replace (c_tokens (chr "{" :: chr "}" :: rest)) with (option_map (cons (KOp (u "{"))) (c_tokens (chr "}" :: rest))) by (symmetry; punct).
  change (chr "}" :: rest) with (u "}" ++ rest). rewrite C by exact S. now rewrite map_cons_app.
Qed.
Lemma piece_number : forall t, whole_number t -> flatb t = true -> piece t [KNum t].
Proof.
  intros t W F. constructor; [|exact F].
  intros rest S. now apply lex_number.
Qed.
Lemma plain_charb : forall s, plain_chars s -> forallb plain_char s = true.
Proof.
  intros s P. rewrite forallb_forall. intros c I. destruct (P c I) as (P1 & P2 & P3). unfold plain_char.
  apply N.eqb_neq in P1, P2, P3. rewrite P1, P2, P3. reflexivity.
Qed.
Lemma plain_flat : forall s, plain_chars s -> flatb s = true.
Proof.
  intros s P. unfold flatb. rewrite forallb_forall. intros c I. destruct (P c I) as (P1 & P2 & P3). apply N.eqb_neq in P2. now rewrite P2.
Qed.
Lemma piece_string : forall s, plain_chars s -> piece (quote ++ s ++ quote) [KStr s].
Proof.
  intros s P. constructor.
  - intros rest _. unfold quote. cbn [app]. rewrite <- app_assoc. cbn [app]. change 34 with (chr """"). rewrite lex_string by now apply plain_charb.
    reflexivity.
  - rewrite !flat_app, (plain_flat s P). reflexivity.
Qed.

(** Types *)
Fixpoint type_toks (t : ty) : list ctok :=
  match t with
  | TInt => [kw "int64_t"] | TFloat => [kw "double"] | TRune => [kw "char32_t"] | TStr => [kw "char"; op "*"]
  | TBool => [kw "bool"] | TVoid => [kw "void"] | TRef t => type_toks t ++ [op "*"]
  end.
Definition star_stop (t : text) : Prop := stop t \/ exists r, t = chr "*" :: r.
Lemma star_lex : forall rest, star_stop rest -> c_tokens (chr "*" :: rest) = option_map (cons (op "*")) (c_tokens rest).
Proof.
  intros rest [S|(r & ->)].
  - destruct (stop_cases rest S) as [->|(r & [-> | [-> | [-> | [-> | ->]]]])]; [reflexivity|apply lex_star; discriminate..].
  - apply lex_star. discriminate.
Qed.
Lemma star_ends : forall rest, star_stop rest -> ends_word rest.
Proof. intros rest [S|(r & ->)]; [now apply stop_ends|]. split; [reflexivity|discriminate]. Qed.
Lemma type_lex : forall t rest, star_stop rest -> c_tokens (skull_type_to_c_type t ++ rest) = option_map (app (type_toks t)) (c_tokens rest).
Proof.
  induction t; intros rest S; cbn [skull_type_to_c_type type_toks]; try (rewrite lex_wordb; [reflexivity|reflexivity|now apply star_ends]).
  - change (u "char*") with (u "char" ++ chr "*" :: []). rewrite <- app_assoc. cbn [app]. rewrite lex_wordb; [|reflexivity|split; [reflexivity|discriminate]].
    rewrite star_lex by exact S. now destruct (c_tokens rest).
  - rewrite <- app_assoc. change (u "*" ++ rest) with (chr "*" :: rest). rewrite IHt by (right; eexists; reflexivity).
    rewrite star_lex by exact S. now rewrite map_app_cons.
Qed.
Lemma type_flat : forall t, flatb (skull_type_to_c_type t) = true /\ starts (skull_type_to_c_type t).
Proof.
  induction t; cbn [skull_type_to_c_type]; try (split; [reflexivity|discriminate]). destruct IHt as (F & S). split.
  - rewrite flat_app, F. reflexivity.
  - now apply starts_app.
Qed.
Lemma piece_type : forall t, piece (skull_type_to_c_type t) (type_toks t).
Proof. intro t. destruct (type_flat t) as (F & S). constructor; auto. intros rest H. apply type_lex. now left. Qed.

(** Expressions *)
Lemma hex_flat : forall t, forallb (fun c => is_digit c || is_up c) t = true -> flatb t = true.
Proof.
  intros t H. apply word_flat. rewrite forallb_forall in *. intros c I. specialize (H c I). apply orb_true_iff in H as [H|H]; [now apply digit_word|now apply up_word].
Qed.
Lemma dec_flat : forall n, flatb (digits 10 n) = true.
Proof. intro n. apply word_flat, digits_word, digits_dec. Qed.
Lemma finite_flat : forall h, finite_hex h -> flatb h = true.
Proof.
  intros h (x & f & s & d & -> & X & S & _ & D & F). rewrite flat_app. change (flatb (u "0x")) with true. cbn [andb].
  change (x :: f ++ chr "p" :: s :: d) with ([x] ++ f ++ [chr "p"] ++ [s] ++ d). rewrite !flat_app. rewrite !andb_true_iff. repeat split.
  - apply word_flat. cbn [forallb]. now rewrite (hex_digit_word _ X).
  - destruct F as [->|(g & -> & G)]; [reflexivity|]. change (chr "." :: g) with ([chr "."] ++ g). rewrite flat_app. change (flatb [chr "."]) with true. cbn [andb].
    apply word_flat. rewrite forallb_forall in *. intros c I. apply hex_digit_word. now apply G.
  - destruct S as [-> | ->]; reflexivity.
  - now apply word_flat, digits_word.
Qed.

Lemma join_flat : forall ts, Forall (fun t => flatb t = true) ts -> flatb (join ts) = true.
Proof.
  induction 1 as [|t ts H F IH]; [reflexivity|]. cbn [join]. destruct ts as [|t' ts]; [exact H|]. rewrite !flat_app, H, IH. reflexivity.
Qed.
Lemma binary_flat : forall o l t a b c, binary_fmt o l t = Ok (a, b, c) -> flatb a = true /\ flatb b = true /\ flatb c = true.
Proof.
  intros o l t a b c H. destruct o; cbn [binary_fmt] in H;
    repeat match type of H with (if ?g then _ else _) = _ => destruct g end; try discriminate H; injection H as <- <- <-; repeat split.
Qed.
Lemma unary_flat : forall o a b, unary_fmt o = (a, b) -> flatb a = true /\ flatb b = true.
Proof. intros o a b H. destruct o; cbn [unary_fmt] in H; injection H as <- <-; repeat split. Qed.

Lemma const_flat : forall env t v ty x, good_part env (XConst t v ty) -> gen_expr_const_c env ty v = Ok x -> flatb x = true.
Proof.
  intros env t v ty x G H. cbn [good_part] in G. destruct v as [z|f|b|c|s].
  - destruct G as (-> & _). cbn [gen_expr_const_c] in H.
    assert (L : flatb (fmt_li z) = true).
    { unfold fmt_li. destruct (z <? 0)%Z; [|apply dec_flat]. change (chr "-" :: digits 10 (Z.to_N (- z))) with ([chr "-"] ++ digits 10 (Z.to_N (- z))).
      rewrite flat_app, dec_flat. reflexivity. }
    destruct ((INT_MAX <? z)%Z || (z <? INT_MIN)%Z).
    + assert (x = fmt_li z ++ u "L") as -> by congruence. now rewrite flat_app, L.
    + assert (x = fmt_li z) as -> by congruence. exact L.
  - destruct G as (-> & h & F & E). cbn [gen_expr_const_c] in H. apply finite_flat in F. destruct (ce_zero env f).
    + assert (x = u "0.0") as -> by congruence. reflexivity.
    + assert (x = ce_hex env f) as -> by congruence. destruct E as [-> | ->]; [exact F|]. change (chr "-" :: h) with ([chr "-"] ++ h). now rewrite flat_app, F.
  - subst ty. cbn [gen_expr_const_c] in H. assert (x = if b then u "1" else u "0") as -> by congruence. destruct b; reflexivity.
  - destruct G as (-> & _). cbn [gen_expr_const_c] in H. assert (x = u "0x" ++ digits 16 c) as -> by congruence.
    rewrite flat_app, (hex_flat _ (digits_hex c)). reflexivity.
  - destruct G as (-> & P). cbn [gen_expr_const_c] in H. assert (x = chr """" :: s ++ [chr """"]) as -> by congruence.
    change (chr """" :: s ++ [chr """"]) with ([chr """"] ++ s ++ [chr """"]). rewrite !flat_app, (plain_flat _ P). reflexivity.
Qed.

Lemma expr_flat : forall env x, good env x -> forall t, gen_expr_c env x = Ok t -> flatb t = true.
Proof.
  intros env x. induction x as [t k ty c|t v ty|t k args ty F|o r ty c IH|o l r ty c IHl IHr] using texpr_ind'; intros G x0 H.
  - destruct (G _ (xp_self _)) as (y & v & E & K & CN). cbn [gen_expr_c] in H. unfold var_name, deref in H. rewrite E in H. cbn [bind] in H. rewrite K in H.
    injection H as <-. now apply wordb_flat, name_wordb.
  - apply (const_flat env t v ty x0); [exact (G _ (xp_self _))|exact H].
  - destruct (G _ (xp_self _)) as (y & f & E & K & CN & FN). cbn [gen_expr_c] in H. unfold deref in H. rewrite E in H. cbn [bind] in H. rewrite K in H.
    assert (NF := proj1 (wordb_flat _ (name_wordb _ CN))). destruct args as [|a args].
    + rewrite FN in H. cbn [List.length N.of_nat N.eqb] in H. assert (x0 = y_name y ++ u "()") as -> by congruence. now rewrite flat_app, NF.
    + assert (A : Forall (read_back env) (a :: args)).
      { rewrite Forall_forall. intros b I. apply gen_back. intros p P. apply G. now apply xp_arg with b. }
      destruct (args_back env (a :: args) A) as (ts & toks & es & GA & _); [discriminate|].
      rewrite FN in H. replace (N.of_nat (List.length (a :: args)) =? 0) with false in H by (symmetry; apply N.eqb_neq; cbn [List.length]; lia).
      rewrite Nat2N.id in H. rewrite (args_loop_join _ _ _ None GA) in H by discriminate. cbn [bind] in H.
      assert (x0 = y_name y ++ u "(" ++ join ts ++ u ")") as -> by congruence. rewrite !flat_app, NF. rewrite join_flat; [reflexivity|].
      assert (Q : forall b, In b (a :: args) -> good env b) by (intros b I p P; apply G; now apply xp_arg with b). clear - GA F Q.
      revert F Q. induction GA as [|b t0 bs ts E GA IH]; intros F Q; constructor.
      * inversion F as [|? ? F1 F2]; subst. apply F1; [apply Q; now left|exact E].
      * inversion F as [|? ? F1 F2]; subst. apply IH; [exact F2|]. intros b0 I. apply Q. now right.
  - assert (GR : good env r) by (intros p P; apply G; now apply xp_un). cbn [gen_expr_c] in H.
    destruct (unary_fmt o) as [a b] eqn:U. apply unary_flat in U as (UA & UB).
    match type of H with bind ?m _ = _ => destruct m as [tr|] eqn:ER end; [|discriminate H]. cbn [bind] in H.
    assert (x0 = a ++ tr ++ b) as -> by congruence. rewrite !flat_app, UA, UB. rewrite (IH GR tr); [reflexivity|].
    reflexivity.
  - cbn [gen_expr_c] in H. destruct (binary_fmt o (x_ty l) ty) as [[[a b] c0]|] eqn:B; [|discriminate H]. apply binary_flat in B as (B1 & B2 & B3). cbn [bind] in H.
    destruct (gen_expr_c env l) as [tl|] eqn:EL; [|discriminate H]. cbn [bind] in H. destruct (gen_expr_c env r) as [tr|] eqn:ER; [|discriminate H]. cbn [bind] in H.
    assert (x0 = a ++ tl ++ b ++ tr ++ c0) as -> by congruence. rewrite !flat_app, B1, B2, B3.
    rewrite (IHl (fun p P => G _ (xp_left _ _ _ _ _ _ P)) tl eq_refl). rewrite (IHr (fun p P => G _ (xp_right _ _ _ _ _ _ P)) tr eq_refl). reflexivity.
Qed.

(** The text of an expression as a piece. *)
Lemma expr_piece : forall env x t, good env x -> gen_expr_c env x = Ok t ->
  exists ts e, piece t ts /\ reads 2 ts e /\ same env x e.
Proof.
  intros env x t G H. destruct (gen_back env x G) as (t' & ts & e & G1 & L & R & S). assert (t' = t) as -> by congruence.
  exists ts, e. split; [|auto]. constructor; [exact (lx_toks _ _ L)|exact (expr_flat env x G t H)].
Qed.

(** * Lines *)

Definition toks (t : text) : option (list ctok) := c_tokens (no_directives MStart t).
(** A text of some lines, without the last line end. *)
Definition lns (t : text) (ts : list ctok) : Prop := forall rest, toks (t ++ 10 :: rest) = option_map (app ts) (toks rest).

Lemma lns_app : forall a x b y, lns a x -> lns b y -> lns (a ++ [10] ++ b) (x ++ y).
Proof.
  intros a x b y A B rest. replace ((a ++ [10] ++ b) ++ 10 :: rest) with (a ++ 10 :: (b ++ 10 :: rest)) by (rewrite <- app_assoc; reflexivity).
  rewrite A, B. now rewrite map_app_app.
Qed.
Lemma lns_nil : lns [] [].
Proof.
  intro rest. unfold toks. change (no_directives MStart ([] ++ 10 :: rest)) with (10 :: no_directives MStart rest). rewrite lex_blank by reflexivity.
  now destruct (c_tokens _).
Qed.

Lemma inside_line : forall t rest, flatb t = true -> no_directives MInside (t ++ 10 :: rest) = t ++ 10 :: no_directives MStart rest.
Proof.
  induction t as [|c t IH]; intros rest F; [reflexivity|]. cbn [flatb forallb] in F. apply andb_true_iff in F as (F1 & F2). cbn [app no_directives].
  apply negb_true_iff in F1. rewrite F1. f_equal. now apply IH.
Qed.
Lemma start_line : forall t rest, flatb t = true -> starts t -> no_directives MStart (t ++ 10 :: rest) = t ++ 10 :: no_directives MStart rest.
Proof.
  intros [|c t] rest F S; [destruct S|]. cbn [flatb forallb] in F. apply andb_true_iff in F as (F1 & F2). cbn [app no_directives].
  apply negb_true_iff in F1. rewrite F1. cbn [starts] in S. apply N.eqb_neq in S. rewrite S. f_equal. now apply inside_line.
Qed.
Lemma lns_piece : forall t ts, piece t ts -> starts t -> lns t ts.
Proof.
  intros t ts [P F] S rest. unfold toks. rewrite start_line by auto. rewrite P by (right; reflexivity). rewrite lex_blank by reflexivity. reflexivity.
Qed.

Lemma directive_line : forall t rest, flatb t = true -> no_directives MDirective (t ++ 10 :: rest) = 10 :: no_directives MStart rest.
Proof.
  induction t as [|c t IH]; intros rest F; [reflexivity|]. cbn [flatb forallb] in F. apply andb_true_iff in F as (F1 & F2). cbn [app no_directives].
  apply negb_true_iff in F1. rewrite F1. now apply IH.
Qed.
Lemma lns_directive : forall d t ts, flatb d = true -> lns t ts -> lns (chr "#" :: d ++ [10] ++ t) ts.
Proof.
  intros d t ts F L rest. unfold toks. cbn [app]. rewrite <- app_assoc. cbn [app no_directives]. change (chr "#" =? 10) with false. change (chr "#" =? chr "#") with true. cbn match.
  rewrite directive_line by exact F. rewrite lex_blank by reflexivity. apply L.
Qed.

(** Texts in front of which a tab may be put. *)
Lemma inside_start : forall t, starts t -> no_directives MInside t = no_directives MStart t.
Proof. intros [|c t] S; [destruct S|]. cbn [no_directives starts] in *. apply N.eqb_neq in S. now rewrite S. Qed.
Lemma lns_tabs : forall n t ts, starts t -> lns t ts -> lns (repeat 9 n ++ t) ts /\ starts (repeat 9 n ++ t).
Proof.
  induction n as [|n IH]; intros t ts S L; [auto|]. destruct (IH t ts S L) as (L' & S'). split; [|discriminate].
  intro rest. cbn [repeat app]. unfold toks. cbn [no_directives]. change (9 =? 10) with false. change (9 =? chr "#") with false. cbn match.
  rewrite inside_start by now apply starts_app. rewrite lex_blank by reflexivity. apply L'.
Qed.
