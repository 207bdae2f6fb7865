(** The C text of an expression reads back as the expression. *)
From Coq Require Import List Arith NArith ZArith Bool Lia Ascii String.
From Verif Require Import Base Model_Token Model_Utf8 Spec_Utf8 Proof_Utf8 Model_Literal Spec_Literal Model_Parse Spec_Parse Model_Sem Spec_Sem
  Proof_Sem Proof_Sem2 Proof_Sem4 Proof_Sem5 Proof_SemEx Model_CGen Spec_C Proof_C Proof_C2 Spec_CGen Proof_CGen.
Import ListNotations.
Open Scope list_scope.
Open Scope N_scope.

Lemma texpr_ind' : forall P : texpr -> Prop,
  (forall t k ty c, P (XVar t k ty c)) -> (forall t v ty, P (XConst t v ty)) ->
  (forall t k args ty, Forall P args -> P (XCall t k args ty)) ->
  (forall o r ty c, P r -> P (XUn o r ty c)) ->
  (forall o l r ty c, P l -> P r -> P (XBin o l r ty c)) -> forall x, P x.
Proof.
  intros P H1 H2 H3 H4 H5. fix IH 1. intros [t k ty c|t v ty|t k args ty|o r ty c|o l r ty c].
  - apply H1.
  - apply H2.
  - apply H3. induction args as [|a args IHa]; constructor; [apply IH|exact IHa].
  - apply H4. apply IH.
  - apply H5; apply IH.
Qed.

(** What the proof needs to know of each part. *)
Definition good_part (env : cctx) (x : texpr) : Prop :=
  match x with
  | XVar _ k _ _ => exists y v, nth_error (ce_syms env) k = Some y /\ y_kind y = KVar v /\ c_name (y_name y) = true
  | XCall _ k args _ => exists y f, nth_error (ce_syms env) k = Some y /\ y_kind y = KFunc f /\ c_name (y_name y) = true /\
      f_num f = N.of_nat (List.length args)
  | XConst _ (VInt z) ty => ty = TInt /\ (- 2 ^ 63 < z < 2 ^ 63)%Z
  | XConst _ (VFloat f) ty => ty = TFloat /\ exists h, finite_hex h /\ (ce_hex env f = h \/ ce_hex env f = chr "-" :: h)
  | XConst _ (VBool _) ty => ty = TBool
  | XConst _ (VRune c) ty => ty = TRune /\ c < 2 ^ 31
  | XConst _ (VStr s) ty => ty = TStr /\ plain_chars s
  | XUn URef (XVar _ _ _ _) _ _ => True
  | XUn URef _ _ _ => False
  | XUn _ _ _ _ => True
  | XBin BPow _ _ ty _ => ty = TInt \/ ty = TFloat
  | XBin _ _ _ _ _ => True
  end.
Definition good (env : cctx) (x : texpr) : Prop := forall p, xpart p x -> good_part env p.

Definition read_back (env : cctx) (x : texpr) : Prop := exists t ts e,
  gen_expr_c env x = Ok t /\ lexes t ts /\ reads 2 ts e /\ same env x e.

Lemma num_reads : forall n, reads 2 [KNum n] (CNum n).
Proof. intro n. apply (reads_higher 0); [lia|lia|constructor]. Qed.
Lemma neg_reads : forall n, reads 2 [KOp (u "-"); KNum n] (CUn (u "-") (CNum n)).
Proof. intro n. apply R_un; [cbn; auto|apply num_reads]. Qed.

Lemma hex_digit_word : forall c, hex_digit c = true -> is_word c = true.
Proof.
  intros c H. unfold hex_digit in H. apply orb_true_iff in H as [H|H]; [now apply digit_word|].
  apply andb_true_iff in H as [H1 H2]. unfold is_word, is_letter.
  replace ((chr "a" <=? c) && (c <=? chr "z")) with true; [reflexivity|]. symmetry. apply andb_true_iff. split; [exact H1|].
  apply N.leb_le in H2. apply N.leb_le. change (chr "f") with 102 in H2. change (chr "z") with 122. lia.
Qed.

Lemma number_app : forall r c rest, forallb (fun c => is_word c || (c =? chr ".")) r = true -> 
  number c (r ++ rest) = let '(a, b) := number (last r c) rest in (r ++ a, b).
Proof.
  induction r as [|d r IH]; intros c rest F.
  - cbn [app last]. now destruct (number c rest).
  - cbn [forallb] in F. apply andb_true_iff in F as [F1 F2]. cbn [app number].
    rewrite F1. cbn [orb]. rewrite IH by exact F2. destruct r as [|e r]; [cbn [last]|].
    + destruct (number d rest); reflexivity.
    + replace (last (d :: e :: r) c) with (last (e :: r) d).
      * destruct (number (last (e :: r) d) rest). reflexivity.
      * cbn [last]. clear. revert e. induction r as [|f r IH]; intro e; [reflexivity|]. apply IH.
Qed.

Lemma finite_number : forall t, finite_hex t -> whole_number t.
Proof.
  intros t (h & f & s & d & -> & H & S0 & ND & D & F).
  assert (FW : forallb (fun c => is_word c || (c =? chr ".")) f = true).
  { destruct F as [->|(g & -> & G)]; [reflexivity|]. cbn [forallb]. apply andb_true_iff. split; [reflexivity|].
    rewrite forallb_forall in *. intros c I. rewrite (hex_digit_word c (G c I)). reflexivity. }
  change (u "0x" ++ h :: f ++ chr "p" :: s :: d) with (chr "0" :: chr "x" :: h :: f ++ chr "p" :: s :: d).
  split; [reflexivity|].
  replace (chr "x" :: h :: f ++ chr "p" :: s :: d) with ((chr "x" :: h :: f ++ [chr "p"]) ++ s :: d)
    by (cbn [app]; rewrite <- app_assoc; reflexivity).
  rewrite number_app.
  - replace (last _ _) with (chr "p") by (cbn [last]; destruct (f ++ [chr "p"]) eqn:E;
      [destruct f; discriminate E|rewrite <- E; symmetry; apply last_last]).
    assert (X : number s d = (d, [])).
    { clear - D. revert s. induction d as [|c d IH]; intro s; [reflexivity|]. cbn [forallb] in D. apply andb_true_iff in D as [D1 D2].
      cbn [number]. rewrite (digit_word c D1). cbn [orb]. rewrite IH by exact D2. reflexivity. }
    cbn [number]. rewrite X. destruct S0 as [-> | ->]; reflexivity.
  - cbn [forallb]. rewrite (hex_digit_word h H). cbn [orb andb]. rewrite forallb_app, FW. reflexivity.
Qed.

Lemma const_back : forall env t v ty, good env (XConst t v ty) -> read_back env (XConst t v ty).
Proof.
  intros env t v ty G. specialize (G _ (xp_self _)). unfold read_back. cbn [good_part gen_expr_c] in *.
  destruct v as [z|f|b|c|s].
  - destruct G as [-> B]. cbn [gen_expr_const_c]. unfold fmt_li.
    destruct (z <? 0)%Z eqn:Z0.
    + apply Z.ltb_lt in Z0. set (n := Z.to_N (- z)). assert (N0 : n <> 0) by (unfold n; lia). assert (NB : n < 2 ^ 63) by (unfold n; lia).
      pose proof (decimal_constant n) as C. rewrite (proj2 (N.eqb_neq _ _) N0) in C.
      destruct ((INT_MAX <? z)%Z || (z <? INT_MIN)%Z) eqn:W.
      * exists ((chr "-" :: digits 10 n) ++ u "L"), [KOp (u "-"); KNum (digits 10 n ++ u "L")], (CUn (u "-") (CNum (digits 10 n ++ u "L"))).
        split; [reflexivity|]. split; [apply negative_lexes, decimal_number|]. split; [apply neg_reads|].
        specialize (C true). cbn [first_type find fits] in C. unfold first_type in C. cbn [find fits] in C.
        rewrite (proj2 (N.ltb_lt _ _) NB) in C. apply sm_negative with CLong; auto.
      * exists (chr "-" :: digits 10 n), [KOp (u "-"); KNum (digits 10 n)], (CUn (u "-") (CNum (digits 10 n))).
        split; [reflexivity|]. split; [apply negative_lexes, decimal_number|]. split; [apply neg_reads|].
        specialize (C false). cbn iota in C. unfold first_type in C. cbn [find fits] in C.
        rewrite (proj2 (N.ltb_lt n (2 ^ 63)) NB) in C. destruct (n <? 2 ^ 31).
        -- apply sm_negative with CInt; auto.
        -- apply sm_negative with CLong; auto.
    + apply Z.ltb_ge in Z0. set (n := Z.to_N z). assert (NB : n < 2 ^ 63) by (unfold n; lia).
      pose proof (decimal_constant n) as C. 
      destruct ((INT_MAX <? z)%Z || (z <? INT_MIN)%Z) eqn:W.
      * exists (digits 10 n ++ u "L"), [KNum (digits 10 n ++ u "L")], (CNum (digits 10 n ++ u "L")).
        split; [reflexivity|]. split; [apply number_lexes, decimal_number|]. split; [apply num_reads|].
        specialize (C true). cbn iota in C. unfold first_type in C. cbn [find fits] in C.
        rewrite (proj2 (N.ltb_lt n (2 ^ 63)) NB) in C. apply sm_int with CLong; [exact Z0| |auto]. rewrite C. fold n.
        destruct (n =? 0) eqn:N0; [apply N.eqb_eq in N0; now rewrite N0|reflexivity].
      * exists (digits 10 n), [KNum (digits 10 n)], (CNum (digits 10 n)).
        split; [reflexivity|]. split; [apply number_lexes, decimal_number|]. split; [apply num_reads|].
        specialize (C false). cbn iota in C. unfold first_type in C. cbn [find fits] in C.
        rewrite (proj2 (N.ltb_lt n (2 ^ 63)) NB) in C.
        apply sm_int with (if (n =? 0) || (n <? 2 ^ 31) then CInt else CLong); [exact Z0| |destruct ((n =? 0) || (n <? 2 ^ 31)); auto]. rewrite C. fold n.
        destruct (n =? 0) eqn:N0; [apply N.eqb_eq in N0; now rewrite N0|]. cbn [orb]. destruct (n <? 2 ^ 31); reflexivity.
  - destruct G as [-> (h & F & H)]. cbn [gen_expr_const_c]. destruct (ce_zero env f) eqn:Z0.
    + exists (u "0.0"), [KNum (u "0.0")], (CNum (u "0.0")). split; [reflexivity|]. split; [apply number_lexes; split; reflexivity|].
      split; [apply num_reads|]. now constructor.
    + destruct H as [H|H]; rewrite H.
      * exists h, [KNum h], (CNum h). split; [reflexivity|]. split; [apply number_lexes, finite_number, F|].
        split; [apply num_reads|]. rewrite <- H. apply sm_float. now rewrite H.
      * exists (chr "-" :: h), [KOp (u "-"); KNum h], (CUn (u "-") (CNum h)). split; [reflexivity|]. split; [apply negative_lexes, finite_number, F|].
        split; [apply neg_reads|]. now apply sm_negative_float.
  - subst ty. cbn [gen_expr_const_c]. exists (if b then u "1" else u "0"), [KNum (if b then u "1" else u "0")], (CNum (if b then u "1" else u "0")).
    split; [reflexivity|]. split; [destruct b; apply number_lexes; split; reflexivity|]. split; [apply num_reads|].
    apply sm_bool with CInt. destruct b; reflexivity.
  - destruct G as [-> B]. cbn [gen_expr_const_c]. exists (u "0x" ++ digits 16 c), [KNum (u "0x" ++ digits 16 c)], (CNum (u "0x" ++ digits 16 c)).
    split; [reflexivity|]. split; [apply number_lexes, hex_number|]. split; [apply num_reads|].
    apply sm_rune with CInt. now apply hex_constant.
  - destruct G as [-> P]. cbn [gen_expr_const_c]. exists (chr """" :: s ++ [chr """"]), [KStr s], (CStr s).
    split; [reflexivity|]. split; [|split; [apply (reads_higher 0); [lia|lia|constructor]|constructor]].
    constructor; [do 2 eexists; split; [reflexivity|discriminate]|]. intros rest _. cbn [app]. rewrite <- app_assoc. cbn [app].
    apply lex_string. rewrite forallb_forall. intros c I. destruct (P c I) as (P1 & P2 & P3). unfold plain_char.
    apply N.eqb_neq in P1, P2, P3. rewrite P1, P2, P3. reflexivity.
Qed.

(** Texts of arguments with commas between. *)
Fixpoint join (ts : list text) : text :=
  match ts with [] => [] | [t] => t | t :: ts => t ++ u ", " ++ join ts end.

Lemma args_loop_join : forall gen args ts old, Forall2 (fun a t => gen a = Ok t) args ts -> args <> [] ->
  args_loop gen (List.length args) args old = Ok (Some (match old with None => join ts | Some o => o ++ u ", " ++ join ts end)).
Proof.
  intros gen args ts old F. revert old. induction F as [|a t args ts E F IH]; intros old NE; [contradiction|].
  cbn [args_loop List.length]. fold (args_loop gen). rewrite E. cbn [bind]. destruct args as [|b args].
  - inversion F; subst. cbn [args_loop List.length]. destruct old; reflexivity.
  - rewrite IH by discriminate. inversion F; subst. f_equal. f_equal. destruct old as [o|]; [|reflexivity].
    cbn [join]. rewrite <- !app_assoc. reflexivity.
Qed.

Lemma args_back : forall env args, Forall (read_back env) args -> args <> [] ->
  exists ts toks es, Forall2 (fun a t => gen_expr_c env a = Ok t) args ts /\ lexes (join ts) toks /\
    reads_list toks es /\ same_all env args es.
Proof.
  intros env args F. induction F as [|a args (t & ts & e & G & L & R & S) F IH]; intro NE; [contradiction|].
  destruct args as [|b args].
  - exists [t], ts, [e]. split; [auto|]. split; [exact L|]. split; [|repeat constructor; exact S].
    apply R_last. apply (reads_higher 2); [lia|lia|exact R].
  - destruct IH as (txts & toks & es & G' & L' & R' & S'); [discriminate|].
    exists (t :: txts), (ts ++ KOp (u ",") :: toks), (e :: es). split; [auto|]. split.
    + inversion G'; subst. cbn [join]. now apply comma_lexes.
    + split; [apply R_more; [apply (reads_higher 2); [lia|lia|exact R]|exact R']|now constructor].
Qed.

Lemma call_reads : forall n ts es, c_name n = true -> reads_args ts es ->
  reads 1 (KId n :: KOp (u "(") :: ts ++ [KOp (u ")")]) (CCall (CId n) es).
Proof.
  intros n ts es H R. apply (R_call [KId n] (CId n) ts es); [|exact R]. apply R_up; [lia|]. now constructor.
Qed.

(** Helper functions with two arguments. *)
Lemma helper_back : forall f l r a b ea eb, c_name (u f) = true -> lexes l a -> lexes r b -> reads 2 a ea -> reads 2 b eb ->
  exists ts, lexes ((u f ++ u "(") ++ l ++ u ", " ++ r ++ u ")") ts /\ reads 1 ts (call2 f ea eb).
Proof.
  intros f l r a b ea eb H L R RA RB. exists (KId (u f) :: KOp (u "(") :: (a ++ KOp (u ",") :: b) ++ [KOp (u ")")]). split.
  - replace ((u f ++ u "(") ++ l ++ u ", " ++ r ++ u ")") with (u f ++ u "(" ++ (l ++ u ", " ++ r) ++ u ")")
      by (rewrite <- !app_assoc; reflexivity).
    apply call_lexes; [exact H|]. apply (lx_toks _ _ (comma_lexes _ _ _ _ L R)).
  - apply call_reads; [exact H|]. apply R_some. apply R_more; [apply (reads_higher 2); [lia|lia|exact RA]|].
    apply R_last. apply (reads_higher 2); [lia|lia|exact RB].
Qed.

Lemma infix_back : forall op n l r a b ea eb, In op infix_ops -> level_of op = Some (S n) -> (2 <= n)%nat -> (n < 12)%nat ->
  lexes l a -> lexes r b -> reads 2 a ea -> reads 2 b eb ->
  exists ts, lexes (u "(" ++ l ++ (u " " ++ op ++ u " ") ++ r ++ u ")") ts /\ reads 2 ts (CBin op ea eb).
Proof.
  intros op n l r a b ea eb I LV N1 N2 L R RA RB. exists (KOp (u "(") :: (a ++ KOp op :: b) ++ [KOp (u ")")]).
  split; [now apply infix_lexes|]. apply (reads_higher 0); [lia|lia|]. apply R_paren.
  apply (reads_higher (S n)); [lia|lia|]. apply R_bin; [exact LV| |].
  - apply (reads_higher 2); [lia|lia|exact RA].
  - apply (reads_higher 2); [lia|lia|exact RB].
Qed.

Lemma ty_eqb_true : forall a b, ty_eqb a b = true <-> a = b.
Proof.
  induction a; destruct b; cbn [ty_eqb]; split; intro H; try discriminate H; try reflexivity.
  - f_equal. now apply IHa.
  - injection H as <-. now apply IHa.
Qed.

Lemma binary_back : forall env o l r ty c, good_part env (XBin o l r ty c) -> read_back env l -> read_back env r ->
  read_back env (XBin o l r ty c).
Proof.
  intros env o l r ty c G (tl & al & el & GL & LL & RL & SL) (tr & ar & er & GR & LR & RR & SR).
  assert (INF : forall op n, c_binary o op -> In (u op) infix_ops -> level_of (u op) = Some (S n) -> (2 <= n)%nat -> (n < 12)%nat ->
    (x_ty l = TStr -> o <> BIs /\ o <> BIsnt) ->
    binary_fmt o (x_ty l) ty = Ok (u "(", u " " ++ u op ++ u " ", u ")") -> read_back env (XBin o l r ty c)).
  { intros op n C I LV N1 N2 NS F. destruct (infix_back _ _ _ _ _ _ _ _ I LV N1 N2 LL LR RL RR) as (ts & X & Y).
    do 3 eexists. split; [cbn [gen_expr_c]; rewrite F; cbn [bind]; rewrite GL, GR; reflexivity|]. split; [exact X|]. split; [exact Y|].
    apply sm_binary; auto. }
  assert (HLP : forall f, c_name (u f) = true -> same env (XBin o l r ty c) (call2 f el er) ->
    binary_fmt o (x_ty l) ty = Ok (u f ++ u "(", u ", ", u ")") -> read_back env (XBin o l r ty c)).
  { intros f C SM F. destruct (helper_back _ _ _ _ _ _ _ C LL LR RL RR) as (ts & X & Y).
    do 3 eexists. split; [cbn [gen_expr_c]; rewrite F; cbn [bind]; rewrite GL, GR; reflexivity|]. split; [exact X|].
    split; [apply R_up; [lia|exact Y]|exact SM]. }
  destruct o.
  all: try (eapply INF; [constructor|cbn; tauto|reflexivity|lia|lia|intros _; split; discriminate|reflexivity]; fail).
  - cbn [good_part] in G. destruct G as [-> | ->].
    + apply (HLP "_int_pow"%string); [reflexivity|now constructor|reflexivity].
    + apply (HLP "_float_pow"%string); [reflexivity|now constructor|reflexivity].
  - destruct (ty_eqb (x_ty l) TStr) eqn:T.
    + apply (HLP "_strcmp"%string); [reflexivity|apply ty_eqb_true in T; now constructor|].
      unfold binary_fmt. rewrite T. reflexivity.
    + eapply INF; [constructor|cbn; tauto|reflexivity|lia|lia| |unfold binary_fmt; rewrite T; reflexivity].
      intro E. apply ty_eqb_true in E. congruence.
  - destruct (ty_eqb (x_ty l) TStr) eqn:T.
    + destruct (helper_back "_strcmp" _ _ _ _ _ _ eq_refl LL LR RL RR) as (ts & X & Y).
      do 3 eexists. split; [cbn [gen_expr_c]; unfold binary_fmt; rewrite T; cbn [bind]; rewrite GL, GR; reflexivity|].
      split; [apply (not_lexes _ _ X)|]. split; [apply R_un; [cbn; tauto|apply R_up; [lia|exact Y]]|].
      apply ty_eqb_true in T. now constructor.
    + eapply INF; [constructor|cbn; tauto|reflexivity|lia|lia| |unfold binary_fmt; rewrite T; reflexivity].
      intro E. apply ty_eqb_true in E. congruence.
Qed.

Lemma gen_back : forall env x, good env x -> read_back env x.
Proof.
  intros env x. induction x as [t k ty c|t v ty|t k args ty F|o r ty c IH|o l r ty c IHl IHr] using texpr_ind'; intro G.
  - destruct (G _ (xp_self _)) as (y & v & E & K & N). exists (y_name y), [KId (y_name y)], (CId (y_name y)).
    split; [cbn [gen_expr_c]; unfold var_name, deref; rewrite E; cbn [bind]; rewrite K; reflexivity|].
    split; [now apply name_lexes|]. split; [apply (reads_higher 0); [lia|lia|now constructor]|]. now apply sm_var with v.
  - now apply const_back.
  - destruct (G _ (xp_self _)) as (y & f & E & K & N & FN).
    assert (A : Forall (read_back env) args).
    { rewrite Forall_forall in *. intros a I. apply F; [exact I|]. intros p P. apply G. now apply xp_arg with a. }
    unfold read_back. cbn [gen_expr_c]. unfold deref. rewrite E. cbn [bind]. rewrite K. destruct args as [|a args].
    + rewrite FN. cbn [List.length N.of_nat N.eqb]. exists (y_name y ++ u "()"), (KId (y_name y) :: KOp (u "(") :: [] ++ [KOp (u ")")]), (CCall (CId (y_name y)) []).
      split; [reflexivity|]. split.
      * change (u "()") with (u "(" ++ [] ++ u ")"). apply call_lexes; [exact N|]. intros rest _. cbn [app]. now destruct (c_tokens rest).
      * split; [apply R_up; [lia|]; apply call_reads; [exact N|constructor]|]. apply sm_call with f; auto. constructor.
    + destruct (args_back env (a :: args) A) as (ts & toks & es & GA & LA & RA & SA); [discriminate|].
      rewrite FN. replace (N.of_nat (List.length (a :: args)) =? 0) with false by (symmetry; apply N.eqb_neq; cbn [List.length]; lia).
      rewrite Nat2N.id. rewrite (args_loop_join _ _ _ None GA) by discriminate. cbn [bind].
      do 3 eexists. split; [reflexivity|]. split; [apply call_lexes; [exact N|apply (lx_toks _ _ LA)]|].
      split; [apply R_up; [lia|]; apply call_reads; [exact N|apply R_some; exact RA]|]. now apply sm_call with f.
  - assert (RB : read_back env r) by (apply IH; intros p P; apply G; now apply xp_un).
    assert (GP : forall t0 k ty0 c0, r = XVar t0 k ty0 c0 -> good_part env (XVar t0 k ty0 c0)).
    { intros t0 k ty0 c0 ->. apply G. apply xp_un. constructor. }
    destruct RB as (t & ts & e & GR & LR & RR & SR). specialize (G _ (xp_self _)). destruct o.
    + exists (u "-(" ++ t ++ u ")"), (KOp (u "-") :: KOp (u "(") :: ts ++ [KOp (u ")")]), (CUn (u "-") e).
      split; [cbn [gen_expr_c unary_fmt]; rewrite GR; reflexivity|]. split; [now apply neg_lexes|].
      split; [|apply sm_unary; [constructor|exact SR]]. apply R_un; [cbn; tauto|]. apply (reads_higher 0); [lia|lia|].
      apply R_paren. apply (reads_higher 2); [lia|lia|exact RR].
    + exists (u "!" ++ t ++ []), (KOp (u "!") :: ts), (CUn (u "!") e).
      split; [cbn [gen_expr_c unary_fmt]; rewrite GR; reflexivity|]. rewrite app_nil_r. split; [now apply not_lexes|].
      split; [apply R_un; [cbn; tauto|exact RR]|apply sm_unary; [constructor|exact SR]].
    + cbn [good_part] in G. destruct r as [t0 k ty0 c0| | | |]; try contradiction. destruct (GP t0 k ty0 c0 eq_refl) as (y & v & E & K & N).
      exists (chr "&" :: y_name y), [KOp (u "&"); KId (y_name y)], (CUn (u "&") (CId (y_name y))).
      split; [cbn [gen_expr_c unary_fmt]; unfold var_name, deref; rewrite E; cbn [bind]; rewrite K; cbn [bind]; rewrite app_nil_r; reflexivity|].
      split; [now apply ref_lexes|]. split; [|apply sm_unary; [constructor|now apply sm_var with v]].
      apply R_un; [cbn; tauto|]. apply (reads_higher 0); [lia|lia|now constructor].
    + exists (u "*" ++ t ++ []), (KOp (u "*") :: ts), (CUn (u "*") e).
      split; [cbn [gen_expr_c unary_fmt]; rewrite GR; reflexivity|]. rewrite app_nil_r. split; [now apply deref_lexes|].
      split; [apply R_un; [cbn; tauto|exact RR]|apply sm_unary; [constructor|exact SR]].
  - apply binary_back.
    + apply G. constructor.
    + apply IHl. intros p P. apply G. now apply xp_left.
    + apply IHr. intros p P. apply G. now apply xp_right.
Qed.

(** * Accepted programs *)

Lemma final_symbols : forall w src ts tree s l, accepted w src ts tree s l -> no_call_blocks tree -> few_arguments tree ->
  exists s1 e, s_syms s = s_syms s1 /\ ready s1 /\ block_ok (sig s1) w src [] tree l e.
Proof.
  intros w src ts tree s l A NC FA. pose proof (accepted_fine _ _ _ _ _ _ A NC FA) as F.
  destruct A as (_ & H). unfold validate_ast_tree in H. apply sbind_pass in H as (s1 & l1 & H1 & H).
  apply rbind_pass in H as (s2 & H2 & H). apply sbind_pass in H as (s3 & v & H3 & H). inversion H; subst s3 l1. clear H.
  destruct (walk_fine w src tree) with (before := @nil ntype) (s := setup_semantic_state) (s' := s1) (xs := l) as (I & R & G & B); auto.
  - apply Forall_forall. intros n _. apply node_ok.
  - apply start_inv.
  - apply start_ready.
  - exists s1, (Proof_Sem2.cenv s1). split; [|split; [exact R|apply B; intros k d E; exact E]].
    assert (E2 : s_syms s2 = s_syms s1).
    { unfold reset_scope_head in H2. apply bind_ok in H2 as (h & _ & H2). inversion H2; subst. reflexivity. }
    rewrite <- E2. unfold check_unused_symbols in H3. destruct (w_quiet w); [inversion H3; subst; reflexivity|].
    apply rbind_pass in H3 as (st & _ & H3). destruct (snd st); [discriminate H3|]. inversion H3; subst. reflexivity.
Qed.

Lemma strtoll_range : forall s base z e, strtoll s base = (z, e) -> (- 2 ^ 63 <= z < 2 ^ 63)%Z.
Proof.
  intros s base z e H. unfold strtoll, LLONG_MIN, LLONG_MAX in H. cbv zeta in H.
  match type of H with (if ?g then if (?v >? _)%Z then _ else _ else _) = _ =>
    assert (NV : (0 <= v)%Z) by apply N2Z.is_nonneg;
    remember v as w eqn:EW; clear EW; destruct g end.
  - destruct (w >? 2 ^ 63)%Z eqn:E.
    + assert (z = (- 2 ^ 63)%Z) as -> by congruence. lia.
    + assert (z = (- w)%Z) as -> by congruence. rewrite Z.gtb_ltb, Z.ltb_ge in E. lia.
  - destruct (w >? 2 ^ 63 - 1)%Z eqn:E.
    + assert (z = (2 ^ 63 - 1)%Z) as -> by congruence. lia.
    + assert (z = w) as -> by congruence. rewrite Z.gtb_ltb, Z.ltb_ge in E. lia.
Qed.

Lemma integer_range : forall src t z, eval_integer src t = Ok (Val z) -> (- 2 ^ 63 <= z < 2 ^ 63)%Z.
Proof.
  intros src t z H. unfold eval_integer in H. apply bind_ok in H as (a & _ & H). apply bind_ok in H as (c & _ & H).
  apply bind_ok in H as ((off, base) & _ & H). apply bind_ok in H as (num & _ & H). apply bind_ok in H as (num' & _ & H).
  destruct (strtoll num' base) as [ret er] eqn:E. match type of H with (if ?g then _ else _) = _ => destruct g end; [discriminate H|].
  inversion H; subst. now apply strtoll_range in E.
Qed.

Lemma rune_range : forall wide src t c, eval_rune wide src t = Ok (Val c) -> c < 2 ^ 31.
Proof.
  intros wide src t c H. unfold eval_rune in H. apply bind_ok in H as (a & _ & H). apply bind_ok in H as (b & _ & H).
  apply bind_ok in H as (d & _ & H). destruct d; [discriminate H|]. apply bind_ok in H as (r & _ & H).
  destruct r as [[v adv]|]; [|discriminate H]. apply bind_ok in H as (q & _ & H). destruct (negb (q =? 39)); [discriminate H|].
  destruct (c32rtomb v) as [bs|] eqn:E; [|discriminate H]. inversion H; subst v.
  unfold c32rtomb in E. destruct (c <? 128) eqn:C1; [apply N.ltb_lt in C1; lia|].
  destruct (c <? 2048) eqn:C2; [apply N.ltb_lt in C2; lia|]. destruct (c <? 65536) eqn:C3; [apply N.ltb_lt in C3; lia|].
  destruct (c <? 1114112) eqn:C4; [apply N.ltb_lt in C4; lia|discriminate E].
Qed.

Lemma elab_good : forall s w src en a x env, ready s -> ce_syms env = s_syms s -> elab (sig s) w src en a x -> printable env x -> good env x.
Proof.
  intros s w src en a x env R ES E P p XP. destruct (elab_part _ _ _ _ _ _ XP _ E) as (b & EP). specialize (P p XP).
  clear E XP a x. destruct EP as [t n k ty m c SP RE D|t v ty L|name args num n k ps r xs SP RE D EA TY|a x c EA N0|a x c EA N0|t x c EA|t x ty c EA T0
    |o a b x y r c EA EB T0 OT NZ].
  - unfold sig in D. cbn [good_part printable_part] in *. rewrite ES in *. destruct (nth_error (s_syms s) k) as [y|] eqn:NE; [|discriminate D].
    destruct (y_kind y) as [v|f|o|[o|]] eqn:K; try discriminate D.
    + exists y, v. auto.
    + destruct (_ =? _) in D; discriminate D.
  - cbn [good_part printable_part] in *. destruct L as [z T0 L|f T0 L|T0|c T0 L|bs T0 L].
    + apply integer_range in L. split; [reflexivity|]. lia.
    + auto.
    + reflexivity.
    + apply rune_range in L. auto.
    + auto.
  - unfold sig in D. cbn [good_part printable_part] in *. rewrite ES in *. destruct (nth_error (s_syms s) k) as [y|] eqn:NE; [|discriminate D].
    destruct (y_kind y) as [v|f|o|[o|]] eqn:K; try discriminate D. exists y, f.
    destruct (N.of_nat (List.length (f_params f)) =? f_num f) eqn:C; [|discriminate D]. apply N.eqb_eq in C.
    split; [reflexivity|]. split; [exact K|]. split; [auto|]. inversion D as [[DP DR]]. rewrite <- C, DP, <- TY, map_length. reflexivity.
  - exact I.
  - exact I.
  - inversion EA; subst. exact I.
  - exact I.
  - cbn [good_part]. destruct o; auto. inversion OT as [o0 t0 I0 N0|o0 I0|o0 t0 I0 N0|o0 t0 I0|o0 I0]; subst; cbn in I0.
    + exact N0.
    + destruct I0 as [I0|[I0|[]]]; discriminate I0.
    + destruct I0 as [I0|[I0|[I0|[I0|[]]]]]; discriminate I0.
    + destruct I0 as [I0|[I0|[]]]; discriminate I0.
    + destruct I0 as [I0|[I0|[I0|[]]]]; discriminate I0.
Qed.

Lemma expression_l : forall env x, good env x ->
  exists t e, gen_expr_c env x = Ok t /\ is_c_expression t e /\ same env x e.
Proof.
  intros env x G. destruct (gen_back env x G) as (t & ts & e & G1 & L & R & S). exists t, e. split; [exact G1|].
  split; [|exact S]. exists ts. split.
  - pose proof (lx_toks _ _ L [] I) as X. rewrite app_nil_r in X. rewrite X. cbn. now rewrite app_nil_r.
  - apply (reads_higher 2 12) in R; [|lia|lia]. split; [exact R|]. intros e' R'. exact (reads_unique _ _ _ R' R).
Qed.

Lemma generated_l : forall w src ts tree s l n x y env, accepted w src ts tree s l -> no_call_blocks tree -> few_arguments tree ->
  ce_syms env = s_syms s -> paired n x tree l -> checked_expr x = Some y -> printable env y ->
  exists t e, gen_expr_c env y = Ok t /\ is_c_expression t e /\ same env y e.
Proof.
  intros w src ts tree s l n x y env A NC FA ES PR CE P. apply expression_l.
  destruct (final_symbols _ _ _ _ _ _ A NC FA) as (s1 & e & EQ & R & B).
  destruct (located _ _ _ _ _ _ _ PR _ _ B) as (en & en' & H & _).
  destruct (elab_use _ _ _ _ _ _ _ y H) as (a & E); [exists y; split; [exact CE|constructor]|].
  apply (elab_good s1 w src en a y env R); [congruence|exact E|exact P].
Qed.

(** * Ways to check concrete cases *)

Lemma no_reading : forall ts, (forall f, parse f 12 ts = None) -> forall e, ~ reads 12 ts e.
Proof.
  intros ts H e R. destruct parse_complete as (C & _ & _).
  destruct (C _ _ _ R [] (e, []) I) as (f & F); [exists 1%nat; reflexivity|]. rewrite app_nil_r in F. congruence.
Qed.

Lemma xpart_xparts : forall x e, xpart x e -> In x (xparts e).
Proof.
  intros x e H. induction H as [e|x name k args ty a I H IH|x o a ty c H IH|x o a b ty c H IH|x o a b ty c H IH].
  - destruct e; now left.
  - right. apply in_flat_map. now exists a.
  - now right.
  - right. apply in_app_iff. now left.
  - right. apply in_app_iff. now right.
Qed.

Definition printable_partb (env : cctx) (x : texpr) : bool :=
  match x with
  | XVar _ k _ _ | XCall _ k _ _ => match nth_error (ce_syms env) k with Some y => c_name (y_name y) | None => true end
  | XConst _ (VInt z) _ => negb (z =? - 2 ^ 63)%Z
  | XConst _ (VStr s) _ => forallb plain_char s
  | XConst _ (VFloat f) _ => text_eqb (ce_hex env f) (u "0x1.8p+1") || text_eqb (ce_hex env f) (u "-0x1p-3")
  | _ => true
  end.
Lemma printable_of : forall env x, forallb (printable_partb env) (xparts x) = true -> printable env x.
Proof.
  intros env x H p P. apply xpart_xparts in P. rewrite forallb_forall in H. apply H in P. clear H.
  destruct p as [t k ty c|t [z|f|b|c|s] ty|t k args ty| |]; cbn [printable_part printable_partb] in *; auto.
  - intros y E. now rewrite E in P.
  - apply negb_true_iff in P. now apply Z.eqb_neq in P.
  - apply orb_true_iff in P as [P|P]; apply text_eqb_eq in P; rewrite P.
    + exists (u "0x1.8p+1"). split; [|auto]. exists (chr "1"), (u ".8"), (chr "+"), (u "1"). repeat split; auto; [discriminate|].
      right. exists (u "8"). auto.
    + exists (u "0x1p-3"). split; [|auto]. exists (chr "1"), [], (chr "-"), (u "3"). repeat split; auto. discriminate.
  - intros c I. rewrite forallb_forall in P. apply P in I. unfold plain_char in I. rewrite negb_true_iff, !orb_false_iff, !N.eqb_neq in I. tauto.
  - intros y E. now rewrite E in P.
Qed.

(** An integer constant reads back. *)
Lemma constant_l : forall env z, (- 2 ^ 63 < z < 2 ^ 63)%Z ->
  exists t e ty, gen_expr_const_c env TInt (VInt z) = Ok t /\ is_c_expression t e /\ int_reading e z ty /\ holds ty z.
Proof.
  intros env z B. set (tok := mktok None 0 T_INT_CONST (mkloc 0 0)).
  destruct (expression_l env (XConst tok (VInt z) TInt)) as (t & e & G & C & S).
  { intros p P. inversion P; subst. cbn. auto. }
  assert (FT : forall c n ty, c_constant c = Some (n, ty) -> fits ty n = true).
  { intros c n ty H. unfold c_constant in H. destruct (split_suffix c) as [c' lg].
    assert (X : forall l m, first_type l m = Some (n, ty) -> fits ty n = true).
    { intros l m E. unfold first_type in E. destruct (find (fun t => fits t m) l) as [q|] eqn:F; [|discriminate E].
      inversion E; subst. apply find_some in F. tauto. }
    destruct c' as [|d r]; [discriminate H|].
    destruct (N.eq_dec d 48) as [->|ND].
    - destruct r as [|d2 r]; [match type of H with (match ?o with _ => _ end) = _ => destruct o as [m|]; [exact (X _ _ H)|discriminate H] end|]. destruct (N.eq_dec d2 120) as [->|ND2].
      + destruct r as [|d3 r]; match type of H with (match ?o with _ => _ end) = _ => destruct o as [m|]; [exact (X _ _ H)|discriminate H] end.
      + assert (H' : match c_digits 8 0 (d2 :: r) with
        | Some n => first_type (if lg then [CLong; CULong] else [CInt; CUInt; CLong; CULong]) n | None => None end = Some (n, ty)).
        { rewrite <- H. clear - ND2. destruct d2 as [|p]; [reflexivity|].
          do 7 (destruct p as [p|p|]; try reflexivity). exfalso. apply ND2. reflexivity. }
        match type of H' with (match ?o with _ => _ end) = _ => destruct o as [m|]; [exact (X _ _ H')|discriminate H'] end.
    - assert (H' : match c_digits 10 0 (d :: r) with
        | Some n => first_type (if lg then [CLong] else [CInt; CLong]) n | None => None end = Some (n, ty)).
      { rewrite <- H. clear - ND. destruct d as [|p]; [reflexivity|].
        do 6 (destruct p as [p|p|]; try reflexivity). exfalso. apply ND. reflexivity. }
      match type of H' with (match ?o with _ => _ end) = _ => destruct o as [m|]; [exact (X _ _ H')|discriminate H'] end. }
  cbn [gen_expr_c] in G. exists t, e. inversion S as [|t0 z0 c ty L K|t0 z0 c ty L K T0| | | | | | | | | | | | | ]; subst.
  - exists ty. split; [exact G|]. split; [exact C|]. split; [rewrite <- (Z2N.id z L) at 1; now constructor|].
    apply FT in K. destruct ty; cbn [fits holds] in *; apply N.ltb_lt in K; lia.
  - exists ty. split; [exact G|]. split; [exact C|]. split.
    + replace z with (- Z.of_N (Z.to_N (- z)))%Z by lia. now constructor.
    + apply FT in K. destruct T0 as [-> | ->]; cbn [fits holds] in *; apply N.ltb_lt in K; lia.
Qed.
