(** One step of the tokenizer, and the whole tokenizer. *)
From Coq Require Import List Arith NArith Bool Lia Ascii String.
From Verif Require Import Base Model_Token Spec_Token Proof_Token Proof_Token2.
Import ListNotations.
Open Scope list_scope.
Open Scope N_scope.

(** ** The current line *)
Fixpoint curline (b : text) : text :=
  match b with
  | [] => []
  | x :: r => if x =? newline then [] else x :: curline r
  end.

Lemma curline_app : forall a b, ~ In newline a -> curline (a ++ b) = a ++ curline b.
Proof.
  induction a as [|x a IH]; intros b H; [reflexivity|]. cbn [app curline].
  apply not_in_cons in H as (H1 & H2). apply N.eqb_neq in H1. rewrite H1, IH by assumption. reflexivity.
Qed.

Lemma last_line_id : forall s, ~ In newline s -> last_line s = s.
Proof. intros [|c r] H; [reflexivity|]. cbn [last_line]. destruct (in_dec N.eq_dec newline (c :: r)); [contradiction|reflexivity]. Qed.

Lemma last_line_nl : forall a s, ~ In newline s -> last_line (a ++ newline :: s) = s.
Proof.
  induction a as [|x a IH]; intros s H.
  - cbn [app last_line]. destruct (in_dec N.eq_dec newline (newline :: s)) as [_|C].
    + now apply last_line_id.
    + exfalso. apply C. now left.
  - cbn [app last_line]. destruct (in_dec N.eq_dec newline (x :: a ++ newline :: s)) as [_|C].
    + now apply IH.
    + exfalso. apply C. right. apply in_or_app. right. now left.
Qed.

Lemma curline_spec : forall b, last_line (rev b) = rev (curline b).
Proof.
  intro b. assert (X : b = curline b \/ exists r, b = curline b ++ newline :: r).
  { induction b as [|x b IH]; [now left|]. cbn [curline]. destruct (x =? newline) eqn:E.
    - eqb_t E. subst x. right. now exists b.
    - destruct IH as [IH|(r & IH)]; [left; congruence|right; exists r; cbn [app]; congruence]. }
  assert (Y : ~ In newline (curline b)).
  { clear X. induction b as [|x b IH]; [intros []|]. cbn [curline]. destruct (x =? newline) eqn:E; [intros []|].
    eqb_f E. intros [I|I]; [congruence|contradiction]. }
  assert (Z : ~ In newline (rev (curline b))) by (intro I; apply Y; now apply in_rev).
  destruct X as [X|(r & X)].
  - rewrite X at 1. now apply last_line_id.
  - rewrite X at 1. rewrite rev_app_distr. cbn [rev]. rewrite <- app_assoc. now apply last_line_nl.
Qed.

Definition simple_cur (b : text) : Prop := forall x, In x (curline b) -> ~ quote x /\ x <> hash.
Definition colok (c : ctx) : Prop :=
  simple_cur (c_before c) -> c_col c = N.of_nat (List.length (curline (c_before c))).

Lemma firstn_before : forall (b r : text), firstn (List.length b) (rev b ++ r) = rev b.
Proof. intros b r. rewrite <- (rev_length b), firstn_app, Nat.sub_diag, firstn_all. cbn. now rewrite app_nil_r. Qed.

Lemma simple_line_cur : forall src b r, src = rev b ++ r ->
  (simple_line src (List.length b) <-> simple_cur b).
Proof.
  intros src b r ->. unfold simple_line, simple_cur. rewrite firstn_before, curline_spec.
  split; intros H x I; apply H; [now apply -> in_rev|now apply in_rev].
Qed.

(** A location is the right one for offset b. *)
Definition locok (src : text) (b : nat) (l : location) : Prop :=
  l_line l = N.of_nat (1 + newlines (firstn b src)) /\
  (simple_line src b -> l_column l = N.of_nat (1 + List.length (last_line (firstn b src)))).

(** ** The invariant of the main loop *)
Record inv (src : text) (c : ctx) : Prop := mkinv {
  i_sane : sane c;
  i_line : lineok c;
  i_col : colok c;
  i_src : src = rev (c_before c) ++ c_rest c;
  i_nz : source (c_rest c);
  i_last : c_done c <> [] -> S (c_last c) = List.length (c_done c) \/ t_begin (c_token c) <> None }.

Lemma len_curline : forall b, (List.length (curline b) <= List.length b)%nat.
Proof. induction b as [|x b IH]; [reflexivity|]. cbn [curline]. destruct (x =? newline); cbn; lia. Qed.

Lemma here_ok : forall src c, inv src c -> c_rest c <> [] ->
  locok src (c_pos c) (here (column_inc c)).
Proof.
  intros src c I _. split.
  - change (l_line (here (column_inc c))) with (c_line c). rewrite (i_line _ _ I). unfold c_pos. rewrite (i_src _ _ I), firstn_before, nl_rev. reflexivity.
  - intro H. apply (simple_line_cur src (c_before c) (c_rest c) (i_src _ _ I)) in H.
    change (l_column (here (column_inc c))) with (w32 (c_col c + 1)). rewrite (i_col _ _ I H). unfold c_pos.
    rewrite (i_src _ _ I), firstn_before, curline_spec, rev_length.
    pose proof (len_curline (c_before c)). pose proof (i_sane _ _ I) as S. unfold sane in S.
    rewrite w32_small; lia.
Qed.

(** The token once it has been opened. *)
Definition open_of (c : ctx) (cm : bool) (t : token) : Prop :=
  match t_begin (c_token c) with
  | None => exists l, t = mktok (Some (c_pos c)) (t_len (c_token c)) (if cm then T_COMMENT else t_type (c_token c)) l /\
                      l = here (column_inc c)
  | Some b => t = mktok (Some b) (t_len (c_token c)) (if cm then T_COMMENT else t_type (c_token c)) (t_loc (c_token c))
  end.

Lemma ensure_is : forall c c1, c_token c1 = c_token c -> c_pos c1 = c_pos c ->
  here c1 = here (column_inc c) ->
  exists t, ensure_begin c1 = set_token c1 t /\ open_of c false t.
Proof.
  intros c c1 Et Ep Eh. unfold ensure_begin, open_of. rewrite Et.
  destruct (c_token c) as [[b|] ln ty lo] eqn:Ec; cbn [t_begin t_len t_type t_loc].
  - exists (mktok (Some b) ln ty lo). split; [|reflexivity]. destruct c1; cbn in *. subst. reflexivity.
  - exists (mktok (Some (c_pos c)) ln ty (here (column_inc c))). split.
    + unfold token_add_info. rewrite Et, Ep, Eh. reflexivity.
    + eexists. split; reflexivity.
Qed.

Lemma open_comment : forall c t, open_of c false t ->
  open_of c true (mktok (t_begin t) (t_len t) T_COMMENT (t_loc t)).
Proof.
  intros c t. unfold open_of. destruct (t_begin (c_token c)).
  - intros ->. reflexivity.
  - intros (l & -> & ->). eexists. split; reflexivity.
Qed.

Lemma open_begin : forall c cm t, open_of c cm t -> t_begin t <> None.
Proof.
  intros c cm t. unfold open_of. destruct (t_begin (c_token c)).
  - intros ->. discriminate.
  - intros (l & -> & _). discriminate.
Qed.

Definition no_piece (s : text) : Prop := forall px cm s', s = px ++ s' -> ~ piece px cm s'.

Lemma stuck_no_piece : forall s e, stuck s e -> no_piece s.
Proof.
  intros s e S px cm s' Ep P. destruct S as [r H|q r Q H|b r B|r H1 H2].
  - destruct P as [c0 s0 B D Q Hh|q body s0 Q Qd|c0 body s0 C Nn A|body s0 B];
      cbn [app] in Ep; uncons Ep Ep0 Ep1.
    + congruence.
    + apply hash_facts. now rewrite Ep0.
    + destruct (H _ _ Ep1) as (H1 & H2 & _). destruct C; contradiction.
    + destruct (H _ _ Ep1) as (_ & _ & H3). congruence.
  - pose proof (quote_facts _ Q) as (Q0 & Qn & Qb & Qh & Qbl & Qd0).
    destruct P as [c0 s0 B D Q' Hh|q' body s0 Q' Qd|c0 body s0 C Nn A|body s0 B];
      cbn [app] in Ep; uncons Ep Ep0 Ep1; try congruence.
    subst q'. rewrite <- app_assoc in Ep1. exact (H body s0 Ep1 Qd).
  - assert (NE : no_end (chr "}") (b ++ hash :: chr "{" :: r)) by (apply nested_no_end; now exists b, r).
    destruct P as [c0 s0 B' D Q Hh|q body s0 Q Qd|c0 body s0 C Nn A|body s0 B'];
      cbn [app] in Ep; uncons Ep Ep0 Ep1.
    + congruence.
    + apply hash_facts. now rewrite Ep0.
    + uncons Ep1 Ep2 Ep3. destruct C; subst; discriminate.
    + uncons Ep1 Ep2 Ep3. rewrite <- app_assoc in Ep3. apply (NE body s0 Ep3 B').
  - destruct P as [c0 s0 B' D Q Hh|q body s0 Q Qd|c0 body s0 C Nn A|body s0 B'];
      cbn [app] in Ep; uncons Ep Ep0 Ep1.
    + congruence.
    + apply hash_facts. now rewrite Ep0.
    + uncons Ep1 Ep2 Ep3. destruct C; subst; discriminate.
    + uncons Ep1 Ep2 Ep3. rewrite <- app_assoc in Ep3. apply (H1 body s0 Ep3 B').
Qed.

(** What a step over a piece gives. *)
Definition stepped (src : text) (f : nat) (c : ctx) (px : text) (cm : bool) (s' : text) : Prop :=
  exists c', inner_loop f c = LOk c' /\ inv src c' /\ c_rest c' = s' /\
    c_before c' = rev px ++ c_before c /\ c_done c' = c_done c /\
    open_of c cm (c_token c').

Lemma unsimple : forall a x b, In x a -> ~ In newline a -> (quote x \/ x = hash) -> ~ simple_cur (a ++ b).
Proof.
  intros a x b I Nn Q S. unfold simple_cur in S. rewrite curline_app in S by assumption.
  destruct (S x) as (S1 & S2); [apply in_or_app; now left|]. tauto.
Qed.

Lemma source_app : forall a b, source (a ++ b) -> source a /\ source b.
Proof. intros a b H. split; intro I; apply H, in_or_app; auto. Qed.

Lemma finish_inv : forall src c px s' t col ln lst cmt,
  inv src c -> c_rest c = px ++ s' -> t_begin t <> None ->
  ln = N.of_nat (1 + newlines (rev px ++ c_before c)) ->
  (simple_cur (rev px ++ c_before c) -> col = N.of_nat (List.length (curline (rev px ++ c_before c)))) ->
  inv src (mkctx (c_done c) t lst (rev px ++ c_before c) s' ln col cmt).
Proof.
  intros src c px s' t col ln lst cmt I E T L C. constructor; cbn.
  - pose proof (i_sane _ _ I) as S. unfold sane in *. cbn. rewrite E in S.
    rewrite ?app_length, ?rev_length in *. lia.
  - exact L.
  - exact C.
  - rewrite (i_src _ _ I), E, rev_app_distr, rev_involutive, <- app_assoc. reflexivity.
  - pose proof (i_nz _ _ I) as Z. rewrite E in Z. now apply source_app in Z.
  - intros _. now right.
Qed.

Lemma inner_hash : forall f c, cur c = hash ->
  inner_loop f c = let! c := iter_comment f (column_inc c) in
    if cur c =? 0 then LOk c else code_inc (if cur c =? 10 then next_line c else c).
Proof.
  intros f c E. unfold inner_loop. change (cur (column_inc c)) with (cur c). rewrite E. reflexivity.
Qed.

Definition after_piece (c c' : ctx) (px s' : text) : Prop :=
  (s' = [] /\ c_rest c' = [] /\ c_before c' = rev px ++ c_before c) \/
  (exists y, y <> newline /\ y <> 0 /\ c_rest c' = y :: s' /\ y :: c_before c' = rev px ++ c_before c).

(** Where the error of a step is reported. *)
Definition err_at (c : ctx) (e : lexerr) (l : location) : Prop :=
  match e with
  | E_INVALID_COMMENT_START => l = here (column_inc c)
  | E_NESTED_BLOCK_COMMENT => exists body r, c_rest c = hash :: chr "{" :: body ++ hash :: chr "{" :: r /\ block_body body /\
      l_line l = N.of_nat (1 + newlines (rev (c_before c) ++ hash :: chr "{" :: body))
  | E_NO_CLOSING_COMMENT | E_NO_CLOSING_QUOTE =>
      l = match t_begin (c_token c) with None => here (column_inc c) | Some _ => t_loc (c_token c) end
  end.

Lemma open_loc : forall c t, open_of c false t ->
  t_loc t = match t_begin (c_token c) with None => here (column_inc c) | Some _ => t_loc (c_token c) end.
Proof.
  intros c t O. unfold open_of in O. destruct (t_begin (c_token c)).
  - now rewrite O.
  - destruct O as (l & -> & ->). reflexivity.
Qed.

Lemma iter_comment_ok : forall src f c r, inv src c -> c_rest c = hash :: r ->
  (List.length (c_rest c) <= f)%nat ->
  (exists px s' c', c_rest c = px ++ s' /\ piece px true s' /\ iter_comment f (column_inc c) = LOk c' /\
     c_done c' = c_done c /\ open_of c true (c_token c') /\ lineok c' /\ after_piece c c' px s' /\
     ~ simple_cur (rev px ++ c_before c)) \/
  (exists e l, iter_comment f (column_inc c) = LErr e l /\ stuck (c_rest c) e /\ err_at c e l).
Proof.
  intros src f c r I E Lf. rewrite E in Lf. cbn [List.length] in Lf.
  pose proof (i_nz _ _ I) as Z. rewrite E in Z. apply not_in_cons in Z as (_ & Z).
  remember (iter_comment f (column_inc c)) as RR eqn:ER.
  unfold iter_comment, is_valid_comment_start, peek in ER.
  change (c_rest (column_inc c)) with (c_rest c) in ER. rewrite E in *.
  destruct r as [|c1 r2].
  { cbn [hd lbind] in ER. right. eexists _, _. split; [exact ER|]. split; [apply sk_start; discriminate|reflexivity]. }
  cbn [hd lbind] in ER. apply not_in_cons in Z as (Nc1 & Z). cbn [List.length] in Lf.
  pose proof (i_sane _ _ I) as Sn. pose proof (i_line _ _ I) as Ln.
  destruct ((c1 =? chr " ") || (c1 =? 9)) eqn:El.
  - (* line comment *)
    left. assert (Hc1 : c1 = chr " " \/ c1 = tab) by (apply orb_prop in El as [X|X]; eqb_t X; auto).
    assert (Nn1 : c1 <> newline) by (destruct Hc1; subst; discriminate).
    cbn [lbind] in ER.
    destruct (ensure_is c (set_comment (column_inc c) LINE_COMMENT) eq_refl eq_refl eq_refl) as (t & Et & Ot).
    rewrite Et in ER. clear Et.
    rewrite (chomp_pass _ hash (c1 :: r2)) in ER by exact E. cbn [lbind] in ER.
    match type of ER with context [comment_loop f ?k] => set (ca := k) in ER end.
    destruct (line_loop_ok f ca c1 r2) as (body & s' & c' & E1 & E2 & E3 & E4 & E5 & E6 & E7);
      try reflexivity; try assumption; try lia.
    { intros [X|X]; [congruence|contradiction]. }
    { unfold sane in *. rewrite E in Sn. cbn in *. lia. }
    rewrite E4 in ER. cbn [lbind] in ER. destruct E5 as (S1 & S2 & S3 & S4). rewrite S4 in ER.
    change (c_comment ca) with LINE_COMMENT in ER. cbv iota in ER.
    exists (hash :: c1 :: body), s'. eexists. split; [subst r2; reflexivity|]. split; [now constructor|].
    split; [exact ER|].
    assert (Er : rev (hash :: c1 :: body) ++ c_before c = rev body ++ c1 :: hash :: c_before c).
    { cbn [rev]. now rewrite <- !app_assoc. }
    split; [exact S1|]. split; [|split; [exact E6|split]].
    + unfold set_token at 1. cbn [c_token]. rewrite S2. now apply open_comment.
    + unfold after_piece. rewrite Er. destruct E7 as [E7|(_ & E7)]; [left|right]; exact E7.
    + apply (unsimple _ hash); [apply -> in_rev; now left| |now right].
      intro X. apply in_rev in X. destruct X as [X|[X|X]]; [discriminate|congruence|contradiction].
  - apply orb_false_elim in El as (El1 & El2). eqb_f El1. eqb_f El2.
    destruct (c1 =? chr "{") eqn:Eb.
    2:{ right. eqb_f Eb. cbn [lbind] in ER. eexists _, _. split; [exact ER|]. split; [|reflexivity]. apply sk_start.
        intros c0 r0 X. uncons X X0 X1. subst. auto. }
    eqb_t Eb. subst c1. cbn [lbind] in ER.
    destruct (ensure_is c (set_comment (column_inc c) BLOCK_COMMENT) eq_refl eq_refl eq_refl) as (t & Et & Ot).
    rewrite Et in ER. clear Et.
    rewrite (chomp_pass _ hash (chr "{" :: r2)) in ER by exact E. cbn [lbind] in ER.
    match type of ER with context [comment_loop f ?k] => set (ca := k) in ER end.
    destruct (block_loop_ok f ca (chr "{") r2) as
      [(body & r & c' & E1 & E2 & E3 & E4 & E5 & E6 & E7)|[(c' & E1 & E2 & E3 & E4)|(l & E1 & E2)]];
      try reflexivity; try assumption; try lia.
    { unfold sane in *. rewrite E in Sn. cbn in *. lia. }
    + left. rewrite E3 in ER. cbn [lbind] in ER. destruct E4 as (S1 & S2 & S3 & S4). rewrite S4 in ER.
      change (c_comment ca) with BLOCK_COMMENT in ER. cbv iota in ER. unfold cur in ER. rewrite E5 in ER. cbn [hd] in ER.
      change (chr "}" =? 0) with false in ER. cbv iota in ER.
      exists (hash :: chr "{" :: body ++ [hash; chr "}"]), r. eexists.
      split; [rewrite E1; cbn [app]; now rewrite <- app_assoc|]. split; [now constructor|].
      split; [exact ER|].
      assert (Er : rev (hash :: chr "{" :: body ++ [hash; chr "}"]) ++ c_before c =
                   chr "}" :: hash :: rev body ++ chr "{" :: hash :: c_before c).
      { cbn [rev]. rewrite rev_app_distr. cbn [rev app]. now rewrite <- !app_assoc. }
      split; [exact S1|]. split; [|split; [exact E7|split]].
      * unfold set_token at 1. cbn [c_token]. rewrite S2. now apply open_comment.
      * right. exists (chr "}"). split; [discriminate|]. split; [discriminate|]. split; [exact E5|].
        rewrite Er. unfold set_token. cbn [c_before]. rewrite E6. reflexivity.
      * rewrite Er. apply (unsimple [chr "}"; hash] hash (rev body ++ chr "{" :: hash :: c_before c)); [right; now left| |now right].
        intros [X|[X|[]]]; discriminate.
    + right. rewrite E1 in ER. cbn [lbind] in ER. destruct E2 as (S1 & S2 & S3 & S4). rewrite S4 in ER.
      change (c_comment ca) with BLOCK_COMMENT in ER. cbv iota in ER. unfold cur in ER. rewrite E3 in ER.
      eexists _, _. split; [exact ER|]. destruct E4. split; [now apply sk_open|]. cbn [err_at]. rewrite S2. exact (open_loc _ _ Ot).
    + right. rewrite E1 in ER. cbn [lbind] in ER. eexists _, _. split; [exact ER|].
      destruct E2 as (body & r & -> & B & EL). split; [now apply sk_nested|]. exists body, r. split; [exact E|]. split; [exact B|].
      rewrite EL. f_equal. change (c_before ca) with (hash :: c_before c).
      change (chr "{" :: hash :: c_before c) with ([chr "{"] ++ [hash] ++ c_before c).
      change (hash :: chr "{" :: body) with ([hash] ++ [chr "{"] ++ body). rewrite !nl_app, nl_rev. lia.
Qed.

Lemma after_inv : forall src c c' px s' , inv src c -> c_rest c = px ++ s' -> after_piece c c' px s' ->
  c_done c' = c_done c -> t_begin (c_token c') <> None -> lineok c' -> ~ simple_cur (rev px ++ c_before c) ->
  exists c2, (if cur c' =? 0 then LOk c' else code_inc (if cur c' =? 10 then next_line c' else c')) = LOk c2 /\
    inv src c2 /\ c_rest c2 = s' /\ c_before c2 = rev px ++ c_before c /\ c_done c2 = c_done c /\
    c_token c2 = c_token c'.
Proof.
  intros src c c' px s' I E A D T L U. destruct A as [(X1 & X2 & X3)|(y & X2 & X3 & X4 & X5)].
  - exists c'. unfold cur. rewrite X2. cbn [hd]. split; [reflexivity|]. subst s'.
    split; [|auto]. destruct c' as [dn tk ls bf rs ln cl cm]. cbn in *. subst dn rs bf.
    apply finish_inv; auto. intro. contradiction.
  - unfold cur. rewrite X4. cbn [hd].
    assert (Y0 : (y =? 0) = false) by (now apply N.eqb_neq).
    assert (Y1 : (y =? 10) = false) by (now apply N.eqb_neq). rewrite Y0, Y1.
    unfold code_inc. rewrite X4. eexists. split; [reflexivity|]. cbn. rewrite X5, D.
    split; [|auto]. apply finish_inv; auto.
    + unfold lineok in L. rewrite L, <- X5. now rewrite nl_no.
    + intro. contradiction.
Qed.

Lemma step_comment : forall src f c r, inv src c -> c_rest c = hash :: r ->
  (List.length (c_rest c) <= f)%nat ->
  (exists px s', c_rest c = px ++ s' /\ piece px true s' /\ stepped src f c px true s') \/
  (exists e l, inner_loop f c = LErr e l /\ stuck (c_rest c) e /\ err_at c e l).
Proof.
  intros src f c r I E Lf. unfold stepped. rewrite inner_hash by (unfold cur; now rewrite E).
  destruct (iter_comment_ok src f c r I E Lf) as
    [(px & s' & c' & E1 & E2 & E3 & E4 & E5 & E6 & E7 & E8)|(e & l & E1 & E2 & EA)].
  - left. exists px, s'. split; [assumption|]. split; [assumption|]. rewrite E3. cbn [lbind].
    destruct (after_inv src c c' px s' I E1 E7 E4 (open_begin _ _ _ E5) E6 E8)
      as (c2 & F1 & F2 & F3 & F4 & F5 & F6).
    exists c2. rewrite F6. auto 10.
  - right. rewrite E1. cbn [lbind]. eauto.
Qed.

(** ** Quotes *)
Lemma inner_quote : forall f c, quote (cur c) ->
  inner_loop f c = let! c := iter_quote f (column_inc c) in
    if is_delimeter (cur c) then code_inc (let c := parse_delimiter c in if cur c =? 10 then next_line c else c)
    else match t_begin (c_token c) with
         | None => code_inc (let c := if is_whitespace (cur c) then c else token_add_info c in if cur c =? 10 then next_line c else c)
         | Some b =>
             if (t_len (c_token c) =? 0) && is_whitespace (cur c) then
               let c' := close_token c b in
               code_inc (let c := (mkctx (c_done c') (c_token c') (List.length (c_done c))
                             (c_before c') (c_rest c') (c_line c') (c_col c') (c_comment c')) in
                         if cur c =? 10 then next_line c else c)
             else code_inc (if cur c =? 10 then next_line c else c)
         end.
Proof.
  intros f c Q. unfold inner_loop. change (cur (column_inc c)) with (cur c).
  pose proof (quote_facts _ Q) as (_ & _ & _ & Nh & _). apply N.eqb_neq in Nh. unfold hash in Nh. rewrite Nh.
  apply quote_quote in Q. rewrite Q. reflexivity.
Qed.

Lemma step_quote : forall src f c q r, inv src c -> c_rest c = q :: r -> quote q ->
  (List.length (c_rest c) <= f)%nat ->
  (exists px s', c_rest c = px ++ s' /\ piece px false s' /\ stepped src f c px false s') \/
  (exists e l, inner_loop f c = LErr e l /\ stuck (c_rest c) e /\ err_at c e l).
Proof.
  intros src f c q r I E Q Lf. unfold stepped.
  assert (Ecur : cur c = q) by (unfold cur; now rewrite E).
  rewrite inner_quote by (now rewrite Ecur).
  rewrite E in Lf. cbn [List.length] in Lf.
  pose proof (i_nz _ _ I) as Z. rewrite E in Z. apply not_in_cons in Z as (_ & Z).
  pose proof (i_sane _ _ I) as Sn. pose proof (i_line _ _ I) as Ln.
  pose proof (quote_facts _ Q) as (Q0 & Qn & Qb & Qh & Qbl & Qd).
  remember (iter_quote f (column_inc c)) as RR eqn:ER. unfold iter_quote in ER.
  change (cur (column_inc c)) with (cur c) in ER. rewrite Ecur in ER.
  destruct (ensure_is c (column_inc c) eq_refl eq_refl eq_refl) as (t & Et & Ot).
  rewrite Et in ER. clear Et.
  match type of ER with context [quote_loop f q ?k] => set (ca := k) in ER end.
  destruct (quote_loop_ok f q ca q r) as
      [(body & r2 & c' & E1 & E2 & E3 & E4 & E5 & E6 & E7)|(c' & E1 & E2 & E3 & E4)];
    try assumption; try lia.
  - apply lineok_at_not; [exact Ln|]. change (c_rest ca) with (c_rest c). rewrite E. exact Qn.
  - rewrite E3 in ER. cbn [lbind] in ER. unfold cur in ER. rewrite E5 in ER. cbn [hd] in ER.
    assert (Y0 : (q =? 0) = false) by (now apply N.eqb_neq). rewrite Y0 in ER. subst RR. cbn [lbind].
    unfold cur. rewrite E5. cbn [hd].
    assert (Y1 : is_delimeter q = false) by (now apply delim_not).
    assert (Y2 : is_whitespace q = false) by (now apply ws_not). rewrite Y1, Y2.
    destruct E4 as (S1 & S2 & S3 & S4). rewrite S2. change (c_token ca) with t.
    destruct (t_begin t) as [b|] eqn:Eb; [|exfalso; eapply open_begin; eassumption].
    rewrite andb_false_r.
    assert (Y3 : (q =? 10) = false) by (now apply N.eqb_neq). rewrite Y3.
    unfold code_inc. rewrite E5.
    left. exists (q :: body ++ [q]), r2.
    assert (Ec : c_rest c = (q :: body ++ [q]) ++ r2) by (rewrite E, E1; cbn [app]; now rewrite <- app_assoc).
    split; [assumption|]. split; [now constructor|].
    assert (Er : rev (q :: body ++ [q]) ++ c_before c = q :: rev body ++ q :: c_before c).
    { cbn [rev]. rewrite rev_app_distr. cbn [rev app]. now rewrite <- app_assoc. }
    eexists. split; [reflexivity|]. cbn. rewrite E6, S1, S2.
    change (c_done ca) with (c_done c). change (c_token ca) with t. change (c_before ca) with (c_before c).
    rewrite <- Er. split; [apply finish_inv; try assumption|auto].
    + congruence.
    + unfold lineok_at in E7. rewrite E5 in E7. rewrite E7, E6, Er. reflexivity.
    + intro X. exfalso. rewrite Er in X. revert X.
      apply (unsimple [q] q); [now left| |now left]. intros [X|[]]. congruence.
  - right. rewrite E1 in ER. cbn [lbind] in ER. unfold cur in ER. rewrite E3 in ER.
    rewrite ER. cbn [hd lbind]. change (0 =? 0) with true. cbv iota. cbn [lbind].
    eexists _, _. split; [reflexivity|]. rewrite E. split; [now apply sk_quote|]. cbn [err_at].
    destruct E2 as (_ & S2 & _). rewrite S2. exact (open_loc _ _ Ot).
Qed.
