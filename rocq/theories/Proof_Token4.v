(** The whole tokenizer. *)
From Coq Require Import List Arith NArith Bool Lia Ascii String.
From Verif Require Import Base Model_Token Spec_Token Proof_Token Proof_Token2 Proof_Token3.
Import ListNotations.
Open Scope list_scope.
Open Scope N_scope.

Lemma inner_other : forall f c, cur c <> hash -> ~ quote (cur c) ->
  inner_loop f c =
    let c := column_inc c in
    if is_delimeter (cur c) then code_inc (let c := parse_delimiter c in if cur c =? 10 then next_line c else c)
    else match t_begin (c_token c) with
         | None => code_inc (let c := if is_whitespace (cur c) then c else token_add_info c in if cur c =? 10 then next_line c else c)
         | Some b =>
             if (t_len (c_token c) =? 0) && is_whitespace (cur c) then
               let c' := close_token c b in
               code_inc (let c := (mkctx (c_done c') (c_token c') (List.length (c_done c))
                             (c_before c') (c_rest c') (c_line c') (c_col c') (c_comment c')) in
                         if cur c =? 10 then next_line c else c)
             else code_inc (if cur c =? 10 then next_line c else c)
         end.
Proof.
  intros f c H Q. unfold inner_loop. change (cur (column_inc c)) with (cur c).
  apply N.eqb_neq in H. unfold hash in H. rewrite H. apply quote_not in Q. rewrite Q. reflexivity.
Qed.

(** The tokens once the open one (if any) is closed. *)
Definition closed_done (c : ctx) : list token :=
  match t_begin (c_token c) with
  | Some b => mktok (Some b) (distance c b) (t_type (c_token c)) (t_loc (c_token c)) :: c_done c
  | None => c_done c
  end.

Lemma colok_step : forall src c x r, inv src c -> c_rest c = x :: r -> x <> newline ->
  simple_cur (x :: c_before c) ->
  w32 (c_col c + 1) = N.of_nat (List.length (curline (x :: c_before c))).
Proof.
  intros src c x r I E Nx S. cbn [curline]. apply N.eqb_neq in Nx. unfold simple_cur in S. cbn [curline] in S.
  rewrite Nx in *. cbn [List.length]. rewrite (i_col _ _ I).
  - pose proof (len_curline (c_before c)). pose proof (i_sane _ _ I) as Sn. unfold sane in Sn.
    rewrite w32_small; lia.
  - intros y Hy. apply S. now right.
Qed.

Lemma step_inv : forall src c x r dn tk lst cm, inv src c -> c_rest c = x :: r ->
  (dn <> [] -> S lst = List.length dn \/ t_begin tk <> None) ->
  inv src (mkctx dn tk lst (x :: c_before c) r
     (if x =? 10 then w32 (c_line c + 1) else c_line c)
     (if x =? 10 then 0 else w32 (c_col c + 1)) cm).
Proof.
  intros src c x r dn tk lst cm I E L. pose proof (i_sane _ _ I) as Sn. unfold sane in Sn. rewrite E in Sn.
  constructor; cbn.
  - unfold sane. cbn in *. lia.
  - unfold lineok. cbn [c_line c_before]. rewrite (i_line _ _ I). destruct (x =? 10) eqn:X.
    + eqb_t X. subst x. rewrite nl_yes. pose proof (nl_le (c_before c)). cbn [List.length] in Sn.
      rewrite w32_small; lia.
    + eqb_f X. now rewrite nl_no.
  - unfold colok. cbn [c_col c_before]. destruct (x =? 10) eqn:X.
    + intros _. eqb_t X. subst x. reflexivity.
    + eqb_f X. intro S. eapply colok_step; eassumption.
  - rewrite (i_src _ _ I), E, <- app_assoc. reflexivity.
  - pose proof (i_nz _ _ I) as Z. rewrite E in Z. now apply not_in_cons in Z.
  - exact L.
Qed.

Lemma delim_facts : forall x, delimiter x -> x <> hash /\ ~ quote x.
Proof.
  intros x D. rewrite <- quote_not. cbn in D.
  repeat (destruct D as [<-|D]; [split; [discriminate|reflexivity]|]). destruct D.
Qed.
Lemma blank_facts : forall x, blank x -> x <> hash /\ ~ quote x.
Proof.
  intros x D. rewrite <- quote_not. cbn in D.
  repeat (destruct D as [<-|D]; [split; [discriminate|reflexivity]|]). destruct D.
Qed.

Lemma step_delim : forall src f c x r, inv src c -> c_rest c = x :: r -> delimiter x ->
  exists c', inner_loop f c = LOk c' /\ inv src c' /\ c_rest c' = r /\ c_before c' = x :: c_before c /\
    c_done c' = mktok (Some (c_pos c)) 1 (delim_type x) (here (column_inc c)) :: closed_done c /\
    c_token c' = make_token.
Proof.
  intros src f c x r I E D. assert (Ec : cur c = x) by (unfold cur; now rewrite E).
  destruct (delim_facts x D) as (Nh & Nq).
  rewrite inner_other by (rewrite Ec; assumption). cbv zeta.
  change (cur (column_inc c)) with (cur c). rewrite Ec. apply delim_delim in D. rewrite D.
  assert (P : parse_delimiter (column_inc c) =
     mkctx (mktok (Some (c_pos c)) 1 (delim_type x) (here (column_inc c)) :: closed_done c) make_token
       (List.length (closed_done c)) (c_before c) (c_rest c) (c_line c) (w32 (c_col c + 1)) (c_comment c)).
  { unfold parse_delimiter, closed_done. change (c_token (column_inc c)) with (c_token c).
    destruct (t_begin (c_token c)) as [b|] eqn:Eb; cbv zeta.
    - unfold close_token. change (c_token (column_inc c)) with (c_token c). rewrite Eb.
      unfold cur, here, c_pos, distance. cbn. rewrite E. reflexivity.
    - unfold cur, here, c_pos. cbn. rewrite E. reflexivity. }
  rewrite P.
  unfold cur at 1. cbn [c_rest]. rewrite E. cbn [hd].
  pose proof (step_inv src c x r (mktok (Some (c_pos c)) 1 (delim_type x) (here (column_inc c)) :: closed_done c)
    make_token (List.length (closed_done c)) (c_comment c) I E) as SI.
  destruct (x =? 10).
  - eexists. split; [reflexivity|]. split; [apply SI; intros _; now left|]. cbn. auto.
  - eexists. split; [reflexivity|]. split; [apply SI; intros _; now left|]. cbn. auto.
Qed.

Lemma step_blank : forall src f c x r, inv src c -> c_rest c = x :: r -> blank x -> x <> newline ->
  ~ delimiter x -> t_len (c_token c) = 0 -> (t_begin (c_token c) = None -> c_token c = make_token) ->
  exists c', inner_loop f c = LOk c' /\ inv src c' /\ c_rest c' = r /\ c_before c' = x :: c_before c /\
    c_done c' = closed_done c /\ c_token c' = make_token.
Proof.
  intros src f c x r I E B Nx Nd T0 Tn. assert (Ec : cur c = x) by (unfold cur; now rewrite E).
  destruct (blank_facts x B) as (Nh & Nq).
  rewrite inner_other by (rewrite Ec; assumption). cbv zeta.
  change (cur (column_inc c)) with (cur c). change (c_token (column_inc c)) with (c_token c).
  rewrite Ec. apply delim_not in Nd. rewrite Nd. apply ws_blank in B. rewrite B, T0. cbn [andb N.eqb].
  assert (X : (x =? 10) = false) by (now apply N.eqb_neq).
  unfold closed_done. destruct (t_begin (c_token c)) as [b|] eqn:Eb.
  - unfold cur. cbn [c_rest close_token column_inc]. rewrite E. cbn [hd]. rewrite X.
    unfold code_inc. cbn [c_rest]. eexists. split; [reflexivity|]. cbn.
    pose proof (step_inv src c x r (mktok (t_begin (c_token c)) (distance (column_inc c) b) (t_type (c_token c)) (t_loc (c_token c)) :: c_done c)
      make_token (List.length (c_done c)) (c_comment c) I E) as SI. rewrite X in SI.
    split; [apply SI; intros _; now left|]. rewrite Eb. auto.
  - cbv iota. change (cur (column_inc c)) with (cur c). rewrite Ec, X. unfold code_inc. cbn [column_inc c_rest]. rewrite E.
    eexists. split; [reflexivity|]. cbn.
    pose proof (step_inv src c x r (c_done c) (c_token c) (c_last c) (c_comment c) I E) as SI. rewrite X in SI.
    split; [apply SI|]; auto.
    intro H. destruct (i_last _ _ I H) as [H2|H2]; [now left|congruence].
Qed.

Lemma step_plain : forall src f c x r, inv src c -> c_rest c = x :: r ->
  ~ blank x -> ~ delimiter x -> ~ quote x -> x <> hash -> t_len (c_token c) = 0 ->
  stepped src f c [x] false r.
Proof.
  intros src f c x r I E B D Q H T0. assert (Ec : cur c = x) by (unfold cur; now rewrite E).
  unfold stepped. rewrite inner_other by (rewrite Ec; assumption). cbv zeta.
  change (cur (column_inc c)) with (cur c). change (c_token (column_inc c)) with (c_token c).
  rewrite Ec. apply delim_not in D. apply ws_not in B. rewrite D, B, andb_false_r.
  assert (X : (x =? 10) = false).
  { destruct (x =? 10) eqn:X; [|reflexivity]. eqb_t X. rewrite X in B. discriminate. }
  destruct (t_begin (c_token c)) as [b|] eqn:Eb.
  - change (cur (column_inc c)) with (cur c). rewrite ?Ec, X. unfold code_inc. cbn [column_inc c_rest]. rewrite E.
    eexists. split; [reflexivity|]. cbn.
    pose proof (step_inv src c x r (c_done c) (c_token c) (c_last c) (c_comment c) I E) as SI. rewrite X in SI.
    split; [apply SI|]; auto. { intros _. right. congruence. }
    repeat split. unfold open_of. rewrite Eb. destruct (c_token c); cbn in *. congruence.
  - change (cur (token_add_info (column_inc c))) with (cur c). rewrite Ec, X.
    unfold code_inc. cbn [token_add_info set_token column_inc c_rest]. rewrite E.
    eexists. split; [reflexivity|]. cbn.
    pose proof (step_inv src c x r (c_done c) (mktok (Some (c_pos (column_inc c))) (t_len (c_token c)) (t_type (c_token c)) (here (column_inc c)))
      (c_last c) (c_comment c) I E) as SI. rewrite X in SI.
    split; [apply SI|]. { intros _. right. discriminate. }
    repeat split. unfold open_of. rewrite Eb. eexists. split; reflexivity.
Qed.

Lemma blank_delim : forall x, blank x -> delimiter x -> x = newline.
Proof.
  intros x B D. cbn in B. destruct B as [<-|[<-|[<-|[<-|[]]]]]; try reflexivity;
  apply delim_delim in D; discriminate.
Qed.

Lemma word_head : forall w cm s, word w cm s -> exists h t, w = h :: t /\ ~ blank h /\ ~ delimiter h.
Proof.
  intros w cm s W. destruct W as [x c s P|x c w c' s P _].
  - eapply piece_head; eassumption.
  - apply piece_head in P as (h & t & -> & N1 & N2). exists h, (t ++ w). auto.
Qed.

Lemma lexed_delim_inv : forall p x s ls, delimiter x -> lexed p (x :: s) ls ->
  exists ls', ls = mklex p 1 (KDelim x) :: ls' /\ lexed (S p) s ls'.
Proof.
  intros p x s ls D L. remember (x :: s) as z eqn:E. destruct L as [q|q c0 s0 ls0 B Nn L0|q c0 s0 ls0 D0 L0|q w cm s0 ls0 W S L0].
  - discriminate.
  - uncons E E0 E1. subst. exfalso. apply Nn. now apply blank_delim.
  - uncons E E0 E1. subst. eauto.
  - apply word_head in W as (h & t & -> & N1 & N2). cbn [app] in E. uncons E E0 E1. subst. contradiction.
Qed.

Lemma lexed_blank_inv : forall p x s ls, blank x -> x <> newline -> lexed p (x :: s) ls -> lexed (S p) s ls.
Proof.
  intros p x s ls B Nx L. remember (x :: s) as z eqn:E. destruct L as [q|q c0 s0 ls0 B0 Nn L0|q c0 s0 ls0 D0 L0|q w cm s0 ls0 W S L0].
  - discriminate.
  - uncons E E0 E1. subst. assumption.
  - uncons E E0 E1. subst. exfalso. apply Nx. now apply blank_delim.
  - apply word_head in W as (h & t & -> & N1 & N2). cbn [app] in E. uncons E E0 E1. subst. contradiction.
Qed.

Lemma no_piece_cword : forall s w cm s', no_piece s -> s = w ++ s' -> cword w cm s' -> w = [].
Proof.
  intros s w cm s' H E W. destruct W as [|x c w c' s' P W]; [reflexivity|].
  exfalso. rewrite <- app_assoc in E. exact (H x c (w ++ s') E P).
Qed.

Lemma no_piece_lexed : forall p x r ls, no_piece (x :: r) -> ~ blank x -> ~ delimiter x -> ~ lexed p (x :: r) ls.
Proof.
  intros p x r ls H B D L. remember (x :: r) as z eqn:E.
  destruct L as [q|q c0 s0 ls0 B0 Nn L0|q c0 s0 ls0 D0 L0|q w cm s0 ls0 W S L0].
  - discriminate.
  - uncons E E0 E1. congruence.
  - uncons E E0 E1. congruence.
  - pose proof (no_piece_cword _ w cm s0 H eq_refl (word_cword _ _ _ W)) as Ew.
    apply word_head in W as (h & t & -> & _). discriminate.
Qed.

Lemma no_piece_open : forall p x r w cm ls, no_piece (x :: r) -> ~ blank x -> ~ delimiter x ->
  ~ lexed_open p (x :: r) w cm ls.
Proof.
  intros p x r w cm ls H B D (s' & E & W & S & L).
  pose proof (no_piece_cword _ w cm s' H E W) as Ew. subst w. cbn [app] in E. subst s'.
  destruct S as [S|(h & t & S & Hd)]; [discriminate|]. uncons S S0 S1. subst. tauto.
Qed.

Definition run (f : nat) (c : ctx) : lexres (list token) :=
  let! c' := main_loop f c in finish_tokens c'.

Definition fin (l : list token) : list token := match l with [] => [make_token] | _ => l end.

Lemma run_step : forall f c c', cur c <> 0 -> inner_loop (S f) c = LOk c' -> run (S f) c = run f c'.
Proof.
  intros f c c' H E. unfold run. cbn [main_loop]. apply N.eqb_neq in H. rewrite H, E. reflexivity.
Qed.
Lemma run_err : forall f c e l, cur c <> 0 -> inner_loop (S f) c = LErr e l -> run (S f) c = LErr e l.
Proof.
  intros f c e l H E. unfold run. cbn [main_loop]. apply N.eqb_neq in H. rewrite H, E. reflexivity.
Qed.

Lemma fin_ne : forall l, l <> [] -> fin l = l.
Proof. intros [|x l] H; [congruence|reflexivity]. Qed.

Lemma distance_ok : forall src c b, inv src c -> distance c b = N.of_nat (c_pos c - b).
Proof.
  intros src c b I. unfold distance. apply w32_small. pose proof (i_sane _ _ I) as S. unfold sane, c_pos in *. lia.
Qed.

Lemma delim_type_ok : forall x, delimiter x -> In (x, delim_type x) delimiter_type.
Proof.
  intros x D. cbn in D.
  destruct D as [<-|[<-|[<-|[<-|[<-|[<-|[<-|[<-|[]]]]]]]]]; cbn; tauto.
Qed.

Definition offended (src : text) (e : lexerr) (l : location) : Prop :=
  exists px s, src = px ++ s /\ reached px s /\ stuck s e /\ complains_at src px s e l.

(** The token that is open starts at b. *)
Definition opened (src : text) (c : ctx) (b : nat) (lo : location) : Prop :=
  exists a w, rev (c_before c) = a ++ w /\ List.length a = b /\ fresh a /\ run_on w (c_rest c) /\ locok src b lo.

Definition main_goal (f : nat) (src : text) (c : ctx) : Prop :=
  (c_token c = make_token -> fresh (rev (c_before c)) ->
   (exists ls ts, lexed (c_pos c) (c_rest c) ls /\ run f c = LOk (fin (rev (c_done c) ++ ts)) /\
      Forall2 (stands_for src) ts ls) \/
   (exists e l, run f c = LErr e l /\ offended src e l /\ forall ls, ~ lexed (c_pos c) (c_rest c) ls)) /\
  (forall b ty lo, c_token c = mktok (Some b) 0 ty lo -> (b <= c_pos c)%nat -> opened src c b lo ->
   (exists w cm ls ts, lexed_open (c_pos c) (c_rest c) w cm ls /\
      run f c = LOk (rev (c_done c) ++
        mktok (Some b) (N.of_nat (c_pos c + List.length w - b)) (if cm then T_COMMENT else ty) lo :: ts) /\
      Forall2 (stands_for src) ts ls) \/
   (exists e l, run f c = LErr e l /\ offended src e l /\ forall w cm ls, ~ lexed_open (c_pos c) (c_rest c) w cm ls)).

Lemma pos_app : forall c c' px, c_before c' = rev px ++ c_before c -> c_pos c' = (c_pos c + List.length px)%nat.
Proof. intros c c' px E. unfold c_pos. rewrite E, app_length, rev_length. lia. Qed.

Lemma main_piece : forall f src c px cm s', inv src c -> (forall c', inv src c' -> reached (rev (c_before c')) (c_rest c') -> (List.length (c_rest c') < f)%nat -> main_goal f src c') ->
  reached (rev (c_before c)) (c_rest c) ->
  (List.length (c_rest c) < S f)%nat -> cur c <> 0 -> c_rest c = px ++ s' -> piece px cm s' -> stepped src (S f) c px cm s' ->
  main_goal (S f) src c.
Proof.
  intros f src c px cm s' I IH Re Lf Hc E P (c' & E1 & I' & E2 & E3 & E4 & E5).
  pose proof (piece_ne _ _ _ P) as Np.
  pose proof (run_step f c c' Hc E1) as ER.
  assert (Lf' : (List.length (c_rest c') < f)%nat).
  { rewrite E2. rewrite E, app_length in Lf. destruct px; [congruence|]. cbn [List.length] in Lf. lia. }
  assert (Re' : reached (rev (c_before c')) (c_rest c')).
  { rewrite E3, E2, rev_app_distr, rev_involutive. apply (re_piece _ _ cm); [assumption|]. now rewrite <- E. }
  destruct (IH c' I' Re' Lf') as (_ & IHo). pose proof (pos_app c c' px E3) as Ep.
  assert (RV : rev (c_before c') = rev (c_before c) ++ px) by (rewrite E3, rev_app_distr, rev_involutive; reflexivity).
  unfold main_goal. rewrite ER, E. rewrite Ep, E2, E4 in IHo. split.
  - intros T FR. unfold open_of in E5. rewrite T in E5. cbn [t_begin make_token t_len t_type] in E5.
    destruct E5 as (l & E5 & El).
    assert (OP : opened src c' (c_pos c) l).
    { exists (rev (c_before c)), px. split; [exact RV|]. split; [apply rev_length|]. split; [exact FR|].
      split; [rewrite E2; exact (ro_piece [] px cm s' P (ro_nil _))|]. subst l. apply here_ok; [exact I|]. rewrite E. destruct px; [congruence|discriminate]. }
    destruct (IHo _ _ _ E5 ltac:(lia) OP) as [(w & cm' & ls & ts & O & R & F)|(e & l' & R & Of & F)].
    + left. match type of R with _ = LOk (_ ++ ?z) => eexists _, z end. split; [|split].
      * eapply closed_piece_r; eassumption.
      * rewrite R, fin_ne by (destruct (rev (c_done c)); discriminate). reflexivity.
      * constructor; [|exact F]. subst l.
        destruct (here_ok src c I) as (H1 & H2). { rewrite E. destruct px; [congruence|discriminate]. }
        unfold stands_for. cbn [t_begin t_len t_type t_loc x_begin x_len x_kind].
        split; [reflexivity|]. split; [rewrite app_length; f_equal; lia|]. split; [|auto].
        destruct cm, cm'; reflexivity.
    + right. exists e, l'. split; [assumption|]. split; [assumption|]. intros ls L.
      destruct (closed_piece _ _ _ _ _ P L) as (w' & cm' & ls' & O & _). exact (F _ _ _ O).
  - intros b ty lo T Hb (a & w0 & A1 & A2 & A3 & A4 & A5). unfold open_of in E5. rewrite T in E5. cbn [t_begin t_len t_type t_loc] in E5.
    assert (OP : opened src c' b lo).
    { exists a, (w0 ++ px). split; [rewrite RV, A1; symmetry; apply app_assoc|]. split; [exact A2|]. split; [exact A3|].
      split; [rewrite E2; apply (ro_piece w0 px cm s' P); rewrite <- E; exact A4|exact A5]. }
    destruct (IHo _ _ _ E5 ltac:(lia) OP) as [(w & cm' & ls & ts & O & R & F)|(e & l' & R & Of & F)].
    + left. exists (px ++ w), (cm || cm'), ls, ts. split; [|split].
      * now apply open_piece_r.
      * rewrite R, app_length. do 3 f_equal. replace (c_pos c + List.length px + List.length w - b)%nat with (c_pos c + (List.length px + List.length w) - b)%nat by lia.
        destruct cm, cm'; reflexivity.
      * assumption.
    + right. exists e, l'. split; [assumption|]. split; [assumption|]. intros w cm0 ls L.
      destruct (open_piece _ _ _ _ _ _ _ P L) as (w' & cm' & _ & _ & O). exact (F _ _ _ O).
Qed.

Lemma main_err : forall f src c x r e l, inv src c -> reached (rev (c_before c)) (c_rest c) -> c_rest c = x :: r -> cur c <> 0 ->
  inner_loop (S f) c = LErr e l -> stuck (c_rest c) e -> err_at c e l -> ~ blank x -> ~ delimiter x -> main_goal (S f) src c.
Proof.
  intros f src c x r e l I Re E Hc EI Sk EA B D.
  assert (HO : locok src (c_pos c) (here (column_inc c))) by (apply here_ok; [exact I|rewrite E; discriminate]).
  assert (PL : List.length (rev (c_before c)) = c_pos c) by apply rev_length.
  assert (Of : (exists a w, rev (c_before c) = a ++ w /\ fresh a /\ run_on w (c_rest c) /\
      locok src (List.length a) (match t_begin (c_token c) with None => here (column_inc c) | Some _ => t_loc (c_token c) end)) -> offended src e l).
  { intros (a & w & A1 & A2 & A3 & A4). exists (rev (c_before c)), (c_rest c). split; [apply (i_src _ _ I)|]. split; [exact Re|]. split; [exact Sk|].
    destruct e; cbn [err_at complains_at] in *; try (subst l; rewrite PL; exact HO); try exact EA;
      exists a, w; split; [exact A1| split; [exact A2| split; [exact A3| subst l; exact A4]]| exact A1| split; [exact A2| split; [exact A3| subst l; exact A4]]]. }
  pose proof (stuck_no_piece _ _ Sk) as Np. unfold main_goal. rewrite (run_err f c e l Hc EI). rewrite E in *. split.
  - intros T FR. right. exists e, l. split; [reflexivity|]. split.
    + apply Of. exists (rev (c_before c)), []. split; [now rewrite app_nil_r|]. split; [exact FR|]. split; [constructor|]. rewrite T, PL. exact HO.
    + intro ls. now apply no_piece_lexed.
  - intros b ty lo T _ (a & w & A1 & A2 & A3 & A4 & A5). right. exists e, l. split; [reflexivity|]. split.
    + apply Of. exists a, w. split; [exact A1|]. split; [exact A3|]. split; [rewrite <- E; exact A4|]. rewrite T, A2. exact A5.
    + intros w' cm ls. now apply no_piece_open.
Qed.

Lemma main_ok : forall f src c, inv src c -> reached (rev (c_before c)) (c_rest c) -> (List.length (c_rest c) < f)%nat -> main_goal f src c.
Proof.
  induction f as [|f IH]; intros src c I Re Lf; [lia|].
  destruct (c_rest c) as [|x r] eqn:E.
  { unfold main_goal, run. cbn [main_loop]. unfold cur. rewrite E. cbn [hd].
    change (0 =? 0) with true. cbv iota. cbn [lbind]. unfold finish_tokens. split.
    - intros T _. rewrite T. cbn [t_begin make_token]. left. exists [], []. split; [constructor|]. split; [|constructor].
      rewrite app_nil_r. destruct (c_done c) as [|d ds] eqn:Ed; [reflexivity|].
      destruct (i_last _ _ I) as [L|L]; [congruence| |rewrite T in L; cbn in L; congruence].
      rewrite Ed in L. rewrite L, Nat.leb_refl.
      rewrite fin_ne. 2:{ cbn [rev]. destruct (rev ds); discriminate. }
      rewrite <- (rev_length (d :: ds)), firstn_all. reflexivity.
    - intros b ty lo T Hb _. rewrite T. cbn [t_begin t_len t_type t_loc]. left.
      exists [], false, [], []. split; [apply open_stop_r; [now left|constructor]|]. split; [|constructor].
      rewrite (distance_ok src c b I). cbn [rev List.length]. rewrite Nat.add_0_r. reflexivity. }
  pose proof (i_nz _ _ I) as Z. rewrite E in Z. apply not_in_cons in Z as (Nx & _).
  assert (Hc : cur c <> 0) by (unfold cur; now rewrite E).
  assert (IH' : forall c', inv src c' -> reached (rev (c_before c')) (c_rest c') -> (List.length (c_rest c') < f)%nat -> main_goal f src c') by (intros; now apply IH).
  assert (Lf' : (List.length (c_rest c) < S f)%nat) by (rewrite E; exact Lf).
  assert (Re1 : blank x \/ delimiter x -> reached (rev (x :: c_before c)) r).
  { intro H. cbn [rev]. apply re_single; [assumption|]. exact Re. }
  assert (FR1 : forall c', c_before c' = x :: c_before c -> blank x \/ delimiter x -> fresh (rev (c_before c'))).
  { intros c' B H. rewrite B. cbn [rev]. right. exists (rev (c_before c)), x. split; [reflexivity|exact H]. }
  assert (Re0 : reached (rev (c_before c)) (c_rest c)) by (rewrite E; exact Re).
  destruct (N.eq_dec x hash) as [->|Nh].
  { destruct (step_comment src (S f) c r I E ltac:(lia)) as [(px & s' & F1 & F2 & F3)|(e & l & F1 & F2 & FE)].
    - eapply main_piece; eassumption.
    - eapply main_err; try eassumption; apply hash_facts. }
  destruct (is_quote x) eqn:Eq.
  { apply quote_quote in Eq. pose proof (quote_facts _ Eq) as (_ & _ & _ & _ & Qb & Qd).
    destruct (step_quote src (S f) c x r I E Eq ltac:(lia)) as [(px & s' & F1 & F2 & F3)|(e & l & F1 & F2 & FE)].
    - eapply main_piece; eassumption.
    - eapply main_err; eassumption. }
  apply quote_not in Eq. cbn [List.length] in Lf.
  destruct (is_delimeter x) eqn:Ed.
  { apply delim_delim in Ed. destruct (step_delim src (S f) c x r I E Ed) as (c' & F1 & F2 & F3 & F4 & F5 & F6).
    destruct (IH' c' F2 ltac:(rewrite F3, F4; apply Re1; auto) ltac:(rewrite F3; lia)) as (IHc & _). specialize (IHc F6 (FR1 c' F4 ltac:(auto))).
    assert (Ep : c_pos c' = S (c_pos c)) by (unfold c_pos; now rewrite F4).
    set (dt := mktok (Some (c_pos c)) 1 (delim_type x) (here (column_inc c))) in *.
    assert (Sd : stands_for src dt (mklex (c_pos c) 1 (KDelim x))).
    { destruct (here_ok src c I) as (H1 & H2); [rewrite E; discriminate|].
      unfold stands_for. cbn. split; [reflexivity|]. split; [reflexivity|]. split; [now apply delim_type_ok|]. auto. }
    unfold main_goal. rewrite (run_step f c c' Hc F1), E. rewrite Ep, F3, F5 in IHc. split.
    - intros T _. unfold closed_done in IHc. rewrite T in IHc. cbn [t_begin make_token] in IHc.
      destruct IHc as [(ls & ts & L & R & F)|(e & l & R & Of & F)].
      + left. exists (mklex (c_pos c) 1 (KDelim x) :: ls), (dt :: ts). split; [now constructor|].
        split; [|now constructor]. rewrite R. cbn [rev]. now rewrite <- app_assoc.
      + right. exists e, l. split; [assumption|]. split; [assumption|]. intros ls L.
        apply lexed_delim_inv in L as (ls' & _ & L); [|assumption]. exact (F _ L).
    - intros b ty lo T Hb _. unfold closed_done in IHc. rewrite T in IHc. cbn [t_begin t_type t_loc] in IHc.
      rewrite (distance_ok src c b I) in IHc.
      assert (St : stops (x :: r)) by (right; exists x, r; auto).
      destruct IHc as [(ls & ts & L & R & F)|(e & l & R & Of & F)].
      + left. exists [], false, (mklex (c_pos c) 1 (KDelim x) :: ls), (dt :: ts).
        split; [apply open_stop_r; [assumption|now constructor]|]. split; [|now constructor].
        rewrite R, fin_ne. 2:{ cbn [rev]. rewrite <- !app_assoc. destruct (rev (c_done c)); discriminate. }
        cbn [rev List.length]. rewrite <- !app_assoc, Nat.add_0_r. reflexivity.
      + right. exists e, l. split; [assumption|]. split; [assumption|]. intros w cm ls L.
        apply open_stop in L as (_ & _ & L); [|assumption].
        apply lexed_delim_inv in L as (ls' & _ & L); [|assumption]. exact (F _ L). }
  apply delim_not in Ed.
  destruct (is_whitespace x) eqn:Ew.
  { apply ws_blank in Ew. assert (Nn : x <> newline).
    { intros ->. apply Ed. cbn. tauto. }
    assert (SB : t_len (c_token c) = 0 -> (t_begin (c_token c) = None -> c_token c = make_token) ->
      exists c', inner_loop (S f) c = LOk c' /\ inv src c' /\ c_rest c' = r /\ c_before c' = x :: c_before c /\
        c_done c' = closed_done c /\ c_token c' = make_token) by (intros; now apply step_blank).
    unfold main_goal. split.
    - intros T _. destruct SB as (c' & F1 & F2 & F3 & F4 & F5 & F6); [now rewrite T|auto|].
      destruct (IH' c' F2 ltac:(rewrite F3, F4; apply Re1; auto) ltac:(rewrite F3; lia)) as (IHc & _). specialize (IHc F6 (FR1 c' F4 ltac:(auto))).
      assert (Ep : c_pos c' = S (c_pos c)) by (unfold c_pos; now rewrite F4).
      rewrite (run_step f c c' Hc F1), E. rewrite Ep, F3, F5 in IHc.
      unfold closed_done in IHc. rewrite T in IHc. cbn [t_begin make_token] in IHc.
      destruct IHc as [(ls & ts & L & R & F)|(e & l & R & Of & F)].
      + left. exists ls, ts. split; [now constructor|]. auto.
      + right. exists e, l. split; [assumption|]. split; [assumption|]. intros ls L.
        apply lexed_blank_inv in L; [|assumption|assumption]. exact (F _ L).
    - intros b ty lo T Hb _. destruct SB as (c' & F1 & F2 & F3 & F4 & F5 & F6); [now rewrite T|rewrite T; discriminate|].
      destruct (IH' c' F2 ltac:(rewrite F3, F4; apply Re1; auto) ltac:(rewrite F3; lia)) as (IHc & _). specialize (IHc F6 (FR1 c' F4 ltac:(auto))).
      assert (Ep : c_pos c' = S (c_pos c)) by (unfold c_pos; now rewrite F4).
      rewrite (run_step f c c' Hc F1), E. rewrite Ep, F3, F5 in IHc.
      unfold closed_done in IHc. rewrite T in IHc. cbn [t_begin t_type t_loc] in IHc.
      rewrite (distance_ok src c b I) in IHc.
      assert (St : stops (x :: r)) by (right; exists x, r; auto).
      destruct IHc as [(ls & ts & L & R & F)|(e & l & R & Of & F)].
      + left. exists [], false, ls, ts.
        split; [apply open_stop_r; [assumption|now constructor]|]. split; [|assumption].
        rewrite R, fin_ne. 2:{ cbn [rev]. rewrite <- !app_assoc. destruct (rev (c_done c)); discriminate. }
        cbn [rev List.length]. rewrite <- !app_assoc, Nat.add_0_r. reflexivity.
      + right. exists e, l. split; [assumption|]. split; [assumption|]. intros w cm ls L.
        apply open_stop in L as (_ & _ & L); [|assumption].
        apply lexed_blank_inv in L; [|assumption|assumption]. exact (F _ L). }
  apply ws_not in Ew.
  assert (SP : t_len (c_token c) = 0 -> stepped src (S f) c [x] false r) by (intros; now apply step_plain).
  assert (MG : t_len (c_token c) = 0 -> main_goal (S f) src c).
  { intro T0. eapply (main_piece f src c [x] false r); try eassumption.
    - constructor; assumption.
    - now apply SP. }
  split.
  - intros T FR. apply MG; [now rewrite T|assumption|assumption].
  - intros b ty lo T Hb OP. apply MG; [now rewrite T|assumption|assumption|assumption].
Qed.

Lemma tokenize_text_ok : forall src, source src -> N.of_nat (List.length src) + 2 < 2 ^ 32 ->
  (exists ls ts, lexed 0 src ls /\ tokenize_text src = LOk (fin ts) /\ Forall2 (stands_for src) ts ls) \/
  (exists e l, tokenize_text src = LErr e l /\ offended src e l /\ forall ls, ~ lexed 0 src ls).
Proof.
  intros src Z L.
  assert (I : inv src (mkctx [] make_token 0 [] src 1 0 NO_COMMENT)).
  { constructor.
    - unfold sane. cbn. lia.
    - reflexivity.
    - intros _. reflexivity.
    - reflexivity.
    - exact Z.
    - intro H. cbn in H. congruence. }
  destruct (main_ok (S (List.length src)) src _ I (re_start _) ltac:(cbn; lia)) as (M & _).
  exact (M eq_refl (or_introl eq_refl)).
Qed.
