(** Evaluation of runes and strings. *)
From Coq Require Import List Arith NArith ZArith Bool Lia Ascii String.
From Verif Require Import Base Model_Token Model_Utf8 Model_Classify Model_Literal
  Spec_Token Spec_Classify Spec_Utf8 Spec_Literal Proof_Utf8 Proof_Classify Proof_Classify2 Proof_Literal.
Import ListNotations.
Open Scope list_scope.
Open Scope N_scope.

(** ** Hexadecimal escapes *)
Lemma unhex_is : forall c d, digit_is c d -> c32unhex c = N.of_nat d.
Proof.
  intros c d [H|H]; do 16 (destruct d as [|d]; [apply some_inj in H; rewrite <- H; reflexivity|]);
  exfalso; cbn in H; destruct d; discriminate.
Qed.

Lemma number_len : forall base s n v, number base s n v -> Forall hex_digit s -> n = List.length s.
Proof.
  intros base s n v H. induction H as [|s n v H IH|c d s n v Hd H IH]; intro F; [reflexivity| |].
  - apply Forall_inv in F. now apply hex_not_under in F.
  - cbn [List.length]. f_equal. apply IH. now apply Forall_inv_tail in F.
Qed.

Lemma hex_loop_ok : forall hs n v, number 16 hs n v -> Forall hex_digit hs -> forall i acc rest,
  (i + List.length hs <= 8)%nat -> acc < 16 ^ N.of_nat i ->
  ((i + List.length hs)%nat = 8%nat \/ forall c r, rest = c :: r -> ~ hex_digit c) ->
  hex_loop i acc (hs ++ rest) = ((i + List.length hs)%nat, acc * 16 ^ N.of_nat (List.length hs) + Z.to_N v).
Proof.
  intros hs n v H. induction H as [|s n v H IH|c d s n v Hd H IH]; intros F i acc rest L B R.
  - cbn [app List.length]. rewrite Nat.add_0_r in *. change (N.of_nat 0) with 0. rewrite N.pow_0_r.
    destruct rest as [|c r]; cbn [hex_loop]; [f_equal; cbn; lia|].
    assert (E : c32isxdigit c && (i <? 8)%nat = false).
    { destruct R as [->|R]; [now rewrite andb_false_r|]. destruct (c32isxdigit c) eqn:X; [|reflexivity].
      apply xdigit_b in X. now apply (R c r) in X. }
    rewrite E. f_equal. cbn. lia.
  - apply Forall_inv in F. now apply hex_not_under in F.
  - pose proof (Forall_inv F) as Fc. apply Forall_inv_tail in F. cbn [app hex_loop List.length] in *.
    assert (E1 : c32isxdigit c = true) by (now apply xdigit_b). assert (E2 : (i <? 8)%nat = true) by (apply Nat.ltb_lt; lia).
    rewrite E1, E2. cbn [andb]. rewrite (unhex_is _ _ Hd). destruct (digit_is_value _ _ Hd) as (_ & _ & Ld).
    rewrite N.shiftl_mul_pow2. change (2 ^ 4) with 16.
    assert (Bs : acc * 16 + 16 <= 2 ^ 32).
    { assert (16 ^ N.of_nat i * 16 <= 16 ^ 7 * 16); [|change (16 ^ 7 * 16) with (2 ^ 32) in *; lia].
      apply N.mul_le_mono_r. apply N.pow_le_mono_r; lia. }
    rewrite (N.mod_small (acc * 16)) by lia. rewrite N.mod_small by lia.
    rewrite IH; try assumption.
    + f_equal; [lia|]. rewrite Nat2N.inj_succ, N.pow_succ_r'.
      pose proof (number_len _ _ _ _ H F) as ->. pose proof (number_nonneg 16 _ _ _ ltac:(lia) H) as Pv.
      rewrite Z2N.inj_add; [| |assumption].
      * rewrite Z2N.inj_mul; [|lia|apply Z.pow_nonneg; lia].
        assert (X : Z.to_N (16 ^ Z.of_nat (List.length s)) = 16 ^ N.of_nat (List.length s)).
        { rewrite <- nat_N_Z. change 16%Z with (Z.of_N 16). rewrite <- N2Z.inj_pow. apply N2Z.id. }
        rewrite X. replace (Z.to_N (Z.of_nat d)) with (N.of_nat d) by lia. ring.
      * apply Z.mul_nonneg_nonneg; [lia|apply Z.pow_nonneg; lia].
    + lia.
    + rewrite Nat2N.inj_succ, N.pow_succ_r'. assert (N.of_nat d < 16) by lia. lia.
    + destruct R as [R|R]; [left; lia|now right].
Qed.

(** As many hexadecimal digits as possible, at most k. *)
Lemma munch : forall k s, exists hs r, s = hs ++ r /\ Forall hex_digit hs /\ (List.length hs <= k)%nat /\
  (List.length hs = k \/ forall c r', r = c :: r' -> ~ hex_digit c).
Proof.
  induction k as [|k IH]; intro s.
  - exists [], s. split; [reflexivity|]. split; [constructor|]. split; [cbn; lia|now left].
  - destruct s as [|c s].
    + exists [], []. split; [reflexivity|]. split; [constructor|]. split; [cbn; lia|right; discriminate].
    + destruct (c32isxdigit c) eqn:E.
      * apply xdigit_b in E. destruct (IH s) as (hs & r & -> & F & L & R). exists (c :: hs), r.
        split; [reflexivity|]. split; [now constructor|]. split; [cbn; lia|]. destruct R as [R|R]; [left; cbn; lia|now right].
      * exists [], (c :: s). split; [reflexivity|]. split; [constructor|]. split; [cbn; lia|]. right. intros c' r' X.
        uncons X X0 X1. subst c'. intro Y. apply xdigit_b in Y. congruence.
Qed.

(** ** One item *)
Lemma hex_digit_facts : forall c, hex_digit c -> c <> 34 /\ c <> 39 /\ c <> 92.
Proof.
  intros c H. unfold hex_digit, digit in H. change (chr "0") with 48 in *. change (chr "9") with 57 in *. change (chr "a") with 97 in *. change (chr "f") with 102 in *.
  change (chr "A") with 65 in *. change (chr "F") with 70 in *. lia.
Qed.

Lemma item_ok : forall q r c r' post, quote q -> item r c r' ->
  exists adv, c32sunescape (r ++ q :: post) = Ok (Some (c, adv)) /\ (List.length r = adv + 1 + List.length r')%nat /\
    skipn (adv + 1) (r ++ q :: post) = r' ++ q :: post.
Proof.
  intros q r c r' post Hq [x s H|e x s H|hs n v s N0 L F Nb R].
  - exists 0%nat. cbn [app]. unfold c32sunescape. rewrite rd0. cbn [bind]. apply N.eqb_neq in H. rewrite H. auto.
  - exists 1%nat. cbn [app]. unfold c32sunescape. rewrite rd0. cbn [bind]. rewrite rd1. cbn [bind].
    change (92 =? 92) with true. cbn [negb]. unfold simple_escapes in H. cbn [In] in H.
    repeat (destruct H as [H|H]; [apply pair_equal_spec in H as (<- & <-); auto|]). destruct H.
  - exists (S (List.length hs)). cbn [app]. unfold c32sunescape. rewrite rd0. cbn [bind]. rewrite rd1. cbn [bind].
    change (92 =? 92) with true. cbn [negb]. cbv iota.
    change (chr "x" =? 92) with false. change (chr "x" =? 34) with false. change (chr "x" =? 39) with false.
    change (chr "x" =? chr "0") with false. change (chr "x" =? chr "e") with false. change (chr "x" =? chr "t") with false.
    change (chr "x" =? chr "r") with false. change (chr "x" =? chr "n") with false. change (chr "x" =? chr "x") with true. cbv iota.
    cbn [skipn]. rewrite <- app_assoc. unfold escape_hex.
    rewrite (hex_loop_ok hs n v Nb F 0 0 (s ++ q :: post)).
    + cbn [Nat.add]. destruct (List.length hs =? 0)%nat eqn:E.
      { apply Nat.eqb_eq in E. destruct hs; [congruence|discriminate]. }
      rewrite N.mul_0_l, N.add_0_l. split; [reflexivity|]. split.
      * cbn [List.length]. rewrite app_length. lia.
      * rewrite Nat.add_1_r. cbn [skipn]. rewrite skipn_app, skipn_all, Nat.sub_diag. reflexivity.
    + lia.
    + reflexivity.
    + destruct R as [R|R]; [left; exact R|right]. intros k r0 E. destruct s as [|y s].
      * cbn [app] in E. uncons E E0 E1. subst k. intro X. apply hex_digit_facts in X as (X1 & X2 & _).
        unfold quote in Hq. cbn in Hq. destruct Hq as [<-|[<-|[]]]; congruence.
      * cbn [app] in E. uncons E E0 E1. subst k. exact (R y s eq_refl).
Qed.

Lemma quoted_head : forall q s, quoted q s -> quote q -> hd 0 s <> q \/ s = [].
Proof.
  intros q s [|c s' A B H|c s' A H|c s' A B H] Q; [now right|left; exact A| |];
    left; cbn; unfold quote in Q; cbn in Q; destruct Q as [<-|[<-|[]]]; discriminate.
Qed.

Lemma quoted_tail : forall q c s, quoted q (c :: s) -> c <> 92 -> quoted q s.
Proof.
  intros q c s H N0. remember (c :: s) as z eqn:E. destruct H as [|x y A B H|x y A H|x y A B H]; uncons E E0 E1.
  - discriminate.
  - now subst.
  - exfalso. apply N0. symmetry. exact E0.
  - exfalso. apply N0. symmetry. exact E0.
Qed.

Lemma quoted_back : forall q e s, quoted q (92 :: e :: s) -> quoted q s \/ (e <> 92 /\ e <> q /\ quoted q (e :: s)).
Proof.
  intros q e s H. remember (92 :: e :: s) as z eqn:E. destruct H as [|x y A B H|x y A H|x y A B H]; uncons E E0 E1.
  - discriminate.
  - exfalso. apply B. exact E0.
  - uncons E1 E2 E3. subst. now left.
  - uncons E1 E2 E3. subst. right. auto.
Qed.

Lemma quoted_item : forall q r c r', quoted q r -> item r c r' -> quoted q r'.
Proof.
  intros q r c r' Q I. revert Q. destruct I as [x s H|e x s H|hs n v s N0 L F Nb R]; intro Q.
  - now apply quoted_tail in Q.
  - destruct (quoted_back _ _ _ Q) as [X|(A & B & X)]; [assumption|]. now apply quoted_tail in X.
  - destruct (quoted_back _ _ _ Q) as [X|(A & B & X)].
    + clear - X F. induction F as [|h hs Hh F IH]; [assumption|]. apply IH. cbn [app] in X. apply quoted_tail in X; [assumption|].
      apply hex_digit_facts in Hh. tauto.
    + apply quoted_tail in X; [|discriminate].
      clear - X F. induction F as [|h hs Hh F IH]; [assumption|]. apply IH. cbn [app] in X. apply quoted_tail in X; [assumption|].
      apply hex_digit_facts in Hh. tauto.
Qed.

Lemma no_item : forall q r post, quote q -> quoted q r -> r <> [] -> (forall c r', ~ item r c r') ->
  c32sunescape (r ++ q :: post) = Ok None /\ wrong r (bad_escape (r ++ q :: post)).
Proof.
  intros q r post Hq Q N0 H. destruct r as [|c r]; [congruence|].
  destruct (N.eq_dec c 92) as [->|Nc]; [|exfalso; apply (H c r); now constructor].
  destruct r as [|e r].
  { exfalso. remember [92] as z eqn:E. destruct Q as [|x y A B Q|x y A Q|x y A B Q]; uncons E E0 E1; try discriminate. apply B. exact E0. }
  cbn [app]. unfold c32sunescape. rewrite rd0. cbn [bind]. rewrite rd1. cbn [bind]. change (92 =? 92) with true. cbn [negb]. cbv iota.
  assert (NS : forall x, In x [92; 34; 39; chr "0"; chr "e"; chr "t"; chr "r"; chr "n"] -> (e =? x) = false).
  { intros x I. apply N.eqb_neq. intros ->. unfold simple_escapes in H.
    cbn [In] in I. repeat (destruct I as [<-|I]; [eapply H; eapply it_simple; unfold simple_escapes; cbn [In]; eauto 12|]). destruct I. }
  rewrite !NS by (cbn [In]; tauto).
  destruct (e =? chr "x") eqn:Ex.
  2:{ split; [reflexivity|]. cbn [bad_escape]. rewrite Ex. cbn [andb].
      replace (match r ++ q :: post with o :: _ => [] | [] => @nil N end) with (@nil N) by (now destruct r).
      apply N.eqb_neq in Ex. apply wr_other; [exact Ex|]. intro I. unfold simple_escapes in I. cbn [map fst In] in I.
      assert (X : forall x, In x [92; 34; 39; chr "0"; chr "e"; chr "t"; chr "r"; chr "n"] -> x = e -> False)
        by (intros x J ->; apply NS in J; rewrite N.eqb_refl in J; discriminate J).
      repeat (destruct I as [I|I]; [eapply X; [|exact I]; cbn [In]; tauto|]). destruct I. }
  apply N.eqb_eq in Ex. subst e. cbn [skipn].
  destruct (munch 8 r) as (hs & r' & -> & F & L & R). destruct hs as [|h hs].
  - cbn [app] in *. unfold escape_hex. destruct R as [R|R]; [discriminate|].
    assert (E : hex_loop 0 0 (r' ++ q :: post) = (0%nat, 0)).
    { destruct r' as [|y r']; cbn [app hex_loop].
      - assert (X : c32isxdigit q = false) by (unfold quote in Hq; cbn in Hq; destruct Hq as [<-|[<-|[]]]; reflexivity). now rewrite X.
      - destruct (c32isxdigit y) eqn:X; [|reflexivity]. apply xdigit_b in X. now apply (R y r') in X. }
    rewrite E. split; [reflexivity|]. cbn [bad_escape]. rewrite N.eqb_refl. cbn [andb].
    destruct r' as [|y r']; cbn [app].
    + assert (X : (q =? 39) || (q =? 34) = true) by (unfold quote in Hq; cbn in Hq; destruct Hq as [<-|[<-|[]]]; reflexivity). rewrite X. cbn [negb].
      apply wr_end. now left.
    + destruct ((y =? 39) || (y =? 34)) eqn:X; cbn [negb].
      * apply wr_end. right. exists y, r'. split; [reflexivity|]. apply orb_true_iff in X as [X|X]; apply N.eqb_eq in X; auto.
      * apply orb_false_iff in X as (X1 & X2). apply N.eqb_neq in X1, X2. apply wr_hex; auto. exact (R y r' eq_refl).
  - exfalso. destruct (number_exists 16 (h :: hs)) as (n & v & Nb).
    { eapply Forall_impl; [|exact F]. auto. }
    apply (H (Z.to_N v) r'). apply (it_hex (h :: hs) n v r'); auto. discriminate.
Qed.

(** ** Runes *)
Lemma rune_value_l : forall wide pre body post t,
  let src := pre ++ (39 :: body ++ [39]) ++ post in
  quoted 39 body -> body <> [] -> (hd 0 body < 256 \/ wide (hd 0 body) = Ok false) ->
  t_begin t = Some (List.length pre) ->
  (control (hd 0 body) -> eval_rune wide src t = Ok (Bad ERR_NO_CONTROL_CHAR)) /\
  (~ control (hd 0 body) ->
   ((forall c r, ~ item body c r) -> exists w, wrong body w /\ eval_rune wide src t = Ok (Bad (ERR_BAD_ESCAPE w))) /\
   (forall c r, item body c r ->
     (r <> [] -> eval_rune wide src t = Ok (Bad ERR_RUNE_TOO_LONG)) /\
     (r = [] -> ~ scalar c -> eval_rune wide src t = Ok (Bad ERR_ILLEGAL_SEQ)) /\
     (r = [] -> scalar c -> eval_rune wide src t = Ok (Val c)))).
Proof.
  intros wide pre body post t src Q N0 W B.
  assert (Hq : quote 39) by (unfold quote; cbn; auto).
  assert (E0 : from_ptr src (option_map S (t_begin t)) = Ok (body ++ 39 :: post)).
  { rewrite B. cbn [option_map]. unfold src.
    replace (pre ++ (39 :: body ++ [39]) ++ post) with ((pre ++ [39]) ++ body ++ 39 :: post) by (rewrite <- !app_assoc; cbn [app]; now rewrite <- app_assoc).
    replace (S (List.length pre)) with (List.length (pre ++ [39])) by (rewrite app_length; cbn; lia). apply from_ptr_at. }
  assert (E1 : rd (body ++ 39 :: post) 0 = Ok (hd 0 body)) by (destruct body; [congruence|apply rd0]).
  assert (U : eval_rune wide src t = do cntrl <- iscntrl wide (hd 0 body);
    if cntrl then Ok (Bad ERR_NO_CONTROL_CHAR) else
    do r <- c32sunescape (body ++ 39 :: post);
    match r with
    | None => Ok (Bad (ERR_BAD_ESCAPE (bad_escape (body ++ 39 :: post))))
    | Some (v, adv) =>
        do q <- rd (body ++ 39 :: post) (adv + 1);
        if negb (q =? 39) then Ok (Bad ERR_RUNE_TOO_LONG)
        else match c32rtomb v with None => Ok (Bad ERR_ILLEGAL_SEQ) | Some _ => Ok (Val v) end
    end).
  { unfold eval_rune. rewrite E0. cbn [bind]. rewrite E1. reflexivity. }
  split.
  - intro C. rewrite U. assert (X : iscntrl wide (hd 0 body) = Ok true); [|now rewrite X].
    unfold iscntrl. assert (Lt : (hd 0 body <? 256) = true) by (apply N.ltb_lt; unfold control in C; lia). rewrite Lt. f_equal.
    apply orb_true_iff. rewrite N.ltb_lt, N.eqb_eq. exact C.
  - intro C. assert (X : iscntrl wide (hd 0 body) = Ok false).
    { unfold iscntrl. destruct (hd 0 body <? 256) eqn:Lt.
      - f_equal. apply orb_false_iff. rewrite N.ltb_ge, N.eqb_neq. unfold control in C. lia.
      - apply N.ltb_ge in Lt. destruct W as [W|W]; [lia|assumption]. }
    rewrite X in U. cbn [bind] in U. split.
    + intro H. destruct (no_item 39 body post Hq Q N0 H) as (X1 & X2). rewrite U, X1. eauto.
    + intros c r I. destruct (item_ok 39 body c r post Hq I) as (adv & E & L & Sk). rewrite E in U. cbn [bind] in U.
      assert (R : rd (body ++ 39 :: post) (adv + 1) = Ok (hd 39 r)).
      { assert (Sp : body ++ 39 :: post = firstn (adv + 1) (body ++ 39 :: post) ++ r ++ 39 :: post) by (rewrite <- Sk; now rewrite firstn_skipn).
        assert (Ln : List.length (firstn (adv + 1) (body ++ 39 :: post)) = (adv + 1)%nat) by (rewrite firstn_length, app_length; lia).
        rewrite Sp. rewrite <- Ln at 2. destruct r as [|y r]; cbn [app hd]; apply rd_app. }
      rewrite R in U. cbn [bind] in U. repeat split.
      * intro Nr. rewrite U. pose proof (quoted_item _ _ _ _ Q I) as Qr. destruct (quoted_head _ _ Qr Hq) as [X1|X1]; [|congruence].
        destruct r as [|y r]; [congruence|]. cbn [hd] in *. apply N.eqb_neq in X1. now rewrite X1.
      * intros -> Ns. rewrite U. cbn [hd]. change (39 =? 39) with true. cbn [negb].
        apply c32rtomb_none in Ns. now rewrite Ns.
      * intros -> Ns. rewrite U. cbn [hd]. change (39 =? 39) with true. cbn [negb].
        destruct (c32rtomb c) eqn:Ec; [reflexivity|]. now apply c32rtomb_none in Ec.
Qed.

(** ** Strings *)
Lemma item_dec : forall q s, quote q -> quoted q s -> s <> [] -> (exists c r, item s c r) \/ (forall c r, ~ item s c r).
Proof.
  intros q s Hq Q N0. destruct s as [|c s]; [congruence|]. destruct (N.eq_dec c 92) as [->|Nc].
  - destruct s as [|e s].
    + right. intros c r H. remember [92] as z eqn:E. destruct H; uncons E E0 E1; try discriminate. congruence.
    + destruct (in_dec N.eq_dec e (map fst simple_escapes)) as [I|I].
      * left. apply in_map_iff in I as ((a, b) & E & I). cbn in E. subst a. exists b, s. now constructor.
      * destruct (N.eq_dec e (chr "x")) as [->|Ne].
        -- destruct (munch 8 s) as (hs & r & -> & F & L & R). destruct hs as [|h hs].
           ++ right. intros c r' H. remember (92 :: chr "x" :: [] ++ r) as z eqn:E.
              destruct H as [x y H|x y z' H|hs n v y N1 L1 F1 Nb R1]; uncons E E0 E1.
              ** congruence.
              ** uncons E1 E2 E3. subst. apply I. apply in_map_iff. exists (chr "x", y). auto.
              ** uncons E1 E2 E3. cbn [app] in E3. destruct hs as [|h hs]; [congruence|]. cbn [app] in E3.
                 destruct R as [R|R]; [discriminate|]. subst r. apply (R h (hs ++ y) eq_refl). now apply Forall_inv in F1.
           ++ left. destruct (number_exists 16 (h :: hs)) as (n & v & Nb); [eapply Forall_impl; [|exact F]; auto|].
              exists (Z.to_N v), r. apply (it_hex (h :: hs) n v r); auto. discriminate.
        -- right. intros c r H. remember (92 :: e :: s) as z eqn:E.
           destruct H as [x y H|x y z' H|hs n v y N1 L1 F1 Nb R1]; uncons E E0 E1.
           ++ congruence.
           ++ uncons E1 E2 E3. subst. apply I. apply in_map_iff. exists (e, y). auto.
           ++ uncons E1 E2 E3. congruence.
  - left. exists c, s. now constructor.
Qed.

Lemma item_unique : forall q s, quote q -> forall c r c' r', item s c r -> item s c' r' -> c = c' /\ r = r'.
Proof.
  intros q s Hq c r c' r' A B. destruct (item_ok q s c r [] Hq A) as (n & E & L & S).
  destruct (item_ok q s c' r' [] Hq B) as (n' & E' & L' & S'). rewrite E in E'.
  assert (X : (c, n) = (c', n')) by congruence. apply pair_equal_spec in X as (-> & ->). split; [reflexivity|].
  rewrite S in S'. now apply app_inj_tail in S' as (-> & _).
Qed.

Lemma unescaped_cons : forall s t, unescaped s t -> s <> [] -> exists c r t', t = c :: t' /\ item s c r /\ unescaped r t'.
Proof. intros s t [|s' c r t' I H] N0; [congruence|]. eauto 6. Qed.

Lemma str_loop_ok : forall q cap post, quote q -> forall f r left out, quoted q r -> left = List.length r -> (left < f)%nat ->
  (List.length out + left < cap)%nat ->
  (forall v, unescaped r v -> str_loop f cap (r ++ q :: post) left out = Some (Ok (Val (rev out ++ v)))) /\
  ((forall v, ~ unescaped r v) -> exists w, broken r w /\ str_loop f cap (r ++ q :: post) left out = Some (Ok (Bad (ERR_BAD_ESCAPE w)))).
Proof.
  intros q cap post Hq. induction f as [|f IH]; intros r left out Q El Lf Lc; [lia|].
  destruct r as [|c r].
  - cbn [List.length] in El. subst left. cbn [app str_loop].
    assert (X : (List.length out <? cap)%nat = true) by (apply Nat.ltb_lt; lia). rewrite X. split.
    + intros v H. remember [] as e eqn:Ee. destruct H as [|s x y z I H]; [now rewrite app_nil_r|]. subst s.
      remember [] as e eqn:Ee. destruct I; discriminate.
    + intro H. exfalso. apply (H []). constructor.
  - set (s := c :: r) in *. assert (N0 : s <> []) by discriminate.
    assert (X : (List.length out <? cap)%nat = true) by (apply Nat.ltb_lt; lia).
    assert (U : str_loop (S f) cap (s ++ q :: post) left out =
      match c32sunescape (s ++ q :: post) with
      | UB => Some UB
      | Ok None => Some (Ok (Bad (ERR_BAD_ESCAPE (bad_escape (s ++ q :: post)))))
      | Ok (Some (v, adv)) => str_loop f cap (skipn (adv + 1) (s ++ q :: post)) (left - (adv + 1)) (v :: out)
      end).
    { cbn [str_loop]. unfold s at 1. cbn [app]. destruct left; [unfold s in El; cbn in El; lia|]. rewrite X. reflexivity. }
    rewrite U. destruct (item_dec q s Hq Q N0) as [(x & r' & I)|NI].
    + destruct (item_ok q s x r' post Hq I) as (adv & E & L & Sk). rewrite E, Sk.
      destruct (IH r' (left - (adv + 1))%nat (x :: out)) as (A & B).
      * now apply (quoted_item q s x r').
      * lia.
      * lia.
      * cbn [List.length]. lia.
      * split.
        -- intros v H. destruct (unescaped_cons _ _ H N0) as (c' & r'' & t' & -> & I' & H').
           destruct (item_unique q s Hq _ _ _ _ I I') as (<- & <-). rewrite (A t' H'). cbn [rev]. now rewrite <- app_assoc.
        -- intro H. destruct B as (w & B1 & B2); [|exists w; split; [now apply (br_item s x r')|exact B2]].
           intros v Hv. apply (H (x :: v)). now apply (un_item s x r').
    + destruct (no_item q s post Hq Q N0 NI) as (X1 & X2). rewrite X1. split; [|intros _; eexists; split; [now apply br_here; exact X2|reflexivity]].
      intros v H. destruct (unescaped_cons _ _ H N0) as (c' & r'' & t' & _ & I' & _). now apply NI in I'.
Qed.

Lemma eval_str_l : forall pre body post t,
  let src := pre ++ (34 :: body ++ [34]) ++ post in
  quoted 34 body -> t_begin t = Some (List.length pre) -> t_len t = N.of_nat (List.length (34 :: body ++ [34])) ->
  (forall v, unescaped body v -> eval_str src t = Some (Ok (Val v))) /\
  ((forall v, ~ unescaped body v) -> exists w, broken body w /\ eval_str src t = Some (Ok (Bad (ERR_BAD_ESCAPE w)))).
Proof.
  intros pre body post t src Q B L.
  assert (Hq : quote 34) by (unfold quote; cbn; auto).
  assert (E0 : from_ptr src (option_map S (t_begin t)) = Ok (body ++ 34 :: post)).
  { rewrite B. cbn [option_map]. unfold src.
    replace (pre ++ (34 :: body ++ [34]) ++ post) with ((pre ++ [34]) ++ body ++ 34 :: post) by (rewrite <- !app_assoc; cbn [app]; now rewrite <- app_assoc).
    replace (S (List.length pre)) with (List.length (pre ++ [34])) by (rewrite app_length; cbn; lia). apply from_ptr_at. }
  unfold eval_str. rewrite E0, L, Nnat.Nat2N.id. cbn [List.length]. rewrite app_length. cbn [List.length].
  assert (A : (S (List.length body + 1) - 2 = List.length body)%nat) by lia. rewrite A.
  exact (str_loop_ok 34 (S (List.length body + 1) - 1) post Hq (S (S (List.length body + 1))) body (List.length body) [] Q eq_refl ltac:(lia) ltac:(cbn; lia)).
Qed.

Lemma cut_nul_ok : forall s, until_nul s (cut_nul s).
Proof.
  induction s as [|c s (I & E)]; [split; [intros []|now left]|]. cbn [cut_nul]. destruct (c =? 0) eqn:Ec.
  - apply N.eqb_eq in Ec. subst c. split; [intros []|]. right. exists s. reflexivity.
  - apply N.eqb_neq in Ec. split.
    + intros [X|X]; [congruence|contradiction].
    + destruct E as [E|(r & E)]; [left; congruence|right]. exists r. cbn [app]. congruence.
Qed.

Lemma until_nul_unique : forall s t, until_nul s t -> t = cut_nul s.
Proof.
  intros s t. revert s. induction t as [|c t IH]; intros s (I & E).
  - destruct E as [->|(r & ->)]; reflexivity.
  - assert (Nc : (c =? 0) = false) by (apply N.eqb_neq; intros ->; apply I; now left).
    destruct E as [->|(r & ->)]; cbn [app cut_nul]; rewrite Nc; f_equal; apply IH; (split; [intro X; apply I; now right|]); [now left|right; eauto].
Qed.

Lemma const_str_l : forall pre body post t,
  let src := pre ++ (34 :: body ++ [34]) ++ post in
  quoted 34 body -> t_begin t = Some (List.length pre) -> t_len t = N.of_nat (List.length (34 :: body ++ [34])) ->
  (forall v s, unescaped body v -> until_nul v s ->
     (forall b, utf8 s b -> const_str src t = Some (Ok (Val b))) /\
     (~ Forall scalar s -> const_str src t = Some (Ok (Bad ERR_ILLEGAL_SEQ)))) /\
  ((forall v, ~ unescaped body v) -> exists w, broken body w /\ const_str src t = Some (Ok (Bad (ERR_BAD_ESCAPE w)))).
Proof.
  intros pre body post t src Q B L. destruct (eval_str_l pre body post t Q B L) as (A1 & A2). fold src in A1, A2.
  unfold const_str. split.
  - intros v s H U. rewrite (A1 v H). apply until_nul_unique in U. subst s. split.
    + intros b Hb. apply encode_some_l in Hb. now rewrite Hb.
    + intro Ns. destruct (encode_ok (cut_nul v)) as (_ & X). destruct (c32stombs (cut_nul v)) as [b|] eqn:E; [|reflexivity].
      exfalso. apply Ns. apply encode_some_l in E. clear - E. induction E as [|c bs t rest En H IH]; constructor; [|assumption].
      now apply encodes_scalar in En.
  - intro H. destruct (A2 H) as (w & X1 & X2). exists w. now rewrite X2.
Qed.

(** Every text has at most one reading. *)
Lemma unescaped_unique : forall s t, unescaped s t -> forall t', unescaped s t' -> t = t'.
Proof.
  intros s t H. induction H as [|s c r t I H IH]; intros t' H'.
  - remember [] as e eqn:E. destruct H' as [|s c r t' I H']; [reflexivity|]. subst s. remember [] as e eqn:E. destruct I; discriminate.
  - assert (N0 : s <> []) by (destruct I; discriminate). destruct (unescaped_cons _ _ H' N0) as (c' & r' & t'' & -> & I' & H'').
    assert (Hq : quote 34) by (unfold quote; cbn; auto).
    destruct (item_unique 34 s Hq _ _ _ _ I I') as (<- & <-). f_equal. now apply IH.
Qed.
