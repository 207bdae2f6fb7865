(** The loops of the tokenizer model. *)
From Coq Require Import List Arith NArith Bool Lia Ascii String.
From Verif Require Import Base Model_Token Spec_Token Proof_Token.
Import ListNotations.
Open Scope list_scope.
Open Scope N_scope.

Lemma nl_yes : forall s, newlines (newline :: s) = S (newlines s).
Proof. intro s. unfold newlines. cbn [count_occ]. destruct (N.eq_dec newline newline); congruence. Qed.
Lemma nl_no : forall c s, c <> newline -> newlines (c :: s) = newlines s.
Proof. intros c s H. unfold newlines. cbn [count_occ]. destruct (N.eq_dec c newline); congruence. Qed.
Lemma nl_app : forall a b, newlines (a ++ b) = (newlines a + newlines b)%nat.
Proof. intros. apply count_occ_app. Qed.
Lemma nl_rev : forall a, newlines (rev a) = newlines a.
Proof. induction a as [|x a IH]; [reflexivity|]. cbn [rev]. rewrite nl_app, IH. unfold newlines. cbn [count_occ]. destruct (N.eq_dec x newline); lia. Qed.
Lemma nl_le : forall a, (newlines a <= List.length a)%nat.
Proof. intro a. apply count_occ_bound. Qed.

Definition sane (c : ctx) : Prop :=
  N.of_nat (List.length (c_before c) + List.length (c_rest c)) + 2 < 2 ^ 32.
Definition lineok (c : ctx) : Prop := c_line c = N.of_nat (1 + newlines (c_before c)).
Definition lineok_at (c : ctx) : Prop :=
  c_line c = N.of_nat (1 + newlines (firstn 1 (c_rest c) ++ c_before c)).
Definition same (c c' : ctx) : Prop :=
  c_done c' = c_done c /\ c_token c' = c_token c /\ c_last c' = c_last c /\ c_comment c' = c_comment c.

Lemma same_refl : forall c, same c c.
Proof. repeat split. Qed.
Lemma same_trans : forall a b c, same a b -> same b c -> same a c.
Proof. intros a b c (A1 & A2 & A3 & A4) (B1 & B2 & B3 & B4). repeat split; congruence. Qed.

Ltac same_t :=
  match goal with |- same _ _ => idtac end;
  unfold same in *; repeat match goal with H : _ /\ _ |- _ => destruct H end;
  repeat split; try congruence; cbn in *; congruence.

Lemma w32_small : forall n, n < 2 ^ 32 -> w32 n = n.
Proof. intros. now apply N.mod_small. Qed.

(** Passing one character without looking at lines. *)
Definition pass (c : ctx) (x : N) (s : text) (col : N) : ctx :=
  mkctx (c_done c) (c_token c) (c_last c) (x :: c_before c) s (c_line c) col (c_comment c).

Lemma code_inc_pass : forall c x s, c_rest c = x :: s -> code_inc c = LOk (pass c x s (c_col c)).
Proof. intros c x s E. unfold code_inc. rewrite E. reflexivity. Qed.
Lemma chomp_pass : forall c x s, c_rest c = x :: s -> chomp c = LOk (pass c x s (w32 (c_col c + 1))).
Proof. intros c x s E. unfold chomp, code_inc, column_inc. cbn. rewrite E. reflexivity. Qed.

Lemma sane_pass : forall c x s k, c_rest c = x :: s -> sane c -> sane (pass c x s k).
Proof. intros c x s k E S. unfold sane in *. rewrite E in S. cbn in *. lia. Qed.

Lemma lineok_pass : forall c x s k, c_rest c = x :: s -> lineok_at c -> lineok (pass c x s k).
Proof. intros c x s k E S. unfold lineok, lineok_at in *. rewrite E in S. exact S. Qed.

Lemma lineok_at_not : forall c, lineok c -> hd 0 (c_rest c) <> newline -> lineok_at c.
Proof.
  intros c L H. unfold lineok, lineok_at in *. rewrite L. destruct (c_rest c) as [|x r]; [reflexivity|].
  cbn [firstn app hd] in *. now rewrite nl_no.
Qed.

Lemma lineok_next : forall c r, sane c -> lineok c -> c_rest c = newline :: r -> lineok_at (next_line c).
Proof.
  intros c r S L E. unfold lineok, lineok_at, sane in *. cbn [next_line c_line c_rest c_before].
  rewrite E in *. cbn [firstn app]. rewrite nl_yes, L. pose proof (nl_le (c_before c)).
  cbn [List.length] in S. rewrite w32_small; lia.
Qed.

Lemma not_in_cons : forall (x y : N) s, ~ In x (y :: s) -> y <> x /\ ~ In x s.
Proof. intros x y s H. split; intro; apply H; [now left|now right]. Qed.

Ltac eqb_t H := apply N.eqb_eq in H.
Ltac eqb_f H := apply N.eqb_neq in H.

Lemma quote_loop_ok : forall f q c x s, quote q -> c_rest c = x :: s -> source s ->
  (List.length s < f)%nat -> sane c -> lineok_at c ->
  (exists body r c', s = body ++ q :: r /\ quoted q body /\ quote_loop f q c = LOk c' /\
     same c c' /\ c_rest c' = q :: r /\ c_before c' = rev body ++ x :: c_before c /\ lineok_at c') \/
  (exists c', quote_loop f q c = LOk c' /\ same c c' /\ c_rest c' = [] /\
     forall body r, s = body ++ q :: r -> ~ quoted q body).
Proof.
  induction f as [|f IH]; intros q c x s Q E Z Lf Sn Lo; [lia|].
  pose proof (quote_facts q Q) as (Q0 & Qn & Qb & _).
  assert (Qb92 : 92 <> q) by (intro X; apply Qb; now rewrite <- X).
  cbn [quote_loop]. rewrite (code_inc_pass c x s E). cbn [lbind].
  set (c1 := pass c x s (c_col c)).
  assert (S1 : sane c1) by (now apply sane_pass).
  assert (L1 : lineok c1) by (now apply lineok_pass).
  assert (Same1 : same c c1) by (repeat split).
  destruct s as [|y s'].
  { unfold cur. change (c_rest c1) with (@nil N). cbn [hd].
    change (0 =? 10) with false. change (0 =? 92) with false. change (0 =? 0) with true. cbn [lbind].
    assert (Eq : (0 =? q) = false) by (apply N.eqb_neq; congruence). rewrite Eq.
    right. exists c1. repeat split; auto. intros [|? ?] r Er; discriminate. }
  apply not_in_cons in Z as (Ny & Z). cbn [List.length] in Lf.
  assert (Ey : (y =? 0) = false) by (now apply N.eqb_neq).
  assert (R1 : c_rest c1 = y :: s') by reflexivity.
  assert (B1 : c_before c1 = x :: c_before c) by reflexivity.
  unfold cur. rewrite R1. cbn [hd].
  (* going on at a plain character *)
  assert (Go : forall c2, same c1 c2 -> c_rest c2 = y :: s' -> c_before c2 = c_before c1 ->
    sane c2 -> lineok_at c2 -> y <> q -> y <> backslash ->
    (exists body r c', y :: s' = body ++ q :: r /\ quoted q body /\ quote_loop f q c2 = LOk c' /\
     same c c' /\ c_rest c' = q :: r /\ c_before c' = rev body ++ x :: c_before c /\ lineok_at c') \/
    (exists c', quote_loop f q c2 = LOk c' /\ same c c' /\ c_rest c' = [] /\
     forall body r, y :: s' = body ++ q :: r -> ~ quoted q body)).
  { intros c2 Sm R B Sn2 Lo2 Nq Nb.
    destruct (IH q c2 y s' Q R Z ltac:(lia) Sn2 Lo2) as
      [(body & r & c' & E1 & E2 & E3 & E4 & E5 & E6 & E7)|(c' & E1 & E2 & E3 & E4)].
    - left. exists (y :: body), r, c'. split; [cbn [app]; congruence|]. split; [now constructor|].
      split; [assumption|]. split; [same_t|].
      split; [assumption|]. split; [|assumption]. rewrite E6, B, B1. cbn [rev]. now rewrite <- app_assoc.
    - right. exists c'. split; [assumption|]. split; [same_t|].
      split; [assumption|]. intros body r Er Hq. destruct body as [|z b]; cbn [app] in Er; uncons Er Er0 Er1.
      + congruence.
      + subst z. inversion Hq as [|? ? ? ? Hq2|? ? ? Hq2|? ? ? ? Hq2]; subst; try congruence.
        eapply E4; [|exact Hq2]; first [eassumption|reflexivity]. }
  destruct (y =? 10) eqn:E10.
  { eqb_t E10. subst y. cbn [next_line c_rest]. rewrite R1. cbn [hd]. rewrite Ey.
    apply Go; [repeat split|reflexivity|reflexivity|exact S1| |intro X; apply Qn; now rewrite <- X|discriminate].
    now apply lineok_next with (r := s'). }
  eqb_f E10.
  assert (LA1 : lineok_at c1) by (apply lineok_at_not; assumption).
  destruct (y =? 92) eqn:E92.
  2:{ eqb_f E92. cbn [lbind]. destruct (y =? q) eqn:Eq.
      - eqb_t Eq. subst y. left. exists [], s', c1. repeat split; auto. constructor.
      - eqb_f Eq. rewrite Ey. apply Go; auto; repeat split. }
  eqb_t E92. subst y. unfold peek. rewrite R1. cbn [lbind].
  assert (Same2 := same_refl c1).
  destruct ((hd 0 s' =? 92) || (hd 0 s' =? q)) eqn:Ee.
  - (* escaped *)
    destruct s' as [|z s2].
    { cbn [hd] in Ee. apply orb_prop in Ee as [Ee|Ee]; [discriminate|]. eqb_t Ee. congruence. }
    cbn [hd] in Ee. assert (Hz : z = backslash \/ z = q).
    { apply orb_prop in Ee as [Ee|Ee]; eqb_t Ee; auto. }
    rewrite (chomp_pass c1 92 (z :: s2) R1). cbn [lbind].
    set (c2 := pass c1 92 (z :: s2) (w32 (c_col c1 + 1))).
    cbn [pass c_rest c2 hd]. apply not_in_cons in Z as (Nz & Z).
    assert (Ez : (z =? 0) = false) by (now apply N.eqb_neq). rewrite Ez. cbn [List.length] in Lf.
    destruct (IH q c2 z s2 Q eq_refl Z ltac:(lia)) as
      [(body & r & c' & E1 & E2 & E3 & E4 & E5 & E6 & E7)|(c' & E1 & E2 & E3 & E4)].
    + now apply sane_pass.
    + apply lineok_at_not; [now apply lineok_pass|]. cbn. destruct Hz; subst z; [discriminate|assumption].
    + left. exists (92 :: z :: body), r, c'. split; [cbn [app]; congruence|]. split; [now apply q_esc|].
      split; [assumption|]. split; [same_t|].
      split; [assumption|]. split; [|assumption]. rewrite E6. cbn [rev c2 pass c_before]. rewrite B1.
      now rewrite <- !app_assoc.
    + right. exists c'. split; [assumption|]. split; [same_t|].
      split; [assumption|]. intros body r Er Hq.
      destruct body as [|a [|b bd]]; cbn [app] in Er.
      * uncons Er Er0 Er1. congruence.
      * uncons Er Er0 Er1. subst a. inversion Hq; subst. unfold backslash in *. congruence.
      * uncons Er Er0 Er1. uncons Er1 Er2 Er3. subst a b.
        inversion Hq as [|? ? ? ? ? |? ? ? Hq2|? ? ? ? Hq2]; subst.
        -- unfold backslash in *; congruence.
        -- eapply E4; [|exact Hq2]; first [eassumption|reflexivity].
        -- destruct Hz; congruence.
  - (* not escaped *)
    assert (Eq : (92 =? q) = false) by (apply N.eqb_neq; unfold backslash in Qb; congruence).
    rewrite Eq. cbn. cbn in Ey. 
    apply orb_false_elim in Ee as (Ea & Eb). eqb_f Ea. eqb_f Eb.
    destruct (IH q c1 92 s' Q eq_refl Z ltac:(lia) S1 LA1) as
      [(body & r & c' & E1 & E2 & E3 & E4 & E5 & E6 & E7)|(c' & E1 & E2 & E3 & E4)].
    + left. exists (92 :: body), r, c'. split; [cbn [app]; congruence|]. split.
      { destruct body as [|z b]; [subst s'; cbn in Eb; congruence|]. subst s'. cbn in Ea, Eb. now apply q_back. }
      split; [assumption|]. split; [same_t|].
      split; [assumption|]. split; [|assumption]. rewrite E6, B1. cbn [rev]. now rewrite <- app_assoc.
    + right. exists c'. split; [assumption|]. split; [same_t|].
      split; [assumption|]. intros body r Er Hq.
      destruct body as [|a bd]; cbn [app] in Er; uncons Er Er0 Er1; [congruence|]. subst a.
      inversion Hq as [|? ? Hc1 Hc2 Hq2|z ? Hz Hq2|? ? ? ? Hq2]; subst.
      * unfold backslash in *; congruence.
      * cbn in Ea, Eb. destruct Hz as [Hz|Hz]; [now apply Ea|congruence].
      * eapply E4; [reflexivity|exact Hq2].
Qed.

Lemma line_loop_ok : forall f c x s, c_comment c = LINE_COMMENT -> c_rest c = x :: s ->
  source (x :: s) -> x <> newline -> (List.length s < f)%nat -> sane c -> lineok c ->
  exists body s' c', s = body ++ s' /\ ~ In newline body /\ at_line_end s' /\
    comment_loop f c = LOk c' /\ same c c' /\ lineok c' /\
    ((s' = [] /\ c_rest c' = [] /\ c_before c' = rev body ++ x :: c_before c) \/
     (s' <> [] /\ exists y, y <> newline /\ y <> 0 /\ c_rest c' = y :: s' /\
        y :: c_before c' = rev body ++ x :: c_before c)).
Proof.
  induction f as [|f IH]; intros c x s Cm E Z Nx Lf Sn Lo; [lia|].
  cbn [comment_loop]. rewrite (chomp_pass c x s E). cbn [lbind].
  set (c1 := pass c x s (w32 (c_col c + 1))).
  assert (S1 : sane c1) by (now apply sane_pass).
  assert (L1 : lineok c1).
  { apply lineok_pass; [assumption|]. apply lineok_at_not; [assumption|]. now rewrite E. }
  change (c_comment c1) with (c_comment c). rewrite Cm.
  apply not_in_cons in Z as (Nz & Z).
  destruct s as [|y s'].
  { exists [], [], c1. split; [reflexivity|]. split; [intros []|]. split; [now left|].
    split; [reflexivity|]. split; [repeat split|]. split; [assumption|]. left. repeat split. }
  unfold cur. change (c_rest c1) with (y :: s'). cbn [hd].
  apply not_in_cons in Z as (Ny & Z). cbn [List.length] in Lf.
  destruct (y =? 10) eqn:E10.
  - eqb_t E10. subst y.
    exists [], (10 :: s'), (mkctx (c_done c) (c_token c) (c_last c) (c_before c) (x :: 10 :: s') (c_line c) (w32 (c_col c + 1)) (c_comment c)).
    split; [reflexivity|]. split; [intros []|]. split; [right; now exists s'|].
    split; [reflexivity|]. split; [repeat split|]. split; [exact Lo|]. right.
    split; [discriminate|]. exists x. repeat split; assumption.
  - eqb_f E10. assert (Ey : (y =? 0) = false) by (now apply N.eqb_neq). rewrite Ey.
    destruct (IH c1 y s' Cm eq_refl) as (body & s2 & c' & E1 & E2 & E3 & E4 & E5 & E6 & E7);
      try assumption; try lia.
    { intros [I|I]; [congruence|contradiction]. }
    exists (y :: body), s2, c'. split; [cbn [app]; congruence|].
    split; [intros [I|I]; [now apply E10|contradiction]|].
    split; [assumption|]. split; [assumption|]. split; [same_t|]. split; [assumption|].
    cbn [rev]. rewrite <- app_assoc. exact E7.
Qed.

Lemma block_inv : forall y b, block_body (y :: b) ->
  (y <> hash /\ block_body b) \/
  (y = hash /\ exists c b', b = c :: b' /\ c <> chr "}" /\ c <> chr "{" /\ block_body b').
Proof.
  intros y b H. remember (y :: b) as z eqn:E. destruct H as [|c s N1 H|c s N1 N2 H].
  - discriminate.
  - uncons E E0 E1. subst. left. auto.
  - uncons E E0 E1. subst. right. split; [reflexivity|]. exists c, s. auto.
Qed.

Definition no_end (ch : N) (s : text) : Prop :=
  forall body r, s = body ++ hash :: ch :: r -> ~ block_body body.
Definition no_block (s : text) : Prop := no_end (chr "}") s /\ no_end (chr "{") s.
Definition nested (s : text) : Prop :=
  exists body r, s = body ++ hash :: chr "{" :: r /\ block_body body.

(** The same with the line of the inner comment, if the lines of k stand in front. *)
Definition nested_in (k : nat) (l : location) (s : text) : Prop :=
  exists body r, s = body ++ hash :: chr "{" :: r /\ block_body body /\ l_line l = N.of_nat (1 + k + newlines body).

Lemma no_end_cons : forall ch y s, y <> hash -> no_end ch s -> no_end ch (y :: s).
Proof.
  intros ch y s Nh H body r Er Hb. destruct body as [|z b]; cbn [app] in Er; uncons Er Er0 Er1; [congruence|].
  subst z. apply block_inv in Hb as [(_ & Hb2)|(Hy & _)]; [|congruence]. exact (H b r Er1 Hb2).
Qed.
Lemma no_end_hash : forall ch z s, z <> ch -> no_end ch s -> no_end ch (hash :: z :: s).
Proof.
  intros ch z s Nz H body r Er Hb. destruct body as [|a [|b bd]]; cbn [app] in Er; uncons Er Er0 Er1; uncons Er1 Er2 Er3.
  - congruence.
  - subst a. apply block_inv in Hb as [(Hy & _)|(_ & ? & ? & ? & _)]; congruence.
  - subst a b. apply block_inv in Hb as [(Hy & _)|(_ & c0 & b0 & Eb & _ & _ & Hb2)]; [congruence|].
    apply (H bd r Er3). congruence.
Qed.
Lemma nested_no_end : forall s, nested s -> no_end (chr "}") s.
Proof.
  intros s (b & r & -> & B). induction B as [|c s N1 B IH|c s N1 N2 B IH]; cbn [app].
  - intros body r' Er Hb. destruct body as [|a [|b bd]]; cbn [app] in Er; uncons Er Er0 Er1; uncons Er1 Er2 Er3.
    + discriminate.
    + subst a. apply block_inv in Hb as [(Hy & _)|(_ & ? & ? & ? & _)]; congruence.
    + subst a b. apply block_inv in Hb as [(Hy & _)|(_ & ? & ? & ? & ? & ? & _)]; congruence.
  - now apply no_end_cons.
  - now apply no_end_hash.
Qed.
Lemma nested_cons : forall y s, y <> hash -> nested s -> nested (y :: s).
Proof. intros y s Nh (b & r & -> & B). exists (y :: b), r. split; [reflexivity|now constructor]. Qed.
Lemma nested_hash : forall z s, z <> chr "}" -> z <> chr "{" -> nested s -> nested (hash :: z :: s).
Proof. intros z s N1 N2 (b & r & -> & B). exists (hash :: z :: b), r. split; [reflexivity|now apply bb_hash]. Qed.

Lemma nested_in_cons : forall k l y s, y <> hash -> nested_in (newlines [y] + k) l s -> nested_in k l (y :: s).
Proof.
  intros k l y s Nh (b & r & -> & B & L). exists (y :: b), r. split; [reflexivity|]. split; [now constructor|].
  rewrite L. f_equal. change (y :: b) with ([y] ++ b). rewrite nl_app. lia.
Qed.
Lemma nested_in_hash : forall k l z s, z <> chr "}" -> z <> chr "{" -> nested_in (newlines [z] + k) l s -> nested_in k l (hash :: z :: s).
Proof.
  intros k l z s N1 N2 (b & r & -> & B & L). exists (hash :: z :: b), r. split; [reflexivity|]. split; [now apply bb_hash|].
  rewrite L. f_equal. change (hash :: z :: b) with ([hash] ++ [z] ++ b). rewrite !nl_app. change (newlines [hash]) with 0%nat. lia.
Qed.

Lemma block_loop_ok : forall f c x s, c_comment c = BLOCK_COMMENT -> c_rest c = x :: s ->
  source s -> (List.length s < f)%nat -> sane c -> lineok_at c ->
  (exists body r c', s = body ++ hash :: chr "}" :: r /\ block_body body /\
     comment_loop f c = LOk c' /\ same c c' /\ c_rest c' = chr "}" :: r /\
     c_before c' = hash :: rev body ++ x :: c_before c /\ lineok c') \/
  (exists c', comment_loop f c = LOk c' /\ same c c' /\ c_rest c' = [] /\ no_block s) \/
  (exists l, comment_loop f c = LErr E_NESTED_BLOCK_COMMENT l /\ nested_in (newlines (x :: c_before c)) l s).
Proof.
  induction f as [|f IH]; intros c x s Cm E Z Lf Sn Lo; [lia|].
  remember (comment_loop (S f) c) as RR eqn:ER. cbn [comment_loop] in ER.
  rewrite (chomp_pass c x s E) in ER. cbn [lbind] in ER. unfold cur in ER.
  set (c1 := pass c x s (w32 (c_col c + 1))) in *.
  assert (S1 : sane c1) by (now apply sane_pass).
  assert (L1 : lineok c1) by (now apply lineok_pass).
  assert (B1 : c_before c1 = x :: c_before c) by reflexivity.
  change (c_comment c1) with (c_comment c) in ER. rewrite Cm in ER.
  destruct s as [|y s'].
  { right. left. exists c1. split; [rewrite ER; reflexivity|]. split; [repeat split|]. split; [reflexivity|].
    split; intros [|? ?] r Er; discriminate. }
  change (c_rest c1) with (y :: s') in ER. cbn [hd] in ER.
  apply not_in_cons in Z as (Ny & Z). cbn [List.length] in Lf.
  assert (Ey : (y =? 0) = false) by (now apply N.eqb_neq).
  assert (Go : forall c2, c_comment c2 = BLOCK_COMMENT -> same c1 c2 -> c_rest c2 = y :: s' ->
     c_before c2 = c_before c1 -> sane c2 -> lineok_at c2 -> y <> hash ->
     (exists body r c', y :: s' = body ++ hash :: chr "}" :: r /\ block_body body /\
       comment_loop f c2 = LOk c' /\ same c c' /\ c_rest c' = chr "}" :: r /\
       c_before c' = hash :: rev body ++ x :: c_before c /\ lineok c') \/
     (exists c', comment_loop f c2 = LOk c' /\ same c c' /\ c_rest c' = [] /\ no_block (y :: s')) \/
     (exists l, comment_loop f c2 = LErr E_NESTED_BLOCK_COMMENT l /\ nested_in (newlines (x :: c_before c)) l (y :: s'))).
  { intros c2 Cm2 Sm R B Sn2 Lo2 Nh.
    assert (Lift : no_block s' -> no_block (y :: s')).
    { intros (H1 & H2). split; now apply no_end_cons. }
    assert (LiftN : forall l, nested_in (newlines (y :: c_before c2)) l s' -> nested_in (newlines (x :: c_before c)) l (y :: s')).
    { intros l H. apply nested_in_cons; [assumption|]. rewrite B, B1 in H. rewrite <- nl_app. exact H. }
    destruct (IH c2 y s' Cm2 R Z ltac:(lia) Sn2 Lo2) as
      [(body & r & c' & E1 & E2 & E3 & E4 & E5 & E6 & E7)|[(c' & E1 & E2 & E3 & E4)|(l & E1 & E2)]].
    - left. exists (y :: body), r, c'. split; [cbn [app]; congruence|]. split; [now constructor|].
      split; [assumption|]. split; [same_t|]. split; [assumption|]. split; [|assumption].
      rewrite E6, B, B1. cbn [rev]. now rewrite <- app_assoc.
    - right. left. exists c'. split; [assumption|]. split; [same_t|]. auto.
    - right. right. exists l. auto. }
  destruct (y =? chr "#") eqn:Eh.
  2:{ eqb_f Eh. destruct (y =? 10) eqn:E10.
      - eqb_t E10. subst y. cbn [next_line c_rest] in ER.
        change (c_rest c1) with (10 :: s') in ER. cbn [hd] in ER. rewrite Ey in ER. rewrite ER.
        apply Go; [assumption|repeat split|reflexivity|reflexivity|exact S1| |assumption].
        now apply lineok_next with (r := s').
      - eqb_f E10. rewrite Ey in ER. rewrite ER.
        apply Go; [assumption|repeat split|reflexivity|reflexivity|exact S1| |assumption].
        now apply lineok_at_not. }
  eqb_t Eh. fold hash in Eh. subst y.
  rewrite (chomp_pass c1 hash s' eq_refl) in ER. cbn [lbind] in ER.
  set (c2 := pass c1 hash s' (w32 (c_col c1 + 1))) in *.
  assert (S2 : sane c2) by (now apply sane_pass).
  assert (L2 : lineok c2).
  { apply lineok_pass; [reflexivity|]. apply lineok_at_not; [assumption|]. discriminate. }
  assert (B2 : c_before c2 = hash :: x :: c_before c) by reflexivity.
  destruct s' as [|z s2].
  { right. left. exists c2. split; [rewrite ER; reflexivity|]. split; [repeat split|]. split; [reflexivity|].
    split; intros [|a [|b bd]] r Er; discriminate. }
  change (c_rest c2) with (z :: s2) in ER. cbn [hd] in ER.
  apply not_in_cons in Z as (Nz & Z). cbn [List.length] in Lf.
  assert (Ez : (z =? 0) = false) by (now apply N.eqb_neq).
  destruct (z =? chr "}") eqn:Ec.
  { eqb_t Ec. subst z. left. exists [], s2, c2. split; [reflexivity|]. split; [constructor|].
    split; [assumption|]. split; [repeat split|]. split; [reflexivity|]. split; [reflexivity|assumption]. }
  eqb_f Ec.
  assert (Go2 : forall c3, c_comment c3 = BLOCK_COMMENT -> same c1 c3 -> c_rest c3 = z :: s2 ->
     c_before c3 = c_before c2 -> sane c3 -> lineok_at c3 -> z <> chr "{" ->
     (exists body r c', hash :: z :: s2 = body ++ hash :: chr "}" :: r /\ block_body body /\
       comment_loop f c3 = LOk c' /\ same c c' /\ c_rest c' = chr "}" :: r /\
       c_before c' = hash :: rev body ++ x :: c_before c /\ lineok c') \/
     (exists c', comment_loop f c3 = LOk c' /\ same c c' /\ c_rest c' = [] /\ no_block (hash :: z :: s2)) \/
     (exists l, comment_loop f c3 = LErr E_NESTED_BLOCK_COMMENT l /\ nested_in (newlines (x :: c_before c)) l (hash :: z :: s2))).
  { intros c3 Cm3 Sm R B Sn3 Lo3 Nb.
    assert (Lift : no_block s2 -> no_block (hash :: z :: s2)).
    { intros (H1 & H2). split; now apply no_end_hash. }
    assert (LiftN : forall l, nested_in (newlines (z :: c_before c3)) l s2 -> nested_in (newlines (x :: c_before c)) l (hash :: z :: s2)).
    { intros l H. apply nested_in_hash; [assumption|assumption|]. rewrite B, B2 in H. rewrite <- nl_app.
      change (z :: hash :: x :: c_before c) with ([z] ++ [hash] ++ x :: c_before c) in H. rewrite !nl_app in *. exact H. }
    destruct (IH c3 z s2 Cm3 R Z ltac:(lia) Sn3 Lo3) as
      [(body & r & c' & E1 & E2 & E3 & E4 & E5 & E6 & E7)|[(c' & E1 & E2 & E3 & E4)|(l & E1 & E2)]].
    - left. exists (hash :: z :: body), r, c'. split; [cbn [app]; congruence|]. split; [now apply bb_hash|].
      split; [assumption|]. split; [same_t|]. split; [assumption|]. split; [|assumption].
      rewrite E6, B, B2. cbn [rev]. now rewrite <- !app_assoc.
    - right. left. exists c'. split; [assumption|]. split; [same_t|]. auto.
    - right. right. exists l. auto. }
  destruct (z =? 10) eqn:E10.
  { eqb_t E10. subst z. cbn [next_line c_rest] in ER.
    change (c_rest c2) with (10 :: s2) in ER. cbn [hd] in ER. rewrite Ez in ER. rewrite ER.
    apply Go2; [assumption|repeat split|reflexivity|reflexivity|exact S2| |discriminate].
    now apply lineok_next with (r := s2). }
  eqb_f E10. destruct (z =? chr "{") eqn:Eo.
  { eqb_t Eo. subst z. right. right. eexists. split; [exact ER|].
    exists [], s2. split; [reflexivity|]. split; [constructor|]. unfold lineok in L2. rewrite B2 in L2.
    change (l_line (here c2)) with (c_line c2). rewrite L2. f_equal.
    change (hash :: x :: c_before c) with ([hash] ++ x :: c_before c). rewrite nl_app. change (newlines [hash]) with 0%nat. change (newlines []) with 0%nat. lia. }
  eqb_f Eo. rewrite Ez in ER. rewrite ER.
  apply Go2; [assumption|repeat split|reflexivity|reflexivity|exact S2| |assumption].
  now apply lineok_at_not.
Qed.
