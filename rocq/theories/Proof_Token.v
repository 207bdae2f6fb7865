(** Lemmas about the tokenizer model. *)
From Coq Require Import List Arith NArith Bool Lia Ascii String.
From Verif Require Import Base Model_Token Spec_Token.
Import ListNotations.
Open Scope list_scope.
Open Scope N_scope.

(** ** Character classes *)
Lemma ws_blank : forall c, is_whitespace c = true <-> blank c.
Proof.
  intro c. unfold is_whitespace, blank, tab, newline. cbn [In].
  rewrite !orb_true_iff, !N.eqb_eq. intuition.
Qed.

Lemma delim_delim : forall c, is_delimeter c = true <-> delimiter c.
Proof.
  intro c. unfold is_delimeter, delimiter, newline. cbn [In].
  rewrite !orb_true_iff, !N.eqb_eq. intuition.
Qed.

Lemma quote_quote : forall c, is_quote c = true <-> quote c.
Proof.
  intro c. unfold is_quote, quote. cbn [In]. rewrite !orb_true_iff, !N.eqb_eq. intuition.
Qed.

Lemma ws_not : forall c, is_whitespace c = false <-> ~ blank c.
Proof. intro c. rewrite <- ws_blank. destruct (is_whitespace c); intuition congruence. Qed.
Lemma delim_not : forall c, is_delimeter c = false <-> ~ delimiter c.
Proof. intro c. rewrite <- delim_delim. destruct (is_delimeter c); intuition congruence. Qed.
Lemma quote_not : forall c, is_quote c = false <-> ~ quote c.
Proof. intro c. rewrite <- quote_quote. destruct (is_quote c); intuition congruence. Qed.

Lemma quote_facts : forall q, quote q -> q <> 0 /\ q <> newline /\ q <> backslash /\ q <> hash
  /\ ~ blank q /\ ~ delimiter q.
Proof.
  intros q H. rewrite <- ws_not, <- delim_not. cbn in H. destruct H as [<-|[<-|[]]]; repeat split; discriminate.
Qed.

Lemma hash_facts : ~ blank hash /\ ~ delimiter hash /\ ~ quote hash.
Proof. rewrite <- ws_not, <- delim_not, <- quote_not. repeat split; reflexivity. Qed.

(** ** Uniqueness of the pieces of a text *)
Ltac uncons E E0 E1 :=
  pose proof (f_equal (hd 0) E) as E0; pose proof (f_equal (@tl BinNums.N) E) as E1;
  cbn [hd tl] in E0, E1.

Lemma quoted_det : forall q b1 b2 r1 r2, quote q -> quoted q b1 -> quoted q b2 ->
  b1 ++ q :: r1 = b2 ++ q :: r2 -> b1 = b2.
Proof.
  intros q b1 b2 r1 r2 Q H. revert b2. pose proof (quote_facts q Q) as (_ & _ & Qb & _).
  induction H as [|c s N1 N2 H IH|c s Nx H IH|c s N1 N2 H IH]; intros b2 H2 E;
    (destruct H2 as [|c' s' N1' N2' H2|c' s' Nx' H2|c' s' N1' N2' H2]; cbn [app] in E;
     pose proof (f_equal (hd 0) E) as E0; pose proof (f_equal (@tl N) E) as E1; cbn [hd tl] in E0, E1;
     try congruence).
  - f_equal; [assumption|]. apply IH; assumption.
  - pose proof (f_equal (hd 0) E1) as E2; pose proof (f_equal (@tl N) E1) as E3; cbn [hd tl] in E2, E3.
    rewrite E2. do 2 f_equal. apply IH; assumption.
  - pose proof (f_equal (hd 0) E1) as E2. cbn [hd] in E2. destruct Nx; congruence.
  - pose proof (f_equal (hd 0) E1) as E2. cbn [hd] in E2. destruct Nx'; congruence.
  - f_equal. apply IH; assumption.
Qed.

Lemma block_det : forall b1 b2 r1 r2, block_body b1 -> block_body b2 ->
  b1 ++ hash :: chr "}" :: r1 = b2 ++ hash :: chr "}" :: r2 -> b1 = b2.
Proof.
  intros b1 b2 r1 r2 H. revert b2.
  induction H as [|c s Nx H IH|c s N1 N2 H IH]; intros b2 H2 E;
    (destruct H2 as [|c' s' Nx' H2|c' s' N1' N2' H2]; cbn [app] in E; try reflexivity;
     uncons E E0 E1; try congruence).
  - f_equal; [assumption|]. apply IH; assumption.
  - uncons E1 E2 E3. rewrite E2. do 2 f_equal. apply IH; assumption.
Qed.

Lemma line_det : forall b1 b2 s1 s2, ~ In newline b1 -> ~ In newline b2 ->
  at_line_end s1 -> at_line_end s2 -> b1 ++ s1 = b2 ++ s2 -> b1 = b2.
Proof.
  induction b1 as [|x b1 IH]; intros b2 s1 s2 N1 N2 A1 A2 E.
  - destruct b2 as [|y b2]; [reflexivity|]. cbn [app] in E. exfalso.
    destruct A1 as [->|(r & ->)]; [discriminate|].
    uncons E E0 E1. apply N2. now left.
  - destruct b2 as [|y b2].
    + cbn [app] in E. exfalso. destruct A2 as [->|(r & ->)]; [discriminate|].
      uncons E E0 E1. apply N1. now left.
    + cbn [app] in E. uncons E E0 E1. f_equal; [assumption|].
      apply (IH b2 s1 s2); try assumption; intro I; [apply N1|apply N2]; now right.
Qed.

Lemma piece_ne : forall x c s, piece x c s -> x <> [].
Proof. intros x c s []; discriminate. Qed.

Lemma piece_det : forall x1 c1 s1 x2 c2 s2, piece x1 c1 s1 -> piece x2 c2 s2 ->
  x1 ++ s1 = x2 ++ s2 -> x1 = x2 /\ c1 = c2 /\ s1 = s2.
Proof.
  intros x1 c1 s1 x2 c2 s2 P1 P2 E.
  assert (X : x1 = x2 /\ c1 = c2).
  { pose proof hash_facts as (_ & _ & Hq).
    destruct P1 as [c s B D Q H|q body s Q Qd|c body s C Nn A|body s B];
    destruct P2 as [c' s' B' D' Q' H'|q' body' s' Q' Qd'|c' body' s' C' Nn' A'|body' s' B'];
    cbn [app] in E; uncons E E0 E1; try (exfalso; congruence);
    try (exfalso; subst; contradiction); try (exfalso; rewrite E0 in *; contradiction); try (exfalso; rewrite <- E0 in *; contradiction).
    - split; congruence.
    - subst q'. rewrite <- !app_assoc in E1. cbn [app] in E1.
      assert (body = body') by (eapply quoted_det; eassumption). subst. auto.
    - uncons E1 E2 E3. assert (body = body') by (apply (line_det body body' s s'); assumption). split; congruence.
    - uncons E1 E2 E3. exfalso. destruct C; subst; discriminate.
    - uncons E1 E2 E3. exfalso. destruct C'; subst; discriminate.
    - uncons E1 E2 E3. rewrite <- !app_assoc in E3. cbn [app] in E3.
      assert (body = body') by (eapply block_det; eassumption). subst. auto. }
  destruct X as (-> & ->). split; [reflexivity|]. split; [reflexivity|]. now apply app_inv_head in E.
Qed.

Lemma piece_head : forall x c s, piece x c s ->
  exists h t, x = h :: t /\ ~ blank h /\ ~ delimiter h.
Proof.
  intros x c s [c' s' B D Q H|q body s' Q Qd|c' body s' C N A|body s' B].
  - now exists c', [].
  - pose proof (quote_facts q Q) as (_ & _ & _ & _ & F1 & F2). eexists q, _. split; [reflexivity|auto].
  - eexists hash, _. split; [reflexivity|]. split; apply hash_facts.
  - eexists hash, _. split; [reflexivity|]. split; apply hash_facts.
Qed.

(** A possibly empty run of pieces. *)
Inductive cword : text -> bool -> text -> Prop :=
| cw_nil : forall s, cword [] false s
| cw_cons : forall x c w c' s, piece x c (w ++ s) -> cword w c' s -> cword (x ++ w) (c || c') s.

Lemma word_cword : forall w c s, word w c s -> cword w c s.
Proof.
  induction 1 as [x c s P|x c w c' s P W IH].
  - rewrite <- (app_nil_r x), <- (orb_false_r c). constructor; [now cbn|constructor].
  - now constructor.
Qed.

Lemma cword_word : forall w c s, cword w c s -> w <> [] -> word w c s.
Proof.
  induction 1 as [s|x c w c' s P W IH]; intro N; [congruence|].
  destruct w as [|y w].
  - inversion W as [|x0 c0 w0 c0' s0 P0 W0 E]; subst.
    + rewrite app_nil_r, orb_false_r. constructor. now cbn in P.
    + exfalso. apply piece_ne in P0. destruct x0; [congruence|discriminate].
  - constructor; [assumption|]. apply IH. discriminate.
Qed.

(** The pieces of what follows: the open word goes on, stops, and the rest is lexed. *)
Definition lexed_open (p : nat) (s : text) (w : text) (cm : bool) (ls : list lexeme) : Prop :=
  exists s', s = w ++ s' /\ cword w cm s' /\ stops s' /\ lexed (p + List.length w) s' ls.

Lemma stops_not_piece : forall x c s t, piece x c s -> stops (x ++ t) -> False.
Proof.
  intros x c s t P [E|(h & r & E & B)].
  - apply piece_ne in P. destruct x; [congruence|discriminate].
  - apply piece_head in P as (h' & t' & -> & N1 & N2). cbn in E. injection E; intros _ <-. tauto.
Qed.

(** After a piece the open word goes on. *)
Lemma open_piece : forall p x c s w cm ls, piece x c s -> lexed_open p (x ++ s) w cm ls ->
  exists w' cm', w = x ++ w' /\ cm = c || cm' /\ lexed_open (p + List.length x) s w' cm' ls.
Proof.
  intros p x c s w cm ls P (s' & E & W & S & L).
  destruct W as [s'|x1 c1 w1 c1' s' P1 W1].
  - cbn in E. subst s'. exfalso. eapply stops_not_piece; eassumption.
  - rewrite <- app_assoc in E.
    destruct (piece_det _ _ _ _ _ _ P P1 E) as (<- & <- & E2). exists w1, c1'. repeat split.
    exists s'. repeat split; try assumption. rewrite app_length, Nat.add_assoc in L. exact L.
Qed.

Lemma open_piece_r : forall p x c s w cm ls, piece x c s -> lexed_open (p + List.length x) s w cm ls ->
  lexed_open p (x ++ s) (x ++ w) (c || cm) ls.
Proof.
  intros p x c s w cm ls P (s' & -> & W & S & L). exists s'. rewrite app_assoc. repeat split; auto.
  - constructor; assumption.
  - now rewrite app_length, Nat.add_assoc.
Qed.

Lemma open_stop : forall p s w cm ls, stops s -> lexed_open p s w cm ls ->
  w = [] /\ cm = false /\ lexed p s ls.
Proof.
  intros p s w cm ls S (s' & E & W & _ & L). destruct W as [s'|x c w c' s' P W].
  - cbn in *. subst. rewrite Nat.add_0_r in L. auto.
  - exfalso. subst s. rewrite <- app_assoc in S. eapply stops_not_piece; eassumption.
Qed.

Lemma open_stop_r : forall p s ls, stops s -> lexed p s ls -> lexed_open p s [] false ls.
Proof. intros p s ls S L. exists s. repeat split; auto; [constructor|cbn; now rewrite Nat.add_0_r]. Qed.

(** A text that starts with a piece is lexed as a word. *)
Lemma closed_piece : forall p x c s ls, piece x c s -> lexed p (x ++ s) ls ->
  exists w' cm' ls', lexed_open (p + List.length x) s w' cm' ls' /\
    ls = mklex p (List.length (x ++ w')) (if c || cm' then KComment else KWord) :: ls'.
Proof.
  intros p x c s ls P L. pose proof (piece_head _ _ _ P) as (h & t & Eh & N1 & N2).
  remember (x ++ s) as z eqn:E.
  destruct L as [q|q c0 s0 ls0 B Nn L0|q c0 s0 ls0 D L0|q w cm s0 ls0 W S L0].
  - subst x. discriminate.
  - subst x. cbn [app] in E. uncons E E0 E1. subst. contradiction.
  - subst x. cbn [app] in E. uncons E E0 E1. subst. contradiction.
  - destruct (open_piece q x c s w cm ls0 P) as (w' & cm' & -> & -> & O).
    { exists s0. split; [congruence|]. split; [now apply word_cword|]. auto. }
    exists w', cm', ls0. split; [assumption|reflexivity].
Qed.

Lemma closed_piece_r : forall p x c s w cm ls, piece x c s ->
  lexed_open (p + List.length x) s w cm ls ->
  lexed p (x ++ s) (mklex p (List.length (x ++ w)) (if c || cm then KComment else KWord) :: ls).
Proof.
  intros p x c s w cm ls P O. apply open_piece_r with (1 := P) in O as (s' & E & W & S & L).
  rewrite E. constructor; auto. apply cword_word; [assumption|].
  apply piece_ne in P. destruct x; [congruence|discriminate].
Qed.
