(** The facts about tokenize that the property file exports. *)
From Coq Require Import List Arith NArith Bool Lia Ascii String.
From Verif Require Import Base Model_Token Spec_Token Proof_Token Proof_Token2 Proof_Token3 Proof_Token4.
Import ListNotations.
Open Scope list_scope.
Open Scope N_scope.

Lemma lexed_unique : forall p s ls, lexed p s ls -> forall ls', lexed p s ls' -> ls = ls'.
Proof.
  intros p s ls L. induction L as [p|p c s ls B Nn L IH|p c s ls D L IH|p w cm s ls W S L IH]; intros ls' L'.
  - remember [] as z eqn:E. destruct L' as [q|q c0 s0 ls0 B Nn L0|q c0 s0 ls0 D L0|q w cm s0 ls0 W S L0]; try discriminate.
    + reflexivity.
    + apply word_head in W as (h & t & -> & _). discriminate.
  - apply IH. now apply lexed_blank_inv in L'.
  - apply lexed_delim_inv in L' as (l2 & -> & L'); [|assumption]. f_equal. now apply IH.
  - revert S L IH ls' L'. revert p ls. apply word_cword in W as CW. pose proof (word_head _ _ _ W) as (h & t & Eh & _). clear W.
    assert (G : forall p ls', lexed_open p (w ++ s) w cm ls' -> stops s -> lexed (p + List.length w) s ls').
    { intros p ls' (s' & E & _ & _ & L') _. apply app_inv_head in E. now subst. }
    intros p ls S L IH ls' L'.
    destruct CW as [s|x c w c' s P CW]; [discriminate|].
    rewrite <- app_assoc in L'. destruct (closed_piece _ _ _ _ _ P L') as (w2 & cm2 & ls2 & O & ->).
    apply open_piece_r with (1 := P) in O. destruct O as (s2 & E2 & W2 & S2 & L2).
    assert (X : forall x1 c1 s1 x2 c2 s2, cword x1 c1 s1 -> stops s1 -> cword x2 c2 s2 -> stops s2 ->
      x1 ++ s1 = x2 ++ s2 -> x1 = x2 /\ c1 = c2).
    { clear. intros x1 c1 s1 x2 c2 s2 W1 S1. revert x2 c2 s2. induction W1 as [s1|y c w c' s1 P W IH]; intros x2 c2 s2 W2 S2 E.
      - destruct W2 as [s2|y2 d2 w2 d2' s2 P2 W2]; [auto|]. exfalso. cbn [app] in E. subst s1. rewrite <- app_assoc in S1. eapply stops_not_piece; eassumption.
      - destruct W2 as [s2|y2 d2 w2 d2' s2 P2 W2].
        + exfalso. cbn [app] in E. subst s2. rewrite <- app_assoc in S2. eapply stops_not_piece; eassumption.
        + rewrite <- !app_assoc in E. destruct (piece_det _ _ _ _ _ _ P P2 E) as (-> & -> & E').
          destruct (IH S1 _ _ _ W2 S2 E') as (-> & ->). auto. }
    rewrite app_assoc in E2. destruct (X _ _ _ _ _ _ (cw_cons _ _ _ _ _ P CW) S W2 S2 E2) as (X1 & X2).
    rewrite <- X1, <- X2. f_equal. apply IH. rewrite X1. rewrite X1 in E2. apply app_inv_head in E2. now subst s2.
Qed.

Lemma fits_behind : forall src, fits src -> fits (behind_bom src).
Proof. unfold fits. intros [|c r] H; cbn; [assumption|]. destruct (c =? bom); cbn in *; lia. Qed.

Lemma source_behind : forall src, source src -> source (behind_bom src).
Proof.
  unfold source. intros [|c r] H; cbn [behind_bom]; [assumption|].
  destruct (c =? bom); [|assumption]. intro I. apply H. now right.
Qed.

Lemma has_bom_b : forall src, (hd 0 src =? 65279) = true <-> has_bom src.
Proof.
  intros src. rewrite N.eqb_eq. unfold has_bom. split.
  - destruct src as [|c r]; cbn [hd]; [discriminate|]. intros ->. now exists r.
  - intros (r & ->). reflexivity.
Qed.

Lemma behind_is : forall src, (if hd 0 src =? 65279 then tl src else src) = behind_bom src.
Proof. intros [|c r]; reflexivity. Qed.

Lemma tokenize_cases : forall werror src, source src -> fits src ->
  let b := hd 0 src =? 65279 in
  (b && werror = true /\ tokenize werror src = Rejected true None) \/
  (b && werror = false /\
   ((exists ls ts, lexed 0 (behind_bom src) ls /\ tokenize werror src = Tokens b (fin ts) /\
       Forall2 (stands_for (behind_bom src)) ts ls) \/
    (exists e l, tokenize werror src = Rejected b (Some (e, l)) /\ offended (behind_bom src) e l /\ forall ls, ~ lexed 0 (behind_bom src) ls))).
Proof.
  intros werror src Z F b. unfold tokenize. rewrite behind_is. fold b.
  destruct (b && werror); [now left|]. right. split; [reflexivity|].
  apply source_behind in Z. apply fits_behind in F.
  destruct (tokenize_text_ok _ Z F) as [(ls & ts & L & -> & Fo)|(e & l & -> & Of & No)].
  - left. exists ls, ts. auto.
  - right. exists e, l. auto.
Qed.

Lemma fin_forall2 : forall (P : token -> lexeme -> Prop) ts ls, Forall2 P ts ls ->
  fin ts = match ls with [] => [make_token] | _ => ts end.
Proof. intros P ts ls []; reflexivity. Qed.

(** *** Exported lemmas *)
Lemma tokenizer_total_l : forall werror src, source src -> fits src ->
  (exists w ts, tokenize werror src = Tokens w ts) \/ (exists w e, tokenize werror src = Rejected w e).
Proof.
  intros werror src Z F.
  destruct (tokenize_cases werror src Z F) as [(_ & E)|(_ & [(ls & ts & _ & E & _)|(e & l & E & _)])]; rewrite E; eauto.
Qed.

Lemma tokens_iff_l : forall werror src, source src -> fits src ->
  ((exists w ts, tokenize werror src = Tokens w ts) <->
   (exists ls, lexed 0 (behind_bom src) ls) /\ ~ (werror = true /\ has_bom src)).
Proof.
  intros werror src Z F. pose proof (has_bom_b src) as HB.
  destruct (tokenize_cases werror src Z F) as [(B & E)|(B & [(ls & ts & L & E & _)|(e & l & E & Of & No)])]; rewrite E.
  - apply andb_true_iff in B as (B1 & B2). split.
    + intros (w & ts & H). discriminate.
    + intros (_ & N). exfalso. apply N. split; [assumption|]. now apply HB.
  - split; [|eauto]. intros _. split; [eauto|]. intros (-> & H). apply HB in H. rewrite H in B. discriminate.
  - split.
    + intros (w & ts & H). discriminate.
    + intros ((ls & L) & _). exfalso. exact (No _ L).
Qed.

Lemma tokens_are_l : forall werror src w ts, source src -> fits src ->
  tokenize werror src = Tokens w ts ->
  (w = true <-> has_bom src) /\
  exists ls, lexed 0 (behind_bom src) ls /\
    (ls = [] -> ts = [empty_token]) /\
    (ls <> [] -> Forall2 (stands_for (behind_bom src)) ts ls).
Proof.
  intros werror src w ts Z F E. pose proof (has_bom_b src) as HB.
  destruct (tokenize_cases werror src Z F) as [(B & E')|(B & [(ls & ts' & L & E' & Fo)|(e & l & E' & Of & No)])]; rewrite E' in E; try discriminate.
  injection E as <- <-. split; [assumption|]. exists ls. split; [assumption|].
  rewrite (fin_forall2 _ _ _ Fo). split.
  - intros ->. reflexivity.
  - intro N. destruct ls; [congruence|]. assumption.
Qed.

Lemma rejected_l : forall werror src w e, source src -> fits src ->
  tokenize werror src = Rejected w e ->
  (w = true <-> has_bom src) /\
  ((e = None /\ werror = true /\ has_bom src) \/
   (exists x l, e = Some (x, l) /\ (exists px s, behind_bom src = px ++ s /\ reached px s /\ stuck s x /\ complains_at (behind_bom src) px s x l) /\
     forall ls, ~ lexed 0 (behind_bom src) ls)).
Proof.
  intros werror src w e Z F E. pose proof (has_bom_b src) as HB.
  destruct (tokenize_cases werror src Z F) as [(B & E')|(B & [(ls & ts' & L & E' & Fo)|(e' & l & E' & Of & No)])]; rewrite E' in E; try discriminate; injection E as <- <-.
  - apply andb_true_iff in B as (B1 & B2). apply HB in B1. split; [tauto|]. left. auto.
  - split; [assumption|]. right. eauto.
Qed.

Definition lspan (x : lexeme) : nat * nat := (x_begin x, x_len x).

Lemma lexed_covers : forall p s ls, lexed p s ls -> covers p s (map lspan ls).
Proof.
  intros p s ls L. induction L as [p|p c s ls B Nn L IH|p c s ls D L IH|p w cm s ls W S L IH].
  - constructor.
  - destruct ls as [|x ls]; cbn [map covers lspan] in *.
    + now constructor.
    + destruct IH as (gap & w & r & -> & G & Nw & Eb & El & C). exists (c :: gap), w, r.
      split; [reflexivity|]. split; [now constructor|]. split; [assumption|].
      split; [cbn [List.length]; lia|]. auto.
  - cbn [map covers lspan x_begin x_len]. exists [], [c], s. repeat split; auto; try discriminate; cbn [List.length]; try lia.
    rewrite Nat.add_1_r. exact IH.
  - cbn [map covers lspan x_begin x_len]. exists [], w, s. repeat split; auto; cbn [List.length]; try lia.
    apply word_head in W as (h & t & -> & _). discriminate.
Qed.

Lemma stands_span : forall src ts ls, Forall2 (stands_for src) ts ls -> map span ts = map lspan ls.
Proof.
  intros src ts ls F. induction F as [|t x ts ls S F IH]; [reflexivity|]. cbn [map]. rewrite IH. f_equal.
  destruct S as (S1 & S2 & _). unfold span, lspan. now rewrite S1, S2, Nat2N.id.
Qed.

Lemma tokens_cover_l : forall werror src w ts, source src -> fits src ->
  tokenize werror src = Tokens w ts -> ts <> [empty_token] ->
  Forall (fun t => t_begin t <> None) ts /\ covers 0 (behind_bom src) (map span ts).
Proof.
  intros werror src w ts Z F E Nt.
  destruct (tokens_are_l _ _ _ _ Z F E) as (_ & ls & L & E0 & E1).
  destruct ls as [|x ls]; [exfalso; now apply Nt, E0|]. specialize (E1 ltac:(discriminate)). split.
  - clear - E1. remember (x :: ls) as l eqn:X. clear X. induction E1 as [|t y ts l S _ IH]; constructor; auto.
    destruct S as (-> & _). discriminate.
  - rewrite (stands_span _ _ _ E1). now apply lexed_covers.
Qed.

(** Only blank texts give the empty token. *)
Lemma empty_token_blank_l : forall werror src w, source src -> fits src ->
  tokenize werror src = Tokens w [empty_token] -> Forall blank (behind_bom src) /\ ~ In newline (behind_bom src).
Proof.
  intros werror src w Z F E.
  destruct (tokens_are_l _ _ _ _ Z F E) as (_ & ls & L & E0 & E1).
  destruct ls as [|x ls].
  - clear - L. remember [] as l eqn:X. revert X. induction L; intro X; try discriminate.
    + split; [constructor|intros []].
    + destruct (IHL X) as (A & B). split; [now constructor|]. intros [H1|H1]; [congruence|tauto].
  - specialize (E1 ltac:(discriminate)). inversion E1 as [|t y ts l S]; subst.
    destruct S as (S & _). discriminate.
Qed.

Lemma forall2_in : forall (A B : Type) (P : A -> B -> Prop) xs ys x, Forall2 P xs ys -> In x xs -> exists y, In y ys /\ P x y.
Proof.
  intros A B P xs ys x F. induction F as [|a b xs ys H F IH]; [intros []|]. intros [->|I].
  - exists b. split; [now left|assumption].
  - destruct (IH I) as (y & Iy & Py). exists y. split; [now right|assumption].
Qed.

Lemma token_line_l : forall werror src w ts t b, source src -> fits src ->
  tokenize werror src = Tokens w ts -> In t ts -> t_begin t = Some b ->
  l_line (t_loc t) = N.of_nat (1 + newlines (firstn b (behind_bom src))).
Proof.
  intros werror src w ts t b Z F E I Eb.
  destruct (tokens_are_l _ _ _ _ Z F E) as (_ & ls & L & E0 & E1).
  destruct ls as [|x ls].
  - rewrite E0 in I by reflexivity. destruct I as [<-|[]]. discriminate.
  - specialize (E1 ltac:(discriminate)). destruct (forall2_in _ _ _ _ _ _ E1 I) as (y & _ & (S1 & _ & _ & S4 & _)).
    rewrite Eb in S1. injection S1 as ->. exact S4.
Qed.

Lemma token_column_l : forall werror src w ts t b, source src -> fits src ->
  tokenize werror src = Tokens w ts -> In t ts -> t_begin t = Some b ->
  simple_line (behind_bom src) b ->
  l_column (t_loc t) = N.of_nat (1 + List.length (last_line (firstn b (behind_bom src)))).
Proof.
  intros werror src w ts t b Z F E I Eb Sl.
  destruct (tokens_are_l _ _ _ _ Z F E) as (_ & ls & L & E0 & E1).
  destruct ls as [|x ls].
  - rewrite E0 in I by reflexivity. destruct I as [<-|[]]. discriminate.
  - specialize (E1 ltac:(discriminate)). destruct (forall2_in _ _ _ _ _ _ E1 I) as (y & _ & (S1 & _ & _ & _ & S5)).
    rewrite Eb in S1. injection S1 as ->. exact (S5 Sl).
Qed.
