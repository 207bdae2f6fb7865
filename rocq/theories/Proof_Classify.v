(** The recognisers of the classifier agree with the word grammars. *)
From Coq Require Import List Arith NArith Bool Lia Ascii String.
From Verif Require Import Base Model_Token Model_Utf8 Model_Classify Spec_Classify Proof_Utf8.
Import ListNotations.
Open Scope list_scope.
Open Scope N_scope.

Ltac uncons E E0 E1 :=
  pose proof (f_equal (hd 0) E) as E0; pose proof (f_equal (@tl BinNums.N) E) as E1;
  cbn [hd tl] in E0, E1.

Notation under := (chr "_").

Lemma digit_b : forall c, c32isdigit c = true <-> digit c.
Proof. intro c. apply between_true. Qed.
Lemma xdigit_b : forall c, c32isxdigit c = true <-> hex_digit c.
Proof. intro c. unfold c32isxdigit, hex_digit, digit. rewrite !orb_true_iff, !between_true. tauto. Qed.
Lemma odigit_b : forall c, between (chr "0") c (chr "7") = true <-> octal_digit c.
Proof. intro c. apply between_true. Qed.
Lemma bdigit_b : forall c, (c =? chr "0") || (c =? chr "1") = true <-> binary_digit c.
Proof. intro c. unfold binary_digit. rewrite orb_true_iff, !N.eqb_eq. tauto. Qed.
Lemma letter_b : forall c, between (chr "A") c (chr "Z") || between (chr "a") c (chr "z") = true <-> letter c.
Proof. intro c. unfold letter. rewrite orb_true_iff, !between_true. tauto. Qed.
Lemma alnum_b : forall c, c32isalnum c = true <-> letter c \/ digit c.
Proof. intro c. unfold c32isalnum. rewrite !orb_true_iff, digit_b, !between_true. unfold letter. tauto. Qed.

Lemma digit_not_under : ~ digit under. Proof. unfold digit. cbn. lia. Qed.
Lemma hex_not_under : ~ hex_digit under. Proof. unfold hex_digit, digit. cbn. lia. Qed.
Lemma oct_not_under : ~ octal_digit under. Proof. unfold octal_digit. cbn. lia. Qed.
Lemma bin_not_under : ~ binary_digit under. Proof. unfold binary_digit. cbn. lia. Qed.

(** ** Digits with underscores *)
Lemma digits_head : forall D s, digits D s -> exists d r, s = d :: r /\ D d.
Proof. intros D s []; eauto. Qed.

Lemma digits_cons : forall D c r, digits D (c :: r) <->
  D c /\ (r = [] \/ digits D r \/ exists s, r = under :: s /\ digits D s).
Proof.
  intros D c r. split.
  - intro H. remember (c :: r) as z eqn:E. destruct H as [d Hd|d s Hd Hs|d s Hd Hs]; uncons E E0 E1; subst; split; eauto.
  - intros (Hc & [->|[H|(s & -> & H)]]); [apply dg_one|apply dg_more|apply dg_under]; assumption.
Qed.

Definition ok (r : option N) : bool := match r with Some l => negb (l =? under) | None => false end.

Section Exhaust.
  Context (cond : N -> bool) (D : N -> Prop).
  Hypothesis cond_D : forall c, cond c = true <-> D c.
  Hypothesis no_under : ~ D under.

  Lemma exhaust_ok : forall s,
    (ok (exhaust_loop cond true under s) = true <-> digits D s) /\
    (forall p, p <> under -> ok (exhaust_loop cond false p s) = true <->
       (s = [] \/ digits D s \/ exists s', s = under :: s' /\ digits D s')).
  Proof.
    induction s as [|c r (IHA & IHB)].
    - split.
      + cbn [exhaust_loop ok]. rewrite N.eqb_refl. split; [discriminate|]. intro H. apply digits_head in H as (d & r & E & _). discriminate.
      + intros p Np. cbn [exhaust_loop ok]. apply N.eqb_neq in Np. rewrite Np. cbn [negb]. split; auto.
    - assert (Main : forall w q, c <> under -> (ok (if w && (c =? under) then None
        else if negb (cond c) && negb (c =? under) then None else exhaust_loop cond (c =? under) q r) = true -> q = c ->
        digits D (c :: r)) /\ (digits D (c :: r) -> q = c -> ok (if w && (c =? under) then None
        else if negb (cond c) && negb (c =? under) then None else exhaust_loop cond (c =? under) q r) = true)).
      { intros w q Nc. apply N.eqb_neq in Nc as Nb. rewrite Nb, andb_false_r. cbn [negb]. rewrite andb_true_r.
        destruct (cond c) eqn:Ec; cbn [negb].
        - split.
          + intros H ->. apply (IHB c Nc) in H. apply digits_cons. split; [now apply cond_D|assumption].
          + intros H ->. apply (IHB c Nc). now apply digits_cons in H.
        - split; [discriminate|]. intros H _. apply digits_cons in H as (H & _). apply cond_D in H. congruence. }
      split.
      + cbn [exhaust_loop]. destruct (N.eq_dec c under) as [->|Nc].
        * rewrite N.eqb_refl. cbn. split; [discriminate|]. intro H. apply digits_cons in H as (H & _). contradiction.
        * destruct (Main true c Nc) as (M1 & M2). split; auto.
      + intros p Np. cbn [exhaust_loop]. destruct (N.eq_dec c under) as [->|Nc].
        * rewrite N.eqb_refl. cbn [andb negb]. rewrite andb_false_r. rewrite IHA. split.
          -- intro H. right. right. eauto.
          -- intros [H|[H|(s' & H & H')]]; [discriminate|apply digits_cons in H as (H & _); contradiction|].
             uncons H H0 H1. now subst.
        * destruct (Main false c Nc) as (M1 & M2). split; [auto|].
          intros [H|[H|(s' & H & H')]]; [discriminate|auto|]. uncons H H0 H1. contradiction.
  Qed.

  Lemma exhaust_int_ok : forall p s, s <> [] -> exhaust_int cond p s = true <-> digits D s.
  Proof.
    intros p s Ns. destruct s as [|c r]; [congruence|]. unfold exhaust_int. cbn [hd].
    destruct (c =? under) eqn:Ec.
    - apply N.eqb_eq in Ec. subst c. split; [discriminate|]. intro H. apply digits_cons in H as (H & _). contradiction.
    - apply N.eqb_neq in Ec. change (ok (exhaust_loop cond false p (c :: r)) = true <-> digits D (c :: r)).
      assert (X : exhaust_loop cond false p (c :: r) = exhaust_loop cond false 0 (c :: r)) by reflexivity.
      rewrite X. destruct (exhaust_ok (c :: r)) as (_ & B). rewrite (B 0) by discriminate. split; [|auto].
      intros [H|[H|(s' & H & H')]]; [discriminate|assumption|]. uncons H H0 H1. contradiction.
  Qed.
End Exhaust.

(** ** Integers *)
Lemma int_ok : forall s, is_constant_integer_str s = true <-> int_word s /\ ~ zero_under s.
Proof.
  intro s.
  assert (Dec : (match (if hd 0 s =? chr "-" then tl s else s) with
                 | [] => false | _ :: _ => exhaust_int c32isdigit 0 (if hd 0 s =? chr "-" then tl s else s) end) = true <->
                digits digit s \/ exists r, s = chr "-" :: r /\ digits digit r).
  { destruct s as [|c r]; cbn [hd tl].
    - cbn. split; [discriminate|]. intros [H|(r & H & _)]; [|discriminate].
      apply digits_head in H as (? & ? & ? & _). discriminate.
    - destruct (c =? chr "-") eqn:Ec.
      + apply N.eqb_eq in Ec. subst c. destruct r as [|d r].
        * split; [discriminate|]. intros [H|(r & H & H')].
          -- apply digits_cons in H as (H & _). unfold digit in H. cbn in H. lia.
          -- uncons H H0 H1. subst r. apply digits_head in H' as (? & ? & ? & _). discriminate.
        * rewrite (exhaust_int_ok c32isdigit digit digit_b digit_not_under) by discriminate. split.
          -- intro H. right. eauto.
          -- intros [H|(r' & H & H')].
             ++ apply digits_cons in H as (H & _). unfold digit in H. cbn in H. lia.
             ++ uncons H H0 H1. now subst.
      + apply N.eqb_neq in Ec. rewrite (exhaust_int_ok c32isdigit digit digit_b digit_not_under) by discriminate. split; [auto|].
        intros [H|(r' & H & H')]; [assumption|]. uncons H H0 H1. contradiction. }
  assert (Pre : forall m r, int_word (chr "0" :: m :: r) -> ~ digit m -> m <> under -> r <> [] ->
     (m = chr "x" /\ digits hex_digit r) \/ (m = chr "o" /\ digits octal_digit r) \/ (m = chr "b" /\ digits binary_digit r)).
  { intros m r H Nd Nu Nr. remember (chr "0" :: m :: r) as z eqn:E.
    destruct H as [s0 H|s0 H|s0 H|s0 H|s0 H].
    - exfalso. subst s0. apply digits_cons in H as (_ & [H|[H|(s' & H & H')]]); [discriminate| |].
      + apply digits_cons in H as (H & _). contradiction.
      + uncons H H0 H1. contradiction.
    - uncons E E0 E1. discriminate.
    - uncons E E0 E1. cbn [u list_ascii_of_string map app tl] in E1. uncons E1 E2 E3. subst. left. auto.
    - uncons E E0 E1. cbn [u list_ascii_of_string map app tl] in E1. uncons E1 E2 E3. subst. right. left. auto.
    - uncons E E0 E1. cbn [u list_ascii_of_string map app tl] in E1. uncons E1 E2 E3. subst. right. right. auto. }
  assert (Short : forall s0, int_word s0 -> (List.length s0 < 3)%nat -> digits digit s0 \/ exists r, s0 = chr "-" :: r /\ digits digit r).
  { intros s0 H L. destruct H as [s0 H|s0 H|s0 H|s0 H|s0 H]; eauto;
    apply digits_head in H as (d & r & -> & _); cbn in L; lia. }
  assert (ShortZ : (List.length s < 3)%nat -> (digits digit s \/ exists r, s = chr "-" :: r /\ digits digit r) -> int_word s /\ ~ zero_under s).
  { intros L [H|(r & -> & H)].
    - split; [now constructor|]. intros (r & ->). cbn in L. assert (r = []) by (destruct r; [reflexivity|cbn in L; lia]). subst r.
      apply digits_cons in H as (_ & [H|[H|(s' & H & H')]]); [discriminate| |].
      + apply digits_cons in H as (H & _). now apply digit_not_under in H.
      + cbn in H. uncons H H0 H1. subst s'. apply digits_head in H' as (? & ? & ? & _). discriminate.
    - split; [now constructor|]. intros (r' & E). discriminate. }
  unfold is_constant_integer_str. cbv zeta.
  destruct s as [|z [|m [|d r]]].
  - rewrite Dec. split; [intro H; apply ShortZ; [cbn; lia|assumption]|]. intros (H & _). apply Short; [assumption|cbn; lia].
  - rewrite Dec. split; [intro H; apply ShortZ; [cbn; lia|assumption]|]. intros (H & _). apply Short; [assumption|cbn; lia].
  - rewrite Dec. split; [intro H; apply ShortZ; [cbn; lia|assumption]|]. intros (H & _). apply Short; [assumption|cbn; lia].
  - destruct ((z =? chr "0") && negb (c32isdigit m)) eqn:Eb.
    + apply andb_true_iff in Eb as (E1 & E2). apply N.eqb_eq in E1. subst z.
      apply negb_true_iff in E2. assert (Nd : ~ digit m) by (intro X; apply digit_b in X; congruence).
      destruct (m =? chr "x") eqn:Ex.
      { apply N.eqb_eq in Ex. subst m. rewrite (exhaust_int_ok _ _ xdigit_b hex_not_under) by discriminate. split.
        - intro H. split; [now apply (int_hex (d :: r))|]. intros (r' & E). discriminate.
        - intros (H & _). apply Pre in H as [(_ & H)|[(X & _)|(X & _)]]; try discriminate; try assumption. }
      destruct (m =? chr "b") eqn:Ebb.
      { apply N.eqb_eq in Ebb. subst m. rewrite (exhaust_int_ok _ _ bdigit_b bin_not_under) by discriminate. split.
        - intro H. split; [now apply (int_bin (d :: r))|]. intros (r' & E). discriminate.
        - intros (H & _). apply Pre in H as [(X & _)|[(X & _)|(_ & H)]]; try discriminate; try assumption. }
      destruct (m =? chr "o") eqn:Eo.
      { apply N.eqb_eq in Eo. subst m. rewrite (exhaust_int_ok _ _ odigit_b oct_not_under) by discriminate. split.
        - intro H. split; [now apply (int_oct (d :: r))|]. intros (r' & E). discriminate.
        - intros (H & _). apply Pre in H as [(X & _)|[(_ & H)|(X & _)]]; try discriminate; try assumption. }
      apply N.eqb_neq in Ex. apply N.eqb_neq in Ebb. apply N.eqb_neq in Eo.
      split; [discriminate|]. intros (H & Nz). exfalso. destruct (N.eq_dec m under) as [->|Nu].
      * apply Nz. exists (d :: r). reflexivity.
      * apply Pre in H as [(X & _)|[(X & _)|(X & _)]]; try congruence.
    + rewrite Dec. split.
      * intros [H|(r' & E & H)].
        -- split; [now constructor|]. intros (r' & E). uncons E E0 E1. cbn [u list_ascii_of_string map app tl] in E1.
           uncons E1 E2 E3. subst. discriminate.
        -- uncons E E0 E1. subst. split; [now apply int_neg|]. intros (r' & E2). uncons E2 E3 E4. discriminate.
      * intros (H & Nz). remember (z :: m :: d :: r) as zz eqn:E.
        destruct H as [s0 H|s0 H|s0 H|s0 H|s0 H]; eauto; exfalso;
        uncons E E0 E1; cbn [u list_ascii_of_string map app tl] in E1; uncons E1 E2 E3; subst; discriminate.
Qed.

(** ** Floats *)
Definition fok (r : option (option N * text)) : option text :=
  match r with
  | Some (Some p, rest) => if p =? under then None else Some rest
  | _ => None
  end.
Definition stopf (s : text) : Prop := s = [] \/ exists r, s = chr "." :: r.

Lemma stopf_cons : forall c r, stopf (c :: r) -> c = chr ".".
Proof. intros c r [H|(r' & H)]; [discriminate|]. now uncons H H0 H1. Qed.

Lemma float_loop_ok : forall s rest,
  (fok (float_loop true (Some under) s) = Some rest <-> stopf rest /\ exists a, s = a ++ rest /\ digits digit a) /\
  (forall p, p <> under -> fok (float_loop false (Some p) s) = Some rest <->
     stopf rest /\ (s = rest \/ (exists a, s = a ++ rest /\ digits digit a) \/
                    (exists a, s = under :: a ++ rest /\ digits digit a))).
Proof.
  induction s as [|c r IH]; intro rest.
  - split.
    + cbn [float_loop fok]. rewrite N.eqb_refl. split; [discriminate|]. intros (_ & a & E & H).
      apply digits_head in H as (d & r & -> & _). discriminate.
    + intros p Np. cbn [float_loop fok]. apply N.eqb_neq in Np. rewrite Np. split.
      * intro E. injection E as <-. split; [now left|now left].
      * intros (_ & [<-|[(a & E & H)|(a & E & _)]]); [reflexivity| |discriminate].
        apply digits_head in H as (d & r & -> & _). discriminate.
  - destruct (IH rest) as (IHA & IHB).
    assert (Point : c = chr "." -> forall a, c :: r = a ++ rest -> ~ digits digit a).
    { intros -> a E H. apply digits_head in H as (d & r' & -> & Hd). cbn [app] in E. uncons E E0 E1. subst d.
      unfold digit in Hd. cbn in Hd. lia. }
    assert (Main : forall w, c <> under -> c <> chr "." ->
      (fok (if (w && (c =? under)) || (negb (c32isdigit c) && negb (c =? under)) then None
            else float_loop (c =? under) (Some c) r) = Some rest <->
       stopf rest /\ exists a, c :: r = a ++ rest /\ digits digit a)).
    { intros w Nu Np. apply N.eqb_neq in Nu as Nb. rewrite Nb, andb_false_r. cbn [negb orb]. rewrite andb_true_r.
      destruct (c32isdigit c) eqn:Ec; cbn [negb].
      - rewrite (IHB c Nu). apply digit_b in Ec. split.
        + intros (S & [->|[(a & -> & H)|(a & -> & H)]]); split; try assumption.
          * exists [c]. split; [reflexivity|now constructor].
          * exists (c :: a). split; [reflexivity|now apply dg_more].
          * exists (c :: under :: a). split; [reflexivity|now apply dg_under].
        + intros (S & a & E & H). split; [assumption|]. destruct a as [|d a]; [now apply digits_head in H as (? & ? & ? & _)|].
          cbn [app] in E. uncons E E0 E1. subst d. apply digits_cons in H as (_ & [->|[H|(s & -> & H)]]).
          * now left.
          * right. left. eauto.
          * right. right. cbn [app] in E1. eauto.
      - cbn [fok]. split; [discriminate|]. intros (S & a & E & H). apply digits_head in H as (d & a' & -> & Hd).
        cbn [app] in E. uncons E E0 E1. subst d. apply digit_b in Hd. congruence. }
    split.
    + cbn [float_loop]. destruct (c =? chr ".") eqn:Ep.
      * apply N.eqb_eq in Ep. cbn [fok]. rewrite N.eqb_refl. split; [discriminate|].
        intros (S & a & E & H). exfalso. exact (Point Ep a E H).
      * apply N.eqb_neq in Ep. destruct (N.eq_dec c under) as [->|Nu].
        -- rewrite N.eqb_refl. cbn [andb orb]. cbn [fok]. split; [discriminate|]. intros (S & a & E & H).
           apply digits_head in H as (d & a' & -> & Hd). cbn [app] in E. uncons E E0 E1. subst d. now apply digit_not_under in Hd.
        -- now apply Main.
    + intros p Np. cbn [float_loop]. destruct (c =? chr ".") eqn:Ep.
      * apply N.eqb_eq in Ep. cbn [fok]. apply N.eqb_neq in Np. rewrite Np. split.
        -- intro E. injection E as <-. split; [right; exists r; now subst|now left].
        -- intros (S & [E|[(a & E & H)|(a & E & _)]]).
           ++ now rewrite E.
           ++ exfalso. exact (Point Ep a E H).
           ++ uncons E E0 E1. subst. discriminate.
      * apply N.eqb_neq in Ep. destruct (N.eq_dec c under) as [->|Nu].
        -- rewrite N.eqb_refl. cbn [andb orb negb]. rewrite andb_false_r. rewrite IHA. split.
           ++ intros (S & a & -> & H). split; [assumption|]. right. right. eauto.
           ++ intros (S & [E|[(a & E & H)|(a & E & H)]]); split; try assumption.
              ** exfalso. rewrite <- E in S. apply stopf_cons in S. discriminate.
              ** exfalso. apply digits_head in H as (d & a' & -> & Hd). cbn [app] in E. uncons E E0 E1. subst d. now apply digit_not_under in Hd.
              ** uncons E E0 E1. eauto.
        -- rewrite (Main false Nu Ep). split.
           ++ intros (S & H). auto.
           ++ intros (S & [E|[H|(a & E & _)]]); split; try assumption.
              ** exfalso. rewrite <- E in S. apply stopf_cons in S. contradiction.
              ** exfalso. uncons E E0 E1. contradiction.
Qed.

Lemma float_loop_some : forall s w p rest, float_loop w (Some p) s <> Some (None, rest).
Proof.
  induction s as [|c r IH]; intros w p rest; cbn [float_loop]; [discriminate|].
  destruct (c =? chr "."); [discriminate|]. destruct (_ || _); [discriminate|]. apply IH.
Qed.

Definition fbody (s : text) : Prop :=
  exists a f, s = a ++ chr "." :: f /\ digits digit a /\ f <> [] /\ Forall digit f.

Lemma fbody_loop : forall s p, hd 0 s <> chr "." -> hd 0 s <> under -> p <> under ->
  fbody s <-> exists f, fok (float_loop false (Some p) s) = Some (chr "." :: f) /\ f <> [] /\ Forall digit f.
Proof.
  intros s p N1 N2 Np. unfold fbody. split.
  - intros (a & f & -> & Ha & Hf & Hd). exists f. split; [|auto].
    destruct (float_loop_ok (a ++ chr "." :: f) (chr "." :: f)) as (_ & B). apply (B p Np).
    split; [right; eauto|]. right. left. eauto.
  - intros (f & E & Hf & Hd). destruct (float_loop_ok s (chr "." :: f)) as (_ & B). apply (B p Np) in E as (S & [E|[(a & E & Ha)|(a & E & Ha)]]).
    + subst s. cbn [hd] in N1. congruence.
    + exists a, f. auto.
    + subst s. cbn [hd] in N2. congruence.
Qed.

Lemma digit_forallb : forall f, forallb c32isdigit f = true <-> Forall digit f.
Proof.
  intro f. rewrite forallb_forall, Forall_forall. split; intros H x I; specialize (H x I); now apply digit_b.
Qed.

Lemma float_words : forall s, float_word s <->
  s = u "NaN" \/ (if hd 0 s =? chr "-" then tl s else s) = u "Infinity" \/ fbody (if hd 0 s =? chr "-" then tl s else s).
Proof.
  intro s. split.
  - intros [| | |a b Ha Hb Hd|a b Ha Hb Hd]; try (right; left; reflexivity).
    + now left.
    + right. right. apply digits_head in Ha as Hh. destruct Hh as (d & r & -> & Hd0).
      cbn [app hd tl]. destruct (d =? chr "-") eqn:E.
      * apply N.eqb_eq in E. subst d. unfold digit in Hd0. cbn in Hd0. lia.
      * exists (d :: r), b. auto.
    + right. right. cbn [hd tl]. rewrite N.eqb_refl. exists a, b. auto.
  - intros [->|H]; [constructor|]. destruct (hd 0 s =? chr "-") eqn:E.
    + apply N.eqb_eq in E. destruct s as [|c r]; [discriminate|]. cbn [hd tl] in *. subst c.
      destruct H as [->|(a & f & -> & Ha & Hf & Hd)]; [apply fl_ninf|now apply fl_neg].
    + destruct H as [->|(a & f & -> & Ha & Hf & Hd)]; [apply fl_inf|now apply fl_pos].
Qed.

Lemma float_ok : forall s, s <> [] -> exists b, is_constant_float_str s = Ok b /\ (b = true <-> float_word s).
Proof.
  intros s Ns. setoid_rewrite float_words. unfold is_constant_float_str.
  destruct (text_eqb (u "NaN") s) eqn:En.
  { apply text_eqb_eq in En. exists true. split; [reflexivity|]. split; [|reflexivity]. left. congruence. }
  apply text_eqb_neq in En. cbv zeta. set (neg := hd 0 s =? chr "-"). set (s' := if neg then tl s else s).
  assert (Hn : forall b : bool, (b = true <-> s' = u "Infinity" \/ fbody s') -> (b = true <-> s = u "NaN" \/ s' = u "Infinity" \/ fbody s')).
  { intros b H. rewrite H. split; [auto|]. intros [X|X]; [congruence|assumption]. }
  destruct (text_eqb (u "Infinity") s') eqn:Ei.
  { apply text_eqb_eq in Ei. exists true. split; [reflexivity|]. apply Hn. split; [|reflexivity]. left. congruence. }
  apply text_eqb_neq in Ei.
  assert (Hn2 : forall b : bool, (b = true <-> fbody s') -> (b = true <-> s = u "NaN" \/ s' = u "Infinity" \/ fbody s')).
  { intros b H. apply Hn. rewrite H. split; [auto|]. intros [X|X]; [congruence|assumption]. }
  destruct ((hd 0 s' =? chr ".") || (hd 0 s' =? under)) eqn:Eh.
  { exists false. split; [reflexivity|]. apply Hn2. split; [discriminate|]. intros (a & f & E & Ha & _).
    apply digits_head in Ha as (d & r & -> & Hd). rewrite E in Eh. cbn [app hd] in Eh. unfold digit in Hd.
    apply orb_prop in Eh as [Eh|Eh]; apply N.eqb_eq in Eh; subst d; cbn in Hd; lia. }
  apply orb_false_elim in Eh as (E1 & E2). apply N.eqb_neq in E1. apply N.eqb_neq in E2.
  set (q := if neg then chr "-" else 0).
  assert (Nq : q <> under) by (unfold q; destruct neg; discriminate).
  assert (EL : float_loop false (if neg then Some (chr "-") else None) s' = float_loop false (Some q) s').
  { unfold q. destruct neg eqn:Eneg; [reflexivity|]. unfold s'. destruct s as [|c r]; [congruence|]. cbn [float_loop].
    unfold s' in E1. cbn [hd] in E1. apply N.eqb_neq in E1. rewrite E1. reflexivity. }
  rewrite EL. pose proof (fbody_loop s' q E1 E2 Nq) as FB.
  destruct (float_loop false (Some q) s') as [[[p|] rest]|] eqn:EF.
  - cbn [fok] in FB. destruct (p =? under) eqn:Ep.
    + exists false. split; [reflexivity|]. apply Hn2. split; [discriminate|]. rewrite FB. intros (f & X & _). discriminate.
    + destruct rest as [|c [|d f]].
      * exists false. split; [reflexivity|]. apply Hn2. split; [discriminate|]. rewrite FB. intros (f & X & _). discriminate.
      * exists false. split; [reflexivity|]. apply Hn2. split; [discriminate|]. rewrite FB. intros (f & X & Nf & _). apply some_inj in X. uncons X X0 X1. congruence.
      * exists (forallb c32isdigit (d :: f)). split; [reflexivity|]. apply Hn2. rewrite digit_forallb, FB. split.
        -- intro H. exists (d :: f). split; [|split; [discriminate|assumption]].
           destruct (float_loop_ok s' (c :: d :: f)) as (_ & B). destruct (B q Nq) as (B1 & _).
           rewrite EF in B1. cbn [fok] in B1. rewrite Ep in B1. destruct (B1 eq_refl) as (S & _).
           apply stopf_cons in S. now subst c.
        -- intros (f' & X & _ & H). apply some_inj in X. uncons X X0 X1. now rewrite X1.
  - exfalso. exact (float_loop_some _ _ _ _ EF).
  - exists false. split; [reflexivity|]. apply Hn2. split; [discriminate|]. rewrite FB. intros (f & X & _). discriminate.
Qed.

(** ** Booleans, runes, strings *)
Lemma bool_ok : forall s, is_constant_bool_str s = true <-> bool_word s.
Proof.
  intro s. unfold is_constant_bool_str. rewrite orb_true_iff, !text_eqb_eq. split.
  - intros [<-|<-]; constructor.
  - intros []; auto.
Qed.

Lemma snoc : forall (s : text), s <> [] -> exists a x, s = a ++ [x].
Proof. intros s H. destruct (exists_last H) as (a & x & ->). eauto. Qed.

Lemma nth_last : forall (s : text), nth (List.length s - 1) s 0 = last s 0.
Proof.
  intro s. destruct s as [|c r]; [reflexivity|]. destruct (snoc (c :: r)) as (a & x & ->); [discriminate|].
  rewrite last_last, app_length, Nat.add_comm. cbn [List.length Nat.add]. rewrite Nat.sub_succ, Nat.sub_0_r.
  rewrite app_nth2 by lia. now rewrite Nat.sub_diag.
Qed.

Lemma rune_ok : forall s, is_constant_rune_str s = true <-> rune_word s.
Proof.
  intro s. unfold is_constant_rune_str. cbv zeta. rewrite nth_last. split.
  - destruct (negb (hd 0 s =? 39) || negb (last s 0 =? 39)) eqn:E; [discriminate|].
    apply orb_false_elim in E as (E1 & E2). apply negb_false_iff, N.eqb_eq in E1. apply negb_false_iff, N.eqb_eq in E2.
    destruct s as [|a s]; [discriminate|]. cbn [hd] in E1. subst a.
    destruct s as [|c s]; [discriminate|].
    destruct (snoc (c :: s)) as (m & x & Em); [discriminate|].
    assert (Ex : x = 39). { change (39 :: c :: s) with ([39] ++ c :: s) in E2. rewrite Em, app_assoc, last_last in E2. assumption. }
    subst x. destruct ((4 <=? _)%nat && _) eqn:L.
    + apply andb_true_iff in L as (L1 & L2). apply Nat.leb_le in L1. apply Nat.leb_le in L2. cbn [nth].
      intro H. apply N.eqb_eq in H. subst c. cbn [List.length] in L1, L2.
      destruct m as [|y m]; [destruct s; [cbn in L1; lia|discriminate]|].
      cbn [app] in Em. uncons Em Em0 Em1. subst y. subst s. apply rune_esc. rewrite app_length in L1, L2. cbn in L1, L2. lia.
    + intro H. apply Nat.eqb_eq in H. cbn [List.length] in H.
      destruct s as [|d [|e s]]; cbn in H; try lia.
      destruct m as [|y [|z m]]; [discriminate| |].
      * cbn [app] in Em. uncons Em Em0 Em1. uncons Em1 Em2 Em3. subst. constructor.
      * apply (f_equal (@List.length N)) in Em. cbn in Em. rewrite app_length in Em. cbn in Em. lia.
  - intros [c|m L].
    + reflexivity.
    + change (39 :: 92 :: m ++ [39]) with ((39 :: 92 :: m) ++ [39]). rewrite last_last, app_length. cbn [app hd List.length nth].
      change (39 =? 39) with true. cbn [negb orb].
      assert (X1 : (4 <=? S (S (List.length m)) + 1)%nat = true) by (apply Nat.leb_le; lia).
      assert (X2 : (S (S (List.length m)) + 1 <=? 12)%nat = true) by (apply Nat.leb_le; lia).
      rewrite X1, X2. reflexivity.
Qed.

Lemma str_ok : forall s, is_constant_str_str s = true <-> str_word s.
Proof.
  intro s. unfold is_constant_str_str. cbv zeta. rewrite nth_last, !andb_true_iff, !N.eqb_eq, Nat.leb_le. split.
  - intros ((L & E1) & E2). destruct s as [|a s]; [discriminate|]. cbn [hd] in E1. subst a.
    destruct s as [|c s]; [cbn in L; lia|]. destruct (snoc (c :: s)) as (m & x & Em); [discriminate|].
    change (34 :: c :: s) with ([34] ++ c :: s) in *. rewrite Em, app_assoc, last_last in E2. subst x.
    rewrite Em. constructor.
  - intros [m]. split; [split|].
    + cbn [List.length]. rewrite app_length. cbn. lia.
    + reflexivity.
    + change (34 :: m ++ [34]) with ((34 :: m) ++ [34]). apply last_last.
Qed.

(** ** Names *)
Notation colon := (chr ":").
Definition nameish (s : text) : Prop := exists c r, s = c :: r /\ letter c /\ Forall name_char r.

Lemma name_char_facts : forall c, name_char c -> c <> colon.
Proof. intros c [H|[H|[->| ->]]]; unfold letter, digit in *; cbn in *; try lia; discriminate. Qed.

Lemma ident_loop_ok : forall s, identifier_loop s = true <->
  (Forall name_char s /\ (s = [] \/ last s 0 <> chr ".")) \/ (exists n, s = n ++ [colon] /\ Forall name_char n).
Proof.
  induction s as [|c r IH]; cbn [identifier_loop].
  - split; [|reflexivity]. intros _. left. split; [constructor|now left].
  - destruct (c =? chr ":") eqn:Ec.
    { apply N.eqb_eq in Ec. subst c. destruct r as [|d r].
      - split; [|reflexivity]. intros _. right. exists []. split; [reflexivity|constructor].
      - split; [discriminate|]. intros [(F & _)|(n & E & F)].
        + apply Forall_inv in F. now apply name_char_facts in F.
        + destruct n as [|y n]; cbn [app] in E; uncons E E0 E1; [discriminate|]. subst y.
          apply Forall_inv in F. now apply name_char_facts in F. }
    apply N.eqb_neq in Ec.
    assert (Step : name_char c -> (c = chr "." -> r <> []) ->
      (identifier_loop r = true <-> (Forall name_char (c :: r) /\ (c :: r = [] \/ last (c :: r) 0 <> chr ".")) \/ (exists n, c :: r = n ++ [colon] /\ Forall name_char n))).
    { intros Hc Hp. rewrite IH. split.
      - intros [(F & L)|(n & -> & F)].
        + left. split; [now constructor|]. right. destruct r as [|d r]; [|destruct L as [L|L]; [discriminate|exact L]].
          cbn. intro X. now apply Hp.
        + right. exists (c :: n). split; [reflexivity|now constructor].
      - intros [(F & [L|L])|(n & E & F)]; [discriminate| |].
        + left. apply Forall_inv_tail in F. split; [assumption|]. destruct r as [|d r]; [now left|now right].
        + right. destruct n as [|y n]; cbn [app] in E; uncons E E0 E1; [congruence|]. subst y.
          exists n. split; [assumption|]. now apply Forall_inv_tail in F. }
    destruct (c =? chr ".") eqn:Ep.
    { apply N.eqb_eq in Ep. subst c. destruct r as [|d r].
      - split; [discriminate|]. intros [(_ & [L|L])|(n & E & F)]; [discriminate|cbn in L; congruence|].
        destruct n as [|y n]; cbn [app] in E; uncons E E0 E1; [discriminate|]. destruct n; discriminate.
      - apply Step; [unfold name_char; tauto|discriminate]. }
    apply N.eqb_neq in Ep. destruct (negb (c =? under) && negb (c32isalnum c)) eqn:Eb.
    { apply andb_true_iff in Eb as (E1 & E2). apply negb_true_iff, N.eqb_neq in E1. apply negb_true_iff in E2.
      assert (Nc : ~ name_char c).
      { intros [H|[H|[H|H]]]; try contradiction; assert (c32isalnum c = true) by (apply alnum_b; tauto); congruence. }
      split; [discriminate|]. intros [(F & _)|(n & E & F)].
      - apply Forall_inv in F. contradiction.
      - destruct n as [|y n]; cbn [app] in E; uncons E E0 E3; [congruence|]. subst y. apply Forall_inv in F. contradiction. }
    apply Step; [|intro; contradiction].
    apply andb_false_iff in Eb as [Eb|Eb]; apply negb_false_iff in Eb.
    + apply N.eqb_eq in Eb. unfold name_char. tauto.
    + apply alnum_b in Eb. unfold name_char. tauto.
Qed.

Lemma ident_ok : forall s, is_valid_identifier_str s = true <->
  name s \/ (exists n, s = n ++ [colon] /\ nameish n).
Proof.
  intro s. unfold is_valid_identifier_str. cbv zeta.
  assert (Lt : (hd 0 s <? chr "A") || ((chr "Z" <? hd 0 s) && (hd 0 s <? chr "a")) || (chr "z" <? hd 0 s) = false <-> letter (hd 0 s)).
  { rewrite !orb_false_iff, andb_false_iff, !N.ltb_ge. unfold letter. generalize (hd 0 s). intro x. cbn. lia. }
  destruct (_ || _ || _) eqn:E.
  - assert (Nl : ~ letter (hd 0 s)) by (intro X; apply Lt in X; congruence).
    split; [discriminate|]. intros [(c & r & -> & H & _)|(n & -> & c & r & -> & H & _)]; exfalso; now apply Nl.
  - destruct Lt as (Lt & _). specialize (Lt eq_refl). destruct s as [|c r]; [unfold letter in Lt; cbn in Lt; lia|].
    cbn [hd tl] in *. rewrite ident_loop_ok. split.
    + intros [(F & L)|(n & -> & F)].
      * left. exists c, r. split; [reflexivity|]. split; [assumption|]. split; [assumption|].
        destruct r as [|d r]; [cbn; intros ->; unfold letter in Lt; cbn in Lt; lia|].
        destruct L as [L|L]; [discriminate|exact L].
      * right. exists (c :: n). split; [reflexivity|]. exists c, n. auto.
    + intros [(c' & r' & E' & Hl & F & L)|(n & E' & c' & r' & -> & Hl & F)].
      * uncons E' E0 E1. subst. left. split; [assumption|]. destruct r' as [|d r']; [now left|right]. exact L.
      * cbn [app] in E'. uncons E' E0 E1. subst. right. eauto.
Qed.
