(** The grammar of C programs is unambiguous. *)
From Coq Require Import List Arith NArith ZArith Bool Lia Ascii String.
From Verif Require Import Base Spec_C Spec_CProg Proof_C.
Import ListNotations.
Open Scope list_scope.
Open Scope N_scope.

(** * Tokens of expressions *)

(** Tokens that no expression has. *)
Definition outside : list text := map u [";"; "{"; "}"; "="]%string.
Definition fine_tok (t : ctok) : Prop :=
  match t with KId n => c_name n = true | KOp o => existsb (text_eqb o) outside = false | _ => True end.

(** Behind d open parentheses. *)
Fixpoint bal (d : nat) (ts : list ctok) : option nat :=
  match ts with
  | [] => Some d
  | t :: r => if is_op t (u "(") then bal (S d) r
              else if is_op t (u ")") then match d with O => None | S d => bal d r end
              else bal d r
  end.
Lemma bal_app : forall a b d, bal d (a ++ b) = match bal d a with Some d' => bal d' b | None => None end.
Proof.
  induction a as [|t a IH]; intros b d; [reflexivity|]. cbn [app bal]. destruct (is_op t (u "(")); [apply IH|].
  destruct (is_op t (u ")")); [destruct d; [reflexivity|apply IH]|apply IH].
Qed.

Lemma level_fine : forall op n, level_of op = Some n ->
  existsb (text_eqb op) outside = false /\ text_eqb op (u "(") = false /\ text_eqb op (u ")") = false.
Proof.
  intros op n H. split.
  - destruct (existsb (text_eqb op) outside) eqn:E; [|reflexivity]. apply existsb_exists in E as (x & I & T). apply text_eqb_eq in T. subst x.
    cbn [outside map In] in I. destruct I as [<-|[<-|[<-|[<-|[]]]]]; vm_compute in H; discriminate H.
  - split; apply text_eqb_neq; intros ->; vm_compute in H; discriminate H.
Qed.
Lemma unary_fine : forall op, In op unary_ops ->
  existsb (text_eqb op) outside = false /\ text_eqb op (u "(") = false /\ text_eqb op (u ")") = false.
Proof.
  intros op H. cbn [unary_ops map In] in H. destruct H as [<-|[<-|[<-|[<-|[<-|[<-|[]]]]]]]; repeat split.
Qed.

Definition inside (ts : list ctok) : Prop := Forall fine_tok ts /\ forall d, bal d ts = Some d.
Lemma inside_app : forall a b, inside a -> inside b -> inside (a ++ b).
Proof.
  intros a b (A1 & A2) (B1 & B2). split; [now apply Forall_app|]. intro d. now rewrite bal_app, A2.
Qed.
Lemma inside_op : forall op, existsb (text_eqb op) outside = false /\ text_eqb op (u "(") = false /\ text_eqb op (u ")") = false -> inside [KOp op].
Proof. intros op (A & B & C). split; [repeat constructor; exact A|]. intro d. cbn [bal is_op]. now rewrite B, C. Qed.
Lemma inside_paren : forall ts, inside ts -> inside (KOp (u "(") :: ts ++ [KOp (u ")")]).
Proof.
  intros ts (A & B). split.
  - constructor; [reflexivity|]. apply Forall_app. split; [exact A|]. repeat constructor.
  - intro d. cbn [bal]. change (is_op (KOp (u "(")) (u "(")) with true. cbn match. rewrite bal_app, B. reflexivity.
Qed.

Lemma reads_inside :
  (forall n ts e, reads n ts e -> inside ts) /\ (forall ts es, reads_args ts es -> inside ts) /\ (forall ts es, reads_list ts es -> inside ts).
Proof.
  apply reads_mutind.
  - intros n H. split; [repeat constructor; exact H|reflexivity].
  - intros n. split; [repeat constructor|reflexivity].
  - intros n. split; [repeat constructor|reflexivity].
  - intros ts e R IH. now apply inside_paren.
  - intros ts e args es R IH A IA. apply inside_app; [exact IH|]. now apply inside_paren.
  - intros op ts e I R IH. apply (inside_app [KOp op]); [|exact IH]. apply inside_op. now apply unary_fine.
  - intros n op a b ea eb L R1 I1 R2 I2. apply inside_app; [exact I1|]. apply (inside_app [KOp op]); [|exact I2].
    apply inside_op. now apply (level_fine op (S n)).
  - intros n ts e L R IH. exact IH.
  - split; [constructor|reflexivity].
  - intros ts es R IH. exact IH.
  - intros ts e R IH. exact IH.
  - intros ts e ts' es R I R' I'. apply inside_app; [exact I|]. apply (inside_app [KOp (u ",")]); [|exact I']. apply inside_op. repeat split.
Qed.

(** Expressions end where they have to. *)
Lemma split_at : forall (P : list ctok -> Prop) s a a' r r',
  (forall l x, ~ P (l ++ s :: x)) -> P a -> P a' -> a ++ s :: r = a' ++ s :: r' -> a = a' /\ r = r'.
Proof.
  intros P s a. induction a as [|t a IH] in P |- *; intros a' r r' N A A' E.
  - destruct a' as [|t' a']; [cbn [app] in E; injection E as E; auto|]. cbn [app] in E. injection E as <- _.
    exfalso. apply (N [] a'). exact A'.
  - destruct a' as [|t' a'].
    + cbn [app] in E. injection E as -> _. exfalso. apply (N [] a). exact A.
    + cbn [app] in E. injection E as <- E. destruct (IH (fun l => P (t :: l)) a' r r') as (-> & ->); auto.
      intros l x H. apply (N (t :: l) x). exact H.
Qed.

Lemma stop_semi : forall l x, ~ inside (l ++ op ";" :: x).
Proof.
  intros l x (F & _). rewrite Forall_forall in F. specialize (F (op ";")). assert (H : fine_tok (op ";")) by (apply F, in_elt). discriminate H.
Qed.
Lemma expr_to_det : forall s ts e r e' r', s = ";"%string \/ s = ")"%string -> expr_to s ts e r -> expr_to s ts e' r' -> e = e' /\ r = r'.
Proof.
  intros s ts e r e' r' [-> | ->] (a & -> & R) (a' & E & R'); pose proof (proj1 reads_inside _ _ _ R) as I; pose proof (proj1 reads_inside _ _ _ R') as I'.
  - destruct (split_at inside (op ";") a a' r r' stop_semi I I' E) as (-> & ->). split; [exact (reads_unique _ _ _ R R')|reflexivity].
  - assert (Q : a = a' /\ r = r').
    { destruct I as (_ & B), I' as (_ & B'). clear R R'.
      assert (X : forall a1 a2 r1 r2, (forall d, bal d a1 = Some d) -> (forall d, bal d a2 = Some d) -> a1 ++ op ")" :: r1 = a2 ++ op ")" :: r2 -> a1 = a2 \/ (List.length a2 < List.length a1)%nat).
      { intros a1 a2 r1 r2 B1 B2 E0. apply app_eq_app in E0 as (l & [(-> & Q)|(-> & Q)]).
        - destruct l as [|t l]; [left; now rewrite app_nil_r|]. cbn [app] in Q. injection Q as <- Q. exfalso.
          specialize (B1 O). rewrite bal_app, (B2 O) in B1. cbn in B1. discriminate B1.
        - destruct l as [|t l]; [left; now rewrite app_nil_r|]. cbn [app] in Q. injection Q as <- Q. exfalso.
          specialize (B2 O). rewrite bal_app, (B1 O) in B2. cbn in B2. discriminate B2. }
      destruct (X _ _ _ _ B B' E) as [->|L]; [|destruct (X _ _ _ _ B' B (eq_sym E)) as [<-|L']; [|exfalso; lia]].
      - apply app_inv_head in E. injection E as <-. auto.
      - apply app_inv_head in E. injection E as <-. auto. }
    destruct Q as (-> & ->). split; [exact (reads_unique _ _ _ R R')|reflexivity].
Qed.

(** * Statements *)

Section Unique.
Variable c23 : bool.

Lemma type_words_det : forall n t t', type_word c23 n t -> type_word c23 n t' -> t = t'.
Proof.
  intros n t t' A B. unfold type_word, type_words in A, B. apply in_app_iff in A, B.
  assert (X : forall n t, (In (n, t) [(u "int", TyInt); (u "int64_t", TyInt64); (u "double", TyDouble); (u "char32_t", TyChar32); (u "void", TyVoid); (u "char", TyChar)] \/
      In (n, t) (if c23 then [(u "bool", TyBool)] else [])) ->
      Some t = (if text_eqb n (u "int") then Some TyInt else if text_eqb n (u "int64_t") then Some TyInt64 else if text_eqb n (u "double") then Some TyDouble
        else if text_eqb n (u "char32_t") then Some TyChar32 else if text_eqb n (u "void") then Some TyVoid else if text_eqb n (u "char") then Some TyChar
        else Some TyBool)).
  { clear. intros n t [H|H].
    - cbn [In] in H. repeat destruct H as [H|H]; try contradiction; injection H as <- <-; reflexivity.
    - destruct c23; [|destruct H]. destruct H as [H|[]]. injection H as <- <-. reflexivity. }
  apply X in A, B. congruence.
Qed.

Lemma stars_det : forall t ts t1 r1, stars_at t ts t1 r1 -> forall t2 r2, stars_at t ts t2 r2 -> t1 = t2 /\ r1 = r2.
Proof.
  induction 1 as [t r H|t ts t1 r1 H IH]; intros t2 r2 H'.
  - inversion H' as [? ? H2|t0 ts0 t3 r3 H2]; subst; auto. exfalso. apply H. reflexivity.
  - inversion H' as [? ? H2|t0 ts0 t3 r3 H2]; subst; auto. exfalso. apply H2. reflexivity.
Qed.
Lemma type_at_det : forall ts t r t' r', type_at c23 ts t r -> type_at c23 ts t' r' -> t = t' /\ r = r'.
Proof.
  intros ts t r t' r' (n & t0 & ts1 & -> & W & S) (n' & t0' & ts1' & E & W' & S'). injection E as <- <-.
  rewrite <- (type_words_det _ _ _ W W') in S'. exact (stars_det _ _ _ _ S _ _ S').
Qed.

(** What a statement starts with tells its kind. *)
Definition is_type_word (n : text) : bool := existsb (fun p => text_eqb n (fst p)) (type_words c23).
Lemma is_type_word_spec : forall n, is_type_word n = true <-> exists t, type_word c23 n t.
Proof.
  intro n. unfold is_type_word. rewrite existsb_exists. split.
  - intros ((m, t) & I & E). apply text_eqb_eq in E. cbn in E. subst m. now exists t.
  - intros (t & I). exists (n, t). split; [exact I|apply text_eqb_refl].
Qed.

Definition cls (ts : list ctok) : nat :=
  match ts with
  | KId n :: _ =>
      if is_type_word n || text_eqb n (u "const") then 0%nat else if text_eqb n (u "if") then 1%nat else if text_eqb n (u "while") then 2%nat
      else if text_eqb n (u "return") then 3%nat else if text_eqb n (u "break") then 4%nat else if text_eqb n (u "continue") then 5%nat
      else if text_eqb n (u "else") then 9%nat else if text_eqb n (u "static") then 10%nat else 8%nat
  | KOp o :: r =>
      if text_eqb o (u "{") then 6%nat
      else if text_eqb o (u "(") then match r with KId n :: _ => if text_eqb n (u "void") then 7%nat else 8%nat | _ => 8%nat end
      else if text_eqb o (u "}") then 11%nat else 8%nat
  | _ => 8%nat
  end.

Lemma c_name_not : forall n w, c_name n = true -> c_name (u w) = false -> text_eqb n (u w) = false.
Proof. intros n w H1 H2. apply text_eqb_neq. intros ->. congruence. Qed.

Lemma name_cls : forall n r, c_name n = true -> is_type_word n = false -> cls (KId n :: r) = 8%nat.
Proof.
  intros n r H T. cbn [cls]. rewrite T. rewrite !(c_name_not n) by (exact H || reflexivity). reflexivity.
Qed.
Lemma no_type_word : forall n r, no_type c23 (KId n :: r) -> is_type_word n = false.
Proof.
  intros n r H. destruct (is_type_word n) eqn:E; [|reflexivity]. apply is_type_word_spec in E as (t & E). exfalso. exact (H n r eq_refl t E).
Qed.
Lemma expr_cls : forall ts e r, no_type c23 ts -> expr_to ";" ts e r -> cls ts = 8%nat.
Proof.
  intros ts e r NT (a & -> & R). pose proof (proj1 reads_inside _ _ _ R) as (F & B).
  destruct a as [|t a]; [exfalso; exact (reads_nonempty _ _ _ R eq_refl)|]. cbn [app] in *. inversion F as [|? ? F1 F2]; subst.
  destruct t as [n|n|n|o].
  - apply name_cls; [exact F1|]. exact (no_type_word _ _ NT).
  - reflexivity.
  - reflexivity.
  - cbn [cls]. cbn [fine_tok outside map existsb] in F1. rewrite !orb_false_iff in F1. destruct F1 as (_ & X & Y & _). rewrite X, Y.
    destruct (text_eqb o (u "(")); [|reflexivity]. destruct a as [|[n|n|n|o'] a]; try reflexivity. cbn [app].
    inversion F2 as [|? ? F3 F4]; subst. cbn [fine_tok] in F3. now rewrite (c_name_not n "void" F3 eq_refl).
Qed.
Lemma type_cls : forall (q : bool) ts t r, type_at c23 ts t r -> cls ((if q then [kw "const"] else []) ++ ts) = 0%nat.
Proof.
  intros q ts t r (n & t0 & ts' & -> & W & _). destruct q; cbn [app cls].
  - change (text_eqb (u "const") (u "const")) with true. unfold kw. cbn [cls]. now rewrite orb_true_r.
  - replace (is_type_word n) with true; [reflexivity|]. symmetry. apply is_type_word_spec. now exists t0.
Qed.

Lemma word_cls : forall w r, is_type_word (u w) = false -> cls (kw w :: r) =
  if text_eqb (u w) (u "const") then 0%nat else if text_eqb (u w) (u "if") then 1%nat else if text_eqb (u w) (u "while") then 2%nat
      else if text_eqb (u w) (u "return") then 3%nat else if text_eqb (u w) (u "break") then 4%nat else if text_eqb (u w) (u "continue") then 5%nat
      else if text_eqb (u w) (u "else") then 9%nat else if text_eqb (u w) (u "static") then 10%nat else 8%nat.
Proof. intros w r H. unfold kw. cbn [cls]. rewrite H. reflexivity. Qed.
Ltac word := unfold kw; cbn [cls]; unfold is_type_word, type_words; destruct c23; reflexivity.

Definition kind (s : cstmt) : nat :=
  match s with
  | CDecl _ _ _ _ => 0 | CIf _ _ _ => 1 | CWhile _ _ => 2 | CReturn _ => 3 | CBreak => 4 | CContinue => 5 | CBlock _ => 6 | CVoid _ => 7 | _ => 8
  end%nat.
Lemma block_cls : forall ts b r, block_at c23 ts b r -> cls ts = 6%nat.
Proof. intros ts b r H. destruct H. reflexivity. Qed.
Lemma stmt_cls : forall ts s r, stmt_at c23 ts s r -> cls ts = kind s.
Proof.
  intros ts s r H. destruct H as [q ts t x ts' e r T N E|x ts e r N NT E|ts e r NT E|used e r R|ts e r1 b r2 o r E B O|ts e r1 b r E B|r|ts e r E|r|r|ts b r B];
    cbn [kind].
  - exact (type_cls q _ _ _ T).
  - apply name_cls; [exact N|]. exact (no_type_word _ _ NT).
  - exact (expr_cls _ _ _ NT E).
  - reflexivity.
  - word.
  - word.
  - word.
  - word.
  - word.
  - word.
  - exact (block_cls _ _ _ B).
Qed.
Lemma stmts_head : forall ts l r, stmts_at c23 ts l r -> cls ts <> 9%nat.
Proof.
  intros ts l r H. destruct H as [r|ts s r l r' H H'].
  - discriminate.
  - rewrite (stmt_cls _ _ _ H). destruct s; discriminate.
Qed.
Lemma else_head : forall ts, hd_error ts = Some (kw "else") -> cls ts = 9%nat.
Proof. intros [|t ts] H; [discriminate H|]. cbn [hd_error] in H. injection H as ->. word. Qed.

Lemma cast_det : forall a e r a' e' r', reads 2 a e -> reads 2 a' e' -> a ++ op ";" :: r = a' ++ op ";" :: r' -> e = e' /\ r = r'.
Proof.
  intros a e r a' e' r' R R' E.
  destruct (split_at inside (op ";") a a' r r' stop_semi (proj1 reads_inside _ _ _ R) (proj1 reads_inside _ _ _ R') E) as (-> & ->).
  split; [|reflexivity]. apply (reads_unique a').
  - apply (reads_higher 2 12); [lia|lia|exact R].
  - apply (reads_higher 2 12); [lia|lia|exact R'].
Qed.
Lemma no_equal : forall x ts e r, ~ expr_to ";" (KId x :: op "=" :: ts) e r.
Proof.
  intros x ts e r (a & E & R). pose proof (proj1 reads_inside _ _ _ R) as (F & _).
  destruct a as [|t [|t' a]].
  - cbn [app] in E. discriminate E.
  - cbn [app] in E. discriminate E.
  - cbn [app] in E. injection E as <- <- E. inversion F as [|? ? F1 F2]; subst. inversion F2 as [|? ? F3 F4]; subst. discriminate F3.
Qed.
Lemma no_semi : forall ts e r, ~ expr_to ";" (op ";" :: ts) e r.
Proof.
  intros ts e r (a & E & R). pose proof (proj1 reads_inside _ _ _ R) as (F & _). destruct a as [|t a].
  - exact (reads_nonempty _ _ _ R eq_refl).
  - cbn [app] in E. injection E as <- E. inversion F as [|? ? F1 F2]; subst. discriminate F1.
Qed.

Scheme stmt_at_mind := Induction for stmt_at Sort Prop with block_at_mind := Induction for block_at Sort Prop
  with stmts_at_mind := Induction for stmts_at Sort Prop with else_at_mind := Induction for else_at Sort Prop.
Combined Scheme program_ind from stmt_at_mind, block_at_mind, stmts_at_mind, else_at_mind.

Lemma block_nil : forall ts s r, stmt_at c23 (op "}" :: ts) s r -> False.
Proof. intros ts s r H. apply stmt_cls in H. cbn in H. destruct s; discriminate H. Qed.

Lemma program_det :
  (forall ts s r, stmt_at c23 ts s r -> forall s' r', stmt_at c23 ts s' r' -> s = s' /\ r = r') /\
  (forall ts b r, block_at c23 ts b r -> forall b' r', block_at c23 ts b' r' -> b = b' /\ r = r') /\
  (forall ts l r, stmts_at c23 ts l r -> forall l' r', stmts_at c23 ts l' r' -> l = l' /\ r = r') /\
  (forall ts o r, else_at c23 ts o r -> forall o' r', else_at c23 ts o' r' -> o = o' /\ r = r').
Proof.
  apply (program_ind c23 (fun ts s r _ => forall s' r', stmt_at c23 ts s' r' -> s = s' /\ r = r')
    (fun ts b r _ => forall b' r', block_at c23 ts b' r' -> b = b' /\ r = r')
    (fun ts l r _ => forall l' r', stmts_at c23 ts l' r' -> l = l' /\ r = r')
    (fun ts o r _ => forall o' r', else_at c23 ts o' r' -> o = o' /\ r = r')).
  - intros q ts t x ts' e r T N E s' r' H.
    assert (K := stmt_cls _ _ _ H). rewrite (type_cls q _ _ _ T) in K.
    remember ((if q then [kw "const"] else []) ++ ts) as ts0 eqn:E0. destruct H as [q2 ts2 t2 x2 ts2' e2 r2 T2 N2 E2| | | | | | | | | |]; try discriminate K.
    assert (Q : q2 = q /\ ts2 = ts).
    { destruct T as (n & t0 & ts1 & -> & W & _), T2 as (n2 & t02 & ts12 & -> & W2 & _).
      assert (NC : ~ type_word c23 (u "const") t0 /\ ~ type_word c23 (u "const") t02).
      { split; intro X; (assert (Y : is_type_word (u "const") = true) by (apply is_type_word_spec; eauto)); revert Y; unfold is_type_word, type_words; destruct c23; discriminate. }
      destruct q, q2; cbn [app] in E0; injection E0 as E1 E0; subst; try (split; reflexivity).
      - exfalso. apply (proj2 NC). exact W2.
      - exfalso. apply (proj1 NC). exact W. }
    destruct Q as (-> & ->). destruct (type_at_det _ _ _ _ _ T T2) as (-> & X). injection X as <- <-.
    destruct (expr_to_det _ _ _ _ _ _ (or_introl eq_refl) E E2) as (-> & ->). auto.
  - intros x ts e r N NT E s' r' H. assert (K := stmt_cls _ _ _ H). rewrite name_cls in K; [|exact N|exact (no_type_word _ _ NT)].
    remember (KId x :: op "=" :: ts) as ts0 eqn:E0. destruct H as [|x2 ts2 e2 r2 N2 NT2 E2|ts2 e2 r2 NT2 E2| | | | | | | |]; try discriminate K.
    + injection E0 as -> ->. destruct (expr_to_det _ _ _ _ _ _ (or_introl eq_refl) E E2) as (-> & ->). auto.
    + exfalso. subst ts2. exact (no_equal _ _ _ _ E2).
  - intros ts e r NT E s' r' H. assert (K := stmt_cls _ _ _ H). rewrite (expr_cls _ _ _ NT E) in K.
    destruct H as [|x2 ts2 e2 r2 N2 NT2 E2|ts2 e2 r2 NT2 E2| | | | | | | |]; try discriminate K.
    + exfalso. exact (no_equal _ _ _ _ E).
    + destruct (expr_to_det _ _ _ _ _ _ (or_introl eq_refl) E E2) as (-> & ->). auto.
  - intros used e r R s' r' H. assert (K := stmt_cls _ _ _ H). cbn [cls op kw] in K. cbn in K.
    remember (op "(" :: kw "void" :: op ")" :: used ++ op ";" :: r) as ts0 eqn:E0. destruct H as [| | |used2 e2 r2 R2| | | | | | |]; try discriminate K.
    injection E0 as E0. destruct (cast_det _ _ _ _ _ _ R2 R E0) as (-> & ->). auto.
  - intros ts e r1 b r2 o r E B IB O IO s' r' H. assert (K := stmt_cls _ _ _ H). rewrite (stmt_cls _ _ _ (G_if c23 _ _ _ _ _ _ _ E B O)) in K. cbn [kind] in K.
    remember (kw "if" :: op "(" :: ts) as ts0 eqn:E0. destruct H as [| | | |ts' e' r1' b' r2' o' r' E' B' O'| | | | | |]; try discriminate K.
    injection E0 as ->. destruct (expr_to_det _ _ _ _ _ _ (or_intror eq_refl) E E') as (-> & ->). destruct (IB _ _ B') as (-> & ->).
    destruct (IO _ _ O') as (-> & ->). auto.
  - intros ts e r1 b r E B IB s' r' H. assert (K := stmt_cls _ _ _ H). rewrite (stmt_cls _ _ _ (G_while c23 _ _ _ _ _ E B)) in K. cbn [kind] in K.
    remember (kw "while" :: op "(" :: ts) as ts0 eqn:E0. destruct H as [| | | | |ts' e' r1' b' r' E' B'| | | | |]; try discriminate K.
    injection E0 as ->. destruct (expr_to_det _ _ _ _ _ _ (or_intror eq_refl) E E') as (-> & ->). destruct (IB _ _ B') as (-> & ->). auto.
  - intros r s' r' H. assert (K := stmt_cls _ _ _ H). rewrite (stmt_cls _ _ _ (G_return c23 r)) in K. cbn [kind] in K.
    remember (kw "return" :: op ";" :: r) as ts0 eqn:E0. destruct H as [| | | | | |r2|ts2 e2 r2 E2| | |]; try discriminate K.
    + injection E0 as ->. auto.
    + exfalso. injection E0 as ->. exact (no_semi _ _ _ E2).
  - intros ts e r E s' r' H. assert (K := stmt_cls _ _ _ H). rewrite (stmt_cls _ _ _ (G_result c23 _ _ _ E)) in K. cbn [kind] in K.
    remember (kw "return" :: ts) as ts0 eqn:E0. destruct H as [| | | | | |r2|ts2 e2 r2 E2| | |]; try discriminate K.
    + exfalso. injection E0 as <-. exact (no_semi _ _ _ E).
    + injection E0 as ->. destruct (expr_to_det _ _ _ _ _ _ (or_introl eq_refl) E E2) as (-> & ->). auto.
  - intros r s' r' H. assert (K := stmt_cls _ _ _ H). rewrite (stmt_cls _ _ _ (G_break c23 r)) in K. cbn [kind] in K.
    remember (kw "break" :: op ";" :: r) as ts0 eqn:E0. destruct H; try discriminate K. injection E0 as ->. auto.
  - intros r s' r' H. assert (K := stmt_cls _ _ _ H). rewrite (stmt_cls _ _ _ (G_continue c23 r)) in K. cbn [kind] in K.
    remember (kw "continue" :: op ";" :: r) as ts0 eqn:E0. destruct H; try discriminate K. injection E0 as ->. auto.
  - intros ts b r B IB s' r' H. assert (K := stmt_cls _ _ _ H). rewrite (block_cls _ _ _ B) in K.
    destruct H as [| | | | | | | | | |ts2 b2 r2 B2]; try discriminate K. destruct (IB _ _ B2) as (-> & ->). auto.
  - intros ts b r H IH b' r' H'. remember (op "{" :: ts) as ts0 eqn:E0. destruct H' as [ts2 b2 r2 H2]. injection E0 as ->.
    destruct (IH _ _ H2) as (-> & E). injection E as ->. auto.
  - intros r l' r' H'. remember (op "}" :: r) as ts0 eqn:E0. destruct H' as [r2|ts2 s2 r2 l2 r2' H2 H2'].
    + injection E0 as ->. auto.
    + exfalso. subst ts2. exact (block_nil _ _ _ H2).
  - intros ts s r l r' H IH HL IHL l' r'' H'. destruct H' as [r2|ts2 s2 r2 l2 r2' H2 H2'].
    + exfalso. exact (block_nil _ _ _ H).
    + destruct (IH _ _ H2) as (-> & ->). destruct (IHL _ _ H2') as (-> & ->). auto.
  - intros r H o' r' H'. destruct H' as [r2 N2|ts2 b2 r2 B2|ts2 e2 b2 o2 r2 H2]; [auto| |]; exfalso; apply H; reflexivity.
  - intros ts b r B IB o' r' H'. remember (kw "else" :: ts) as ts0 eqn:E0. destruct H' as [r2 N2|ts2 b2 r2 B2|ts2 e2 b2 o2 r2 H2].
    + exfalso. apply N2. rewrite E0. reflexivity.
    + injection E0 as ->. destruct (IB _ _ B2) as (-> & ->). auto.
    + exfalso. injection E0 as ->. apply stmt_cls in H2. rewrite (block_cls _ _ _ B) in H2. discriminate H2.
  - intros ts e b o r H IH o' r' H'. remember (kw "else" :: ts) as ts0 eqn:E0. destruct H' as [r2 N2|ts2 b2 r2 B2|ts2 e2 b2 o2 r2 H2].
    + exfalso. apply N2. rewrite E0. reflexivity.
    + exfalso. injection E0 as ->. apply stmt_cls in H. rewrite (block_cls _ _ _ B2) in H. discriminate H.
    + injection E0 as ->. destruct (IH _ _ H2) as (E & ->). split; [congruence|reflexivity].
Qed.

(** * Units *)

Lemma params_det : forall ts ps r, params_at c23 ts ps r -> forall ps' r', params_at c23 ts ps' r' -> ps = ps' /\ r = r'.
Proof.
  assert (V : forall r t x q r', ~ type_at c23 (kw "void" :: op ")" :: r) t (KId x :: q :: r')).
  { intros r t x q r' (n & t0 & ts' & E & _ & S). injection E as _ <-. inversion S. }
  induction 1 as [r|ts t x r T N|ts t x ts' ps r T N NE P IH]; intros ps' r' H'.
  - remember (kw "void" :: op ")" :: r) as ts0 eqn:E0. destruct H' as [r2|ts2 t2 x2 r2 T2 N2|ts2 t2 x2 ts2' ps2 r2 T2 N2 NE2 P2].
    + injection E0 as ->. auto.
    + exfalso. subst ts2. exact (V _ _ _ _ _ T2).
    + exfalso. subst ts2. exact (V _ _ _ _ _ T2).
  - destruct H' as [r2|ts2 t2 x2 r2 T2 N2|ts2 t2 x2 ts2' ps2 r2 T2 N2 NE2 P2].
    + exfalso. exact (V _ _ _ _ _ T).
    + destruct (type_at_det _ _ _ _ _ T T2) as (-> & E). injection E as -> ->. auto.
    + exfalso. destruct (type_at_det _ _ _ _ _ T T2) as (-> & E). discriminate E.
  - destruct H' as [r2|ts2 t2 x2 r2 T2 N2|ts2 t2 x2 ts2' ps2 r2 T2 N2 NE2 P2].
    + exfalso. exact (V _ _ _ _ _ T).
    + exfalso. destruct (type_at_det _ _ _ _ _ T T2) as (-> & E). discriminate E.
    + destruct (type_at_det _ _ _ _ _ T T2) as (-> & E). injection E as -> ->. destruct (IH _ _ P2) as (-> & ->). auto.
Qed.

Lemma label_det : forall ts l r l' r', label_at ts l r -> label_at ts l' r' -> l = l' /\ r = r'.
Proof.
  intros ts l r l' r' H H'. destruct H as [r H|s r].
  - destruct H' as [r2 H2|s2 r2]; [auto|]. exfalso. apply H. reflexivity.
  - remember (kw "__asm__" :: op "(" :: KStr s :: op ")" :: r) as ts0 eqn:E0. destruct H' as [r2 H2|s2 r2].
    + exfalso. apply H2. rewrite E0. reflexivity.
    + injection E0 as -> ->. auto.
Qed.
Lemma init_det : forall ts i r i' r', init_at ts i r -> init_at ts i' r' -> i = i' /\ r = r'.
Proof.
  intros ts i r i' r' H H'. destruct H as [r|ts e r E].
  - remember (op ";" :: r) as ts0 eqn:E0. destruct H' as [r2|ts2 e2 r2 E2]; [injection E0 as ->; auto|discriminate E0].
  - remember (op "=" :: ts) as ts0 eqn:E0. destruct H' as [r2|ts2 e2 r2 E2]; [discriminate E0|]. injection E0 as ->.
    destruct (expr_to_det _ _ _ _ _ _ (or_introl eq_refl) E E2) as (-> & ->). auto.
Qed.
Lemma type_word_head : forall w ts t r, is_type_word (u w) = false -> ~ type_at c23 (kw w :: ts) t r.
Proof.
  intros w ts t r H (n & t0 & ts' & E & W & _). injection E as <- _.
  assert (X : is_type_word (u w) = true) by (apply is_type_word_spec; eauto). congruence.
Qed.
Lemma const_word : is_type_word (u "const") = false.
Proof. unfold is_type_word, type_words; destruct c23; reflexivity. Qed.
Lemma static_word : is_type_word (u "static") = false.
Proof. unfold is_type_word, type_words; destruct c23; reflexivity. Qed.

Lemma front_det : forall (s q s' q' : bool) ts t r t' r' ts1 ts1',
  ts = (if s then [kw "static"] else []) ++ (if q then [kw "const"] else []) ++ ts1 ->
  ts = (if s' then [kw "static"] else []) ++ (if q' then [kw "const"] else []) ++ ts1' ->
  type_at c23 ts1 t r -> type_at c23 ts1' t' r' -> s = s' /\ q = q' /\ t = t' /\ r = r'.
Proof.
  intros s q s' q' ts t r t' r' ts1 ts1' -> E T T'. pose proof const_word as CW. pose proof static_word as SW.
  destruct s, q, s', q'; cbn [app] in E;
    try (injection E as E); try discriminate E;
    try (exfalso; subst; (eapply type_word_head; [|eassumption]; assumption));
    try (subst; destruct (type_at_det _ _ _ _ _ T T') as (-> & ->); auto; fail).
Qed.

Lemma label_or_init : forall ts l ts1 i r ts', label_at ts l ts1 -> init_at ts1 i r -> ts <> op "(" :: ts'.
Proof. intros ts l ts1 i r ts' L I E. subst ts. inversion L; subst. inversion I. Qed.

Lemma def_det : forall ts d r d' r', def_at c23 ts d r -> def_at c23 ts d' r' -> d = d' /\ r = r'.
Proof.
  intros ts d r d' r' H H'. unfold word_at in *.
  destruct H as [ts s ts1 q ts2 t x ts3 l ts4 i r S Q T N L I|ts s ts1 t f ts2 ps ts3 l r S T N P L|ts s ts1 t f ts2 ps ts3 b r S T N P B];
    destruct H' as [ts s' ts1' q' ts2' t' x' ts3' l' ts4' i' r' S' Q' T' N' L' I'|ts s' ts1' t' f' ts2' ps' ts3' l' r' S' T' N' P' L'|ts s' ts1' t' f' ts2' ps' ts3' b' r' S' T' N' P' B'];
    unfold word_at in *.
  - subst ts1 ts1'. destruct (front_det s q s' q' ts _ _ _ _ _ _ S S' T T') as (-> & -> & -> & E). injection E as -> ->.
    destruct (label_det _ _ _ _ _ L L') as (-> & ->). destruct (init_det _ _ _ _ _ I I') as (-> & ->). auto.
  - exfalso. subst ts1. destruct (front_det s q s' false ts _ _ _ _ _ _ S S' T T') as (_ & _ & _ & E). injection E as _ E.
    exact (label_or_init _ _ _ _ _ _ L I E).
  - exfalso. subst ts1. destruct (front_det s q s' false ts _ _ _ _ _ _ S S' T T') as (_ & _ & _ & E). injection E as _ E.
    exact (label_or_init _ _ _ _ _ _ L I E).
  - exfalso. subst ts1'. destruct (front_det s false s' q' ts _ _ _ _ _ _ S S' T T') as (_ & _ & _ & E). injection E as _ E.
    exact (label_or_init _ _ _ _ _ _ L' I' (eq_sym E)).
  - destruct (front_det s false s' false ts _ _ _ _ _ _ S S' T T') as (-> & _ & -> & E). injection E as -> ->.
    destruct (params_det _ _ _ P _ _ P') as (-> & ->). destruct (label_det _ _ _ _ _ L L') as (-> & E). injection E as ->. auto.
  - exfalso. destruct (front_det s false s' false ts _ _ _ _ _ _ S S' T T') as (-> & _ & -> & E). injection E as -> ->.
    destruct (params_det _ _ _ P _ _ P') as (-> & ->). destruct B'. inversion L.
  - exfalso. subst ts1'. destruct (front_det s false s' q' ts _ _ _ _ _ _ S S' T T') as (_ & _ & _ & E). injection E as _ E.
    exact (label_or_init _ _ _ _ _ _ L' I' (eq_sym E)).
  - exfalso. destruct (front_det s false s' false ts _ _ _ _ _ _ S S' T T') as (-> & _ & -> & E). injection E as -> ->.
    destruct (params_det _ _ _ P _ _ P') as (-> & ->). destruct B. inversion L'.
  - destruct (front_det s false s' false ts _ _ _ _ _ _ S S' T T') as (-> & _ & -> & E). injection E as -> ->.
    destruct (params_det _ _ _ P _ _ P') as (-> & ->). destruct (proj1 (proj2 program_det) _ _ _ B _ _ B') as (-> & ->). auto.
Qed.

Lemma no_def : forall d r, ~ def_at c23 [] d r.
Proof.
  intros d r H. remember [] as ts0 eqn:E0. unfold word_at in *.
  assert (X : forall (s q : bool) ts1 t r0, [] = (if s then [kw "static"] else []) ++ (if q then [kw "const"] else []) ++ ts1 -> type_at c23 ts1 t r0 -> False).
  { intros s q ts1 t r0 E (n & t0 & ts' & -> & _). destruct s, q; discriminate E. }
  destruct H as [ts s ts1 q ts2 t x ts3 l ts4 i r S Q T N L I|ts s ts1 t f ts2 ps ts3 l r S T N P L|ts s ts1 t f ts2 ps ts3 b r S T N P B]; unfold word_at in *; subst.
  - apply (X s q _ _ _ S T).
  - apply (X s false _ _ _ S T).
  - apply (X s false _ _ _ S T).
Qed.
Lemma unit_det : forall ts ds, unit_at c23 ts ds -> forall ds', unit_at c23 ts ds' -> ds' = ds.
Proof.
  induction 1 as [|ts d r ds H HU IH]; intros ds' H'.
  - remember [] as ts0 eqn:E0. destruct H' as [|ts2 d2 r2 ds2 H2 HU2]; [reflexivity|]. exfalso. subst. exact (no_def _ _ H2).
  - destruct H' as [|ts2 d2 r2 ds2 H2 HU2]; [exfalso; exact (no_def _ _ H)|]. destruct (def_det _ _ _ _ _ H H2) as (-> & ->). f_equal. now apply IH.
Qed.
End Unique.
