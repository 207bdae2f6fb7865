(** What follows for the nodes of a well formed program. *)
From Coq Require Import List Arith NArith ZArith Bool Lia Ascii String.
From Verif Require Import Base Model_Token Model_Utf8 Spec_Utf8 Proof_Utf8 Model_Literal Model_Parse Spec_Parse Proof_Parse5
  Model_Sem Spec_Sem Proof_Sem Proof_Sem2 Proof_Sem3 Proof_Sem4.
Import ListNotations.
Open Scope list_scope.
Open Scope nat_scope.

Lemma spells_one : forall src t a b, spells src t a -> spells src t b -> a = b.
Proof.
  intros src t a b (i & E1 & U1) (j & E2 & U2). assert (i = j) by congruence. subst j.
  apply encode_some_l in U1. apply encode_some_l in U2. congruence.
Qed.

(** * Parts of checked expressions *)

Scheme elab_ind2 := Minimality for elab Sort Prop
  with elabs_ind2 := Minimality for elabs Sort Prop.

Lemma elabs_in : forall D w src e l xs x, elabs D w src e l xs -> In x xs -> exists a, In a l /\ elab D w src e a x.
Proof.
  intros D w src e l xs x H. induction H as [|a l y xs HA H IH]; intros I; [destruct I|].
  destruct I as [->|I]; [exists a; split; [now left|easy]|]. destruct (IH I) as (b & IB & E). exists b. split; [now right|easy].
Qed.

Lemma elab_part : forall D w src e y x, xpart y x -> forall a, elab D w src e a x -> exists b, elab D w src e b y.
Proof.
  intros D w src e y x P. induction P as [x|y name k args ty a I P IH|y o a ty c P IH|y o a b ty c P IH|y o a b ty c P IH]; intros v H.
  - eauto.
  - inversion H; subst. destruct (elabs_in _ _ _ _ _ _ _ H8 I) as (b & _ & E). eauto.
  - inversion H; subst; eauto.
  - inversion H; subst. eauto.
  - inversion H; subst. eauto.
Qed.

Lemma elab_has_type : forall D w src e a x, elab D w src e a x -> has_type D src e a (x_ty x).
Proof.
  intros D w src e. apply (elab_ind2 D w src e (fun a x => has_type D src e a (x_ty x)) (fun l xs => have_types D src e l (map x_ty xs))); cbn [x_ty map].
  - intros. now apply ht_var with n k m.
  - intros t v ty H. constructor. destruct H as [z T|f T|T|c T|b T]; rewrite T; constructor.
  - intros name args num n k ps r xs S R DK E H T. subst ps. now apply ht_call with n k (map x_ty xs).
  - intros a x c _ H NM. now apply ht_neg.
  - intros a x c _ H NM. rewrite NM in H. now apply ht_not.
  - intros t x c _ H. now apply ht_ref.
  - intros t x ty c _ H E. rewrite E in H. now apply ht_deref.
  - intros o a b x y r c _ H1 _ H2 E O _. apply ht_bin with (x_ty y); auto. now rewrite <- E.
  - constructor.
  - intros. now constructor.
Qed.

(** * The places of nodes *)

Definition known (D : decls) (e : env) : Prop := forall nm k, In (nm, k) e -> D k <> Some (DType None).

(** What a statement adds. *)
Lemma stmt_adds : forall D w src e n x e', stmt_ok D w src e n x e' ->
  (e' = e /\ forall nm o, ~ declares src n x nm o) \/
  (exists nm k, e' = (nm, k) :: e /\ fresh D e nm /\
    (forall nm' o, declares src n x nm' o -> nm' = nm /\ (o = None \/ o = Some k) /\ D k <> Some (DType None)) /\
    (declares src n x nm (Some k) \/ exists ty, D k = Some (DType ty)) /\
    (tn_pay x = XAlias \/ D k <> Some (DType None)) /\
    ((exists v c nam, n_pay n = PVarDef nam v true c false) -> D k <> Some (DType None))).
Proof.
  intros D w src e n x e' H. destruct H as
    [e n name rest v i c ex y nm k T CH P E NV TY SP FR DK|e n name v i ex t q r nm k ty T CH P TK SP FR DK TY NN|e n v t q r nm k ty y T CH P TK SP RS DK E TE
    |e n f a m y T CH P E|e n v y T CH P E|e n v y c e' T P E B BK|e n c e' T BK|e n name ret num ext exp ps ts ks r nm k e1 c e2 T P R SP FR DK PO BK
    |e n t q r nm k c e' T TK SP FR DK BK|e n P CH T].
  - right. exists nm, k. split; [easy|]. split; [easy|]. split; [|split; [|split]].
    + intros nm' o DC. inversion DC; subst; cbn [tn_pay] in *; try congruence.
      rewrite P in H. inversion H; subst. inversion H0; subst. split; [now apply (spells_one src t)|]. split; [now right|congruence].
    + left. now apply dc_variable with name rest v i c ex y.
    + right. congruence.
    + intros _. congruence.
  - right. exists nm, k. split; [easy|]. split; [easy|]. split; [|split; [|split]].
    + intros nm' o DC. inversion DC; subst; cbn [tn_pay] in *; try congruence.
      rewrite P in H. inversion H; subst. rewrite TK in H1. inversion H1; subst. split; [now apply (spells_one src t0)|]. split; [now left|].
      rewrite DK. intro X. inversion X; subst. now apply (NN eq_refl eq_refl).
    + right. eauto.
    + left. reflexivity.
    + intros (v0 & c0 & nam & P0). rewrite P in P0. inversion P0; subst. rewrite DK. intro X. inversion X; subst. now apply (NN eq_refl eq_refl).
  - left. split; [easy|]. intros nm' o DC. inversion DC; subst; cbn [tn_pay] in *; congruence.
  - left. split; [easy|]. intros nm' o DC. inversion DC; subst; cbn [tn_pay] in *; congruence.
  - left. split; [easy|]. intros nm' o DC. inversion DC; subst; cbn [tn_pay] in *; congruence.
  - left. split; [easy|]. intros nm' o DC. inversion DC; subst; cbn [tn_pay] in *; congruence.
  - left. split; [easy|]. intros nm' o DC. inversion DC; subst; cbn [tn_pay] in *; congruence.
  - right. exists nm, k. split; [easy|]. split; [easy|]. split; [|split; [|split]].
    + intros nm' o DC. inversion DC; subst; cbn [tn_pay] in *; try congruence.
      rewrite P in H. inversion H; subst. inversion H0; subst. split; [now apply (spells_one src name0)|]. split; [now right|congruence].
    + left. now apply dc_function with name ret num ext exp ps ks.
    + right. congruence.
    + intros _. congruence.
  - right. exists nm, k. split; [easy|]. split; [easy|]. split; [|split; [|split]].
    + intros nm' o DC. inversion DC; subst; cbn [tn_pay] in *; try congruence.
      rewrite TK in H. inversion H; subst. inversion H0; subst. split; [now apply (spells_one src t0)|]. split; [now right|congruence].
    + left. now apply dc_namespace with q t r.
    + right. congruence.
    + intros _. congruence.
  - left. split; [easy|]. intros nm' o DC. inversion DC; subst; cbn [tn_pay] in *; congruence.
Qed.

Lemma params_in : forall D src e ps ts ks e', params_ok D src e ps ts ks e' ->
  incl e e' /\
  (forall i p j, nth_error ps i = Some p -> nth_error ks i = Some j -> exists nm, spells src (pm_name p) nm /\ In (nm, j) e') /\
  (forall nm j, In (nm, j) e' -> In (nm, j) e \/ (exists i p, nth_error ps i = Some p /\ nth_error ks i = Some j /\ spells src (pm_name p) nm /\
     exists t, D j = Some (DVar t false) /\ nth_error ts i = Some t)) /\
  (forall i p j nm, nth_error ps i = Some p -> nth_error ks i = Some j -> spells src (pm_name p) nm ->
     exists e1, incl e e1 /\ fresh D e1 nm) /\
  (forall i p j, nth_error ps i = Some p -> nth_error ks i = Some j -> exists t, D j = Some (DVar t false) /\ nth_error ts i = Some t) /\
  List.length ps = List.length ts /\ List.length ks = List.length ts.
Proof.
  intros D src e ps ts ks e' H. induction H as [e|e p ps t ts n k ks e' TY SP FR DK H (I1 & I2 & I3 & I4 & I5 & I6 & I7)].
  - split; [apply incl_refl|]. split; [intros [|i]; discriminate|]. split; [auto|]. split; [intros [|i]; discriminate|]. split; [intros [|i]; discriminate|]. auto.
  - split; [intros z Z; apply I1; now right|]. split; [|split; [|split; [|split; [|cbn; auto]]]].
    + intros [|i] q j P K; cbn in P, K.
      * inversion P; inversion K; subst. exists n. split; [easy|]. apply I1. now left.
      * now apply (I2 i).
    + intros nm j I. destruct (I3 nm j I) as [[X|X]|(i & q & X)].
      * inversion X; subst. right. exists 0, p. cbn. eauto 8.
      * now left.
      * right. exists (S i), q. exact X.
    + intros [|i] q j nm P K S; cbn in P, K.
      * inversion P; inversion K; subst. exists e. split; [apply incl_refl|]. now rewrite (spells_one _ _ _ _ S SP).
      * destruct (I4 i q j nm P K S) as (e1 & X1 & X2). exists e1. split; [|easy]. intros z Z. apply X1. now right.
    + intros [|i] q j P K; cbn in P, K.
      * inversion K; subst. exists t. auto.
      * now apply (I5 i q).
Qed.

(** The block below a statement. *)
Lemma stmt_below : forall D w src e n x e', stmt_ok D w src e n x e' -> n_child n <> [] ->
  exists e1 e2, block_ok D w src e1 (n_child n) (tn_child x) e2 /\ incl e e1 /\
    (forall nm k, In (nm, k) e1 -> In (nm, k) e \/ declares_below src n x nm (Some k)) /\
    (forall nm k, In (nm, k) e1 -> ~ In (nm, k) e -> D k <> Some (DType None)) /\
    (forall nm o, declares_below src n x nm o -> exists k, In (nm, k) e1 /\ (o = None \/ o = Some k) /\ D k <> Some (DType None)).
Proof.
  intros D w src e n x e' H NE. destruct H as
    [e n name rest v i c ex y nm k T CH P E NV TY SP FR DK|e n name v i ex t q r nm k ty T CH P TK SP FR DK TY NN|e n v t q r nm k ty y T CH P TK SP RS DK E TE
    |e n f a m y T CH P E|e n v y T CH P E|e n v y c e' T P E B BK|e n c e' T BK|e n name ret num ext exp ps ts ks r nm k e1 c e2 T P R SP FR DK PO BK
    |e n t q r nm k c e' T TK SP FR DK BK|e n P CH T]; try contradiction.
  - exists e, e'. split; [easy|]. split; [apply incl_refl|]. split; [auto|]. split; [tauto|].
    intros nm o DB. inversion DB as [? ? DC|]; subst; [inversion DC; subst|]; cbn [tn_pay] in *; congruence.
  - exists e, e'. split; [easy|]. split; [apply incl_refl|]. split; [auto|]. split; [tauto|].
    intros nm o DB. inversion DB as [? ? DC|]; subst; [inversion DC; subst|]; cbn [tn_pay] in *; congruence.
  - destruct (params_in _ _ _ _ _ _ _ PO) as (I1 & I2 & I3 & _ & I5 & _). exists e1, e2. split; [easy|].
    split; [intros z Z; apply I1; now right|]. split; [|split].
    + intros nm' k' I. destruct (I3 nm' k' I) as [[X|X]|(i & p & X1 & X2 & X3 & _)].
      * inversion X; subst. right. apply db_name. now apply dc_function with name ret num ext exp ps ks.
      * now left.
      * right. now apply db_param with name ret num ext exp ps k ks i p.
    + intros nm' k' I NI. destruct (I3 nm' k' I) as [[X|X]|(i & p & _ & _ & _ & t & X & _)]; [|contradiction|congruence].
      inversion X; subst. congruence.
    + intros nm' o DB. inversion DB as [? ? DC|name0 ret0 num0 ext0 exp0 ps0 k0 ks0 i p j ? P0 X0 PI KI SP0]; subst.
      * inversion DC; subst; cbn [tn_pay] in *; try congruence. rewrite P in H. inversion H; subst. inversion H0; subst.
        exists k0. split; [|split; [now right|congruence]]. apply I1. left. f_equal. now apply (spells_one src name0).
      * cbn [tn_pay] in X0. rewrite P in P0. inversion P0; subst. inversion X0; subst.
        destruct (I2 i p j PI KI) as (nm2 & S2 & IN2). exists j. assert (nm' = nm2) by (now apply (spells_one src (pm_name p))). subst nm2.
        split; [easy|]. split; [now right|]. destruct (I5 i p j PI KI) as (t5 & X5 & _). congruence.
  - exists ((nm, k) :: e), e'. split; [easy|]. split; [intros z Z; now right|]. split; [|split].
    + intros nm' k' [X|X]; [|now left]. inversion X; subst. right. apply db_name. now apply dc_namespace with q t r.
    + intros nm' k' [X|X] NI; [|contradiction]. inversion X; subst. congruence.
    + intros nm' o DB. inversion DB as [? ? DC|]; subst; [|cbn [tn_pay] in *; congruence].
      inversion DC; subst; cbn [tn_pay] in *; try congruence. rewrite TK in H. inversion H; subst. inversion H0; subst.
      exists k0. split; [|split; [now right|congruence]]. left. f_equal. now apply (spells_one src t0).
Qed.

Lemma plain_next : forall m y l xs, plain_aliases (m :: l) (y :: xs) -> plain_aliases l xs.
Proof. intros m y l xs H n x P. apply H. now apply pa_next. Qed.
Lemma plain_below : forall m y l xs, plain_aliases (m :: l) (y :: xs) -> plain_aliases (n_child m) (tn_child y).
Proof. intros m y l xs H n x P. apply H. now apply pa_below. Qed.

Lemma known_behind : forall D w src e m y l xs e1, stmt_ok D w src e m y e1 -> plain_aliases (m :: l) (y :: xs) ->
  known D e -> known D e1.
Proof.
  intros D w src e m y l xs e1 H PL K. pose proof (PL m y (pa_here m y l xs)) as PM.
  destruct (stmt_adds _ _ _ _ _ _ _ H) as [(-> & _)|(nm & k & -> & _ & _ & _ & AL & NN)]; [exact K|].
  intros nm' k' [X|X]; [|now apply (K nm')]. inversion X; subst. destruct AL as [AL|AL]; [|exact AL].
  apply NN. destruct (PM AL) as (nam & v & c & E). eauto.
Qed.

Lemma in_dec_entry : forall (a : text * nat) e, {In a e} + {~ In a e}.
Proof. intros. apply in_dec. decide equality; [apply Nat.eq_dec|apply list_eq_dec, N.eq_dec]. Qed.

Lemma located : forall D w src n x l xs, paired n x l xs -> forall e e', block_ok D w src e l xs e' ->
  exists en en', stmt_ok D w src en n x en' /\ incl e en /\
    (forall nm k, In (nm, k) en -> In (nm, k) e \/ (exists d y, visible src n x l xs nm (Some k) d y) \/ exists ty, D k = Some (DType ty)) /\
    (plain_aliases l xs -> known D e -> known D en).
Proof.
  intros D w src n x l xs P. induction P as [l xs|m y l xs P IH|m y l xs P IH]; intros e e' B; inversion B as [|e0 m0 l0 y0 xs0 e1 e2 S1 B1]; subst.
  - exists e, e1. split; [easy|]. split; [apply incl_refl|]. auto.
  - destruct (IH _ _ B1) as (en & en' & H & I & O & K). exists en, en'. split; [easy|]. split; [|split].
    + destruct (stmt_adds _ _ _ _ _ _ _ S1) as [(-> & _)|(nm & k & -> & _)]; [exact I|]. intros z Z. apply I. now right.
    + intros nm k IN. destruct (O nm k IN) as [X|[(d & z & V)|X]]; [|right; left; exists d, z; now apply vi_next|now right; right].
      destruct (stmt_adds _ _ _ _ _ _ _ S1) as [(-> & _)|(nm' & k' & -> & _ & _ & DC & _)]; [now left|].
      destruct X as [X|X]; [|now left]. inversion X; subst. right. destruct DC as [DC|DC]; [left|now right].
      exists m, y. now apply vi_ahead.
    + intros PL KN. apply K; [now apply plain_next in PL|]. now apply (known_behind D w src e m y l xs e1).
  - assert (NE : n_child m <> []). { intro X. rewrite X in P. inversion P. }
    destruct (stmt_below _ _ _ _ _ _ _ S1 NE) as (f1 & f2 & BB & I1 & I2 & I3 & I4).
    destruct (IH _ _ BB) as (en & en' & H & I & O & K). exists en, en'. split; [easy|]. split; [|split].
    + intros z Z. auto.
    + intros nm k IN. destruct (O nm k IN) as [X|[(d & z & V)|X]]; [|right; left; exists d, z; now apply vi_below|now right; right].
      destruct (I2 nm k X) as [X2|X2]; [now left|]. right. left. exists m, y. now apply vi_above.
    + intros PL KN. apply K; [now apply plain_below in PL|]. intros nm k IN.
      destruct (in_dec_entry (nm, k) e) as [X|X]; [now apply (KN nm)|now apply (I3 nm)].
Qed.

Lemma sees : forall D w src n x l xs nm o d y, visible src n x l xs nm o d y -> forall e e', block_ok D w src e l xs e' ->
  exists en en' k, stmt_ok D w src en n x en' /\ In (nm, k) en /\ (o = None \/ o = Some k) /\
    (plain_aliases l xs -> known D e -> known D en).
Proof.
  intros D w src n x l xs nm o d y V. induction V as [d y l xs nm o DC P|d y l xs nm o DB P|m z l xs nm o d y V IH|m z l xs nm o d y V IH];
    intros e e' B; inversion B as [|e0 m0 l0 y0 xs0 e1 e2 S1 B1]; subst.
  - destruct (located D w src n x l xs P _ _ B1) as (en & en' & H & I & _ & K).
    destruct (stmt_adds _ _ _ _ _ _ _ S1) as [(_ & NO)|(nm' & k & -> & _ & DC' & _)]; [now apply NO in DC|].
    destruct (DC' _ _ DC) as (-> & O & _). exists en, en', k. split; [easy|]. split; [apply I; now left|]. split; [easy|].
    intros PL KN. apply K; [now apply plain_next in PL|]. now apply (known_behind D w src e d y l xs ((nm', k) :: e)).
  - assert (NE : n_child d <> []). { intro X. rewrite X in P. inversion P. }
    destruct (stmt_below _ _ _ _ _ _ _ S1 NE) as (f1 & f2 & BB & I1 & I2 & I3 & I4). destruct (I4 nm o DB) as (k & IN & O & _).
    destruct (located D w src n x _ _ P _ _ BB) as (en & en' & H & I & _ & K). exists en, en', k. split; [easy|]. split; [now apply I|].
    split; [easy|]. intros PL KN. apply K; [now apply plain_below in PL|]. intros nm' k' IN'.
    destruct (in_dec_entry (nm', k') e) as [X|X]; [now apply (KN nm')|now apply (I3 nm')].
  - destruct (IH _ _ B1) as (en & en' & k & H & I & O & K). exists en, en', k. split; [easy|]. split; [easy|]. split; [easy|].
    intros PL KN. apply K; [now apply plain_next in PL|]. now apply (known_behind D w src e m z l xs e1).
  - assert (NE : n_child m <> []). { intro X. rewrite X in V. inversion V. }
    destruct (stmt_below _ _ _ _ _ _ _ S1 NE) as (f1 & f2 & BB & I1 & I2 & I3 & I4).
    destruct (IH _ _ BB) as (en & en' & k & H & I & O & K). exists en, en', k. split; [easy|]. split; [easy|]. split; [easy|].
    intros PL KN. apply K; [now apply plain_below in PL|]. intros nm' k' IN'.
    destruct (in_dec_entry (nm', k') e) as [X|X]; [now apply (KN nm')|now apply (I3 nm')].
Qed.

Lemma in_resolves : forall D e nm k, ~ In (chr ".") nm -> In (nm, k) e -> exists k', resolves D e nm k' /\ In (nm, k') e.
Proof.
  intros D e nm k ND. induction e as [|(m, j) e IH]; intros I; [destruct I|].
  destruct (list_eq_dec N.eq_dec nm m) as [->|NE].
  - exists j. split; [now constructor|now left].
  - destruct I as [X|I]; [congruence|]. destruct (IH I) as (k' & R & I'). exists k'. split; [now constructor|now right].
Qed.
Lemma resolves_in : forall D e nm k, ~ In (chr ".") nm -> resolves D e nm k -> In (nm, k) e.
Proof.
  intros D e nm k ND R. induction R as [n k e _|m j e n k _ NE R IH|e a j inside b k _ _ _ _ _ _].
  - now left.
  - right. now apply IH.
  - exfalso. apply ND. apply in_or_app. right. now left.
Qed.

Lemma fresh_new : forall D e nm, fresh D e nm -> ~ In (chr ".") nm -> known D e -> forall k, ~ In (nm, k) e.
Proof.
  intros D e nm (_ & F) ND K k I. destruct (in_resolves D e nm k ND I) as (k' & R & I'). apply (K nm k' I'). now apply F.
Qed.

Lemma elab_use : forall D w src en n x en' y, stmt_ok D w src en n x en' -> uses x y -> exists a, elab D w src en a y.
Proof.
  intros D w src en n x en' y H (e & E & P). destruct H; cbn in E; try discriminate; inversion E; subst;
    (eapply elab_part; [exact P|eassumption]).
Qed.

(** * Properties *)

Lemma start_known : forall D, known D [].
Proof. intros D nm k []. Qed.

Lemma place : forall w src ts tree s l, accepted w src ts tree s l -> no_call_blocks tree -> few_arguments tree ->
  exists D, forall n x, paired n x tree l -> exists en en', stmt_ok D w src en n x en' /\
    (forall nm k, In (nm, k) en -> (exists d y, visible src n x tree l nm (Some k) d y) \/ exists ty, D k = Some (DType ty)).
Proof.
  intros w src ts tree s l A NC FA. destruct (well_formed_l _ _ _ _ _ _ A NC FA) as (D & e & B). exists D. intros n x P.
  destruct (located D w src n x tree l P _ _ B) as (en & en' & H & _ & O & _). exists en, en'. split; [easy|].
  intros nm k IN. destruct (O nm k IN) as [[]|O']. exact O'.
Qed.

Lemma def_decl : forall D w src en n x en' name v i c ex k y, stmt_ok D w src en n x en' ->
  n_pay n = PVarDef name v i c ex -> tn_pay x = XDef k y ->
  D k = Some (DVar (x_ty y) (negb c)) /\ elab D w src en v y /\ (i = false -> type_at D src en (tl name) (x_ty y)).
Proof.
  intros D w src en n x en' name v i c ex k y H P X. destruct H; cbn [tn_pay] in X; try discriminate.
  inversion X; subst. rewrite P in H1. inversion H1; subst. cbn [tl]. auto.
Qed.
Lemma def_pay : forall D w src en n x en' k y, stmt_ok D w src en n x en' -> tn_pay x = XDef k y ->
  exists t r v i c ex nm, n_pay n = PVarDef (t :: r) v i c ex /\ spells src t nm.
Proof.
  intros D w src en n x en' k y H X. destruct H; cbn [tn_pay] in X; try discriminate. eauto 10.
Qed.
Lemma set_decl : forall D w src en n x en' k y, stmt_ok D w src en n x en' -> tn_pay x = XSet k y ->
  D k = Some (DVar (x_ty y) true) /\ exists t r nm, n_token n = t :: r /\ spells src t nm /\ resolves D en nm k.
Proof.
  intros D w src en n x en' k y H X. destruct H; cbn [tn_pay] in X; try discriminate. inversion X; subst. split; [easy|].
  exists t, (q :: r), x. auto.
Qed.
Lemma proto_decl : forall D w src en n x en' name ret num ext exp ps k ks, stmt_ok D w src en n x en' ->
  n_pay n = PProto name ret num ext exp ps -> tn_pay x = XProto k ks ->
  exists ts r, D k = Some (DFun ts r) /\ List.length ps = List.length ts /\ List.length ks = List.length ts /\
    (forall i j t, nth_error ks i = Some j -> nth_error ts i = Some t -> D j = Some (DVar t false)) /\
    (ret = [] /\ r = TVoid \/ type_at D src en ret r).
Proof.
  intros D w src en n x en' name ret num ext exp ps k ks H P X. destruct H; cbn [tn_pay] in X; try discriminate.
  inversion X; subst. rewrite P in H0. inversion H0; subst. destruct (params_in _ _ _ _ _ _ _ H5) as (_ & _ & _ & _ & I5 & I6 & I7).
  exists ts, r. split; [easy|]. split; [easy|]. split; [easy|]. split; [|exact H1]. intros i j t KI TI.
  destruct (nth_error ps0 i) as [p|] eqn:PI.
  - destruct (I5 i p j PI KI) as (t' & DJ & TI'). congruence.
  - apply nth_error_None in PI. assert (i < List.length ts) by (apply nth_error_Some; congruence). lia.
Qed.

Lemma constants_l : forall w src ts tree s l, accepted w src ts tree s l -> no_call_blocks tree -> few_arguments tree ->
  forall n x k z, paired n x tree l -> tn_pay x = XSet k z ->
  (forall d y name v i c ex a, paired d y tree l -> n_pay d = PVarDef name v i c ex -> tn_pay y = XDef k a -> c = false) /\
  (forall d y j ks, paired d y tree l -> tn_pay y = XProto j ks -> ~ In k ks).
Proof.
  intros w src ts tree s l A NC FA n x k z P X. destruct (place _ _ _ _ _ _ A NC FA) as (D & PL).
  destruct (PL n x P) as (en & en' & H & _). destruct (set_decl _ _ _ _ _ _ _ _ _ H X) as (DK & _). split.
  - intros d y name v i c ex a PD PV XD. destruct (PL d y PD) as (ed & ed' & HD & _).
    destruct (def_decl _ _ _ _ _ _ _ _ _ _ _ _ _ _ HD PV XD) as (DK' & _). destruct c; [cbn in DK'; congruence|easy].
  - intros d y j ks PD XD IN. destruct (PL d y PD) as (ed & ed' & HD & _).
    assert (exists name ret num ext exp ps, n_pay d = PProto name ret num ext exp ps) as (name & ret & num & ext & exp & ps & PP).
    { destruct HD; cbn [tn_pay] in XD; try discriminate. eauto 8. }
    destruct (proto_decl _ _ _ _ _ _ _ _ _ _ _ _ _ _ _ HD PP XD) as (tys & r & _ & _ & L2 & Q & _).
    apply In_nth_error in IN as (i & IN). destruct (nth_error tys i) as [t|] eqn:TI.
    + specialize (Q i k t IN TI). congruence.
    + apply nth_error_None in TI. assert (i < List.length ks) by (apply nth_error_Some; congruence). lia.
Qed.

Lemma once_l : forall w src ts tree s l, accepted w src ts tree s l -> no_call_blocks tree -> few_arguments tree -> plain_aliases tree l ->
  forall n x nm o d y, visible src n x tree l nm o d y -> ~ In (chr ".") nm ->
  forall nm' o', declares_below src n x nm' o' -> nm' <> nm.
Proof.
  intros w src ts tree s l A NC FA PA n x nm o d y V ND nm' o' DB ->. destruct (well_formed_l _ _ _ _ _ _ A NC FA) as (D & e & B).
  destruct (sees D w src n x tree l nm o d y V _ _ B) as (en & en' & k & H & IN & _ & K). specialize (K PA (start_known D)).
  assert (Q : exists e1, incl en e1 /\ fresh D e1 nm /\ known D e1).
  { inversion DB as [? ? DC|name ret num ext exp ps k0 ks i p j ? P0 X0 PI KI SP0]; subst.
    - destruct (stmt_adds _ _ _ _ _ _ _ H) as [(_ & NO)|(nm' & k' & _ & FR & DC' & _)]; [now apply NO in DC|].
      destruct (DC' _ _ DC) as (-> & _). exists en. split; [apply incl_refl|easy].
    - destruct H; cbn [tn_pay] in X0; try discriminate. inversion X0; subst. rewrite P0 in H0. inversion H0; subst.
      assert (Z : exists e3, incl ((x, k0) :: e0) e3 /\ fresh D e3 nm /\ known D e3).
      { assert (KE : known D ((x, k0) :: e0)). { intros m q [Y|Y]; [inversion Y; subst; congruence|now apply (K m)]. }
        clear - H5 PI KI SP0 KE. revert i PI KI. induction H5 as [|e p0 ps t ts n k ks e' TY SP FR DK H IH]; intros [|i] PI KI; try discriminate; cbn in PI, KI.
        - inversion PI; subst. exists e. split; [apply incl_refl|]. split; [|easy]. now rewrite (spells_one _ _ _ _ SP0 SP).
        - destruct (IH ltac:(intros m q [Y|Y]; [inversion Y; subst; congruence|now apply (KE m)]) i PI KI) as (e3 & I3 & F3 & K3).
          exists e3. split; [|easy]. intros z Z. apply I3. now right. }
      destruct Z as (e3 & I3 & F3 & K3). exists e3. split; [|easy]. intros z Z. apply I3. now right. }
  destruct Q as (e1 & I1 & F1 & K1). apply (fresh_new D e1 nm F1 ND K1 k). now apply I1.
Qed.

(** The parts of an expression are used, too. *)
Lemma visible_var : forall w src ts tree s l, accepted w src ts tree s l -> no_call_blocks tree -> few_arguments tree ->
  forall n x t k ty c nm, paired n x tree l -> uses x (XVar t k ty c) -> spells src t nm -> ~ In (chr ".") nm ->
  exists d y, visible src n x tree l nm (Some k) d y /\
    ((exists a, tn_pay y = XDef k a /\ x_ty a = ty) \/ exists j ks, tn_pay y = XProto j ks /\ In k ks).
Proof.
  intros w src ts tree s l A NC FA n x t k ty c nm P U SP ND. destruct (place _ _ _ _ _ _ A NC FA) as (D & PL).
  destruct (PL n x P) as (en & en' & H & O). destruct (elab_use _ _ _ _ _ _ _ _ H U) as (a & E). inversion E as [t0 nm0 k0 ty0 m0 c0 S0 R0 D0| | | | | | |]; subst.
  assert (nm0 = nm) by (now apply (spells_one src t)). subst nm0. apply resolves_in in R0; [|exact ND].
  destruct (O nm k R0) as [(d & y & V)|(ty' & X)]; [|congruence]. exists d, y. split; [exact V|].
  assert (PD : paired d y tree l /\ (declares src d y nm (Some k) \/ declares_below src d y nm (Some k))).
  { clear - V. remember (Some k) as o eqn:EO. induction V; subst.
    - split; [constructor|now left].
    - split; [constructor|now right].
    - destruct (IHV eq_refl). split; [now apply pa_next|easy].
    - destruct (IHV eq_refl). split; [now apply pa_below|easy]. }
  destruct PD as (PD & DC). destruct (PL d y PD) as (ed & ed' & HD & _).
  assert (DC' : declares src d y nm (Some k) \/ exists j ks, tn_pay y = XProto j ks /\ In k ks).
  { destruct DC as [DC|DC]; [now left|]. inversion DC as [? ? DD|name ret num ext exp ps k0 ks i p j ? P0 X0 PI KI SP0]; subst; [now left|].
    right. exists k0, ks. split; [easy|]. now apply nth_error_In with i. }
  destruct DC' as [DD|DD]; [|now right]. left. inversion DD as [t1 r1 v1 i1 c1 ex1 k1 y0 nm1 H0 H1 H2| |name1 ret1 num1 ext1 exp1 ps1 k1 ks1 nm1 H0 H1 H2|q1 t1 r1 k1 nm1 H0 H1 H2]; subst.
  - exists y0. split; [easy|]. destruct (def_decl _ _ _ _ _ _ _ _ _ _ _ _ _ _ HD H0 H1) as (DK & _). congruence.
  - exfalso. destruct (proto_decl _ _ _ _ _ _ _ _ _ _ _ _ _ _ _ HD H0 H1) as (tys & r & DK & _). congruence.
  - exfalso. destruct HD; cbn [tn_pay] in H1; try discriminate. inversion H1; subst. congruence.
Qed.

Lemma visible_at : forall src n x l xs nm k d y, visible src n x l xs nm (Some k) d y ->
  paired d y l xs /\ (declares src d y nm (Some k) \/ exists j ks, tn_pay y = XProto j ks /\ In k ks).
Proof.
  intros src n x l xs nm k d y V. remember (Some k) as o eqn:EO. induction V as [d y l xs nm o DC P|d y l xs nm o DB P|m z l xs nm o d y V IH|m z l xs nm o d y V IH]; subst.
  - split; [constructor|now left].
  - split; [constructor|]. inversion DB as [? ? DD|name ret num ext exp ps k0 ks i p j ? P0 X0 PI KI SP0]; subst; [now left|].
    right. exists k0, ks. split; [easy|]. now apply nth_error_In with i.
  - destruct (IH eq_refl). split; [now apply pa_next|easy].
  - destruct (IH eq_refl). split; [now apply pa_below|easy].
Qed.

Lemma visible_set : forall w src ts tree s l, accepted w src ts tree s l -> no_call_blocks tree -> few_arguments tree ->
  forall n x k z t r nm, paired n x tree l -> tn_pay x = XSet k z -> n_token n = t :: r -> spells src t nm -> ~ In (chr ".") nm ->
  exists d y name v i ex a, visible src n x tree l nm (Some k) d y /\ n_pay d = PVarDef name v i false ex /\
    tn_pay y = XDef k a /\ x_ty a = x_ty z.
Proof.
  intros w src ts tree s l A NC FA n x k z t r nm P X TK SP ND. destruct (place _ _ _ _ _ _ A NC FA) as (D & PL).
  destruct (PL n x P) as (en & en' & H & O). destruct (set_decl _ _ _ _ _ _ _ _ _ H X) as (DK & t0 & r0 & nm0 & TK0 & SP0 & RS).
  rewrite TK in TK0. inversion TK0; subst t0 r0. assert (nm0 = nm) by (now apply (spells_one src t)). subst nm0.
  apply resolves_in in RS; [|exact ND]. destruct (O nm k RS) as [(d & y & V)|(ty' & Y)]; [|congruence].
  destruct (visible_at _ _ _ _ _ _ _ _ _ V) as (PD & DC). destruct (PL d y PD) as (ed & ed' & HD & _).
  destruct DC as [DD|(j & ks & XP & IK)].
  - inversion DD as [t1 r1 v1 i1 c1 ex1 k1 y0 nm1 H0 H1 H2| |name1 ret1 num1 ext1 exp1 ps1 k1 ks1 nm1 H0 H1 H2|q1 t1 r1 k1 nm1 H0 H1 H2]; subst.
    + destruct (def_decl _ _ _ _ _ _ _ _ _ _ _ _ _ _ HD H0 H1) as (DK' & _). rewrite DK in DK'. inversion DK' as [[E1 E2]].
      assert (c1 = false) as -> by (now destruct c1). exists d, y, (t1 :: r1), v1, i1, ex1, y0. auto.
    + exfalso. destruct (proto_decl _ _ _ _ _ _ _ _ _ _ _ _ _ _ _ HD H0 H1) as (tys & r2 & DK' & _). congruence.
    + exfalso. destruct HD; cbn [tn_pay] in H1; try discriminate. inversion H1; subst. congruence.
  - exfalso. now apply (proj2 (constants_l _ _ _ _ _ _ A NC FA n x k z P X) d y j ks PD XP).
Qed.

Lemma visible_fun : forall w src ts tree s l, accepted w src ts tree s l -> no_call_blocks tree -> few_arguments tree ->
  forall n x t k xs ty nm, paired n x tree l -> uses x (XCall t k xs ty) -> spells src t nm -> ~ In (chr ".") nm ->
  exists d y ks, visible src n x tree l nm (Some k) d y /\ tn_pay y = XProto k ks.
Proof.
  intros w src ts tree s l A NC FA n x t k xs ty nm P U SP ND. destruct (place _ _ _ _ _ _ A NC FA) as (D & PL).
  destruct (PL n x P) as (en & en' & H & O). destruct (elab_use _ _ _ _ _ _ _ _ H U) as (a & E).
  inversion E as [| |name args num nm0 k0 ps0 r0 xs0 S0 R0 D0 EL TL| | | | |]; subst.
  assert (nm0 = nm) by (now apply (spells_one src t)). subst nm0. apply resolves_in in R0; [|exact ND].
  destruct (O nm k R0) as [(d & y & V)|(ty' & X)]; [|congruence]. exists d, y.
  destruct (visible_at _ _ _ _ _ _ _ _ _ V) as (PD & DC). destruct (PL d y PD) as (ed & ed' & HD & _).
  destruct DC as [DD|(j & ks & XP & IK)].
  - inversion DD as [t1 r1 v1 i1 c1 ex1 k1 y0 nm1 H0 H1 H2| |name1 ret1 num1 ext1 exp1 ps1 k1 ks1 nm1 H0 H1 H2|q1 t1 r1 k1 nm1 H0 H1 H2]; subst.
    + exfalso. destruct (def_decl _ _ _ _ _ _ _ _ _ _ _ _ _ _ HD H0 H1) as (DK' & _). congruence.
    + eauto.
    + exfalso. destruct HD; cbn [tn_pay] in H1; try discriminate. inversion H1; subst. congruence.
  - exfalso. assert (exists name ret num ext exp ps, n_pay d = PProto name ret num ext exp ps) as (name & ret & num' & ext & exp & ps & PP).
    { destruct HD; cbn [tn_pay] in XP; try discriminate. eauto 8. }
    destruct (proto_decl _ _ _ _ _ _ _ _ _ _ _ _ _ _ _ HD PP XP) as (tys & r & _ & _ & L2 & Q & _).
    apply In_nth_error in IK as (i & IN). destruct (nth_error tys i) as [t0|] eqn:TI.
    + specialize (Q i k t0 IN TI). congruence.
    + apply nth_error_None in TI. assert (i < List.length ks) by (apply nth_error_Some; congruence). lia.
Qed.

(** Declarations, stores and uses have one type. *)
Lemma stored_l : forall w src ts tree s l, accepted w src ts tree s l -> no_call_blocks tree -> few_arguments tree ->
  forall d y k a, paired d y tree l -> tn_pay y = XDef k a ->
  (forall n x z, paired n x tree l -> tn_pay x = XSet k z -> x_ty z = x_ty a) /\
  (forall n x t ty c, paired n x tree l -> uses x (XVar t k ty c) -> ty = x_ty a).
Proof.
  intros w src ts tree s l A NC FA d y k a PD X. destruct (place _ _ _ _ _ _ A NC FA) as (D & PL).
  destruct (PL d y PD) as (ed & ed' & HD & _). destruct (def_pay _ _ _ _ _ _ _ _ _ HD X) as (t0 & r0 & v & i & c0 & ex & nm & PV & _).
  destruct (def_decl _ _ _ _ _ _ _ _ _ _ _ _ _ _ HD PV X) as (DK & _). split.
  - intros n x z P XS. destruct (PL n x P) as (en & en' & H & _). destruct (set_decl _ _ _ _ _ _ _ _ _ H XS) as (DK' & _). congruence.
  - intros n x t ty c P U. destruct (PL n x P) as (en & en' & H & _). destruct (elab_use _ _ _ _ _ _ _ _ H U) as (b & E).
    inversion E; subst. congruence.
Qed.

Lemma operators_l : forall w src ts tree s l, accepted w src ts tree s l -> no_call_blocks tree -> few_arguments tree ->
  forall n x, paired n x tree l ->
  (forall o a b r c, uses x (XBin o a b r c) -> x_ty a = x_ty b /\ oper_type o (x_ty a) r /\
     (o = BDiv \/ o = BMod -> forall t ty, b <> XConst t (VInt 0) ty)) /\
  (forall o a r c, uses x (XUn o a r c) ->
     match o with
     | UNeg => r = x_ty a /\ is_number r
     | UNot => r = TBool /\ x_ty a = TBool
     | URef => r = TRef (x_ty a) /\ is_ident a = true
     | UDeref => x_ty a = TRef r /\ is_ident a = true
     end) /\
  (forall t v ty, uses x (XConst t v ty) -> literal_value w src t v ty) /\
  (In (n_type n) [N_IF; N_ELIF; N_WHILE] -> exists y, checked_expr x = Some y /\ x_ty y = TBool).
Proof.
  intros w src ts tree s l A NC FA n x P. destruct (place _ _ _ _ _ _ A NC FA) as (D & PL).
  destruct (PL n x P) as (en & en' & H & _). split; [|split; [|split]].
  - intros o a b r c U. destruct (elab_use _ _ _ _ _ _ _ _ H U) as (v & E). inversion E; subst. split; [easy|]. split; [congruence|easy].
  - intros o a r c U. destruct (elab_use _ _ _ _ _ _ _ _ H U) as (v & E). inversion E; subst; auto.
    + split; [easy|]. match goal with E : elab _ _ _ _ (EVar _) _ |- _ => inversion E; reflexivity end.
    + split; [easy|]. match goal with E : elab _ _ _ _ (EVar _) _ |- _ => inversion E; reflexivity end.
  - intros t v ty U. destruct (elab_use _ _ _ _ _ _ _ _ H U) as (a & E). now inversion E; subst.
  - intros T. destruct H; cbn in T; try (rewrite ?H, ?H0 in T; intuition discriminate); try (exists y; auto; fail).
    cbn in H1. intuition congruence.
Qed.

Lemma calls_l : forall w src ts tree s l, accepted w src ts tree s l -> no_call_blocks tree -> few_arguments tree ->
  forall n x t k xs r d y name ret num ext exp ps ks, paired n x tree l -> uses x (XCall t k xs r) ->
  paired d y tree l -> n_pay d = PProto name ret num ext exp ps -> tn_pay y = XProto k ks ->
  List.length xs = List.length ps /\ List.length ks = List.length ps /\
  (forall i a j, nth_error xs i = Some a -> nth_error ks i = Some j ->
     forall m z q ty c, paired m z tree l -> uses z (XVar q j ty c) -> ty = x_ty a) /\
  (ret = [] -> r = TVoid).
Proof.
  intros w src ts tree s l A NC FA n x t k xs r d y name ret num ext exp ps ks P U PD PP XP.
  destruct (place _ _ _ _ _ _ A NC FA) as (D & PL). destruct (PL n x P) as (en & en' & H & _).
  destruct (elab_use _ _ _ _ _ _ _ _ H U) as (v & E). inversion E as [| |name0 args num0 nm0 k0 ps0 r0 xs0 S0 R0 D0 EL TL| | | | |]; subst.
  destruct (PL d y PD) as (ed & ed' & HD & _).
  destruct (proto_decl _ _ _ _ _ _ _ _ _ _ _ _ _ _ _ HD PP XP) as (tys & r' & DK & L1 & L2 & Q & RT).
  rewrite D0 in DK. inversion DK; subst tys r'. rewrite map_length in L1, L2. split; [easy|]. split; [congruence|]. split.
  - intros i a j XI KI m z q ty c PM UM. destruct (PL m z PM) as (em & em' & HM & _). destruct (elab_use _ _ _ _ _ _ _ _ HM UM) as (b & EB).
    inversion EB; subst. assert (TI : nth_error (map x_ty xs) i = Some (x_ty a)) by (rewrite nth_error_map, XI; reflexivity).
    specialize (Q i j _ KI TI). congruence.
  - intros ->. destruct RT as [(_ & RT)|RT]; [easy|inversion RT].
Qed.

Lemma typed_l : forall w src ts tree s l, accepted w src ts tree s l -> no_call_blocks tree -> few_arguments tree ->
  exists D, forall n x y, paired n x tree l -> checked_expr x = Some y ->
  exists e v, node_expr n = Some v /\ elab D w src e v y /\ has_type D src e v (x_ty y) /\
    forall nm k, In (nm, k) e -> (exists d z, visible src n x tree l nm (Some k) d z) \/ exists ty, D k = Some (DType ty).
Proof.
  intros w src ts tree s l A NC FA. destruct (place _ _ _ _ _ _ A NC FA) as (D & PL). exists D. intros n x y P CE.
  destruct (PL n x P) as (en & en' & H & O). exists en. unfold node_expr, checked_expr in *.
  destruct H; cbn [tn_pay] in CE; try discriminate; inversion CE; subst; rewrite ?H0, ?H1; (eexists; split; [reflexivity|];
    split; [eassumption|]; split; [eapply elab_has_type; eassumption|exact O]).
Qed.

Scheme stmt_ok_ind2 := Minimality for stmt_ok Sort Prop
  with block_ok_ind2 := Minimality for block_ok Sort Prop.

Lemma in_tree_nil : forall n, in_tree n [] -> False.
Proof. intros n H. inversion H as [l I|m l I _]; destruct I. Qed.

Lemma block_paired : forall D w src n t, in_tree n t -> forall e xs e', block_ok D w src e t xs e' ->
  exists x, paired n x t xs /\ tn_type x = n_type n /\ tn_token x = n_token n.
Proof.
  intros D w src n t I. induction I as [l I|m l I H IH]; intros e xs e' B.
  - revert e xs B. induction l as [|q l IHl]; intros e xs B; [destruct I|]. inversion B as [|? ? ? y ys e1 ? S1 B1]; subst.
    destruct I as [->|I].
    + exists y. split; [constructor|]. destruct S1; cbn; auto.
    + destruct (IHl I _ _ B1) as (x & P & T). exists x. split; [now apply pa_next|easy].
  - assert (NE : n_child m <> []). { intro X. rewrite X in H. apply in_tree_nil in H. exact H. }
    revert e xs B. induction l as [|q l IHl]; intros e xs B; [destruct I|]. inversion B as [|? ? ? y ys e1 ? S1 B1]; subst.
    destruct I as [->|I].
    + destruct (stmt_below _ _ _ _ _ _ _ S1 NE) as (f1 & f2 & BB & _). destruct (IH _ _ _ BB) as (x & P & T). exists x. split; [now apply pa_below|easy].
    + destruct (IHl I _ _ B1) as (x & P & T). exists x. split; [now apply pa_next|easy].
Qed.

Lemma all_checked_l : forall w src ts tree s l, accepted w src ts tree s l -> no_call_blocks tree -> few_arguments tree ->
  forall n, in_tree n tree -> exists x, paired n x tree l /\ tn_type x = n_type n /\ tn_token x = n_token n.
Proof.
  intros w src ts tree s l A NC FA n I. destruct (well_formed_l _ _ _ _ _ _ A NC FA) as (D & e & B).
  now apply (block_paired D w src n tree I [] l e).
Qed.

(** * Names and types are unique *)

Lemma dot_split : forall (a a' b b' : text), ~ In (chr ".") a -> ~ In (chr ".") a' -> a ++ chr "." :: b = a' ++ chr "." :: b' -> a = a' /\ b = b'.
Proof.
  induction a as [|c a IH]; intros [|c' a'] b b' N1 N2 E; cbn [app] in E.
  - now inversion E.
  - exfalso. inversion E; subst. apply N2. now left.
  - exfalso. inversion E; subst. apply N1. now left.
  - assert (c = c') as -> by congruence. assert (E' : a ++ chr "." :: b = a' ++ chr "." :: b') by congruence.
    apply IH in E' as (-> & ->); auto; intro I; [apply N1|apply N2]; now right.
Qed.

Lemma resolves_one : forall D e n k, resolves D e n k -> forall k', resolves D e n k' -> k = k'.
Proof.
  intros D e n k H. induction H as [n k e ND|m j e n k ND NE H IH|e a j ins b k ND H IH DJ HB IHB]; intros k' H'.
  - inversion H' as [n0 k0 e0 N0|m0 j0 e0 n0 k0 N0 E0 R0|e0 a0 j0 i0 b0 k0 N0 R0 D0 B0]; subst; auto; try contradiction.
    exfalso. apply ND. apply in_app_iff. right. now left.
  - inversion H' as [n0 k0 e0 N0|m0 j0 e0 n0 k0 N0 E0 R0|e0 a0 j0 i0 b0 k0 N0 R0 D0 B0]; subst; auto; try contradiction.
    exfalso. apply ND. apply in_app_iff. right. now left.
  - remember (a ++ chr "." :: b) as nm eqn:EN. destruct H' as [n0 k0 e0 N0|m0 j0 e0 n0 k0 N0 E0 R0|e0 a0 j0 i0 b0 k0 N0 R0 D0 B0].
    + exfalso. apply N0. subst. apply in_app_iff. right. now left.
    + exfalso. apply N0. subst. apply in_app_iff. right. now left.
    + apply dot_split in EN as (-> & ->); auto. apply IH in R0. subst j0. rewrite DJ in D0. inversion D0; subst. now apply IHB.
Qed.

Scheme has_type_ind2 := Minimality for has_type Sort Prop
  with have_types_ind2 := Minimality for have_types Sort Prop.

Lemma oper_one : forall o t r r', oper_type o t r -> oper_type o t r' -> r = r'.
Proof. intros o t r r' H H'. destruct H; inversion H'; subst; auto; cbn [In] in *; intuition congruence. Qed.

Lemma has_type_one : forall D src e a t, has_type D src e a t -> forall t', has_type D src e a t' -> t = t'.
Proof.
  intros D src e. apply (has_type_ind2 D src e (fun a t => forall t', has_type D src e a t' -> t = t')
    (fun l ts => forall ts', have_types D src e l ts' -> ts = ts')).
  - intros t n k ty m SP RS DK t' H. inversion H as [t0 n0 k0 ty0 m0 S0 R0 D0| | | | | | |]; subst. rewrite (spells_one _ _ _ _ S0 SP) in R0.
    rewrite (resolves_one _ _ _ _ R0 _ RS) in D0. congruence.
  - intros t ty L t' H. inversion H as [|t0 ty0 L0| | | | | |]; subst. inversion L; inversion L0; congruence.
  - intros name args num n k ps r SP RS DK _ _ t' H. inversion H as [| |nm0 ar0 num0 n0 k0 ps0 r0 S0 R0 D0 T0| | | | |]; subst.
    rewrite (spells_one _ _ _ _ S0 SP) in R0. rewrite (resolves_one _ _ _ _ R0 _ RS) in D0. congruence.
  - intros a ty _ IH _ t' H. inversion H; subst. now apply IH.
  - intros a _ _ t' H. now inversion H.
  - intros t ty _ IH t' H. inversion H as [| | | | |t0 ty0 H0| |]; subst. f_equal. now apply IH.
  - intros t ty _ IH t' H. inversion H as [| | | | | |t0 ty0 H0|]; subst. apply IH in H0. congruence.
  - intros o a b ty r _ IH _ _ O t' H. inversion H as [| | | | | | |o0 a0 b0 ty0 r0 H1 H2 O0]; subst. apply IH in H1. subst. now apply (oper_one o ty0).
  - intros ts' H. now inversion H.
  - intros a l t ts _ IH _ IHL ts' H. inversion H as [|a0 l0 t0 ts0 H1 H2]; subst. f_equal; [now apply IH|now apply IHL].
Qed.

(** Values of type Void. *)
Lemma void_l : forall w src ts tree s l, accepted w src ts tree s l -> no_call_blocks tree -> few_arguments tree ->
  forall d y k a, paired d y tree l -> tn_pay y = XDef k a -> x_ty a = TVoid ->
  exists t j c, a = XVar t j TVoid c \/ exists c', a = XUn UDeref (XVar t j (TRef TVoid) c) TVoid c'.
Proof.
  intros w src ts tree s l A NC FA d y k a PD X T. destruct (place _ _ _ _ _ _ A NC FA) as (D & PL).
  destruct (PL d y PD) as (ed & ed' & HD & _). destruct HD; cbn [tn_pay] in X; try discriminate. inversion X; subst.
  destruct H2 as [t n0 k0 ty m c SP RS DK|t v ty LV|nm args num n0 k0 ps r xs SP RS DK EL TL|a0 x0 c EL IN|a0 x0 c EL TB|t x0 c EL|t x0 ty c EL TR|o a0 b x0 y0 r c EL1 EL2 TT OT Z]; cbn [x_ty] in T.
  - subst. eauto.
  - destruct LV; discriminate.
  - subst. exfalso. eapply H3; reflexivity.
  - destruct IN; congruence.
  - discriminate.
  - discriminate.
  - subst. inversion EL; subst. cbn [x_ty] in TR. subst. eauto 6.
  - subst. inversion OT; subst; try discriminate; match goal with H : is_number _ |- _ => destruct H; congruence end.
Qed.
