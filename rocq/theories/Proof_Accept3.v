(** Proofs that programs that keep the rules pass the checks: statements and programs. *)
From Coq Require Import List Arith NArith ZArith Bool Lia Ascii String.
From Verif Require Import Base Model_Token Model_Utf8 Model_Classify Model_Literal Model_Parse Model_Sem.
From Verif Require Import Spec_Utf8 Spec_Classify Spec_Parse Spec_Sem Spec_Sem2 Spec_Accept.
From Verif Require Import Proof_Utf8 Proof_Classify Proof_Classify2 Proof_Parse Proof_Parse2 Proof_Parse4 Proof_Parse5 Proof_Sem Proof_Sem2 Proof_Sem3 Proof_Sem4 Proof_Sem6 Proof_Accept Proof_Accept2.
Import ListNotations.
Open Scope list_scope.
Open Scope nat_scope.

(** The state fits the place. *)
Definition func_fits (pl : place) (s : sst) (f : func) : Prop :=
  match p_result pl with
  | None => p_exits pl = true -> f_ret f = TInt \/ f_ret f = TVoid
  | Some r => f_ret f = r /\ s_cur s <> s_main s
  end.
Record at_place (pl : place) (s : sst) : Prop := mkat {
  at_depth : s_depth s = p_loops pl;
  at_bound : (p_loops pl < 2 ^ 32)%N;
  at_func : exists y f, nth_error (s_syms s) (s_cur s) = Some y /\ y_kind y = KFunc f /\ func_fits pl s f;
  at_main : s_main s < List.length (s_syms s);
  at_top : p_top pl = true -> topish s }.

(** What a statement leaves behind. *)
Record moved (P P' : nat -> nat -> Prop) (D : decls) (pl : place) (s s' : sst) (e' : env) : Prop := mkmoved {
  mv_more : forall a b, P a b -> P' a b;
  mv_rel : rel P' D s' e';
  mv_main : s_main s' = s_main s;
  mv_func : exists y f, nth_error (s_syms s') (s_cur s') = Some y /\ y_kind y = KFunc f /\ func_fits pl s' f;
  mv_cur : p_result pl <> None -> s_cur s' = s_cur s /\ s_last s' = s_last s }.

Definition node_total (w : world) (src : text) (n : node) : Prop := forall P D pl b e a e' s,
  legal_stmt D w src pl b e n a e' -> fine [n] -> rel P D s e -> inv s -> ready s -> at_place pl s ->
  exists s' x P', validate_ast_node w src b a n s = Pass s' x /\ moved P P' D pl s s' e'.

Lemma walk_total : forall w src l, Forall (node_total w src) l -> forall P D pl b e e' s,
  legal_block D w src pl b e l e' -> fine l -> rel P D s e -> inv s -> ready s -> at_place pl s ->
  exists s' xs P', walk (validate_ast_node w src) b l s = Pass s' xs /\ moved P P' D pl s s' e'.
Proof.
  intros w src l. induction l as [|n l IH]; intros HF P D pl b e e' s LB F R I RD A.
  - inversion LB; subst. exists s, [], P. split; [reflexivity|]. constructor; auto. apply (at_func _ _ A).
  - inversion LB as [|? ? ? ? ? e1 ? LS LR]; subst. inversion HF as [|? ? F1 F2]; subst. apply fine_cons in F as (FN & FL).
    destruct (F1 P D pl b e l e1 s LS FN R I RD A) as (s1 & x & P1 & H1 & [M1 R1 E1 Q1 C1]).
    destruct (node_ok w src n b l s s1 x FN I RD H1) as (I1 & RD1 & G1 & _).
    pose proof (node_tame w src n b l s s1 x H1) as T1.
    assert (DB : (s_depth s < 2 ^ 32)%N) by (rewrite (at_depth _ _ A); apply (at_bound _ _ A)).
    pose proof (node_depth w src n b l s s1 x H1 DB) as D1.
    assert (A1 : at_place pl s1).
    { constructor; auto.
      - rewrite D1. apply (at_depth _ _ A).
      - apply (at_bound _ _ A).
      - rewrite E1. pose proof (at_main _ _ A). pose proof (tame_length _ _ T1). lia.
      - intro TP. apply (topish_grow s s1 I G1). now apply (at_top _ _ A). }
    destruct (IH F2 P1 D pl (n_type n :: b) e1 e' s1 LR FL R1 I1 RD1 A1) as (s2 & xs & P2 & H2 & [M2 R2 E2 Q2 C2]).
    exists s2, (x :: xs), P2. split; [cbn [walk]; rewrite H1; cbn [sbind]; rewrite H2; reflexivity|]. constructor; auto; [congruence|].
    intro NN. destruct (C1 NN), (C2 NN). split; congruence.
Qed.

(** A block that was entered in some way. *)
Lemma body_total : forall w src l P D pl e1 e2 s s1 s1' i h, Forall (node_total w src) l -> fine l ->
  inv s -> inside s s1 i h -> inv s1' -> ready s1' -> grow s1 s1' -> rel P D s1' e1 -> at_place pl s1' ->
  legal_block D w src pl [] e1 l e2 ->
  exists s2 s3 s4 s5 c P', walk (validate_ast_node w src) [] l s1' = Pass s2 c /\
    reset_scope_head s2 = Ok s3 /\ restore_parent_scope s3 = Ok s4 /\ make_adjacent_scope s4 = Ok s5 /\
    moved P P' D pl s1' s2 e2 /\ steady s2 s5 /\ s_depth s5 = s_depth s2 /\ (exists e n, outside s s2 s5 i h e n) /\ ready s5 /\
    tame s1' s2 /\ s_depth s2 = s_depth s1'.
Proof.
  intros w src l P D pl e1 e2 s s1 s1' i h HF F I IS I1 R1 G1 RL A LB.
  destruct (walk_total w src l HF P D pl [] e1 e2 s1' LB F RL I1 R1 A) as (s2 & c & P' & H2 & M).
  assert (NF : Forall (node_fine w src) l) by (apply Forall_forall; intros n _; apply node_ok).
  destruct (walk_fine w src l NF [] s1' s2 c F I1 R1 H2) as (I2 & R2 & G2 & _).
  assert (G : grow s1 s2) by (apply grow_trans with s1'; auto; apply (in_inv _ _ _ _ IS)).
  destruct (leave_total s s1 s2 i h I IS I2 G) as (s3 & s4 & s5 & H3 & H4 & H5).
  destruct (leave_ok s s1 s2 s3 s4 s5 i h I IS I2 G H3 H4 H5) as (e & n & O).
  assert (DB : (s_depth s1' < 2 ^ 32)%N) by (rewrite (at_depth _ _ A); apply (at_bound _ _ A)).
  exists s2, s3, s4, s5, c, P'. split; [exact H2|]. split; [exact H3|]. split; [exact H4|]. split; [exact H5|]. split; [exact M|].
  split; [|split; [|split; [eauto|split; [|split]]]].
  - apply steady_trans with s3; [now apply reset_steady|]. apply steady_trans with s4; [now apply restore_steady|now apply adjacent_steady].
  - rewrite (adjacent_depth _ _ H5), (restore_depth _ _ H4), (reset_depth _ _ H3). reflexivity.
  - intros k y f E. rewrite (os_syms _ _ _ _ _ _ _ O) in E. now apply (R2 k).
  - now apply (walk_tame w src l [] s1' s2 c).
  - now apply (tree_depth w src l [] s1' s2 c).
Qed.

(** Behind a block the names of before are in scope. *)
Lemma rel_outside : forall P P' D s s2 s5 i h e n en e2, rel P D s en -> rel P' D s2 e2 -> (forall a b, P a b -> P' a b) ->
  outside s s2 s5 i h e n -> rel P' D s5 en.
Proof.
  intros P P' D s s2 s5 i h e n en e2 R [A B DM U N V] M O. constructor; auto.
  - rewrite (os_cenv _ _ _ _ _ _ _ O). apply (envrel_more P); auto. apply (rl_env _ _ _ _ R).
  - intros a b d PA HD. rewrite (os_sig _ _ _ _ _ _ _ O). now apply (B a b).
  - rewrite (os_syms _ _ _ _ _ _ _ O). exact DM.
  - apply (rl_names _ _ _ _ R).
  - rewrite (os_syms _ _ _ _ _ _ _ O). exact V.
Qed.

Lemma rel_inside : forall P D s s1 i h e, inv s -> inside s s1 i h -> rel P D s e -> rel P D s1 e.
Proof.
  intros P D s s1 i h e I IS [A B DM U N V]. constructor; auto.
  - now rewrite (proj2 (inside_env _ _ _ _ I IS)).
  - intros a b d PA HB. rewrite (inside_sig _ _ _ _ I IS). now apply (B a b).
  - rewrite (in_syms _ _ _ _ IS). exact DM.
  - rewrite (in_syms _ _ _ _ IS). exact V.
Qed.

(** The place is looked at through the current function and the depth only. *)
Lemma func_fits_move : forall pl pl' s s' f f', p_result pl' = p_result pl -> p_exits pl' = p_exits pl -> f_ret f' = f_ret f ->
  s_cur s' = s_cur s -> s_main s' = s_main s -> func_fits pl s f -> func_fits pl' s' f'.
Proof. intros pl pl' s s' f f' E1 E2 E3 E4 E5. unfold func_fits. now rewrite E1, E2, E3, E4, E5. Qed.

Lemma steady_func : forall pl pl' s s', p_result pl' = p_result pl -> p_exits pl' = p_exits pl -> steady s s' ->
  (exists y f, nth_error (s_syms s) (s_cur s) = Some y /\ y_kind y = KFunc f /\ func_fits pl s f) ->
  exists y f, nth_error (s_syms s') (s_cur s') = Some y /\ y_kind y = KFunc f /\ func_fits pl' s' f.
Proof.
  intros pl pl' s s' E1 E2 [T F] (y & f & E & K & Q). unfold fstate in F. assert (EM : s_main s' = s_main s) by congruence.
  assert (EC : s_cur s' = s_cur s) by congruence. destruct (tame_func _ _ _ _ _ T E K) as (y' & f' & E' & K' & RE & _).
  exists y', f'. rewrite EC. split; [exact E'|]. split; [exact K'|]. now apply (func_fits_move pl pl' s s' f f').
Qed.

Lemma at_steady : forall pl pl' s s', at_place pl s -> steady s s' -> p_result pl' = p_result pl -> p_exits pl' = p_exits pl ->
  s_depth s' = p_loops pl' -> (p_loops pl' < 2 ^ 32)%N -> p_top pl' = false -> at_place pl' s'.
Proof.
  intros pl pl' s s' A ST E1 E2 ED EB ET. constructor; auto.
  - apply (steady_func pl pl' s s' E1 E2 ST). apply (at_func _ _ A).
  - pose proof (at_main _ _ A). pose proof (tame_length _ _ (sd_tame _ _ ST)). pose proof (sd_state _ _ ST) as F. unfold fstate in F.
    assert (s_main s' = s_main s) by congruence. lia.
  - rewrite ET. discriminate.
Qed.

Lemma block_total : forall w src l P D pl pl' e e2 s, Forall (node_total w src) l -> fine l -> inv s -> ready s -> rel P D s e ->
  at_place pl s -> p_result pl' = p_result pl -> p_exits pl' = p_exits pl -> p_loops pl' = p_loops pl -> p_top pl' = false ->
  legal_block D w src pl' [] e l e2 ->
  exists s5 c P', setup_and_validate (walk (validate_ast_node w src) [] l) s = Pass s5 c /\ moved P P' D pl s s5 e /\ s_depth s5 = s_depth s /\
    tame s s5 /\ exists s2 i h q n, outside s s2 s5 i h q n /\ rel P' D s2 e2.
Proof.
  intros w src l P D pl pl' e e2 s HF F I RD R A E1 E2 E3 E4 LB.
  destruct (enter_total s I) as (s1 & H1). destruct (enter_ok s s1 I H1) as (i & h & IS). pose proof (in_inv _ _ _ _ IS) as I1.
  pose proof (child_steady _ _ H1) as ST1. pose proof (child_depth _ _ H1) as DE1.
  assert (RD1 : ready s1). { intros k y f E. rewrite (in_syms _ _ _ _ IS) in E. now apply (RD k). }
  assert (A1 : at_place pl' s1).
  { apply (at_steady pl pl' s s1); auto; [rewrite DE1, E3; apply (at_depth _ _ A)|rewrite E3; apply (at_bound _ _ A)]. }
  destruct (body_total w src l P D pl' e e2 s s1 s1 i h HF F I IS I1 RD1 (grow_refl s1 I1) (rel_inside _ _ _ _ _ _ _ I IS R) A1 LB)
    as (s2 & s3 & s4 & s5 & c & P' & H2 & H3 & H4 & H5 & [M1 R2 EM Q2 C2] & ST5 & DE5 & (q & n & O) & RD5 & T2 & DE2).
  exists s5, c, P'. split; [|split; [|split; [|split]]].
  - unfold setup_and_validate. rewrite H1. cbn [rbind]. rewrite H2. cbn [sbind]. rewrite H3. cbn [rbind]. rewrite H4. cbn [rbind]. rewrite H5. reflexivity.
  - pose proof (sd_state _ _ ST1) as F1. pose proof (sd_state _ _ ST5) as F5. unfold fstate in F1, F5. constructor; auto.
    + apply (rel_outside P P' D s s2 s5 i h q n e e2 R R2 M1 O).
    + congruence.
    + apply (steady_func pl' pl s2 s5); auto.
    + intro NN. rewrite <- E1 in NN. destruct (C2 NN). split; congruence.
  - congruence.
  - apply tame_trans with s1; [apply (sd_tame _ _ ST1)|]. apply tame_trans with s2; [exact T2|apply (sd_tame _ _ ST5)].
  - exists s2, i, h, q, n. split; [exact O|exact R2].
Qed.

(** * What follows a jump *)

Lemma nothing_sane : forall a s, nothing_after a -> match a with [] => Pass s tt | n :: _ => assert_sane_child n s end = Pass s tt.
Proof.
  intros [|n a] s H; [reflexivity|]. inversion H as [|? ? (_ & C) _]; subst. unfold assert_sane_child. now rewrite C.
Qed.

Lemma nothing_dead : forall a s, nothing_after a -> no_dead_code_below a s = Pass s tt.
Proof.
  induction a as [|n a IH]; intros s H; [reflexivity|]. inversion H as [|? ? (ID & _) HA]; subst. cbn [no_dead_code_below].
  destruct ID as [-> |[-> | ->]]; now apply IH.
Qed.

Lemma follows_has : forall b, follows_if b -> has_if_before b = true.
Proof. intros b H. induction H; auto. Qed.

Lemma legal_terminal : forall D w src pl b e n a e', legal_stmt D w src pl b e n a e' -> n_type n = N_RETURN \/ n_type n = N_UNREACHABLE ->
  nothing_after a /\ (n_type n = N_RETURN -> p_result pl = Some TVoid -> n_pay n = PNone).
Proof.
  intros D w src pl b e n a e' H T. destruct H; try (exfalso; intuition congruence); split; auto; intros; try congruence.
Qed.

Lemma legal_split : forall D w src pl a n c b e e', legal_block D w src pl b e (a ++ n :: c) e' -> n_type n = N_RETURN \/ n_type n = N_UNREACHABLE ->
  nothing_after c /\ (n_type n = N_RETURN -> p_result pl = Some TVoid -> n_pay n = PNone).
Proof.
  intros D w src pl a. induction a as [|m a IH]; intros n c b e e' H T; cbn [app] in H; inversion H as [|? ? ? ? ? e1 ? LS LR]; subst.
  - now apply (legal_terminal D w src pl b e n c e1).
  - now apply (IH n c (n_type m :: b) e1 e').
Qed.

Lemma first_terminal : forall a n c, n_type n = N_RETURN ->
  (forall x m y, a ++ n :: c = x ++ m :: y -> n_type m = N_RETURN \/ n_type m = N_UNREACHABLE -> nothing_after y) ->
  terminal_node (a ++ n :: c) = Some n.
Proof.
  induction a as [|z a IH]; intros n c T H; cbn [app terminal_node]; [now rewrite T|].
  assert (NZ : ~ (n_type z = N_RETURN \/ n_type z = N_UNREACHABLE)).
  { intro TZ. pose proof (H [] z (a ++ n :: c) eq_refl TZ) as NA. unfold nothing_after in NA. rewrite Forall_forall in NA.
    destruct (NA n) as (IDN & _); [apply in_or_app; right; now left|]. rewrite T in IDN. destruct IDN as [X|[X|X]]; discriminate. }
  rewrite IH; auto.
  - destruct (n_type z); auto; exfalso; apply NZ; auto.
  - intros x m y EQ TM. apply (H (z :: x) m y); [cbn; now rewrite EQ|exact TM].
Qed.

Lemma returned_total : forall D w src pl r b e l e', legal_block D w src pl b e l e' -> p_result pl = Some r ->
  (r <> TVoid -> ends_with_value l) -> returned_value l = negb (ty_eqb r TVoid).
Proof.
  intros D w src pl r b e l e' LB PR EV. unfold returned_value. destruct (ty_eqb r TVoid) eqn:E; cbn [negb].
  - apply ty_eqb_eq in E. subst r. destruct (terminal_node l) as [m|] eqn:TN; [|reflexivity].
    apply terminal_split in TN as (a & c & -> & T). destruct (legal_split D w src pl a m c b e e' LB T) as (_ & NV).
    destruct T as [T|T]; rewrite T; [|reflexivity]. now rewrite (NV T PR).
  - assert (NE : r <> TVoid) by (intros ->; discriminate). destruct (EV NE) as (a & n & v & c & -> & TN & PN & _).
    rewrite (first_terminal a n c TN); [now rewrite TN, PN|]. intros x m y EQ T. rewrite EQ in LB.
    now apply (legal_split D w src pl x m y b e e').
Qed.

(** * Statements *)

Lemma stay : forall P D pl s s' e, rel P D s' e -> steady s s' -> at_place pl s -> moved P P D pl s s' e.
Proof.
  intros P D pl s s' e R ST A. pose proof (sd_state _ _ ST) as F. unfold fstate in F. constructor; auto.
  - congruence.
  - apply (steady_func pl pl s s'); auto. apply (at_func _ _ A).
  - intros _. split; congruence.
Qed.

Lemma bool_total : forall w x s, w_werror w = false -> x_ty x = TBool -> exists s', validate_bool_expr w x s = Pass s' tt.
Proof.
  intros w x s W T. unfold validate_bool_expr. rewrite T. cbn [ty_eqb negb]. unfold warn. rewrite W. destruct x as [ |t v ty| | | ]; eauto.
  destruct v; eauto.
Qed.

Lemma condition_total : forall P D w src en v y s, w_werror w = false -> elab D w src en v y -> counts v -> in_range w src v -> x_ty y = TBool ->
  rel P D s en -> inv s -> ready s -> exists s' x, validate_condition w src s v = Pass s' x.
Proof.
  intros P D w src en v y s W E C RG T R I RD. destruct (expr_total P D w src en v y E C RG s R I RD) as (s1 & x & H & (A & _)).
  destruct (bool_total w x s1 W) as (s2 & H2); [congruence|]. exists s2, x. unfold validate_condition. rewrite H. cbn [sbind]. rewrite H2. reflexivity.
Qed.

Lemma void_total : forall P y x v s d, akin P y x -> (forall f l m, v = ECall f l m -> x_ty y <> TVoid) ->
  (forall f l m t, y = XCall f l m t -> exists a b, v = ECall f a b) -> is_void_func_assign d x s = Pass s tt.
Proof.
  intros P y x v s d (T & H) NV SH. unfold is_void_func_assign. destruct x as [ | |name k l ty| | ]; try reflexivity.
  destruct y as [t k0 ty0 c|t v0 ty0|name0 k0 l0 ty0|o r ty0 c|o l0 r ty0 c].
  - destruct H as (? & ? & X & _). discriminate.
  - discriminate.
  - destruct H as (? & ? & X). inversion X; subst. destruct (SH _ _ _ _ eq_refl) as (a & b & ->). pose proof (NV _ _ _ eq_refl) as NE. cbn in NE.
    destruct ty0; try reflexivity. congruence.
  - destruct H as (? & ? & X). discriminate.
  - destruct H as (? & ? & ? & X). discriminate.
Qed.

Lemma elab_call : forall D w src e v y, elab D w src e v y -> forall f l m t, y = XCall f l m t -> exists a b, v = ECall f a b.
Proof. intros D w src e v y H f l m t ->. inversion H; subst. eauto. Qed.

Lemma return_total : forall P D w src en v y s tok a pl, elab D w src en v y -> counts v -> in_range w src v -> nothing_after a ->
  rel P D s en -> inv s -> ready s -> at_place pl s ->
  match p_result pl with Some r => x_ty y = r | None => p_exits pl = true /\ x_ty y = TInt end ->
  exists s' x, validate_stmt_return w src s tok (Some v) a = Pass s' (XExpr x).
Proof.
  intros P D w src en v y s tok a pl E C RG NA R I RD A T. destruct (expr_total P D w src en v y E C RG s R I RD) as (s1 & x & H & (TX & _)).
  unfold validate_stmt_return. rewrite (nothing_sane a s NA). cbn [sbind]. rewrite H. cbn [sbind].
  pose proof (expr_calm _ _ _ _ _ _ H) as CM. destruct (steady_func pl pl s s1 eq_refl eq_refl (calm_steady _ _ CM) (at_func _ _ A)) as (z & f & EZ & KZ & FF).
  assert (V : is_valid_return_expr x s1 = Pass s1 tt).
  { unfold is_valid_return_expr, current_func, deref. rewrite EZ. cbn [bind]. rewrite KZ, TX. unfold func_fits in FF. destruct (p_result pl) as [r|].
    - destruct FF as (FR & NM). destruct (Nat.eqb_spec (s_cur s1) (s_main s1)); [contradiction|]. cbn [andb rbind]. rewrite T, FR, ty_eqb_refl, andb_false_r. reflexivity.
    - destruct T as (PE & T). rewrite T. cbn [ty_eqb negb]. rewrite andb_false_r. cbn [rbind]. destruct (FF PE) as [-> | ->]; reflexivity. }
  rewrite V. cbn [sbind]. rewrite (nothing_dead a s1 NA). cbn [sbind]. eauto.
Qed.

Lemma node_counts : forall n e, fine [n] -> node_expr n = Some e -> counts e.
Proof. intros n e F. destruct (F n (it_here n [n] (or_introl eq_refl))) as (_ & _ & CT). apply CT. Qed.

Lemma def_total : forall P D w src e n name rest v implicit const exported y x b q r s, w_werror w = false ->
  n_token_end n = q :: r -> no_type_at D src e r -> elab D w src e v y -> counts v -> in_range w src v ->
  (forall f l m, v = ECall f l m -> x_ty y <> TVoid) -> (implicit = false -> type_at D src e rest (x_ty y)) ->
  spells src name x -> new_name e x -> D b = Some (DVar (x_ty y) (negb const)) ->
  rel P D s e -> inv s -> ready s ->
  exists s' p, validate_stmt_var_def w src s (n_token n) (n_token_end n) (name :: rest) v implicit const exported = Pass s' p /\
    rel (plus P (List.length (s_syms s)) b) D s' ((x, b) :: e).
Proof.
  intros P D w src e n name rest v implicit const exported y x b q r s W TE NT E C RG NV TY SP NN HD R I RD.
  unfold validate_stmt_var_def. rewrite TE. rewrite (no_type_total P D s e src r R I NT). cbn [rbind].
  destruct (expr_total P D w src e v y E C RG s R I RD) as (s1 & z & H1 & AK). rewrite H1. cbn [sbind]. pose proof (expr_calm _ _ _ _ _ _ H1) as CM.
  pose proof (calm_rel _ _ _ _ _ CM R) as R1. pose proof (calm_inv _ _ CM I) as I1. pose proof AK as (TX & _).
  unfold node_to_var. rewrite (void_total P y z v s1 _ AK NV (elab_call _ _ _ _ _ _ E)). cbn [sbind].
  assert (DT : declared_type src s1 (name :: rest) z implicit = Pass s1 (x_ty y)).
  { unfold declared_type. destruct implicit; [now rewrite TX|]. cbn [tl]. rewrite (type_total P D s1 e src rest (x_ty y) R1 I1 (TY eq_refl)). reflexivity. }
  rewrite DT. cbn [sbind]. rewrite (spells_variable src name x _ _ _ _ _ SP (proj1 NN)). cbn [rbind].
  set (v0 := mkvar (x_ty y) const false false implicit exported false None).
  destruct (new_absent P D s1 e x R1 NN) as (A1 & A2 & A3).
  destruct (add_total s1 (mksym x (t_loc name) (KVar v0)) I1 A1 A2 A3) as (s2 & k & HA & AD). rewrite HA. cbn [sbind]. cbv zeta.
  pose proof (ad_k _ _ _ _ AD) as EK. pose proof (added_length _ _ _ _ AD) as LN. pose proof (ad_syms _ _ _ _ AD) as ES.
  destruct (added_all s1 s2 k _ I1 AD) as (I2 & G2 & C2 & Y2 & _); [cbn; discriminate|]. cbn [y_name] in *.
  set (vd := mark_defined (x_cexpr z) v0). set (s3 := set_kind s2 k (KVar vd)).
  assert (CP : is_expr_compatible_with_var z vd s3 = Pass s3 tt).
  { unfold is_expr_compatible_with_var. cbn [vd mark_defined v_type v0]. now rewrite TX, ty_eqb_refl. }
  rewrite CP. cbn [sbind].
  assert (FIN : exists s', (if is_const_lit z && negb implicit then let+ (s, _) := warn w (S_WARN_TRIVIAL_TYPE (v_type vd)) None s3 in Pass s (XDef k z) else Pass s3 (XDef k z)) = Pass s' (XDef k z) /\ calm s3 s').
  { destruct (is_const_lit z && negb implicit); [|exists s3; split; [reflexivity|apply calm_refl]].
    unfold warn. rewrite W. cbn [sbind]. eexists. split; [reflexivity|]. apply calm_say. }
  destruct FIN as (s' & FIN & CF). rewrite FIN. exists s', (XDef k z). split; [reflexivity|].
  assert (R3 : rel (plus P k b) D s3 ((x, b) :: e)).
  { apply (rel_new P D s1 s3 e k b x R1); auto.
    - intros j d HJ. unfold s3. assert (j <> k). { intros ->. unfold sig in HJ. rewrite EK in HJ. rewrite (proj2 (nth_error_None _ _) (le_n _)) in HJ. discriminate. }
      rewrite sig_set_kind by auto. now apply (gr_sig _ _ G2).
    - unfold s3. cbn. rewrite upd_length. lia.
    - intros j yy vv EY KY. unfold s3 in EY. cbn in EY. apply upd_inv in EY as (y0 & EY & [(NE & ->)|(-> & ->)]).
      + rewrite ES in EY. apply app_nth_inv in EY as [EY|(X & _)]; [now apply (rl_vars _ _ _ _ R1 j y0)|congruence].
      + cbn in KY. inversion KY. reflexivity.
    - now apply name_not_nil, NN.
    - intros d HB. rewrite HD in HB. inversion HB; subst d. cbn [says]. unfold s3. rewrite (sig_at _ _ _ (nth_set_kind s2 k _ _ Y2)). reflexivity. }
  rewrite <- (cm_len _ _ CM), <- EK. now apply (calm_rel _ _ _ _ _ CF).
Qed.
