(** Proofs about the semantic checks: unused names. *)
From Coq Require Import List Arith NArith ZArith Bool Lia Ascii String.
From Verif Require Import Base Model_Token Model_Utf8 Model_Classify Model_Literal Model_Parse Model_Sem.
From Verif Require Import Spec_Utf8 Spec_Parse Spec_Sem Spec_Sem2 Proof_Parse2 Proof_Parse5 Proof_Sem Proof_Sem4 Proof_Sem5 Proof_Sem7.
Import ListNotations.
Open Scope list_scope.
Open Scope nat_scope.

Lemma tnode_ind' : forall P : tnode -> Prop, (forall ty tok p c, Forall P c -> P (mktnode ty tok p c)) -> forall x, P x.
Proof. intros P H. fix IH 1. intros [ty tok p c]. apply H. induction c as [|y c IHc]; constructor; auto. Qed.

(** * The check of the whole tree *)

(** Nodes that the check for unused names visits. *)
Inductive visited (x : tnode) : list tnode -> Prop :=
| vs_here : forall l, In x l -> visited x l
| vs_below : forall y l, In y l -> tn_type y <> N_VAR_DEF -> tn_type y <> N_FUNCTION_PROTO -> visited x (tn_child y) -> visited x l.

Definition noted (ys : list symbol) (x : tnode) (m : smsg) : Prop :=
  match tn_type x, tn_pay x with
  | N_VAR_DEF, XDef k _ => exists y v, nth_error ys k = Some y /\ y_kind y = KVar v /\
      (m = mksmsg (S_WARN_VAR_UNUSED (y_name y)) (Some (y_loc y)) /\ v_read v = false /\ v_exported v = false \/
       m = mksmsg (S_WARN_VAR_NOT_CONST (y_name y)) (Some (y_loc y)) /\ v_const v = false /\ v_reassigned v = false)
  | N_FUNCTION_PROTO, XProto k _ => exists y f, nth_error ys k = Some y /\ y_kind y = KFunc f /\
      m = mksmsg (S_WARN_FUNC_UNUSED (y_name y)) (Some (y_loc y)) /\ f_called f = false
  | _, _ => False
  end.

(** The messages, and when the flag is set. *)
Record outcome (w : world) (ys : list symbol) (l : list tnode) (st st' : list smsg * bool) : Prop := mkoutcome {
  oc_msgs : exists new, fst st' = new ++ fst st /\ forall m, In m new <-> exists x, visited x l /\ noted ys x m;
  oc_flag : snd st' = true -> snd st = true \/ w_werror w = true /\ exists x m, visited x l /\ noted ys x m }.

Lemma outcome_nil : forall w ys st, outcome w ys [] st st.
Proof.
  intros w ys st. constructor; [|now left]. exists []. split; [reflexivity|]. intro m. split; [intros []|]. intros (x & V & _).
  inversion V; contradiction.
Qed.
Lemma visited_cons : forall x y l, visited x (y :: l) <-> visited x [y] \/ visited x l.
Proof.
  intros x y l. split.
  - intro V. inversion V as [? I|z ? I T1 T2 V']; subst.
    + destruct I as [->|I]; [left; apply vs_here; now left|right; now apply vs_here].
    + destruct I as [->|I]; [left; apply vs_below with z; auto; now left|right; now apply vs_below with z].
  - intros [V|V]; inversion V as [? I|z ? I T1 T2 V']; subst.
    + destruct I as [->|[]]. apply vs_here. now left.
    + destruct I as [->|[]]. apply vs_below with z; auto. now left.
    + apply vs_here. now right.
    + apply vs_below with z; auto. now right.
Qed.
Lemma outcome_cons : forall w ys x l st st1 st2, outcome w ys [x] st st1 -> outcome w ys l st1 st2 -> outcome w ys (x :: l) st st2.
Proof.
  intros w ys x l st st1 st2 [(n1 & E1 & M1) F1] [(n2 & E2 & M2) F2]. constructor.
  - exists (n2 ++ n1). split; [rewrite E2, E1; apply app_assoc|]. intro m. rewrite in_app_iff, M1, M2. split.
    + intros [(z & V & N)|(z & V & N)]; exists z; (split; [|exact N]); apply visited_cons; auto.
    + intros (z & V & N). apply visited_cons in V as [V|V]; [right|left]; eauto.
  - intro H. destruct (F2 H) as [H1|(W & z & m & V & N)].
    + destruct (F1 H1) as [H0|(W & z & m & V & N)]; [now left|]. right. split; [exact W|]. exists z, m. split; [|exact N]. apply visited_cons. now left.
    + right. split; [exact W|]. exists z, m. split; [|exact N]. apply visited_cons. now right.
Qed.

Lemma loop_outcome : forall w ys l, Forall (fun x => forall st st', unused_node w ys x st = Ok st' -> outcome w ys [x] st st') l ->
  forall st st', unused_loop (unused_node w ys) l st = Ok st' -> outcome w ys l st st'.
Proof.
  intros w ys l F. induction F as [|x l Fx Fl IH]; intros st st' H; cbn [unused_loop] in H.
  - inversion H; subst. apply outcome_nil.
  - apply bind_ok in H as (st1 & H1 & H). apply outcome_cons with st1; [now apply Fx|now apply IH].
Qed.

Lemma visited_single : forall x y, visited x [y] <-> x = y \/ tn_type y <> N_VAR_DEF /\ tn_type y <> N_FUNCTION_PROTO /\ visited x (tn_child y).
Proof.
  intros x y. split.
  - intro V. inversion V as [? I|z ? I T1 T2 V']; subst.
    + destruct I as [->|[]]. now left.
    + destruct I as [->|[]]. now right.
  - intros [->|(T1 & T2 & V)]; [apply vs_here; now left|apply vs_below with y; auto; now left].
Qed.

Lemma node_outcome : forall w ys x st st', unused_node w ys x st = Ok st' -> outcome w ys [x] st st'.
Proof.
  intros w ys x. induction x as [ty tok p c F] using tnode_ind'. intros st st' H. cbn [unused_node] in H.
  assert (QUIET : ty <> N_VAR_DEF -> ty <> N_FUNCTION_PROTO -> c = [] -> outcome w ys [mktnode ty tok p c] st st).
  { intros T1 T2 ->. constructor; [|now left]. exists []. split; [reflexivity|]. intro m. split; [intros []|]. intros (x & V & N).
    apply visited_single in V as [->|(_ & _ & V)]; [|cbn in V; inversion V; contradiction].
    unfold noted in N. cbn [tn_type tn_pay] in N. destruct ty; try contradiction. }
  assert (BLOCK : ty <> N_VAR_DEF -> ty <> N_FUNCTION_PROTO ->
    match c with [] => Ok st | _ :: _ => do st' <- unused_loop (unused_node w ys) c (fst st, false); Ok (fst st', snd st && negb (snd st')) end = Ok st' ->
    outcome w ys [mktnode ty tok p c] st st').
  { intros T1 T2 HB. destruct c as [|y c]; [inversion HB; subst; now apply QUIET|]. apply bind_ok in HB as (st1 & H1 & HB). inversion HB; subst. clear HB.
    apply (loop_outcome _ _ _ F) in H1 as [(new & E & M) FL]. cbn [fst snd] in *. constructor.
    - exists new. split; [exact E|]. intro m. rewrite M. split.
      + intros (x & V & N). exists x. split; [|exact N]. apply visited_single. right. auto.
      + intros (x & V & N). apply visited_single in V as [->|(_ & _ & V)]; [|eauto]. unfold noted in N. cbn [tn_type tn_pay] in N. destruct ty; contradiction.
    - cbn [fst snd]. intro B. apply andb_true_iff in B as (B & _). now left. }
  destruct ty; try (now apply BLOCK); clear BLOCK QUIET.
  - destruct p as [| |k e|k e|k ks|e|k]; try (inversion H; subst st'; constructor; [|now left]; exists []; (split; [reflexivity|]); intro m; (split; [intros []|]);
      intros (x & V & N); apply visited_single in V as [->|(T1 & _)]; [unfold noted in N; cbn in N; contradiction|now cbn in T1]).
    apply bind_ok in H as (y & HY & H). apply deref_ok in HY. unfold unused_def in H. destruct (y_kind y) as [v| | |] eqn:K; try discriminate.
    inversion H; subst st'. clear H. unfold warn_if.
    set (b1 := negb (v_const v) && negb (v_reassigned v)). set (b2 := negb (v_read v) && negb (v_exported v)).
    assert (B1 : b1 = true <-> v_const v = false /\ v_reassigned v = false).
    { unfold b1. rewrite andb_true_iff, !negb_true_iff. tauto. }
    assert (B2 : b2 = true <-> v_read v = false /\ v_exported v = false).
    { unfold b2. rewrite andb_true_iff, !negb_true_iff. tauto. }
    assert (NT : forall m x, visited x [mktnode N_VAR_DEF tok (XDef k e) c] -> noted ys x m ->
      m = mksmsg (S_WARN_VAR_UNUSED (y_name y)) (Some (y_loc y)) /\ b2 = true \/ m = mksmsg (S_WARN_VAR_NOT_CONST (y_name y)) (Some (y_loc y)) /\ b1 = true).
    { intros m x V N. apply visited_single in V as [->|(T1 & _)]; [|now cbn in T1]. unfold noted in N. cbn in N.
      destruct N as (y' & v' & E' & K' & N). assert (y' = y) by congruence. subst y'. assert (v' = v) by congruence. subst v'.
      rewrite B1, B2. tauto. }
    assert (TN : forall m, m = mksmsg (S_WARN_VAR_UNUSED (y_name y)) (Some (y_loc y)) /\ b2 = true \/ m = mksmsg (S_WARN_VAR_NOT_CONST (y_name y)) (Some (y_loc y)) /\ b1 = true ->
      exists x, visited x [mktnode N_VAR_DEF tok (XDef k e) c] /\ noted ys x m).
    { intros m N. exists (mktnode N_VAR_DEF tok (XDef k e) c). split; [apply vs_here; now left|]. unfold noted. cbn. exists y, v. rewrite B1, B2 in N. tauto. }
    clearbody b1 b2. clear B1 B2.
    constructor.
    + exists ((if b2 then [mksmsg (S_WARN_VAR_UNUSED (y_name y)) (Some (y_loc y))] else []) ++ (if b1 then [mksmsg (S_WARN_VAR_NOT_CONST (y_name y)) (Some (y_loc y))] else [])).
      split; [destruct b1, b2; reflexivity|]. intro m. split.
      * intro I. apply TN. apply in_app_iff in I as [I|I]; [destruct b2|destruct b1]; cbn in I; try contradiction; destruct I as [<-|[]]; auto.
      * intros (x & V & N). apply (NT m x V) in N. apply in_app_iff. destruct N as [(-> & ->)|(-> & ->)]; [left|right]; now left.
    + intro S. destruct b1, b2; cbn in S; try (left; exact S);
      (destruct (w_werror w) eqn:W; [right; split; [reflexivity|]|left; rewrite ?orb_false_r in S; exact S]).
      * destruct (TN (mksmsg (S_WARN_VAR_UNUSED (y_name y)) (Some (y_loc y)))) as (x & V & N); auto. eauto.
      * destruct (TN (mksmsg (S_WARN_VAR_NOT_CONST (y_name y)) (Some (y_loc y)))) as (x & V & N); auto. eauto.
      * destruct (TN (mksmsg (S_WARN_VAR_UNUSED (y_name y)) (Some (y_loc y)))) as (x & V & N); auto. eauto.
  - destruct p as [| |k e|k e|k ks|e|k]; try discriminate H.
    apply bind_ok in H as (y & HY & H). apply deref_ok in HY. unfold unused_func in H. destruct (y_kind y) as [|f| |] eqn:K; try discriminate.
    inversion H; subst st'. clear H. unfold warn_if.
    assert (NT : forall m x, visited x [mktnode N_FUNCTION_PROTO tok (XProto k ks) c] -> noted ys x m -> m = mksmsg (S_WARN_FUNC_UNUSED (y_name y)) (Some (y_loc y)) /\ f_called f = false).
    { intros m x V N. apply visited_single in V as [->|(_ & T1 & _)]; [|now cbn in T1]. unfold noted in N. cbn in N.
      destruct N as (y' & v' & E' & K' & N). assert (y' = y) by congruence. subst y'. assert (v' = f) by congruence. now subst v'. }
    assert (TN : forall m, m = mksmsg (S_WARN_FUNC_UNUSED (y_name y)) (Some (y_loc y)) /\ f_called f = false -> exists x, visited x [mktnode N_FUNCTION_PROTO tok (XProto k ks) c] /\ noted ys x m).
    { intros m N. exists (mktnode N_FUNCTION_PROTO tok (XProto k ks) c). split; [apply vs_here; now left|]. unfold noted. cbn. exists y, f. auto. }
    constructor.
    + exists (if negb (f_called f) then [mksmsg (S_WARN_FUNC_UNUSED (y_name y)) (Some (y_loc y))] else []). split; [destruct (f_called f); reflexivity|]. intro m. split.
      * intro I. apply TN. destruct (f_called f); cbn in I; [contradiction|]. destruct I as [<-|[]]. auto.
      * intros (x & V & N). apply (NT m x V) in N as (-> & ->). now left.
    + intro S. destruct (f_called f) eqn:C; cbn in S; [now left|]. destruct (w_werror w) eqn:W; [|left; now rewrite orb_false_r in S].
      right. split; [reflexivity|]. destruct (TN (mksmsg (S_WARN_FUNC_UNUSED (y_name y)) (Some (y_loc y)))) as (x & V & N); auto. eauto.
Qed.

Lemma tree_outcome : forall w ys l st st', unused_loop (unused_node w ys) l st = Ok st' -> outcome w ys l st st'.
Proof. intros w ys l. apply loop_outcome. apply Forall_forall. intros x _. apply node_outcome. Qed.

(** With warnings as errors a flag is only cleared by a block with names that are not used. *)
Lemma flag_stays : forall w ys x st st', unused_node w ys x st = Ok st' -> snd st = true -> snd st' = false ->
  tn_type x <> N_FUNCTION_PROTO /\ tn_type x <> N_VAR_DEF /\ exists z m, visited z (tn_child x) /\ noted ys z m.
Proof.
  intros w ys [ty tok p c] st st' H S S'. cbn [unused_node] in H.
  assert (BLOCK : match c with [] => Ok st | _ :: _ => do st' <- unused_loop (unused_node w ys) c (fst st, false); Ok (fst st', snd st && negb (snd st')) end = Ok st' ->
    exists z m, visited z c /\ noted ys z m).
  { intro HB. destruct c as [|y c]; [inversion HB; subst; congruence|]. apply bind_ok in HB as (st1 & H1 & HB). inversion HB; subst. cbn in S'.
    rewrite S in S'. cbn in S'. apply negb_false_iff in S'. apply tree_outcome in H1. apply (oc_flag _ _ _ _ _ H1) in S' as [S'|(_ & S')]; [discriminate S'|exact S']. }
  destruct ty; try (split; [discriminate|]; split; [discriminate|]; now apply BLOCK); exfalso; clear BLOCK.
  - destruct p as [| |k e|k e|k ks|e|k]; try (inversion H; subst; congruence).
    apply bind_ok in H as (y & HY & H). unfold unused_def in H. destruct (y_kind y) as [v| | |] eqn:K; try discriminate.
    inversion H; subst st'. unfold warn_if in S'. destruct (negb (v_const v) && negb (v_reassigned v)), (negb (v_read v) && negb (v_exported v)); cbn in S'; rewrite ?S in S'; discriminate S'.
  - destruct p as [| |k e|k e|k ks|e|k]; try discriminate H.
    apply bind_ok in H as (y & HY & H). unfold unused_func in H. destruct (y_kind y) as [|f| |] eqn:K; try discriminate.
    inversion H; subst st'. unfold warn_if in S'. destruct (negb (f_called f)); cbn in S'; rewrite ?S in S'; discriminate S'.
Qed.

Lemma noted_sets : forall w ys x st st', unused_node w ys x st = Ok st' -> w_werror w = true -> forall m, noted ys x m -> snd st' = true.
Proof.
  intros w ys [ty tok p c] st st' H W m N. unfold noted in N. cbn [tn_type tn_pay] in N. cbn [unused_node] in H.
  destruct ty; try contradiction; destruct p as [| |k e|k e|k ks|e|k]; try contradiction.
  - destruct N as (y & v & E & K & N). unfold deref in H. rewrite E in H. cbn [bind] in H. unfold unused_def in H. rewrite K in H.
    inversion H; subst st'. unfold warn_if. rewrite W. destruct N as [(_ & -> & ->)|(_ & -> & ->)].
    + destruct (negb (v_const v) && negb (v_reassigned v)); cbn; apply orb_true_r.
    + destruct (negb (v_read v) && negb (v_exported v)); cbn; rewrite ?orb_true_r; reflexivity.
  - destruct N as (y & f & E & K & _ & N). unfold deref in H. rewrite E in H. cbn [bind] in H. unfold unused_func in H. rewrite K in H.
    inversion H; subst st'. unfold warn_if. rewrite W, N. cbn. apply orb_true_r.
Qed.

Lemma flag_end : forall w ys l st st', unused_loop (unused_node w ys) l st = Ok st' -> snd st' = false -> snd st = true ->
  exists y, In y l /\ tn_type y <> N_FUNCTION_PROTO /\ tn_type y <> N_VAR_DEF /\ exists z m, visited z (tn_child y) /\ noted ys z m.
Proof.
  intros w ys l. induction l as [|x l IH]; intros st st' H S' S; cbn [unused_loop] in H; [inversion H; subst; congruence|].
  apply bind_ok in H as (st1 & H1 & H). destruct (snd st1) eqn:S1.
  - destruct (IH _ _ H S' S1) as (y & I & Q). exists y. split; [now right|exact Q].
  - exists x. split; [now left|]. now apply (flag_stays _ _ _ _ _ H1).
Qed.

Lemma flag_cleared : forall w ys a x b st st', unused_loop (unused_node w ys) (a ++ x :: b) st = Ok st' -> snd st' = false ->
  w_werror w = true -> forall m, noted ys x m ->
  exists y, In y b /\ tn_type y <> N_FUNCTION_PROTO /\ tn_type y <> N_VAR_DEF /\ exists z m, visited z (tn_child y) /\ noted ys z m.
Proof.
  intros w ys a. induction a as [|q a IH]; intros x b st st' H S W m N; cbn [app unused_loop] in H; apply bind_ok in H as (st1 & H1 & H).
  - apply (flag_end _ _ _ _ _ H S). now apply (noted_sets _ _ _ _ _ H1 W m).
  - now apply (IH x b st1 st' H S W m).
Qed.

(** * The checked tree has the shape of the tree *)

Inductive alike : list node -> list tnode -> Prop :=
| al_nil : alike [] []
| al_cons : forall n x l xs, tn_type x = n_type n -> (n_type n = N_VAR_DEF -> tn_child x = []) ->
    alike (n_child n) (tn_child x) -> alike l xs -> alike (n :: l) (x :: xs).

Definition node_alike (w : world) (src : text) (n : node) : Prop := forall before after s s' x,
  no_call_blocks [n] -> validate_ast_node w src before after n s = Pass s' x -> alike [n] [x].

Lemma no_call_blocks_cons : forall n l, no_call_blocks (n :: l) -> no_call_blocks [n] /\ no_call_blocks l /\ no_call_blocks (n_child n).
Proof.
  intros n l NC. split; [|split]; intros m I T; apply NC; auto.
  - inversion I as [? J|q ? J K]; subst; destruct J as [->|[]]; [apply it_here; now left|apply it_below with q; [now left|exact K]].
  - inversion I as [? J|q ? J K]; subst; [apply it_here; now right|apply it_below with q; [now right|exact K]].
  - apply it_below with n; [now left|exact I].
Qed.

Lemma walk_alike : forall w src l, Forall (node_alike w src) l -> no_call_blocks l -> forall before s s' xs,
  walk (validate_ast_node w src) before l s = Pass s' xs -> alike l xs.
Proof.
  intros w src l F. induction F as [|n l Fn Fl IH]; intros NC before s s' xs H.
  - cbn in H. inversion H; subst. constructor.
  - apply walk_cons in H as (s1 & x & r & H1 & H2 & ->). apply no_call_blocks_cons in NC as (NC1 & NC2 & _).
    apply (Fn _ _ _ _ _ NC1) in H1. inversion H1; subst. constructor; auto. now apply (IH NC2 _ _ _ _ H2).
Qed.

Lemma nodes_alike : forall w src n, node_alike w src n.
Proof.
  intros w src n. induction n as [n IH] using node_ind'. intros before after s s' x NC H.
  apply node_ran in H as (SC & p & c & -> & R). pose proof (no_call_blocks_cons _ _ NC) as (_ & _ & NCC).
  pose proof (walk_alike w src _ IH NCC) as W. pose proof (NC n) as NE.
  assert (LEAF : n_child n = [] -> alike [n] [mktnode (n_type n) (n_token n) p []]).
  { intro E. constructor; cbn [tn_type tn_child]; auto; [rewrite E|]; constructor. }
  assert (NODE : forall c, n_type n <> N_VAR_DEF -> alike (n_child n) c -> alike [n] [mktnode (n_type n) (n_token n) p c]).
  { intros d T A. constructor; cbn [tn_type tn_child]; auto; [contradiction|constructor]. }
  assert (NOT : may_have_child n = false -> n_child n = []). { intro E. destruct SC as [SC|SC]; [exact SC|]. rewrite E in SC. discriminate SC. }
  unfold may_have_child in NOT.
  destruct R as [e s' p T P H|T F|T D F|name ret num ext exp ps s' p c T P H|name e i c x s' p T P H|e s' p T P H
    |f a m s' x T P H|e s1 x s' c T P NE' H1 H|s' c T B NE' H|e s1 x s2 c T P NE' H1 H|s' k c T H|T].
  - apply LEAF, NOT. now rewrite T.
  - apply LEAF, NOT. now rewrite T.
  - apply LEAF, NOT. now destruct T as [-> | ->].
  - apply NODE; [rewrite T; discriminate|]. unfold validate_stmt_func_decl in H. cbv zeta in H.
    apply sbind_pass in H as (s1 & (k, l) & H1 & H). apply sbind_pass in H as (s2 & c2 & H2 & H).
    apply sbind_pass in H as (s3 & q & H3 & H). inversion H; subst. apply setup_hist in H2 as (s4 & s5 & H4 & _). now apply W in H4.
  - apply LEAF, NOT. now rewrite T.
  - apply LEAF, NOT. now rewrite T.
  - rewrite NE; [|apply it_here; now left|exact T]. apply LEAF. apply NE; [apply it_here; now left|exact T].
  - apply NODE; [destruct T as [T|[T _]]; rewrite T; discriminate|]. apply setup_hist in H as (s4 & s5 & H4 & _). now apply W in H4.
  - apply NODE; [rewrite T; discriminate|]. apply setup_hist in H as (s4 & s5 & H4 & _). now apply W in H4.
  - apply NODE; [rewrite T; discriminate|]. apply setup_hist in H as (s4 & s5 & H4 & _). now apply W in H4.
  - apply NODE; [rewrite T; discriminate|]. unfold validate_control_namespace in H. destruct (n_token n) as [|q [|t r]]; try discriminate.
    apply rbind_pass in H as (nm & _ & H). apply sbind_pass in H as (s1 & k1 & H1 & H).
    apply sbind_pass in H as (s2 & c2 & H2 & H). destruct (s_scope s2); [|discriminate]. apply rbind_pass in H as (here & _ & H).
    destruct (c_last here); [|discriminate]. apply rbind_pass in H as (bef & _ & H). apply rbind_pass in H as (ins & HI & H). inversion H; subst.
    apply setup_hist in H2 as (s4 & s5 & H4 & _). now apply W in H4.
  - apply LEAF, NOT. cbn in T. destruct T as [T|[T|[T|[T|[]]]]]; now rewrite <- T.
Qed.

Lemma main_visited : forall n x l xs, in_main n x l xs -> alike l xs -> visited x xs.
Proof.
  intros n x l xs H. induction H as [l xs|m y l xs H IH|m y l xs T H IH]; intro A; inversion A as [|? ? ? ? T1 V A1 A2]; subst.
  - apply vs_here. now left.
  - apply visited_cons. right. now apply IH.
  - apply vs_below with y; [now left| | |now apply IH].
    + intro E. rewrite T1 in E. rewrite (V E) in H. inversion H.
    + congruence.
Qed.
Lemma visited_main : forall x xs, visited x xs -> forall l, alike l xs -> exists n, in_main n x l xs.
Proof.
  intros x xs V. induction V as [xs I|y xs I T1 T2 V IH]; intros l A.
  - revert l A. induction xs as [|z xs IH]; intros l A; [contradiction|]. inversion A as [|n ? k ? T3 V A1 A2]; subst. destruct I as [->|I].
    + exists n. constructor.
    + destruct (IH I k A2) as (q & Q). exists q. now apply im_next.
  - revert l A. induction xs as [|z xs IHx]; intros l A; [contradiction|]. inversion A as [|n ? k ? T3 V' A1 A2]; subst. destruct I as [->|I].
    + destruct (IH _ A1) as (q & Q). exists q. apply im_below; [congruence|exact Q].
    + destruct (IHx I k A2) as (q & Q). exists q. now apply im_next.
Qed.
Lemma main_paired : forall n x l xs, in_main n x l xs -> paired n x l xs.
Proof. intros n x l xs H. induction H as [l xs|m y l xs H IH|m y l xs T H IH]; [constructor|now apply pa_next|now apply pa_below]. Qed.
Lemma paired_type : forall n x l xs, paired n x l xs -> alike l xs -> tn_type x = n_type n.
Proof. intros n x l xs H. induction H as [l xs|m y l xs H IH|m y l xs H IH]; intro A; inversion A; subst; auto. Qed.
Lemma paired_checked : forall n x l xs, paired n x l xs -> in_checked x xs.
Proof.
  intros n x l xs H. induction H as [l xs|m y l xs H IH|m y l xs H IH].
  - apply ic_here. now left.
  - inversion IH as [? J|q ? J K]; subst; [apply ic_here; now right|apply ic_below with q; [now right|exact K]].
  - apply ic_below with y; [now left|exact IH].
Qed.

(** * Marks and uses *)

Lemma all_in : forall f k l, In k (flat_map (all f) l) <-> exists x, in_checked x l /\ In k (f x).
Proof.
  intros f k l. split.
  - assert (Q : forall y, In k (all f y) -> exists x, (x = y \/ in_checked x (tn_child y)) /\ In k (f x)).
    { induction y as [ty tok p c F] using tnode_ind'. intro H. cbn [all] in H. apply in_app_iff in H as [H|H]; [eauto|].
      apply in_flat_map in H as (z & I & H). rewrite Forall_forall in F. destruct (F z I H) as (x & [->|C] & HX).
      - exists z. split; [right; now apply ic_here|exact HX].
      - exists x. split; [right; now apply ic_below with z|exact HX]. }
    intro H. apply in_flat_map in H as (y & I & H). destruct (Q y H) as (x & [->|C] & HX).
    + exists y. split; [now apply ic_here|exact HX].
    + exists x. split; [now apply ic_below with y|exact HX].
  - intros (x & C & H). induction C as [l I|y l I C IH]; apply in_flat_map.
    + exists x. split; [exact I|]. destruct x. cbn [all]. apply in_app_iff. now left.
    + exists y. split; [exact I|]. destruct y. cbn [all]. apply in_app_iff. now right.
Qed.

Lemma texpr_ind' : forall P : texpr -> Prop,
  (forall t k ty c, P (XVar t k ty c)) -> (forall a b c, P (XConst a b c)) -> (forall t k args ty, Forall P args -> P (XCall t k args ty)) ->
  (forall o a ty c, P a -> P (XUn o a ty c)) -> (forall o a b ty c, P a -> P b -> P (XBin o a b ty c)) -> forall e, P e.
Proof.
  intros P A B C D E. fix IH 1. intros [t k ty c|a b c|t k args ty|o a ty c|o a b ty c].
  - apply A.
  - apply B.
  - apply C. induction args as [|y args IHa]; constructor; auto.
  - apply D, IH.
  - apply E; apply IH.
Qed.

Lemma reads_part : forall k e, In k (reads e) <-> exists t ty c, xpart (XVar t k ty c) e.
Proof.
  intros k e. split.
  - induction e as [t j ty c|a b c|t j args ty F|o a ty c IH|o a b ty c IHa IHb] using texpr_ind'; cbn [reads]; intro H.
    + destruct H as [->|[]]. exists t, ty, c. constructor.
    + destruct H.
    + apply in_flat_map in H as (a & I & H). rewrite Forall_forall in F. destruct (F a I H) as (t' & ty' & c' & X). exists t', ty', c'. now apply xp_arg with a.
    + destruct (IH H) as (t' & ty' & c' & X). exists t', ty', c'. now apply xp_un.
    + apply in_app_iff in H as [H|H]; [destruct (IHa H) as (t' & ty' & c' & X)|destruct (IHb H) as (t' & ty' & c' & X)]; exists t', ty', c'; [now apply xp_left|now apply xp_right].
  - intros (t & ty & c & X). remember (XVar t k ty c) as v eqn:E. induction X as [e|x nm j args ty' a I X IH|x o a ty' c' X IH|x o a b ty' c' X IH|x o a b ty' c' X IH]; subst; cbn [reads].
    + now left.
    + apply in_flat_map. exists a. auto.
    + auto.
    + apply in_app_iff. auto.
    + apply in_app_iff. auto.
Qed.
Lemma calls_part : forall k e, In k (calls e) <-> exists t args ty, xpart (XCall t k args ty) e.
Proof.
  intros k e. split.
  - induction e as [t j ty c|a b c|t j args ty F|o a ty c IH|o a b ty c IHa IHb] using texpr_ind'; cbn [calls]; intro H.
    + destruct H.
    + destruct H.
    + destruct H as [->|H]; [exists t, args, ty; constructor|].
      apply in_flat_map in H as (a & I & H). rewrite Forall_forall in F. destruct (F a I H) as (t' & ty' & c' & X). exists t', ty', c'. now apply xp_arg with a.
    + destruct (IH H) as (t' & ty' & c' & X). exists t', ty', c'. now apply xp_un.
    + apply in_app_iff in H as [H|H]; [destruct (IHa H) as (t' & ty' & c' & X)|destruct (IHb H) as (t' & ty' & c' & X)]; exists t', ty', c'; [now apply xp_left|now apply xp_right].
  - intros (t & ars & ty & X). remember (XCall t k ars ty) as v eqn:E. induction X as [e|x nm j args ty' a I X IH|x o a ty' c' X IH|x o a b ty' c' X IH|x o a b ty' c' X IH]; subst; cbn [calls].
    + now left.
    + right. apply in_flat_map. exists a. auto.
    + auto.
    + apply in_app_iff. auto.
    + apply in_app_iff. auto.
Qed.

Lemma is_read_in : forall k l, is_read k l <-> In k (flat_map (all reads_here) l).
Proof.
  intros k l. rewrite all_in. split.
  - intros (x & t & ty & c & C & e & E & X). exists x. split; [exact C|]. unfold checked_expr in E. unfold reads_here.
    destruct (tn_pay x); inversion E; subst; apply reads_part; eauto.
  - intros (x & C & H). unfold reads_here in H. destruct (tn_pay x) eqn:P; try contradiction; apply reads_part in H as (t & ty & c & X);
      exists x, t, ty, c; (split; [exact C|]); eexists; (split; [unfold checked_expr; rewrite P; reflexivity|exact X]).
Qed.
Lemma is_called_in : forall k l, is_called k l <-> In k (flat_map (all calls_here) l).
Proof.
  intros k l. rewrite all_in. split.
  - intros (x & t & ty & c & C & e & E & X). exists x. split; [exact C|]. unfold checked_expr in E. unfold calls_here.
    destruct (tn_pay x); inversion E; subst; apply calls_part; eauto.
  - intros (x & C & H). unfold calls_here in H. destruct (tn_pay x) eqn:P; try contradiction; apply calls_part in H as (t & ty & c & X);
      exists x, t, ty, c; (split; [exact C|]); eexists; (split; [unfold checked_expr; rewrite P; reflexivity|exact X]).
Qed.
Lemma is_assigned_in : forall k l, is_assigned k l <-> In k (flat_map (all sets_here) l).
Proof.
  intros k l. rewrite all_in. split.
  - intros (x & y & C & E). exists x. split; [exact C|]. unfold sets_here. rewrite E. now left.
  - intros (x & C & H). unfold sets_here in H. destruct (tn_pay x) eqn:P; try contradiction. destruct H as [->|[]]. exists x, e. auto.
Qed.

(** * Every declaration has its own number *)

Lemma nodup_flat : forall (f : tnode -> list nat) k a b l, NoDup (flat_map f l) -> In a l -> In b l -> In k (f a) -> In k (f b) -> a = b.
Proof.
  intros f k a b l. induction l as [|z l IH]; intros ND IA IB KA KB; [contradiction|]. cbn [flat_map] in ND.
  assert (D : In k (f z) -> In k (flat_map f l) -> False).
  { intros P Q. clear - ND P Q. induction (f z) as [|j r IHr]; [contradiction|]. cbn in ND. inversion ND as [|? ? X Y]; subst. destruct P as [->|P]; [|auto].
    apply X. apply in_app_iff. now right. }
  assert (ND' : NoDup (flat_map f l)). { clear - ND. induction (f z) as [|j r IHr]; [exact ND|]. cbn in ND. inversion ND; auto. }
  destruct IA as [->|IA], IB as [->|IB]; auto.
  - exfalso. apply D; [exact KA|]. apply in_flat_map. eauto.
  - exfalso. apply D; [exact KB|]. apply in_flat_map. eauto.
Qed.
Lemma nodup_parts : forall (a b : list nat), NoDup (a ++ b) -> NoDup b /\ forall k, In k a -> In k b -> False.
Proof.
  induction a as [|x a IH]; intros b H; cbn in H; [split; [exact H|intros k []]|]. inversion H as [|? ? X Y]; subst. apply IH in Y as (Y & Z).
  split; [exact Y|]. intros k [->|I] J; [apply X; apply in_app_iff; now right|eauto].
Qed.
Lemma nodup_one : forall f y l, NoDup (flat_map (all f) l) -> In y l -> NoDup (all f y).
Proof.
  intros f y l. induction l as [|z l IH]; intros ND I; [contradiction|]. cbn [flat_map] in ND. destruct I as [->|I].
  - clear - ND. induction (all f y) as [|j r IHr]; [constructor|]. cbn in ND. inversion ND as [|? ? X Y]; subst. constructor; auto. intro Q. apply X. apply in_app_iff. now left.
  - apply nodup_parts in ND as (ND & _). auto.
Qed.

Lemma unique_number : forall f k x y l, NoDup (flat_map (all f) l) -> in_checked x l -> in_checked y l -> In k (f x) -> In k (f y) -> x = y.
Proof.
  intros f k x y l ND CX. revert ND. induction CX as [l IX|z l IZ CX IH]; intros ND CY KX KY.
  - assert (AX : In k (all f x)). { destruct x. cbn [all]. apply in_app_iff. now left. }
    destruct CY as [l IY|q l IQ CY].
    + apply (nodup_flat (all f) k _ _ _ ND IX IY AX). destruct y. cbn [all]. apply in_app_iff. now left.
    + assert (AQ : In k (flat_map (all f) (tn_child q))). { apply all_in. eauto. }
      assert (E : x = q). { apply (nodup_flat (all f) k _ _ _ ND IX IQ AX). destruct q. cbn [all]. apply in_app_iff. now right. }
      subst q. exfalso. apply (nodup_one _ _ _ ND) in IX. destruct x. cbn [all] in IX. apply nodup_parts in IX as (_ & D). exact (D k KX AQ).
  - assert (AZ : In k (flat_map (all f) (tn_child z))). { apply all_in. eauto. }
    assert (AZ' : In k (all f z)). { destruct z. cbn [all]. apply in_app_iff. now right. }
    destruct CY as [l IY|q l IQ CY].
    + assert (E : y = z). { apply (nodup_flat (all f) k _ _ _ ND IY IZ); [|exact AZ']. destruct y. cbn [all]. apply in_app_iff. now left. }
      subst z. exfalso. apply (nodup_one _ _ _ ND) in IZ. destruct y. cbn [all] in IZ. apply nodup_parts in IZ as (_ & D). exact (D k KY AZ).
    + assert (AQ : In k (flat_map (all f) (tn_child q))). { apply all_in. eauto. }
      assert (E : z = q). { apply (nodup_flat (all f) k _ _ _ ND IZ IQ AZ'). destruct q. cbn [all]. apply in_app_iff. now right. }
      subst q. apply IH; auto. apply (nodup_one _ _ _ ND) in IZ. destruct z. cbn [all] in IZ. now apply nodup_parts in IZ as (IZ & _).
Qed.

(** * Accepted programs *)

Lemma start_rd : forall k, rd setup_semantic_state k = false.
Proof. intros [|[|k]]; reflexivity. Qed.
Lemma start_wr : forall k, wr setup_semantic_state k = false.
Proof. intros [|[|k]]; reflexivity. Qed.
Lemma start_cl : forall k, cl setup_semantic_state k = false.
Proof. intros [|[|k]]; reflexivity. Qed.

Record finished (w : world) (src : text) (s1 s : sst) (tree : list node) (l : list tnode) : Prop := mkfinished {
  fi_hist : hists setup_semantic_state s1 l;
  fi_stated : forall n x, paired n x tree l -> stated src s1 n x;
  fi_alike : no_call_blocks tree -> alike tree l;
  fi_quiet : w_quiet w = true -> s_msgs s = s_msgs s1;
  fi_loud : w_quiet w = false -> exists st, unused_loop (unused_node w (s_syms s1)) l (s_msgs s1, false) = Ok st /\ snd st = false /\ s_msgs s = fst st }.

Lemma accepted_finished : forall w src ts tree s l, accepted w src ts tree s l -> exists s1, finished w src s1 s tree l.
Proof.
  intros w src ts tree s l (_ & H). unfold validate_ast_tree in H. apply sbind_pass in H as (s1 & l1 & H1 & H).
  apply rbind_pass in H as (s2 & H2 & H). apply sbind_pass in H as (s3 & q & H3 & H). inversion H; subst. exists s1.
  assert (E : s_syms s2 = s_syms s1 /\ s_msgs s2 = s_msgs s1).
  { unfold reset_scope_head in H2. clear - H2. repeat match type of H2 with
      | bind _ _ = Ok _ => apply bind_ok in H2 as (? & _ & H2)
      | match ?x with _ => _ end = Ok _ => destruct x; try discriminate H2
      | Ok _ = Ok _ => inversion H2; subst; auto
      end. }
  destruct E as (E1 & E2).
  pose proof (walk_hist w src tree) as W. destruct (W (proj2 (Forall_forall _ _) (fun n _ => nodes_hist w src n)) _ _ _ _ H1) as (A & B).
  constructor; auto.
  - intro NC. apply (walk_alike w src tree (proj2 (Forall_forall _ _) (fun n _ => nodes_alike w src n)) NC _ _ _ _ H1).
  - intro Q. unfold check_unused_symbols in H3. rewrite Q in H3. inversion H3; subst. exact E2.
  - intro Q. unfold check_unused_symbols in H3. rewrite Q, E1, E2 in H3. destruct (unused_loop _ l _) as [st|] eqn:U; [|discriminate H3].
    exists st. split; [reflexivity|]. cbn [rbind] in H3. destruct (snd st) eqn:S; [discriminate H3|]. inversion H3; subst. auto.
Qed.

Lemma numbers_l : forall w src ts tree s l, accepted w src ts tree s l -> NoDup (flat_map numbers l).
Proof.
  intros w src ts tree s l A. apply accepted_finished in A as (s1 & F). pose proof (hs_nodup _ _ _ _ _ _ _ (fi_hist _ _ _ _ _ _ F)) as ND.
  replace (flat_map numbers l) with (flat_map (all numbers_here) l); [exact ND|]. clear. induction l as [|x l IH]; cbn; [reflexivity|]. now rewrite IH, all_numbers.
Qed.

Lemma noted_deserves : forall w src s1 s tree l, finished w src s1 s tree l -> no_call_blocks tree -> forall n x, paired n x tree l ->
  forall m, noted (s_syms s1) x m <-> deserves src l n x m.
Proof.
  intros w src s1 s tree l F NC n x P m. pose proof (fi_stated _ _ _ _ _ _ F _ _ P) as ST. pose proof (fi_hist _ _ _ _ _ _ F) as H.
  pose proof (paired_type _ _ _ _ P (fi_alike _ _ _ _ _ _ F NC)) as TT. pose proof (paired_checked _ _ _ _ P) as CX.
  unfold stated in ST. unfold noted. destruct (tn_pay x) as [| |k e|k e|k ks|e|k] eqn:PX;
    try (split; [intro N; destruct (tn_type x); contradiction|intro D; inversion D; congruence]).
  - destruct ST as (y & v & t & r & v0 & i & PN & TN & E & (L & SP) & K). rewrite TT, TN.
    assert (NP : ~ In k (flat_map (all params_here) l)).
    { intro I. apply all_in in I as (z & CZ & I). unfold params_here in I. destruct (tn_pay z) as [| |k' e'|k' e'|k' ks'|e'|k'] eqn:PZ; try contradiction.
      assert (X : x = z). { apply (unique_number numbers_here k x z l); auto; [exact (hs_nodup _ _ _ _ _ _ _ H)| |]; unfold numbers_here; [rewrite PX; now left|rewrite PZ; now right]. }
      subst z. congruence. }
    assert (R : v_read v = true <-> is_read k l).
    { rewrite is_read_in. pose proof (hs_rd _ _ _ _ _ _ _ H k NP) as Q. rewrite start_rd in Q. unfold rd in Q. rewrite E, K in Q. rewrite Q. split; [intros [X|X]; [discriminate X|exact X]|auto]. }
    assert (A : v_reassigned v = true <-> is_assigned k l).
    { rewrite is_assigned_in. pose proof (hs_wr _ _ _ _ _ _ _ H k NP) as Q. rewrite start_wr in Q. unfold wr in Q. rewrite E, K in Q. rewrite Q. split; [intros [X|X]; [discriminate X|exact X]|auto]. }
    split.
    + intros (y' & v' & E' & K' & N). assert (y' = y) by congruence. subst y'. assert (v' = v) by congruence. subst v'.
      destruct N as [(-> & V1 & V2)|(-> & V1 & V2)]; rewrite L.
      * rewrite V2 in PN. apply (ds_unused src l n x t (y_name y) r v0 i (v_const v) k e PN PX). rewrite <- R. congruence. exact SP.
      * rewrite V1 in PN. apply (ds_constant src l n x t (y_name y) r v0 i (v_exported v) k e PN PX). rewrite <- A. congruence. exact SP.
    + intro D. exists y, v. split; [exact E|]. split; [exact K|]. rewrite L.
      destruct D as [t' nm r' v' i' c' k' e' PN' PX' U SP'|t' nm r' v' i' c' k' e' PN' PX' U SP'|t' nm r' nu ex ep ps' k' ks' PN' PX' U SP']; [| |congruence];
        (assert (k' = k) by congruence; subst k'; assert (t' = t) by congruence; subst t'; pose proof (spells_one _ _ _ _ SP SP'); subst nm).
      * left. split; [reflexivity|]. split; [|congruence]. rewrite <- R in U. now destruct (v_read v).
      * right. split; [reflexivity|]. split; [congruence|]. rewrite <- A in U. now destruct (v_reassigned v).
  - destruct ST as (y & f & t & ret & num & ext & exp & ps & PN & TN & E & (L & SP) & K). rewrite TT, TN.
    assert (C : f_called f = true <-> is_called k l).
    { rewrite is_called_in. pose proof (hs_cl _ _ _ _ _ _ _ H k) as Q. rewrite start_cl in Q. unfold cl in Q. rewrite E, K in Q. rewrite Q. split; [intros [X|X]; [discriminate X|exact X]|auto]. }
    split.
    + intros (y' & f' & E' & K' & -> & V). assert (y' = y) by congruence. subst y'. assert (f' = f) by congruence. subst f'. rewrite L.
      apply (ds_uncalled src l n x t (y_name y) ret num ext exp ps k ks PN PX). rewrite <- C. congruence. exact SP.
    + intro D. exists y, f. split; [exact E|]. split; [exact K|]. rewrite L.
      destruct D as [t' nm r' v' i' c' k' e' PN' PX' U SP'|t' nm r' v' i' c' k' e' PN' PX' U SP'|t' nm r' nu ex ep ps' k' ks' PN' PX' U SP']; [congruence|congruence|].
      assert (k' = k) by congruence. subst k'. assert (t' = t) by congruence. subst t'. pose proof (spells_one _ _ _ _ SP SP'). subst nm. split; [reflexivity|]. rewrite <- C in U. now destruct (f_called f).
Qed.

Lemma reported_l : forall w src ts tree s l, accepted w src ts tree s l -> no_call_blocks tree -> w_quiet w = false ->
  forall n x m, in_main n x tree l -> deserves src l n x m -> In m (s_msgs s).
Proof.
  intros w src ts tree s l A NC Q n x m I D. apply accepted_finished in A as (s1 & F). destruct (fi_loud _ _ _ _ _ _ F Q) as (st & U & _ & ->).
  apply tree_outcome in U. destruct (oc_msgs _ _ _ _ _ U) as (new & -> & M). apply in_app_iff. left. apply M. exists x.
  split; [apply (main_visited n _ tree); auto; now apply (fi_alike _ _ _ _ _ _ F)|]. apply (noted_deserves _ _ _ _ _ _ F NC n x); auto. now apply main_paired.
Qed.

Lemma only_l : forall w src ts tree s l, accepted w src ts tree s l -> no_call_blocks tree ->
  forall m, In m (s_msgs s) -> unused_code (sm_code m) ->
  w_quiet w = false /\ exists n x, in_main n x tree l /\ deserves src l n x m.
Proof.
  intros w src ts tree s l A NC m I C. apply accepted_finished in A as (s1 & F).
  assert (E1 : ~ In m (s_msgs s1)).
  { destruct (hs_msgs _ _ _ _ _ _ _ (fi_hist _ _ _ _ _ _ F)) as (new & E & FE). intro J. rewrite E in J. cbn [s_msgs setup_semantic_state] in J. rewrite app_nil_r in J.
    rewrite Forall_forall in FE. apply FE in J. now apply J. }
  destruct (w_quiet w) eqn:Q; [rewrite (fi_quiet _ _ _ _ _ _ F Q) in I; contradiction|]. split; [reflexivity|].
  destruct (fi_loud _ _ _ _ _ _ F Q) as (st & U & _ & E). rewrite E in I. apply tree_outcome in U. destruct (oc_msgs _ _ _ _ _ U) as (new & E2 & M). rewrite E2 in I.
  apply in_app_iff in I as [I|I]; [|contradiction]. apply M in I as (x & V & N). destruct (visited_main _ _ V tree) as (n & IM); [now apply (fi_alike _ _ _ _ _ _ F)|].
  exists n, x. split; [exact IM|]. apply (noted_deserves _ _ _ _ _ _ F NC n x); auto. now apply main_paired.
Qed.

Lemma alike_split : forall a' x b' tree, alike tree (a' ++ x :: b') -> exists a n b, tree = a ++ n :: b /\ List.length a = List.length a' /\ alike b b' /\ alike [n] [x].
Proof.
  induction a' as [|y a' IH]; intros x b' tree A; cbn in A; inversion A as [|n ? l ? T V A1 A2]; subst.
  - exists [], n, l. repeat split; auto. repeat constructor; auto.
  - destruct (IH x b' l A2) as (a & q & b & -> & E & B1 & B2). exists (n :: a), q, b. cbn. rewrite E. auto.
Qed.
Lemma alike_in : forall y b' b, In y b' -> alike b b' -> exists n, In (n, y) (combine b b') /\ tn_type y = n_type n /\ alike (n_child n) (tn_child y).
Proof.
  intros y b'. induction b' as [|z b' IH]; intros b I A; [contradiction|]. inversion A as [|n ? l ? T V A1 A2]; subst. destruct I as [->|I].
  - exists n. split; [now left|]. auto.
  - destruct (IH l I A2) as (q & IQ & Q). exists q. split; [now right|exact Q].
Qed.
Lemma combine_paired : forall n y l xs, In (n, y) (combine l xs) -> forall m z, paired m z (n_child n) (tn_child y) -> paired m z l xs.
Proof.
  intros n y l. induction l as [|q l IH]; intros [|x xs] I m z P; try contradiction. cbn [combine] in I. destruct I as [I|I].
  - inversion I; subst. now apply pa_below.
  - apply pa_next. now apply IH.
Qed.
Lemma paired_app : forall a a' m z b b', List.length a = List.length a' -> paired m z b b' -> paired m z (a ++ b) (a' ++ b').
Proof. induction a as [|q a IH]; intros [|y a'] m z b b' L P; try discriminate L; cbn; [exact P|]. apply pa_next. apply IH; [now inversion L|exact P]. Qed.

Lemma alike_length : forall l xs, alike l xs -> List.length l = List.length xs.
Proof. intros l xs A. induction A; cbn; auto. Qed.

Lemma werror_l : forall w src ts tree s l, accepted w src ts tree s l -> no_call_blocks tree -> w_quiet w = false -> w_werror w = true ->
  forall a n b a' x b', tree = a ++ n :: b -> l = a' ++ x :: b' -> List.length a = List.length a' -> forall m, deserves src l n x m ->
  exists q y, In (q, y) (combine b b') /\ n_type q <> N_FUNCTION_PROTO /\
  exists n2 x2 m2, in_main n2 x2 (n_child q) (tn_child y) /\ deserves src l n2 x2 m2.
Proof.
  intros w src ts tree s l A NC Q W a n b a' x b' ET EL LE m D. apply accepted_finished in A as (s1 & F). destruct (fi_loud _ _ _ _ _ _ F Q) as (st & U & SF & _).
  pose proof (fi_alike _ _ _ _ _ _ F NC) as AL. rewrite ET, EL in AL.
  assert (AB : alike b b').
  { clear - AL LE. revert a' LE AL. induction a as [|q a IH]; intros [|y a'] LE AL; try discriminate LE; cbn in AL; inversion AL; subst; auto.
    apply (IH a'); auto. }
  assert (PN : paired n x tree l). { rewrite ET, EL. apply paired_app; [exact LE|constructor]. }
  apply (noted_deserves _ _ _ _ _ _ F NC n x PN) in D. rewrite EL in U. destruct (flag_cleared _ _ _ _ _ _ _ U SF W m D) as (y & IY & T1 & T2 & z & m2 & V & N).
  destruct (alike_in y b' b IY AB) as (q & IQ & TQ & AQ). exists q, y. split; [exact IQ|]. split; [congruence|].
  destruct (visited_main _ _ V _ AQ) as (n2 & IM). exists n2, z, m2. split; [exact IM|]. apply (noted_deserves _ _ _ _ _ _ F NC n2 z); auto.
  rewrite ET, EL. apply paired_app; [exact LE|]. apply pa_next. apply (combine_paired q y); auto. now apply main_paired.
Qed.
