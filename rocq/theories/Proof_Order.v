(** Declarations stand before their uses. *)
From Coq Require Import List Arith NArith ZArith Bool Lia Ascii String.
From Verif Require Import Base Model_Token Model_Utf8 Model_Classify Model_Literal Model_Parse Model_Sem.
From Verif Require Import Spec_Utf8 Spec_Parse Spec_Sem Spec_Sem2 Proof_Parse2 Proof_Parse5 Proof_Sem Proof_Sem4 Proof_Sem7.
Import ListNotations.
Open Scope list_scope.
Open Scope nat_scope.

Definition uses_here (x : tnode) : list nat := reads_here x ++ calls_here x ++ sets_here x.

(** The numbers from a to b belong to l in the order of the text, aliases between them. *)
Inductive seq : nat -> list tnode -> nat -> Prop :=
| sq_nil : forall a b, a <= b -> seq a [] b
| sq_cons : forall a x l b c d, a <= b -> (forall k, In k (uses_here x) -> k < a) ->
    (forall k, In k (numbers_here x) -> a <= k < b) -> seq b (tn_child x) c -> seq c l d -> seq a (x :: l) d.

Lemma seq_le : forall a l b, seq a l b -> a <= b.
Proof. intros a l b S. induction S; lia. Qed.
Lemma seq_end : forall a l b c, seq a l b -> b <= c -> seq a l c.
Proof.
  intros a l b c S. induction S as [a b L|a x l b c' d L U N1 S1 IH1 S2 IH2]; intro LE; [constructor; lia|].
  apply sq_cons with b c'; auto.
Qed.
Definition seqn (a : nat) (x : tnode) (d : nat) : Prop := exists b, a <= b /\ (forall k, In k (uses_here x) -> k < a) /\
  (forall k, In k (numbers_here x) -> a <= k < b) /\ seq b (tn_child x) d.
Lemma seq_next : forall a x c l d, seqn a x c -> seq c l d -> seq a (x :: l) d.
Proof. intros a x c l d (b & L & U & N1 & S1) S2. now apply sq_cons with b c. Qed.
Lemma seqn_end : forall a x b c, seqn a x b -> b <= c -> seqn a x c.
Proof. intros a x b c (b1 & L & U & N1 & S1) LE. exists b1. repeat split; auto; try apply N1; auto. now apply seq_end with b. Qed.

(** * Numbers in use *)

Lemma rd_known : forall s k, rd s k = true -> k < List.length (s_syms s).
Proof. intros s k R. apply nth_error_Some. unfold rd in R. destruct (nth_error (s_syms s) k); [discriminate|discriminate R]. Qed.
Lemma wr_known : forall s k, wr s k = true -> k < List.length (s_syms s).
Proof. intros s k R. apply nth_error_Some. unfold wr in R. destruct (nth_error (s_syms s) k); [discriminate|discriminate R]. Qed.
Lemma cl_known : forall s k, cl s k = true -> k < List.length (s_syms s).
Proof. intros s k R. apply nth_error_Some. unfold cl in R. destruct (nth_error (s_syms s) k); [discriminate|discriminate R]. Qed.
Lemma hist_uses : forall s s' p r a c n, hist s s' p r a c n -> p = [] -> forall k, In k (r ++ c ++ a) -> k < List.length (s_syms s').
Proof.
  intros s s' p r a c n H -> k I. apply in_app_iff in I as [I|I]; [|apply in_app_iff in I as [I|I]].
  - apply rd_known. apply (hs_rd _ _ _ _ _ _ _ H); auto.
  - apply cl_known. apply (hs_cl _ _ _ _ _ _ _ H). auto.
  - apply wr_known. apply (hs_wr _ _ _ _ _ _ _ H); auto.
Qed.

Lemma expr_uses : forall w src e s s' x, validate_expr w src s e = Pass s' x -> forall k, In k (reads x ++ calls x) -> k < List.length (s_syms s).
Proof.
  intros w src e s s' x E k I. pose proof (expr_hist _ _ _ _ _ _ E) as HS. apply expr_calm in E. rewrite <- (cm_len _ _ E).
  apply (hist_uses _ _ _ _ _ _ _ HS eq_refl). now rewrite app_nil_r.
Qed.
Lemma condition_uses : forall w src e s s' x, validate_condition w src s e = Pass s' x -> forall k, In k (reads x ++ calls x) -> k < List.length (s_syms s).
Proof.
  intros w src e s s' x E k I. pose proof (condition_hist _ _ _ _ _ _ E) as HS. apply condition_calm in E. rewrite <- (cm_len _ _ E).
  apply (hist_uses _ _ _ _ _ _ _ HS eq_refl). now rewrite app_nil_r.
Qed.
Lemma return_uses : forall w src s tok e after s' y, validate_stmt_return w src s tok e after = Pass s' (XExpr y) ->
  forall k, In k (reads y ++ calls y) -> k < List.length (s_syms s).
Proof.
  intros w src s tok e after s' y E k I. pose proof (return_hist _ _ _ _ _ _ _ _ E) as [(X & _)|(z & X & HS)]; [discriminate X|].
  injection X as <-. apply return_calm in E as (E & _). rewrite <- (cm_len _ _ E).
  apply (hist_uses _ _ _ _ _ _ _ HS eq_refl). now rewrite app_nil_r.
Qed.
Lemma assign_uses : forall w src s tok e s' k y, validate_stmt_var_assign w src s tok e = Pass s' (XSet k y) ->
  List.length (s_syms s') = List.length (s_syms s) /\ forall j, In j (reads y ++ calls y ++ [k]) -> j < List.length (s_syms s).
Proof.
  intros w src s tok e s' k y E. pose proof (var_assign_hist _ _ _ _ _ _ _ E) as (k1 & y1 & X & HS). injection X as <- <-.
  assert (L : List.length (s_syms s') = List.length (s_syms s)).
  { unfold validate_stmt_var_assign in E. destruct tok as [|t tok]; [discriminate|].
    apply sbind_pass in E as (s1 & (k1, v) & H1 & E). apply find_var_spec in H1 as (-> & nm & z & _ & _ & HY & HK & _).
    destruct (v_const v); [discriminate|]. cbv zeta in E. apply sbind_pass in E as (s2 & x & H2 & E).
    apply sbind_pass in E as (s3 & u3 & H3 & E). apply sbind_pass in E as (s4 & u4 & H4 & E).
    unfold is_expr_compatible_with_var in H3. destruct (ty_eqb _ _); [|discriminate]. inversion H3; subst s3.
    assert (s4 = s2) as ->.
    { unfold is_redundant_reassign in H4. destruct x; try (now inversion H4). destruct (k1 =? sym)%nat; [discriminate|now inversion H4]. }
    inversion E; subst s'. apply expr_calm in H2. rewrite (cm_len _ _ H2). cbn. apply upd_length. }
  split; [exact L|]. intros j I. rewrite <- L. now apply (hist_uses _ _ _ _ _ _ _ HS eq_refl).
Qed.
Lemma def_uses : forall w src s tok te name e i c x s' k y, validate_stmt_var_def w src s tok te name e i c x = Pass s' (XDef k y) ->
  forall j, In j (reads y ++ calls y) -> j < List.length (s_syms s).
Proof.
  intros w src s tok te name e i c x s' k y E j I. unfold validate_stmt_var_def in E. destruct te as [|t0 rest]; [discriminate|].
  apply rbind_pass in E as (ty & _ & E). destruct ty as [ty|].
  - unfold validate_stmt_type_alias in E. destruct (negb c); [unwind E|]. cbv zeta in E.
    destruct (negb _); [unwind E|]. destruct tok as [|t [|q r]]; try discriminate.
    apply rbind_pass in E as (tt & _ & E). apply rbind_pass in E as (n & _ & E).
    apply sbind_pass in E as (s1 & k1 & H1 & E). discriminate E.
  - apply sbind_pass in E as (s1 & z & H1 & E). apply sbind_pass in E as (s2 & (k1, v) & H2 & E). cbv zeta in E.
    apply sbind_pass in E as (s3 & u & H3 & E). assert (z = y) as ->.
    { destruct (is_const_lit z && negb i); [|now inversion E]. apply sbind_pass in E as (s7 & u7 & H7 & E). now inversion E. }
    eapply expr_uses; eauto.
Qed.

(** * Nodes *)

Lemma untouched_seq : forall a l, seq a (map untouched l) a.
Proof.
  intros a l. assert (Q : forall n, seqn a (untouched n) a).
  { induction n as [n IH] using node_ind'. destruct n as [ty tok te p c]. cbn [untouched n_child] in *.
    exists a. split; [lia|]. split; [intros k []|]. split; [intros k []|]. cbn [tn_child].
    induction IH as [|m c E _ IHc]; cbn; [constructor; lia|]. now apply seq_next with a. }
  induction l as [|n l IH]; cbn; [constructor; lia|]. now apply seq_next with a.
Qed.

Local Notation len s := (List.length (s_syms s)).
Definition node_seq (w : world) (src : text) (n : node) : Prop := forall before after s s' x,
  validate_ast_node w src before after n s = Pass s' x -> seqn (len s) x (len s').

Lemma walk_seq : forall w src l, Forall (node_seq w src) l -> forall before s s' xs,
  walk (validate_ast_node w src) before l s = Pass s' xs -> seq (len s) xs (len s').
Proof.
  intros w src l F. induction F as [|n l Fn Fl IH]; intros before s s' xs H.
  - cbn in H. inversion H; subst. constructor. lia.
  - apply walk_cons in H as (s1 & x & r & H1 & H2 & ->). apply Fn in H1. apply IH in H2. now apply seq_next with (len s1).
Qed.

Lemma leaf_seq : forall a ty tok p c d, a <= d -> (forall k, In k (uses_here (mktnode ty tok p c)) -> k < a) ->
  (forall k, In k (numbers_here (mktnode ty tok p c)) -> a <= k < d) -> c = [] -> seqn a (mktnode ty tok p c) d.
Proof. intros a ty tok p c d L U N1 ->. exists d. split; [lia|]. split; [exact U|]. split; [exact N1|]. constructor. lia. Qed.

Lemma nodes_seq : forall w src n, node_seq w src n.
Proof.
  intros w src n. induction n as [n IH] using node_ind'. intros before after s s' x H.
  apply node_ran in H as (SC & p & c & -> & R). pose proof (walk_seq w src _ IH) as W.
  assert (NONE : forall ty tok, seqn (len s) (mktnode ty tok XNone []) (len s)). { intros ty tok. apply leaf_seq; auto; intros k []. }
  destruct R as [e s' p T P H|T F|T D F|name ret num ext exp ps s' p c T P H|name e i c x s' p T P H|e s' p T P H
    |f a m s' x T P H|e s1 x s' c T P NE H1 H|s' c T B NE H|e s1 x s2 c T P NE H1 H|s' k c T H|T]; auto.
  - pose proof (return_calm _ _ _ _ _ _ _ _ H) as (C & _). rewrite (cm_len _ _ C).
    pose proof (return_hist _ _ _ _ _ _ _ _ H) as [(-> & _)|(y & -> & _)]; [apply NONE|].
    apply leaf_seq; auto; [|intros k []]. intros k I. cbn [uses_here reads_here calls_here sets_here tn_pay] in I. apply (return_uses _ _ _ _ _ _ _ _ H).
    unfold uses_here in I. cbn [reads_here calls_here sets_here tn_pay] in I. now rewrite app_nil_r in I.
  - unfold validate_stmt_func_decl in H. cbv zeta in H.
    apply sbind_pass in H as (s1 & (k, l) & H1 & H). apply sbind_pass in H as (s2 & c2 & H2 & H).
    apply sbind_pass in H as (s3 & u & H3 & H). inversion H; subst. clear H. apply func_head_hist in H1 as (H1 & Y1).
    apply setup_hist in H2 as (s4 & s5 & H4 & D1 & D2). apply W in H4.
    assert (D3 : len s2 <= len (set_depth s3 (s_depth s))).
    { unfold func_end in H3. apply rbind_pass in H3 as ((y, f) & _ & H3). destruct (f_external f); [inversion H3; subst; auto|].
      destruct (_ && _); [discriminate|]. destruct (_ && _); [discriminate|]. destruct (s_last s2); [|discriminate]. inversion H3; subst. auto. }
    pose proof (hs_len _ _ _ _ _ _ _ D1) as L1. pose proof (hs_len _ _ _ _ _ _ _ D2) as L2.
    exists (len s4). pose proof (hs_len _ _ _ _ _ _ _ H1) as L0. cbn [set_depth s_syms] in L0. split; [lia|]. split; [intros j []|]. split.
    + intros j I. apply (hs_range _ _ _ _ _ _ _ H1) in I. cbn [set_depth s_syms] in I. lia.
    + cbn [tn_child]. apply seq_end with (len s5); [exact H4|lia].
  - pose proof (var_def_hist _ _ _ _ _ _ _ _ _ _ _ _ H) as [(-> & HS)|(k & y & -> & HS & _)].
    + pose proof (hs_len _ _ _ _ _ _ _ HS). apply leaf_seq; auto; intros k [].
    + pose proof (hs_len _ _ _ _ _ _ _ HS). apply leaf_seq; auto.
      * intros j I. unfold uses_here in I. cbn [reads_here calls_here sets_here tn_pay] in I. rewrite app_nil_r in I.
        apply (def_uses _ _ _ _ _ _ _ _ _ _ _ _ _ H _ I).
      * intros j I. apply (hs_range _ _ _ _ _ _ _ HS). exact I.
  - pose proof (var_assign_hist _ _ _ _ _ _ _ H) as (k & y & -> & HS). apply assign_uses in H as (L & U).
    apply leaf_seq; auto; [lia|intros j []].
  - pose proof (expr_uses _ _ _ _ _ _ H) as U. apply expr_calm in H. rewrite (cm_len _ _ H). exists (len s). split; [lia|]. split; [|split; [intros j []|]].
    + intros j I. unfold uses_here in I. cbn [reads_here calls_here sets_here tn_pay] in I. rewrite app_nil_r in I. auto.
    + cbn [tn_child]. apply untouched_seq.
  - pose proof (condition_uses _ _ _ _ _ _ H1) as U. apply condition_calm in H1. apply setup_hist in H as (s4 & s5 & H4 & D1 & D2). apply W in H4.
    pose proof (hs_len _ _ _ _ _ _ _ D1) as L1. pose proof (hs_len _ _ _ _ _ _ _ D2) as L2. pose proof (cm_len _ _ H1) as L0.
    exists (len s4). split; [lia|]. split; [|split; [intros j []|]].
    + intros j I. unfold uses_here in I. cbn [reads_here calls_here sets_here tn_pay] in I. rewrite app_nil_r in I. auto.
    + cbn [tn_child]. apply seq_end with (len s5); [exact H4|lia].
  - apply setup_hist in H as (s4 & s5 & H4 & D1 & D2). apply W in H4.
    pose proof (hs_len _ _ _ _ _ _ _ D1) as L1. pose proof (hs_len _ _ _ _ _ _ _ D2) as L2.
    exists (len s4). split; [lia|]. split; [intros j []|]. split; [intros j []|]. cbn [tn_child]. apply seq_end with (len s5); [exact H4|lia].
  - pose proof (condition_uses _ _ _ _ _ _ H1) as U. apply condition_calm in H1. apply setup_hist in H as (s4 & s5 & H4 & D1 & D2). apply W in H4.
    pose proof (hs_len _ _ _ _ _ _ _ D1) as L1. pose proof (hs_len _ _ _ _ _ _ _ D2) as L2. pose proof (cm_len _ _ H1) as L0.
    cbn [set_depth s_syms] in *.
    exists (len s4). split; [lia|]. split; [|split; [intros j []|]].
    + intros j I. unfold uses_here in I. cbn [reads_here calls_here sets_here tn_pay] in I. rewrite app_nil_r in I. auto.
    + cbn [tn_child]. apply seq_end with (len s5); [exact H4|lia].
  - unfold validate_control_namespace in H. destruct (n_token n) as [|q [|t r]]; try discriminate.
    apply rbind_pass in H as (nm & _ & H). apply sbind_pass in H as (s1 & k1 & H1 & H).
    apply sbind_pass in H as (s2 & c2 & H2 & H). pose proof (add_or_stop_msgs _ _ _ _ H1) as M1. apply add_or_stop_added in H1.
    destruct (s_scope s2); [|discriminate]. apply rbind_pass in H as (here & _ & H). destruct (c_last here); [|discriminate].
    apply rbind_pass in H as (bef & _ & H). apply rbind_pass in H as (ins & HI & H). inversion H; subst.
    pose proof (ad_k _ _ _ _ H1) as EK. pose proof (f_equal (@List.length symbol) (ad_syms _ _ _ _ H1)) as EL. rewrite app_length in EL. cbn in EL.
    apply setup_hist in H2 as (s4 & s5 & H4 & D1 & D2). apply W in H4.
    pose proof (hs_len _ _ _ _ _ _ _ D1) as L1. pose proof (hs_len _ _ _ _ _ _ _ D2) as L2.
    exists (len s4). split; [lia|]. split; [intros j []|]. split; [intros j [<-|[]]; lia|]. cbn [tn_child]. apply seq_end with (len s5); [exact H4|].
    cbn [set_kind s_syms set_syms]. rewrite ?upd_length. cbn. lia.
Qed.

Lemma accepted_seq : forall w src ts tree s l, accepted w src ts tree s l -> exists a b, seq a l b.
Proof.
  intros w src ts tree s l A. apply accepted_walk in A as (s1 & A). eexists _, _. eapply walk_seq; [|exact A].
  apply Forall_forall. intros n _. apply nodes_seq.
Qed.
