(** Accepted programs do not go wrong. *)
From Coq Require Import List Arith NArith ZArith Bool Lia.
From Verif Require Import Base Model_Token Model_Utf8 Model_Literal Model_Parse Model_Sem Spec_Parse Spec_Sem Spec_Sem2 Spec_Run Spec_LLVM Spec_Loops Spec_Safe
  Proof_Sem Proof_Sem2 Proof_Sem3 Proof_Sem4 Proof_Sem5 Proof_Sem6 Proof_Sem7 Proof_Sem8 Proof_Order Proof_CGen2 Proof_LLVM Proof_LLVM11 Proof_LLVM13 Proof_Safe2 Proof_Safe4 Proof_Safe5 Proof_Safe6.
Import ListNotations.
Open Scope list_scope.
Open Scope nat_scope.

Lemma stmt_type : forall D w src e n x e', stmt_ok D w src e n x e' -> tn_type x = n_type n.
Proof. intros D w src e n x e' S0. inversion S0; subst; cbn [tn_type]; congruence. Qed.
Lemma block_types : forall D w src e l xs e', block_ok D w src e l xs e' -> forall n, In n l -> exists x, In x xs /\ tn_type x = n_type n.
Proof.
  intros D w src e l. revert e. induction l as [|m l IH]; intros e xs e' B n I; [destruct I|]. inversion B; subst.
  destruct I as [<-|I].
  - eexists. split; [now left|]. eapply stmt_type. eassumption.
  - match goal with K : block_ok _ _ _ _ l _ _ |- _ => destruct (IH _ _ _ K n I) as (y & J & E) end. exists y. split; [now right|exact E].
Qed.

Lemma final_functions : forall w src ts tree s l, accepted w src ts tree s l -> no_call_blocks tree -> few_arguments tree -> flat tree ->
  exists s1 e, s_syms s = s_syms s1 /\ ready s1 /\ block_ok (sig s1) w src [] tree l e /\ forall f fx, paired f fx tree l -> function_good s1 f fx.
Proof.
  intros w src ts tree s l A NC FA FL. pose proof (accepted_fine _ _ _ _ _ _ A NC FA) as F.
  destruct A as (_ & H). unfold validate_ast_tree in H. apply sbind_pass in H as (s1 & l1 & H1 & H).
  apply rbind_pass in H as (s2 & H2 & H). apply sbind_pass in H as (s3 & v & H3 & H). inversion H; subst s3 l1. clear H.
  destruct (walk_fine w src tree) with (before := @nil ntype) (s := setup_semantic_state) (s' := s1) (xs := l) as (I & R & G & B); auto.
  - apply Forall_forall. intros n _. apply node_ok.
  - apply start_inv.
  - apply start_ready.
  - exists s1, (Proof_Sem2.cenv s1). split; [|split; [exact R|split; [apply B; intros k d E; exact E|]]].
    + assert (E2 : s_syms s2 = s_syms s1).
      { unfold reset_scope_head in H2. apply bind_ok in H2 as (h & _ & H2). inversion H2; subst. reflexivity. }
      rewrite <- E2. unfold check_unused_symbols in H3. destruct (w_quiet w); [inversion H3; subst; reflexivity|].
      apply rbind_pass in H3 as (st & _ & H3). destruct (snd st); [discriminate H3|]. inversion H3; subst. reflexivity.
    + destruct (flat_walk w src tree) with (before := @nil ntype) (s := setup_semantic_state) (s' := s1) (xs := l) as (P1 & _); auto.
      apply Forall_forall. intros n _. apply flat_nodes.
Qed.

Lemma rules_sig : forall H w src ts tree s l, accepted w src ts tree s l -> no_call_blocks tree -> few_arguments tree -> flat tree -> has_statements tree ->
  no_references l -> comparable l -> ints_returned tree l -> nothing_returned (s_syms s) l ->
  exists s1 G L, s_syms s = s_syms s1 /\ fine_block H (s_syms s) (sig s1) TInt false false [] None l G L.
Proof.
  intros H w src ts tree s l A NC FA FL HS NR C IR NO. destruct (final_functions _ _ _ _ _ _ A NC FA FL) as (s1 & e & EQ & RD & B & FG). rewrite EQ in *.
  destruct (accepted_seq _ _ _ _ _ _ A) as (a & b & SQ). exists s1.
  set (T := fun k => False \/ In k (@nil nat) \/ In k (flat_map exported l)).
  destruct (proj2 (blocks_fine H (s_syms s1) (sig s1) w src) [] tree l e B T TInt false false [] None a b) as (G & L & FB & _).
  - apply spaces_more with w src [] tree e; auto.
    + intros k inside [].
    + intros n k [].
    + intros k [].
  - intros n k [].
  - intros k K. right. now right.
  - exact SQ.
  - intros j [[]|[[]|J]]. right. now left.
  - constructor.
    + intros n y I U. destruct y as [t k ty c|t v ty|t k args ty|o x ty c|o x y ty c]; cbn [plain_part]; auto; [exact (NR n o x ty c I U)|exact (C n o x y ty c I U)].
    + intros b' n E T0. exact (jumps_l _ _ _ _ _ _ _ _ A NC E T0).
    + intros m I. exact (proj1 (block_shape _ _ _ _ _ _ _ A NC (bo_below tree m I))).
    + exact HS.
    + intros n x I T0. left. exact (IR n x I T0).
    + intros f fx k ks P TP NX. destruct (located _ _ _ _ _ _ _ P _ _ B) as (e1 & e2 & S0 & _).
      assert (PP : exists name ret num ext exp ps, n_pay f = PProto name ret num ext exp ps) by (inversion S0; subst; cbn [tn_pay] in TP; try discriminate TP; repeat eexists; eassumption).
      destruct PP as (name & ret & num & ext & exp & ps & PP). destruct (FG f fx P name ret num ext exp ps k ks PP TP) as (y & g & EY & KY & RF & RV & XE).
      exists (f_params g), (f_ret g). assert (EXT : ext = false) by (unfold is_external in NX; rewrite EY, KY in NX; congruence).
      destruct (stmt_child _ _ _ _ _ _ _ S0) as (e3 & e4 & BC). split; [|split].
      * unfold sig. rewrite EY, KY, (RD k y g EY KY), N.eqb_refl. reflexivity.
      * intros n x PN TN. destruct (RF n x PN TN) as [(v & EV & TV)|(EV & TV)]; [|right; auto]. left. exists v. split; [exact EV|].
        destruct (located _ _ _ _ _ _ _ PN _ _ BC) as (e5 & e6 & S1 & _). pose proof (stmt_type _ _ _ _ _ _ _ S1) as TX. rewrite TN in TX.
        assert (DV : f_ret g = TVoid \/ f_ret g <> TVoid) by (destruct (f_ret g); auto; right; discriminate). destruct DV as [DV|DV]; [|now apply TV].
        rewrite DV. apply (NO fx k ks y g x v); auto; [exact (paired_checked _ _ _ _ P)|exact (paired_checked _ _ _ _ PN)].
      * intro NV. assert (RT : returned_value (n_child f) = true) by (destruct (returned_value (n_child f)) eqn:RE; [reflexivity|destruct NV; now apply RV]).
        unfold returned_value in RT. destruct (terminal_node (n_child f)) as [n|] eqn:TN; [|discriminate RT]. apply terminal_split in TN as (p & q & EC & _).
        assert (IN : In n (n_child f)) by (rewrite EC; apply in_or_app; right; now left).
        destruct (block_types _ _ _ _ _ _ _ BC n IN) as (x & IX & TX). exists x. split; [exact IX|]. rewrite TX. destruct (n_type n); try discriminate RT. reflexivity.
    + exact FL.
  - exact (proj1 (block_shape _ _ _ _ _ _ _ A NC (bo_top tree))).
  - exists G, L. split; [reflexivity|exact FB].
Qed.
Lemma rules_kept : forall H w src ts tree s l, accepted w src ts tree s l -> no_call_blocks tree -> few_arguments tree -> flat tree -> has_statements tree ->
  no_references l -> comparable l -> ints_returned tree l -> nothing_returned (s_syms s) l ->
  exists D G L, fine_block H (s_syms s) D TInt false false [] None l G L.
Proof.
  intros H w src ts tree s l A NC FA FL HS NR C IR NO. destruct (rules_sig H _ _ _ _ _ _ A NC FA FL HS NR C IR NO) as (s1 & G & L & _ & FB). exists (sig s1), G, L. exact FB.
Qed.

Lemma never_wrong_l : forall H w src ts tree s l, accepted w src ts tree s l -> no_call_blocks tree -> few_arguments tree -> flat tree -> has_statements tree ->
  no_references l -> comparable l -> ints_returned tree l -> nothing_returned (s_syms s) l ->
  forall f o, run_program H (s_syms s) f l o <> Wrong.
Proof.
  intros H w src ts tree s l A NC FA FL HS NR C IR NO f o. destruct (rules_kept H _ _ _ _ _ _ A NC FA FL HS NR C IR NO) as (D & G & L & FB).
  now apply program_safe with D G L.
Qed.
