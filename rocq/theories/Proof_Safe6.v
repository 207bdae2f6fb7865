(** Accepted programs keep the rules of Proof_Safe2.v: statements. *)
From Coq Require Import List Arith NArith ZArith Bool Lia.
From Verif Require Import Base Model_Token Model_Utf8 Model_Literal Model_Parse Model_Sem Spec_Parse Spec_Sem Spec_Sem2 Spec_Run Spec_LLVM Spec_Loops Spec_Safe
  Proof_Sem Proof_Sem2 Proof_Sem5 Proof_Sem6 Proof_Sem7 Proof_Sem8 Proof_Order Proof_CGen2 Proof_LLVM Proof_LLVM11 Proof_LLVM13 Proof_Safe2 Proof_Safe5.
Import ListNotations.
Open Scope list_scope.
Open Scope nat_scope.

Definition some {A} (o : option A) : bool := match o with Some _ => true | None => false end.
Definition flag (p : bool) (t : ntype) : bool := match t with N_COMMENT => p | _ => forks t end.
Lemma chain_cons : forall p t r, chain p (t :: r) -> (t = N_ELIF \/ t = N_ELSE -> p = true) /\ chain (flag p t) r.
Proof. intros p t r C. destruct t; cbn [chain flag forks] in *; split; try tauto; try (intros [X|X]; discriminate X). Qed.

Section Static.
Variable H : host.
Variable ys : list symbol.
Variable D : decls.
Variable w : world.
Variable src : text.
Local Notation fine_expr := (fine_expr H D).
Local Notation fine_stmt := (fine_stmt H ys D).
Local Notation fine_block := (fine_block H ys D).

Definition fits_return (R : ty) (x : tnode) : Prop := (exists y, tn_pay x = XExpr y /\ x_ty y = R) \/ tn_pay x = XNone /\ R = TVoid.

(** What else is known about the statements; `inside`: of a function. *)
Record conds (R : ty) (b inside : bool) (l : list node) (xs : list tnode) : Prop := mkconds {
  cd_uses : forall n y, in_checked n xs -> uses n y -> plain_part y;
  cd_jumps : forall b' n, enclosed b l b' n -> n_type n = N_BREAK \/ n_type n = N_CONTINUE -> b' = true;
  cd_chains : forall m, in_tree m l -> chain false (map n_type (n_child m));
  cd_known : forall m, in_tree m l -> n_type m <> N_UNKNOWN;
  cd_returns : forall n x, in_main n x l xs -> n_type n = N_RETURN -> fits_return R x;
  cd_functions : forall f fx k ks, paired f fx l xs -> tn_pay fx = XProto k ks -> is_external ys k = false ->
    exists ts r, D k = Some (DFun ts r) /\ (forall n x, paired n x (n_child f) (tn_child fx) -> n_type n = N_RETURN -> fits_return r x) /\
      (r <> TVoid -> has_return (tn_child fx));
  cd_flat : if inside then functionless l else flat l }.

Lemma conds_head : forall R b i n l x xs, conds R b i (n :: l) (x :: xs) -> conds R b i [n] [x].
Proof.
  intros R b i n l x xs [U J C K RT F FL].
  assert (IT : forall m, in_tree m [n] -> in_tree m (n :: l)).
  { intros m I. inversion I as [? IN|q ? IN IB]; subst; destruct IN as [->|[]]; [apply it_here; now left|apply it_below with q; [now left|exact IB]]. }
  constructor.
  - intros m y I. apply U. inversion I as [? IN|q ? IN IB]; subst; destruct IN as [->|[]]; [apply ic_here; now left|apply ic_below with q; [now left|exact IB]].
  - intros b' m E. apply J. inversion E as [? ? ? IN|? ? q ? ? IN IB]; subst; destruct IN as [->|[]]; [apply en_here; now left|apply en_below with q; [now left|exact IB]].
  - intros m I. apply C. auto.
  - intros m I. apply K. auto.
  - intros m y P. apply RT. inversion P as [? ?|? ? ? ? P'|? ? ? ? T P']; subst; [constructor|inversion P'|now apply im_below].
  - intros f fx k ks P. apply F. inversion P as [? ?|? ? ? ? P'|? ? ? ? P']; subst; [constructor|inversion P'|now apply pa_below].
  - destruct i; [intros m I; apply FL; auto|intros f I; apply FL; auto].
Qed.
Lemma conds_tail : forall R b i n l x xs, conds R b i (n :: l) (x :: xs) -> conds R b i l xs.
Proof.
  intros R b i n l x xs [U J C K RT F FL].
  assert (IT : forall m, in_tree m l -> in_tree m (n :: l)).
  { intros m I. inversion I as [? IN|q ? IN IB]; subst; [apply it_here; now right|apply it_below with q; [now right|exact IB]]. }
  constructor.
  - intros m y I. apply U. inversion I as [? IN|q ? IN IB]; subst; [apply ic_here; now right|apply ic_below with q; [now right|exact IB]].
  - intros b' m E. apply J. inversion E as [? ? ? IN|? ? q ? ? IN IB]; subst; [apply en_here; now right|apply en_below with q; [now right|exact IB]].
  - intros m I. apply C. auto.
  - intros m I. apply K. auto.
  - intros m y P. apply RT. now apply im_next.
  - intros f fx k ks P. apply F. now apply pa_next.
  - destruct i; [intros m I; apply FL; auto|intros f I; apply FL; auto].
Qed.
Lemma conds_child : forall R b i n x, n_type n <> N_FUNCTION_PROTO -> conds R b i [n] [x] -> conds R (enter n b) i (n_child n) (tn_child x).
Proof.
  intros R b i n x NF [U J C K RT F FL].
  assert (IT : forall m, in_tree m (n_child n) -> in_tree m [n]) by (intros m I; apply it_below with n; [now left|exact I]).
  constructor.
  - intros m y I. apply U. apply ic_below with x; [now left|exact I].
  - intros b' m E. apply J. apply en_below with n; [now left|exact E].
  - intros m I. apply C. auto.
  - intros m I. apply K. auto.
  - intros m y P. apply RT. now apply im_below.
  - intros f fx k ks P. apply F. now apply pa_below.
  - destruct i; [intros m I; apply FL; auto|intros f I; apply FL; auto].
Qed.
Lemma conds_body : forall R b n x k ks ts r, n_type n = N_FUNCTION_PROTO -> tn_pay x = XProto k ks -> is_external ys k = false -> D k = Some (DFun ts r) ->
  conds R b false [n] [x] -> conds r false true (n_child n) (tn_child x) /\ (r <> TVoid -> has_return (tn_child x)).
Proof.
  intros R b n x k ks ts r TF TP NX DK [U J C K RT F FL].
  destruct (F n x k ks (pa_here _ _ _ _) TP NX) as (ts' & r' & E & RF & HR). rewrite DK in E. injection E as <- <-. split; [|exact HR].
  assert (IT : forall m, in_tree m (n_child n) -> in_tree m [n]) by (intros m I; apply it_below with n; [now left|exact I]).
  constructor.
  - intros m y I. apply U. apply ic_below with x; [now left|exact I].
  - intros b' m E. apply J. apply en_below with n; [now left|]. unfold enter. rewrite TF. exact E.
  - intros m I. apply C. auto.
  - intros m I. apply K. auto.
  - intros m y P. apply RF. now apply main_paired.
  - intros f fx k' ks' P. apply F. now apply pa_below.
  - apply (FL n); [apply it_here; now left|exact TF].
Qed.

Definition covers (T : nat -> Prop) (G : list nat) (L : option (list nat)) (out : list nat) (c : nat) : Prop :=
  forall j, T j -> In j (all G L) \/ In j out \/ c <= j.
Lemma seqn_low : forall a x c k, seqn a x c -> In k (exported x) -> a <= k.
Proof.
  intros a x c k (b & L & U & N1 & S1) I. apply (exported_low a [x] c); [apply sq_cons with b c; auto; constructor; auto|].
  cbn [flat_map]. now rewrite app_nil_r.
Qed.
Lemma seqn_le : forall a x c, seqn a x c -> a <= c.
Proof. intros a x c (b & L & _ & _ & S1). apply seq_le in S1. lia. Qed.
Lemma use_in : forall T G L a x c j, covers T G L (exported x) c -> seqn a x c -> T j -> In j (uses_here x) -> In j (all G L).
Proof.
  intros T G L a x c j C S0 TJ U. destruct (C j TJ) as [X|[X|X]]; [exact X|..].
  - pose proof (seqn_low _ _ _ _ S0 X). destruct S0 as (b & _ & UA & _). apply UA in U. lia.
  - pose proof (seqn_le _ _ _ S0). destruct S0 as (b & _ & UA & _). apply UA in U. lia.
Qed.

Lemma node_expr_fine : forall T e v y G L a x c, spaces_in D T -> entries D T e -> elab D w src e v y -> checked_expr x = Some y ->
  (forall n z, in_checked n [x] -> uses n z -> plain_part z) -> covers T G L (exported x) c -> seqn a x c -> fine_expr (all G L) y.
Proof.
  intros T e v y G L a x c SP EN E CE U C S0. apply (proj1 (expr_fine H D w src (all G L) e) v y E).
  - intros z X. apply (U x z); [apply ic_here; now left|]. exists y. auto.
  - intros k K. apply (use_in T G L a x c k C S0).
    + exact (proj1 (elab_known D w src T e SP EN) _ _ E k K).
    + unfold uses_here, reads_here, calls_here. unfold checked_expr in CE. destruct (tn_pay x); try discriminate CE; injection CE as ->;
        rewrite !in_app_iff; apply in_app_iff in K as [K|K]; auto.
Qed.

Lemma blocks_fine :
  (forall e n x e', stmt_ok D w src e n x e' -> forall T R b p G L a c, spaces_in D T -> entries D T e -> (forall k, In k (exported x) -> T k) ->
     seqn a x c -> covers T G L (exported x) c -> conds R b (some L) [n] [x] -> (n_type n = N_ELIF \/ n_type n = N_ELSE -> p = true) ->
     exists G' L', fine_stmt R b p G L x (flag p (n_type n)) G' L' /\ (forall j, In j (all G L) \/ In j (exported x) -> In j (all G' L')) /\ some L' = some L) /\
  (forall e l xs e', block_ok D w src e l xs e' -> forall T R b p G L a c, spaces_in D T -> entries D T e -> (forall k, In k (flat_map exported xs) -> T k) ->
     seq a xs c -> covers T G L (flat_map exported xs) c -> conds R b (some L) l xs -> chain p (map n_type l) ->
     exists G' L', fine_block R b p G L xs G' L' /\ (forall j, In j (all G L) \/ In j (flat_map exported xs) -> In j (all G' L')) /\ some L' = some L).
Proof.
  apply stmt_block_both.
  - intros e n name rest v implicit const exp y x k T0 _ _ EL VC _ _ _ DK T R b p G L a c SP EN TK S0 CV CD _. rewrite T0.
    exists (addg k G L), (addl k L). split; [|split; [|destruct L; reflexivity]].
    + apply fs_define with (negb const); [|exact DK|intros t0 j0 xs0 r0 ->; inversion EL; subst; apply (VC _ _ _ eq_refl)]. eapply node_expr_fine; eauto; [reflexivity|exact (cd_uses _ _ _ _ _ CD)].
    + intros j J. cbn [exported] in J. destruct L as [l|]; cbn [addg addl all] in *; cbn [In app]; destruct J as [J|[<-|[]]]; auto.
  - intros e n name v implicit exp t q r x k ty T0 _ _ _ _ _ _ _ _ T R b p G L a c _ _ _ _ _ _ _. rewrite T0. exists G, L.
    split; [apply fs_alias|]. split; [intros j [J|[]]; exact J|reflexivity].
  - intros e n v t q r x k ty y T0 _ _ _ _ RS DK EL TY T R b p G L a c SP EN TK S0 CV CD _. rewrite T0. exists G, L.
    split; [|split; [intros j [J|[]]; exact J|reflexivity]]. apply fs_assign.
    + eapply node_expr_fine; eauto; [reflexivity|exact (cd_uses _ _ _ _ _ CD)].
    + refine (use_in T G L a _ c k CV S0 _ _).
      * destruct (resolved _ _ SP _ _ _ RS EN) as [X|(t0 & X)]; [exact X|congruence].
      * unfold uses_here. cbn [sets_here tn_pay]. rewrite !in_app_iff. right. right. now left.
    + now rewrite TY.
  - intros e n f a0 m y T0 _ _ EL T R b p G L a c SP EN TK S0 CV CD _. rewrite T0. exists G, L.
    split; [|split; [intros j [J|[]]; exact J|reflexivity]]. apply fs_call. eapply node_expr_fine; eauto; [reflexivity|exact (cd_uses _ _ _ _ _ CD)].
  - intros e n v y T0 _ _ EL T R b p G L a c SP EN TK S0 CV CD _. rewrite T0. exists G, L.
    split; [|split; [intros j [J|[]]; exact J|reflexivity]]. apply fs_return.
    + eapply node_expr_fine; eauto; [reflexivity|exact (cd_uses _ _ _ _ _ CD)].
    + destruct (cd_returns _ _ _ _ _ CD _ _ (im_here _ _ _ _) T0) as [(y' & E & TY)|(E & _)]; cbn [tn_pay] in E; [injection E as <-; exact TY|discriminate E].
  - intros e n v y ch e' T0 _ EL TY B IH T R b p G L a c SP EN TK S0 CV CD PT. exists G, L.
    assert (NF : n_type n <> N_FUNCTION_PROTO) by (intro X; rewrite X in T0; cbn in T0; intuition discriminate).
    pose proof (conds_child _ _ _ _ _ NF CD) as CC. cbn [tn_child] in CC. pose proof S0 as (b0 & LE & UA & NH & SC). cbn [tn_child] in SC.
    set (T' := fun k => T k \/ In k (@nil nat) \/ In k (flat_map exported ch)).
    destruct (IH T' R (enter n b) false G L b0 c) as (G' & L' & FB & _).
    + unfold T'. apply spaces_more with w src e (n_child n) e'; auto. intros k [].
    + apply entries_more with T; [exact EN|]. intros k K. now left.
    + intros k K. right. now right.
    + exact SC.
    + intros j [J|[[]|J]]; [|right; now left]. destruct (CV j J) as [X|[[]|X]]; auto.
    + exact CC.
    + apply (cd_chains _ _ _ _ _ CD). apply it_here. now left.
    + split; [|split; [intros j [J|[]]; exact J|reflexivity]].
      assert (EB : enter n b = looping (n_type n) b) by (unfold enter, looping; destruct (n_type n); auto; now destruct NF). rewrite EB in FB.
      assert (EP : flag p (n_type n) = forks (n_type n)) by (destruct T0 as [<-|[<-|[<-|[]]]]; reflexivity). rewrite EP.
      apply fs_condition with G' L'; auto. eapply node_expr_fine; eauto; [reflexivity|exact (cd_uses _ _ _ _ _ CD)].
  - intros e n ch e' T0 B IH T R b p G L a c SP EN TK S0 CV CD PT. exists G, L. rewrite (PT (or_intror T0)).
    assert (NF : n_type n <> N_FUNCTION_PROTO) by (rewrite T0; discriminate).
    pose proof (conds_child _ _ _ _ _ NF CD) as CC. cbn [tn_child] in CC. pose proof S0 as (b0 & LE & UA & NH & SC). cbn [tn_child] in SC.
    set (T' := fun k => T k \/ In k (@nil nat) \/ In k (flat_map exported ch)).
    destruct (IH T' R (enter n b) false G L b0 c) as (G' & L' & FB & _).
    + unfold T'. apply spaces_more with w src e (n_child n) e'; auto. intros k [].
    + apply entries_more with T; [exact EN|]. intros k K. now left.
    + intros k K. right. now right.
    + exact SC.
    + intros j [J|[[]|J]]; [|right; now left]. destruct (CV j J) as [X|[[]|X]]; auto.
    + exact CC.
    + apply (cd_chains _ _ _ _ _ CD). apply it_here. now left.
    + split; [|split; [intros j [J|[]]; exact J|reflexivity]]. unfold enter in FB. rewrite T0 in FB |- *. cbn [flag forks]. now apply fs_else with G' L'.
  - intros e n name ret num ext exp ps ts ks r x k e1 ch e2 T0 _ _ _ _ DK PO B IH T R b p G L a c SP EN TK S0 CV CD PT.
    assert (LN : L = None). { destruct L as [l|]; [|reflexivity]. destruct (cd_flat _ _ _ _ _ CD n); [apply it_here; now left|exact T0]. }
    subst L. rewrite T0. cbn [flag forks]. exists (k :: G), None.
    split; [|split; [intros j [J|[<-|[]]]; [now right|now left]|reflexivity]].
    destruct (is_external ys k) eqn:EX; [now apply fs_external with ts r|].
    destruct (conds_body R b n (mktnode N_FUNCTION_PROTO (n_token n) (XProto k ks) ch) k ks ts r T0 eq_refl EX DK CD) as (CC & HR). cbn [tn_child] in CC, HR.
    pose proof S0 as (b0 & LE & UA & NH & SC). cbn [tn_child] in SC.
    pose proof (params_typed _ _ _ _ _ _ _ PO) as PT2.
    assert (KS : forall j, In j ks -> exists t m, D j = Some (DVar t m)). { intros j J. destruct (params_sig _ _ _ _ _ _ _ PO j J) as (t & E). eauto. }
    assert (EK : entries D (fun j => T j \/ In j ks) e1).
    { apply (params_entries _ _ _ _ _ _ _ _ PO); [|intros j J; now right].
      apply entries_cons; [apply entries_more with T; [exact EN|intros j J; now left]|]. left. left. apply TK. now left. }
    destruct (IH (fun j => T j \/ In j ks \/ In j (flat_map exported ch)) r false false (k :: G) (Some ks) b0 c) as (G' & L' & FB & _).
    + apply params_spaces with w src e1 (n_child n) e2; auto.
    + apply entries_more with (fun j => T j \/ In j ks); [exact EK|]. intros j [J|J]; auto.
    + auto.
    + exact SC.
    + intros j [J|[J|J]]; cbn [all]; rewrite in_app_iff.
      * destruct (CV j J) as [X|[X|X]]; [left; right; now right| |right; now right]. cbn [exported] in X. destruct X as [<-|[]]. left. right. now left.
      * left. now left.
      * right. now left.
    + exact CC.
    + apply (cd_chains _ _ _ _ _ CD). apply it_here. now left.
    + apply fs_function with ts r G' L'; auto. exact (params_sig _ _ _ _ _ _ _ PO).
  - intros e n t q r x k ch e' T0 _ _ _ DK B IH T R b p G L a c SP EN TK S0 CV CD PT. rewrite T0. cbn [flag forks].
    assert (NF : n_type n <> N_FUNCTION_PROTO) by (rewrite T0; discriminate).
    pose proof (conds_child _ _ _ _ _ NF CD) as CC. cbn [tn_child] in CC. pose proof S0 as (b0 & LE & UA & NH & SC). cbn [tn_child] in SC.
    cbn [exported] in *.
    assert (KI : In k (all (addg k G L) (addl k L))) by (destruct L; cbn; now left).
    assert (MI : forall j, In j (all G L) -> In j (all (addg k G L) (addl k L))) by (intros j J; destruct L; cbn in *; now right).
    destruct (IH T R (enter n b) false (addg k G L) (addl k L) b0 c) as (G' & L' & FB & IN & SL).
    + exact SP.
    + apply entries_cons; [exact EN|]. left. apply TK. now left.
    + intros j J. apply TK. now right.
    + exact SC.
    + intros j J. destruct (CV j J) as [X|[[<-|X]|X]]; auto.
    + replace (some (addl k L)) with (some L) by (destruct L; reflexivity). exact CC.
    + apply (cd_chains _ _ _ _ _ CD). apply it_here. now left.
    + exists G', L'. unfold enter in FB. rewrite T0 in FB. split; [|split].
      * now apply fs_space with e'.
      * intros j [J|[<-|J]]; apply IN; auto.
      * rewrite SL. destruct L; reflexivity.
  - intros e n _ _ T0 T R b p G L a c SP EN TK S0 CV CD PT. exists G, L. split; [|split; [intros j [J|[]]; exact J|reflexivity]].
    cbn [In] in T0. destruct T0 as [E|[E|[E|[E|[E|[E|[E|[E|[]]]]]]]]]; symmetry in E; rewrite E; cbn [flag forks].
    + apply fs_leave. destruct (cd_returns _ _ _ _ _ CD _ _ (im_here _ _ _ _) E) as [(y' & E' & _)|(_ & TY)]; [cbn [tn_pay] in E'; discriminate E'|exact TY].
    + apply fs_other. cbn. auto.
    + assert (EB : b = true) by (apply (cd_jumps _ _ _ _ _ CD b n); [apply en_here; now left|auto]). rewrite EB. apply fs_jump. cbn. auto.
    + assert (EB : b = true) by (apply (cd_jumps _ _ _ _ _ CD b n); [apply en_here; now left|auto]). rewrite EB. apply fs_jump. cbn. auto.
    + apply fs_other. cbn. auto.
    + apply fs_comment.
    + apply fs_other. cbn. auto.
    + destruct (cd_known _ _ _ _ _ CD n); [apply it_here; now left|exact E].
  - intros e T R b p G L a c _ _ _ _ _ _ _. exists G, L. split; [constructor|]. split; [intros j [J|[]]; exact J|reflexivity].
  - intros e n l x xs e1 e2 ST IH1 _ IH2 T R b p G L a c SP EN TK S0 CV CD CH.
    cbn [map] in CH. apply chain_cons in CH as (PT & CH). cbn [flat_map] in *.
    inversion S0 as [|? ? ? b1 c1 ? L0 U0 N0 SC SR]; subst.
    assert (SX : seqn a x c1) by (exists b1; auto).
    destruct (IH1 T R b p G L a c1) as (G1 & L1 & F1 & IN1 & SL1); auto.
    + intros k K. apply TK, in_app_iff. now left.
    + intros j J. destruct (CV j J) as [X|[X|X]]; auto.
      * apply in_app_iff in X as [X|X]; auto. right. right. now apply (exported_low _ _ _ SR).
      * right. right. apply seq_le in SR. lia.
    + now apply conds_head in CD.
    + destruct (IH2 T R b (flag p (n_type n)) G1 L1 c1 c) as (G2 & L2 & F2 & IN2 & SL2); auto.
      * exact (proj1 (proj1 (scope_entries D w src T) _ _ _ _ ST EN ltac:(intros k K; apply TK, in_app_iff; now left))).
      * intros k K. apply TK, in_app_iff. now right.
      * intros j J. destruct (CV j J) as [X|[X|X]]; auto. apply in_app_iff in X as [X|X]; auto.
      * rewrite SL1. now apply conds_tail in CD.
      * exists G2, L2. split; [now apply fb_cons with (flag p (n_type n)) G1 L1|]. split; [|congruence].
        intros j [J|J]; [apply IN2; left; apply IN1; now left|]. apply in_app_iff in J as [J|J]; apply IN2; [left; apply IN1; now right|now right].
Qed.
End Static.
