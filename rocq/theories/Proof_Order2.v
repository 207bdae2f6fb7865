(** Declarations stand before their uses: also those in namespaces. *)
From Coq Require Import List Arith NArith ZArith Bool Lia.
From Verif Require Import Base Model_Token Model_Literal Model_Parse Spec_Parse Model_Sem Spec_Sem Spec_Sem2 Spec_Run Spec_Order
  Proof_Sem Proof_Sem2 Proof_Sem5 Proof_Sem7 Proof_Sem8 Proof_CGen2 Proof_Order Proof_LLVM13.
Import ListNotations.
Open Scope list_scope.

Lemma mentions_here : forall x k, mentions x k -> In k (uses_here x).
Proof.
  intros x k M. unfold uses_here. destruct M as [(t & ty & c & e & E & P)|[(t & args & ty & e & E & P)|(y & E)]].
  - apply in_app_iff. left. unfold reads_here. unfold checked_expr in E. assert (R : In k (reads e)) by (apply reads_part; eauto).
    destruct (tn_pay x); try discriminate E; injection E as ->; exact R.
  - apply in_app_iff. right. apply in_app_iff. left. unfold calls_here. unfold checked_expr in E. assert (R : In k (calls e)) by (apply calls_part; eauto).
    destruct (tn_pay x); try discriminate E; injection E as ->; exact R.
  - apply in_app_iff. right. apply in_app_iff. right. unfold sets_here. rewrite E. now left.
Qed.
Lemma made_all : forall x, made [] x = numbers x.
Proof.
  intros x. induction x as [t tk p c F] using tnode_ind'. cbn [made numbers].
  assert (E : flat_map (made []) c = flat_map numbers c).
  { induction F as [|y c Y F IH]; [reflexivity|]. cbn [flat_map]. now rewrite Y, IH. }
  rewrite E. unfold is_external. destruct p as [| | | |k ks| |]; cbn [numbers_here tn_pay]; try reflexivity.
  assert (X : nth_error (@nil symbol) k = None) by (destruct k; reflexivity). rewrite X. reflexivity.
Qed.

(** What is used is declared somewhere. *)
Lemma uses_declared : forall s w src (T : nat -> Prop), (forall k inside, T k -> sig s k = Some (DSpace inside) -> entries (sig s) T inside) ->
  (forall e n x e', stmt_ok (sig s) w src e n x e' -> entries (sig s) T e -> (forall k, In k (made [] x) -> T k) ->
     forall y k, In y (listing x) -> In k (uses_here y) -> T k) /\
  (forall e l xs e', block_ok (sig s) w src e l xs e' -> entries (sig s) T e -> (forall k, In k (flat_map (made []) xs) -> T k) ->
     forall y k, In y (flat_map listing xs) -> In k (uses_here y) -> T k).
Proof.
  intros s w src T SP.
  assert (EX : forall e v y, elab (sig s) w src e v y -> entries (sig s) T e -> forall k, In k (reads y ++ calls y ++ []) -> T k).
  { intros e v y EL EN k I. rewrite app_nil_r in I. exact (proj1 (elab_resolved s w src T SP e) _ _ EL EN k I). }
  apply stmt_block_both.
  - intros e n name rest v i c x y z k _ _ _ EL _ _ _ _ _ EN TK y0 k0 [<-|[]] I. exact (EX _ _ _ EL EN k0 I).
  - intros e n name v i ex t q r x k ty _ _ _ _ _ _ _ _ _ _ _ y0 k0 [<-|[]] I. destruct I.
  - intros e n v t q r x k ty y _ _ _ _ _ RS DK EL _ EN TK y0 k0 [<-|[]] I. unfold uses_here in I. cbn [reads_here calls_here sets_here tn_pay] in I.
    rewrite app_assoc in I. apply in_app_iff in I as [I|[<-|[]]]; [apply (EX _ _ _ EL EN); rewrite app_assoc, app_nil_r; exact I|].
    destruct (resolved _ _ SP _ _ _ RS EN) as [X|(t0 & X)]; [exact X|congruence].
  - intros e n f a m y _ _ _ EL EN TK y0 k0 [<-|[]] I. exact (EX _ _ _ EL EN k0 I).
  - intros e n v y _ _ _ EL EN TK y0 k0 [<-|[]] I. exact (EX _ _ _ EL EN k0 I).
  - intros e n v y c e' _ _ EL _ _ IH EN TK y0 k0 [<-|IN] I; cbn [made numbers_here tn_pay flat_map app] in *.
    + exact (EX _ _ _ EL EN k0 I).
    + eapply IH; eauto.
  - intros e n c e' _ _ IH EN TK y0 k0 [<-|IN] I; cbn [made numbers_here tn_pay flat_map app] in *; [destruct I|eapply IH; eauto].
  - intros e n name ret num ext exp ps ts ks r x k e1 c e2 _ _ _ _ _ E PO _ IH EN TK y0 k0 [<-|IN] I; [destruct I|].
    cbn [made] in TK. unfold is_external in TK. assert (X : nth_error (@nil symbol) k = None) by (destruct k; reflexivity). rewrite X in TK.
    assert (EK : entries (sig s) T ((x, k) :: e)) by (apply entries_cons; [exact EN|left; apply TK; now left]). apply (IH) with (y := y0); auto.
    + apply (params_entries _ _ _ _ _ _ _ _ PO EK). intros k' I'. apply TK. right. apply in_app_iff. now left.
    + intros k' I'. apply TK. right. apply in_app_iff. now right.
  - intros e n t q r x k c e' _ _ _ _ E _ IH EN TK y0 k0 [<-|IN] I; [destruct I|]. cbn [made numbers_here tn_pay flat_map app] in *. apply (IH) with (y := y0); auto.
    + apply entries_cons; [exact EN|left; apply TK; now left].
    + intros k' I'. apply TK. now right.
  - intros e n _ _ _ EN TK y0 k0 [<-|[]] I. destruct I.
  - intros e _ _ y0 k0 [].
  - intros e n l x xs e1 e2 S0 IH1 _ IH2 EN TK y0 k0 IN I. cbn [flat_map] in IN, TK.
    assert (TX : forall k, In k (made [] x) -> T k) by (intros k J; apply TK; apply in_app_iff; now left).
    assert (TXS : forall k, In k (flat_map (made []) xs) -> T k) by (intros k J; apply TK; apply in_app_iff; now right).
    apply in_app_iff in IN as [IN|IN]; [now apply (IH1) with (y := y0)|].
    apply (IH2) with (y := y0); auto. exact (proj1 (proj1 (block_entries [] (sig s) w src T) _ _ _ _ S0 EN TX)).
Qed.

(** Numbers of the nodes in a listing grow. *)
Lemma numbers_listing : forall k l, In k (flat_map numbers l) -> exists y, In y (flat_map listing l) /\ In k (numbers_here y).
Proof.
  intros k l I. apply in_flat_map in I as (x & IN & I). revert l IN. induction x as [t tk p c F] using tnode_ind'. intros l IN.
  cbn [numbers] in I. apply in_app_iff in I as [I|I].
  - exists (mktnode t tk p c). split; [|exact I]. apply in_flat_map. exists (mktnode t tk p c). split; [exact IN|now left].
  - apply in_flat_map in I as (z & IZ & I). rewrite Forall_forall in F. destruct (F z IZ I c IZ) as (y & IY & K). exists y. split; [|exact K].
    apply in_flat_map. exists (mktnode t tk p c). split; [exact IN|]. right. exact IY.
Qed.
Lemma seq_low : forall a l b, seq a l b -> forall y k, In y (flat_map listing l) -> In k (numbers_here y) -> a <= k.
Proof.
  intros a l b S. induction S as [a b L|a x l b c d L U N1 S1 IH1 S2 IH2]; intros y k I K; [destruct I|].
  cbn [flat_map] in I. apply in_app_iff in I as [I|I].
  - destruct x as [t tk p ch]. cbn [listing tn_child] in *. destruct I as [<-|I]; [apply N1 in K; lia|]. specialize (IH1 _ _ I K). lia.
  - apply seq_le in S1. specialize (IH2 _ _ I K). lia.
Qed.
Lemma seq_order : forall a l b, seq a l b -> forall p x q k, flat_map listing l = p ++ x :: q -> In k (uses_here x) ->
  forall y, In y (x :: q) -> ~ In k (numbers_here y).
Proof.
  intros a l b S. induction S as [a b L|a z l b c d L U N1 S1 IH1 S2 IH2]; intros p x q k E K y IY NY.
  - destruct p; discriminate E.
  - pose proof (sq_cons _ _ _ _ _ _ L U N1 S1 S2) as SQ. cbn [flat_map] in E. destruct z as [t tk pay ch]. cbn [listing tn_child] in *.
    destruct p as [|p0 p]; cbn [app] in E; injection E as E0 E.
    + subst x. specialize (U _ K). assert (X : a <= k); [|lia]. apply (seq_low _ _ _ SQ y); [|exact NY].
      cbn [flat_map listing app]. rewrite E. exact IY.
    + apply app_eq_app in E as (m & [(E1 & E2)|(E1 & E2)]).
      * destruct m as [|m0 m]; cbn [app] in E2.
        -- apply (IH2 [] x q k) with (y := y); auto.
        -- injection E2 as -> E2. subst q. rewrite app_comm_cons in IY. apply in_app_iff in IY as [IY|IY].
           ++ apply (IH1 p m0 m k) with (y := y); auto.
           ++ assert (X : k < c). { assert (Z : In m0 (flat_map listing ch)) by (rewrite E1; apply in_app_iff; right; now left).
                clear - S1 Z K L. revert m0 k Z K. induction S1 as [a0 b0 L0|a0 x l0 b0 c0 d0 L0 U0 N0 S1 IH1 S2 IH2]; intros m0 k Z K; [destruct Z|].
                cbn [flat_map] in Z. apply seq_le in S1 as L1. apply seq_le in S2 as L2. destruct x as [t tk p ch]. cbn [listing] in Z. destruct Z as [<-|Z].
                - apply U0 in K. lia.
                - apply in_app_iff in Z as [Z|Z]; [specialize (IH1 ltac:(lia) _ _ Z K); lia|specialize (IH2 ltac:(lia) _ _ Z K); lia]. }
              pose proof (seq_low _ _ _ S2 y k IY NY). lia.
      * apply (IH2 m x q k) with (y := y); auto.
Qed.

Lemma declared_first_l : forall w src ts tree s l, accepted w src ts tree s l -> no_call_blocks tree -> few_arguments tree ->
  forall a x b k, flat_map listing l = a ++ x :: b -> mentions x k -> exists y, In y a /\ In k (numbers_here y).
Proof.
  intros w src ts tree s l A NC FA a x b k E M. apply mentions_here in M.
  destruct (final_symbols _ _ _ _ _ _ A NC FA) as (s1 & e & _ & _ & B). destruct (accepted_seq _ _ _ _ _ _ A) as (a0 & b0 & SQ).
  set (T := fun k => In k (flat_map (made []) l)).
  assert (EN : entries (sig s1) T []) by (intros n j []).
  destruct (proj2 (block_entries [] (sig s1) w src T) _ _ _ _ B EN) as (_ & SP); [auto|].
  assert (K : T k).
  { apply (proj2 (uses_declared s1 w src T SP) _ _ _ _ B EN) with (y := x); auto. rewrite E. apply in_app_iff. right. now left. }
  unfold T in K. rewrite (flat_map_ext _ _ made_all) in K. apply numbers_listing in K as (y & IY & K). exists y. split; [|exact K].
  rewrite E in IY. apply in_app_iff in IY as [IY|IY]; [exact IY|]. exfalso. exact (seq_order _ _ _ SQ _ _ _ _ E M y IY K).
Qed.
