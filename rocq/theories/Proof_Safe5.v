(** Accepted programs keep the rules of Proof_Safe2.v. *)
From Coq Require Import List Arith NArith ZArith Bool Lia.
From Verif Require Import Base Model_Token Model_Utf8 Model_Literal Model_Parse Model_Sem Spec_Parse Spec_Sem Spec_Sem2 Spec_Run Spec_LLVM Spec_Loops Spec_Safe
  Proof_Sem Proof_Sem2 Proof_Sem5 Proof_Sem6 Proof_Sem7 Proof_Sem8 Proof_Order Proof_CGen2 Proof_LLVM Proof_LLVM11 Proof_LLVM13 Proof_Safe2.
Import ListNotations.
Open Scope list_scope.
Open Scope nat_scope.

(** * Literals *)

Lemma nonzero_bytes : forall c bs, c32rtomb c = Some bs -> c <> 0%N -> Forall (fun b => b <> 0%N) bs.
Proof.
  intros c bs E N1. unfold c32rtomb in E. repeat match type of E with (if ?g then _ else _) = _ => destruct g end; try discriminate E;
    (apply (f_equal (fun o => match o with Some l => l | None => [] end)) in E; cbv beta iota in E; subst bs); repeat (apply Forall_cons; [|try apply Forall_nil]); try assumption; intro Z; apply N.lor_eq_0_iff in Z as (Z & _); discriminate Z.
Qed.
Lemma nonzero_text : forall s b, c32stombs (cut_nul s) = Some b -> forallb (fun c => negb (c =? 0)%N) b = true.
Proof.
  intros s. induction s as [|c s IH]; intros b E; cbn [cut_nul] in E; [injection E as <-; reflexivity|].
  destruct (c =? 0)%N eqn:Z; [injection E as <-; reflexivity|]. apply N.eqb_neq in Z. cbn [c32stombs] in E.
  destruct (c32rtomb c) as [bs|] eqn:C; [|discriminate E]. destruct (c32stombs (cut_nul s)) as [r|] eqn:R; [|discriminate E]. injection E as <-.
  rewrite forallb_app, (IH r eq_refl), andb_true_r. pose proof (nonzero_bytes _ _ C Z) as F. apply forallb_forall. intros x I. rewrite Forall_forall in F.
  apply F in I. now apply negb_true_iff, N.eqb_neq.
Qed.
Lemma literal_fits : forall H w src t v ty, literal_value w src t v ty -> of_type H (literal_of H v) ty = true.
Proof.
  intros H w src t v ty L. destruct L as [z _ E|f _ _|_|c _ E|b _ E]; cbn [literal_of of_type]; auto.
  - apply integer_range in E. unfold in64. apply andb_true_iff. split; [apply Z.leb_le|apply Z.ltb_lt]; lia.
  - apply rune_range in E. apply N.ltb_lt. lia.
  - unfold const_str in E. destruct (eval_str src t) as [[[s|?]|]|]; try discriminate E. destruct (c32stombs (cut_nul s)) as [r|] eqn:C; [|discriminate E].
    injection E as <-. now apply nonzero_text in C.
Qed.

(** * Names *)

(** The declarations that are in scope behind a statement. *)
Fixpoint exported (x : tnode) : list nat :=
  match x with
  | mktnode _ _ p c =>
      match p with
      | XDef k _ | XProto k _ => [k]
      | XSpace k => k :: flat_map exported c
      | _ => []
      end
  end.
Lemma exported_low : forall a l b, seq a l b -> forall k, In k (flat_map exported l) -> a <= k.
Proof.
  intros a l b S0. induction S0 as [a b L|a x l b c d L U N1 S1 IH1 S2 IH2]; intros k I; [destruct I|].
  cbn [flat_map] in I. apply in_app_iff in I as [I|I]; [|apply IH2 in I; apply seq_le in S1; lia].
  destruct x as [t tok p ch]. unfold numbers_here in N1. cbn [exported tn_pay tn_child] in *. destruct p; try (now destruct I).
  - destruct I as [<-|[]]. apply (N1 sym). now left.
  - destruct I as [<-|[]]. apply (N1 sym). now left.
  - destruct I as [<-|I]; [apply (N1 sym); now left|]. apply IH1 in I. lia.
Qed.

Section Names.
Variable D : decls.
Variable w : world.
Variable src : text.
Definition spaces_in (T : nat -> Prop) : Prop := forall k inside, T k -> D k = Some (DSpace inside) -> entries D T inside.

Lemma scope_entries : forall (T : nat -> Prop),
  (forall e n x e', stmt_ok D w src e n x e' -> entries D T e -> (forall k, In k (exported x) -> T k) ->
     entries D T e' /\ forall k inside, In k (exported x) -> D k = Some (DSpace inside) -> entries D T inside) /\
  (forall e l xs e', block_ok D w src e l xs e' -> entries D T e -> (forall k, In k (flat_map exported xs) -> T k) ->
     entries D T e' /\ forall k inside, In k (flat_map exported xs) -> D k = Some (DSpace inside) -> entries D T inside).
Proof.
  intro T. apply stmt_block_both; cbn [exported].
  - intros e n name rest v implicit const exp y x k _ _ _ _ _ _ _ _ DK EN TK. split.
    + apply entries_cons; [exact EN|]. left. apply TK. now left.
    + intros j ins [<-|[]] E2. congruence.
  - intros e n name v implicit exp t q r x k ty _ _ _ _ _ _ DK _ _ EN TK. split; [|intros j ins []]. apply entries_cons; [exact EN|]. right. eauto.
  - intros. split; [assumption|intros j ins []].
  - intros. split; [assumption|intros j ins []].
  - intros. split; [assumption|intros j ins []].
  - intros. split; [assumption|intros j ins []].
  - intros. split; [assumption|intros j ins []].
  - intros e n name ret num ext exp ps ts ks r x k e1 c e2 _ _ _ _ _ DK _ _ _ EN TK. split.
    + apply entries_cons; [exact EN|]. left. apply TK. now left.
    + intros j ins [<-|[]] E2. congruence.
  - intros e n t q r x k c e' _ _ _ _ DK _ IH EN TK.
    assert (EK : entries D T ((x, k) :: e)) by (apply entries_cons; [exact EN|left; apply TK; now left]). split; [exact EK|].
    destruct IH as (E2 & SP); [exact EK|intros j J; apply TK; now right|]. intros j ins [<-|J] E3; [|now apply (SP j)].
    rewrite DK in E3. injection E3 as <-. exact E2.
  - intros. split; [assumption|intros j ins []].
  - intros e EN _. split; [exact EN|intros j ins []].
  - intros e n l x xs e1 e2 _ IH1 _ IH2 EN TK. cbn [flat_map] in *.
    destruct IH1 as (E1 & S1); [exact EN|intros j J; apply TK, in_app_iff; now left|].
    destruct IH2 as (E2 & S2); [exact E1|intros j J; apply TK, in_app_iff; now right|]. split; [exact E2|].
    intros j ins J. apply in_app_iff in J as [J|J]; [now apply S1|now apply S2].
Qed.
Lemma entries_more : forall (T T' : nat -> Prop) e, entries D T e -> (forall k, T k -> T' k) -> entries D T' e.
Proof. intros T T' e E M n k I. destruct (E n k I) as [X|X]; auto. Qed.

(** More names for a block. *)
Lemma spaces_more : forall (T : nat -> Prop) (ks : list nat) e l xs e', spaces_in T -> entries D T e ->
  (forall k, In k ks -> exists t m, D k = Some (DVar t m)) ->
  block_ok D w src e l xs e' -> spaces_in (fun k => T k \/ In k ks \/ In k (flat_map exported xs)).
Proof.
  intros T ks e l xs e' SP EN KS B k inside TK DK. set (T' := fun k => T k \/ In k ks \/ In k (flat_map exported xs)) in *.
  assert (M : forall k, T k -> T' k) by (intros j J; now left).
  destruct TK as [TK|[TK|TK]].
  - apply entries_more with T; [now apply (SP k)|exact M].
  - destruct (KS k TK) as (t & m & E). congruence.
  - destruct (proj2 (scope_entries T') _ _ _ _ B) as (_ & S1); [now apply entries_more with T|intros j J; right; now right|]. now apply (S1 k).
Qed.
Lemma params_spaces : forall (T : nat -> Prop) (ks : list nat) e l xs e', spaces_in T -> entries D (fun k => T k \/ In k ks) e ->
  (forall k, In k ks -> exists t m, D k = Some (DVar t m)) ->
  block_ok D w src e l xs e' -> spaces_in (fun k => T k \/ In k ks \/ In k (flat_map exported xs)).
Proof.
  intros T ks e l xs e' SP EN KS B k inside TK DK. set (T' := fun k => T k \/ In k ks \/ In k (flat_map exported xs)) in *.
  assert (M : forall k, T k -> T' k) by (intros j J; now left).
  destruct TK as [TK|[TK|TK]].
  - apply entries_more with T; [now apply (SP k)|exact M].
  - destruct (KS k TK) as (t & m & E). congruence.
  - destruct (proj2 (scope_entries T') _ _ _ _ B) as (_ & S1).
    + apply entries_more with (fun k => T k \/ In k ks); [exact EN|]. intros j [J|J]; [now left|right; now left].
    + intros j J. right. now right.
    + now apply (S1 k).
Qed.

(** Names that are known stand in scope. *)
Lemma params_typed : forall e ps ts ks e', params_ok D src e ps ts ks e' -> Forall2 (fun i t => exists m, D i = Some (DVar t m)) ks ts.
Proof. intros e ps ts ks e' P. induction P as [|e p ps t ts n k ks e' _ _ _ DK _ IH]; constructor; eauto. Qed.
End Names.

(** * Expressions *)

Lemma elab_known : forall D w src T e, spaces_in D T -> entries D T e ->
  (forall a x, elab D w src e a x -> forall k, In k (reads x ++ calls x) -> T k) /\
  (forall l xs, elabs D w src e l xs -> forall k, In k (flat_map reads xs ++ flat_map calls xs) -> T k).
Proof.
  intros D w src T e SP EN. apply elab_both.
  - intros t n k ty m c _ R E j [<-|[]]. destruct (resolved _ _ SP _ _ _ R EN) as [X|(q & X)]; [exact X|congruence].
  - intros t v ty _ k [].
  - intros name args num n k ps r xs _ R E _ IH _ j I. cbn [Proof_Sem7.reads Proof_Sem7.calls] in I. apply in_app_iff in I as [I|[<-|I]].
    + apply IH, in_app_iff. now left.
    + destruct (resolved _ _ SP _ _ _ R EN) as [X|(q & X)]; [exact X|congruence].
    + apply IH, in_app_iff. now right.
  - intros a x c _ IH _ k I. now apply IH.
  - intros a x c _ IH _ k I. now apply IH.
  - intros a x c _ IH k I. now apply IH.
  - intros a x ty c _ IH _ k I. now apply IH.
  - intros o a b x y r c _ IH1 _ IH2 _ _ _ k I. cbn [Proof_Sem7.reads Proof_Sem7.calls] in I. rewrite !in_app_iff in I.
    destruct I as [[I|I]|[I|I]]; [apply IH1|apply IH2|apply IH1|apply IH2]; apply in_app_iff; auto.
  - intros k [].
  - intros a l x xs _ IH1 _ IH2 k I. cbn [flat_map] in I. rewrite !in_app_iff in I.
    destruct I as [[I|I]|[I|I]]; [apply IH1|apply IH2|apply IH1|apply IH2]; apply in_app_iff; auto.
Qed.


Definition plain_part (y : texpr) : Prop :=
  match y with
  | XUn o _ _ _ => o <> URef /\ o <> UDeref
  | XBin o _ b _ _ => o = BIs \/ o = BIsnt -> x_ty b <> TVoid /\ forall r, x_ty b <> TRef r
  | _ => True
  end.
Lemma expr_fine : forall H D w src V e,
  (forall a x, elab D w src e a x -> (forall y, xpart y x -> plain_part y) -> (forall k, In k (reads x ++ calls x) -> In k V) -> fine_expr H D V x) /\
  (forall l xs, elabs D w src e l xs -> (forall x y, In x xs -> xpart y x -> plain_part y) ->
     (forall k, In k (flat_map reads xs ++ flat_map calls xs) -> In k V) -> forall x, In x xs -> fine_expr H D V x).
Proof.
  intros H D w src V e. apply elab_both.
  - intros t n k ty m c _ _ E _ K. apply fe_var with m; [|exact E]. apply K. now left.
  - intros t v ty L _ _. apply fe_const. now apply literal_fits with w src t.
  - intros name args num n k ps r xs _ _ E _ IH M P K. cbn [Proof_Sem7.reads Proof_Sem7.calls] in K. apply fe_call.
    + apply K, in_app_iff. right. now left.
    + now rewrite M.
    + apply IH.
      * intros x y I X. apply P. now apply xp_arg with x.
      * intros j J. apply K. apply in_app_iff in J as [J|J]; apply in_app_iff; [now left|right; now right].
  - intros a x c _ IH NB P K. apply fe_neg; [|exact NB]. apply IH; [intros y X; apply P; now apply xp_un|exact K].
  - intros a x c _ IH NB P K. apply fe_not; [|exact NB]. apply IH; [intros y X; apply P; now apply xp_un|exact K].
  - intros t x c _ _ P. destruct (P _ (xp_self _)) as (N1 & _). now destruct N1.
  - intros t x ty c _ _ _ P. destruct (P _ (xp_self _)) as (_ & N1). now destruct N1.
  - intros o a b x y r c _ IH1 _ IH2 EQ OT _ P K. cbn [Proof_Sem7.reads Proof_Sem7.calls] in K. apply fe_bin; auto.
    + apply IH1; [intros z X; apply P; now apply xp_left|]. intros k I. apply K. rewrite !in_app_iff in *. tauto.
    + apply IH2; [intros z X; apply P; now apply xp_right|]. intros k I. apply K. rewrite !in_app_iff in *. tauto.
    + intro C. destruct (P _ (xp_self _) C) as (N1 & N2). unfold simple. destruct (x_ty y) as [| | | | | |t0]; auto; [now destruct N1|now destruct (N2 t0)].
  - intros _ _ x [].
  - intros a l x xs _ IH1 _ IH2 P K z [<-|I].
    + apply IH1; [intros y; apply P; now left|]. intros k J. apply K. cbn [flat_map]. rewrite !in_app_iff in *. tauto.
    + apply IH2; [intros q y J; apply P; now right|intros k J; apply K; cbn [flat_map]; rewrite !in_app_iff in *; tauto|exact I].
Qed.
