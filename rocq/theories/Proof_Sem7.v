(** Proofs about the semantic checks: uses of names. *)
From Coq Require Import List Arith NArith ZArith Bool Lia Ascii String.
From Verif Require Import Base Model_Token Model_Utf8 Model_Classify Model_Literal Model_Parse Model_Sem.
From Verif Require Import Spec_Utf8 Spec_Parse Spec_Sem Spec_Sem2 Proof_Parse2 Proof_Parse5 Proof_Sem Proof_Sem2 Proof_Sem4.
Import ListNotations.
Open Scope list_scope.
Open Scope nat_scope.

(** * The marks of symbols *)

Definition rd (s : sst) (k : nat) : bool :=
  match nth_error (s_syms s) k with Some y => match y_kind y with KVar v => v_read v | _ => false end | None => false end.
Definition wr (s : sst) (k : nat) : bool :=
  match nth_error (s_syms s) k with Some y => match y_kind y with KVar v => v_reassigned v | _ => false end | None => false end.
Definition cl (s : sst) (k : nat) : bool :=
  match nth_error (s_syms s) k with Some y => match y_kind y with KFunc f => f_called f | _ => false end | None => false end.

Definition keeps (a b : kind) : Prop :=
  match a, b with
  | KVar v, KVar v' => v_const v' = v_const v /\ v_exported v' = v_exported v /\ v_type v' = v_type v /\ (forall b, v_cexpr v = Some b -> v_cexpr v' = Some b)
  | KFunc f, KFunc f' => f_external f' = f_external f /\ f_export f' = f_export f
  | KAlias _, KAlias _ | KSpace _, KSpace _ => True
  | _, _ => False
  end.
Lemma keeps_refl : forall a, keeps a a.
Proof. intros [| | |]; cbn; auto. Qed.
Lemma keeps_trans : forall a b c, keeps a b -> keeps b c -> keeps a c.
Proof.
  intros [| | |] [| | |] [| | |]; cbn; try tauto.
  - intros (? & ? & ? & A) (? & ? & ? & B). repeat split; try congruence. auto.
  - intros (? & ?) (? & ?). split; congruence.
Qed.

(** The messages of the walk over the tree. *)
Definition early (m : smsg) : Prop :=
  ~ unused_code (sm_code m).

(** p: parameters, r: reads, a: assignments, c: calls, n: declarations. *)
Record hist (s s' : sst) (p r a c n : list nat) : Prop := mkhist {
  hs_len : List.length (s_syms s) <= List.length (s_syms s');
  hs_keep : forall k y, nth_error (s_syms s) k = Some y ->
    exists y', nth_error (s_syms s') k = Some y' /\ (y_name y' = y_name y /\ y_loc y' = y_loc y) /\ keeps (y_kind y) (y_kind y');
  hs_rd : forall k, ~ In k p -> (rd s' k = true <-> rd s k = true \/ In k r);
  hs_wr : forall k, ~ In k p -> (wr s' k = true <-> wr s k = true \/ In k a);
  hs_cl : forall k, cl s' k = true <-> cl s k = true \/ In k c;
  hs_nodup : NoDup n;
  hs_range : forall k, In k n -> List.length (s_syms s) <= k < List.length (s_syms s');
  hs_msgs : exists new, s_msgs s' = new ++ s_msgs s /\ Forall early new }.

Lemma hist_refl : forall s s', s_syms s' = s_syms s -> s_msgs s' = s_msgs s -> hist s s' [] [] [] [] [].
Proof.
  intros s s' E M. constructor.
  - now rewrite E.
  - intros k y H. exists y. rewrite E. split; [easy|]. split; [easy|apply keeps_refl].
  - intros k _. unfold rd. rewrite E. cbn. tauto.
  - intros k _. unfold wr. rewrite E. cbn. tauto.
  - intros k. unfold cl. rewrite E. cbn. tauto.
  - constructor.
  - intros k [].
  - exists []. rewrite M. auto.
Qed.

Lemma nodup_app : forall (a b : list nat), NoDup a -> NoDup b -> (forall k, In k a -> In k b -> False) -> NoDup (a ++ b).
Proof.
  induction a as [|x a IH]; intros b A B D; [exact B|]. inversion A as [|? ? X Y]; subst. cbn. constructor.
  - intro I. apply in_app_iff in I as [I|I]; [contradiction|]. apply (D x); [now left|exact I].
  - apply IH; auto. intros k I J. apply (D k); [now right|exact J].
Qed.

Lemma hist_trans : forall s1 s2 s3 p r a c n p' r' a' c' n', hist s1 s2 p r a c n -> hist s2 s3 p' r' a' c' n' ->
  hist s1 s3 (p ++ p') (r ++ r') (a ++ a') (c ++ c') (n ++ n').
Proof.
  intros s1 s2 s3 p r a c n p' r' a' c' n' [A1 A2 A3 A4 A5 A6 A7 A8] [B1 B2 B3 B4 B5 B6 B7 B8]. constructor.
  - lia.
  - intros k y H. destruct (A2 k y H) as (y1 & E1 & L1 & K1). destruct (B2 k y1 E1) as (y2 & E2 & L2 & K2).
    exists y2. split; [easy|]. split; [destruct L1, L2; split; congruence|]. now apply keeps_trans with (y_kind y1).
  - intros k NI. rewrite in_app_iff in NI. rewrite in_app_iff. rewrite B3 by tauto. rewrite A3 by tauto. tauto.
  - intros k NI. rewrite in_app_iff in NI. rewrite in_app_iff. rewrite B4 by tauto. rewrite A4 by tauto. tauto.
  - intros k. rewrite in_app_iff. rewrite B5, A5. tauto.
  - apply nodup_app; auto. intros k I J. apply A7 in I. apply B7 in J. lia.
  - intros k I. apply in_app_iff in I as [I|I]; [apply A7 in I|apply B7 in I]; lia.
  - destruct A8 as (m & EM & FM). destruct B8 as (m' & EM' & FM'). exists (m' ++ m). rewrite EM', EM, app_assoc. split; [easy|].
    apply Forall_app. auto.
Qed.

Lemma hist_trans0 : forall s1 s2 s3 p r a c n, hist s1 s2 [] [] [] [] [] -> hist s2 s3 p r a c n -> hist s1 s3 p r a c n.
Proof. intros s1 s2 s3 p r a c n H1 H2. exact (hist_trans _ _ _ _ _ _ _ _ _ _ _ _ _ H1 H2). Qed.
Lemma hist_trans1 : forall s1 s2 s3 p r a c n, hist s1 s2 p r a c n -> hist s2 s3 [] [] [] [] [] -> hist s1 s3 p r a c n.
Proof. intros s1 s2 s3 p r a c n H1 H2. pose proof (hist_trans _ _ _ _ _ _ _ _ _ _ _ _ _ H1 H2) as H. now rewrite !app_nil_r in H. Qed.

Lemma upd_nth : forall A (l : list A) k j f, nth_error (upd l k f) j = if k =? j then option_map f (nth_error l j) else nth_error l j.
Proof.
  intros A l. induction l as [|x l IH]; intros [|k] [|j] f; cbn; auto. destruct (k =? j); reflexivity.
Qed.

(** Replacing a symbol. *)
Lemma hist_kind : forall s k y kd r a c, nth_error (s_syms s) k = Some y -> keeps (y_kind y) kd ->
  (match kd with KVar v => v_read v = true <-> rd s k = true \/ In k r | _ => ~ In k r end) ->
  (match kd with KVar v => v_reassigned v = true <-> wr s k = true \/ In k a | _ => ~ In k a end) ->
  (match kd with KFunc f => f_called f = true <-> cl s k = true \/ In k c | _ => ~ In k c end) ->
  (forall j, j <> k -> ~ In j r /\ ~ In j a /\ ~ In j c) ->
  hist s (set_kind s k kd) [] r a c [].
Proof.
  intros s k y kd r a c E K HR HA HC HO. constructor.
  - cbn. now rewrite upd_length.
  - intros j z H. cbn. rewrite upd_nth. destruct (k =? j) eqn:B.
    + apply Nat.eqb_eq in B. subst j. rewrite H. cbn. assert (z = y) by congruence. subst z. eexists. split; [reflexivity|]. split; [split; reflexivity|exact K].
    + exists z. split; [easy|]. split; [easy|apply keeps_refl].
  - intros j _. unfold rd at 1. cbn. rewrite upd_nth. destruct (k =? j) eqn:B.
    + apply Nat.eqb_eq in B. subst j. rewrite E. cbn. destruct kd; try exact HR; unfold rd; rewrite E; destruct (y_kind y); cbn in K; try contradiction; intuition discriminate.
    + apply Nat.eqb_neq in B. destruct (HO j) as (H1 & _); [congruence|]. unfold rd. tauto.
  - intros j _. unfold wr at 1. cbn. rewrite upd_nth. destruct (k =? j) eqn:B.
    + apply Nat.eqb_eq in B. subst j. rewrite E. cbn. destruct kd; try exact HA; unfold wr; rewrite E; destruct (y_kind y); cbn in K; try contradiction; intuition discriminate.
    + apply Nat.eqb_neq in B. destruct (HO j) as (_ & H1 & _); [congruence|]. unfold wr. tauto.
  - intros j. unfold cl at 1. cbn. rewrite upd_nth. destruct (k =? j) eqn:B.
    + apply Nat.eqb_eq in B. subst j. rewrite E. cbn. destruct kd; try exact HC; unfold cl; rewrite E; destruct (y_kind y); cbn in K; try contradiction; intuition discriminate.
    + apply Nat.eqb_neq in B. destruct (HO j) as (_ & _ & H1); [congruence|]. unfold cl. tauto.
  - constructor.
  - intros j [].
  - exists []. auto.
Qed.

(** Adding a symbol that is not marked. *)
Definition unmarked (k : kind) : Prop :=
  match k with KVar v => v_read v = false /\ v_reassigned v = false | KFunc f => f_called f = false | _ => True end.

Lemma add_symbol_msgs : forall s y s' k, scope_add_symbol s y = Pass s' (Some k) -> s_msgs s' = s_msgs s.
Proof.
  intros s y s' k H. unfold scope_add_symbol in H. apply rbind_pass in H as (old & H1 & H).
  destruct old as [t|]. { destruct (redefinition t (symtype_of (y_kind y)) (y_name y)); discriminate. }
  destruct (s_scope s) as [i|] eqn:SC.
  - apply rbind_pass in H as (c & HC & H). destruct (assoc _ (y_name y)) eqn:A; [discriminate|]. inversion H; subst. reflexivity.
  - unfold make_scope in H. apply rbind_pass in H as (c & HC & H). destruct (assoc _ (y_name y)) eqn:A; [discriminate|].
    inversion H; subst. reflexivity.
Qed.
Lemma add_or_stop_msgs : forall s y s' k, add_or_stop s y = Pass s' k -> s_msgs s' = s_msgs s.
Proof.
  intros s y s' k H. unfold add_or_stop in H. apply sbind_pass in H as (s1 & [k1|] & H1 & H); [|discriminate].
  inversion H; subst. now apply add_symbol_msgs in H1.
Qed.
Lemma add_param_msgs : forall s y s' k, scope_add_param s y = Pass s' k -> s_msgs s' = s_msgs s.
Proof.
  intros s y s' k H. unfold scope_add_param in H. apply rbind_pass in H as (k0 & _ & H). destruct k0; [discriminate|].
  apply rbind_pass in H as (old & _ & H). destruct old; [discriminate|]. apply sbind_pass in H as (s1 & [k1|] & H1 & H); [|discriminate].
  inversion H; subst. now apply add_symbol_msgs in H1.
Qed.

Lemma nth_app_last : forall A (l : list A) x j, nth_error (l ++ [x]) j = if j =? List.length l then Some x else nth_error l j.
Proof.
  intros A l x. induction l as [|z l IH]; intros [|j]; cbn; auto. now destruct j.
Qed.

Lemma hist_added : forall s s' k y, added s s' k y -> s_msgs s' = s_msgs s -> unmarked (y_kind y) -> hist s s' [] [] [] [] [k].
Proof.
  intros s s' k y A M U. pose proof (ad_k _ _ _ _ A) as EK. pose proof (ad_syms _ _ _ _ A) as ES. constructor.
  - rewrite ES, app_length. lia.
  - intros j z H. exists z. split; [|split; [easy|apply keeps_refl]]. rewrite ES. rewrite nth_error_app1; [easy|]. apply nth_error_Some. congruence.
  - intros j _. unfold rd. rewrite ES, nth_app_last. destruct (j =? List.length (s_syms s)) eqn:B; [|cbn; tauto].
    apply Nat.eqb_eq in B. assert (N0 : nth_error (s_syms s) j = None) by (apply nth_error_None; lia). rewrite N0.
    destruct (y_kind y); cbn in *; intuition congruence.
  - intros j _. unfold wr. rewrite ES, nth_app_last. destruct (j =? List.length (s_syms s)) eqn:B; [|cbn; tauto].
    apply Nat.eqb_eq in B. assert (N0 : nth_error (s_syms s) j = None) by (apply nth_error_None; lia). rewrite N0.
    destruct (y_kind y); cbn in *; intuition congruence.
  - intros j. unfold cl. rewrite ES, nth_app_last. destruct (j =? List.length (s_syms s)) eqn:B; [|cbn; tauto].
    apply Nat.eqb_eq in B. assert (N0 : nth_error (s_syms s) j = None) by (apply nth_error_None; lia). rewrite N0.
    destruct (y_kind y); cbn in *; intuition congruence.
  - repeat constructor. intros [].
  - intros j [<-|[]]. rewrite ES, app_length. cbn. lia.
  - exists []. rewrite M. auto.
Qed.
Lemma hist_param : forall s s' k y v, added s s' k y -> s_msgs s' = s_msgs s -> y_kind y = KVar v -> hist s s' [k] [] [] [] [k].
Proof.
  intros s s' k y v A M U. pose proof (ad_k _ _ _ _ A) as EK. pose proof (ad_syms _ _ _ _ A) as ES. constructor.
  - rewrite ES, app_length. lia.
  - intros j z H. exists z. split; [|split; [easy|apply keeps_refl]]. rewrite ES. rewrite nth_error_app1; [easy|]. apply nth_error_Some. congruence.
  - intros j NI. unfold rd. rewrite ES, nth_app_last. destruct (j =? List.length (s_syms s)) eqn:B; [|cbn; tauto].
    apply Nat.eqb_eq in B. exfalso. apply NI. left. lia.
  - intros j NI. unfold wr. rewrite ES, nth_app_last. destruct (j =? List.length (s_syms s)) eqn:B; [|cbn; tauto].
    apply Nat.eqb_eq in B. exfalso. apply NI. left. lia.
  - intros j. unfold cl. rewrite ES, nth_app_last. destruct (j =? List.length (s_syms s)) eqn:B; [|cbn; tauto].
    apply Nat.eqb_eq in B. assert (N0 : nth_error (s_syms s) j = None) by (apply nth_error_None; lia). rewrite N0, U. cbn. intuition discriminate.
  - repeat constructor. intros [].
  - intros j [<-|[]]. rewrite ES, app_length. cbn. lia.
  - exists []. rewrite M. auto.
Qed.

Lemma warn_hist : forall w c l s s' u, warn w c l s = Pass s' u -> early (mksmsg c l) -> hist s s' [] [] [] [] [].
Proof.
  intros w c l s s' u H E. unfold warn in H. destruct (w_werror w); [discriminate|]. inversion H; subst. constructor; auto.
  - intros k y N1. exists y. split; [easy|]. split; [easy|apply keeps_refl].
  - intros k _. cbn. tauto.
  - intros k _. cbn. tauto.
  - intros k. cbn. tauto.
  - constructor.
  - intros k [].
  - exists [mksmsg c l]. split; [reflexivity|]. constructor; [exact E|constructor].
Qed.

(** * Expressions *)

Fixpoint reads (x : texpr) : list nat :=
  match x with
  | XVar _ k _ _ => [k]
  | XConst _ _ _ => []
  | XCall _ _ args _ => flat_map reads args
  | XUn _ r _ _ => reads r
  | XBin _ l r _ _ => reads l ++ reads r
  end.
Fixpoint calls (x : texpr) : list nat :=
  match x with
  | XVar _ _ _ _ | XConst _ _ _ => []
  | XCall _ k args _ => k :: flat_map calls args
  | XUn _ r _ _ => calls r
  | XBin _ l r _ _ => calls l ++ calls r
  end.

(** The order of marks does not matter. *)
Lemma hist_same : forall s s' p r a c n r' a' c', hist s s' p r a c n -> (forall k, In k r <-> In k r') -> (forall k, In k a <-> In k a') ->
  (forall k, In k c <-> In k c') -> hist s s' p r' a' c' n.
Proof.
  intros s s' p r a c n r' a' c' [A1 A2 A3 A4 A5 A6 A7 A8] R A C. constructor; auto.
  - intros k NI. rewrite A3 by exact NI. now rewrite R.
  - intros k NI. rewrite A4 by exact NI. now rewrite A.
  - intros k. rewrite A5. now rewrite C.
Qed.

Lemma ident_hist : forall src s t s' x, validate_ident_expr src s t = Pass s' x -> hist s s' [] (reads x) [] (calls x) [].
Proof.
  intros src s t s' x H. unfold validate_ident_expr in H. apply sbind_pass in H as (s1 & (k, v) & H1 & H).
  apply find_var_spec in H1 as (-> & n & y & _ & _ & N1 & K & _). inversion H; subst. cbn [reads calls].
  apply hist_kind with y; auto.
  - rewrite K. cbn. auto.
  - cbn. tauto.
  - cbn. unfold wr. rewrite N1, K. tauto.
  - intros j NE. cbn. intuition congruence.
Qed.

Lemma args_hist : forall ve args s tys s' xs,
  Forall (fun a => forall s s' x, ve s (snd a) = Pass s' x -> hist s s' [] (reads x) [] (calls x) []) args ->
  check_args ve s args tys = Pass s' xs -> hist s s' [] (flat_map reads xs) [] (flat_map calls xs) [].
Proof.
  intros ve args. induction args as [|(tk, a) args IH]; intros s tys s' xs HF H; destruct tys as [|t tys]; cbn [check_args] in H.
  - inversion H; subst. now apply hist_refl.
  - discriminate.
  - inversion H; subst. now apply hist_refl.
  - inversion HF as [|? ? F1 F2]; subst. apply sbind_pass in H as (s1 & x & H1 & H). apply F1 in H1.
    destruct (ty_eqb (x_ty x) t); [|unwind H]. apply sbind_pass in H as (s2 & xs1 & H2 & H).
    apply (IH _ _ _ _ F2) in H2. inversion H; subst. cbn [flat_map].
    exact (hist_trans _ _ _ _ _ _ _ _ _ _ _ _ _ H1 H2).
Qed.

Lemma expr_hist : forall w src e s s' x, validate_expr w src s e = Pass s' x -> hist s s' [] (reads x) [] (calls x) [].
Proof.
  intros w src e. induction e using expr_ind'; intros s s' x H'; cbn [validate_expr] in H'.
  - now apply ident_hist in H'.
  - assert (C : reads x = [] /\ calls x = []).
    { unfold validate_const_expr in H'. destruct (t_type t); try discriminate; unwind H'; auto.
      - apply literal_pass in H' as (z & _ & H'). now inversion H'.
      - apply literal_pass in H' as (z & _ & H'). now inversion H'.
      - destruct (const_str src t) as [[r|]|]; try discriminate. apply literal_pass in H' as (z & _ & H'). now inversion H'. }
    destruct C as [-> ->]. apply const_calm in H'. subst. now apply hist_refl.
  - apply sbind_pass in H' as (s1 & (k, f) & H1 & H').
    apply sbind_pass in H' as (s2 & xs & H2 & H'). inversion H'; subst. cbn [reads calls].
    apply call_head_spec in H1 as (-> & _ & nm & y & _ & _ & HY & HK).
    assert (HC : hist s (set_kind s k (KFunc (mark_called f))) [] [] [] [k] []).
    { apply hist_kind with y; auto.
      - rewrite HK. cbn. auto.
      - cbn. tauto.
      - intros j NE. cbn. intuition congruence. }
    apply (args_hist _ _ _ _ _ _ H) in H2. exact (hist_trans _ _ _ _ _ _ _ _ _ _ _ _ _ HC H2).
  - discriminate.
  - apply sbind_pass in H' as (s1 & r & H1 & H'). apply IHe in H1. apply sbind_pass in H' as (s2 & t & H2 & H').
    apply unary_same in H2. inversion H'; subst. easy.
  - apply sbind_pass in H' as (s1 & r & H1 & H'). discriminate.
  - apply sbind_pass in H' as (s1 & r & H1 & H'). apply IHe2 in H1.
    apply sbind_pass in H' as (s2 & l & H2 & H'). apply IHe1 in H2.
    destruct (ty_eqb (x_ty l) (x_ty r)); [|discriminate]. apply sbind_pass in H' as (s3 & t & H3 & H').
    apply binary_same in H3. inversion H'; subst. cbn [reads calls].
    pose proof (hist_trans _ _ _ _ _ _ _ _ _ _ _ _ _ H1 H2) as HT. apply (hist_same _ _ _ _ _ _ _ _ _ _ HT); intro j; rewrite ?in_app_iff; tauto.
Qed.

Lemma bool_hist : forall w x s s' u, validate_bool_expr w x s = Pass s' u -> hist s s' [] [] [] [] [].
Proof.
  intros w x s s' u H. unfold validate_bool_expr in H. destruct (ty_eqb (x_ty x) TBool) eqn:B; [|discriminate]. cbn [negb] in H.
  destruct x; try (inversion H; subst; now apply hist_refl). destruct v; try (inversion H; subst; now apply hist_refl).
  apply warn_hist in H; [exact H|]. destruct b; intros (? & [X|[X|X]]); discriminate X.
Qed.
Lemma condition_hist : forall w src s e s' x, validate_condition w src s e = Pass s' x -> hist s s' [] (reads x) [] (calls x) [].
Proof.
  intros w src s e s' x H. unfold validate_condition in H. apply sbind_pass in H as (s1 & y & H1 & H).
  apply sbind_pass in H as (s2 & u & H2 & H). inversion H; subst. apply expr_hist in H1. apply bool_hist in H2.
  now apply hist_trans1 with s1.
Qed.

(** * Statements *)

Definition reads_here (x : tnode) : list nat := match tn_pay x with XDef _ e | XSet _ e | XExpr e => reads e | _ => [] end.
Definition calls_here (x : tnode) : list nat := match tn_pay x with XDef _ e | XSet _ e | XExpr e => calls e | _ => [] end.
Definition sets_here (x : tnode) : list nat := match tn_pay x with XSet k _ => [k] | _ => [] end.
Definition params_here (x : tnode) : list nat := match tn_pay x with XProto _ ks => ks | _ => [] end.
Fixpoint all (f : tnode -> list nat) (x : tnode) : list nat :=
  match x with mktnode _ _ _ c => f x ++ flat_map (all f) c end.
Lemma all_numbers : forall x, numbers x = all numbers_here x.
Proof.
  fix IH 1. intros [ty tok p c]. cbn [numbers all]. f_equal. induction c as [|y c IHc]; cbn; [reflexivity|]. now rewrite IH, IHc.
Qed.

Definition hists (s s' : sst) (l : list tnode) : Prop :=
  hist s s' (flat_map (all params_here) l) (flat_map (all reads_here) l) (flat_map (all sets_here) l) (flat_map (all calls_here) l) (flat_map (all numbers_here) l).

Lemma scope_refl : forall s s', s_syms s' = s_syms s -> s_msgs s' = s_msgs s -> hist s s' [] [] [] [] [].
Proof. exact hist_refl. Qed.
Lemma reset_hist : forall s s', reset_scope_head s = Ok s' -> hist s s' [] [] [] [] [].
Proof. intros s s' H. unfold reset_scope_head in H. apply bind_ok in H as (h & _ & H). inversion H; subst. now apply hist_refl. Qed.
Lemma restore_hist : forall s s', restore_parent_scope s = Ok s' -> hist s s' [] [] [] [] [].
Proof.
  intros s s' H. unfold restore_parent_scope in H. apply bind_ok in H as (s1 & H1 & H). apply reset_hist in H1.
  apply hist_trans0 with s1; [exact H1|]. destruct (s_scope s1); [|inversion H; subst; now apply hist_refl].
  apply bind_ok in H as (c & _ & H). inversion H; subst. now apply hist_refl.
Qed.
Lemma adjacent_hist : forall s s', make_adjacent_scope s = Ok s' -> hist s s' [] [] [] [] [].
Proof.
  intros s s' H. unfold make_adjacent_scope in H. destruct (s_scope s); [|discriminate]. inversion H; subst. now apply hist_refl.
Qed.
Lemma child_hist : forall s s', make_child_scope s = Ok s' -> hist s s' [] [] [] [] [].
Proof.
  intros s s' H. unfold make_child_scope in H. destruct (s_scope s).
  - apply bind_ok in H as (c & _ & H). destruct (c_child c); inversion H; subst; now apply hist_refl.
  - unfold make_scope in H. apply bind_ok in H as (c & _ & H). destruct (c_child c); inversion H; subst; now apply hist_refl.
Qed.

Lemma setup_hist : forall sub s s' c, setup_and_validate sub s = Pass s' c ->
  exists s1 s2, sub s1 = Pass s2 c /\ hist s s1 [] [] [] [] [] /\ hist s2 s' [] [] [] [] [].
Proof.
  intros sub s s' c H. apply setup_pass in H as (s1 & s2 & s3 & s4 & H1 & H2 & H3 & H4 & H5).
  exists s1, s2. split; [easy|]. apply child_hist in H1. apply reset_hist in H3. apply restore_hist in H4. apply adjacent_hist in H5.
  split; [easy|]. apply hist_trans0 with s3; auto. now apply hist_trans0 with s4.
Qed.

Lemma params_loop_hist : forall src ext ps s s' l, params_loop src ext s ps = Pass s' l -> hist s s' (map snd l) [] [] [] (map snd l).
Proof.
  intros src ext ps. induction ps as [|p ps IH]; intros s s' l H; cbn [params_loop] in H; [inversion H; subst; now apply hist_refl|].
  apply rbind_pass in H as (t & _ & H). destruct t as [t|]; [|unwind H]. apply rbind_pass in H as ((n, v) & _ & H).
  apply sbind_pass in H as (s1 & k & H1 & H). apply sbind_pass in H as (s2 & l2 & H2 & H). apply IH in H2.
  inversion H; subst. pose proof (add_param_msgs _ _ _ _ H1) as M. apply add_param_added in H1.
  eapply hist_param in H1; [|exact M|reflexivity]. cbn [map snd]. exact (hist_trans _ _ _ _ _ _ _ _ _ _ _ _ _ H1 H2).
Qed.

Lemma func_params_hist : forall src s ext num ps s' l, validate_func_params src s ext num ps = Pass s' l -> hist s s' (map snd l) [] [] [] (map snd l).
Proof.
  intros src s ext num ps s' l H. unfold validate_func_params in H. destruct (num =? 0)%N; [inversion H; subst; now apply hist_refl|].
  apply rbind_pass in H as (s1 & H1 & H). apply sbind_pass in H as (s2 & l2 & H2 & H).
  apply rbind_pass in H as (s3 & H3 & H). inversion H; subst. apply child_hist in H1. apply params_loop_hist in H2.
  apply restore_hist in H3. apply hist_trans0 with s1; auto. now apply hist_trans1 with s2.
Qed.

Lemma func_head_hist : forall src s name ret num ext exp ps s' k l, func_head src s name ret num ext exp ps = Pass s' (k, l) ->
  hist s s' l [] [] [] (k :: l) /\ exists y f, nth_error (s_syms s') k = Some y /\ (y_loc y = t_loc name /\ spells src name (y_name y)) /\ y_kind y = KFunc f.
Proof.
  intros src s name ret num ext exp ps s' k l H. unfold func_head in H. apply rbind_pass in H as (top & _ & H).
  destruct ((exp || ext) && negb top); [discriminate|]. apply sbind_pass in H as (s1 & t & H1 & H).
  apply return_type_same in H1. subst s1. apply rbind_pass in H as (n & HN & H). apply mbs_spells in HN. cbv zeta in H.
  apply sbind_pass in H as (s2 & k2 & H2 & H). apply sbind_pass in H as (s3 & l3 & H3 & H).
  apply func_params_hist in H3. pose proof (add_or_stop_msgs _ _ _ _ H2) as M2. apply add_or_stop_added in H2. assert (k2 = k) by (now inversion H). subst k2.
  inversion H; subst s' l. clear H.
  assert (E2 : nth_error (s_syms s2) k = Some (mksym n (t_loc name) (KFunc (mkfunc ext exp t num [] false)))).
  { rewrite (ad_syms _ _ _ _ H2), (ad_k _ _ _ _ H2). rewrite nth_error_app2, Nat.sub_diag by lia. reflexivity. }
  apply hist_added in H2; [|exact M2|reflexivity].
  assert (H3' : hist s2 s3 (map snd l3) [] [] [] (map snd l3)).
  { apply hist_trans0 with (set_funcs s2 k (Some (s_cur s))); [now apply hist_refl|exact H3]. }
  destruct (hs_keep _ _ _ _ _ _ _ H3' k _ E2) as (y3 & E3 & L3 & K3). cbn [y_kind] in K3. destruct (y_kind y3) as [|f3| |] eqn:KY; cbn in K3; try contradiction.
  assert (C3 : cl s3 k = false).
  { destruct (cl s3 k) eqn:C; [|reflexivity]. apply (hs_cl _ _ _ _ _ _ _ H3') in C as [C|[]]. unfold cl in C. rewrite E2 in C. discriminate C. }
  assert (H4 : hist s3 (set_kind s3 k (KFunc (put_params (map fst l3) (mkfunc ext exp t num [] false)))) [] [] [] [] []).
  { apply hist_kind with y3; auto.
    - rewrite KY. cbn. split; symmetry; apply K3.
    - cbn [f_called put_params]. rewrite C3. split; [intro X; discriminate X|intros [X|[]]; discriminate X]. }
  split.
  - pose proof (hist_trans _ _ _ _ _ _ _ _ _ _ _ _ _ H2 H3') as HT. cbn [app] in HT. now apply hist_trans1 with s3.
  - eexists _, _. split; [apply nth_set_kind; exact E3|]. split; [split; [exact (proj2 L3)|exact (eq_ind_r (spells src name) HN (proj1 L3))]|reflexivity].
Qed.

(** What the symbol of a declaration says. *)
Definition stated (src : text) (s : sst) (n : node) (x : tnode) : Prop :=
  match tn_pay x with
  | XDef k _ => exists y v t r e i, n_pay n = PVarDef (t :: r) e i (v_const v) (v_exported v) /\ n_type n = N_VAR_DEF /\
      nth_error (s_syms s) k = Some y /\ (y_loc y = t_loc t /\ spells src t (y_name y)) /\ y_kind y = KVar v
  | XProto k _ => exists y f t ret num ext exp ps, n_pay n = PProto t ret num ext exp ps /\ n_type n = N_FUNCTION_PROTO /\
      nth_error (s_syms s) k = Some y /\ (y_loc y = t_loc t /\ spells src t (y_name y)) /\ y_kind y = KFunc f
  | _ => True
  end.
Lemma stated_hist : forall src s s' p r a c ns n x, hist s s' p r a c ns -> stated src s n x -> stated src s' n x.
Proof.
  intros src s s' p r a c ns n x H S. unfold stated in *. destruct (tn_pay x); auto.
  - destruct S as (y & v & t & q & e' & i & P & T & E & L & K). destruct (hs_keep _ _ _ _ _ _ _ H _ _ E) as (y' & E' & (N' & L') & K').
    rewrite K in K'. cbn in K'. destruct (y_kind y') as [v'| | |] eqn:KY; try contradiction. destruct K' as (K1 & K2 & _).
    exists y', v', t, q, e', i. rewrite K1, K2, N', L'. auto 7.
  - destruct S as (y & f & t & ret & num & ext & exp & ps & P & T & E & L & K). destruct (hs_keep _ _ _ _ _ _ _ H _ _ E) as (y' & E' & (N' & L') & K').
    rewrite K in K'. cbn in K'. destruct (y_kind y') as [|f'| |] eqn:KY; try contradiction.
    exists y', f', t, ret, num, ext, exp, ps. rewrite N', L'. auto 7.
Qed.

Lemma make_variable_fields : forall src t ty c i e d n v, make_variable src t ty c i e d = Ok (n, v) ->
  v_const v = c /\ v_exported v = e /\ v_read v = false /\ v_reassigned v = false /\ v_cexpr v = None.
Proof.
  intros src t ty c i e d n v H. unfold make_variable in H. apply bind_ok in H as (m & _ & H). destruct (is_valid_identifier_str m); [|discriminate].
  destruct (c32stombs m); [|discriminate]. inversion H; subst. auto.
Qed.

Lemma var_def_hist : forall w src s tok te name e i c x s' p,
  validate_stmt_var_def w src s tok te name e i c x = Pass s' p ->
  p = XAlias /\ hist s s' [] [] [] [] [] \/
  exists k y, p = XDef k y /\ hist s s' [] (reads y) [] (calls y) [k] /\
    exists z v t r, name = t :: r /\ nth_error (s_syms s') k = Some z /\ (y_loc z = t_loc t /\ spells src t (y_name z)) /\ y_kind z = KVar v /\ v_const v = c /\ v_exported v = x /\
      v_cexpr v = Some (x_cexpr y) /\ v_type v = x_ty y.
Proof.
  intros w src s tok te name e i c x s' p H. unfold validate_stmt_var_def in H. destruct te as [|t0 rest]; [discriminate|].
  apply rbind_pass in H as (ty & _ & H). destruct ty as [ty|].
  - left. unfold validate_stmt_type_alias in H. destruct (negb c); [unwind H|]. cbv zeta in H.
    destruct (negb _); [unwind H|]. destruct tok as [|t [|q r]]; try discriminate.
    apply rbind_pass in H as (tt & _ & H). apply rbind_pass in H as (n & _ & H).
    apply sbind_pass in H as (s1 & k & H1 & H). inversion H; subst. split; [reflexivity|]. pose proof (add_or_stop_msgs _ _ _ _ H1) as M1.
    apply add_or_stop_added in H1. apply hist_added in H1; [|exact M1|exact I].
    destruct H1 as [A1 A2 A3 A4 A5 A6 A7 A8]. constructor; auto; [constructor|]. intros j [].
  - right. apply sbind_pass in H as (s1 & y & H1 & H). apply sbind_pass in H as (s2 & (k, v) & H2 & H). cbv zeta in H.
    apply sbind_pass in H as (s3 & u & H3 & H). unfold is_expr_compatible_with_var in H3. destruct (ty_eqb _ _) eqn:TQ; [|discriminate].
    apply ty_eqb_eq in TQ. inversion H3; subst s3. clear H3. exists k, y. apply expr_hist in H1.
    assert (D2 : hist s1 s2 [] [] [] [] [k] /\ v_const v = c /\ v_exported v = x /\ v_read v = false /\ v_reassigned v = false /\ v_cexpr v = None /\
      exists n t r, name = t :: r /\ spells src t n /\ nth_error (s_syms s2) k = Some (mksym n (t_loc t) (KVar v))).
    { unfold node_to_var in H2. apply sbind_pass in H2 as (s4 & u4 & H4 & H2). apply void_same in H4. subst s4.
      apply sbind_pass in H2 as (sd & td & HD & H2).
      assert (sd = s1) as ->.
      { unfold declared_type in HD. destruct i; [now inversion HD|]. apply rbind_pass in HD as (o & _ & HD).
        destruct o; [now inversion HD|unwind HD]. }
      destruct name as [|nt name]; [discriminate|]. apply rbind_pass in H2 as ((n, v5) & HM & H2).
      apply sbind_pass in H2 as (s6 & k6 & H6 & H2). assert (s6 = s2 /\ k6 = k /\ v5 = v) by (inversion H2; auto). destruct H0 as (-> & -> & ->). clear H2.
      pose proof (add_or_stop_msgs _ _ _ _ H6) as M6. apply add_or_stop_added in H6. pose proof (proj1 (variable_spells _ _ _ _ _ _ _ _ _ HM)) as SP. apply make_variable_fields in HM as (V1 & V2 & V3 & V4 & V5).
      assert (E6 : nth_error (s_syms s2) k = Some (mksym n (t_loc nt) (KVar v))).
      { rewrite (ad_syms _ _ _ _ H6), (ad_k _ _ _ _ H6). rewrite nth_error_app2, Nat.sub_diag by lia. reflexivity. }
      split; [|repeat split; auto; exists n, nt, name; auto]. apply hist_added in H6; auto. cbn. auto. }
    destruct D2 as (D2 & V1 & V2 & V3 & V4 & V5 & n & nt & r & EN & SP & E2).
    assert (D3 : hist s2 (set_kind s2 k (KVar (mark_defined (x_cexpr y) v))) [] [] [] [] []).
    { eapply hist_kind; [exact E2| | | | |].
      - cbn. repeat split. rewrite V5. discriminate.
      - cbn. unfold rd. rewrite E2. cbn. tauto.
      - cbn. unfold wr. rewrite E2. cbn. tauto.
      - cbn. tauto.
      - intros j _. cbn. tauto. }
    assert (D4 : hist s (set_kind s2 k (KVar (mark_defined (x_cexpr y) v))) [] (reads y) [] (calls y) [k]).
    { pose proof (hist_trans _ _ _ _ _ _ _ _ _ _ _ _ _ H1 D2) as HT. rewrite !app_nil_r in HT. now apply hist_trans1 with s2. }
    assert (E4 : nth_error (s_syms (set_kind s2 k (KVar (mark_defined (x_cexpr y) v)))) k = Some (mksym n (t_loc nt) (KVar (mark_defined (x_cexpr y) v)))).
    { rewrite (nth_set_kind _ _ _ _ E2). reflexivity. }
    destruct (is_const_lit y && negb i).
    + apply sbind_pass in H as (s7 & u7 & H7 & H). inversion H; subst. split; [reflexivity|].
      assert (S7 : s_syms s' = s_syms (set_kind s2 k (KVar (mark_defined (x_cexpr y) v)))).
      { unfold warn in H7. destruct (w_werror w); [discriminate|]. now inversion H7. }
      apply warn_hist in H7; [|intros (? & [X|[X|X]]); discriminate X]. split; [now apply hist_trans1 with (set_kind s2 k (KVar (mark_defined (x_cexpr y) v)))|].
      eexists _, _, nt, r. split; [reflexivity|]. rewrite S7. split; [exact E4|]. split; [split; [reflexivity|exact SP]|]. split; [reflexivity|]. split; [reflexivity|]. split; [reflexivity|]. split; [reflexivity|now symmetry].
    + inversion H; subst. split; [reflexivity|]. split; [exact D4|].
      eexists _, _, nt, r. split; [reflexivity|]. split; [exact E4|]. split; [split; [reflexivity|exact SP]|]. split; [reflexivity|]. split; [reflexivity|]. split; [reflexivity|]. split; [reflexivity|now symmetry].
Qed.

Lemma var_assign_hist : forall w src s tok e s' p, validate_stmt_var_assign w src s tok e = Pass s' p ->
  exists k y, p = XSet k y /\ hist s s' [] (reads y) [k] (calls y) [].
Proof.
  intros w src s tok e s' p H. unfold validate_stmt_var_assign in H. destruct tok as [|t tok]; [discriminate|].
  apply sbind_pass in H as (s1 & (k, v) & H1 & H). apply find_var_spec in H1 as (-> & nm & y & _ & _ & HY & HK & _).
  destruct (v_const v); [discriminate|]. cbv zeta in H. apply sbind_pass in H as (s2 & x & H2 & H).
  apply sbind_pass in H as (s3 & u3 & H3 & H). apply sbind_pass in H as (s4 & u4 & H4 & H).
  unfold is_expr_compatible_with_var in H3. destruct (ty_eqb _ _); [|discriminate]. inversion H3; subst s3.
  assert (s4 = s2) as ->.
  { unfold is_redundant_reassign in H4. destruct x; try (now inversion H4). destruct (k =? sym)%nat; [discriminate|now inversion H4]. }
  inversion H; subst s' p. exists k, x. split; [reflexivity|]. apply expr_hist in H2.
  assert (H0 : hist s (set_kind s k (KVar (mark_reassigned v))) [] [] [k] [] []).
  { apply hist_kind with y; auto.
    - rewrite HK. cbn. auto.
    - cbn. unfold rd. rewrite HY, HK. tauto.
    - cbn. tauto.
    - intros j NE. cbn. intuition congruence. }
  exact (hist_trans _ _ _ _ _ _ _ _ _ _ _ _ _ H0 H2).
Qed.

Lemma return_hist : forall w src s tok e after s' p, validate_stmt_return w src s tok e after = Pass s' p ->
  p = XNone /\ hist s s' [] [] [] [] [] \/ exists y, p = XExpr y /\ hist s s' [] (reads y) [] (calls y) [].
Proof.
  intros w src s tok e after s' p H. unfold validate_stmt_return in H. apply sbind_pass in H as (s1 & u & H1 & H).
  assert (s1 = s) as ->. { destruct after; [now inversion H1|]. now apply sane_same in H1 as (? & _). }
  destruct e as [e|].
  - right. apply sbind_pass in H as (s2 & x & H2 & H). apply sbind_pass in H as (s3 & u3 & H3 & H).
    apply sbind_pass in H as (s4 & u4 & H4 & H). apply dead_code_spec in H4 as (-> & F). apply return_ok_same in H3.
    inversion H; subst. apply expr_hist in H2. eauto.
  - left. apply rbind_pass in H as ((y, f) & _ & H). destruct (negb (ty_eqb (f_ret f) TVoid)); [unwind H|].
    apply sbind_pass in H as (s4 & u4 & H4 & H). apply dead_code_spec in H4 as (-> & F). inversion H; subst.
    split; [reflexivity|]. now apply hist_refl.
Qed.

(** * Nodes *)

(** What a node does with its block between, as marks of its checked form. *)
Definition node_hist (w : world) (src : text) (n : node) : Prop := forall before after s s' x,
  validate_ast_node w src before after n s = Pass s' x ->
  hists s s' [x] /\ (forall m y, paired m y [n] [x] -> stated src s' m y).

Lemma walk_hist : forall w src l, Forall (node_hist w src) l -> forall before s s' xs,
  walk (validate_ast_node w src) before l s = Pass s' xs -> hists s s' xs /\ (forall m y, paired m y l xs -> stated src s' m y).
Proof.
  intros w src l F. induction F as [|n l Fn Fl IH]; intros before s s' xs H.
  - cbn in H. inversion H; subst. split; [now apply hist_refl|]. intros m y P. inversion P.
  - apply walk_cons in H as (s1 & x & r & H1 & H2 & ->). destruct (Fn _ _ _ _ _ H1) as (A1 & B1). destruct (IH _ _ _ _ H2) as (A2 & B2).
    split.
    + pose proof (hist_trans _ _ _ _ _ _ _ _ _ _ _ _ _ A1 A2) as HT. cbn [flat_map] in HT. rewrite !app_nil_r in HT. exact HT.
    + intros m y P. inversion P as [? ?|? ? ? ? P'|? ? ? ? P']; subst.
      * apply (stated_hist _ _ _ _ _ _ _ _ _ _ A2). apply B1. constructor.
      * now apply B2.
      * apply (stated_hist _ _ _ _ _ _ _ _ _ _ A2). apply B1. now apply pa_below.
Qed.

Lemma untouched_all : forall f, (forall x, tn_pay x = XNone -> f x = []) -> forall l, flat_map (all f) (map untouched l) = [].
Proof.
  intros f H l. assert (Q : forall n, all f (untouched n) = []).
  { induction n as [n IH] using node_ind'. destruct n as [ty tok te p c]. cbn [untouched all n_child] in *. rewrite H by reflexivity. cbn [app].
    induction IH as [|m c E _ IHc]; cbn; [reflexivity|]. now rewrite E. }
  induction l as [|n l IH]; cbn; [reflexivity|]. now rewrite Q, IH.
Qed.
Lemma untouched_stated : forall m y l, paired m y l (map untouched l) -> tn_pay y = XNone.
Proof.
  intros m y l P. remember (map untouched l) as xs eqn:E. revert E. induction P as [l xs|q z l xs P IH|q z l xs P IH]; intro E; cbn in E; inversion E; subst.
  - now destruct m.
  - now apply IH.
  - apply IH. now destruct q.
Qed.

Lemma hists_node : forall s1 s2 ty tok p c pr r a cc n, hist s1 s2 pr r a cc n ->
  pr = params_here (mktnode ty tok p []) -> r = reads_here (mktnode ty tok p []) -> a = sets_here (mktnode ty tok p []) ->
  cc = calls_here (mktnode ty tok p []) -> n = numbers_here (mktnode ty tok p []) ->
  forall s3, hists s2 s3 c -> hists s1 s3 [mktnode ty tok p c].
Proof.
  intros s1 s2 ty tok p c pr r a cc n H -> -> -> -> -> s3 H3. unfold hists in *. cbn [flat_map all]. rewrite !app_nil_r.
  exact (hist_trans _ _ _ _ _ _ _ _ _ _ _ _ _ H H3).
Qed.
Lemma hists_leaf : forall s1 s2 ty tok p pr r a cc n, hist s1 s2 pr r a cc n ->
  pr = params_here (mktnode ty tok p []) -> r = reads_here (mktnode ty tok p []) -> a = sets_here (mktnode ty tok p []) ->
  cc = calls_here (mktnode ty tok p []) -> n = numbers_here (mktnode ty tok p []) -> hists s1 s2 [mktnode ty tok p []].
Proof.
  intros s1 s2 ty tok p pr r a cc n H -> -> -> -> ->. unfold hists in *. cbn [flat_map all]. rewrite !app_nil_r. exact H.
Qed.
Lemma hists_behind : forall s s1 s2 l, hists s s1 l -> hist s1 s2 [] [] [] [] [] -> hists s s2 l.
Proof. intros s s1 s2 l H1 H2. now apply hist_trans1 with s1. Qed.

Lemma nodes_hist : forall w src n, node_hist w src n.
Proof.
  intros w src n. induction n as [n IH] using node_ind'. intros before after s s' x H.
  apply node_ran in H as (SC & p & c & -> & R). pose proof (walk_hist w src _ IH) as W.
  destruct R as [e s' p T P H|T F|T D F|name ret num ext exp ps s' p c T P H|name e i c x s' p T P H|e s' p T P H
    |f a m s' x T P H|e s1 x s' c T P NE H1 H|s' c T B NE H|e s1 x s2 c T P NE H1 H|s' k c T H|T].
  - assert (EC : n_child n = []). { destruct SC as [SC|SC]; [exact SC|]. unfold may_have_child in SC. rewrite T in SC. discriminate SC. }
    apply return_hist in H as [(-> & H)|(y & -> & H)].
    + split; [now apply (hists_leaf _ _ _ _ _ _ _ _ _ _ H)|]. intros m y Q. inversion Q as [? ?|? ? ? ? Q'|? ? ? ? Q']; subst; [exact I|inversion Q'|rewrite EC in Q'; inversion Q'].
    + split; [now apply (hists_leaf _ _ _ _ _ _ _ _ _ _ H)|]. intros m z Q. inversion Q as [? ?|? ? ? ? Q'|? ? ? ? Q']; subst; [exact I|inversion Q'|rewrite EC in Q'; inversion Q'].
  - split; [apply (hists_leaf s s _ _ _ [] [] [] [] []); auto; now apply hist_refl|].
    intros m z Q. inversion Q as [? ?|? ? ? ? Q'|? ? ? ? Q']; subst; [exact I|inversion Q'|cbn in Q'; inversion Q'].
  - split; [apply (hists_leaf s s _ _ _ [] [] [] [] []); auto; now apply hist_refl|].
    intros m z Q. inversion Q as [? ?|? ? ? ? Q'|? ? ? ? Q']; subst; [exact I|inversion Q'|cbn in Q'; inversion Q'].
  - unfold validate_stmt_func_decl in H. cbv zeta in H.
    apply sbind_pass in H as (s1 & (k, l) & H1 & H). apply sbind_pass in H as (s2 & c2 & H2 & H).
    apply sbind_pass in H as (s3 & u & H3 & H). inversion H; subst. clear H. apply func_head_hist in H1 as (H1 & Y1).
    assert (H0 : hist s s1 l [] [] [] (k :: l)). { apply hist_trans0 with (set_depth s 0); [now apply hist_refl|exact H1]. }
    apply setup_hist in H2 as (s4 & s5 & H4 & D1 & D2). apply W in H4 as (H4 & S4).
    assert (D3 : hist s2 (set_depth s3 (s_depth s)) [] [] [] [] []).
    { unfold func_end in H3. apply rbind_pass in H3 as ((y, f) & _ & H3). destruct (f_external f); [inversion H3; subst; now apply hist_refl|].
      destruct (_ && _); [discriminate|]. destruct (_ && _); [discriminate|]. destruct (s_last s2); [|discriminate]. inversion H3; subst. now apply hist_refl. }
    assert (H5 : hists s1 (set_depth s3 (s_depth s)) c). { apply hists_behind with s5; [|now apply hist_trans0 with s2]. now apply hist_trans0 with s4. }
    split; [now apply (hists_node _ _ _ _ _ _ _ _ _ _ _ H0)|].
    intros m z Q. inversion Q as [? ?|? ? ? ? Q'|? ? ? ? Q']; subst.
    + destruct Y1 as (y & f & EY & LY & KY). apply (stated_hist _ _ _ _ _ _ _ _ _ _ H5). exists y, f, name, ret, num, ext, exp, ps. auto.
    + inversion Q'.
    + cbn in Q'. apply (stated_hist src s5 _ [] [] [] [] []); [now apply hist_trans0 with s2|]. now apply S4.
  - assert (EC : n_child n = []). { destruct SC as [SC|SC]; [exact SC|]. unfold may_have_child in SC. rewrite T in SC. discriminate SC. }
    apply var_def_hist in H as [(-> & H)|(k & y & -> & H & z & v & t & r & -> & E & L & K & V1 & V2 & _)].
    + split; [now apply (hists_leaf _ _ _ _ _ _ _ _ _ _ H)|]. intros m y Q. inversion Q as [? ?|? ? ? ? Q'|? ? ? ? Q']; subst; [exact I|inversion Q'|rewrite EC in Q'; inversion Q'].
    + split; [now apply (hists_leaf _ _ _ _ _ _ _ _ _ _ H)|]. intros m q Q. inversion Q as [? ?|? ? ? ? Q'|? ? ? ? Q']; subst; [|inversion Q'|rewrite EC in Q'; inversion Q'].
      exists z, v, t, r, e, i. auto.
  - assert (EC : n_child n = []). { destruct SC as [SC|SC]; [exact SC|]. unfold may_have_child in SC. rewrite T in SC. discriminate SC. }
    apply var_assign_hist in H as (k & y & -> & H).
    split; [now apply (hists_leaf _ _ _ _ _ _ _ _ _ _ H)|]. intros m q Q. inversion Q as [? ?|? ? ? ? Q'|? ? ? ? Q']; subst; [exact I|inversion Q'|rewrite EC in Q'; inversion Q'].
  - apply expr_hist in H. split.
    + apply (hists_node _ _ _ _ _ _ _ _ _ _ _ H); auto. unfold hists.
      rewrite !untouched_all by (intros z Z; unfold params_here, reads_here, calls_here, sets_here, numbers_here; rewrite Z; reflexivity). now apply hist_refl.
    + intros q z Q. inversion Q as [? ?|? ? ? ? Q'|? ? ? ? Q']; subst; [exact I|inversion Q'|]. cbn [tn_child] in Q'. apply untouched_stated in Q'.
      unfold stated. rewrite Q'. exact I.
  - apply condition_hist in H1. apply setup_hist in H as (s4 & s5 & H4 & D1 & D2). apply W in H4 as (H4 & S4). split.
    + apply (hists_node _ _ _ _ _ _ _ _ _ _ _ H1); auto. apply hists_behind with s5; [|exact D2]. now apply hist_trans0 with s4.
    + intros q z Q. inversion Q as [? ?|? ? ? ? Q'|? ? ? ? Q']; subst; [exact I|inversion Q'|]. apply (stated_hist _ _ _ _ _ _ _ _ _ _ D2). now apply S4.
  - apply setup_hist in H as (s4 & s5 & H4 & D1 & D2). apply W in H4 as (H4 & S4). split.
    + apply (hists_node s s _ _ _ _ [] [] [] [] []); auto; [now apply hist_refl|]. apply hists_behind with s5; [|exact D2]. now apply hist_trans0 with s4.
    + intros q z Q. inversion Q as [? ?|? ? ? ? Q'|? ? ? ? Q']; subst; [exact I|inversion Q'|]. apply (stated_hist _ _ _ _ _ _ _ _ _ _ D2). now apply S4.
  - apply condition_hist in H1. apply setup_hist in H as (s4 & s5 & H4 & D1 & D2). apply W in H4 as (H4 & S4).
    assert (H0 : hist s s1 [] (reads x) [] (calls x) []). { eapply hist_trans0; [|exact H1]. now apply hist_refl. }
    assert (D3 : hist s5 (set_depth s2 ((s_depth s2 + 2 ^ 32 - 1) mod 2 ^ 32)) [] [] [] [] []). { apply hist_trans0 with s2; [exact D2|now apply hist_refl]. }
    split.
    + apply (hists_node _ _ _ _ _ _ _ _ _ _ _ H0); auto. apply hists_behind with s5; [|exact D3]. now apply hist_trans0 with s4.
    + intros q z Q. inversion Q as [? ?|? ? ? ? Q'|? ? ? ? Q']; subst; [exact I|inversion Q'|]. apply (stated_hist _ _ _ _ _ _ _ _ _ _ D3). now apply S4.
  - unfold validate_control_namespace in H. destruct (n_token n) as [|q [|t r]]; try discriminate.
    apply rbind_pass in H as (nm & _ & H). apply sbind_pass in H as (s1 & k1 & H1 & H).
    apply sbind_pass in H as (s2 & c2 & H2 & H). pose proof (add_or_stop_msgs _ _ _ _ H1) as M1. apply add_or_stop_added in H1.
    destruct (s_scope s2); [|discriminate]. apply rbind_pass in H as (here & _ & H). destruct (c_last here); [|discriminate].
    apply rbind_pass in H as (bef & _ & H). apply rbind_pass in H as (ins & HI & H). inversion H; subst.
    assert (E1 : nth_error (s_syms s1) k = Some (mksym nm (t_loc t) (KSpace None))).
    { rewrite (ad_syms _ _ _ _ H1), (ad_k _ _ _ _ H1). rewrite nth_error_app2, Nat.sub_diag by lia. reflexivity. }
    apply hist_added in H1; [|exact M1|exact I]. apply setup_hist in H2 as (s4 & s5 & H4 & D1 & D2). apply W in H4 as (H4 & S4).
    assert (H6 : hists s1 s2 c). { apply hists_behind with s5; [|exact D2]. now apply hist_trans0 with s4. }
    destruct (hs_keep _ _ _ _ _ _ _ H6 k _ E1) as (y & EY & LY & KY). cbn in KY.
    assert (D3 : hist s2 (set_kind s2 k (KSpace ins)) [] [] [] [] []).
    { apply hist_kind with y; auto. }
    split.
    + apply (hists_node _ _ _ _ _ _ _ _ _ _ _ H1); auto. apply hists_behind with s2; auto.
    + intros qq z Q. inversion Q as [? ?|? ? ? ? Q'|? ? ? ? Q']; subst; [exact I|inversion Q'|]. apply (stated_hist _ _ _ _ _ _ _ _ _ _ D3).
      apply (stated_hist _ _ _ _ _ _ _ _ _ _ D2). now apply S4.
  - split; [apply (hists_leaf s s _ _ _ [] [] [] [] []); auto; now apply hist_refl|].
    intros m z Q. inversion Q as [? ?|? ? ? ? Q'|? ? ? ? Q']; subst; [exact I|inversion Q'|cbn in Q'; inversion Q'].
Qed.
