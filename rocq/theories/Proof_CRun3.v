(** Which names stand for which variables while a program runs in C. *)
From Coq Require Import List Arith NArith ZArith Bool Lia Ascii String.
From Verif Require Import Base Model_Token Model_Literal Model_Parse Model_Sem Spec_Sem Spec_Sem2 Model_CGen Spec_C Spec_CGen Spec_CProg Spec_CBack Spec_Run
  Spec_LLVM Spec_CRun Spec_CBehave Proof_Sem8 Proof_LLVM Proof_LLVM3 Proof_CRun Proof_CRun2.
Import ListNotations.
Open Scope list_scope.
Open Scope nat_scope.

Section Static.
Variable env : cctx.
Variable l : list tnode.
Variable hs : list helper.
Local Notation ys := (ce_syms env).
Local Notation same := (Spec_CGen.same).
Local Notation name_of := (name_of env).

Definition vtype (k : nat) : ty := match nth_error ys k with Some y => match y_kind y with KVar v => v_type v | _ => TVoid end | None => TVoid end.
Definition isvar (k : nat) : Prop := exists x v, is_var env k x v.
Definition isfun (k : nat) : Prop := exists x f, is_fun env k x f.
Definition initial (k : nat) (b : bool) : Prop := exists x v, is_var env k x v /\ v_cexpr v = Some b.

Lemma is_var_name : forall k x v, is_var env k x v -> name_of k = x.
Proof. intros k x v (y & E & N1 & _). unfold Spec_CBehave.name_of. now rewrite E. Qed.
Lemma is_fun_name : forall k x f, is_fun env k x f -> name_of k = x.
Proof. intros k x v (y & E & N1 & _). unfold Spec_CBehave.name_of. now rewrite E. Qed.
Lemma is_var_type : forall k x v, is_var env k x v -> vtype k = v_type v.
Proof. intros k x v (y & E & _ & K). unfold vtype. now rewrite E, K. Qed.
Lemma is_var_one : forall k x v x' v', is_var env k x v -> is_var env k x' v' -> x = x' /\ v = v'.
Proof. intros k x v x' v' (y & E & N1 & K) (y' & E' & N2 & K'). split; congruence. Qed.
Lemma is_fun_one : forall k x v x' v', is_fun env k x v -> is_fun env k x' v' -> x = x' /\ v = v'.
Proof. intros k x v x' v' (y & E & N1 & K) (y' & E' & N2 & K'). split; congruence. Qed.
Lemma var_fun : forall k, isvar k -> isfun k -> False.
Proof. intros k (x & v & (y & E & _ & K)) (x' & f & (y' & E' & _ & K')). congruence. Qed.
Lemma initial_one : forall k a b, initial k a -> initial k b -> a = b.
Proof. intros k a b (x & v & A & A') (x' & v' & B & B'). destruct (is_var_one _ _ _ _ _ A B) as (_ & ->). congruence. Qed.
Lemma is_var_mutable : forall k x v, is_var env k x v -> mutable ys k = negb (v_const v).
Proof. intros k x v (y & E & _ & K). unfold mutable. now rewrite E, K. Qed.

(** * Where variables belong *)

Definition hoisted (k : nat) : Prop := In k (flat_map outside l).
(** The node stands at the top of the program or of a function. *)
Definition home (cx : option nat) (n : tnode) : Prop :=
  match cx with
  | None => In n l
  | Some f => exists m ks, In m l /\ tn_type m = N_FUNCTION_PROTO /\ tn_pay m = XProto f ks /\ In n (tn_child m)
  end.
Definition top_of (cx : option nat) (k : nat) : Prop := exists n y, home cx n /\ tn_pay n = XDef k y.
Definition own (cx : option nat) (k : nat) : Prop :=
  match cx with
  | None => exists n, In n l /\ (forall f ks, tn_pay n <> XProto f ks) /\ In k (numbers n)
  | Some f => exists n ks, In n l /\ tn_pay n = XProto f ks /\ In k (ks ++ flat_map numbers (tn_child n))
  end.

Lemma numbers_is : forall n, numbers n = numbers_here n ++ flat_map numbers (tn_child n).
Proof. now intros [t tk p c]. Qed.
Lemma def_number : forall n k y, tn_pay n = XDef k y -> In k (numbers n).
Proof. intros n k y P. rewrite numbers_is. apply in_or_app. left. unfold numbers_here. rewrite P. now left. Qed.
Lemma proto_numbers : forall n k ks, tn_pay n = XProto k ks -> numbers n = k :: ks ++ flat_map numbers (tn_child n).
Proof. intros n k ks P. rewrite numbers_is. unfold numbers_here. rewrite P. reflexivity. Qed.

Hypothesis ND : NoDup (flat_map numbers l).
(** Functions are nodes of their own type. *)
Hypothesis PT : forall n k ks, In n l -> tn_pay n = XProto k ks -> tn_type n = N_FUNCTION_PROTO.

Lemma node_one : forall a b k, In a l -> In b l -> In k (numbers a) -> In k (numbers b) -> a = b.
Proof. intros a b k A B KA KB. exact (nodup_flat numbers k a b l ND A B KA KB). Qed.
Lemma node_nodup : forall a, In a l -> NoDup (numbers a).
Proof.
  intros a A. clear PT. induction l as [|b r IH]; [destruct A|]. cbn [flat_map] in ND. destruct A as [->|A].
  - clear -ND. revert ND. generalize (flat_map numbers r). induction (numbers a) as [|x z IH]; intros q N1; [constructor|]. cbn [app] in N1. inversion N1; subst.
    constructor; [|now apply (IH q)]. intro I. match goal with X : ~ In _ _ |- _ => apply X end. apply in_or_app. now left.
  - apply IH; [exact (proj1 (nodup_parts _ _ ND))|exact A].
Qed.
Lemma proto_one : forall n n' k ks ks', In n l -> In n' l -> tn_pay n = XProto k ks -> tn_pay n' = XProto k ks' -> n = n' /\ ks = ks'.
Proof.
  intros n n' k ks ks' A B P Q. assert (n = n') by (apply (node_one n n' k A B); [rewrite (proto_numbers _ _ _ P)|rewrite (proto_numbers _ _ _ Q)]; now left).
  subst n'. split; [reflexivity|]. congruence.
Qed.

Lemma own_apart : forall f k, own None k -> own (Some f) k -> False.
Proof.
  intros f k (n & A & NP & I) (n' & ks & B & P & J).
  assert (n = n'). { apply (node_one n n' k A B I). rewrite (proto_numbers _ _ _ P). now right. }
  subst n'. exact (NP _ _ P).
Qed.
Lemma own_one : forall f g k, own (Some f) k -> own (Some g) k -> f = g.
Proof.
  intros f g k (n & ks & A & P & I) (n' & ks' & B & Q & J).
  assert (n = n'). { apply (node_one n n' k A B); [rewrite (proto_numbers _ _ _ P)|rewrite (proto_numbers _ _ _ Q)]; now right. }
  subst n'. congruence.
Qed.
Lemma own_same : forall cx cx' k, own cx k -> own cx' k -> cx = cx'.
Proof.
  intros [f|] [g|] k A B; [|exfalso; exact (own_apart _ _ B A)|exfalso; exact (own_apart _ _ A B)|reflexivity]. f_equal. exact (own_one _ _ _ A B).
Qed.
Lemma top_own : forall cx k, top_of cx k -> own cx k.
Proof.
  intros [f|] k (n & y & HO & P); cbn [home own] in *.
  - destruct HO as (m & ks & A & _ & Q & I). exists m, ks. split; [exact A|]. split; [exact Q|]. apply in_or_app. right. apply in_flat_map. exists n.
    split; [exact I|]. exact (def_number _ _ _ P).
  - exists n. split; [exact HO|]. split; [intros f ks; rewrite P; discriminate|]. exact (def_number _ _ _ P).
Qed.
Lemma tops_in : forall n k, In k (tops n) -> exists y, tn_pay n = XDef k y.
Proof. intros n k I. unfold tops in I. destruct (tn_pay n); try contradiction. destruct I as [->|[]]. eauto. Qed.
Lemma hoisted_is : forall k, hoisted k <-> (exists cx, top_of cx k) \/ exists n ks, In n l /\ tn_pay n = XProto k ks.
Proof.
  intro k. unfold hoisted. rewrite in_flat_map. split.
  - intros (n & A & I). unfold outside in I. destruct (tn_pay n) as [| |k1 y1|k1 y1|g ps|y1|k1] eqn:P; try contradiction.
    + destruct I as [->|[]]. left. exists None, n. eexists. split; [exact A|exact P].
    + apply in_app_iff in I as [I|[->|[]]]; [|right; eauto]. apply in_flat_map in I as (m & IM & I). apply tops_in in I as (y & Q).
      left. exists (Some g), m, y. split; [|exact Q]. exists n, ps. split; [exact A|]. split; [exact (PT _ _ _ A P)|]. split; [exact P|exact IM].
  - intros [([f|] & n & y & HO & P)|(n & ks & A & P)]; cbn [home] in *.
    + destruct HO as (m & ks & A & _ & Q & I). exists m. split; [exact A|]. unfold outside. rewrite Q. apply in_or_app. left. apply in_flat_map. exists n. split; [exact I|].
      unfold tops. rewrite P. now left.
    + exists n. split; [exact HO|]. unfold outside. rewrite P. now left.
    + exists n. split; [exact A|]. unfold outside. rewrite P. apply in_or_app. right. now left.
Qed.
Lemma top_hoisted : forall cx k, top_of cx k -> hoisted k.
Proof. intros cx k T. apply hoisted_is. left. eauto. Qed.
Lemma own_top : forall cx k, own cx k -> hoisted k -> top_of cx k.
Proof.
  intros cx k O T. apply hoisted_is in T as [(cx' & T)|(n & ks & A & P)]; [now rewrite (own_same _ _ _ O (top_own _ _ T))|].
  exfalso. destruct cx as [f|]; cbn [own] in O.
  - destruct O as (n' & ks' & B & Q & I). assert (n = n'). { apply (node_one n n' k A B); [rewrite (proto_numbers _ _ _ P); now left|rewrite (proto_numbers _ _ _ Q); now right]. }
    subst n'. assert (f = k /\ ks' = ks) as (-> & ->) by (split; congruence). pose proof (node_nodup n A) as N1. rewrite (proto_numbers _ _ _ P) in N1. now inversion N1.
  - destruct O as (n' & B & NP & I). assert (n = n') by (apply (node_one n n' k A B); [rewrite (proto_numbers _ _ _ P); now left|exact I]). subst n'. exact (NP _ _ P).
Qed.
(** Parameters and what is deeper inside is not put outside. *)
Lemma param_inside : forall n f ks k, In n l -> tn_pay n = XProto f ks -> In k ks -> own (Some f) k /\ ~ hoisted k.
Proof.
  intros n f ks k A P I. assert (O : own (Some f) k) by (exists n, ks; split; [exact A|]; split; [exact P|]; apply in_or_app; now left). split; [exact O|].
  intro T. destruct (own_top _ _ O T) as (m & y & (n' & ks' & B & _ & Q & IM) & PM). destruct (proto_one _ _ _ _ _ A B P Q) as (<- & <-).
  pose proof (node_nodup n A) as N1. rewrite (proto_numbers _ _ _ P) in N1. inversion N1 as [|? ? _ N2]; subst. destruct (nodup_parts _ _ N2) as (_ & DJ). apply (DJ k I).
  apply in_flat_map. exists m. split; [exact IM|]. exact (def_number _ _ _ PM).
Qed.
Lemma nodup_part : forall (a b : list nat), NoDup (a ++ b) -> NoDup a.
Proof.
  induction a as [|x a IH]; intros b N1; [constructor|]. cbn [app] in N1. inversion N1 as [|? ? X Y]; subst. constructor; [|exact (IH _ Y)]. intro I. apply X. apply in_or_app. now left.
Qed.
Lemma params_nodup : forall n f ks, In n l -> tn_pay n = XProto f ks -> NoDup ks.
Proof.
  intros n f ks A P. pose proof (node_nodup n A) as N1. rewrite (proto_numbers _ _ _ P) in N1. inversion N1 as [|? ? _ N2]; subst. exact (nodup_part _ _ N2).
Qed.
Lemma below_main : forall n k, In n l -> (forall f ks, tn_pay n <> XProto f ks) -> In k (flat_map numbers (tn_child n)) -> own None k /\ ~ hoisted k.
Proof.
  intros n k A NP I. assert (O : own None k) by (exists n; split; [exact A|]; split; [exact NP|]; rewrite numbers_is; apply in_or_app; now right). split; [exact O|].
  intro T. destruct (own_top _ _ O T) as (m & y & B & PM). cbn [home] in B. assert (n = m).
  { apply (node_one n m k A B); [rewrite numbers_is; apply in_or_app; now right|exact (def_number _ _ _ PM)]. }
  subst m. pose proof (node_nodup n A) as N1. rewrite numbers_is in N1. destruct (nodup_parts _ _ N1) as (_ & DJ). apply (DJ k); [|exact I]. unfold numbers_here. rewrite PM. now left.
Qed.
Lemma below_fun : forall n f ks m k, In n l -> tn_pay n = XProto f ks -> In m (tn_child n) -> In k (flat_map numbers (tn_child m)) -> own (Some f) k /\ ~ hoisted k.
Proof.
  intros n f ks m k A P IM I. assert (KM : In k (numbers m)) by (rewrite numbers_is; apply in_or_app; now right).
  assert (O : own (Some f) k) by (exists n, ks; split; [exact A|]; split; [exact P|]; apply in_or_app; right; apply in_flat_map; exists m; auto). split; [exact O|].
  intro T. destruct (own_top _ _ O T) as (m' & y & (n' & ks' & B & _ & Q & IM') & PM). destruct (proto_one _ _ _ _ _ A B P Q) as (<- & <-).
  pose proof (node_nodup n A) as N1. rewrite (proto_numbers _ _ _ P) in N1. inversion N1 as [|? ? _ N2]; subst. destruct (nodup_parts _ _ N2) as (N3 & _).
  assert (m = m') by exact (nodup_flat numbers k m m' _ N3 IM IM' KM (def_number _ _ _ PM)). subst m'.
  assert (N4 : NoDup (numbers m)).
  { clear - N3 IM. induction (tn_child n) as [|b r IH]; [destruct IM|]. cbn [flat_map] in N3. destruct IM as [->|IM]; [exact (nodup_part _ _ N3)|]. exact (IH IM (proj1 (nodup_parts _ _ N3))). }
  rewrite numbers_is in N4. destruct (nodup_parts _ _ N4) as (_ & DJ). apply (DJ k); [|exact I]. unfold numbers_here. rewrite PM. now left.
Qed.

(** * Expressions and statements in their places *)

Definition callable (k : nat) : Prop := exists n ks x f, In n l /\ tn_pay n = XProto k ks /\ is_fun env k x f /\ f_params f = map vtype ks /\ Forall isvar ks.
Definition part_ok (cx : option nat) (e : list nat) (p : texpr) : Prop :=
  match p with
  | XVar _ k t _ => In k e /\ isvar k /\ vtype k = t
  | XCall _ k args t => In k e /\ (exists n ks x f, In n l /\ tn_pay n = XProto k ks /\ is_fun env k x f /\ f_ret f = t /\ map x_ty args = map vtype ks /\ Forall isvar ks) /\
      forall f, cx = Some f -> k < f \/ k = f /\ forall j, top_of (Some f) j -> initial j true
  | XBin o a _ t _ => forall h, helper_for o (x_ty a) t = Some h -> In h hs
  | _ => True
  end /\ sized p /\ unordered env l p.
Definition xok (cx : option nat) (e : list nat) (x : texpr) : Prop := typed ys x /\ forall p, xpart p x -> part_ok cx e p.

Record scope (cx : option nat) (e : list nat) : Prop := {
  sc_names : NoDup (map name_of e);
  sc_vars : forall k, In k e -> isvar k -> own cx k \/ top_of None k;
  sc_funs : forall k, In k e -> ~ isvar k -> isfun k /\ callable k }.

Inductive sc (cx : option nat) : bool -> list nat -> list tnode -> Prop :=
| sc_nil : forall top e, scope cx e -> sc cx top e []
| sc_def : forall (top : bool) e n k y r, tn_type n = N_VAR_DEF -> tn_pay n = XDef k y -> scope cx e -> xok cx e y -> isvar k -> vtype k = x_ty y -> initial k (x_cexpr y) ->
    (if top then home cx n else ~ hoisted k) -> own cx k -> ~ In (name_of k) (map name_of e) -> sc cx top (k :: e) r -> sc cx top e (n :: r)
| sc_set : forall top e n k y r, tn_type n = N_VAR_ASSIGN -> tn_pay n = XSet k y -> scope cx e -> xok cx e y -> In k e -> isvar k -> mutable ys k = true -> x_ty y = vtype k ->
    sc cx top e r -> sc cx top e (n :: r)
| sc_value : forall top e n y r, tn_type n = N_EXPR \/ tn_type n = N_RETURN /\ x_ty y <> TVoid -> tn_pay n = XExpr y -> scope cx e -> xok cx e y -> sc cx top e r -> sc cx top e (n :: r)
| sc_cond : forall top e n y r, In (tn_type n) [N_IF; N_ELIF; N_WHILE] -> tn_pay n = XExpr y -> scope cx e -> xok cx e y -> x_ty y = TBool -> sc cx false e (tn_child n) ->
    sc cx top e r -> sc cx top e (n :: r)
| sc_else : forall top e n r, tn_type n = N_ELSE -> scope cx e -> sc cx false e (tn_child n) -> sc cx top e r -> sc cx top e (n :: r)
| sc_fun : forall e n k ks r, tn_type n = N_FUNCTION_PROTO -> tn_pay n = XProto k ks -> cx = None -> In n l -> scope cx e -> isfun k -> callable k ->
    ~ In (name_of k) (map name_of e) -> sc cx true (k :: e) r -> sc cx true e (n :: r)
| sc_other : forall top e n r, In (tn_type n) [N_RETURN; N_UNREACHABLE; N_BREAK; N_CONTINUE; N_IMPORT; N_COMMENT; N_NOOP; N_UNKNOWN] /\ tn_pay n = XNone \/
    tn_type n = N_VAR_DEF /\ tn_pay n = XAlias -> scope cx e -> sc cx top e r -> sc cx top e (n :: r).

Lemma sc_scope : forall cx top e r, sc cx top e r -> scope cx e.
Proof. intros cx top e r S0. now destruct S0. Qed.

(** The body of a function, with the names before it. *)
Definition body_ok (n : tnode) (f : nat) (ks : list nat) : Prop :=
  exists e0, sc (Some f) true (rev ks ++ f :: e0) (tn_child n) /\ Forall isvar ks /\ forall k, In k e0 -> isvar k -> top_of None k.

Lemma scope_add : forall cx e k, scope cx e -> isvar k -> own cx k -> ~ In (name_of k) (map name_of e) -> scope cx (k :: e).
Proof.
  intros cx e k [S1 S2 S3] V O N1. constructor.
  - cbn [map]. now constructor.
  - intros j [<-|J]; [now left|now apply S2].
  - intros j [<-|J] NV; [contradiction|now apply S3].
Qed.
Lemma scope_fun : forall cx e k, scope cx e -> isfun k -> callable k -> ~ In (name_of k) (map name_of e) -> scope cx (k :: e).
Proof.
  intros cx e k [S1 S2 S3] V O N1. constructor.
  - cbn [map]. now constructor.
  - intros j [<-|J] W; [exfalso; exact (var_fun _ W V)|now apply S2].
  - intros j [<-|J] NV; [now split|now apply S3].
Qed.
Lemma xok_part : forall cx e p x, xok cx e x -> xpart p x -> typed ys p -> xok cx e p.
Proof.
  intros cx e p x (_ & A) P T. split; [exact T|]. intros q Q. apply A. clear A T. induction P; [exact Q|apply xp_arg with a; auto|apply xp_un; auto|apply xp_left; auto|apply xp_right; auto].
Qed.
End Static.
