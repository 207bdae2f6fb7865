(** The names in scope, for accepted programs. *)
From Coq Require Import List Arith NArith ZArith Bool Lia Ascii String.
From Verif Require Import Base Model_Token Model_Utf8 Model_Literal Model_Parse Model_Sem Spec_Utf8 Spec_Parse Spec_Sem Spec_Sem2 Model_CGen Spec_C Spec_CGen Spec_CProg Spec_CBack Spec_Run
  Spec_LLVM Spec_CRun Spec_CBehave Proof_Sem2 Proof_Sem5 Proof_Sem8 Proof_Order Proof_SymNames Proof_CGen2 Proof_LLVM Proof_LLVM3 Proof_LLVM11 Proof_LLVM13 Proof_CProg5
  Proof_CRun Proof_CRun2 Proof_CRun3.
Import ListNotations.
Open Scope list_scope.
Open Scope nat_scope.

Local Notation known := Proof_Sem5.known.

Section Derive.
Variable H : host.
Variable env : cctx.
Variable M : machine H.
Variable w : world.
Variable src : text.
Variable s : sst.
Variable l : list tnode.
Variable hs : list helper.
Local Notation ys := (ce_syms env).
Local Notation D := (sig s).
Local Notation name_of := (name_of env).
Local Notation isvar := (isvar env).
Local Notation isfun := (isfun env).
Local Notation vtype := (vtype env).
Local Notation scope := (scope env l).
Local Notation sc := (sc env l hs).
Local Notation callable := (callable env l).
Local Notation hoisted := (hoisted l).
Local Notation own := (own l).
Local Notation top_of := (top_of l).
Local Notation home := (home l).
Local Notation xok := (xok env l hs).
Local Notation initial := (initial env).
Local Notation body_ok := (body_ok env l hs).

Hypothesis ES : ys = s_syms s.
Hypothesis BH : behaved H env M l.
Hypothesis ND : NoDup (flat_map numbers l).
Hypothesis PT : forall n k ks, In n l -> tn_pay n = XProto k ks -> tn_type n = N_FUNCTION_PROTO.
Hypothesis INI : forall n k y, in_checked n l -> tn_pay n = XDef k y -> initial k (x_cexpr y).
Hypothesis HP : helped l hs.
Hypothesis NR : no_references l.
Hypothesis NODOT : forall k, isvar k \/ isfun k -> ~ In (chr ".") (name_of k).

Lemma d_var : forall k t m, D k = Some (DVar t m) -> isvar k /\ vtype k = t /\ mutable ys k = m.
Proof.
  intros k t m E. unfold sig in E. rewrite <- ES in E. destruct (nth_error ys k) as [y|] eqn:N1; [|discriminate E].
  destruct (y_kind y) as [v|f|a|[a|]] eqn:K; try discriminate E.
  - injection E as <- <-. split; [exists (y_name y), v, y; auto|]. unfold Proof_CRun3.vtype, mutable. now rewrite N1, K.
  - destruct (_ =? _)%N; discriminate E.
Qed.
Lemma d_fun : forall k ps r, D k = Some (DFun ps r) -> exists x f, is_fun env k x f /\ f_params f = ps /\ f_ret f = r.
Proof.
  intros k t m E. unfold sig in E. rewrite <- ES in E. destruct (nth_error ys k) as [y|] eqn:N1; [|discriminate E].
  destruct (y_kind y) as [v|f|a|[a|]] eqn:K; try discriminate E.
  destruct (_ =? _)%N; [|discriminate E]. injection E as <- <-. exists (y_name y), f. split; [exists y; auto|auto].
Qed.

(** The variables and functions among the names. *)
Definition real (p : text * nat) : bool := match D (snd p) with Some (DVar _ _) | Some (DFun _ _) => true | _ => false end.
Definition es_of (e : Spec_Sem.env) : list nat := map snd (filter real e).
Definition tidy (e : Spec_Sem.env) : Prop := forall x k, In (x, k) e ->
  (exists t, D k = Some (DType t)) \/ name_of k = x /\ ((exists t m, D k = Some (DVar t m)) \/ exists ps r, D k = Some (DFun ps r)).

Lemma es_var : forall x k e t m, D k = Some (DVar t m) -> es_of ((x, k) :: e) = k :: es_of e.
Proof. intros x k e t m E. unfold es_of, real. cbn [filter snd]. rewrite E. reflexivity. Qed.
Lemma es_fun : forall x k e t m, D k = Some (DFun t m) -> es_of ((x, k) :: e) = k :: es_of e.
Proof. intros x k e t m E. unfold es_of, real. cbn [filter snd]. rewrite E. reflexivity. Qed.
Lemma es_type : forall x k e t, D k = Some (DType t) -> es_of ((x, k) :: e) = es_of e.
Proof. intros x k e t E. unfold es_of, real. cbn [filter snd]. rewrite E. reflexivity. Qed.
Lemma es_in : forall e x k, In (x, k) e -> (exists t m, D k = Some (DVar t m)) \/ (exists ps r, D k = Some (DFun ps r)) -> In k (es_of e).
Proof.
  intros e x k I J. unfold es_of. apply in_map_iff. exists (x, k). split; [reflexivity|]. apply filter_In. split; [exact I|].
  unfold real. cbn [snd]. destruct J as [(t & m & E)|(t & m & E)]; now rewrite E.
Qed.
Lemma es_back : forall e k, tidy e -> In k (es_of e) -> In (name_of k, k) e /\ ((exists t m, D k = Some (DVar t m)) \/ exists ps r, D k = Some (DFun ps r)).
Proof.
  intros e k T I. unfold es_of in I. apply in_map_iff in I as ((x, j) & E & I). cbn in E. subst j. apply filter_In in I as (I & R).
  unfold real in R. cbn [snd] in R. destruct (T x k I) as [(t & E)|(E & J)]; [rewrite E in R; discriminate R|]. rewrite E. auto.
Qed.
Lemma tidy_cons : forall x k e, tidy e -> name_of k = x -> (exists t m, D k = Some (DVar t m)) \/ (exists ps r, D k = Some (DFun ps r)) -> tidy ((x, k) :: e).
Proof. intros x k e T E J y j [X|I]; [injection X as <- <-; auto|now apply T]. Qed.
Lemma tidy_type : forall x k e t, tidy e -> D k = Some (DType t) -> tidy ((x, k) :: e).
Proof. intros x k e t T E y j [X|I]; [injection X as <- <-; left; eauto|now apply T]. Qed.
Lemma real_dot : forall k, (exists t m, D k = Some (DVar t m)) \/ (exists ps r, D k = Some (DFun ps r)) -> ~ In (chr ".") (name_of k).
Proof.
  intros k [(t & m & E)|(t & m & E)]; apply NODOT; [left; exact (proj1 (d_var _ _ _ E))|right]. destruct (d_fun _ _ _ E) as (x & f & F & _). exists x, f. exact F.
Qed.

(** There are no namespaces among the names, so that names have no dots. *)
Lemma resolved : forall e n k, tidy e -> resolves D e n k -> In (n, k) e.
Proof.
  intros e n k T R. destruct (in_dec N.eq_dec (chr ".") n) as [I|I]; [|now apply (resolves_in D e n k)].
  inversion R as [? ? ? X|? ? ? ? ? X|e0 a j inside b k0 NA RA DJ RB]; subst; [contradiction|contradiction|].
  exfalso. apply resolves_in in RA; [|exact NA]. destruct (T _ _ RA) as [(t & E)|(_ & [(t & m & E)|(t & m & E)])]; congruence.
Qed.
Lemma new_name : forall e k, tidy e -> known D e -> (exists t m, D k = Some (DVar t m)) \/ (exists ps r, D k = Some (DFun ps r)) -> fresh D e (name_of k) ->
  ~ In (name_of k) (map name_of (es_of e)).
Proof.
  intros e k T K R F I. apply in_map_iff in I as (j & E & J). apply es_back in J as (J & _); [|exact T].
  apply (fresh_new D e (name_of k) F (real_dot _ R) K j). now rewrite <- E.
Qed.

(** * Places *)

Definition within_of (xs ys : list tnode) : Prop := forall x, in_checked x xs -> in_checked x ys.
Definition where_ok (cx : option nat) (top : bool) (xs : list tnode) : Prop :=
  within_of xs l /\
  match cx, top with
  | None, true => incl xs l
  | None, false => exists m, In m l /\ (forall f ks, tn_pay m <> XProto f ks) /\ within_of xs (tn_child m)
  | Some f, true => exists n ks, In n l /\ tn_pay n = XProto f ks /\ incl xs (tn_child n) /\ within_of xs (tn_child n)
  | Some f, false => exists n ks m, In n l /\ tn_pay n = XProto f ks /\ In m (tn_child n) /\ within_of xs (tn_child m)
  end.

Lemma within_next : forall x xs ys, within_of (x :: xs) ys -> within_of xs ys.
Proof. intros x xs z W y C. apply W. destruct C as [? I|? ? I C]; [apply ic_here; now right|apply ic_below with y0; [now right|exact C]]. Qed.
Lemma within_child : forall x xs ys, within_of (x :: xs) ys -> within_of (tn_child x) ys.
Proof. intros x xs z W y C. apply W. apply ic_below with x; [now left|exact C]. Qed.
Lemma within_first : forall x xs ys, within_of (x :: xs) ys -> within_of [x] ys.
Proof.
  intros x xs z W y C. apply W. inversion C as [? I|q ? I C']; subst; destruct I as [<-|[]]; [apply ic_here; now left|apply ic_below with x; [now left|exact C']].
Qed.
Lemma where_next : forall cx top x xs, where_ok cx top (x :: xs) -> where_ok cx top xs.
Proof.
  intros cx top x xs (W & P). split; [exact (within_next _ _ _ W)|].
  destruct cx as [f|], top.
  - destruct P as (n & ks & A & B & C & E). exists n, ks. repeat split; auto; [intros z I; apply C; now right|exact (within_next _ _ _ E)].
  - destruct P as (n & ks & m & A & B & C & E). exists n, ks, m. repeat split; auto. exact (within_next _ _ _ E).
  - intros z I. apply P. now right.
  - destruct P as (m & A & B & E). exists m. repeat split; auto. exact (within_next _ _ _ E).
Qed.
Lemma where_child : forall cx top x xs, where_ok cx top (x :: xs) -> (forall f ks, tn_pay x <> XProto f ks) -> where_ok cx false (tn_child x).
Proof.
  intros cx top x xs (W & P) NP. split; [exact (within_child _ _ _ W)|].
  destruct cx as [f|], top.
  - destruct P as (n & ks & A & B & C & E). exists n, ks, x. repeat split; auto; [apply C; now left|intros z I; exact I].
  - destruct P as (n & ks & m & A & B & C & E). exists n, ks, m. repeat split; auto. exact (within_child _ _ _ E).
  - exists x. repeat split; auto; [apply P; now left|intros z I; exact I].
  - destruct P as (m & A & B & E). exists m. repeat split; auto. exact (within_child _ _ _ E).
Qed.
Lemma checked_number : forall n xs k, in_checked n xs -> In k (numbers_here n) -> In k (flat_map numbers xs).
Proof.
  intros n xs k C I. induction C as [xs IN|y xs IN C IH].
  - apply in_flat_map. exists n. split; [exact IN|]. rewrite numbers_is. apply in_or_app. now left.
  - apply in_flat_map. exists y. split; [exact IN|]. rewrite numbers_is. apply in_or_app. now right.
Qed.
Lemma where_def : forall cx top x xs k y, where_ok cx top (x :: xs) -> tn_pay x = XDef k y -> (if top : bool then home cx x else ~ hoisted k) /\ own cx k.
Proof.
  intros cx top x xs k y (W & P) E. assert (NH : numbers_here x = [k]) by (unfold numbers_here; now rewrite E).
  destruct cx as [f|], top.
  - destruct P as (n & ks & A & B & C & _). assert (HO : home (Some f) x). { exists n, ks. repeat split; auto; [exact (PT _ _ _ A B)|apply C; now left]. }
    split; [exact HO|]. apply top_own. exists x, y. auto.
  - destruct P as (n & ks & m & A & B & C & E1). pose proof (below_fun l ND PT n f ks m k A B C) as Q. destruct Q as (Q1 & Q2); [|auto].
    apply (checked_number x); [apply E1; apply ic_here; now left|rewrite NH; now left].
  - assert (HO : home None x) by (apply P; now left). split; [exact HO|]. apply top_own. exists x, y. auto.
  - destruct P as (m & A & B & E1). pose proof (below_main l ND PT m k A B) as Q. destruct Q as (Q1 & Q2); [|auto].
    apply (checked_number x); [apply E1; apply ic_here; now left|rewrite NH; now left].
Qed.
(** Functions are at the top of the program. *)
Lemma where_fun : forall cx top x xs k ks, where_ok cx top (x :: xs) -> tn_type x = N_FUNCTION_PROTO -> tn_pay x = XProto k ks -> cx = None /\ top = true /\ In x l.
Proof.
  intros cx top x xs k ks (W & P) T E. assert (IN : In x l) by (apply (bh_functions _ _ _ _ BH); [apply W; apply ic_here; now left|exact T]).
  assert (NH : In k (numbers_here x)) by (unfold numbers_here; rewrite E; now left).
  assert (NX : In k (numbers x)) by (rewrite numbers_is; apply in_or_app; now left).
  assert (FUN : forall n f ps, In n l -> tn_pay n = XProto f ps -> in_checked x (tn_child n) -> False).
  { intros n f ps A B C. pose proof (checked_number _ _ _ C NH) as NC.
    assert (x = n). { apply (node_one l ND x n k IN A NX). rewrite numbers_is. apply in_or_app. now right. }
    subst n. pose proof (node_nodup l ND x IN) as N1. rewrite numbers_is in N1. destruct (nodup_parts _ _ N1) as (_ & DJ). exact (DJ k NH NC). }
  destruct cx as [f|], top.
  - destruct P as (n & ps & A & B & C & E1). exfalso. apply (FUN n f ps A B). apply E1. apply ic_here. now left.
  - destruct P as (n & ps & m & A & B & C & E1). exfalso. apply (FUN n f ps A B). apply ic_below with m; [exact C|]. apply E1. apply ic_here. now left.
  - auto.
  - destruct P as (m & A & B & E1). exfalso. assert (x = m).
    { apply (node_one l ND x m k IN A NX). rewrite numbers_is. apply in_or_app. right. apply (checked_number x); [apply E1; apply ic_here; now left|exact NH]. }
    subst m. exact (B _ _ E).
Qed.

(** * What is in scope *)

Record fit (cx : option nat) (top : bool) (a : nat) (e : Spec_Sem.env) : Prop := {
  ft_tidy : tidy e;
  ft_known : known D e;
  ft_scope : scope cx (es_of e);
  ft_below : forall k, In k (es_of e) -> k < a;
  ft_tops : cx = None -> top = true -> forall k, In k (es_of e) -> isvar k -> top_of None k;
  ft_funs : forall f, cx = Some f -> forall k, In k (es_of e) -> isfun k -> k <= f }.

Lemma fit_later : forall cx top a b e, fit cx top a e -> a <= b -> fit cx top b e.
Proof. intros cx top a b e [F1 F2 F3 F4 F5 F6] L. constructor; auto. intros k I. apply F4 in I. lia. Qed.
Lemma fit_inner : forall cx top a e, fit cx top a e -> fit cx false a e.
Proof. intros cx top a e [F1 F2 F3 F4 F5 F6]. constructor; auto. intros _ X. discriminate X. Qed.
Lemma known_cons : forall e x k, known D e -> D k <> Some (DType None) -> known D ((x, k) :: e).
Proof. intros e x k K N1 y j [X|I]; [injection X as <- <-; exact N1|exact (K _ _ I)]. Qed.

Lemma fit_var : forall cx top a b e k t m, fit cx top a e -> D k = Some (DVar t m) -> fresh D e (name_of k) -> own cx k -> (cx = None -> top = true -> top_of None k) ->
  k < b -> a <= b -> fit cx top b ((name_of k, k) :: e) /\ ~ In (name_of k) (map name_of (es_of e)).
Proof.
  intros cx top a b e k t m F E FR O TP KB AB. destruct F as [F1 F2 F3 F4 F5 F6].
  assert (NN : ~ In (name_of k) (map name_of (es_of e))) by (apply new_name; eauto). split; [|exact NN].
  destruct (d_var _ _ _ E) as (V & _). constructor.
  - apply tidy_cons; eauto.
  - apply known_cons; [exact F2|]. rewrite E. discriminate.
  - rewrite (es_var _ _ _ _ _ E). now apply scope_add.
  - rewrite (es_var _ _ _ _ _ E). intros j [<-|J]; [exact KB|]. apply F4 in J. lia.
  - rewrite (es_var _ _ _ _ _ E). intros X Y j [<-|J] VJ; [auto|now apply F5].
  - rewrite (es_var _ _ _ _ _ E). intros f X j [<-|J] FJ; [exfalso; exact (var_fun _ _ V FJ)|exact (F6 f X j J FJ)].
Qed.

(** * Expressions *)

Lemma expr_ok : forall cx top a e n xs v y, fit cx top a e -> where_ok cx top (n :: xs) -> checked_expr n = Some y -> elab D w src e v y -> xok cx (es_of e) y.
Proof.
  intros cx top a e n xs v y F (W & P) CE EL. assert (C : in_checked n l) by (apply W; apply ic_here; now left). split.
  - rewrite ES. apply (elab_typed s w src e v y EL). intros o r t c Q. apply (NR n o r t c C). exists y. auto.
  - intros p Q. assert (US : uses n p) by (exists y; auto). split; [|split; [exact (bh_sized _ _ _ _ BH n p C US)|exact (bh_order _ _ _ _ BH n p C US)]].
    destruct (elab_part _ _ _ _ _ _ Q _ EL) as (b & EP). destruct p as [t k ty c|t z ty|t k args ty|o z ty c|o z1 z2 ty c]; auto.
    + inversion EP as [t0 n0 k0 ty0 m c0 SP RS DK| | | | | | |]; subst. destruct (d_var _ _ _ DK) as (V & VT & _).
      split; [apply (es_in e n0); [exact (resolved _ _ _ (ft_tidy _ _ _ _ F) RS)|left; eauto]|]. auto.
    + inversion EP as [| |name args0 num n0 k0 ps r xs0 SP RS DK EA TY| | | | |]; subst.
      assert (IK : In k (es_of e)) by (apply (es_in e n0); [exact (resolved _ _ _ (ft_tidy _ _ _ _ F) RS)|right; eauto]).
      destruct (d_fun _ _ _ DK) as (x & f & IF & FP & FR). assert (FK : isfun k) by (exists x, f; exact IF).
      assert (NV : ~ isvar k) by (intro V; exact (var_fun _ _ V FK)).
      destruct (sc_funs _ _ _ _ (ft_scope _ _ _ _ F) k IK NV) as (_ & m & ks & x' & f' & IM & PM & IF' & FP' & IV).
      destruct (is_fun_one _ _ _ _ _ _ IF IF') as (<- & <-). split; [exact IK|]. split.
      * exists m, ks, x, f. repeat split; auto. congruence.
      * intros g X. pose proof (ft_funs _ _ _ _ F g X k IK FK) as LE. destruct (Nat.eq_dec k g) as [->|NE]; [|left; lia]. right. split; [reflexivity|].
        assert (exists nf kf, In nf l /\ tn_pay nf = XProto g kf /\ in_checked n (tn_child nf)) as (nf & kf & A & B & CN).
        { rewrite X in P. destruct top.
          - destruct P as (nf & kf & A & B & _ & E). exists nf, kf. repeat split; auto. apply E. apply ic_here. now left.
          - destruct P as (nf & kf & m' & A & B & I & E). exists nf, kf. repeat split; auto. apply ic_below with m'; [exact I|]. apply E. apply ic_here. now left. }
        intros j (nj & yj & (n' & k' & A' & T' & B' & IC) & PJ).
        destruct (proto_one l ND nf n' g kf k' A A' B B') as (<- & <-).
        destruct (bh_lives _ _ _ _ BH nf nj g kf j yj A B IC PJ) as (_ & L2).
        assert (x_cexpr yj = true) as <-.
        { destruct (x_cexpr yj); [reflexivity|]. exfalso. apply (L2 eq_refl). exists n, t, args, ty. auto. }
        apply (INI nj); [|exact PJ]. apply ic_below with nf; [exact A|apply ic_here; exact IC].
    + intros h HF. apply (HP n o z1 z2 ty c h C); auto.
Qed.

(** * Statements *)

Definition named_in (ns : list node) (xs : list tnode) : Prop := forall n x, paired n x ns xs -> named src s n x.
Lemma named_next : forall n ns x xs, named_in (n :: ns) (x :: xs) -> named_in ns xs.
Proof. intros n ns x xs N1 m y P. apply N1. now apply pa_next. Qed.
Lemma named_child : forall n ns x xs, named_in (n :: ns) (x :: xs) -> named_in (n_child n) (tn_child x).
Proof. intros n ns x xs N1 m y P. apply N1. now apply pa_below. Qed.
Lemma calls_name : forall t k x, calls_it src s t k -> spells src t x -> name_of k = x.
Proof. intros t k x (y & E & S0) S1. unfold Spec_CBehave.name_of. rewrite ES, E. exact (spells_one _ _ _ _ S0 S1). Qed.

Lemma params_fit : forall f e ps ts ks e', params_ok D src e ps ts ks e' -> Forall2 (fun p k => calls_it src s (pm_name p) k) ps ks ->
  forall a b, fit (Some f) true a e -> a <= b -> (forall k, In k ks -> own (Some f) k /\ k < b) ->
  fit (Some f) true b e' /\ es_of e' = rev ks ++ es_of e /\ ts = map vtype ks /\ Forall isvar ks.
Proof.
  intros f e ps ts ks e' P. induction P as [e|e p ps t ts n k ks e' TA SP FR DK P IH]; intros N1 a b F AB OK.
  - split; [exact (fit_later _ _ _ _ _ F AB)|]. auto.
  - inversion N1 as [|? ? ? ? C N2]; subst. pose proof (calls_name _ _ _ C SP) as E. subst n.
    destruct (OK k (or_introl eq_refl)) as (O & KB).
    destruct (fit_var (Some f) true a b e k t false F DK FR O) as (F' & _); [intro X; discriminate X|exact KB|exact AB|].
    destruct (d_var _ _ _ DK) as (V & VT & _).
    destruct (IH N2 b b F' (le_n b)) as (A1 & A2 & A3 & A4); [intros j J; apply OK; now right|].
    split; [exact A1|]. split; [|split].
    + rewrite A2, (es_var _ _ _ _ _ DK). cbn [rev]. now rewrite <- app_assoc.
    + cbn [map]. now rewrite VT, A3.
    + now constructor.
Qed.
Lemma params_types : forall e ps ts ks e', params_ok D src e ps ts ks e' -> ts = map vtype ks /\ Forall isvar ks /\ List.length ps = List.length ks.
Proof.
  intros e ps ts ks e' P. induction P as [e|e p ps t ts n k ks e' TA SP FR DK P (IH1 & IH2 & IH3)]; [auto|].
  destruct (d_var _ _ _ DK) as (V & VT & _). cbn [map List.length]. rewrite VT. repeat split; [now f_equal|now constructor|now f_equal].
Qed.
Lemma firstn_all_of : forall A B (R : A -> B -> Prop) m ps ks, Forall2 R (firstn m ps) ks -> List.length ps = List.length ks -> Forall2 R ps ks.
Proof.
  intros A B R m ps ks F L. assert (LF : List.length (firstn m ps) = List.length ks) by (clear L; induction F; cbn [List.length]; auto). rewrite firstn_length in LF.
  rewrite firstn_all2 in F by lia. exact F.
Qed.

Definition good_stmt (e : Spec_Sem.env) (n : node) (x : tnode) (e' : Spec_Sem.env) : Prop := forall cx top a c r,
  fit cx top a e -> where_ok cx top [x] -> named_in [n] [x] -> plain_aliases [n] [x] -> seqn a x c ->
  fit cx top c e' /\ (sc cx top (es_of e') r -> sc cx top (es_of e) (x :: r)) /\ forall f ks, tn_pay x = XProto f ks -> body_ok x f ks.
Definition good_block (e : Spec_Sem.env) (ns : list node) (xs : list tnode) (e' : Spec_Sem.env) : Prop := forall cx top a c,
  fit cx top a e -> where_ok cx top xs -> named_in ns xs -> plain_aliases ns xs -> seq a xs c ->
  sc cx top (es_of e) xs /\ forall n f ks, In n xs -> tn_pay n = XProto f ks -> body_ok n f ks.

Lemma seqn_le : forall a x c, seqn a x c -> a <= c.
Proof. intros a x c (b & L & _ & _ & S0). apply seq_le in S0. lia. Qed.
Lemma seqn_here : forall a x c k, seqn a x c -> In k (numbers_here x) -> a <= k < c.
Proof. intros a x c k (b & L & _ & N1 & S0) I. apply seq_le in S0. apply N1 in I. lia. Qed.
Lemma seqn_child : forall a x c, seqn a x c -> exists b, a <= b /\ (forall k, In k (numbers_here x) -> a <= k < b) /\ seq b (tn_child x) c.
Proof. intros a x c (b & L & _ & N1 & S0). eauto. Qed.

Lemma statements_fit :
  (forall e n x e', stmt_ok D w src e n x e' -> good_stmt e n x e') /\
  (forall e ns xs e', block_ok D w src e ns xs e' -> good_block e ns xs e').
Proof.
  apply stmt_block_both.
  - (* definition *)
    intros e n name rest v i co ex y x k T C P EL VC TA SP FR DK cx top a c r F W NM PA SQ.
    pose proof (NM _ _ (pa_here _ _ [] [])) as N1. unfold named in N1. cbn [tn_pay] in N1.
    destruct N1 as (t0 & r0 & e0 & i0 & c0 & z0 & P0 & CI & VA). rewrite P in P0. injection P0 as <- <- <- <- <- <-.
    pose proof (calls_name _ _ _ CI SP) as E. subst x. destruct (where_def _ _ _ _ _ _ W eq_refl) as (HO & OW).
    pose proof (seqn_here _ _ _ k SQ (or_introl eq_refl)) as KR. pose proof (seqn_le _ _ _ SQ) as AC.
    destruct (fit_var cx top a c e k _ _ F DK FR OW) as (F' & NN); [intros -> ->; cbn in HO; eexists _, y; split; [exact HO|reflexivity]|lia|exact AC|].
    destruct (d_var _ _ _ DK) as (V & VT & _).
    split; [exact F'|]. split; [|intros f ks X; discriminate X]. intro SR. rewrite (es_var _ _ _ _ _ DK) in SR.
    apply sc_def with k y; auto; [exact (ft_scope _ _ _ _ F)|exact (expr_ok _ _ _ _ _ _ _ _ F W eq_refl EL)|].
    apply (INI (mktnode N_VAR_DEF (n_token n) (XDef k y) [])); [|reflexivity]. apply (proj1 W). apply ic_here. now left.
  - (* alias *)
    intros e n name v i ex t q r0 x k ty T C P TK SP FR DK TA IM cx top a c r F W NM PA SQ.
    assert (DN : D k <> Some (DType None)).
    { destruct (PA _ _ (pa_here _ _ [] []) eq_refl) as (name' & v' & const' & P'). rewrite P in P'. injection P' as _ _ -> _ ->. rewrite DK. specialize (IM eq_refl eq_refl). congruence. }
    pose proof (seqn_le _ _ _ SQ) as AC. apply fit_later with (b := c) in F; [|exact AC]. split; [|split; [|intros f ks X; discriminate X]].
    + destruct F as [F1 F2 F3 F4 F5 F6]. constructor; try (rewrite (es_type _ _ _ _ DK); assumption).
      * now apply tidy_type with ty.
      * now apply known_cons.
    + rewrite (es_type _ _ _ _ DK). intro SR. apply sc_other; [right; auto|exact (ft_scope _ _ _ _ F)|exact SR].
  - (* assignment *)
    intros e n v t q r0 x k ty y T C P TK SP RS DK EL TY cx top a c r F W NM PA SQ.
    pose proof (seqn_le _ _ _ SQ) as AC. split; [exact (fit_later _ _ _ _ _ F AC)|]. split; [|intros f ks X; discriminate X].
    intro SR. destruct (d_var _ _ _ DK) as (V & VT & MU).
    apply sc_set with k y; auto; [exact (ft_scope _ _ _ _ F)|exact (expr_ok _ _ _ _ _ _ _ _ F W eq_refl EL)| |congruence].
    apply (es_in e x); [exact (resolved _ _ _ (ft_tidy _ _ _ _ F) RS)|left; eauto].
  - (* call *)
    intros e n f a0 m y T C P EL cx top a c r F W NM PA SQ.
    pose proof (seqn_le _ _ _ SQ) as AC. split; [exact (fit_later _ _ _ _ _ F AC)|]. split; [|intros f0 ks X; discriminate X].
    intro SR. apply sc_value with y; auto; [exact (ft_scope _ _ _ _ F)|exact (expr_ok _ _ _ _ _ _ _ _ F W eq_refl EL)].
  - (* return *)
    intros e n v y T C P EL cx top a c r F W NM PA SQ.
    pose proof (seqn_le _ _ _ SQ) as AC. split; [exact (fit_later _ _ _ _ _ F AC)|]. split; [|intros f0 ks X; discriminate X].
    intro SR. apply sc_value with y; auto; [|exact (ft_scope _ _ _ _ F)|exact (expr_ok _ _ _ _ _ _ _ _ F W eq_refl EL)].
    right. split; [reflexivity|]. apply (bh_returns _ _ _ _ BH (mktnode N_RETURN (n_token n) (XExpr y) [])); auto. apply (proj1 W). apply ic_here. now left.
  - (* condition *)
    intros e n v y ch e' T P EL TY B IH cx top a c r F W NM PA SQ.
    pose proof (seqn_le _ _ _ SQ) as AC. split; [exact (fit_later _ _ _ _ _ F AC)|]. split; [|intros f0 ks X; discriminate X].
    intro SR. destruct (seqn_child _ _ _ SQ) as (b & AB & _ & SB).
    destruct (IH cx false b c (fit_inner _ _ _ _ (fit_later _ _ _ _ _ F AB))) as (SCH & _); [apply (where_child _ _ _ _ W); intros f0 ks X; discriminate X|exact (named_child _ _ _ _ NM)|exact (plain_below _ _ _ _ PA)|exact SB|].
    apply sc_cond with y; auto; [exact (ft_scope _ _ _ _ F)|exact (expr_ok _ _ _ _ _ _ _ _ F W eq_refl EL)].
  - (* else *)
    intros e n ch e' T B IH cx top a c r F W NM PA SQ.
    pose proof (seqn_le _ _ _ SQ) as AC. split; [exact (fit_later _ _ _ _ _ F AC)|]. split; [|intros f0 ks X; discriminate X].
    intro SR. destruct (seqn_child _ _ _ SQ) as (b & AB & _ & SB).
    destruct (IH cx false b c (fit_inner _ _ _ _ (fit_later _ _ _ _ _ F AB))) as (SCH & _); [apply (where_child _ _ _ _ W); intros f0 ks X; discriminate X|exact (named_child _ _ _ _ NM)|exact (plain_below _ _ _ _ PA)|exact SB|].
    apply sc_else; auto. exact (ft_scope _ _ _ _ F).
  - (* function *)
    intros e n name ret num ext exp ps ts ks rt x k e1 ch e2 T P RT SP FR DK PO B IH cx top a c r F W NM PA SQ.
    set (nd := mktnode N_FUNCTION_PROTO (n_token n) (XProto k ks) ch) in *.
    destruct (where_fun _ _ _ _ k ks W eq_refl eq_refl) as (-> & -> & IN).
    pose proof (NM _ _ (pa_here _ _ [] [])) as N1. unfold named, nd in N1. cbn [tn_pay] in N1.
    destruct N1 as (t0 & ret0 & num0 & ext0 & exp0 & ps0 & P0 & (CI & _) & m & F2). rewrite P in P0. injection P0 as <- <- <- <- <- <-.
    pose proof (calls_name _ _ _ CI SP) as E. subst x. destruct (params_types _ _ _ _ _ PO) as (TS & IV & LP).
    pose proof (firstn_all_of _ _ _ _ _ _ F2 LP) as F3. destruct (d_fun _ _ _ DK) as (x & f & IF & FP & FRT).
    assert (FK : isfun k) by (exists x, f; exact IF).
    assert (CK : callable k). { exists nd, ks, x, f. repeat split; auto. congruence. }
    assert (NN : ~ In (name_of k) (map name_of (es_of e))) by (apply new_name; [exact (ft_tidy _ _ _ _ F)|exact (ft_known _ _ _ _ F)|right; eauto|exact FR]).
    pose proof (seqn_here _ _ _ k SQ (or_introl eq_refl)) as KR. pose proof (seqn_le _ _ _ SQ) as AC.
    destruct (seqn_child _ _ _ SQ) as (b & AB & NB & SB). assert (KB : a <= k < b) by (apply NB; now left).
    assert (TY : tidy ((name_of k, k) :: e)) by (apply tidy_cons; [exact (ft_tidy _ _ _ _ F)|reflexivity|right; eauto]).
    assert (KN : known D ((name_of k, k) :: e)) by (apply known_cons; [exact (ft_known _ _ _ _ F)|rewrite DK; discriminate]).
    split; [|split].
    + destruct F as [F1 F2' F3' F4 F5 F6]. constructor; auto; rewrite (es_fun _ _ _ _ _ DK).
      * now apply scope_fun.
      * intros j [<-|J]; [lia|]. apply F4 in J. lia.
      * intros X Y j [<-|J] VJ; [exfalso; exact (var_fun _ _ VJ FK)|now apply F5].
      * intros g X. discriminate X.
    + rewrite (es_fun _ _ _ _ _ DK). intro SR. apply sc_fun with k ks; auto. exact (ft_scope _ _ _ _ F).
    + intros f0 ks0 X. unfold nd in X. cbn [tn_pay] in X. injection X as <- <-.
      assert (FB : fit (Some k) true b ((name_of k, k) :: e)).
      { destruct F as [F1 F2' F3' F4 F5 F6]. constructor; auto; try (rewrite (es_fun _ _ _ _ _ DK)).
        - apply scope_fun; auto. destruct F3' as [S1 S2 S3]. constructor; auto. 
        - intros j [<-|J]; [lia|]. apply F4 in J. lia.
        - intro X. discriminate X.
        - intros g X j J FJ. injection X as <-. destruct J as [<-|J]; [lia|]. apply F4 in J. lia. }
      destruct (params_fit k _ _ _ _ _ PO F3 b b FB (le_n b)) as (FE & EE & _ & _).
      { intros j J. split; [exact (proj1 (param_inside l ND PT nd k ks j IN eq_refl J))|]. apply NB. now right. }
      destruct (IH (Some k) true b c FE) as (SCH & _).
      * split; [exact (within_child _ _ _ (proj1 W))|]. exists nd, ks. repeat split; auto; [apply incl_refl|intros z I; exact I].
      * exact (named_child _ _ _ _ NM).
      * exact (plain_below _ _ _ _ PA).
      * exact SB.
      * exists (es_of e). rewrite EE, (es_fun _ _ _ _ _ DK) in SCH. split; [exact SCH|]. split; [exact IV|]. exact (ft_tops _ _ _ _ F eq_refl eq_refl).
  - (* namespace *)
    intros e n t q r0 x k ch e' T TK SP FR DK B IH cx top a c r F W NM PA SQ. exfalso.
    apply (bh_spaces _ _ _ _ BH (mktnode N_NAMESPACE (n_token n) (XSpace k) ch)); [|reflexivity]. apply (proj1 W). apply ic_here. now left.
  - (* others *)
    intros e n P C T cx top a c r F W NM PA SQ.
    pose proof (seqn_le _ _ _ SQ) as AC. split; [exact (fit_later _ _ _ _ _ F AC)|]. split; [|intros f0 ks X; discriminate X].
    intro SR. apply sc_other; [left; auto|exact (ft_scope _ _ _ _ F)|exact SR].
  - intros e cx top a c F W NM PA SQ. split; [apply sc_nil; exact (ft_scope _ _ _ _ F)|intros n f ks []].
  - intros e n ns x xs e1 e2 S1 IH1 B IH2 cx top a c F W NM PA SQ.
    assert (exists b, seqn a x b /\ seq b xs c) as (b & SQ1 & SQ2).
    { inversion SQ as [|? ? ? b c' ? L U N1 C1 C2]; subst. exists c'. split; [|exact C2]. exists b. auto. }
    assert (W1 : where_ok cx top [x]).
    { destruct W as (W0 & W1). split.
      - exact (within_first _ _ _ W0).
      - pose proof (within_first x xs) as WW.
        destruct cx as [f|], top.
        + destruct W1 as (nn & ks & A1 & A2 & A3 & A4). exists nn, ks. repeat split; auto. intros z [<-|[]]. apply A3. now left.
        + destruct W1 as (nn & ks & m & A1 & A2 & A3 & A4). exists nn, ks, m. repeat split; auto.
        + intros z [<-|[]]. apply W1. now left.
        + destruct W1 as (m & A1 & A2 & A3). exists m. repeat split; auto. }
    assert (NM1 : named_in [n] [x]).
    { intros m y Q. apply NM. inversion Q as [? ?|? ? ? ? Q'|? ? ? ? Q']; subst; [apply pa_here|inversion Q'|now apply pa_below]. }
    assert (PA1 : plain_aliases [n] [x]).
    { intros m y Q. apply PA. inversion Q as [? ?|? ? ? ? Q'|? ? ? ? Q']; subst; [apply pa_here|inversion Q'|now apply pa_below]. }
    destruct (IH1 cx top a b xs F W1 NM1 PA1 SQ1) as (F' & SC1 & BD).
    destruct (IH2 cx top b c F' (where_next _ _ _ _ W) (named_next _ _ _ _ NM) (plain_next _ _ _ _ PA) SQ2) as (SC2 & BD2).
    split; [exact (SC1 SC2)|]. intros m f ks [<-|I] PM; [exact (BD f ks PM)|exact (BD2 m f ks I PM)].
Qed.

Lemma program_fit : forall tree e a c, block_ok D w src [] tree l e -> named_in tree l -> plain_aliases tree l -> seq a l c ->
  sc None true [] l /\ forall n f ks, In n l -> tn_pay n = XProto f ks -> body_ok n f ks.
Proof.
  intros tree e a c B NM PA SQ. refine (proj2 statements_fit _ _ _ _ B None true a c _ _ NM PA SQ).
  - constructor; try (intros; contradiction); [intros x k []|intros x k []|].
    constructor; [constructor|intros k []|intros k []].
  - split; [intros x C; exact C|apply incl_refl].
Qed.
End Derive.
