(** What stands outside of functions in generated C programs. *)
From Coq Require Import List Arith NArith ZArith Bool Lia Ascii String.
From Verif Require Import Base Model_Token Model_Literal Model_Parse Model_Sem Spec_Sem Spec_Sem2 Model_CGen Spec_C Spec_CGen Spec_CProg Spec_CBack Spec_Run
  Spec_LLVM Spec_CRun Spec_CBehave Proof_LLVM3 Proof_CRun Proof_CRun2 Proof_CRun3 Proof_CRun4.
Import ListNotations.
Open Scope list_scope.
Open Scope nat_scope.

Scheme stands_ind2 := Minimality for Spec_CBack.stands Sort Prop
  with others_ind2 := Minimality for Spec_CBack.others Sort Prop.
Combined Scheme stands_both from stands_ind2, others_ind2.

Section Contents.
Variable env : cctx.
Local Notation ys := (ce_syms env).
Local Notation name_of := (name_of env).
Local Notation stands := (Spec_CBack.stands env).
Local Notation others := (Spec_CBack.others env).
Local Notation same := (Spec_CGen.same env).

Lemma others_incl : forall r o dd r', others r o dd r' -> incl r' r.
Proof.
  intros r o dd r' O. induction O; intros z I; try (right; auto; fail); auto.
Qed.
Lemma others_skips : forall r o dd r', others r o dd r' -> forall n, In n r -> In n r' \/ In (tn_type n) [N_COMMENT; N_ELIF; N_ELSE].
Proof.
  intros r o dd r' O. induction O as [r F|n r o ds' r' T O IH|n r y ce b d1 o ds' r' T P S0 SB O IH|n r b d1 T SB]; intros m I; auto.
  - destruct I as [<-|I]; [right; rewrite T; now left|auto].
  - destruct I as [<-|I]; [right; rewrite T; right; now left|auto].
  - destruct I as [<-|I]; [right; rewrite T; right; right; now left|auto].
Qed.

(** Nodes and their payloads. *)
Definition tuned (n : tnode) : Prop :=
  tn_type n <> N_NAMESPACE /\ (forall k y, tn_pay n = XDef k y -> tn_type n = N_VAR_DEF) /\ (forall k ks, tn_pay n = XProto k ks -> tn_type n = N_FUNCTION_PROTO).
Definition ordinary (r : list tnode) : Prop := forall n, in_checked n r -> tuned n /\ tn_type n <> N_FUNCTION_PROTO.
Definition shape (r : list tnode) : Prop := forall n, In n r -> tuned n /\ ordinary (tn_child n).

Lemma ordinary_shape : forall r, ordinary r -> shape r.
Proof.
  intros r O n I. split; [exact (proj1 (O n (ic_here _ _ I)))|]. intros m C. apply O. now apply ic_below with n.
Qed.
Lemma ordinary_next : forall n r, ordinary (n :: r) -> ordinary r.
Proof. intros n r O m C. apply O. inversion C as [? I|q ? I C']; subst; [apply ic_here; now right|apply ic_below with q; [now right|exact C']]. Qed.
Lemma ordinary_child : forall n r, ordinary (n :: r) -> ordinary (tn_child n).
Proof. intros n r O m C. apply O. apply ic_below with n; [now left|exact C]. Qed.
Lemma ordinary_less : forall r r', ordinary r -> incl r' r -> ordinary r'.
Proof. intros r r' O L m C. apply O. inversion C as [? I|q ? I C']; subst; [apply ic_here; now apply L|apply ic_below with q; [now apply L|exact C']]. Qed.

(** Blocks put nothing outside. *)
Lemma quiet :
  (forall top r cs dd, stands top r cs dd -> ordinary r -> top = false -> dd = []) /\
  (forall r o dd r', others r o dd r' -> ordinary r -> dd = []).
Proof.
  apply stands_both; intros; subst; try discriminate; auto;
    try match goal with X : ordinary (?n :: ?r) |- _ => pose proof (ordinary_next _ _ X) as ON; pose proof (ordinary_child _ _ X) as OC; destruct (X n (ic_here _ _ (in_eq _ _))) as ((T1 & _) & T2) end; auto; try contradiction.
  - match goal with A : ordinary _ -> false = false -> _, B : ordinary _ -> ds2 = [], C : ordinary r -> _, O : others _ _ _ _ |- _ => rewrite (A OC eq_refl), (B ON), (C (ordinary_less _ _ ON (others_incl _ _ _ _ O)) eq_refl) end. reflexivity.
  - match goal with A : ordinary (tn_child n) -> _, B : ordinary l -> _ |- _ => rewrite (A OC eq_refl), (B ON eq_refl) end. reflexivity.
  - match goal with A : ordinary (tn_child n) -> _, B : ordinary l -> _ |- _ => rewrite (A OC eq_refl), (B ON) end. reflexivity.
Qed.

Definition definite (n : tnode) : list nat :=
  match tn_pay n with XDef k _ => [k] | XProto k _ => if is_external ys k then [] else flat_map tops (tn_child n) ++ [k] | _ => [] end.
(** The definition of a variable, of a function. *)
Definition var_made (n : tnode) (d : cdef) : Prop := exists k y x v label, tn_pay n = XDef k y /\ is_var env k x v /\
  (v_cexpr v = Some false /\ d = FVar (negb (v_exported v)) false (c_type (v_type v)) x label None \/
   exists ce, same y ce /\ v_cexpr v = Some true /\ d = FVar (negb (v_exported v)) (v_const v) (c_type (v_type v)) x label (Some ce)).
Definition fun_made (n : tnode) (d : cdef) : Prop := exists k ks x f ps, tn_pay n = XProto k ks /\ is_fun env k x f /\ Forall2 (param_of env) ks ps /\
  ((exists s label, labelled env k (f_export f) label /\ d = FProto s (c_type (f_ret f)) x ps label) \/ f_external f = false /\ exists s b, d = FFunc s (c_type (f_ret f)) x ps b).
Definition near (r : list tnode) (n : tnode) : Prop := In n r \/ exists m, In m r /\ tn_type m = N_FUNCTION_PROTO /\ In n (tn_child m).

Record contains (r : list tnode) (dd : list cdef) : Prop := {
  cn_names : flat_map defined_names dd = map name_of (flat_map definite r);
  cn_from : forall d, In d dd -> exists n, near r n /\ var_made n d \/ In n r /\ fun_made n d;
  cn_vars : forall n k y, In n r -> tn_pay n = XDef k y -> exists d, In d dd /\ var_made n d;
  cn_funs : forall n k ks x f, In n r -> tn_pay n = XProto k ks -> is_fun env k x f -> exists ps label, Forall2 (param_of env) ks ps /\ labelled env k (f_export f) label /\
    (f_external f = false -> exists s b d1, stands true (tn_child n) b d1 /\ In (FFunc s (c_type (f_ret f)) x ps b) dd /\
       forall m j y, In m (tn_child n) -> tn_pay m = XDef j y -> exists d, In d dd /\ var_made m d) /\
    (f_external f = true -> In (FProto false (c_type (f_ret f)) x ps label) dd) }.

Lemma near_next : forall n r m, near r m -> near (n :: r) m.
Proof. intros n r m [I|(q & I & T & J)]; [left; now right|right; exists q; split; [now right|auto]]. Qed.
Lemma near_less : forall r r' m, incl r r' -> near r m -> near r' m.
Proof. intros r r' m L [I|(q & I & T & J)]; [left; now apply L|right; exists q; split; [now apply L|auto]]. Qed.

(** Statements without definitions. *)
Lemma contains_skip : forall r r' dd, contains r dd -> incl r r' -> (forall n, In n r' -> In n r \/ (forall k y, tn_pay n <> XDef k y) /\ (forall k ks, tn_pay n <> XProto k ks)) ->
  flat_map definite r' = flat_map definite r -> contains r' dd.
Proof.
  intros r r' dd [C1 C2 C3 C4] L S0 E. constructor.
  - now rewrite E.
  - intros d I. destruct (C2 d I) as (n & [(A & B)|(A & B)]); exists n; [left; split; [now apply near_less with r|exact B]|right; split; [now apply L|exact B]].
  - intros n k y I P. destruct (S0 n I) as [J|(X & _)]; [exact (C3 n k y J P)|exfalso; exact (X _ _ P)].
  - intros n k ks x f I P F. destruct (S0 n I) as [J|(_ & X)]; [exact (C4 n k ks x f J P F)|exfalso; exact (X _ _ P)].
Qed.
Lemma tuned_plain : forall n, tuned n -> tn_type n <> N_VAR_DEF -> tn_type n <> N_FUNCTION_PROTO -> (forall k y, tn_pay n <> XDef k y) /\ (forall k ks, tn_pay n <> XProto k ks).
Proof. intros n (_ & A & B) N1 N2. split; [intros k y P; apply N1; exact (A _ _ P)|intros k ks P; apply N2; exact (B _ _ P)]. Qed.
Lemma plain_definite : forall n, (forall k y, tn_pay n <> XDef k y) -> (forall k ks, tn_pay n <> XProto k ks) -> definite n = [].
Proof. intros n A B. unfold definite. destruct (tn_pay n); try reflexivity; [now elim (A sym e)|now elim (B sym params)]. Qed.
Lemma contains_next : forall n r dd, contains r dd -> (forall k y, tn_pay n <> XDef k y) -> (forall k ks, tn_pay n <> XProto k ks) -> contains (n :: r) dd.
Proof.
  intros n r dd C A B. apply (contains_skip r); [exact C|intros z I; now right| |cbn [flat_map]; now rewrite (plain_definite n A B)].
  intros m [<-|I]; [right; auto|now left].
Qed.
Lemma contains_others : forall r o d2 r' dd, others r o d2 r' -> shape r -> contains r' dd -> contains r dd.
Proof.
  intros r o d2 r' dd O. induction O as [r F|n r o ds' r' T O IH|n r y ce b d1 o ds' r' T P S0 SB O IH|n r b d1 T SB]; intros SH C; auto.
  - assert (SR : shape r) by (intros m I; apply SH; now right). destruct (tuned_plain n (proj1 (SH n (or_introl eq_refl)))); [congruence|congruence|]. apply contains_next; auto.
  - assert (SR : shape r) by (intros m I; apply SH; now right). destruct (tuned_plain n (proj1 (SH n (or_introl eq_refl)))); [congruence|congruence|]. apply contains_next; auto.
  - destruct (tuned_plain n (proj1 (SH n (or_introl eq_refl)))); [congruence|congruence|]. apply contains_next; auto.
Qed.
Lemma ordinary_definite : forall r, ordinary r -> flat_map definite r = flat_map tops r.
Proof.
  intros r. induction r as [|n r IH]; intro O; [reflexivity|]. cbn [flat_map]. rewrite (IH (ordinary_next _ _ O)). f_equal.
  destruct (O n (ic_here _ _ (in_eq _ _))) as ((_ & _ & T) & NF). unfold definite, tops. destruct (tn_pay n) as [| |k1 y1|k1 y1|g ps|y1|k1] eqn:P; try reflexivity.
  exfalso. apply NF. exact (T _ _ eq_refl).
Qed.
Lemma ordinary_near : forall r n, ordinary r -> near r n -> In n r.
Proof. intros r n O [I|(m & I & T & _)]; [exact I|]. exfalso. exact (proj2 (O m (ic_here _ _ I)) T). Qed.
Lemma external_is : forall k x f, is_fun env k x f -> is_external ys k = f_external f.
Proof. intros k x f (y & E & _ & K). unfold is_external. now rewrite E, K. Qed.

Lemma contents :
  (forall top r cs dd, stands top r cs dd -> shape r -> top = true -> contains r dd) /\
  (forall r o dd r', others r o dd r' -> True).
Proof.
  apply stands_both; intros; subst; try discriminate; auto;
    try match goal with X : shape (?n :: ?r) |- _ => assert (SR : shape r) by (intros zz II; apply X; now right); destruct (X n (or_introl eq_refl)) as (TU & OC) end;
    try (apply contains_next; [auto|apply (tuned_plain n TU); congruence|apply (tuned_plain n TU); congruence]).
  - constructor; [reflexivity|intros d []|intros n k y []|intros n k ks x f []].
  - apply contains_next; auto.
    + intros k y P. destruct H as [H|(_ & H)]; [|congruence]. destruct TU as (_ & TU & _). rewrite (TU _ _ P) in H. cbn [In] in H. intuition discriminate.
    + intros k ks P. destruct H as [H|(_ & H)]; [|congruence]. destruct TU as (_ & _ & TU). rewrite (TU _ _ P) in H. cbn [In] in H. intuition discriminate.
  - (* outside *) match goal with IH : shape l -> _ -> contains l ds |- _ => destruct (IH SR eq_refl) as [C1 C2 C3 C4] end.
    assert (NX : name_of k = x) by (eapply is_var_name; eassumption). set (dn := FVar _ _ _ _ _ _).
    assert (VM : var_made n dn) by (exists k, e, x, v, label; split; [assumption|]; split; [assumption|]; left; auto).
    constructor.
    + cbn [flat_map]. rewrite C1. unfold definite at 2. rewrite H0. cbn [defined_names dn app map]. now rewrite NX.
    + intros d [<-|I]; [exists n; left; split; [left; now left|exact VM]|]. destruct (C2 d I) as (m & [(A & B)|(A & B)]); exists m; [left; split; [now apply near_next|exact B]|right; split; [now right|exact B]].
    + intros m j y [<-|I] P; [exists dn; split; [now left|exact VM]|]. destruct (C3 m j y I P) as (d & J & V). exists d. split; [now right|exact V].
    + intros m j ks z f [<-|I] P F; [congruence|]. destruct (C4 m j ks z f I P F) as (ps & lb & A1 & A2 & A3 & A4). exists ps, lb. split; [exact A1|]. split; [exact A2|]. split.
      * intro X. destruct (A3 X) as (s & b & d1 & B1 & B2 & B3). exists s, b, d1. split; [exact B1|]. split; [now right|]. intros q j' y' Q1 Q2. destruct (B3 q j' y' Q1 Q2) as (d & J & V). exists d. split; [now right|exact V].
      * intro X. right. exact (A4 X).
  - (* constant *) match goal with IH : shape l -> _ -> contains l ds |- _ => destruct (IH SR eq_refl) as [C1 C2 C3 C4] end.
    assert (NX : name_of k = x) by (eapply is_var_name; eassumption). set (dn := FVar _ _ _ _ _ _).
    assert (VM : var_made n dn) by (exists k, e, x, v, label; split; [assumption|]; split; [assumption|]; right; exists ce; auto).
    constructor.
    + cbn [flat_map]. rewrite C1. unfold definite at 2. rewrite H0. cbn [defined_names dn app map]. now rewrite NX.
    + intros d [<-|I]; [exists n; left; split; [left; now left|exact VM]|]. destruct (C2 d I) as (m & [(A & B)|(A & B)]); exists m; [left; split; [now apply near_next|exact B]|right; split; [now right|exact B]].
    + intros m j y [<-|I] P; [exists dn; split; [now left|exact VM]|]. destruct (C3 m j y I P) as (d & J & V). exists d. split; [now right|exact V].
    + intros m j ks z f [<-|I] P F; [congruence|]. destruct (C4 m j ks z f I P F) as (ps & lb & A1 & A2 & A3 & A4). exists ps, lb. split; [exact A1|]. split; [exact A2|]. split.
      * intro X. destruct (A3 X) as (s & b & d1 & B1 & B2 & B3). exists s, b, d1. split; [exact B1|]. split; [now right|]. intros q j' y' Q1 Q2. destruct (B3 q j' y' Q1 Q2) as (d & J & V). exists d. split; [now right|exact V].
      * intro X. right. exact (A4 X).
  - (* if *)
    match goal with A : stands false (tn_child n) b ds1 |- _ => rewrite (proj1 quiet _ _ _ _ A OC eq_refl) end.
    assert (E2 : ds2 = []).
    { match goal with O : others l o ds2 r |- _ => clear -O SR; induction O as [r F|n r o ds' r' T O IH|n r y ce b d1 o ds' r' T P S0 SB O IH|n r b d1 T SB]; auto end.
      - apply IH. intros m I. apply SR. now right.
      - rewrite (proj1 quiet _ _ _ _ SB (proj2 (SR n (or_introl eq_refl))) eq_refl). apply IH. intros m I. apply SR. now right.
      - exact (proj1 quiet _ _ _ _ SB (proj2 (SR n (or_introl eq_refl))) eq_refl). }
    rewrite E2. cbn [app].
    match goal with O : others l o ds2 r |- _ => apply (contains_others _ _ _ _ _ O SR); pose proof (others_incl _ _ _ _ O) as LI end.
    match goal with IH : shape r -> _ -> contains r ds |- _ => apply IH; [|reflexivity] end. intros m I. apply SR. now apply LI.
  - (* while *)
    match goal with A : stands false (tn_child n) b ds1 |- _ => rewrite (proj1 quiet _ _ _ _ A OC eq_refl) end. cbn [app]. auto.
  - (* namespace *) exfalso. apply (proj1 TU). assumption.
  - (* function *)
    match goal with IH : shape l -> _ -> contains l ds |- _ => destruct (IH SR eq_refl) as [C1 C2 C3 C4] end.
    match goal with IH : shape (tn_child n) -> _ -> contains _ _ |- _ => destruct (IH (ordinary_shape _ OC) eq_refl) as [D1 D2 D3 D4] end.
    assert (NX : name_of k = x) by (eapply is_fun_name; eassumption).
    set (pr := if f_export f then _ else _). set (df := FFunc _ _ _ _ _).
    assert (FM : forall d, In d (pr ++ [df]) -> fun_made n d).
    { intros d I. exists k, ks, x, f, ps. split; [assumption|]. split; [assumption|]. split; [assumption|]. apply in_app_iff in I as [I|[<-|[]]].
      - left. unfold pr in I. destruct (f_export f); [destruct I as [<-|[]]; eauto|destruct I].
      - right. split; [assumption|]. unfold df. eauto. }
    constructor.
    + rewrite flat_map_app, D1. rewrite flat_map_app. cbn [flat_map]. rewrite C1. unfold definite at 3. rewrite H0. erewrite external_is by eassumption. rewrite H2.
      rewrite (ordinary_definite _ OC). replace (flat_map defined_names pr) with (@nil text) by (unfold pr; destruct (f_export f); reflexivity). cbn [app defined_names df].
      rewrite !map_app, <- app_assoc. cbn [map app]. now rewrite NX.
    + intros d I. apply in_app_iff in I as [I|I].
      * destruct (D2 d I) as (m & [(A & B)|(A & B)]).
        -- exists m. left. split; [right; exists n; split; [now left|]; split; [assumption|exact (ordinary_near _ _ OC A)]|exact B].
        -- exfalso. destruct (OC m (ic_here _ _ A)) as ((_ & _ & T) & NF). destruct B as (k' & ks' & x' & f' & ps' & P' & _). exact (NF (T _ _ P')).
      * change (df :: ds) with ([df] ++ ds) in I. rewrite app_assoc in I. apply in_app_iff in I as [I|I]; [exists n; right; split; [now left|exact (FM d I)]|].
        destruct (C2 d I) as (m & [(A & B)|(A & B)]); exists m; [left; split; [now apply near_next|exact B]|right; split; [now right|exact B]].
    + intros m j y [<-|I] P; [congruence|]. destruct (C3 m j y I P) as (d & J & V). exists d. split; [|exact V]. apply in_or_app. right. apply in_or_app. right. now right.
    + assert (LATER : forall d, In d ds -> In d (ds1 ++ pr ++ df :: ds)) by (intros d J; apply in_or_app; right; apply in_or_app; right; now right).
      intros m j ks0 z f0 [<-|I] P F.
      * assert (j = k /\ ks0 = ks) as (-> & ->) by (split; congruence). destruct (is_fun_one _ _ _ _ _ _ F H1) as (-> & ->).
        exists ps, label. split; [assumption|]. split; [assumption|]. split; [|congruence]. intros _. exists (negb (f_export f)), b, ds1. split; [assumption|]. split.
        -- apply in_or_app. right. apply in_or_app. right. now left.
        -- intros q j' y' Q1 Q2. destruct (D3 q j' y' Q1 Q2) as (d & J & V). exists d. split; [apply in_or_app; now left|exact V].
      * destruct (C4 m j ks0 z f0 I P F) as (ps0 & lb & A1 & A2 & A3 & A4). exists ps0, lb. split; [exact A1|]. split; [exact A2|]. split.
        -- intro X. destruct (A3 X) as (s & b0 & d1 & B1 & B2 & B3). exists s, b0, d1. split; [exact B1|]. split; [now apply LATER|]. intros q j' y' Q1 Q2. destruct (B3 q j' y' Q1 Q2) as (d & J & V). exists d. split; [now apply LATER|exact V].
        -- intro X. apply LATER. exact (A4 X).
  - (* external *)
    match goal with IH : shape l -> _ -> contains l ds |- _ => destruct (IH SR eq_refl) as [C1 C2 C3 C4] end. set (dn := FProto _ _ _ _ _).
    assert (FM : fun_made n dn) by (exists k, ks, x, f, ps; split; [assumption|]; split; [assumption|]; split; [assumption|]; left; exists false, label; split; [assumption|reflexivity]).
    constructor.
    + cbn [flat_map]. rewrite C1. unfold definite at 2. rewrite H0. erewrite external_is by eassumption. rewrite H2. reflexivity.
    + intros d [<-|I]; [exists n; right; split; [now left|exact FM]|]. destruct (C2 d I) as (m & [(A & B)|(A & B)]); exists m; [left; split; [now apply near_next|exact B]|right; split; [now right|exact B]].
    + intros m j y [<-|I] P; [congruence|]. destruct (C3 m j y I P) as (d & J & V). exists d. split; [now right|exact V].
    + intros m j ks0 z f0 [<-|I] P F.
      * assert (j = k /\ ks0 = ks) as (-> & ->) by (split; congruence). destruct (is_fun_one _ _ _ _ _ _ F H1) as (-> & ->).
        exists ps, label. split; [assumption|]. split; [assumption|]. split; [congruence|]. intros _. now left.
      * destruct (C4 m j ks0 z f0 I P F) as (ps0 & lb & A1 & A2 & A3 & A4). exists ps0, lb. split; [exact A1|]. split; [exact A2|]. split.
        -- intro X. destruct (A3 X) as (s & b & d1 & B1 & B2 & B3). exists s, b, d1. split; [exact B1|]. split; [now right|]. intros q j' y' Q1 Q2. destruct (B3 q j' y' Q1 Q2) as (d & J & V). exists d. split; [now right|exact V].
        -- intro X. right. exact (A4 X).
Qed.
End Contents.
