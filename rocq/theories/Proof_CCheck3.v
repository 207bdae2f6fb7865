(** Generated C files meet the constraints of C. *)
From Coq Require Import List Arith NArith ZArith Bool Lia Ascii String.
From Verif Require Import Base Model_Token Model_Literal Model_Parse Spec_Parse Model_Sem Spec_Sem Spec_Sem2 Model_CGen Spec_C Spec_CGen Spec_CProg Spec_CBack Spec_Run
  Spec_LLVM Spec_CBehave Proof_Sem2 Spec_CCheck Spec_CReady Proof_CRun2 Proof_CRun3 Proof_CRun8 Proof_CRun9 Proof_Safe2 Proof_CCheck Proof_CCheck2.
Import ListNotations.
Open Scope list_scope.
Open Scope nat_scope.

Lemma ctys_eqb_refl : forall l, ctys_eqb l l = true.
Proof. induction l as [|(q, t) l IH]; [reflexivity|]. cbn [ctys_eqb]. rewrite Bool.eqb_reflx, cty_eqb_refl. exact IH. Qed.
Lemma here_other : forall g x y d, x <> y -> find_here ((x, d) :: g) y = find_here g y.
Proof. intros g x y d N1. cbn [find_here]. now rewrite (proj2 (text_eqb_neq x y) N1). Qed.
Lemma here_same : forall g x d, find_here ((x, d) :: g) x = Some d.
Proof. intros g x d. cbn [find_here]. now rewrite text_eqb_refl. Qed.
Lemma in_here : forall g x d, In (x, d) g -> find_here g x <> None.
Proof.
  induction g as [|(y, d0) g IH]; intros x d I; [destruct I|]. destruct I as [E|I]; [injection E as -> ->; rewrite here_same; discriminate|].
  cbn [find_here]. destruct (text_eqb y x); [discriminate|eauto].
Qed.
Lemma name_one : forall g x, find_name [g] x = find_here g x.
Proof. intros g x. cbn [find_name]. now destruct (find_here g x). Qed.

Lemma check_defs_app : forall strict headers a b g g', check_defs strict headers g a = Some g' -> check_defs strict headers g (a ++ b) = check_defs strict headers g' b.
Proof.
  intros strict headers a. induction a as [|d a IH]; intros b g g' E; [injection E as ->; reflexivity|]. cbn [check_defs app] in *. destruct (check_def strict headers g d); [auto|discriminate E].
Qed.

Lemma nodup_split : forall (a b : list text), NoDup (a ++ b) -> NoDup a /\ NoDup b /\ forall x, In x a -> In x b -> False.
Proof.
  induction a as [|x a IH]; intros b N1; [split; [constructor|]; split; [exact N1|intros x []]|]. cbn [app] in N1. inversion N1 as [|? ? A B]; subst. destruct (IH b B) as (C & E & F).
  split; [constructor; [intro I; apply A; apply in_or_app; now left|exact C]|]. split; [exact E|]. intros y [<-|I] J; [apply A; apply in_or_app; now right|eauto].
Qed.
(** Functions with internal linkage are defined. *)
Definition linked (g : cscope) : Prop := forall x d t ps, In (x, EFunction true d t ps) g -> defined_before g x = true.
Lemma linked_new : forall g x d, linked g -> find_here g x = None -> (forall t ps, d <> EFunction true false t ps) -> linked ((x, d) :: g).
Proof.
  intros g x d L N1 ND y b t ps [E|I].
  - injection E as -> ->. unfold defined_before. rewrite here_same. destruct b; [reflexivity|now elim (ND t ps)].
  - assert (x <> y) by (intros ->; exact (in_here _ _ _ I N1)). unfold defined_before. rewrite here_other by assumption. exact (L _ _ _ _ I).
Qed.
Lemma linked_defined : forall g x s t ps, (forall y d t ps, y <> x -> In (y, EFunction true d t ps) g -> defined_before g y = true) -> linked ((x, EFunction s true t ps) :: g).
Proof.
  intros g x s t ps L y b t' ps' I. destruct (text_eqb x y) eqn:T.
  - apply text_eqb_eq in T. subst y. unfold defined_before. now rewrite here_same.
  - apply text_eqb_neq in T. unfold defined_before. rewrite here_other by exact T. destruct I as [E|I]; [now elim T; injection E|]. apply (L y b t' ps'); auto.
Qed.

Section File.
Variable H : host.
Variables (strict : bool) (headers : list text).
Variable env : cctx.
Variable s : sst.
Variable l : list tnode.
Variable hs : list helper.
Local Notation ys := (ce_syms env).
Local Notation D := (sig s).
Local Notation name_of := (name_of env).
Local Notation isvar := (isvar env).
Local Notation isfun := (isfun env).
Local Notation vtype := (vtype env).
Local Notation same := (Spec_CGen.same env).
Local Notation stands := (Spec_CBack.stands env).
Local Notation others := (Spec_CBack.others env).
Local Notation fine_block := (fine_block H ys D).
Local Notation fine_stmt := (fine_stmt H ys D).
Local Notation fine_expr := (fine_expr H D).
Local Notation fresh_names := (fresh_names env).
Local Notation visible := (visible env l hs).
Local Notation out_var := (out_var env l).
Local Notation out_fun := (out_fun env).
Local Notation supplied := (supplied env l).
Local Notation check_block := (check_block strict headers).
Local Notation check_def := (check_def strict headers).
Local Notation check_defs := (check_defs strict headers).
Hypothesis ES : ys = s_syms s.
Hypothesis CR : c_ready strict headers env l.
Hypothesis HP : helped l hs.
Hypothesis FACT : forall n, in_checked n l -> fact env n.

Definition with_helpers (g : cscope) : Prop := forall h, In h hs -> find_here g (helper_name h) = Some (helper_entity h).
(** What definitions add to the file scope. *)
Record grown (g g' : cscope) (ks : list nat) : Prop := {
  gr_keep : forall x d, find_here g x = Some d -> find_here g' x = Some d;
  gr_new : forall x, find_here g x = None -> ~ In x (map name_of ks) -> find_here g' x = None;
  gr_linked : linked g' }.
Lemma grown_refl : forall g, linked g -> grown g g [].
Proof. intros g L. constructor; auto. Qed.
Lemma grown_trans : forall a b c ks ks', grown a b ks -> grown b c ks' -> grown a c (ks ++ ks').
Proof.
  intros a b c ks ks' [A1 A2 A3] [B1 B2 B3]. constructor; auto. intros x E N1. rewrite map_app in N1. apply B2; [apply A2; [exact E|]|]; intro I; apply N1; apply in_or_app; auto.
Qed.
Lemma grown_add : forall g k x d, linked g -> name_of k = x -> find_here g x = None -> (forall t ps, d <> EFunction true false t ps) -> grown g ((x, d) :: g) [k].
Proof.
  intros g k x d L NX E ND. constructor; [| |now apply linked_new].
  - intros y d' F. rewrite here_other; [exact F|intros ->; congruence].
  - intros y F N1. rewrite here_other; [exact F|]. intros ->. apply N1. left. exact NX.
Qed.
Lemma helpers_keep : forall g g' ks, grown g g' ks -> with_helpers g -> with_helpers g'.
Proof. intros g g' ks G W h I. exact (gr_keep _ _ _ G _ _ (W h I)). Qed.
Lemma out_var_keep : forall g g' ks k, grown g g' ks -> out_var g k -> out_var g' k.
Proof. intros g g' ks k G (x & v & q & A & B & C). exists x, v, q. split; [exact A|]. split; [exact (gr_keep _ _ _ G _ _ B)|exact C]. Qed.
Lemma out_fun_keep : forall g g' ks k, grown g g' ks -> out_fun g k -> out_fun g' k.
Proof. intros g g' ks k G (x & v & q & d & A & B & C). exists x, v, q, d. split; [exact A|]. split; [exact (gr_keep _ _ _ G _ _ B)|exact C]. Qed.
Lemma supplied_keep : forall g g' ks top r, grown g g' ks -> supplied g top r -> supplied g' top r.
Proof. intros g g' ks top r G (A & B). split; [intros n k y I P T; exact (out_var_keep _ _ _ _ G (A n k y I P T))|intros n k ps I P; exact (out_fun_keep _ _ _ _ G (B n k ps I P))]. Qed.
Lemma supplied_more : forall g g' top r, (forall x d, find_here g x = Some d -> find_here g' x = Some d) -> supplied g top r -> supplied g' top r.
Proof.
  intros g g' top r K (A & B). split.
  - intros n k y I P T. destruct (A n k y I P T) as (x & v & q & A1 & A2 & A3). exists x, v, q. auto.
  - intros n k ps I P. destruct (B n k ps I P) as (x & v & q & d & A1 & A2 & A3). exists x, v, q, d. auto.
Qed.
Lemma visible_keep : forall g g' ks e, grown g g' ks -> visible [g] e -> visible [g'] e.
Proof.
  intros g g' ks e G [A B C]. constructor.
  - intros k I V. destruct (A k I V) as (x & v & q & X1 & X2 & X3). exists x, v, q. split; [exact X1|]. split; [|exact X3]. rewrite name_one in *. exact (gr_keep _ _ _ G _ _ X2).
  - intros k I V. destruct (B k I V) as (x & v & q & d & X1 & X2 & X3). exists x, v, q, d. split; [exact X1|]. split; [|exact X3]. rewrite name_one in *. exact (gr_keep _ _ _ G _ _ X2).
  - intros h I. specialize (C h I). rewrite name_one in *. exact (gr_keep _ _ _ G _ _ C).
Qed.

(** * Variables *)

Lemma fine_anywhere : forall V W y, fine_expr V y -> (forall p, xpart p y -> constant_part p) -> fine_expr W y.
Proof.
  intros V W y F. induction F as [t k ty c m I DK|t v ty O|t k xs r I DK FX IH|x c F IH N1|x c F IH T|o x y r c F1 IH1 F2 IH2 T O C]; intro CP.
  - destruct (CP _ (xp_self _)).
  - now constructor.
  - destruct (CP _ (xp_self _)).
  - apply fe_neg; [|exact N1]. apply IH. intros p P. apply CP. now apply xp_un.
  - apply fe_not; [|exact T]. apply IH. intros p P. apply CP. now apply xp_un.
  - apply fe_bin; auto; [apply IH1|apply IH2]; intros p P; apply CP; [now apply xp_left|now apply xp_right].
Qed.
Lemma constant_same : forall y ce, same y ce -> (forall p, xpart p y -> constant_part p) -> constant_expr ce = true.
Proof.
  intros y ce S0. induction S0 as [| | | | | | | | |o op x ty c e U S0 IH|o op x y ty c a b B NS S1 IH1 S2 IH2|x y ty c a b T S1 IH1 S2 IH2|x y ty c a b T S1 IH1 S2 IH2
    |x y c a b S1 IH1 S2 IH2|x y c a b S1 IH1 S2 IH2|] ; intro CP; try reflexivity; try (now destruct (CP _ (xp_self _))).
  - cbn [constant_expr]. apply IH. intros p P. apply CP. now apply xp_un.
  - cbn [constant_expr]. rewrite IH1, IH2; [reflexivity| |]; intros p P; apply CP; [now apply xp_right|now apply xp_left].
  - exfalso. destruct (CP _ (xp_self _)) as (_ & X). now destruct (X T).
  - exfalso. destruct (CP _ (xp_self _)) as (_ & X). now destruct (X T).
Qed.

Definition placed (n : tnode) : Prop := In n l \/ exists m, In m l /\ tn_type m = N_FUNCTION_PROTO /\ In n (tn_child m).
Definition sound (n : tnode) (k : nat) (y : texpr) : Prop := in_checked n l /\ placed n /\ exists V m, fine_expr V y /\ D k = Some (DVar (x_ty y) m).
Lemma def_step : forall n k y x v ce st q lb i g, sound n k y -> tn_pay n = XDef k y -> is_var env k x v -> same y ce -> with_helpers g -> find_here g x = None ->
  v_cexpr v = Some false /\ q = false /\ i = None \/ v_cexpr v = Some true /\ q = v_const v /\ i = Some ce ->
  check_def g (FVar st q (c_type (v_type v)) x lb i) = Some ((x, EObject q (c_type (v_type v))) :: g) /\ out_var ((x, EObject q (c_type (v_type v))) :: g) k.
Proof.
  intros n k y x v ce st q lb i g (C & PL & V & m & FE & DK) P IV S0 WH E Q. destruct (d_var env s ES _ _ _ DK) as (x' & v' & IV' & VT & VC). destruct (is_var_one env _ _ _ _ _ IV IV') as (<- & <-).
  destruct (FACT n C) as (F1 & _). destruct (F1 _ _ P) as (TN & _ & (x' & v' & IV2 & CX) & _). destruct (is_var_one env _ _ _ _ _ IV IV2) as (<- & <-).
  assert (CE : checked_expr n = Some y) by (unfold checked_expr; now rewrite P). split.
  - cbn [Spec_CCheck.check_def]. rewrite (not_void _ (cr_void _ _ _ _ CR _ _ _ IV)). unfold undeclared. rewrite (not_header strict headers env l CR _ _ _ IV), E. cbn [negb andb].
    destruct Q as [(_ & _ & ->)|(QC & _ & ->)]; [reflexivity|]. assert (x_cexpr y = true) as XC by congruence.
    assert (CP : forall p, xpart p y -> constant_part p) by (intros p; exact (cr_constants _ _ _ _ CR n k y p PL P XC)).
    rewrite (constant_same _ _ S0 CP). cbn [andb].
    rewrite (kind_fits strict headers env l CR [g] y ce q (v_type v)); [reflexivity| |now symmetry|exact (cr_void _ _ _ _ CR _ _ _ IV)|].
    + apply (node_kind H strict headers env s l hs ES CR HP [g] [] n y ce); auto; [|exact (fine_anywhere _ [] _ FE CP)].
      constructor; [intros j []|intros j []|]. intros h I. rewrite name_one. exact (WH h I).
    + apply (strict_value strict headers env l CR n y C); [rewrite TN; now left|exact CE].
  - exists x, v, q. split; [exact IV|]. split; [apply here_same|]. split; [|split].
    + intro X. destruct Q as [(_ & Q & _)|(_ & Q & _)]; congruence.
    + intro X. destruct Q as [(_ & Q & _)|(Q & _)]; congruence.
    + intros _. exists n, y. auto.
Qed.

(** The variables of functions. *)
Definition hoists (r : list tnode) (ds : list cdef) : Prop := forall g, with_helpers g -> linked g -> NoDup (map name_of (flat_map tops r)) ->
  (forall k, In k (flat_map tops r) -> find_here g (name_of k) = None) ->
  exists g', check_defs g ds = Some g' /\ grown g g' (flat_map tops r) /\ forall n k y, In n r -> tn_pay n = XDef k y -> out_var g' k.
Definition plain_node (n : tnode) : Prop := (forall k y, tn_pay n <> XDef k y) /\ (forall k ks, tn_pay n <> XProto k ks).
Lemma plain_tops : forall n r, plain_node n -> flat_map tops (n :: r) = flat_map tops r.
Proof. intros n r (A & _). cbn [flat_map]. unfold tops at 1. destruct (tn_pay n) eqn:E; try reflexivity. now elim (A sym e). Qed.
Lemma plain_outside : forall n r, plain_node n -> flat_map outside (n :: r) = flat_map outside r.
Proof. intros n r (A & B). cbn [flat_map]. unfold outside at 1. destruct (tn_pay n) eqn:E; try reflexivity; [now elim (A sym e)|now elim (B sym params)]. Qed.
Lemma hoists_next : forall n r ds, plain_node n -> hoists r ds -> hoists (n :: r) ds.
Proof.
  intros n r ds PN HO g. rewrite (plain_tops _ _ PN). intros A B C E. destruct (HO g A B C E) as (g' & X & Y & Z). exists g'. split; [exact X|]. split; [exact Y|].
  intros m k y [<-|I] P; [now elim (proj1 PN k y)|eauto].
Qed.
Lemma hoists_others : forall r o d2 r' ds, others r o d2 r' -> shape r -> hoists r' ds -> hoists r ds.
Proof.
  intros r o d2 r' dd O. induction O as [r F|n r o ds' r' T O IH|n r y ce b d1 o ds' r' T P S0 SB O IH|n r b d1 T SB]; intros SH C; auto.
  - assert (SR : shape r) by (intros m I; apply SH; now right). destruct (tuned_plain n (proj1 (SH n (or_introl eq_refl)))); [congruence|congruence|]. apply hoists_next; [split; assumption|auto].
  - assert (SR : shape r) by (intros m I; apply SH; now right). destruct (tuned_plain n (proj1 (SH n (or_introl eq_refl)))); [congruence|congruence|]. apply hoists_next; [split; assumption|auto].
  - destruct (tuned_plain n (proj1 (SH n (or_introl eq_refl)))); [congruence|congruence|]. apply hoists_next; [split; assumption|auto].
Qed.
Lemma hoists_def : forall n r k y x v ce st q lb i ds, sound n k y -> tn_pay n = XDef k y -> is_var env k x v -> same y ce ->
  v_cexpr v = Some false /\ q = false /\ i = None \/ v_cexpr v = Some true /\ q = v_const v /\ i = Some ce ->
  hoists r ds -> hoists (n :: r) (FVar st q (c_type (v_type v)) x lb i :: ds).
Proof.
  intros n r k y x v ce st q lb i ds SO P IV S0 Q HO g WH LK NDN NO. pose proof (is_var_name env _ _ _ IV) as NX.
  assert (TN : flat_map tops (n :: r) = k :: flat_map tops r) by (cbn [flat_map]; unfold tops at 1; now rewrite P). rewrite TN in *. cbn [map] in NDN. inversion NDN as [|? ? N1 N2]; subst x.
  assert (E : find_here g (name_of k) = None) by (apply NO; now left).
  destruct (def_step n k y _ v ce st q lb i g SO P IV S0 WH E Q) as (C1 & O1).
  pose proof (grown_add g k _ (EObject q (c_type (v_type v))) LK eq_refl E) as G1. specialize (G1 ltac:(intros; discriminate)).
  destruct (HO _ (helpers_keep _ _ _ G1 WH) (gr_linked _ _ _ G1) N2) as (g' & X & Y & Z).
  { intros j J. rewrite here_other; [apply NO; now right|]. intro EQ. apply N1. rewrite EQ. now apply in_map. }
  exists g'. split; [cbn [Spec_CCheck.check_defs]; rewrite C1; exact X|]. split; [exact (grown_trans _ _ _ [k] _ G1 Y)|].
  intros m j z [<-|I] PM; [|eauto]. assert (j = k) by congruence. subst j. exact (out_var_keep _ _ _ _ Y O1).
Qed.
Lemma inner :
  (forall top r cs ds, stands top r cs ds -> ordinary r -> top = true -> (forall n k y, In n r -> tn_pay n = XDef k y -> sound n k y) -> hoists r ds) /\
  (forall r o ds r', others r o ds r' -> True).
Proof.
  apply stands_both; intros; subst; try discriminate; auto;
    try match goal with X : ordinary (?n :: ?r) |- _ => pose proof (ordinary_next _ _ X) as ON; pose proof (ordinary_child _ _ X) as OC; pose proof (X n (ic_here _ _ (in_eq _ _))) as (TU & T2); pose proof (ordinary_shape _ ON) as SN end;
    try contradiction;
    try match goal with X : forall n k y, In n (?m :: ?r) -> _ |- _ => pose proof (fun n k y I => X n k y (or_intror I)) as SR; pose proof (fun k y => X m k y (or_introl eq_refl)) as SM end;
    try (apply hoists_next; [destruct (tuned_plain n TU); [congruence|congruence|split; assumption]|auto; fail]).
  - intros g WH LK _ _. exists g. split; [reflexivity|]. split; [now apply grown_refl|intros n k y []].
  - apply hoists_next; auto. split.
    + intros k y P. match goal with X : _ \/ _ |- _ => destruct X as [X|(_ & X)]; [|congruence]; rewrite (proj1 (proj2 TU) _ _ P) in X; cbn [In] in X; intuition discriminate end.
    + intros k ks P. elim T2. exact (proj2 (proj2 TU) _ _ P).
  - eapply hoists_def; eauto.
  - eapply hoists_def; eauto.
  - (* if *)
    match goal with A : stands false (tn_child n) b ds1, O : others l0 o ds2 r |- _ => rewrite (proj1 (quiet env) _ _ _ _ A OC eq_refl), (proj2 (quiet env) _ _ _ _ O ON); cbn [app];
      apply hoists_next; [destruct (tuned_plain n TU); [congruence|congruence|split; assumption]|]; apply (hoists_others _ _ _ _ _ O SN); pose proof (others_incl env _ _ _ _ O) as LI end.
    match goal with IH : ordinary r -> _ |- _ => apply IH; [exact (ordinary_less _ _ ON LI)|reflexivity|] end. intros m k y I. apply SR. now apply LI.
  - (* while *)
    match goal with A : stands false (tn_child n) b ds1 |- _ => rewrite (proj1 (quiet env) _ _ _ _ A OC eq_refl) end. cbn [app]. apply hoists_next; [destruct (tuned_plain n TU); [congruence|congruence|split; assumption]|auto].
  - elim (proj1 TU). assumption.
Qed.

(** * Functions *)

Definition frame_of (ps : list (cty * text)) : cscope := map (fun p => (snd p, EObject false (fst p))) ps.
Lemma frame_none : forall ks ps x, Forall2 (param_of env) ks ps -> ~ In x (map name_of ks) -> find_here (frame_of ps) x = None.
Proof.
  intros ks ps x F. induction F as [|k p ks ps (y & v & IV & ->) F IH]; intro N1; [reflexivity|]. cbn [frame_of map snd fst]. rewrite here_other; [apply IH; intro I; apply N1; now right|].
  intros ->. apply N1. left. exact (is_var_name env _ _ _ IV).
Qed.
Lemma new_apart : forall ks e, params_new env e ks -> NoDup (map name_of ks) /\ forall x, In x (map name_of ks) -> ~ In x (map name_of e).
Proof.
  induction ks as [|k ks IH]; intros e P; [split; [constructor|intros x []]|]. destruct P as (N1 & P). destruct (IH _ P) as (A & B). cbn [map]. split.
  - constructor; [|exact A]. intro I. apply (B _ I). now left.
  - intros x [<-|I]; [exact N1|]. intro J. apply (B x I). now right.
Qed.
Lemma frame_find : forall ks ps j x v, Forall2 (param_of env) ks ps -> NoDup (map name_of ks) -> In j ks -> is_var env j x v -> find_here (frame_of ps) x = Some (EObject false (c_type (v_type v))).
Proof.
  intros ks ps j x v F. induction F as [|k p ks ps (y & w & IV & ->) F IH]; intros N1 I V; [destruct I|]. cbn [frame_of map snd fst]. cbn [map] in N1. inversion N1 as [|? ? A B]; subst. destruct I as [<-|I].
  - destruct (is_var_one env _ _ _ _ _ IV V) as (<- & <-). apply here_same.
  - rewrite here_other; [now apply IH|]. intros ->. apply A. rewrite (is_var_name env _ _ _ IV), <- (is_var_name env _ _ _ V). now apply in_map.
Qed.
Lemma frame_visible : forall g ks ps e, visible [g] e -> Forall2 (param_of env) ks ps -> params_new env e ks -> visible [frame_of ps; g] (rev ks ++ e) /\ local_names env [frame_of ps] (rev ks ++ e).
Proof.
  intros g ks ps e [V1 V2 V3] F P. destruct (new_apart _ _ P) as (NN & AP).
  assert (FV : forall j, In j ks -> isvar j). { clear -F. induction F as [|k p ks ps (y & w & IV & _) F IH]; intros j I; [destruct I|destruct I as [<-|I]; [exists y, w; exact IV|auto]]. }
  assert (SK : forall j, In j e -> find_name [frame_of ps; g] (name_of j) = find_name [g] (name_of j)).
  { intros j J. cbn [find_name]. rewrite (frame_none ks ps); [reflexivity|exact F|]. intro I. apply (AP _ I). now apply in_map. }
  split; [constructor|].
  - intros j J VJ. apply in_app_iff in J as [J|J].
    + apply in_rev in J. destruct VJ as (x & v & IV). exists x, v, false. split; [exact IV|]. split; [cbn [find_name]; now rewrite (frame_find ks ps j x v F NN J IV)|]. split; [auto|discriminate].
    + destruct (V1 j J VJ) as (x & v & q & IV & E & Q). exists x, v, q. split; [exact IV|]. split; [|exact Q]. rewrite <- (is_var_name env _ _ _ IV) in *. now rewrite SK.
  - intros j J FJ. apply in_app_iff in J as [J|J].
    + apply in_rev in J. exfalso. exact (var_fun env j (FV j J) FJ).
    + destruct (V2 j J FJ) as (x & f & st & d & IV & E & Q). exists x, f, st, d. split; [exact IV|]. split; [|exact Q]. rewrite <- (is_fun_name env _ _ _ IV) in *. now rewrite SK.
  - intros h I. cbn [find_name]. rewrite (frame_none ks ps); [exact (V3 h I)|exact F|]. intro J. apply in_map_iff in J as (j & E & J). destruct (FV j J) as (x & v & IV).
    apply (cr_helpers _ _ _ _ CR j x v h IV). rewrite <- E. symmetry. exact (is_var_name env _ _ _ IV).
  - intros f x d [<-|[]] I. rewrite map_app. apply in_or_app. left. clear -F I. induction F as [|k p ks ps (y & w & IV & ->) F IH]; [destruct I|]. cbn [frame_of map snd fst] in I. cbn [rev]. rewrite map_app. apply in_or_app.
    destruct I as [E|I]; [injection E as <- _; right; left; exact (is_var_name env _ _ _ IV)|left; auto].
Qed.
Lemma params_check : forall ks ps, Forall2 (param_of env) ks ps -> NoDup (map name_of ks) -> check_params headers ps = true /\ param_types ps = arg_types (map vtype ks) /\ map snd ps = map name_of ks.
Proof.
  intros ks ps F. induction F as [|k p ks ps (y & w & IV & ->) F IH]; intro N1; [auto|]. cbn [map] in N1. inversion N1 as [|? ? A B]; subst. destruct (IH B) as (C1 & C2 & C3).
  unfold check_params in *. apply andb_true_iff in C1 as (C1 & C4). split; [|split].
  - cbn [forallb map distinct fst snd]. rewrite (not_void _ (cr_void _ _ _ _ CR _ _ _ IV)), (not_header strict headers env l CR _ _ _ IV), C1, C4. cbn [negb andb]. rewrite andb_true_r.
    apply negb_true_iff. apply not_true_is_false. intro X. apply existsb_exists in X as (z & I & T). apply text_eqb_eq in T. subst z. apply A. rewrite (is_var_name env _ _ _ IV), <- C3. exact I.
  - cbn [param_types map arg_types fst]. rewrite (is_var_type env _ _ _ IV). f_equal. exact C2.
  - cbn [map snd]. rewrite C3. f_equal. symmetry. exact (is_var_name env _ _ _ IV).
Qed.
Lemma fun_header : forall k x f, is_fun env k x f -> from_header headers x = false.
Proof.
  intros k x f (y & E & <- & K). unfold from_header. destruct (existsb _ _) eqn:X; [|reflexivity]. exfalso. apply existsb_exists in X as (z & I & T). apply text_eqb_eq in T. subst z.
  exact (cr_headers _ _ _ _ CR k y E (or_intror (ex_intro _ _ K)) I).
Qed.
Lemma params_solid : forall k ks x f, params_fit env k ks -> is_fun env k x f -> f_params f = map vtype ks /\ forall t, In t (f_params f) -> t <> TVoid.
Proof.
  intros k ks x f (IV & P) IF. rewrite (P _ _ IF). split; [reflexivity|]. intros t I. apply in_map_iff in I as (j & <- & J). rewrite Forall_forall in IV. destruct (IV j J) as (z & v & V).
  rewrite (is_var_type env _ _ _ V). exact (cr_void _ _ _ _ CR _ _ _ V).
Qed.
Lemma fine_defs : forall R b p G L r G' L' n k y, fine_block R b p G L r G' L' -> In n r -> tn_pay n = XDef k y -> exists V m, fine_expr V y /\ D k = Some (DVar (x_ty y) m).
Proof.
  intros R b p G L r G' L' n k y. revert p G L. induction r as [|x r IH]; intros p G L F I P; [destruct I|].
  apply block_inv in F as (p' & G1 & L1 & F1 & FB). destruct I as [->|I]; [|eauto].
  destruct (def_inv H ys D _ _ _ _ _ _ _ _ _ _ _ F1 P) as (_ & _ & _ & FE & m & DK). eauto.
Qed.
Lemma function_inv : forall R b p G n p' G1 L1 k ks, fine_stmt R b p G None n p' G1 L1 -> tn_pay n = XProto k ks ->
  G1 = k :: G /\ L1 = None /\ exists ts r, D k = Some (DFun ts r) /\ (is_external ys k = false -> exists G' L', fine_block r false false (k :: G) (Some ks) (tn_child n) G' L').
Proof.
  intros R b p G n p' G1 L1 k ks F P. inversion F; subst; cbn [tn_pay tn_child] in *; try discriminate P; injection P as -> ->; (split; [reflexivity|]; split; [reflexivity|]).
  - exists ts, r. split; [assumption|]. intro X. congruence.
  - exists ts, r. split; [assumption|]. eauto.
Qed.
Lemma plain_inv : forall R b p G L n p' G1 L1, fine_stmt R b p G L n p' G1 L1 -> plain_node n -> tn_type n <> N_NAMESPACE -> G1 = G /\ L1 = L.
Proof.
  intros R b p G L n p' G1 L1 F (A & B) NS. destruct F; cbn [tn_pay tn_type] in *; auto; exfalso; [now elim (A k y)|now elim (B k ks)|now elim (B k ks)|now elim NS].
Qed.

(** * The file *)

Definition files (r : list tnode) (ds : list cdef) : Prop := forall p G G' L' e g, fine_block TInt false p G None r G' L' -> fresh_names e r -> incl G e ->
  with_helpers g -> linked g -> visible [g] e -> NoDup (map name_of (flat_map outside r)) -> (forall k, In k (flat_map outside r) -> find_here g (name_of k) = None) ->
  exists g', check_defs g ds = Some g' /\ grown g g' (flat_map outside r) /\ supplied g' true r.
Lemma files_next : forall n r ds, plain_node n -> tn_type n <> N_NAMESPACE -> files r ds -> files (n :: r) ds.
Proof.
  intros n r ds PN NS HO p G G' L' e g FB FN. rewrite (plain_outside _ _ PN). intros A B C E F1 F2. apply block_inv in FB as (p' & G1 & L1 & FS & FB). destruct (plain_inv _ _ _ _ _ _ _ _ _ FS PN NS) as (-> & ->).
  destruct (fresh_other env _ _ _ FN (proj1 PN) (proj2 PN)) as (_ & FN2).
  destruct (HO p' G G' L' e g FB FN2 A B C E F1 F2) as (g' & X & Y & (Z1 & Z2)). exists g'. split; [exact X|]. split; [exact Y|]. split.
  - intros m k y [<-|I] P; [now elim (proj1 PN k y)|eauto].
  - intros m k ks [<-|I] P; [now elim (proj2 PN k ks)|eauto].
Qed.
Lemma files_others : forall r o d2 r' ds, others r o d2 r' -> shape r -> files r' ds -> files r ds.
Proof.
  intros r o d2 r' dd O. induction O as [r F|n r o ds' r' T O IH|n r y ce b d1 o ds' r' T P S0 SB O IH|n r b d1 T SB]; intros SH C; auto.
  - assert (SR : shape r) by (intros m I; apply SH; now right). destruct (tuned_plain n (proj1 (SH n (or_introl eq_refl)))); [congruence|congruence|]. apply files_next; [split; assumption|congruence|auto].
  - assert (SR : shape r) by (intros m I; apply SH; now right). destruct (tuned_plain n (proj1 (SH n (or_introl eq_refl)))); [congruence|congruence|]. apply files_next; [split; assumption|congruence|auto].
  - destruct (tuned_plain n (proj1 (SH n (or_introl eq_refl)))); [congruence|congruence|]. apply files_next; [split; assumption|congruence|auto].
Qed.
Lemma others_quiet : forall r o d2 r', others r o d2 r' -> shape r -> d2 = [].
Proof.
  intros r o d2 r' O. induction O as [r F|n r o ds' r' T O IH|n r y ce b d1 o ds' r' T P S0 SB O IH|n r b d1 T SB]; intro SR; auto.
  - apply IH. intros m I. apply SR. now right.
  - rewrite (proj1 (quiet env) _ _ _ _ SB (proj2 (SR n (or_introl eq_refl))) eq_refl). apply IH. intros m I. apply SR. now right.
  - exact (proj1 (quiet env) _ _ _ _ SB (proj2 (SR n (or_introl eq_refl))) eq_refl).
Qed.
Lemma files_def : forall n r k y x v ce st q lb i ds, In n l -> tn_pay n = XDef k y -> is_var env k x v -> same y ce ->
  v_cexpr v = Some false /\ q = false /\ i = None \/ v_cexpr v = Some true /\ q = v_const v /\ i = Some ce ->
  files r ds -> files (n :: r) (FVar st q (c_type (v_type v)) x lb i :: ds).
Proof.
  intros n r k y x v ce st q lb i ds IN P IV S0 Q HO p G G' L' e g FB FN IG WH LK VI NDN NO. pose proof (is_var_name env _ _ _ IV) as NX.
  assert (TN : flat_map outside (n :: r) = k :: flat_map outside r) by (cbn [flat_map]; unfold outside at 1; now rewrite P). rewrite TN in *. cbn [map] in NDN. inversion NDN as [|? ? N1 N2]; subst x.
  assert (E : find_here g (name_of k) = None) by (apply NO; now left).
  assert (SO : sound n k y) by (split; [now apply ic_here|]; split; [now left|]; exact (fine_defs _ _ _ _ _ _ _ _ n k y FB (or_introl eq_refl) P)).
  destruct (def_step n k y _ v ce st q lb i g SO P IV S0 WH E Q) as (C1 & O1).
  pose proof (grown_add g k _ (EObject q (c_type (v_type v))) LK eq_refl E) as G1. specialize (G1 ltac:(intros; discriminate)).
  apply block_inv in FB as (p' & G2 & L2 & FS & FB). destruct (def_inv H ys D _ _ _ _ _ _ _ _ _ _ _ FS P) as (-> & -> & -> & _). cbn [addg addl] in FB.
  destruct (fresh_def env _ _ _ _ _ FN P) as (NN & FN2).
  destruct (HO false (k :: G) G' L' (k :: e) ((name_of k, EObject q (c_type (v_type v))) :: g)) as (g' & X & Y & Z1 & Z2); auto.
  { intros j [<-|J]; [now left|right; auto]. }
  { exact (helpers_keep _ _ _ G1 WH). }
  { exact (gr_linked _ _ _ G1). }
  { apply (see_var env l hs [] _ e k (visible_keep _ _ _ _ G1 VI)); [intros f x d []|exact NN|exact O1]. }
  { intros j J. rewrite here_other; [apply NO; now right|]. intro EQ. apply N1. rewrite EQ. now apply in_map. }
  exists g'. split; [cbn [Spec_CCheck.check_defs]; rewrite C1; exact X|]. split; [exact (grown_trans _ _ _ [k] _ G1 Y)|]. split.
  - intros m j z [<-|I] PM; [|eauto]. intros _. assert (j = k) by congruence. subst j. exact (out_var_keep _ _ _ _ Y O1).
  - intros m j ks [<-|I] PM; [congruence|eauto].
Qed.
Lemma files_external : forall n r k ks x f ps label ds, In n l -> tn_pay n = XProto k ks -> is_fun env k x f -> Forall2 (param_of env) ks ps ->
  files r ds -> files (n :: r) (FProto false (c_type (f_ret f)) x ps label :: ds).
Proof.
  intros n r k ks x f ps label ds IN P IF FP HO p G G' L' e g FB FN IG WH LK VI NDN NO. pose proof (is_fun_name env _ _ _ IF) as NX.
  assert (TN : flat_map outside (n :: r) = (flat_map tops (tn_child n) ++ [k]) ++ flat_map outside r) by (cbn [flat_map]; unfold outside at 1; now rewrite P). rewrite TN in *.
  rewrite map_app in NDN. apply nodup_split in NDN as (NA & NB & NC).
  assert (E : find_here g x = None) by (rewrite <- NX; apply NO; apply in_or_app; left; apply in_or_app; right; now left).
  destruct (fresh_proto env _ _ _ _ _ FN P) as (NN & (PN & PF) & _ & FN2). destruct (params_solid _ _ _ _ PF IF) as (FPS & NV).
  destruct (params_check _ _ FP (proj1 (new_apart _ _ PN))) as (PC & PT & _). rewrite <- FPS in PT.
  apply block_inv in FB as (p' & G2 & L2 & FS & FB). destruct (function_inv _ _ _ _ _ _ _ _ _ _ FS P) as (-> & -> & _).
  set (d := EFunction false false (c_type (f_ret f)) (param_types ps)).
  assert (C1 : check_def g (FProto false (c_type (f_ret f)) x ps label) = Some ((x, d) :: g)).
  { cbn [Spec_CCheck.check_def]. unfold agrees, defined_before. rewrite PC, (fun_header _ _ _ IF), E. reflexivity. }
  pose proof (grown_add g k x d LK NX E) as G1. specialize (G1 ltac:(intros; discriminate)).
  assert (O1 : out_fun ((x, d) :: g) k) by (exists x, f, false, false; split; [exact IF|]; split; [rewrite here_same; unfold d; now rewrite PT|exact NV]).
  destruct (HO p' (k :: G) G' L' (k :: e) ((x, d) :: g)) as (g' & X & Y & Z1 & Z2); auto.
  { intros j [<-|J]; [now left|right; auto]. }
  { exact (helpers_keep _ _ _ G1 WH). }
  { exact (gr_linked _ _ _ G1). }
  { apply (see_fun env l hs [] _ e k (visible_keep _ _ _ _ G1 VI)); [intros f0 y0 d0 []|exact NN|exact O1]. }
  { intros j J. rewrite here_other; [apply NO; apply in_or_app; now right|]. intro EQ. apply (NC x); [rewrite map_app; apply in_or_app; right; left; exact NX|rewrite EQ; now apply in_map]. }
  exists g'. split; [cbn [Spec_CCheck.check_defs]; rewrite C1; exact X|]. split; [|split].
  - constructor; [intros z dz F; exact (gr_keep _ _ _ Y _ _ (gr_keep _ _ _ G1 _ _ F))| |exact (gr_linked _ _ _ Y)].
    intros z F N1. apply (gr_new _ _ _ Y); [|intro I; apply N1; rewrite map_app; apply in_or_app; now right]. apply (gr_new _ _ _ G1); [exact F|].
    intro I. apply N1. rewrite map_app. apply in_or_app. left. rewrite map_app. apply in_or_app. right. exact I.
  - intros m j z [<-|I] PM; [congruence|eauto].
  - intros m j js [<-|I] PM; [|eauto]. assert (j = k) by congruence. subst j. exact (out_fun_keep _ _ _ _ Y O1).
Qed.

Lemma files_function : forall n r k ks x f ps label b ds1 ds, In n l -> ordinary (tn_child n) -> tn_pay n = XProto k ks -> is_fun env k x f -> f_external f = false -> Forall2 (param_of env) ks ps ->
  stands true (tn_child n) b ds1 -> files r ds ->
  files (n :: r) (ds1 ++ (if f_export f then [FProto false (c_type (f_ret f)) x ps label] else []) ++ FFunc (negb (f_export f)) (c_type (f_ret f)) x ps b :: ds).
Proof.
  intros n r k ks x f ps label b ds1 ds IN OC P IF EX FP ST HO p G G' L' e g FB FN IG WH LK VI NDN NO. pose proof (is_fun_name env _ _ _ IF) as NX.
  assert (TN : flat_map outside (n :: r) = (flat_map tops (tn_child n) ++ [k]) ++ flat_map outside r) by (cbn [flat_map]; unfold outside at 1; now rewrite P). rewrite TN in *.
  rewrite map_app in NDN. apply nodup_split in NDN as (NA & NB & NC). rewrite map_app in NA. apply nodup_split in NA as (NA & _ & NE).
  assert (E : find_here g x = None) by (rewrite <- NX; apply NO; apply in_or_app; left; apply in_or_app; right; now left).
  destruct (fresh_proto env _ _ _ _ _ FN P) as (NN & (PN & PF) & FN1 & FN2). destruct (params_solid _ _ _ _ PF IF) as (FPS & NV).
  destruct (params_check _ _ FP (proj1 (new_apart _ _ PN))) as (PC & PT & _). rewrite <- FPS in PT.
  apply block_inv in FB as (p' & G2 & L2 & FS & FB). destruct (function_inv _ _ _ _ _ _ _ _ _ _ FS P) as (-> & -> & ts & rt & DK & FC).
  destruct (FC (eq_trans (external_is env _ _ _ IF) EX)) as (G3 & L3 & FB3). clear FC.
  destruct (d_fun env s ES _ _ _ DK) as (x' & f' & IF' & _ & FR). destruct (is_fun_one env _ _ _ _ _ IF IF') as (<- & <-). subst rt.
  assert (CN : in_checked n l) by now apply ic_here. destruct (FACT n CN) as (_ & F2 & _). destruct (F2 _ _ P) as (TP & _).
  (* variables of the function *)
  destruct (proj1 inner true (tn_child n) b ds1 ST OC eq_refl) with (g := g) as (g1 & X1 & Y1 & Z1); auto.
  { intros m j y I PM. split; [apply ic_below with n; [exact IN|now apply ic_here]|]. split; [right; exists n; auto|]. exact (fine_defs _ _ _ _ _ _ _ _ m j y FB3 I PM). }
  { intros j J. apply NO. apply in_or_app. left. apply in_or_app. now left. }
  assert (E1 : find_here g1 x = None). { apply (gr_new _ _ _ Y1); [exact E|]. intro I. apply (NE x I). left. exact NX. }
  set (st := negb (f_export f)). set (d := EFunction st true (c_type (f_ret f)) (param_types ps)).
  (* its declaration *)
  assert (exists g2, check_defs g1 (if f_export f then [FProto false (c_type (f_ret f)) x ps label] else []) = Some g2 /\ grown g1 ((x, d) :: g2) [k] /\
            agrees headers g2 st (c_type (f_ret f)) x ps = true /\ defined_before g2 x = false) as (g2 & X2 & Y2 & AG & DB).
  { destruct (f_export f).
    - exists ((x, EFunction false false (c_type (f_ret f)) (param_types ps)) :: g1). split; [|split; [|split]].
      + cbn [Spec_CCheck.check_defs Spec_CCheck.check_def]. unfold agrees, defined_before. rewrite PC, (fun_header _ _ _ IF), E1. reflexivity.
      + constructor.
        * intros z dz F. rewrite !here_other; [exact F| |]; intros ->; congruence.
        * intros z F N1. rewrite !here_other; [exact F| |]; intros ->; apply N1; left; exact NX.
        * apply linked_defined. intros y0 dy ty py NY [I|I]; [now elim NY; injection I|]. unfold defined_before. rewrite here_other by auto. exact (gr_linked _ _ _ Y1 _ _ _ _ I).
      + unfold agrees. rewrite (fun_header _ _ _ IF), here_same. cbn [negb andb st]. rewrite cty_eqb_refl, ctys_eqb_refl. reflexivity.
      + unfold defined_before. now rewrite here_same.
    - exists g1. split; [reflexivity|]. split; [|split].
      + apply grown_add; auto; [exact (gr_linked _ _ _ Y1)|]. intros; discriminate.
      + unfold agrees. now rewrite (fun_header _ _ _ IF), E1.
      + unfold defined_before. now rewrite E1. }
  assert (O3 : out_fun ((x, d) :: g2) k) by (exists x, f, st, true; split; [exact IF|]; split; [rewrite here_same; unfold d; now rewrite PT|exact NV]).
  pose proof (grown_trans _ _ _ _ _ Y1 Y2) as Y12.
  pose proof (see_fun env l hs [] _ e k (visible_keep _ _ _ _ Y12 VI) (fun f0 x0 d0 (I : In f0 []) => match I with end) NN O3) as VI3. cbn [app] in VI3.
  destruct (frame_visible _ _ _ _ VI3 FP PN) as (VI4 & LN4).
  (* its body *)
  assert (BODY : check_block (c_type (f_ret f)) false [frame_of ps; (x, d) :: g2] b = true).
  { refine (proj1 (bodies H strict headers env s l hs ES CR HP) true (tn_child n) b ds1 ST (f_ret f) (c_type (f_ret f)) false false (k :: G) (Some ks) G3 L3 (rev ks ++ k :: e) (frame_of ps) [] ((x, d) :: g2) FB3 FN1 _ _ (ordinary_shape _ OC) _ (or_introl eq_refl) VI4 LN4).
    - intros j J. cbn [all] in J. apply in_app_iff in J as [J|[<-|J]]; apply in_or_app; [left; now apply -> in_rev|right; now left|right; right; auto].
    - intros m C. now apply ic_below with n.
    - split.
      + intros m j y I PM _. exact (out_var_keep _ _ _ _ Y2 (Z1 m j y I PM)).
      + exact (proj2 (supplied_ordinary env l _ _ OC)). }
  (* and what is behind it *)
  destruct (HO p' (k :: G) G' L' (k :: e) ((x, d) :: g2)) as (g' & X & Y & W1 & W2); auto.
  { intros j [<-|J]; [now left|right; auto]. }
  { exact (helpers_keep _ _ _ Y12 WH). }
  { exact (gr_linked _ _ _ Y2). }
  { intros j J. apply (gr_new _ _ _ Y12); [apply NO; apply in_or_app; now right|]. intro I. exact (NC _ I (in_map _ _ _ J)). }
  exists g'. split; [|split].
  - rewrite (check_defs_app _ _ _ _ _ _ X1), (check_defs_app _ _ _ _ _ _ X2). cbn [Spec_CCheck.check_defs Spec_CCheck.check_def]. rewrite PC. change (negb (f_export f)) with st. rewrite AG, DB. cbn [negb andb].
    match goal with |- context [if ?c then _ else _] => replace c with true by (symmetry; exact BODY) end. exact X.
  - exact (grown_trans _ _ _ _ _ Y12 Y).
  - split.
    + intros m j z [<-|I] PM; [congruence|eauto].
    + intros m j js [<-|I] PM; [|eauto]. assert (j = k) by congruence. subst j. exact (out_fun_keep _ _ _ _ Y O3).
Qed.

Lemma file_checks :
  (forall top r cs ds, stands top r cs ds -> shape r -> top = true -> incl r l -> files r ds) /\
  (forall r o ds r', others r o ds r' -> True).
Proof.
  apply stands_both; intros; subst; try discriminate; auto;
    try match goal with X : shape (?n :: ?r), I : incl (?n :: ?r) l |- _ => assert (SR : shape r) by exact (shape_next _ _ X); destruct (X n (or_introl eq_refl)) as (TU & OC);
      assert (IR : incl r l) by (intros zz II; apply I; now right); assert (IM : In n l) by (apply I; now left) end;
    try (apply files_next; [destruct (tuned_plain n TU); [congruence|congruence|split; assumption]|exact (proj1 TU)|auto; fail]).
  - intros p G G' L' e g FB FN IG WH LK VI _ _. exists g. split; [reflexivity|]. split; [now apply grown_refl|]. split; [intros n k y []|intros n k ks []].
  - apply files_next; auto; [|exact (proj1 TU)]. split.
    + intros k y P. match goal with X : In _ [N_COMMENT; _; _] \/ _ |- _ => destruct X as [X|(_ & X)]; [|congruence]; rewrite (proj1 (proj2 TU) _ _ P) in X; cbn [In] in X; intuition discriminate end.
    + intros k y P. match goal with X : In _ [N_COMMENT; _; _] \/ _ |- _ => destruct X as [X|(_ & X)]; [|congruence]; rewrite (proj2 (proj2 TU) _ _ P) in X; cbn [In] in X; intuition discriminate end.
  - eapply files_def; eauto.
  - eapply files_def; eauto.
  - (* if *)
    match goal with A : stands false (tn_child n) b ds1, O : others l0 o ds2 r |- _ => rewrite (proj1 (quiet env) _ _ _ _ A OC eq_refl), (others_quiet _ _ _ _ O SR); cbn [app];
      apply files_next; [destruct (tuned_plain n TU); [congruence|congruence|split; assumption]|exact (proj1 TU)|]; apply (files_others _ _ _ _ _ O SR); pose proof (others_incl env _ _ _ _ O) as LI end.
    match goal with IH : shape r -> _ |- _ => apply IH; [intros m I; apply SR; now apply LI|reflexivity|] end. intros m I. apply IR. now apply LI.
  - (* while *)
    match goal with A : stands false (tn_child n) b ds1 |- _ => rewrite (proj1 (quiet env) _ _ _ _ A OC eq_refl) end. cbn [app]. apply files_next; [destruct (tuned_plain n TU); [congruence|congruence|split; assumption]|exact (proj1 TU)|auto].
  - elim (proj1 TU). assumption.
  - eapply files_function; eauto.
  - eapply files_external; eauto.
Qed.

Lemma block_zero : forall cs loop ss, check_block TyInt loop ss cs = true -> check_block TyInt loop ss (cs ++ [CReturn (Some (CNum (u "0")))]) = true.
Proof.
  induction cs as [|c cs IH]; intros loop ss B; [reflexivity|]. cbn [app Spec_CCheck.check_block] in *. destruct (check_stmt strict headers TyInt loop ss c) as [ss'|]; [auto|discriminate B].
Qed.
Lemma helper_here : forall h, In h hs -> find_here (helper_scope hs) (helper_name h) = Some (helper_entity h).
Proof.
  clear HP. intro h. unfold helper_scope. induction hs as [|h' r IH]; intro I; [destruct I|]. cbn [map]. destruct (text_eqb (helper_name h') (helper_name h)) eqn:T.
  - assert (h' = h) as -> by (destruct h, h'; (reflexivity || discriminate T)). apply here_same.
  - rewrite here_other by now apply text_eqb_neq. apply IH. destruct I as [->|I]; [rewrite text_eqb_refl in T; discriminate T|exact I].
Qed.
Lemma helper_word : forall x, find_here (helper_scope hs) x <> None -> exists h, x = helper_name h.
Proof.
  clear HP. intro x. unfold helper_scope. induction hs as [|h' r IH]; intro I; [now elim I|]. cbn [map find_here] in I. destruct (text_eqb (helper_name h') x) eqn:T; [|auto].
  exists h'. symmetry. now apply text_eqb_eq.
Qed.
Lemma shape_l : NoDup (flat_map numbers l) -> shape l.
Proof.
  intro ND. assert (TU : forall n, in_checked n l -> tuned n).
  { intros n C. destruct (FACT n C) as (F1 & F2 & _). split; [exact (cr_spaces _ _ _ _ CR n C)|]. split; [intros k y P; exact (proj1 (F1 _ _ P))|intros k ks P; exact (proj1 (F2 _ _ P))]. }
  intros n I. split; [apply TU; now apply ic_here|]. intros q C. assert (CQ : in_checked q l) by (apply ic_below with n; auto). split; [exact (TU q CQ)|].
  intro T. pose proof (cr_functions _ _ _ _ CR q CQ T) as J. destruct (FACT q CQ) as (_ & _ & F3). destruct (F3 T) as (k & ks & P).
  assert (IN : In k (numbers q)) by (rewrite (proto_numbers _ _ _ P); now left).
  assert (BL : In k (flat_map numbers (tn_child n))). { apply (Proof_CRun7.checked_number q); [exact C|]. unfold numbers_here. rewrite P. now left. }
  assert (n = q) by (apply (node_one l ND n q k I J); [rewrite numbers_is; apply in_or_app; now right|exact IN]). subst q.
  pose proof (node_nodup l ND n I) as N1. rewrite (proto_numbers _ _ _ P) in N1. inversion N1 as [|? ? X Y]; subst. apply X. apply in_or_app. now right.
Qed.

Theorem unit_compiles : forall m ds G L, unit_stands env l m ds -> NoDup (flat_map numbers l) -> fine_block TInt false false [] None l G L -> fresh_names [] l ->
  compiles_as strict headers hs ds.
Proof.
  intros m ds G L (cs & ds0 & ST & ->) ND FB FN. pose proof (shape_l ND) as SH. unfold compiles_as.
  assert (TK : forall k w, In k (flat_map outside l) -> In w ["main"; "init"; "_strcmp"; "_int_pow"; "_float_pow"]%string -> name_of k <> u w).
  { intros k w I J E. apply (cr_taken _ _ _ _ CR k I). rewrite E. now apply in_map. }
  assert (HN : forall x, (x = u "init" \/ x = u "main") -> find_here (helper_scope hs) x = None).
  { intros x X. destruct (find_here (helper_scope hs) x) eqn:E; [|reflexivity]. exfalso. destruct (helper_word x) as (h & ->); [congruence|]. destruct h, X as [X|X]; discriminate X. }
  destruct (proj1 file_checks true l cs ds0 ST SH eq_refl (incl_refl l) false [] G L [] (helper_scope hs) FB FN) as (g & X & Y & SU).
  { intros k []. }
  { exact helper_here. }
  { intros x d t ps I. exfalso. unfold helper_scope in I. apply in_map_iff in I as (h & E & _). destruct h; discriminate E. }
  { constructor; [intros k []|intros k []|]. intros h I. rewrite name_one. now apply helper_here. }
  { exact (cr_names _ _ _ _ CR). }
  { intros k I. destruct (find_here (helper_scope hs) (name_of k)) eqn:E; [|reflexivity]. exfalso. destruct (helper_word (name_of k)) as (h & EH); [congruence|].
    destruct h; [apply (TK k "_strcmp"%string I)|apply (TK k "_int_pow"%string I)|apply (TK k "_float_pow"%string I)]; cbn [In]; auto 6. }
  assert (NI : find_here g (u "init") = None).
  { apply (gr_new _ _ _ Y); [apply HN; now left|]. intro I. apply in_map_iff in I as (k & E & I). apply (TK k "init"%string I); cbn [In]; auto. }
  assert (NM : find_here g (u "main") = None).
  { apply (gr_new _ _ _ Y); [apply HN; now right|]. intro I. apply in_map_iff in I as (k & E & I). apply (TK k "main"%string I); cbn [In]; auto. }
  destruct (cr_reserved _ _ _ _ CR) as (RM & RI).
  assert (NH : forall x, ~ In x headers -> from_header headers x = false).
  { intros x N1. unfold from_header. destruct (existsb _ _) eqn:T; [|reflexivity]. exfalso. apply existsb_exists in T as (z & I & T). apply text_eqb_eq in T. subst z. auto. }
  set (g1 := (u "init", EFunction true false TyInt []) :: g). set (g2 := (u "init", EFunction true true TyInt []) :: g1). set (g3 := (u "main", EFunction false true TyInt []) :: g2).
  assert (K2 : forall x d, find_here g x = Some d -> find_here g2 x = Some d). { intros x d F. unfold g2, g1. rewrite !here_other; [exact F| |]; intros <-; congruence. }
  assert (LK3 : linked g3).
  { apply linked_new; [|unfold g2, g1; rewrite !here_other; [exact NM|discriminate|discriminate]|intros; discriminate].
    apply linked_defined. intros y d t ps NY [I|I]; [now elim NY; injection I|]. unfold defined_before. unfold g1. rewrite here_other by auto. exact (gr_linked _ _ _ Y _ _ _ _ I). }
  assert (BODY : check_block TyInt false [[]; g2] cs = true).
  { refine (proj1 (bodies H strict headers env s l hs ES CR HP) true l cs ds0 ST TInt TyInt false false [] None G L [] [] [] g2 FB FN _ _ SH _ (or_intror (conj eq_refl eq_refl)) _ _).
    - intros k [].
    - intros n C. exact C.
    - exact (supplied_more _ _ _ _ K2 SU).
    - constructor; [intros k []|intros k []|]. intros h I. change (find_name [g2] (helper_name h) = Some (helper_entity h)). rewrite name_one. apply K2. apply (gr_keep _ _ _ Y). now apply helper_here.
    - intros f x d [<-|[]] []. }
  rewrite (check_defs_app _ _ _ _ _ _ X). cbn [Spec_CCheck.check_defs].
  assert (C1 : check_def g (FProto true TyInt (u "init") [] (Some m)) = Some g1) by (unfold Spec_CCheck.check_def, agrees, defined_before; rewrite (NH _ RI), NI; reflexivity). rewrite C1.
  assert (C2 : check_def g1 (FFunc true TyInt (u "init") [] (cs ++ [CReturn (Some (CNum (u "0")))])) = Some g2).
  { unfold Spec_CCheck.check_def, agrees, defined_before. rewrite (NH _ RI). unfold g1 at 1 2. rewrite here_same. change (param_types []) with (@nil (bool * cty)). cbv zeta.
    match goal with |- (if ?c then _ else _) = _ => replace c with true; [reflexivity|symmetry] end. exact (block_zero _ _ _ BODY). }
  rewrite C2. assert (C3 : check_def g2 (FFunc false TyInt (u "main") [] [CReturn (Some (CCall (CId (u "init")) []))]) = Some g3).
  { unfold Spec_CCheck.check_def, agrees, defined_before. rewrite (NH _ RM). unfold g2 at 1 2, g1 at 1 2. rewrite !here_other by discriminate. rewrite NM. reflexivity. }
  rewrite C3. unfold complete. apply andb_true_iff. split.
  - apply forallb_forall. intros (x & d) I. cbn [fst snd]. destruct d as [q t|[] dd t ps]; auto. exact (LK3 _ _ _ _ I).
  - unfold g3. rewrite here_same. reflexivity.
Qed.
End File.
