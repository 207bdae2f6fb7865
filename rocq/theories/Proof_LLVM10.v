(** From the generator to the relation. *)
From Coq Require Import List Arith NArith ZArith Bool Lia.
From Verif Require Import Base Model_Literal Model_Parse Model_Sem Spec_Sem Spec_Sem2 Spec_Run Model_Helpers Proof_Helpers Spec_IR Model_LLVM Spec_LLVM Proof_Sem8 Proof_LLVM Proof_LLVM2.
Import ListNotations.
Open Scope list_scope.
Open Scope nat_scope.

Section Rel.
Variable H : host.
Variable fold : iop -> operand H -> operand H -> option (operand H).
Variable ys : list symbol.
Variable debug : bool.
Local Notation gst := (gst H).
Local Notation sym_var := (sym_var ys).
Local Notation sym_func := (sym_func ys).
Local Notation gen_expr := (gen_expr H fold ys).
Local Notation gen_body := (gen_body H fold ys debug).
Local Notation gen_list := (gen_list H fold ys debug).
Local Notation typed := (typed ys).
Local Notation const := (const ys).
Local Notation count g := (List.length (g_blocks H g)).
Local Notation gens := (gens H fold ys debug).

(** * What the tables get *)

Definition distinct (g : gst) : Prop :=
  (forall k i l, lookup (g_refs H g) k = Some (mkref H (OGlob i) true l) -> i < List.length (g_glob H g)) /\
  (forall k k' i l l', lookup (g_refs H g) k = Some (mkref H (OGlob i) true l) -> lookup (g_refs H g) k' = Some (mkref H (OGlob i) true l') -> k = k').
Definition outside (g : gst) : Prop := forall k x, lookup (g_funs H g) k = Some x -> is_external ys k = true -> x = None.

Record adds (K : list nat) (g g' : gst) : Prop := mkadds {
  ad_refs : forall k r, lookup (g_refs H g') k = Some r -> lookup (g_refs H g) k = Some r \/ In k K;
  ad_funs : forall k r, lookup (g_funs H g') k = Some r -> lookup (g_funs H g) k = Some r \/ In k K;
  ad_distinct : distinct g -> distinct g';
  ad_outside : outside g -> outside g';
  ad_func : g_func H g' = g_func H g }.

Lemma adds_trans : forall K g g1 g2, adds K g g1 -> adds K g1 g2 -> adds K g g2.
Proof.
  intros K g g1 g2 [A1 A2 A3 A4 A5] [B1 B2 B3 B4 B5]. constructor; auto; [| |congruence].
  - intros k r E. apply B1 in E as [E|E]; auto.
  - intros k r E. apply B2 in E as [E|E]; auto.
Qed.
Lemma adds_more : forall K K' g g', adds K g g' -> incl K K' -> adds K' g g'.
Proof.
  intros K K' g g' [A1 A2 A3 A4 A5] I. constructor; auto.
  - intros k r E. apply A1 in E as [E|E]; auto.
  - intros k r E. apply A2 in E as [E|E]; auto.
Qed.
Lemma adds_tables : forall K g g', g_refs H g' = g_refs H g -> g_glob H g' = g_glob H g -> g_funs H g' = g_funs H g -> g_func H g' = g_func H g -> adds K g g'.
Proof. intros K g g' A B C D. constructor; auto; unfold distinct, outside; rewrite ?A, ?B, ?C; auto. Qed.
Lemma adds_refl : forall K g, adds K g g.
Proof. intros K g. now apply adds_tables. Qed.
Lemma adds_expr : forall K x g o t g', gen_expr x g = Ok (o, t, g') -> adds K g g'.
Proof. intros K x g o t g' E. destruct (kept_expr _ _ _ x _ _ _ _ E) as (_ & _ & A & B & C & D). now apply adds_tables. Qed.
Lemma adds_noop : forall K g, adds K g (gen_noop H debug g).
Proof. intros K g. unfold gen_noop. destruct debug; now apply adds_tables. Qed.
Lemma adds_branch : forall K b g fl, adds K g (branch_to H b (g, fl)).
Proof. intros K b g [t|]; now apply adds_tables. Qed.

Lemma setup_adds : forall o k g g2 v, sym_var k = Ok v -> setup_var_llvm H ys o k g = Ok g2 -> adds [k] g g2.
Proof.
  intros o k g g2 v V E.
  assert (REFS : forall g1 r k' r', g_refs H g1 = (k, r) :: g_refs H g -> lookup (g_refs H g1) k' = Some r' -> k' = k /\ r' = r \/ lookup (g_refs H g) k' = Some r').
  { intros g1 r k' r' Q L. rewrite Q in L. cbn [lookup] in L. destruct (k =? k') eqn:K; [|now right]. apply Nat.eqb_eq in K. left. split; congruence. }
  assert (GEN : forall g1 r, g_refs H g1 = (k, r) :: g_refs H g -> g_funs H g1 = g_funs H g -> g_func H g1 = g_func H g ->
    (exists l, g_glob H g1 = g_glob H g ++ l) ->
    (forall i l, r = mkref H (OGlob i) true l -> i = List.length (g_glob H g) /\ i < List.length (g_glob H g1)) -> adds [k] g g1).
  { intros g1 r Q F G (l & GL) N. constructor; auto.
    - intros k' r' L. destruct (REFS g1 r k' r' Q L) as [(-> & _)|L']; [right; now left|now left].
    - intros k' r' L. rewrite F in L. now left.
    - intros (D1 & D2). split.
      + intros k' i l' L. destruct (REFS g1 r k' _ Q L) as [(_ & EE)|L']; [now apply (N i l')|]. apply D1 in L'. rewrite GL, app_length. lia.
      + intros a b i l1 l2 La Lb. destruct (REFS g1 r a _ Q La) as [(-> & Ea)|La']; destruct (REFS g1 r b _ Q Lb) as [(-> & Eb)|Lb']; auto.
        * exfalso. symmetry in Ea. apply N in Ea as (Ea & _). apply D1 in Lb'. lia.
        * exfalso. symmetry in Eb. apply N in Eb as (Eb & _). apply D1 in La'. lia.
        * eapply D2; eauto.
    - intros O j x L. rewrite F in L. eauto. }
  destruct (setup_cases _ _ _ _ _ _ _ V E) as [(_ & _ & init & _ & ->)|[(_ & _ & init & _ & ->)|[(GF & _ & ->)|(GF & _ & ->)]]].
  - eapply GEN; try reflexivity; [eexists; reflexivity|]. intros i l Q. inversion Q; subst. cbn [set_ref set_globs g_glob]. rewrite app_length. cbn. lia.
  - eapply GEN; try reflexivity; [eexists; reflexivity|]. intros i l Q. inversion Q; subst. cbn [emit set_blocks set_ref set_globs g_glob]. rewrite app_length. cbn. lia.
  - eapply GEN; try reflexivity; [exists []; now rewrite app_nil_r|]. intros i l Q. discriminate Q.
  - eapply GEN; try reflexivity; [exists []; now rewrite app_nil_r|]. intros i l Q. discriminate Q.
Qed.
Lemma fun_adds : forall g k x, (is_external ys k = true -> x = None) -> adds [k] g (set_fun H g k x).
Proof.
  intros g k x EX. constructor; auto.
  - intros j r L. cbn [set_fun g_funs lookup] in L. destruct (k =? j) eqn:K; [|now left]. apply Nat.eqb_eq in K. subst j. right. now left.
  - intros O j y L E. cbn [set_fun g_funs lookup] in L. destruct (k =? j) eqn:K; [|eauto]. apply Nat.eqb_eq in K. subst j. inversion L; subst. auto.
Qed.
Lemma param_adds : forall ps i g, adds ps g (gen_params H i ps g).
Proof.
  induction ps as [|p ps IH]; intros i g; [apply adds_refl|]. cbn [gen_params].
  apply adds_trans with (set_ref H g p (mkref H (OArg i) false false)); [|apply adds_more with ps; [apply IH|intros k I; now right]].
  constructor; auto.
  - intros k r L. cbn [set_ref g_refs lookup] in L. destruct (p =? k) eqn:K; [|now left]. apply Nat.eqb_eq in K. subst k. right. now left.
  - intros (D1 & D2). split.
    + intros k j l L. cbn [set_ref g_refs lookup] in L. destruct (p =? k); [discriminate L|]. now apply D1 in L.
    + intros a b j l l' La Lb. cbn [set_ref g_refs lookup] in La, Lb. destruct (p =? a); [discriminate La|]. destruct (p =? b); [discriminate Lb|]. eapply D2; eauto.
Qed.

Lemma cells_adds : forall K ps g gp g0, cells_for H ps gp g0 -> adds K g gp -> incl ps K -> adds K g g0.
Proof.
  intros K ps g gp g0 [B1 B2 B3 B4 B5 B6 B7 B8 B9 B10 B11 B12] [A1 A2 A3 A4 A5] I. constructor.
  - intros k r L. destruct (in_dec Nat.eq_dec k ps) as [J|J]; [right; now apply I|]. rewrite (B10 k J) in L. eauto.
  - intros k x. rewrite B3. apply A2.
  - intro O. destruct (A3 O) as (D1 & D2). split.
    + intros k j l L. apply B12 in L. rewrite B2. eauto.
    + intros a b j l l' La Lb. apply B12 in La. apply B12 in Lb. eauto.
  - intro O. unfold outside. rewrite B3. now apply A4.
  - congruence.
Qed.

Lemma numbers_eq : forall n, numbers n = numbers_here n ++ flat_map numbers (tn_child n).
Proof. intros [t tk p c]. reflexivity. Qed.
Lemma in_here : forall n r, incl (numbers_here n) (flat_map numbers (n :: r)).
Proof. intros n r k I. cbn [flat_map]. rewrite numbers_eq. apply in_or_app. left. apply in_or_app. now left. Qed.
Lemma in_child : forall n r, incl (flat_map numbers (tn_child n)) (flat_map numbers (n :: r)).
Proof. intros n r k I. cbn [flat_map]. rewrite numbers_eq. apply in_or_app. left. apply in_or_app. now right. Qed.
Lemma in_rest : forall n r, incl (flat_map numbers r) (flat_map numbers (n :: r)).
Proof. intros n r k I. cbn [flat_map]. apply in_or_app. now right. Qed.
Lemma func_external : forall k f, sym_func k = Ok f -> is_external ys k = f_external f.
Proof.
  intros k f E. unfold Model_LLVM.sym_func in E. apply bind_ok in E as (y & E & F). unfold deref in E. unfold is_external.
  destruct (nth_error ys k) as [y'|]; [|discriminate E]. inversion E; subst y'. destruct (y_kind y); try discriminate F. now inversion F.
Qed.

Lemma function_head : forall n r k ps f g, tn_pay n = XProto k ps -> sym_func k = Ok f -> f_external f = false ->
  adds (flat_map numbers (n :: r)) g (gen_params H 0 ps (set_fun H (snd (new_block H g)) k (Some (count g)))).
Proof.
  intros n r k ps f g TP SF NE.
  assert (I : incl (k :: ps) (flat_map numbers (n :: r))). { intros j J. apply in_here. unfold numbers_here. rewrite TP. exact J. }
  apply adds_trans with (snd (new_block H g)); [now apply adds_tables|].
  apply adds_trans with (set_fun H (snd (new_block H g)) k (Some (count g))).
  - eapply adds_more; [apply fun_adds; rewrite (func_external _ _ SF); congruence|]. intros j [<-|[]]. apply I. now left.
  - eapply adds_more; [apply param_adds|]. intros j J. apply I. now right.
Qed.
Lemma adds_set_func : forall K g g' f, adds K g g' -> adds K (set_func H g f) (set_func H g' f).
Proof. intros K g g' f [A1 A2 A3 A4 A5]. constructor; auto. Qed.
Lemma adds_back : forall K g g' f, adds K (set_func H g f) g' -> adds K g (set_func H g' (g_func H g)).
Proof. intros K g g' f [A1 A2 A3 A4 A5]. constructor; auto. Qed.
Lemma adds_end : forall K f fl g g', adds K g (set_func H g' (g_func H g)) -> adds K g (end_func H f fl (g_func H g) g').
Proof.
  intros K f fl g g' A. unfold end_func. destruct (_ && _); [|exact A]. eapply adds_trans; [exact A|now apply adds_tables].
Qed.

Lemma gens_adds : forall m l g g' fl, gens m l g g' fl -> adds (flat_map numbers l) g g'.
Proof.
  intros m l g g' fl G. induction G;
    try match goal with E : gen_expr _ _ = Ok _ |- _ => rename E into GE end;
    try match goal with E : setup_var_llvm H ys _ _ _ = Ok _ |- _ => rename E into GV end;
    try match goal with E : assign_value_to_var H ys _ _ _ = Ok _ |- _ => rename E into GA end;
    try match goal with E : const _ = false |- _ => rename E into GK end;
    try match goal with E : (_, _) = (if _ then (_, snd _) else _) |- _ => rename E into EF end;
    try match goal with E : (_, _) = (if _ then (GB _ _, _) else _) |- _ => rename E into EM end;
    try match goal with E : tn_pay _ = _ |- _ => rename E into TP end;
    try match goal with E : sym_func _ = Ok _ |- _ => rename E into SF end.
  - apply adds_refl.
  - eapply adds_more; [exact IHG|apply in_rest].
  - eapply adds_trans; [apply adds_noop|]. eapply adds_more; [exact IHG|apply in_rest].
  - eapply adds_trans; [eapply adds_expr; exact GE|]. eapply adds_trans; [|eapply adds_more; [exact IHG|apply in_rest]].
    eapply adds_more; [eapply setup_adds; eassumption|]. intros j [<-|[]]. apply in_here. unfold numbers_here. rewrite TP. now left.
  - eapply adds_trans; [eapply adds_expr; exact GE|]. eapply adds_trans; [|eapply adds_more; [exact IHG|apply in_rest]].
    destruct (assign_case _ _ _ _ _ _ GK GA) as (v & rf & _ & _ & _ & ->). now apply adds_tables.
  - eapply adds_trans; [eapply adds_expr; exact GE|]. eapply adds_more; [exact IHG|apply in_rest].
  - eapply adds_trans; [eapply adds_expr; exact GE|]. now apply adds_tables.
  - now apply adds_tables.
  - now apply adds_tables.
  - now apply adds_tables.
  - now apply adds_tables.
  - eapply adds_trans; [|exact IHG]. now apply adds_tables.
  - apply adds_trans with g1; [subst g1; now apply adds_tables|]. eapply adds_trans; [eapply adds_expr; exact GE|].
    apply adds_trans with g3; [|eapply adds_trans; [|eapply adds_more; [exact IHG2|apply in_rest]]].
    + eapply adds_trans; [|eapply adds_more; [exact IHG1|apply in_child]]. now apply adds_tables.
    + eapply adds_trans; [apply (adds_branch _ c g3 fl1)|]. now apply adds_tables.
  - eapply adds_trans; [eapply adds_more; [exact IHG1|apply in_child]|]. eapply adds_more; [exact IHG2|apply in_rest].
  - eapply adds_trans; [|eapply adds_more; [exact IHG|apply in_rest]]. eapply adds_more; [apply fun_adds; auto|].
    intros j [<-|[]]. apply in_here. unfold numbers_here. rewrite TP. now left.
  - eapply adds_trans; [|eapply adds_more; [exact IHG2|apply in_rest]].
    apply adds_trans with (end_func H f fl1 (g_func H g) g1); [|now apply adds_tables].
    apply adds_end. apply adds_back with (Some k).
    apply adds_trans with g0; [|eapply adds_more; [exact IHG1|apply in_child]].
    match goal with E : func_debug_info _ _ _ _ _ = Ok _ |- _ => apply info_cells in E; rename E into CF end.
    eapply cells_adds; [exact CF| |intros j J; apply in_here; unfold numbers_here; rewrite TP; now right].
    subst gp. apply adds_set_func. eapply adds_trans; [eapply function_head; eassumption|]. now apply adds_tables.
  - eapply adds_trans; [|eapply adds_more; [exact IHG2|apply in_rest]].
    apply adds_trans with g2; [eapply adds_trans; [|eapply adds_more; [exact IHG1|apply in_child]]; now apply adds_tables|].
    apply adds_trans with g4; [|apply adds_trans with g5; [eapply adds_expr; exact GE|]].
    + eapply adds_trans; [apply (adds_branch _ last g2 fl1)|]. destruct (branch_follows r); inversion EF; subst; now apply adds_tables.
    + destruct (branch_follows r); inversion EM; subst; now apply adds_tables.
  - eapply adds_more; [exact IHG|apply in_rest].
  - exact IHG.
  - eapply adds_trans; [|eapply adds_more; [exact IHG2|apply in_rest]].
    apply adds_trans with g1; [eapply adds_trans; [|eapply adds_more; [exact IHG1|apply in_child]]; now apply adds_tables|].
    eapply adds_trans; [apply (adds_branch _ last g1 fl1)|]. now apply adds_tables.
Qed.

(** * What the checks say about a statement *)

Definition fine_here (n : tnode) : Prop :=
  match tn_type n, tn_pay n with
  | N_VAR_DEF, XDef k e => tn_child n = [] /\ typed e /\ exists v, sym_var k = Ok v
  | N_VAR_ASSIGN, XSet k e => typed e /\ const k = false
  | (N_EXPR | N_RETURN), XExpr e => typed e
  | (N_IF | N_ELIF | N_WHILE), XExpr e => typed e /\ x_ty e = TBool
  | N_ELSE, p => p = XNone
  | N_NAMESPACE, p => exists k, p = XSpace k
  | N_FUNCTION_PROTO, XProto k ps => exists f, sym_func k = Ok f /\ (f_external f = false -> forall p, In p ps -> const p = negb debug)
  | _, _ => True
  end.

Record okay (l : list tnode) (g : gst) : Prop := mkokay {
  ok_fine : forall n, in_checked n l -> fine_here n;
  ok_steady : g_func H g = None -> forallb (steady ys) l = true;
  ok_nodup : NoDup (flat_map numbers l);
  ok_new : forall k, In k (flat_map numbers l) -> lookup (g_refs H g) k = None /\ lookup (g_funs H g) k = None }.

Lemma okay_adds : forall l K g g', okay l g -> adds K g g' -> (forall k, In k K -> In k (flat_map numbers l) -> False) -> okay l g'.
Proof.
  intros l K g g' [A1 A2 A3 A4] [B1 B2 B3 B4 B5] D. constructor; auto.
  - intro F. apply A2. congruence.
  - intros k I. destruct (A4 k I) as (C1 & C2). split.
    + destruct (lookup (g_refs H g') k) as [r|] eqn:E; [|reflexivity]. apply B1 in E as [E|E]; [congruence|]. now elim (D k E I).
    + destruct (lookup (g_funs H g') k) as [r|] eqn:E; [|reflexivity]. apply B2 in E as [E|E]; [congruence|]. now elim (D k E I).
Qed.
Lemma okay_kept : forall l g g', okay l g -> adds [] g g' -> okay l g'.
Proof. intros l g g' O A. eapply okay_adds; [exact O|exact A|]. intros k []. Qed.
Lemma in_checked_cons : forall x n r, in_checked x r -> in_checked x (n :: r).
Proof. intros x n r [l I|y l I C]; [apply ic_here; now right|apply ic_below with y; [now right|exact C]]. Qed.
Lemma nodup_left : forall (a b : list nat), NoDup (a ++ b) -> NoDup a.
Proof.
  induction a as [|x a IH]; intros b N; [constructor|]. inversion N; subst. constructor; [|eapply IH; eauto]. intro I. match goal with X : ~ In _ _ |- _ => apply X end. apply in_or_app. now left.
Qed.
Lemma okay_rest0 : forall n r g, okay (n :: r) g -> okay r g.
Proof.
  intros n r g [A1 A2 A3 A4]. constructor.
  - intros m I. apply A1. now apply in_checked_cons.
  - intro F. apply A2 in F. cbn [forallb] in F. now apply andb_true_iff in F.
  - cbn [flat_map] in A3. now apply nodup_parts in A3.
  - intros k I. apply A4. now apply in_rest.
Qed.
Lemma okay_rest : forall n r g g', okay (n :: r) g -> adds (numbers n) g g' -> okay r g'.
Proof.
  intros n r g g' O A. eapply okay_adds; [eapply okay_rest0; exact O|exact A|]. intros k I J.
  pose proof (ok_nodup _ _ O) as N. cbn [flat_map] in N. apply nodup_parts in N as (_ & N). eauto.
Qed.
Lemma okay_child0 : forall n r g, okay (n :: r) g -> (g_func H g = None -> tn_type n <> N_FUNCTION_PROTO) -> okay (tn_child n) g.
Proof.
  intros n r g [A1 A2 A3 A4] NF. constructor.
  - intros m I. apply A1. apply ic_below with n; [now left|exact I].
  - intro F. specialize (NF F). apply A2 in F. cbn [forallb] in F. apply andb_true_iff in F as (F & _). destruct n as [t tk p c]. cbn [steady tn_type tn_child] in *.
    destruct t; try exact F; [now elim NF|destruct (flat_map (mut_defs ys) c); [exact F|discriminate F]].
  - cbn [flat_map] in A3. apply nodup_left in A3. rewrite numbers_eq in A3. now apply nodup_parts in A3.
  - intros k I. apply A4. now apply in_child.
Qed.
Lemma okay_here : forall n r g, okay (n :: r) g -> fine_here n.
Proof. intros n r g O. apply (ok_fine _ _ O). apply ic_here. now left. Qed.
Lemma okay_numbers : forall n r g k, okay (n :: r) g -> In k (numbers_here n) -> lookup (g_refs H g) k = None /\ lookup (g_funs H g) k = None.
Proof. intros n r g k O I. apply (ok_new _ _ O). now apply in_here. Qed.

(** The first node of a list, as a list. *)
Lemma adds_one : forall n g g', adds (flat_map numbers [n]) g g' -> adds (numbers n) g g'.
Proof. intros n g g' A. cbn [flat_map] in A. now rewrite app_nil_r in A. Qed.


Definition mode_of (m : mode) : gmode := match m with Statement => GS | Branch e l => GB e l end.
Definition related (n : tnode) : Prop := forall g g' fl, okay (tn_child n) g -> gen_body n g = Ok (g', fl) -> gens GS (tn_child n) g g' fl.

Lemma gens_list : forall l, Forall related l -> forall m g g' fl, okay l g -> gen_list gen_body m l g = Ok (g', fl) -> gens (mode_of m) l g g' fl.
Proof.
  intros l F. induction F as [|n r RN F IH]; intros m g g' fl O E.
  - destruct m; [|discriminate E]. inversion E; subst. apply gs_nil.
  - pose proof (okay_here _ _ _ O) as FH.
    assert (COND : forall entry last g, okay (n :: r) g -> tn_type n = N_IF \/ tn_type n = N_ELIF ->
      (do (f, g) <- gen_branch H fold ys (gen_body n) (tn_pay n) (branch_follows r) entry last g;
       if branch_follows r then gen_list gen_body (Branch f last) r g else gen_list gen_body Statement r (position H g last)) = Ok (g', fl) ->
      gens (GC entry last) (n :: r) g g' fl).
    { clear E O g. intros entry last g O TN E. apply bind_ok in E as ((f, g6) & EB & E). unfold gen_branch in EB.
      cbn [new_block] in EB. change (set_blocks H g (g_blocks H g ++ [[]])) with (snd (new_block H g)) in EB.
      apply bind_ok in EB as ((g2, fl1) & E1 & EB).
      assert (O1 : okay (tn_child n) (position H (snd (new_block H g)) (count g))).
      { eapply okay_kept; [eapply okay_child0; [exact O|]|now apply adds_tables]. intros _ TF. destruct TN; congruence. }
      pose proof (RN _ _ _ O1 E1) as G1.
      assert (A1 : adds (numbers n) g g2).
      { apply adds_trans with (position H (snd (new_block H g)) (count g)); [now apply adds_tables|]. eapply adds_more; [exact (gens_adds _ _ _ _ _ G1)|].
        intros k K. rewrite numbers_eq. apply in_or_app. now right. }
      assert (Q : exists e, tn_pay n = XExpr e). { unfold gen_condition in EB. destruct (if branch_follows r then _ else _) as [f0 g4] in EB. destruct (tn_pay n); try discriminate EB. eauto. }
      destruct Q as (e & TP). assert (FE : typed e /\ x_ty e = TBool) by (unfold fine_here in FH; rewrite TP in FH; destruct TN as [TN|TN]; rewrite TN in FH; exact FH). destruct FE as (TE & TB).
      set (g3 := position H (branch_to H last (g2, fl1)) entry) in *.
      assert (A3 : adds (numbers n) g g3).
      { eapply adds_trans; [exact A1|]. unfold g3. eapply adds_trans; [apply (adds_branch _ last g2 fl1)|now apply adds_tables]. }
      rewrite TP in EB. cbn [gen_condition] in EB. cbn [new_block] in EB. change (set_blocks H g3 (g_blocks H g3 ++ [[]])) with (snd (new_block H g3)) in EB.
      destruct (branch_follows r) eqn:BF; cbv beta iota zeta in EB;
        apply bind_ok in EB as (g5' & EC & EB); inversion EB; subst f g6; apply bind_ok in EC as (((o, t), g5) & EX & EC); inversion EC; subst g5'; clear EB EC.
      - assert (OR : okay r (emit H g5 (ICondBr o (count g) (count g3)))).
        { eapply okay_rest; [exact O|]. eapply adds_trans; [exact A3|]. apply adds_trans with (snd (new_block H g3)); [now apply adds_tables|].
          eapply adds_trans; [eapply adds_expr; exact EX|now apply adds_tables]. }
        pose proof (IH _ _ _ _ OR E) as GR. cbn [mode_of] in GR.
        eapply gs_condition with (f := count g3); [exact TP|exact TE|exact TB|exact G1|reflexivity| |exact EX| |exact GR]; rewrite BF; reflexivity.
      - assert (OR : okay r (position H (emit H g5 (ICondBr o (count g) last)) last)).
        { eapply okay_rest; [exact O|]. eapply adds_trans; [exact A3|]. eapply adds_trans; [eapply adds_expr; exact EX|now apply adds_tables]. }
        pose proof (IH _ _ _ _ OR E) as GR. cbn [mode_of] in GR.
        eapply gs_condition with (f := last); [exact TP|exact TE|exact TB|exact G1|reflexivity| |exact EX| |exact GR]; rewrite BF; reflexivity. }
    destruct m as [|entry last].
    + cbn [Model_LLVM.gen_list] in E. fold (gen_list gen_body) in E. cbn [mode_of].
      assert (SKIP : forall g1, adds (numbers n) g g1 -> gen_list gen_body Statement r g1 = Ok (g', fl) -> gens GS r g1 g' fl).
      { intros g1 A E1. apply (IH Statement g1 g' fl); [eapply okay_rest; eauto|exact E1]. }
      destruct (tn_type n) eqn:TN; try discriminate E.

      * (* definition *) destruct (tn_pay n) as [| |k e|k e|k ks|e|k] eqn:TP; try discriminate E.
        -- apply gs_skip; [right; auto|]. apply SKIP; [apply adds_refl|exact E].
        -- apply bind_ok in E as (g2 & ED & E). unfold gen_var_def in ED. apply bind_ok in ED as (((o, t), g1) & EX & ED).
           unfold fine_here in FH. rewrite TN, TP in FH. destruct FH as (TC & TE & v & SV).
           assert (KN : In k (numbers_here n)) by (unfold numbers_here; rewrite TP; now left).
           eapply gs_def; try eassumption.
           ++ apply (okay_numbers _ _ _ _ O KN).
           ++ apply SKIP; [|exact E]. eapply adds_trans; [eapply adds_expr; exact EX|]. eapply adds_more; [eapply setup_adds; eassumption|].
              intros j [<-|[]]. rewrite numbers_eq. apply in_or_app. now left.
      * (* assignment *) destruct (tn_pay n) as [| |k e|k e|k ks|e|k] eqn:TP; try discriminate E.
        apply bind_ok in E as (g2 & ED & E). unfold gen_var_assign in ED. apply bind_ok in ED as (((o, t), g1) & EX & ED).
        unfold fine_here in FH. rewrite TN, TP in FH. destruct FH as (TE & CK). eapply gs_set; try eassumption.
        apply SKIP; [|exact E]. eapply adds_trans; [eapply adds_expr; exact EX|]. destruct (assign_case _ _ _ _ _ _ CK ED) as (v & rf & _ & _ & _ & ->). now apply adds_tables.
      * (* function *) destruct (tn_pay n) as [| |k e|k e|k ps|e|k] eqn:TP; try discriminate E.
        apply bind_ok in E as (g2 & ED & E). unfold gen_func_decl in ED. apply bind_ok in ED as (f & SF & ED).
        destruct (existsb _ (f_params f)); [discriminate ED|].
        unfold fine_here in FH. rewrite TN, TP in FH. destruct FH as (f' & SF' & PC). rewrite SF in SF'. injection SF' as <-.
        assert (NH : numbers_here n = k :: ps) by (unfold numbers_here; now rewrite TP).
        assert (KN : lookup (g_funs H g) k = None) by (apply (okay_numbers _ _ _ k O); rewrite NH; now left).
        destruct (f_external f) eqn:FE.
        -- inversion ED; subst g2. eapply gs_external; try eassumption. apply SKIP; [|exact E].
           eapply adds_more; [apply fun_adds; auto|]. intros j [<-|[]]. rewrite numbers_eq, NH. now left.
        -- cbn [new_block] in ED. change (set_blocks H g (g_blocks H g ++ [[]])) with (snd (new_block H g)) in ED. cbv zeta in ED.
           apply bind_ok in ED as (g0 & GDI & ED). apply bind_ok in ED as ((g1, fl1) & EB & ED). inversion ED; subst g2. clear ED.
           pose proof (info_cells _ _ _ _ _ _ GDI) as CF.
           set (gp := set_func H (position H (gen_params H 0 ps (set_fun H (snd (new_block H g)) k (Some (count g)))) (count g)) (Some k)) in *.
           pose proof (ok_nodup _ _ O) as N. cbn [flat_map] in N. apply nodup_left in N. rewrite numbers_eq, NH in N.
           assert (A0 : adds (k :: ps) g (gen_params H 0 ps (set_fun H (snd (new_block H g)) k (Some (count g))))).
           { apply adds_trans with (snd (new_block H g)); [now apply adds_tables|]. apply adds_trans with (set_fun H (snd (new_block H g)) k (Some (count g))).
             - eapply adds_more; [apply fun_adds; rewrite (func_external _ _ SF); congruence|]. intros j [<-|[]]. now left.
             - eapply adds_more; [apply param_adds|]. intros j J. now right. }
           assert (AP : adds (k :: ps) (set_func H g (Some k)) g0).
           { eapply cells_adds; [exact CF| |intros j J; now right]. unfold gp. apply adds_set_func. eapply adds_trans; [exact A0|now apply adds_tables]. }
           assert (OC : okay (tn_child n) g0).
           { destruct O as [O1 O2 O3 O4]. destruct AP as [B1 B2 _ _ _]. constructor.
             - intros m I. apply O1. apply ic_below with n; [now left|exact I].
             - intro Q. rewrite (cf_func _ _ _ _ CF) in Q. discriminate Q.
             - now apply nodup_parts in N.
             - intros j J. destruct (O4 j (in_child n r j J)) as (C1 & C2). apply nodup_parts in N as (_ & N).
               split.
               + destruct (lookup (g_refs H g0) j) eqn:L; [|reflexivity]. apply B1 in L as [L|L]; [cbn [set_func g_refs] in L; congruence|]. now elim (N j L J).
               + destruct (lookup (g_funs H g0) j) eqn:L; [|reflexivity]. apply B2 in L as [L|L]; [cbn [set_func g_funs] in L; congruence|]. now elim (N j L J). }
           pose proof (RN _ _ _ OC EB) as G1.
           eapply gs_function; try eassumption; try reflexivity.
           ++ intros p P. split; [|now apply PC]. apply (okay_numbers _ _ _ p O). rewrite NH. now right.
           ++ apply nodup_left in N. now inversion N.
           ++ apply SKIP; [|exact E]. apply adds_trans with (end_func H f fl1 (g_func H g) g1); [|now apply adds_tables].
              apply adds_end. apply adds_back with (Some k). apply adds_trans with g0.
              ** eapply adds_more; [exact AP|]. intros j J. rewrite numbers_eq, NH. apply in_or_app. now left.
              ** eapply adds_more; [exact (gens_adds _ _ _ _ _ G1)|]. intros j J. rewrite numbers_eq. apply in_or_app. now right.
      * (* call *) destruct (tn_pay n) as [| |k e|k e|k ps|e|k] eqn:TP; try discriminate E. destruct e as [| |t k a ty| |]; try discriminate E.
        apply bind_ok in E as (((o, t0), g1) & EX & E). unfold fine_here in FH. rewrite TN, TP in FH. eapply gs_call; try eassumption.
        apply SKIP; [eapply adds_expr; exact EX|exact E].
      * (* return *) unfold gen_return in E. destruct (tn_pay n) as [| |k e|k e|k ps|e|k] eqn:TP; try discriminate E.
        -- inversion E; subst. now apply gs_leave.
        -- apply bind_ok in E as (((o, t), g1) & EX & E). inversion E; subst. unfold fine_here in FH. rewrite TN, TP in FH. eapply gs_return; eassumption.
      * inversion E; subst. now apply gs_unreachable.
      * (* if *) cbn [new_block] in E. change (set_blocks H g (g_blocks H g ++ [[]])) with (snd (new_block H g)) in E. cbv zeta in E.
        apply gs_if; [exact TN|]. apply COND; [eapply okay_kept; [exact O|now apply adds_tables]|now left|exact E].
      * (* while *) apply bind_ok in E as (g4 & EW & E). unfold gen_while in EW. cbn [new_block] in EW. cbv zeta in EW.
        assert (Q : exists e, tn_pay n = XExpr e). { unfold gen_condition in EW. destruct (tn_pay n); try discriminate EW. eauto. }
        destruct Q as (e & TP). unfold fine_here in FH. rewrite TN, TP in FH. destruct FH as (TE & TB). rewrite TP in EW. cbn [gen_condition] in EW.
        set (c := count g) in *.
        apply bind_ok in EW as (g2' & EC & EW). apply bind_ok in EC as (((o, t), g2) & EX & EC). apply bind_ok in EW as ((g3, fl1) & EB & EW).
        assert (K1 : count (set_blocks H g (g_blocks H g ++ [[]])) = S c) by exact (new_count H g).
        assert (K2 : count (set_blocks H (set_blocks H g (g_blocks H g ++ [[]])) (g_blocks H (set_blocks H g (g_blocks H g ++ [[]])) ++ [[]])) = S (S c)) by (rewrite <- K1; exact (new_count H (snd (new_block H g)))).
        rewrite K1 in *. rewrite K2 in *.
        set (g1 := position H (loop_head H g) c) in *.
        change (gen_expr e g1 = Ok (o, t, g2)) in EX. inversion EC; subst g2'. clear EC. inversion EW; subst g4. clear EW.
        assert (A2 : adds [] g g2) by (apply adds_trans with g1; [now apply adds_tables|eapply adds_expr; exact EX]).
        assert (OC : okay (tn_child n) (position H (emit H g2 (ICondBr o (S c) (S (S c)))) (S c))).
        { eapply okay_kept; [eapply okay_child0; [exact O|congruence]|]. eapply adds_trans; [exact A2|now apply adds_tables]. }
        pose proof (RN _ _ _ OC EB) as G1.
        eapply gs_while; try eassumption; try reflexivity.
        -- intro GF. pose proof (ok_steady _ _ O GF) as ST. cbn [forallb] in ST. apply andb_true_iff in ST as (ST & _). clear - ST TN. destruct n as [tt tk p cc]. cbn [tn_type] in TN. subst tt. cbn [steady tn_child] in *.
           destruct (flat_map (mut_defs ys) cc); [reflexivity|discriminate ST].
        -- apply SKIP; [|exact E]. apply adds_trans with g2; [eapply adds_more; [exact A2|intros j []]|]. apply adds_trans with g3.
           ++ apply adds_trans with (position H (emit H g2 (ICondBr o (S c) (S (S c)))) (S c)); [now apply adds_tables|]. eapply adds_more; [exact (gens_adds _ _ _ _ _ G1)|].
              intros j J. rewrite numbers_eq. apply in_or_app. now right.
           ++ eapply adds_trans; [apply (adds_branch _ c g3 fl1)|now apply adds_tables].
      * (* import *) apply gs_skip; [left; rewrite TN; cbn; auto|]. apply SKIP; [apply adds_refl|exact E].
      * (* namespace *) unfold fine_here in FH. rewrite TN in FH. assert (Q : exists k, tn_pay n = XSpace k) by (destruct (tn_pay n); exact FH). destruct Q as (k & TP).
        apply bind_ok in E as ((g1, fl1) & EB & E).
        assert (OC : okay (tn_child n) g) by (eapply okay_child0; [exact O|congruence]).
        pose proof (RN _ _ _ OC EB) as G1. eapply gs_space; try eassumption. apply SKIP; [|exact E]. eapply adds_more; [exact (gens_adds _ _ _ _ _ G1)|].
        intros j J. rewrite numbers_eq. apply in_or_app. now right.
      * (* comment *) apply gs_skip; [left; rewrite TN; cbn; auto|]. apply SKIP; [apply adds_refl|exact E].
      * (* noop *) apply gs_noop; [exact TN|]. apply SKIP; [apply adds_noop|exact E].
      * unfold gen_jump in E. destruct (g_end H g) as [b|] eqn:GE; [|discriminate E]. inversion E; subst. now apply gs_break.
      * unfold gen_jump in E. destruct (g_cond H g) as [b|] eqn:GE; [|discriminate E]. inversion E; subst. now apply gs_continue.
    + cbn [Model_LLVM.gen_list] in E. fold (gen_list gen_body) in E. cbn [mode_of].
      destruct (tn_type n) eqn:TN; try discriminate E.
      * apply gs_elif; [exact TN|]. apply COND; auto.
      * (* else *) unfold fine_here in FH. rewrite TN in FH. assert (TP : tn_pay n = XNone) by (destruct (tn_pay n); exact FH).
        apply bind_ok in E as ((g1, fl1) & EB & E).
        assert (OC : okay (tn_child n) (position H g entry)) by (eapply okay_kept; [eapply okay_child0; [exact O|congruence]|now apply adds_tables]).
        pose proof (RN _ _ _ OC EB) as G1. eapply gs_else; try eassumption.
        apply (IH Statement); [|exact E]. eapply okay_rest; [exact O|]. apply adds_trans with g1.
        -- apply adds_trans with (position H g entry); [now apply adds_tables|]. eapply adds_more; [exact (gens_adds _ _ _ _ _ G1)|]. intros j J. rewrite numbers_eq. apply in_or_app. now right.
        -- eapply adds_trans; [apply (adds_branch _ last g1 fl1)|now apply adds_tables].
      * apply gs_comment; [exact TN|]. apply (IH (Branch entry last)); [|exact E]. eapply okay_rest0; exact O.
Qed.

Lemma all_related : forall n, related n.
Proof.
  intro n. induction n as [t tk p c F] using tnode_ind'. intros g g' fl O E. cbn [tn_child] in *. cbn [Model_LLVM.gen_body] in E.
  exact (gens_list c F Statement g g' fl O E).
Qed.
Lemma gens_tree : forall l g g' fl, okay l g -> gen_tree H fold ys debug l g = Ok (g', fl) -> gens GS l g g' fl.
Proof. intros l g g' fl O E. apply (gens_list l) with (m := Statement); auto. apply Forall_forall. intros n _. apply all_related. Qed.
End Rel.
