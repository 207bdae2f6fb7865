(** Proofs that programs that keep the rules pass the checks: scopes and declarations. *)
From Coq Require Import List Arith NArith ZArith Bool Lia Ascii String.
From Verif Require Import Base Model_Token Model_Utf8 Model_Classify Model_Literal Model_Parse Model_Sem.
From Verif Require Import Spec_Utf8 Spec_Classify Spec_Parse Spec_Sem Spec_Sem2 Spec_Accept.
From Verif Require Import Proof_Utf8 Proof_Classify Proof_Classify2 Proof_Parse Proof_Parse2 Proof_Parse5 Proof_Sem Proof_Sem2 Proof_Sem3 Proof_Sem4 Proof_Sem6 Proof_Accept.
Import ListNotations.
Open Scope list_scope.
Open Scope nat_scope.

(** * Scopes *)

Lemma chase_last_total : forall scs, linked scs -> forall f i, i < List.length scs -> i < f -> exists r, chase c_last f scs i = Ok r /\ lasts scs i r /\
  exists c, nth_error scs r = Some c /\ c_last c = None.
Proof.
  intros scs L f. induction f as [|f IH]; intros i LI LF; [lia|]. cbn [chase].
  destruct (nth_error scs i) as [c|] eqn:E; [|apply nth_error_None in E; lia]. unfold deref. rewrite E. cbn [bind].
  destruct (c_last c) as [j|] eqn:CL.
  - pose proof (L i c j E (or_intror CL)). destruct (IH j) as (r & H1 & H2 & H3); [lia|lia|]. exists r. split; [exact H1|]. split; [|exact H3].
    now apply ls_step with c j.
  - exists i. split; [reflexivity|]. split; [constructor|]. eauto.
Qed.

Lemma chase_next_total : forall scs a b, nexts scs a b -> forall c f, nth_error scs b = Some c -> c_next c = None -> b - a < f ->
  chase c_next f scs a = Ok b.
Proof.
  intros scs a b H. induction H as [a|a c m b E X LT H IH]; intros d f ED N LF; (destruct f as [|f]; [lia|]); cbn [chase]; unfold deref.
  - rewrite ED. cbn [bind]. now rewrite N.
  - rewrite E. cbn [bind]. rewrite X. apply (IH d); auto. pose proof (nexts_le _ _ _ H). lia.
Qed.

Lemma head_total : forall s, inv s -> exists h, find_scope_head s = Ok h.
Proof.
  intros s I. unfold find_scope_head. pose proof (iv_cur _ I) as C. destruct (s_scope s) as [i|]; [|eauto].
  destruct (chase_last_total _ (iv_links _ I) (S (List.length (s_scopes s))) i) as (r & -> & _); [lia|lia|]. cbn. eauto.
Qed.

Lemma enter_total : forall s, inv s -> exists s1, make_child_scope s = Ok s1.
Proof.
  intros s I. unfold make_child_scope. pose proof (iv_cur _ I) as C. destruct (s_scope s) as [i|].
  - destruct (nth_error (s_scopes s) i) as [c|] eqn:E; [|apply nth_error_None in E; lia]. unfold deref. rewrite E. cbn [bind].
    destruct (c_child c); unfold make_scope; eauto.
  - unfold make_scope. cbn [set_scopes s_scopes]. unfold deref. rewrite app_nth_new. cbn [bind empty_scope c_child]. unfold make_scope. eauto.
Qed.

Lemma leave_total : forall s s1 s2 i h, inv s -> inside s s1 i h -> inv s2 -> grow s1 s2 ->
  exists s3 s4 s5, reset_scope_head s2 = Ok s3 /\ restore_parent_scope s3 = Ok s4 /\ make_adjacent_scope s4 = Ok s5.
Proof.
  intros s s1 s2 i h I [C HH SC OLD (c & c' & B1 & B2 & AL & CH & CN) (d & D1 & D2 & D3 & D4) SY I1] I2 [GS GP GC].
  destruct GC as [(X & _)|(h0 & e & X & E2 & T)]; [congruence|].
  rewrite (norm_some s1 h SC) in X, T. assert (h0 = h) by congruence. subst h0. clear X.
  destruct T as [TO (x & x' & X1 & X2 & X3 & X4) TN TL]. assert (x = d) by congruence. subst x. clear X1.
  pose proof (iv_cur _ I2) as CU2. rewrite E2 in CU2. pose proof (nexts_le _ _ _ TN) as LE.
  assert (E3 : reset_scope_head s2 = Ok (set_scope s2 (Some h))).
  { unfold reset_scope_head, find_scope_head. rewrite E2.
    destruct (chase_last_total _ (iv_links _ I2) (S (List.length (s_scopes s2))) e) as (r & HR & _); [lia|lia|]. rewrite HR. cbn [bind].
    apply (chase_lasts _ _ _ TL x' _ r X2) in HR; [now subst r|congruence]. }
  exists (set_scope s2 (Some h)).
  assert (E4 : restore_parent_scope (set_scope s2 (Some h)) = Ok (set_scope s2 (Some i))).
  { unfold restore_parent_scope, reset_scope_head, find_scope_head. cbn [set_scope s_scope s_scopes].
    destruct (chase_last_total _ (iv_links _ I2) (S (List.length (s_scopes s2))) h) as (r & HR & _); [lia|lia|]. rewrite HR. cbn [bind].
    assert (r = h). { apply (chase_lasts _ _ _ (ls_refl _ h) x' _ r X2) in HR; congruence. } subst r.
    cbn [set_scope s_scope s_scopes]. unfold deref. rewrite X2. cbn [bind]. rewrite X3, D2. reflexivity. }
  exists (set_scope s2 (Some i)). unfold make_adjacent_scope. cbn [set_scope s_scope]. unfold make_scope. eexists. split; [exact E3|]. split; [exact E4|reflexivity].
Qed.

(** * Places outside of all blocks *)

Definition topish (s : sst) : Prop :=
  match s_scope s with
  | None => True
  | Some i => exists h c, lasts (s_scopes s) i h /\ nth_error (s_scopes s) h = Some c /\ c_last c = None /\ c_parent c = None
  end.

Lemma lasts_le : forall scs a b, linked scs -> lasts scs a b -> b <= a.
Proof. intros scs a b L H. induction H as [a|a c m b E X H IH]; [lia|]. pose proof (L a c m E (or_intror X)). lia. Qed.

Lemma topish_grow : forall s s', inv s -> grow s s' -> topish s -> topish s'.
Proof.
  intros s s' I G T. unfold topish. destruct (gr_scope _ _ G) as [(_ & ->)|(i & i' & N1 & -> & TL)]; [easy|].
  pose proof (norm_inv s I) as IN. destruct TL as [TO (c & c' & B1 & B2 & B3 & B4) TN TT].
  unfold topish in T. destruct (s_scope s) as [j|] eqn:ES.
  - rewrite (norm_some s j ES) in *. assert (j = i) by congruence. subst j. destruct T as (h & d & L1 & ED & DL & DP).
    pose proof (lasts_le _ _ _ (iv_links _ I) L1) as LE.
    assert (L2 : lasts (s_scopes s') i h).
    { apply (lasts_agree (s_scopes s)); [apply (iv_links _ I)|exact L1|]. intros k z LK EZ. destruct (Nat.eq_dec k i) as [->|NE].
      - exists c'. assert (z = c) by congruence. subst z. auto.
      - exists z. rewrite TO by lia. auto. }
    destruct (Nat.eq_dec h i) as [->|NE].
    + exists i, c'. assert (d = c) by congruence. subst d. split; [exact TT|]. split; [exact B2|]. split; congruence.
    + exists h, d. split; [now apply lasts_trans with i|]. rewrite TO by lia. auto.
  - unfold norm in N1, B1. rewrite ES in N1, B1. cbn in N1, B1. inversion N1; subst i. rewrite app_nth_new in B1. inversion B1; subst c. cbn in B3, B4.
    exists (List.length (s_scopes s)), c'. auto.
Qed.

Lemma topish_top : forall s, inv s -> topish s -> is_top_lvl_scope s = Ok true.
Proof.
  intros s I T. unfold is_top_lvl_scope, find_scope_head, topish in *. pose proof (iv_cur _ I) as C. destruct (s_scope s) as [i|]; [|reflexivity].
  destruct T as (h & c & L & E & CL & CP).
  destruct (chase_last_total _ (iv_links _ I) (S (List.length (s_scopes s))) i) as (r & HR & _); [lia|lia|]. rewrite HR. cbn [bind].
  apply (chase_lasts _ _ _ L c _ r E) in HR; [|exact CL]. subst r. unfold deref. rewrite E. cbn [bind]. now rewrite CP.
Qed.

Lemma top_total : forall s, inv s -> exists b, is_top_lvl_scope s = Ok b.
Proof.
  intros s I. unfold is_top_lvl_scope, find_scope_head. pose proof (iv_cur _ I) as C. destruct (s_scope s) as [i|]; [|cbn; eauto].
  destruct (chase_last_total _ (iv_links _ I) (S (List.length (s_scopes s))) i) as (r & -> & _ & c & E & _); [lia|lia|]. cbn [bind].
  unfold deref. rewrite E. cbn. eauto.
Qed.

(** * New names *)

Lemma assoc_none : forall (l : list (text * nat)) n, (forall k, ~ In (n, k) l) -> assoc l n = None.
Proof.
  induction l as [|(m, k) l IH]; intros n H; [reflexivity|]. cbn. destruct (text_eqb m n) eqn:E.
  - apply text_eqb_true in E. subst m. exfalso. apply (H k). now left.
  - apply IH. intros j IN. apply (H j). now right.
Qed.

Lemma envrel_absent : forall P a b n, envrel P a b -> (forall k, ~ In (n, k) b) -> forall k, ~ In (n, k) a.
Proof.
  intros P a b n F. induction F as [|(m, i) (m', j) a b (E & _) F IH]; intros H k X; [contradiction|]. cbn in E. destruct X as [X|X].
  - inversion X; subst. apply (H j). now left.
  - apply (IH (fun j IN => H j (or_intror IN)) k X).
Qed.

Lemma free_total : forall s n, inv s -> ~ In (chr ".") n -> (forall ty, ~ builtin n ty) -> (forall k, ~ In (n, k) (cenv s)) ->
  scope_find_name s n = Ok None /\ find_symbol_type s n = Ok None.
Proof.
  intros s n I ND NB NE. assert (F : scope_find_name s n = Ok None). { rewrite (find_plain_total s n I ND). now rewrite assoc_none. }
  split; [exact F|]. unfold find_symbol_type, find_func_by_name, find_type. rewrite F. cbn [bind]. now rewrite (not_builtin_none n NB).
Qed.

Lemma add_symbol_total : forall s y, inv s -> ~ In (chr ".") (y_name y) -> (forall ty, ~ builtin (y_name y) ty) ->
  (forall k, ~ In (y_name y, k) (cenv s)) -> exists s' k, scope_add_symbol s y = Pass s' (Some k).
Proof.
  intros s y I ND NB NE. unfold scope_add_symbol. destruct (free_total s (y_name y) I ND NB NE) as (_ & F). rewrite F. cbn [rbind].
  pose proof (iv_cur _ I) as C. unfold cenv in NE. destruct (s_scope s) as [i|] eqn:ES.
  - destruct (nth_error (s_scopes s) i) as [c|] eqn:E; [|apply nth_error_None in E; lia]. unfold deref. rewrite E. cbn [rbind].
    cbn [env_from] in NE. rewrite (env_of_eq _ _ _ (iv_links _ I) E) in NE.
    rewrite assoc_none; [eauto|]. intros k IN. apply (NE k). apply in_or_app. left. unfold table. destruct (c_syms c); [exact IN|contradiction].
  - unfold make_scope. cbn [set_scopes s_scopes]. unfold deref. rewrite app_nth_new. cbn. eauto.
Qed.

Lemma add_total : forall s y, inv s -> ~ In (chr ".") (y_name y) -> (forall ty, ~ builtin (y_name y) ty) ->
  (forall k, ~ In (y_name y, k) (cenv s)) -> exists s' k, add_or_stop s y = Pass s' k /\ added s s' k y.
Proof.
  intros s y I ND NB NE. destruct (add_symbol_total s y I ND NB NE) as (s' & k & H). exists s', k.
  assert (A : add_or_stop s y = Pass s' k) by (unfold add_or_stop; rewrite H; reflexivity).
  split; [exact A|]. now apply add_or_stop_added.
Qed.

Lemma add_param_total : forall s y, inv s -> ~ In (chr ".") (y_name y) -> (forall ty, ~ builtin (y_name y) ty) ->
  (forall k, ~ In (y_name y, k) (cenv s)) -> exists s' k, scope_add_param s y = Pass s' k /\ added s s' k y.
Proof.
  intros s y I ND NB NE. destruct (add_symbol_total s y I ND NB NE) as (s' & k & H). destruct (free_total s (y_name y) I ND NB NE) as (F & F').
  exists s', k. assert (A : scope_add_param s y = Pass s' k).
  { unfold scope_add_param. destruct (s_scope s); rewrite ?F; cbn [rbind]; rewrite F'; cbn [rbind]; rewrite H; reflexivity. }
  split; [exact A|]. now apply add_param_added.
Qed.

(** * The relation grows *)

Definition plus (P : nat -> nat -> Prop) (k b : nat) : nat -> nat -> Prop := fun a c => P a c \/ a = k /\ c = b.

Definition all_defined (s : sst) : Prop := forall k y v, nth_error (s_syms s) k = Some y -> y_kind y = KVar v -> v_defined v = true.

Definition keeps (s s' : sst) : Prop := forall k d, sig s k = Some d -> sig s' k = Some d.

Lemma grow_keeps : forall s s', grow s s' -> keeps s s'.
Proof. intros s s' G k d. apply (gr_sig _ _ G). Qed.

Lemma says_grow : forall P s s' a d, keeps s s' -> says P (sig s a) d -> says P (sig s' a) d.
Proof.
  intros P s s' a d G H. destruct d; cbn in *; auto. destruct H as (E & H & F). exists E. split; [now apply G|exact F].
Qed.

Lemma rel_grow : forall P D s s' e e', rel P D s e -> keeps s s' -> List.length (s_syms s) <= List.length (s_syms s') -> all_defined s' ->
  envrel P (cenv s') e' -> Forall (fun x : text * nat => fst x <> []) e' -> rel P D s' e'.
Proof.
  intros P D s s' e e' [A B DM U N V] G LE V' E' N'. constructor; auto.
  - intros a b d PA HD. apply says_grow with s; auto. now apply (B a b).
  - intros a b PA. pose proof (DM a b PA). lia.
Qed.

Lemma rel_same : forall P D s s' e, rel P D s e -> same_names s s' -> rel P D s' e.
Proof.
  intros P D s s' e [A B DM U N V] SN. pose proof SN as (E1 & E2 & E3). constructor; auto.
  - now rewrite (same_names_cenv _ _ SN).
  - intros a b d PA HD. rewrite (same_names_sig _ _ a SN). now apply (B a b).
  - intros a b PA. rewrite E3. now apply (DM a b).
  - rewrite E3. exact V.
Qed.

Lemma rel_new : forall P D s s' e k b x, rel P D s e -> keeps s s' -> k = List.length (s_syms s) -> k < List.length (s_syms s') -> all_defined s' ->
  cenv s' = (x, k) :: cenv s -> x <> [] -> (forall d, D b = Some d -> says (plus P k b) (sig s' k) d) ->
  rel (plus P k b) D s' ((x, b) :: e).
Proof.
  intros P D s s' e k b x [A B DM U N V] G EK LK V' EC NX SY.
  assert (MO : forall i j, P i j -> plus P k b i j) by (intros i j H; now left).
  assert (NK : forall c, ~ P k c) by (intros c PA; pose proof (DM k c PA); lia).
  constructor; auto.
  - rewrite EC. constructor; [split; [reflexivity|now right]|]. now apply (envrel_more P).
  - intros i j d [PA|(-> & ->)] HD; [|now apply SY]. apply says_grow with s; auto. apply (says_more P); auto. now apply (B i j).
  - intros i j [PA|(-> & ->)]; [pose proof (DM i j PA)|]; lia.
  - intros i j l t m t' m' [P1|(E1 & F1)] [P2|(E2 & F2)] H1 H2.
    + now apply (U i j l t m t' m').
    + subst i. now apply NK in P1.
    + subst i. now apply NK in P2.
    + congruence.
Qed.

Lemma added_defined : forall s s' k y, added s s' k y -> all_defined s -> (forall v, y_kind y = KVar v -> v_defined v = true) -> all_defined s'.
Proof.
  intros s s' k y A V H j z v E K. rewrite (ad_syms _ _ _ _ A) in E. apply app_nth_inv in E as [E|(_ & ->)]; [now apply (V j z)|auto].
Qed.

Lemma added_length : forall s s' k y, added s s' k y -> List.length (s_syms s') = S (List.length (s_syms s)).
Proof. intros s s' k y A. rewrite (ad_syms _ _ _ _ A), app_length. cbn. lia. Qed.

Lemma tame_length : forall s s', tame s s' -> List.length (s_syms s) <= List.length (s_syms s').
Proof.
  intros s s' T. destruct (Nat.le_gt_cases (List.length (s_syms s)) (List.length (s_syms s'))) as [H|H]; [exact H|exfalso].
  destruct (nth_error (s_syms s) (List.length (s_syms s'))) as [y|] eqn:E; [|apply nth_error_None in E; lia].
  destruct (T _ _ E) as (y' & E' & _). assert (nth_error (s_syms s') (List.length (s_syms s')) <> None) as X by congruence.
  apply nth_error_Some in X. lia.
Qed.

Lemma new_absent : forall P D s e x, rel P D s e -> new_name e x -> ~ In (chr ".") x /\ (forall ty, ~ builtin x ty) /\ forall k, ~ In (x, k) (cenv s).
Proof.
  intros P D s e x R (_ & ND & NB & NE). split; [exact ND|]. split; [exact NB|]. now apply (envrel_absent P _ e _ (rl_env _ _ _ _ R)).
Qed.

(** * Functions *)

Definition hide (k : nat) (D : decls) : decls := fun j => if j =? k then None else D j.

Lemma hide_other : forall k D j, j <> k -> hide k D j = D j.
Proof. intros k D j NE. unfold hide. destruct (Nat.eqb_spec j k); congruence. Qed.

Lemma hide_resolves : forall k D ps r, D k = Some (DFun ps r) -> forall e n j, resolves D e n j -> resolves (hide k D) e n j.
Proof.
  intros k D ps r HD e n j H. induction H as [n q E ND|m q E n l ND NE H IH|E a q ins b l ND H IH HS H2 IH2].
  - now constructor.
  - now constructor.
  - apply re_inside with q ins; auto. rewrite hide_other; [exact HS|]. intros ->. congruence.
Qed.

Lemma hide_type : forall k D ps r src, D k = Some (DFun ps r) -> forall e ts ty, type_at D src e ts ty -> type_at (hide k D) src e ts ty.
Proof.
  intros k D ps r src HD e ts ty H. induction H as [t q n ty NL SP BI|t q n j ty NL SP RE HJ|t q ty T H IH].
  - now apply ta_builtin with n.
  - apply ta_alias with n j; auto; [now apply (hide_resolves k D ps r)|]. rewrite hide_other; [exact HJ|]. intros ->. congruence.
  - now apply ta_ref.
Qed.

Lemma hide_rel : forall k D P s e, rel P D s e -> rel P (hide k D) s e.
Proof.
  intros k D P s e [A B DM U N V].
  assert (HH : forall b d, hide k D b = Some d -> D b = Some d).
  { intros b d. unfold hide. destruct (b =? k); [discriminate|auto]. }
  constructor; auto.
  - intros a b d PA HD. apply (B a b); auto.
  - intros a b c t m t' m' P1 P2 H1 H2. apply (U a b c t m t' m'); auto.
Qed.

Lemma params_total : forall src ext k D ts0 r0, D k = Some (DFun ts0 r0) -> forall ps ts e e1, legal_params D src e ps ts e1 ->
  forall P s i, rel P (hide k D) s e -> inv s -> s_scope s = Some i ->
  exists s' l (P' : nat -> nat -> Prop), params_loop src ext s ps = Pass s' l /\ map fst l = ts /\ (forall a b, P a b -> P' a b) /\
    (forall a b, P' a b -> P a b \/ exists t m, D b = Some (DVar t m)) /\ rel P' (hide k D) s' e1.
Proof.
  intros src ext k D ts0 r0 HD ps ts e e1 H. induction H as [e|e p ps t ts n b e1 TA SP NN DB H IH]; intros P s i R I SC.
  - exists s, [], P. repeat split; auto; apply R.
  - cbn [params_loop]. rewrite (type_total P (hide k D) s e src _ t R I (hide_type _ _ _ _ _ HD _ _ _ TA)). cbn [rbind].
    rewrite (spells_variable src (pm_name p) n _ _ _ _ _ SP (proj1 NN)). cbn [rbind]. cbv zeta.
    set (v := mkvar t true false false false false true None).
    destruct (param_kind ext v) as (v' & EV & VT & VC). rewrite EV.
    assert (VD : v_defined v' = true) by (rewrite <- EV; destruct ext; reflexivity).
    destruct (new_absent P (hide k D) s e n R NN) as (A1 & A2 & A3).
    destruct (add_param_total s (mksym n (t_loc (pm_name p)) (KVar v')) I A1 A2 A3) as (s1 & k1 & H1 & AD).
    rewrite H1. cbn [sbind]. pose proof (added_norm _ _ _ _ AD) as (i0 & c & N1 & N2 & _). rewrite (norm_some s i SC) in N1.
    pose proof (added_length _ _ _ _ AD) as LN. pose proof (ad_k _ _ _ _ AD) as EK.
    assert (V1 : all_defined s1). { apply (added_defined _ _ _ _ AD (rl_vars _ _ _ _ R)). cbn. intros v0 X. inversion X; subst. exact VD. }
    destruct (added_all s s1 k1 _ I AD) as (I1 & G1 & C1 & Y1 & _); [cbn; discriminate|]. cbn [y_name] in *.
    assert (BK : b <> k) by congruence.
    assert (R1 : rel (plus P k1 b) (hide k D) s1 ((n, b) :: e)).
    { apply (rel_new P (hide k D) s s1 e k1 b n R (grow_keeps _ _ G1) EK); auto; [lia|now apply name_not_nil, NN|]. intros d HDB. rewrite hide_other, DB in HDB by exact BK.
      inversion HDB; subst d. cbn [says]. rewrite (sig_at _ _ _ Y1). cbn. now rewrite VT, VC. }
    destruct (IH (plus P k1 b) s1 i0 R1 I1 N2) as (s2 & l & P' & H2 & ML & M1 & M2 & R2).
    rewrite H2. cbn [sbind]. exists s2, ((t, k1) :: l), P'. split; [reflexivity|]. split; [cbn; now rewrite ML|]. split; [|split; [|exact R2]].
    + intros a z PA. apply M1. now left.
    + intros a z PA. apply M2 in PA as [[PA|(-> & ->)]|PA]; [now left| |now right]. right. eauto.
Qed.

(** The head of a function is known in full. *)
Lemma restore_rel : forall P P' D s s5 s4 e e1 k kb ts r, rel P D s e -> rel P' (hide kb D) s5 e1 -> D kb = Some (DFun ts r) ->
  (forall a b, P a b -> P' a b) -> (forall a b, P' a b -> plus P k kb a b \/ exists t m, D b = Some (DVar t m)) ->
  keeps s s4 -> keeps s5 s4 -> List.length (s_syms s5) <= List.length (s_syms s4) -> all_defined s4 -> cenv s4 = cenv s5 ->
  sig s4 k = Some (DFun ts r) -> rel P' D s4 e1.
Proof.
  intros P P' D s s5 s4 e e1 k kb ts r R R5 HD M1 M2 G G5 LE V EC SK. constructor.
  - rewrite EC. apply (rl_env _ _ _ _ R5).
  - intros a b d PA HB. destruct (Nat.eq_dec b kb) as [->|NE].
    + assert (d = DFun ts r) by congruence. subst d. apply M2 in PA as [[PA|(-> & _)]|(t & m & X)]; [| |congruence].
      * apply says_grow with s; auto. pose proof (rl_dec _ _ _ _ R a kb _ PA HB) as SY. exact SY.
      * exact SK.
    + apply says_grow with s5; auto. apply (rl_dec _ _ _ _ R5 a b); auto. now rewrite hide_other.
  - intros a b PA. pose proof (rl_dom _ _ _ _ R5 a b PA). lia.
  - intros a b c t m t' m' P1 P2 H1 H2. apply (rl_uni _ _ _ _ R5 a b c t m t' m' P1 P2); rewrite hide_other; auto; congruence.
  - apply (rl_names _ _ _ _ R5).
  - exact V.
Qed.

Lemma func_head_total : forall src P D s e name ret num ext exp ps ts r x kb e1, rel P D s e -> inv s -> ready s ->
  N.of_nat (List.length ps) = num -> (ext || exp = true -> topish s) ->
  ret = [] /\ r = TVoid \/ type_at D src e ret r -> spells src name x -> new_name e x -> D kb = Some (DFun ts r) ->
  legal_params D src ((x, kb) :: e) ps ts e1 ->
  exists sH l s4 (P' : nat -> nat -> Prop), let k := List.length (s_syms s) in
    func_head src s name ret num ext exp ps = Pass sH (k, l) /\ make_child_scope sH = Ok s4 /\
    (forall a b, P a b -> P' a b) /\ P' k kb /\ rel P' D s4 e1 /\ tame s s4 /\ s_depth s4 = s_depth s /\
    fstate s4 = (s_main s, k, Some (s_cur s)) /\
    exists y f, nth_error (s_syms s4) k = Some y /\ y_kind y = KFunc f /\ f_ret f = r /\ f_external f = ext.
Proof.
  intros src P D s e name ret num ext exp ps ts r x kb e1 R I RD LP TOP RET SP NN HD LG.
  destruct (new_absent P D s e x R NN) as (A1 & A2 & A3).
  set (f0 := mkfunc ext exp r num [] false).
  destruct (add_total s (mksym x (t_loc name) (KFunc f0)) I A1 A2 A3) as (s2 & k & HA & AD).
  assert (RT : validate_return_type src s ret = Pass s r).
  { unfold validate_return_type. destruct RET as [(-> & ->)|RET]; [reflexivity|]. destruct ret as [|t0 rr]; [inversion RET|].
    now rewrite (type_total P D s e src _ r R I RET). }
  assert (HH : forall sp l, validate_func_params src (set_funcs s2 k (Some (s_cur s))) ext num ps = Pass sp l ->
    func_head src s name ret num ext exp ps = Pass (set_kind sp k (KFunc (put_params (map fst l) f0))) (k, map snd l)).
  { intros sp l HP. unfold func_head. destruct (top_total s I) as (b & HB).
    assert (NT : (exp || ext) && negb b = false).
    { destruct (ext || exp) eqn:XE; rewrite orb_comm, XE; [|reflexivity]. rewrite (topish_top s I (TOP eq_refl)) in HB. inversion HB. reflexivity. }
    rewrite HB. cbn [rbind]. rewrite NT, RT. cbn [sbind]. rewrite (spells_mbs _ _ _ SP (name_not_nil _ (proj1 NN))). cbn [rbind]. cbv zeta. fold f0.
    rewrite HA. cbn [sbind]. rewrite HP. reflexivity. }
  assert (FK : k = List.length (s_syms s)) by apply (ad_k _ _ _ _ AD). 
  pose proof (added_length _ _ _ _ AD) as LN. pose proof (ad_syms _ _ _ _ AD) as ES.
  assert (V2 : all_defined s2). { apply (added_defined _ _ _ _ AD (rl_vars _ _ _ _ R)). cbn. discriminate. }
  pose proof (ad_depth _ _ _ _ AD) as DE. pose proof (ad_main _ _ _ _ AD) as ME.
  assert (T2 : tame s s2) by (now apply added_tame with k (mksym x (t_loc name) (KFunc f0))).
  destruct (added_all s s2 k _ I AD) as (I2 & G2 & C2 & Y2 & _); [cbn; discriminate|]. cbn [y_name] in C2.
  set (s0 := set_funcs s2 k (Some (s_cur s))) in *.
  assert (SN0 : same_names s2 s0) by (repeat split).
  assert (I0 : inv s0) by (now apply same_names_inv with s2).
  assert (G0 : grow s s0) by (now apply same_names_grow_r with s2).
  assert (C0 : cenv s0 = (x, k) :: cenv s) by (rewrite (same_names_cenv _ _ SN0); exact C2).
  assert (R0 : rel (plus P k kb) (hide kb D) s0 ((x, kb) :: e)).
  { apply (rel_new P (hide kb D) s s0 e k kb x (hide_rel _ _ _ _ _ R) (grow_keeps _ _ G0) FK); auto.
    - cbn. lia.
    - now apply name_not_nil, NN.
    - intros d X. unfold hide in X. rewrite Nat.eqb_refl in X. discriminate. }
  destruct (N.eqb_spec num 0) as [NZ|NZ].
  - (* no parameters *)
    assert (ps = []) as -> by (apply length_zero_iff_nil; lia). inversion LG; subst ts e1.
    assert (HP : validate_func_params src s0 ext num [] = Pass s0 []) by (unfold validate_func_params; rewrite NZ; reflexivity).
    apply HH in HP. cbn [map] in HP. set (sK := set_kind s0 k (KFunc (put_params [] f0))) in *.
    assert (CK : calm s0 sK). { apply calm_kind with (mksym x (t_loc name) (KFunc f0)); [exact Y2|cbn; tauto]. }
    assert (IK : inv sK) by (now apply calm_inv with s0).
    destruct (enter_total sK IK) as (s4 & H4). destruct (enter_ok sK s4 IK H4) as (i & h & IS).
    assert (YK : nth_error (s_syms s4) k = Some (mksym x (t_loc name) (KFunc (put_params [] f0)))).
    { rewrite (in_syms _ _ _ _ IS). unfold sK. rewrite (nth_set_kind s0 k _ _ Y2). reflexivity. }
    assert (SG4 : forall j, sig s4 j = sig s0 j) by (intro j; rewrite (inside_sig _ _ _ _ IK IS), (calm_sig _ _ CK); reflexivity).
    assert (ST : steady sK s4) by (now apply child_steady).
    exists sK, [], s4, (plus P k kb). cbv zeta. rewrite <- FK. split; [exact HP|]. split; [exact H4|]. split; [intros a b PA; now left|].
    split; [right; auto|]. split; [|split; [|split; [|split]]].
    + assert (R4 : rel (plus P k kb) (hide kb D) s4 ((x, kb) :: e)).
      { pose proof (calm_rel _ _ _ _ _ CK R0) as [A B DM U NM V]. constructor; auto.
        - now rewrite (proj2 (inside_env _ _ _ _ IK IS)).
        - intros a b d PA HB. rewrite (inside_sig _ _ _ _ IK IS). now apply (B a b).
        - rewrite (in_syms _ _ _ _ IS). exact DM.
        - rewrite (in_syms _ _ _ _ IS). exact V. }
      apply (restore_rel P (plus P k kb) D s s4 s4 e _ k kb [] r R R4 HD); auto.
      * intros a b PA. now left.
      * intros j d E. rewrite SG4. now apply (gr_sig _ _ G0).
      * intros j d E. exact E.
      * exact (rl_vars _ _ _ _ R4).
      * rewrite (sig_at _ _ _ YK). cbn. now rewrite NZ.
    + apply tame_trans with s2; [exact T2|]. apply tame_trans with s0; [now apply syms_tame|]. apply tame_trans with sK; [now apply calm_tame|apply (sd_tame _ _ ST)].
    + rewrite (child_depth _ _ H4), (cm_depth _ _ CK). exact DE.
    + rewrite (sd_state _ _ ST). unfold fstate. rewrite (cm_main _ _ CK), (cm_cur _ _ CK), (cm_last _ _ CK). cbn. now rewrite ME.
    + eexists. eexists. split; [exact YK|]. split; [reflexivity|]. auto.
  - (* parameters *)
    destruct (enter_total s0 I0) as (s1 & HC1). destruct (enter_ok s0 s1 I0 HC1) as (i & h & IS).
    pose proof (inside_env _ _ _ _ I0 IS) as (EI & EC). pose proof (inside_sig _ _ _ _ I0 IS) as SG1.
    assert (R1 : rel (plus P k kb) (hide kb D) s1 ((x, kb) :: e)).
    { destruct R0 as [A B DM U NM V]. constructor; auto.
      - now rewrite EC.
      - intros a b d PA HB. rewrite SG1. now apply (B a b).
      - rewrite (in_syms _ _ _ _ IS). exact DM.
      - rewrite (in_syms _ _ _ _ IS). exact V. }
    destruct (params_total src ext kb D ts r HD ps ts ((x, kb) :: e) e1 LG (plus P k kb) s1 h R1 (in_inv _ _ _ _ IS) (in_scope _ _ _ _ IS))
      as (s5 & l & P' & HL & ML & M1 & M2 & R5).
    destruct (params_ok_l src ext ps s1 s5 l h (in_inv _ _ _ _ IS) (in_scope _ _ _ _ IS) HL) as (I5 & G5 & S5 & L5 & K5 & Q5 & _).
    pose proof (params_loop_steady _ _ _ _ _ _ HL) as ST5. pose proof (params_loop_depth _ _ _ _ _ _ HL) as DE5.
    pose proof (child_steady _ _ HC1) as ST1. pose proof (child_depth _ _ HC1) as DE1.
    pose proof IS as IS'. destruct IS' as [C HHH SC OLD (c & c' & B1 & B2 & AL & CH & CN) (d & D1 & D2 & D3 & D4) SY I1].
    destruct (gr_scope _ _ G5) as [(X & _)|(h0 & h1 & X & X1 & T)]; [congruence|]. rewrite (norm_some s1 h SC) in X, T.
    assert (h0 = h) by congruence. assert (h1 = h) by congruence. subst h0 h1. clear X X1.
    destruct T as [TO (z & z' & W1 & W2 & W3 & W4) _ _]. assert (z = d) by congruence. subst z.
    assert (N_i : nth_error (s_scopes s5) i = Some c'). { rewrite TO by lia. exact B2. }
    pose proof (iv_cur _ I5) as CU5. rewrite S5 in CU5.
    assert (H6 : restore_parent_scope s5 = Ok (set_scope s5 (Some i))).
    { unfold restore_parent_scope, reset_scope_head, find_scope_head. rewrite S5.
      destruct (chase_last_total _ (iv_links _ I5) (S (List.length (s_scopes s5))) h) as (q & HR & _); [lia|lia|]. rewrite HR. cbn [bind].
      assert (q = h). { apply (chase_lasts _ _ _ (ls_refl _ h) z' _ q W2) in HR; congruence. } subst q.
      cbn [set_scope s_scope s_scopes]. unfold deref. rewrite W2. cbn [bind]. rewrite W3, D2. reflexivity. }
    assert (HP : validate_func_params src s0 ext num ps = Pass (set_scope s5 (Some i)) l).
    { unfold validate_func_params. destruct (N.eqb_spec num 0); [congruence|]. rewrite HC1. cbn [rbind]. rewrite firstn_all2 by lia.
      rewrite HL. cbn [sbind]. rewrite H6. reflexivity. }
    apply HH in HP. rewrite ML in HP. set (fK := put_params ts f0) in *.
    assert (E4 : exists s4, make_child_scope (set_kind (set_scope s5 (Some i)) k (KFunc fK)) = Ok s4 /\ same_names (set_kind s5 k (KFunc fK)) s4).
    { unfold make_child_scope. cbn [set_kind set_syms set_scope s_scope s_scopes]. unfold deref. rewrite N_i. cbn [bind]. rewrite CH.
      eexists. split; [reflexivity|]. cbn [set_kind set_syms set_scope set_scopes s_scope s_scopes s_syms]. split; [exact (eq_sym S5)|]. split; [|reflexivity].
      cbn. rewrite (upd_same _ (s_scopes s5) i (put_child h) c' N_i (put_child_same h c' CH)).
      apply (upd_same _ (s_scopes s5) h (put_parent i) z' W2). apply put_parent_same. congruence. }
    destruct E4 as (s4 & H4 & E4).
    assert (Y5 : nth_error (s_syms s5) k = Some (mksym x (t_loc name) (KFunc f0))).
    { apply K5. rewrite SY. exact Y2. }
    assert (SK : sig s5 k = None).
    { rewrite (sig_at _ _ _ Y5). cbn. destruct num; [congruence|reflexivity]. }
    assert (LL : N.of_nat (List.length ts) = num) by (rewrite <- ML, map_length, L5; exact LP).
    assert (Y4 : nth_error (s_syms s4) k = Some (mksym x (t_loc name) (KFunc fK))).
    { destruct E4 as (_ & _ & ->). rewrite (nth_set_kind s5 k _ _ Y5). reflexivity. }
    assert (KP5 : keeps s5 s4).
    { intros j dd E. rewrite (same_names_sig _ _ j E4). destruct (Nat.eq_dec j k) as [->|NE]; [congruence|]. now rewrite sig_set_kind. }
    assert (KP : keeps s s4).
    { intros j dd E. apply KP5. apply (gr_sig _ _ G5). rewrite SG1. now apply (gr_sig _ _ G0). }
    assert (T4 : tame s5 s4).
    { apply tame_trans with (set_kind s5 k (KFunc fK)); [|apply syms_tame; now destruct E4 as (_ & _ & ->)].
      apply set_kind_tame. intros y E. rewrite Y5 in E. inversion E; subst y. cbn. auto. }
    exists (set_kind (set_scope s5 (Some i)) k (KFunc fK)), (map snd l), s4, P'. cbv zeta. rewrite <- FK.
    split; [exact HP|]. split; [exact H4|]. split; [intros a b PA; apply M1; now left|].
    split; [apply M1; right; auto|]. split; [|split; [|split; [|split]]].
    + apply (restore_rel P P' D s s5 s4 e e1 k kb ts r R R5 HD); auto.
      * intros a b PA. apply M1. now left.
      * now apply tame_length.
      * destruct E4 as (_ & _ & E4). intros j y v E K. rewrite E4 in E. cbn in E. apply upd_inv in E as (y0 & E & [(NE & ->)|(-> & ->)]).
        -- now apply (rl_vars _ _ _ _ R5 j y0 v).
        -- discriminate.
      * rewrite (same_names_cenv _ _ E4). reflexivity.
      * rewrite (sig_at _ _ _ Y4). cbn [y_kind]. unfold fK. cbn [put_params f_params f_num f_ret f0]. now rewrite LL, N.eqb_refl.
    + apply tame_trans with s2; [exact T2|]. apply tame_trans with s0; [now apply syms_tame|]. apply tame_trans with s1; [apply (sd_tame _ _ ST1)|].
      apply tame_trans with s5; [apply (sd_tame _ _ ST5)|exact T4].
    + rewrite (child_depth _ _ H4). cbn. rewrite DE5, DE1. exact DE.
    + rewrite (sd_state _ _ (child_steady _ _ H4)). unfold fstate. cbn. pose proof (sd_state _ _ ST5) as F5. pose proof (sd_state _ _ ST1) as F1.
      unfold fstate in F5, F1. cbn in F1. rewrite F5, F1, ME. reflexivity.
    + eexists. eexists. split; [exact Y4|]. split; [reflexivity|]. auto.
Qed.
