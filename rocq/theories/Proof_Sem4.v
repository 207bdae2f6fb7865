(** Proofs about the semantic checks: accepted programs are well formed. *)
From Coq Require Import List Arith NArith ZArith Bool Lia Ascii String.
From Verif Require Import Base Model_Token Model_Utf8 Model_Classify Model_Literal Model_Parse Model_Sem.
From Verif Require Import Spec_Utf8 Spec_Parse Spec_Sem Proof_Utf8 Proof_Parse Proof_Parse2 Proof_Parse4 Proof_Parse5.
From Verif Require Import Proof_Sem Proof_Sem2 Proof_Sem3.
Import ListNotations.
Open Scope list_scope.
Open Scope nat_scope.

(** * Parameters *)

Lemma variable_spells : forall src t ty c i x d n v, make_variable src t ty c i x d = Ok (n, v) ->
  spells src t n /\ v = mkvar ty c false false i x d None.
Proof.
  intros src t ty c i x d n v H. unfold make_variable in H. apply bind_ok in H as (w & HW & H).
  destruct (is_valid_identifier_str w); [|discriminate]. destruct (c32stombs w) as [b|] eqn:E; [|discriminate]. inversion H; subst.
  split; [|easy]. apply mbs_spells. unfold token_to_mbs_str. rewrite HW. cbn. now rewrite E.
Qed.

Lemma param_kind : forall ext v, exists v', (if ext : bool then mark_read (mark_reassigned v) else v) = v' /\
  v_type v' = v_type v /\ v_const v' = v_const v.
Proof. intros [] v; eexists; split; reflexivity || auto. Qed.

Lemma sig_at : forall s k y, nth_error (s_syms s) k = Some y -> sig s k =
  match y_kind y with
  | KVar v => Some (DVar (v_type v) (negb (v_const v)))
  | KFunc f => if (N.of_nat (List.length (f_params f)) =? f_num f)%N then Some (DFun (f_params f) (f_ret f)) else None
  | KAlias t => Some (DType t)
  | KSpace (Some e) => Some (DSpace (env_of (s_scopes s) e))
  | KSpace None => None
  end.
Proof. intros s k y E. unfold sig. now rewrite E. Qed.

Lemma params_ok_l : forall src ext ps s s' l i, inv s -> s_scope s = Some i -> params_loop src ext s ps = Pass s' l ->
  inv s' /\ grow s s' /\ s_scope s' = Some i /\ List.length l = List.length ps /\
  (forall k y, nth_error (s_syms s) k = Some y -> nth_error (s_syms s') k = Some y) /\
  (forall k y, nth_error (s_syms s') k = Some y -> nth_error (s_syms s) k = Some y \/ exists v, y_kind y = KVar v) /\
  (forall D, knows D s' -> params_ok D src (cenv s) ps (map fst l) (map snd l) (cenv s')).
Proof.
  intros src ext ps. induction ps as [|p ps IH]; intros s s' l i I SC H; cbn [params_loop] in H.
  - inversion H; subst. split; [easy|]. split; [now apply grow_refl|]. repeat split; auto. intros D K. constructor.
  - apply rbind_pass in H as (t & HT & H). destruct t as [t|]; [|unwind H]. apply rbind_pass in H as ((n, v) & HV & H).
    apply variable_spells in HV as (SP & EV). cbv zeta in H.
    destruct (param_kind ext v) as (v' & EV' & VT & VC). rewrite EV' in H.
    apply sbind_pass in H as (s1 & k & H1 & H). apply sbind_pass in H as (s2 & l2 & H2 & H). inversion H; subst s2 l. clear H.
    apply add_param_added in H1. pose proof (added_norm _ _ _ _ H1) as (i0 & c & N1 & N2 & _). rewrite (norm_some s i SC) in N1.
    assert (i0 = i) by congruence. subst i0. pose proof (ad_syms _ _ _ _ H1) as ES.
    apply (added_all s s1 k _ I) in H1 as (I1 & G1 & C1 & Y1 & FR); [|cbn; discriminate].
    destruct (IH _ _ _ i I1 N2 H2) as (I2 & G2 & S2 & L2 & K2 & Q2 & P2).
    split; [easy|]. split; [now apply grow_trans with s1|]. split; [easy|]. split; [cbn; congruence|].
    split; [|split].
    + intros k0 y E. apply K2. rewrite ES. now apply app_nth_old.
    + intros k0 y E. apply Q2 in E as [E|E]; [|now right]. rewrite ES in E. apply app_nth_inv in E as [E|(_ & ->)]; [now left|right].
      cbn. eauto.
    + intros D K. pose proof (grow_knows _ _ _ G2 K) as K1. pose proof (grow_knows _ _ _ G1 K1) as K0.
      cbn [map fst snd]. apply po_cons with n.
      * apply type_found; auto. apply (iv_links _ I).
      * exact SP.
      * now apply (FR D K0).
      * apply K1. rewrite (sig_at _ _ _ Y1). cbn. rewrite VT, VC, EV. reflexivity.
      * rewrite C1 in P2. now apply P2.
Qed.

(** * Functions *)

Lemma return_type_l : forall D src s ret s' t, inv s -> knows D s -> validate_return_type src s ret = Pass s' t ->
  ret = [] /\ t = TVoid \/ type_at D src (cenv s) ret t.
Proof.
  intros D src s ret s' t I K H. unfold validate_return_type in H. destruct ret as [|a r]; [left; now inversion H|right].
  apply rbind_pass in H as (o & HO & H). destruct o as [o|]; [|discriminate]. inversion H; subst.
  apply type_found; auto. apply (iv_links _ I).
Qed.

(** Fields that names and types do not depend on. *)
Lemma funcs_same : forall s a b, inv s -> inv (set_funcs s a b) /\ cenv (set_funcs s a b) = cenv s /\
  (forall k, sig (set_funcs s a b) k = sig s k).
Proof. intros s a b [A B C D E]. split; [|split]; auto. constructor; auto. Qed.

Lemma depth_same : forall s d, inv s -> inv (set_depth s d) /\ cenv (set_depth s d) = cenv s /\
  (forall k, sig (set_depth s d) k = sig s k).
Proof. intros s d [A B C D E]. split; [|split]; auto. constructor; auto. Qed.

(** Two states that differ in other fields only. *)
Definition same_names (s s' : sst) : Prop := s_scope s' = s_scope s /\ s_scopes s' = s_scopes s /\ s_syms s' = s_syms s.

Lemma same_names_inv : forall s s', same_names s s' -> inv s -> inv s'.
Proof. intros s s' (A & B & C) [L U NW BN SP]. constructor; rewrite ?A, ?B, ?C; auto. Qed.
Lemma same_names_sig : forall s s' k, same_names s s' -> sig s' k = sig s k.
Proof. intros s s' k (A & B & C). unfold sig. now rewrite B, C. Qed.
Lemma same_names_cenv : forall s s', same_names s s' -> cenv s' = cenv s.
Proof. intros s s' (A & B & C). unfold cenv. now rewrite A, B. Qed.
Lemma same_names_knows : forall D s s', same_names s s' -> knows D s' <-> knows D s.
Proof. intros D s s' H. split; intros K k d E; apply K; rewrite <- E; [|symmetry]; now rewrite (same_names_sig s s' k H). Qed.
Lemma same_names_norm : forall s s', same_names s s' -> same_names (norm s) (norm s').
Proof. intros s s' (A & B & C). unfold same_names, norm. rewrite A. destruct (s_scope s) eqn:E; cbn; rewrite ?A, ?B, ?C, ?E; auto. Qed.
Lemma same_names_grow_l : forall s s0 s', same_names s s0 -> grow s0 s' -> grow s s'.
Proof.
  intros s s0 s' SN [GS GP GC]. pose proof (same_names_norm _ _ SN) as (NA & NB & NC). constructor.
  - intros k d E. apply GS. now rewrite (same_names_sig _ _ k SN).
  - intros k y o E. apply GP. destruct SN as (_ & _ & ->). exact E.
  - rewrite NA, NB in GC. destruct SN as (-> & _) in GC. exact GC.
Qed.
Lemma same_names_grow_r : forall s s0 s', same_names s0 s' -> grow s s0 -> grow s s'.
Proof.
  intros s s0 s' SN [GS GP GC]. constructor.
  - intros k d E. rewrite (same_names_sig _ _ k SN). auto.
  - intros k y o E K. destruct SN as (_ & _ & ->). now apply (GP k y o).
  - destruct SN as (-> & -> & _). exact GC.
Qed.
Lemma same_names_refl : forall s, same_names s s.
Proof. intro s. repeat split. Qed.
Lemma same_names_ready : forall s s', same_names s s' -> ready s -> ready s'.
Proof. intros s s' (_ & _ & A) R k y f E. rewrite A in E. now apply (R k). Qed.

Lemma put_child_same : forall h c, c_child c = Some h -> put_child h c = c.
Proof. intros h [a b c d e] H. cbn in *. subst. reflexivity. Qed.
Lemma put_parent_same : forall h c, c_parent c = Some h -> put_parent h c = c.
Proof. intros h [a b c d e] H. cbn in *. subst. reflexivity. Qed.
Lemma upd_same : forall A (l : list A) i f x, nth_error l i = Some x -> f x = x -> upd l i f = l.
Proof. induction l as [|y l IH]; intros [|i] f x H E; cbn in *; auto; [congruence|]. f_equal. now apply (IH i f x). Qed.

Lemma sig_set_kind : forall s k kd j, j <> k -> sig (set_kind s k kd) j = sig s j.
Proof. intros s k kd j NE. unfold sig. cbn [set_kind set_syms s_syms s_scopes]. now rewrite nth_upd_other by auto. Qed.
Lemma nth_set_kind : forall s k kd y, nth_error (s_syms s) k = Some y ->
  nth_error (s_syms (set_kind s k kd)) k = Some (put_kind kd y).
Proof. intros s k kd y E. cbn. now apply nth_upd_same. Qed.

Lemma set_kind_inv : forall s k kd, inv s ->
  (forall e, kd = KSpace (Some e) -> S e < List.length (s_scopes s)) -> inv (set_kind s k kd).
Proof.
  intros s k kd [L U NW BN SP] HK. constructor; auto. intros j y e E K. cbn in *.
  apply upd_inv in E as (y0 & E & [(NE & ->)|(-> & ->)]); [now apply (SP j y0 e)|]. cbn in K. now apply HK.
Qed.

(** Giving a symbol its final kind: it declared nothing before. *)
Lemma set_kind_grow : forall s k kd, inv s -> sig s k = None ->
  (forall y o, nth_error (s_syms s) k = Some y -> y_kind y <> KSpace o) -> grow s (set_kind s k kd).
Proof.
  intros s k kd I SN NS. constructor.
  - intros j d E. destruct (Nat.eq_dec j k) as [->|NE]; [congruence|]. now rewrite sig_set_kind.
  - intros j y o E K. destruct (Nat.eq_dec j k) as [->|NE]; [exfalso; now apply (NS y o)|]. exists y. cbn. now rewrite nth_upd_other by auto.
  - apply (gr_scope _ _ (grow_refl s I)).
Qed.

(** The head of a function and the start of its body. *)
Lemma func_ok_l : forall src s name ret num ext exp ps sH k l s4,
  inv s -> ready s -> N.of_nat (List.length ps) = num ->
  func_head src s name ret num ext exp ps = Pass sH (k, l) -> make_child_scope sH = Ok s4 ->
  exists s0 s1 i h n ts r, inv s0 /\ grow s s0 /\ inside s0 s1 i h /\ inv s4 /\ ready s4 /\ grow s1 s4 /\
    cenv s0 = (n, k) :: cenv s /\ nth_error (s_syms s) k = None /\
    (exists y f, nth_error (s_syms s4) k = Some y /\ y_kind y = KFunc f) /\
    forall D, knows D s4 -> (ret = [] /\ r = TVoid \/ type_at D src (cenv s) ret r) /\ spells src name n /\
      fresh D (cenv s) n /\ D k = Some (DFun ts r) /\ params_ok D src ((n, k) :: cenv s) ps ts l (cenv s4).
Proof.
  intros src s name ret num ext exp ps sH k l s4 I R LP H HC. unfold func_head in H. apply rbind_pass in H as (top & _ & H).
  destruct ((exp || ext) && negb top); [discriminate|]. apply sbind_pass in H as (s1 & r & HR & H).
  pose proof HR as HR'. apply return_type_same in HR'. subst s1. apply rbind_pass in H as (n & HN & H). cbv zeta in H.
  apply sbind_pass in H as (s2 & k0 & HA & H). apply sbind_pass in H as (s3 & l3 & HP & H). inversion H; subst sH k0 l. clear H.
  apply add_or_stop_added in HA. pose proof (ad_syms _ _ _ _ HA) as ES. pose proof (ad_k _ _ _ _ HA) as EK.
  apply (added_all s s2 k _ I) in HA as (I2 & G2 & C2 & Y2 & FR); [|cbn; discriminate]. cbn [y_name] in C2, FR.
  set (f0 := mkfunc ext exp r num [] false) in *. set (s0 := set_funcs s2 k (Some (s_cur s))) in *.
  assert (SN0 : same_names s2 s0) by (repeat split).
  assert (I0 : inv s0) by (now apply same_names_inv with s2).
  assert (G0 : grow s s0) by (now apply same_names_grow_r with s2).
  assert (C0 : cenv s0 = (n, k) :: cenv s) by (rewrite (same_names_cenv _ _ SN0); exact C2).
  assert (NK : nth_error (s_syms s) k = None) by (apply nth_error_None; lia).
  assert (OTH : forall j y, nth_error (s_syms s2) j = Some y -> j <> k -> nth_error (s_syms s) j = Some y).
  { intros j y E NE. rewrite ES in E. apply app_nth_inv in E as [E|(E & _)]; [exact E|congruence]. }
  unfold validate_func_params in HP. destruct (num =? 0)%N eqn:NZ.
  - (* no parameters *)
    apply N.eqb_eq in NZ. inversion HP; subst s3 l3. clear HP. cbn [map] in *.
    set (sK := set_kind s0 k (KFunc (put_params [] f0))) in *.
    assert (CK : calm s0 sK). { apply calm_kind with (mksym n (t_loc name) (KFunc f0)); [exact Y2|cbn; tauto]. }
    assert (IK : inv sK) by (now apply calm_inv with s0).
    destruct (enter_ok sK s4 IK HC) as (i & h & IS). exists sK, s4, i, h, n, [], r.
    assert (GK : grow s sK). { apply grow_trans with s0; auto. now apply calm_grow. }
    assert (YK : nth_error (s_syms s4) k = Some (mksym n (t_loc name) (KFunc (put_params [] f0)))).
    { rewrite (in_syms _ _ _ _ IS). unfold sK. rewrite (nth_set_kind s0 k _ _ Y2). reflexivity. }
    split; [easy|]. split; [easy|]. split; [easy|]. split; [apply (in_inv _ _ _ _ IS)|]. split; [|split; [|split; [|split; [|split]]]].
    + intros j y f E K. rewrite (in_syms _ _ _ _ IS) in E. unfold sK in E. cbn in E.
      apply upd_inv in E as (y0 & E & [(NE & ->)|(-> & ->)]).
      * apply (R j y0 f); [now apply OTH|exact K].
      * cbn in K. inversion K; subst f. cbn. lia.
    + apply grow_refl. apply (in_inv _ _ _ _ IS).
    + rewrite (calm_cenv _ _ CK). exact C0.
    + exact NK.
    + eexists. eexists. split; [exact YK|reflexivity].
    + intros D K4. assert (KK : knows D sK). { intros j d E. apply K4. now rewrite (inside_sig _ _ _ _ IK IS). }
      pose proof (grow_knows _ _ _ GK KK) as K0. assert (ps = []) as -> by (apply length_zero_iff_nil; lia).
      split; [now apply (return_type_l D src s ret s r)|]. split; [now apply mbs_spells|]. split; [now apply FR|].
      split; [apply K4; rewrite (sig_at _ _ _ YK); cbn; now rewrite NZ|].
      rewrite (proj2 (inside_env _ _ _ _ IK IS)), (calm_cenv _ _ CK), C0. constructor.
  - (* parameters *)
    apply N.eqb_neq in NZ. apply rbind_pass in HP as (s1 & HC1 & HP). apply sbind_pass in HP as (s5 & l5 & HL & HP).
    apply rbind_pass in HP as (s6 & H6 & HP). inversion HP; subst s6 l5. clear HP.
    rewrite firstn_all2 in HL by lia. destruct (enter_ok s0 s1 I0 HC1) as (i & h & IS).
    pose proof (inside_env _ _ _ _ I0 IS) as (EI & EC). pose proof (inside_sig _ _ _ _ I0 IS) as SG1.
    destruct (params_ok_l src ext ps s1 s5 l3 h (in_inv _ _ _ _ IS) (in_scope _ _ _ _ IS) HL) as (I5 & G5 & S5 & L5 & K5 & Q5 & P5).
    pose proof IS as IS'. destruct IS' as [C HH SC OLD (c & c' & B1 & B2 & AL & CH & CN) (d & D1 & D2 & D3 & D4) SY I1].
    destruct (gr_scope _ _ G5) as [(X & _)|(h0 & h1 & X & X1 & T)]; [congruence|]. rewrite (norm_some s1 h SC) in X, T.
    assert (h0 = h) by congruence. assert (h1 = h) by congruence. subst h0 h1. clear X X1.
    destruct T as [TO (x & x' & W1 & W2 & W3 & W4) _ _]. assert (x = d) by congruence. subst x.
    assert (N_i : nth_error (s_scopes s5) i = Some c'). { rewrite TO by lia. exact B2. }
    assert (E3 : s3 = set_scope s5 (Some i)).
    { unfold restore_parent_scope, reset_scope_head, find_scope_head in H6. rewrite S5 in H6.
      apply bind_ok in H6 as (q & H6 & H6'). apply bind_ok in H6 as (hh & H6 & HQ). apply bind_ok in H6 as (rr & HRR & H6).
      inversion H6; subst hh. inversion HQ; subst q. assert (rr = h). { apply (chase_lasts _ _ _ (ls_refl _ h) x' _ rr W2) in HRR; congruence. }
      subst rr. cbn [set_scope s_scope s_scopes] in H6'. apply bind_ok in H6' as (z & HZ & H6'). apply deref_ok in HZ.
      assert (z = x') by congruence. subst z. inversion H6'. rewrite W3, D2. reflexivity. }
    set (fK := put_params (map fst l3) f0) in *.
    assert (E4 : same_names (set_kind s5 k (KFunc fK)) s4).
    { unfold make_child_scope in HC. rewrite E3 in HC. cbn [set_kind set_syms set_scope s_scope s_scopes] in HC.
      apply bind_ok in HC as (z & HZ & HC). apply deref_ok in HZ. assert (z = c') by congruence. subst z. rewrite CH in HC.
      inversion HC; subst s4. clear HC. cbn [set_kind set_syms set_scope set_scopes s_scope s_scopes s_syms]. split; [exact (eq_sym S5)|]. split; [|reflexivity].
      cbn. rewrite (upd_same _ (s_scopes s5) i (put_child h) c' N_i (put_child_same h c' CH)).
      apply (upd_same _ (s_scopes s5) h (put_parent i) x' W2). apply put_parent_same. congruence. }
    assert (Y5 : nth_error (s_syms s5) k = Some (mksym n (t_loc name) (KFunc f0))).
    { apply K5. rewrite SY. exact Y2. }
    assert (SK : sig s5 k = None).
    { rewrite (sig_at _ _ _ Y5). cbn. destruct num; [congruence|reflexivity]. }
    assert (LL : N.of_nat (List.length (map fst l3)) = num) by (rewrite map_length, L5; exact LP).
    assert (G4 : grow s5 s4).
    { apply same_names_grow_r with (set_kind s5 k (KFunc fK)); [exact E4|]. apply set_kind_grow; auto.
      intros y o E. rewrite Y5 in E. inversion E; subst y. discriminate. }
    assert (I4 : inv s4). { apply (same_names_inv _ _ E4). apply set_kind_inv; [exact I5|discriminate]. }
    assert (Y4 : nth_error (s_syms s4) k = Some (mksym n (t_loc name) (KFunc fK))).
    { destruct E4 as (_ & _ & ->). rewrite (nth_set_kind s5 k _ _ Y5). reflexivity. }
    exists s0, s1, i, h, n, (map fst l3), r.
    split; [easy|]. split; [easy|]. split; [easy|]. split; [easy|]. split; [|split; [|split; [|split; [|split]]]].
    + apply (same_names_ready _ _ E4). intros j y f E K. cbn in E. apply upd_inv in E as (y0 & E & [(NE & ->)|(-> & ->)]).
      * apply Q5 in E as [E|(v & KV)]; [|congruence]. rewrite SY in E. apply (R j y0 f); [now apply OTH|exact K].
      * cbn in K. inversion K; subst f. exact LL.
    + now apply grow_trans with s5.
    + exact C0.
    + exact NK.
    + eexists. eexists. split; [exact Y4|reflexivity].
    + intros D K4. pose proof (grow_knows _ _ _ G4 K4) as KN5. pose proof (grow_knows _ _ _ G5 KN5) as KN1.
      assert (KN0 : knows D s0). { intros j dd E. apply KN1. now rewrite SG1. }
      pose proof (grow_knows _ _ _ G0 KN0) as KN.
      split; [now apply (return_type_l D src s ret s r)|]. split; [now apply mbs_spells|]. split; [now apply FR|].
      split; [apply K4; rewrite (sig_at _ _ _ Y4); cbn [y_kind]; unfold fK; cbn [put_params f_params f_num f_ret f0]; now rewrite LL, N.eqb_refl|].
      rewrite <- C0, <- EC. replace (cenv s4) with (cenv s5); [now apply P5|].
      rewrite (same_names_cenv _ _ E4). reflexivity.
Qed.

(** * Statements *)

Definition fine (l : list node) : Prop := forall n, in_tree n l -> written n /\ (n_type n = N_EXPR -> n_child n = []) /\
  (forall e, node_expr n = Some e -> counts e).

Lemma fine_child : forall n, fine [n] -> fine (n_child n).
Proof. intros n F m I. apply F. apply it_below with n; [now left|exact I]. Qed.
Lemma fine_cons : forall n l, fine (n :: l) -> fine [n] /\ fine l.
Proof.
  intros n l F. split; intros m I; apply F; inversion I; subst.
  - apply it_here. destruct H as [->|[]]. now left.
  - apply it_below with m0; auto. destruct H as [->|[]]. now left.
  - apply it_here. now right.
  - apply it_below with m0; auto. now right.
Qed.

Definition node_fine (w : world) (src : text) (n : node) : Prop := forall before after s s' x,
  fine [n] -> inv s -> ready s -> validate_ast_node w src before after n s = Pass s' x ->
  inv s' /\ ready s' /\ grow s s' /\ forall D, knows D s' -> stmt_ok D w src (cenv s) n x (cenv s').

Lemma walk_fine : forall w src l, Forall (node_fine w src) l -> forall before s s' xs,
  fine l -> inv s -> ready s -> walk (validate_ast_node w src) before l s = Pass s' xs ->
  inv s' /\ ready s' /\ grow s s' /\ forall D, knows D s' -> block_ok D w src (cenv s) l xs (cenv s').
Proof.
  intros w src l. induction l as [|n l IH]; intros HF before s s' xs F I R H.
  - cbn in H. inversion H; subst. split; [easy|]. split; [easy|]. split; [now apply grow_refl|]. intros D K. constructor.
  - inversion HF as [|? ? F1 F2]; subst. apply fine_cons in F as (FN & FL). apply walk_cons in H as (s1 & x & r & H1 & H2 & ->).
    destruct (F1 _ _ _ _ _ FN I R H1) as (I1 & R1 & G1 & P1). destruct (IH F2 _ _ _ _ FL I1 R1 H2) as (I2 & R2 & G2 & P2).
    split; [easy|]. split; [easy|]. split; [now apply grow_trans with s1|]. intros D K.
    apply bk_cons with (cenv s1); [apply P1; now apply (grow_knows D _ _ G2)|now apply P2].
Qed.

(** A block that was entered in some way. *)
Lemma body_ok : forall w src l s s1 s1' s2 s3 s4 s5 i h c, Forall (node_fine w src) l -> fine l ->
  inv s -> inside s s1 i h -> inv s1' -> ready s1' -> grow s1 s1' ->
  walk (validate_ast_node w src) [] l s1' = Pass s2 c ->
  reset_scope_head s2 = Ok s3 -> restore_parent_scope s3 = Ok s4 -> make_adjacent_scope s4 = Ok s5 ->
  exists e n, outside s s2 s5 i h e n /\ inv s2 /\ ready s5 /\ grow s1' s2 /\
    (forall D, knows D s5 -> knows D s2) /\ (forall D, knows D s2 -> block_ok D w src (cenv s1') l c (cenv s2)).
Proof.
  intros w src l s s1 s1' s2 s3 s4 s5 i h c HF F I IS I1' R1' G1' HW H3 H4 H5.
  destruct (walk_fine w src l HF [] s1' s2 c F I1' R1' HW) as (I2 & R2 & G2 & B2).
  assert (G : grow s1 s2) by (apply grow_trans with s1'; auto; apply (in_inv _ _ _ _ IS)).
  destruct (leave_ok s s1 s2 s3 s4 s5 i h I IS I2 G H3 H4 H5) as (e & n & O). exists e, n.
  split; [easy|]. split; [easy|]. split; [|split; [easy|split; [|exact B2]]].
  - intros k y f E. rewrite (os_syms _ _ _ _ _ _ _ O) in E. now apply (R2 k).
  - intros D K k d E. apply K. now rewrite (os_sig _ _ _ _ _ _ _ O).
Qed.

Lemma setup_ok : forall w src l s s5 c, Forall (node_fine w src) l -> fine l -> inv s -> ready s ->
  setup_and_validate (walk (validate_ast_node w src) [] l) s = Pass s5 c ->
  exists s2 i h e n, outside s s2 s5 i h e n /\ ready s5 /\ (forall D, knows D s5 -> block_ok D w src (cenv s) l c (cenv s2)) /\
    (forall k y o, nth_error (s_syms s) k = Some y -> y_kind y = KSpace o ->
       exists y', nth_error (s_syms s5) k = Some y' /\ y_kind y' = KSpace o).
Proof.
  intros w src l s s5 c HF F I R H. apply setup_pass in H as (s1 & s2 & s3 & s4 & H1 & H2 & H3 & H4 & H5).
  destruct (enter_ok s s1 I H1) as (i & h & IS). pose proof (in_inv _ _ _ _ IS) as I1.
  assert (R1 : ready s1). { intros k y f E. rewrite (in_syms _ _ _ _ IS) in E. now apply (R k). }
  destruct (body_ok w src l s s1 s1 s2 s3 s4 s5 i h c HF F I IS I1 R1 (grow_refl s1 I1) H2 H3 H4 H5) as (e & n & O & I2 & R5 & G2 & K52 & B).
  exists s2, i, h, e, n. split; [easy|]. split; [easy|]. split.
  - intros D K. rewrite <- (proj2 (inside_env _ _ _ _ I IS)). auto.
  - intros k y o E K. rewrite (os_syms _ _ _ _ _ _ _ O). apply (gr_space _ _ G2 k y o); [|exact K].
    now rewrite (in_syms _ _ _ _ IS).
Qed.

Lemma kind_keeps : forall s k y kd, inv s -> ready s -> nth_error (s_syms s) k = Some y -> same_kind (y_kind y) kd ->
  inv (set_kind s k kd) /\ ready (set_kind s k kd) /\ grow s (set_kind s k kd) /\ cenv (set_kind s k kd) = cenv s.
Proof.
  intros s k y kd I R E K. pose proof (calm_kind s k y kd E K) as C. split; [now apply calm_inv with s|].
  split; [now apply calm_ready with s|]. split; [now apply calm_grow|now apply calm_cenv].
Qed.

Lemma added_ready : forall s s' k y, added s s' k y -> ready s -> (forall f, y_kind y <> KFunc f) -> ready s'.
Proof.
  intros s s' k y A R NF j z f E K. rewrite (ad_syms _ _ _ _ A) in E. apply app_nth_inv in E as [E|(_ & ->)]; [now apply (R j z)|].
  exfalso. now apply (NF f).
Qed.

Lemma call_void : forall w src s name args n s' x s2 u d, validate_expr w src s (ECall name args n) = Pass s' x ->
  is_void_func_assign d x s' = Pass s2 u -> x_ty x <> TVoid.
Proof.
  intros w src s name args n s' x s2 u d H V. cbn [validate_expr] in H. apply sbind_pass in H as (s1 & (k, f) & _ & H).
  apply sbind_pass in H as (s3 & xs & _ & H). inversion H; subst. cbn in *. destruct (f_ret f); discriminate.
Qed.

Lemma void_same : forall d x s s' u, is_void_func_assign d x s = Pass s' u -> s' = s.
Proof. intros d x s s' u H. unfold is_void_func_assign in H. destruct x; try (now inversion H). destruct ty; try discriminate; now inversion H. Qed.

Lemma leaf_child : forall n, n_child n = [] \/ may_have_child n = true -> may_have_child n = false -> n_child n = [].
Proof. intros n [H|H] E; [easy|congruence]. Qed.

Lemma def_ok : forall w src n name e i c x s s' p, fine [n] -> n_type n = N_VAR_DEF -> n_child n = [] ->
  n_pay n = PVarDef name e i c x -> inv s -> ready s ->
  validate_stmt_var_def w src s (n_token n) (n_token_end n) name e i c x = Pass s' p ->
  inv s' /\ ready s' /\ grow s s' /\ forall D, knows D s' -> stmt_ok D w src (cenv s) n (mktnode (n_type n) (n_token n) p []) (cenv s').
Proof.
  intros w src n name e i c x s s' p F T CH P I R H.
  destruct (F n (it_here n [n] (or_introl eq_refl))) as (W & _ & CT).
  assert (CE : counts e). { apply CT. unfold node_expr. now rewrite P. }
  unfold validate_stmt_var_def in H. destruct (n_token_end n) as [|t0 rest] eqn:TE; [discriminate|].
  apply rbind_pass in H as (ty & HTY & H). destruct ty as [ty|].
  - (* alias *)
    unfold validate_stmt_type_alias in H. destruct c; cbn [negb] in H; [|unwind H]. cbv zeta in H.
    destruct (negb _); [unwind H|]. destruct (n_token n) as [|t [|q r]] eqn:TK; try discriminate.
    apply rbind_pass in H as (tt & HT & H). apply rbind_pass in H as (nm & HN & H).
    apply sbind_pass in H as (s1 & k & HA & H). inversion H; subst s1 p. clear H.
    apply add_or_stop_added in HA. assert (R' : ready s') by (apply (added_ready _ _ _ _ HA R); discriminate).
    apply (added_all s s' k _ I) in HA as (I1 & G1 & C1 & Y1 & FR); [|cbn; discriminate].
    split; [easy|]. split; [easy|]. split; [easy|]. intros D K. pose proof (grow_knows _ _ _ G1 K) as K0. rewrite C1. cbn [y_name].
    rewrite T, <- TK. apply so_alias with name e i x t q r tt; auto.
    + now apply mbs_spells.
    + apply K. now rewrite (sig_at _ _ _ Y1).
    + intros ty' E. subst tt. apply type_found; auto. apply (iv_links _ I).
    + intros -> ->. unfold written in W. rewrite T in W. destruct W as (name0 & e0 & i0 & c0 & x0 & P0 & DW).
      rewrite P in P0. inversion P0; subst name0 e0 i0 c0 x0. clear P0. destruct DW as (mods & E1 & E2 & E3 & E4 & x1 & q1 & r1 & EN & ET & _).
      assert (mods = []) as ->.
      { destruct E2 as [E2|(m & E2 & IM)]; [exact E2|]. exfalso. cbn in IM. destruct IM as [IM|[IM|[]]].
        - assert (X : negb true = true) by (apply E3; eauto). discriminate.
        - assert (X : false = true) by (apply E4; eauto). discriminate. }
      cbn in E1. rewrite TK, EN in E1. inversion E1; subst x1 q1 r1. rewrite ET in TE. inversion TE; subst t0 rest. congruence.
  - (* variable *)
    apply sbind_pass in H as (s1 & y & HE & H). apply sbind_pass in H as (s2 & (k, v) & HV & H). cbv zeta in H.
    apply sbind_pass in H as (s3 & u3 & H3 & H). unfold node_to_var in HV. apply sbind_pass in HV as (s4 & u4 & HVV & HV).
    pose proof (void_same _ _ _ _ _ HVV) as E4. subst s4. apply sbind_pass in HV as (s5 & t & HD & HV).
    pose proof (expr_calm _ _ _ _ _ _ HE) as CE1. pose proof (calm_inv _ _ CE1 I) as I1. pose proof (calm_ready _ _ CE1 R) as R1.
    assert (E5 : s5 = s1).
    { unfold declared_type in HD. destruct i; [now inversion HD|]. apply rbind_pass in HD as (o & _ & HD).
      destruct o; [now inversion HD|unwind HD]. }
    subst s5. destruct name as [|nt name]; [discriminate|]. apply rbind_pass in HV as ((nm, v5) & HMV & HV).
    apply variable_spells in HMV as (SP & EV). apply sbind_pass in HV as (s6 & k6 & HA & HV). assert (VV : v5 = v) by (now inversion HV).
    rewrite VV in *. clear v5 VV. inversion HV; subst s6 k6. clear HV.
    apply add_or_stop_added in HA. assert (R2 : ready s2) by (apply (added_ready _ _ _ _ HA R1); discriminate).
    apply (added_all s1 s2 k _ I1) in HA as (I2 & G2 & C2 & Y2 & FR); [|cbn; discriminate]. cbn [y_name] in *.
    (* the definition is marked *)
    assert (exists s3', s3' = set_kind s2 k (KVar (mark_defined (x_cexpr y) v))) as (s3' & ES3) by eauto. rewrite <- ES3 in H3.
    unfold is_expr_compatible_with_var in H3. destruct (ty_eqb (x_ty y) (v_type (mark_defined (x_cexpr y) v))) eqn:TEQ; [|discriminate].
    apply ty_eqb_eq in TEQ. inversion H3; subst s3. clear H3.
    assert (I3 : inv s3'). { rewrite ES3. apply set_kind_inv; [easy|discriminate]. }
    assert (R3 : ready s3').
    { rewrite ES3. intros j z f E K. cbn in E. apply upd_inv in E as (z0 & E & [(NE & ->)|(-> & ->)]); [now apply (R2 j z0)|discriminate]. }
    assert (SG3 : forall j, sig s3' j = sig s2 j).
    { intro j. rewrite ES3. destruct (Nat.eq_dec j k) as [->|NE]; [|now apply sig_set_kind].
      rewrite (sig_at _ _ _ (nth_set_kind s2 k _ _ Y2)), (sig_at _ _ _ Y2). now rewrite EV. }
    assert (G3 : grow s2 s3').
    { constructor.
      - intros j d E. now rewrite SG3.
      - intros j z o E K. rewrite ES3. destruct (Nat.eq_dec j k) as [->|NE].
        + rewrite Y2 in E. inversion E; subst z. discriminate.
        + exists z. cbn. now rewrite nth_upd_other by auto.
      - rewrite ES3. apply (gr_scope _ _ (grow_refl s2 I2)). }
    assert (C3 : cenv s3' = cenv s2) by (rewrite ES3; reflexivity).
    assert (CF : calm s3' s').
    { destruct (is_const_lit y && negb i).
      - apply sbind_pass in H as (s7 & u7 & H7 & H). inversion H; subst. now apply warn_calm in H7.
      - inversion H; subst. apply calm_refl. }
    pose proof (calm_grow _ _ CF I3) as GF. pose proof (calm_grow _ _ CE1 I) as GE. pose proof (calm_inv _ _ CF I3) as IF.
    split; [easy|]. split; [now apply calm_ready with s3'|]. split.
    { apply grow_trans with s1; auto. apply grow_trans with s2; auto. now apply grow_trans with s3'. }
    intros D K. pose proof (grow_knows _ _ _ GF K) as K3. pose proof (grow_knows _ _ _ G3 K3) as K2.
    pose proof (grow_knows _ _ _ G2 K2) as K1. pose proof (grow_knows _ _ _ GE K1) as K0.
    rewrite (calm_cenv _ _ CF), C3, C2, (calm_cenv _ _ CE1).
    assert (TT : t = x_ty y). { rewrite EV in TEQ. cbn in TEQ. congruence. }
    assert (p = XDef k y) as ->.
    { destruct (is_const_lit y && negb i); [apply sbind_pass in H as (? & ? & _ & H)|]; now inversion H. }
    rewrite T. apply so_definition with nt name e i c x; auto.
    + apply (expr_elab D w src e s s1 y); auto. apply (iv_links _ I).
    + intros f a m ->. now apply (call_void _ _ _ _ _ _ _ _ _ _ _ HE HVV).
    + intros ->. unfold declared_type in HD. apply rbind_pass in HD as (o & HO & HD). cbn [tl] in HO. destruct o as [o|]; [|unwind HD].
      inversion HD; subst o. rewrite <- TT, <- (calm_cenv _ _ CE1). apply type_found; auto. apply (iv_links _ I1).
    + rewrite <- (calm_cenv _ _ CE1). now apply (FR D K1).
    + apply K2. rewrite (sig_at _ _ _ Y2). cbn. now rewrite <- TT, EV.
Qed.

Lemma assign_ok : forall w src n e s s' p, fine [n] -> n_type n = N_VAR_ASSIGN -> n_child n = [] ->
  n_pay n = PAssign e -> inv s -> ready s -> validate_stmt_var_assign w src s (n_token n) e = Pass s' p ->
  inv s' /\ ready s' /\ grow s s' /\ forall D, knows D s' -> stmt_ok D w src (cenv s) n (mktnode (n_type n) (n_token n) p []) (cenv s').
Proof.
  intros w src n e s s' p F T CH P I R H.
  destruct (F n (it_here n [n] (or_introl eq_refl))) as (W & _ & CT).
  assert (CE : counts e). { apply CT. unfold node_expr. now rewrite P. }
  unfold written in W. rewrite T in W. destruct W as (e0 & t & q & r & _ & TK & _).
  unfold validate_stmt_var_assign in H. rewrite TK in H.
  apply sbind_pass in H as (s1 & (k, v) & H1 & H). apply find_var_spec in H1 as (-> & nm & y & HN & HF & HY & HK & _).
  destruct (v_const v) eqn:VC; [discriminate|]. cbv zeta in H. apply sbind_pass in H as (s2 & x & H2 & H).
  apply sbind_pass in H as (s3 & u3 & H3 & H). apply sbind_pass in H as (s4 & u4 & H4 & H).
  unfold is_expr_compatible_with_var in H3. destruct (ty_eqb (x_ty x) (v_type v)) eqn:TE; [|discriminate]. apply ty_eqb_eq in TE.
  inversion H3; subst s3. clear H3.
  assert (s4 = s2) as ->.
  { unfold is_redundant_reassign in H4. destruct x; try (now inversion H4). destruct (k =? sym)%nat; [discriminate|now inversion H4]. }
  inversion H; subst s' p. clear H.
  assert (C1 : calm s (set_kind s k (KVar (mark_reassigned v)))).
  { apply calm_kind with y; [easy|]. rewrite HK. cbn. tauto. }
  set (s1 := set_kind s k (KVar (mark_reassigned v))) in *.
  pose proof (expr_calm _ _ _ _ _ _ H2) as C2. pose proof (calm_inv _ _ C1 I) as I1. pose proof (calm_ready _ _ C1 R) as R1.
  pose proof (calm_trans _ _ _ C1 C2) as C. split; [now apply calm_inv with s|]. split; [now apply calm_ready with s|].
  split; [now apply calm_grow|]. intros D K. rewrite (calm_cenv _ _ C). apply (calm_knows D _ _ C) in K.
  rewrite T. apply so_assignment with e t q r nm (v_type v); auto.
  - now apply mbs_spells.
  - apply lookup_resolves; auto. apply (iv_links _ I).
  - apply K. rewrite (sig_at _ _ _ HY), HK, VC. reflexivity.
  - rewrite <- (calm_cenv _ _ C1). apply (expr_elab D w src e s1 s2 x); auto.
    + apply (iv_links _ I1).
    + now apply (calm_knows D _ _ C1).
Qed.

Lemma condition_ok : forall D w src e s s' x, counts e -> inv s -> ready s -> knows D s ->
  validate_condition w src s e = Pass s' x -> elab D w src (cenv s) e x /\ x_ty x = TBool.
Proof.
  intros D w src e s s' x CE I R K H. unfold validate_condition in H. apply sbind_pass in H as (s1 & y & H1 & H).
  apply sbind_pass in H as (s2 & u & H2 & H). apply bool_calm in H2 as (_ & H2). inversion H; subst.
  split; [|exact H2]. apply (expr_elab D w src e s s1 x); auto. apply (iv_links _ I).
Qed.

Lemma proto_count : forall tok te name ret num ext exp ps, head_written tok te name ret num ext exp ps ->
  N.of_nat (List.length ps) = num.
Proof.
  intros tok te name ret num ext exp ps (mods & po & inner & pc & after & all & _ & _ & _ & _ & _ & _ & _ & _ & EN & EP & _).
  subst ps. rewrite firstn_length_le; [lia|]. rewrite EN.
  assert ((N.of_nat (List.length all) mod 2 ^ 16 <= N.of_nat (List.length all))%N) by (apply N.mod_le; discriminate). lia.
Qed.

Lemma node_ok : forall w src n, node_fine w src n.
Proof.
  intros w src n. induction n as [n IH] using node_ind'. intros before after s s' x F I R H.
  destruct (F n (it_here n [n] (or_introl eq_refl))) as (W & NC & CT).
  apply node_ran in H as (SC & p & c & -> & RN).
  destruct RN as [e s' p T P H|T _|T _ _|name ret num ext exp ps s' p c T P H|name e i c y s' p T P H|e s' p T P H
    |f a m s' y T P H|e s1 y s' c T P NE H1 H|s' c T B NE H|e s1 y s2 c T P NE H1 H|s' k c T H|T].
  - (* return *)
    assert (CH : n_child n = []). { apply leaf_child; [exact SC|]. unfold may_have_child. now rewrite T. }
    pose proof H as HC. apply return_calm in HC as (C & _). split; [now apply calm_inv with s|]. split; [now apply calm_ready with s|].
    split; [now apply calm_grow|]. intros D K. rewrite (calm_cenv _ _ C). apply (calm_knows D _ _ C) in K.
    destruct e as [e|].
    2:{ assert (p = XNone) as ->.
        { unfold validate_stmt_return in H. apply sbind_pass in H as (s1 & u & _ & H). apply rbind_pass in H as ((y, f) & _ & H).
          destruct (negb (ty_eqb (f_ret f) TVoid)); [unwind H|]. apply sbind_pass in H as (? & ? & _ & H). now inversion H. }
        apply so_other; auto; rewrite T; now left. }
    unfold validate_stmt_return in H. apply sbind_pass in H as (s1 & u & H1 & H).
    assert (s1 = s) as ->. { destruct after; [now inversion H1|]. now apply sane_same in H1 as (? & _). }
    apply sbind_pass in H as (s2 & y & H2 & H). apply sbind_pass in H as (s3 & u3 & _ & H).
    apply sbind_pass in H as (s4 & u4 & _ & H). inversion H; subst p. rewrite T. apply so_return with e; auto.
    apply (expr_elab D w src e s s2 y); auto; [|apply (iv_links _ I)]. apply CT. unfold node_expr. now rewrite P.
  - (* unreachable *)
    assert (CH : n_child n = []). { apply leaf_child; [exact SC|]. unfold may_have_child. now rewrite T. }
    split; [easy|]. split; [easy|]. split; [now apply grow_refl|]. intros D K. apply so_other; auto; [|rewrite T; cbn; tauto].
    unfold written in W. rewrite T in W. apply W.
  - (* break, continue *)
    assert (CH : n_child n = []). { apply leaf_child; [exact SC|]. unfold may_have_child. now destruct T as [T|T]; rewrite T. }
    split; [easy|]. split; [easy|]. split; [now apply grow_refl|]. intros D K. apply so_other; auto; [|destruct T as [T|T]; rewrite T; cbn; tauto].
    unfold written in W. destruct T as [T|T]; rewrite T in W; apply W.
  - (* function *)
    unfold written in W. rewrite T in W. destruct W as (name0 & ret0 & num0 & ext0 & exp0 & ps0 & P0 & HW).
    rewrite P in P0. inversion P0; subst name0 ret0 num0 ext0 exp0 ps0. clear P0. apply proto_count in HW.
    unfold validate_stmt_func_decl in H. cbv zeta in H. apply sbind_pass in H as (s1 & (k, l) & H1 & H).
    apply sbind_pass in H as (s2 & c2 & H2 & H). apply sbind_pass in H as (s3 & u & H3 & H). inversion H; subst s' p c. clear H.
    apply setup_pass in H2 as (t1 & t2 & t3 & t4 & E1 & E2 & E3 & E4 & E5).
    assert (SN : same_names s (set_depth s 0)) by (repeat split).
    destruct (func_ok_l src (set_depth s 0) name ret num ext exp ps s1 k l t1 (same_names_inv _ _ SN I) (same_names_ready _ _ SN R) HW H1 E1)
      as (s0 & s1' & i & h & nm & ts & r & I0 & G0 & IS & I4 & R4 & G4 & C0 & NK & _ & PP).
    destruct (body_ok w src (n_child n) s0 s1' t1 t2 t3 t4 s2 i h c2 IH (fine_child n F) I0 IS I4 R4 G4 E2 E3 E4 E5)
      as (e & q & O & I2 & R5 & G2 & K52 & B).
    assert (SN3 : same_names s2 (set_depth s3 (s_depth s))).
    { unfold func_end in H3. apply rbind_pass in H3 as ((y, f) & _ & H3). destruct (f_external f); [inversion H3; subst; repeat split|].
      destruct (negb (returned_value (n_child n)) && _); [discriminate|]. destruct (returned_value (n_child n) && _); [discriminate|].
      destruct (s_last s2); inversion H3; subst; repeat split. }
    pose proof (os_inv _ _ _ _ _ _ _ O) as I5.
    split; [now apply (same_names_inv _ _ SN3)|]. split; [now apply (same_names_ready _ _ SN3)|]. split.
    { apply (same_names_grow_r _ _ _ SN3). apply grow_trans with s0; auto; [|apply (os_grow _ _ _ _ _ _ _ O)].
      now apply (same_names_grow_l _ _ _ SN). }
    intros D K. rewrite (same_names_cenv _ _ SN3), (os_cenv _ _ _ _ _ _ _ O), C0. apply (same_names_knows D _ _ SN3) in K.
    pose proof (K52 D K) as K2. pose proof (grow_knows _ _ _ G2 K2) as K4. destruct (PP D K4) as (P1 & P2 & P3 & P4 & P5).
    rewrite (same_names_cenv _ _ SN) in *. rewrite T. apply so_function with name ret num ext exp ps ts r (cenv t1) (cenv t2); auto.
  - (* definition *)
    assert (CH : n_child n = []). { apply leaf_child; [exact SC|]. unfold may_have_child. now rewrite T. }
    now apply (def_ok w src n name e i c y s s' p).
  - assert (CH : n_child n = []). { apply leaf_child; [exact SC|]. unfold may_have_child. now rewrite T. }
    now apply (assign_ok w src n e s s' p).
  - (* call *)
    pose proof (expr_calm _ _ _ _ _ _ H) as C. split; [now apply calm_inv with s|]. split; [now apply calm_ready with s|].
    split; [now apply calm_grow|]. intros D K. rewrite (calm_cenv _ _ C). apply (calm_knows D _ _ C) in K.
    rewrite (NC T), T. cbn [map]. apply so_call with f a m; auto. apply (expr_elab D w src _ s s' y); auto; [|apply (iv_links _ I)].
    apply CT. unfold node_expr. now rewrite P.
  - (* if, elif *)
    pose proof (condition_calm _ _ _ _ _ _ H1) as C1. pose proof (calm_inv _ _ C1 I) as I1. pose proof (calm_ready _ _ C1 R) as R1.
    destruct (setup_ok w src (n_child n) s1 s' c IH (fine_child n F) I1 R1 H) as (s2 & i & h & e0 & q & O & R5 & B & _).
    pose proof (os_grow _ _ _ _ _ _ _ O) as GO. split; [apply (os_inv _ _ _ _ _ _ _ O)|]. split; [easy|].
    split; [apply grow_trans with s1; auto; now apply calm_grow|]. intros D K.
    rewrite (os_cenv _ _ _ _ _ _ _ O), (calm_cenv _ _ C1). pose proof (grow_knows _ _ _ GO K) as K1. apply (calm_knows D _ _ C1) in K1.
    assert (EL : elab D w src (cenv s) e y /\ x_ty y = TBool).
    { apply (condition_ok D w src e s s1 y); auto. apply CT. unfold node_expr. now rewrite P. }
    destruct EL as (EL & EB). apply so_condition with e (cenv s2); auto.
    + destruct T as [T|(T & _)]; rewrite T; cbn; tauto.
    + rewrite <- (calm_cenv _ _ C1). auto.
  - (* else *)
    destruct (setup_ok w src (n_child n) s s' c IH (fine_child n F) I R H) as (s2 & i & h & e0 & q & O & R5 & BB & _).
    split; [apply (os_inv _ _ _ _ _ _ _ O)|]. split; [easy|]. split; [apply (os_grow _ _ _ _ _ _ _ O)|]. intros D K.
    rewrite (os_cenv _ _ _ _ _ _ _ O). rewrite T. apply so_else with (cenv s2); auto.
  - (* while *)
    set (sd := set_depth s ((s_depth s + 1) mod 2 ^ 32)) in *. assert (SN : same_names s sd) by (repeat split).
    pose proof (same_names_inv _ _ SN I) as Id. pose proof (same_names_ready _ _ SN R) as Rd.
    pose proof (condition_calm _ _ _ _ _ _ H1) as C1. pose proof (calm_inv _ _ C1 Id) as I1. pose proof (calm_ready _ _ C1 Rd) as R1.
    destruct (setup_ok w src (n_child n) s1 s2 c IH (fine_child n F) I1 R1 H) as (s3 & i & h & e0 & q & O & R5 & B & _).
    pose proof (os_grow _ _ _ _ _ _ _ O) as GO. assert (SN2 : same_names s2 (set_depth s2 ((s_depth s2 + 2 ^ 32 - 1) mod 2 ^ 32))) by (repeat split).
    split; [apply (same_names_inv _ _ SN2), (os_inv _ _ _ _ _ _ _ O)|]. split; [now apply (same_names_ready _ _ SN2)|].
    split; [apply (same_names_grow_r _ _ _ SN2), (same_names_grow_l _ _ _ SN); apply grow_trans with s1; auto; now apply calm_grow|].
    intros D K. apply (same_names_knows D _ _ SN2) in K.
    rewrite (same_names_cenv _ _ SN2), (os_cenv _ _ _ _ _ _ _ O), (calm_cenv _ _ C1), (same_names_cenv _ _ SN).
    pose proof (grow_knows _ _ _ GO K) as K1. apply (calm_knows D _ _ C1) in K1.
    assert (EL : elab D w src (cenv sd) e y /\ x_ty y = TBool).
    { apply (condition_ok D w src e sd s1 y); auto. apply CT. unfold node_expr. now rewrite P. }
    rewrite (same_names_cenv _ _ SN) in EL. destruct EL as (EL & EB). apply so_condition with e (cenv s3); auto.
    + rewrite T. cbn. tauto.
    + rewrite <- (same_names_cenv _ _ SN), <- (calm_cenv _ _ C1). auto.
  - (* namespace *)
    unfold validate_control_namespace in H. destruct (n_token n) as [|q [|t r]] eqn:TK; try discriminate.
    apply rbind_pass in H as (nm & HN & H). apply sbind_pass in H as (s1 & k1 & HA & H).
    apply sbind_pass in H as (s2 & c2 & H2 & H). apply add_or_stop_added in HA.
    pose proof (ad_k _ _ _ _ HA) as EK.
    assert (R1 : ready s1) by (apply (added_ready _ _ _ _ HA R); discriminate).
    apply (added_all s s1 k1 _ I) in HA as (I1 & G1 & C1 & Y1 & FR); [|cbn; discriminate]. cbn [y_name] in *.
    destruct (setup_ok w src (n_child n) s1 s2 c2 IH (fine_child n F) I1 R1 H2) as (s3 & i & h & e & m & O & R5 & B & SPC).
    rewrite (os_cur _ _ _ _ _ _ _ O) in H. destruct (os_here _ _ _ _ _ _ _ O) as (ch & EH & LH).
    destruct (os_base _ _ _ _ _ _ _ O) as (cb & EB & LB). destruct (os_stop _ _ _ _ _ _ _ O) as (ce & EE & LE).
    apply rbind_pass in H as (here & HH & H). apply deref_ok in HH. assert (here = ch) by congruence. subst here. rewrite LH in H.
    apply rbind_pass in H as (bef & HB & H). apply deref_ok in HB. assert (bef = cb) by congruence. subst bef. rewrite LB in H.
    apply rbind_pass in H as (ins & HI & H). assert (EK1 : k1 = k) by (now inversion H). rewrite EK1 in *. clear k1 EK1. inversion H; subst s' c2. clear H.
    assert (ins = Some e) as ->.
    { unfold get_last_adjacent_scope in HI. apply bind_ok in HI as (j & HJ & HI). inversion HI; subst ins. f_equal.
      exact (chase_nexts _ _ _ (os_chain _ _ _ _ _ _ _ O) ce _ j EE LE HJ). }
    destruct (SPC k _ None Y1 eq_refl) as (y2 & Y2 & K2). pose proof (os_inv _ _ _ _ _ _ _ O) as I5. pose proof (os_grow _ _ _ _ _ _ _ O) as G5.
    pose proof (iv_cur _ I5) as CU. rewrite (os_cur _ _ _ _ _ _ _ O) in CU. pose proof (os_less _ _ _ _ _ _ _ O) as LS.
    assert (NK : nth_error (s_syms s) k = None) by (apply nth_error_None; lia).
    assert (SK : sig s2 k = None) by (rewrite (sig_at _ _ _ Y2), K2; reflexivity).
    pose proof (grow_trans _ _ _ I I1 G1 G5) as G15.
    assert (GF : grow s (set_kind s2 k (KSpace (Some e)))).
    { destruct G15 as [GS GP GC]. constructor.
      - intros j d E. destruct (Nat.eq_dec j k) as [->|NE]; [|rewrite sig_set_kind by exact NE; now apply GS].
        unfold sig in E. rewrite NK in E. discriminate.
      - intros j z o E KZ. destruct (Nat.eq_dec j k) as [->|NE]; [congruence|]. destruct (GP j z o E KZ) as (z' & EZ & KZ').
        exists z'. cbn. now rewrite nth_upd_other by auto.
      - exact GC. }
    split; [|split; [|split]].
    + apply set_kind_inv; [exact I5|]. intros e1 X. inversion X; subst e1. lia.
    + intros j z f E KZ. cbn in E. apply upd_inv in E as (z0 & E & [(NE & ->)|(-> & ->)]); [now apply (R5 j z0)|discriminate].
    + exact GF.
    + intros D K. assert (KK2 : knows D s2).
      { intros j d E. destruct (Nat.eq_dec j k) as [->|NE]; [congruence|]. apply K. now rewrite sig_set_kind. }
      pose proof (grow_knows _ _ _ GF K) as K0.
      replace (cenv (set_kind s2 k (KSpace (Some e)))) with ((nm, k) :: cenv s).
      * rewrite T, <- TK. apply so_namespace with t q r (cenv s3); auto.
        -- now apply mbs_spells.
        -- apply K. rewrite (sig_at _ _ _ (nth_set_kind s2 k _ _ Y2)). now rewrite <- (os_env _ _ _ _ _ _ _ O).
        -- rewrite <- C1. auto.
      * change (cenv (set_kind s2 k (KSpace (Some e)))) with (cenv s2). now rewrite (os_cenv _ _ _ _ _ _ _ O).
  - (* others *)
    assert (CH : n_child n = []). { apply leaf_child; [exact SC|]. unfold may_have_child. cbn in T. destruct T as [T|[T|[T|[T|[]]]]]; rewrite <- T; reflexivity. }
    split; [easy|]. split; [easy|]. split; [now apply grow_refl|]. intros D K. cbn in T. apply so_other; auto.
    + unfold written in W. destruct T as [T|[T|[T|[T|[]]]]]; rewrite <- T in W; apply W.
    + cbn. tauto.
Qed.

(** * Programs *)

Lemma start_inv : inv setup_semantic_state.
Proof.
  constructor; cbn; auto.
  - intros [|i]; discriminate.
  - discriminate.
  - intros [|i]; discriminate.
  - intros [|[|k]] y e H K; try discriminate. inversion H; subst. discriminate.
Qed.
Lemma start_ready : ready setup_semantic_state.
Proof. intros [|[|k]] y f H K; try discriminate. inversion H; subst. inversion K; subst. reflexivity. Qed.

Lemma shaped_counts : forall ts e, shaped ts e ->
  (forall name args k, part (ECall name args k) e -> (N.of_nat (List.length args) < 2 ^ 16)%N) -> counts e.
Proof.
  intros ts e S H name args n P. pose proof (H _ _ _ P) as LT.
  assert (SP : shaped ts (ECall name args n)).
  { clear H LT. remember (ECall name args n) as c eqn:EC. induction P as [e|x nm ar m p a IN P IH|x o a P IH|x o a b P IH|x o a b P IH]; auto.
    - apply IH; auto. inversion S; subst. eauto.
    - apply IH; auto. inversion S; subst. now apply H0.
    - apply IH; auto. inversion S; subst. now apply H1.
    - apply IH; auto. now inversion S. }
  inversion SP; subst. now apply N.mod_small.
Qed.

Lemma accepted_fine : forall w src ts tree s l, accepted w src ts tree s l -> no_call_blocks tree -> few_arguments tree -> fine tree.
Proof.
  intros w src ts tree s l ((m & HP) & _) NC FA n IN. split; [|split].
  - apply parsed_of in HP as (_ & _ & F & _). destruct (F n IN) as (_ & H & _). exact H.
  - now apply NC.
  - intros e E. apply parse_shaped in HP. specialize (HP n IN). apply shaped_counts with ts.
    + unfold exprs_shaped in HP. now apply HP.
    + intros name args k P. now apply (FA n e name args k).
Qed.

Lemma well_formed_l : forall w src ts tree s l, accepted w src ts tree s l -> no_call_blocks tree -> few_arguments tree ->
  well_formed w src tree l.
Proof.
  intros w src ts tree s l A NC FA. pose proof (accepted_fine _ _ _ _ _ _ A NC FA) as F. apply accepted_walk in A as (s1 & A).
  destruct (walk_fine w src tree) with (before := @nil ntype) (s := setup_semantic_state) (s' := s1) (xs := l) as (I & R & G & B); auto.
  - apply Forall_forall. intros n _. apply node_ok.
  - apply start_inv.
  - apply start_ready.
  - exists (sig s1), (cenv s1). apply B. intros k d E. exact E.
Qed.
