(** Proofs that programs that keep the rules pass the checks: the remaining statements. *)
From Coq Require Import List Arith NArith ZArith Bool Lia Ascii String.
From Verif Require Import Base Model_Token Model_Utf8 Model_Classify Model_Literal Model_Parse Model_Sem.
From Verif Require Import Spec_Utf8 Spec_Classify Spec_Parse Spec_Sem Spec_Sem2 Spec_Accept.
From Verif Require Import Proof_Utf8 Proof_Classify Proof_Classify2 Proof_Parse Proof_Parse2 Proof_Parse4 Proof_Parse5 Proof_Sem Proof_Sem2 Proof_Sem3 Proof_Sem4 Proof_Sem5 Proof_Sem6 Proof_Accept Proof_Accept2 Proof_Accept3.
Import ListNotations.
Open Scope list_scope.
Open Scope nat_scope.

Lemma alias_total : forall P D w src e n name v t q r x b ty s, fine [n] -> n_type n = N_VAR_DEF ->
  n_pay n = PVarDef name v true true false -> n_token n = t :: q :: r -> type_at D src e r ty ->
  (exists t', v = EVar t') \/ (exists o, v = EUn URef o) -> spells src t x -> new_name e x -> D b = Some (DType (Some ty)) ->
  rel P D s e -> inv s ->
  exists s' p, validate_stmt_var_def w src s (n_token n) (n_token_end n) name v true true false = Pass s' p /\
    rel (plus P (List.length (s_syms s)) b) D s' ((x, b) :: e).
Proof.
  intros P D w src e n name v t q r x b ty s F T PY TK TA SH SP NN HD R I.
  destruct (F n (it_here n [n] (or_introl eq_refl))) as (W & _ & _).
  unfold written in W. rewrite T in W. destruct W as (name0 & e0 & i0 & c0 & x0 & P0 & DW).
  rewrite PY in P0. inversion P0; subst name0 e0 i0 c0 x0. clear P0. destruct DW as (mods & E1 & E2 & E3 & E4 & x1 & q1 & r1 & EN & ET & _).
  assert (mods = []) as ->.
  { destruct E2 as [E2|(m & E2 & IM)]; [exact E2|]. exfalso. cbn in IM. destruct IM as [IM|[IM|[]]].
    - assert (X : negb true = true) by (apply E3; eauto). discriminate.
    - assert (X : false = true) by (apply E4; eauto). discriminate. }
  cbn in E1. rewrite TK, EN in E1. inversion E1; subst x1 q1 r1. clear E1.
  unfold validate_stmt_var_def. rewrite ET, TK. rewrite (type_total P D s e src r ty R I TA). cbn [rbind].
  unfold validate_stmt_type_alias. cbn [negb]. cbv zeta.
  replace (match v with EVar _ => true | EUn URef _ => true | _ => false end) with true by (destruct SH as [(t' & ->)|(o & ->)]; reflexivity).
  cbn [negb]. rewrite (type_total P D s e src r ty R I TA). cbn [rbind].
  pose proof (name_not_nil _ (proj1 NN)) as NE. rewrite (spells_mbs src t x SP NE). cbn [rbind].
  destruct (new_absent P D s e x R NN) as (A1 & A2 & A3).
  destruct (add_total s (mksym x (t_loc t) (KAlias (Some ty))) I A1 A2 A3) as (s2 & k & HA & AD). rewrite HA. cbn [sbind].
  exists s2, XAlias. split; [reflexivity|].
  pose proof (ad_k _ _ _ _ AD) as EK. pose proof (added_length _ _ _ _ AD) as LN.
  destruct (added_all s s2 k _ I AD) as (I2 & G2 & C2 & Y2 & _); [cbn; discriminate|]. cbn [y_name] in *.
  rewrite <- EK. apply (rel_new P D s s2 e k b x R); auto.
  - now apply grow_keeps.
  - lia.
  - apply (added_defined _ _ _ _ AD); [exact (rl_vars _ _ _ _ R)|]. cbn. discriminate.
  - intros d HB. rewrite HD in HB. inversion HB; subst d. cbn [says]. rewrite (sig_at _ _ _ Y2). reflexivity.
Qed.

Lemma assign_total : forall P D w src e v t q x k ty y s, spells src t x -> resolves D e x k -> D k = Some (DVar ty true) ->
  elab D w src e v y -> counts v -> in_range w src v -> x_ty y = ty -> (forall t' ty' c, y <> XVar t' k ty' c) ->
  rel P D s e -> inv s -> ready s ->
  exists s' p, validate_stmt_var_assign w src s (t :: q) v = Pass s' p.
Proof.
  intros P D w src e v t q x k ty y s SP RE HD E C RG TY NR R I RD.
  destruct (var_total P D s e src t x k ty true R I SP RE HD) as (k' & vr & F & PK & VT & VC & z & EZ & KZ).
  unfold validate_stmt_var_assign. rewrite F. cbn [sbind]. rewrite VC. cbn [negb]. cbv zeta.
  assert (C1 : calm s (set_kind s k' (KVar (mark_reassigned vr)))).
  { apply calm_kind with z; [easy|]. rewrite KZ. cbn. tauto. }
  set (s1 := set_kind s k' (KVar (mark_reassigned vr))) in *.
  pose proof (calm_rel _ _ _ _ _ C1 R) as R1.
  destruct (expr_total P D w src e v y E C RG s1 R1 (calm_inv _ _ C1 I) (calm_ready _ _ C1 RD)) as (s2 & x2 & H2 & AK).
  rewrite H2. cbn [sbind]. pose proof AK as (TX & SH). unfold is_expr_compatible_with_var. rewrite TX, TY, VT, ty_eqb_refl. cbn [sbind].
  assert (RR : is_redundant_reassign k' x2 s2 = Pass s2 tt).
  { unfold is_redundant_reassign. destruct x2 as [t2 k2 ty2 c2| | | | ]; try reflexivity. destruct (Nat.eqb_spec k' k2) as [->|NE]; [|reflexivity].
    exfalso. destruct y as [ty0 ky tyy cy|? ? ?|? ? ? ?|? ? ? ?|? ? ? ? ?].
    - destruct SH as (k3 & c3 & X & PX). inversion X; subst.
      inversion E as [t0 n0 k0 ty1 m0 c0 SP0 RE0 HD0| | | | | | |]; subst.
      assert (k = ky) by (apply (rl_uni _ _ _ _ R k3 k ky _ _ _ _ PK PX HD HD0)). subst ky. exact (NR ty0 tyy cy eq_refl).
    - discriminate.
    - destruct SH as (? & ? & X). discriminate.
    - destruct SH as (? & ? & X). discriminate.
    - destruct SH as (? & ? & ? & X). discriminate. }
  rewrite RR. cbn [sbind]. eauto.
Qed.

Lemma if_missing : forall wd tok ch s, ch <> [] -> is_missing_block wd tok ch s = Pass s tt.
Proof. intros wd tok [|c l] s H; [congruence|reflexivity]. Qed.

Lemma moved_calm : forall P P' D pl s s1 s' e, calm s s1 -> moved P P' D pl s1 s' e -> moved P P' D pl s s' e.
Proof.
  intros P P' D pl s s1 s' e C [A B M F CU]. constructor; auto.
  - rewrite M. apply (cm_main _ _ C).
  - intro NN. destruct (CU NN) as (X & Y). rewrite X, Y. split; [apply (cm_cur _ _ C)|apply (cm_last _ _ C)].
Qed.

Lemma at_calm : forall pl s s1, calm s s1 -> inv s -> at_place pl s -> at_place pl s1.
Proof.
  intros pl s s1 C I A. pose proof (calm_steady _ _ C) as ST. constructor.
  - rewrite (cm_depth _ _ C). apply (at_depth _ _ A).
  - apply (at_bound _ _ A).
  - apply (steady_func pl pl s s1); auto. apply (at_func _ _ A).
  - rewrite (cm_main _ _ C), (cm_len _ _ C). apply (at_main _ _ A).
  - intro TP. apply (topish_grow s s1 I (calm_grow _ _ C I)). now apply (at_top _ _ A).
Qed.

Lemma at_set_depth : forall pl s d, at_place pl s -> (d < 2 ^ 32)%N -> at_place (mkplace d (p_result pl) (p_top pl) (p_exits pl)) (set_depth s d).
Proof. intros pl s d [A B C DD E] L. constructor; auto. Qed.

Lemma while_total : forall w src l P D pl e e2 v y s tok, w_werror w = false -> Forall (node_total w src) l -> fine l -> l <> [] ->
  elab D w src e v y -> counts v -> in_range w src v -> x_ty y = TBool -> (p_loops pl + 1 < 2 ^ 32)%N ->
  legal_block D w src (in_loop pl) [] e l e2 -> rel P D s e -> inv s -> ready s -> at_place pl s ->
  exists s' x c P', validate_control_while w src (walk (validate_ast_node w src) [] l) s tok v l = Pass s' (x, c) /\ moved P P' D pl s s' e.
Proof.
  intros w src l P D pl e e2 v y s tok W HF F NE E C RG TY LT LB R I RD A. unfold validate_control_while. cbv zeta.
  rewrite (at_depth _ _ A), (N.mod_small _ _ LT). set (sd := set_depth s (p_loops pl + 1)%N).
  assert (SN : same_names s sd) by (repeat split). rewrite (if_missing _ tok l sd NE). cbn [sbind].
  pose proof (same_names_inv _ _ SN I) as Id. pose proof (same_names_ready _ _ SN RD) as Rd. pose proof (rel_same _ _ _ _ _ R SN) as RLd.
  destruct (condition_total P D w src e v y sd W E C RG TY RLd Id Rd) as (s1 & x & H1). rewrite H1. cbn [sbind].
  pose proof (condition_calm _ _ _ _ _ _ H1) as C1. pose proof (at_set_depth pl s _ A LT) as Ad. fold sd in Ad.
  set (pd := mkplace (p_loops pl + 1)%N (p_result pl) (p_top pl) (p_exits pl)) in *.
  destruct (block_total w src l P D pd (in_loop pl) e e2 s1 HF F (calm_inv _ _ C1 Id) (calm_ready _ _ C1 Rd) (calm_rel _ _ _ _ _ C1 RLd)
    (at_calm _ _ _ C1 Id Ad) eq_refl eq_refl eq_refl eq_refl LB) as (s5 & c & P' & H5 & M & D5 & _).
  rewrite H5. cbn [sbind]. eexists. exists x, c, P'. split; [reflexivity|].
  apply (moved_calm _ _ _ _ _ _ _ _ C1) in M. destruct M as [M1 M2 M3 M4 M5]. constructor; auto.
  apply rel_same with s5; [exact M2|repeat split].
Qed.

Lemma space_total : forall w src l P D pl e e2 s t q r x k0 k, Forall (node_total w src) l -> fine l ->
  spells src t x -> new_name e x -> D k0 = None -> legal_block D w src (in_block pl) [] ((x, k0) :: e) l e2 -> D k = Some (DSpace e2) ->
  rel P D s e -> inv s -> ready s -> at_place pl s ->
  exists s' c P', validate_control_namespace src (walk (validate_ast_node w src) [] l) s (q :: t :: r) = Pass s' c /\
    moved P P' D pl s s' ((x, k) :: e).
Proof.
  intros w src l P D pl e e2 s t q r x k0 k HF F SP NN H0 LB HK R I RD A. unfold validate_control_namespace.
  pose proof (name_not_nil _ (proj1 NN)) as NE. rewrite (spells_mbs src t x SP NE). cbn [rbind].
  destruct (new_absent P D s e x R NN) as (A1 & A2 & A3).
  destruct (add_total s (mksym x (t_loc t) (KSpace None)) I A1 A2 A3) as (s1 & kn & HA & AD). rewrite HA. cbn [sbind].
  pose proof (ad_k _ _ _ _ AD) as EK. pose proof (added_length _ _ _ _ AD) as LN. pose proof (added_steady _ _ _ _ AD) as ST1.
  pose proof (ad_depth _ _ _ _ AD) as DE1.
  assert (RD1 : ready s1) by (apply (added_ready _ _ _ _ AD RD); discriminate).
  destruct (added_all s s1 kn _ I AD) as (I1 & G1 & C1 & Y1 & _); [cbn; discriminate|]. cbn [y_name] in *.
  assert (R1 : rel (plus P kn k0) D s1 ((x, k0) :: e)).
  { apply (rel_new P D s s1 e kn k0 x R); auto.
    - now apply grow_keeps.
    - lia.
    - apply (added_defined _ _ _ _ AD); [exact (rl_vars _ _ _ _ R)|]. cbn. discriminate.
    - intros d HB. congruence. }
  assert (AT1 : at_place pl s1).
  { constructor.
    - rewrite DE1. apply (at_depth _ _ A).
    - apply (at_bound _ _ A).
    - apply (steady_func pl pl s s1); auto. apply (at_func _ _ A).
    - pose proof (at_main _ _ A). pose proof (sd_state _ _ ST1) as FS. unfold fstate in FS. assert (s_main s1 = s_main s) by congruence. lia.
    - intro TP. apply (topish_grow s s1 I G1). now apply (at_top _ _ A). }
  destruct (block_total w src l (plus P kn k0) D pl (in_block pl) ((x, k0) :: e) e2 s1 HF F I1 RD1 R1 AT1 eq_refl eq_refl eq_refl eq_refl LB)
    as (s5 & c & P' & H5 & [M1 M2 M3 M4 M5] & _ & _ & s2 & i & h & en & m & O & R2).
  rewrite H5. cbn [sbind]. rewrite (os_cur _ _ _ _ _ _ _ O). destruct (os_here _ _ _ _ _ _ _ O) as (ch & EH & LH).
  destruct (os_base _ _ _ _ _ _ _ O) as (cb & EB & LB'). destruct (os_stop _ _ _ _ _ _ _ O) as (ce & EE & LE).
  unfold deref at 1. rewrite EH. cbn [rbind]. rewrite LH. unfold deref at 1. rewrite EB. cbn [rbind]. rewrite LB'.
  pose proof (os_inv _ _ _ _ _ _ _ O) as I5. pose proof (iv_cur _ I5) as CU. rewrite (os_cur _ _ _ _ _ _ _ O) in CU.
  pose proof (os_less _ _ _ _ _ _ _ O) as LS.
  assert (GL : get_last_adjacent_scope s5 (Some h) = Ok (Some en)).
  { unfold get_last_adjacent_scope. rewrite (chase_next_total _ _ _ (os_chain _ _ _ _ _ _ _ O) ce _ EE LE); [reflexivity|lia]. }
  rewrite GL. cbn [rbind]. eexists. exists (kn, c), (plus P' kn k). split; [reflexivity|].
  destruct (gr_space _ _ (os_grow _ _ _ _ _ _ _ O) kn _ None Y1 eq_refl) as (y5 & Y5 & K5).
  assert (SK : sig s5 kn = None) by (rewrite (sig_at _ _ _ Y5), K5; reflexivity).
  set (sf := set_kind s5 kn (KSpace (Some en))).
  assert (MO : forall a b, P' a b -> plus P' kn k a b) by (intros a b H; now left).
  assert (SF : steady s5 sf).
  { split; [|reflexivity]. apply set_kind_tame. intros z EZ. rewrite Y5 in EZ. inversion EZ; subst z. now rewrite K5. }
  constructor.
  - intros a b H. left. apply M1. now left.
  - pose proof M2 as [B1 B2 B3 B4 B5 B6]. constructor.
    + change (cenv sf) with (cenv s5). rewrite (os_cenv _ _ _ _ _ _ _ O), C1 in B1 |- *. inversion B1 as [|? ? ? ? _ B1']; subst.
      constructor; [split; [reflexivity|now right]|]. now apply (envrel_more P').
    + intros a b d [PA|(-> & ->)] HB.
      * pose proof (B2 a b d PA HB) as SA. destruct (Nat.eq_dec a kn) as [->|NK].
        -- rewrite SK in SA. destruct d; cbn in SA; try discriminate. destruct SA as (? & X & _). discriminate.
        -- unfold sf. rewrite sig_set_kind by exact NK. now apply (says_more P').
      * assert (d = DSpace e2) by congruence. subst d. cbn [says]. exists (cenv s2). split.
        -- unfold sf. rewrite (sig_at _ _ _ (nth_set_kind s5 kn _ _ Y5)). cbn. f_equal. f_equal. apply (os_env _ _ _ _ _ _ _ O).
        -- apply (envrel_more P'); auto. apply (rl_env _ _ _ _ R2).
    + intros a b [PA|(-> & ->)]; unfold sf; cbn; rewrite upd_length; [now apply (B3 a b)|]. apply nth_error_Some. congruence.
    + intros a b c0 t0 m0 t' m' [P1|(E1 & F1)] [P2|(E2 & F2)] H1 H2; try congruence. now apply (B4 a b c0 t0 m0 t' m').
    + constructor; [exact NE|]. now inversion B5.
    + intros j z v EZ KZ. unfold sf in EZ. cbn in EZ. apply upd_inv in EZ as (z0 & EZ & [(NK & ->)|(-> & ->)]); [now apply (B6 j z0)|discriminate].
  - change (s_main sf) with (s_main s5). rewrite M3. apply (ad_main _ _ _ _ AD).
  - apply (steady_func pl pl s5 sf); auto.
  - intro PR. destruct (M5 PR) as (X1 & X2). change (s_cur sf) with (s_cur s5). change (s_last sf) with (s_last s5). rewrite X1, X2.
    split; [apply (ad_cur _ _ _ _ AD)|apply (ad_last _ _ _ _ AD)].
Qed.

Lemma func_total : forall w src l P D pl e s name ret num ext exp ps ts r x kb e1 e2, Forall (node_total w src) l -> fine l ->
  N.of_nat (List.length ps) = num -> p_result pl = None -> (ext || exp = true -> p_top pl = true) ->
  (ext = true -> p_exits pl = true -> r = TInt \/ r = TVoid) -> (ext = false -> r <> TVoid -> ends_with_value l) ->
  ret = [] /\ r = TVoid \/ type_at D src e ret r -> spells src name x -> new_name e x -> D kb = Some (DFun ts r) ->
  legal_params D src ((x, kb) :: e) ps ts e1 -> legal_block D w src (in_function r pl) [] e1 l e2 ->
  rel P D s e -> inv s -> ready s -> at_place pl s ->
  exists s' p P', validate_stmt_func_decl src (walk (validate_ast_node w src) [] l) s name ret num ext exp ps l = Pass s' p /\
    moved P P' D pl s s' ((x, kb) :: e).
Proof.
  intros w src l P D pl e s name ret num ext exp ps ts r x kb e1 e2 HF F LP PR TOP EX EV RET SP NN HD LG LB R I RD A.
  unfold validate_stmt_func_decl. cbv zeta. set (sd := set_depth s 0%N). assert (SN : same_names s sd) by (repeat split).
  pose proof (same_names_inv _ _ SN I) as Id. pose proof (same_names_ready _ _ SN RD) as Rd. pose proof (rel_same _ _ _ _ _ R SN) as RLd.
  assert (TOPd : ext || exp = true -> topish sd) by (intro X; apply (at_top _ _ A); now apply TOP).
  destruct (func_head_total src P D sd e name ret num ext exp ps ts r x kb e1 RLd Id Rd LP TOPd RET SP NN HD LG)
    as (sH & ls & s4 & P1 & HH & HC & MO & PK & R4 & T4 & D4 & FS4 & z & f & EZ & KZ & FR & FE).
  cbv zeta in HH. rewrite HH. cbn [sbind]. set (k := List.length (s_syms sd)) in *.
  destruct (func_ok_l src sd name ret num ext exp ps sH k ls s4 Id Rd LP HH HC)
    as (s0 & s1 & i & h & nm & ts' & r' & I0 & G0 & IS & I4 & RD4 & G4 & C0 & NK & _ & PP).
  destruct (PP (sig s4) (fun a b E => E)) as (_ & SPn & _). pose proof (spells_one _ _ _ _ SP SPn) as EN. subst nm. clear PP.
  assert (KM : k <> s_main s). { pose proof (at_main _ _ A). unfold k. change (s_syms sd) with (s_syms s). lia. }
  unfold fstate in FS4. change (s_main sd) with (s_main s) in FS4. change (s_cur sd) with (s_cur s) in FS4. assert (F1 : s_main s4 = s_main s) by congruence. assert (F2 : s_cur s4 = k) by congruence.
  assert (F3 : s_last s4 = Some (s_cur s)) by congruence.
  assert (A4 : at_place (in_function r pl) s4).
  { constructor.
    - rewrite D4. reflexivity.
    - cbn. lia.
    - exists z, f. rewrite F2. split; [exact EZ|]. split; [exact KZ|]. unfold func_fits. cbn. rewrite F1, F2. auto.
    - rewrite F1. pose proof (at_main _ _ A). pose proof (tame_length _ _ T4). change (s_syms sd) with (s_syms s) in *. lia.
    - discriminate. }
  destruct (body_total w src l P1 D (in_function r pl) e1 e2 s0 s1 s4 i h HF F I0 IS I4 RD4 G4 R4 A4 LB)
    as (s2 & s3 & s3' & s5 & c & P' & H2 & H3 & H4 & H5 & [M1 M2 M3 M4 M5] & ST5 & DE5 & (en & m & O) & RD5 & T2 & DE2).
  unfold setup_and_validate. rewrite HC. cbn [rbind]. rewrite H2. cbn [sbind]. rewrite H3. cbn [rbind]. rewrite H4. cbn [rbind]. rewrite H5. cbn [rbind sbind].
  destruct M5 as (C2 & L2); [cbn; discriminate|]. pose proof (sd_state _ _ ST5) as FS5. unfold fstate in FS5.
  assert (C5 : s_cur s5 = k) by congruence. assert (L5 : s_last s5 = Some (s_cur s)) by congruence. assert (MN5 : s_main s5 = s_main s) by congruence.
  assert (T45 : tame s4 s5) by (apply tame_trans with s2; [exact T2|apply (sd_tame _ _ ST5)]).
  destruct (tame_func _ _ _ _ _ T45 EZ KZ) as (z5 & f5 & EZ5 & KZ5 & FR5 & FE5).
  assert (RL : rel P' D s5 ((x, kb) :: e)).
  { pose proof M2 as [B1 B2 B3 B4 B5 B6]. constructor; auto.
    - rewrite (os_cenv _ _ _ _ _ _ _ O), C0. constructor; [split; [reflexivity|apply M1; exact PK]|].
      apply (envrel_more P); [auto|]. change (cenv sd) with (cenv s). apply (rl_env _ _ _ _ R).
    - intros a b d PA HB. rewrite (os_sig _ _ _ _ _ _ _ O). now apply (B2 a b).
    - rewrite (os_syms _ _ _ _ _ _ _ O). exact B3.
    - constructor; [apply name_not_nil, NN|apply (rl_names _ _ _ _ R)].
    - rewrite (os_syms _ _ _ _ _ _ _ O). exact B6. }
  unfold func_end, current_func, deref. rewrite C5, EZ5. cbn [bind]. rewrite KZ5. cbn [rbind].
  rewrite FE5, FE, FR5, FR. destruct ext.
  - cbn [sbind]. eexists. eexists. exists P'. split; [reflexivity|]. constructor.
    + auto.
    + apply rel_same with s5; [exact RL|repeat split].
    + exact MN5.
    + exists z5, f5. cbn. rewrite C5. split; [exact EZ5|]. split; [exact KZ5|]. unfold func_fits. rewrite PR. rewrite FR5, FR. auto.
    + congruence.
  - rewrite (returned_total D w src (in_function r pl) r [] e1 l e2 LB eq_refl (EV eq_refl)).
    assert (X1 : negb (negb (ty_eqb r TVoid)) && negb (ty_eqb r TVoid) = false) by (destruct (ty_eqb r TVoid); reflexivity).
    assert (X2 : negb (ty_eqb r TVoid) && ty_eqb r TVoid = false) by (destruct (ty_eqb r TVoid); reflexivity).
    rewrite X1, X2, L5. cbn [sbind]. eexists. eexists. exists P'. split; [reflexivity|]. constructor.
    + auto.
    + apply rel_same with s5; [exact RL|repeat split].
    + exact MN5.
    + destruct (at_func _ _ A) as (zo & fo & EO & KO & FO). assert (TS : tame s s5) by (apply tame_trans with s4; [exact T4|exact T45]).
      destruct (tame_func _ _ _ _ _ TS EO KO) as (zn & fn & EN & KN & RN & _). exists zn, fn. cbn. split; [exact EN|]. split; [exact KN|].
      unfold func_fits in *. rewrite PR in *. now rewrite RN.
    + congruence.
Qed.

(** * All statements *)

Lemma node_eta : forall n, n = mknode (n_type n) (n_token n) (n_token_end n) (n_pay n) (n_child n).
Proof. now destruct n. Qed.

Lemma node_runs : forall w src b a n s s' p c, n_child n = [] \/ may_have_child n = true ->
  validate_by_type w src (walk (validate_ast_node w src) [] (n_child n)) b a n s = Pass s' (p, c) ->
  validate_ast_node w src b a n s = Pass s' (mktnode (n_type n) (n_token n) p c).
Proof.
  intros w src b a [ty tok te pay ch] s s' p c S H. cbn [n_type n_token n_child] in *. cbn [validate_ast_node].
  assert (A : assert_sane_child (mknode ty tok te pay ch) s = Pass s tt).
  { unfold assert_sane_child. cbn [n_child]. destruct ch as [|z ch]; [reflexivity|]. destruct S as [S|S]; [discriminate|]. now rewrite S. }
  rewrite A. cbn [sbind]. rewrite H. reflexivity.
Qed.

Lemma node_all : forall w src, w_werror w = false -> forall n, node_total w src n.
Proof.
  intros w src W n. induction n as [n IH] using node_ind'. intros P D pl b e a e' s LS F R I RD A.
  pose proof (fine_child n F) as FC.
  inversion LS as
    [ pl0 b0 e0 n0 a0 name rest v implicit const exported y x k q r T CH PY TE NT EL RG NV TY SP NN HD
    | pl0 b0 e0 n0 a0 name v t q r x k ty T CH PY TK TA SH SP NN HD
    | pl0 b0 e0 n0 a0 v t q x k ty y T CH PY TK SP RE HD EL RG TY NR
    | pl0 b0 e0 n0 a0 f l m y T CH PY EL RG
    | pl0 b0 e0 n0 a0 v y r T CH PY EL RG NA PR RV TY
    | pl0 b0 e0 n0 a0 v y T CH PY EL RG NA PR PE TY
    | pl0 b0 e0 n0 a0 T CH PY NA PR
    | pl0 b0 e0 n0 a0 T CH NA
    | pl0 b0 e0 n0 a0 T CH NA PL
    | pl0 b0 e0 n0 a0 v y e2 T PY CH EL RG TY LB
    | pl0 b0 e0 n0 a0 e2 T FI CH LB
    | pl0 b0 e0 n0 a0 v y e2 T PY CH EL RG TY LT LB
    | pl0 b0 e0 n0 a0 name ret num exp ps ts r x k e1 e2 T PY PR TOP RET SP NN HD LG LB EV
    | pl0 b0 e0 n0 a0 name ret num exp ps ts r x k e1 T CH PY PR TOP RET EX SP NN HD LG
    | pl0 b0 e0 n0 a0 t q r x k0 k e2 T TK SP NN HD0 LB HD
    | pl0 b0 e0 n0 a0 q t r x T CH TK SP NX MW
    | pl0 b0 e0 n0 a0 T CH ]; subst pl0 b0 e0 n0 a0.
  - (* definition *)
    assert (CT : counts v) by (apply (node_counts n v F); unfold node_expr; now rewrite PY).
    destruct (def_total P D w src e n name rest v implicit const exported y x k q r s W TE NT EL CT RG NV TY SP NN HD R I RD) as (s' & p & H & R').
    exists s', (mktnode (n_type n) (n_token n) p []), (plus P (List.length (s_syms s)) k). split.
    + apply node_runs; [now left|]. unfold validate_by_type. rewrite T, PY, H. reflexivity.
    + pose proof (var_def_steady _ _ _ _ _ _ _ _ _ _ _ _ H) as ST.
      pose proof (sd_state _ _ ST) as FS. unfold fstate in FS. constructor; auto.
      * intros i j HP. now left.
      * congruence.
      * apply (steady_func pl pl s s'); auto. apply (at_func _ _ A).
      * intros _. split; congruence.
  - (* alias *)
    destruct (alias_total P D w src e n name v t q r x k ty s F T PY TK TA SH SP NN HD R I) as (s' & p & H & R').
    exists s', (mktnode (n_type n) (n_token n) p []), (plus P (List.length (s_syms s)) k). split.
    + apply node_runs; [now left|]. unfold validate_by_type. rewrite T, PY, H. reflexivity.
    + pose proof (var_def_steady _ _ _ _ _ _ _ _ _ _ _ _ H) as ST.
      pose proof (sd_state _ _ ST) as FS. unfold fstate in FS. constructor; auto.
      * intros i j HP. now left.
      * congruence.
      * apply (steady_func pl pl s s'); auto. apply (at_func _ _ A).
      * intros _. split; congruence.
  - (* assignment *)
    assert (CT : counts v) by (apply (node_counts n v F); unfold node_expr; now rewrite PY). subst e'.
    destruct (assign_total P D w src e v t q x k ty y s SP RE HD EL CT RG TY NR R I RD) as (s' & p & H).
    pose proof (var_assign_calm _ _ _ _ _ _ _ H) as C.
    exists s', (mktnode (n_type n) (n_token n) p []), P. split.
    + apply node_runs; [now left|]. unfold validate_by_type. rewrite T, PY, TK, H. reflexivity.
    + apply stay; [now apply (calm_rel _ _ s)|now apply calm_steady|exact A].
  - (* call *)
    assert (CT : counts (ECall f l m)) by (apply (node_counts n _ F); unfold node_expr; now rewrite PY). subst e'.
    destruct (expr_total P D w src e _ y EL CT RG s R I RD) as (s' & x & H & _). pose proof (expr_calm _ _ _ _ _ _ H) as C.
    exists s', (mktnode (n_type n) (n_token n) (XExpr x) (map untouched (n_child n))), P. split.
    + apply node_runs; [now left|]. unfold validate_by_type. rewrite T, PY. unfold validate_expr_func. rewrite H. reflexivity.
    + apply stay; [now apply (calm_rel _ _ s)|now apply calm_steady|exact A].
  - (* return in a function *)
    assert (CT : counts v) by (apply (node_counts n v F); unfold node_expr; now rewrite PY). subst e'.
    destruct (return_total P D w src e v y s (n_token n) a pl EL CT RG NA R I RD A) as (s' & x & H); [now rewrite PR|].
    destruct (return_calm _ _ _ _ _ _ _ _ H) as (C & _).
    exists s', (mktnode (n_type n) (n_token n) (XExpr x) []), P. split.
    + apply node_runs; [now left|]. unfold validate_by_type. rewrite T, PY, H. reflexivity.
    + apply stay; [now apply (calm_rel _ _ s)|now apply calm_steady|exact A].
  - (* return in the main program *)
    assert (CT : counts v) by (apply (node_counts n v F); unfold node_expr; now rewrite PY). subst e'.
    destruct (return_total P D w src e v y s (n_token n) a pl EL CT RG NA R I RD A) as (s' & x & H); [rewrite PR; auto|].
    destruct (return_calm _ _ _ _ _ _ _ _ H) as (C & _).
    exists s', (mktnode (n_type n) (n_token n) (XExpr x) []), P. split.
    + apply node_runs; [now left|]. unfold validate_by_type. rewrite T, PY, H. reflexivity.
    + apply stay; [now apply (calm_rel _ _ s)|now apply calm_steady|exact A].
  - (* return without a value *)
    subst e'. exists s, (mktnode (n_type n) (n_token n) XNone []), P. split; [|apply stay; [exact R|apply steady_refl|exact A]].
    apply node_runs; [now left|]. unfold validate_by_type. rewrite T, PY. unfold validate_stmt_return.
    rewrite (nothing_sane a s NA). cbn [sbind]. destruct (at_func _ _ A) as (z & f & EZ & KZ & FF). unfold func_fits in FF. rewrite PR in FF.
    unfold current_func, deref. rewrite EZ. cbn [bind]. rewrite KZ. cbn [rbind]. rewrite (proj1 FF). cbn [ty_eqb negb].
    now rewrite (nothing_dead a s NA).
  - (* unreachable *)
    subst e'. exists s, (mktnode (n_type n) (n_token n) XNone []), P. split; [|apply stay; [exact R|apply steady_refl|exact A]].
    apply node_runs; [now left|]. unfold validate_by_type. rewrite T. now rewrite (nothing_dead a s NA).
  - (* break, continue *)
    subst e'. exists s, (mktnode (n_type n) (n_token n) XNone []), P. split; [|apply stay; [exact R|apply steady_refl|exact A]].
    apply node_runs; [now left|]. unfold validate_by_type. rewrite <- (at_depth _ _ A) in PL. apply N.ltb_lt in PL.
    destruct T as [T|T]; rewrite T, PL; now rewrite (nothing_dead a s NA).
  - (* if, elif *)
    assert (CT : counts v) by (apply (node_counts n v F); unfold node_expr; now rewrite PY). subst e'.
    destruct (condition_total P D w src e v y s W EL CT RG TY R I RD) as (s1 & x & H1).
    pose proof (condition_calm _ _ _ _ _ _ H1) as C1.
    destruct (block_total w src (n_child n) P D pl (in_block pl) e e2 s1 IH FC (calm_inv _ _ C1 I) (calm_ready _ _ C1 RD) (calm_rel _ _ _ _ _ C1 R)
      (at_calm _ _ _ C1 I A) eq_refl eq_refl eq_refl eq_refl LB) as (s5 & c & P' & H5 & M & _).
    exists s5, (mktnode (n_type n) (n_token n) (XExpr x) c), P'. split; [|now apply (moved_calm _ _ _ _ _ s1)].
    apply node_runs; [right; unfold may_have_child; now destruct T as [T|(T & _)]; rewrite T|]. unfold validate_by_type.
    destruct T as [T|(T & FI)]; rewrite T, PY, (if_missing _ _ _ s CH); cbn [sbind].
    + rewrite H1. cbn [sbind]. now rewrite H5.
    + unfold validate_control_not_missing_if. rewrite (follows_has b FI). cbn [sbind]. rewrite H1. cbn [sbind]. now rewrite H5.
  - (* else *)
    subst e'. destruct (block_total w src (n_child n) P D pl (in_block pl) e e2 s IH FC I RD R A eq_refl eq_refl eq_refl eq_refl LB) as (s5 & c & P' & H5 & M & _).
    exists s5, (mktnode (n_type n) (n_token n) XNone c), P'. split; [|exact M].
    apply node_runs; [right; unfold may_have_child; now rewrite T|]. unfold validate_by_type, validate_control_not_missing_if.
    rewrite T, (follows_has b FI). cbn [sbind]. rewrite (if_missing _ _ _ s CH). cbn [sbind]. now rewrite H5.
  - (* while *)
    assert (CT : counts v) by (apply (node_counts n v F); unfold node_expr; now rewrite PY). subst e'.
    destruct (while_total w src (n_child n) P D pl e e2 v y s (n_token n) W IH FC CH EL CT RG TY LT LB R I RD A) as (s' & x & c & P' & H & M).
    exists s', (mktnode (n_type n) (n_token n) (XExpr x) c), P'. split; [|exact M].
    apply node_runs; [right; unfold may_have_child; now rewrite T|]. unfold validate_by_type. rewrite T, PY, H. reflexivity.
  - (* function *)
    assert (LP : N.of_nat (List.length ps) = num).
    { destruct (F n (it_here n [n] (or_introl eq_refl))) as (WR & _). unfold written in WR. rewrite T in WR.
      destruct WR as (name0 & ret0 & num0 & ext0 & exp0 & ps0 & P0 & HW). rewrite PY in P0. inversion P0; subst name0 ret0 num0 ext0 exp0 ps0.
      now apply proto_count in HW. }
    destruct (func_total w src (n_child n) P D pl e s name ret num false exp ps ts r x k e1 e2 IH FC LP PR TOP) as (s' & p & P' & H & M); auto; [discriminate|].
    destruct p as (p, c). exists s', (mktnode (n_type n) (n_token n) p c), P'. split; [|exact M].
    apply node_runs; [right; unfold may_have_child; now rewrite T|]. unfold validate_by_type. rewrite T, PY. exact H.
  - (* external function *)
    assert (LP : N.of_nat (List.length ps) = num).
    { destruct (F n (it_here n [n] (or_introl eq_refl))) as (WR & _). unfold written in WR. rewrite T in WR.
      destruct WR as (name0 & ret0 & num0 & ext0 & exp0 & ps0 & P0 & HW). rewrite PY in P0. inversion P0; subst name0 ret0 num0 ext0 exp0 ps0.
      now apply proto_count in HW. }
    destruct (func_total w src (n_child n) P D pl e s name ret num true exp ps ts r x k e1 e1 IH FC LP PR (fun _ => TOP)) as (s' & p & P' & H & M); auto.
    + discriminate.
    + rewrite CH. constructor.
    + destruct p as (p, c). exists s', (mktnode (n_type n) (n_token n) p c), P'. split; [|exact M].
      apply node_runs; [now left|]. unfold validate_by_type. rewrite T, PY. exact H.
  - (* namespace *)
    destruct (space_total w src (n_child n) P D pl e e2 s t q r x k0 k IH FC SP NN HD0 LB HD R I RD A) as (s' & (kk, c) & P' & H & M).
    exists s', (mktnode (n_type n) (n_token n) (XSpace kk) c), P'. split; [|exact M].
    apply node_runs; [right; unfold may_have_child; now rewrite T|]. unfold validate_by_type. rewrite T, TK, H. reflexivity.
  - (* import *)
    subst e'. exists s, (mktnode (n_type n) (n_token n) XNone []), P. split; [|apply stay; [exact R|apply steady_refl|exact A]].
    apply node_runs; [now left|]. unfold validate_by_type. rewrite T, TK. unfold validate_stmt_import.
    rewrite (spells_mbs src t x SP (name_not_nil _ NX)). cbn [rbind]. now rewrite MW.
  - (* idle *)
    subst e'. exists s, (mktnode (n_type n) (n_token n) XNone []), P. split; [|apply stay; [exact R|apply steady_refl|exact A]].
    apply node_runs; [now left|]. unfold validate_by_type. destruct T as [T|[T|T]]; now rewrite T.
Qed.
