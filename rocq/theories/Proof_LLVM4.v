(** Statements: what definitions, assignments, calls and blocks do to memory. *)
From Coq Require Import List Arith NArith ZArith Bool Lia.
From Verif Require Import Base Model_Literal Model_Parse Model_Sem Spec_Sem Spec_Sem2 Spec_Run Model_Helpers Proof_Helpers Spec_IR Model_LLVM Spec_LLVM Proof_LLVM Proof_LLVM2 Proof_LLVM3.
Import ListNotations.
Open Scope list_scope.
Open Scope nat_scope.

Section Sim.
Variable H : host.
Variable fold : iop -> operand H -> operand H -> option (operand H).
Variable ys : list symbol.
Variable debug : bool.
Variable M : module H.
Variable R : nat -> option (ref H).
Hypothesis INJ : forall k k' i l l', R k = Some (mkref H (OGlob i) true l) -> R k' = Some (mkref H (OGlob i) true l') -> k = k'.
Local Notation gst := (gst H).
Local Notation val := (sv (h_float H)).
Local Notation sym_var := (sym_var ys).
Local Notation sym_func := (sym_func ys).
Local Notation gen_expr := (gen_expr H fold ys).
Local Notation typed := (typed ys).
Local Notation const := (const ys).
Local Notation grow := (grow H).
Local Notation in_range := (in_range H).
Local Notation here := (here H).
Local Notation blocks := (g_blocks H).
Local Notation count g := (List.length (g_blocks H g)).
Local Notation run := (run H M).
Local Notation gens := (gens H fold ys debug).
Local Notation eval := (eval H ys (exact1 H) (exact2 H)).
Local Notation evals := (evals H ys (exact1 H) (exact2 H)).
Local Notation exec := (exec H ys (exact1 H) (exact2 H)).
Local Notation tv := (tv H).
Local Notation mem := (mem H).
Local Notation below := (below H M R).
Local Notation rest := (rest H M).
Local Notation back := (back H M).
Local Notation agree := (agree H).
Local Notation frame := (frame H).
Local Notation bounded := (bounded H).
Local Notation inv := (inv H fold ys debug M R).
Local Notation declared := (declared H fold ys debug M R).

(** The function that the generator is in is the function that is running. *)
Definition level (s : rst H) (g : gst) : Prop := r_loc H s = None <-> g_func H g = None.

Definition defs (f : option nat) (l : list tnode) : list nat :=
  match f with None => flat_map (mut_defs ys) l | Some _ => [] end.
Lemma defs_cons : forall f n r, defs f (n :: r) = defs f [n] ++ defs f r.
Proof. intros [k|] n r; [reflexivity|]. cbn [defs flat_map]. now rewrite app_nil_r. Qed.

Lemma const_var : forall k v, sym_var k = Ok v -> const k = v_const v.
Proof. intros k v E. unfold Proof_LLVM.const. now rewrite E. Qed.
Lemma mutable_const : forall k v, sym_var k = Ok v -> mutable ys k = negb (v_const v).
Proof.
  intros k v E. unfold Model_LLVM.sym_var in E. apply bind_ok in E as (y & E & F). unfold deref in E. unfold mutable.
  destruct (nth_error ys k) as [y'|]; [|discriminate E]. inversion E; subst y'. destruct (y_kind y); try discriminate F. now inversion F.
Qed.

(** * Definitions and assignments *)

Lemma constant_is : forall args regs o v, is_constant H o = true -> operand_value H args regs o = Some (V v) -> constant_value H o = V v.
Proof. intros args regs [w|r|i|n] v C E; cbn in *; try discriminate C; congruence. Qed.

Lemma define_sim : forall n k e o g g2 vr Y X s args regs m base out v, setup_var_llvm H ys o k g = Ok g2 -> sym_var k = Ok vr ->
  lookup (g_refs H g) k = None -> in_range g -> below g2 -> level s g -> tn_type n = N_VAR_DEF -> tn_pay n = XDef k e -> tn_child n = [] ->
  Y = defs (g_func H g) [n] ++ X -> inv Y s args regs m base (g_reg H g) -> operand_value H args regs o = Some (V v) -> bounded (g_reg H g) o ->
  exists regs' m', frame base m m' /\ agree (g_reg H g) regs regs' /\ inv X (define H s k v) args regs' m' base (g_reg H g2) /\
    back args regs m out (rest g) regs' m' out (rest g2).
Proof.
  intros n k e o g g2 vr Y X s args regs m base out v E SV FR L B LV TN TP TC EY I VO BO.
  assert (EL : r_loc H s = None /\ g_func H g = None \/ exists f, r_loc H s = Some f /\ g_func H g <> None).
  { destruct (r_loc H s) as [f|] eqn:F; [right; exists f; split; auto|left; split; auto; now apply LV].
    intro G. apply LV in G. congruence. }
  pose proof (const_var _ _ SV) as CV.
  assert (YM : g_func H g = None -> v_const vr = false -> Y = k :: X).
  { intros F C. subst Y. rewrite F. destruct n as [t tk p c]. cbn in TN, TP, TC. subst t p c. cbn [defs flat_map mut_defs app]. rewrite (mutable_const _ _ SV), C. reflexivity. }
  assert (YC : v_const vr = true -> Y = X).
  { intros C. subst Y. destruct (g_func H g); [reflexivity|]. destruct n as [t tk p c]. cbn in TN, TP, TC. subst t p c. cbn [defs flat_map mut_defs app]. rewrite (mutable_const _ _ SV), C. reflexivity. }
  assert (KX : g_func H g = None -> ~ In k X).
  { intros F IN. destruct (v_const vr) eqn:C.
    - rewrite <- (YC eq_refl) in IN. destruct (iv_wait _ _ _ _ _ _ _ _ _ _ _ _ _ I k IN) as (CF & _). congruence.
    - pose proof (iv_nodup _ _ _ _ _ _ _ _ _ _ _ _ _ I) as ND. rewrite (YM F eq_refl) in ND. now inversion ND. }
  assert (XW : forall j, In j X -> In j Y) by (intros j J; subst Y; apply in_or_app; now right).
  assert (XN : NoDup X). { subst Y. pose proof (iv_nodup _ _ _ _ _ _ _ _ _ _ _ _ _ I) as ND. clear - ND. induction (defs (g_func H g) [n]) as [|y l IH]; [exact ND|]. inversion ND; subst. auto. }
  destruct I as [A1 A2 A3 A4 A5 A6 A7 A8 A9].
  destruct (setup_cases _ _ _ _ _ _ _ SV E) as [(GF & CO & init & _ & EG)|[(GF & CO & init & _ & EG)|[(GF & CC & EG)|(GF & CC & EG)]]].
  - (* a global variable with a constant *)
    destruct EL as [(RL & _)|(f & _ & NF)]; [|contradiction].
    assert (ER : R k = Some (mkref H (OGlob (List.length (g_glob H g))) true true)).
    { apply (bl_refs _ _ _ _ B). rewrite EG. cbn [set_ref g_refs lookup]. now rewrite Nat.eqb_refl. }
    assert (EI : nth (List.length (g_glob H g)) (m_init H M) Poison = V v).
    { destruct (bl_glob _ _ _ _ B) as (l & EM). rewrite EG in EM. cbn [set_ref set_globs g_glob] in EM. rewrite EM, <- app_assoc.
      rewrite app_nth2, Nat.sub_diag by lia. cbn [app nth]. eapply constant_is; eauto. }
    assert (EM : m_glob H m (List.length (g_glob H g)) = V v).
    { rewrite <- EI. destruct (v_const vr) eqn:C; [now apply (A2 k)|]. apply (A3 k); [rewrite (YM GF eq_refl); now left|exact ER]. }
    exists regs, m. split; [apply frame_refl|]. split; [apply agree_refl|]. split; [|rewrite EG; apply back_refl].
    assert (EQ : g_reg H g2 = g_reg H g) by (rewrite EG; reflexivity). rewrite EQ. unfold define. rewrite RL.
    constructor; auto.
    + intros j w EJ. cbn [set_glob r_glob] in EJ. unfold put in EJ. destruct (j =? k) eqn:JK; [|now apply A1]. apply Nat.eqb_eq in JK. subst j. inversion EJ; subst w. eauto.
    + intros j IN. destruct (A3 j (XW j IN)) as (C1 & C2 & C3). split; [exact C1|split; [|exact C3]]. cbn [set_glob r_glob]. unfold put.
      destruct (j =? k) eqn:JK; [|exact C2]. apply Nat.eqb_eq in JK. subst j. now apply KX in GF.
  - (* a global variable with a computed value *)
    destruct EL as [(RL & _)|(f & _ & NF)]; [|contradiction].
    set (i := List.length (g_glob H g)) in *.
    assert (ER : R k = Some (mkref H (OGlob i) true false)).
    { apply (bl_refs _ _ _ _ B). rewrite EG. cbn [emit set_blocks set_ref g_refs lookup]. now rewrite Nat.eqb_refl. }
    exists regs, (mkmem H (fun j => if j =? i then V v else m_glob H m j) (m_cells H m)). split; [split; auto|]. split; [apply agree_refl|].
    assert (EQ : g_reg H g2 = g_reg H g) by (rewrite EG; reflexivity). rewrite EQ. unfold define. rewrite RL. split.
    + constructor; auto; cbn [m_glob].
      * intros j w EJ. cbn [set_glob r_glob] in EJ. unfold put in EJ. destruct (j =? k) eqn:JK.
        -- apply Nat.eqb_eq in JK. subst j. inversion EJ; subst w. exists i, false. rewrite Nat.eqb_refl. auto.
        -- destruct (A1 j w EJ) as (i' & l & B1 & B2). exists i', l. split; [exact B1|]. destruct (i' =? i) eqn:II; [|exact B2].
           apply Nat.eqb_eq in II. subst i'. apply Nat.eqb_neq in JK. elim JK. eapply INJ; eauto.
      * intros j i' C EJ. destruct (i' =? i) eqn:II; [|now apply (A2 j)]. apply Nat.eqb_eq in II. subst i'.
        pose proof (INJ _ _ _ _ _ ER EJ) as JK. subst j. congruence.
      * intros j IN. destruct (A3 j (XW j IN)) as (C1 & C2 & C3). split; [exact C1|split].
        -- cbn [set_glob r_glob]. unfold put. destruct (j =? k) eqn:JK; [|exact C2]. apply Nat.eqb_eq in JK. subst j. now apply KX in GF.
        -- intros i' EJ. destruct (i' =? i) eqn:II; [|now apply C3]. apply Nat.eqb_eq in II. subst i'.
           pose proof (INJ _ _ _ _ _ ER EJ) as JK. subst j. congruence.
    + intros x mf outf HR. rewrite EG in B, HR.
      match type of HR with context [Proof_LLVM3.rest _ _ (emit _ ?g' ?i)] => change (rest g) with (rest g'); rewrite (rest_emit _ _ _ g' i B L) end.
      eapply ru_store; [exact VO|reflexivity|reflexivity|exact HR].
  - (* a constant of a function *)
    destruct EL as [(_ & NF)|(f & RL & NF)]; [contradiction|].
    assert (ER : R k = Some (mkref H o false (is_constant H o))).
    { apply (bl_refs _ _ _ _ B). rewrite EG. cbn [set_ref g_refs lookup]. now rewrite Nat.eqb_refl. }
    exists regs, m. split; [apply frame_refl|]. split; [apply agree_refl|]. split; [|rewrite EG; apply back_refl].
    assert (EQ : g_reg H g2 = g_reg H g) by (rewrite EG; reflexivity). rewrite EQ. unfold define. rewrite RL.
    assert (LOC : forall j w, local H (set_loc H s f k v) j = Some w -> j = k /\ w = v \/ j <> k /\ local H s j = Some w).
    { intros j w EJ. unfold local in *. cbn [set_loc r_loc] in EJ. unfold put in EJ. destruct (j =? k) eqn:JK.
      - apply Nat.eqb_eq in JK. left. split; congruence.
      - apply Nat.eqb_neq in JK. right. now rewrite RL. }
    constructor; auto.
    + intros j IN. destruct (A3 j (XW j IN)) as (C1 & C2 & C3). auto.
    + intros j w EJ C. destruct (LOC j w EJ) as [(-> & ->)|(NK & EJ')]; [eauto 6|now apply A5].
    + intros j w EJ C. destruct (LOC j w EJ) as [(-> & ->)|(NK & EJ')]; [congruence|now apply A6].
    + intros j j' w w' r r' c l l' EJ EJ' C C'. destruct (LOC j w EJ) as [(-> & ->)|(NK & EJ1)]; [congruence|]. destruct (LOC j' w' EJ') as [(-> & ->)|(NK' & EJ1')]; [congruence|].
      eauto.
  - (* a variable of a function *)
    destruct EL as [(_ & NF)|(f & RL & NF)]; [contradiction|].
    set (p := g_reg H g) in *. set (c0 := List.length (m_cells H m)).
    assert (ER : R k = Some (mkref H (OReg p) false (is_constant H o))).
    { apply (bl_refs _ _ _ _ B). rewrite EG. cbn [emit set_blocks set_ref g_refs lookup]. now rewrite Nat.eqb_refl. }
    set (regs' := set_reg H regs p (Addr (ACell c0))). set (cells := upd (m_cells H m ++ [Poison]) c0 (fun _ => V v)).
    assert (OLD : forall c w, nth_error (m_cells H m) c = Some w -> nth_error cells c = Some w /\ c < c0).
    { intros c w EC. assert (LC : c < c0) by (apply nth_error_Some; congruence). split; [|exact LC]. unfold cells. rewrite nth_error_upd.
      destruct (c =? c0) eqn:CC0; [apply Nat.eqb_eq in CC0; lia|]. now rewrite nth_error_app1 by exact LC. }
    assert (NEW : nth_error cells c0 = Some (V v)).
    { unfold cells. rewrite nth_error_upd, Nat.eqb_refl, nth_error_app2, Nat.sub_diag by (unfold c0; lia). reflexivity. }
    assert (LEN : List.length cells = S c0) by (unfold cells; rewrite upd_length, app_length; cbn; unfold c0; lia).
    exists regs', (mkmem H (m_glob H m) cells). split; [|split; [|split]].
    + split; cbn [m_cells]; [|rewrite LEN; unfold c0; lia]. intros c LC. assert (LC0 : c < c0) by (unfold c0; lia).
      destruct (nth_error (m_cells H m) c) as [w|] eqn:EC; [now apply OLD|]. apply nth_error_None in EC. unfold c0 in LC0. lia.
    + apply agree_set. lia.
    + assert (EQ : g_reg H g2 = S p) by (rewrite EG; reflexivity). rewrite EQ. unfold define. rewrite RL.
      assert (LOC : forall j w, local H (set_loc H s f k v) j = Some w -> j = k /\ w = v \/ j <> k /\ local H s j = Some w).
      { intros j w EJ. unfold local in *. cbn [set_loc r_loc] in EJ. unfold put in EJ. destruct (j =? k) eqn:JK.
        - apply Nat.eqb_eq in JK. left. split; congruence.
        - apply Nat.eqb_neq in JK. right. now rewrite RL. }
      assert (RG : forall r, r < p -> regs' r = regs r) by (apply agree_set; lia).
      constructor; auto; cbn [m_cells m_glob]; try (rewrite LEN; unfold c0; lia).
      * intros j IN. destruct (A3 j (XW j IN)) as (C1 & C2 & C3). auto.
      * intros j w EJ C. destruct (LOC j w EJ) as [(-> & ->)|(NK & EJ')]; [congruence|]. destruct (A5 j w EJ' C) as (o' & l & B1 & B2 & B3).
        exists o', l. split; [exact B1|]. split; [rewrite (value_agree _ args p regs); auto|eapply bounded_more; [|exact B3]; lia].
      * intros j w EJ C. destruct (LOC j w EJ) as [(-> & ->)|(NK & EJ')].
        -- exists p, c0, (is_constant H o). repeat split; auto. unfold regs'. apply set_here.
        -- destruct (A6 j w EJ' C) as (r & c & l & B1 & B2 & B3 & B4 & B5). exists r, c, l. repeat split; auto; [rewrite RG; auto|now apply OLD].
      * intros j j' w w' r r' c l l' EJ EJ' C C' P P' Q Q'.
        destruct (LOC j w EJ) as [(-> & ->)|(NK & EJ1)]; destruct (LOC j' w' EJ') as [(-> & ->)|(NK' & EJ1')]; [reflexivity| | |].
        -- exfalso. destruct (A6 j' w' EJ1' C') as (r1 & c1 & l1 & B1 & B2 & B3 & B4 & B5). rewrite P' in B1. inversion B1; subst r1 l1.
           rewrite RG in Q' by exact B2. rewrite ER in P. inversion P; subst r l. unfold regs' in Q. rewrite set_here in Q.
           apply OLD in B5 as (_ & B5). assert (c1 = c0) by congruence. lia.
        -- exfalso. destruct (A6 j w EJ1 C) as (r1 & c1 & l1 & B1 & B2 & B3 & B4 & B5). rewrite P in B1. inversion B1; subst r1 l1.
           rewrite RG in Q by exact B2. rewrite ER in P'. inversion P'; subst r' l'. unfold regs' in Q'. rewrite set_here in Q'.
           apply OLD in B5 as (_ & B5). assert (c1 = c0) by congruence. lia.
        -- destruct (A6 j w EJ1 C) as (r1 & c1 & l1 & B1 & B2 & _). destruct (A6 j' w' EJ1' C') as (r2 & c2 & l2 & D1 & D2 & _).
           rewrite P in B1. inversion B1; subst r1 l1. rewrite P' in D1. inversion D1; subst r2 l2. rewrite RG in Q, Q' by assumption. eauto.
    + intros x mf outf HR. rewrite EG in B, HR.
      match type of HR with context [Proof_LLVM3.rest _ _ (emit _ (set_ref _ (emit _ ?g0 ?i0) ?k0 ?r0) ?i)] => set (ga := g0) in *; set (gb := emit H ga i0) in *; set (gc := set_ref H gb k0 r0) in *; set (ia := i0) in *; set (ib := i) in * end.
      assert (BB : below gb).
      { pose proof (below_emit _ _ _ _ _ B) as BC. eapply below_back; [|exact BC]. apply grow_set_ref. exact FR. }
      change (rest g) with (rest ga). rewrite (rest_emit _ _ _ ga ia BB L). change (rest (emit H ga ia)) with (rest gc).
      assert (LB : in_range gc) by (unfold Proof_LLVM.in_range, gc, gb; cbn [set_ref emit set_blocks g_cur g_blocks]; rewrite upd_length; exact L).
      rewrite (rest_emit _ _ _ gc ib B LB). apply ru_alloca. fold c0 p regs'.
      eapply ru_store with (a := Addr (ACell c0)) (b := V v) (m1 := mkmem H (m_glob H m) cells).
      * rewrite (value_agree _ args p regs); auto. apply agree_set. lia.
      * cbn [operand_value]. unfold regs'. apply set_here.
      * cbn [store m_cells m_glob]. rewrite app_length. cbn [List.length]. fold c0. replace (c0 <? c0 + 1) with true by (symmetry; apply Nat.ltb_lt; lia). reflexivity.
      * exact HR.
Qed.

Lemma assign_sim : forall k o g g2 X s s2 args regs m base out v n, assign_value_to_var H ys o k g = Ok g2 -> const k = false ->
  in_range g -> below g2 -> n <= g_reg H g -> inv X s args regs m base n -> operand_value H args regs o = Some (V v) ->
  assign H s k v = Some s2 ->
  exists m', frame base m m' /\ inv X s2 args regs m' base n /\ back args regs m out (rest g) regs m' out (rest g2) /\ r_out H s2 = r_out H s /\
    (r_loc H s2 = None <-> r_loc H s = None).
Proof.
  intros k o g g2 X s s2 args regs m base out v n E CK L B LN I VO EA.
  destruct (assign_case _ _ _ _ _ _ CK E) as (vr & rf & SV & CV & LR & ->).
  pose proof (bl_refs _ _ _ _ (below_emit _ _ _ _ _ B) k rf LR) as ER. pose proof (rest_emit _ _ _ g _ B L) as RE.
  destruct I as [A1 A2 A3 A4 A5 A6 A7 A8 A9].
  assert (CASES : (exists f w, r_loc H s = Some f /\ local H s k = Some w /\ s2 = set_loc H s f k v) \/
                  (exists w, local H s k = None /\ r_glob H s k = Some w /\ s2 = set_glob H s k v)).
  { unfold assign in EA. destruct (r_loc H s) as [f|] eqn:RL.
    - destruct (local H s k) as [w|] eqn:LK; [left; exists f, w; repeat split; congruence|].
      destruct (r_glob H s k) as [w|] eqn:GK; [right; exists w; repeat split; congruence|discriminate EA].
    - unfold local in *. rewrite RL in *. destruct (r_glob H s k) as [w|] eqn:GK; [right; exists w; repeat split; congruence|discriminate EA]. }
  destruct CASES as [(f & w & RL & LK & ->)|(w & LK & GK & ->)].
  - destruct (A6 k w LK CK) as (r & c & l & B1 & B2 & B3 & B4 & B5). rewrite ER in B1. inversion B1; subst rf. cbn [rf_val] in *.
    assert (LC : c < List.length (m_cells H m)) by (apply nth_error_Some; congruence).
    set (cells := upd (m_cells H m) c (fun _ => V v)).
    exists (mkmem H (m_glob H m) cells).
    assert (LOC : forall j w', local H (set_loc H s f k v) j = Some w' -> j = k /\ w' = v \/ j <> k /\ local H s j = Some w').
    { intros j w' EJ. unfold local in *. cbn [set_loc r_loc] in EJ. unfold put in EJ. destruct (j =? k) eqn:JK.
      - apply Nat.eqb_eq in JK. left. split; congruence.
      - apply Nat.eqb_neq in JK. right. now rewrite RL. }
    assert (WAS : forall j w', local H (set_loc H s f k v) j = Some w' -> exists w2, local H s j = Some w2).
    { intros j w' EJ. destruct (LOC j w' EJ) as [(-> & _)|(_ & EJ')]; eauto. }
    split; [|split; [|split; [|split]]].
    + split; cbn [m_cells]; unfold cells; [|now rewrite upd_length]. intros i LI. rewrite nth_error_upd. destruct (i =? c) eqn:IC; [apply Nat.eqb_eq in IC; lia|reflexivity].
    + constructor; auto; cbn [m_cells m_glob]; try (unfold cells; now rewrite upd_length).
      * intros j w' EJ C. destruct (LOC j w' EJ) as [(-> & ->)|(NK & EJ')]; [congruence|now apply A5].
      * intros j w' EJ C. destruct (LOC j w' EJ) as [(-> & ->)|(NK & EJ')].
        -- exists r, c, l. repeat split; auto. unfold cells. rewrite nth_error_upd, Nat.eqb_refl. destruct (nth_error (m_cells H m) c) eqn:EC; [reflexivity|discriminate B5].
        -- destruct (A6 j w' EJ' C) as (r1 & c1 & l1 & D1 & D2 & D3 & D4 & D5). exists r1, c1, l1. repeat split; auto. unfold cells. rewrite nth_error_upd.
           destruct (c1 =? c) eqn:CC; [|exact D5]. apply Nat.eqb_eq in CC. subst c1. elim NK. eapply A7 with (k := j) (k' := k); eauto.
      * intros j j' w1 w2 r1 r2 c1 l1 l2 EJ EJ'. destruct (WAS j w1 EJ) as (w3 & F). destruct (WAS j' w2 EJ') as (w4 & F'). eauto.
    + intros x mf outf HR. rewrite RE. eapply ru_store; [exact VO|exact B3| |exact HR]. cbn [store]. apply Nat.ltb_lt in LC. now rewrite LC.
    + reflexivity.
    + cbn [set_loc r_loc]. rewrite RL. split; discriminate.
  - destruct (A1 k w GK) as (i & l & B1 & B2). rewrite ER in B1. inversion B1; subst rf. cbn [rf_val] in *.
    exists (mkmem H (fun j => if j =? i then V v else m_glob H m j) (m_cells H m)). split; [split; auto|]. split; [|split; [|split]].
    + constructor; auto; cbn [m_glob].
      * intros j w' EJ. cbn [set_glob r_glob] in EJ. unfold put in EJ. destruct (j =? k) eqn:JK.
        -- apply Nat.eqb_eq in JK. subst j. inversion EJ; subst w'. exists i, l. rewrite Nat.eqb_refl. auto.
        -- destruct (A1 j w' EJ) as (i' & l' & D1 & D2). exists i', l'. split; [exact D1|]. destruct (i' =? i) eqn:II; [|exact D2].
           apply Nat.eqb_eq in II. subst i'. apply Nat.eqb_neq in JK. elim JK. eapply INJ; eauto.
      * intros j i' C EJ. destruct (i' =? i) eqn:II; [|now apply (A2 j)]. apply Nat.eqb_eq in II. subst i'.
        pose proof (INJ _ _ _ _ _ ER EJ) as JK. subst j. congruence.
      * intros j IN. destruct (A3 j IN) as (C1 & C2 & C3). assert (JK : j <> k) by congruence. split; [exact C1|split].
        -- cbn [set_glob r_glob]. unfold put. apply Nat.eqb_neq in JK. now rewrite JK.
        -- intros i' EJ. destruct (i' =? i) eqn:II; [|now apply C3]. apply Nat.eqb_eq in II. subst i'. elim JK. symmetry. eapply INJ; eauto.
    + intros x mf outf HR. rewrite RE. eapply ru_store; [exact VO|reflexivity|reflexivity|exact HR].
    + reflexivity.
    + reflexivity.
Qed.

(** * Blocks and calls *)

Lemma outer_some : forall A (f g : nat -> option A) k v, outer f g k = Some v -> g k = Some v /\ exists w, f k = Some w.
Proof. intros A f g k v E. unfold outer in E. destruct (f k) eqn:F; [eauto|discriminate E]. Qed.

Lemma inv_close : forall X Y s1 s2 args regs1 m1 base n regs2 m2 n2, inv Y s1 args regs1 m1 base n -> inv X s2 args regs2 m2 base n2 ->
  inv X (close H s1 s2) args regs2 m2 base n.
Proof.
  intros X Y s1 s2 args regs1 m1 base n regs2 m2 n2 [A1 A2 A3 A4 A5 A6 A7 A8 A9] [B1 B2 B3 B4 B5 B6 B7 B8 B9].
  assert (LOC : forall j w, local H (close H s1 s2) j = Some w -> local H s2 j = Some w /\ exists v, local H s1 j = Some v).
  { intros j w E. unfold local, close in *. cbn [r_loc] in E. destruct (r_loc H s1) as [f|]; [|discriminate E]. destruct (r_loc H s2) as [g|]; [|discriminate E].
    now apply outer_some in E. }
  constructor; auto.
  - intros k v E. cbn [close r_glob] in E. apply outer_some in E as (E & _). now apply B1.
  - intros k IN. destruct (B3 k IN) as (C1 & C2 & C3). split; [exact C1|split; [|exact C3]]. cbn [close r_glob]. unfold outer. rewrite C2. now destruct (r_glob H s1 k).
  - intros k v E C. destruct (LOC k v E) as (E2 & v1 & E1). destruct (B5 k v E2 C) as (o & l & D1 & D2 & D3). destruct (A5 k v1 E1 C) as (o' & l' & F1 & F2 & F3).
    rewrite D1 in F1. inversion F1; subst o' l'. eauto.
  - intros k v E C. destruct (LOC k v E) as (E2 & v1 & E1). destruct (B6 k v E2 C) as (r & c & l & D1 & D2 & D3 & D4 & D5). destruct (A6 k v1 E1 C) as (r' & c' & l' & F1 & F2 & F3).
    rewrite D1 in F1. inversion F1; subst r' l'. exists r, c, l. auto.
  - intros k k' v v' r r' c l l' E E'. destruct (LOC k v E) as (E2 & _). destruct (LOC k' v' E') as (E2' & _). eauto.
Qed.

Lemma bind_all_some : forall ps (vs : list val) k v, bind_all H ps vs k = Some v -> exists i, nth_error ps i = Some k /\ nth_error vs i = Some v.
Proof.
  induction ps as [|p ps IH]; intros vs k v E; [discriminate E|]. destruct vs as [|w vs]; [discriminate E|]. cbn [bind_all] in E. unfold put in E.
  destruct (k =? p) eqn:K.
  - apply Nat.eqb_eq in K. subst p. inversion E; subst w. exists 0. auto.
  - destruct (IH vs k v E) as (i & A & B). exists (S i). auto.
Qed.
(** The cells for parameters. *)
Lemma upd_last : forall A (l : list A) x y, upd (l ++ [x]) (List.length l) (fun _ => y) = l ++ [y].
Proof. intros A l x y. induction l as [|z l IH]; [reflexivity|]. cbn [app List.length upd]. now rewrite IH. Qed.
Lemma cells_sim : forall ps pre vs gp g0 args regs m out, debug_params H ys ps gp = Ok g0 -> in_range gp -> below g0 -> NoDup ps ->
  (forall j p, nth_error ps j = Some p -> lookup (g_refs H gp) p = Some (mkref H (OArg (List.length pre + j)) false false)) ->
  args = map V (pre ++ vs) -> List.length ps = List.length vs ->
  exists regs', back args regs m out (rest gp) regs' (mkmem H (m_glob H m) (m_cells H m ++ map V vs)) out (rest g0) /\ agree (g_reg H gp) regs regs' /\
    g_reg H g0 = g_reg H gp + List.length ps /\
    forall j p, nth_error ps j = Some p -> R p = Some (mkref H (OReg (g_reg H gp + j)) false false) /\
      regs' (g_reg H gp + j) = Some (Addr (ACell (List.length (m_cells H m) + j))).
Proof.
  induction ps as [|p ps IH]; intros pre vs gp g0 args regs m out E L B N P EA LV.
  - destruct vs; [|discriminate LV]. cbn in E. injection E as <-. exists regs. cbn [map]. rewrite app_nil_r. replace (mkmem H (m_glob H m) (m_cells H m)) with m by now destruct m.
    split; [apply back_refl|]. split; [apply agree_refl|]. split; [cbn; lia|]. intros [|j] q Q; discriminate Q.
  - destruct vs as [|v vs]; [discriminate LV|]. apply debug_cons in E as (vr & old & _ & LK & E). apply NoDup_cons_iff in N as (N1 & N2).
    pose proof (P 0 p eq_refl) as P0. rewrite Nat.add_0_r in P0. assert (old = mkref H (OArg (List.length pre)) false false) by congruence. subst old. cbn [rf_val] in E.
    set (g1 := one_cell H gp p (v_type vr) (OArg (List.length pre))) in *. pose proof (debug_cells _ _ _ _ _ E) as CF.
    assert (L1 : in_range g1). { unfold Proof_LLVM.in_range in *. cbn [g1 one_cell set_ref g_blocks emit set_blocks set_next g_cur]. now rewrite !upd_length. }
    set (c0 := List.length (m_cells H m)). set (m1 := mkmem H (m_glob H m) (m_cells H m ++ [V v])). set (r1 := set_reg H regs (g_reg H gp) (Addr (ACell c0))).
    assert (EA1 : args = map V ((pre ++ [v]) ++ vs)) by (rewrite <- app_assoc; exact EA).
    assert (P1 : forall j q, nth_error ps j = Some q -> lookup (g_refs H g1) q = Some (mkref H (OArg (List.length (pre ++ [v]) + j)) false false)).
    { intros j q Q. cbn [g1 one_cell set_ref g_refs lookup]. destruct (p =? q) eqn:K; [apply Nat.eqb_eq in K; subst q; now apply nth_error_In in Q|].
      change (lookup (g_refs H gp) q = Some (mkref H (OArg (List.length (pre ++ [v]) + j)) false false)). rewrite (P (S j) q Q), app_length. cbn [List.length]. do 3 f_equal. lia. }
    destruct (IH (pre ++ [v]) vs g1 g0 args r1 m1 out E L1 B N2 P1 EA1) as (r2 & B1 & B2 & B3 & B4); [cbn in LV; lia|].
    assert (G1 : g_reg H g1 = S (g_reg H gp)) by reflexivity. exists r2.
    assert (ME : mkmem H (m_glob H m1) (m_cells H m1 ++ map V vs) = mkmem H (m_glob H m) (m_cells H m ++ map V (v :: vs))).
    { cbn [m1 m_glob m_cells map]. now rewrite <- app_assoc. }
    rewrite ME in B1. split; [|split; [|split]].
    + eapply back_trans; [|exact B1]. intros x mf outf HR.
      assert (BL : exists c, block H M (g_cur H gp) = nth (g_cur H gp) (blocks g1) [] ++ c).
      { destruct (cf_block _ _ _ _ CF (g_cur H gp)) as (d & D1 & _). destruct (block_split _ _ _ _ (g_cur H gp) B) as (c & C).
        - rewrite (cf_len _ _ _ _ CF). exact L1.
        - exists (d ++ c). rewrite C, D1. symmetry. apply app_assoc. }
      set (ga := emit H (set_next H gp (S (g_reg H gp))) (IAlloca (g_reg H gp) (v_type vr))) in *. set (gb := emit H ga (IStore (OArg (List.length pre)) (OReg (g_reg H gp)))) in *.
      change (rest g1) with (rest gb) in HR. change (blocks g1) with (blocks gb) in BL.
      assert (LA : in_range ga). { unfold Proof_LLVM.in_range in *. cbn [ga emit set_blocks set_next g_blocks g_cur]. now rewrite upd_length. }
      change (rest gp) with (rest (set_next H gp (S (g_reg H gp)))). rewrite (rest_emit_at H M (set_next H gp (S (g_reg H gp))) (IAlloca (g_reg H gp) (v_type vr))).
      * apply ru_alloca. fold c0 r1. fold ga. rewrite (rest_emit_at H M ga (IStore (OArg (List.length pre)) (OReg (g_reg H gp))) LA BL). fold gb.
        eapply ru_store with (a := Addr (ACell c0)) (b := V v) (m1 := m1); [|cbn [operand_value]; apply set_here| |exact HR].
        -- cbn [operand_value]. rewrite EA. apply map_nth_error. rewrite nth_error_app2 by lia. now rewrite Nat.sub_diag.
        -- cbn [store m_cells m_glob]. rewrite app_length. cbn [List.length]. fold c0. replace (c0 <? c0 + 1) with true by (symmetry; apply Nat.ltb_lt; lia).
           unfold c0. now rewrite upd_last.
      * exact L.
      * destruct BL as (c & C). change (g_cur H (set_next H gp (S (g_reg H gp)))) with (g_cur H gp). fold ga. exists ([IStore (OArg (List.length pre)) (OReg (g_reg H gp))] ++ c).
        rewrite C. unfold gb. cbn [emit set_blocks g_blocks]. rewrite nth_upd. change (g_cur H ga) with (g_cur H gp). rewrite Nat.eqb_refl.
        unfold Proof_LLVM.in_range in LA. change (g_cur H ga) with (g_cur H gp) in LA. apply Nat.ltb_lt in LA. rewrite LA. now rewrite <- app_assoc.
    + eapply agree_trans; [|apply agree_set; apply le_n|exact B2]. rewrite G1. lia.
    + rewrite B3, G1. cbn [List.length]. lia.
    + intros [|j] q Q; cbn [nth_error] in Q.
      * injection Q as <-. rewrite !Nat.add_0_r. split.
        -- apply (bl_refs _ _ _ _ B). rewrite (cf_refs _ _ _ _ CF) by exact N1. cbn [g1 one_cell set_ref g_refs lookup]. now rewrite Nat.eqb_refl.
        -- rewrite B2 by (rewrite G1; lia). apply set_here.
      * destruct (B4 j q Q) as (C1 & C2). rewrite G1 in C1, C2. cbn [m1 m_cells] in C2. rewrite app_length in C2. cbn [List.length] in C2.
        replace (g_reg H gp + S j) with (S (g_reg H gp) + j) by lia. split; [exact C1|]. rewrite C2. do 3 f_equal. lia.
Qed.

Lemma enter_sim : forall X s args regs m base n ps vs gp g0 out, inv X s args regs m base n -> func_debug_info H ys debug ps gp = Ok g0 -> in_range gp -> below g0 -> NoDup ps ->
  (forall i p, nth_error ps i = Some p -> lookup (g_refs H gp) p = Some (mkref H (OArg i) false false) /\ const p = negb debug) -> List.length ps = List.length vs ->
  exists regs' m', frame (List.length (m_cells H m)) m m' /\
    inv X (enter_call H s ps vs) (map V vs) regs' m' (List.length (m_cells H m)) (g_reg H g0) /\
    back (map V vs) (fun _ => None) m out (rest gp) regs' m' out (rest g0).
Proof.
  intros X s args regs m base n ps vs gp g0 out [A1 A2 A3 A4 A5 A6 A7 A8 A9] E L B N P LV.
  assert (CK : forall k v, local H (enter_call H s ps vs) k = Some v -> exists i, nth_error ps i = Some k /\ nth_error vs i = Some v /\ const k = negb debug).
  { intros k v Q. unfold local, enter_call in Q. cbn [r_loc] in Q. apply bind_all_some in Q as (i & E1 & E2). exists i. destruct (P i k E1). auto. }
  unfold func_debug_info in E. destruct debug; cbn [negb] in CK.
  - destruct (cells_sim ps [] vs gp g0 (map V vs) (fun _ => None) m out E L B N) as (r1 & B1 & B2 & B3 & B4); [intros j p Q; now apply P|reflexivity|exact LV|].
    set (m1 := mkmem H (m_glob H m) (m_cells H m ++ map V vs)) in *. exists r1, m1.
    split; [split; [intros c LC; cbn [m1 m_cells]; now apply nth_error_app1|cbn [m1 m_cells]; rewrite app_length; lia]|]. split; [|exact B1].
    assert (MG : m_glob H m1 = m_glob H m) by reflexivity. constructor; try (rewrite MG; assumption); auto.
    + intros k v Q C. destruct (CK k v Q) as (i & _ & _ & C'). congruence.
    + intros k v Q C. destruct (CK k v Q) as (i & E1 & E2 & _). destruct (B4 i k E1) as (D1 & D2). exists (g_reg H gp + i), (List.length (m_cells H m) + i), false.
      split; [exact D1|]. assert (LI : i < List.length ps) by (apply nth_error_Some; congruence). split; [lia|]. split; [exact D2|]. split; [lia|].
      cbn [m1 m_cells]. rewrite nth_error_app2 by lia. replace (List.length (m_cells H m) + i - List.length (m_cells H m)) with i by lia. now apply map_nth_error.
    + intros k k' v v' r r' c l l' Q Q' _ _ RK RK' C C'. destruct (CK k v Q) as (i & E1 & _ & _). destruct (CK k' v' Q') as (i' & E1' & _ & _).
      destruct (B4 i k E1) as (D1 & D2). destruct (B4 i' k' E1') as (D1' & D2'). rewrite RK in D1. rewrite RK' in D1'. injection D1 as -> _. injection D1' as -> _.
      rewrite D2 in C. rewrite D2' in C'. rewrite <- C' in C. injection C as C. assert (i = i') by lia. subst i'. congruence.
    + cbn [m1 m_cells]. rewrite app_length. lia.
  - injection E as <-. exists (fun _ => None), m. split; [apply frame_refl|]. split; [|apply back_refl]. constructor; auto.
    + intros k v Q C. destruct (CK k v Q) as (i & E1 & E2 & _). destruct (P i k E1) as (E3 & _).
      exists (OArg i), false. split; [now apply (bl_refs _ _ _ _ B)|]. split; [|exact I]. cbn [operand_value]. now apply map_nth_error.
    + intros k v Q C. destruct (CK k v Q) as (i & _ & _ & C'). congruence.
    + intros k k' v v' r r' c l l' Q _ C. destruct (CK k v Q) as (i & _ & _ & C'). congruence.
Qed.
Lemma leave_inv : forall X s1 s2 args regs m base n args2 regs2 m2 n2, inv X s1 args regs m base n ->
  inv X s2 args2 regs2 m2 (List.length (m_cells H m)) n2 -> frame (List.length (m_cells H m)) m m2 ->
  inv X (leave_call H s1 s2) args regs m2 base n.
Proof.
  intros X s1 s2 args regs m base n args2 regs2 m2 n2 [A1 A2 A3 A4 A5 A6 A7 A8 A9] [B1 B2 B3 B4 B5 B6 B7 B8 B9] (F1 & F2).
  constructor; auto.
  - intros k v E C. destruct (A6 k v E C) as (r & c & l & D1 & D2 & D3 & D4 & D5). exists r, c, l. repeat split; auto.
    rewrite F1; [exact D5|]. apply nth_error_Some. congruence.
  - lia.
Qed.
Lemma declare_inv : forall X s args regs m base n k ps body, inv X s args regs m base n -> declared k ps body ->
  inv X (declare H s k ps body) args regs m base n.
Proof.
  intros X s args regs m base n k ps body [A1 A2 A3 A4 A5 A6 A7 A8 A9] D. constructor; auto.
  intros j qs b E. cbn [declare r_funs lookup] in E. destruct (k =? j) eqn:K; [|now apply A8]. apply Nat.eqb_eq in K. subst j. inversion E; subst. exact D.
Qed.
End Sim.
