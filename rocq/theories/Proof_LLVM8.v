(** Blocks: the generated code does what Spec_Run.v says. *)
From Coq Require Import List Arith NArith ZArith Bool Lia.
From Verif Require Import Base Model_Literal Model_Parse Model_Sem Spec_Sem Spec_Sem2 Spec_Run Model_Helpers Proof_Helpers Spec_IR Model_LLVM Spec_LLVM Proof_LLVM Proof_LLVM2 Proof_LLVM3 Proof_LLVM4 Proof_LLVM5 Proof_LLVM6 Proof_LLVM7.
Import ListNotations.
Open Scope list_scope.
Open Scope nat_scope.

Section Sim.
Variable H : host.
Variable fold : iop -> operand H -> operand H -> option (operand H).
Variable ys : list symbol.
Variable debug : bool.
Variable M : module H.
Variable R : nat -> option (ref H).
Hypothesis FW : folds_well H fold.
Hypothesis INJ : forall k k' i l l', R k = Some (mkref H (OGlob i) true l) -> R k' = Some (mkref H (OGlob i) true l') -> k = k'.
Hypothesis EXT : forall k x, lookup (m_funs H M) k = Some x -> is_external ys k = true -> x = None.
Local Notation gst := (gst H).
Local Notation val := (sv (h_float H)).
Local Notation sym_var := (sym_var ys).
Local Notation sym_func := (sym_func ys).
Local Notation gen_expr := (gen_expr H fold ys).
Local Notation typed := (typed ys).
Local Notation const := (const ys).
Local Notation grow := (grow H).
Local Notation in_range := (in_range H).
Local Notation here := (here H).
Local Notation blocks := (g_blocks H).
Local Notation count g := (List.length (g_blocks H g)).
Local Notation run := (run H M).
Local Notation gens := (gens H fold ys debug).
Local Notation eval := (eval H ys (exact1 H) (exact2 H)).
Local Notation evals := (evals H ys (exact1 H) (exact2 H)).
Local Notation exec := (exec H ys (exact1 H) (exact2 H)).
Local Notation branch := (branch H ys (exact1 H) (exact2 H)).
Local Notation otherwise := (otherwise H ys (exact1 H) (exact2 H)).
Local Notation after := (after H ys (exact1 H) (exact2 H)).
Local Notation tv := (tv H).
Local Notation mem := (mem H).
Local Notation below := (below H M R).
Local Notation rest := (rest H M).
Local Notation block := (block H M).
Local Notation back := (back H M).
Local Notation agree := (agree H).
Local Notation frame := (frame H).
Local Notation bounded := (bounded H).
Local Notation inv := (inv H fold ys debug M R).
Local Notation declared := (declared H fold ys debug M R).
Local Notation level := (level H).
Local Notation defs := (defs ys).

Local Notation lands := (lands H fold ys debug M R).
Local Notation P_eval := (P_eval H fold ys debug M R).
Local Notation P_exec := (P_exec H fold ys debug M R).
Local Notation P_branch := (P_branch H fold ys debug M R).
Local Notation P_otherwise := (P_otherwise H fold ys debug M R).
Local Notation P_after := (P_after H fold ys debug M R).


Local Notation exec_same := (level_exec H ys).

Lemma close_level : forall s s', (r_loc H s' = None <-> r_loc H s = None) -> (r_loc H (close H s s') = None <-> r_loc H s = None).
Proof.
  intros s s' (A & B). cbn [close r_loc]. destruct (r_loc H s), (r_loc H s'); split; intros; auto; discriminate.
Qed.
Lemma range_at : forall g b, b < count g -> in_range (position H g b).
Proof. intros g b L. exact L. Qed.

(** * Branches *)

Ltac right_rule G :=
  inversion G; subst; try congruence;
  try match goal with T : In (tn_type ?n) _ \/ _, U : tn_type ?n = _ |- _ => exfalso; rewrite U in T; destruct T as [T|(T & T')]; [cbn [In] in T; intuition discriminate|congruence] end.

(** Behind a block: the code goes on in the block `last`, or somewhere else. *)
Lemma sim_after : forall o1 r o X Z s0 s2 s' args regs m base out code gb g2 fl1 g7 last g' fl,
  P_after (close H s0 s2) o1 r o s' ->
  lands (defs (g_func H gb) r ++ X) s2 o1 args regs m base out code gb g2 fl1 ->
  inv Z s0 args regs m base (g_reg H gb) -> in_range g2 -> below (branch_to H last (g2, fl1)) ->
  gens GS r (position H g7 last) g' fl -> below g' -> last < count g7 -> nth last (blocks g7) [] = [] ->
  g_reg H gb <= g_reg H g7 -> loops H gb g7 -> g_func H g7 = g_func H gb -> level (close H s0 s2) gb ->
  lands X s' o args regs m base out code gb g' fl.
Proof.
  intros o1 r o X Z s0 s2 s' args regs m base out code gb g2 fl1 g7 last g' fl PA (r1 & m1 & F1 & A1 & I1 & D1) IZ RG BL G B LL NL LR LP FF LV.
  assert (R7 : ranged H GS (position H g7 last)) by (intros z ->; exact LL).
  pose proof (gens_grow _ _ _ _ _ _ _ _ _ G R7) as GG. pose proof (gr_reg _ _ _ _ GG) as LR2. cbn [position g_reg] in LR2.
  pose proof (inv_close _ _ _ _ _ _ _ _ _ _ _ _ _ _ _ _ _ _ IZ I1) as IC.
  destruct PA as [(-> & IH)|(NN & -> & ->)].
  - destruct D1 as (-> & D1). cbn [branch_to snd fst] in BL.
    assert (B7 : below (position H g7 last)) by (eapply below_back; [exact GG|exact B]).
    assert (NE : nth_error (m_blocks H M) last = Some (block last)) by (apply block_is with (R := R) (g := g7); [eapply below_position; exact B7|exact LL]).
    assert (RW : rest (position H g7 last) = block last) by (apply (rest_whole H M (position H g7 last)); exact NL).
    apply lands_first with (regs := r1) (m := m1) (out := r_out H s2) (code := rest (position H g7 last)) (g := position H g7 last); auto.
    + intros x mf outf HR. apply D1. rewrite (rest_emit _ _ _ _ _ BL RG). eapply ru_br; [exact NE|]. rewrite <- RW. exact HR.
    + apply (IH (position H g7 last)); auto.
      * apply level_to with (close H s0 s2) gb; auto. tauto.
      * change (g_func H (position H g7 last)) with (g_func H g7). rewrite FF. eapply inv_more; [|exact IC]. exact LR.
  - exists r1, m1. refine (conj F1 (conj A1 (conj _ _))).
    + apply inv_drop in IC. eapply inv_more; [|exact IC]. lia.
    + eapply done_jump; [exact NN|exact D1].
Qed.

Lemma sim_true : forall s s1 s2 s' n r e o1 o, tn_pay n = XExpr e -> eval s e (SvBool true) s1 -> P_eval s e (SvBool true) s1 ->
  exec s1 (tn_child n) o1 s2 -> P_exec s1 (tn_child n) o1 s2 -> P_after (close H s1 s2) o1 (behind r) o s' -> P_branch s n r o s'.
Proof.
  intros s s1 s2 s' n r e o1 o TP EV IH1 EX IH2 IH3 entry last g g' fl X args regs m base G TN LE LL NE NL B LV I.
  destruct (gens_chain _ _ _ _ _ _ _ _ _ G LE LL NE) as (g7 & G7 & A7 & LP7). cbn [tl] in G7.
  inversion G; subst. match goal with E : tn_pay n = XExpr ?x |- _ => rewrite TP in E; injection E as <- end.
  match goal with E : gens GS (tn_child n) _ ?a ?b, F : (?c, ?d) = (if branch_follows r then (_, snd _) else _), Q : gen_expr e _ = Ok (?oo, ?tt, ?x5), TY : typed e |- _ =>
    rename E into GBO, F into EF, Q into GE, TY into TYP; rename a into g2; rename b into fl1; rename c into f; rename d into g4; rename oo into op; rename tt into t; rename x5 into g5 end.
  match goal with E : (?a, ?b) = (if branch_follows r then (GB _ _, _) else _), Q : gens ?a r ?b g' fl |- _ => rename E into EM; rename Q into GR; rename a into md; rename b into g6 end.
  destruct (condition_facts _ _ _ _ entry last g (tn_child n) g2 fl1 _ _ f g4 e op t g5 LE LL NE GBO eq_refl EF GE)
    as (RB & A2 & R2 & A3 & A3' & S4 & C4 & R4 & LR4 & F4 & A4 & A4' & A6 & S5 & S6 & LF & FF & NL6 & LL6).
  set (g6' := emit H g5 (ICondBr op (count g) f)) in *.
  assert (B6 : below g6').
  { destruct (branch_follows r); inversion EM; subst md g6.
    - eapply below_back; [eapply gens_grow; [exact GR|]|exact B]. intros z [-> | ->]; [|exact LL6]. rewrite (sm_len _ _ _ S6). exact LF.
    - apply (below_position H M R _ last). eapply below_back; [eapply gens_grow; [exact GR|]|exact B]. intros z ->. exact LL6. }
  pose proof (below_emit _ _ _ _ _ B6) as B5. pose proof (below_back _ _ _ _ _ _ (sm_grow _ _ _ S5) B5) as B4. pose proof (below_back _ _ _ _ _ _ A4 B4) as B3.
  pose proof (below_branch_to _ _ _ _ _ _ B3) as B2.
  set (gb := position H (snd (new_block H g)) (count g)) in *.
  assert (RBB : ranged H GS gb) by (intros z ->; exact RB). pose proof (below_back _ _ _ _ _ _ (gens_grow _ _ _ _ _ _ _ _ _ GBO RBB) B2) as BB.
  (* the condition *)
  assert (ER : rest (position H g entry) = rest g4) by (symmetry; apply rest_eq; [exact C4|exact S4]).
  pose proof (gr_reg _ _ _ _ A4') as LR.
  destruct (IH1 g4 op t g5 _ args regs m base (g_reg H g) GE TYP R4 B5 LR I) as (r1 & m1 & _ & D2 & D3 & D4 & D5 & D6 & D7).
  assert (LR5 : in_range g5) by (eapply same_range; [exact S5|exact R4]).
  assert (NB : nth_error (m_blocks H M) (count g) = Some (block (count g))) by (apply block_is with (R := R) (g := gb); [exact BB|exact RB]).
  assert (EB : rest gb = block (count g)) by (apply (rest_whole H M gb); apply new_empty).
  assert (BK : back args regs m (r_out H s) (rest (position H g entry)) r1 m1 (r_out H s1) (rest gb)).
  { rewrite ER. eapply back_trans; [exact D7|]. intros x mf outf HR. rewrite (rest_emit _ _ _ _ _ B6 LR5). rewrite EB in HR. eapply ru_cond with (t := true); [exact D2|exact NB|exact HR]. }
  assert (AG : agree (g_reg H g) regs r1) by (eapply agree_less; [exact LR|exact D5]).
  (* the block *)
  assert (EY : defs (g_func H g) (n :: r) ++ X = defs (g_func H g) (tn_child n) ++ (defs (g_func H g) r ++ X)).
  { eapply defs_child; [destruct TN; congruence|intros; congruence|reflexivity]. }
  rewrite EY in D6.
  assert (LV1 : level s1 gb) by (apply level_to with s g; [exact LV|rewrite (level_eval H ys _ _ _ _ EV); tauto|reflexivity]).
  pose proof (IH2 gb g2 fl1 _ args r1 m1 base GBO RB B2 LV1 D6) as LD. pose proof (inv_drop _ _ _ _ _ _ _ _ _ _ _ _ _ _ D6) as I6.
  apply lands_first with (regs := r1) (m := m1) (out := r_out H s1) (code := rest gb) (g := gb); auto; [now apply loops_eq|].
  assert (LDB : lands (defs (g_func H gb) (behind r) ++ X) s2 o1 args r1 m1 base (r_out H s1) (rest gb) gb g2 fl1).
  { destruct LD as (r2 & m2 & L1 & L2 & L3 & L4). exists r2, m2. refine (conj L1 (conj L2 (conj _ L4))). apply inv_behind. exact L3. }
  eapply sim_after with (g7 := g7) (last := last); [exact IH3|exact LDB|exact I6|exact R2|exact B3|exact G7|exact B| | |exact (gr_reg _ _ _ _ A7)| |exact (gr_func _ _ _ _ A7)|].
  - pose proof (gr_len _ _ _ _ A7). lia.
  - rewrite (gr_same _ _ _ _ A7 last LL); [exact NL|congruence].
  - destruct LP7. split; assumption.
  - apply level_to with s1 gb; [exact LV1| |reflexivity]. apply close_level. exact (exec_same _ _ _ _ EX).
Qed.

Lemma sim_false : forall s s1 s' n r e o, tn_pay n = XExpr e -> eval s e (SvBool false) s1 -> P_eval s e (SvBool false) s1 -> P_otherwise s1 r o s' -> P_branch s n r o s'.
Proof.
  intros s s1 s' n r e o TP EV IH1 (IH2 & IH3) entry last g g' fl X args regs m base G TN LE LL NE NL B LV I.
  inversion G; subst. match goal with E : tn_pay n = XExpr ?x |- _ => rewrite TP in E; injection E as <- end.
  match goal with E : gens GS (tn_child n) _ ?a ?b, F : (?c, ?d) = (if branch_follows r then (_, snd _) else _), Q : gen_expr e _ = Ok (?oo, ?tt, ?x5), TY : typed e |- _ =>
    rename E into GBO, F into EF, Q into GE, TY into TYP; rename a into g2; rename b into fl1; rename c into f; rename d into g4; rename oo into op; rename tt into t; rename x5 into g5 end.
  match goal with E : (?a, ?b) = (if branch_follows r then (GB _ _, _) else _), Q : gens ?a r ?b g' fl |- _ => rename E into EM; rename Q into GR; rename a into md; rename b into g6 end.
  destruct (condition_facts _ _ _ _ entry last g (tn_child n) g2 fl1 _ _ f g4 e op t g5 LE LL NE GBO eq_refl EF GE)
    as (RB & A2 & R2 & A3 & A3' & S4 & C4 & R4 & LR4 & F4 & A4 & A4' & A6 & S5 & S6 & LF & FF & NL6 & LL6).
  set (g6' := emit H g5 (ICondBr op (count g) f)) in *.
  assert (LF6 : f < count g6') by (rewrite (sm_len _ _ _ S6); exact LF).
  assert (B6 : below g6').
  { destruct (branch_follows r); inversion EM; subst md g6.
    - eapply below_back; [eapply gens_grow; [exact GR|]|exact B]. intros z [-> | ->]; [|exact LL6]. exact LF6.
    - apply (below_position H M R _ last). eapply below_back; [eapply gens_grow; [exact GR|]|exact B]. intros z ->. exact LL6. }
  pose proof (below_emit _ _ _ _ _ B6) as B5.
  assert (ER : rest (position H g entry) = rest g4) by (symmetry; apply rest_eq; [exact C4|exact S4]).
  pose proof (gr_reg _ _ _ _ A4') as LR.
  destruct (IH1 g4 op t g5 _ args regs m base (g_reg H g) GE TYP R4 B5 LR I) as (r1 & m1 & _ & D2 & D3 & D4 & D5 & D6 & D7).
  assert (LR5 : in_range g5) by (eapply same_range; [exact S5|exact R4]).
  assert (NF : nth_error (m_blocks H M) f = Some (block f)) by (apply block_is with (R := R) (g := g6'); [exact B6|exact LF6]).
  assert (EF6 : nth f (blocks g6') [] = []). { destruct (branch_follows r); [apply FF|rewrite FF, NL6; exact NL]. }
  assert (EB : rest (position H g6' f) = block f) by (apply (rest_whole H M (position H g6' f)); exact EF6).
  assert (BK : back args regs m (r_out H s) (rest (position H g entry)) r1 m1 (r_out H s1) (rest (position H g6' f))).
  { rewrite ER. eapply back_trans; [exact D7|]. intros x mf outf HR. rewrite (rest_emit _ _ _ _ _ B6 LR5). rewrite EB in HR. eapply ru_cond with (t := false); [exact D2|exact NF|exact HR]. }
  assert (AG : agree (g_reg H g) regs r1) by (eapply agree_less; [exact LR|exact D5]).
  apply inv_rest in D6. pose proof (gr_reg _ _ _ _ A6) as LR6. pose proof (gr_func _ _ _ _ A6) as FN6.
  assert (LP : loops H g g6').
  { eapply loops_trans with (b := g2). { eapply loops_trans; [|eapply gens_loops; exact GBO]. now apply loops_eq. }
    eapply loops_trans; [apply (loops_branch H last g2 fl1)|]. apply loops_trans with g4; [|eapply loops_trans; [eapply loops_expr; exact GE|now apply loops_eq]].
    destruct (branch_follows r); inversion EF; now apply loops_eq. }
  assert (LV6 : level s1 g6') by (apply level_to with s g; [exact LV|rewrite (level_eval H ys _ _ _ _ EV); tauto|exact FN6]).
  assert (I6 : inv (defs (g_func H g6') r ++ X) s1 args r1 m1 base (g_reg H g6')) by (rewrite FN6; eapply inv_more; [exact LR6|exact D6]).
  destruct (branch_follows r) eqn:FO; inversion EM; subst md g6.
  - apply lands_first with (regs := r1) (m := m1) (out := r_out H s1) (code := rest (position H g6' f)) (g := g6'); auto.
    eapply IH2; eauto. destruct FF as (_ & FL & _). exact FL. rewrite NL6. exact NL.
  - apply lands_first with (regs := r1) (m := m1) (out := r_out H s1) (code := rest (position H g6' f)) (g := position H g6' f); auto.
    rewrite FF in *. eapply IH3; eauto.
Qed.

Lemma sim_else : forall s s1 s' n r o1 o, tn_type n = N_ELSE -> exec s (tn_child n) o1 s1 -> P_exec s (tn_child n) o1 s1 -> P_after (close H s s1) o1 r o s' ->
  P_otherwise s (n :: r) o s'.
Proof.
  intros s s1 s' n r o1 o TN EX IH1 IH2. split; [|cbn [branch_follows]; rewrite TN; discriminate].
  intros entry last g g' fl X args regs m base G LE LL NE NL B LV I. right_rule G.
  match goal with E : gens GS (tn_child n) _ ?a ?b, F : gens GS r _ _ _ |- _ => rename E into GBO, F into GR; rename a into g1; rename b into fl1 end.
  set (gb := position H g entry) in *. assert (RB : ranged H GS gb) by (intros z ->; exact LE). pose proof (gens_grow _ _ _ _ _ _ _ _ _ GBO RB) as A1.
  assert (R1 : in_range g1) by (apply (gr_ok _ _ _ _ A1 RB)).
  pose proof (branch_to_grow H last g1 fl1) as A2. set (g2 := branch_to H last (g1, fl1)) in *.
  assert (A3 : grow (starts H GS gb) gb g2) by (eapply grow_then; [exact RB|exact A1|exact A2]).
  pose proof (gr_len _ _ _ _ A3) as LN. cbn [gb position g_blocks] in LN.
  assert (R3 : ranged H GS (position H g2 last)) by (intros z ->; cbn [position g_cur g_blocks]; lia).
  pose proof (below_position _ _ _ _ _ (below_back _ _ _ _ _ _ (gens_grow _ _ _ _ _ _ _ _ _ GR R3) B)) as B2. pose proof (below_branch_to _ _ _ _ _ _ B2) as B1.
  assert (EY : defs (g_func H g) (n :: r) ++ X = defs (g_func H g) (tn_child n) ++ (defs (g_func H g) r ++ X)).
  { eapply defs_child; [congruence|intros; congruence|reflexivity]. }
  rewrite EY in I. assert (LVB : level s gb) by exact LV.
  pose proof (IH1 gb g1 fl1 _ args regs m base GBO LE B1 LVB I) as LD. pose proof (inv_drop _ _ _ _ _ _ _ _ _ _ _ _ _ _ I) as I6.
  apply lands_same with (code := rest gb) (g := gb); [reflexivity|reflexivity|now apply loops_eq|].
  eapply sim_after with (g7 := g2) (last := last); [exact IH2|exact LD|exact I6|exact R1|exact B2|exact GR|exact B| | |exact (gr_reg _ _ _ _ A3)| |exact (gr_func _ _ _ _ A3)|].
  - lia.
  - rewrite (gr_same _ _ _ _ A3 last LL); [exact NL|]. intro E. apply NE. symmetry. exact E.
  - eapply loops_trans; [eapply gens_loops; exact GBO|apply loops_branch].
  - apply level_to with s gb; [exact LVB| |reflexivity]. apply close_level. exact (exec_same _ _ _ _ EX).
Qed.

Lemma sim_otherwise_comment : forall s s' n r o, tn_type n = N_COMMENT -> P_otherwise s r o s' -> P_otherwise s (n :: r) o s'.
Proof.
  intros s s' n r o TN (IH1 & IH2). split.
  - intros entry last g g' fl X args regs m base G LE LL NE NL B LV I. right_rule G. apply inv_rest in I. eapply IH1; eauto.
  - cbn [branch_follows]. rewrite TN. intro F. apply sim_skip; auto. left. rewrite TN. now left.
Qed.
Lemma sim_elif : forall s s' n r o, tn_type n = N_ELIF -> P_branch s n r o s' -> P_otherwise s (n :: r) o s'.
Proof.
  intros s s' n r o TN IH. split; [|cbn [branch_follows]; rewrite TN; discriminate].
  intros entry last g g' fl X args regs m base G LE LL NE NL B LV I. right_rule G. eapply IH; eauto.
Qed.
Lemma sim_otherwise_end : forall s s' r o, exec s r o s' -> P_exec s r o s' -> P_otherwise s r o s'.
Proof.
  intros s s' r o EX IH. split; [|auto]. intros entry last g g' fl X args regs m base G. exfalso.
  pose proof (follows_gens _ _ _ _ _ _ _ _ _ G) as F. cbn in F. rewrite (exec_plain _ _ _ _ _ _ EX) in F. discriminate F.
Qed.
Lemma sim_if : forall s s' n r o, tn_type n = N_IF -> P_branch s n r o s' -> P_exec s (n :: r) o s'.
Proof.
  intros s s' n r o TN IH g g' fl X args regs m base G L B LV I. right_rule G.
  match goal with E : gens (GC _ _) _ _ _ _ |- _ => rename E into GG end. unfold Proof_LLVM.in_range in L.
  pose proof (new_count H g) as KN.
  apply lands_same with (code := rest (position H (snd (new_block H g)) (g_cur H g))) (g := snd (new_block H g)); [|reflexivity|now apply loops_eq|].
  - symmetry. apply rest_eq; [reflexivity|]. cbn [position g_blocks]. apply new_same. exact L.
  - eapply IH; eauto; try lia. apply new_empty.
Qed.

(** * Namespaces and functions *)

Lemma sim_space : forall s s1 s' n r o1 o, tn_type n = N_NAMESPACE -> exec s (tn_child n) o1 s1 -> P_exec s (tn_child n) o1 s1 -> P_after s1 o1 r o s' -> P_exec s (n :: r) o s'.
Proof.
  intros s s1 s' n r o1 o TN EX IH1 IH2 g g' fl X args regs m base G L B LV I. right_rule G.
  match goal with E : gens GS (tn_child n) _ ?a ?b, F : gens GS r _ _ _ |- _ => rename E into GBO, F into GR; rename a into g1; rename b into fl1 end.
  assert (RB : ranged H GS g) by (intros z ->; exact L). pose proof (gens_grow _ _ _ _ _ _ _ _ _ GBO RB) as A1.
  assert (R1 : in_range g1) by (apply (gr_ok _ _ _ _ A1 RB)). assert (RR : ranged H GS g1) by (intros z ->; exact R1).
  pose proof (gens_grow _ _ _ _ _ _ _ _ _ GR RR) as A2. pose proof (below_back _ _ _ _ _ _ A2 B) as B1.
  assert (EY : defs (g_func H g) (n :: r) ++ X = defs (g_func H g) (tn_child n) ++ (defs (g_func H g) r ++ X)).
  { eapply defs_child; [congruence|intros; congruence|reflexivity]. }
  rewrite EY in I. destruct (IH1 g g1 fl1 _ args regs m base GBO L B1 LV I) as (r1 & m1 & F1 & AG & I1 & D1).
  pose proof (gr_reg _ _ _ _ A1) as LR1. pose proof (gr_reg _ _ _ _ A2) as LR2.
  destruct IH2 as [(-> & IH2)|(NN & -> & ->)].
  - destruct D1 as (_ & D1). apply lands_first with (regs := r1) (m := m1) (out := r_out H s1) (code := rest g1) (g := g1); auto; [eapply gens_loops; exact GBO|].
    apply IH2; auto.
    + apply level_to with s g; [exact LV|exact (exec_same _ _ _ _ EX)|exact (gr_func _ _ _ _ A1)].
    + rewrite (gr_func _ _ _ _ A1). exact I1.
  - exists r1, m1. refine (conj F1 (conj AG (conj _ _))); [apply inv_drop in I1; eapply inv_more; [exact LR2|exact I1]|]. eapply done_jump; [exact NN|exact D1].
Qed.

Lemma sim_function : forall s s' n r k ps o, tn_type n = N_FUNCTION_PROTO -> tn_pay n = XProto k ps -> is_external ys k = false ->
  P_exec (declare H s k ps (tn_child n)) r o s' -> P_exec s (n :: r) o s'.
Proof.
  intros s s' n r k ps o TN TP EX IH g g' fl X args regs m base G L B LV I. right_rule G.
  - match goal with E : tn_pay n = XProto ?a ?b |- _ => rewrite TP in E; injection E as <- <- end.
    match goal with E : sym_func k = Ok _ |- _ => rewrite (external_is _ _ _ E) in EX end. congruence.
  - match goal with E : tn_pay n = XProto ?a ?b |- _ => rewrite TP in E; injection E as <- <- end.
    match goal with E : gens GS (tn_child n) ?a0 ?a ?b, F : gens GS r _ _ _, Q : sym_func k = Ok ?ff, ND : NoDup ps, PP : forall p, In p ps -> _, FF : lookup (g_funs H g) k = None, DI : func_debug_info _ _ _ _ _ = Ok _ |- _ =>
      rename E into GBO, F into GR, Q into SF, ND into NP, PP into PAR, FF into FRE, DI into GDI; rename a0 into g0; rename a into g1; rename b into fl1; rename ff into f end.
    apply inv_rest in I. unfold Proof_LLVM.in_range in L. pose proof (new_count H g) as KN.
    set (ga := set_fun H (snd (new_block H g)) k (Some (count g))) in *. set (gp := set_func H (position H (gen_params H 0 ps ga) (count g)) (Some k)) in *.
    pose proof (info_cells _ _ _ _ _ _ GDI) as CF.
    destruct (params_case H ps 0 ga) as (P1 & P2 & P3 & P4 & P5 & P6 & P7 & P8).
    assert (EB : blocks gp = blocks (snd (new_block H g))) by (cbn [gp set_func position g_blocks]; rewrite P1; reflexivity).
    assert (RP : in_range gp) by (unfold Proof_LLVM.in_range; rewrite EB; cbn [gp set_func position g_cur]; lia).
    assert (CB : g_cur H g0 = count g) by (rewrite (cf_cur _ _ _ _ CF); reflexivity).
    assert (K0 : count g0 = S (count g)) by (rewrite (cf_len _ _ _ _ CF), EB; exact KN).
    assert (R0 : in_range g0) by (unfold Proof_LLVM.in_range; lia).
    assert (RR0 : ranged H GS g0) by (intros z ->; exact R0). pose proof (gens_grow _ _ _ _ _ _ _ _ _ GBO RR0) as A1.
    assert (R1 : in_range g1) by (apply (gr_ok _ _ _ _ A1 RR0)).
    set (g2 := end_func H f fl1 (g_func H g) g1) in *. set (g3 := position H g2 (g_cur H g)) in *.
    assert (K2 : count g0 <= count g2) by (unfold g2; rewrite end_func_count; exact (gr_len _ _ _ _ A1)).
    assert (R3 : in_range g3) by (unfold Proof_LLVM.in_range; cbn [g3 position g_cur g_blocks]; lia).
    assert (RR3 : ranged H GS g3) by (intros z ->; exact R3). pose proof (below_back _ _ _ _ _ _ (gens_grow _ _ _ _ _ _ _ _ _ GR RR3) B) as B3.
    pose proof (below_position _ _ _ _ _ B3) as B2. pose proof (below_end_func _ _ _ _ _ _ _ B2) as B1. pose proof (below_back _ _ _ _ _ _ A1 B1) as B0.
    assert (DC : declared k ps (tn_child n)).
    { exists f, (count g), gp, g0, g1, fl1, (g_func H g). refine (conj SF (conj _ (conj GDI (conj GBO (conj eq_refl (conj RP (conj _ (conj _ (conj B2 (conj NP _)))))))))).
      - apply (bl_funs _ _ _ _ B0). rewrite (cf_funs _ _ _ _ CF). cbn [gp set_func position g_funs]. rewrite P5. cbn [ga set_fun g_funs lookup]. now rewrite Nat.eqb_refl.
      - rewrite EB. apply new_empty.
      - discriminate.
      - intros i p E. split; [|apply PAR; eapply nth_error_In; exact E]. cbn [gp set_func position g_refs].
        rewrite (params_nth H ps 0 ga i p NP E). reflexivity. }
    (* the code around it *)
    assert (E2 : blocks g2 = blocks g1 \/ exists i, blocks g2 = upd (blocks g1) (g_cur H g1) (fun l => l ++ [i])).
    { unfold g2, end_func. destruct (_ && _); [right; eexists; reflexivity|left; reflexivity]. }
    assert (ES : nth (g_cur H g) (blocks g3) [] = nth (g_cur H g) (blocks g) []).
    { assert (S1 : nth (g_cur H g) (blocks g1) [] = nth (g_cur H g) (blocks g) []).
      { transitivity (nth (g_cur H g) (blocks g0) []).
        - apply (gr_same _ _ _ _ A1); [lia|]. unfold starts. lia.
        - destruct (cf_block _ _ _ _ CF (g_cur H g)) as (c & C & C'). rewrite C, C' by (cbn [gp set_func position g_cur]; lia). rewrite app_nil_r, EB. apply new_same. exact L. }
      assert (C1 : g_cur H g1 <> g_cur H g). { destruct (gr_cur _ _ _ _ A1) as [C|C]; [cbn [starts] in C; lia|lia]. }
      cbn [g3 position g_blocks]. destruct E2 as [-> |(i & ->)]; [exact S1|]. rewrite nth_upd. destruct (g_cur H g =? g_cur H g1) eqn:E; [apply Nat.eqb_eq in E; congruence|exact S1]. }
    assert (G2F : g_func H g2 = g_func H g) by (unfold g2, end_func; destruct (_ && _); reflexivity).
    assert (G2R : g_reg H g <= g_reg H g2).
    { assert (E : g_reg H g2 = g_reg H g1) by (unfold g2, end_func; destruct (_ && _); reflexivity). rewrite E. pose proof (gr_reg _ _ _ _ A1) as Q. pose proof (cf_reg _ _ _ _ CF) as Q'. cbn [gp set_func position g_reg] in Q'. rewrite P3 in Q'. change (g_reg H ga) with (g_reg H g) in Q'. lia. }
    apply lands_first with (regs := regs) (m := m) (out := r_out H s) (code := rest g3) (g := g3).
    + rewrite (rest_eq H M g g3); [apply back_refl|reflexivity|exact ES].
    + apply frame_refl.
    + apply agree_refl.
    + exact G2R.
    + apply loops_trans with g0; [apply loops_eq; rewrite ?(cf_cond _ _ _ _ CF), ?(cf_end _ _ _ _ CF); cbn [gp set_func position g_end g_cond]; rewrite ?P6, ?P7; reflexivity|].
      eapply loops_trans; [eapply gens_loops; exact GBO|]. eapply loops_trans; [apply (loops_end H f fl1 (g_func H g))|now apply loops_eq].
    + change (r_out H s) with (r_out H (declare H s k ps (tn_child n))). apply IH; auto.
      * apply level_to with s g; [exact LV|reflexivity|exact G2F].
      * change (g_func H g3) with (g_func H g2). rewrite G2F. apply declare_inv; [|exact DC]. eapply inv_more; [|exact I]. exact G2R.
Qed.
Lemma sim_external_proto : forall s s' n r k ps o, tn_type n = N_FUNCTION_PROTO -> tn_pay n = XProto k ps -> is_external ys k = true ->
  P_exec s r o s' -> P_exec s (n :: r) o s'.
Proof.
  intros s s' n r k ps o TN TP EX IH g g' fl X args regs m base G L B LV I. right_rule G.
  - match goal with E : gens GS r _ _ _ |- _ => rename E into GR end. apply inv_rest in I.
    apply lands_same with (code := rest (set_fun H g k0 None)) (g := set_fun H g k0 None); [reflexivity|reflexivity|now apply loops_eq|]. apply IH; auto.
  - match goal with E : tn_pay n = XProto ?a ?b |- _ => rewrite TP in E; injection E as <- <- end.
    match goal with E : sym_func k = Ok _ |- _ => rewrite (external_is _ _ _ E) in EX end. congruence.
Qed.
End Sim.
