(** Statements: the generated code does what Spec_Run.v says. *)
From Coq Require Import List Arith NArith ZArith Bool Lia.
From Verif Require Import Base Model_Literal Model_Parse Model_Sem Spec_Sem Spec_Sem2 Spec_Run Model_Helpers Proof_Helpers Spec_IR Model_LLVM Spec_LLVM Proof_LLVM Proof_LLVM2 Proof_LLVM3 Proof_LLVM4 Proof_LLVM5 Proof_LLVM6.
Import ListNotations.
Open Scope list_scope.
Open Scope nat_scope.

Section Sim.
Variable H : host.
Variable fold : iop -> operand H -> operand H -> option (operand H).
Variable ys : list symbol.
Variable debug : bool.
Variable M : module H.
Variable R : nat -> option (ref H).
Hypothesis FW : folds_well H fold.
Hypothesis INJ : forall k k' i l l', R k = Some (mkref H (OGlob i) true l) -> R k' = Some (mkref H (OGlob i) true l') -> k = k'.
Hypothesis EXT : forall k x, lookup (m_funs H M) k = Some x -> is_external ys k = true -> x = None.
Local Notation gst := (gst H).
Local Notation val := (sv (h_float H)).
Local Notation sym_var := (sym_var ys).
Local Notation sym_func := (sym_func ys).
Local Notation gen_expr := (gen_expr H fold ys).
Local Notation typed := (typed ys).
Local Notation const := (const ys).
Local Notation grow := (grow H).
Local Notation in_range := (in_range H).
Local Notation here := (here H).
Local Notation blocks := (g_blocks H).
Local Notation count g := (List.length (g_blocks H g)).
Local Notation run := (run H M).
Local Notation gens := (gens H fold ys debug).
Local Notation eval := (eval H ys (exact1 H) (exact2 H)).
Local Notation evals := (evals H ys (exact1 H) (exact2 H)).
Local Notation exec := (exec H ys (exact1 H) (exact2 H)).
Local Notation branch := (branch H ys (exact1 H) (exact2 H)).
Local Notation otherwise := (otherwise H ys (exact1 H) (exact2 H)).
Local Notation after := (after H ys (exact1 H) (exact2 H)).
Local Notation tv := (tv H).
Local Notation mem := (mem H).
Local Notation below := (below H M R).
Local Notation rest := (rest H M).
Local Notation block := (block H M).
Local Notation back := (back H M).
Local Notation agree := (agree H).
Local Notation frame := (frame H).
Local Notation bounded := (bounded H).
Local Notation inv := (inv H fold ys debug M R).
Local Notation declared := (declared H fold ys debug M R).
Local Notation level := (level H).
Local Notation defs := (defs ys).

Local Notation lands := (lands H fold ys debug M R).
Local Notation P_eval := (P_eval H fold ys debug M R).
Local Notation P_exec := (P_exec H fold ys debug M R).
Local Notation P_branch := (P_branch H fold ys debug M R).
Local Notation P_otherwise := (P_otherwise H fold ys debug M R).
Local Notation P_after := (P_after H fold ys debug M R).

(** * Shapes *)

Lemma exec_plain : forall l s o s', exec s l o s' -> branch_follows l = false.
Proof.
  induction l as [|n r IH]; intros s o s' E; [reflexivity|]. cbn [branch_follows].
  inversion E; subst; try (match goal with T : tn_type n = _ |- _ => rewrite T; reflexivity end).
  match goal with T : In _ _ \/ _ |- _ => destruct T as [I|(T & _)]; [cbn [In] in I; destruct I as [T|[T|[T|[]]]]; rewrite <- T|rewrite T] end; try reflexivity. eauto.
Qed.
Lemma follows_gens : forall m l g g' fl, gens m l g g' fl -> match m with GB _ _ => branch_follows l = true | _ => True end.
Proof.
  intros m l g g' fl G. induction G; try exact Logic.I; cbn [branch_follows]; match goal with T : tn_type _ = _ |- _ => rewrite T end; auto.
Qed.
Lemma behind_suffix : forall r, exists l, r = l ++ behind r.
Proof.
  induction r as [|n r IH]; [exists []; reflexivity|]. destruct IH as (l & E). cbn [behind].
  destruct (tn_type n); try (exists []; reflexivity); try (exists (n :: l); cbn [app]; now rewrite <- E). exists [n]. reflexivity.
Qed.
Lemma defs_app : forall f a b, defs f (a ++ b) = defs f a ++ defs f b.
Proof. intros [k|] a b; [reflexivity|]. apply flat_map_app. Qed.
Lemma inv_behind : forall f r X s args regs m base n, inv (defs f r ++ X) s args regs m base n -> inv (defs f (behind r) ++ X) s args regs m base n.
Proof.
  intros f r X s args regs m base n I. destruct (behind_suffix r) as (l & E). rewrite E, defs_app, <- app_assoc in I. eapply inv_drop. exact I.
Qed.
(** The variables of a block are among those of its statement. *)
Lemma defs_child : forall f n r X e, tn_type n <> N_FUNCTION_PROTO -> (forall k x, tn_pay n <> XDef k x) -> e = defs f (n :: r) ++ X ->
  e = defs f (tn_child n) ++ (defs f r ++ X).
Proof.
  intros [k|] [t tk p c] r X e T P ->; [reflexivity|]. cbn [tn_type tn_pay tn_child] in *. cbn [Proof_LLVM4.defs flat_map mut_defs]. rewrite app_assoc. f_equal. f_equal.
  destruct p; try (exfalso; eapply P; reflexivity); destruct t; try (now elim T); reflexivity.
Qed.
Lemma level_to : forall s s' g g', level s g -> (r_loc H s' = None <-> r_loc H s = None) -> g_func H g' = g_func H g -> level s' g'.
Proof. unfold Proof_LLVM4.level. intros s s' g g' A B ->. tauto. Qed.


(** * Simple statements *)

Ltac right_rule G :=
  inversion G; subst; try congruence;
  try match goal with T : In (tn_type ?n) _ \/ _, U : tn_type ?n = _ |- _ => exfalso; rewrite U in T; destruct T as [T|(T & T')]; [cbn [In] in T; intuition discriminate|congruence] end.

Lemma sim_end : forall s, P_exec s [] ONormal s.
Proof.
  intros s g g' fl X args regs m base G L B LV I. inversion G; subst. exists regs, m.
  assert (I' : inv X s args regs m base (g_reg H g')) by (destruct (g_func H g'); exact I).
  refine (conj (frame_refl _ _ _) (conj (agree_refl _ _ _) (conj I' (conj eq_refl _)))). apply back_refl.
Qed.
Lemma inv_rest : forall f n r X s args regs m base i, inv (defs f (n :: r) ++ X) s args regs m base i -> inv (defs f r ++ X) s args regs m base i.
Proof. intros f n r X s args regs m base i I. rewrite defs_cons, <- app_assoc in I. eapply inv_drop. exact I. Qed.

Lemma sim_skip : forall s s' n r o, In (tn_type n) [N_COMMENT; N_NOOP; N_IMPORT] \/ tn_type n = N_VAR_DEF /\ tn_pay n = XAlias -> P_exec s r o s' -> P_exec s (n :: r) o s'.
Proof.
  intros s s' n r o T IH g g' fl X args regs m base G L B LV I. apply inv_rest in I.
  assert (C : gens GS r g g' fl \/ tn_type n = N_NOOP /\ gens GS r (gen_noop H debug g) g' fl).
  { destruct T as [T|(T & T')]; [cbn [In] in T; destruct T as [T|[T|[T|[]]]]; symmetry in T|]; right_rule G; auto. }
  destruct C as [G1|(TN & G1)]; [now apply IH|].
  assert (NC : gen_noop H debug g = g \/ gen_noop H debug g = emit H (emit H (set_next H g (S (g_reg H g))) (IAlloca (g_reg H g) TInt)) (IStore (OVal (SvInt 0)) (OReg (g_reg H g)))).
  { unfold gen_noop. destruct debug; auto. }
  destruct NC as [NC|NC]; rewrite NC in G1; [now apply IH|].
  set (ga := emit H (set_next H g (S (g_reg H g))) (IAlloca (g_reg H g) TInt)) in *. set (gb := emit H ga (IStore (OVal (SvInt 0)) (OReg (g_reg H g)))) in *.
  assert (SA : same H g ga) by (apply (same_emit_reg H g (fun n0 => IAlloca n0 TInt) L)). pose proof (same_range _ _ _ SA L) as LA.
  assert (SB : same H ga gb) by apply same_emit. pose proof (same_range _ _ _ SB LA) as LB.
  assert (RB : ranged H GS gb) by (intros z ->; exact LB).
  pose proof (below_back _ _ _ _ _ _ (gens_grow _ _ _ _ _ _ _ _ _ G1 RB) B) as BB. pose proof (below_emit _ _ _ _ _ BB) as BA.
  set (c0 := List.length (m_cells H m)). set (m1 := mkmem H (m_glob H m) (upd (m_cells H m ++ [Poison]) c0 (fun _ => V (SvInt 0)))).
  set (r1 := set_reg H regs (g_reg H g) (Addr (ACell c0))).
  assert (AG : agree (g_reg H g) regs r1) by (apply agree_set; lia).
  assert (CE : forall c, c < c0 -> nth_error (m_cells H m1) c = nth_error (m_cells H m) c).
  { intros c LC. cbn [m1 m_cells]. rewrite nth_error_upd. destruct (c =? c0) eqn:E; [apply Nat.eqb_eq in E; lia|]. apply nth_error_app1. exact LC. }
  assert (LE : List.length (m_cells H m1) = S c0) by (cbn [m1 m_cells]; rewrite upd_length, app_length; cbn; fold c0; lia).
  assert (I1 : inv (defs (g_func H g) r ++ X) s args r1 m1 base (g_reg H g)).
  { eapply inv_regs; [exact AG|]. destruct I as [A1 A2 A3 A4 A5 A6 A7 A8 A9]. constructor; auto.
    - intros k v E C. destruct (A6 k v E C) as (rr & c & l & B1 & B2 & B3 & B4 & B5). exists rr, c, l. repeat split; auto. rewrite CE; [exact B5|]. apply nth_error_Some. congruence.
    - rewrite LE. fold c0 in A9. lia. }
  assert (F1 : frame base m m1). { split; [|rewrite LE; fold c0; lia]. intros c LC. apply CE. pose proof (iv_base _ _ _ _ _ _ _ _ _ _ _ _ _ I) as LBS. fold c0 in LBS. lia. }
  apply lands_first with (regs := r1) (m := m1) (out := r_out H s) (code := rest gb) (g := gb); auto.
  - intros x mf outf HR. change (rest g) with (rest (set_next H g (S (g_reg H g)))). rewrite (rest_emit _ _ _ _ _ BA L). apply ru_alloca. fold c0 r1. fold ga.
    rewrite (rest_emit _ _ _ _ _ BB LA). eapply ru_store with (a := Addr (ACell c0)) (b := V (SvInt 0)) (m1 := m1); [reflexivity|cbn [operand_value]; apply set_here| |exact HR].
    cbn [store m_cells m_glob]. rewrite app_length. cbn [List.length]. fold c0. replace (c0 <? c0 + 1) with true by (symmetry; apply Nat.ltb_lt; lia). reflexivity.
  - cbn [gb ga emit set_blocks set_next g_reg]. lia.
  - now apply loops_eq.
  - apply IH; auto. change (g_func H gb) with (g_func H g). eapply inv_more; [|exact I1]. cbn [gb ga emit set_blocks set_next g_reg]. lia.
Qed.

Lemma sim_define : forall s s1 s' n r k e v o, tn_type n = N_VAR_DEF -> tn_pay n = XDef k e -> eval s e v s1 -> P_eval s e v s1 ->
  P_exec (define H s1 k v) r o s' -> P_exec s (n :: r) o s'.
Proof.
  intros s s1 s' n r k e v o TN TP EV IH1 IH2 g g' fl X args regs m base G L B LV I. right_rule G.
  match goal with E : tn_pay n = XDef k0 e0 |- _ => rewrite TP in E; injection E as <- <- end.
  match goal with E : gen_expr e g = Ok (?a, ?b, ?c), F : setup_var_llvm H ys _ _ _ = Ok ?d, Q : gens GS r _ _ _, K : sym_var k = Ok ?vv, FR : lookup (g_refs H g) k = None, TY : typed e, CH : tn_child n = [] |- _ =>
    rename E into GE, F into GV, Q into GR, K into SV, FR into FRE, TY into TYP, CH into CHI; rename a into op; rename b into t; rename c into g1; rename d into g2 end.
  pose proof (same_expr _ _ _ _ _ _ _ _ L GE) as S1. pose proof (same_range _ _ _ S1 L) as L1.
  assert (FR1 : lookup (g_refs H g1) k = None) by (rewrite (sm_refs _ _ _ S1); exact FRE).
  pose proof (setup_grow _ _ _ _ _ _ _ L1 SV FR1 GV) as A2. assert (R1 : ranged H GS g1) by (intros z ->; exact L1).
  assert (L2 : in_range g2) by (apply (gr_ok _ _ _ _ A2 R1)). assert (R2 : ranged H GS g2) by (intros z ->; exact L2).
  pose proof (below_back _ _ _ _ _ _ (gens_grow _ _ _ _ _ _ _ _ _ GR R2) B) as B2. pose proof (below_back _ _ _ _ _ _ A2 B2) as B1.
  destruct (IH1 _ _ _ _ _ args regs m base _ GE TYP L B1 (le_n _) I) as (r1 & m1 & _ & C2 & C3 & C4 & C5 & C6 & C7).
  pose proof (gr_reg _ _ _ _ (sm_grow _ _ _ S1)) as LR1. pose proof (gr_reg _ _ _ _ A2) as LR2. pose proof (gr_func _ _ _ _ (sm_grow _ _ _ S1)) as F1. pose proof (gr_func _ _ _ _ A2) as F2.
  assert (LV1 : level s1 g1) by (apply level_to with s g; [exact LV|rewrite (level_eval H ys _ _ _ _ EV); tauto|exact F1]).
  rewrite defs_cons, <- app_assoc, <- F1 in C6.
  destruct (define_sim H fold ys debug M R INJ n k e op g1 g2 _ _ (defs (g_func H g1) r ++ X) s1 args r1 m1 base (r_out H s1) v GV SV FR1 L1 B2 LV1 TN TP CHI eq_refl (inv_more _ _ _ _ _ _ _ _ _ _ _ _ _ _ LR1 C6) C2 C3)
    as (r2 & m2 & D1 & D2 & D3 & D4).
  apply lands_first with (regs := r2) (m := m2) (out := r_out H s1) (code := rest g2) (g := g2).
  - eapply back_trans; [exact C7|exact D4].
  - eapply frame_trans; eauto.
  - eapply agree_trans; [exact LR1|exact C5|exact D2].
  - lia.
  - eapply loops_trans; [eapply loops_expr; exact GE|eapply loops_setup; eauto].
  - assert (EO : r_out H (define H s1 k v) = r_out H s1) by (unfold define; destruct (r_loc H s1); reflexivity). rewrite <- EO. apply IH2; auto.
    + apply level_to with s1 g1; auto. unfold define. destruct (r_loc H s1) eqn:RL; cbn [set_loc set_glob r_loc]; rewrite ?RL; split; auto; discriminate.
    + rewrite F2. exact D3.
Qed.

Lemma sim_assign : forall s s1 s2 s' n r k e v o, tn_type n = N_VAR_ASSIGN -> tn_pay n = XSet k e -> eval s e v s1 -> P_eval s e v s1 ->
  assign H s1 k v = Some s2 -> P_exec s2 r o s' -> P_exec s (n :: r) o s'.
Proof.
  intros s s1 s2 s' n r k e v o TN TP EV IH1 AS IH2 g g' fl X args regs m base G L B LV I. right_rule G.
  match goal with E : tn_pay n = XSet k0 e0 |- _ => rewrite TP in E; injection E as <- <- end.
  match goal with E : gen_expr e g = Ok (?a, ?b, ?c), F : assign_value_to_var H ys _ _ _ = Ok ?d, Q : gens GS r _ _ _, K : const k = false, TY : typed e |- _ =>
    rename E into GE, F into GV, Q into GR, K into CK, TY into TYP; rename a into op; rename b into t; rename c into g1; rename d into g2 end.
  apply inv_rest in I.
  pose proof (same_expr _ _ _ _ _ _ _ _ L GE) as S1. pose proof (same_range _ _ _ S1 L) as L1.
  assert (S2 : same H g1 g2) by (destruct (assign_case _ _ _ _ _ _ CK GV) as (vr & rf & _ & _ & _ & ->); apply same_emit).
  pose proof (same_range _ _ _ S2 L1) as L2. assert (R2 : ranged H GS g2) by (intros z ->; exact L2).
  pose proof (below_back _ _ _ _ _ _ (gens_grow _ _ _ _ _ _ _ _ _ GR R2) B) as B2. pose proof (below_back _ _ _ _ _ _ (sm_grow _ _ _ S2) B2) as B1.
  destruct (IH1 _ _ _ _ _ args regs m base _ GE TYP L B1 (le_n _) I) as (r1 & m1 & _ & C2 & C3 & C4 & C5 & C6 & C7).
  pose proof (gr_reg _ _ _ _ (sm_grow _ _ _ S1)) as LR1. pose proof (gr_reg _ _ _ _ (sm_grow _ _ _ S2)) as LR2.
  pose proof (gr_func _ _ _ _ (sm_grow _ _ _ S1)) as F1. pose proof (gr_func _ _ _ _ (sm_grow _ _ _ S2)) as F2.
  destruct (assign_sim H fold ys debug M R INJ k op g1 g2 _ s1 s2 args r1 m1 base (r_out H s1) v _ GV CK L1 B2 LR1 C6 C2 AS) as (m2 & D1 & D2 & D3 & D4 & D5).
  apply lands_first with (regs := r1) (m := m2) (out := r_out H s1) (code := rest g2) (g := g2).
  - eapply back_trans; [exact C7|exact D3].
  - eapply frame_trans; eauto.
  - exact C5.
  - lia.
  - eapply loops_trans; [eapply loops_expr; exact GE|]. apply loops_eq; [exact (sm_end _ _ _ S2)|exact (sm_cond _ _ _ S2)].
  - rewrite <- D4. apply IH2; auto.
    + apply level_to with s g; auto; [|congruence]. rewrite D5. rewrite (level_eval H ys _ _ _ _ EV). tauto.
    + rewrite F2, F1. eapply inv_more; [|exact D2]. lia.
Qed.

Lemma sim_stmt : forall s s1 s' n r e v o, tn_type n = N_EXPR -> tn_pay n = XExpr e -> eval s e v s1 -> P_eval s e v s1 -> P_exec s1 r o s' -> P_exec s (n :: r) o s'.
Proof.
  intros s s1 s' n r e v o TN TP EV IH1 IH2 g g' fl X args regs m base G L B LV I. right_rule G.
  match goal with E : tn_pay n = XExpr e0 |- _ => rewrite TP in E; injection E as <- end.
  match goal with E : gen_expr e g = Ok (?a, ?b, ?c), Q : gens GS r _ _ _, TY : typed e |- _ =>
    rename E into GE, Q into GR, TY into TYP; rename a into op; rename b into t; rename c into g1 end.
  apply inv_rest in I.
  pose proof (same_expr _ _ _ _ _ _ _ _ L GE) as S1. pose proof (same_range _ _ _ S1 L) as L1. assert (R1 : ranged H GS g1) by (intros z ->; exact L1).
  pose proof (below_back _ _ _ _ _ _ (gens_grow _ _ _ _ _ _ _ _ _ GR R1) B) as B1.
  destruct (IH1 _ _ _ _ _ args regs m base _ GE TYP L B1 (le_n _) I) as (r1 & m1 & _ & C2 & C3 & C4 & C5 & C6 & C7).
  pose proof (gr_reg _ _ _ _ (sm_grow _ _ _ S1)) as LR1. pose proof (gr_func _ _ _ _ (sm_grow _ _ _ S1)) as F1.
  apply lands_first with (regs := r1) (m := m1) (out := r_out H s1) (code := rest g1) (g := g1); auto.
  - eapply loops_expr; exact GE.
  - apply IH2; auto.
    + apply level_to with s g; auto. rewrite (level_eval H ys _ _ _ _ EV). tauto.
    + rewrite F1. eapply inv_more; [|exact C6]. lia.
Qed.

Lemma sim_return : forall s s1 n r e v, tn_type n = N_RETURN -> tn_pay n = XExpr e -> P_eval s e v s1 -> P_exec s (n :: r) (OReturn (Some v)) s1.
Proof.
  intros s s1 n r e v TN TP IH1 g g' fl X args regs m base G L B LV I. right_rule G.
  match goal with E : tn_pay n = XExpr e0 |- _ => rewrite TP in E; injection E as <- end.
  match goal with E : gen_expr e g = Ok (?a, ?b, ?c), TY : typed e |- _ => rename E into GE, TY into TYP; rename a into op; rename b into t; rename c into g1 end.
  apply inv_drop in I.
  pose proof (same_expr _ _ _ _ _ _ _ _ L GE) as S1. pose proof (same_range _ _ _ S1 L) as L1. pose proof (below_emit _ _ _ _ _ B) as B1.
  destruct (IH1 _ _ _ _ _ args regs m base _ GE TYP L B1 (le_n _) I) as (r1 & m1 & _ & C2 & C3 & C4 & C5 & C6 & C7).
  pose proof (gr_reg _ _ _ _ (sm_grow _ _ _ S1)) as LR1.
  exists r1, m1. refine (conj C4 (conj C5 (conj _ _))); [eapply inv_more; [|exact C6]; exact LR1|].
  cbn [done option_map]. apply C7. rewrite (rest_emit _ _ _ _ _ B L1). now apply ru_ret.
Qed.
Lemma sim_leave : forall s n r, tn_type n = N_RETURN -> tn_pay n = XNone -> P_exec s (n :: r) (OReturn None) s.
Proof.
  intros s n r TN TP g g' fl X args regs m base G L B LV I. right_rule G. apply inv_drop in I.
  exists regs, m. refine (conj (frame_refl _ _ _) (conj (agree_refl _ _ _) (conj I _))).
  cbn [done option_map]. rewrite (rest_emit _ _ _ _ _ B L). apply ru_ret_void.
Qed.
Lemma sim_break : forall s n r, tn_type n = N_BREAK -> P_exec s (n :: r) OBreak s.
Proof.
  intros s n r TN g g' fl X args regs m base G L B LV I. right_rule G. apply inv_drop in I.
  match goal with E : g_end H g = Some ?x |- _ => rename x into b; rename E into GE end.
  exists regs, m. refine (conj (frame_refl _ _ _) (conj (agree_refl _ _ _) (conj I _))). exists b. split; [exact GE|]. intro NE.
  intros x mf outf HR. rewrite (rest_emit _ _ _ _ _ B L). eapply ru_br; [exact NE|exact HR].
Qed.
Lemma sim_continue : forall s n r, tn_type n = N_CONTINUE -> P_exec s (n :: r) OContinue s.
Proof.
  intros s n r TN g g' fl X args regs m base G L B LV I. right_rule G. apply inv_drop in I.
  match goal with E : g_cond H g = Some ?x |- _ => rename x into b; rename E into GE end.
  exists regs, m. refine (conj (frame_refl _ _ _) (conj (agree_refl _ _ _) (conj I _))). exists b. split; [exact GE|]. intro NE.
  intros x mf outf HR. rewrite (rest_emit _ _ _ _ _ B L). eapply ru_br; [exact NE|exact HR].
Qed.
End Sim.
