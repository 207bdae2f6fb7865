(** Loops and whole programs: the generated code does what Spec_Run.v says. *)
From Coq Require Import List Arith NArith ZArith Bool Lia.
From Verif Require Import Base Model_Literal Model_Parse Model_Sem Spec_Sem Spec_Sem2 Spec_Run Model_Helpers Proof_Helpers Spec_IR Model_LLVM Spec_LLVM Proof_LLVM Proof_LLVM2 Proof_LLVM3 Proof_LLVM4 Proof_LLVM5 Proof_LLVM6 Proof_LLVM7 Proof_LLVM8.
Import ListNotations.
Open Scope list_scope.
Open Scope nat_scope.

Section Sim.
Variable H : host.
Variable fold : iop -> operand H -> operand H -> option (operand H).
Variable ys : list symbol.
Variable debug : bool.
Variable M : module H.
Variable R : nat -> option (ref H).
Hypothesis FW : folds_well H fold.
Hypothesis INJ : forall k k' i l l', R k = Some (mkref H (OGlob i) true l) -> R k' = Some (mkref H (OGlob i) true l') -> k = k'.
Hypothesis EXT : forall k x, lookup (m_funs H M) k = Some x -> is_external ys k = true -> x = None.
Local Notation gst := (gst H).
Local Notation val := (sv (h_float H)).
Local Notation sym_var := (sym_var ys).
Local Notation sym_func := (sym_func ys).
Local Notation gen_expr := (gen_expr H fold ys).
Local Notation typed := (typed ys).
Local Notation const := (const ys).
Local Notation grow := (grow H).
Local Notation in_range := (in_range H).
Local Notation here := (here H).
Local Notation blocks := (g_blocks H).
Local Notation count g := (List.length (g_blocks H g)).
Local Notation run := (run H M).
Local Notation gens := (gens H fold ys debug).
Local Notation eval := (eval H ys (exact1 H) (exact2 H)).
Local Notation evals := (evals H ys (exact1 H) (exact2 H)).
Local Notation exec := (exec H ys (exact1 H) (exact2 H)).
Local Notation branch := (branch H ys (exact1 H) (exact2 H)).
Local Notation otherwise := (otherwise H ys (exact1 H) (exact2 H)).
Local Notation after := (after H ys (exact1 H) (exact2 H)).
Local Notation tv := (tv H).
Local Notation mem := (mem H).
Local Notation below := (below H M R).
Local Notation rest := (rest H M).
Local Notation block := (block H M).
Local Notation back := (back H M).
Local Notation agree := (agree H).
Local Notation frame := (frame H).
Local Notation bounded := (bounded H).
Local Notation inv := (inv H fold ys debug M R).
Local Notation declared := (declared H fold ys debug M R).
Local Notation level := (level H).
Local Notation defs := (defs ys).

Local Notation lands := (lands H fold ys debug M R).
Local Notation P_eval := (P_eval H fold ys debug M R).
Local Notation P_exec := (P_exec H fold ys debug M R).
Local Notation P_branch := (P_branch H fold ys debug M R).
Local Notation P_otherwise := (P_otherwise H fold ys debug M R).
Local Notation P_after := (P_after H fold ys debug M R).


Local Notation exec_same := (level_exec H ys).


(** * Loops *)

Record loop (n : tnode) (r : list tnode) (e : texpr) (g g' : gst) (fl : flow) (g1 g2 g3 gd : gst) (op : operand H) (t : option ty) (fl1 : flow) : Prop := mkloop {
  lp_head : g1 = position H (loop_head H g) (count g);
  lp_expr : gen_expr e g1 = Ok (op, t, g2);
  lp_typed : typed e;
  lp_body : gens GS (tn_child n) (position H (emit H g2 (ICondBr op (S (count g)) (S (S (count g))))) (S (count g))) g3 fl1;
  lp_rest : gens GS r gd g' fl;
  lp_range1 : in_range g1;
  lp_range2 : in_range g2;
  lp_rangeb : S (count g) < count (emit H g2 (ICondBr op (S (count g)) (S (S (count g)))));
  lp_range3 : in_range g3;
  lp_ranged : in_range gd;
  lp_cur : g_cur H gd = S (S (count g));
  lp_below2 : below (emit H g2 (ICondBr op (S (count g)) (S (S (count g)))));
  lp_below3 : below (branch_to H (count g) (g3, fl1));
  lp_belowd : below gd;
  lp_reg1 : g_reg H g1 = g_reg H g;
  lp_reg2 : g_reg H g <= g_reg H g2;
  lp_regd : g_reg H g <= g_reg H gd;
  lp_reg' : g_reg H g <= g_reg H g';
  lp_func2 : g_func H g2 = g_func H g;
  lp_funcd : g_func H gd = g_func H g;
  lp_end : g_end H g2 = Some (S (S (count g)));
  lp_cond : g_cond H g2 = Some (count g);
  lp_loops : loops H g gd;
  lp_first : rest g = IBr (count g) :: rest (position H g1 (g_cur H g));
  lp_c : nth_error (m_blocks H M) (count g) = Some (rest g1);
  lp_b : nth_error (m_blocks H M) (S (count g)) = Some (rest (position H (emit H g2 (ICondBr op (S (count g)) (S (S (count g))))) (S (count g))));
  lp_e : nth_error (m_blocks H M) (S (S (count g))) = Some (rest gd) }.

Lemma new_same_at : forall g b l, nth b (blocks g) [] = l -> b < count g -> nth b (blocks (snd (new_block H g))) [] = l.
Proof. intros g b l E L. rewrite new_same; assumption. Qed.
Lemma head_empty : forall g b, in_range g -> count g <= b < count g + 3 -> nth b (blocks (loop_head H g)) [] = [].
Proof.
  intros g b L C. unfold Proof_LLVM.in_range in L. unfold loop_head. cbn [emit set_blocks set_loop g_blocks g_cur new_block snd]. rewrite nth_upd.
  destruct (b =? g_cur H g) eqn:E; [apply Nat.eqb_eq in E; lia|]. rewrite <- !app_assoc. rewrite app_nth2 by lia. cbn [app].
  destruct (b - count g) as [|[|[|k]]] eqn:K; try reflexivity. lia.
Qed.
Lemma while_facts : forall n r e g g' fl, gens GS (n :: r) g g' fl -> tn_type n = N_WHILE -> tn_pay n = XExpr e -> in_range g -> below g' ->
  exists g1 g2 g3 gd op t fl1, loop n r e g g' fl g1 g2 g3 gd op t fl1 /\ (g_func H g = None -> flat_map (mut_defs ys) (tn_child n) = []).
Proof.
  intros n r e g g' fl G TN TP L B.
  assert (X : exists g1 g2 g3 gd op t fl1, typed e /\ (g_func H g = None -> flat_map (mut_defs ys) (tn_child n) = []) /\ g1 = position H (loop_head H g) (count g) /\
    gen_expr e g1 = Ok (op, t, g2) /\ gens GS (tn_child n) (position H (emit H g2 (ICondBr op (S (count g)) (S (S (count g))))) (S (count g))) g3 fl1 /\
    gd = set_loop H (position H (branch_to H (count g) (g3, fl1)) (S (S (count g)))) None None /\ gens GS r gd g' fl).
  { inversion G; subst; try congruence.
    - exfalso. match goal with T : In (tn_type n) _ \/ _ |- _ => rewrite TN in T; destruct T as [T|(T & _)]; [cbn [In] in T; intuition discriminate|discriminate T] end.
    - match goal with E : tn_pay n = XExpr ?x |- _ => rewrite TP in E; injection E as <- end. do 7 eexists. eauto 12. }
  destruct X as (g1 & g2 & g3 & gd & op & t & fl1 & TY & MD & E1 & GE & GBO & ED & GR). exists g1, g2, g3, gd, op, t, fl1. split; [|exact MD].
  assert (R0 : ranged H GS g) by (intros z ->; exact L). pose proof (loop_head_grow H g R0) as A0. pose proof (loop_head_count H g) as K0.
  assert (RG1 : in_range g1) by (rewrite E1; unfold Proof_LLVM.in_range; cbn [position g_cur g_blocks]; lia).
  pose proof (same_expr _ _ _ _ _ _ _ _ RG1 GE) as S2. pose proof (same_range _ _ _ S2 RG1) as RG2.
  set (g2' := emit H g2 (ICondBr op (S (count g)) (S (S (count g))))) in *.
  assert (K2 : count g2' = count g + 3). { unfold g2'. rewrite emit_count, (sm_len _ _ _ S2), E1. cbn [position g_blocks]. lia. }
  assert (RB : ranged H GS (position H g2' (S (count g)))) by (intros z ->; cbn [position g_cur g_blocks]; lia).
  pose proof (gens_grow _ _ _ _ _ _ _ _ _ GBO RB) as A3. assert (RG3 : in_range g3) by (apply (gr_ok _ _ _ _ A3 RB)).
  pose proof (gr_len _ _ _ _ A3) as K3. cbn [position g_blocks] in K3.
  pose proof (branch_to_grow H (count g) g3 fl1) as A4. set (g4 := branch_to H (count g) (g3, fl1)) in *.
  assert (K4 : count g4 = count g3) by apply branch_count.
  assert (KD : count gd = count g3) by (rewrite ED; exact K4).
  assert (CD : g_cur H gd = S (S (count g))) by (rewrite ED; reflexivity).
  assert (RGD : in_range gd) by (unfold Proof_LLVM.in_range; rewrite CD, KD; lia).
  assert (RD : ranged H GS gd) by (intros z ->; exact RGD). pose proof (gens_grow _ _ _ _ _ _ _ _ _ GR RD) as A5.
  pose proof (below_back _ _ _ _ _ _ A5 B) as BD. assert (B4 : below g4) by (rewrite ED in BD; eapply below_position; eapply below_set_loop; exact BD).
  pose proof (below_branch_to _ _ _ _ _ _ B4) as B3. pose proof (below_position _ _ _ _ _ (below_back _ _ _ _ _ _ A3 B3)) as B2.
  pose proof (below_emit _ _ _ _ _ B2) as B2'. pose proof (below_back _ _ _ _ _ _ (sm_grow _ _ _ S2) B2') as B1.
  assert (B0 : below (loop_head H g)) by (rewrite E1 in B1; eapply below_position; exact B1).
  assert (LG1 : g_reg H g1 = g_reg H g) by (rewrite E1; reflexivity).
  assert (LG2 : g_reg H g <= g_reg H g2) by (rewrite <- LG1; exact (gr_reg _ _ _ _ (sm_grow _ _ _ S2))).
  assert (LG3 : g_reg H g2 <= g_reg H g3) by exact (gr_reg _ _ _ _ A3).
  assert (LGD : g_reg H g <= g_reg H gd). { rewrite ED. cbn [set_loop position g_reg]. pose proof (gr_reg _ _ _ _ A4). lia. }
  assert (F2 : g_func H g2 = g_func H g). { rewrite (gr_func _ _ _ _ (sm_grow _ _ _ S2)), E1. reflexivity. }
  assert (FD : g_func H gd = g_func H g). { rewrite ED. cbn [set_loop position g_func]. rewrite (gr_func _ _ _ _ A4), (gr_func _ _ _ _ A3). exact F2. }
  (* blocks *)
  assert (N1 : forall b, count g <= b < count g + 3 -> nth b (blocks g1) [] = []) by (intros b C; rewrite E1; apply head_empty; [exact L|exact C]).
  assert (C1 : g_cur H g1 = count g) by (rewrite E1; reflexivity).
  assert (N2 : forall b, count g < b < count g + 3 -> nth b (blocks g2') [] = []).
  { intros b C. assert (S2' : same H g1 g2') by (eapply same_trans; [exact RG1|exact S2|apply same_emit]).
    transitivity (nth b (blocks g1) []); [|apply N1; lia]. apply (gr_same _ _ _ _ (sm_grow _ _ _ S2')); [rewrite <- (sm_len _ _ _ S2'), K2; lia|]. unfold Proof_LLVM.here. rewrite C1. lia. }
  assert (ND : nth (S (S (count g))) (blocks gd) [] = []).
  { rewrite ED. cbn [set_loop position g_blocks]. transitivity (nth (S (S (count g))) (blocks g3) []).
    - apply (gr_same _ _ _ _ A4); [lia|]. unfold Proof_LLVM.here. destruct (gr_cur _ _ _ _ A3) as [C|C]; [cbn [starts position g_cur] in C; lia|cbn [position g_blocks] in C; lia].
    - transitivity (nth (S (S (count g))) (blocks g2') []); [|apply N2; lia]. apply (gr_same _ _ _ _ A3); [cbn [position g_blocks]; lia|]. cbn [starts position g_cur]. lia. }
  constructor; auto.
  - change (S (count g) < count g2'). lia.
  - pose proof (gr_reg _ _ _ _ A5). lia.
  - rewrite (sm_end _ _ _ S2), E1. reflexivity.
  - rewrite (sm_cond _ _ _ S2), E1. reflexivity.
  - rewrite ED. split; intros b E; discriminate E.
  - set (h := set_loop H (snd (new_block H (snd (new_block H (snd (new_block H g)))))) (Some (count g)) (Some (S (S (count g))))).
    assert (EH : loop_head H g = emit H h (IBr (count g))) by reflexivity.
    assert (CH : g_cur H h = g_cur H g) by reflexivity.
    assert (RH : in_range h) by (unfold Proof_LLVM.in_range; rewrite CH; unfold h; cbn [set_loop g_blocks]; rewrite !new_count; unfold Proof_LLVM.in_range in L; lia).
    assert (EE : rest g = rest h).
    { symmetry. apply rest_eq; [reflexivity|]. unfold h. cbn [set_loop g_blocks]. unfold Proof_LLVM.in_range in L. rewrite !new_same; rewrite ?new_count; try lia. reflexivity. }
    rewrite EE. rewrite EH in B0. rewrite (rest_emit _ _ _ h (IBr (count g)) B0 RH). f_equal. rewrite <- EH. apply rest_eq; [rewrite E1; reflexivity|rewrite E1; reflexivity].
  - rewrite (rest_whole H M g1); rewrite C1; [|apply N1; lia]. apply block_is with (R := R) (g := g1); [exact B1|unfold Proof_LLVM.in_range in RG1; lia].
  - fold g2'. rewrite (rest_whole H M (position H g2' (S (count g)))); [|apply N2; cbn [position g_cur]; lia]. apply block_is with (R := R) (g := g2'); [exact B2|cbn [position g_cur]; lia].
  - rewrite (rest_whole H M gd); rewrite CD; [|exact ND]. apply block_is with (R := R) (g := gd); [exact BD|lia].
Qed.

Lemma loop_defs : forall n r f X, tn_type n = N_WHILE -> (exists e, tn_pay n = XExpr e) -> (f = None -> flat_map (mut_defs ys) (tn_child n) = []) ->
  defs f (n :: r) ++ X = defs f r ++ X /\ defs f (tn_child n) = [].
Proof.
  intros n r f X TN (e & TP) MD. assert (E : defs f (tn_child n) = []) by (destruct f; [reflexivity|exact (MD eq_refl)]). split; [|exact E].
  rewrite (defs_child ys f n r X _) by (congruence || (intros; congruence) || reflexivity). now rewrite E.
Qed.

(** The condition. *)
Lemma loop_test : forall n r e g g' fl g1 g2 g3 gd op t fl1 s s1 (b : bool) X args regs m base, loop n r e g g' fl g1 g2 g3 gd op t fl1 ->
  P_eval s e (SvBool b) s1 -> inv X s args regs m base (g_reg H g) ->
  exists r1 m1, frame base m m1 /\ agree (g_reg H g) regs r1 /\ inv X s1 args r1 m1 base (g_reg H g) /\
    back args regs m (r_out H s) (rest g) r1 m1 (r_out H s1)
      (if b then rest (position H (emit H g2 (ICondBr op (S (count g)) (S (S (count g))))) (S (count g))) else rest gd).
Proof.
  intros n r e g g' fl g1 g2 g3 gd op t fl1 s s1 b X args regs m base LP IH I. destruct LP.
  assert (LN : g_reg H g <= g_reg H g1) by lia.
  destruct (IH g1 op t g2 X args regs m base (g_reg H g) lp_expr0 lp_typed0 lp_range4 (below_emit _ _ _ _ _ lp_below4) LN I) as (r1 & m1 & _ & D2 & D3 & D4 & D5 & D6 & D7).
  exists r1, m1. refine (conj D4 (conj _ (conj D6 _))); [eapply agree_less; [exact LN|exact D5]|].
  intros x mf outf HR. rewrite lp_first0. eapply ru_br; [exact lp_c0|]. apply D7. rewrite (rest_emit _ _ _ _ _ lp_below4 lp_range5).
  eapply ru_cond with (t := b); [exact D2| |exact HR]. destruct b; assumption.
Qed.

Lemma back_br : forall args regs m out b tl body regs' m' out' code', nth_error (m_blocks H M) b = Some body ->
  back args regs m out (IBr b :: tl) regs' m' out' code' -> back args regs m out body regs' m' out' code'.
Proof.
  intros args regs m out b tl body regs' m' out' code' NE B x mf outf HR. apply B in HR. inversion HR; subst. congruence.
Qed.
Lemma done_br : forall o args regs m out b tl body ge gc fl regs' m' out' code', nth_error (m_blocks H M) b = Some body ->
  done H M o args regs m out (IBr b :: tl) ge gc fl regs' m' out' code' -> done H M o args regs m out body ge gc fl regs' m' out' code'.
Proof.
  intros o args regs m out b tl body ge gc fl regs' m' out' code' NE D. destruct o as [| | |v]; cbn [done] in *.
  - destruct D as (D1 & D2). split; [exact D1|]. eapply back_br; eauto.
  - destruct D as (c & D1 & D2). exists c. split; [exact D1|]. intro Q. eapply back_br; eauto.
  - destruct D as (c & D1 & D2). exists c. split; [exact D1|]. intro Q. eapply back_br; eauto.
  - inversion D; subst. congruence.
Qed.
Lemma lands_br : forall X s' o args regs m base out b tl body g g' fl, nth_error (m_blocks H M) b = Some body ->
  lands X s' o args regs m base out (IBr b :: tl) g g' fl -> lands X s' o args regs m base out body g g' fl.
Proof. intros X s' o args regs m base out b tl body g g' fl NE (r1 & m1 & A & B & C & D). exists r1, m1. refine (conj A (conj B (conj C _))). eapply done_br; eauto. Qed.

Lemma sim_stop : forall s s1 n r e, tn_type n = N_WHILE -> tn_pay n = XExpr e -> eval s e (SvBool false) s1 -> P_eval s e (SvBool false) s1 ->
  forall o s', P_exec s1 r o s' -> P_exec s (n :: r) o s'.
Proof.
  intros s s1 n r e TN TP EV IH1 o s' IH2 g g' fl X args regs m base G L B LV I.
  destruct (while_facts _ _ _ _ _ _ G TN TP L B) as (g1 & g2 & g3 & gd & op & t & fl1 & LP & MD).
  destruct (loop_defs n r (g_func H g) X TN (ex_intro _ e TP) MD) as (E1 & E2). rewrite E1 in I.
  destruct (loop_test _ _ _ _ _ _ _ _ _ _ _ _ _ _ _ false _ _ _ _ _ LP IH1 I) as (r1 & m1 & F1 & A1 & I1 & BK). cbv iota in BK.
  apply lands_first with (regs := r1) (m := m1) (out := r_out H s1) (code := rest gd) (g := gd); [exact BK|exact F1|exact A1|exact (lp_regd _ _ _ _ _ _ _ _ _ _ _ _ _ LP)|exact (lp_loops _ _ _ _ _ _ _ _ _ _ _ _ _ LP)|].
  destruct LP. apply IH2; auto.
  - apply level_to with s g; [exact LV|rewrite (level_eval H ys _ _ _ _ EV); tauto|assumption].
  - rewrite lp_funcd0. eapply inv_more; [|exact I1]. assumption.
Qed.

(** The body. *)
Lemma loop_body : forall n r e g g' fl g1 g2 g3 gd op t fl1 s0 s s1 o1 X args regs m base, loop n r e g g' fl g1 g2 g3 gd op t fl1 ->
  defs (g_func H g) (tn_child n) = [] -> level s0 g -> r_loc H s = r_loc H s0 -> exec s (tn_child n) o1 s1 -> P_exec s (tn_child n) o1 s1 -> inv X s args regs m base (g_reg H g) ->
  exists r1 m1, frame base m m1 /\ agree (g_reg H g) regs r1 /\ inv X (close H s s1) args r1 m1 base (g_reg H g) /\
    let code := rest (position H (emit H g2 (ICondBr op (S (count g)) (S (S (count g))))) (S (count g))) in
    match o1 with
    | ONormal | OContinue => back args regs m (r_out H s) code r1 m1 (r_out H s1) (rest g1)
    | OBreak => back args regs m (r_out H s) code r1 m1 (r_out H s1) (rest gd)
    | OReturn v => run args regs m (r_out H s) code (option_map V v) m1 (r_out H s1)
    end.
Proof.
  intros n r e g g' fl g1 g2 g3 gd op t fl1 s0 s s1 o1 X args regs m base LP DE LV RL EX IH I. destruct LP.
  set (g2' := emit H g2 (ICondBr op (S (count g)) (S (S (count g))))) in *. set (gb := position H g2' (S (count g))) in *.
  assert (B3 : below g3) by (eapply below_branch_to; exact lp_below5).
  assert (LVB : level s gb) by (apply level_to with s0 g; [exact LV|rewrite RL; tauto|exact lp_func3]).
  assert (IB : inv (defs (g_func H gb) (tn_child n) ++ X) s args regs m base (g_reg H gb)).
  { change (g_func H gb) with (g_func H g2). rewrite lp_func3, DE. eapply inv_more; [|exact I]. exact lp_reg4. }
  destruct (IH gb g3 fl1 X args regs m base lp_body0 lp_rangeb0 B3 LVB IB) as (r1 & m1 & F1 & A1 & I1 & D1).
  exists r1, m1. refine (conj F1 (conj _ (conj _ _))).
  - eapply agree_less; [|exact A1]. exact lp_reg4.
  - eapply inv_close; [exact I|exact I1].
  - cbv zeta. destruct o1 as [| | |v]; cbn [done] in D1.
    + destruct D1 as (-> & D1). intros x mf outf HR. apply D1. cbn [branch_to snd fst] in lp_below5. rewrite (rest_emit _ _ _ _ _ lp_below5 lp_range6). eapply ru_br; [exact lp_c0|exact HR].
    + destruct D1 as (b & E & D1). change (g_end H gb) with (g_end H g2) in E. assert (b = S (S (count g))) by congruence. subst b.
      assert (Q : rest gd = block (S (S (count g)))) by (unfold Proof_LLVM3.block; now rewrite (nth_error_nth _ _ _ lp_e0)). rewrite Q. apply D1. rewrite <- Q. exact lp_e0.
    + destruct D1 as (b & E & D1). change (g_cond H gb) with (g_cond H g2) in E. assert (b = count g) by congruence. subst b.
      assert (Q : rest g1 = block (count g)) by (unfold Proof_LLVM3.block; now rewrite (nth_error_nth _ _ _ lp_c0)). rewrite Q. apply D1. rewrite <- Q. exact lp_c0.
    + exact D1.
Qed.

Lemma sim_again : forall s s1 s2 s' n r e o1 o, tn_type n = N_WHILE -> tn_pay n = XExpr e -> eval s e (SvBool true) s1 -> P_eval s e (SvBool true) s1 ->
  exec s1 (tn_child n) o1 s2 -> P_exec s1 (tn_child n) o1 s2 -> o1 = ONormal \/ o1 = OContinue -> P_exec (close H s1 s2) (n :: r) o s' -> P_exec s (n :: r) o s'.
Proof.
  intros s s1 s2 s' n r e o1 o TN TP EV IH1 EX IH2 O1 IH3 g g' fl X args regs m base G L B LV I.
  destruct (while_facts _ _ _ _ _ _ G TN TP L B) as (g1 & g2 & g3 & gd & op & t & fl1 & LP & MD).
  destruct (loop_defs n r (g_func H g) X TN (ex_intro _ e TP) MD) as (E1 & E2). rewrite E1 in I.
  destruct (loop_test _ _ _ _ _ _ _ _ _ _ _ _ _ _ _ true _ _ _ _ _ LP IH1 I) as (r1 & m1 & F1 & A1 & I1 & BK). cbv iota in BK.
  pose proof (level_eval H ys _ _ _ _ EV) as RL.
  destruct (loop_body _ _ _ _ _ _ _ _ _ _ _ _ _ s _ _ _ _ _ _ _ _ LP E2 LV RL EX IH2 I1) as (r2 & m2 & F2 & A2 & I2 & D2). cbv zeta in D2.
  assert (D : back args r1 m1 (r_out H s1) (rest (position H (emit H g2 (ICondBr op (S (count g)) (S (S (count g))))) (S (count g)))) r2 m2 (r_out H s2) (rest g1)) by (destruct O1 as [-> | ->]; exact D2).
  apply lands_first with (regs := r2) (m := m2) (out := r_out H s2) (code := rest g1) (g := g); [| | |lia|apply loops_refl|].
  - eapply back_trans; [exact BK|exact D].
  - eapply frame_trans; eauto.
  - eapply agree_trans; [|exact A1|exact A2]. lia.
  - eapply lands_br; [exact (lp_c _ _ _ _ _ _ _ _ _ _ _ _ _ LP)|]. rewrite <- (lp_first _ _ _ _ _ _ _ _ _ _ _ _ _ LP).
    change (r_out H s2) with (r_out H (close H s1 s2)). apply IH3; auto; [|rewrite E1; exact I2].
    apply level_to with s g; [exact LV| |reflexivity]. rewrite <- RL. apply close_level. exact (exec_same _ _ _ _ EX).
Qed.
Lemma sim_quit : forall s s1 s2 s' n r e o, tn_type n = N_WHILE -> tn_pay n = XExpr e -> eval s e (SvBool true) s1 -> P_eval s e (SvBool true) s1 ->
  exec s1 (tn_child n) OBreak s2 -> P_exec s1 (tn_child n) OBreak s2 -> P_exec (close H s1 s2) r o s' -> P_exec s (n :: r) o s'.
Proof.
  intros s s1 s2 s' n r e o TN TP EV IH1 EX IH2 IH3 g g' fl X args regs m base G L B LV I.
  destruct (while_facts _ _ _ _ _ _ G TN TP L B) as (g1 & g2 & g3 & gd & op & t & fl1 & LP & MD).
  destruct (loop_defs n r (g_func H g) X TN (ex_intro _ e TP) MD) as (E1 & E2). rewrite E1 in I.
  destruct (loop_test _ _ _ _ _ _ _ _ _ _ _ _ _ _ _ true _ _ _ _ _ LP IH1 I) as (r1 & m1 & F1 & A1 & I1 & BK). cbv iota in BK.
  pose proof (level_eval H ys _ _ _ _ EV) as RL.
  destruct (loop_body _ _ _ _ _ _ _ _ _ _ _ _ _ s _ _ _ _ _ _ _ _ LP E2 LV RL EX IH2 I1) as (r2 & m2 & F2 & A2 & I2 & D2). cbv zeta in D2.
  apply lands_first with (regs := r2) (m := m2) (out := r_out H s2) (code := rest gd) (g := gd); [| | |exact (lp_regd _ _ _ _ _ _ _ _ _ _ _ _ _ LP)|exact (lp_loops _ _ _ _ _ _ _ _ _ _ _ _ _ LP)|].
  - eapply back_trans; [exact BK|exact D2].
  - eapply frame_trans; eauto.
  - eapply agree_trans; [|exact A1|exact A2]. lia.
  - destruct LP. change (r_out H s2) with (r_out H (close H s1 s2)). apply IH3; auto.
    + apply level_to with s g; [exact LV| |assumption]. rewrite <- RL. apply close_level. exact (exec_same _ _ _ _ EX).
    + rewrite lp_funcd0. eapply inv_more; [|exact I2]. assumption.
Qed.
Lemma sim_return_inside : forall s s1 s2 n r e v, tn_type n = N_WHILE -> tn_pay n = XExpr e -> eval s e (SvBool true) s1 -> P_eval s e (SvBool true) s1 ->
  exec s1 (tn_child n) (OReturn v) s2 -> P_exec s1 (tn_child n) (OReturn v) s2 -> P_exec s (n :: r) (OReturn v) (close H s1 s2).
Proof.
  intros s s1 s2 n r e v TN TP EV IH1 EX IH2 g g' fl X args regs m base G L B LV I.
  destruct (while_facts _ _ _ _ _ _ G TN TP L B) as (g1 & g2 & g3 & gd & op & t & fl1 & LP & MD).
  destruct (loop_defs n r (g_func H g) X TN (ex_intro _ e TP) MD) as (E1 & E2). rewrite E1 in I.
  destruct (loop_test _ _ _ _ _ _ _ _ _ _ _ _ _ _ _ true _ _ _ _ _ LP IH1 I) as (r1 & m1 & F1 & A1 & I1 & BK). cbv iota in BK.
  pose proof (level_eval H ys _ _ _ _ EV) as RL.
  destruct (loop_body _ _ _ _ _ _ _ _ _ _ _ _ _ s _ _ _ _ _ _ _ _ LP E2 LV RL EX IH2 I1) as (r2 & m2 & F2 & A2 & I2 & D2). cbv zeta in D2.
  exists r2, m2. refine (conj _ (conj _ (conj _ _))).
  - eapply frame_trans; eauto.
  - eapply agree_trans; [|exact A1|exact A2]. lia.
  - apply inv_drop in I2. eapply inv_more; [|exact I2]. exact (lp_reg' _ _ _ _ _ _ _ _ _ _ _ _ _ LP).
  - cbn [done]. apply BK. exact D2.
Qed.

(** * Everything *)

Lemma simulation :
  (forall s x v s', eval s x v s' -> P_eval s x v s') /\
  (forall s xs vs s', evals s xs vs s' -> P_evals H fold ys debug M R s xs vs s') /\
  (forall s l o s', exec s l o s' -> P_exec s l o s') /\
  (forall s n r o s', branch s n r o s' -> P_branch s n r o s') /\
  (forall s r o s', otherwise s r o s' -> P_otherwise s r o s') /\
  (forall s o1 r o s', after s o1 r o s' -> P_after s o1 r o s').
Proof.
  apply runs_ind; intros.
  - eapply sim_var; eauto.
  - eapply sim_const; eauto.
  - eapply sim_un; eauto.
  - eapply sim_bin; eauto.
  - eapply sim_call; eauto.
  - eapply sim_external; eauto.
  - eapply sim_nil; eauto.
  - eapply sim_cons; eauto.
  - eapply sim_end; eauto.
  - eapply sim_skip; eauto.
  - eapply sim_define; eauto.
  - eapply sim_assign; eauto.
  - eapply sim_stmt; eauto.
  - eapply sim_return; eauto.
  - eapply sim_leave; eauto.
  - eapply sim_break; eauto.
  - eapply sim_continue; eauto.
  - eapply sim_if; eauto.
  - eapply sim_stop; eauto.
  - eapply sim_again; eauto.
  - eapply sim_quit; eauto.
  - eapply sim_return_inside; eauto.
  - eapply sim_space; eauto.
  - eapply sim_function; eauto.
  - eapply sim_external_proto; eauto.
  - eapply sim_true; eauto.
  - eapply sim_false; eauto.
  - eapply sim_otherwise_comment; eauto.
  - eapply sim_elif; eauto.
  - eapply sim_else; eauto.
  - eapply sim_otherwise_end; eauto.
  - left. auto.
  - right. auto.
Qed.
End Sim.
