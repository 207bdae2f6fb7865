(** Expressions and statements: the generated code does what Spec_Run.v says. *)
From Coq Require Import List Arith NArith ZArith Bool Lia.
From Verif Require Import Base Model_Literal Model_Parse Model_Sem Spec_Sem Spec_Sem2 Spec_Run Model_Helpers Proof_Helpers Spec_IR Model_LLVM Spec_LLVM Proof_LLVM Proof_LLVM2 Proof_LLVM3 Proof_LLVM4 Proof_LLVM5.
Import ListNotations.
Open Scope list_scope.
Open Scope nat_scope.

Section Sim.
Variable H : host.
Variable fold : iop -> operand H -> operand H -> option (operand H).
Variable ys : list symbol.
Variable debug : bool.
Variable M : module H.
Variable R : nat -> option (ref H).
Hypothesis FW : folds_well H fold.
Hypothesis INJ : forall k k' i l l', R k = Some (mkref H (OGlob i) true l) -> R k' = Some (mkref H (OGlob i) true l') -> k = k'.
Hypothesis EXT : forall k x, lookup (m_funs H M) k = Some x -> is_external ys k = true -> x = None.
Local Notation gst := (gst H).
Local Notation val := (sv (h_float H)).
Local Notation sym_var := (sym_var ys).
Local Notation sym_func := (sym_func ys).
Local Notation gen_expr := (gen_expr H fold ys).
Local Notation typed := (typed ys).
Local Notation const := (const ys).
Local Notation grow := (grow H).
Local Notation in_range := (in_range H).
Local Notation here := (here H).
Local Notation blocks := (g_blocks H).
Local Notation count g := (List.length (g_blocks H g)).
Local Notation run := (run H M).
Local Notation gens := (gens H fold ys debug).
Local Notation eval := (eval H ys (exact1 H) (exact2 H)).
Local Notation evals := (evals H ys (exact1 H) (exact2 H)).
Local Notation exec := (exec H ys (exact1 H) (exact2 H)).
Local Notation branch := (branch H ys (exact1 H) (exact2 H)).
Local Notation otherwise := (otherwise H ys (exact1 H) (exact2 H)).
Local Notation after := (after H ys (exact1 H) (exact2 H)).
Local Notation tv := (tv H).
Local Notation mem := (mem H).
Local Notation below := (below H M R).
Local Notation rest := (rest H M).
Local Notation block := (block H M).
Local Notation back := (back H M).
Local Notation agree := (agree H).
Local Notation frame := (frame H).
Local Notation bounded := (bounded H).
Local Notation inv := (inv H fold ys debug M R).
Local Notation declared := (declared H fold ys debug M R).
Local Notation level := (level H).
Local Notation defs := (defs ys).

(** * The frame of the running function *)

Definition same_level (s s' : rst H) : Prop := r_loc H s' = None <-> r_loc H s = None.
Lemma level_kept :
  (forall s x v s', eval s x v s' -> r_loc H s' = r_loc H s) /\
  (forall s xs vs s', evals s xs vs s' -> r_loc H s' = r_loc H s) /\
  (forall s l o s', exec s l o s' -> same_level s s') /\
  (forall s n r o s', branch s n r o s' -> same_level s s') /\
  (forall s r o s', otherwise s r o s' -> same_level s s') /\
  (forall s o1 r o s', after s o1 r o s' -> same_level s s').
Proof.
  assert (CL : forall s s', same_level s s' -> same_level s (close H s s')).
  { unfold same_level. intros s s' (A & B). cbn [close r_loc]. destruct (r_loc H s), (r_loc H s'); split; intros; auto; discriminate. }
  assert (DF : forall s k v, same_level s (define H s k v)). { intros s k v. unfold same_level, define. destruct (r_loc H s) eqn:E; cbn [set_loc set_glob r_loc]; rewrite ?E; split; auto; discriminate. }
  assert (AS : forall s k v s2, assign H s k v = Some s2 -> same_level s s2).
  { intros s k v s2 E. unfold same_level, assign in *. destruct (r_loc H s) eqn:F.
    - destruct (local H s k); [inversion E; subst; cbn [set_loc r_loc]; split; discriminate|]. destruct (r_glob H s k); inversion E; subst. cbn [set_glob r_loc]. rewrite F. tauto.
    - destruct (local H s k); [discriminate E|]. destruct (r_glob H s k); inversion E; subst. cbn [set_glob r_loc]. rewrite F. tauto. }
  assert (TR : forall a b c, same_level a b -> same_level b c -> same_level a c) by (unfold same_level; tauto).
  assert (EQ : forall a b, r_loc H b = r_loc H a -> same_level a b) by (unfold same_level; intros a b ->; tauto).
  apply runs_ind; intros; auto; try congruence;
    try (apply EQ; reflexivity);
    try (eapply TR; [|eassumption]); eauto.
Qed.

Definition level_eval := proj1 level_kept.
Definition level_exec := proj1 (proj2 (proj2 level_kept)).

(** * Small facts *)

Lemma below_position : forall g b, below (position H g b) -> below g.
Proof. intros g b B. eapply below_back; [apply (grow_position H g b)|exact B]. Qed.
Lemma below_set_func : forall g f, below (set_func H g f) -> below g.
Proof. intros g f [A B C D]. constructor; assumption. Qed.
Lemma below_set_loop : forall g c e, below (set_loop H g c e) -> below g.
Proof. intros g c e [A B C D]. constructor; assumption. Qed.
Lemma below_end_func : forall f fl old g, below (end_func H f fl old g) -> below g.
Proof. intros f fl old g B. unfold end_func in B. destruct (_ && _); [apply below_emit in B|]; eapply below_set_func; exact B. Qed.
Lemma below_branch_to : forall b g fl, below (branch_to H b (g, fl)) -> below g.
Proof. intros b g fl B. eapply below_back; [apply branch_to_grow|exact B]. Qed.
Lemma external_is : forall k f, sym_func k = Ok f -> is_external ys k = f_external f.
Proof.
  intros k f E. unfold Model_LLVM.sym_func in E. apply bind_ok in E as (y & E & F). unfold deref in E. unfold is_external.
  destruct (nth_error ys k) as [y'|]; [|discriminate E]. inversion E; subst y'. destruct (y_kind y); try discriminate F. now inversion F.
Qed.
Lemma plain_map : forall vs : list val, plain_values H (map V vs) = Some vs.
Proof. induction vs as [|v vs IH]; [reflexivity|]. cbn [map plain_values]. now rewrite IH. Qed.
Lemma all_agree : forall args n regs regs' os vs, Forall (bounded n) os -> agree n regs regs' -> all_values H args regs os = Some vs -> all_values H args regs' os = Some vs.
Proof.
  intros args n regs regs' os. induction os as [|o os IH]; intros vs F A E; [exact E|]. inversion F; subst. cbn [all_values] in *.
  rewrite (value_agree _ args n regs); auto. destruct (operand_value H args regs o); [|discriminate E]. destruct (all_values H args regs os) as [vs'|]; [|discriminate E].
  erewrite IH; eauto.
Qed.

(** * Outcomes *)

Definition done (o : outcome H) (args : list tv) (regs : nat -> option tv) (m : mem) (out : h_out H) (code : list (instr H))
    (ge gc : option nat) (fl : flow) (regs' : nat -> option tv) (m' : mem) (out' : h_out H) (code' : list (instr H)) : Prop :=
  match o with
  | ONormal => fl = None /\ back args regs m out code regs' m' out' code'
  | OBreak => exists b, ge = Some b /\ (nth_error (m_blocks H M) b = Some (block b) -> back args regs m out code regs' m' out' (block b))
  | OContinue => exists b, gc = Some b /\ (nth_error (m_blocks H M) b = Some (block b) -> back args regs m out code regs' m' out' (block b))
  | OReturn v => run args regs m out code (option_map V v) m' out'
  end.
Definition lands (X : list nat) (s' : rst H) (o : outcome H) (args : list tv) (regs : nat -> option tv) (m : mem) (base : nat) (out : h_out H)
    (code : list (instr H)) (g g' : gst) (fl : flow) : Prop :=
  exists regs' m', frame base m m' /\ agree (g_reg H g) regs regs' /\ inv X s' args regs' m' base (g_reg H g') /\
    done o args regs m out code (g_end H g) (g_cond H g) fl regs' m' (r_out H s') (rest g').

Lemma done_first : forall o args r0 m0 o0 c0 regs m out code ge gc ge0 gc0 fl regs' m' out' code',
  back args r0 m0 o0 c0 regs m out code -> (forall b, ge = Some b -> ge0 = Some b) -> (forall b, gc = Some b -> gc0 = Some b) ->
  done o args regs m out code ge gc fl regs' m' out' code' -> done o args r0 m0 o0 c0 ge0 gc0 fl regs' m' out' code'.
Proof.
  intros o args r0 m0 o0 c0 regs m out code ge gc ge0 gc0 fl regs' m' out' code' B E C D. destruct o as [| | |v]; cbn [done] in *.
  - destruct D as (D1 & D2). split; [exact D1|]. eapply back_trans; eauto.
  - destruct D as (b & D1 & D2). exists b. split; [auto|]. intro NE. eapply back_trans; eauto.
  - destruct D as (b & D1 & D2). exists b. split; [auto|]. intro NE. eapply back_trans; eauto.
  - apply B. exact D.
Qed.
Lemma done_jump : forall o args regs m out code ge gc fl fl2 regs' m' out' code' code2, o <> ONormal ->
  done o args regs m out code ge gc fl regs' m' out' code' -> done o args regs m out code ge gc fl2 regs' m' out' code2.
Proof. intros o args regs m out code ge gc fl fl2 regs' m' out' code' code2 N D. destruct o as [| | |v]; [now elim N|exact D|exact D|exact D]. Qed.

Lemma lands_first : forall X s' o args r0 m0 base o0 c0 regs m out code g0 g g' fl,
  back args r0 m0 o0 c0 regs m out code -> frame base m0 m -> agree (g_reg H g0) r0 regs -> g_reg H g0 <= g_reg H g -> loops H g0 g ->
  lands X s' o args regs m base out code g g' fl -> lands X s' o args r0 m0 base o0 c0 g0 g' fl.
Proof.
  intros X s' o args r0 m0 base o0 c0 regs m out code g0 g g' fl B F A L (LE & LC) (regs' & m' & F' & A' & I & D).
  exists regs', m'. split; [eapply frame_trans; eauto|]. split; [eapply agree_trans; eauto|]. split; [exact I|].
  eapply done_first; eauto.
Qed.
Lemma lands_same : forall X s' o args regs m base out code code0 g0 g g' fl, code0 = code -> g_reg H g0 = g_reg H g -> loops H g0 g ->
  lands X s' o args regs m base out code g g' fl -> lands X s' o args regs m base out code0 g0 g' fl.
Proof.
  intros X s' o args regs m base out code code0 g0 g g' fl -> E LP LN. apply lands_first with (regs := regs) (m := m) (out := out) (code := code) (g := g); auto.
  - apply back_refl.
  - apply frame_refl.
  - apply agree_refl.
  - lia.
Qed.

(** * The claims *)

Definition P_eval (s : rst H) (x : texpr) (v : val) (s1 : rst H) : Prop :=
  forall g o t g1 X args regs m base n, gen_expr x g = Ok (o, t, g1) -> typed x -> in_range g -> below g1 -> n <= g_reg H g ->
  inv X s args regs m base n ->
  exists regs' m', t = Some (x_ty x) /\ operand_value H args regs' o = Some (V v) /\ bounded (g_reg H g1) o /\ frame base m m' /\
    agree (g_reg H g) regs regs' /\ inv X s1 args regs' m' base n /\
    back args regs m (r_out H s) (rest g) regs' m' (r_out H s1) (rest g1).
Definition P_evals (s : rst H) (xs : list texpr) (vs : list val) (s1 : rst H) : Prop :=
  forall g os g1 X args regs m base n, gen_args H gen_expr (List.length xs) xs g = Ok (os, g1) -> fold_right (fun a P => typed a /\ P) True xs ->
  in_range g -> below g1 -> n <= g_reg H g -> inv X s args regs m base n ->
  exists regs' m', all_values H args regs' os = Some (map V vs) /\ Forall (bounded (g_reg H g1)) os /\ frame base m m' /\
    agree (g_reg H g) regs regs' /\ inv X s1 args regs' m' base n /\
    back args regs m (r_out H s) (rest g) regs' m' (r_out H s1) (rest g1).
Definition P_exec (s : rst H) (l : list tnode) (o : outcome H) (s' : rst H) : Prop :=
  forall g g' fl X args regs m base, gens GS l g g' fl -> in_range g -> below g' -> level s g ->
  inv (defs (g_func H g) l ++ X) s args regs m base (g_reg H g) ->
  lands X s' o args regs m base (r_out H s) (rest g) g g' fl.
Definition P_branch (s : rst H) (n : tnode) (r : list tnode) (o : outcome H) (s' : rst H) : Prop :=
  forall entry last g g' fl X args regs m base, gens (GC entry last) (n :: r) g g' fl -> tn_type n = N_IF \/ tn_type n = N_ELIF ->
  entry < count g -> last < count g -> entry <> last -> nth last (blocks g) [] = [] -> below g' -> level s g ->
  inv (defs (g_func H g) (n :: r) ++ X) s args regs m base (g_reg H g) ->
  lands X s' o args regs m base (r_out H s) (rest (position H g entry)) g g' fl.
Definition P_otherwise (s : rst H) (r : list tnode) (o : outcome H) (s' : rst H) : Prop :=
  (forall entry last g g' fl X args regs m base, gens (GB entry last) r g g' fl ->
    entry < count g -> last < count g -> entry <> last -> nth last (blocks g) [] = [] -> below g' -> level s g ->
    inv (defs (g_func H g) r ++ X) s args regs m base (g_reg H g) ->
    lands X s' o args regs m base (r_out H s) (rest (position H g entry)) g g' fl) /\
  (branch_follows r = false -> P_exec s r o s').
Definition P_after (s : rst H) (o1 : outcome H) (r : list tnode) (o : outcome H) (s' : rst H) : Prop :=
  o1 = ONormal /\ P_exec s r o s' \/ o1 <> ONormal /\ o = o1 /\ s' = s.

(** * Expressions *)

Lemma step_sim : forall X s' args regs m base n out out' m' g i o g1 v, emit_reg H g i = (o, g1) -> in_range g -> below g1 -> n <= g_reg H g ->
  inv X s' args regs m' base n -> frame base m m' ->
  (forall code x mf outf, run args (set_reg H regs (g_reg H g) v) m' out' code x mf outf -> run args regs m out (i (g_reg H g) :: code) x mf outf) ->
  exists regs', operand_value H args regs' o = Some v /\ bounded (g_reg H g1) o /\ agree (g_reg H g) regs regs' /\ inv X s' args regs' m' base n /\
    back args regs m out (rest g) regs' m' out' (rest g1).
Proof.
  intros X s' args regs m base n out out' m' g i o g1 v E L B LN I F ST. cbn [emit_reg] in E. inversion E; subst o g1.
  assert (A : agree (g_reg H g) regs (set_reg H regs (g_reg H g) v)) by (apply agree_set; lia).
  exists (set_reg H regs (g_reg H g) v). refine (conj _ (conj _ (conj A (conj _ _)))).
  - cbn [operand_value]. apply set_here.
  - cbn [Proof_LLVM3.bounded emit set_blocks set_next g_reg]. lia.
  - eapply inv_regs; [|exact I]. eapply agree_less; [exact LN|exact A].
  - intros x mf outf HR. change (rest g) with (rest (set_next H g (S (g_reg H g)))). rewrite (rest_emit _ _ _ _ _ B L). apply ST. exact HR.
Qed.

Lemma sim_var : forall s t k ty c v, read H s k = Some v -> of_type H v ty = true -> P_eval s (XVar t k ty c) v s.
Proof.
  intros s t k ty c v E OT g o ot g1 X args regs m base n G T L B LN I. cbn [Model_LLVM.gen_expr] in G. unfold gen_identifier in G.
  apply bind_ok in G as (vr & SV & G). apply bind_ok in G as (rf & LR & G). unfold var_ref in LR. destruct (lookup (g_refs H g) k) as [r0|] eqn:LK; [|discriminate LR]. inversion LR; subst r0.
  destruct T as (vr' & SV' & TY). assert (vr' = vr) by congruence. subst vr'. pose proof (const_var _ _ _ SV) as CV.
  assert (S1 : same H g g1). { apply (same_expr H fold ys (XVar t k ty c) g o ot g1 L). cbn [Model_LLVM.gen_expr]. unfold gen_identifier. rewrite SV. cbn [bind]. unfold var_ref. rewrite LK. exact G. }
  pose proof (bl_refs _ _ _ _ (below_back _ _ _ _ _ _ (sm_grow _ _ _ S1) B) k rf LK) as ER.
  assert (LOAD : forall a, operand_value H args regs (rf_val H rf) = Some a -> load H m a = Some (V v) -> rf_global H rf || negb (v_const vr) = true ->
    exists regs' m', ot = Some (x_ty (XVar t k ty c)) /\ operand_value H args regs' o = Some (V v) /\ bounded (g_reg H g1) o /\ frame base m m' /\
    agree (g_reg H g) regs regs' /\ inv X s args regs' m' base n /\ back args regs m (r_out H s) (rest g) regs' m' (r_out H s) (rest g1)).
  { intros a VA LA CO. rewrite CO in G. destruct (emit_reg H g (fun n0 => ILoad n0 (v_type vr) (rf_val H rf))) as [oo gg] eqn:ER1. inversion G; subst oo ot gg.
    destruct (step_sim X s args regs m base n (r_out H s) (r_out H s) m g _ o g1 (V v) ER1 L B LN I (frame_refl _ _ _)) as (regs' & C1 & C2 & C3 & C4 & C5).
    { intros code x mf outf HR. eapply ru_load; [exact VA|exact LA|exact HR]. }
    exists regs', m. cbn [x_ty]. refine (conj _ (conj C1 (conj C2 (conj (frame_refl _ _ _) (conj C3 (conj C4 C5)))))). congruence. }
  unfold read in E. destruct (local H s k) as [w|] eqn:LC.
  - inversion E; subst w. destruct (const k) eqn:CK.
    + destruct (iv_const _ _ _ _ _ _ _ _ _ _ _ _ _ I k v LC CK) as (o' & l & B1 & B2 & B3). assert (rf = mkref H o' false l) by congruence. subst rf. cbn [rf_global rf_val] in *.
      rewrite <- CV in G. cbn [orb negb] in G. inversion G; subst o ot g1. exists regs, m. cbn [x_ty].
      refine (conj _ (conj B2 (conj _ (conj (frame_refl _ _ _) (conj (agree_refl _ _ _) (conj I _)))))); [congruence|eapply bounded_more; eauto|apply back_refl].
    + destruct (iv_mut _ _ _ _ _ _ _ _ _ _ _ _ _ I k v LC CK) as (r & cc & l & B1 & B2 & B3 & B4 & B5). assert (rf = mkref H (OReg r) false l) by congruence. subst rf.
      apply (LOAD (Addr (ACell cc))); [exact B3|exact B5|]. rewrite <- CV. reflexivity.
  - destruct (iv_glob _ _ _ _ _ _ _ _ _ _ _ _ _ I k v E) as (i & l & B1 & B2). assert (rf = mkref H (OGlob i) true l) by congruence. subst rf.
    apply (LOAD (Addr (AGlob i))); [reflexivity|cbn [load]; congruence|reflexivity].
Qed.

Lemma sim_const : forall s t v ty, of_type H (literal_of H v) ty = true -> P_eval s (XConst t v ty) (literal_of H v) s.
Proof.
  intros s t v ty OT g o ot g1 X args regs m base n G T L B LN I. cbn [Model_LLVM.gen_expr] in G. unfold gen_const in G. exists regs, m.
  assert (E : o = OVal (literal_of H v) /\ ot = Some ty /\ g1 = g) by (destruct ty, v; inversion G; subst; auto). destruct E as (-> & -> & ->).
  refine (conj eq_refl (conj eq_refl (conj Logic.I (conj (frame_refl _ _ _) (conj (agree_refl _ _ _) (conj I _)))))). apply back_refl.
Qed.

Lemma sim_un : forall s s1 o x ty c v v', eval s x v s1 -> P_eval s x v s1 -> exact1 H o v -> unary H o v = Some v' -> P_eval s (XUn o x ty c) v' s1.
Proof.
  intros s s1 o x ty c v v' EV IH EX U g ro ot g1 X args regs m base n G T L B LN I. destruct T as (T & TO).
  assert (E : exists o1 t1 ga, gen_expr x g = Ok (o1, t1, ga) /\ (do (o1, t1, g1) <- Ok (o1, t1, ga); match o with UNeg => gen_neg H fold t1 o1 g1 | UNot => gen_not H fold o1 g1 | _ => UB end) = Ok (ro, ot, g1)).
  { cbn [Model_LLVM.gen_expr] in G. destruct o; try contradiction; apply bind_ok in G as (((o1, t1), ga) & G1 & G2); exists o1, t1, ga; split; auto. }
  destruct E as (o1 & t1 & ga & G1 & G2). pose proof (same_expr _ _ _ _ _ _ _ _ L G1) as S1. pose proof (same_range _ _ _ S1 L) as L1.
  assert (S2 : same H ga g1).
  { cbn [bind] in G2. destruct o; try contradiction.
    - unfold gen_neg in G2. eapply same_math; eauto.
    - unfold gen_not, build_not in G2. destruct (build H fold Xor o1 (OVal (SvBool true)) ga) as [o2 g2] eqn:EB. inversion G2; subst. eapply same_build; eauto. }
  pose proof (below_back _ _ _ _ _ _ (sm_grow _ _ _ S2) B) as BA.
  destruct (IH _ _ _ _ X args regs m base n G1 T L BA LN I) as (r1 & m1 & -> & B2 & B3 & B4 & B5 & B6 & B7).
  assert (ET : ty = x_ty x) by (destruct o; try contradiction; destruct TO; congruence).
  assert (TY : match o with UNeg => is_number (x_ty x) | UNot => x_ty x = TBool | _ => False end) by (destruct o; try contradiction; tauto).
  destruct (unary_sim H fold M R FW args r1 o (x_ty x) o1 ga ro ot g1 v v' G2 L1 B B3 B2 TY (eval_type _ _ _ _ _ _ EV T) EX U) as (-> & r2 & [C1 C2 C3 C4]).
  pose proof (gr_reg _ _ _ _ (sm_grow _ _ _ S1)) as LR.
  exists r2, m1. cbn [x_ty]. refine (conj _ (conj C2 (conj C3 (conj B4 (conj _ (conj _ _)))))).
  - congruence.
  - eapply agree_trans; [exact LR|exact B5|exact C1].
  - eapply inv_regs; [|exact B6]. eapply agree_less; [|exact C1]. lia.
  - eapply back_trans; [exact B7|apply C4].
Qed.

Lemma sim_bin : forall s s1 s2 o x y ty c a b v, eval s x a s1 -> P_eval s x a s1 -> eval s1 y b s2 -> P_eval s1 y b s2 -> exact2 H o a b -> binary H o a b = Some v ->
  P_eval s (XBin o x y ty c) v s2.
Proof.
  intros s s1 s2 o x y ty c a b v EV1 IH1 EV2 IH2 EX U g ro ot g1 X args regs m base n G T L B LN I. destruct T as (TL & TR & TE & TO).
  cbn [Model_LLVM.gen_expr] in G. apply bind_ok in G as (((o1, t1), ga) & G1 & G). apply bind_ok in G as (((o2, t2), gb) & G2 & G).
  pose proof (same_expr _ _ _ _ _ _ _ _ L G1) as S1. pose proof (same_range _ _ _ S1 L) as L1.
  pose proof (same_expr _ _ _ _ _ _ _ _ L1 G2) as S2. pose proof (same_range _ _ _ S2 L1) as L2.
  pose proof (same_binary _ _ _ _ _ _ _ _ _ _ L2 G) as S3.
  pose proof (below_back _ _ _ _ _ _ (sm_grow _ _ _ S3) B) as BB. pose proof (below_back _ _ _ _ _ _ (sm_grow _ _ _ S2) BB) as BA.
  pose proof (gr_reg _ _ _ _ (sm_grow _ _ _ S1)) as LR1. pose proof (gr_reg _ _ _ _ (sm_grow _ _ _ S2)) as LR2.
  destruct (IH1 _ _ _ _ X args regs m base n G1 TL L BA LN I) as (r1 & m1 & _ & B2 & B3 & B4 & B5 & B6 & B7).
  assert (LN1 : n <= g_reg H ga) by lia.
  destruct (IH2 _ _ _ _ X args r1 m1 base n G2 TR L1 BB LN1 B6) as (r2 & m2 & -> & C2 & C3 & C4 & C5 & C6 & C7).
  assert (V1 : operand_value H args r2 o1 = Some (V a)) by (rewrite (value_agree _ args (g_reg H ga) r1); auto).
  assert (TA : of_type H a (x_ty y) = true) by (rewrite <- TE; exact (eval_type _ _ _ _ _ _ EV1 TL)).
  destruct (binary_sim H fold M R FW args r2 o (x_ty y) ty o1 o2 gb ro ot g1 a b v G L2 B (bounded_more _ _ _ _ LR2 B3) C3 V1 C2 TO TA (eval_type _ _ _ _ _ _ EV2 TR) EX U) as (-> & r3 & [D1 D2 D3 D4]).
  exists r3, m2. cbn [x_ty]. refine (conj eq_refl (conj D2 (conj D3 (conj (frame_trans _ _ _ _ _ B4 C4) (conj _ (conj _ _)))))).
  - eapply agree_trans; [exact LR1|exact B5|]. eapply agree_trans; [exact LR2|exact C5|exact D1].
  - eapply inv_regs; [|exact C6]. eapply agree_less; [|exact D1]. lia.
  - eapply back_trans; [exact B7|]. eapply back_trans; [exact C7|apply D4].
Qed.

Lemma sim_nil : forall s, P_evals s [] [] s.
Proof.
  intros s g os g1 X args regs m base n G T L B LN I. cbn in G. inversion G; subst. exists regs, m.
  refine (conj eq_refl (conj (Forall_nil _) (conj (frame_refl _ _ _) (conj (agree_refl _ _ _) (conj I _))))). apply back_refl.
Qed.
Lemma sim_cons : forall s s1 s2 x xs v vs, P_eval s x v s1 -> P_evals s1 xs vs s2 -> P_evals s (x :: xs) (v :: vs) s2.
Proof.
  intros s s1 s2 x xs v vs IH1 IH2 g os g1 X args regs m base n G (T1 & T2) L B LN I. cbn [List.length] in G. rewrite gen_args_cons in G.
  apply bind_ok in G as (((o1, t1), ga) & G1 & G). apply bind_ok in G as ((os', gb) & G2 & G). inversion G; subst os gb.
  pose proof (same_expr _ _ _ _ _ _ _ _ L G1) as S1. pose proof (same_range _ _ _ S1 L) as L1.
  assert (S2 : same H ga g1). { eapply same_args; [|exact L1|exact G2]. apply Forall_forall. intros y _. apply same_expr. }
  pose proof (below_back _ _ _ _ _ _ (sm_grow _ _ _ S2) B) as BA.
  pose proof (gr_reg _ _ _ _ (sm_grow _ _ _ S1)) as LR1. pose proof (gr_reg _ _ _ _ (sm_grow _ _ _ S2)) as LR2.
  destruct (IH1 _ _ _ _ X args regs m base n G1 T1 L BA LN I) as (r1 & m1 & _ & B2 & B3 & B4 & B5 & B6 & B7).
  assert (LN1 : n <= g_reg H ga) by lia.
  destruct (IH2 _ _ _ X args r1 m1 base n G2 T2 L1 B LN1 B6) as (r2 & m2 & C2 & C3 & C4 & C5 & C6 & C7).
  assert (V1 : operand_value H args r2 o1 = Some (V v)) by (rewrite (value_agree _ args (g_reg H ga) r1); auto).
  exists r2, m2. refine (conj _ (conj _ (conj (frame_trans _ _ _ _ _ B4 C4) (conj _ (conj C6 _))))).
  - cbn [all_values map]. now rewrite V1, C2.
  - constructor; [eapply bounded_more; [exact LR2|exact B3]|exact C3].
  - eapply agree_trans; [exact LR1|exact B5|exact C5].
  - eapply back_trans; [exact B7|exact C7].
Qed.

(** A call, up to the instruction. *)
Lemma call_parts : forall t k xs ty g o ot g1, gen_expr (XCall t k xs ty) g = Ok (o, ot, g1) -> typed (XCall t k xs ty) -> in_range g -> below g1 ->
  exists f os ga x, sym_func k = Ok f /\ f_ret f = ty /\ gen_args H gen_expr (List.length xs) xs g = Ok (os, ga) /\ fold_right (fun a P => typed a /\ P) True xs /\
    same H g ga /\ in_range ga /\ below ga /\ lookup (m_funs H M) k = Some x /\ ot = Some ty /\ emit_reg H ga (fun n => ICall n (CSym k) os) = (o, g1).
Proof.
  intros t k xs ty g o ot g1 G ((f & SF & FT & FN) & T) L B. cbn [Model_LLVM.gen_expr] in G. rewrite SF in G. cbn [bind] in G. rewrite FN in G.
  apply bind_ok in G as ((os, ga) & G1 & G). destruct (lookup (g_funs H ga) k) as [x|] eqn:LK; [|discriminate G].
  destruct (emit_reg H ga (fun n => ICall n (CSym k) os)) as [oo gg] eqn:ER. inversion G; subst oo gg ot.
  assert (S1 : same H g ga). { eapply same_args; [|exact L|exact G1]. apply Forall_forall. intros y _. apply same_expr. }
  pose proof (same_range _ _ _ S1 L) as L1.
  assert (BA : below ga). { pose proof (same_emit_reg H ga (fun n => ICall n (CSym k) os) L1) as S2. rewrite ER in S2. eapply below_back; [exact (sm_grow _ _ _ S2)|exact B]. }
  exists f, os, ga, x. pose proof (bl_funs _ _ _ _ BA k x LK). auto 12 using f_equal.
Qed.

Lemma sim_call : forall s s1 s2 t k xs ty vs ps body o v, P_evals s xs vs s1 -> lookup (r_funs H s1) k = Some (ps, body) -> List.length ps = List.length vs ->
  P_exec (enter_call H s1 ps vs) body o s2 -> returned H o = Some v -> of_type H v ty = true -> P_eval s (XCall t k xs ty) v (leave_call H s1 s2).
Proof.
  intros s s1 s2 t k xs ty vs ps body o v IH1 LF LEN IH2 RV OT g ro ot g1 X args regs m base n G T L B LN I.
  destruct (call_parts _ _ _ _ _ _ _ _ G T L B) as (f & os & ga & x & SF & FT & GA & TA & S1 & L1 & BA & LK & -> & ER). cbn [x_ty].
  destruct (IH1 _ _ _ X args regs m base n GA TA L BA LN I) as (r1 & m1 & B2 & B3 & B4 & B5 & B6 & B7).
  destruct (iv_funs _ _ _ _ _ _ _ _ _ _ _ _ _ B6 k ps body LF) as (f' & b & gp & g0 & ge & fl & old & SF' & LB & GD & GB & EB & RP & NB & FB & BE & NP & PR).
  assert (f' = f) by congruence. subst f'.
  assert (BG : below ge) by (eapply below_end_func; exact BE). pose proof (info_cells _ _ _ _ _ _ GD) as CF.
  assert (RB : in_range g0) by (unfold Proof_LLVM.in_range in *; rewrite (cf_cur _ _ _ _ CF), (cf_len _ _ _ _ CF); exact RP).
  assert (R0 : ranged H GS g0) by (intros z ->; exact RB). pose proof (gens_grow _ _ _ _ _ _ _ _ _ GB R0) as GG.
  pose proof (below_back _ _ _ _ _ _ GG BG) as B0.
  assert (RG : in_range ge) by (apply (gr_ok _ _ _ _ GG R0)).
  assert (FG : g_func H g0 <> None) by (rewrite (cf_func _ _ _ _ CF); exact FB).
  assert (LV : level (enter_call H s1 ps vs) g0) by (split; [discriminate|contradiction]).
  destruct (enter_sim _ _ _ _ _ _ _ _ _ _ _ _ _ ps vs gp g0 (r_out H s1) B6 GD RP B0 NP PR LEN) as (r0 & m0 & F0 & I0 & K0).
  assert (EI : inv (defs (g_func H g0) body ++ X) (enter_call H s1 ps vs) (map V vs) r0 m0 (List.length (m_cells H m1)) (g_reg H g0)).
  { destruct (g_func H g0) as [kk|]; [|now elim FG]. exact I0. }
  destruct (IH2 _ _ _ X _ _ _ _ GB RB BG LV EI) as (r2 & m2 & F2' & _ & I2 & D2). pose proof (frame_trans _ _ _ _ _ F0 F2') as F2.
  assert (RN : exists y, run (map V vs) (fun _ => None) m1 (r_out H s1) (block b) y m2 (r_out H s2) /\ match y with Some w => w | None => V SvVoid end = V v).
  { assert (EQ : rest gp = block b) by (rewrite <- EB; apply rest_whole; rewrite EB; exact NB). rewrite EQ in K0. cbn [enter_call r_out] in D2.
    destruct o as [| | |[w|]]; cbn [returned] in RV; try discriminate RV; inversion RV; subst v; cbn [done] in D2.
    - exists None. split; [|reflexivity]. destruct D2 as (-> & D2). apply K0, D2. assert (TV : f_ret f = TVoid) by (destruct ty; try discriminate OT; exact FT).
      unfold end_func in BE. rewrite TV in BE. cbn [ty_eqb andb negb] in BE. change (rest ge) with (rest (set_func H ge old)). rewrite (rest_emit _ _ _ (set_func H ge old) _ BE RG). apply ru_ret_void.
    - exists (Some (V w)). split; [apply K0, D2|reflexivity].
    - exists None. split; [apply K0, D2|reflexivity]. }
  destruct RN as (y & RN & YV).
  assert (NE : nth_error (m_blocks H M) b = Some (block b)) by (apply block_is with (R := R) (g := g0); [exact B0|rewrite <- EB, <- (cf_cur _ _ _ _ CF); exact RB]).
  pose proof (leave_inv H fold ys debug M R _ _ _ _ _ _ _ _ _ _ _ _ B6 I2 F2) as IL.
  pose proof (gr_reg _ _ _ _ (sm_grow _ _ _ S1)) as LR1. assert (LN1 : n <= g_reg H ga) by lia.
  assert (FB2 : frame base m1 m2) by (eapply frame_less; [exact (iv_base _ _ _ _ _ _ _ _ _ _ _ _ _ B6)|exact F2]).
  destruct (step_sim X (leave_call H s1 s2) args r1 m1 base n (r_out H s1) (r_out H s2) m2 ga _ ro g1 (V v) ER L1 B LN1 IL FB2) as (r3 & C1 & C2 & C3 & C4 & C5).
  { intros code z mf outf HR. eapply ru_call; [exact B2|exact LB|exact NE|exact RN|]. rewrite YV. exact HR. }
  exists r3, m2. refine (conj eq_refl (conj C1 (conj C2 (conj (frame_trans _ _ _ _ _ B4 FB2) (conj _ (conj C4 _)))))).
  - eapply agree_trans; [exact LR1|exact B5|exact C3].
  - eapply back_trans; [exact B7|exact C5].
Qed.

Lemma sim_external : forall s s1 t k xs ty vs v o, P_evals s xs vs s1 -> is_external ys k = true -> h_call H k vs (r_out H s1) = Some (v, o) -> of_type H v ty = true ->
  P_eval s (XCall t k xs ty) v (set_out H s1 o).
Proof.
  intros s s1 t k xs ty vs v o IH1 EX HC OT g ro ot g1 X args regs m base n G T L B LN I.
  destruct (call_parts _ _ _ _ _ _ _ _ G T L B) as (f & os & ga & x & SF & FT & GA & TA & S1 & L1 & BA & LK & -> & ER). cbn [x_ty].
  destruct (IH1 _ _ _ X args regs m base n GA TA L BA LN I) as (r1 & m1 & B2 & B3 & B4 & B5 & B6 & B7).
  rewrite (EXT _ _ LK EX) in LK. pose proof (gr_reg _ _ _ _ (sm_grow _ _ _ S1)) as LR1. assert (LN1 : n <= g_reg H ga) by lia.
  destruct (step_sim X (set_out H s1 o) args r1 m1 base n (r_out H s1) o m1 ga _ ro g1 (V v) ER L1 B LN1 (inv_out _ _ _ _ _ _ _ _ _ _ _ _ _ _ B6) (frame_refl _ _ _)) as (r3 & C1 & C2 & C3 & C4 & C5).
  { intros code z mf outf HR. eapply ru_external; [exact B2|exact LK|apply plain_map|exact HC|exact HR]. }
  exists r3, m1. refine (conj eq_refl (conj C1 (conj C2 (conj B4 (conj _ (conj C4 _)))))).
  - eapply agree_trans; [exact LR1|exact B5|exact C3].
  - eapply back_trans; [exact B7|exact C5].
Qed.
End Sim.
