(** Accepted programs: their code does what Spec_Run.v says. *)
From Coq Require Import List Arith NArith ZArith Bool Lia.
From Verif Require Import Base Model_Token Model_Literal Model_Parse Model_Sem Spec_Parse Spec_Sem Spec_Sem2 Spec_Run Model_Helpers Proof_Helpers Spec_IR Model_LLVM Spec_LLVM
  Proof_Sem2 Proof_Sem5 Proof_Sem8 Proof_CGen2 Proof_LLVM Proof_LLVM2 Proof_LLVM3 Proof_LLVM4 Proof_LLVM6 Proof_LLVM9 Proof_LLVM10 Proof_Debug.
Import ListNotations.
Open Scope list_scope.
Open Scope nat_scope.

(** * Nodes of accepted programs *)

Lemma sig_var : forall s k t m, sig s k = Some (DVar t m) -> exists v, sym_var (s_syms s) k = Ok v /\ v_type v = t /\ v_const v = negb m.
Proof.
  intros s k t m E. unfold sig in E. unfold sym_var, deref. destruct (nth_error (s_syms s) k) as [y|]; [|discriminate E]. cbn [bind].
  destruct (y_kind y) as [v|f|a|[a|]]; try discriminate E; [inversion E; subst; exists v; now rewrite negb_involutive|].
  destruct (_ =? _)%N; discriminate E.
Qed.
Lemma sig_fun : forall s k ps r, sig s k = Some (DFun ps r) -> exists f, sym_func (s_syms s) k = Ok f /\ f_ret f = r /\ N.to_nat (f_num f) = List.length ps.
Proof.
  intros s k ps r E. unfold sig in E. unfold sym_func, deref. destruct (nth_error (s_syms s) k) as [y|]; [|discriminate E]. cbn [bind].
  destruct (y_kind y) as [v|f|a|[a|]]; try discriminate E.
  destruct (_ =? _)%N eqn:L; [|discriminate E]. inversion E; subst. exists f. apply N.eqb_eq in L. repeat split. rewrite <- L. apply Nat2N.id.
Qed.

(** References are absent from x. *)
Definition plain_expr (x : texpr) : Prop := forall o r t c, xpart (XUn o r t c) x -> o <> URef /\ o <> UDeref.

Lemma NoDup_app_both : forall (a b : list nat), NoDup a -> NoDup b -> (forall k, In k a -> In k b -> False) -> NoDup (a ++ b).
Proof.
  induction a as [|x a IH]; intros b A B D; [exact B|]. inversion A; subst. cbn [app]. constructor.
  - intro I. apply in_app_iff in I as [I|I]; [contradiction|]. apply (D x); [now left|exact I].
  - apply IH; auto. intros k K. apply D. now right.
Qed.
Scheme elab_ind3 := Minimality for elab Sort Prop
  with elabs_ind3 := Minimality for elabs Sort Prop.
Combined Scheme elab_both from elab_ind3, elabs_ind3.
Lemma elab_typed0 : forall s w src e,
  (forall a x, elab (sig s) w src e a x -> plain_expr x -> typed (s_syms s) x) /\
  (forall l xs, elabs (sig s) w src e l xs -> Forall plain_expr xs -> fold_right (fun a P => typed (s_syms s) a /\ P) True xs).
Proof.
  intros s w src e. apply elab_both.
  - intros t n k ty m c _ _ E _. cbn [typed]. destruct (sig_var _ _ _ _ E) as (v & A & B & _). eauto.
  - intros t v ty _ _. exact I.
  - intros name args num n k ps r xs _ _ E _ IH M P. cbn [typed]. destruct (sig_fun _ _ _ _ E) as (f & A & B & C). split.
    + exists f. repeat split; auto. rewrite C, <- M. apply map_length.
    + apply IH. apply Forall_forall. intros x IN o r' t c Q. apply (P o r' t c). eapply xp_arg; eauto.
  - intros a x c _ IH NB P. cbn [typed]. split; [apply IH; intros o r t c' Q; apply (P o r t c'); now apply xp_un|auto].
  - intros a x c _ IH NB P. cbn [typed]. split; [apply IH; intros o r t c' Q; apply (P o r t c'); now apply xp_un|auto].
  - intros t x c _ _ P. destruct (P URef x (TRef (x_ty x)) c) as (N & _); [apply xp_self|now elim N].
  - intros t x ty c _ _ _ P. destruct (P UDeref x ty c) as (_ & N); [apply xp_self|now elim N].
  - intros o a b x y r c _ IH1 _ IH2 EQ OT _ P. cbn [typed]. split; [apply IH1; intros o' r' t c' Q; apply (P o' r' t c'); now apply xp_left|].
    split; [apply IH2; intros o' r' t c' Q; apply (P o' r' t c'); now apply xp_right|auto].
  - intros _. exact I.
  - intros a l x xs _ IH1 _ IH2 P. inversion P; subst. cbn [fold_right]. auto.
Qed.
Lemma elab_typed : forall s w src e a x, elab (sig s) w src e a x -> plain_expr x -> typed (s_syms s) x.
Proof. intros s w src e a x. apply (proj1 (elab_typed0 s w src e)). Qed.

Lemma stmt_child : forall D w src e n x e', stmt_ok D w src e n x e' -> exists e1 e2, block_ok D w src e1 (n_child n) (tn_child x) e2.
Proof.
  intros D w src e n x e' S0. inversion S0; subst; cbn [tn_child]; try (eexists; eexists; eassumption);
    match goal with E : n_child _ = [] |- _ => rewrite E end; exists [], []; constructor.
Qed.
Lemma checked_paired : forall D w src x l, in_checked x l -> forall e tree e', block_ok D w src e tree l e' -> exists n, paired n x tree l.
Proof.
  intros D w src x l C. induction C as [l IN|y l IN C IH]; intros e tree e' B.
  - revert IN. induction B as [e|e n l' z xs e1 e2 S0 B IHB]; intros IN; [destruct IN|]. destruct IN as [->|IN].
    + exists n. apply pa_here.
    + destruct (IHB IN) as (n' & P). exists n'. now apply pa_next.
  - revert IN. induction B as [e|e n l' z xs e1 e2 S0 B IHB]; intros IN; [destruct IN|]. destruct IN as [->|IN].
    + destruct (stmt_child _ _ _ _ _ _ _ S0) as (e3 & e4 & B'). destruct (IH _ _ _ B') as (n' & P). exists n'. now apply pa_below.
    + destruct (IHB IN) as (n' & P). exists n'. now apply pa_next.
Qed.
Lemma params_sig : forall D src e ps ts ks e', params_ok D src e ps ts ks e' -> forall k, In k ks -> exists t, D k = Some (DVar t false).
Proof.
  intros D src e ps ts ks e' P. induction P as [|e p ps t ts n k ks e' _ _ _ E _ IH]; intros j J; [destruct J|]. destruct J as [<-|J]; eauto.
Qed.

Lemma fine_nodes : forall w src ts tree s l, accepted w src ts tree s l -> no_call_blocks tree -> few_arguments tree -> no_references l ->
  forall n, in_checked n l -> fine_here (s_syms s) false n.
Proof.
  intros w src ts tree s l A NC FA NR x C. destruct (final_symbols _ _ _ _ _ _ A NC FA) as (s1 & e & EQ & RD & B). rewrite EQ.
  destruct (checked_paired _ _ _ _ _ C _ _ _ B) as (n & P). destruct (located _ _ _ _ _ _ _ P _ _ B) as (en & en' & S0 & _).
  assert (PL : forall y, checked_expr x = Some y -> plain_expr y).
  { intros y E o r t c Q. apply (NR x o r t c C). exists y. auto. }
  clear P. inversion S0; subst x; unfold fine_here; cbn [tn_type tn_pay tn_child]; cbn [checked_expr tn_pay] in PL;
    try match goal with E : elab _ _ _ _ _ _ |- _ => pose proof (elab_typed _ _ _ _ _ _ E (PL _ eq_refl)) end; auto.
  - split; [reflexivity|]. split; [assumption|]. match goal with E : sig s1 _ = Some (DVar _ _) |- _ => destruct (sig_var _ _ _ _ E) as (vv & E1 & _) end. eauto.
  - match goal with E : sig s1 _ = Some (DVar _ _) |- _ => destruct (sig_var _ _ _ _ E) as (vv & E1 & _ & E2) end. split; [assumption|]. unfold const. now rewrite E1.
  - match goal with E : In _ [N_IF; N_ELIF; N_WHILE] |- _ => destruct E as [<- | [<- | [<- | []]]] end; auto.
  - match goal with E : sig s1 _ = Some (DFun _ _) |- _ => destruct (sig_fun _ _ _ _ E) as (ff & E1 & _) end. exists ff. split; [exact E1|].
    intros _ p IN. match goal with E : params_ok _ _ _ _ _ _ _ |- _ => destruct (params_sig _ _ _ _ _ _ _ E p IN) as (t0 & E2) end.
    destruct (sig_var _ _ _ _ E2) as (vv & E3 & _ & E4). unfold const. now rewrite E3.
  - eauto.
  - match goal with E : In _ (_ :: _) |- _ => destruct E as [<- | [<- | [<- | [<- | [<- | [<- | [<- | [<- | []]]]]]]]] end; exact I.
Qed.

(** * Variables that wait for their definition *)

Lemma mut_numbers : forall ys n, (NoDup (numbers n) -> NoDup (mut_defs ys n)) /\ incl (mut_defs ys n) (numbers n).
Proof.
  intros ys n. induction n as [t tk p c F] using tnode_ind'.
  assert (Q : (NoDup (flat_map numbers c) -> NoDup (flat_map (mut_defs ys) c)) /\ incl (flat_map (mut_defs ys) c) (flat_map numbers c)).
  { induction F as [|y c [A B] F [IH1 IH2]]; [split; [intros _; constructor|intros k []]|]. cbn [flat_map]. split.
    - intro N. pose proof (nodup_left _ _ N) as N1. apply nodup_parts in N as (N2 & D). apply NoDup_app_both; auto. intros k K1 K2. apply (D k); auto.
    - apply incl_app; [apply incl_appl|apply incl_appr]; auto. }
  destruct Q as (Q1 & Q2). cbn [numbers mut_defs].
  assert (HERE : incl (match p with XDef k _ => if mutable ys k then [k] else [] | _ => [] end) (numbers_here (mktnode t tk p c)) /\
                 NoDup (match p with XDef k _ => if mutable ys k then [k] else [] | _ => [] end)).
  { destruct p; cbn [numbers_here tn_pay]; try (split; [intros ? []|constructor]). destruct (mutable ys _); split; [apply incl_refl|repeat constructor; intros []|intros ? []|constructor]. }
  assert (CH : (NoDup (flat_map numbers c) -> NoDup (match t with N_FUNCTION_PROTO => [] | _ => flat_map (mut_defs ys) c end)) /\
               incl (match t with N_FUNCTION_PROTO => [] | _ => flat_map (mut_defs ys) c end) (flat_map numbers c)).
  { destruct t; split; auto; [intros _; constructor|intros ? []]. }
  destruct HERE as (H1 & H2), CH as (C1 & C2). split.
  - intro N. apply nodup_parts in N as (N2 & D). apply NoDup_app_both; auto. intros k K1 K2. apply (D k); auto.
  - apply incl_app; [apply incl_appl|apply incl_appr]; auto.
Qed.

Lemma waiting : forall ys l, NoDup (flat_map numbers l) -> NoDup (flat_map (mut_defs ys) l).
Proof.
  intros ys. induction l as [|y l IH]; intro N; [constructor|]. cbn [flat_map] in *. pose proof (nodup_left _ _ N) as N1. apply nodup_parts in N as (N2 & D).
  apply NoDup_app_both; auto; [now apply mut_numbers|]. intros k K1 K2. apply (D k); [now apply (mut_numbers ys)|].
  apply in_flat_map in K2 as (z & IN & K2). apply in_flat_map. exists z. split; [exact IN|now apply (mut_numbers ys)].
Qed.
Lemma waiting_const : forall ys k n, In k (mut_defs ys n) -> const ys k = false.
Proof.
  intros ys k n. induction n as [t tk p c F] using tnode_ind'. cbn [mut_defs]. intro I. apply in_app_iff in I as [I|I].
  - destruct p; try destruct I. destruct (mutable ys sym) eqn:E; [|destruct I]. destruct I as [->|[]]. unfold mutable in E. unfold const, sym_var, deref.
    destruct (nth_error ys k) as [y|]; [|discriminate E]. cbn [bind]. destruct (y_kind y); try discriminate E. now apply negb_true_iff in E.
  - assert (I' : In k (flat_map (mut_defs ys) c)) by (destruct t; first [exact I|destruct I]). apply in_flat_map in I' as (y & IN & I').
    rewrite Forall_forall in F. eauto.
Qed.

(** * Whole programs *)

Section Whole.
Variable H : host.
Variable fold : iop -> operand H -> operand H -> option (operand H).
Variable debug : bool.
Hypothesis FW : folds_well H fold.

Lemma fine_debug : forall ys l n, in_checked n l -> fine_here ys false n -> (forall p, In p (flat_map (params_below ys) l) -> exists v, sym_var ys p = Ok v) ->
  fine_here (debug_syms ys debug l) debug n.
Proof.
  intros ys l n C F V. unfold fine_here in *. destruct (tn_type n); auto; destruct (tn_pay n) as [| |k e|k e|k ps|e|k] eqn:P; auto.
  - destruct F as (F1 & F2 & v & F3). split; [exact F1|]. split; [now apply syms_typed|]. destruct (syms_var ys debug l _ _ F3) as (v' & E & _). eauto.
  - destruct F as (F1 & F2). split; [now apply syms_typed|]. unfold const in *. destruct (sym_var ys k) as [v|] eqn:E; [|discriminate F2].
    destruct (syms_var ys debug l _ _ E) as (v' & E' & _ & E2). now rewrite E', E2, F2.
  - destruct F as (f & F1 & F2). exists f. split; [now rewrite syms_func|]. intros EX p I. pose proof (F2 EX p I) as CP.
    assert (J : In p (flat_map (params_below ys) l)) by (apply (params_in ys l n C k ps p P); [rewrite (func_external _ _ _ F1); exact EX|exact I]).
    destruct (V p J) as (v & E). unfold const in *. rewrite E in CP. destruct (syms_var ys debug l _ _ E) as (v' & E' & _ & E2). rewrite E', E2, CP. cbn [negb andb].
    unfold loose. replace (existsb (Nat.eqb p) (flat_map (params_below ys) l)) with true; [now rewrite andb_true_r|].
    symmetry. apply existsb_exists. exists p. split; [exact J|apply Nat.eqb_refl].
  - now apply syms_typed.
  - now apply syms_typed.
  - destruct F. split; [now apply syms_typed|assumption].
  - destruct F. split; [now apply syms_typed|assumption].
  - destruct F. split; [now apply syms_typed|assumption].
Qed.
Lemma params_vars : forall w src ts tree s l, accepted w src ts tree s l -> no_call_blocks tree -> few_arguments tree ->
  forall p, In p (flat_map (params_below (s_syms s)) l) -> exists v, sym_var (s_syms s) p = Ok v.
Proof.
  intros w src ts tree s l A NC FA p I.
  assert (Q : exists n k ps, in_checked n l /\ tn_pay n = XProto k ps /\ In p ps).
  { revert I. generalize (s_syms s) as ys. intro ys. clear.
    assert (ONE : forall n, In p (params_below ys n) -> exists m k ps, in_checked m [n] /\ tn_pay m = XProto k ps /\ In p ps).
    { intro n. induction n as [t tk pay c F] using tnode_ind'. cbn [params_below]. intro I. apply in_app_iff in I as [I|I].
      - destruct pay; try contradiction. destruct (is_external ys sym); [contradiction|]. eexists. exists sym, params.
        split; [apply (ic_here _ _ (in_eq _ _))|]. split; [reflexivity|exact I].
      - apply in_flat_map in I as (y & J & I). rewrite Forall_forall in F. destruct (F y J I) as (m & k & ps & C & P & K). exists m, k, ps. split; [|auto].
        apply ic_below with (mktnode t tk pay c); [now left|]. cbn [tn_child]. inversion C as [? X|z ? X Y]; subst; destruct X as [<-|[]]; [now apply ic_here|now apply ic_below with y]. }
    intro I. apply in_flat_map in I as (y & J & I). destruct (ONE y I) as (m & k & ps & C & P & K). exists m, k, ps. split; [|auto].
    inversion C as [? X|z ? X Y]; subst; destruct X as [<-|[]]; [now apply ic_here|now apply ic_below with y]. }
  destruct Q as (x & k & ps & C & P & J). destruct (final_symbols _ _ _ _ _ _ A NC FA) as (s1 & e & EQ & RD & B). rewrite EQ.
  destruct (checked_paired _ _ _ _ _ C _ _ _ B) as (n & PA). destruct (located _ _ _ _ _ _ _ PA _ _ B) as (en & en' & S0 & _). clear PA.
  inversion S0; subst x; cbn [tn_pay] in P; try discriminate P. injection P as <- <-.
  match goal with E : params_ok _ _ _ _ _ _ _ |- _ => destruct (params_sig _ _ _ _ _ _ _ E p J) as (t0 & E2) end.
  destruct (sig_var _ _ _ _ E2) as (vv & E3 & _). eauto.
Qed.

Lemma start_okay : forall w src ts tree s l, accepted w src ts tree s l -> no_call_blocks tree -> few_arguments tree -> no_references l ->
  forallb (steady (s_syms s)) l = true -> okay H (debug_syms (s_syms s) debug l) debug l (setup_llvm_state H).
Proof.
  intros w src ts tree s l A NC FA NR ST. assert (N : NoDup (flat_map numbers l)) by (eapply numbers_l; eauto). constructor; auto.
  - intros n C. apply fine_debug; [exact C|eapply fine_nodes; eauto|eapply params_vars; eauto].
  - intros _. now rewrite (proj2 (syms_list (s_syms s) debug l N)).
Qed.

Lemma code_runs_l : forall w src ts tree s l M o code o', accepted w src ts tree s l -> no_call_blocks tree -> few_arguments tree -> no_references l ->
  forallb (steady (s_syms s)) l = true -> gen_module H fold (s_syms s) debug l = Ok M ->
  exits H (s_syms s) (exact1 H) (exact2 H) l o code o' -> module_exits H M o code o'.
Proof.
  intros w src ts tree s l M o code o' A NC FA NR ST GM (out & s' & EX & EO & CASES).
  pose proof (start_okay _ _ _ _ _ _ A NC FA NR ST) as OK0. apply (syms_exec (s_syms s) debug l) in EX. unfold gen_module in GM. set (ys := debug_syms (s_syms s) debug l) in *. set (g0 := setup_llvm_state H) in *.
  apply bind_ok in GM as ((gF, fl) & GT & GM). fold g0 in GT.
  pose proof (gens_tree _ _ _ _ _ _ _ _ OK0 GT) as G.
  set (gM := match fl with None => emit H gF (IRet (Some (OVal (SvInt 0)))) | Some _ => gF end) in *. injection GM as EM.
  set (R := fun k => lookup (g_refs H gF) k).
  assert (IR0 : in_range H g0) by (unfold in_range, g0; cbn; lia).
  assert (RG0 : ranged H GS g0) by (intros b ->; exact IR0). pose proof (gens_grow _ _ _ _ _ _ _ _ _ G RG0) as GR.
  assert (IRF : in_range H gF) by (apply (gr_ok _ _ _ _ GR); intros b B; cbn in B; subst b; exact IR0).
  assert (BM : below H M R gM).
  { rewrite <- EM. constructor; cbn [m_blocks m_funs m_init].
    - intros b L. exists []. rewrite app_nil_r. now apply nth_error_nth'.
    - unfold R, gM. destruct fl; auto.
    - auto.
    - exists []. now rewrite app_nil_r. }
  assert (BF : below H M R gF) by (unfold gM in BM; destruct fl; [exact BM|eapply below_emit; exact BM]).
  pose proof (gens_adds _ _ _ _ _ _ _ _ _ G) as AD.
  assert (INJ : forall k k' i l l', R k = Some (mkref H (OGlob i) true l) -> R k' = Some (mkref H (OGlob i) true l') -> k = k').
  { intros k k' i l1 l2. apply (ad_distinct _ _ _ _ _ AD). split; intros; discriminate. }
  assert (EXT : forall k x, lookup (m_funs H M) k = Some x -> is_external ys k = true -> x = None).
  { intros k x. rewrite <- EM. cbn [m_funs]. replace (g_funs H gM) with (g_funs H gF) by (unfold gM; now destruct fl). apply (ad_outside _ _ _ _ _ AD). intros ? ? X. discriminate X. }
  destruct (simulation H fold ys debug M R FW INJ EXT) as (_ & _ & SIM & _).
  set (m0 := mkmem H (fun n => nth n (m_init H M) Poison) []).
  assert (I0 : inv H fold ys debug M R (defs ys (g_func H g0) l ++ []) (start H o) [] (fun _ => None) m0 0 (g_reg H g0)).
  { constructor; try (intros; discriminate); auto.
    - intros k IN. rewrite app_nil_r in IN. cbn [defs g0 setup_llvm_state g_func] in IN. apply in_flat_map in IN as (y & _ & IN). split; [now apply waiting_const in IN|]. split; auto.
    - rewrite app_nil_r. apply waiting. apply (ok_nodup _ _ _ _ _ OK0). }
  destruct (SIM _ _ _ _ EX g0 gF fl [] [] (fun _ => None) m0 0 G IR0 BF) as (regs' & m' & _ & _ & _ & D); [split; reflexivity|exact I0|].
  assert (MB : nth_error (m_blocks H M) 0 = Some (block H M 0)) by (eapply block_is; [exact BF|]; pose proof (gr_len _ _ _ _ GR) as L; cbn in L; lia).
  assert (RG : rest H M g0 = block H M 0) by reflexivity. rewrite RG in D.
  exists (block H M 0), m'. split; [replace (m_main H M) with 0 by (rewrite <- EM; reflexivity); exact MB|].
  destruct CASES as [(-> & ->) | ->]; cbn [done] in D.
  - destruct D as (-> & D). apply D. rewrite (rest_emit _ _ _ _ _ BM IRF). rewrite EO. now apply ru_ret.
  - rewrite <- EO. exact D.
Qed.
End Whole.
