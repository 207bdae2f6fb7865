(** Statements: the generator as a relation, and how its state grows. *)
From Coq Require Import List Arith NArith ZArith Bool Lia.
From Verif Require Import Base Model_Literal Model_Parse Model_Sem Spec_Sem Spec_Sem2 Spec_Run Model_Helpers Spec_IR Model_LLVM Spec_LLVM Proof_LLVM.
Import ListNotations.
Open Scope list_scope.
Open Scope nat_scope.

Section Gens.
Variable H : host.
Variable fold : iop -> operand H -> operand H -> option (operand H).
Variable ys : list symbol.
Variable debug : bool.
Local Notation gst := (gst H).
Local Notation sym_var := (sym_var ys).
Local Notation sym_func := (sym_func ys).
Local Notation gen_expr := (gen_expr H fold ys).
Local Notation typed := (typed ys).
Local Notation const := (const ys).
Local Notation grow := (grow H).
Local Notation in_range := (in_range H).
Local Notation here := (here H).
Local Notation blocks := (g_blocks H).
Local Notation count g := (List.length (g_blocks H g)).

(** At a statement; behind a branch of an `if`; at a branch. *)
Inductive gmode := GS | GB (entry last : nat) | GC (entry last : nat).

Inductive gens : gmode -> list tnode -> gst -> gst -> flow -> Prop :=
| gs_nil : forall g, gens GS [] g g None
| gs_skip : forall n r g g' fl, In (tn_type n) [N_COMMENT; N_IMPORT] \/ tn_type n = N_VAR_DEF /\ tn_pay n = XAlias ->
    gens GS r g g' fl -> gens GS (n :: r) g g' fl
| gs_noop : forall n r g g' fl, tn_type n = N_NOOP -> gens GS r (gen_noop H debug g) g' fl -> gens GS (n :: r) g g' fl
| gs_def : forall n r k e v g o t g1 g2 g' fl, tn_type n = N_VAR_DEF -> tn_pay n = XDef k e -> tn_child n = [] -> typed e ->
    sym_var k = Ok v -> lookup (g_refs H g) k = None -> gen_expr e g = Ok (o, t, g1) ->
    setup_var_llvm H ys o k g1 = Ok g2 -> gens GS r g2 g' fl -> gens GS (n :: r) g g' fl
| gs_set : forall n r k e g o t g1 g2 g' fl, tn_type n = N_VAR_ASSIGN -> tn_pay n = XSet k e -> typed e ->
    const k = false -> gen_expr e g = Ok (o, t, g1) ->
    assign_value_to_var H ys o k g1 = Ok g2 -> gens GS r g2 g' fl -> gens GS (n :: r) g g' fl
| gs_call : forall n r e g o t g1 g' fl, tn_type n = N_EXPR -> tn_pay n = XExpr e -> typed e ->
    gen_expr e g = Ok (o, t, g1) -> gens GS r g1 g' fl -> gens GS (n :: r) g g' fl
| gs_return : forall n r e g o t g1, tn_type n = N_RETURN -> tn_pay n = XExpr e -> typed e ->
    gen_expr e g = Ok (o, t, g1) -> gens GS (n :: r) g (emit H g1 (IRet (Some o))) (Some t)
| gs_leave : forall n r g, tn_type n = N_RETURN -> tn_pay n = XNone -> gens GS (n :: r) g (emit H g (IRet None)) (Some (Some TVoid))
| gs_unreachable : forall n r g, tn_type n = N_UNREACHABLE -> gens GS (n :: r) g (emit H g IUnreachable) (Some (Some TVoid))
| gs_break : forall n r g b, tn_type n = N_BREAK -> g_end H g = Some b -> gens GS (n :: r) g (emit H g (IBr b)) (Some (Some TVoid))
| gs_continue : forall n r g b, tn_type n = N_CONTINUE -> g_cond H g = Some b -> gens GS (n :: r) g (emit H g (IBr b)) (Some (Some TVoid))
| gs_if : forall n r g g' fl, tn_type n = N_IF ->
    gens (GC (g_cur H g) (count g)) (n :: r) (snd (new_block H g)) g' fl -> gens GS (n :: r) g g' fl
| gs_while : forall n r e g g1 o t g2 g3 fl1 g' fl c, tn_type n = N_WHILE -> tn_pay n = XExpr e -> typed e ->
    (g_func H g = None -> flat_map (mut_defs ys) (tn_child n) = []) -> c = count g ->
    g1 = position H (emit H (set_loop H (snd (new_block H (snd (new_block H (snd (new_block H g)))))) (Some c) (Some (S (S c)))) (IBr c)) c ->
    gen_expr e g1 = Ok (o, t, g2) ->
    gens GS (tn_child n) (position H (emit H g2 (ICondBr o (S c) (S (S c)))) (S c)) g3 fl1 ->
    gens GS r (set_loop H (position H (branch_to H c (g3, fl1)) (S (S c))) None None) g' fl ->
    gens GS (n :: r) g g' fl
| gs_space : forall n r k g g1 fl1 g' fl, tn_type n = N_NAMESPACE -> tn_pay n = XSpace k -> gens GS (tn_child n) g g1 fl1 -> gens GS r g1 g' fl ->
    gens GS (n :: r) g g' fl
| gs_external : forall n r k ps f g g' fl, tn_type n = N_FUNCTION_PROTO -> tn_pay n = XProto k ps -> sym_func k = Ok f ->
    f_external f = true -> lookup (g_funs H g) k = None -> gens GS r (set_fun H g k None) g' fl -> gens GS (n :: r) g g' fl
| gs_function : forall n r k ps f g gp g0 g1 fl1 g' fl, tn_type n = N_FUNCTION_PROTO -> tn_pay n = XProto k ps -> sym_func k = Ok f ->
    f_external f = false -> lookup (g_funs H g) k = None ->
    (forall p, In p ps -> lookup (g_refs H g) p = None /\ const p = negb debug) -> NoDup ps ->
    gp = set_func H (position H (gen_params H 0 ps (set_fun H (snd (new_block H g)) k (Some (count g)))) (count g)) (Some k) ->
    func_debug_info H ys debug ps gp = Ok g0 ->
    gens GS (tn_child n) g0 g1 fl1 ->
    gens GS r (position H (end_func H f fl1 (g_func H g) g1) (g_cur H g)) g' fl ->
    gens GS (n :: r) g g' fl
| gs_condition : forall n r e entry last g g2 fl1 g3 f g4 o t' g5 m g6 g' fl, tn_pay n = XExpr e -> typed e -> x_ty e = TBool ->
    gens GS (tn_child n) (position H (snd (new_block H g)) (count g)) g2 fl1 ->
    g3 = position H (branch_to H last (g2, fl1)) entry ->
    (f, g4) = (if branch_follows r then (count g3, snd (new_block H g3)) else (last, g3)) ->
    gen_expr e g4 = Ok (o, t', g5) ->
    (m, g6) = (if branch_follows r then (GB f last, emit H g5 (ICondBr o (count g) f)) else (GS, position H (emit H g5 (ICondBr o (count g) f)) last)) ->
    gens m r g6 g' fl -> gens (GC entry last) (n :: r) g g' fl
| gs_comment : forall entry last n r g g' fl, tn_type n = N_COMMENT -> gens (GB entry last) r g g' fl ->
    gens (GB entry last) (n :: r) g g' fl
| gs_elif : forall entry last n r g g' fl, tn_type n = N_ELIF -> gens (GC entry last) (n :: r) g g' fl ->
    gens (GB entry last) (n :: r) g g' fl
| gs_else : forall entry last n r g g1 fl1 g' fl, tn_type n = N_ELSE -> tn_pay n = XNone -> gens GS (tn_child n) (position H g entry) g1 fl1 ->
    gens GS r (position H (branch_to H last (g1, fl1)) last) g' fl -> gens (GB entry last) (n :: r) g g' fl.

(** * Growth *)

Definition starts (m : gmode) (g : gst) (b : nat) : Prop :=
  match m with GS => b = g_cur H g | GB e l | GC e l => b = e \/ b = l end.
Definition ranged (m : gmode) (g : gst) : Prop := forall b, starts m g b -> b < count g.

Lemma grow_position : forall g b, grow (fun x => x = b) g (position H g b).
Proof.
  intros g b. constructor; cbn [position g_blocks g_cur g_reg g_glob g_refs g_funs g_func]; auto.
  - intros i L. exists []. now rewrite app_nil_r.
  - exists []. now rewrite app_nil_r.
Qed.
Lemma new_same : forall g b, b < count g -> nth b (blocks (snd (new_block H g))) [] = nth b (blocks g) [].
Proof. intros g b L. cbn [new_block snd set_blocks g_blocks]. now rewrite app_nth1. Qed.
Lemma new_empty : forall g, nth (count g) (blocks (snd (new_block H g))) [] = [].
Proof. intro g. cbn [new_block snd set_blocks g_blocks]. rewrite app_nth2, Nat.sub_diag by lia. reflexivity. Qed.
Lemma new_count : forall g, count (snd (new_block H g)) = S (count g).
Proof. intro g. cbn [new_block snd set_blocks g_blocks]. rewrite app_length. cbn. lia. Qed.
Lemma grow_new : forall g, grow (here g) g (snd (new_block H g)).
Proof.
  intro g. constructor; try reflexivity; auto.
  - rewrite new_count. lia.
  - intros b L. exists []. now rewrite new_same, app_nil_r.
  - intros b L _. now apply new_same.
  - now left.
  - intro O. rewrite new_count. specialize (O (g_cur H g) eq_refl). cbn [new_block snd set_blocks g_cur]. lia.
  - exists []. now rewrite app_nil_r.
Qed.
Lemma grow_set_ref : forall g k r, lookup (g_refs H g) k = None -> grow (here g) g (set_ref H g k r).
Proof.
  intros g k r F. constructor; try reflexivity; auto.
  - intros b _. exists []. now rewrite app_nil_r.
  - now left.
  - intro O. now apply O.
  - exists []. now rewrite app_nil_r.
  - intros i x E. cbn [set_ref g_refs lookup]. destruct (k =? i) eqn:K; [|exact E]. apply Nat.eqb_eq in K. congruence.
Qed.
Lemma grow_set_fun : forall g k r, lookup (g_funs H g) k = None -> grow (here g) g (set_fun H g k r).
Proof.
  intros g k r F. constructor; try reflexivity; auto.
  - intros b _. exists []. now rewrite app_nil_r.
  - now left.
  - intro O. now apply O.
  - exists []. now rewrite app_nil_r.
  - intros i x E. cbn [set_fun g_funs lookup]. destruct (k =? i) eqn:K; [|exact E]. apply Nat.eqb_eq in K. congruence.
Qed.
Lemma grow_globs : forall g k l, grow (here g) g (set_globs H g k (g_glob H g ++ l)).
Proof.
  intros g k l. constructor; try reflexivity; auto.
  - intros b _. exists []. now rewrite app_nil_r.
  - now left.
  - intro O. now apply O.
  - exists l. reflexivity.
Qed.
Lemma grow_loop : forall g c e, grow (here g) g (set_loop H g c e).
Proof.
  intros g c e. constructor; try reflexivity; auto.
  - intros b _. exists []. now rewrite app_nil_r.
  - now left.
  - intro O. now apply O.
  - exists []. now rewrite app_nil_r.
Qed.

(** Two steps, the second in the block where the first ended. *)
Lemma grow_then : forall (T : nat -> Prop) g g1 g2, (forall b, T b -> b < count g) -> grow T g g1 -> grow (here g1) g1 g2 -> grow T g g2.
Proof.
  intros T g g1 g2 R A B. apply (grow_trans _ _ _ _ _ _ A B).
  - intros b E. unfold here, Proof_LLVM.here in E. subst b. apply (gr_ok _ _ _ _ A R).
  - intros b E. unfold here, Proof_LLVM.here in E. subst b. apply (gr_cur _ _ _ _ A).
Qed.
(** Two steps, the second in blocks that are new or the first may write to. *)
Lemma grow_into : forall (T U : nat -> Prop) g g1 g2, grow T g g1 -> grow U g1 g2 ->
  (forall b, U b -> b < count g1) -> (forall b, U b -> T b \/ count g <= b) -> grow T g g2.
Proof. intros T U g g1 g2. apply grow_trans. Qed.

Lemma branch_to_grow : forall b g fl, grow (here g) g (branch_to H b (g, fl)).
Proof. intros b g [t|]; cbn [branch_to snd fst]; [apply grow_refl|apply grow_emit]. Qed.

Lemma setup_cases : forall o k g g2 v, sym_var k = Ok v -> setup_var_llvm H ys o k g = Ok g2 ->
  (g_func H g = None /\ is_constant H o = true /\ exists init, const_null H (v_type v) = Ok init /\
     g2 = set_ref H (set_globs H g k (g_glob H g ++ [constant_value H o])) k (mkref H (OGlob (List.length (g_glob H g))) true true)) \/
  (g_func H g = None /\ is_constant H o = false /\ exists init, const_null H (v_type v) = Ok init /\
     g2 = emit H (set_ref H (set_globs H g k (g_glob H g ++ [init])) k (mkref H (OGlob (List.length (g_glob H g))) true false))
       (IStore o (OGlob (List.length (g_glob H g))))) \/
  (g_func H g <> None /\ v_const v = true /\ g2 = set_ref H g k (mkref H o false (is_constant H o))) \/
  (g_func H g <> None /\ v_const v = false /\
     g2 = emit H (set_ref H (emit H (set_next H g (S (g_reg H g))) (IAlloca (g_reg H g) (v_type v))) k (mkref H (OReg (g_reg H g)) false (is_constant H o)))
       (IStore o (OReg (g_reg H g)))).
Proof.
  intros o k g g2 v V E. unfold setup_var_llvm in E. rewrite V in E. cbn [bind] in E. destruct (g_func H g) as [f|] eqn:F.
  - right. right. destruct (v_const v) eqn:C; [left; split; [discriminate|split; [reflexivity|congruence]]|].
    right. split; [discriminate|]. split; [reflexivity|].
    assert (X : (let '(p, g) := emit_reg H g (fun n : nat => IAlloca n (v_type v)) in assign_value_to_var H ys o k (set_ref H g k (mkref H p false (is_constant H o)))) = Ok g2).
    { destruct (v_type v); auto. discriminate E. }
    cbn [emit_reg] in X. unfold assign_value_to_var in X. rewrite V in X. cbn [bind] in X. rewrite C in X. cbn [andb] in X.
    unfold var_ref in X. cbn [set_ref g_refs lookup] in X. rewrite Nat.eqb_refl in X. cbn [bind rf_val] in X. congruence.
  - apply bind_ok in E as (init & I & E). destruct (is_constant H o) eqn:C.
    + left. repeat (split; auto). exists init. split; [exact I|congruence].
    + right. left. repeat (split; auto). exists init. split; [exact I|].
      unfold assign_value_to_var in E. rewrite V in E. cbn [bind set_ref set_globs g_refs lookup] in E. rewrite Nat.eqb_refl in E. cbn [rf_global] in E.
      rewrite C, andb_false_r in E. unfold var_ref in E. cbn [set_ref set_globs g_refs lookup] in E. rewrite Nat.eqb_refl in E. cbn [bind rf_val] in E. congruence.
Qed.
Lemma setup_grow : forall o k g g2 v, in_range g -> sym_var k = Ok v -> lookup (g_refs H g) k = None -> setup_var_llvm H ys o k g = Ok g2 -> grow (here g) g g2.
Proof.
  intros o k g g2 v R V F E. assert (RR : forall b, here g b -> b < count g) by (intros b ->; exact R).
  destruct (setup_cases _ _ _ _ _ V E) as [(_ & _ & init & _ & ->)|[(_ & _ & init & _ & ->)|[(_ & _ & ->)|(_ & _ & ->)]]].
  - eapply grow_then; [exact RR|apply grow_globs|]. now apply grow_set_ref.
  - eapply grow_then; [exact RR|eapply grow_then; [exact RR|apply grow_globs|]|]; [|apply grow_emit]. now apply grow_set_ref.
  - now apply grow_set_ref.
  - eapply grow_then; [exact RR|eapply grow_then; [exact RR|eapply grow_then; [exact RR|apply grow_next with (r := S (g_reg H g)); lia|apply grow_emit]|]|apply grow_emit].
    now apply grow_set_ref.
Qed.
Lemma assign_case : forall o k g g2, const k = false -> assign_value_to_var H ys o k g = Ok g2 ->
  exists v r, sym_var k = Ok v /\ v_const v = false /\ lookup (g_refs H g) k = Some r /\ g2 = emit H g (IStore o (rf_val H r)).
Proof.
  intros o k g g2 C E. unfold assign_value_to_var in E. apply bind_ok in E as (v & V & E). unfold const, Proof_LLVM.const in C. rewrite V in C. rewrite C in E.
  cbn [andb] in E. apply bind_ok in E as (r & R & E). exists v, r. unfold var_ref in R. destruct (lookup (g_refs H g) k) as [r'|]; [|discriminate R].
  repeat split; congruence.
Qed.

Lemma params_case : forall ps i g, g_blocks H (gen_params H i ps g) = g_blocks H g /\ g_cur H (gen_params H i ps g) = g_cur H g /\
  g_reg H (gen_params H i ps g) = g_reg H g /\ g_glob H (gen_params H i ps g) = g_glob H g /\ g_funs H (gen_params H i ps g) = g_funs H g /\
  g_cond H (gen_params H i ps g) = g_cond H g /\ g_end H (gen_params H i ps g) = g_end H g /\ g_func H (gen_params H i ps g) = g_func H g.
Proof. induction ps as [|p ps IH]; intros i g; cbn [gen_params]; [repeat split|]. destruct (IH (S i) (set_ref H g p (mkref H (OArg i) false false))) as (A & B & C & D & E & F & G & J). repeat split; auto. Qed.
Lemma params_refs : forall ps i g k, NoDup ps -> lookup (g_refs H (gen_params H i ps g)) k =
  match find (fun x => snd x =? k) (combine (seq i (List.length ps)) ps) with Some (j, _) => Some (mkref H (OArg j) false false) | None => lookup (g_refs H g) k end.
Proof.
  induction ps as [|p ps IH]; intros i g k N; [reflexivity|]. inversion N as [|? ? N1 N2]; subst. cbn [gen_params List.length seq combine find snd].
  rewrite IH by exact N2. destruct (p =? k) eqn:K.
  - apply Nat.eqb_eq in K. subst k. destruct (find (fun x => snd x =? p) (combine (seq (S i) (List.length ps)) ps)) as [[j q]|] eqn:F.
    + exfalso. apply find_some in F as (F & G). cbn in G. apply Nat.eqb_eq in G. subst q. apply in_combine_r in F. contradiction.
    + cbn [set_ref g_refs lookup]. now rewrite Nat.eqb_refl.
  - destruct (find _ _) as [[j q]|]; [reflexivity|]. cbn [set_ref g_refs lookup]. now rewrite K.
Qed.
Lemma params_nth : forall ps i g j p, NoDup ps -> nth_error ps j = Some p -> lookup (g_refs H (gen_params H i ps g)) p = Some (mkref H (OArg (i + j)) false false).
Proof.
  induction ps as [|q ps IH]; intros i g j p N E; [destruct j; discriminate E|]. inversion N as [|? ? N1 N2]; subst. cbn [gen_params].
  destruct j as [|j]; cbn [nth_error] in E.
  - inversion E; subst q. rewrite params_refs by exact N2. destruct (find _ _) as [[j r]|] eqn:F.
    + exfalso. apply find_some in F as (F & G). cbn in G. apply Nat.eqb_eq in G. subst r. apply in_combine_r in F. contradiction.
    + cbn [set_ref g_refs lookup]. rewrite Nat.eqb_refl, Nat.add_0_r. reflexivity.
  - rewrite IH with (j := j) by assumption. now replace (S i + j) with (i + S j) by lia.
Qed.
Lemma params_old : forall ps i g k r, NoDup ps -> (forall p, In p ps -> lookup (g_refs H g) p = None) -> lookup (g_refs H g) k = Some r ->
  lookup (g_refs H (gen_params H i ps g)) k = Some r.
Proof.
  intros ps i g k r N F E. rewrite params_refs by exact N. destruct (find _ _) as [[j q]|] eqn:X; [|exact E].
  apply find_some in X as (X & G). cbn in G. apply Nat.eqb_eq in G. subst q. apply in_combine_r in X. rewrite F in E; [discriminate E|exact X].
Qed.
Lemma params_new : forall ps i g k r, NoDup ps -> lookup (g_refs H (gen_params H i ps g)) k = Some r -> lookup (g_refs H g) k = None ->
  In k ps /\ exists j, r = mkref H (OArg j) false false.
Proof.
  intros ps i g k r N E F. rewrite params_refs in E by exact N. destruct (find _ _) as [[j q]|] eqn:X; [|congruence].
  apply find_some in X as (X & G). cbn in G. apply Nat.eqb_eq in G. subst q. apply in_combine_r in X. split; [exact X|]. exists j. congruence.
Qed.
Lemma grow_params : forall ps i g, NoDup ps -> (forall p, In p ps -> lookup (g_refs H g) p = None) -> grow (here g) g (gen_params H i ps g).
Proof.
  intros ps i g N F. destruct (params_case ps i g) as (A & B & C & D & E & G & J & K). constructor; rewrite ?A, ?B, ?C, ?D, ?E, ?K; auto.
  - intros b _. exists []. now rewrite app_nil_r.
  - now left.
  - intro O. now apply O.
  - exists []. now rewrite app_nil_r.
  - intros k r X. now apply params_old.
Qed.

(** The cells for parameters in debug builds. *)
Record cells_for (ps : list nat) (g g' : gst) : Prop := mkcells {
  cf_cur : g_cur H g' = g_cur H g;
  cf_glob : g_glob H g' = g_glob H g;
  cf_funs : g_funs H g' = g_funs H g;
  cf_cond : g_cond H g' = g_cond H g;
  cf_end : g_end H g' = g_end H g;
  cf_func : g_func H g' = g_func H g;
  cf_reg : g_reg H g <= g_reg H g';
  cf_len : count g' = count g;
  cf_block : forall b, exists c, nth b (g_blocks H g') [] = nth b (g_blocks H g) [] ++ c /\ (b <> g_cur H g -> c = []);
  cf_refs : forall k, ~ In k ps -> lookup (g_refs H g') k = lookup (g_refs H g) k;
  cf_known : forall k, lookup (g_refs H g) k <> None -> lookup (g_refs H g') k <> None;
  cf_local : forall k i l, lookup (g_refs H g') k = Some (mkref H (OGlob i) true l) -> lookup (g_refs H g) k = Some (mkref H (OGlob i) true l) }.
Lemma cells_refl : forall ps g, cells_for ps g g.
Proof. intros ps g. constructor; auto. intro b. exists []. rewrite app_nil_r. auto. Qed.
Definition one_cell (g : gst) (p : nat) (t : ty) (o : operand H) : gst :=
  set_ref H (emit H (emit H (set_next H g (S (g_reg H g))) (IAlloca (g_reg H g) t)) (IStore o (OReg (g_reg H g)))) p (mkref H (OReg (g_reg H g)) false false).
Lemma debug_cons : forall p ps g g', debug_params H ys (p :: ps) g = Ok g' -> exists v old, sym_var p = Ok v /\ lookup (g_refs H g) p = Some old /\
  debug_params H ys ps (one_cell g p (v_type v) (rf_val H old)) = Ok g'.
Proof.
  intros p ps g g' E. cbn [debug_params] in E. apply bind_ok in E as (v & V & E). apply bind_ok in E as (old & L & E). exists v, old.
  unfold var_ref in L. destruct (lookup (g_refs H g) p) as [r|]; [|discriminate L]. injection L as ->. auto.
Qed.
Lemma cell_block : forall g p t o b, exists c, nth b (g_blocks H (one_cell g p t o)) [] = nth b (g_blocks H g) [] ++ c /\ (b <> g_cur H g -> c = []).
Proof.
  intros g p t o b. cbn [one_cell set_ref emit set_blocks set_next g_blocks g_cur]. rewrite nth_upd, upd_length, nth_upd.
  destruct (b =? g_cur H g) eqn:B; [|exists []; rewrite app_nil_r; auto]. apply Nat.eqb_eq in B. destruct (b <? count g) eqn:L.
  - rewrite <- app_assoc. eexists. split; [reflexivity|]. intro N. now elim N.
  - exists []. apply Nat.ltb_ge in L. rewrite (nth_overflow (g_blocks H g)) by exact L. auto.
Qed.
Lemma debug_cells : forall ps g g', debug_params H ys ps g = Ok g' -> cells_for ps g g'.
Proof.
  induction ps as [|p ps IH]; intros g g' E; [cbn in E; injection E as <-; apply cells_refl|].
  apply debug_cons in E as (v & old & _ & L & E). destruct (IH _ _ E) as [A1 A2 A3 A4 A5 A6 A7 A8 A9 A10 A11 A12]. clear IH E.
  constructor; try (cbn in *; assumption).
  - cbn in A7. lia.
  - rewrite A8. cbn [one_cell set_ref g_blocks]. cbn [emit set_blocks set_next g_blocks g_cur]. now rewrite !upd_length.
  - intro b. destruct (A9 b) as (c & C1 & C2). destruct (cell_block g p (v_type v) (rf_val H old) b) as (d & D1 & D2). exists (d ++ c).
    rewrite C1, D1, app_assoc. split; [reflexivity|]. intro N. now rewrite (C2 N), (D2 N).
  - intros k N. rewrite A10 by (intro I; apply N; now right). cbn [one_cell set_ref g_refs lookup]. destruct (p =? k) eqn:K; [|reflexivity].
    apply Nat.eqb_eq in K. subst k. elim N. now left.
  - intros k N. apply A11. cbn [one_cell set_ref g_refs lookup]. destruct (p =? k); [discriminate|exact N].
  - intros k i l X. apply A12 in X. cbn [one_cell set_ref g_refs lookup] in X. destruct (p =? k); [discriminate X|exact X].
Qed.
Lemma info_cells : forall ps g g', func_debug_info H ys debug ps g = Ok g' -> cells_for ps g g'.
Proof. intros ps g g' E. unfold func_debug_info in E. destruct debug; [now apply debug_cells|injection E as <-; apply cells_refl]. Qed.
Lemma grow_cells : forall (T : nat -> Prop) ps g gp g0, grow T g gp -> cells_for ps gp g0 -> (forall p, In p ps -> lookup (g_refs H g) p = None) -> grow T g g0.
Proof.
  intros T ps g gp g0 [A1 A2 A3 A4 A5 A6 A7 A8 A9 A10] [B1 B2 B3 B4 B5 B6 B7 B8 B9 B10 B11 B12] F. constructor; rewrite ?B1, ?B2, ?B3, ?B6, ?B8; auto.
  - intros b L. destruct (A2 b L) as (c & C). destruct (B9 b) as (d & D & _). exists (c ++ d). now rewrite D, C, app_assoc.
  - intros b L N. destruct (B9 b) as (d & D & D2). rewrite D, (A3 b L N), D2; [apply app_nil_r|]. intros ->. destruct A4 as [A4|A4]; [contradiction|lia].
  - lia.
  - intros k r L. rewrite B10; [auto|]. intro I. rewrite (F k I) in L. discriminate L.
Qed.

Lemma growT : forall (T : nat -> Prop) g g1 g2, grow T g g1 -> g_blocks H g2 = g_blocks H g1 -> (T (g_cur H g2) \/ count g <= g_cur H g2 < count g1) ->
  g_reg H g2 = g_reg H g1 -> g_glob H g2 = g_glob H g1 -> g_refs H g2 = g_refs H g1 -> g_funs H g2 = g_funs H g1 -> g_func H g2 = g_func H g -> grow T g g2.
Proof.
  intros T g g1 g2 [A1 A2 A3 A4 A5 A6 A7 A8 A9 A10] B C D E F G J.
  constructor; rewrite ?B, ?D, ?E, ?F, ?G; auto.
  - destruct C; [now left|right; lia].
  - intro O. destruct C as [C|C]; [|lia]. specialize (O _ C). lia.
Qed.

Lemma grow_at : forall (T : nat -> Prop) g g1 b, grow T g g1 -> (forall b, T b -> b < count g) -> b < count g1 -> (T b \/ count g <= b) -> grow T g (position H g1 b).
Proof.
  intros T g g1 b G R L C. apply growT with g1; try reflexivity; auto.
  - destruct C; [now left|right; cbn [position g_cur]; lia].
  - cbn [position g_func]. apply (gr_func _ _ _ _ G).
Qed.
Lemma ranged_grow : forall (T : nat -> Prop) g g1, (forall b, T b -> b < count g) -> grow T g g1 -> ranged GS g1.
Proof. intros T g g1 R G b ->. apply (gr_ok _ _ _ _ G R). Qed.
Lemma emit_count : forall g i, count (emit H g i) = count g.
Proof. intros g i. apply upd_length. Qed.
Lemma branch_count : forall b g fl, count (branch_to H b (g, fl)) = count g.
Proof. intros b g [t|]; cbn [branch_to snd fst]; [reflexivity|apply emit_count]. Qed.
Lemma end_func_grow : forall f fl g g1 k (T : nat -> Prop), (forall b, T b -> b < count g) -> g_func H g1 = Some k -> grow T (set_func H g (Some k)) g1 -> grow T g (end_func H f fl (g_func H g) g1).
Proof.
  intros f fl g g1 k T R F G. unfold end_func.
  assert (A : grow T g (set_func H g1 (g_func H g))). { destruct G as [A1 A2 A3 A4 A5 A6 A7 A8 A9 A10]. constructor; auto. }
  destruct (ty_eqb (f_ret f) TVoid && negb _); [|exact A]. eapply grow_then; [exact R|exact A|apply grow_emit].
Qed.
Lemma end_func_count : forall f fl old g, count (end_func H f fl old g) = count g.
Proof. intros f fl old g. unfold end_func. destruct (_ && _); [rewrite emit_count|]; reflexivity. Qed.

(** The parts of a loop. *)
Definition loop_head (g : gst) : gst :=
  emit H (set_loop H (snd (new_block H (snd (new_block H (snd (new_block H g)))))) (Some (count g)) (Some (S (S (count g))))) (IBr (count g)).
Lemma loop_head_count : forall g, count (loop_head g) = S (S (S (count g))).
Proof. intro g. unfold loop_head. rewrite emit_count. cbn [set_loop g_blocks]. now rewrite !new_count. Qed.
Lemma loop_head_grow : forall g, ranged GS g -> grow (here g) g (loop_head g).
Proof.
  intros g R. unfold loop_head. eapply grow_then; [exact R| |apply grow_emit]. eapply grow_then; [exact R| |apply grow_loop].
  eapply grow_then; [exact R| |apply grow_new]. eapply grow_then; [exact R| |apply grow_new]. apply grow_new.
Qed.

Lemma grow_new_at : forall (T : nat -> Prop) g, grow T g (position H (snd (new_block H g)) (count g)).
Proof.
  intros T g. pose proof (new_count g) as KN. constructor; try reflexivity; auto; cbn [position g_blocks g_cur]; rewrite ?KN; try lia.
  - intros b L. exists []. now rewrite new_same, app_nil_r.
  - intros b L _. now apply new_same.
  - exists []. now rewrite app_nil_r.
Qed.
Lemma here_at : forall (T : nat -> Prop) g b, T b -> grow T g (position H g b).
Proof.
  intros T g b B. constructor; try reflexivity; auto.
  - intros i L. exists []. now rewrite app_nil_r.
  - exists []. now rewrite app_nil_r.
Qed.

(** The current loop of g' is that of g, or there is none. *)
Definition loops (g g' : gst) : Prop :=
  (forall b, g_end H g' = Some b -> g_end H g = Some b) /\ (forall b, g_cond H g' = Some b -> g_cond H g = Some b).
Lemma loops_refl : forall g, loops g g.
Proof. intro g. split; auto. Qed.
Lemma loops_trans : forall a b c, loops a b -> loops b c -> loops a c.
Proof. intros a b c (A1 & A2) (B1 & B2). split; auto. Qed.
Lemma loops_eq : forall g g', g_end H g' = g_end H g -> g_cond H g' = g_cond H g -> loops g g'.
Proof. intros g g' E F. split; intros b X; congruence. Qed.
Lemma loops_branch : forall b g fl, loops g (branch_to H b (g, fl)).
Proof. intros b g [t|]; now apply loops_eq. Qed.
Lemma loops_expr : forall x g o t g', gen_expr x g = Ok (o, t, g') -> loops g g'.
Proof. intros x g o t g' E. destruct (kept_expr _ _ _ x _ _ _ _ E) as (A & B & _). now apply loops_eq. Qed.
Lemma loops_setup : forall o k g g2 v, Model_LLVM.sym_var ys k = Ok v -> setup_var_llvm H ys o k g = Ok g2 -> loops g g2.
Proof.
  intros o k g g2 v V E.
  destruct (setup_cases _ _ _ _ _ V E) as [(_ & _ & init & _ & ->)|[(_ & _ & init & _ & ->)|[(_ & _ & ->)|(_ & _ & ->)]]]; now apply loops_eq.
Qed.
Lemma loops_end : forall f fl old g, loops g (end_func H f fl old g).
Proof. intros f fl old g. unfold end_func. destruct (_ && _); now apply loops_eq. Qed.

Lemma gens_grow : forall m l g g' fl, gens m l g g' fl -> ranged m g -> grow (starts m g) g g'.
Proof.
  intros m l g g' fl G. induction G; intro R;
    try match goal with E : gen_expr _ _ = Ok _ |- _ => rename E into GE end;
    try match goal with E : setup_var_llvm H ys _ _ _ = Ok _ |- _ => rename E into GV end;
    try match goal with E : assign_value_to_var H ys _ _ _ = Ok _ |- _ => rename E into GA end;
    try match goal with E : const _ = false |- _ => rename E into GK end;
    try match goal with E : lookup (g_funs H _) _ = None |- _ => rename E into GF end;
    try match goal with E : forall p, In p _ -> _ |- _ => rename E into GP end;
    try match goal with E : func_debug_info _ _ _ _ _ = Ok _ |- _ => rename E into GI end;
    try match goal with E : (_, _) = (if _ then (_, snd _) else _) |- _ => rename E into EF end;
    try match goal with E : (_, _) = (if _ then (GB _ _, _) else _) |- _ => rename E into EM end.
  - apply grow_refl.
  - now apply IHG.
  - assert (R0 : in_range g) by (apply R; reflexivity). assert (A : grow (here g) g (gen_noop H debug g)).
    { unfold gen_noop. destruct debug; [|apply grow_refl]. cbn [emit_reg]. eapply grow_then; [exact R|apply (sm_grow _ _ _ (same_emit_reg H g (fun n => IAlloca n TInt) R0))|apply grow_emit]. }
    eapply grow_then; [exact R|exact A|]. apply IHG. eapply ranged_grow; [exact R|exact A].
  - assert (R0 : in_range g) by (apply R; reflexivity). pose proof (same_expr _ _ _ _ _ _ _ _ R0 GE) as S1.
    assert (A : grow (here g) g g2).
    { eapply grow_then; [exact R|exact (sm_grow _ _ _ S1)|]. eapply setup_grow; eauto; [eapply same_range; eauto|]. rewrite (sm_refs _ _ _ S1). assumption. }
    eapply grow_then; [exact R|exact A|]. apply IHG. eapply ranged_grow; [exact R|exact A].
  - assert (R0 : in_range g) by (apply R; reflexivity). pose proof (same_expr _ _ _ _ _ _ _ _ R0 GE) as S1.
    destruct (assign_case _ _ _ _ GK GA) as (v & rf & _ & _ & _ & ->).
    assert (A : grow (here g) g (emit H g1 (IStore o (rf_val H rf)))).
    { eapply grow_then; [exact R|exact (sm_grow _ _ _ S1)|apply grow_emit]. }
    eapply grow_then; [exact R|exact A|]. apply IHG. eapply ranged_grow; [exact R|exact A].
  - assert (R0 : in_range g) by (apply R; reflexivity). pose proof (sm_grow _ _ _ (same_expr _ _ _ _ _ _ _ _ R0 GE)) as A.
    eapply grow_then; [exact R|exact A|]. apply IHG. eapply ranged_grow; [exact R|exact A].
  - assert (R0 : in_range g) by (apply R; reflexivity). pose proof (sm_grow _ _ _ (same_expr _ _ _ _ _ _ _ _ R0 GE)) as A.
    eapply grow_then; [exact R|exact A|apply grow_emit].
  - apply grow_emit.
  - apply grow_emit.
  - apply grow_emit.
  - apply grow_emit.
  - assert (R0 : in_range g) by (apply R; reflexivity). unfold in_range, Proof_LLVM.in_range in R0. eapply grow_into; [apply grow_new|apply IHG| |].
    + intros b [-> | ->]; rewrite new_count; lia.
    + intros b [-> | ->]; rewrite new_count; lia.
    + intros b [-> | ->]; [left; reflexivity|right; lia].
  - (* while *) subst c. pose proof (loop_head_grow g R) as A0. pose proof (loop_head_count g) as K0.
    assert (EG : g1 = position H (loop_head g) (count g)) by assumption.
    assert (A1 : grow (here g) g g1). { rewrite EG. apply grow_at; [exact A0|exact R|rewrite K0; lia|right; lia]. }
    assert (K1 : count g1 = S (S (S (count g)))) by (subst g1; exact K0).
    assert (R1 : in_range g1) by (apply (gr_ok _ _ _ _ A1 R)).
    pose proof (same_expr _ _ _ _ _ _ _ _ R1 GE) as S2. pose proof (sm_len _ _ _ S2) as K2.
    assert (A2 : grow (here g) g g2). { eapply grow_then; [exact R|exact A1|exact (sm_grow _ _ _ S2)]. }
    assert (A3 : grow (here g) g (position H (emit H g2 (ICondBr o (S (count g)) (S (S (count g))))) (S (count g)))).
    { apply grow_at; [|exact R|rewrite emit_count; lia|right; lia]. eapply grow_then; [exact R|exact A2|apply grow_emit]. }
    pose proof (IHG1 (ranged_grow _ _ _ R A3)) as B. pose proof (gr_len _ _ _ _ B) as K3. cbn [position g_blocks] in K3. rewrite emit_count in K3.
    assert (A4 : grow (here g) g (position H (branch_to H (count g) (g3, fl1)) (S (S (count g))))).
    { apply grow_at; [|exact R|rewrite branch_count; lia|right; lia]. eapply grow_then; [exact R| |apply branch_to_grow]. eapply grow_then; [exact R|exact A3|exact B]. }
    assert (A5 : grow (here g) g (set_loop H (position H (branch_to H (count g) (g3, fl1)) (S (S (count g)))) None None)).
    { eapply grow_then; [exact R|exact A4|apply grow_loop]. }
    eapply grow_then; [exact R|exact A5|]. apply IHG2. eapply ranged_grow; [exact R|exact A5].
  - assert (R1 : ranged GS g1). { intros b ->. apply (gr_ok _ _ _ _ (IHG1 R) R). }
    eapply grow_then; [exact R|now apply IHG1|now apply IHG2].
  - eapply grow_then; [exact R|apply grow_set_fun; eassumption|]. now apply IHG.
  - (* function *) assert (R0 : in_range g) by (apply R; reflexivity). unfold in_range, Proof_LLVM.in_range in R0.
    pose proof (new_count g) as KN.
    assert (A1 : grow (here g) g (set_fun H (snd (new_block H g)) k (Some (count g)))).
    { eapply grow_then; [exact R|apply grow_new|apply grow_set_fun]. exact GF. }
    assert (A2 : grow (here g) g (gen_params H 0 ps (set_fun H (snd (new_block H g)) k (Some (count g))))).
    { eapply grow_then; [exact R|exact A1|apply grow_params; [assumption|]]. intros p I. apply (GP p I). }
    assert (A3 : grow (here g) g (position H (gen_params H 0 ps (set_fun H (snd (new_block H g)) k (Some (count g)))) (count g))).
    { apply grow_at; [exact A2|exact R| |right; lia]. destruct (params_case ps 0 (set_fun H (snd (new_block H g)) k (Some (count g)))) as (E & _). rewrite E. cbn [set_fun g_blocks]. rewrite KN. lia. }
    pose proof (info_cells _ _ _ GI) as CF.
    assert (A30 : grow (here g) (set_func H g (Some k)) g0).
    { apply grow_cells with ps gp; [|exact CF|intros p I; apply (GP p I)]. destruct A3 as [Y1 Y2 Y3 Y4 Y5 Y6 Y7 Y8 Y9 Y10]. subst gp. constructor; auto. }
    assert (RG : ranged GS g0). { intros b ->. apply (gr_ok _ _ _ _ A30). exact R. }
    assert (CB : g_cur H g0 = count g) by (rewrite (cf_cur _ _ _ CF); subst gp; reflexivity).
    pose proof (IHG1 RG) as B.
    assert (A4 : grow (here g) g (end_func H f fl1 (g_func H g) g1)).
    { apply end_func_grow with k; [exact R|rewrite (gr_func _ _ _ _ B); apply (gr_func _ _ _ _ A30)|].
      eapply grow_into with (U := starts GS g0); [exact A30|exact B|exact RG|].
      intros b ->. right. rewrite CB. reflexivity. }
    assert (A5 : grow (here g) g (position H (end_func H f fl1 (g_func H g) g1) (g_cur H g))).
    { apply grow_at; [exact A4|exact R| |left; reflexivity]. pose proof (gr_len _ _ _ _ A4). lia. }
    eapply grow_then; [exact R|exact A5|]. apply IHG2. eapply ranged_grow; [exact R|exact A5].
  - (* condition *) assert (RE : entry < count g) by (apply R; now left). assert (RL : last < count g) by (apply R; now right).
    set (T := starts (GC entry last) g). fold T in R. pose proof (new_count g) as KN. pose proof (grow_new_at T g) as A0.
    pose proof (ranged_grow _ _ _ R A0) as RG. pose proof (IHG1 RG) as B. pose proof (gr_len _ _ _ _ B) as K2. cbn [position g_blocks] in K2.
    assert (A2 : grow T g g2) by (eapply grow_then; [exact R|exact A0|exact B]).
    assert (A3 : grow T g g3).
    { subst g3. apply grow_at; [eapply grow_then; [exact R|exact A2|apply branch_to_grow]|exact R|rewrite branch_count; lia|left; now left]. }
    assert (K3 : count g3 = count g2) by (subst g3; cbn [position g_blocks]; apply branch_count).
    assert (X : (branch_follows r = true /\ f = count g3 /\ g4 = snd (new_block H g3) /\ m = GB f last /\ g6 = emit H g5 (ICondBr o (count g) f)) \/
                (branch_follows r = false /\ f = last /\ g4 = g3 /\ m = GS /\ g6 = position H (emit H g5 (ICondBr o (count g) f)) last)).
    { destruct (branch_follows r); [left|right]; inversion EF; inversion EM; subst; auto 6. }
    assert (A4 : grow T g g4 /\ count g3 <= count g4).
    { destruct X as [(_ & _ & -> & _)|(_ & _ & -> & _)]; [|now split]. split; [eapply grow_then; [exact R|exact A3|apply grow_new]|rewrite new_count; lia]. }
    destruct A4 as (A4 & K4). assert (R4 : in_range g4) by (apply (gr_ok _ _ _ _ A4 R)). pose proof (same_expr _ _ _ _ _ _ _ _ R4 GE) as S5.
    assert (A5 : grow T g (emit H g5 (ICondBr o (count g) f))).
    { eapply grow_then; [exact R| |apply grow_emit]. eapply grow_then; [exact R|exact A4|exact (sm_grow _ _ _ S5)]. }
    pose proof (sm_len _ _ _ S5) as K5.
    destruct X as [(_ & -> & EG & -> & ->)|(_ & -> & _ & -> & ->)].
    + assert (RB : ranged (GB (count g3) last) (emit H g5 (ICondBr o (count g) (count g3)))).
      { assert (K6 : count g4 = S (count g3)) by (rewrite EG; apply new_count). intros b [-> | ->]; rewrite emit_count; lia. }
      eapply grow_into; [exact A5|exact (IHG2 RB)|exact RB|]. intros b [-> | ->]; [right; lia|left; now right].
    + assert (A6 : grow T g (position H (emit H g5 (ICondBr o (count g) last)) last)).
      { apply grow_at; [exact A5|exact R|rewrite emit_count; lia|left; now right]. }
      eapply grow_then; [exact R|exact A6|]. apply IHG2. eapply ranged_grow; [exact R|exact A6].
  - now apply IHG.
  - now apply IHG.
  - assert (RE : entry < count g) by (apply R; now left). assert (RL : last < count g) by (apply R; now right).
    set (T := starts (GB entry last) g). fold T in R. assert (A0 : grow T g (position H g entry)) by (apply here_at; now left).
    pose proof (IHG1 (ranged_grow _ _ _ R A0)) as B. pose proof (gr_len _ _ _ _ B) as K2. cbn [position g_blocks] in K2.
    assert (A3 : grow T g (position H (branch_to H last (g1, fl1)) last)).
    { apply grow_at; [eapply grow_then; [exact R| |apply branch_to_grow]|exact R|rewrite branch_count; lia|left; now right]. eapply grow_then; [exact R|exact A0|exact B]. }
    eapply grow_then; [exact R|exact A3|]. apply IHG2. eapply ranged_grow; [exact R|exact A3].
Qed.

Lemma gens_loops : forall m l g g' fl, gens m l g g' fl -> loops g g'.
Proof.
  intros m l g g' fl G. induction G;
    try match goal with E : gen_expr _ _ = Ok _ |- _ => apply loops_expr in E; rename E into GE end.
  - apply loops_refl.
  - exact IHG.
  - eapply loops_trans; [|exact IHG]. unfold gen_noop. destruct debug; now apply loops_eq.
  - eapply loops_trans; [exact GE|]. eapply loops_trans; [|exact IHG]. eapply loops_setup; eauto.
  - eapply loops_trans; [exact GE|]. eapply loops_trans; [|exact IHG].
    match goal with E : const _ = false, F : assign_value_to_var _ _ _ _ _ = _ |- _ => destruct (assign_case _ _ _ _ E F) as (v & rf & _ & _ & _ & ->) end. now apply loops_eq.
  - eapply loops_trans; [exact GE|exact IHG].
  - eapply loops_trans; [exact GE|now apply loops_eq].
  - now apply loops_eq.
  - now apply loops_eq.
  - now apply loops_eq.
  - now apply loops_eq.
  - eapply loops_trans; [|exact IHG]. now apply loops_eq.
  - destruct IHG2 as (A & B). split; intros b E; [apply A in E|apply B in E]; discriminate E.
  - eapply loops_trans; eauto.
  - eapply loops_trans; [|exact IHG]. now apply loops_eq.
  - eapply loops_trans; [|exact IHG2]. eapply loops_trans; [|apply (loops_trans _ (end_func H f fl1 (g_func H g) g1)); [apply loops_end|now apply loops_eq]].
    eapply loops_trans; [|exact IHG1]. destruct (params_case ps 0 (set_fun H (snd (new_block H g)) k (Some (count g)))) as (_ & _ & _ & _ & _ & A & B & _).
    match goal with E : func_debug_info _ _ _ _ _ = Ok _ |- _ => pose proof (info_cells _ _ _ E) as CF end.
    apply loops_eq; rewrite ?(cf_cond _ _ _ CF), ?(cf_end _ _ _ CF); subst gp; cbn [set_func position g_cond g_end]; rewrite ?A, ?B; reflexivity.
  - eapply loops_trans with (b := g2); [eapply loops_trans; [|exact IHG1]; now apply loops_eq|].
    eapply loops_trans; [apply (loops_branch last g2 fl1)|]. apply loops_trans with g4; [|apply loops_trans with g5; [exact GE|]].
    + destruct (branch_follows r); [|]; match goal with E : (f, g4) = _ |- _ => inversion E; subst f g4 end; subst g3; now apply loops_eq.
    + eapply loops_trans; [|exact IHG2]. destruct (branch_follows r); match goal with E : (m, g6) = _ |- _ => inversion E; subst m g6 end; now apply loops_eq.
  - exact IHG.
  - exact IHG.
  - eapply loops_trans; [|exact IHG2]. eapply loops_trans; [|apply (loops_trans _ (branch_to H last (g1, fl1))); [apply loops_branch|now apply loops_eq]].
    eapply loops_trans; [|exact IHG1]. now apply loops_eq.
Qed.
End Gens.
