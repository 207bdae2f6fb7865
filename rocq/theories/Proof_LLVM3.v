(** Expressions: the generated code computes what Spec_Run.v says. *)
From Coq Require Import List Arith NArith ZArith Bool Lia.
From Verif Require Import Base Model_Literal Model_Parse Model_Sem Spec_Sem Spec_Sem2 Spec_Run Model_Helpers Proof_Helpers Spec_IR Model_LLVM Spec_LLVM Proof_LLVM Proof_LLVM2.
Import ListNotations.
Open Scope list_scope.
Open Scope nat_scope.

Section Sim.
Variable H : host.
Variable fold : iop -> operand H -> operand H -> option (operand H).
Variable ys : list symbol.
Variable debug : bool.
Variable M : module H.
Variable R : nat -> option (ref H).
Hypothesis FW : folds_well H fold.
Local Notation gst := (gst H).
Local Notation val := (sv (h_float H)).
Local Notation sym_var := (sym_var ys).
Local Notation sym_func := (sym_func ys).
Local Notation gen_expr := (gen_expr H fold ys).
Local Notation typed := (typed ys).
Local Notation const := (const ys).
Local Notation grow := (grow H).
Local Notation in_range := (in_range H).
Local Notation here := (here H).
Local Notation blocks := (g_blocks H).
Local Notation count g := (List.length (g_blocks H g)).
Local Notation run := (run H M).
Local Notation gens := (gens H fold ys debug).
Local Notation eval := (eval H ys (exact1 H) (exact2 H)).
Local Notation evals := (evals H ys (exact1 H) (exact2 H)).
Local Notation exec := (exec H ys (exact1 H) (exact2 H)).
Local Notation tv := (tv H).
Local Notation mem := (mem H).

(** * The module behind a state of the generator *)

Record below (g : gst) : Prop := mkbelow {
  bl_blocks : forall b, b < count g -> exists c, nth_error (m_blocks H M) b = Some (nth b (blocks g) [] ++ c);
  bl_refs : forall k r, lookup (g_refs H g) k = Some r -> R k = Some r;
  bl_funs : forall k b, lookup (g_funs H g) k = Some b -> lookup (m_funs H M) k = Some b;
  bl_glob : exists l, m_init H M = g_glob H g ++ l }.

Lemma below_back : forall T g g', grow T g g' -> below g' -> below g.
Proof.
  intros T g g' [A1 A2 A3 A4 A5 A6 A7 A8 A9 A10] [B1 B2 B3 B4]. constructor; auto.
  - intros b L. destruct (B1 b) as (c & E); [lia|]. destruct (A2 b L) as (d & F). exists (d ++ c). now rewrite E, F, app_assoc.
  - destruct A7 as (l & E), B4 as (l' & F). exists (l ++ l'). now rewrite F, E, app_assoc.
Qed.

Definition block (b : nat) : list (instr H) := nth b (m_blocks H M) [].
(** What is still to come in the current block. *)
Definition rest (g : gst) : list (instr H) := skipn (List.length (nth (g_cur H g) (blocks g) [])) (block (g_cur H g)).

Lemma block_is : forall g b, below g -> b < count g -> nth_error (m_blocks H M) b = Some (block b).
Proof. intros g b B L. destruct (bl_blocks g B b L) as (c & E). rewrite E. unfold block. now rewrite (nth_error_nth _ _ _ E). Qed.
Lemma block_split : forall g b, below g -> b < count g -> exists c, block b = nth b (blocks g) [] ++ c.
Proof. intros g b B L. destruct (bl_blocks g B b L) as (c & E). exists c. unfold block. now rewrite (nth_error_nth _ _ _ E). Qed.
Lemma skipn_app_exact : forall A (a b : list A), skipn (List.length a) (a ++ b) = b.
Proof. intros A a b. rewrite skipn_app, skipn_all, Nat.sub_diag. reflexivity. Qed.
Lemma rest_emit_at : forall g i, in_range g -> (exists c, block (g_cur H g) = nth (g_cur H g) (blocks (emit H g i)) [] ++ c) -> rest g = i :: rest (emit H g i).
Proof.
  intros g i L (c & E). unfold rest. cbn [emit set_blocks g_blocks g_cur] in *. rewrite E. rewrite nth_upd, Nat.eqb_refl.
  destruct (g_cur H g <? count g) eqn:F; [|apply Nat.ltb_ge in F; unfold Proof_LLVM.in_range in L; lia].
  rewrite skipn_app_exact. rewrite <- app_assoc, skipn_app_exact. reflexivity.
Qed.
Lemma rest_emit : forall g i, below (emit H g i) -> in_range g -> rest g = i :: rest (emit H g i).
Proof.
  intros g i B L. unfold rest. destruct (block_split _ (g_cur H g) B) as (c & E); [rewrite emit_count; exact L|].
  cbn [emit set_blocks g_blocks g_cur] in *. rewrite E. rewrite nth_upd, Nat.eqb_refl.
  destruct (g_cur H g <? count g) eqn:F; [|apply Nat.ltb_ge in F; unfold Proof_LLVM.in_range in L; lia].
  rewrite skipn_app_exact. rewrite <- app_assoc, skipn_app_exact. reflexivity.
Qed.
Lemma rest_eq : forall g g', g_cur H g' = g_cur H g -> nth (g_cur H g) (blocks g') [] = nth (g_cur H g) (blocks g) [] -> rest g' = rest g.
Proof. intros g g' E F. unfold rest. now rewrite E, F. Qed.
Lemma rest_whole : forall g, nth (g_cur H g) (blocks g) [] = [] -> rest g = block (g_cur H g).
Proof. intros g E. unfold rest. now rewrite E. Qed.

(** * Runs *)

(** Whatever the second program does, the first one does. *)
Definition back (args : list tv) (regs : nat -> option tv) (m : mem) (out : h_out H) (code : list (instr H))
    (regs' : nat -> option tv) (m' : mem) (out' : h_out H) (code' : list (instr H)) : Prop :=
  forall x mf outf, run args regs' m' out' code' x mf outf -> run args regs m out code x mf outf.
Lemma back_refl : forall args regs m out code, back args regs m out code regs m out code.
Proof. intros args regs m out code x mf outf E. exact E. Qed.
Lemma back_trans : forall args r0 m0 o0 c0 r1 m1 o1 c1 r2 m2 o2 c2,
  back args r0 m0 o0 c0 r1 m1 o1 c1 -> back args r1 m1 o1 c1 r2 m2 o2 c2 -> back args r0 m0 o0 c0 r2 m2 o2 c2.
Proof. intros args r0 m0 o0 c0 r1 m1 o1 c1 r2 m2 o2 c2 A B x mf outf E. apply A, B, E. Qed.

Definition agree (n : nat) (regs regs' : nat -> option tv) : Prop := forall r, r < n -> regs' r = regs r.
Lemma agree_refl : forall n regs, agree n regs regs.
Proof. intros n regs r _. reflexivity. Qed.
Lemma agree_trans : forall n n' a b c, n <= n' -> agree n a b -> agree n' b c -> agree n a c.
Proof. intros n n' a b c L A B r LT. rewrite B by lia. now apply A. Qed.
Lemma agree_less : forall n n' a b, n <= n' -> agree n' a b -> agree n a b.
Proof. intros n n' a b L A r LT. apply A. lia. Qed.
Lemma agree_set : forall n regs r v, n <= r -> agree n regs (set_reg H regs r v).
Proof. intros n regs r v L i LT. unfold set_reg, put. destruct (i =? r) eqn:E; [apply Nat.eqb_eq in E; lia|reflexivity]. Qed.
Lemma set_here : forall regs r v, set_reg H regs r v r = Some v.
Proof. intros. unfold set_reg, put. now rewrite Nat.eqb_refl. Qed.

Definition bounded (n : nat) (o : operand H) : Prop := match o with OReg r => r < n | _ => True end.
Lemma bounded_more : forall n n' o, n <= n' -> bounded n o -> bounded n' o.
Proof. intros n n' [v|r|i|k] L B; cbn in *; auto; lia. Qed.
Lemma value_agree : forall args n regs regs' o, bounded n o -> agree n regs regs' -> operand_value H args regs' o = operand_value H args regs o.
Proof. intros args n regs regs' [v|r|i|k] B A; cbn in *; auto. Qed.

Definition frame (base : nat) (m m' : mem) : Prop :=
  (forall c, c < base -> nth_error (m_cells H m') c = nth_error (m_cells H m) c) /\ List.length (m_cells H m) <= List.length (m_cells H m').
Lemma frame_refl : forall base m, frame base m m.
Proof. intros base m. split; auto. Qed.
Lemma frame_trans : forall base a b c, frame base a b -> frame base b c -> frame base a c.
Proof. intros base a b c (A1 & A2) (B1 & B2). split; [|lia]. intros i L. rewrite B1 by lia. auto. Qed.
Lemma frame_less : forall base base' a b, base' <= base -> frame base a b -> frame base' a b.
Proof. intros base base' a b L (A1 & A2). split; [|lia]. intros i LT. apply A1. lia. Qed.

(** * What memory and registers hold *)

(** The code of a declared function. *)
Definition declared (k : nat) (ps : list nat) (body : list tnode) : Prop :=
  exists f b gp g0 g1 fl old, sym_func k = Ok f /\ lookup (m_funs H M) k = Some (Some b) /\ func_debug_info H ys debug ps gp = Ok g0 /\ gens GS body g0 g1 fl /\
    g_cur H gp = b /\ in_range gp /\ nth b (blocks gp) [] = [] /\ g_func H gp <> None /\ below (end_func H f fl old g1) /\
    NoDup ps /\ forall i p, nth_error ps i = Some p -> lookup (g_refs H gp) p = Some (mkref H (OArg i) false false) /\ const p = negb debug.

Record inv (X : list nat) (s : rst H) (args : list tv) (regs : nat -> option tv) (m : mem) (base n : nat) : Prop := mkinv {
  iv_glob : forall k v, r_glob H s k = Some v -> exists i l, R k = Some (mkref H (OGlob i) true l) /\ m_glob H m i = V v;
  iv_lit : forall k i, const k = true -> R k = Some (mkref H (OGlob i) true true) -> m_glob H m i = nth i (m_init H M) Poison;
  iv_wait : forall k, In k X -> const k = false /\ r_glob H s k = None /\
    forall i, R k = Some (mkref H (OGlob i) true true) -> m_glob H m i = nth i (m_init H M) Poison;
  iv_nodup : NoDup X;
  iv_const : forall k v, local H s k = Some v -> const k = true ->
    exists o l, R k = Some (mkref H o false l) /\ operand_value H args regs o = Some (V v) /\ bounded n o;
  iv_mut : forall k v, local H s k = Some v -> const k = false ->
    exists r c l, R k = Some (mkref H (OReg r) false l) /\ r < n /\ regs r = Some (Addr (ACell c)) /\ base <= c /\ nth_error (m_cells H m) c = Some (V v);
  iv_apart : forall k k' v v' r r' c l l', local H s k = Some v -> local H s k' = Some v' -> const k = false -> const k' = false ->
    R k = Some (mkref H (OReg r) false l) -> R k' = Some (mkref H (OReg r') false l') ->
    regs r = Some (Addr (ACell c)) -> regs r' = Some (Addr (ACell c)) -> k = k';
  iv_funs : forall k ps body, lookup (r_funs H s) k = Some (ps, body) -> declared k ps body;
  iv_base : base <= List.length (m_cells H m) }.

Lemma inv_more : forall X s args regs m base n n', n <= n' -> inv X s args regs m base n -> inv X s args regs m base n'.
Proof.
  intros X s args regs m base n n' L [A1 A2 A3 A4 A5 A6 A7 A8 A9]. constructor; auto.
  - intros k v E C. destruct (A5 k v E C) as (o & l & B1 & B2 & B3). exists o, l. repeat split; auto. eapply bounded_more; eauto.
  - intros k v E C. destruct (A6 k v E C) as (r & c & l & B1 & B2 & B3 & B4 & B5). exists r, c, l. repeat split; auto. lia.
Qed.
Lemma inv_regs : forall X s args regs regs' m base n, agree n regs regs' -> inv X s args regs m base n -> inv X s args regs' m base n.
Proof.
  intros X s args regs regs' m base n AG [A1 A2 A3 A4 A5 A6 A7 A8 A9]. constructor; auto.
  - intros k v E C. destruct (A5 k v E C) as (o & l & B1 & B2 & B3). exists o, l. repeat split; auto. rewrite (value_agree args n regs); auto.
  - intros k v E C. destruct (A6 k v E C) as (r & c & l & B1 & B2 & B3 & B4 & B5). exists r, c, l. repeat split; auto. rewrite AG; auto.
  - intros k k' v v' r r' c l l' E E' C C' P P' Q Q'.
    destruct (A6 k v E C) as (r1 & c1 & l1 & B1 & B2 & B3 & _). destruct (A6 k' v' E' C') as (r2 & c2 & l2 & D1 & D2 & D3 & _).
    rewrite P in B1. inversion B1; subst r1 l1. rewrite P' in D1. inversion D1; subst r2 l2. rewrite AG in Q, Q' by assumption.
    exact (A7 k k' v v' r r' c l l' E E' C C' P P' Q Q').
Qed.
Lemma inv_drop : forall Y X s args regs m base n, inv (Y ++ X) s args regs m base n -> inv X s args regs m base n.
Proof.
  intros Y X s args regs m base n [A1 A2 A3 A4 A5 A6 A7 A8 A9]. constructor; auto.
  - intros k I. apply A3. apply in_or_app. now right.
  - clear - A4. induction Y as [|y Y IH]; [exact A4|]. inversion A4; subst. auto.
Qed.
Lemma inv_out : forall X s args regs m base n o, inv X s args regs m base n -> inv X (set_out H s o) args regs m base n.
Proof. intros X s args regs m base n o [A1 A2 A3 A4 A5 A6 A7 A8 A9]. constructor; auto. Qed.

(** * Operations *)

Lemma wrap64_range : forall z, in64 (wrap64 z) = true.
Proof. intro z. apply in64_iff. unfold wrap64. assert (0 <= (z + 2 ^ 63) mod 2 ^ 64 < 2 ^ 64)%Z by (apply Z.mod_pos_bound; lia). lia. Qed.

Lemma fit_type : forall z v, fit H z = Some v -> of_type H v TInt = true.
Proof. intros z v E. unfold fit in E. destruct (in64 z) eqn:I; inversion E; subst. exact I. Qed.
Lemma shift_type : forall b z v, shift H b (wrap64 z) = Some v -> of_type H v TInt = true.
Proof. intros b z v E. unfold shift in E. destruct (_ && _)%Z; inversion E; subst. apply wrap64_range. Qed.

Lemma binary_type : forall o t r a b v, oper_type o t r -> of_type H a t = true -> of_type H b t = true -> binary H o a b = Some v -> of_type H v r = true.
Proof.
  intros o t r a b v O A B E.
  destruct O as [o t I [-> | ->]|o I|o t I [-> | ->]|o t I|o I]; cbn [In] in I; repeat (destruct I as [<-|I]); try contradiction;
    destruct a; try discriminate A; destruct b; try discriminate B; cbn [binary] in E;
    try (now apply fit_type in E); try (now apply shift_type in E); try (inversion E; subst; reflexivity);
    try (destruct (_ =? 0)%Z; [discriminate E|now apply fit_type in E]); try (destruct (_ <? 0)%Z; [discriminate E|now apply fit_type in E]).
  all: destruct t; try discriminate A; try discriminate B; cbn [equal option_map] in E; inversion E; subst; reflexivity.
Qed.
Lemma unary_type : forall o a v t, match o with UNeg => is_number t | UNot => t = TBool | _ => False end -> of_type H a t = true -> unary H o a = Some v -> of_type H v t = true.
Proof.
  intros o a v t T A E. destruct o; try contradiction.
  - destruct T as [-> | ->]; destruct a; try discriminate A; cbn [unary] in E; [now apply fit_type in E|inversion E; reflexivity].
  - subst t. destruct a; try discriminate A. cbn [unary] in E. inversion E; reflexivity.
Qed.
Lemma eval_type : forall x s v s1, eval s x v s1 -> typed x -> of_type H v (x_ty x) = true.
Proof.
  intro x. induction x as [t k ty c|t v0 ty|t k args ty F|o r ty c IH|o l r ty c IHl IHr] using texpr_ind'; intros s v s1 E T; inversion E; subst; cbn [x_ty]; auto.
  - destruct T as (T & U). assert (ET : ty = x_ty r) by (destruct o; try contradiction; destruct U; congruence). subst ty.
    eapply unary_type; [|eapply IH; eauto|eassumption]. destruct o; try contradiction; tauto.
  - destruct T as (TL & TR & EQ & O). eapply binary_type; [exact O| | |eassumption]; [rewrite <- EQ; eapply IHl; eauto|eapply IHr; eauto].
Qed.

(** One instruction, or none. *)
Record computes (args : list tv) (regs : nat -> option tv) (g : gst) (c : operand H) (v : tv) (regs' : nat -> option tv) (g' : gst) : Prop := mkcomp {
  cp_agree : agree (g_reg H g) regs regs';
  cp_value : operand_value H args regs' c = Some v;
  cp_bound : bounded (g_reg H g') c;
  cp_back : forall m out, back args regs m out (rest g) regs' m out (rest g') }.

Lemma below_emit : forall g i, below (emit H g i) -> below g.
Proof. intros g i B. eapply below_back; [apply grow_emit|exact B]. Qed.

Lemma emit_reg_sim : forall args regs g i c g' v, emit_reg H g i = (c, g') -> in_range g -> below g' ->
  (forall m out code x mf outf, run args (set_reg H regs (g_reg H g) v) m out code x mf outf -> run args regs m out (i (g_reg H g) :: code) x mf outf) ->
  computes args regs g c v (set_reg H regs (g_reg H g) v) g'.
Proof.
  intros args regs g i c g' v E L B SI. cbn [emit_reg] in E. inversion E; subst c g'. constructor.
  - apply agree_set. lia.
  - cbn [operand_value]. apply set_here.
  - cbn [bounded emit set_blocks set_next g_reg]. lia.
  - intros m out x mf outf HR. change (rest g) with (rest (set_next H g (S (g_reg H g)))). rewrite (rest_emit _ _ B L). apply SI. exact HR.
Qed.

Lemma build_sim : forall args regs o a b g c g' va vb v, build H fold o a b g = (c, g') -> in_range g -> below g' ->
  bounded (g_reg H g) a -> bounded (g_reg H g) b -> operand_value H args regs a = Some va -> operand_value H args regs b = Some vb ->
  bin_value H o va vb = Some (V v) -> exists regs', computes args regs g c (V v) regs' g'.
Proof.
  intros args regs o a b g c g' va vb v E L B BA BB VA VB EV. unfold build in E. destruct (fold o a b) as [c0|] eqn:F.
  - inversion E; subst c0 g'. destruct (FW _ _ _ _ F) as (C & W). exists regs. constructor.
    + apply agree_refl.
    + eapply W; eauto.
    + destruct C as [-> | [-> | (w & ->)]]; auto. exact I.
    + intros m out. apply back_refl.
  - eexists. eapply emit_reg_sim; eauto. intros m out code x mf outf HR. eapply ru_bin; eauto.
Qed.
Lemma helper_sim : forall args regs f t a b g c t' g' va vb v, gen_builtin H f t a b g = Ok (c, t', g') -> in_range g -> below g' ->
  operand_value H args regs a = Some va -> operand_value H args regs b = Some vb ->
  helper_value H f [va; vb] = Some v -> t' = Some t /\ exists regs', computes args regs g c v regs' g'.
Proof.
  intros args regs f t a b g c t' g' va vb v E L B VA VB EV. unfold gen_builtin in E.
  destruct (emit_reg H g (fun n => ICall n f [a; b])) as [c0 g0] eqn:ER. inversion E; subst c0 t' g0. split; [reflexivity|].
  eexists. eapply emit_reg_sim; eauto. intros m out code x mf outf HR. eapply ru_helper; eauto. cbn [all_values]. now rewrite VA, VB.
Qed.

Ltac typed_value v A := destruct v; try discriminate A.

Lemma math_sim : forall args regs t oi of a b g c t' g' va vb v, gen_math H fold t oi of a b g = Ok (c, t', g') -> in_range g -> below g' ->
  bounded (g_reg H g) a -> bounded (g_reg H g) b -> operand_value H args regs a = Some va -> operand_value H args regs b = Some vb ->
  (t = Some TInt -> bin_value H oi va vb = Some (V v)) -> (t = Some TFloat -> bin_value H of va vb = Some (V v)) ->
  t' = t /\ exists regs', computes args regs g c (V v) regs' g'.
Proof.
  intros args regs t oi of a b g c t' g' va vb v E L B BA BB VA VB EI EF. unfold gen_math in E.
  destruct t as [[| | | | | |]|]; try discriminate E.
  - destruct (build H fold oi a b g) as [c0 g0] eqn:EB. inversion E; subst. split; [reflexivity|]. eapply build_sim; eauto.
  - destruct (build H fold of a b g) as [c0 g0] eqn:EB. inversion E; subst. split; [reflexivity|]. eapply build_sim; eauto.
Qed.

Lemma same_strings : forall x y, forallb (fun c => negb (c =? 0)%N) x = true -> forallb (fun c => negb (c =? 0)%N) y = true -> strcmp x y = text_eqb x y.
Proof. intros x y A B. apply strcmp_equal; now apply no_nul_forallb. Qed.

Lemma is_sim : forall args regs t a b g c t' g' va vb e, gen_is H fold (Some t) a b g = Ok (c, t', g') -> in_range g -> below g' ->
  bounded (g_reg H g) a -> bounded (g_reg H g) b -> operand_value H args regs a = Some (V va) -> operand_value H args regs b = Some (V vb) ->
  of_type H va t = true -> of_type H vb t = true -> equal H va vb = Some e ->
  t' = Some TBool /\ exists regs', computes args regs g c (V (SvBool e)) regs' g'.
Proof.
  intros args regs t a b g c t' g' va vb e E L B BA BB VA VB TA TB EQ. unfold gen_is in E.
  destruct t; try discriminate E; typed_value va TA; typed_value vb TB; cbn [equal] in EQ;
    try (match goal with E : (let '(_, _) := ?b in _) = _ |- _ => destruct b as [cc gg] eqn:EB end; inversion E; subst; split; [reflexivity|];
         eapply build_sim; eauto; cbn [bin_value]; unfold flag; congruence).
  eapply helper_sim; [exact E|exact L|exact B|exact VA|exact VB|]. cbn [helper_value]. cbn [of_type] in TA, TB. rewrite same_strings by assumption. unfold flag. congruence.
Qed.

Lemma computes_trans : forall args r0 g0 c0 v0 r1 g1 c v r2 g2, g_reg H g0 <= g_reg H g1 -> computes args r0 g0 c0 v0 r1 g1 -> computes args r1 g1 c v r2 g2 -> computes args r0 g0 c v r2 g2.
Proof.
  intros args r0 g0 c0 v0 r1 g1 c v r2 g2 L [A1 A2 A3 A4] [B1 B2 B3 B4]. constructor; auto.
  - eapply agree_trans; eauto.
  - intros m out. eapply back_trans; [apply A4|apply B4].
Qed.

Lemma binary_sim : forall args regs o t r a b g c t' g' va vb v, gen_binary H fold o (Some t) a b g = Ok (c, t', g') -> in_range g -> below g' ->
  bounded (g_reg H g) a -> bounded (g_reg H g) b -> operand_value H args regs a = Some (V va) -> operand_value H args regs b = Some (V vb) ->
  oper_type o t r -> of_type H va t = true -> of_type H vb t = true -> exact2 H o va vb -> binary H o va vb = Some v ->
  t' = Some r /\ exists regs', computes args regs g c (V v) regs' g'.
Proof.
  intros args regs o t r a b g c t' g' va vb v E L B BA BB VA VB O TA TB X EV.
  destruct O as [o t I N|o I|o t I N|o t I|o I]; cbn [In] in I; repeat (destruct I as [<-|I]); try contradiction; cbn [gen_binary] in E.
  (* arithmetic *)
  1-5: eapply math_sim in E; eauto; intro ET; injection ET as ET; rewrite ET in *; typed_value va TA; typed_value vb TB;
      cbn [binary] in EV; cbn [bin_value]; unfold nsw, real, fit in *.
  - destruct (in64 _); congruence.
  - congruence.
  - destruct (in64 _); congruence.
  - congruence.
  - destruct (in64 _); congruence.
  - congruence.
  - cbn [exact2] in X. destruct (_ =? 0)%Z; [discriminate EV|]. destruct (in64 _); [|discriminate EV]. cbn [orb negb]. rewrite X. cbn [Z.eqb]. congruence.
  - congruence.
  - cbn [exact2] in X. destruct (_ =? 0)%Z; [discriminate EV|]. rewrite X. cbn [orb negb]. destruct (in64 _); congruence.
  - congruence.
  - unfold gen_pow in E. destruct N as [-> | ->]; typed_value va TA; typed_value vb TB; cbn [binary] in EV; cbn [exact2] in X; (eapply helper_sim; [exact E|exact L|exact B|exact VA|exact VB|]); cbn [helper_value].
    + destruct (_ <? 0)%Z; [discriminate EV|]. unfold fit in EV. destruct (in64 (z ^ z0)) eqn:F; [|discriminate EV].
      rewrite int_pow_value by assumption. congruence.
    + destruct X.
  (* shifts *)
  - unfold gen_shift in E. destruct (build H fold Shl a b g) as [c0 g0] eqn:EB. inversion E; subst. split; [reflexivity|].
    typed_value va TA; typed_value vb TB; cbn [binary] in EV. eapply build_sim; eauto. cbn [bin_value]. unfold shifted. unfold shift in EV. destruct (_ && _)%Z; congruence.
  - unfold gen_shift in E. destruct (build H fold LShr a b g) as [c0 g0] eqn:EB. inversion E; subst. split; [reflexivity|].
    typed_value va TA; typed_value vb TB; cbn [binary] in EV. eapply build_sim; eauto. cbn [bin_value]. unfold shifted. unfold shift in EV. destruct (_ && _)%Z; congruence.
  (* order *)
  - unfold gen_order in E. destruct N as [-> | ->]; typed_value va TA; typed_value vb TB; cbn [binary] in EV; destruct (build H fold _ a b g) as [c0 g0] eqn:EB; inversion E; subst; (split; [reflexivity|]);
      eapply build_sim; eauto; cbn [bin_value]; unfold flag; congruence.
  - unfold gen_order in E. destruct N as [-> | ->]; typed_value va TA; typed_value vb TB; cbn [binary] in EV; destruct (build H fold _ a b g) as [c0 g0] eqn:EB; inversion E; subst; (split; [reflexivity|]);
      eapply build_sim; eauto; cbn [bin_value]; unfold flag; congruence.
  - unfold gen_order in E. destruct N as [-> | ->]; typed_value va TA; typed_value vb TB; cbn [binary] in EV; destruct (build H fold _ a b g) as [c0 g0] eqn:EB; inversion E; subst; (split; [reflexivity|]);
      eapply build_sim; eauto; cbn [bin_value]; unfold flag; congruence.
  - unfold gen_order in E. destruct N as [-> | ->]; typed_value va TA; typed_value vb TB; cbn [binary] in EV; destruct (build H fold _ a b g) as [c0 g0] eqn:EB; inversion E; subst; (split; [reflexivity|]);
      eapply build_sim; eauto; cbn [bin_value]; unfold flag; congruence.
  (* equality *)
  - assert (EE : option_map (@SvBool (h_float H)) (equal H va vb) = Some v) by (destruct va; exact EV).
    destruct (equal H va vb) as [e|] eqn:EQ; [|discriminate EE]. cbn in EE. inversion EE; subst v. eapply is_sim; eauto.
  - assert (EE : option_map (fun e => @SvBool (h_float H) (negb e)) (equal H va vb) = Some v) by (destruct va; exact EV).
    destruct (equal H va vb) as [e|] eqn:EQ; [|discriminate EE]. cbn in EE. inversion EE; subst v.
    unfold gen_is_not, build_not in E. apply bind_ok in E as (((o1, t1), g1) & E1 & E).
    destruct (build H fold Xor o1 (OVal (SvBool true)) g1) as [o2 g2] eqn:EB. inversion E; subst o2 t1 g2.
    pose proof (same_is _ _ _ _ _ _ _ _ _ L E1) as S1. pose proof (same_range _ _ _ S1 L) as L1.
    pose proof (below_back _ _ _ (sm_grow _ _ _ (same_build _ _ _ _ _ _ _ _ L1 EB)) B) as B1.
    eapply is_sim in E1; eauto. destruct E1 as (ET & regs1 & C1). split; [exact ET|].
    assert (EX : bin_value H Xor (V (SvBool e)) (V (SvBool true)) = Some (V (SvBool (negb e)))) by (now destruct e).
    destruct (build_sim args regs1 Xor o1 (OVal (SvBool true)) g1 c g' _ (V (SvBool true)) _ EB L1 B (cp_bound _ _ _ _ _ _ _ C1) I (cp_value _ _ _ _ _ _ _ C1) eq_refl EX) as (regs2 & C2).
    exists regs2. eapply computes_trans; [|exact C1|exact C2]. exact (gr_reg _ _ _ _ (sm_grow _ _ _ S1)).
  (* logic *)
  - unfold gen_logical in E. destruct (build H fold And a b g) as [c0 g0] eqn:EB. inversion E; subst. split; [reflexivity|].
    typed_value va TA; typed_value vb TB; cbn [binary] in EV. eapply build_sim; eauto. cbn [bin_value]. unfold flag. congruence.
  - unfold gen_logical in E. destruct (build H fold Or a b g) as [c0 g0] eqn:EB. inversion E; subst. split; [reflexivity|].
    typed_value va TA; typed_value vb TB; cbn [binary] in EV. eapply build_sim; eauto. cbn [bin_value]. unfold flag. congruence.
  - unfold gen_logical in E. destruct (build H fold Xor a b g) as [c0 g0] eqn:EB. inversion E; subst. split; [reflexivity|].
    typed_value va TA; typed_value vb TB; cbn [binary] in EV. eapply build_sim; eauto. cbn [bin_value]. unfold flag. congruence.
Qed.

Lemma unary_sim : forall args regs o t a g c t' g' va v,
  (do (o1, t1, g1) <- Ok (a, Some t, g); match o with UNeg => gen_neg H fold t1 o1 g1 | UNot => gen_not H fold o1 g1 | _ => UB end) = Ok (c, t', g') -> in_range g -> below g' ->
  bounded (g_reg H g) a -> operand_value H args regs a = Some (V va) ->
  match o with UNeg => is_number t | UNot => t = TBool | _ => False end -> of_type H va t = true -> exact1 H o va -> unary H o va = Some v ->
  t' = Some t /\ exists regs', computes args regs g c (V v) regs' g'.
Proof.
  intros args regs o t a g c t' g' va v E L B BA VA O TA X EV. cbn [bind] in E. destruct o; try contradiction.
  - unfold gen_neg in E. destruct O as [-> | ->]; typed_value va TA; cbn [unary] in EV; cbn [exact1] in X.
    + apply (math_sim args regs _ _ _ _ a g c t' g' (V (SvInt 0)) (V (SvInt z)) v E L B I BA eq_refl VA); intro ET; try discriminate ET; cbn [bin_value].
      unfold nsw, fit in *. destruct (in64 (- z)) eqn:F; [|discriminate EV]. change (0 - z)%Z with (- z)%Z. rewrite F. congruence.
    + apply (math_sim args regs _ _ _ _ a g c t' g' (V (SvFloat (h_zero H))) (V (SvFloat f)) v E L B I BA eq_refl VA); intro ET; try discriminate ET; cbn [bin_value].
      unfold real. congruence.
  - subst t. typed_value va TA. cbn [unary] in EV. unfold gen_not, build_not in E.
    destruct (build H fold Xor a (OVal (SvBool true)) g) as [c0 g0] eqn:EB. inversion E; subst. split; [reflexivity|].
    assert (EX : bin_value H Xor (V (SvBool b)) (V (SvBool true)) = Some (V v)) by (injection EV as <-; now destruct b).
    exact (build_sim args regs Xor a (OVal (SvBool true)) g c g' _ (V (SvBool true)) _ EB L B BA I VA eq_refl EX).
Qed.
End Sim.
