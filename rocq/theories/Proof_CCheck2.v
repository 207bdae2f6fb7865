(** Generated C statements meet the constraints of C. *)
From Coq Require Import List Arith NArith ZArith Bool Lia Ascii String.
From Verif Require Import Base Model_Token Model_Literal Model_Parse Spec_Parse Model_Sem Spec_Sem Spec_Sem2 Model_CGen Spec_C Spec_CGen Spec_CProg Spec_CBack Spec_Run
  Spec_LLVM Spec_CBehave Proof_Sem2 Spec_CCheck Spec_CReady Proof_CRun2 Proof_CRun3 Proof_CRun8 Proof_Safe2 Proof_CCheck.
Import ListNotations.
Open Scope list_scope.
Open Scope nat_scope.

Lemma block_is : forall strict headers ret loop ss l,
  (fix block (loop : bool) (ss : list cscope) (l : list cstmt) {struct l} : bool :=
    match l with
    | [] => true
    | s :: r => match check_stmt strict headers ret loop ss s with Some ss => block loop ss r | None => false end
    end) loop ss l = check_block strict headers ret loop ss l.
Proof. intros strict headers ret loop ss l. revert loop ss. induction l as [|s l IH]; intros loop ss; [reflexivity|]. cbn [check_block]. destruct (check_stmt _ _ _ _ _ s); auto. Qed.

Section Statements.
Variables (strict : bool) (headers : list text) (ret : cty) (loop : bool) (ss : list cscope).
Local Notation check_block := (check_block strict headers).
Local Notation check_stmt := (check_stmt strict headers).
Lemma stmt_decl : forall f q t x e, is_void t = false -> undeclared headers (f :: ss) x = true -> expr_fits strict (((x, EObject q t) :: f) :: ss) q t e = true ->
  check_stmt ret loop (f :: ss) (CDecl q t x e) = Some (((x, EObject q t) :: f) :: ss).
Proof. intros f q t x e A B C. cbn [Spec_CCheck.check_stmt declare_name]. now rewrite A, B, C. Qed.
Lemma stmt_assign : forall q t x e, find_name ss x = Some (EObject q t) -> modifiable q t = true -> expr_fits strict ss q t e = true -> check_stmt ret loop ss (CAssign x e) = Some ss.
Proof. intros q t x e A B C. cbn [Spec_CCheck.check_stmt]. now rewrite A, B, C. Qed.
Lemma stmt_if : forall e b o, condition strict ss e = true -> check_block ret loop ([] :: ss) b = true -> match o with Some c => check_stmt ret loop ss c <> None | None => True end ->
  check_stmt ret loop ss (CIf e b o) = Some ss.
Proof.
  intros e b o A B C. cbn [Spec_CCheck.check_stmt]. rewrite A, block_is, B. destruct o as [c|]; [|reflexivity]. destruct (Spec_CCheck.check_stmt _ _ _ _ _ c); [reflexivity|now destruct C].
Qed.
Lemma stmt_while : forall e b, condition strict ss e = true -> check_block ret true ([] :: ss) b = true -> check_stmt ret loop ss (CWhile e b) = Some ss.
Proof. intros e b A B. cbn [Spec_CCheck.check_stmt]. now rewrite A, block_is, B. Qed.
Lemma stmt_block : forall b, check_block ret loop ([] :: ss) b = true -> check_stmt ret loop ss (CBlock b) = Some ss.
Proof. intros b A. cbn [Spec_CCheck.check_stmt]. now rewrite block_is, A. Qed.
Lemma block_cons : forall c r ss', check_stmt ret loop ss c = Some ss' -> check_block ret loop ss' r = true -> check_block ret loop ss (c :: r) = true.
Proof. intros c r ss' A B. cbn [Spec_CCheck.check_block]. now rewrite A. Qed.
End Statements.

Section Fine.
Variable H : host.
Variable ys : list symbol.
Variable D : decls.
Local Notation fine_stmt := (fine_stmt H ys D).
Local Notation fine_block := (fine_block H ys D).
Local Notation fine_expr := (fine_expr H D).

Ltac shut T := try discriminate T; try (exfalso; subst; match goal with A : In _ _ |- _ => now repeat (destruct A as [A|A]; [discriminate A|]) end).
Lemma def_inv : forall R b p G L n p' G1 L1 k y, fine_stmt R b p G L n p' G1 L1 -> tn_pay n = XDef k y ->
  p' = false /\ G1 = addg k G L /\ L1 = addl k L /\ fine_expr (all G L) y /\ exists m, D k = Some (DVar (x_ty y) m).
Proof. intros R b p G L n p' G1 L1 k y F P. destruct F; cbn [tn_pay] in P; try discriminate P. injection P as -> ->. repeat (split; [solve [auto]|]). eauto. Qed.
Lemma set_inv : forall R b p G L n p' G1 L1 k y, fine_stmt R b p G L n p' G1 L1 -> tn_pay n = XSet k y ->
  p' = false /\ G1 = G /\ L1 = L /\ fine_expr (all G L) y /\ In k (all G L) /\ D k = Some (DVar (x_ty y) true).
Proof. intros R b p G L n p' G1 L1 k y F P. destruct F; cbn [tn_pay] in P; try discriminate P. injection P as -> ->. repeat (split; [solve [auto]|]). auto. Qed.
Lemma expr_inv : forall R b p G L n p' G1 L1 y, fine_stmt R b p G L n p' G1 L1 -> tn_pay n = XExpr y -> tn_type n = N_EXPR \/ tn_type n = N_RETURN ->
  p' = false /\ G1 = G /\ L1 = L /\ fine_expr (all G L) y /\ (tn_type n = N_RETURN -> x_ty y = R).
Proof.
  intros R b p G L n p' G1 L1 y F P T. destruct F; cbn [tn_pay] in P; try discriminate P; injection P as ->; cbn [tn_type] in *.
  - repeat (split; [solve [auto]|]). intro X. discriminate X.
  - repeat (split; [solve [auto]|]). auto.
  - exfalso. destruct T as [T|T]; subst; match goal with A : In _ _ |- _ => now repeat (destruct A as [A|A]; [discriminate A|]) end.
Qed.
Lemma leave_inv : forall R b p G L n p' G1 L1, fine_stmt R b p G L n p' G1 L1 -> tn_pay n = XNone -> tn_type n = N_RETURN -> p' = false /\ G1 = G /\ L1 = L /\ R = TVoid.
Proof. intros R b p G L n p' G1 L1 F P T. destruct F; cbn [tn_pay tn_type] in *; try discriminate P; shut T. auto. Qed.
Lemma proto_inv : forall R b p G L n p' G1 L1 k ks, fine_stmt R b p G L n p' G1 L1 -> tn_pay n = XProto k ks -> p' = false /\ G1 = k :: G /\ L1 = L.
Proof. intros R b p G L n p' G1 L1 k ks F P. destruct F; cbn [tn_pay] in P; try discriminate P; injection P as -> ->; auto. Qed.
Lemma jump_inv : forall R b p G L n p' G1 L1, fine_stmt R b p G L n p' G1 L1 -> tn_type n = N_BREAK \/ tn_type n = N_CONTINUE -> p' = false /\ G1 = G /\ L1 = L /\ b = true.
Proof.
  intros R b p G L n p' G1 L1 F T. destruct F; cbn [tn_type] in *; try (destruct T as [T|T]; discriminate T).
  - exfalso. destruct T as [T|T]; subst; match goal with A : In _ _ |- _ => now repeat (destruct A as [A|A]; [discriminate A|]) end.
  - auto.
  - exfalso. destruct T as [T|T]; subst; match goal with A : In _ _ |- _ => now repeat (destruct A as [A|A]; [discriminate A|]) end.
Qed.
Lemma other_inv : forall R b p G L n p' G1 L1, fine_stmt R b p G L n p' G1 L1 ->
  In (tn_type n) [N_COMMENT; N_IMPORT; N_UNKNOWN; N_NOOP; N_UNREACHABLE] \/ tn_type n = N_VAR_DEF /\ tn_pay n = XAlias -> G1 = G /\ L1 = L.
Proof.
  intros R b p G L n p' G1 L1 F T. destruct F; cbn [tn_type tn_pay] in *; auto;
    try (exfalso; destruct T as [T|(T & T2)]; [repeat (destruct T as [T|T]; [discriminate T|]); destruct T|discriminate T2 || discriminate T]).
Qed.
Lemma all_add : forall k G L e, incl (all G L) e -> incl (all (addg k G L) (addl k L)) (k :: e).
Proof.
  intros k G L e I j J. destruct L as [x|]; cbn [all addg addl] in *.
  - cbn [app] in J. destruct J as [<-|J]; [now left|right; auto].
  - destruct J as [<-|J]; [now left|right; auto].
Qed.
Lemma all_fun : forall k G L e, incl (all G L) e -> incl (all (k :: G) L) (k :: e).
Proof.
  intros k G L e I j J. destruct L as [x|]; cbn [all] in *.
  - apply in_app_iff in J as [J|[<-|J]]; [right; apply I; apply in_or_app; now left|now left|right; apply I; apply in_or_app; now right].
  - destruct J as [<-|J]; [now left|right; auto].
Qed.
End Fine.

(** * Names that are new where they are declared *)
Section Fresh.
Variable env : cctx.
Local Notation name_of := (name_of env).
(** Parameters have different names, none of those in scope. *)
Fixpoint params_new (e ks : list nat) : Prop := match ks with [] => True | k :: ks => ~ In (name_of k) (map name_of e) /\ params_new (k :: e) ks end.
Definition params_fit (k : nat) (ks : list nat) : Prop := Forall (isvar env) ks /\ forall x f, is_fun env k x f -> f_params f = map (vtype env) ks.
Inductive fresh_names : list nat -> list tnode -> Prop :=
| fn_nil : forall e, fresh_names e []
| fn_def : forall e n k y r, tn_pay n = XDef k y -> ~ In (name_of k) (map name_of e) -> fresh_names (k :: e) r -> fresh_names e (n :: r)
| fn_proto : forall e n k ks r, tn_pay n = XProto k ks -> ~ In (name_of k) (map name_of e) -> params_new (k :: e) ks /\ params_fit k ks ->
    fresh_names (rev ks ++ k :: e) (tn_child n) -> fresh_names (k :: e) r -> fresh_names e (n :: r)
| fn_other : forall e n r, (forall k y, tn_pay n <> XDef k y) -> (forall k ks, tn_pay n <> XProto k ks) -> fresh_names e (tn_child n) -> fresh_names e r -> fresh_names e (n :: r).

Lemma fresh_def : forall e n k y r, fresh_names e (n :: r) -> tn_pay n = XDef k y -> ~ In (name_of k) (map name_of e) /\ fresh_names (k :: e) r.
Proof. intros e n k y r F P. inversion F as [|? ? k0 y0 ? P0 N1 F1|? ? k0 ks ? P0|? ? ? N1 N2]; subst; [split; congruence|congruence|now elim (N1 k y)]. Qed.
Lemma fresh_proto : forall e n k ks r, fresh_names e (n :: r) -> tn_pay n = XProto k ks ->
  ~ In (name_of k) (map name_of e) /\ (params_new (k :: e) ks /\ params_fit k ks) /\ fresh_names (rev ks ++ k :: e) (tn_child n) /\ fresh_names (k :: e) r.
Proof.
  intros e n k ks r F P. inversion F as [|? ? k0 y0 ? P0 N1 F1|? ? k0 ks0 ? P0 N1 N2 F1 F2|? ? ? N1 N2]; subst; [congruence| |now elim (N2 k ks)].
  assert (k0 = k /\ ks0 = ks) as (-> & ->) by (split; congruence). auto.
Qed.
Lemma fresh_other : forall e n r, fresh_names e (n :: r) -> (forall k y, tn_pay n <> XDef k y) -> (forall k ks, tn_pay n <> XProto k ks) -> fresh_names e (tn_child n) /\ fresh_names e r.
Proof. intros e n r F A B. inversion F as [|? ? k0 y0 ? P0 N1 F1|? ? k0 ks0 ? P0 N1 N2 F1 F2|? ? ? N1 N2 F1 F2]; subst; [now elim (A k0 y0)|now elim (B k0 ks0)|auto]. Qed.
End Fresh.

(** * Scopes *)
Lemma find_declare : forall f ss x d y, find_name (((x, d) :: f) :: ss) y = if text_eqb x y then Some d else find_name (f :: ss) y.
Proof. intros f ss x d y. cbn [find_name find_here]. now destruct (text_eqb x y). Qed.
Lemma find_below : forall fs g x, (forall f d, In f fs -> ~ In (x, d) f) -> find_name (fs ++ [g]) x = find_here g x.
Proof.
  induction fs as [|f fs IH]; intros g x N1.
  - cbn. now destruct (find_here g x).
  - cbn [app find_name]. replace (find_here f x) with (@None entity); [apply IH; intros f' d I; apply N1; now right|].
    assert (X : forall d, ~ In (x, d) f) by (intro d; apply N1; now left). clear -X. induction f as [|(y, d) f IH]; [reflexivity|]. cbn [find_here]. destruct (text_eqb y x) eqn:E.
    + apply text_eqb_eq in E. subst y. exfalso. apply (X d). now left.
    + apply IH. intros d' I. apply (X d'). now right.
Qed.
Lemma find_here_in : forall f x d, find_here f x = Some d -> In (x, d) f.
Proof. induction f as [|(y, d0) f IH]; intros x d E; [discriminate E|]. cbn [find_here] in E. destruct (text_eqb y x) eqn:T; [apply text_eqb_eq in T; left; congruence|right; auto]. Qed.

Section Bodies.
Variable H : host.
Variables (strict : bool) (headers : list text).
Variable env : cctx.
Variable s : sst.
Variable l : list tnode.
Variable hs : list helper.
Local Notation ys := (ce_syms env).
Local Notation D := (sig s).
Local Notation name_of := (name_of env).
Local Notation isvar := (isvar env).
Local Notation isfun := (isfun env).
Local Notation same := (Spec_CGen.same env).
Local Notation stands := (Spec_CBack.stands env).
Local Notation others := (Spec_CBack.others env).
Local Notation fine_block := (fine_block H ys D).
Local Notation fine_stmt := (fine_stmt H ys D).
Local Notation fine_expr := (fine_expr H D).
Local Notation fresh_names := (fresh_names env).
Local Notation var_in := (var_in env l).
Local Notation fun_in := (fun_in env).
Local Notation visible := (visible env l hs).
Local Notation kinded := (kinded strict env l).
Local Notation check_block := (check_block strict headers).
Local Notation check_stmt := (check_stmt strict headers).
Hypothesis ES : ys = s_syms s.
Hypothesis CR : c_ready strict headers env l.
Hypothesis HP : helped l hs.

(** The scopes of a function, and what stands at file scope. *)
Definition local_names (fs : list cscope) (e : list nat) : Prop := forall f x d, In f fs -> In (x, d) f -> In x (map name_of e).
Definition out_var (g : cscope) (k : nat) : Prop := exists x v q, is_var env k x v /\ find_here g x = Some (EObject q (c_type (v_type v))) /\
  (v_const v = false -> q = false) /\ (v_cexpr v = Some false -> q = false) /\ (q = true -> exists n y, in_checked n l /\ tn_pay n = XDef k y /\ x_ty y = v_type v).
Definition out_fun (g : cscope) (k : nat) : Prop := exists x f st d, is_fun env k x f /\ find_here g x = Some (EFunction st d (c_type (f_ret f)) (arg_types (f_params f))) /\
  forall t, In t (f_params f) -> t <> TVoid.
Definition supplied (g : cscope) (top : bool) (r : list tnode) : Prop :=
  (forall n k y, In n r -> tn_pay n = XDef k y -> top = true -> out_var g k) /\ (forall n k ks, In n r -> tn_pay n = XProto k ks -> out_fun g k).
Definition returns (R : ty) (rt : cty) : Prop := rt = c_type R \/ R = TInt /\ rt = TyInt.

Lemma supplied_next : forall g top n r, supplied g top (n :: r) -> supplied g top r.
Proof. intros g top n r (A & B). split; [intros m k y I; apply (A m k y); now right|intros m k ks I; apply (B m k ks); now right]. Qed.
Lemma supplied_less : forall g top r r', supplied g top r -> incl r' r -> supplied g top r'.
Proof. intros g top r r' (A & B) L. split; [intros m k y I; apply (A m k y); now apply L|intros m k ks I; apply (B m k ks); now apply L]. Qed.
Lemma supplied_ordinary : forall g r, ordinary r -> supplied g false r.
Proof.
  intros g r O. split; [intros n k y I P X; discriminate X|]. intros n k ks I P. exfalso. destruct (O n (ic_here _ _ I)) as ((_ & _ & T) & NF). exact (NF (T _ _ P)).
Qed.
Lemma shape_next : forall n r, shape (n :: r) -> shape r.
Proof. intros n r S0 m I. apply S0. now right. Qed.

Lemma lift : forall fs g e x d, local_names fs e -> ~ In x (map name_of e) -> find_here g x = Some d -> find_name (fs ++ [g]) x = Some d.
Proof. intros fs g e x d L N1 E. rewrite find_below; [exact E|]. intros f d' I J. apply N1. exact (L f x d' I J). Qed.
Lemma see_var : forall fs g e k, visible (fs ++ [g]) e -> local_names fs e -> ~ In (name_of k) (map name_of e) -> out_var g k -> visible (fs ++ [g]) (k :: e).
Proof.
  intros fs g e k [V1 V2 V3] L N1 (x & v & q & IV & E & Q1 & Q2 & Q3). pose proof (is_var_name env _ _ _ IV) as NX. constructor; [| |exact V3].
  - intros j [<-|J] VJ; [|now apply V1]. exists x, v, q. split; [exact IV|]. split; [apply lift with e; [exact L|now rewrite <- NX|exact E]|auto].
  - intros j [<-|J] FJ; [|now apply V2]. exfalso. apply (var_fun env k); [exists x, v; exact IV|exact FJ].
Qed.
Lemma see_fun : forall fs g e k, visible (fs ++ [g]) e -> local_names fs e -> ~ In (name_of k) (map name_of e) -> out_fun g k -> visible (fs ++ [g]) (k :: e).
Proof.
  intros fs g e k [V1 V2 V3] L N1 (x & f & st & d & IF & E & NV). pose proof (is_fun_name env _ _ _ IF) as NX. constructor; [| |exact V3].
  - intros j [<-|J] VJ; [|now apply V1]. exfalso. apply (var_fun env k); [exact VJ|exists x, f; exact IF].
  - intros j [<-|J] FJ; [|now apply V2]. exists x, f, st, d. split; [exact IF|]. split; [apply lift with e; [exact L|now rewrite <- NX|exact E]|exact NV].
Qed.
Lemma local_more : forall fs e k, local_names fs e -> local_names fs (k :: e).
Proof. intros fs e k L f x d I J. right. exact (L f x d I J). Qed.
Lemma local_block : forall fs e, local_names fs e -> local_names ([] :: fs) e.
Proof. intros fs e L f x d [<-|I] J; [destruct J|exact (L f x d I J)]. Qed.
(** A declaration in a block. *)
Lemma see_local : forall f ss e k x v q, visible (f :: ss) e -> is_var env k x v -> ~ In x (map name_of e) -> (v_const v = false -> q = false) ->
  (q = true -> exists n y, in_checked n l /\ tn_pay n = XDef k y /\ x_ty y = v_type v) ->
  visible (((x, EObject q (c_type (v_type v))) :: f) :: ss) (k :: e).
Proof.
  intros f ss e k x v q [V1 V2 V3] IV N1 Q1 Q2. pose proof (is_var_name env _ _ _ IV) as NX.
  assert (NE : forall j, In j e -> text_eqb x (name_of j) = false) by (intros j J; apply text_eqb_neq; intros ->; apply N1; now apply in_map). constructor.
  - intros j [<-|J] VJ.
    + exists x, v, q. split; [exact IV|]. split; [|auto]. rewrite find_declare, text_eqb_refl. reflexivity.
    + destruct (V1 j J VJ) as (z & w & p & IW & F & P). exists z, w, p. split; [exact IW|]. split; [|exact P]. rewrite find_declare. rewrite <- (is_var_name env _ _ _ IW), NE by exact J. now rewrite (is_var_name env _ _ _ IW).
  - intros j [<-|J] FJ; [exfalso; apply (var_fun env k); [exists x, v; exact IV|exact FJ]|].
    destruct (V2 j J FJ) as (z & w & p & d & IW & F & P). exists z, w, p, d. split; [exact IW|]. split; [|exact P]. rewrite find_declare. rewrite <- (is_fun_name env _ _ _ IW), NE by exact J. now rewrite (is_fun_name env _ _ _ IW).
  - intros h I. rewrite find_declare. replace (text_eqb x (helper_name h)) with false; [now apply V3|]. symmetry. apply text_eqb_neq. exact (cr_helpers _ _ _ _ CR k x v h IV).
Qed.

(** * Expressions of the program *)
Lemma node_parts : forall n y p, in_checked n l -> checked_expr n = Some y -> xpart p y -> part_fits strict env l hs p.
Proof.
  intros n y p C E P. assert (US : uses n p) by (exists y; auto). destruct p as [t k ty c|t z ty|t k args ty|o z ty c|o z1 z2 ty c]; cbn [part_fits]; auto.
  - intros ST x I. exact (proj2 (cr_strings _ _ _ _ CR ST n C) t k args ty x US I).
  - split; [intros h HF; exact (HP n o z1 z2 ty c h C US HF)|]. intros (-> & ->). exact (cr_mod _ _ _ _ CR n z1 z2 c C US).
Qed.
Lemma node_kind : forall ss V n y ce, visible ss V -> fine_expr V y -> in_checked n l -> checked_expr n = Some y -> same y ce -> kinded ss y ce.
Proof. intros ss V n y ce VI F C E S0. apply (kinds H strict env s l hs ES ss V VI y F); [|exact S0]. intros p P. exact (node_parts n y p C E P). Qed.
Lemma kind_fits : forall ss y ce q t, kinded ss y ce -> x_ty y = t -> t <> TVoid -> (strict = true -> ~ named_string env l y) -> expr_fits strict ss q (c_type t) ce = true.
Proof.
  intros ss y ce q t (c & E & Q) <- N1 ST. unfold expr_fits. rewrite E. apply assign_ok; [exact N1|]. intros -> TT. destruct strict; [|reflexivity]. exfalso. apply (ST eq_refl). now apply Q.
Qed.
Lemma condition_fits : forall ss y ce, kinded ss y ce -> x_ty y = TBool -> condition strict ss ce = true.
Proof. intros ss y ce (c & E & Q) T. unfold condition. now rewrite E, T. Qed.
Lemma not_void : forall t, t <> TVoid -> is_void (c_type t) = false.
Proof. intros [] N1; (reflexivity || now destruct N1). Qed.
Lemma not_header : forall k x v, is_var env k x v -> from_header headers x = false.
Proof.
  intros k x v (y & E & <- & K). unfold from_header. destruct (existsb _ _) eqn:X; [|reflexivity]. exfalso. apply existsb_exists in X as (z & I & T). apply text_eqb_eq in T. subst z.
  exact (cr_headers _ _ _ _ CR k y E (or_introl (ex_intro _ _ K)) I).
Qed.

Lemma visible_block : forall ss e, visible ss e -> visible ([] :: ss) e.
Proof. intros ss e [A B C]. constructor; [exact A|exact B|exact C]. Qed.
Lemma ck_next : forall x r (P : tnode -> Prop), (forall n, in_checked n (x :: r) -> P n) -> forall n, in_checked n r -> P n.
Proof. intros x r P CK m C. apply CK. inversion C as [? I|q ? I C']; subst; [apply ic_here; now right|apply ic_below with q; [now right|exact C']]. Qed.
Lemma ck_child : forall x r (P : tnode -> Prop), (forall n, in_checked n (x :: r) -> P n) -> forall n, in_checked n (tn_child x) -> P n.
Proof. intros x r P CK m C. apply CK. apply ic_below with x; [now left|exact C]. Qed.
Lemma ck_here : forall x r (P : tnode -> Prop), (forall n, in_checked n (x :: r) -> P n) -> P x.
Proof. intros x r P CK. apply CK. apply ic_here. now left. Qed.
Lemma ck_less : forall r r' (P : tnode -> Prop), (forall n, in_checked n r -> P n) -> incl r' r -> forall n, in_checked n r' -> P n.
Proof. intros r r' P CK L m C. apply CK. inversion C as [? I|q ? I C']; subst; [apply ic_here; now apply L|apply ic_below with q; [now apply L|exact C']]. Qed.
Lemma shape_child : forall n r, shape (n :: r) -> ordinary (tn_child n).
Proof. intros n r S0. exact (proj2 (S0 n (or_introl eq_refl))). Qed.
Lemma shape_plain : forall n r, shape (n :: r) -> tn_type n <> N_VAR_DEF -> tn_type n <> N_FUNCTION_PROTO -> (forall k y, tn_pay n <> XDef k y) /\ (forall k ks, tn_pay n <> XProto k ks).
Proof. intros n r S0. exact (tuned_plain n (proj1 (S0 n (or_introl eq_refl)))). Qed.
Lemma strict_value : forall n y, in_checked n l -> In (tn_type n) [N_VAR_DEF; N_VAR_ASSIGN; N_RETURN] -> checked_expr n = Some y -> strict = true -> ~ named_string env l y.
Proof. intros n y C T E ST. exact (proj1 (cr_strings _ _ _ _ CR ST n C) y T E). Qed.

Lemma bodies :
  (forall top r cs ds, stands top r cs ds -> forall R rt b p G L G' L' e f fs g, fine_block R b p G L r G' L' -> fresh_names e r -> incl (all G L) e ->
     (forall n, in_checked n r -> in_checked n l) -> shape r -> supplied g top r -> returns R rt -> visible ((f :: fs) ++ [g]) e -> local_names (f :: fs) e ->
     check_block rt b ((f :: fs) ++ [g]) cs = true) /\
  (forall r o ds r', others r o ds r' -> forall R rt b p G L G' L' e f fs g, fine_block R b p G L r G' L' -> fresh_names e r -> incl (all G L) e ->
     (forall n, in_checked n r -> in_checked n l) -> shape r -> returns R rt -> visible ((f :: fs) ++ [g]) e -> local_names (f :: fs) e ->
     match o with Some c => check_stmt rt b ((f :: fs) ++ [g]) c <> None | None => True end /\
     (exists p', fine_block R b p' G L r' G' L') /\ fresh_names e r').
Proof.
  apply stands_both.
  - reflexivity.
  - (* none *)
    intros top n r cs ds T S0 IH R rt b p G L G' L' e f fs g FB FN IN CK SH SU RE VI LN.
    apply block_inv in FB as (p' & G1 & L1 & F1 & FB).
    destruct (other_inv H ys D _ _ _ _ _ _ _ _ _ F1) as (-> & ->); [destruct T as [T|T]; [left; cbn [In] in *; tauto|right; exact T]|].
    assert (ND : forall k y, tn_pay n <> XDef k y). { intros k y P. destruct T as [T|(_ & T)]; [|congruence]. destruct (SH n (or_introl eq_refl)) as ((_ & TD & _) & _). rewrite (TD _ _ P) in T. cbn [In] in T. intuition discriminate. }
    assert (NP : forall k ks, tn_pay n <> XProto k ks). { intros k ks P. destruct T as [T|(_ & T)]; [|congruence]. destruct (SH n (or_introl eq_refl)) as ((_ & _ & TD) & _). rewrite (TD _ _ P) in T. cbn [In] in T. intuition discriminate. }
    destruct (fresh_other env _ _ _ FN ND NP) as (_ & FN2).
    exact (IH R rt b p' G L G' L' e f fs g FB FN2 IN (ck_next _ _ _ CK) (shape_next _ _ SH) (supplied_next _ _ _ _ SU) RE VI LN).
  - (* local *)
    intros n r k y x v ce cs ds T P IV S0 ST IH R rt b p G L G' L' e f fs g FB FN IN CK SH SU RE VI LN.
    apply block_inv in FB as (p' & G1 & L1 & F1 & FB). destruct (def_inv H ys D _ _ _ _ _ _ _ _ _ _ _ F1 P) as (-> & -> & -> & FE & m & DK).
    destruct (fresh_def env _ _ _ _ _ FN P) as (NN & FN2). destruct (d_var env s ES _ _ _ DK) as (x' & v' & IV' & VT & VC). destruct (is_var_one env _ _ _ _ _ IV IV') as (<- & <-).
    pose proof (ck_here _ _ _ CK) as C. pose proof (is_var_name env _ _ _ IV) as NX. rewrite NX in NN.
    assert (CE : checked_expr n = Some y) by (unfold checked_expr; now rewrite P).
    assert (VI2 : visible (((x, EObject (v_const v) (c_type (v_type v))) :: f) :: fs ++ [g]) (k :: e)).
    { apply see_local; auto. intros _. exists n, y. auto. }
    cbn [app]. eapply block_cons; [apply stmt_decl|].
    + apply not_void. exact (cr_void _ _ _ _ CR _ _ _ IV).
    + unfold undeclared. rewrite (not_header _ _ _ IV). destruct (find_here f x) as [d|] eqn:E; [|reflexivity]. exfalso. apply NN. apply (LN f x d (or_introl eq_refl)). now apply find_here_in.
    + apply (kind_fits _ y); [|now symmetry|exact (cr_void _ _ _ _ CR _ _ _ IV)|apply (strict_value n y C); [rewrite T; now left|exact CE]].
      apply (node_kind _ (all G L) n y ce); auto. apply visible_less with (k :: e); [exact VI2|]. intros j J. right. now apply IN.
    + change (((x, EObject (v_const v) (c_type (v_type v))) :: f) :: fs ++ [g]) with ((((x, EObject (v_const v) (c_type (v_type v))) :: f) :: fs) ++ [g]) in *.
      refine (IH R rt b false _ _ G' L' (k :: e) _ fs g FB FN2 (all_add k G L e IN) (ck_next _ _ _ CK) (shape_next _ _ SH) (supplied_next _ _ _ _ SU) RE VI2 _).
      intros f' z d [<-|I] J; [destruct J as [J|J]; [injection J as <- _; left; exact NX|right; exact (LN f z d (or_introl eq_refl) J)]|right; exact (LN f' z d (or_intror I) J)].
  - (* outside *)
    intros n r k y x v label ce cs ds T P IV S0 CX LB ST IH R rt b p G L G' L' e f fs g FB FN IN CK SH SU RE VI LN.
    apply block_inv in FB as (p' & G1 & L1 & F1 & FB). destruct (def_inv H ys D _ _ _ _ _ _ _ _ _ _ _ F1 P) as (-> & -> & -> & FE & m & DK).
    destruct (fresh_def env _ _ _ _ _ FN P) as (NN & FN2). destruct (d_var env s ES _ _ _ DK) as (x' & v' & IV' & VT & VC). destruct (is_var_one env _ _ _ _ _ IV IV') as (<- & <-).
    pose proof (ck_here _ _ _ CK) as C. pose proof (is_var_name env _ _ _ IV) as NX.
    assert (CE : checked_expr n = Some y) by (unfold checked_expr; now rewrite P).
    pose proof (proj1 SU n k y (or_introl eq_refl) P eq_refl) as OV. pose proof (see_var _ _ _ _ VI LN NN OV) as VI2.
    destruct OV as (x' & v' & q & IV2 & FH & _ & Q2 & _). destruct (is_var_one env _ _ _ _ _ IV IV2) as (<- & <-). rewrite (Q2 CX) in FH. rewrite NX in NN.
    eapply block_cons; [apply stmt_assign with (q := false) (t := c_type (v_type v))|].
    + exact (lift _ _ _ _ _ LN NN FH).
    + destruct (v_type v); reflexivity.
    + apply (kind_fits _ y); [|now symmetry|exact (cr_void _ _ _ _ CR _ _ _ IV)|apply (strict_value n y C); [rewrite T; now left|exact CE]].
      apply (node_kind _ (all G L) n y ce); auto. now apply visible_less with e.
    + exact (IH R rt b false _ _ G' L' (k :: e) f fs g FB FN2 (all_add k G L e IN) (ck_next _ _ _ CK) (shape_next _ _ SH) (supplied_next _ _ _ _ SU) RE VI2 (local_more _ _ _ LN)).
  - (* constant *)
    intros n r k y x v label ce cs ds T P IV S0 CX LB ST IH R rt b p G L G' L' e f fs g FB FN IN CK SH SU RE VI LN.
    apply block_inv in FB as (p' & G1 & L1 & F1 & FB). destruct (def_inv H ys D _ _ _ _ _ _ _ _ _ _ _ F1 P) as (-> & -> & -> & FE & m & DK).
    destruct (fresh_def env _ _ _ _ _ FN P) as (NN & FN2).
    pose proof (see_var _ _ _ _ VI LN NN (proj1 SU n k y (or_introl eq_refl) P eq_refl)) as VI2.
    exact (IH R rt b false _ _ G' L' (k :: e) f fs g FB FN2 (all_add k G L e IN) (ck_next _ _ _ CK) (shape_next _ _ SH) (supplied_next _ _ _ _ SU) RE VI2 (local_more _ _ _ LN)).
  - (* assignment *)
    intros top n r k y x v ce cs ds T P IV S0 ST IH R rt b p G L G' L' e f fs g FB FN IN CK SH SU RE VI LN.
    apply block_inv in FB as (p' & G1 & L1 & F1 & FB). destruct (set_inv H ys D _ _ _ _ _ _ _ _ _ _ _ F1 P) as (-> & -> & -> & FE & IK & DK).
    destruct (shape_plain _ _ SH) as (ND & NP); [rewrite T; discriminate|rewrite T; discriminate|]. destruct (fresh_other env _ _ _ FN ND NP) as (_ & FN2).
    destruct (d_var env s ES _ _ _ DK) as (x' & v' & IV' & VT & VC). destruct (is_var_one env _ _ _ _ _ IV IV') as (<- & <-).
    pose proof (ck_here _ _ _ CK) as C. assert (CE : checked_expr n = Some y) by (unfold checked_expr; now rewrite P).
    destruct (vs_vars _ _ _ _ _ VI k (IN k IK) (ex_intro _ _ (ex_intro _ _ IV))) as (x' & v' & q & IV2 & FH & Q1 & _). destruct (is_var_one env _ _ _ _ _ IV IV2) as (<- & <-).
    rewrite (Q1 VC) in FH. eapply block_cons; [apply stmt_assign with (q := false) (t := c_type (v_type v)); [exact FH|destruct (v_type v); reflexivity|]|].
    + apply (kind_fits _ y); [|now symmetry|exact (cr_void _ _ _ _ CR _ _ _ IV)|apply (strict_value n y C); [rewrite T; right; now left|exact CE]].
      apply (node_kind _ (all G L) n y ce); auto. now apply visible_less with e.
    + exact (IH R rt b false _ _ G' L' e f fs g FB FN2 IN (ck_next _ _ _ CK) (shape_next _ _ SH) (supplied_next _ _ _ _ SU) RE VI LN).
  - (* call *)
    intros top n r y ce cs ds T P S0 ST IH R rt b p G L G' L' e f fs g FB FN IN CK SH SU RE VI LN.
    apply block_inv in FB as (p' & G1 & L1 & F1 & FB). destruct (expr_inv H ys D _ _ _ _ _ _ _ _ _ _ F1 P (or_introl T)) as (-> & -> & -> & FE & _).
    destruct (shape_plain _ _ SH) as (ND & NP); [rewrite T; discriminate|rewrite T; discriminate|]. destruct (fresh_other env _ _ _ FN ND NP) as (_ & FN2).
    pose proof (ck_here _ _ _ CK) as C. assert (CE : checked_expr n = Some y) by (unfold checked_expr; now rewrite P).
    destruct (node_kind _ (all G L) n y ce (visible_less _ _ _ _ _ _ VI IN) FE C CE S0) as (q & E & _).
    eapply block_cons; [cbn [Spec_CCheck.check_stmt]; unfold some_kind; rewrite E; reflexivity|].
    exact (IH R rt b false _ _ G' L' e f fs g FB FN2 IN (ck_next _ _ _ CK) (shape_next _ _ SH) (supplied_next _ _ _ _ SU) RE VI LN).
  - (* return *)
    intros top n r cs ds T P ST IH R rt b p G L G' L' e f fs g FB FN IN CK SH SU RE VI LN.
    apply block_inv in FB as (p' & G1 & L1 & F1 & FB). destruct (leave_inv H ys D _ _ _ _ _ _ _ _ _ F1 P T) as (-> & -> & -> & ->).
    destruct (shape_plain _ _ SH) as (ND & NP); [rewrite T; discriminate|rewrite T; discriminate|]. destruct (fresh_other env _ _ _ FN ND NP) as (_ & FN2).
    assert (rt = TyVoid) as -> by (destruct RE as [->|(X & _)]; [reflexivity|discriminate X]).
    eapply block_cons; [reflexivity|].
    exact (IH TVoid TyVoid b false _ _ G' L' e f fs g FB FN2 IN (ck_next _ _ _ CK) (shape_next _ _ SH) (supplied_next _ _ _ _ SU) RE VI LN).
  - (* result *)
    intros top n r y ce cs ds T P S0 ST IH R rt b p G L G' L' e f fs g FB FN IN CK SH SU RE VI LN.
    apply block_inv in FB as (p' & G1 & L1 & F1 & FB). destruct (expr_inv H ys D _ _ _ _ _ _ _ _ _ _ F1 P (or_intror T)) as (-> & -> & -> & FE & XR). specialize (XR T).
    destruct (shape_plain _ _ SH) as (ND & NP); [rewrite T; discriminate|rewrite T; discriminate|]. destruct (fresh_other env _ _ _ FN ND NP) as (_ & FN2).
    pose proof (ck_here _ _ _ CK) as C. assert (CE : checked_expr n = Some y) by (unfold checked_expr; now rewrite P).
    pose proof (cr_returns _ _ _ _ CR n y C T P) as NV.
    pose proof (node_kind _ (all G L) n y ce (visible_less _ _ _ _ _ _ VI IN) FE C CE S0) as KD.
    eapply block_cons.
    + assert (X : is_void rt = false /\ expr_fits strict ((f :: fs) ++ [g]) false rt ce = true).
      { destruct RE as [->|(RI & ->)].
        - split; [apply not_void; congruence|]. apply (kind_fits _ y); [exact KD|exact XR|congruence|apply (strict_value n y C); [rewrite T; right; right; now left|exact CE]].
        - split; [reflexivity|]. destruct KD as (q & E & _). unfold expr_fits. rewrite E, XR, RI. reflexivity. }
      cbn [Spec_CCheck.check_stmt]. rewrite (proj1 X), (proj2 X). reflexivity.
    + exact (IH R rt b false _ _ G' L' e f fs g FB FN2 IN (ck_next _ _ _ CK) (shape_next _ _ SH) (supplied_next _ _ _ _ SU) RE VI LN).
  - (* noop *)
    intros top n r cs ds T ST IH R rt b p G L G' L' e f fs g FB FN IN CK SH SU RE VI LN.
    apply block_inv in FB as (p' & G1 & L1 & F1 & FB). destruct (other_inv H ys D _ _ _ _ _ _ _ _ _ F1) as (-> & ->); [left; rewrite T; cbn; auto|].
    destruct (shape_plain _ _ SH) as (ND & NP); [rewrite T; discriminate|rewrite T; discriminate|]. destruct (fresh_other env _ _ _ FN ND NP) as (_ & FN2).
    eapply block_cons; [reflexivity|].
    exact (IH R rt b p' _ _ G' L' e f fs g FB FN2 IN (ck_next _ _ _ CK) (shape_next _ _ SH) (supplied_next _ _ _ _ SU) RE VI LN).
  - (* unreachable *)
    intros top n r cs ds T ST IH R rt b p G L G' L' e f fs g FB FN IN CK SH SU RE VI LN.
    apply block_inv in FB as (p' & G1 & L1 & F1 & FB). destruct (other_inv H ys D _ _ _ _ _ _ _ _ _ F1) as (-> & ->); [left; rewrite T; cbn; auto 6|].
    destruct (shape_plain _ _ SH) as (ND & NP); [rewrite T; discriminate|rewrite T; discriminate|]. destruct (fresh_other env _ _ _ FN ND NP) as (_ & FN2).
    eapply block_cons; [reflexivity|].
    exact (IH R rt b p' _ _ G' L' e f fs g FB FN2 IN (ck_next _ _ _ CK) (shape_next _ _ SH) (supplied_next _ _ _ _ SU) RE VI LN).
  - (* break *)
    intros top n r cs ds T ST IH R rt b p G L G' L' e f fs g FB FN IN CK SH SU RE VI LN.
    apply block_inv in FB as (p' & G1 & L1 & F1 & FB). destruct (jump_inv H ys D _ _ _ _ _ _ _ _ _ F1 (or_introl T)) as (-> & -> & -> & ->).
    destruct (shape_plain _ _ SH) as (ND & NP); [rewrite T; discriminate|rewrite T; discriminate|]. destruct (fresh_other env _ _ _ FN ND NP) as (_ & FN2).
    eapply block_cons; [reflexivity|].
    exact (IH R rt true false _ _ G' L' e f fs g FB FN2 IN (ck_next _ _ _ CK) (shape_next _ _ SH) (supplied_next _ _ _ _ SU) RE VI LN).
  - (* continue *)
    intros top n r cs ds T ST IH R rt b p G L G' L' e f fs g FB FN IN CK SH SU RE VI LN.
    apply block_inv in FB as (p' & G1 & L1 & F1 & FB). destruct (jump_inv H ys D _ _ _ _ _ _ _ _ _ F1 (or_intror T)) as (-> & -> & -> & ->).
    destruct (shape_plain _ _ SH) as (ND & NP); [rewrite T; discriminate|rewrite T; discriminate|]. destruct (fresh_other env _ _ _ FN ND NP) as (_ & FN2).
    eapply block_cons; [reflexivity|].
    exact (IH R rt true false _ _ G' L' e f fs g FB FN2 IN (ck_next _ _ _ CK) (shape_next _ _ SH) (supplied_next _ _ _ _ SU) RE VI LN).
  - (* if *)
    intros top n r y ce bb ds1 o ds2 r' cs ds T P S0 SB IHB SO IHO ST IH R rt b p G L G' L' e f fs g FB FN IN CK SH SU RE VI LN.
    apply block_inv in FB as (p' & G1 & L1 & F1 & FB). destruct (condition_inv H ys D _ _ _ _ _ _ _ _ _ F1) as (y' & G3 & L3 & P' & _ & -> & -> & FE & TB & FC); [rewrite T; cbn; auto|].
    assert (y' = y) by congruence. subst y'. rewrite T in FC. cbn [looping] in FC.
    destruct (shape_plain _ _ SH) as (ND & NP); [rewrite T; discriminate|rewrite T; discriminate|]. destruct (fresh_other env _ _ _ FN ND NP) as (FN1 & FN2).
    pose proof (ck_here _ _ _ CK) as C. assert (CE : checked_expr n = Some y) by (unfold checked_expr; now rewrite P).
    pose proof (node_kind _ (all G L) n y ce (visible_less _ _ _ _ _ _ VI IN) FE C CE S0) as KD.
    pose proof (shape_child _ _ SH) as OC. pose proof (shape_next _ _ SH) as SN.
    destruct (IHO R rt b p' G L G' L' e f fs g FB FN2 IN (ck_next _ _ _ CK) SN RE VI LN) as (OK & (p2 & FB2) & FN3).
    pose proof (others_incl env _ _ _ _ SO) as LI.
    eapply block_cons; [apply stmt_if; [exact (condition_fits _ _ _ KD TB)| |exact OK]|].
    + exact (IHB R rt b false G L G3 L3 e [] (f :: fs) g FC FN1 IN (ck_child _ _ _ CK) (ordinary_shape _ OC) (supplied_ordinary _ _ OC) RE (visible_block _ _ VI) (local_block _ _ LN)).
    + exact (IH R rt b p2 G L G' L' e f fs g FB2 FN3 IN (ck_less _ _ _ (ck_next _ _ _ CK) LI) (fun m I => SN m (LI m I)) (supplied_less _ _ _ _ (supplied_next _ _ _ _ SU) LI) RE VI LN).
  - (* while *)
    intros top n r y ce bb ds1 cs ds T P S0 SB IHB ST IH R rt b p G L G' L' e f fs g FB FN IN CK SH SU RE VI LN.
    apply block_inv in FB as (p' & G1 & L1 & F1 & FB). destruct (condition_inv H ys D _ _ _ _ _ _ _ _ _ F1) as (y' & G3 & L3 & P' & _ & -> & -> & FE & TB & FC); [rewrite T; cbn; auto|].
    assert (y' = y) by congruence. subst y'. rewrite T in FC. cbn [looping] in FC.
    destruct (shape_plain _ _ SH) as (ND & NP); [rewrite T; discriminate|rewrite T; discriminate|]. destruct (fresh_other env _ _ _ FN ND NP) as (FN1 & FN2).
    pose proof (ck_here _ _ _ CK) as C. assert (CE : checked_expr n = Some y) by (unfold checked_expr; now rewrite P).
    pose proof (node_kind _ (all G L) n y ce (visible_less _ _ _ _ _ _ VI IN) FE C CE S0) as KD.
    pose proof (shape_child _ _ SH) as OC.
    eapply block_cons; [apply stmt_while; [exact (condition_fits _ _ _ KD TB)|]|].
    + exact (IHB R rt true false G L G3 L3 e [] (f :: fs) g FC FN1 IN (ck_child _ _ _ CK) (ordinary_shape _ OC) (supplied_ordinary _ _ OC) RE (visible_block _ _ VI) (local_block _ _ LN)).
    + exact (IH R rt b p' _ _ G' L' e f fs g FB FN2 IN (ck_next _ _ _ CK) (shape_next _ _ SH) (supplied_next _ _ _ _ SU) RE VI LN).
  - (* namespace *)
    intros top n r k y bb ds1 cs ds T P NE SB IHB ST IH R rt b p G L G' L' e f fs g FB FN IN CK SH SU RE VI LN.
    exfalso. exact (cr_spaces _ _ _ _ CR n (ck_here _ _ _ CK) T).
  - (* function *)
    intros top n r k ks x fn label ps bb ds1 cs ds T P IF EX LB FP SB IHB ST IH R rt b p G L G' L' e f fs g FB FN IN CK SH SU RE VI LN.
    apply block_inv in FB as (p' & G1 & L1 & F1 & FB). destruct (proto_inv H ys D _ _ _ _ _ _ _ _ _ _ _ F1 P) as (-> & -> & ->).
    destruct (fresh_proto env _ _ _ _ _ FN P) as (NN & _ & _ & FN2).
    exact (IH R rt b false _ _ G' L' (k :: e) f fs g FB FN2 (all_fun k G L e IN) (ck_next _ _ _ CK) (shape_next _ _ SH) (supplied_next _ _ _ _ SU) RE
      (see_fun _ _ _ _ VI LN NN (proj2 SU n k ks (or_introl eq_refl) P)) (local_more _ _ _ LN)).
  - (* external *)
    intros top n r k ks x fn label ps cs ds T P IF EX LB FP ST IH R rt b p G L G' L' e f fs g FB FN IN CK SH SU RE VI LN.
    apply block_inv in FB as (p' & G1 & L1 & F1 & FB). destruct (proto_inv H ys D _ _ _ _ _ _ _ _ _ _ _ F1 P) as (-> & -> & ->).
    destruct (fresh_proto env _ _ _ _ _ FN P) as (NN & _ & _ & FN2).
    exact (IH R rt b false _ _ G' L' (k :: e) f fs g FB FN2 (all_fun k G L e IN) (ck_next _ _ _ CK) (shape_next _ _ SH) (supplied_next _ _ _ _ SU) RE
      (see_fun _ _ _ _ VI LN NN (proj2 SU n k ks (or_introl eq_refl) P)) (local_more _ _ _ LN)).
  - (* no branches *)
    intros r T R rt b p G L G' L' e f fs g FB FN IN CK SH RE VI LN. split; [exact I|]. split; [exists p; exact FB|exact FN].
  - (* comment *)
    intros n r o ds r' T SO IH R rt b p G L G' L' e f fs g FB FN IN CK SH RE VI LN.
    apply block_inv in FB as (p' & G1 & L1 & F1 & FB). destruct (other_inv H ys D _ _ _ _ _ _ _ _ _ F1) as (-> & ->); [left; rewrite T; now left|].
    destruct (shape_plain _ _ SH) as (ND & NP); [rewrite T; discriminate|rewrite T; discriminate|]. destruct (fresh_other env _ _ _ FN ND NP) as (_ & FN2).
    exact (IH R rt b p' _ _ G' L' e f fs g FB FN2 IN (ck_next _ _ _ CK) (shape_next _ _ SH) RE VI LN).
  - (* elif *)
    intros n r y ce bb ds1 o ds r' T P S0 SB IHB SO IHO R rt b p G L G' L' e f fs g FB FN IN CK SH RE VI LN.
    apply block_inv in FB as (p' & G1 & L1 & F1 & FB). destruct (condition_inv H ys D _ _ _ _ _ _ _ _ _ F1) as (y' & G3 & L3 & P' & _ & -> & -> & FE & TB & FC); [rewrite T; cbn; auto|].
    assert (y' = y) by congruence. subst y'. rewrite T in FC. cbn [looping] in FC.
    destruct (shape_plain _ _ SH) as (ND & NP); [rewrite T; discriminate|rewrite T; discriminate|]. destruct (fresh_other env _ _ _ FN ND NP) as (FN1 & FN2).
    pose proof (ck_here _ _ _ CK) as C. assert (CE : checked_expr n = Some y) by (unfold checked_expr; now rewrite P).
    pose proof (node_kind _ (all G L) n y ce (visible_less _ _ _ _ _ _ VI IN) FE C CE S0) as KD.
    pose proof (shape_child _ _ SH) as OC.
    destruct (IHO R rt b p' G L G' L' e f fs g FB FN2 IN (ck_next _ _ _ CK) (shape_next _ _ SH) RE VI LN) as (OK & FB2 & FN3).
    split; [|split; [exact FB2|exact FN3]]. erewrite stmt_if; [discriminate|exact (condition_fits _ _ _ KD TB)| |exact OK].
    exact (IHB R rt b false G L G3 L3 e [] (f :: fs) g FC FN1 IN (ck_child _ _ _ CK) (ordinary_shape _ OC) (supplied_ordinary _ _ OC) RE (visible_block _ _ VI) (local_block _ _ LN)).
  - (* else *)
    intros n r bb ds1 T SB IHB R rt b p G L G' L' e f fs g FB FN IN CK SH RE VI LN.
    apply block_inv in FB as (p' & G1 & L1 & F1 & FB). destruct (else_inv H ys D _ _ _ _ _ _ _ _ _ F1 T) as (G3 & L3 & _ & -> & -> & -> & FC).
    destruct (shape_plain _ _ SH) as (ND & NP); [rewrite T; discriminate|rewrite T; discriminate|]. destruct (fresh_other env _ _ _ FN ND NP) as (FN1 & FN2).
    pose proof (shape_child _ _ SH) as OC. split; [|split; [exists false; exact FB|exact FN2]]. rewrite stmt_block; [discriminate|].
    exact (IHB R rt b false G L G3 L3 e [] (f :: fs) g FC FN1 IN (ck_child _ _ _ CK) (ordinary_shape _ OC) (supplied_ordinary _ _ OC) RE (visible_block _ _ VI) (local_block _ _ LN)).
Qed.
End Bodies.
