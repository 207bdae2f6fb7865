(** What the code generator adds to the module, and the calls in it. *)
From Coq Require Import List Arith NArith ZArith Bool Lia Ascii String.
From Verif Require Import Base Model_Names Model_Parse Model_Sem Spec_Run Spec_IR Model_LLVM Model_Link Spec_Link.
From Verif Require Import Proof_Sem Proof_Sem7 Proof_Sem8 Proof_CGen2 Proof_Debug.
Import ListNotations.
Open Scope list_scope.
Open Scope nat_scope.

Lemma rbind_ok : forall A B (r : res A) (k : A -> res B) b, bind r k = Ok b -> exists a, r = Ok a /\ k a = Ok b.
Proof. intros A B [a|] k b E; [eauto|discriminate]. Qed.
Ltac step1 E := match type of E with
  | bind ?r ?k = Ok _ => let a := fresh "a" in let E1 := fresh "E1" in apply rbind_ok in E as (a & E1 & E)
  end.

Lemma upd_past : forall A (l : list A) i f, List.length l <= i -> upd l i f = l.
Proof. intros A l. induction l as [|a l IH]; intros [|i] f L; cbn in *; try reflexivity; [lia|]. f_equal. apply IH. lia. Qed.

Section Gen.
Variable H : host.
Variable fold : iop -> operand H -> operand H -> option (operand H).
Variable ys : list symbol.
Variable debug : bool.
Notation emit := (Model_LLVM.emit H).
Notation gen_expr := (Model_LLVM.gen_expr H fold ys).
Notation gst := (gst H).
Notation gen_body := (Model_LLVM.gen_body H fold ys debug).
Notation gen_list := (Model_LLVM.gen_list H fold ys debug).

Definition called (bs : list (list (instr H))) (f : callee) : Prop := exists code r l, In code bs /\ In (ICall r f l) code.
Definition decl_of (a : act) : list act := match a with ActCall _ => [] | _ => [a] end.
Definition decls (l : list act) : list act := flat_map decl_of l.
Definition wf (g : gst) : Prop :=
  g_cur H g < List.length (g_blocks H g) /\ forall f, In (ActCall f) (g_log H g) <-> called (g_blocks H g) f.
Record grows (g g' : gst) : Prop := mkgrows {
  gr_func : g_func H g' = g_func H g;
  gr_len : List.length (g_blocks H g) <= List.length (g_blocks H g');
  gr_wf : wf g -> wf g' }.
Definition stp (ds : list act) (g g' : gst) : Prop := grows g g' /\ decls (g_log H g') = decls (g_log H g) ++ ds.

Lemma stp_refl : forall g, stp [] g g.
Proof. intro g. split; [constructor; auto|]. now rewrite app_nil_r. Qed.
Lemma grows_trans : forall a b c, grows a b -> grows b c -> grows a c.
Proof. intros a b c A B. destruct A, B. constructor; [congruence|lia|auto]. Qed.
Lemma stp_trans : forall d e a b c, stp d a b -> stp e b c -> stp (d ++ e) a c.
Proof. intros d e a b c (A & A') (B & B'). split; [exact (grows_trans _ _ _ A B)|]. now rewrite B', A', app_assoc. Qed.
Lemma stp_trans0 : forall e a b c, stp [] a b -> stp e b c -> stp e a c.
Proof. intros e a b c A B. exact (stp_trans [] e a b c A B). Qed.
Lemma stp_trans1 : forall e a b c, stp e a b -> stp [] b c -> stp e a c.
Proof. intros e a b c A B. rewrite <- (app_nil_r e). exact (stp_trans e [] a b c A B). Qed.
Lemma stp_wf : forall d a b, stp d a b -> wf a -> wf b.
Proof. intros d a b (A & _). exact (gr_wf _ _ A). Qed.
Lemma stp_len : forall d a b, stp d a b -> List.length (g_blocks H a) <= List.length (g_blocks H b).
Proof. intros d a b (A & _). exact (gr_len _ _ A). Qed.
Lemma stp_func : forall d a b, stp d a b -> g_func H b = g_func H a.
Proof. intros d a b (A & _). exact (gr_func _ _ A). Qed.

Lemma called_upd : forall i f bs c, c < List.length bs ->
  (called (upd bs c (fun l => l ++ [i])) f <-> called bs f \/ exists r l, i = ICall r f l).
Proof.
  intros i f bs. unfold called. induction bs as [|b bs IH]; intros c L; cbn [List.length] in L; [lia|]. destruct c as [|c]; cbn [upd].
  - split.
    + intros (code & r & l & [<-|I] & J); [|left; exists code, r, l; split; [now right|exact J]].
      apply in_app_iff in J as [J|[J|[]]]; [left; exists b, r, l; split; [now left|exact J]|right; eauto].
    + intros [(code & r & l & [<-|I] & J)|(r & l & ->)].
      * exists (b ++ [i]), r, l. split; [now left|]. apply in_app_iff. now left.
      * exists code, r, l. split; [now right|exact J].
      * exists (b ++ [ICall r f l]), r, l. split; [now left|]. apply in_app_iff. right. now left.
  - specialize (IH c ltac:(lia)). split.
    + intros (code & r & l & [<-|I] & J); [left; exists b, r, l; split; [now left|exact J]|].
      destruct (proj1 IH (ex_intro _ code (ex_intro _ r (ex_intro _ l (conj I J))))) as [(code' & r' & l' & I' & J')|Q]; [|now right].
      left. exists code', r', l'. split; [now right|exact J'].
    + intros [(code & r & l & [<-|I] & J)|Q].
      * exists b, r, l. split; [now left|exact J].
      * destruct (proj2 IH (or_introl (ex_intro _ code (ex_intro _ r (ex_intro _ l (conj I J)))))) as (c' & r' & l' & I' & J'). exists c', r', l'. split; [now right|exact J'].
      * destruct (proj2 IH (or_intror Q)) as (c' & r' & l' & I' & J'). exists c', r', l'. split; [now right|exact J'].
Qed.
Lemma in_logged : forall i f, In (ActCall f) (logged H i) <-> exists r l, i = ICall r f l.
Proof.
  intros i f. destruct i; cbn [logged]; split; try (intros []; fail); try (intros (? & ? & E); discriminate E).
  - intros [E|[]]. inversion E; subst. eauto.
  - intros (? & ? & E). inversion E; subst. now left.
Qed.
Lemma decls_logged : forall i, decls (logged H i) = [].
Proof. intros []; reflexivity. Qed.
Lemma decls_app : forall a b, decls (a ++ b) = decls a ++ decls b.
Proof. intros. apply flat_map_app. Qed.

Lemma stp_emit : forall g i, stp [] g (emit g i).
Proof.
  intros g i. split.
  - constructor; cbn [Model_LLVM.emit g_func g_blocks g_log g_cur]; [reflexivity|now rewrite upd_length|].
    intros (C & L). split; cbn [Model_LLVM.emit g_cur g_blocks g_log]; [now rewrite upd_length|]. intro f.
    rewrite in_app_iff, L, in_logged. symmetry. now apply called_upd.
  - cbn [Model_LLVM.emit g_log]. now rewrite decls_app, decls_logged.
Qed.
Lemma stp_same : forall g g', g_func H g' = g_func H g -> g_blocks H g' = g_blocks H g -> g_cur H g' = g_cur H g -> g_log H g' = g_log H g -> stp [] g g'.
Proof.
  intros g g' F B C L. split; [constructor; [exact F|now rewrite B|]|now rewrite L, app_nil_r].
  intros (W1 & W2). split; [now rewrite B, C|]. intro f. now rewrite B, L.
Qed.
Lemma stp_reg : forall g i o g', emit_reg H g i = (o, g') -> stp [] g g'.
Proof. intros g i o g' E. inversion E; subst. refine (stp_trans0 _ g (set_next H g (S (g_reg H g))) _ _ (stp_emit _ _)). now apply stp_same. Qed.
Lemma stp_build : forall p a b g o g', build H fold p a b g = (o, g') -> stp [] g g'.
Proof. intros p a b g o g' E. unfold build in E. destruct (fold p a b); [inversion E; subst; apply stp_refl|exact (stp_reg _ _ _ _ E)]. Qed.
Lemma called_more : forall bs f, called (bs ++ [[]]) f <-> called bs f.
Proof.
  intros bs f. split; intros (c & r & l & I & J).
  - apply in_app_iff in I as [I|[<-|[]]]; [exists c, r, l; auto|contradiction].
  - exists c, r, l. split; [apply in_app_iff; now left|exact J].
Qed.
Lemma stp_block : forall g b g', new_block H g = (b, g') -> stp [] g g' /\ b = List.length (g_blocks H g) /\ List.length (g_blocks H g') = S (List.length (g_blocks H g)).
Proof.
  intros g b g' E. inversion E; subst. split; [|split; [reflexivity|cbn [set_blocks g_blocks]; rewrite app_length; cbn; lia]].
  split; [constructor; cbn [set_blocks g_func g_blocks g_log g_cur]; [reflexivity|rewrite app_length; lia|]|cbn [set_blocks g_log]; now rewrite app_nil_r].
  intros (C & L). split; cbn [set_blocks g_cur g_blocks g_log]; [rewrite app_length; cbn; lia|]. intro f. rewrite L. symmetry. apply called_more.
Qed.
Lemma wf_position : forall g b, wf g -> b < List.length (g_blocks H g) -> wf (position H g b).
Proof. intros g b (C & L) B. split; [exact B|exact L]. Qed.

Ltac two E := match type of E with (let '(_, _) := ?r in _) = _ => let o := fresh "o" in let g := fresh "g" in let Q := fresh "Q" in destruct r as (o, g) eqn:Q end.

Lemma stp_math : forall t oi of l r g o t' g', gen_math H fold t oi of l r g = Ok (o, t', g') -> stp [] g g'.
Proof. intros t oi of l r g o t' g' E. unfold gen_math in E. destruct t as [[]|]; try discriminate; two E; inversion E; subst; exact (stp_build _ _ _ _ _ _ Q). Qed.
Lemma stp_order : forall t oi of l r g o t' g', gen_order H fold t oi of l r g = Ok (o, t', g') -> stp [] g g'.
Proof. intros t oi of l r g o t' g' E. unfold gen_order in E. destruct t as [[]|]; try discriminate; two E; inversion E; subst; exact (stp_build _ _ _ _ _ _ Q). Qed.
Lemma stp_shift : forall t p l r g o t' g', gen_shift H fold t p l r g = Ok (o, t', g') -> stp [] g g'.
Proof. intros t p l r g o t' g' E. unfold gen_shift in E. destruct t as [[]|]; try discriminate; two E; inversion E; subst; exact (stp_build _ _ _ _ _ _ Q). Qed.
Lemma stp_logical : forall t p l r g o t' g', gen_logical H fold t p l r g = Ok (o, t', g') -> stp [] g g'.
Proof. intros t p l r g o t' g' E. unfold gen_logical in E. two E; inversion E; subst; exact (stp_build _ _ _ _ _ _ Q). Qed.
Lemma stp_builtin : forall f t l r g o t' g', gen_builtin H f t l r g = Ok (o, t', g') -> stp [] g g'.
Proof. intros f t l r g o t' g' E. unfold gen_builtin in E. two E; inversion E; subst; exact (stp_reg _ _ _ _ Q). Qed.
Lemma stp_is : forall t l r g o t' g', gen_is H fold t l r g = Ok (o, t', g') -> stp [] g g'.
Proof.
  intros t l r g o t' g' E. unfold gen_is in E. destruct t as [[]|]; try discriminate; try (exact (stp_builtin _ _ _ _ _ _ _ _ E));
    two E; inversion E; subst; exact (stp_build _ _ _ _ _ _ Q).
Qed.
Lemma stp_binary : forall b t l r g o t' g', gen_binary H fold b t l r g = Ok (o, t', g') -> stp [] g g'.
Proof.
  intros b t l r g o t' g' E. destruct b; cbn [gen_binary] in E;
    try (exact (stp_math _ _ _ _ _ _ _ _ _ E)); try (exact (stp_order _ _ _ _ _ _ _ _ _ E));
    try (exact (stp_shift _ _ _ _ _ _ _ _ E)); try (exact (stp_logical _ _ _ _ _ _ _ _ E)); try (exact (stp_is _ _ _ _ _ _ _ E)).
  - unfold gen_pow in E. destruct t as [[]|]; try discriminate; exact (stp_builtin _ _ _ _ _ _ _ _ E).
  - unfold gen_is_not in E. step1 E. destruct a as ((o1, t1), g1). two E. inversion E; subst.
    apply (stp_trans0 _ _ g1); [exact (stp_is _ _ _ _ _ _ _ E1)|exact (stp_build _ _ _ _ _ _ Q)].
Qed.

Lemma stp_args : forall gen args, Forall (fun x => forall g o t g', gen x g = Ok (o, t, g') -> stp [] g g') args ->
  forall n g os g', gen_args H gen n args g = Ok (os, g') -> stp [] g g'.
Proof.
  intros gen args F. induction F as [|a args Fa F IH]; intros [|n] g os g' E; cbn [gen_args] in E; try discriminate; try (inversion E; subst; apply stp_refl).
  step1 E. destruct a0 as ((o1, t1), g1). step1 E. destruct a0 as (os2, g2). inversion E; subst.
  apply (stp_trans0 _ _ g1); [exact (Fa _ _ _ _ E1)|exact (IH _ _ _ _ E0)].
Qed.
Lemma stp_expr : forall x g o t g', gen_expr x g = Ok (o, t, g') -> stp [] g g'.
Proof.
  intro x. induction x as [t k ty c|t v ty|t k args ty F|u r ty c IH|b l r ty c IHl IHr] using texpr_ind'; intros g o t' g' E; cbn [Model_LLVM.gen_expr] in E.
  - unfold gen_identifier in E. do 2 step1 E. destruct (_ || _); [two E|]; inversion E; subst; [exact (stp_reg _ _ _ _ Q)|apply stp_refl].
  - unfold gen_const in E. destruct ty; try discriminate; destruct v; try discriminate; inversion E; subst; apply stp_refl.
  - step1 E. step1 E. destruct a0 as (os, g1). destruct (lookup _ _); [|discriminate]. two E. inversion E; subst.
    apply (stp_trans0 _ _ g1); [exact (stp_args _ _ F _ _ _ _ E0)|exact (stp_reg _ _ _ _ Q)].
  - assert (UV : u = UNeg \/ u = UNot \/ (exists t k ty c, r = XVar t k ty c /\ (u = URef \/ u = UDeref))).
    { destruct u; auto; destruct r; try discriminate; right; right; eexists _, _, _, _; split; auto. }
    destruct UV as [->|[->|(t1 & k1 & ty1 & c1 & -> & [->| ->])]].
    + step1 E. destruct a as ((o1, t1), g1). apply (stp_trans0 _ _ g1); [exact (IH _ _ _ _ E1)|exact (stp_math _ _ _ _ _ _ _ _ _ E)].
    + step1 E. destruct a as ((o1, t1), g1). apply (stp_trans0 _ _ g1); [exact (IH _ _ _ _ E1)|]. unfold gen_not, build_not in E. two E. inversion E; subst. exact (stp_build _ _ _ _ _ _ Q).
    + unfold gen_ref in E. do 2 step1 E. inversion E; subst. apply stp_refl.
    + unfold gen_deref in E. do 2 step1 E. destruct (v_type a); try discriminate. two E. two E. inversion E; subst.
      exact (stp_trans0 _ _ _ _ (stp_reg _ _ _ _ Q) (stp_reg _ _ _ _ Q0)).
  - step1 E. destruct a as ((o1, t1), g1). step1 E. destruct a as ((o2, t2), g2).
    exact (stp_trans0 _ _ _ _ (IHl _ _ _ _ E1) (stp_trans0 _ _ _ _ (IHr _ _ _ _ E0) (stp_binary _ _ _ _ _ _ _ _ E))).
Qed.

Lemma stp_assign_value : forall o k g g', assign_value_to_var H ys o k g = Ok g' -> stp [] g g'.
Proof.
  intros o k g g' E. unfold assign_value_to_var in E. step1 E. destruct (_ && _).
  - inversion E; subst. now apply stp_same.
  - step1 E. inversion E; subst. apply stp_emit.
Qed.
Lemma stp_globs : forall g k l, stp [ActVar k] g (set_globs H g k l).
Proof.
  intros g k l. split; [constructor; cbn [set_globs g_func g_blocks]; [reflexivity|lia|]|cbn [set_globs g_log]; now rewrite decls_app].
  intros (C & L). split; cbn [set_globs g_cur g_blocks g_log]; [exact C|]. intro f. rewrite in_app_iff, <- L. cbn. intuition discriminate.
Qed.
Lemma stp_fun : forall g k b, stp [ActFun k (match b with Some _ => true | None => false end)] g (set_fun H g k b).
Proof.
  intros g k b. split; [constructor; cbn [set_fun g_func g_blocks]; [reflexivity|lia|]|cbn [set_fun g_log]; now rewrite decls_app].
  intros (C & L). split; cbn [set_fun g_cur g_blocks g_log]; [exact C|]. intro f. rewrite in_app_iff, <- L. cbn. intuition discriminate.
Qed.

(** What is added to the module for a declaration; never a call. *)
Definition act_of (k : nat) : act :=
  match nth_error ys k with
  | Some y => match y_kind y with KFunc f => ActFun k (negb (f_external f)) | KVar _ => ActVar k | _ => ActCall CIntPow end
  | None => ActCall CIntPow
  end.
Definition main_of (g : gst) : bool := match g_func H g with None => true | Some _ => false end.
Lemma sym_var_act : forall k v, sym_var ys k = Ok v -> act_of k = ActVar k.
Proof.
  intros k v E. unfold sym_var, deref, act_of in *. destruct (nth_error ys k) as [y|]; [|discriminate]. cbn [bind] in E.
  destruct (y_kind y); try discriminate. reflexivity.
Qed.
Lemma sym_func_act : forall k f, sym_func ys k = Ok f -> act_of k = ActFun k (negb (f_external f)) /\ external ys k = f_external f.
Proof.
  intros k f E. unfold sym_func, deref, act_of, external in *. destruct (nth_error ys k) as [y|]; [|discriminate]. cbn [bind] in E.
  destruct (y_kind y); try discriminate. inversion E; subst. auto.
Qed.

Lemma stp_var_def : forall k e g g', gen_var_def H fold ys k e g = Ok g' -> stp (map act_of (if main_of g then [k] else [])) g g'.
Proof.
  intros k e g g' E. unfold gen_var_def in E. step1 E. destruct a as ((o, t), g1). apply stp_expr in E1. apply (stp_trans0 _ _ g1); [exact E1|].
  unfold main_of. rewrite <- (stp_func _ _ _ E1). unfold setup_var_llvm in E. step1 E. destruct (g_func H g1) eqn:GF; cbn [map].
  - destruct (v_const a); [inversion E; subst; now apply stp_same|]. destruct (v_type a) eqn:TV; try discriminate;
      two E; apply (stp_trans0 _ _ _ _ (stp_reg _ _ _ _ Q)); refine (stp_trans0 _ _ _ _ _ (stp_assign_value _ _ _ _ E)); now apply stp_same.
  - rewrite (sym_var_act _ _ E0). step1 E. cbv zeta in E.
    refine (stp_trans1 _ _ (set_globs H g1 k (g_glob H g1 ++ [if is_constant H o then constant_value H o else a0])) _ (stp_globs _ _ _) _).
    destruct (is_constant H o).
    + inversion E; subst. now apply stp_same.
    + refine (stp_trans0 _ _ _ _ _ (stp_assign_value _ _ _ _ E)). now apply stp_same.
Qed.
Lemma stp_var_assign : forall k e g g', gen_var_assign H fold ys k e g = Ok g' -> stp [] g g'.
Proof.
  intros k e g g' E. unfold gen_var_assign in E. step1 E. destruct a as ((o, t), g1).
  exact (stp_trans0 _ _ _ _ (stp_expr _ _ _ _ _ E1) (stp_assign_value _ _ _ _ E)).
Qed.
Lemma stp_noop : forall g, stp [] g (gen_noop H debug g).
Proof.
  intro g. unfold gen_noop. destruct debug; [|apply stp_refl]. destruct (emit_reg _ _ _) as (p, g1) eqn:E.
  exact (stp_trans0 _ _ _ _ (stp_reg _ _ _ _ E) (stp_emit _ _)).
Qed.
Lemma stp_condition : forall p y n g g', gen_condition H fold ys p y n g = Ok g' -> stp [] g g'.
Proof.
  intros p y n g g' E. unfold gen_condition in E. destruct p; try discriminate. step1 E. destruct a as ((o, t), g1). inversion E; subst.
  exact (stp_trans0 _ _ _ _ (stp_expr _ _ _ _ _ E1) (stp_emit _ _)).
Qed.
Lemma stp_branch_to : forall b r, stp [] (fst r) (branch_to H b r).
Proof. intros b (g, [f|]); cbn; [apply stp_refl|apply stp_emit]. Qed.
Lemma stp_params : forall ps i g, stp [] g (gen_params H i ps g).
Proof. intro ps. induction ps as [|k r IH]; intros i g; cbn [gen_params]; [apply stp_refl|]. refine (stp_trans0 _ _ _ _ _ (IH _ _)). now apply stp_same. Qed.
Lemma stp_debug_params : forall ps g g', debug_params H ys ps g = Ok g' -> stp [] g g'.
Proof.
  intro ps. induction ps as [|k r IH]; intros g g' E; cbn [debug_params] in E; [inversion E; subst; apply stp_refl|].
  do 2 step1 E. two E. apply (stp_trans0 _ _ _ _ (stp_reg _ _ _ _ Q)). refine (stp_trans0 _ _ _ _ _ (IH _ _ E)).
  eapply stp_trans0; [apply stp_emit|now apply stp_same].
Qed.
(** Moving the builder. *)
Lemma stp_position : forall ds g g' b, stp ds g g' -> b < List.length (g_blocks H g') -> stp ds g (position H g' b).
Proof.
  intros ds g g' b ([F L W] & D) B. split; [|exact D]. constructor; cbn [position g_func g_blocks]; auto.
  intro X. apply wf_position; auto.
Qed.
Lemma stp_from : forall ds g g' b, stp ds (position H g b) g' -> b < List.length (g_blocks H g) -> stp ds g g'.
Proof.
  intros ds g g' b ([F L W] & D) B. split; [|exact D]. constructor; auto. intro X. apply W. now apply wf_position.
Qed.
(** Blocks of statements. *)
Lemma declares_eq : forall b n, declares ys b n =
  match tn_type n, tn_pay n with
  | N_VAR_DEF, XDef k _ => if b then [k] else []
  | N_FUNCTION_PROTO, XProto k _ => k :: (if external ys k then [] else in_block (declares ys false) (tn_child n))
  | (N_IF | N_ELIF | N_ELSE | N_WHILE | N_NAMESPACE), _ => in_block (declares ys b) (tn_child n)
  | _, _ => []
  end.
Proof. intros b [t k p c]. reflexivity. Qed.
Definition block (b : bool) (l : list tnode) : list act := map act_of (in_block (declares ys b) l).
Definition body_ok (n : tnode) : Prop := forall g g' fl, wf g -> gen_body n g = Ok (g', fl) -> stp (block (main_of g) (tn_child n)) g g'.

Lemma stp_main : forall d a b, stp d a b -> main_of b = main_of a.
Proof. intros d a b S. unfold main_of. now rewrite (stp_func _ _ _ S). Qed.

Lemma stp_while : forall n p g g', body_ok n -> wf g -> gen_while H fold ys (gen_body n) p g = Ok g' -> stp (block (main_of g) (tn_child n)) g g'.
Proof.
  intros n p g g' B WF E. unfold gen_while in E.
  destruct (new_block H g) as (c, g1) eqn:E1. destruct (new_block H g1) as (b, g2) eqn:E2. destruct (new_block H g2) as (e, g3) eqn:E3.
  apply stp_block in E1 as (S1 & -> & L1). apply stp_block in E2 as (S2 & -> & L2). apply stp_block in E3 as (S3 & -> & L3).
  step1 E. rename a into g4. step1 E. destruct a as (g5, fl). assert (X := E). inversion X; subst g'. clear X E.
  pose proof (stp_condition _ _ _ _ _ E1) as S4.
  set (g3' := emit (set_loop H g3 (Some (Datatypes.length (g_blocks H g))) (Some (Datatypes.length (g_blocks H g2)))) (IBr (Datatypes.length (g_blocks H g)))) in *.
  assert (T3 : stp [] g g3').
  { apply (stp_trans0 _ _ _ _ S1), (stp_trans0 _ _ _ _ S2), (stp_trans0 _ _ _ _ S3). refine (stp_trans0 _ g3 _ _ _ (stp_emit _ _)). now apply stp_same. }
  assert (LG : List.length (g_blocks H g3') = List.length (g_blocks H g3)) by (unfold g3'; cbn [Model_LLVM.emit g_blocks set_loop]; apply upd_length).
  assert (T4 : stp [] g g4). { apply (stp_trans0 _ _ _ _ T3). apply (stp_from _ _ _ _ S4). rewrite LG. lia. }
  pose proof (stp_len _ _ _ S4) as LN4. cbn [position g_blocks] in LN4. rewrite LG in LN4.
  assert (W4 : wf (position H g4 (Datatypes.length (g_blocks H g1)))). { apply wf_position; [exact (stp_wf _ _ _ T4 WF)|lia]. }
  pose proof (B _ _ _ W4 E0) as S5. pose proof (stp_len _ _ _ S5) as LN5. cbn [position g_blocks] in LN5.
  assert (ME : main_of (position H g4 (Datatypes.length (g_blocks H g1))) = main_of g). { rewrite <- (stp_main _ _ _ T4). reflexivity. }
  rewrite ME in S5. apply stp_from in S5; [|lia].
  assert (T5 : stp (block (main_of g) (tn_child n)) g (branch_to H (Datatypes.length (g_blocks H g)) (g5, fl))).
  { apply (stp_trans0 _ _ _ _ T4). apply (stp_trans1 _ _ _ _ S5). apply (stp_branch_to _ (g5, fl)). }
  pose proof (stp_len _ _ _ (stp_branch_to (Datatypes.length (g_blocks H g)) (g5, fl))) as LB. cbn [fst] in LB.
  refine (stp_trans1 _ _ (position H (branch_to H (Datatypes.length (g_blocks H g)) (g5, fl)) (Datatypes.length (g_blocks H g2))) _ _ _); [|now apply stp_same].
  apply stp_position; [exact T5|lia].
Qed.

Lemma stp_branch : forall n p fo entry last g f g', body_ok n -> wf g -> entry < List.length (g_blocks H g) -> last < List.length (g_blocks H g) ->
  gen_branch H fold ys (gen_body n) p fo entry last g = Ok (f, g') ->
  stp (block (main_of g) (tn_child n)) g g' /\ f < List.length (g_blocks H g').
Proof.
  intros n p fo entry last g f g' B WF EN LA E. unfold gen_branch in E. destruct (new_block H g) as (t, g1) eqn:E1.
  apply stp_block in E1 as (S1 & -> & L1). step1 E. destruct a as (g2, fl).
  assert (W1 : wf (position H g1 (Datatypes.length (g_blocks H g)))). { apply wf_position; [exact (stp_wf _ _ _ S1 WF)|lia]. }
  pose proof (B _ _ _ W1 E1) as S2. assert (ME : main_of (position H g1 (Datatypes.length (g_blocks H g))) = main_of g) by (rewrite <- (stp_main _ _ _ S1); reflexivity).
  rewrite ME in S2. pose proof (stp_len _ _ _ S2) as LN2. cbn [position g_blocks] in LN2. apply stp_from in S2; [|lia].
  pose proof (stp_branch_to last (g2, fl)) as S3. cbn [fst] in S3. pose proof (stp_len _ _ _ S3) as LN3.
  set (g3 := branch_to H last (g2, fl)) in *.
  assert (T3 : stp (block (main_of g) (tn_child n)) g (position H g3 entry)).
  { apply stp_position; [|lia]. exact (stp_trans0 _ _ _ _ S1 (stp_trans1 _ _ _ _ S2 S3)). }
  assert (T4 : exists f4 g4, (if fo then new_block H (position H g3 entry) else (last, position H g3 entry)) = (f4, g4) /\
     stp [] (position H g3 entry) g4 /\ f4 < List.length (g_blocks H g4)).
  { destruct fo.
    - destruct (new_block H (position H g3 entry)) as (f4, g4) eqn:E4. exists f4, g4. split; [reflexivity|]. apply stp_block in E4 as (S4 & -> & L4). split; [exact S4|]. lia.
    - exists last, (position H g3 entry). split; [reflexivity|]. split; [apply stp_refl|]. cbn [position g_blocks]. lia. }
  destruct T4 as (f4 & g4 & E4 & S4 & F4). rewrite E4 in E. step1 E. apply stp_condition in E0. inversion E; subst.
  split; [exact (stp_trans1 _ _ _ _ T3 (stp_trans0 _ _ _ _ S4 E0))|]. pose proof (stp_len _ _ _ E0). lia.
Qed.

Lemma stp_func_decl : forall n k ps g g', body_ok n -> wf g -> gen_func_decl H ys debug (gen_body n) k ps g = Ok g' ->
  stp (map act_of (k :: (if external ys k then [] else in_block (declares ys false) (tn_child n)))) g g'.
Proof.
  intros n k ps g g' B WF E. assert (CU := proj1 WF). unfold gen_func_decl in E. step1 E. destruct (sym_func_act _ _ E1) as (A & X). rewrite X. cbn [map]. rewrite A.
  destruct (existsb _ _); [discriminate|]. destruct (f_external a).
  - inversion E; subst. apply stp_fun.
  - destruct (new_block H g) as (b, g1) eqn:E2. apply stp_block in E2 as (S1 & -> & L1). cbv zeta in E.
    step1 E. rename a0 into g2. step1 E. destruct a0 as (g3, fl). inversion E; subst g'. clear E.
    set (h := set_func H (position H (gen_params H 0 ps (set_fun H g1 k (Some (Datatypes.length (g_blocks H g))))) (Datatypes.length (g_blocks H g))) (Some k)) in *.
    assert (SP : stp [ActFun k true] g (gen_params H 0 ps (set_fun H g1 k (Some (Datatypes.length (g_blocks H g)))))).
    { apply (stp_trans0 _ _ _ _ S1). exact (stp_trans1 _ _ _ _ (stp_fun g1 k (Some _)) (stp_params _ _ _)). }
    assert (LP := stp_len _ _ _ (stp_params ps 0 (set_fun H g1 k (Some (Datatypes.length (g_blocks H g)))))). cbn [set_fun g_blocks] in LP.
    assert (SD : stp [] h g2). { unfold func_debug_info in E0. destruct debug; [exact (stp_debug_params _ _ _ E0)|inversion E0; subst; apply stp_refl]. }
    assert (WH : wf h). { apply (stp_wf _ _ _ SP) in WF. apply (wf_position _ (Datatypes.length (g_blocks H g))) in WF; [|lia]. exact WF. }
    pose proof (B _ _ _ (stp_wf _ _ _ SD WH) E2) as S3. assert (M2 : main_of g2 = false). { rewrite (stp_main _ _ _ SD). reflexivity. } rewrite M2 in S3.
    pose proof (stp_trans0 _ _ _ _ SD S3) as S4. destruct SP as ([GF GL GW] & GD). destruct S4 as ([HF HL HW] & HD).
    assert (ST : forall q, g_blocks H q = g_blocks H g3 -> g_log H q = g_log H g3 -> g_cur H q = g_cur H g3 -> g_func H q = g_func H g ->
      stp (ActFun k true :: map act_of (in_block (declares ys false) (tn_child n))) g q).
    { intros q Q1 Q2 Q3 Q4. split; [constructor|].
      - exact Q4.
      - rewrite Q1. unfold h in HL. cbn [set_func position g_blocks] in HL. lia.
      - intros _. assert (W := HW WH). destruct W as (W1 & W2). split; [now rewrite Q1, Q3|]. intro f. now rewrite Q1, Q2.
      - rewrite Q2, HD. unfold h. cbn [set_func position g_log]. rewrite GD. fold (block false (tn_child n)). now rewrite <- app_assoc. }
    unfold end_func. destruct (_ && _); apply stp_position.
    + refine (stp_trans1 _ _ _ _ _ (stp_emit _ _)). now apply ST.
    + cbn [Model_LLVM.emit g_blocks set_func]. rewrite upd_length. unfold h in HL. cbn [set_func position g_blocks] in HL. lia.
    + now apply ST.
    + cbn [g_blocks set_func]. unfold h in HL. cbn [set_func position g_blocks] in HL. lia.
Qed.

Definition inside (m : mode) (g : gst) : Prop :=
  match m with Statement => True | Branch e l => e < List.length (g_blocks H g) /\ l < List.length (g_blocks H g) end.
Lemma block_cons : forall b n r, block b (n :: r) = map act_of (declares ys b n) ++ (if last_in_block n then [] else block b r).
Proof. intros b n r. unfold block. cbn [in_block]. rewrite map_app. now destruct (last_in_block n). Qed.

Lemma stp_list : forall l, Forall body_ok l -> forall m g g' fl, wf g -> inside m g ->
  gen_list gen_body m l g = Ok (g', fl) -> stp (block (main_of g) l) g g'.
Proof.
  intros l F. induction F as [|n l Fn F IH]; intros m g g' fl WF IN E.
  - cbn in E. destruct m; [|discriminate]. inversion E; subst. apply stp_refl.
  - rewrite block_cons.
    assert (K : forall m1 g1 d, map act_of (declares ys (main_of g) n) = d -> last_in_block n = false -> stp d g g1 -> inside m1 g1 ->
      gen_list gen_body m1 l g1 = Ok (g', fl) -> stp (map act_of (declares ys (main_of g) n) ++ (if last_in_block n then [] else block (main_of g) l)) g g').
    { intros m1 g1 d <- LB S I1 E1. rewrite LB. apply (stp_trans _ _ _ _ _ S). rewrite <- (stp_main _ _ _ S). exact (IH _ _ _ _ (stp_wf _ _ _ S WF) I1 E1). }
    assert (Q : forall d, map act_of (declares ys (main_of g) n) = d -> last_in_block n = true -> stp d g g' ->
      stp (map act_of (declares ys (main_of g) n) ++ (if last_in_block n then [] else block (main_of g) l)) g g').
    { intros d <- LB S. rewrite LB. now rewrite app_nil_r. }
    assert (C : forall entry last g0, declares ys (main_of g) n = in_block (declares ys (main_of g)) (tn_child n) -> last_in_block n = false -> stp [] g g0 ->
      entry < List.length (g_blocks H g0) -> last < List.length (g_blocks H g0) ->
      (do (f, g) <- gen_branch H fold ys (gen_body n) (tn_pay n) (branch_follows l) entry last g0;
       if branch_follows l then gen_list gen_body (Branch f last) l g else gen_list gen_body Statement l (position H g last)) = Ok (g', fl) ->
      stp (map act_of (declares ys (main_of g) n) ++ (if last_in_block n then [] else block (main_of g) l)) g g').
    { intros entry last g0 DE LB S0 L1 L2 E0. step1 E0. destruct a as (f, g1).
      destruct (stp_branch _ _ _ _ _ _ _ _ Fn (stp_wf _ _ _ S0 WF) L1 L2 E1) as (S1 & F1). rewrite (stp_main _ _ _ S0) in S1. pose proof (stp_len _ _ _ S1) as LN.
      assert (DB : map act_of (declares ys (main_of g) n) = block (main_of g) (tn_child n)) by now rewrite DE.
      pose proof (stp_trans0 _ _ _ _ S0 S1) as S2. destruct (branch_follows l).
      - apply (K (Branch f last) g1 _ DB LB S2); [split; lia|exact E0].
      - refine (K Statement (position H g1 last) _ DB LB _ I E0). apply stp_position; [exact S2|lia]. }
    rewrite declares_eq in *. cbn [Model_LLVM.gen_list] in E. fold gen_list in E. unfold last_in_block in *.
    destruct m as [|entry last].
    + destruct (tn_type n) eqn:TN; try discriminate E.
      * destruct (tn_pay n) eqn:PN; try discriminate E.
        -- exact (K Statement g [] eq_refl eq_refl (stp_refl _) I E).
        -- step1 E. apply stp_var_def in E1. exact (K Statement _ _ eq_refl eq_refl E1 I E).
      * destruct (tn_pay n) eqn:PN; try discriminate E. step1 E. apply stp_var_assign in E1. exact (K Statement _ [] eq_refl eq_refl E1 I E).
      * destruct (tn_pay n) eqn:PN; try discriminate E. step1 E. apply (stp_func_decl _ _ _ _ _ Fn WF) in E1. exact (K Statement _ _ eq_refl eq_refl E1 I E).
      * destruct (tn_pay n) as [| |k1 y1|k1 y1|g1 ps|y1|k1] eqn:PN; try discriminate E. destruct y1 as [| |t1 k1 a1 ty1| |]; try discriminate E. step1 E. destruct a as ((o, t'), g2). apply stp_expr in E1. exact (K Statement _ [] eq_refl eq_refl E1 I E).
      * apply (Q [] eq_refl eq_refl). unfold gen_return in E. destruct (tn_pay n); try discriminate E.
        -- inversion E; subst. apply stp_emit.
        -- step1 E. destruct a as ((o, t'), g1). apply stp_expr in E1. inversion E; subst. exact (stp_trans0 _ _ _ _ E1 (stp_emit _ _)).
      * apply (Q [] eq_refl eq_refl). inversion E; subst. apply stp_emit.
      * destruct (new_block H g) as (last, g0) eqn:E0. apply stp_block in E0 as (S0 & -> & L0). assert (CU := proj1 WF).
        refine (C (g_cur H g) _ g0 eq_refl eq_refl S0 _ _ E); lia.
      * step1 E. apply (stp_while _ _ _ _ Fn WF) in E1. exact (K Statement _ _ eq_refl eq_refl E1 I E).
      * exact (K Statement g [] eq_refl eq_refl (stp_refl _) I E).
      * step1 E. destruct a as (g1, fl1). pose proof (Fn _ _ _ WF E1) as S1. exact (K Statement _ _ eq_refl eq_refl S1 I E).
      * exact (K Statement g [] eq_refl eq_refl (stp_refl _) I E).
      * exact (K Statement _ [] eq_refl eq_refl (stp_noop _) I E).
      * apply (Q [] eq_refl eq_refl). unfold gen_jump in E. destruct (g_end H g); [|discriminate]. inversion E; subst. apply stp_emit.
      * apply (Q [] eq_refl eq_refl). unfold gen_jump in E. destruct (g_cond H g); [|discriminate]. inversion E; subst. apply stp_emit.
    + destruct IN as (I1 & I2). destruct (tn_type n) eqn:TN; try discriminate E.
      * exact (C entry last g eq_refl eq_refl (stp_refl _) I1 I2 E).
      * step1 E. destruct a as (g1, fl1). pose proof (Fn _ _ _ (wf_position _ _ WF I1) E1) as S1. pose proof (stp_len _ _ _ S1) as LN. cbn [position g_blocks] in LN.
        apply stp_from in S1; [|exact I1]. pose proof (stp_branch_to last (g1, fl1)) as S2. cbn [fst] in S2. pose proof (stp_len _ _ _ S2) as LN2.
        refine (K Statement _ (block (main_of g) (tn_child n)) eq_refl eq_refl _ I E). apply stp_position; [exact (stp_trans1 _ _ _ _ S1 S2)|lia].
      * exact (K (Branch entry last) g [] eq_refl eq_refl (stp_refl _) (conj I1 I2) E).
Qed.

Lemma bodies_ok : forall n, body_ok n.
Proof.
  intro n. induction n as [ty tok p c IH] using tnode_ind'. intros g g' fl W E. cbn [Model_LLVM.gen_body] in E. exact (stp_list _ IH Statement _ _ _ W I E).
Qed.

(** What a generated module has. *)
Lemma tree_adds : forall l g fl, gen_tree H fold ys debug l (setup_llvm_state H) = Ok (g, fl) ->
  decls (g_log H g) = map act_of (declared ys l) /\ forall f, In (ActCall f) (g_log H g) <-> called (g_blocks H g) f.
Proof.
  intros l g fl E. assert (W : wf (setup_llvm_state H)).
  { split; [cbn; lia|]. intro f. split; [intros []|]. intros (c & r & a & [<-|[]] & J). exact J. }
  apply stp_list in E; [|apply Forall_forall; intros n _; apply bodies_ok|exact W|exact I].
  pose proof (stp_wf _ _ _ E W) as (_ & L). destruct E as (_ & D). split; [exact D|exact L].
Qed.
End Gen.

(** The same for the symbols of debug builds. *)
Lemma debug_external : forall ys debug l k, external (debug_syms ys debug l) k = external ys k.
Proof. intros. exact (syms_external ys debug l k). Qed.
Lemma debug_act : forall ys debug l k, act_of (debug_syms ys debug l) k = act_of ys k.
Proof.
  intros ys debug l k. unfold act_of. rewrite syms_nth. destruct (loose ys debug l k); [|reflexivity]. destruct (nth_error ys k) as [[n c [v|f|t|s]]|]; reflexivity.
Qed.
Lemma in_block_ext : forall f f' l, Forall (fun n => f n = f' n) l -> in_block f l = in_block f' l.
Proof. intros f f' l F. induction F as [|n l E F IH]; [reflexivity|]. cbn [in_block]. now rewrite E, IH. Qed.
Lemma declares_ext : forall ys ys', (forall k, external ys k = external ys' k) -> forall n b, declares ys b n = declares ys' b n.
Proof.
  intros ys ys' X n. induction n as [ty tok p c IH] using tnode_ind'. intro b.
  assert (R : forall b, in_block (declares ys b) c = in_block (declares ys' b) c).
  { intro b'. apply in_block_ext. eapply Forall_impl; [|exact IH]. intros a A. apply A. }
  rewrite !declares_eq. cbn [tn_type tn_pay tn_child]. destruct ty; auto. destruct p; auto. now rewrite X, R.
Qed.

Lemma module_adds : forall H fold ys debug l M log, gen_module H fold ys debug l = Ok M -> gen_log H fold ys debug l = Ok log ->
  decls log = map (act_of ys) (declared ys l) /\ forall f, In (ActCall f) log <-> Spec_Link.calls M f.
Proof.
  intros H fold ys debug l M log G L. unfold gen_module in G. unfold gen_log in L. destruct (gen_tree _ _ _ _ _ _) as [(g, fl)|] eqn:E; [|discriminate].
  cbn [bind] in G, L. inversion L; subst log. clear L. apply tree_adds in E as (D & C). split.
  - rewrite D. unfold declared. rewrite (in_block_ext _ (declares ys true)); [apply map_ext; intro; apply debug_act|].
    apply Forall_forall. intros n _. apply declares_ext. intro k. apply debug_external.
  - intro f. rewrite C. inversion G; subst M. unfold Spec_Link.calls, called. cbn [m_blocks]. destruct fl; [reflexivity|]. cbn [Model_LLVM.emit g_blocks].
    destruct (le_lt_dec (List.length (g_blocks H g)) (g_cur H g)) as [Q|Q].
    + rewrite upd_past by exact Q. reflexivity.
    + split; intro X.
      * apply (proj2 (called_upd H _ _ _ _ Q)). now left.
      * apply (proj1 (called_upd H _ _ _ _ Q)) in X as [X|(r & a & X)]; [exact X|discriminate].
Qed.
