(** The generator of LLVM code as a relation, and how its state grows. *)
From Coq Require Import List Arith NArith ZArith Bool Lia.
From Verif Require Import Base Model_Literal Model_Parse Model_Sem Spec_Sem Spec_Sem2 Spec_Run Model_Helpers Spec_IR Model_LLVM Spec_LLVM.
Import ListNotations.
Open Scope list_scope.
Open Scope nat_scope.

Lemma bind_ok : forall A B (r : res A) (f : A -> res B) b, bind r f = Ok b -> exists a, r = Ok a /\ f a = Ok b.
Proof. intros A B [a|] f b E; [eauto|discriminate E]. Qed.

Lemma upd_length : forall A (l : list A) i f, List.length (upd l i f) = List.length l.
Proof. induction l as [|x l IH]; intros [|i] f; cbn; auto. Qed.
Lemma nth_upd : forall A (l : list A) i f j d, nth j (upd l i f) d = if j =? i then (if j <? List.length l then f (nth j l d) else d) else nth j l d.
Proof.
  induction l as [|x l IH]; intros i f j d.
  - replace (upd (@nil A) i f) with (@nil A) by now destruct i. destruct (j =? i); destruct j; reflexivity.
  - destruct i as [|i], j as [|j]; try reflexivity. cbn [upd nth]. rewrite IH. reflexivity.
Qed.
Lemma nth_error_upd : forall A (l : list A) i f j, nth_error (upd l i f) j = if j =? i then option_map f (nth_error l j) else nth_error l j.
Proof.
  induction l as [|x l IH]; intros [|i] f [|j]; cbn; auto.
  destruct (j =? i); reflexivity.
Qed.

Section Gen.
Variable H : host.
Variable fold : iop -> operand H -> operand H -> option (operand H).
Variable ys : list symbol.
Variable debug : bool.
Local Notation gst := (gst H).
Local Notation sym_var := (sym_var ys).
Local Notation sym_func := (sym_func ys).
Local Notation gen_expr := (gen_expr H fold ys).

(** * Typed expressions *)

Definition const (k : nat) : bool := match sym_var k with Ok v => v_const v | UB => true end.
Fixpoint typed (x : texpr) : Prop :=
  match x with
  | XVar _ k t _ => exists v, sym_var k = Ok v /\ v_type v = t
  | XConst _ _ _ => True
  | XCall _ k args t => (exists f, sym_func k = Ok f /\ f_ret f = t /\ N.to_nat (f_num f) = List.length args) /\
      fold_right (fun a P => typed a /\ P) True args
  | XUn o r t _ => typed r /\ match o with UNeg => is_number (x_ty r) /\ t = x_ty r | UNot => x_ty r = TBool /\ t = TBool | _ => False end
  | XBin o l r t _ => typed l /\ typed r /\ x_ty l = x_ty r /\ oper_type o (x_ty r) t
  end.

(** * Growing states *)

(** From g to g' only the blocks in T and new ones get more code, and the builder ends in
    one of these. Nothing that is known in g is forgotten. *)
Record grow (T : nat -> Prop) (g g' : gst) : Prop := mkgrow {
  gr_len : List.length (g_blocks H g) <= List.length (g_blocks H g');
  gr_more : forall b, b < List.length (g_blocks H g) -> exists c, nth b (g_blocks H g') [] = nth b (g_blocks H g) [] ++ c;
  gr_same : forall b, b < List.length (g_blocks H g) -> ~ T b -> nth b (g_blocks H g') [] = nth b (g_blocks H g) [];
  gr_cur : T (g_cur H g') \/ List.length (g_blocks H g) <= g_cur H g';
  gr_ok : (forall b, T b -> b < List.length (g_blocks H g)) -> g_cur H g' < List.length (g_blocks H g');
  gr_reg : g_reg H g <= g_reg H g';
  gr_glob : exists l, g_glob H g' = g_glob H g ++ l;
  gr_refs : forall k r, lookup (g_refs H g) k = Some r -> lookup (g_refs H g') k = Some r;
  gr_funs : forall k b, lookup (g_funs H g) k = Some b -> lookup (g_funs H g') k = Some b;
  gr_func : g_func H g' = g_func H g }.

Lemma grow_trans : forall T U g g1 g2, grow T g g1 -> grow U g1 g2 ->
  (forall b, U b -> b < List.length (g_blocks H g1)) -> (forall b, U b -> T b \/ List.length (g_blocks H g) <= b) -> grow T g g2.
Proof.
  intros T U g g1 g2 A B UO UT. destruct A as [A1 A2 A3 A4 A5 A6 A7 A8 A9 A10], B as [B1 B2 B3 B4 B5 B6 B7 B8 B9 B10]. constructor.
  - lia.
  - intros b L. destruct (A2 b L) as (c & E). destruct (B2 b) as (d & F); [lia|]. exists (c ++ d). now rewrite F, E, app_assoc.
  - intros b L NT. rewrite B3, A3; auto; [lia|]. intro X. destruct (UT b X); [contradiction|lia].
  - destruct B4 as [X|X]; [|right; lia]. destruct (UT _ X); auto.
  - intros TO. apply B5, UO.
  - lia.
  - destruct A7 as (l & E), B7 as (l' & E'). exists (l ++ l'). now rewrite E', E, app_assoc.
  - auto.
  - auto.
  - congruence.
Qed.
Lemma grow_weaken : forall (T U : nat -> Prop) g g', grow T g g' -> (forall b, T b -> U b) -> (forall b, T b -> b < List.length (g_blocks H g)) -> grow U g g'.
Proof.
  intros T U g g' [A1 A2 A3 A4 A5 A6 A7 A8 A9 A10] S TO. constructor; auto.
  destruct A4; auto.
Qed.

(** Straight code: only in the current block. *)
Definition here (g : gst) (b : nat) : Prop := b = g_cur H g.
Definition in_range (g : gst) : Prop := g_cur H g < List.length (g_blocks H g).

Lemma grow_refl : forall g, grow (here g) g g.
Proof.
  intro g. constructor; auto; try lia.
  - intros b L. exists []. now rewrite app_nil_r.
  - now left.
  - intro O. apply O. reflexivity.
  - exists []. now rewrite app_nil_r.
Qed.

(** One instruction. *)
Lemma grow_emit : forall g i, grow (here g) g (emit H g i).
Proof.
  intros g i. constructor; cbn [emit set_blocks g_blocks g_cur g_reg g_glob g_refs g_funs g_func]; auto; try (rewrite ?upd_length; lia).
  - intros b L. rewrite nth_upd. destruct (b =? g_cur H g) eqn:E; [|exists []; now rewrite app_nil_r].
    destruct (b <? List.length (g_blocks H g)) eqn:F; [eauto|apply Nat.ltb_ge in F; lia].
  - intros b L N. rewrite nth_upd. destruct (b =? g_cur H g) eqn:E; [|reflexivity]. apply Nat.eqb_eq in E. contradiction.
  - now left.
  - intro O. rewrite upd_length. apply O. reflexivity.
  - exists []. now rewrite app_nil_r.
Qed.
Lemma grow_next : forall g r, g_reg H g <= r -> grow (here g) g (set_next H g r).
Proof.
  intros g r L. constructor; cbn [set_next g_blocks g_cur g_reg g_glob g_refs g_funs g_func]; auto.
  - intros b _. exists []. now rewrite app_nil_r.
  - now left.
  - intro O. apply O. reflexivity.
  - exists []. now rewrite app_nil_r.
Qed.

(** What stays as it is in straight code. *)
Record same (g g' : gst) : Prop := mksame {
  sm_cur : g_cur H g' = g_cur H g;
  sm_len : List.length (g_blocks H g') = List.length (g_blocks H g);
  sm_refs : g_refs H g' = g_refs H g;
  sm_glob : g_glob H g' = g_glob H g;
  sm_funs : g_funs H g' = g_funs H g;
  sm_cond : g_cond H g' = g_cond H g;
  sm_end : g_end H g' = g_end H g;
  sm_grow : grow (here g) g g' }.
Lemma same_refl : forall g, same g g.
Proof. intro g. constructor; auto. apply grow_refl. Qed.
Lemma same_trans : forall g g1 g2, in_range g -> same g g1 -> same g1 g2 -> same g g2.
Proof.
  intros g g1 g2 R [A1 A2 A3 A4 A5 A6 A7 A8] [B1 B2 B3 B4 B5 B6 B7 B8]. constructor; try congruence.
  apply (grow_trans _ _ _ _ _ A8 B8).
  - intros b E. unfold here, in_range in *. subst b. rewrite A1, A2. exact R.
  - intros b E. unfold here in *. left. congruence.
Qed.
Lemma same_range : forall g g', same g g' -> in_range g -> in_range g'.
Proof. intros g g' S R. unfold in_range in *. rewrite (sm_cur _ _ S), (sm_len _ _ S). exact R. Qed.
Lemma same_emit : forall g i, same g (emit H g i).
Proof. intros g i. constructor; try reflexivity; [cbn [emit set_blocks g_blocks]; apply upd_length|apply grow_emit]. Qed.
Lemma same_next : forall g r, g_reg H g <= r -> same g (set_next H g r).
Proof. intros g r L. constructor; try reflexivity. now apply grow_next. Qed.
Lemma same_emit_reg : forall g i, in_range g -> same g (snd (emit_reg H g i)).
Proof.
  intros g i R. cbn [emit_reg snd]. apply same_trans with (set_next H g (S (g_reg H g))); [exact R|apply same_next; lia|apply same_emit].
Qed.
Lemma same_build : forall o a b g c g', in_range g -> build H fold o a b g = (c, g') -> same g g'.
Proof.
  intros o a b g c g' R E. unfold build in E. destruct (fold o a b); [inversion E; subst; apply same_refl|].
  pose proof (same_emit_reg g (fun r => IBin r o a b) R) as S. rewrite E in S. exact S.
Qed.

Ltac build_same :=
  match goal with
  | E : context [let '(_, _) := build H fold ?o ?a ?b ?g in _] |- _ =>
      let c := fresh "c" in let g1 := fresh "g" in destruct (build H fold o a b g) as [c g1] eqn:?; inversion E; subst; eapply same_build; eauto
  end.
Lemma same_math : forall t oi of l r g o t' g', in_range g -> gen_math H fold t oi of l r g = Ok (o, t', g') -> same g g'.
Proof. intros t oi of l r g o t' g' R E. unfold gen_math in E. destruct t as [[| | | | | |]|]; try discriminate E; build_same. Qed.
Lemma same_builtin : forall f t l r g o t' g', in_range g -> gen_builtin H f t l r g = Ok (o, t', g') -> same g g'.
Proof.
  intros f t l r g o t' g' R E. unfold gen_builtin in E. pose proof (same_emit_reg g (fun n => ICall n f [l; r]) R) as S.
  destruct (emit_reg H g (fun n => ICall n f [l; r])) as [x g1]. inversion E; subst. exact S.
Qed.
Lemma same_is : forall t l r g o t' g', in_range g -> gen_is H fold t l r g = Ok (o, t', g') -> same g g'.
Proof.
  intros t l r g o t' g' R E. unfold gen_is in E. destruct t as [[| | | | | |]|]; try discriminate E; try build_same.
  eapply same_builtin; eauto.
Qed.
Lemma same_binary : forall b t l r g o t' g', in_range g -> gen_binary H fold b t l r g = Ok (o, t', g') -> same g g'.
Proof.
  intros b t l r g o t' g' R E. destruct b; cbn [gen_binary] in E; try (now apply same_math in E); try (now apply same_is in E);
    unfold gen_shift, gen_order, gen_logical, gen_pow, gen_is_not, build_not in E; try (destruct t as [[| | | | | |]|]; try discriminate E; build_same); try build_same.
  - destruct t as [[| | | | | |]|]; try discriminate E; eapply same_builtin; eauto.
  - apply bind_ok in E as (((o1, t1), g1) & E1 & E). pose proof (same_is _ _ _ _ _ _ _ R E1) as S1.
    destruct (build H fold Xor o1 (OVal (SvBool true)) g1) as [o2 g2] eqn:B. inversion E; subst.
    apply same_trans with g1; auto. eapply same_build; [eapply same_range; eauto|exact B].
Qed.

Lemma gen_args_cons : forall gen n a args g, gen_args H gen (S n) (a :: args) g =
  (do (o, _, g) <- gen a g; do (os, g) <- gen_args H gen n args g; Ok (o :: os, g)).
Proof. reflexivity. Qed.

Definition straight (x : texpr) : Prop := forall g o t g', in_range g -> gen_expr x g = Ok (o, t, g') -> same g g'.
Lemma same_args : forall args n g os g', Forall straight args -> in_range g -> gen_args H gen_expr n args g = Ok (os, g') -> same g g'.
Proof.
  induction args as [|a args IH]; intros n g os g' F R E.
  - destruct n; [inversion E; subst; apply same_refl|discriminate E].
  - destruct n; [inversion E; subst; apply same_refl|]. rewrite gen_args_cons in E. inversion F as [|? ? F1 F2]; subst.
    apply bind_ok in E as (((o1, t1), g1) & E1 & E). apply bind_ok in E as ((os1, g2) & E2 & E). inversion E; subst.
    pose proof (F1 _ _ _ _ R E1) as S1. apply same_trans with g1; auto. eapply IH; eauto. eapply same_range; eauto.
Qed.
Lemma texpr_ind' : forall P : texpr -> Prop,
  (forall t k ty c, P (XVar t k ty c)) -> (forall t v ty, P (XConst t v ty)) ->
  (forall t k args ty, Forall P args -> P (XCall t k args ty)) ->
  (forall o r ty c, P r -> P (XUn o r ty c)) -> (forall o l r ty c, P l -> P r -> P (XBin o l r ty c)) -> forall x, P x.
Proof.
  intros P HV HC HF HU HB. fix IH 1. intros [t k ty c|t v ty|t k args ty|o r ty c|o l r ty c].
  - apply HV.
  - apply HC.
  - apply HF. induction args as [|a args IHa]; constructor; [apply IH|exact IHa].
  - apply HU. apply IH.
  - apply HB; apply IH.
Qed.
Lemma same_expr : forall x, straight x.
Proof.
  intro x. induction x as [t k ty c|t v ty|t k args ty F|o r ty c IH|o l r ty c IHl IHr] using texpr_ind'; intros g ro rt g' R E; cbn [Model_LLVM.gen_expr] in E.
  - unfold gen_identifier in E. apply bind_ok in E as (v & _ & E). apply bind_ok in E as (rf & _ & E).
    destruct (rf_global H rf || negb (v_const v)); [|inversion E; subst; apply same_refl].
    pose proof (same_emit_reg g (fun n => ILoad n (v_type v) (rf_val H rf)) R) as S.
    destruct (emit_reg H g _) as [x g1]. inversion E; subst. exact S.
  - unfold gen_const in E. destruct ty, v; inversion E; subst; apply same_refl.
  - apply bind_ok in E as (f & _ & E). apply bind_ok in E as ((os, g1) & EA & E). pose proof (same_args _ _ _ _ _ F R EA) as S1.
    destruct (lookup (g_funs H g1) k); [|discriminate E].
    pose proof (same_emit_reg g1 (fun n => ICall n (CSym k) os) (same_range _ _ S1 R)) as S.
    destruct (emit_reg H g1 _) as [x g2]. inversion E; subst. eapply same_trans; eauto.
  - destruct o.
    + apply bind_ok in E as (((o1, t1), g1) & E1 & E). pose proof (IH _ _ _ _ R E1) as S1. unfold gen_neg in E. apply same_math in E; [|eapply same_range; eauto].
      eapply same_trans; eauto.
    + apply bind_ok in E as (((o1, t1), g1) & E1 & E). pose proof (IH _ _ _ _ R E1) as S1. unfold gen_not, build_not in E.
      destruct (build H fold Xor o1 (OVal (SvBool true)) g1) as [o2 g2] eqn:B. inversion E; subst.
      apply same_trans with g1; auto. eapply same_build; [eapply same_range; eauto|exact B].
    + destruct r; try discriminate E. unfold gen_ref in E. apply bind_ok in E as (v & _ & E). apply bind_ok in E as (rf & _ & E). inversion E; subst; apply same_refl.
    + destruct r; try discriminate E. unfold gen_deref in E. apply bind_ok in E as (v & _ & E). apply bind_ok in E as (rf & _ & E).
      destruct (v_type v) as [| | | | | |ti]; try discriminate E.
      pose proof (same_emit_reg g (fun n => ILoad n (TRef ti) (rf_val H rf)) R) as S1. destruct (emit_reg H g _) as [p g1]. cbn [snd] in S1.
      pose proof (same_emit_reg g1 (fun n => ILoad n ti p) (same_range _ _ S1 R)) as S2. destruct (emit_reg H g1 _) as [q g2]. inversion E; subst.
      eapply same_trans; eauto.
  - apply bind_ok in E as (((ol, tl), g1) & E1 & E). apply bind_ok in E as (((or, tr), g2) & E2 & E).
    pose proof (IHl _ _ _ _ R E1) as S1. pose proof (IHr _ _ _ _ (same_range _ _ S1 R) E2) as S2.
    assert (R2 : in_range g2). { eapply same_range; [exact S2|]. eapply same_range; eauto. }
    apply same_binary in E; [|exact R2]. apply same_trans with g2; auto. eapply same_trans; eauto.
Qed.
(** What stays as it is: the current loop, the variables and the functions. *)
Definition kept (g g' : gst) : Prop :=
  g_end H g' = g_end H g /\ g_cond H g' = g_cond H g /\ g_refs H g' = g_refs H g /\ g_glob H g' = g_glob H g /\ g_funs H g' = g_funs H g /\ g_func H g' = g_func H g.
Lemma kept_refl : forall g, kept g g.
Proof. repeat split. Qed.
Lemma kept_trans : forall g g1 g2, kept g g1 -> kept g1 g2 -> kept g g2.
Proof. unfold kept. intros g g1 g2 A B. intuition congruence. Qed.
Lemma kept_build : forall o a b g c g', build H fold o a b g = (c, g') -> kept g g'.
Proof. intros o a b g c g' E. unfold build in E. destruct (fold o a b); inversion E; subst; repeat split. Qed.

Ltac build_kept :=
  match goal with
  | E : context [let '(_, _) := build H fold ?o ?a ?b ?g in _] |- _ =>
      let c := fresh "c" in let g1 := fresh "g" in destruct (build H fold o a b g) as [c g1] eqn:?; inversion E; subst; eapply kept_build; eauto
  end.
Lemma kept_math : forall t oi of l r g o t' g', gen_math H fold t oi of l r g = Ok (o, t', g') -> kept g g'.
Proof. intros t oi of l r g o t' g' E. unfold gen_math in E. destruct t as [[| | | | | |]|]; try discriminate E; build_kept. Qed.
Lemma kept_builtin : forall f t l r g o t' g', gen_builtin H f t l r g = Ok (o, t', g') -> kept g g'.
Proof. intros f t l r g o t' g' E. unfold gen_builtin in E. cbn [emit_reg] in E. inversion E; subst. repeat split. Qed.
Lemma kept_is : forall t l r g o t' g', gen_is H fold t l r g = Ok (o, t', g') -> kept g g'.
Proof.
  intros t l r g o t' g' E. unfold gen_is in E. destruct t as [[| | | | | |]|]; try discriminate E; try build_kept.
  eapply kept_builtin; eauto.
Qed.
Lemma kept_binary : forall b t l r g o t' g', gen_binary H fold b t l r g = Ok (o, t', g') -> kept g g'.
Proof.
  intros b t l r g o t' g' E. destruct b; cbn [gen_binary] in E; try (now apply kept_math in E); try (now apply kept_is in E);
    unfold gen_shift, gen_order, gen_logical, gen_pow, gen_is_not, build_not in E; try (destruct t as [[| | | | | |]|]; try discriminate E; build_kept); try build_kept.
  - destruct t as [[| | | | | |]|]; try discriminate E; eapply kept_builtin; eauto.
  - apply bind_ok in E as (((o1, t1), g1) & E1 & E). pose proof (kept_is _ _ _ _ _ _ _ E1) as S1.
    destruct (build H fold Xor o1 (OVal (SvBool true)) g1) as [o2 g2] eqn:B. inversion E; subst.
    apply kept_trans with g1; auto. eapply kept_build; exact B.
Qed.
Definition keeping (x : texpr) : Prop := forall g o t g', gen_expr x g = Ok (o, t, g') -> kept g g'.
Lemma kept_args : forall args n g os g', Forall keeping args -> gen_args H gen_expr n args g = Ok (os, g') -> kept g g'.
Proof.
  induction args as [|a args IH]; intros n g os g' F E.
  - destruct n; [inversion E; subst; apply kept_refl|discriminate E].
  - destruct n; [inversion E; subst; apply kept_refl|]. rewrite gen_args_cons in E. inversion F as [|? ? F1 F2]; subst.
    apply bind_ok in E as (((o1, t1), g1) & E1 & E). apply bind_ok in E as ((os1, g2) & E2 & E). inversion E; subst.
    apply kept_trans with g1; [exact (F1 _ _ _ _ E1)|]. eapply IH; eauto.
Qed.
Lemma kept_expr : forall x, keeping x.
Proof.
  intro x. induction x as [t k ty c|t v ty|t k args ty F|o r ty c IH|o l r ty c IHl IHr] using texpr_ind'; intros g ro rt g' E; cbn [Model_LLVM.gen_expr] in E.
  - unfold gen_identifier in E. apply bind_ok in E as (v & _ & E). apply bind_ok in E as (rf & _ & E).
    destruct (rf_global H rf || negb (v_const v)); inversion E; subst; repeat split.
  - unfold gen_const in E. destruct ty, v; inversion E; subst; apply kept_refl.
  - apply bind_ok in E as (f & _ & E). apply bind_ok in E as ((os, g1) & EA & E). pose proof (kept_args _ _ _ _ _ F EA) as S1.
    destruct (lookup (g_funs H g1) k); [|discriminate E]. cbn [emit_reg] in E. inversion E; subst. apply kept_trans with g1; [exact S1|repeat split].
  - destruct o.
    + apply bind_ok in E as (((o1, t1), g1) & E1 & E). unfold gen_neg in E. apply kept_math in E. eapply kept_trans; eauto.
    + apply bind_ok in E as (((o1, t1), g1) & E1 & E). unfold gen_not, build_not in E.
      destruct (build H fold Xor o1 (OVal (SvBool true)) g1) as [o2 g2] eqn:B. inversion E; subst.
      apply kept_trans with g1; eauto. eapply kept_build; exact B.
    + destruct r; try discriminate E. unfold gen_ref in E. apply bind_ok in E as (v & _ & E). apply bind_ok in E as (rf & _ & E). inversion E; subst; apply kept_refl.
    + destruct r; try discriminate E. unfold gen_deref in E. apply bind_ok in E as (v & _ & E). apply bind_ok in E as (rf & _ & E).
      destruct (v_type v) as [| | | | | |ti]; try discriminate E. cbn [emit_reg] in E. inversion E; subst; repeat split.
  - apply bind_ok in E as (((ol, tl), g1) & E1 & E). apply bind_ok in E as (((or, tr), g2) & E2 & E).
    apply kept_binary in E. apply kept_trans with g2; auto. eapply kept_trans; eauto.
Qed.
End Gen.
