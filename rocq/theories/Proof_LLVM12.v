(** Accepted programs have code: expressions, scopes and the shape of blocks. *)
From Coq Require Import List Arith NArith ZArith Bool Lia.
From Verif Require Import Base Model_Token Model_Literal Model_Parse Model_Sem Spec_Parse Spec_Sem Spec_Sem2 Spec_Run Spec_IR Model_LLVM Spec_Loops
  Proof_Sem Proof_Sem2 Proof_Sem5 Proof_Sem7 Proof_Sem8 Proof_Order Proof_CGen2 Proof_LLVM Proof_LLVM11.
Import ListNotations.
Open Scope list_scope.
Open Scope nat_scope.

(** * Marks *)

Fixpoint run (b : bool) (l : list mark) : option bool :=
  match l with
  | [] => Some b
  | Starts :: r => run true r
  | Ends :: r => run false r
  | Jumps :: r => if b then run b r else None
  end.
Lemma run_app : forall l1 l2 b, run b (l1 ++ l2) = match run b l1 with Some b1 => run b1 l2 | None => None end.
Proof. induction l1 as [|[| |] l1 IH]; intros l2 b; cbn [app run]; auto. destruct b; auto. Qed.
Lemma run_starts : forall l b, run b l <> None <->
  forall x y, l = x ++ Jumps :: y -> (b = true /\ Forall (fun m => m = Jumps) x) \/ exists x1 js, x = x1 ++ Starts :: js /\ Forall (fun m => m = Jumps) js.
Proof.
  induction l as [|m l IH]; intro b.
  - cbn. split; [intros _ [|] y E; discriminate E|intros _ E; discriminate E].
  - assert (SPLIT : forall x y, m :: l = x ++ Jumps :: y -> x = [] /\ m = Jumps /\ l = y \/ exists x1, x = m :: x1 /\ l = x1 ++ Jumps :: y).
    { intros [|z x] y E; cbn in E; injection E as -> ->; eauto. }
    destruct m; cbn [run].
    + rewrite IH. split.
      * intros Q x y E. apply SPLIT in E as [(_ & E & _)|(x1 & -> & E)]; [discriminate E|]. right.
        destruct (Q _ _ E) as [(_ & F)|(x2 & js & -> & F)]; [now exists [], x1|]. exists (Starts :: x2), js. auto.
      * intros Q x y E. destruct (Q (Starts :: x) y) as [(-> & F)|(x1 & js & E1 & F)]; [now rewrite E|now inversion F|].
        destruct x1 as [|z x1]; cbn in E1; [injection E1 as E1; left; rewrite E1; auto|injection E1 as E0 E1; right; eauto].
    + rewrite IH. split.
      * intros Q x y E. apply SPLIT in E as [(_ & E & _)|(x1 & -> & E)]; [discriminate E|]. right.
        destruct (Q _ _ E) as [(X & _)|(x2 & js & -> & F)]; [discriminate X|]. exists (Ends :: x2), js. auto.
      * intros Q x y E. destruct (Q (Ends :: x) y) as [(-> & F)|(x1 & js & E1 & F)]; [now rewrite E|now inversion F|].
        destruct x1 as [|z x1]; cbn in E1; [discriminate E1|injection E1 as E0 E1; right; eauto].
    + destruct b.
      * rewrite IH. split.
        -- intros Q x y E. apply SPLIT in E as [(-> & _ & _)|(x1 & -> & E)]; [left; auto|].
           destruct (Q _ _ E) as [(_ & F)|(x2 & js & -> & F)]; [left; auto|]. right. exists (Jumps :: x2), js. auto.
        -- intros Q x y E. destruct (Q (Jumps :: x) y) as [(_ & F)|(x1 & js & E1 & F)]; [now rewrite E|left; inversion F; auto|].
           destruct x1 as [|z x1]; cbn in E1; [discriminate E1|injection E1 as E0 E1; right; eauto].
      * split; [now intro X|]. intros Q. exfalso. destruct (Q [] l eq_refl) as [(X & _)|(x1 & js & E1 & _)]; [discriminate X|].
        destruct x1; discriminate E1.
Qed.
Lemma follow_run : forall ys l, jumps_follow_starts ys l <-> run false (flat_map (marks ys) l) <> None.
Proof.
  intros ys l. rewrite run_starts. unfold jumps_follow_starts. split; intros Q a b E.
  - right. now apply Q with b.
  - destruct (Q a b E) as [(X & _)|R]; [discriminate X|exact R].
Qed.

(** * Expressions *)

Definition comparable_expr (x : texpr) : Prop := forall o a b t c, xpart (XBin o a b t c) x -> o = BIs \/ o = BIsnt ->
  x_ty b <> TVoid /\ forall r, x_ty b <> TRef r.

Section Expr.
Variable H : host.
Variable fold : iop -> operand H -> operand H -> option (operand H).
Variable s : sst.
Variable w : world.
Variable src : text.
Variable ys : list symbol.
Hypothesis SIGV : forall k t m, sig s k = Some (DVar t m) -> exists v, sym_var ys k = Ok v /\ v_type v = t.
Hypothesis SIGF : forall k ps r, sig s k = Some (DFun ps r) -> exists f, sym_func ys k = Ok f /\ f_ret f = r /\ N.to_nat (f_num f) = List.length ps.
Local Notation gst := (gst H).
Local Notation gen_expr := (gen_expr H fold ys).

Definition ready_for (x : texpr) (g : gst) : Prop :=
  (forall k, In k (Proof_Sem7.reads x) -> lookup (g_refs H g) k <> None) /\ (forall k, In k (Proof_Sem7.calls x) -> lookup (g_funs H g) k <> None).
Definition gives (x : texpr) : Prop := forall g, ready_for x g ->
  exists o t g', gen_expr x g = Ok (o, t, g') /\ ((forall r, x_ty x <> TRef r) -> t = Some (x_ty x)).

Lemma ready_kept : forall x g g', ready_for x g -> kept H g g' -> ready_for x g'.
Proof. intros x g g' (A & B) (_ & _ & R & _ & F & _). unfold ready_for. rewrite R, F. auto. Qed.
Lemma math_gives : forall oi of l r g t, is_number t -> exists o g', gen_math H fold (Some t) oi of l r g = Ok (o, Some t, g').
Proof.
  intros oi of l r g t [-> | ->]; unfold gen_math; destruct (build H fold _ l r g) as [o g']; eauto.
Qed.
Lemma binary_gives : forall o t r a b g, oper_type o t r -> (o = BIs \/ o = BIsnt -> t <> TVoid /\ forall q, t <> TRef q) ->
  exists v g', gen_binary H fold o (Some t) a b g = Ok (v, Some r, g').
Proof.
  intros o t r a b g OT CP.
  assert (EQ : t <> TVoid /\ (forall q, t <> TRef q) -> exists v g', gen_is H fold (Some t) a b g = Ok (v, Some TBool, g')).
  { intros (N1 & N2). unfold gen_is, gen_builtin. cbn [emit_reg]. destruct t as [| | | | | |q]; try (now elim N1); try (now elim (N2 q)); try destruct (build H fold _ a b g); eauto. }
  destruct OT as [o t I NB|o I|o t I NB|o t I|o I]; cbn [In] in I.
  - destruct I as [<- | [<- | [<- | [<- | [<- | [<- | []]]]]]]; cbn [gen_binary]; try (now apply math_gives).
    unfold gen_pow, gen_builtin. cbn [emit_reg]. destruct NB as [-> | ->]; eauto.
  - destruct I as [<- | [<- | []]]; cbn [gen_binary]; unfold gen_shift; destruct (build H fold _ a b g); eauto.
  - destruct I as [<- | [<- | [<- | [<- | []]]]]; cbn [gen_binary]; unfold gen_order; destruct NB as [-> | ->]; destruct (build H fold _ a b g); eauto.
  - destruct I as [<- | [<- | []]]; cbn [gen_binary].
    + apply EQ. auto.
    + unfold gen_is_not, build_not. destruct EQ as (v & g' & ->); [auto|]. cbn [bind]. destruct (build H fold Xor v _ g'). eauto.
  - destruct I as [<- | [<- | [<- | []]]]; cbn [gen_binary]; unfold gen_logical; destruct (build H fold _ a b g); eauto.
Qed.

Lemma expr_gives0 : forall e,
  (forall a x, elab (sig s) w src e a x -> comparable_expr x -> gives x) /\
  (forall l xs, elabs (sig s) w src e l xs -> Forall comparable_expr xs -> forall g,
     (forall k, In k (flat_map Proof_Sem7.reads xs) -> lookup (g_refs H g) k <> None) -> (forall k, In k (flat_map Proof_Sem7.calls xs) -> lookup (g_funs H g) k <> None) ->
     exists os g', gen_args H gen_expr (List.length xs) xs g = Ok (os, g')).
Proof.
  intros e. apply elab_both.
  - intros t n k ty m c _ _ E _ g (R & _). cbn [Model_LLVM.gen_expr]. unfold gen_identifier. destruct (SIGV _ _ _ E) as (v & -> & <-). cbn [bind].
    unfold var_ref. destruct (lookup (g_refs H g) k) as [r|] eqn:L; [|exfalso; apply (R k); [now left|exact L]]. cbn [bind emit_reg].
    destruct (rf_global H r || negb (v_const v)); eauto.
  - intros t v ty LV _ g _. cbn [Model_LLVM.gen_expr gen_const]. destruct LV; cbn; eauto.
  - intros name args num n k ps r xs _ _ E _ IH M P g (R & C). cbn [Model_LLVM.gen_expr]. destruct (SIGF _ _ _ E) as (f & -> & <- & NA). cbn [bind].
    rewrite NA, <- M, map_length. cbn [Proof_Sem7.reads Proof_Sem7.calls] in R, C.
    destruct (IH) with (g := g) as (os & g' & EA); auto.
    { apply Forall_forall. intros x IN o a b t c Q. apply (P o a b t c). eapply xp_arg; eauto. }
    { intros j J. apply C. now right. }
    rewrite EA. cbn [bind]. pose proof (kept_args H fold ys) as KA. destruct (KA _ _ _ _ _ (proj2 (Forall_forall _ _) (fun x _ => kept_expr H fold ys x)) EA) as (_ & _ & _ & _ & F & _).
    rewrite F. destruct (lookup (g_funs H g) k) eqn:L; [|exfalso; apply (C k); [now left|exact L]]. cbn [emit_reg]. eauto.
  - intros a x c _ IH NB P g RF. cbn [Model_LLVM.gen_expr]. destruct (IH) with (g := g) as (o & t & g' & -> & T); [|exact RF|].
    { intros o l r t c' Q. apply (P o l r t c'). now apply xp_un. }
    cbn [bind x_ty]. rewrite T by (destruct NB as [-> | ->]; discriminate). unfold gen_neg.
    destruct (math_gives NswSub FSub (match x_ty x with TInt => OVal (SvInt 0) | _ => OVal (SvFloat (h_zero H)) end) o g' _ NB) as (o2 & g2 & E2).
    eexists _, _, _. split; [|reflexivity]. destruct NB as [N1 | N1]; rewrite N1 in *; exact E2.
  - intros a x c _ IH NB P g RF. cbn [Model_LLVM.gen_expr]. destruct (IH) with (g := g) as (o & t & g' & -> & T); [|exact RF|].
    { intros o l r t c' Q. apply (P o l r t c'). now apply xp_un. }
    cbn [bind x_ty]. unfold gen_not, build_not. destruct (build H fold Xor o _ g'). eauto.
  - intros t x c EL _ _ g (R & _). inversion EL as [? n k ty m cc SP RS E| | | | | | |]; subst. cbn [Model_LLVM.gen_expr]. unfold gen_ref.
    destruct (SIGV _ _ _ E) as (v & -> & _). cbn [bind]. unfold var_ref.
    destruct (lookup (g_refs H g) k) as [r|] eqn:L; [|exfalso; apply (R k); [now left|exact L]]. cbn [bind].
    eexists _, _, _. split; [reflexivity|]. intro NR. cbn [x_ty] in NR. now elim (NR ty).
  - intros t x ty c EL _ TY _ g (R & _). inversion EL as [? n k ty' m cc SP RS E| | | | | | |]; subst. cbn [x_ty] in TY. subst ty'. cbn [Model_LLVM.gen_expr]. unfold gen_deref.
    destruct (SIGV _ _ _ E) as (v & -> & VT). cbn [bind]. unfold var_ref.
    destruct (lookup (g_refs H g) k) as [r|] eqn:L; [|exfalso; apply (R k); [now left|exact L]]. cbn [bind]. rewrite VT. cbn [emit_reg]. eauto.
  - intros o a b x y r c _ IH1 _ IH2 EQ OT _ P g (R & C). cbn [Model_LLVM.gen_expr]. cbn [Proof_Sem7.reads Proof_Sem7.calls] in R, C.
    destruct (IH1) with (g := g) as (o1 & t1 & g1 & E1 & T1).
    { intros o' l' r' t c' Q. apply (P o' l' r' t c'). now apply xp_left. }
    { split; intros j J; [apply R|apply C]; apply in_app_iff; now left. }
    rewrite E1. cbn [bind]. pose proof (kept_expr H fold ys x _ _ _ _ E1) as K1.
    destruct (IH2) with (g := g1) as (o2 & t2 & g2 & E2 & T2).
    { intros o' l' r' t c' Q. apply (P o' l' r' t c'). now apply xp_right. }
    { apply (ready_kept y g); [|exact K1]. split; intros j J; [apply R|apply C]; apply in_app_iff; now right. }
    rewrite E2. cbn [bind].
    assert (CP : o = BIs \/ o = BIsnt -> x_ty y <> TVoid /\ (forall q, x_ty y <> TRef q)) by (apply (P o x y r c); apply xp_self).
    rewrite T2.
    + destruct (binary_gives _ _ _ o1 o2 g2 OT CP) as (v & g3 & ->). eauto.
    + intros q. destruct OT as [? ? ? [-> | ->]| |? ? ? [-> | ->]|? ? I|]; try discriminate. apply CP. destruct I as [-> | [-> | []]]; auto.
  - intros _ g _ _. cbn. eauto.
  - intros a l x xs _ IH1 _ IH2 P g R C. inversion P; subst. cbn [flat_map] in R, C. cbn [List.length]. rewrite gen_args_cons.
    destruct (IH1) with (g := g) as (o1 & t1 & g1 & E1 & _); auto.
    { split; intros j J; [apply R|apply C]; apply in_app_iff; now left. }
    rewrite E1. cbn [bind]. destruct (kept_expr H fold ys x _ _ _ _ E1) as (_ & _ & K1 & _ & K2 & _).
    destruct (IH2) with (g := g1) as (os & g2 & E2); auto.
    { intros j J. rewrite K1. apply R. apply in_app_iff. now right. }
    { intros j J. rewrite K2. apply C. apply in_app_iff. now right. }
    rewrite E2. cbn [bind]. eauto.
Qed.
Lemma expr_gives : forall e a x, elab (sig s) w src e a x -> comparable_expr x -> gives x.
Proof. intros e a x. apply (proj1 (expr_gives0 e)). Qed.
End Expr.
