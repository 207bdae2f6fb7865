(** Programs that keep certain rules do not go wrong. *)
From Coq Require Import List Arith NArith ZArith Bool Lia.
From Verif Require Import Base Model_Literal Model_Parse Spec_Parse Model_Sem Spec_Sem Spec_Sem2 Spec_Run Spec_Safe Proof_LLVM3.
Import ListNotations.
Open Scope list_scope.
Open Scope nat_scope.

Section Rules.
Variable H : host.
Variable ys : list symbol.
Variable D : decls.
Local Notation val := (sv (h_float H)).
Local Notation rst := (rst H).
Local Notation outcome := (Spec_Run.outcome H).
Local Notation run_expr := (run_expr H ys).
Local Notation run_exprs := (run_exprs H ys).
Local Notation run_block := (run_block H ys).
Local Notation run_branch := (run_branch H ys).
Local Notation run_otherwise := (run_otherwise H ys).
Local Notation run_after := (run_after H ys).

(** * Rules *)

Definition comparing (o : binop) : Prop := o = BIs \/ o = BIsnt.
Definition simple (t : ty) : Prop := t = TInt \/ t = TFloat \/ t = TBool \/ t = TRune \/ t = TStr.

(** Expressions that use the declarations V. *)
Inductive fine_expr (V : list nat) : texpr -> Prop :=
| fe_var : forall t k ty c m, In k V -> D k = Some (DVar ty m) -> fine_expr V (XVar t k ty c)
| fe_const : forall t v ty, of_type H (literal_of H v) ty = true -> fine_expr V (XConst t v ty)
| fe_call : forall t k xs r, In k V -> D k = Some (DFun (map x_ty xs) r) -> (forall x, In x xs -> fine_expr V x) -> fine_expr V (XCall t k xs r)
| fe_neg : forall x c, fine_expr V x -> is_number (x_ty x) -> fine_expr V (XUn UNeg x (x_ty x) c)
| fe_not : forall x c, fine_expr V x -> x_ty x = TBool -> fine_expr V (XUn UNot x TBool c)
| fe_bin : forall o x y r c, fine_expr V x -> fine_expr V y -> x_ty x = x_ty y -> oper_type o (x_ty y) r -> (comparing o -> simple (x_ty y)) ->
    fine_expr V (XBin o x y r c).

(** The variables of the program and of the function in scope. *)
Definition all (G : list nat) (L : option (list nat)) : list nat := match L with Some l => l ++ G | None => G end.
Definition addg (k : nat) (G : list nat) (L : option (list nat)) : list nat := match L with Some _ => G | None => k :: G end.
Definition addl (k : nat) (L : option (list nat)) : option (list nat) := match L with Some l => Some (k :: l) | None => None end.

Definition has_return (l : list tnode) : Prop := exists n, In n l /\ tn_type n = N_RETURN.
Definition forks (t : ntype) : bool := match t with N_IF | N_ELIF => true | _ => false end.
Definition looping (t : ntype) (b : bool) : bool := match t with N_WHILE => true | _ => b end.

(** Blocks: R is the type that is returned; whether the block is in a loop; whether it starts
    behind an `if`. *)
Inductive fine_stmt (R : ty) : bool -> bool -> list nat -> option (list nat) -> tnode -> bool -> list nat -> option (list nat) -> Prop :=
| fs_define : forall b p G L tok k y c m, fine_expr (all G L) y -> D k = Some (DVar (x_ty y) m) ->
    (forall t j xs r, y = XCall t j xs r -> r <> TVoid) ->
    fine_stmt R b p G L (mktnode N_VAR_DEF tok (XDef k y) c) false (addg k G L) (addl k L)
| fs_alias : forall b p G L tok c, fine_stmt R b p G L (mktnode N_VAR_DEF tok XAlias c) false G L
| fs_assign : forall b p G L tok k y c, fine_expr (all G L) y -> In k (all G L) -> D k = Some (DVar (x_ty y) true) ->
    fine_stmt R b p G L (mktnode N_VAR_ASSIGN tok (XSet k y) c) false G L
| fs_call : forall b p G L tok y c, fine_expr (all G L) y -> fine_stmt R b p G L (mktnode N_EXPR tok (XExpr y) c) false G L
| fs_return : forall b p G L tok y c, fine_expr (all G L) y -> x_ty y = R -> fine_stmt R b p G L (mktnode N_RETURN tok (XExpr y) c) false G L
| fs_leave : forall b p G L tok c, R = TVoid -> fine_stmt R b p G L (mktnode N_RETURN tok XNone c) false G L
| fs_condition : forall b p G L t tok y c G' L', In t [N_IF; N_ELIF; N_WHILE] -> (t = N_ELIF -> p = true) -> fine_expr (all G L) y -> x_ty y = TBool ->
    fine_block R (looping t b) false G L c G' L' -> fine_stmt R b p G L (mktnode t tok (XExpr y) c) (forks t) G L
| fs_else : forall b G L tok c G' L', fine_block R b false G L c G' L' -> fine_stmt R b true G L (mktnode N_ELSE tok XNone c) false G L
| fs_external : forall b p G L tok k ks c ts r, is_external ys k = true -> D k = Some (DFun ts r) ->
    fine_stmt R b p G L (mktnode N_FUNCTION_PROTO tok (XProto k ks) c) false (k :: G) L
| fs_function : forall b p G tok k ks c ts r G' L', is_external ys k = false -> D k = Some (DFun ts r) ->
    Forall2 (fun i t => exists m, D i = Some (DVar t m)) ks ts -> (forall i, In i ks -> exists t, D i = Some (DVar t false)) ->
    fine_block r false false (k :: G) (Some ks) c G' L' -> (r <> TVoid -> has_return c) ->
    fine_stmt R b p G None (mktnode N_FUNCTION_PROTO tok (XProto k ks) c) false (k :: G) None
| fs_space : forall b p G L tok k c G' L' i, D k = Some (DSpace i) -> fine_block R b false (addg k G L) (addl k L) c G' L' -> fine_stmt R b p G L (mktnode N_NAMESPACE tok (XSpace k) c) false G' L'
| fs_jump : forall p G L t tok c, In t [N_BREAK; N_CONTINUE] -> fine_stmt R true p G L (mktnode t tok XNone c) false G L
| fs_other : forall b p G L t tok c, In t [N_IMPORT; N_NOOP; N_UNREACHABLE] -> fine_stmt R b p G L (mktnode t tok XNone c) false G L
| fs_comment : forall b p G L tok c, fine_stmt R b p G L (mktnode N_COMMENT tok XNone c) p G L
with fine_block (R : ty) : bool -> bool -> list nat -> option (list nat) -> list tnode -> list nat -> option (list nat) -> Prop :=
| fb_nil : forall b p G L, fine_block R b p G L [] G L
| fb_cons : forall b p G L n p' G' L' l G'' L'', fine_stmt R b p G L n p' G' L' -> fine_block R b p' G' L' l G'' L'' -> fine_block R b p G L (n :: l) G'' L''.

Lemma stmt_closed : forall R b p G L n p' G' L', fine_stmt R b p G L n p' G' L' -> tn_type n <> N_ELIF -> tn_type n <> N_ELSE ->
  fine_stmt R b false G L n (match tn_type n with N_COMMENT => false | _ => p' end) G' L'.
Proof.
  intros R b p G L n p' G' L' F N1 N2. destruct F; cbn [tn_type] in *; try (solve [econstructor; eauto | now destruct N2]).
  - match goal with A : In _ _ |- _ => destruct A as [<-|[<-|[<-|[]]]] end; econstructor; eauto; cbn; auto; intros; congruence.
  - match goal with A : In _ _ |- _ => destruct A as [<-|[<-|[]]] end; constructor; cbn; auto.
  - match goal with A : In _ _ |- _ => destruct A as [<-|[<-|[<-|[]]]] end; constructor; cbn; auto.
Qed.
Lemma stmt_opens : forall R b p G L n p' G' L', fine_stmt R b p G L n p' G' L' -> tn_type n <> N_COMMENT -> p' = forks (tn_type n).
Proof.
  intros R b p G L n p' G' L' F N1. destruct F; cbn [tn_type] in *; try reflexivity.
  - match goal with A : In _ _ |- _ => destruct A as [<-|[<-|[]]] end; reflexivity.
  - match goal with A : In _ _ |- _ => destruct A as [<-|[<-|[<-|[]]]] end; reflexivity.
  - now destruct N1.
Qed.
Ltac other_type T := cbn [tn_type] in T; first [discriminate T | subst; match goal with A : In _ _ |- _ => now repeat (destruct A as [A|A]; [discriminate A|]) end | idtac].
Lemma condition_inv : forall R b p G L n p' G' L', fine_stmt R b p G L n p' G' L' -> In (tn_type n) [N_IF; N_ELIF; N_WHILE] ->
  exists y G1 L1, tn_pay n = XExpr y /\ p' = forks (tn_type n) /\ G' = G /\ L' = L /\ fine_expr (all G L) y /\ x_ty y = TBool /\
    fine_block R (looping (tn_type n) b) false G L (tn_child n) G1 L1.
Proof.
  intros R b p G L n p' G' L' F T. destruct F; cbn [tn_type tn_pay tn_child] in *;
    try (now repeat (destruct T as [T|T]; [try discriminate T; subst; match goal with A : In _ _ |- _ => now repeat (destruct A as [A|A]; [discriminate A|]) end|])).
  exists y, G', L'. repeat (split; [solve [auto]|]). assumption.
Qed.
Lemma else_inv : forall R b p G L n p' G' L', fine_stmt R b p G L n p' G' L' -> tn_type n = N_ELSE ->
  exists G1 L1, p = true /\ p' = false /\ G' = G /\ L' = L /\ fine_block R b false G L (tn_child n) G1 L1.
Proof.
  intros R b p G L n p' G' L' F T. destruct F; other_type T. exists G', L'. auto.
Qed.
Lemma comment_inv : forall R b p G L n p' G' L', fine_stmt R b p G L n p' G' L' -> tn_type n = N_COMMENT -> p' = p /\ G' = G /\ L' = L.
Proof. intros R b p G L n p' G' L' F T. destruct F; other_type T. auto. Qed.
Lemma block_inv : forall R b p G L n l G2 L2, fine_block R b p G L (n :: l) G2 L2 ->
  exists p' G1 L1, fine_stmt R b p G L n p' G1 L1 /\ fine_block R b p' G1 L1 l G2 L2.
Proof. intros R b p G L n l G2 L2 F. inversion F; subst. eauto. Qed.
Lemma block_closed : forall R b p G L n l G2 L2, fine_block R b p G L (n :: l) G2 L2 -> tn_type n <> N_COMMENT -> tn_type n <> N_ELIF -> tn_type n <> N_ELSE ->
  fine_block R b false G L (n :: l) G2 L2.
Proof.
  intros R b p G L n l G2 L2 F N1 N2 N3. apply block_inv in F as (p' & G1 & L1 & S1 & B1).
  apply fb_cons with p' G1 L1; [|exact B1]. pose proof (stmt_closed _ _ _ _ _ _ _ _ _ S1 N2 N3) as C. destruct (tn_type n); try exact C. now destruct N1.
Qed.
Lemma block_behind : forall R b l p G L G' L', fine_block R b p G L l G' L' -> fine_block R b false G L (behind l) G' L'.
Proof.
  intros R b l. induction l as [|n l IH]; intros p G L G' L' F; [inversion F; subst; constructor|].
  pose proof F as F0. apply block_inv in F as (p' & G1 & L1 & S1 & B1).
  cbn [behind]. destruct (tn_type n) eqn:T; try (apply block_closed with p; [exact F0|rewrite T; discriminate..]).
  - destruct (condition_inv _ _ _ _ _ _ _ _ _ S1) as (y & G3 & L3 & _ & _ & -> & -> & _); [rewrite T; cbn; auto|]. now apply IH in B1.
  - destruct (else_inv _ _ _ _ _ _ _ _ _ S1 T) as (G3 & L3 & _ & -> & -> & -> & _). exact B1.
  - destruct (comment_inv _ _ _ _ _ _ _ _ _ S1 T) as (-> & -> & ->). now apply IH in B1.
Qed.
Lemma return_behind : forall l, has_return l -> has_return (behind l).
Proof.
  induction l as [|n l IH]; intros (x & I & T); [destruct I|]. cbn [behind]. assert (C : tn_type n = N_RETURN \/ has_return l). { destruct I as [->|I]; [now left|right; now exists x]. }
  assert (K : has_return (n :: l)) by (now exists x). destruct (tn_type n) eqn:TN; try exact K; destruct C as [C|C]; try discriminate C; auto.
Qed.
End Rules.
