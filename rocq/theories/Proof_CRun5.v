(** Expressions and statements of the program run the same way in C. *)
From Coq Require Import List Arith NArith ZArith Bool Lia Ascii String.
From Verif Require Import Base Model_Token Model_Literal Model_Parse Model_Sem Spec_Sem Spec_Sem2 Model_CGen Spec_C Spec_CGen Spec_CProg Spec_CBack Spec_Run
  Spec_LLVM Spec_CRun Spec_CBehave Proof_CGen2 Proof_Sem8 Proof_LLVM Proof_LLVM3 Proof_LLVM5 Proof_CRun Proof_CRun2 Proof_CRun3 Proof_CRun4.
Import ListNotations.
Open Scope list_scope.
Open Scope nat_scope.

Ltac kinds := repeat match goal with
  | K : In _ (_ :: _) |- _ => destruct K as [K|K]
  | K : In _ [] |- _ => destruct K
  | K : _ \/ _ |- _ => destruct K as [K|K]
  | K : _ /\ _ |- _ => destruct K
  end; try congruence; try discriminate.

(** * Which rule applies *)

Section Rules.
Variable env : cctx.
Variable l : list tnode.
Variable hs : list helper.
Local Notation ys := (ce_syms env).
Local Notation name_of := (name_of env).
Local Notation same := (Spec_CGen.same).
Local Notation sc := (sc env l hs).
Local Notation scope := (scope env l).
Local Notation xok := (xok env l hs).
Local Notation stands := (Spec_CBack.stands env).
Local Notation others := (Spec_CBack.others env).

Lemma sc_inv_def : forall cx top e n r k y, sc cx top e (n :: r) -> tn_type n = N_VAR_DEF -> tn_pay n = XDef k y ->
  scope cx e /\ xok cx e y /\ isvar env k /\ vtype env k = x_ty y /\ initial env k (x_cexpr y) /\ (if top : bool then home l cx n else ~ hoisted l k) /\ own l cx k /\
  ~ In (name_of k) (map name_of e) /\ sc cx top (k :: e) r.
Proof.
  intros cx top e n r k y S0 T P. inversion S0; subst; try congruence; try (exfalso; kinds; fail).
  assert (k0 = k /\ y0 = y) as (-> & ->) by (split; congruence). do 8 (split; [assumption|]). assumption.
Qed.
Lemma sc_inv_set : forall cx top e n r k y, sc cx top e (n :: r) -> tn_type n = N_VAR_ASSIGN -> tn_pay n = XSet k y ->
  scope cx e /\ xok cx e y /\ In k e /\ isvar env k /\ mutable ys k = true /\ x_ty y = vtype env k /\ sc cx top e r.
Proof.
  intros cx top e n r k y S0 T P. inversion S0; subst; try congruence; try (exfalso; kinds; fail).
  assert (k0 = k /\ y0 = y) as (-> & ->) by (split; congruence). do 6 (split; [assumption|]). assumption.
Qed.
Lemma sc_inv_value : forall cx top e n r y, sc cx top e (n :: r) -> tn_type n = N_EXPR \/ tn_type n = N_RETURN -> tn_pay n = XExpr y ->
  scope cx e /\ xok cx e y /\ (tn_type n = N_RETURN -> x_ty y <> TVoid) /\ sc cx top e r.
Proof.
  intros cx top e n r y S0 T P. inversion S0; subst; try congruence; try (exfalso; kinds; fail).
  assert (y0 = y) as -> by congruence. do 2 (split; [assumption|]). split; [|assumption]. intro E. kinds.
Qed.
Lemma sc_inv_cond : forall cx top e n r y, sc cx top e (n :: r) -> In (tn_type n) [N_IF; N_ELIF; N_WHILE] -> tn_pay n = XExpr y ->
  scope cx e /\ xok cx e y /\ x_ty y = TBool /\ sc cx false e (tn_child n) /\ sc cx top e r.
Proof.
  intros cx top e n r y S0 T P. inversion S0; subst; try congruence; try (exfalso; kinds; fail).
  assert (y0 = y) as -> by congruence. do 4 (split; [assumption|]). assumption.
Qed.
Lemma sc_inv_else : forall cx top e n r, sc cx top e (n :: r) -> tn_type n = N_ELSE -> scope cx e /\ sc cx false e (tn_child n) /\ sc cx top e r.
Proof.
  intros cx top e n r S0 T. inversion S0; subst; try congruence; try (exfalso; kinds; fail).
  do 2 (split; [assumption|]). assumption.
Qed.
Lemma sc_inv_fun : forall cx top e n r k ks, sc cx top e (n :: r) -> tn_type n = N_FUNCTION_PROTO -> tn_pay n = XProto k ks ->
  cx = None /\ top = true /\ In n l /\ scope cx e /\ isfun env k /\ callable env l k /\ ~ In (name_of k) (map name_of e) /\ sc cx top (k :: e) r.
Proof.
  intros cx top e n r k ks S0 T P. inversion S0; subst; try congruence; try (exfalso; kinds; fail).
  assert (k0 = k) as -> by congruence. do 7 (split; [auto|]). assumption.
Qed.
Lemma sc_inv_skip : forall cx top e n r, sc cx top e (n :: r) -> In (tn_type n) [N_COMMENT; N_NOOP; N_IMPORT] \/ tn_type n = N_VAR_DEF /\ tn_pay n = XAlias -> scope cx e /\ sc cx top e r.
Proof.
  intros cx top e n r S0 T. inversion S0; subst; try (split; assumption); exfalso; kinds.
Qed.
Lemma sc_behind : forall cx top e r, sc cx top e r -> sc cx top e (behind r).
Proof.
  intros cx top e r. induction r as [|n r IH]; intro S0; [exact S0|]. cbn [behind]. destruct (tn_type n) eqn:T; try exact S0.
  - apply IH. inversion S0; subst; try congruence; try assumption; exfalso; kinds.
  - exact (proj2 (proj2 (sc_inv_else _ _ _ _ _ S0 T))).
  - apply IH. exact (proj2 (sc_inv_skip _ _ _ _ _ S0 (or_introl (or_introl (eq_sym T))))).
Qed.

Lemma st_comment : forall top n r cs dd, stands top (n :: r) cs dd -> tn_type n = N_COMMENT -> stands top r cs dd.
Proof. intros top n r cs dd S0 T. inversion S0; subst; try congruence; try assumption. Qed.
Lemma st_skip : forall top n r cs dd, stands top (n :: r) cs dd -> In (tn_type n) [N_COMMENT; N_NOOP; N_IMPORT] \/ tn_type n = N_VAR_DEF /\ tn_pay n = XAlias ->
  stands top r cs dd \/ exists cs', cs = CVoid (CNum (u "0")) :: cs' /\ stands top r cs' dd.
Proof.
  intros top n r cs dd S0 T. inversion S0; subst; try (left; assumption); try (right; eexists; split; [reflexivity|assumption]); exfalso; kinds.
Qed.
Lemma st_first : forall top n r cs dd, stands top (n :: r) cs dd -> tn_type n <> N_ELIF /\ tn_type n <> N_ELSE.
Proof. intros top n r cs dd S0. inversion S0; subst; split; intro X; kinds. Qed.
Lemma others_none : forall r oc d2 r', others r oc d2 r' -> forall top cs dd, stands top r' cs dd -> oc = None -> stands top r cs dd.
Proof.
  intros r oc d2 r' O. induction O as [r F|n r o ds' r' T O IH|n r y ce b d1 o ds' r' T P S0 SB O IH|n r b d1 T SB]; intros top cs dd ST E; [exact ST| |discriminate E|discriminate E].
  apply sd_none; [left; left; now rewrite T|]. now apply IH.
Qed.
Lemma others_behind : forall r oc d2 r', others r oc d2 r' -> forall top cs dd, stands top r' cs dd -> stands top (behind r) cs dd.
Proof.
  intros r oc d2 r' O. induction O as [r F|n r o ds' r' T O IH|n r y ce b d1 o ds' r' T P S0 SB O IH|n r b d1 T SB]; intros top cs dd ST; try (cbn [behind]; rewrite T; auto; fail).
  clear F. revert ST. induction r as [|n r IH]; intro ST; [exact ST|]. cbn [behind]. destruct (tn_type n) eqn:T; try exact ST.
  - destruct (st_first _ _ _ _ _ ST) as (X & _). now elim X.
  - destruct (st_first _ _ _ _ _ ST) as (_ & X). now elim X.
  - apply IH. exact (st_comment _ _ _ _ _ ST T).
Qed.
End Rules.
