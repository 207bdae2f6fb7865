(** Proofs about the parser: acceptance and grouping of expressions. *)
From Coq Require Import List Arith NArith Bool Lia.
From Verif Require Import Base Model_Token Model_Parse Spec_Parse Proof_Parse Proof_Parse2 Proof_Parse3.
Import ListNotations.
Open Scope list_scope.
Open Scope N_scope.

Lemma cst_ind' : forall P : cst -> Prop,
  (forall t, P (CLeaf t)) -> (forall t args, Forall P args -> P (CCall t args)) ->
  (forall c, P c -> P (CParen c)) -> (forall o c, P c -> P (CUn o c)) ->
  (forall o l r, P l -> P r -> P (CBin o l r)) -> forall c, P c.
Proof.
  intros P H1 H2 H3 H4 H5. fix IH 1. intros [t|t args|c|o c|o l r].
  - apply H1.
  - apply H2. induction args; constructor; [apply IH|assumption].
  - apply H3, IH.
  - apply H4, IH.
  - apply H5; apply IH.
Qed.

(** * The chain of units an expression is read as *)

Fixpoint lin (c : cst) : cst * list (binop * cst) :=
  match c with
  | CBin o l r => (fst (lin l), snd (lin l) ++ (o, fst (lin r)) :: snd (lin r))
  | CUn o c => (CUn o (fst (lin c)), snd (lin c))
  | _ => (c, [])
  end.

Inductive chain_ts : list (binop * cst) -> list token -> Prop :=
| ct_nil : chain_ts [] []
| ct_cons : forall o u ch t ts us, t_type t = bin_token o -> prints u ts -> chain_ts ch us ->
    chain_ts ((o, u) :: ch) (t :: ts ++ us).

Lemma chain_ts_app : forall a ta, chain_ts a ta -> forall b tb, chain_ts b tb -> chain_ts (a ++ b) (ta ++ tb).
Proof.
  induction 1; intros b tb HB; [exact HB|]. cbn. rewrite <- app_assoc. now constructor; auto.
Qed.

Definition root (c : cst) : Prop := match c with CLeaf _ | CCall _ _ | CParen _ => True | _ => False end.
Definition aunit (c : cst) : Prop := single_unary c /\ (root c \/ exists o c', c = CUn o c' /\ root c').

Lemma lin_fst : forall c, single_unary c -> aunit (fst (lin c)) /\
  (starts_unary c = false -> root (fst (lin c))) /\ Forall (fun x => aunit (snd x)) (snd (lin c)).
Proof.
  induction c as [t|t args _|c _|o c IH|o l r IHl IHr] using cst_ind'; intro H; cbn [lin fst snd starts_unary].
  - split; [split; [easy|now left]|]. split; [easy|constructor].
  - split; [split; [easy|now left]|]. split; [easy|constructor].
  - split; [split; [easy|now left]|]. split; [easy|constructor].
  - inversion H as [| | |o' c' S1 S2|]; subst. destruct (IH S2) as ((U1 & U2) & R & F).
    split; [|split; [discriminate|exact F]]. specialize (R S1). split; [|right; eauto].
    constructor; auto. now destruct (fst (lin c)).
  - inversion H as [| | | |o' l' r' S1 S2]; subst. destruct (IHl S1) as (U1 & R1 & F1). destruct (IHr S2) as (U2 & R2 & F2).
    split; [exact U1|]. split; [exact R1|]. apply Forall_app. split; [exact F1|]. constructor; auto.
Qed.

Lemma lin_prints : forall c ts, prints c ts ->
  exists ts1 ts2, ts = ts1 ++ ts2 /\ prints (fst (lin c)) ts1 /\ chain_ts (snd (lin c)) ts2.
Proof.
  induction c as [t|t args _|c _|o c IH|o l r IHl IHr] using cst_ind'; intros ts H; cbn [lin fst snd].
  - exists ts, []. rewrite app_nil_r. repeat split; auto. constructor.
  - exists ts, []. rewrite app_nil_r. repeat split; auto. constructor.
  - exists ts, []. rewrite app_nil_r. repeat split; auto. constructor.
  - inversion H as [| | |t o' c' us Y HP|]; subst. destruct (IH us HP) as (t1 & t2 & -> & P1 & P2).
    exists (t :: t1), t2. repeat split; auto. now constructor.
  - inversion H as [| | | |t o' l' r' lts rts Y HL HR]; subst.
    destruct (IHl lts HL) as (l1 & l2 & -> & P1 & P2). destruct (IHr rts HR) as (r1 & r2 & -> & Q1 & Q2).
    exists l1, (l2 ++ t :: r1 ++ r2). split; [now rewrite <- app_assoc|]. split; [exact P1|].
    apply chain_ts_app; [exact P2|]. now constructor.
Qed.

(** * What the parser does on a chain *)

Definition no_call (rest : list token) : Prop := tok_is rest T_PAREN_OPEN = false.

Lemma stops_no_call : forall rest, stops rest -> no_call rest.
Proof.
  intros [|t r] H; [easy|]. unfold no_call, tok_is. destruct H as (_ & H).
  destruct (ttype_eqb (t_type t) T_PAREN_OPEN) eqn:Y; [|easy]. now apply ttype_eqb_eq in Y.
Qed.

(** The tree of an expression, for expressions grouped as the parser groups. *)
Definition good (c : cst) (e : expr) : Prop := grouped c -> plain c -> same e c.

Definition runs (F : nat) : Prop := forall c ts rest ms, prints c ts -> single_unary c -> stops rest ->
  (length (ts ++ rest) < F)%nat ->
  exists e, parse_expression F (mkpst (ts ++ rest) false ms) = Ret (mkpst rest false ms) (Some e) /\ good c e.

Lemma prints_ne : forall c ts, prints c ts -> ts <> [].
Proof. intros c ts H. inversion H; subst; try discriminate. now destruct lts. Qed.

Lemma prints_head : forall c ts, prints c ts -> exists t r, ts = t :: r /\
  t_type t <> T_COMMA /\ t_type t <> T_PAREN_CLOSE.
Proof.
  intros c ts H. induction H.
  - exists t, []. unfold operand_type in H. cbn in H. split; [easy|].
    split; intro X; rewrite X in H; repeat (destruct H as [H|H]; [discriminate|]); easy.
  - exists t, (po :: ts ++ [pc]). split; [easy|]. destruct H as [H|H]; rewrite H; split; discriminate.
  - exists po, (ts ++ [pc]). split; [easy|]. rewrite H. split; discriminate.
  - exists t, ts. split; [easy|]. rewrite H. destruct o; split; discriminate.
  - destruct IHprints1 as (x & r1 & -> & X). exists x, (r1 ++ t :: rts). auto.
Qed.

Lemma parse_expression_stop : forall f t r ms, t_type t = T_PAREN_CLOSE -> (0 < f)%nat ->
  parse_expression f (mkpst (t :: r) false ms) = Ret (mkpst (t :: r) false ms) None.
Proof.
  intros [|f] t r ms Y H; [lia|]. cbn [parse_expression p_tok]. unfold parse_single_expr, parse_root_expr.
  cbn [p_tok]. rewrite Y. cbn [get_potential_unary_oper]. unfold is_identifier_like. rewrite Y. cbn. reflexivity.
Qed.

Lemma call_loop_runs : forall F, runs F -> forall args ts, prints_args args ts -> Forall single_unary args ->
  forall k name acc n pc rest ms, t_type pc = T_PAREN_CLOSE ->
  (length (ts ++ pc :: rest) < F)%nat -> (length (ts ++ pc :: rest) < k)%nat ->
  exists es, call_loop (parse_expression F) k name acc (w16 n) (mkpst (ts ++ pc :: rest) false ms)
    = Ret (mkpst (pc :: rest) false ms) (Some (rev es ++ acc, w16 (n + N.of_nat (length args)))) /\
    (Forall grouped args -> Forall plain args -> same_args es args).
Proof.
  intros F HR args ts H.
  induction H as [|c ts HP|c d cs ts t us HP HC HA IH]; intros HS k name acc n pc rest ms Y HF HK; (destruct k as [|k]; [lia|]).
  - exists []. split; [|intros; constructor]. cbn [app call_loop p_tok].
    unfold ttype_eqb at 1. rewrite Y. cbn [tnum]. change (23 =? 19) with false. cbv iota.
    rewrite parse_expression_stop; [|easy|lia]. cbn [obind p_tok]. unfold ttype_eqb. rewrite Y. cbn.
    now rewrite N.add_0_r.
  - inversion HS as [|? ? S1 _]; subst. destruct (prints_head _ _ HP) as (x & r & E & NC & _).
    destruct (HR c ts (pc :: rest) ms HP S1) as (e & EP & G); [cbn; rewrite Y; split; [easy|discriminate]|exact HF|].
    exists [(ts ++ pc :: rest, e)]. split.
    2:{ intros GG PP. constructor; [|constructor]. apply G; [now inversion GG|now inversion PP]. }
    cbn [call_loop p_tok]. rewrite E in EP |- *. cbn [app] in EP |- *.
    destruct (ttype_eqb (t_type x) T_COMMA) eqn:YX; [apply ttype_eqb_eq in YX; congruence|].
    rewrite EP. cbn [obind p_tok]. unfold ttype_eqb. rewrite Y. cbn [tnum]. cbn.
    f_equal. f_equal. f_equal. unfold w16. now rewrite N.add_mod_idemp_l.
  - inversion HS as [|? ? S1 S2]; subst. destruct (prints_head _ _ HP) as (x & r & E & NC & _).
    assert (EA : (ts ++ t :: us) ++ pc :: rest = ts ++ t :: us ++ pc :: rest) by now rewrite <- app_assoc.
    rewrite EA in *.
    assert (0 < length ts)%nat by (rewrite E; cbn; lia).
    destruct (HR c ts (t :: us ++ pc :: rest) ms HP S1) as (e & EP & G); [cbn; rewrite HC; split; [easy|discriminate]|exact HF|].
    destruct (IH S2 k name ((ts ++ t :: us ++ pc :: rest, e) :: acc) (n + 1) pc rest ms Y) as (es & ES & GS).
    { rewrite app_length in *. cbn in *. rewrite app_length in *. cbn in *. lia. }
    { rewrite app_length in *. cbn in *. rewrite app_length in *. cbn in *. lia. }
    exists ((ts ++ t :: us ++ pc :: rest, e) :: es). split.
    2:{ intros GG PP. inversion GG; inversion PP; subst. constructor; auto. }
    cbn [call_loop p_tok]. rewrite E in EP |- *. cbn [app] in EP |- *.
    destruct (ttype_eqb (t_type x) T_COMMA) eqn:YX; [apply ttype_eqb_eq in YX; congruence|].
    rewrite EP. cbn [obind p_tok].
    replace (ttype_eqb (t_type t) T_NEWLINE) with false by (unfold ttype_eqb; now rewrite HC).
    replace (ttype_eqb (t_type t) T_PAREN_CLOSE) with false by (unfold ttype_eqb; now rewrite HC).
    replace (ttype_eqb (t_type t) T_COMMA) with true by (unfold ttype_eqb; now rewrite HC).
    unfold set_tok. cbn [p_err p_msgs].
    replace (w16 (w16 n + 1)) with (w16 (n + 1)) by (unfold w16; now rewrite N.add_mod_idemp_l).
    rewrite E in ES. cbn [app] in ES. rewrite ES. cbn [rev]. rewrite <- app_assoc. cbn [app].
    replace (n + 1 + N.of_nat (length (d :: cs))) with (n + N.of_nat (length (c :: d :: cs))); [reflexivity|].
    cbn [length]. lia.
Qed.

(** same, but only if the parts are grouped. *)
Definition ugood (c : cst) (e : expr) : Prop := grouped c -> inside c -> same e c.

Lemma root_runs : forall F, runs F -> forall c ts, prints c ts -> single_unary c -> root c ->
  forall k rest ms, no_call rest -> (length (ts ++ rest) <= F)%nat -> (length (ts ++ rest) <= k)%nat ->
  exists e, parse_root_expr (parse_expression F) k (mkpst (ts ++ rest) false ms)
    = Ret (mkpst rest false ms) (Some e) /\ ugood c e.
Proof.
  intros F HR c ts HP HS HRT k rest ms HN HF HK. unfold parse_root_expr.
  destruct HP as [t Y|t po pc args ts Y1 Y2 Y3 HA|po pc c ts Y1 Y2 HP| |]; try contradiction; cbn [app p_tok].
  - assert (N1 : ttype_eqb (t_type t) T_PAREN_OPEN = false).
    { unfold operand_type in Y. cbn in Y. unfold ttype_eqb.
      repeat (destruct Y as [Y|Y]; [rewrite <- Y; reflexivity|]). easy. }
    rewrite N1. unfold no_call in HN. rewrite HN, andb_false_r.
    assert (N2 : is_single_token_expr (t_type t) = true).
    { unfold operand_type in Y. cbn in Y. repeat (destruct Y as [Y|Y]; [rewrite <- Y; reflexivity|]). easy. }
    rewrite N2. unfold parse_single_token_expr. cbn [p_tok obind next_token].
    exists (if is_identifier_like t then EVar t else EConst t). split; [reflexivity|].
    intros _ _. destruct (is_identifier_like t) eqn:I.
    + constructor. now apply ident_like_true in I.
    + constructor. intro X. unfold is_identifier_like, ttype_eqb in I. destruct X as [X|X]; rewrite X in I; discriminate.
  - assert (N1 : ttype_eqb (t_type t) T_PAREN_OPEN = false) by (unfold ttype_eqb; destruct Y1 as [X|X]; now rewrite X).
    assert (N2 : is_identifier_like t = true) by (unfold is_identifier_like, ttype_eqb; destruct Y1 as [X|X]; now rewrite X).
    rewrite N1, N2. cbn [tok_is]. replace (ttype_eqb (t_type po) T_PAREN_OPEN) with true by (unfold ttype_eqb; now rewrite Y2).
    cbn [andb]. unfold parse_func_call. cbn [p_tok]. unfold set_tok. cbn [p_err p_msgs].
    inversion HS as [|? ? S1| | |]; subst.
    assert (EA : (ts ++ [pc]) ++ rest = ts ++ pc :: rest) by now rewrite <- app_assoc.
    rewrite EA. cbn [app length] in HF, HK. rewrite EA in HF, HK.
    destruct (call_loop_runs F HR args ts HA S1 k t [] 0 pc rest ms Y3) as (es & ES & G); [lia|lia|].
    change (w16 0) with 0 in ES. rewrite ES. cbn [obind next_token p_tok].
    eexists. split; [reflexivity|]. intros GG II. inversion GG; inversion II; subst.
    rewrite app_nil_r, rev_involutive. constructor; [reflexivity|]. now apply G.
  - replace (ttype_eqb (t_type po) T_PAREN_OPEN) with true by (unfold ttype_eqb; now rewrite Y1).
    unfold parse_paren_expr. cbn [p_tok next_token obind]. unfold set_tok. cbn [p_err p_msgs].
    inversion HS as [| |? S1| |]; subst.
    assert (EA : (ts ++ [pc]) ++ rest = ts ++ pc :: rest) by now rewrite <- app_assoc.
    rewrite EA. cbn [app length] in HF, HK. rewrite EA in HF, HK.
    destruct (HR c ts (pc :: rest) ms HP S1) as (e & EP & G); [cbn; rewrite Y2; split; [easy|discriminate]|lia|].
    rewrite EP. cbn [obind p_tok tok_is]. replace (ttype_eqb (t_type pc) T_PAREN_CLOSE) with true by (unfold ttype_eqb; now rewrite Y2).
    unfold next_token. cbn [p_tok obind]. exists e. split; [reflexivity|]. intros GG II. inversion GG; inversion II; subst.
    constructor. now apply G.
Qed.

Lemma root_head : forall c ts, prints c ts -> root c -> exists t r, ts = t :: r /\ get_potential_unary_oper (t_type t) = None.
Proof.
  intros c ts H HR. destruct H as [t Y|t po pc args ts Y1 Y2 Y3 HA|po pc c ts Y1 Y2 HP| |]; try contradiction.
  - exists t, []. split; [easy|]. unfold operand_type in Y. cbn in Y.
    repeat (destruct Y as [Y|Y]; [rewrite <- Y; reflexivity|]). easy.
  - exists t, (po :: ts ++ [pc]). split; [easy|]. destruct Y1 as [X|X]; now rewrite X.
  - exists po, (ts ++ [pc]). split; [easy|]. now rewrite Y1.
Qed.

Lemma unit_runs : forall F, runs F -> forall c ts, prints c ts -> aunit c ->
  forall k rest ms, no_call rest -> (length (ts ++ rest) <= F)%nat -> (length (ts ++ rest) <= k)%nat ->
  exists e, parse_single_expr (parse_expression F) k (mkpst (ts ++ rest) false ms)
    = Ret (mkpst rest false ms) (Some e) /\ ugood c e.
Proof.
  intros F HR c ts HP (HS & HU) k rest ms HN HF HK. unfold parse_single_expr.
  destruct HU as [HU|(o & c' & -> & HU)].
  - destruct (root_head _ _ HP HU) as (t & r & E & Y).
    destruct (root_runs F HR c ts HP HS HU k rest ms HN HF HK) as (e & EP & G).
    exists e. split; [|exact G]. rewrite E in EP |- *. cbn [app p_tok]. rewrite Y. exact EP.
  - inversion HP as [| | |t o' c2 us Y HP'|]; subst. inversion HS as [| | |o' c2 _ S2|]; subst.
    cbn [app p_tok]. replace (get_potential_unary_oper (t_type t)) with (Some o) by (rewrite Y; now destruct o).
    unfold next_token. cbn [p_tok obind]. unfold set_tok. cbn [p_tok p_err p_msgs].
    destruct (root_head _ _ HP' HU) as (x & r & E & YX).
    cbn [app length] in HF, HK.
    destruct (root_runs F HR c' us HP' S2 HU k rest ms HN) as (e & EP & G); [lia|lia|].
    rewrite E in EP |- *. cbn [app] in EP |- *. rewrite YX, EP. cbn [obind]. exists (EUn o (Some e)).
    split; [reflexivity|]. intros GG II. inversion GG; inversion II; subst. constructor. now apply G.
Qed.

Definition rot (e : expr) (x : binop * expr) : expr := rotate e (fst x) (snd x).

Lemma chain_runs : forall F, runs F -> forall ch ts, chain_ts ch ts -> Forall (fun x => aunit (snd x)) ch ->
  forall k top rest ms, stops rest -> (length (ts ++ rest) <= F)%nat -> (length (ts ++ rest) < k)%nat ->
  exists es, expr_loop (parse_expression F) k top (mkpst (ts ++ rest) false ms)
    = Ret (mkpst rest false ms) (Some (fold_left rot es top)) /\
    Forall2 (fun x y => fst x = fst y /\ ugood (snd y) (snd x)) es ch.
Proof.
  intros F HR ch ts H. induction H as [|o u ch t ts us Y HP HC IH]; intros HU k top rest ms HSt HF HK;
    (destruct k as [|k]; [lia|]); cbn [expr_loop].
  - exists []. split; [|constructor]. cbn [app fold_left].
    unfold parse_expr_rhs. cbn [p_tok]. destruct rest as [|b r]; [reflexivity|]. destruct HSt as (O & _).
    assert (N1 : token_type_to_binary_expr_type (t_type b) = None) by (now destruct (t_type b)).
    now rewrite N1.
  - inversion HU as [|? ? U1 U2]; subst. cbn [snd] in U1.
    unfold parse_expr_rhs. cbn [app p_tok].
    replace (token_type_to_binary_expr_type (t_type t)) with (Some (inl o : binop + unop)) by (rewrite Y; now destruct o).
    unfold next_token. cbn [p_tok obind]. unfold set_tok. cbn [p_tok p_err p_msgs].
    cbn [app length] in HF, HK. rewrite <- app_assoc in *.
    assert (HN : no_call (us ++ rest)).
    { destruct HC as [|o2 u2 ch2 t2 ts2 us2 Y2 _ _]; [now apply stops_no_call|]. unfold no_call. cbn. unfold ttype_eqb. rewrite Y2. now destruct o2. }
    destruct (unit_runs F HR u ts HP U1 k (us ++ rest) ms HN) as (e & EP & G); [lia|lia|].
    rewrite EP. cbn [obind p_err].
    destruct (IH U2 k (rotate top o e) rest ms HSt) as (es & ES & GS).
    { rewrite app_length in HF. lia. } { rewrite app_length in HK. lia. }
    exists ((o, e) :: es). split; [exact ES|]. constructor; auto.
Qed.

(** * The grouping *)

Lemma same_prec : forall e c, same e c -> (N.to_nat (expr_prec e) <= S (bare_level c))%nat.
Proof.
  induction 1; cbn [expr_prec bare_level level]; try (cbn; lia).
  - destruct o; cbn; lia.
  - destruct o; cbn; lia.
Qed.

Lemma bin_prec_loose : forall o, N.to_nat (bin_prec o) = S (loose o).
Proof. now intros []. Qed.

Definition left_fold (e : expr) (x : binop * expr) : expr := EBin (fst x) (Some e) (snd x).

(** Operators of a left chain. *)
Lemma flat_loose : forall c, flat c -> grouped c -> Forall (fun x => (loose (fst x) <= level c)%nat) (snd (lin c)).
Proof.
  induction c as [t|t args _|c _|o c IH|o l r IHl IHr] using cst_ind'; intros HF HG; try constructor.
  - cbn [lin snd]. destruct c; cbn in HF; try contradiction; constructor.
  - destruct HF as (FL & FR). inversion HG as [| | | |o' l' r' L1 L2 G1 G2]; subst. cbn [lin snd level].
    apply Forall_app. split.
    + eapply Forall_impl; [|exact (IHl FL G1)]. cbn beta. intros x. lia.
    + constructor; [cbn; lia|]. destruct r as [| | |o2 [] |]; cbn in FR; try contradiction; constructor.
Qed.

Lemma aunit_one : forall c, one_operand c -> lin c = (c, []).
Proof. intros [| | |o []|] H; cbn in H; try contradiction; reflexivity. Qed.

Lemma one_grouped_good : forall c e, ugood c e -> grouped c -> inside c -> same e c.
Proof. auto. Qed.

Definition matches := Forall2 (fun (x : binop * expr) (y : binop * cst) => fst x = fst y /\ ugood (snd y) (snd x)).

Lemma flat_same : forall c, flat c -> grouped c -> inside c -> forall e0 es,
  ugood (fst (lin c)) e0 -> matches es (snd (lin c)) -> same (fold_left left_fold es e0) c.
Proof.
  induction c as [t|t args _|c _|o c IH|o l r IHl IHr] using cst_ind'; intros HF HG HI e0 es G0 M.
  - cbn [lin fst snd] in *. inversion M; subst. cbn [fold_left]. now apply G0.
  - cbn [lin fst snd] in *. inversion M; subst. cbn [fold_left]. now apply G0.
  - cbn [lin fst snd] in *. inversion M; subst. cbn [fold_left]. now apply G0.
  - rewrite (aunit_one (CUn o c) HF) in *. cbn [fst snd] in *. inversion M; subst. cbn [fold_left]. now apply G0.
  - destruct HF as (FL & FR). inversion HG as [| | | |o' l' r' L1 L2 G1 G2]; subst.
    inversion HI as [| | | |o' l' r' I1 I2]; subst. cbn [lin fst snd] in *.
    rewrite (aunit_one r FR) in M. cbn [fst snd] in M.
    apply Forall2_app_inv_r in M as (es1 & es2 & M1 & M2 & ->).
    inversion M2 as [|[o1 e1] [o2 c2] es3 ? (X1 & X2) M3]; subst. inversion M3; subst. cbn [fst snd] in *. subst o1.
    rewrite fold_left_app. cbn [fold_left]. unfold left_fold at 1. cbn [fst snd]. constructor; auto.
Qed.

(** Tighter operators go to the right of the expression on top. *)
Lemma rot_right : forall es top, get_rhs top <> None ->
  Forall (fun x : binop * expr => (S (loose (fst x)) < N.to_nat (expr_prec top))%nat) es ->
  exists r, get_rhs top = Some r /\ fold_left rot es top = set_rhs top (fold_left left_fold es r).
Proof.
  induction es as [|[o e] es IH]; intros top HN HF.
  - destruct top as [| | |o [r|]|o l r]; cbn in HN; try contradiction; (exists r; split; reflexivity).
  - inversion HF as [|? ? H1 H2]; subst. cbn [fst] in H1. cbn [fold_left].
    assert (E : rot top (o, e) = set_rhs top (EBin o (get_rhs top) e)).
    { unfold rot, rotate. cbn [fst snd]. pose proof (bin_prec_loose o).
      destruct (bin_prec o <? expr_prec top) eqn:L; [easy|]. apply N.ltb_ge in L. lia. }
    rewrite E.
    assert (P : expr_prec (set_rhs top (EBin o (get_rhs top) e)) = expr_prec top) by (now destruct top as [| | |[] ?|]).
    destruct (IH (set_rhs top (EBin o (get_rhs top) e))) as (r & R1 & R2).
    + destruct top as [| | |o1 [r|]|o1 l r]; cbn in HN |- *; congruence.
    + now rewrite P.
    + destruct top as [| | |o1 [r1|]|o1 l r1]; cbn in HN; try contradiction.
      * cbn [set_rhs get_rhs] in *. inversion R1; subst r. exists r1. split; [reflexivity|]. exact R2.
      * cbn [set_rhs get_rhs] in *. inversion R1; subst r. exists r1. split; [reflexivity|]. exact R2.
Qed.

Lemma tight_head : forall c, (level c < 2)%nat -> flat c -> grouped c -> inside c ->
  level (fst (lin c)) = 0%nat /\ grouped (fst (lin c)) /\ inside (fst (lin c)).
Proof.
  induction c as [t|t args _|c _|o c _|o l r IHl _] using cst_ind'; intros HL HF HG HI; cbn [lin fst]; try now repeat split.
  - cbn in HL. lia.
  - inversion HG as [| | | |o' l' r' L1 L2 G1 G2]; subst. inversion HI as [| | | |o' l' r' I1 I2]; subst.
    apply IHl; auto; [cbn in HL; lia|apply HF].
Qed.

Lemma plain_same : forall c, plain c -> grouped c -> forall e0 es,
  ugood (fst (lin c)) e0 -> matches es (snd (lin c)) -> same (fold_left rot es e0) c.
Proof.
  induction c as [t|t args _|c _|o c _|o l r IHl _] using cst_ind'; intros HP HG e0 es G0 M.
  - cbn [lin fst snd] in *. inversion M; subst. cbn. apply G0; [easy|constructor].
  - cbn [lin fst snd] in *. inversion M; subst. cbn. apply G0; [easy|]. now inversion HP.
  - cbn [lin fst snd] in *. inversion M; subst. cbn. apply G0; [easy|]. now inversion HP.
  - inversion HP as [c' O I|o' c' NR F I|]; subst.
    + rewrite (aunit_one _ O) in *. cbn [fst snd] in *. inversion M; subst. cbn. now apply G0.
    + inversion HG as [| | |o' c' L1 G1|]; subst.
      destruct (tight_head c L1 F G1 I) as (L0 & G2 & I2). cbn [lin fst snd] in G0, M.
      assert (S0 : same e0 (CUn o (fst (lin c)))) by (apply G0; constructor; auto; lia).
      inversion S0 as [| | | |o' r0 c' S1|]; subst.
      destruct (rot_right es (EUn o (Some r0))) as (r1 & R1 & R2).
      { discriminate. }
      { pose proof (flat_loose c F G1) as FL.
        assert (PO : N.to_nat (expr_prec (EUn o (Some r0))) = 3%nat) by (now destruct o). rewrite PO.
        clear - FL M L1.
        induction M as [|[o1 e1] [o2 c2] es ch (X & _) M IH]; constructor.
        - inversion FL as [|? ? H1 _]; subst. cbn [fst] in *. subst. lia.
        - apply IH. now inversion FL. }
      rewrite R2. inversion R1; subst r1. cbn [set_rhs]. constructor. apply flat_same; auto.
      intros _ _. exact S1.
  - inversion HP as [c' O I| |o' l' r' PL FR IR HPar]; subst; [contradiction|].
    inversion HG as [| | | |o' l' r' L1 L2 G1 G2]; subst. cbn [lin fst snd] in *.
    apply Forall2_app_inv_r in M as (es1 & es2 & M1 & M2 & ->).
    inversion M2 as [|[o1 e1] [o2 c2] es3 ? (X1 & X2) M3]; subst. cbn [fst snd] in *. subst o1.
    rewrite fold_left_app. cbn [fold_left]. set (el := fold_left rot es1 e0).
    assert (SL : same el l) by (now apply IHl).
    pose proof (same_prec _ _ SL) as PL'. pose proof (bin_prec_loose o) as PO.
    assert (BL : (bare_level l <= loose o)%nat).
    { destruct l; cbn [bare_level] in *; try exact L1; [now apply (HPar l)|]. destruct o0; cbn in L1 |- *; lia. }
    assert (E : rot el (o, e1) = EBin o (Some el) e1).
    { unfold rot, rotate. cbn [fst snd]. destruct (bin_prec o <? expr_prec el) eqn:L; [|easy]. apply N.ltb_lt in L. lia. }
    rewrite E.
    destruct (rot_right es3 (EBin o (Some el) e1)) as (r0 & R1 & R2).
    { discriminate. }
    { pose proof (flat_loose r FR G2) as FL. clear - FL M3 L2 PO.
      induction M3 as [|[o1 e9] [o2 c9] es ch (X & _) M IH]; constructor.
      - inversion FL as [|? ? H1 _]; subst. cbn [fst expr_prec] in *. subst. lia.
      - apply IH. now inversion FL. }
    rewrite R2. inversion R1; subst r0. cbn [set_rhs]. constructor; [exact SL|].
    now apply flat_same.
Qed.

Lemma expression_chain : forall F, runs F -> forall c ts rest ms, prints c ts -> single_unary c ->
  stops rest -> (length (ts ++ rest) < S F)%nat ->
  exists e0 es, parse_expression (S F) (mkpst (ts ++ rest) false ms)
    = Ret (mkpst rest false ms) (Some (fold_left rot es e0)) /\
    ugood (fst (lin c)) e0 /\ matches es (snd (lin c)).
Proof.
  intros F IH c ts rest ms HP HS HSt HL. cbn [parse_expression p_tok].
  destruct (lin_prints c ts HP) as (t1 & t2 & -> & P1 & P2).
  destruct (lin_fst c HS) as (U & _ & UF). rewrite <- app_assoc in *.
  assert (HN : no_call (t2 ++ rest)).
  { destruct P2 as [|o2 u2 ch2 t3 ts2 us2 Y2 _ _]; [now apply stops_no_call|]. unfold no_call. cbn. unfold ttype_eqb.
    rewrite Y2. now destruct o2. }
  destruct (unit_runs F IH _ t1 P1 U F (t2 ++ rest) ms HN) as (e & EP & G); [lia|lia|].
  assert (0 < length t1)%nat by (pose proof (prints_ne _ _ P1); destruct t1; [easy|cbn; lia]).
  destruct (chain_runs F IH _ t2 P2 UF F e rest ms HSt) as (es & ES & M).
  { rewrite app_length in HL. lia. } { rewrite app_length in HL. lia. }
  exists e, es. split; [|split; assumption].
  destruct (t1 ++ t2 ++ rest) as [|x l] eqn:E; [destruct t1; [cbn in *; lia|discriminate]|].
  rewrite EP. cbn [obind p_err]. exact ES.
Qed.

Lemma expression_runs : forall F, runs F.
Proof.
  induction F as [|F IH]; intros c ts rest ms HP HS HSt HL; [lia|].
  destruct (expression_chain F IH c ts rest ms HP HS HSt HL) as (e & es & E & G & M).
  exists (fold_left rot es e). split; [exact E|]. intros GG PP. now apply plain_same.
Qed.

Lemma grouped_level : forall c, grouped c -> (level c < 2)%nat -> starts_unary c = false.
Proof.
  induction 1; cbn; intro HL; try easy; [lia|]. apply IHgrouped1. lia.
Qed.

Lemma grouped_single_unary : forall c, grouped c -> single_unary c.
Proof.
  induction c as [t|t args IH|c IH|o c IH|o l r IHl IHr] using cst_ind'; intro H; inversion H; subst; constructor; auto.
  - rewrite Forall_forall in *. auto.
  - now apply grouped_level.
Qed.

(** * In a program *)

Lemma tree_loop_step : forall sub f i c s d p, p_tok (n_st c) <> [] ->
  parse_ast_node sub (S f) i c = Ret (mknctx (mkpst (p_tok s) false (p_msgs s)) d p) false ->
  tree_loop sub (S f) i c = tree_loop sub f i (mknctx (mkpst (p_tok s) false (p_msgs s)) d p).
Proof.
  intros sub f i c s d p HN E. cbn [tree_loop]. destruct (p_tok (n_st c)); [easy|]. now rewrite E.
Qed.

Lemma return_gives : forall ret ts nl e, t_type ret = T_KW_RETURN -> t_type nl = T_NEWLINE -> ts <> [] ->
  parse_expression (S (S (S (length ts)))) (mkpst (ts ++ [nl]) false []) = Ret (mkpst [nl] false []) (Some e) ->
  returns (ret :: ts ++ [nl]) e.
Proof.
  intros ret ts nl e YR YN HNE EP. unfold returns.
  assert (LT : (0 < length ts)%nat) by (destruct ts; [easy|cbn; lia]).
  assert (LA : length (ret :: ts ++ [nl]) = S (S (length ts))) by (cbn; rewrite app_length; cbn; lia).
  unfold parse_ast_tree. rewrite LA.
  assert (HLp : forall sub, tree_loop sub (S (S (S (length ts)))) 0 (mknctx (mkpst (ret :: ts ++ [nl]) false []) [] [])
    = Ret (mknctx (mkpst [] false []) [mknode N_RETURN (ret :: ts ++ [nl]) (ret :: ts ++ [nl]) (PExpr e) []] []) tt).
  { intro sub. rewrite (tree_loop_step sub _ 0 _ (mkpst [nl] false []) [mknode N_RETURN (ret :: ts ++ [nl]) (ret :: ts ++ [nl]) (PExpr e) []] []);
      [|discriminate|].
    - rewrite (tree_loop_step sub _ 0 _ (mkpst [] false []) [mknode N_RETURN (ret :: ts ++ [nl]) (ret :: ts ++ [nl]) (PExpr e) []] []);
        [reflexivity|discriminate|].
      unfold parse_ast_node. cbn [n_st p_tok]. rewrite YN. reflexivity.
    - unfold parse_ast_node. cbn [n_st p_tok]. rewrite YR.
      unfold parse_return, next_token. cbn [n_st p_tok obind]. unfold set_tok. cbn [p_err p_msgs].
      rewrite EP. reflexivity. }
  unfold parse_ast_tree_ at 1. fold parse_ast_tree_. rewrite HLp. reflexivity.
Qed.

Lemma expression_read : forall f ts ms s e, (length ts < f)%nat -> parse_expression f (mkpst ts false ms) = Ret s (Some e) ->
  exists used, ts = used ++ p_tok s /\ used <> [] /\ yield e = syms used /\ p_err s = false /\ p_msgs s = ms /\
    Forall (fun t => expression_token (t_type t)) used.
Proof.
  intros f ts ms s e HL E. pose proof (expr_run (mkpst ts false ms) eq_refl f HL) as H.
  rewrite E in H. cbn [wp] in H. destruct H as (used & A & H1 & H2 & H3 & H4 & _).
  exists used. split; [apply (a_tok _ _ _ A)|]. repeat split; auto.
  eapply Forall_impl; [|apply (a_types _ _ _ A)]. intros t Y. unfold expression_token.
  unfold etok in Y. destruct (t_type t); cbn in Y; try discriminate; cbn; tauto.
Qed.

Lemma return_runs : forall ret c ts nl, t_type ret = T_KW_RETURN -> t_type nl = T_NEWLINE ->
  prints c ts -> single_unary c ->
  exists e, returns (ret :: ts ++ [nl]) e /\ good c e /\ yield e = syms ts.
Proof.
  intros ret c ts nl YR YN HP HS.
  destruct (expression_runs (S (S (S (length ts)))) c ts [nl] [] HP HS) as (e & EP & G).
  { cbn. now rewrite YN. } { rewrite app_length. cbn. lia. }
  exists e. split; [apply return_gives; auto; now apply prints_ne with c|]. split; [exact G|].
  apply expression_read in EP as (used & T & _ & Y & _); [|rewrite app_length; cbn; lia].
  cbn [p_tok] in T. apply app_inj_tail in T as (-> & _). exact Y.
Qed.

(** ** A parenthesised left operand *)

Lemma same_prec_eq : forall e c, same e c -> (0 < bare_level c)%nat ->
  N.to_nat (expr_prec e) = S (bare_level c).
Proof.
  induction 1; cbn [expr_prec bare_level level]; intro HB; try (cbn in HB; lia).
  - destruct o; cbn in *; lia.
  - apply bin_prec_loose.
Qed.

Lemma left_paren : forall ret po pc t o l r lts rts nl, t_type ret = T_KW_RETURN -> t_type nl = T_NEWLINE ->
  t_type po = T_PAREN_OPEN -> t_type pc = T_PAREN_CLOSE -> t_type t = bin_token o ->
  prints l lts -> grouped l -> plain l -> prints r rts -> one_operand r -> grouped r -> inside r ->
  (level r < loose o)%nat ->
  exists e, returns (ret :: po :: lts ++ pc :: t :: rts ++ [nl]) e /\
    (same e (CBin o (CParen l) r) <-> (bare_level l <= loose o)%nat).
Proof.
  intros ret po pc t o l r lts rts nl YR YN Y1 Y2 Y3 PL GL NL PR OR GR IR LR.
  set (c := CBin o (CParen l) r). set (ts := (po :: lts ++ [pc]) ++ t :: rts).
  assert (HP : prints c ts) by (apply pr_bin; auto; now constructor).
  assert (HS : single_unary c).
  { constructor; [constructor|]; now apply grouped_single_unary. }
  destruct (expression_chain (S (S (length ts))) (expression_runs _) c ts [nl] [] HP HS) as (e0 & es & E & G & M).
  { cbn. now rewrite YN. } { rewrite app_length. cbn. lia. }
  exists (fold_left rot es e0).
  assert (ET : ret :: po :: lts ++ pc :: t :: rts ++ [nl] = ret :: ts ++ [nl]).
  { unfold ts. cbn. now rewrite <- !app_assoc. }
  rewrite ET. split; [apply return_gives; auto; discriminate|].
  unfold c in G, M. cbn [lin fst snd] in G, M. rewrite (aunit_one r OR) in M. cbn [fst snd app] in M.
  inversion M as [|[o1 er] [o2 c2] es3 ? (X1 & X2) M3]; subst. inversion M3; subst. cbn [fst snd] in *. subst o1.
  assert (S0 : same e0 (CParen l)) by (apply G; constructor; auto).
  inversion S0 as [| | |? ? S1| |]; subst. cbn [fold_left]. unfold rot, rotate. cbn [fst snd].
  pose proof (same_prec _ _ S1) as P1. pose proof (bin_prec_loose o) as P2.
  destruct (bin_prec o <? expr_prec e0) eqn:L.
  - apply N.ltb_lt in L. assert (loose o < bare_level l)%nat by lia. split; [|lia]. intro HSm. exfalso.
    assert (P3 : N.to_nat (expr_prec e0) = S (bare_level l)) by (apply same_prec_eq; [easy|lia]).
    destruct e0 as [| | |o1 r1|o1 l1 r1]; cbn [set_rhs] in HSm; inversion HSm; subst.
    cbn [expr_prec] in *. lia.
  - apply N.ltb_ge in L. split; [intros _|].
    + destruct (le_lt_dec (bare_level l) (loose o)) as [Z|Z]; [easy|].
      assert (P3 : N.to_nat (expr_prec e0) = S (bare_level l)) by (apply same_prec_eq; [easy|lia]). lia.
    + intros _. constructor; auto.
Qed.

(** * Statements about whole programs *)

Lemma parsed_of : forall ts ms tr, parse_ast_tree ts = Ret ms tr -> parsed ts ms tr.
Proof. intros ts ms tr E. pose proof (parse_spec ts) as H. now rewrite E in H. Qed.

