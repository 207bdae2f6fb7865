(** Operators: what C computes is what Spec_Run.v says. *)
From Coq Require Import List Arith NArith ZArith Bool Lia Ascii String.
From Verif Require Import Base Model_Token Model_Literal Model_Parse Model_Sem Spec_Sem Spec_Sem2 Model_CGen Spec_C Spec_CGen Spec_CProg Spec_CBack Spec_Run Model_Helpers Proof_Helpers
  Spec_LLVM Spec_CRun Spec_CBehave Proof_CGen2 Proof_LLVM Proof_LLVM3.
Import ListNotations.
Open Scope list_scope.
Open Scope Z_scope.

Section Operators.
Variable H : host.
Variable ys : list symbol.
Local Notation val := (sv (h_float H)).
Local Notation cval := (cval H).
Local Notation eval := (eval H ys (c_exact1 H) (c_exact2 H)).
Local Notation typed := (typed ys).

Lemma eval_types : forall x s v s1, eval s x v s1 -> typed x -> of_type H v (x_ty x) = true.
Proof.
  intro x. induction x as [t k ty c|t v0 ty|t k args ty F|o r ty c IH|o l r ty c IHl IHr] using texpr_ind'; intros s v s1 E T; inversion E; subst; cbn [x_ty]; auto.
  - destruct T as (T & U). assert (ET : ty = x_ty r) by (destruct o; try contradiction; destruct U; congruence). subst ty.
    eapply unary_type; [|eapply IH; eauto|eassumption]. destruct o; try contradiction; tauto.
  - destruct T as (TL & TR & EQ & O). eapply binary_type; [exact O| | |eassumption]; [rewrite <- EQ; eapply IHl; eauto|eapply IHr; eauto].
Qed.

Lemma eval_un : forall s o x ty c v' s1, eval s (XUn o x ty c) v' s1 -> exists v, eval s x v s1 /\ c_exact1 H o v /\ unary H o v = Some v'.
Proof. intros s o x ty c v' s1 E. inversion E; subst. eexists. eauto. Qed.
Lemma eval_bin : forall s o x y ty c v s2, eval s (XBin o x y ty c) v s2 -> exists a b s1,
  eval s x a s1 /\ eval s1 y b s2 /\ c_exact2 H o a b /\ binary H o a b = Some v.
Proof. intros s o x y ty c v s2 E. inversion E; subst. do 3 eexists. eauto. Qed.

(** The value v of the expression x as C has it. *)
Definition rep (x : texpr) (v : val) (w : cval) : Prop :=
  match v with
  | SvInt z => exists t, w = VI H t z /\ (t = CLong \/ t = CInt /\ wide x = false)
  | SvFloat f => w = VD H f
  | SvBool b => exists t, w = VI H t (if b then 1 else 0)
  | SvRune c => exists t, w = VI H t (Z.of_N c)
  | SvStr s => w = VS H s
  | SvVoid => w = VV H
  end.

Lemma wrap64_id : forall z, in64 z = true -> wrap64 z = z.
Proof. intros z I. apply in64_iff in I. unfold wrap64. rewrite Z.mod_small; lia. Qed.
Lemma rune_bound : forall c, (c <? 2 ^ 32)%N = true -> 0 <= Z.of_N c < 2 ^ 32.
Proof. intros c I. apply N.ltb_lt in I. lia. Qed.

Lemma rep_convert : forall x v w t, rep x v w -> of_type H v t = true -> t <> TVoid -> convert H (c_type t) w = Some (in_c H v).
Proof.
  intros x v w t R T NV. destruct v; cbn [rep] in R.
  - destruct R as (ct & -> & _). destruct t; try discriminate T. cbn [c_type convert in_c]. now rewrite wrap64_id.
  - subst w. destruct t; try discriminate T. reflexivity.
  - destruct R as (ct & ->). destruct t; try discriminate T. cbn [c_type convert in_c]. now destruct b.
  - destruct R as (ct & ->). destruct t; try discriminate T. cbn [c_type convert in_c of_type] in *. apply rune_bound in T. rewrite Z.mod_small by exact T. reflexivity.
  - subst w. destruct t; try discriminate T. reflexivity.
  - destruct t; try discriminate T. now elim NV.
Qed.
Lemma in_c_convert : forall v t, of_type H v t = true -> t <> TVoid -> convert H (c_type t) (in_c H v) = Some (in_c H v).
Proof.
  intros v t T NV. destruct v; destruct t; try discriminate T; cbn [c_type convert in_c of_type] in *; try reflexivity.
  - now rewrite wrap64_id.
  - now destruct b.
  - apply rune_bound in T. now rewrite Z.mod_small by exact T.
  - now elim NV.
Qed.
Lemma in_c_is : forall x v, rep x v (in_c H v).
Proof. intros x v. destruct v; cbn [rep in_c]; try reflexivity; eexists; try (split; [reflexivity|now left]); reflexivity. Qed.

(** * Small integers *)

Lemma small_in : forall z r, small_result z = Some r -> r = z /\ in32 z = true.
Proof. intros z r E. unfold small_result in E. destruct (in32 z) eqn:I; inversion E; auto. Qed.
Lemma in32_iff : forall z, in32 z = true <-> - 2 ^ 31 <= z < 2 ^ 31.
Proof. intro z. unfold in32. rewrite andb_true_iff, Z.leb_le, Z.ltb_lt. tauto. Qed.

Lemma wrap_shift : forall x y, 0 <= x -> in64 x = true -> 0 <= y < 64 -> wrap64 (x mod 2 ^ 64 / 2 ^ y) = x / 2 ^ y.
Proof.
  intros x y X I Y. apply in64_iff in I. rewrite (Z.mod_small x) by lia. apply wrap64_id. apply in64_iff.
  assert (P : 0 < 2 ^ y) by (apply Z.pow_pos_nonneg; lia).
  assert (0 <= x / 2 ^ y) by (apply Z.div_pos; lia). assert (x / 2 ^ y <= x) by (apply Z.div_le_upper_bound; [lia|]; nia). lia.
Qed.

Lemma eval_small : forall x s v s1 r, eval s x v s1 -> typed x -> small x = Some r -> v = SvInt r /\ in32 r = true.
Proof.
  intro x. induction x as [t k ty c|t v0 ty|t k args ty F|o a ty c IH|o a b ty c IHl IHr] using texpr_ind'; intros s v s1 r E T S0; cbn [small] in S0; try discriminate S0.
  - destruct v0; try discriminate S0. apply small_in in S0 as (-> & I). inversion E; subst. auto.
  - destruct o; try discriminate S0. destruct (small a) as [z|] eqn:SA; [|discriminate S0]. apply small_in in S0 as (-> & I).
    apply eval_un in E as (v0 & E & _ & U). destruct T as (T & _). destruct (IH _ _ _ _ E T eq_refl) as (-> & _). cbn [unary] in U. unfold fit in U.
    destruct (in64 (- z)); inversion U; auto.
  - destruct (small a) as [x|] eqn:SA; [|discriminate S0]. destruct (small b) as [y|] eqn:SB; [|discriminate S0].
    apply eval_bin in E as (v1 & v2 & s0 & E1 & E2 & H8 & H9). destruct T as (TA & TB & _).
    destruct (IHl _ _ _ _ E1 TA eq_refl) as (-> & I1). destruct (IHr _ _ _ _ E2 TB eq_refl) as (-> & I2).
    apply in32_iff in I1, I2.
    destruct o; try discriminate S0; cbn [binary c_exact2] in *.
    1,2,3: apply small_in in S0 as (-> & I); unfold fit in H9; destruct (in64 _) in H9; inversion H9; auto.
    1: destruct (y =? 0) eqn:Y; [discriminate S0|]; apply small_in in S0 as (-> & I); unfold fit in H9; destruct (in64 _) in H9; inversion H9; auto.
    1: destruct (y =? 0) eqn:Y; [discriminate S0|]; destruct (negb _) in S0; [discriminate S0|]; apply small_in in S0 as (-> & I); unfold fit in H9; destruct (in64 _) in H9; inversion H9; auto.
    + destruct ((0 <=? x) && (0 <=? y) && (y <? 32)) eqn:B; [|discriminate S0]. apply small_in in S0 as (-> & I).
      unfold shift in H9. destruct ((0 <=? y) && (y <? 64)); inversion H9. destruct H8 as (P & Q). rewrite wrap64_id by exact Q. auto.
    + destruct ((0 <=? x) && (0 <=? y) && (y <? 32)) eqn:B; [|discriminate S0]. apply small_in in S0 as (-> & I).
      apply andb_true_iff in B as (B & B3). apply andb_true_iff in B as (B1 & B2). apply Z.leb_le in B1, B2. apply Z.ltb_lt in B3.
      unfold shift in H9. destruct ((0 <=? y) && (y <? 64)); inversion H9. rewrite wrap_shift; auto; try lia. apply in64_iff. lia.
Qed.

(** * Unary operators *)

Lemma within_long : forall z, in64 z = true -> within CLong z = true.
Proof. intros z I. exact I. Qed.
Lemma within_int : forall z, in32 z = true -> within CInt z = true.
Proof. intros z I. exact I. Qed.

Lemma unary_sim : forall o op x ty c s s1 v v' w, c_unary o op -> eval s x v s1 -> typed (XUn o x ty c) -> sized (XUn o x ty c) ->
  unary H o v = Some v' -> rep x v w -> exists w', c_unary_value H op w = Some w' /\ rep (XUn o x ty c) v' w'.
Proof.
  intros o op x ty c s s1 v v' w CU E T SZ U R. pose proof (eval_types _ _ _ _ E (proj1 T)) as TV. destruct CU; try (destruct T; contradiction).
  - destruct T as (T & NB & ->). destruct v; try discriminate U; cbn [unary] in U.
    + cbn [rep] in R. destruct R as (t & -> & W). unfold fit in U. destruct (in64 (- z)) eqn:I; inversion U; subst v'. cbn [c_unary_value rep].
      destruct (x_ty x) eqn:XT; try discriminate TV. destruct W as [-> | (-> & W)].
      * exists (VI H CLong (- z)). cbn [result is_signed]. rewrite within_long by exact I. split; [reflexivity|]. eexists. split; [reflexivity|now left].
      * cbn [sized] in SZ. destruct SZ as [SZ|SZ]; [cbn [wide] in SZ; congruence|]. destruct (small (XUn UNeg x TInt c)) as [r|] eqn:SM; [|congruence].
        assert (E2 : eval s (XUn UNeg x TInt c) (SvInt (- z)) s1) by (apply ev_un with (SvInt z); [exact E|exact Logic.I|cbn [unary]; unfold fit; now rewrite I]).
        assert (T2 : typed (XUn UNeg x TInt c)) by (split; [exact T|split; [left; exact XT|now rewrite XT]]).
        destruct (eval_small _ _ _ _ _ E2 T2 SM) as (EQ & I2).
        inversion EQ; subst r. exists (VI H CInt (- z)). cbn [result is_signed]. rewrite within_int by exact I2. split; [reflexivity|].
        eexists. split; [reflexivity|]. right. split; [reflexivity|exact W].
    + inversion U; subst v'. cbn [rep] in *. subst w. eexists. split; reflexivity.
  - destruct v; try discriminate U. inversion U; subst v'. cbn [rep] in *. destruct R as (t & ->). eexists. split; [reflexivity|]. exists CInt. now destruct b.
Qed.

(** * Binary operators *)

Lemma common_long : forall t1 t2, t1 = CLong \/ t1 = CInt -> t2 = CLong \/ t2 = CInt -> is_signed (common t1 t2) = true /\
  (common t1 t2 = CLong \/ common t1 t2 = CInt /\ t1 = CInt /\ t2 = CInt).
Proof. intros t1 t2 [-> | ->] [-> | ->]; cbn; auto. Qed.
Lemma cast_signed : forall t z, is_signed t = true -> cast t z = z.
Proof. intros t z S0. unfold cast. now rewrite S0. Qed.
Lemma cast_low : forall t1 t2 z, 0 <= z < 2 ^ 32 -> cast (common t1 t2) z = z.
Proof. intros t1 t2 z B. unfold cast. destruct (common t1 t2); cbn [is_signed bits]; auto; apply Z.mod_small; lia. Qed.
Lemma result_int : forall x t z, t = CLong \/ t = CInt /\ wide x = false -> in64 z = true -> (t = CInt -> in32 z = true) ->
  exists w, result H t z = Some w /\ rep x (SvInt z) w.
Proof.
  intros x t z T I S0. exists (VI H t z). unfold result. destruct T as [-> | (-> & W)]; cbn [is_signed].
  - rewrite within_long by exact I. split; [reflexivity|]. eexists. split; [reflexivity|now left].
  - rewrite within_int by auto. split; [reflexivity|]. eexists. split; [reflexivity|auto].
Qed.

Lemma binary_sim : forall o op x y ty c s s1 s2 a b v va vb, c_binary o op -> o <> BAnd -> o <> BOr -> (x_ty x = TStr -> o <> BIs /\ o <> BIsnt) ->
  eval s x a s1 -> eval s1 y b s2 -> typed (XBin o x y ty c) -> sized (XBin o x y ty c) -> c_exact2 H o a b -> binary H o a b = Some v ->
  rep x a va -> rep y b vb -> exists w, c_binary_value H op va vb = Some w /\ rep (XBin o x y ty c) v w.
Proof.
  intros o op x y ty c s s1 s2 a b v va vb CB NA NO NS EX EY T SZ OK B RX RY.
  pose proof T as (TX & TY & EQ & OT).
  pose proof (eval_types _ _ _ _ EX TX) as TVX. pose proof (eval_types _ _ _ _ EY TY) as TVY.
  assert (E2 : eval s (XBin o x y ty c) v s2) by (now apply ev_bin with s1 a b).
  pose proof (eval_types _ _ _ _ E2 T) as TV.
  destruct a as [z1|f1|b1|c1|t1|].
  - destruct b as [z2| | | | |]; try (destruct o; discriminate B). cbn [rep] in RX, RY. destruct RX as (t1 & -> & W1), RY as (t2 & -> & W2).
    assert (L1 : t1 = CLong \/ t1 = CInt) by tauto. assert (L2 : t2 = CLong \/ t2 = CInt) by tauto.
    destruct (common_long t1 t2 L1 L2) as (SG & CM).
    assert (IX : in64 z1 = true) by (destruct (x_ty x); try discriminate TVX; exact TVX).
    assert (IY : in64 z2 = true) by (destruct (x_ty y); try discriminate TVY; exact TVY).
    cbn [c_binary_value]. unfold c_integers. rewrite !(cast_signed _ _ SG).
    assert (SMALL : forall z, v = SvInt z -> in64 z = true /\ (wide (XBin o x y ty c) = false -> in32 z = true)).
    { intros z ->. destruct ty; try discriminate TV. split; [exact TV|]. intro WF. cbn [sized] in SZ. destruct SZ as [SZ|SZ]; [congruence|].
      destruct (small (XBin o x y TInt c)) as [r|] eqn:SM; [|congruence]. destruct (eval_small _ _ _ _ _ E2 T SM) as (Q & I32). inversion Q; subst r. exact I32. }
    destruct CB; cbn [binary] in B; try congruence;
      (* comparisons *)
      try (inversion B; subst v; eexists; split; [reflexivity|]; cbn [rep truth_value]; exists CInt; match goal with |- context [if ?g then _ else _] => now destruct g end).
    all: cbn [equal option_map] in B; try (inversion B; subst v; eexists; split; [reflexivity|]; cbn [rep truth_value]; exists CInt; match goal with |- context [if ?g then _ else _] => now destruct g end).
    1,2,3: unfold fit in B; destruct (in64 _) eqn:I64 in B; inversion B; subst v; destruct (SMALL _ eq_refl) as (S1 & S2); apply result_int; auto;
      [destruct CM as [-> | (-> & -> & ->)]; [now left|right; split; [reflexivity|]; cbn [wide]; destruct W1 as [W1|(_ & W1)]; [discriminate W1|]; destruct W2 as [W2|(_ & W2)]; [discriminate W2|]; now rewrite W1, W2]
      |intro CI; apply S2; destruct CM as [CM|(_ & -> & ->)]; [congruence|]; cbn [wide]; destruct W1 as [W1|(_ & W1)]; [discriminate W1|]; destruct W2 as [W2|(_ & W2)]; [discriminate W2|]; now rewrite W1, W2].
    + destruct (z2 =? 0); [discriminate B|]. unfold fit in B; destruct (in64 _) eqn:I64 in B; inversion B; subst v; destruct (SMALL _ eq_refl) as (S1 & S2); apply result_int; auto;
      [destruct CM as [-> | (-> & -> & ->)]; [now left|right; split; [reflexivity|]; cbn [wide]; destruct W1 as [W1|(_ & W1)]; [discriminate W1|]; destruct W2 as [W2|(_ & W2)]; [discriminate W2|]; now rewrite W1, W2]
      |intro CI; apply S2; destruct CM as [CM|(_ & -> & ->)]; [congruence|]; cbn [wide]; destruct W1 as [W1|(_ & W1)]; [discriminate W1|]; destruct W2 as [W2|(_ & W2)]; [discriminate W2|]; now rewrite W1, W2].
    + destruct (z2 =? 0) eqn:Z0; [discriminate B|]. cbn [orb c_exact2] in *.
      assert (WQ : within (common t1 t2) (Z.quot z1 z2) = true).
      { destruct CM as [-> | (-> & -> & ->)]; [exact OK|].
        destruct W1 as [W1|(_ & W1)]; [discriminate W1|]. destruct W2 as [W2|(_ & W2)]; [discriminate W2|].
        assert (TYI : ty = TInt) by (unfold fit in B; destruct (in64 _) in B; inversion B; subst v; destruct ty; try discriminate TV; reflexivity). subst ty.
        cbn [sized wide] in SZ. rewrite W1, W2 in SZ. destruct SZ as [SZ|SZ]; [discriminate SZ|]. cbn [small] in SZ.
        destruct (small x) as [r1|] eqn:S1; [|congruence]. destruct (small y) as [r2|] eqn:S2; [|congruence].
        destruct (eval_small _ _ _ _ _ EX TX S1) as (Q1 & _). destruct (eval_small _ _ _ _ _ EY TY S2) as (Q2 & _). inversion Q1; inversion Q2; subst r1 r2.
        rewrite Z0 in SZ. cbn [orb] in SZ. destruct (in32 (Z.quot z1 z2)) eqn:I3; [exact I3|]. cbn [negb] in SZ. congruence. }
      rewrite WQ. cbn [negb]. unfold fit in B; destruct (in64 _) eqn:I64 in B; inversion B; subst v; destruct (SMALL _ eq_refl) as (S1 & S2); apply result_int; auto;
      [destruct CM as [-> | (-> & -> & ->)]; [now left|right; split; [reflexivity|]; cbn [wide]; destruct W1 as [W1|(_ & W1)]; [discriminate W1|]; destruct W2 as [W2|(_ & W2)]; [discriminate W2|]; now rewrite W1, W2]
      |intro CI; apply S2; destruct CM as [CM|(_ & -> & ->)]; [congruence|]; cbn [wide]; destruct W1 as [W1|(_ & W1)]; [discriminate W1|]; destruct W2 as [W2|(_ & W2)]; [discriminate W2|]; now rewrite W1, W2].
    + (* shift to the left *)
      cbn [c_exact2] in OK. destruct OK as (P & Q). unfold shift in B. destruct ((0 <=? z2) && (z2 <? 64)) eqn:BD; inversion B; subst v. rewrite (wrap64_id _ Q) in *.
      destruct (SMALL _ eq_refl) as (S1 & S2). apply andb_true_iff in BD as (B1 & B2). cbn [wide] in S2.
      assert (G : (0 <=? z2) && (z2 <? bits t1) && (negb (is_signed t1) || (0 <=? z1)) = true).
      { rewrite B1. rewrite (proj2 (Z.leb_le 0 z1) P). rewrite orb_true_r, andb_true_r. cbn [andb]. destruct W1 as [-> | (-> & W1)]; [exact B2|]. cbn [bits].
        assert (TYI : ty = TInt) by (destruct ty; try discriminate TV; reflexivity). subst ty. cbn [sized wide] in SZ. destruct SZ as [SZ|SZ]; [congruence|]. cbn [small] in SZ.
        destruct (small x) as [r1|] eqn:S3; [|congruence]. destruct (small y) as [r2|] eqn:S4; [|congruence].
        destruct (eval_small _ _ _ _ _ EX TX S3) as (Q1 & _). destruct (eval_small _ _ _ _ _ EY TY S4) as (Q2 & _). inversion Q1; inversion Q2; subst r1 r2.
        destruct (z2 <? 32); [reflexivity|]. rewrite andb_false_r in SZ. congruence. }
      rewrite G. apply result_int; auto. intros ->. apply S2. destruct W1 as [W1|(_ & W1)]; [discriminate W1|exact W1].
    + (* shift to the right *)
      cbn [c_exact2] in OK. unfold shift in B. destruct ((0 <=? z2) && (z2 <? 64)) eqn:BD; [|discriminate B]. apply andb_true_iff in BD as (B1 & B2).
      pose proof B1 as B1'. pose proof B2 as B2'. apply Z.leb_le in B1'. apply Z.ltb_lt in B2'. rewrite (wrap_shift z1 z2 OK IX) in B by lia. inversion B; subst v.
      assert (G : (0 <=? z2) && (z2 <? bits t1) && (0 <=? z1) = true).
      { rewrite B1. rewrite (proj2 (Z.leb_le 0 z1) OK). rewrite andb_true_r. cbn [andb]. destruct W1 as [-> | (-> & W1)]; [exact B2|]. cbn [bits].
        assert (TYI : ty = TInt) by (destruct ty; try discriminate TV; reflexivity). subst ty. cbn [sized wide] in SZ. destruct SZ as [SZ|SZ]; [congruence|]. cbn [small] in SZ.
        destruct (small x) as [r1|] eqn:S3; [|congruence]. destruct (small y) as [r2|] eqn:S4; [|congruence].
        destruct (eval_small _ _ _ _ _ EX TX S3) as (Q1 & _). destruct (eval_small _ _ _ _ _ EY TY S4) as (Q2 & _). inversion Q1; inversion Q2; subst r1 r2.
        destruct (z2 <? 32); [reflexivity|]. rewrite andb_false_r in SZ. congruence. }
      rewrite G. eexists. split; [reflexivity|]. cbn [rep]. exists t1. split; [reflexivity|]. cbn [wide]. exact W1.
  - destruct b as [|f2| | | |]; try (destruct o; discriminate B). cbn [rep] in RX, RY. subst va vb.
    destruct CB; cbn [binary equal option_map c_exact2] in *; try discriminate B; try contradiction; inversion B; subst v; eexists; (split; [reflexivity|]); cbn [rep]; auto;
      cbn [truth_value]; exists CInt; match goal with |- context [if ?g then _ else _] => now destruct g end.
  - destruct b as [| |b2| | |]; try (destruct o; discriminate B). cbn [rep] in RX, RY. destruct RX as (t1 & ->), RY as (t2 & ->).
    cbn [c_binary_value]. unfold c_integers. rewrite !cast_low by (destruct b1, b2; lia).
    destruct CB; cbn [binary equal option_map] in B; try discriminate B; try congruence; inversion B; subst v; eexists; (split; [reflexivity|]); cbn [rep truth_value];
      [exists CInt|exists CInt|exists (common t1 t2)]; now destruct b1, b2.
  - destruct b as [| | |c2| |]; try (destruct o; discriminate B). cbn [rep] in RX, RY. destruct RX as (t1 & ->), RY as (t2 & ->).
    assert (B1 : 0 <= Z.of_N c1 < 2 ^ 32) by (destruct (x_ty x); try discriminate TVX; apply rune_bound; exact TVX).
    assert (B2 : 0 <= Z.of_N c2 < 2 ^ 32) by (destruct (x_ty y); try discriminate TVY; apply rune_bound; exact TVY).
    cbn [c_binary_value]. unfold c_integers. rewrite !cast_low by assumption.
    assert (EQB : (Z.of_N c1 =? Z.of_N c2) = (c1 =? c2)%N) by (destruct (c1 =? c2)%N eqn:EC; [apply N.eqb_eq in EC; subst; apply Z.eqb_refl|apply N.eqb_neq in EC; apply Z.eqb_neq; lia]).
    destruct CB; cbn [binary equal option_map] in B; try discriminate B; inversion B; subst v; eexists; (split; [reflexivity|]); cbn [rep truth_value]; exists CInt; rewrite EQB; now destruct (c1 =? c2)%N.
  - destruct b as [| | | |t2|]; try (destruct o; discriminate B). destruct (x_ty x) eqn:XT; try discriminate TVX. destruct (NS eq_refl) as (N1 & N2).
    destruct CB; cbn [binary equal option_map] in B; try discriminate B; congruence.
  - destruct CB; destruct b; discriminate B.
Qed.
End Operators.
