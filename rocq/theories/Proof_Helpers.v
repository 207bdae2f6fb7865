(** Proofs about the helper functions of generated programs. *)
From Coq Require Import List Arith NArith ZArith Bool Lia.
From Verif Require Import Base Spec_Run Model_Helpers.
Import ListNotations.
Open Scope Z_scope.

Lemma in64_iff : forall z, in64 z = true <-> - 2 ^ 63 <= z < 2 ^ 63.
Proof. intro z. unfold in64. rewrite andb_true_iff, Z.leb_le, Z.ltb_lt. tauto. Qed.

(** A smaller power of the same number fits as well. *)
Lemma pow_abs_le : forall b i j, 0 <= i -> i < j -> 2 <= Z.abs b -> 2 * Z.abs (b ^ i) <= Z.abs (b ^ j).
Proof.
  intros b i j I L B. rewrite !Z.abs_pow. replace j with (i + 1 + (j - i - 1)) by lia.
  rewrite Z.pow_add_r, Z.pow_add_r, Z.pow_1_r by lia.
  assert (P : 0 <= Z.abs b ^ i) by (apply Z.pow_nonneg; lia).
  assert (Q : 1 <= Z.abs b ^ (j - i - 1)). { assert (0 < Z.abs b ^ (j - i - 1)) by (apply Z.pow_pos_nonneg; lia). lia. }
  generalize dependent (Z.abs b ^ (j - i - 1)). generalize dependent (Z.abs b ^ i). generalize dependent (Z.abs b). clear.
  intros b B p P q Q. assert (A : p * 2 <= p * b) by (apply Z.mul_le_mono_nonneg_l; lia).
  assert (C : p * b * 1 <= p * b * q) by (apply Z.mul_le_mono_nonneg_l; lia). lia.
Qed.
Lemma pow_fits : forall b i j, 1 <= i -> i <= j -> in64 b = true -> in64 (b ^ j) = true -> in64 (b ^ i) = true.
Proof.
  intros b i j I L B F. destruct (Z.eq_dec i j) as [->|NE]; [exact F|]. apply in64_iff in F. apply in64_iff. apply in64_iff in B.
  destruct (Z_le_gt_dec 2 (Z.abs b)) as [G|G].
  - assert (A : 2 * Z.abs (b ^ i) <= Z.abs (b ^ j)) by (apply pow_abs_le; lia). lia.
  - assert (C : b = 0 \/ b = 1 \/ b = -1) by lia. destruct C as [-> | [-> | ->]].
    + rewrite Z.pow_0_l by lia. lia.
    + rewrite Z.pow_1_l by lia. lia.
    + assert (Z.abs ((-1) ^ i) = 1) by (rewrite Z.abs_pow; change (Z.abs (-1)) with 1; apply Z.pow_1_l; lia). lia.
Qed.

Lemma pow_loop_value : forall fuel i exp base, 1 <= i -> i <= exp -> exp - i <= Z.of_nat fuel -> in64 base = true -> in64 (base ^ exp) = true ->
  pow_loop fuel i exp base (base ^ i) = Some (Ok (base ^ exp)).
Proof.
  induction fuel as [|f IH]; intros i exp base I L E B F; cbn [pow_loop]; destruct (i <? exp) eqn:C.
  - apply Z.ltb_lt in C. lia.
  - apply Z.ltb_ge in C. replace exp with i by lia. reflexivity.
  - apply Z.ltb_lt in C. unfold mul64. replace (base ^ i * base) with (base ^ (i + 1)) by (rewrite Z.pow_add_r, Z.pow_1_r; lia).
    rewrite (pow_fits base (i + 1) exp) by (try lia; assumption). apply IH; try lia; assumption.
  - apply Z.ltb_ge in C. replace exp with i by lia. reflexivity.
Qed.
Lemma int_pow_value : forall base exp, in64 base = true -> 1 <= exp -> in64 (base ^ exp) = true ->
  int_pow base exp = Some (Ok (base ^ exp)).
Proof.
  intros base exp B E F. unfold int_pow. pose proof (pow_loop_value (Z.to_nat exp) 1 exp base) as P. rewrite Z.pow_1_r in P.
  apply P; try lia; assumption.
Qed.
Lemma int_pow_low : forall base exp, exp <= 1 -> int_pow base exp = Some (Ok base).
Proof.
  intros base exp E. unfold int_pow. destruct (Z.to_nat exp); cbn [pow_loop]; destruct (1 <? exp) eqn:C; auto; apply Z.ltb_lt in C; lia.
Qed.
(** The loop always ends, and a result that is not the power means an overflow. *)
Lemma pow_loop_ends : forall fuel i exp base r, exp - i <= Z.of_nat fuel -> exists x, pow_loop fuel i exp base r = Some x.
Proof.
  induction fuel as [|f IH]; intros i exp base r E; cbn [pow_loop]; destruct (i <? exp) eqn:C; eauto.
  - apply Z.ltb_lt in C. lia.
  - destruct (mul64 r base); eauto. apply IH. lia.
Qed.
Lemma pow_loop_ok : forall fuel i exp base z, 1 <= i -> i <= exp -> pow_loop fuel i exp base (base ^ i) = Some (Ok z) ->
  z = base ^ exp /\ (i < exp -> in64 (base ^ exp) = true).
Proof.
  induction fuel as [|f IH]; intros i exp base z I L E; cbn [pow_loop] in E; destruct (i <? exp) eqn:C; try discriminate E.
  - apply Z.ltb_ge in C. replace exp with i by lia. split; [congruence|lia].
  - apply Z.ltb_lt in C. unfold mul64 in E. replace (base ^ i * base) with (base ^ (i + 1)) in E by (rewrite Z.pow_add_r, Z.pow_1_r; lia).
    destruct (in64 (base ^ (i + 1))) eqn:F; [|discriminate E]. destruct (IH (i + 1) exp base z) as (A & B); try lia; try assumption.
    split; [exact A|]. intros _. destruct (Z.eq_dec (i + 1) exp) as [<-|NE]; [exact F|]. apply B. lia.
  - apply Z.ltb_ge in C. replace exp with i by lia. split; [congruence|lia].
Qed.

Definition no_nul (s : text) : Prop := ~ In 0%N s.
Lemma no_nul_forallb : forall s, forallb (fun c => negb (c =? 0)%N) s = true <-> no_nul s.
Proof.
  intro s. unfold no_nul. rewrite forallb_forall. split.
  - intros F I. apply F in I. discriminate I.
  - intros NI x I. destruct (x =? 0)%N eqn:E; [apply N.eqb_eq in E; subst; contradiction|reflexivity].
Qed.
Lemma strcmp_equal : forall a b, no_nul a -> no_nul b -> strcmp a b = text_eqb a b.
Proof.
  unfold no_nul. induction a as [|c a IH]; intros b NA NB; destruct b as [|d b]; cbn [strcmp first_char text_eqb tl].
  - reflexivity.
  - destruct (d =? 0)%N eqn:E; [apply N.eqb_eq in E; subst; exfalso; apply NB; now left|reflexivity].
  - destruct (c =? 0)%N eqn:E; [apply N.eqb_eq in E; subst; exfalso; apply NA; now left|reflexivity].
  - destruct (c =? 0)%N eqn:E; [apply N.eqb_eq in E; subst; exfalso; apply NA; now left|].
    destruct (d =? 0)%N eqn:E'; [apply N.eqb_eq in E'; subst; exfalso; apply NB; now left|]. cbn [negb andb].
    destruct (c =? d)%N; cbn [negb andb]; [|reflexivity]. apply IH; intro I; [apply NA|apply NB]; now right.
Qed.
(** In general only the characters before the first 0 count. *)
Fixpoint upto0 (s : text) : text := match s with [] => [] | c :: r => if (c =? 0)%N then [] else c :: upto0 r end.
Lemma strcmp_upto0 : forall a b, strcmp a b = text_eqb (upto0 a) (upto0 b).
Proof.
  induction a as [|c a IH]; intro b; destruct b as [|d b]; cbn [strcmp first_char upto0 tl].
  - reflexivity.
  - now destruct (d =? 0)%N.
  - destruct (c =? 0)%N; reflexivity.
  - destruct (c =? 0)%N eqn:E, (d =? 0)%N eqn:E'; cbn [negb andb text_eqb]; try reflexivity.
    destruct (c =? d)%N; cbn [negb andb]; [apply IH|reflexivity].
Qed.
