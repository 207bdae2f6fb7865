(** More steps do not change the answer of a run. *)
From Coq Require Import List Arith NArith ZArith Bool Lia.
From Verif Require Import Base Model_Literal Model_Parse Spec_Parse Model_Sem Spec_Sem Spec_Sem2 Spec_Run Spec_Safe.
Import ListNotations.
Open Scope list_scope.
Open Scope nat_scope.

Definition stays {A} (a b : answer A) : Prop := a <> Later -> b = a.
Lemma stays_refl : forall A (a : answer A), stays a a.
Proof. intros A a _. reflexivity. Qed.
Lemma stays_next : forall A B (x x' : answer A) (k k' : A -> answer B), stays x x' -> (forall a, stays (k a) (k' a)) -> stays (next x k) (next x' k').
Proof.
  intros A B x x' k k' X K. destruct x as [a|f| |]; cbn [next].
  - rewrite (X ltac:(discriminate)). apply K.
  - rewrite (X ltac:(discriminate)). apply stays_refl.
  - rewrite (X ltac:(discriminate)). apply stays_refl.
  - intro N1. now destruct N1.
Qed.

Section Steps.
Variable H : host.
Variable ys : list symbol.
Local Notation run_expr := (run_expr H ys).
Local Notation run_exprs := (run_exprs H ys).
Local Notation run_block := (run_block H ys).
Local Notation run_branch := (run_branch H ys).
Local Notation run_otherwise := (run_otherwise H ys).
Local Notation run_after := (run_after H ys).

Ltac go := first [apply stays_refl | apply stays_next; [go|intro; go] | solve [auto]].

Lemma run_stable : forall f g, f <= g ->
  (forall s x, stays (run_expr f s x) (run_expr g s x)) /\
  (forall s l, stays (run_exprs f s l) (run_exprs g s l)) /\
  (forall s l, stays (run_block f s l) (run_block g s l)) /\
  (forall s n r, stays (run_branch f s n r) (run_branch g s n r)) /\
  (forall s r, stays (run_otherwise f s r) (run_otherwise g s r)) /\
  (forall s o r, stays (run_after f s o r) (run_after g s o r)).
Proof.
  induction f as [|f IH]; intros g L.
  { repeat match goal with |- _ /\ _ => split end; intros; intro N1; now destruct N1. }
  destruct g as [|g]; [lia|]. destruct (IH g ltac:(lia)) as (I1 & I2 & I3 & I4 & I5 & I6).
  refine (conj _ (conj _ (conj _ (conj _ (conj _ _))))).
  - intros s x. cbn [Spec_Safe.run_expr]. destruct x as [t k ty c|t w ty|t k args ty|o x ty c|o x y ty c]; [go|go| |go|].
    + apply stays_next; [apply I2|]. intros (vs & s1). destruct (is_external ys k); [go|]. destruct (lookup (r_funs H s1) k) as [(ps & body)|]; [|go].
      destruct (_ =? _); [|go]. apply stays_next; [apply I3|]. intros q. go.
    + apply stays_next; [apply I1|]. intro p. apply stays_next; [apply I1|]. intro q. go.
  - intros s l. cbn [Spec_Safe.run_exprs]. destruct l as [|x l]; [go|]. apply stays_next; [apply I1|]. intro p. apply stays_next; [apply I2|]. intro q. go.
  - intros s l. cbn [Spec_Safe.run_block]. destruct l as [|n r]; [go|].
    destruct (tn_type n); try go; try apply I3; try apply I4.
    all: destruct (tn_pay n); try go.
    all: try (match goal with |- context [is_external ys ?k] => destruct (is_external ys k); apply I3 end).
    all: apply stays_next; [apply I1|].
    all: first [intro p; match goal with |- context [assign H ?a ?b ?c] => destruct (assign H a b c) end; solve [go] | intros (v & s1); destruct v as [z|z|[|]|z|z|]; try go].
    all: try (apply stays_next; [apply I3|]; intros (o & s2); destruct o; go).
  - intros s n r. cbn [Spec_Safe.run_branch]. destruct (tn_pay n); try go. apply stays_next; [apply I1|]. intros (v & s1). destruct v as [z|z|[|]|z|z|]; go.
  - intros s r. cbn [Spec_Safe.run_otherwise]. destruct r as [|n r]; [apply I3|]. destruct (tn_type n); try apply I3; [apply I4| |apply I5].
    apply stays_next; [apply I3|]. intro q. apply I6.
  - intros s o r. cbn [Spec_Safe.run_after]. destruct o; go.
Qed.
Lemma program_stable : forall f g l o, f <= g -> stays (run_program H ys f l o) (run_program H ys g l o).
Proof. intros f g l o L. unfold run_program. apply stays_next; [apply (run_stable f g L)|]. intro q. apply stays_refl. Qed.
Lemma program_one : forall f g l o, run_program H ys f l o <> Later -> run_program H ys g l o <> Later -> run_program H ys f l o = run_program H ys g l o.
Proof.
  intros f g l o F G. destruct (Nat.le_ge_cases f g) as [L|L].
  - symmetry. now apply (program_stable f g l o L).
  - now apply (program_stable g f l o L).
Qed.
End Steps.
