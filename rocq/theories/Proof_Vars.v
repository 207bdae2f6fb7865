(** The records for variables are those of the definitions that can be reached. *)
From Coq Require Import List Arith NArith Bool Lia.
From Verif Require Import Base Model_Token Model_Parse Model_Sem Spec_Sem Proof_Sem8 Model_Where Spec_Where Proof_Where Model_Vars Spec_Vars.
Import ListNotations.
Open Scope list_scope.
Open Scope nat_scope.

Section Vars.
Variable ys : list symbol.
Local Notation gen := (gen_node_v ys).

Definition found (c : dscope) (f : option nat) (l : list tnode) (r : vrec) : Prop :=
  exists path m, reached ys l path m /\ describes ys (scope_at c path) (function_at f path) m r.
Definition adds (s s' : vst) (Q : vrec -> Prop) : Prop :=
  e_scope s' = e_scope s /\ e_func s' = e_func s /\ forall r, In r (e_recs s') <-> In r (e_recs s) \/ Q r.
Definition inner (s : vst) (n : tnode) (r : vrec) : Prop :=
  exists f path m, opens ys n f /\ reached ys (tn_child n) path m /\
    describes ys (scope_at (e_scope s) ((n, f) :: path)) (function_at (e_func s) ((n, f) :: path)) m r.

Lemma adds_weaken : forall s s' Q R, adds s s' Q -> (forall r, Q r <-> R r) -> adds s s' R.
Proof. intros s s' Q R (A & B & C) E. split; [exact A|]. split; [exact B|]. intro r. now rewrite C, E. Qed.
Lemma adds_none : forall s (Q : vrec -> Prop), (forall r, ~ Q r) -> adds s s Q.
Proof. intros s Q E. split; [reflexivity|]. split; [reflexivity|]. intro r. specialize (E r). tauto. Qed.
Lemma adds_then : forall s1 s2 s3 Q R, adds s1 s2 Q -> adds s2 s3 R -> adds s1 s3 (fun r => Q r \/ R r).
Proof. intros s1 s2 s3 Q R (A & B & C) (A2 & B2 & C2). split; [congruence|]. split; [congruence|]. intro r. rewrite C2, C. tauto. Qed.
Lemma record_adds : forall x s, adds s (record x s) (fun r => r = x).
Proof. intros x s. split; [reflexivity|]. split; [reflexivity|]. intro r. cbn [record e_recs]. rewrite in_app_iff. cbn [In]. intuition. Qed.

Lemma sym_line_of : forall k n, sym_line ys k = n <-> line_of ys k n.
Proof.
  intros k n. unfold sym_line, line_of. destruct (nth_error ys k) as [y|]; split.
  - intros <-. left. eauto.
  - intros [(z & E & ->)|(E & _)]; [now injection E as <-|discriminate E].
  - intros <-. now right.
  - intros [(z & E & _)|(_ & ->)]; [discriminate E|reflexivity].
Qed.
Lemma sym_const_constant : forall k, sym_const ys k = true <-> constant ys k.
Proof.
  intro k. unfold sym_const, constant. destruct (nth_error ys k) as [[a b kd]|]; [|split; [discriminate|intros (y & v & E & _); discriminate E]].
  destruct kd as [v|f|z|z]; split; intro H; try discriminate H;
    try (destruct H as (y & v0 & E & K & C); injection E as <-; cbn in K; first [discriminate K|now injection K as <-]).
  exists (mksym a b (KVar v)), v. auto.
Qed.

Lemma params_add : forall ks s line i, adds s (param_recs s line i ks)
  (fun r => exists j k, nth_error ks j = Some k /\ r = mkvrec k (S (i + j)) (Some (e_scope s)) line PCell (e_func s)).
Proof.
  induction ks as [|k ks IH]; intros s line i; cbn [param_recs].
  - apply adds_none. intros r (j & k & E & _). destruct j; discriminate E.
  - eapply adds_weaken; [exact (adds_then _ _ _ _ _ (record_adds _ s) (IH _ line (i + 1)))|]. intro r. cbn [record e_scope e_func]. split.
    + intros [->|(j & k0 & E & ->)]; [exists 0, k; split; [reflexivity|f_equal; lia]|]. exists (S j), k0. split; [exact E|f_equal; lia].
    + intros ([|j] & k0 & E & ->); [left; injection E as <-; f_equal; lia|]. right. exists j, k0. split; [exact E|f_equal; lia].
Qed.

Definition node_fine (n : tnode) : Prop := forall s, adds s (gen n s) (fun r => describes ys (e_scope s) (e_func s) n r \/ inner s n r).

Lemma tree_fine : forall l, (forall n, In n l -> node_fine n) -> forall s, adds s (gen_tree_v gen l s) (found (e_scope s) (e_func s) l).
Proof.
  induction l as [|n l IH]; intros F s; cbn [gen_tree_v].
  - apply adds_none. intros r (path & m & R & _). inversion R.
  - pose proof (F n (or_introl eq_refl) s) as N. destruct (stops (tn_type n)) eqn:ST.
    + eapply adds_weaken; [exact N|]. intro r. split.
      * intros [O|(f & path & m & O & R & P)]; [exists [], n; split; [constructor|exact O]|]. exists ((n, f) :: path), m. split; [now apply re_inside|exact P].
      * intros (path & m & R & P). inversion R; subst; [now left| |].
        -- right. eexists _, _, _. split; [eassumption|]. split; [eassumption|]. exact P.
        -- apply stops_jump in ST. contradiction.
    + pose proof N as (K1 & K2 & _). specialize (IH (fun m M => F m (or_intror M)) (gen n s)). rewrite K1, K2 in IH.
      eapply adds_weaken; [exact (adds_then _ _ _ _ _ N IH)|]. intro r. split.
      * intros [[O|(f & path & m & O & R & P)]|(path & m & R & P)]; [exists [], n; split; [constructor|exact O]| |].
        -- exists ((n, f) :: path), m. split; [now apply re_inside|exact P].
        -- exists path, m. split; [|exact P]. apply re_later; [|exact R]. intro J. apply stops_jump in J. congruence.
      * intros (path & m & R & P). inversion R; subst; [now left; left| |].
        -- left. right. eexists _, _, _. split; [eassumption|]. split; [eassumption|]. exact P.
        -- right. exists path, m. auto.
Qed.

Ltac no_type T := exfalso; cbn [In] in T; repeat (destruct T as [T|T]; [discriminate T|]); exact T.

Lemma def_fine : forall s tok k e c r, r = def_rec ys s k <-> describes ys (e_scope s) (e_func s) (mktnode N_VAR_DEF tok (XDef k e) c) r.
Proof.
  intros s tok k e c r. unfold def_rec. destruct (e_func s) as [g|].
  - split.
    + intros ->. apply de_local; [now apply sym_line_of|]. destruct (sym_const ys k) eqn:C; cbn [negb].
      * left. split; [now apply sym_const_constant|reflexivity].
      * right. split; [|reflexivity]. intro D. apply sym_const_constant in D. congruence.
    + intro D. inversion D as [|? ? ? ? ? ? ? L P|]; subst. apply sym_line_of in L. subst n. f_equal. destruct P as [(C & ->)|(C & ->)].
      * apply sym_const_constant in C. now rewrite C.
      * destruct (sym_const ys k) eqn:D2; [|reflexivity]. destruct C. now apply sym_const_constant.
  - split.
    + intros ->. apply de_global. now apply sym_line_of.
    + intro D. inversion D as [? ? ? ? ? L| |]; subst. apply sym_line_of in L. now subst n.
Qed.

Lemma node_every : forall n, node_fine n.
Proof.
  intro n. induction n as [ty tok p c F] using tnode_ind'. rewrite Forall_forall in F. intro s.
  assert (NONE : (forall r, ~ describes ys (e_scope s) (e_func s) (mktnode ty tok p c) r) -> (forall f, ~ opens ys (mktnode ty tok p c) f) ->
    adds s s (fun r => describes ys (e_scope s) (e_func s) (mktnode ty tok p c) r \/ inner s (mktnode ty tok p c) r)).
  { intros A B. apply adds_none. intros r [D|(f & path & m & O & _)]; [exact (A r D)|exact (B f O)]. }
  assert (BLOCK : In ty [N_IF; N_ELIF; N_ELSE; N_WHILE; N_NAMESPACE] ->
    adds s (put_scope (gen_tree_v gen c (put_scope s (ScBlock (e_scope s) (node_loc tok)))) (e_scope s))
      (fun r => describes ys (e_scope s) (e_func s) (mktnode ty tok p c) r \/ inner s (mktnode ty tok p c) r)).
  { intros T. pose proof (tree_fine c F (put_scope s (ScBlock (e_scope s) (node_loc tok)))) as (A & B & C). cbn [put_scope e_scope e_func e_recs] in *.
    split; [reflexivity|]. split; [exact B|]. cbn [put_scope e_recs]. intro r. rewrite C. apply or_iff_compat_l. split.
    - intros (path & m & R & P). right. exists None, path, m. split; [now constructor|]. split; [exact R|exact P].
    - intros [D|(f & path & m & O & R & P)]; [inversion D; subst; no_type T|]. inversion O; subst; [|no_type T]. exists path, m. auto. }
  destruct ty; cbn [gen_node_v].
  all: try (apply BLOCK; cbn [In]; tauto).
  all: try (apply NONE; [intros r D; inversion D|intros f O; inversion O as [? ? ? ? T|]; subst; no_type T]; fail).
  - destruct p as [| |k e| | | |]; try (apply NONE; [intros r D; inversion D|intros f O; inversion O as [? ? ? ? T|]; subst; no_type T]; fail).
    all: try (eapply adds_weaken; [apply record_adds|]; intro r; rewrite def_fine; split; [left; eassumption|intros [D|(f & path & m & O & _)]; [exact D|inversion O as [? ? ? ? T|]; subst; no_type T]]).
  - destruct p as [| | | |k ks| |]; try (apply NONE; [intros r D; inversion D|intros f O; inversion O as [? ? ? ? T|]; subst; no_type T]; fail).
    destruct (is_external ys k) eqn:EX.
    + assert (NO : forall f, ~ opens ys (mktnode N_FUNCTION_PROTO tok (XProto k ks) c) f).
      { intros f O. inversion O as [? ? ? ? T|? ? ? ? X]; subst; [no_type T|]. apply external_false in X. congruence. }
      apply NONE; [|exact NO]. intros r D. inversion D; subst. eapply NO. eassumption.
    + assert (OP : opens ys (mktnode N_FUNCTION_PROTO tok (XProto k ks) c) (Some k)) by (constructor; now apply external_false).
      set (s1 := mkvst (ScFun (Some k)) (Some k) (e_recs s)). change (put_scope (put_func s (Some k)) (ScFun (Some k))) with s1.
      pose proof (params_add ks s1 (sym_line ys k) 0) as P1. pose proof P1 as (Q1 & Q2 & _).
      pose proof (tree_fine c F (param_recs s1 (sym_line ys k) 0 ks)) as T1. rewrite Q1, Q2 in T1.
      destruct (adds_then _ _ _ _ _ P1 T1) as (_ & _ & C). split; [reflexivity|]. split; [reflexivity|]. cbn [put_scope put_func e_recs] in *. intro r. rewrite C.
      change (e_recs s1) with (e_recs s). apply or_iff_compat_l. cbn [s1 e_scope e_func]. split.
      * intros [(j & q & E & ->)|(path & m & R & P)]; [left; apply de_param; [exact OP|exact E|now apply sym_line_of]|].
        right. exists (Some k), path, m. split; [exact OP|]. split; [exact R|exact P].
      * intros [D|(f & path & m & O & R & P)].
        -- left. inversion D as [| |? ? ? ? ? i q n O E L]; subst. apply sym_line_of in L. subst n. exists i, q. auto.
        -- right. inversion O as [? ? ? ? T|]; subst; [no_type T|]. exists path, m. auto.
Qed.

Lemma module_recs : forall l r, In r (gen_module_v ys l) <-> found (ScFun None) None l r.
Proof.
  intros l r. unfold gen_module_v. destruct (tree_fine l (fun n _ => node_every n) (mkvst (ScFun None) None [])) as (_ & _ & C). rewrite C. cbn [e_recs e_scope e_func In]. tauto.
Qed.
End Vars.
