(** The locations that are set are those that belong to reachable statements, in their scopes. *)
From Coq Require Import List Arith NArith Bool Lia.
From Verif Require Import Base Model_Token Model_Parse Model_Sem Spec_Sem Proof_Sem8 Proof_CGen2 Model_Where Spec_Where.
Import ListNotations.
Open Scope list_scope.

Section Where.
Variable ys : list symbol.
Local Notation gen := (gen_node_w ys).

(** [w] belongs to [m], with [c] and [f] around it. *)
Definition of_node (c : dscope) (f : option nat) (m : tnode) (w : mark) : Prop := belongs ys m (w_loc w) /\ w_scope w = c /\ w_func w = f.
Definition placed (c : dscope) (f : option nat) (l : list tnode) (w : mark) : Prop :=
  exists path m, reached ys l path m /\ of_node (scope_at c path) (function_at f path) m w.
Definition keeps (s s' : wst) (Q : mark -> Prop) : Prop :=
  d_scope s' = d_scope s /\ d_func s' = d_func s /\ forall w, In w (d_marks s') <-> In w (d_marks s) \/ Q w.

Lemma keeps_weaken : forall s s' Q R, keeps s s' Q -> (forall w, Q w <-> R w) -> keeps s s' R.
Proof. intros s s' Q R (A & B & C) E. split; [exact A|]. split; [exact B|]. intro w. now rewrite C, E. Qed.
Lemma keeps_none : forall s (Q : mark -> Prop), (forall w, ~ Q w) -> keeps s s Q.
Proof. intros s Q E. split; [reflexivity|]. split; [reflexivity|]. intro w. specialize (E w). tauto. Qed.
Lemma keeps_then : forall s1 s2 s3 Q R, keeps s1 s2 Q -> keeps s2 s3 R -> keeps s1 s3 (fun w => Q w \/ R w).
Proof. intros s1 s2 s3 Q R (A & B & C) (A2 & B2 & C2). split; [congruence|]. split; [congruence|]. intro w. rewrite C2, C. tauto. Qed.
Lemma note_keeps : forall l s, keeps s (note l s) (fun w => w_loc w = l /\ w_scope w = d_scope s /\ w_func w = d_func s).
Proof.
  intros l s. split; [reflexivity|]. split; [reflexivity|]. intro w. cbn [note d_marks]. rewrite in_app_iff. cbn [In].
  destruct w as [a b c]. cbn [w_loc w_scope w_func]. split; intros [H|H]; auto.
  - destruct H as [H|[]]. injection H as <- <- <-. auto.
  - destruct H as (-> & -> & ->). auto.
Qed.
Lemma note_all_keeps : forall ls s, keeps s (note_all ls s) (fun w => In (w_loc w) ls /\ w_scope w = d_scope s /\ w_func w = d_func s).
Proof.
  induction ls as [|l ls IH]; intro s.
  - apply keeps_none. intros w ([] & _).
  - unfold note_all in *. cbn [fold_left]. eapply keeps_weaken; [exact (keeps_then _ _ _ _ _ (note_keeps l s) (IH (note l s)))|].
    intro w. cbn [note d_scope d_func In]. split; [intros [(A & B & C)|(A & B & C)]; auto|intros ([A|A] & B & C); auto].
Qed.

Lemma call_locs_calls : forall x l, In l (call_locs x) <-> calls x l.
Proof.
  intro x. induction x as [t k ty c|t v ty|t k args ty F|o r ty c IH|o l0 r ty c IHl IHr] using texpr_ind'; intro l; cbn [call_locs].
  - split; [intros []|intro H; inversion H].
  - split; [intros []|intro H; inversion H].
  - rewrite in_app_iff, in_concat. cbn [In]. rewrite Forall_forall in F. split.
    + intros [(x & X & L)|[<-|[]]]; [|constructor]. apply in_map_iff in X as (a & <- & A). apply (ca_arg _ _ _ _ a); [exact A|]. now apply (F a A).
    + intro H. inversion H as [| ? ? ? ? a ? A C | | |]; subst; [auto|]. left. exists (call_locs a). split; [now apply in_map|]. now apply (F a A).
  - rewrite IH. split; [now constructor|]. intro H. now inversion H; subst.
  - rewrite in_app_iff, IHl, IHr. split; [intros [H|H]; [now apply ca_left|now apply ca_right]|]. intro H. inversion H; subst; auto.
Qed.
Lemma find_starts : forall x l, find_expr_node_location x = l <-> starts x l.
Proof.
  intro x. induction x as [t k ty c|t v ty|t k args ty F|o r ty c IH|o l0 r ty c IHl IHr] using texpr_ind'; intro l; cbn [find_expr_node_location].
  - split; [intros <-; constructor|intro H; now inversion H].
  - split; [intros <-; constructor|intro H; now inversion H].
  - split; [intros <-; constructor|intro H; now inversion H].
  - rewrite IH. split; [now constructor|]. intro H. now inversion H; subst.
  - rewrite IHl. split; [now constructor|]. intro H. now inversion H; subst.
Qed.

Lemma stops_jump : forall n, stops (tn_type n) = true <-> jump n.
Proof. intros [ty tok p c]. unfold jump. cbn [tn_type]. destruct ty; cbn; split; intro H; auto 6; try discriminate H; repeat (destruct H as [H|H]; [discriminate H|]); destruct H. Qed.

Definition node_ok (n : tnode) : Prop := forall s, keeps s (gen n s)
  (fun w => of_node (d_scope s) (d_func s) n w \/ exists f path m, opens ys n f /\ reached ys (tn_child n) path m /\
     of_node (scope_at (d_scope s) ((n, f) :: path)) (function_at (d_func s) ((n, f) :: path)) m w).

Lemma tree_ok : forall l, (forall n, In n l -> node_ok n) -> forall s, keeps s (gen_tree_w gen l s) (placed (d_scope s) (d_func s) l).
Proof.
  induction l as [|n l IH]; intros F s; cbn [gen_tree_w].
  - apply keeps_none. intros w (path & m & R & _). inversion R.
  - pose proof (F n (or_introl eq_refl) s) as N. destruct (stops (tn_type n)) eqn:ST.
    + eapply keeps_weaken; [exact N|]. intro w. split.
      * intros [O|(f & path & m & O & R & P)]; [exists [], n; split; [constructor|exact O]|]. exists ((n, f) :: path), m. split; [now apply re_inside|exact P].
      * intros (path & m & R & P). inversion R; subst; [now left| |].
        -- right. eexists _, _, _. split; [eassumption|]. split; [eassumption|]. exact P.
        -- apply stops_jump in ST. contradiction.
    + pose proof N as (K1 & K2 & _). specialize (IH (fun m M => F m (or_intror M)) (gen n s)). rewrite K1, K2 in IH.
      eapply keeps_weaken; [exact (keeps_then _ _ _ _ _ N IH)|]. intro w. split.
      * intros [[O|(f & path & m & O & R & P)]|(path & m & R & P)]; [exists [], n; split; [constructor|exact O]| |].
        -- exists ((n, f) :: path), m. split; [now apply re_inside|exact P].
        -- exists path, m. split; [|exact P]. apply re_later; [|exact R]. intro J. apply stops_jump in J. congruence.
      * intros (path & m & R & P). inversion R; subst; [now left; left| |].
        -- left. right. eexists _, _, _. split; [eassumption|]. split; [eassumption|]. exact P.
        -- right. exists path, m. auto.
Qed.

Lemma set_keeps : forall s c f Q s', keeps (mkwst c f (d_marks s)) s' Q -> keeps s (mkwst (d_scope s) (d_func s) (d_marks s')) Q.
Proof. intros s c f Q s' (A & B & C). split; [reflexivity|]. split; [reflexivity|]. exact C. Qed.

Lemma external_false : forall k, is_external ys k = false <-> (forall y f, nth_error ys k = Some y -> y_kind y = KFunc f -> f_external f = false).
Proof.
  intro k. unfold is_external. destruct (nth_error ys k) as [[a b c]|]; [|split; [discriminate|reflexivity]]. destruct c as [v|f|z|z]; split; intro H; try reflexivity;
    try (intros y f0 E K; injection E as <-; cbn in K; first [discriminate K|injection K as <-; exact H]). exact (H _ f eq_refl eq_refl).
Qed.

Ltac some_in := cbn [In]; tauto.
Ltac none_in H := exfalso; cbn [In] in H; repeat (destruct H as [H|H]; [discriminate H|]); exact H.

Lemma node_all : forall n, node_ok n.
Proof.
  intro n. induction n as [ty tok p c F] using tnode_ind'. rewrite Forall_forall in F. intro s.
  assert (BLOCK : forall s0, In ty [N_IF; N_ELIF; N_ELSE; N_WHILE; N_NAMESPACE] -> d_scope s0 = d_scope s -> d_func s0 = d_func s ->
    keeps s0 (set_scope (gen_tree_w gen c (set_scope s0 (ScBlock (d_scope s0) (node_loc tok)))) (d_scope s0))
      (fun w => exists f path m, opens ys (mktnode ty tok p c) f /\ reached ys c path m /\
        of_node (scope_at (d_scope s) ((mktnode ty tok p c, f) :: path)) (function_at (d_func s) ((mktnode ty tok p c, f) :: path)) m w)).
  { intros s0 T E1 E2. pose proof (tree_ok c F (set_scope s0 (ScBlock (d_scope s0) (node_loc tok)))) as (A & B & C). cbn [set_scope d_scope d_func d_marks] in *.
    split; [reflexivity|]. split; [exact B|]. cbn [set_scope d_marks]. intro w. rewrite C, E1, E2. apply or_iff_compat_l. split.
    - intros (path & m & R & P). exists None, path, m. split; [now constructor|]. split; [exact R|exact P].
    - intros (f & path & m & O & R & P). inversion O; subst; [|none_in T]. exists path, m. auto. }
  assert (PLAIN : forall s' Q, keeps s s' Q -> ~ In ty [N_IF; N_ELIF; N_ELSE; N_WHILE; N_NAMESPACE; N_FUNCTION_PROTO] -> (forall w, Q w <-> of_node (d_scope s) (d_func s) (mktnode ty tok p c) w) ->
    keeps s s' (fun w => of_node (d_scope s) (d_func s) (mktnode ty tok p c) w \/ exists f path m, opens ys (mktnode ty tok p c) f /\ reached ys c path m /\
     of_node (scope_at (d_scope s) ((mktnode ty tok p c, f) :: path)) (function_at (d_func s) ((mktnode ty tok p c, f) :: path)) m w)).
  { intros s' Q K NT E. eapply keeps_weaken; [exact K|]. intro w. rewrite E. split; [auto|]. intros [H|(f & path & m & O & _)]; [exact H|]. exfalso. apply NT. inversion O; subst; cbn [In] in *; tauto. }
  assert (BOTH : forall s0 Q, In ty [N_IF; N_ELIF; N_ELSE; N_WHILE; N_NAMESPACE] -> keeps s s0 Q -> (forall w, Q w <-> of_node (d_scope s) (d_func s) (mktnode ty tok p c) w) ->
    keeps s (set_scope (gen_tree_w gen c (set_scope s0 (ScBlock (d_scope s0) (node_loc tok)))) (d_scope s0))
     (fun w => of_node (d_scope s) (d_func s) (mktnode ty tok p c) w \/ exists f path m, opens ys (mktnode ty tok p c) f /\ reached ys c path m /\
     of_node (scope_at (d_scope s) ((mktnode ty tok p c, f) :: path)) (function_at (d_func s) ((mktnode ty tok p c, f) :: path)) m w)).
  { intros s0 Q T K E. pose proof K as (K1 & K2 & _). eapply keeps_weaken; [exact (keeps_then _ _ _ _ _ K (BLOCK s0 T K1 K2))|]. intro w. apply or_iff_compat_r, E. }
  assert (NOTHING : (forall l, ~ belongs ys (mktnode ty tok p c) l) -> forall w, False <-> of_node (d_scope s) (d_func s) (mktnode ty tok p c) w).
  { intros N w. split; [intros []|]. intros (B & _). exact (N _ B). }
  assert (ZERO : keeps s s (fun _ => False)) by (apply keeps_none; tauto).
  assert (NODEF : ~ (exists k e, p = XDef k e \/ p = XSet k e) -> In ty [N_VAR_DEF; N_VAR_ASSIGN] -> forall l, ~ belongs ys (mktnode ty tok p c) l).
  { intros NP T l B. inversion B; subst; try (cbn [In] in *; intuition congruence); apply NP; eauto. }
  assert (VALUE : forall k e, p = XDef k e \/ p = XSet k e -> In ty [N_VAR_DEF; N_VAR_ASSIGN] ->
    keeps s (note_all (sym_loc ys k) (note_all (call_locs e) s)) (fun w => of_node (d_scope s) (d_func s) (mktnode ty tok p c) w)).
  { intros k e EP T. pose proof (note_all_keeps (call_locs e) s) as K. pose proof K as (K1 & K2 & _).
    pose proof (note_all_keeps (sym_loc ys k) (note_all (call_locs e) s)) as K3. rewrite K1, K2 in K3. eapply keeps_weaken; [exact (keeps_then _ _ _ _ _ K K3)|].
    intro w. unfold of_node. rewrite call_locs_calls. split.
    - intros [(A & B)|(A & B)]; (split; [|exact B]); [now apply (be_value ys _ _ _ k e)|]. unfold sym_loc in A. destruct (nth_error ys k) as [y|] eqn:Y; [|destruct A]. destruct A as [<-|[]]. now apply (be_var ys _ _ _ k e).
    - intros (A & B). inversion A; subst; try (exfalso; cbn [In] in *; intuition congruence).
      + left. split; [|exact B]. assert (e0 = e) as <- by (destruct EP; intuition congruence). assumption.
      + right. split; [|exact B]. assert (k0 = k) as -> by (destruct EP; intuition congruence). unfold sym_loc. match goal with H : nth_error ys k = Some _ |- _ => rewrite H end. now left. }
  assert (EXPR : forall e, p = XExpr e -> keeps s (note_all (call_locs e) s) (fun w => calls e (w_loc w) /\ w_scope w = d_scope s /\ w_func w = d_func s)).
  { intros e _. eapply keeps_weaken; [apply note_all_keeps|]. intro w. cbn beta. now rewrite call_locs_calls. }
  assert (COND : forall e, p = XExpr e -> In ty [N_IF; N_ELIF; N_WHILE] -> keeps s (note (find_expr_node_location e) (note_all (call_locs e) s)) (of_node (d_scope s) (d_func s) (mktnode ty tok p c))).
  { intros e EP T. pose proof (EXPR e EP) as K. pose proof K as (K1 & K2 & _). pose proof (note_keeps (find_expr_node_location e) (note_all (call_locs e) s)) as K3. rewrite K1, K2 in K3.
    eapply keeps_weaken; [exact (keeps_then _ _ _ _ _ K K3)|]. intro w. unfold of_node. subst p. split.
    - intros [(A & B)|(A & B)]; (split; [|exact B]); [apply be_call; [cbn [In] in *; tauto|exact A]|apply be_cond; [exact T|]]. now apply find_starts.
    - intros (A & B). inversion A; subst; try (exfalso; cbn [In] in *; intuition congruence); [auto|]. right. split; [|exact B]. symmetry. now apply find_starts. }
  assert (OWN : forall w, In ty [N_RETURN; N_NOOP] -> (forall e, p <> XExpr e) \/ ty = N_NOOP -> (w_loc w = node_loc tok /\ w_scope w = d_scope s /\ w_func w = d_func s) <-> of_node (d_scope s) (d_func s) (mktnode ty tok p c) w).
  { intros w T NE. unfold of_node. split.
    - intros (A & B). rewrite A. split; [now constructor|exact B].
    - intros (A & B). split; [|exact B]. inversion A; subst; try reflexivity; exfalso; destruct NE as [NE|NE]; try (apply (NE _ eq_refl)); cbn [In] in *; intuition congruence. }
  destruct ty; cbn [gen_node_w].
  all: try (apply (PLAIN s (fun _ => False) ZERO); [cbn [In]; intuition discriminate|]; apply NOTHING; intros l B; inversion B; subst; cbn [In] in *; intuition discriminate).
  all: try (apply (PLAIN _ _ (note_keeps (node_loc tok) s)); [cbn [In]; intuition discriminate|]; intro w; apply OWN; [cbn [In]; tauto|now right]).
  all: try (destruct p; first [apply (PLAIN s (fun _ => False) ZERO); [cbn [In]; intuition discriminate|]; apply NOTHING, NODEF; [intros (k0 & e0 & [Z|Z]); discriminate Z|cbn [In]; tauto]
    |refine (PLAIN _ _ (VALUE _ _ _ _) _ _); [eauto|cbn [In]; tauto|cbn [In]; intuition discriminate|reflexivity]]; fail).
  all: try (eapply (BOTH s (fun _ => False)); [cbn [In]; tauto|exact ZERO|]; apply NOTHING; intros l B; inversion B; subst; cbn [In] in *; intuition discriminate).
  all: try (destruct p as [| | | | |e|]; first [eapply BOTH; [cbn [In]; tauto|apply (COND e eq_refl); cbn [In]; tauto|reflexivity]
    |eapply (BOTH s (fun _ => False)); [cbn [In]; tauto|exact ZERO|]; apply NOTHING; intros l B; inversion B; subst; cbn [In] in *; intuition discriminate]; fail).
  - assert (NB : forall l, ~ belongs ys (mktnode N_FUNCTION_PROTO tok p c) l) by (intros l B; inversion B; subst; cbn [In] in *; intuition discriminate).
    assert (NO : (forall f, ~ opens ys (mktnode N_FUNCTION_PROTO tok p c) f) -> keeps s s (fun w => of_node (d_scope s) (d_func s) (mktnode N_FUNCTION_PROTO tok p c) w \/
      exists f path m, opens ys (mktnode N_FUNCTION_PROTO tok p c) f /\ reached ys c path m /\
       of_node (scope_at (d_scope s) ((mktnode N_FUNCTION_PROTO tok p c, f) :: path)) (function_at (d_func s) ((mktnode N_FUNCTION_PROTO tok p c, f) :: path)) m w)).
    { intro N. apply keeps_none. intros w [(B & _)|(f & path & m & O & _)]; [exact (NB _ B)|exact (N f O)]. }
    destruct p as [| | | |k ks| |]; try (apply NO; intros f O; inversion O; subst; cbn [In] in *; intuition discriminate).
    destruct (is_external ys k) eqn:EX.
    + apply NO. intros f O. inversion O as [? ? ? ? T|? ? ? ? X]; subst; [none_in T|]. apply external_false in X. congruence.
    + pose proof (tree_ok c F (mkwst (ScFun (Some k)) (Some k) (d_marks s))) as (A & B & C). cbn [set_scope set_func d_scope d_func d_marks] in *.
      split; [reflexivity|]. split; [reflexivity|]. cbn [d_marks]. intro w. rewrite C. apply or_iff_compat_l. split.
      * intros (path & m & R & P). right. exists (Some k), path, m. split; [constructor; now apply external_false|]. split; [exact R|exact P].
      * intros [(X & _)|(f & path & m & O & R & P)]; [destruct (NB _ X)|]. inversion O as [? ? ? ? T|]; subst; [none_in T|]. exists path, m. auto.
  - destruct p as [| | | | |e|]; try (apply (PLAIN s (fun _ => False) ZERO); [cbn [In]; intuition discriminate|]; apply NOTHING; intros l B; inversion B; subst; cbn [In] in *; intuition discriminate).
    apply (PLAIN _ _ (EXPR e eq_refl)); [cbn [In]; intuition discriminate|]. intro w. unfold of_node. split.
    + intros (A & B). split; [|exact B]. apply be_call; [cbn [In]; tauto|exact A].
    + intros (A & B). split; [|exact B]. inversion A; subst; try assumption; exfalso; cbn [In] in *; intuition discriminate.
  - destruct p as [| | | | |e|]; try (apply (PLAIN _ _ (note_keeps (node_loc tok) s)); [cbn [In]; intuition discriminate|]; intro w; apply OWN; [cbn [In]; tauto|left; intros e9 E9; discriminate E9]).
    pose proof (EXPR e eq_refl) as K. pose proof K as (K1 & K2 & _). pose proof (note_keeps (node_loc tok) (note_all (call_locs e) s)) as K3. rewrite K1, K2 in K3.
    apply (PLAIN _ _ (keeps_then _ _ _ _ _ K K3)); [cbn [In]; intuition discriminate|]. intro w. unfold of_node. split.
    + intros [(A & B)|(A & B)]; (split; [|exact B]); [apply be_call; [cbn [In]; tauto|exact A]|]. rewrite A. constructor. cbn [In]; tauto.
    + intros (A & B). inversion A; subst; auto; exfalso; cbn [In] in *; intuition discriminate.
Qed.

Lemma module_marks : forall l w, In w (gen_module_w ys l) <-> placed (ScFun None) None l w \/
  (exists n r, l = n :: r /\ (forall m, In m l -> ~ jump m) /\ w = mkmark (node_loc (tn_token n)) (ScFun None) None).
Proof.
  intros l w. unfold gen_module_w. pose proof (tree_ok l (fun n _ => node_all n) (mkwst (ScFun None) None [])) as (A & B & C). cbn [d_scope d_func d_marks In] in *.
  destruct (existsb (fun n => stops (tn_type n)) l) eqn:E.
  - rewrite C. apply existsb_exists in E as (n & I & J). apply stops_jump in J. split; [tauto|]. intros [H|(n0 & r & _ & N & _)]; [auto|]. destruct (N n I J).
  - assert (N : forall m, In m l -> ~ jump m). { intros m M J. apply stops_jump in J. assert (X : existsb (fun n => stops (tn_type n)) l = true) by (apply existsb_exists; eauto). congruence. }
    destruct l as [|n l]; [rewrite C; split; [tauto|]; intros [H|(n0 & r & X & _)]; [auto|discriminate X]|].
    cbn [note d_marks]. rewrite in_app_iff, C, A, B. cbn [In]. split.
    + intros [[[]|H]|[<-|[]]]; [auto|]. right. eauto.
    + intros [H|(n0 & r & X & _ & ->)]; [auto|]. injection X as <- <-. auto.
Qed.

(** The function of a scope. *)
Lemma scope_function : forall path c f, subprogram c = f -> subprogram (scope_at c path) = function_at f path.
Proof. induction path as [|(n, [k|]) path IH]; intros c f E; cbn [scope_at function_at]; auto. Qed.
End Where.
