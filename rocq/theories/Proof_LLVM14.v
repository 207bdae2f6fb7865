(** For which programs the LLVM back end makes a module. *)
From Coq Require Import List Arith NArith ZArith Bool Lia.
From Verif Require Import Base Model_Token Model_Literal Model_Parse Spec_Parse Model_Sem Spec_Sem Spec_Sem2 Spec_Run Spec_IR Model_LLVM
  Spec_LLVM Spec_Loops Proof_Sem Proof_Sem2 Proof_Sem5 Proof_Sem8 Proof_CGen2 Proof_Order Proof_Debug Proof_LLVM11 Proof_LLVM12 Proof_LLVM13.
Import ListNotations.
Open Scope list_scope.

Lemma comparable_nodes : forall l, comparable l -> forall x, in_checked x l -> comparable_node x.
Proof.
  intros l C x I y E o a b t c P Q. apply (C x o a b t c I); [|exact Q]. exists y. auto.
Qed.

Lemma marks_eq : forall ys ys', (forall k, is_external ys' k = is_external ys k) -> forall n, marks ys' n = marks ys n.
Proof.
  intros ys ys' E n. induction n as [t tk p c F] using tnode_ind'.
  assert (Q : flat_map (marks ys') c = flat_map (marks ys) c) by (induction F as [|n c A _ IH]; [reflexivity|]; cbn [flat_map]; now rewrite A, IH).
  cbn [marks]. rewrite Q. destruct t; try reflexivity. destruct p; try reflexivity. now rewrite E.
Qed.
Lemma marks_list : forall ys ys', (forall k, is_external ys' k = is_external ys k) -> forall l, flat_map (marks ys') l = flat_map (marks ys) l.
Proof. intros ys ys' E. induction l as [|n l IH]; [reflexivity|]. cbn [flat_map]. now rewrite (marks_eq _ _ E), IH. Qed.

Section Whole.
Variable H : host.
Variable fold : iop -> operand H -> operand H -> option (operand H).

Lemma module_l : forall w src ts tree s l debug, accepted w src ts tree s l -> no_call_blocks tree -> few_arguments tree -> has_statements tree ->
  no_void (s_syms s) -> comparable l ->
  match run false (flat_map (marks (s_syms s)) l) with
  | Some _ => exists m, gen_module H fold (s_syms s) debug l = Ok m
  | None => gen_module H fold (s_syms s) debug l = UB
  end.
Proof.
  intros w src ts tree s l debug A NC FA HS NV C. destruct (final_symbols _ _ _ _ _ _ A NC FA) as (s1 & e & EQ & R & B). rewrite EQ in *.
  destruct (accepted_seq _ _ _ _ _ _ A) as (a & b & SQ).
  set (ys := debug_syms (s_syms s1) debug l). assert (EX : forall k, is_external ys k = is_external (s_syms s1) k) by (intro k; apply syms_external).
  assert (SIGV : forall k t m, sig s1 k = Some (DVar t m) -> exists v, sym_var ys k = Ok v /\ v_type v = t).
  { intros k t m E. destruct (sig_var _ _ _ _ E) as (v & V & <- & _). destruct (syms_var _ debug l _ _ V) as (v' & V' & T' & _). eauto. }
  assert (SIGF : forall k ps r, sig s1 k = Some (DFun ps r) -> exists f, sym_func ys k = Ok f /\ f_ret f = r /\ N.to_nat (f_num f) = List.length ps).
  { intros k ps r E. destruct (sig_fun _ _ _ _ E) as (f & F & F1 & F2). exists f. unfold ys. rewrite syms_func. auto. }
  assert (NV' : no_void ys) by (apply syms_no_void; exact NV). rewrite <- (marks_list _ _ EX).
  set (T := fun k => In k (flat_map (made ys) l)).
  assert (EN : entries (sig s1) T []) by (intros n k []).
  destruct (proj2 (block_entries ys (sig s1) w src T) _ _ _ _ B EN) as (_ & SP); [auto|].
  destruct (proj2 (blocks_give H fold s1 w src debug T ys SIGV SIGF SP NV') _ _ _ _ B EN) as (SM & _); [auto|].
  destruct (block_shape _ _ _ _ _ _ _ A NC (bo_top tree)) as (CH & TD).
  assert (PR : proper tree l).
  { constructor; [|exact HS|exact (comparable_nodes l C)]. intros n I. exact (block_shape _ _ _ _ _ _ _ A NC (bo_below tree n I)). }
  specialize (SM a b (setup_llvm_state H) (fun _ => False) false false SQ).
  assert (G : outcome H s1 T (gen_list H fold ys debug (gen_body H fold ys debug) Statement l (setup_llvm_state H)) (run false (flat_map (marks ys) l)) (fun _ => False)).
  { apply SM; auto.
    - intros j [].
    - intros k K. right. left. exact K.
    - split; reflexivity.
    - intro X. discriminate X. }
  unfold gen_module, gen_tree. fold ys. destruct (run false (flat_map (marks ys) l)) as [k|]; cbn [outcome] in G.
  - destruct G as (g & fl & -> & _). cbn [bind]. eexists. reflexivity.
  - rewrite G. reflexivity.
Qed.

Lemma module_made_l : forall w src ts tree s l debug, accepted w src ts tree s l -> no_call_blocks tree -> few_arguments tree -> has_statements tree ->
  no_void (s_syms s) -> comparable l ->
  (exists m, gen_module H fold (s_syms s) debug l = Ok m) <-> jumps_follow_starts (s_syms s) l.
Proof.
  intros w src ts tree s l debug A NC FA HS NV C. rewrite follow_run. pose proof (module_l w src ts tree s l debug A NC FA HS NV C) as M.
  destruct (run false (flat_map (marks (s_syms s)) l)) as [k|]; split; intro X; try discriminate; auto.
  - destruct X as (m & X). rewrite M in X. discriminate X.
  - now elim X.
Qed.
End Whole.

(** * Programs without nested loops *)

Definition jumps_inside (b : bool) (l : list node) : Prop :=
  forall b' n, enclosed b l b' n -> n_type n = N_BREAK \/ n_type n = N_CONTINUE -> b' = true.
Definition no_loops (xs : list tnode) : Prop := forall x, in_checked x xs -> tn_type x <> N_WHILE.

Lemma inside_child : forall b n l, jumps_inside b (n :: l) -> jumps_inside (enter n b) (n_child n).
Proof. intros b n l J b' m E. apply (J b' m). apply en_below with n; [now left|exact E]. Qed.
Lemma inside_tail : forall b n l, jumps_inside b (n :: l) -> jumps_inside b l.
Proof.
  intros b n l J b' m E. apply (J b' m). inversion E as [? ? ? I|? ? y ? ? I E1]; subst; [apply en_here; now right|apply en_below with y; [now right|exact E1]].
Qed.
Lemma inside_head : forall b n l, jumps_inside b (n :: l) -> jumps_inside b [n].
Proof.
  intros b n l J b' m E. apply (J b' m). inversion E as [? ? ? I|? ? y ? ? I E1]; subst; destruct I as [<-|[]]; [apply en_here; now left|apply en_below with n; [now left|exact E1]].
Qed.
Lemma checked_child : forall x y xs, in_checked x (tn_child y) -> in_checked x (y :: xs).
Proof. intros x y xs I. apply ic_below with y; [now left|exact I]. Qed.
Lemma checked_tail : forall x y xs, in_checked x xs -> in_checked x (y :: xs).
Proof. intros x y xs I. inversion I as [? J|z ? J K]; subst; [apply ic_here; now right|apply ic_below with z; [now right|exact K]]. Qed.
Lemma checked_head : forall x y xs, in_checked x [y] -> in_checked x (y :: xs).
Proof. intros x y xs I. inversion I as [? J|z ? J K]; subst; destruct J as [<-|[]]; [apply ic_here; now left|apply ic_below with y; [now left|exact K]]. Qed.

Lemma apart_run : forall ys D w src,
  (forall e n x e', stmt_ok D w src e n x e' -> forall b c, jumps_inside b [n] -> (b = true -> c = true) -> (c = true -> no_loops [x]) -> loops_apart [x] ->
     run c (marks ys x) = Some c) /\
  (forall e l xs e', block_ok D w src e l xs e' -> forall b c, jumps_inside b l -> (b = true -> c = true) -> (c = true -> no_loops xs) -> loops_apart xs ->
     run c (flat_map (marks ys) xs) = Some c).
Proof.
  intros ys D w src. apply stmt_block_both.
  - auto.
  - auto.
  - auto.
  - auto.
  - auto.
  - intros e n v y c0 e' T _ _ _ _ IH b c J BC NL LA.
    assert (NLC : c = true -> no_loops c0) by (intros Q z I; apply (NL Q); now apply checked_child).
    assert (LAC : loops_apart c0) by (intros z m I Q; apply (LA z m); [now apply checked_child|exact Q]).
    pose proof (inside_child _ _ _ J) as JC. unfold enter in JC.
    destruct T as [T | [T | [T | []]]]; rewrite <- T in *; cbn [marks]; try (now apply (IH b c)).
    cbn [run]. rewrite run_app. rewrite (IH true true); auto.
    + cbn [run]. destruct c; [|reflexivity]. exfalso. apply (NL eq_refl (mktnode N_WHILE (n_token n) (XExpr y) c0)); [apply ic_here; now left|reflexivity].
    + intros _ z I. apply (LA (mktnode N_WHILE (n_token n) (XExpr y) c0) z); [apply ic_here; now left|reflexivity|exact I].
  - intros e n c0 e' T _ IH b c J BC NL LA. cbn [marks]. pose proof (inside_child _ _ _ J) as JC. unfold enter in JC. rewrite T in JC. apply (IH b c); auto.
    + intros Q z I; apply (NL Q); now apply checked_child.
    + intros z m I Q; apply (LA z m); [now apply checked_child|exact Q].
  - intros e n name ret num ext exp ps ts ks r x k e1 c0 e2 T _ _ _ _ _ _ _ IH b c J BC NL LA. cbn [marks]. pose proof (inside_child _ _ _ J) as JC. unfold enter in JC. rewrite T in JC.
    destruct (is_external ys k); [reflexivity|]. apply (IH false c); auto.
    + intro Q. discriminate Q.
    + intros Q z I; apply (NL Q); now apply checked_child.
    + intros z m I Q; apply (LA z m); [now apply checked_child|exact Q].
  - intros e n t q r x k c0 e' T _ _ _ _ _ IH b c J BC NL LA. cbn [marks]. pose proof (inside_child _ _ _ J) as JC. unfold enter in JC. rewrite T in JC. apply (IH b c); auto.
    + intros Q z I; apply (NL Q); now apply checked_child.
    + intros z m I Q; apply (LA z m); [now apply checked_child|exact Q].
  - intros e n _ _ T b c J BC _ _.
    assert (X : n_type n = N_BREAK \/ n_type n = N_CONTINUE -> c = true) by (intro Q; apply BC; apply (J b n); [apply en_here; now left|exact Q]).
    destruct T as [T | [T | [T | [T | [T | [T | [T | [T | []]]]]]]]]; rewrite <- T in *; cbn [marks flat_map run]; auto; rewrite X; auto.
  - auto.
  - intros e n l x xs e1 e2 _ IH1 _ IH2 b c J BC NL LA. cbn [flat_map]. rewrite run_app. rewrite (IH1 b c); auto.
    + apply (IH2 b c); auto.
      * eapply inside_tail; exact J.
      * intros Q z I. apply (NL Q). now apply checked_tail.
      * intros z m I Q. apply (LA z m); [now apply checked_tail|exact Q].
    + eapply inside_head; exact J.
    + intros Q z I. apply (NL Q). now apply checked_head.
    + intros z m I Q. apply (LA z m); [now apply checked_head|exact Q].
Qed.

Lemma apart_follow : forall w src ts tree s l, accepted w src ts tree s l -> no_call_blocks tree -> few_arguments tree -> loops_apart l ->
  jumps_follow_starts (s_syms s) l.
Proof.
  intros w src ts tree s l A NC FA LA. apply follow_run. destruct (final_symbols _ _ _ _ _ _ A NC FA) as (s1 & e & _ & _ & B).
  rewrite (proj2 (apart_run (s_syms s) (sig s1) w src) _ _ _ _ B false false); auto; try discriminate.
  intros b n E Q. exact (jumps_l _ _ _ _ _ _ _ _ A NC E Q).
Qed.
