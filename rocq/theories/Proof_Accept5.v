(** Proofs that programs that keep the rules pass the checks: whole programs. *)
From Coq Require Import List Arith NArith ZArith Bool Lia Ascii String.
From Verif Require Import Base Model_Token Model_Utf8 Model_Classify Model_Literal Model_Parse Model_Sem.
From Verif Require Import Spec_Utf8 Spec_Classify Spec_Parse Spec_Sem Spec_Sem2 Spec_Accept.
From Verif Require Import Proof_Utf8 Proof_Classify Proof_Classify2 Proof_Parse Proof_Parse2 Proof_Parse4 Proof_Parse5 Proof_Sem Proof_Sem2 Proof_Sem3 Proof_Sem4 Proof_Sem5 Proof_Sem6 Proof_Accept Proof_Accept2 Proof_Accept3 Proof_Accept4.
Import ListNotations.
Open Scope list_scope.
Open Scope nat_scope.

(** * Unused names *)

Definition kinds_known (D : decls) (ys : list symbol) : Prop :=
  (forall k t m, D k = Some (DVar t m) -> exists y v, nth_error ys k = Some y /\ y_kind y = KVar v) /\
  (forall k ts r, D k = Some (DFun ts r) -> exists y f, nth_error ys k = Some y /\ y_kind y = KFunc f).

Lemma warn_if_off : forall w b c y st, w_werror w = false -> snd st = false -> snd (warn_if w b c y st) = false.
Proof. intros w b c y st W S. unfold warn_if. destruct b; [cbn; now rewrite S, W|exact S]. Qed.

Definition unused_fine (w : world) (ys : list symbol) (x : tnode) : Prop :=
  forall st, snd st = false -> exists st', unused_node w ys x st = Ok st' /\ snd st' = false.

Lemma loop_fine : forall w ys l, Forall (unused_fine w ys) l -> forall st, snd st = false ->
  exists st', unused_loop (unused_node w ys) l st = Ok st' /\ snd st' = false.
Proof.
  intros w ys l F. induction F as [|x l Fx Fl IH]; intros st S; [exists st; auto|]. destruct (Fx st S) as (st1 & H1 & S1).
  destruct (IH st1 S1) as (st2 & H2 & S2). exists st2. cbn [unused_loop]. rewrite H1. auto.
Qed.

Lemma block_fine : forall w ys c st, Forall (unused_fine w ys) c -> snd st = false ->
  exists st', match c with [] => Ok st | _ :: _ => do st' <- unused_loop (unused_node w ys) c (fst st, false); Ok (fst st', snd st && negb (snd st')) end = Ok st' /\ snd st' = false.
Proof.
  intros w ys c st F S. destruct c as [|z c]; [exists st; auto|]. destruct (loop_fine w ys (z :: c) F (fst st, false) eq_refl) as (st1 & H1 & S1).
  rewrite H1. cbn [bind]. eexists. split; [reflexivity|]. cbn. now rewrite S.
Qed.

Lemma stmts_fine : forall D w src ys, w_werror w = false -> kinds_known D ys ->
  forall e l xs e', block_ok D w src e l xs e' -> Forall (unused_fine w ys) xs.
Proof.
  intros D w src ys W (KV & KF). apply (block_ok_ind2 D w src (fun e n x e' => unused_fine w ys x) (fun e l xs e' => Forall (unused_fine w ys) xs)).
  - intros e n name rest v implicit const exported y x k T CH PY EL NV TY SP FR HD st S. cbn [unused_node].
    destruct (KV _ _ _ HD) as (z & vz & EZ & KZ). unfold deref. rewrite EZ. cbn [bind]. unfold unused_def. rewrite KZ. eexists. split; [reflexivity|].
    now apply warn_if_off; [|apply warn_if_off].
  - intros. intros st S. cbn [unused_node]. eauto.
  - intros. intros st S. cbn [unused_node]. eauto.
  - intros. intros st S. cbn [unused_node]. eauto.
  - intros. intros st S. cbn [unused_node]. eauto.
  - intros e n v y c e' T PY EL TY B IH st S. cbn in T. destruct T as [<-|[<-|[<-|[]]]]; cbn [unused_node]; now apply block_fine.
  - intros e n c e' T B IH st S. cbn [unused_node]. now apply block_fine.
  - intros e n name ret num ext exp ps ts ks r x k e1 c e2 T PY RT SP FR HD PO B IH st S. cbn [unused_node].
    destruct (KF _ _ _ HD) as (z & f & EZ & KZ). unfold deref. rewrite EZ. cbn [bind]. unfold unused_func. rewrite KZ. eexists. split; [reflexivity|].
    now apply warn_if_off.
  - intros e n t q r x k c e' T TK SP FR HD B IH st S. cbn [unused_node]. now apply block_fine.
  - intros e n PY CH T st S. cbn in T. repeat (destruct T as [<-|T]; [cbn [unused_node]; eauto|]). contradiction.
  - constructor.
  - constructor; auto.
Qed.

(** * Programs *)

Lemma start_rel : forall D, rel (fun _ _ => False) D setup_semantic_state [].
Proof.
  intro D. constructor; try contradiction; try constructor. intros [|[|k]] y v E K; cbn in E; try discriminate. inversion E; subst. discriminate.
Qed.

Lemma start_at : forall exits, at_place (mkplace 0 None true exits) setup_semantic_state.
Proof.
  intro exits. constructor.
  - reflexivity.
  - cbn. lia.
  - exists main_symbol, (mkfunc false false TInt 0 [] false). split; [reflexivity|]. split; [reflexivity|]. intros _. now left.
  - cbn. lia.
  - intros _. exact Logic.I.
Qed.

Lemma parsed_fine : forall ts m tree, parse_ast_tree ts = Ret m (Some tree) -> no_call_blocks tree -> few_arguments tree -> fine tree.
Proof.
  intros ts m tree HP NC FA n IN. split; [|split].
  - apply parsed_of in HP as (_ & _ & F & _). destruct (F n IN) as (_ & H & _). exact H.
  - now apply NC.
  - intros e E. apply parse_shaped in HP. specialize (HP n IN). apply shaped_counts with ts.
    + unfold exprs_shaped in HP. now apply HP.
    + intros name args k P. now apply (FA n e name args k).
Qed.

Lemma legal_accepted_l : forall w src ts m tree, parse_ast_tree ts = Ret m (Some tree) -> no_call_blocks tree -> few_arguments tree ->
  w_werror w = false -> legal w src tree -> exists s l, accepted w src ts tree s l.
Proof.
  intros w src ts m tree HP NC FA W (D & exits & e & LB). pose proof (parsed_fine ts m tree HP NC FA) as F.
  assert (AL : Forall (node_total w src) tree) by (apply Forall_forall; intros n _; now apply node_all).
  destruct (walk_total w src tree AL _ D _ [] [] e setup_semantic_state LB F (start_rel D) start_inv start_ready (start_at exits)) as (s1 & l & P' & H1 & _).
  assert (NF : Forall (node_fine w src) tree) by (apply Forall_forall; intros n _; apply node_ok).
  destruct (walk_fine w src tree NF [] _ s1 l F start_inv start_ready H1) as (I1 & R1 & G1 & B1).
  specialize (B1 (sig s1) (fun a b E => E)).
  destruct (head_total s1 I1) as (h & HH).
  assert (KN : kinds_known (sig s1) (s_syms s1)).
  { split; [intros k t q E; destruct (sig_var _ _ _ _ E) as (y & v & EY & K & _)|intros k t q E; destruct (sig_fun _ _ _ _ E) as (y & v & EY & K & _)]; eauto. }
  destruct (loop_fine w (s_syms s1) l (stmts_fine (sig s1) w src (s_syms s1) W KN _ _ _ _ B1) (s_msgs s1, false) eq_refl) as (st & HU & SU).
  assert (X : exists s, validate_ast_tree w src tree = Pass s l).
  { unfold validate_ast_tree. rewrite H1. cbn [sbind]. unfold reset_scope_head. rewrite HH. cbn [bind rbind].
    unfold check_unused_symbols. destruct (w_quiet w); [cbn [sbind]; eauto|]. cbn [set_scope s_syms s_msgs]. rewrite HU. cbn [rbind]. rewrite SU. cbn [sbind]. eauto. }
  destruct X as (s & X). exists s, l. split; [eauto|exact X].
Qed.
