(** Modules of the LLVM back end are valid: certificates, and the code of expressions. *)
From Coq Require Import List Arith NArith ZArith Bool Lia Permutation.
From Verif Require Proof_Sem8.
From Verif Require Import Base Model_Literal Model_Parse Spec_Parse Model_Sem Spec_Sem Spec_Sem2 Spec_Run Spec_IR Model_LLVM Spec_Safe Spec_Valid Proof_LLVM Proof_Order Proof_Safe2.
Import ListNotations.
Open Scope list_scope.
Open Scope nat_scope.

Section Valid.
Variable H : host.
Variable fold : iop -> operand H -> operand H -> option (operand H).
Variable ys gys : list symbol.
Variable debug : bool.
Variable D : decls.
Local Notation llt := type_to_llvm_type.
Local Notation gst := (gst H).
Local Notation g_blocks := (g_blocks H).
Local Notation g_cur := (g_cur H).
Local Notation g_reg := (g_reg H).
Local Notation g_refs := (g_refs H).
Local Notation g_glob := (g_glob H).
Local Notation g_funs := (g_funs H).
Local Notation g_cond := (g_cond H).
Local Notation g_end := (g_end H).
Local Notation g_func := (g_func H).
Local Notation set_by := (set_by H).
Local Notation used := (used H).
Local Notation targets := (targets H).
Local Notation in_operand := (in_operand H).

Hypothesis FT : folds_typed H fold.
Hypothesis SV : forall k t m, D k = Some (DVar t m) -> exists v, sym_var gys k = Ok v /\ v_type v = t /\ (m = true -> v_const v = false).
Hypothesis SF : forall k ts r, D k = Some (DFun ts r) -> exists y f, nth_error ys k = Some y /\ y_kind y = KFunc f /\ sym_func gys k = Ok f /\
  f_params f = ts /\ f_ret f = r /\ N.to_nat (f_num f) = List.length ts /\ f_external f = is_external ys k.

(** * Certificates *)

Definition sig_of (f : option nat) : list ltype * ltype :=
  match f with
  | None => ([], LInt 64)
  | Some k => match nth_error ys k with
              | Some y => match y_kind y with KFunc f => (map llt (f_params f), llt (f_ret f)) | _ => ([], LVoid) end
              | None => ([], LVoid)
              end
  end.
Definition ptypes (f : option nat) : list ltype := fst (sig_of f).
Definition rtype (f : option nat) : ltype := snd (sig_of f).

(** For each block: its function, whether branches may go there, and registers that are set
    before; the types of registers and global variables; the functions. *)
Record bk := mkbk { b_own : option nat; b_inner : bool; b_av : list nat }.
Record cert := mkcert { c_bk : list bk; c_rt : list ltype; c_gt : list ltype; c_fs : list nat }.
Definition le (c c' : cert) : Prop :=
  (exists x, c_bk c' = c_bk c ++ x) /\ (exists x, c_rt c' = c_rt c ++ x) /\ (exists x, c_gt c' = c_gt c ++ x) /\ incl (c_fs c) (c_fs c').
Lemma le_refl : forall c, le c c.
Proof. intro c. repeat split; try (exists []; now rewrite app_nil_r). apply incl_refl. Qed.
Lemma le_trans : forall a b c, le a b -> le b c -> le a c.
Proof.
  intros a b c ((x1 & A1) & (x2 & A2) & (x3 & A3) & A4) ((y1 & B1) & (y2 & B2) & (y3 & B3) & B4). repeat split.
  - exists (x1 ++ y1). now rewrite B1, A1, app_assoc.
  - exists (x2 ++ y2). now rewrite B2, A2, app_assoc.
  - exists (x3 ++ y3). now rewrite B3, A3, app_assoc.
  - now apply incl_tran with (c_fs b).
Qed.
Lemma nth_more : forall A (l x : list A) n a, nth_error l n = Some a -> nth_error (l ++ x) n = Some a.
Proof. intros A l x n a E. rewrite nth_error_app1; [exact E|]. apply nth_error_Some. now rewrite E. Qed.
Lemma le_bk : forall c c' n b, le c c' -> nth_error (c_bk c) n = Some b -> nth_error (c_bk c') n = Some b.
Proof. intros c c' n b ((x & E) & _) B. rewrite E. now apply nth_more. Qed.
Lemma le_rt : forall c c' n b, le c c' -> nth_error (c_rt c) n = Some b -> nth_error (c_rt c') n = Some b.
Proof. intros c c' n b (_ & (x & E) & _) B. rewrite E. now apply nth_more. Qed.
Lemma le_gt : forall c c' n b, le c c' -> nth_error (c_gt c) n = Some b -> nth_error (c_gt c') n = Some b.
Proof. intros c c' n b (_ & _ & (x & E) & _) B. rewrite E. now apply nth_more. Qed.

Definition optype (c : cert) (f : option nat) : operand H -> ltype -> Prop := operand_type H (nth_error (c_rt c)) (nth_error (c_gt c)) (ptypes f).
Definition initype (c : cert) : tv H -> ltype -> Prop := init_type H (nth_error (c_gt c)).
Definition itype (c : cert) (f : option nat) : instr H -> Prop :=
  instr_type H ys (nth_error (c_rt c)) (nth_error (c_gt c)) (fun k => In k (c_fs c)) (ptypes f) (rtype f).
Lemma optype_le : forall c c' f o t, le c c' -> optype c f o t -> optype c' f o t.
Proof.
  intros c c' f o t L T. inversion T; subst; constructor; auto; [eapply le_rt|eapply le_gt]; eassumption.
Qed.
Lemma optypes_le : forall c c' f l ts, le c c' -> Forall2 (optype c f) l ts -> Forall2 (optype c' f) l ts.
Proof. intros c c' f l ts L F. induction F; constructor; auto. now apply optype_le with c. Qed.
Lemma itype_le : forall c c' f i, le c c' -> itype c f i -> itype c' f i.
Proof.
  intros c c' f i L T. pose proof (fun o t => optype_le c c' f o t L) as O. pose proof (fun n t => le_rt c c' n t L) as R.
  unfold optype in O. unfold itype in *. destruct T as [r t p T1 T2 T3|v p t T1 T2|r t T1 T2|r o a b t t' T1 T2 T3 T4|r h l ts t T1 T2 T3|r k l ts t T1 T2 T3 T4|o T1|T1|b|x yes no T1|].
  - apply in_load; auto.
  - apply in_store with t; auto.
  - apply in_alloca; auto.
  - apply in_bin with t t'; auto.
  - apply in_helper with ts t; auto. now apply (optypes_le c c' f l ts L).
  - apply in_call with ts t; auto; [now apply L|now apply (optypes_le c c' f l ts L)].
  - apply in_ret; auto.
  - now apply in_ret_void.
  - apply in_br.
  - apply in_cond; auto.
  - apply in_unreachable.
Qed.
Lemma initype_le : forall c c' v t, le c c' -> initype c v t -> initype c' v t.
Proof. intros c c' v t L T. inversion T; subst; constructor; auto. eapply le_gt; eassumption. Qed.

Definition target_ok (c : cert) (f : option nat) (av : list nat) (t : nat) : Prop :=
  exists b, nth_error (c_bk c) t = Some b /\ b_own b = f /\ b_inner b = true /\ incl (b_av b) av.
Definition isok (c : cert) (f : option nat) (av : list nat) (i : instr H) : Prop :=
  itype c f i /\ incl (used i) av /\ forall t, In t (targets i) -> target_ok c f av t.
Fixpoint code_ok (c : cert) (f : option nat) (av : list nat) (code : list (instr H)) : Prop :=
  match code with [] => True | i :: r => isok c f av i /\ code_ok c f (set_by i ++ av) r end.

Lemma target_le : forall c c' f av av' t, le c c' -> incl av av' -> target_ok c f av t -> target_ok c' f av' t.
Proof. intros c c' f av av' t L I (b & B & O & N & A). exists b. split; [now apply le_bk with c|]. repeat split; auto. now apply incl_tran with av. Qed.
Lemma isok_le : forall c c' f av av' i, le c c' -> incl av av' -> isok c f av i -> isok c' f av' i.
Proof.
  intros c c' f av av' i L I (T & U & B). split; [now apply itype_le with c|]. split; [now apply incl_tran with av|].
  intros t J. apply target_le with c av; auto.
Qed.
Lemma code_le : forall c c' f code av, le c c' -> code_ok c f av code -> code_ok c' f av code.
Proof.
  intros c c' f code. induction code as [|i r IH]; intros av L C; [exact I|]. destruct C as (C1 & C2). split; [|now apply IH].
  apply isok_le with c av; auto. apply incl_refl.
Qed.
Lemma code_snoc : forall c f code av i, code_ok c f av code -> isok c f (flat_map set_by code ++ av) i -> code_ok c f av (code ++ [i]).
Proof.
  intros c f code. induction code as [|j r IH]; intros av i C K; cbn [app code_ok] in *; [split; [exact K|exact I]|].
  destruct C as (C1 & C2). split; [exact C1|]. apply IH; [exact C2|]. apply isok_le with c (flat_map set_by (j :: r) ++ av); auto; [apply le_refl|].
  intros x J. cbn [flat_map] in J. rewrite !in_app_iff in *. tauto.
Qed.

(** The block n may still grow iff it is in O. *)
Definition opened (code : list (instr H)) : Prop := forall i, In i code -> terminator H i = false.
Record inv (c : cert) (g : gst) (O : list nat) : Prop := mkinv {
  i_len : List.length (c_bk c) = List.length (g_blocks g);
  i_code : forall n b code, nth_error (c_bk c) n = Some b -> nth_error (g_blocks g) n = Some code -> code_ok c (b_own b) (b_av b) code;
  i_own : forall n b, nth_error (c_bk c) n = Some b -> own_type ys (b_own b) (ptypes (b_own b)) (rtype (b_own b));
  i_open : forall n code, nth_error (g_blocks g) n = Some code -> In n O -> opened code;
  i_shut : forall n code, nth_error (g_blocks g) n = Some code -> ~ In n O -> well_ended H code;
  i_nodup : NoDup O;
  i_regs : List.length (c_rt c) = g_reg g;
  i_low : forall r, In r (flat_map set_by (List.concat (g_blocks g))) -> r < g_reg g;
  i_once : NoDup (flat_map set_by (List.concat (g_blocks g)));
  i_globs : Forall2 (initype c) (g_glob g) (c_gt c);
  i_funs : forall k, In k (c_fs c) -> lookup (g_funs g) k <> None;
  i_names : NoDup (map fst (g_funs g));
  i_first : forall k b, In (k, Some b) (g_funs g) -> nth_error (c_bk c) b = Some (mkbk (Some k) false []);
  i_main : nth_error (c_bk c) 0 = Some (mkbk None false []) }.

(** The builder stands in an open block of the function f, with the registers A set. *)
Definition at_block (c : cert) (g : gst) (n : nat) (f : option nat) (A : list nat) : Prop :=
  exists b code, nth_error (c_bk c) n = Some b /\ nth_error (g_blocks g) n = Some code /\ b_own b = f /\ incl A (flat_map set_by code ++ b_av b).
Definition st (c : cert) (g : gst) (O : list nat) (f : option nat) (A : list nat) : Prop :=
  inv c g (g_cur g :: O) /\ at_block c g (g_cur g) f A /\ g_func g = f.

(** * New instructions *)

Lemma once_upd : forall (bl : list (list (instr H))) n i, n < List.length bl ->
  Permutation (flat_map set_by (List.concat (upd bl n (fun l => l ++ [i])))) (set_by i ++ flat_map set_by (List.concat bl)).
Proof.
  induction bl as [|b bl IH]; intros n i L; [cbn in L; lia|]. destruct n as [|n]; cbn [upd List.concat].
  - rewrite !flat_map_app. cbn [flat_map]. rewrite app_nil_r. rewrite <- app_assoc. apply Permutation_app_swap_app.
  - cbn in L. rewrite !flat_map_app. rewrite (IH n i); [|lia]. apply Permutation_app_swap_app.
Qed.

Definition grows (g g' : gst) : Prop := forall n code, nth_error (g_blocks g) n = Some code -> exists x, nth_error (g_blocks g') n = Some (code ++ x).
Lemma grows_refl : forall g, grows g g.
Proof. intros g n code E. exists []. now rewrite app_nil_r. Qed.
Lemma grows_trans : forall a b c, grows a b -> grows b c -> grows a c.
Proof. intros a b c A B n code E. destruct (A _ _ E) as (x & E1). destruct (B _ _ E1) as (y & E2). exists (x ++ y). now rewrite app_assoc. Qed.
Lemma grows_blocks : forall g g', g_blocks g' = g_blocks g -> grows g g'.
Proof. intros g g' E n code X. exists []. rewrite E, app_nil_r. exact X. Qed.
Lemma grows_emit : forall g i, grows g (emit H g i).
Proof.
  intros g i n code E. unfold emit. cbn [Model_LLVM.g_blocks set_blocks]. rewrite nth_error_upd, E. destruct (n =? g_cur g); cbn [option_map]; [now exists [i]|].
  exists []. now rewrite app_nil_r.
Qed.
Lemma at_later : forall c c' g g' n f A, le c c' -> grows g g' -> at_block c g n f A -> at_block c' g' n f A.
Proof.
  intros c c' g g' n f A L G (b & code & B & E & O & I). destruct (G _ _ E) as (x & E'). exists b, (code ++ x). split; [now apply le_bk with c|].
  split; [exact E'|]. split; [exact O|]. intros r J. apply I in J. rewrite flat_map_app. rewrite !in_app_iff in *. tauto.
Qed.
Lemma at_less : forall c g n f A A', incl A A' -> at_block c g n f A' -> at_block c g n f A.
Proof. intros c g n f A A' I (b & code & B & E & O & J). exists b, code. repeat split; auto. now apply incl_tran with A'. Qed.

(** An instruction without a result, or with the register r of the type t. *)
Definition with_reg (c : cert) (t : ltype) : cert := mkcert (c_bk c) (c_rt c ++ [t]) (c_gt c) (c_fs c).
Lemma with_reg_le : forall c t, le c (with_reg c t).
Proof. intros c t. repeat split; try (exists []; now rewrite app_nil_r); [exists [t]; reflexivity|apply incl_refl]. Qed.

Lemma inv_emit : forall c c' g g0 O f A i, st c g O f A -> le c c' -> c_bk c' = c_bk c -> c_gt c' = c_gt c -> c_fs c' = c_fs c ->
  isok c' f A i -> g_blocks g0 = g_blocks g -> g_cur g0 = g_cur g -> g_glob g0 = g_glob g -> g_funs g0 = g_funs g ->
  List.length (c_rt c') = g_reg g0 -> (set_by i = [] /\ g_reg g0 = g_reg g \/ set_by i = [g_reg g] /\ g_reg g0 = S (g_reg g)) ->
  inv c' (emit H g0 i) (if terminator H i then O else g_cur g :: O).
Proof.
  intros c c' g g0 O f A i (I & (b & code & B & E & OW & AV) & FN) L EB EG EF IS BL CU GL FU RT SB. destruct I as [a1 a2 a3 a4 a5 a6 a7 a8 a9 a10 a11 a12 a13 a14].
  assert (CL : g_cur g < List.length (g_blocks g)) by (apply nth_error_Some; rewrite E; discriminate).
  pose proof (once_upd (g_blocks g) (g_cur g) i CL) as PM.
  constructor; unfold emit; cbn [Model_LLVM.g_blocks Model_LLVM.g_reg Model_LLVM.g_glob Model_LLVM.g_funs set_blocks]; rewrite ?BL, ?CU, ?GL, ?FU, ?EB, ?EG, ?EF.
  - rewrite upd_length. exact a1.
  - intros n b' code' B' E'. rewrite nth_error_upd in E'. destruct (n =? g_cur g) eqn:Q.
    + apply Nat.eqb_eq in Q. subst n. rewrite E in E'. cbn [option_map] in E'. injection E' as <-. rewrite B in B'. injection B' as <-.
      apply code_snoc; [apply code_le with c; [exact L|now apply a2 with (g_cur g)]|]. rewrite OW. apply isok_le with c' A; [apply le_refl|exact AV|exact IS].
    + apply code_le with c; [exact L|]. now apply a2 with n.
  - exact a3.
  - intros n code' E' J. rewrite nth_error_upd in E'. destruct (n =? g_cur g) eqn:Q.
    + apply Nat.eqb_eq in Q. subst n. rewrite E in E'. cbn [option_map] in E'. injection E' as <-. inversion a6 as [|? ? NI _]; subst.
      destruct (terminator H i) eqn:T; [contradiction|]. intros j X. apply in_app_iff in X as [X|[<-|[]]]; [|exact T]. apply (a4 _ _ E); [now left|exact X].
    + apply (a4 n code' E'). destruct (terminator H i); [now right|exact J].
  - intros n code' E' J. rewrite nth_error_upd in E'. destruct (n =? g_cur g) eqn:Q.
    + apply Nat.eqb_eq in Q. subst n. rewrite E in E'. cbn [option_map] in E'. injection E' as <-.
      destruct (terminator H i) eqn:T; [|destruct J; now left]. exists code, i. split; [reflexivity|]. split; [exact T|]. apply (a4 _ _ E). now left.
    + apply (a5 n code' E'). apply Nat.eqb_neq in Q. destruct (terminator H i); [|exact J]. intros [X|X]; [congruence|contradiction].
  - destruct (terminator H i); [now inversion a6|exact a6].
  - exact RT.
  - intros r J. apply (Permutation_in _ PM) in J. apply in_app_iff in J as [J|J].
    + destruct SB as [(Z & _)|(Z & Q)]; rewrite Z in J; [destruct J|]. destruct J as [<-|[]]. lia.
    + apply a8 in J. lia.
  - apply (Permutation_NoDup (Permutation_sym PM)). destruct SB as [(Z & _)|(Z & Q)]; rewrite Z; [exact a9|]. cbn [app]. constructor; [|exact a9].
    intro X. apply a8 in X. lia.
  - clear - a10 L. induction a10; constructor; auto. now apply initype_le with c.
  - exact a11.
  - exact a12.
  - exact a13.
  - exact a14.
Qed.

Lemma emit_plain : forall c g O f A i, st c g O f A -> isok c f A i -> terminator H i = false -> set_by i = [] ->
  st c (emit H g i) O f A.
Proof.
  intros c g O f A i S0 IS T N. destruct S0 as (S1 & S2 & S3). pose proof (inv_emit c c g g O f A i (conj S1 (conj S2 S3)) (le_refl c) eq_refl eq_refl eq_refl IS eq_refl eq_refl eq_refl eq_refl (i_regs _ _ _ S1) (or_introl (conj N eq_refl))) as I.
  rewrite T in I. split; [exact I|]. split; [|exact S3]. apply at_later with c g; auto; [apply le_refl|apply grows_emit].
Qed.
Lemma emit_end : forall c g O f A i, st c g O f A -> isok c f A i -> terminator H i = true -> set_by i = [] -> inv c (emit H g i) O.
Proof.
  intros c g O f A i S0 IS T N. pose proof S0 as (S1 & S2 & S3). pose proof (inv_emit c c g g O f A i S0 (le_refl c) eq_refl eq_refl eq_refl IS eq_refl eq_refl eq_refl eq_refl (i_regs _ _ _ S1) (or_introl (conj N eq_refl))) as I.
  now rewrite T in I.
Qed.
Lemma emit_new : forall c g O f A i t o g', st c g O f A -> emit_reg H g i = (o, g') -> isok (with_reg c t) f A (i (g_reg g)) -> terminator H (i (g_reg g)) = false ->
  set_by (i (g_reg g)) = [g_reg g] -> o = OReg (g_reg g) /\ st (with_reg c t) g' O f (g_reg g :: A) /\ nth_error (c_rt (with_reg c t)) (g_reg g) = Some t.
Proof.
  intros c g O f A i t o g' S0 E IS T N. unfold emit_reg in E. injection E as <- <-. pose proof S0 as (S1 & S2 & S3).
  assert (RL : List.length (c_rt (with_reg c t)) = S (g_reg g)) by (cbn [with_reg c_rt]; rewrite app_length, (i_regs _ _ _ S1); cbn; lia).
  pose proof (inv_emit c (with_reg c t) g (set_next H g (S (g_reg g))) O f A (i (g_reg g)) S0 (with_reg_le c t) eq_refl eq_refl eq_refl IS eq_refl eq_refl eq_refl eq_refl RL (or_intror (conj N eq_refl))) as I.
  rewrite T in I. split; [reflexivity|]. split.
  - split; [exact I|]. split; [|exact S3]. destruct S2 as (b & code & B & E & OW & AV). exists b, (code ++ [i (g_reg g)]). split; [exact B|].
    split; [|split; [exact OW|]].
    + unfold emit. cbn [Model_LLVM.g_blocks Model_LLVM.g_cur set_blocks set_next]. rewrite nth_error_upd, Nat.eqb_refl, E. reflexivity.
    + rewrite flat_map_app. cbn [flat_map]. rewrite N. intros r [<-|J]; [rewrite !in_app_iff; left; right; left; now left|]. apply AV in J. rewrite !in_app_iff in *. tauto.
  - cbn [with_reg c_rt]. rewrite nth_error_app2; rewrite (i_regs _ _ _ S1); [|lia]. now rewrite Nat.sub_diag.
Qed.

(** What code for expressions leaves as it is. *)
Definition same (g g' : gst) : Prop :=
  g_cur g' = g_cur g /\ g_refs g' = g_refs g /\ g_glob g' = g_glob g /\ g_funs g' = g_funs g /\ g_cond g' = g_cond g /\ g_end g' = g_end g /\ g_func g' = g_func g.
Lemma same_refl : forall g, same g g.
Proof. intro g. repeat split. Qed.
Lemma same_trans : forall a b c, same a b -> same b c -> same a c.
Proof. intros a b c (A1 & A2 & A3 & A4 & A5 & A6 & A7) (B1 & B2 & B3 & B4 & B5 & B6 & B7). repeat split; congruence. Qed.

Definition opok (c : cert) (f : option nat) (A : list nat) (o : operand H) (t : ltype) : Prop := optype c f o t /\ incl (in_operand o) A.
Lemma opok_le : forall c c' f A A' o t, le c c' -> incl A A' -> opok c f A o t -> opok c' f A' o t.
Proof. intros c c' f A A' o t L I (T & U). split; [now apply optype_le with c|now apply incl_tran with A]. Qed.

(** * Names *)

Definition gok (c : cert) (g : gst) (k : nat) : Prop :=
  match D k with
  | Some (DVar t _) => exists n lit, lookup (g_refs g) k = Some (mkref H (OGlob n) true lit) /\ nth_error (c_gt c) n = Some (llt t) /\ t <> TVoid
  | Some (DFun ts _) => In k (c_fs c) /\ ~ In TVoid ts
  | _ => True
  end.
Definition lok (c : cert) (f : option nat) (A : list nat) (g : gst) (k : nat) : Prop :=
  match D k with
  | Some (DVar t _) => exists r v, lookup (g_refs g) k = Some r /\ sym_var gys k = Ok v /\ rf_global H r = false /\ t <> TVoid /\
      opok c f A (rf_val H r) (if v_const v then llt t else LPointer (llt t))
  | Some (DFun _ _) => False
  | _ => True
  end.
Definition scope (c : cert) (f : option nat) (A : list nat) (g : gst) (G : list nat) (L : option (list nat)) : Prop :=
  (forall k, In k G -> gok c g k) /\ match L with None => f = None | Some l => f <> None /\ forall k, In k l -> lok c f A g k end.
Lemma gok_le : forall c c' g g' k, le c c' -> lookup (g_refs g') k = lookup (g_refs g) k -> gok c g k -> gok c' g' k.
Proof.
  intros c c' g g' k L E K. unfold gok in *. destruct (D k) as [[t m|ts r|i|x]|]; auto.
  - destruct K as (n & lit & R & T & NV). exists n, lit. rewrite E. split; [exact R|]. split; [now apply le_gt with c|exact NV].
  - destruct K as (K & NV). split; [|exact NV]. now apply L.
Qed.
Lemma lok_le : forall c c' f A A' g g' k, le c c' -> incl A A' -> lookup (g_refs g') k = lookup (g_refs g) k -> lok c f A g k -> lok c' f A' g' k.
Proof.
  intros c c' f A A' g g' k L I E K. unfold lok in *. destruct (D k) as [[t m|ts r|i|x]|]; auto.
  destruct K as (r & v & R & V & GL & NV & OP). exists r, v. rewrite E. refine (conj R (conj V (conj GL (conj NV _)))). now apply (opok_le c c' f A A').
Qed.
Lemma scope_le : forall c c' f A A' g g' G L, le c c' -> incl A A' -> (forall k, In k (all G L) -> lookup (g_refs g') k = lookup (g_refs g) k) ->
  scope c f A g G L -> scope c' f A' g' G L.
Proof.
  intros c c' f A A' g g' G L LE I E (S1 & S2). split.
  - intros k K. apply gok_le with c g; auto. apply E. destruct L; cbn [all]; [apply in_app_iff; now right|exact K].
  - destruct L as [l|]; [|exact S2]. destruct S2 as (S2 & S3). split; [exact S2|]. intros k K. apply lok_le with c A g; auto. apply E. cbn [all]. apply in_app_iff. now left.
Qed.
Lemma scope_same : forall c c' f A A' g g' G L, le c c' -> incl A A' -> same g g' -> scope c f A g G L -> scope c' f A' g' G L.
Proof. intros c c' f A A' g g' G L LE I (_ & E & _) S0. apply scope_le with c A g; auto. intros k _. now rewrite E. Qed.

Lemma var_use : forall c f A g G L k t m, scope c f A g G L -> In k (all G L) -> D k = Some (DVar t m) ->
  exists r v, lookup (g_refs g) k = Some r /\ sym_var gys k = Ok v /\ v_type v = t /\ t <> TVoid /\ (m = true -> v_const v = false) /\
    opok c f A (rf_val H r) (if rf_global H r || negb (v_const v) then LPointer (llt t) else llt t).
Proof.
  intros c f A g G L k t m (S1 & S2) K DK. destruct (SV k t m DK) as (v & V & T & M).
  assert (X : In k G \/ exists l, L = Some l /\ In k l). { destruct L as [l|]; cbn [all] in K; [|now left]. apply in_app_iff in K as [K|K]; [right; eauto|now left]. }
  destruct X as [X|(l & -> & X)].
  - specialize (S1 k X). unfold gok in S1. rewrite DK in S1. destruct S1 as (n & lit & R & G0 & NV). exists (mkref H (OGlob n) true lit), v.
    repeat split; auto; cbn [rf_global rf_val orb]; [now constructor|intros x []].
  - destruct S2 as (_ & S2). specialize (S2 k X). unfold lok in S2. rewrite DK in S2. destruct S2 as (r & v' & R & V' & GL & NV & OP).
    rewrite V in V'. injection V' as <-. exists r, v. rewrite GL. cbn [orb]. destruct OP as (OP1 & OP2). repeat split; auto; destruct (v_const v); exact OP1.
Qed.
Lemma fun_use : forall c f A g G L k ts r, scope c f A g G L -> In k (all G L) -> D k = Some (DFun ts r) -> In k (c_fs c) /\ ~ In TVoid ts.
Proof.
  intros c f A g G L k ts r (S1 & S2) K DK.
  assert (X : In k G \/ exists l, L = Some l /\ In k l). { destruct L as [l|]; cbn [all] in K; [|now left]. apply in_app_iff in K as [K|K]; [right; eauto|now left]. }
  destruct X as [X|(l & -> & X)].
  - specialize (S1 k X). unfold gok in S1. now rewrite DK in S1.
  - destruct S2 as (_ & S2). specialize (S2 k X). unfold lok in S2. rewrite DK in S2. destruct S2.
Qed.

(** * Expressions *)

Definition step (c : cert) (g : gst) (O : list nat) (f : option nat) (A : list nat) (c' : cert) (g' : gst) (A' : list nat) : Prop :=
  le c c' /\ grows g g' /\ same g g' /\ incl A A' /\ st c' g' O f A'.
Lemma step_refl : forall c g O f A, st c g O f A -> step c g O f A c g A.
Proof. intros. split; [apply le_refl|]. split; [apply grows_refl|]. split; [apply same_refl|]. split; [apply incl_refl|assumption]. Qed.
Lemma step_trans : forall c g O f A c1 g1 A1 c2 g2 A2, step c g O f A c1 g1 A1 -> step c1 g1 O f A1 c2 g2 A2 -> step c g O f A c2 g2 A2.
Proof.
  intros c g O f A c1 g1 A1 c2 g2 A2 (X1 & X2 & X3 & X4 & X5) (Y1 & Y2 & Y3 & Y4 & Y5). split; [now apply le_trans with c1|]. split; [now apply grows_trans with g1|].
  split; [now apply same_trans with g1|]. split; [now apply incl_tran with A1|exact Y5].
Qed.
Lemma step_reg : forall c g O f A i t o g', st c g O f A -> emit_reg H g i = (o, g') -> isok (with_reg c t) f A (i (g_reg g)) -> terminator H (i (g_reg g)) = false ->
  set_by (i (g_reg g)) = [g_reg g] -> step c g O f A (with_reg c t) g' (g_reg g :: A) /\ (t <> LVoid -> opok (with_reg c t) f (g_reg g :: A) o t).
Proof.
  intros c g O f A i t o g' S0 E IS T N. destruct (emit_new c g O f A i t o g' S0 E IS T N) as (-> & S1 & R). split.
  - split; [apply with_reg_le|]. unfold emit_reg in E. injection E as <-. split; [exact (grows_emit (set_next H g (S (g_reg g))) (i (g_reg g)))|].
    split; [repeat split|]. split; [|exact S1]. intros r J. now right.
  - intro NV. split; [now constructor|]. intros r [<-|[]]. now left.
Qed.

Lemma op_types : forall c f A l ts, Forall2 (fun o t => opok c f A o t) l ts -> Forall2 (optype c f) l ts /\ incl (flat_map in_operand l) A.
Proof.
  intros c f A l ts F. induction F as [|o t l ts (T & U) F (IH1 & IH2)]; cbn [flat_map]; [split; [constructor|intros x []]|].
  split; [now constructor|]. now apply incl_app.
Qed.

Lemma build_ok : forall c g O f A o a b t t' v g', st c g O f A -> opok c f A a t -> opok c f A b t -> op_type o t = Some t' -> build H fold o a b g = (v, g') ->
  exists c' A', step c g O f A c' g' A' /\ opok c' f A' v t'.
Proof.
  intros c g O f A o a b t t' v g' S0 (TA & UA) (TB & UB0) OT E. unfold build in E. destruct (fold o a b) as [x|] eqn:F.
  - injection E as <- <-. exists c, A. split; [now apply step_refl|]. destruct (FT _ _ _ _ F) as (X & Y). split; [now apply (Y _ _ _ t t')|].
    destruct X as [->|[->|(z & ->)]]; auto. intros r [].
  - assert (NV : t' <> LVoid) by (intro Q; subst t'; destruct o, t; discriminate OT).
    destruct (step_reg c g O f A (fun r => IBin r o a b) t' v g' S0 E) as (S1 & S2); try reflexivity.
    + split; [|split; [now apply incl_app|intros x []]]. apply in_bin with t t'; auto; try (apply optype_le with c; [apply with_reg_le|assumption]).
      cbn [with_reg c_rt]. rewrite nth_error_app2; rewrite (i_regs _ _ _ (proj1 S0)); [|lia]. now rewrite Nat.sub_diag.
    + eauto.
Qed.
Lemma helper_ok : forall c g O f A h a b t1 t ty v g' q, st c g O f A -> opok c f A a t1 -> opok c f A b t1 -> helper_type h = Some ([t1; t1], t) ->
  gen_builtin H h ty a b g = Ok (v, q, g') -> q = Some ty /\ exists c' A', step c g O f A c' g' A' /\ opok c' f A' v t.
Proof.
  intros c g O f A h a b t1 t ty v g' q S0 (TA & UA) (TB & UB0) HT E. unfold gen_builtin in E. destruct (emit_reg H g (fun n => ICall n h [a; b])) as (x, g1) eqn:F.
  injection E as <- <- <-. split; [reflexivity|]. assert (NV : t <> LVoid) by (intro Q; subst t; destruct h; discriminate HT).
  destruct (step_reg c g O f A (fun n => ICall n h [a; b]) t x g1 S0 F) as (S1 & S2); try reflexivity.
  - split; [|split; [cbn [Spec_Valid.used flat_map]; rewrite app_nil_r; now apply incl_app|intros x0 []]]. apply in_helper with [t1; t1] t; auto.
    + repeat constructor; apply optype_le with c; auto; apply with_reg_le.
    + cbn [with_reg c_rt]. rewrite nth_error_app2; rewrite (i_regs _ _ _ (proj1 S0)); [|lia]. now rewrite Nat.sub_diag.
  - eauto.
Qed.

Definition expr_good (x : texpr) : Prop := forall c g O f A G L o t g', gen_expr H fold gys x g = Ok (o, t, g') -> fine_expr H D (all G L) x -> scope c f A g G L -> st c g O f A ->
  exists c' A', step c g O f A c' g' A' /\ t = Some (x_ty x) /\ (x_ty x <> TVoid -> opok c' f A' o (llt (x_ty x))) /\
    (x_ty x = TVoid -> exists t0 k xs, x = XCall t0 k xs TVoid).

Lemma simple_build : forall c g O f A o a b t t' ty q v g', st c g O f A -> opok c f A a t -> opok c f A b t -> op_type o t = Some (llt t') ->
  (let '(x, g) := build H fold o a b g in Ok (x, Some ty, g)) = Ok (v, q, g') -> ty = t' -> t' <> TVoid ->
  exists c' A', step c g O f A c' g' A' /\ q = Some t' /\ opok c' f A' v (llt t').
Proof.
  intros c g O f A o a b t t' ty q v g' S0 KA KB OT E -> NV. destruct (build H fold o a b g) as (x, g1) eqn:B. injection E as <- <- <-.
  destruct (build_ok c g O f A o a b t _ x g1 S0 KA KB OT B) as (c' & A' & S1 & K1). eauto.
Qed.

Lemma binary_good : forall c g O f A o a b tt r v q g', st c g O f A -> oper_type o tt r -> (comparing o -> simple tt) -> opok c f A a (llt tt) -> opok c f A b (llt tt) ->
  gen_binary H fold o (Some tt) a b g = Ok (v, q, g') -> exists c' A', step c g O f A c' g' A' /\ q = Some r /\ r <> TVoid /\ opok c' f A' v (llt r).
Proof.
  intros c g O f A o a b tt r v q g' S0 OT SI KA KB E.
  assert (NR : r <> TVoid). { inversion OT; subst; try discriminate. match goal with N : is_number _ |- _ => destruct N as [->| ->]; discriminate end. }
  enough (X : exists c' A', step c g O f A c' g' A' /\ q = Some r /\ opok c' f A' v (llt r)) by (destruct X as (c' & A' & X1 & X2 & X3); eauto 6).
  inversion OT as [o0 t0 IN NU Q1 Q2 Q3|o0 IN Q1 Q2 Q3|o0 t0 IN NU Q1 Q2 Q3|o0 t0 IN Q1 Q2 Q3|o0 IN Q1 Q2 Q3]; subst.
  - cbn [In] in IN. destruct NU as [->| ->]; destruct IN as [<-|[<-|[<-|[<-|[<-|[<-|[]]]]]]]; cbn [gen_binary gen_math gen_pow] in E;
      try (refine (simple_build c g O f A _ a b _ TInt TInt q v g' S0 KA KB _ E eq_refl _); [reflexivity|discriminate]);
      try (refine (simple_build c g O f A _ a b _ TFloat TFloat q v g' S0 KA KB _ E eq_refl _); [reflexivity|discriminate]).
    + destruct (helper_ok c g O f A CIntPow a b _ _ _ v g' q S0 KA KB eq_refl E) as (-> & c' & A' & X1 & X2). exists c', A'. auto.
    + destruct (helper_ok c g O f A CFloatPow a b _ _ _ v g' q S0 KA KB eq_refl E) as (-> & c' & A' & X1 & X2). exists c', A'. auto.
  - destruct IN as [<-|[<-|[]]]; cbn [gen_binary gen_shift] in E; (refine (simple_build c g O f A _ a b _ TInt TInt q v g' S0 KA KB _ E eq_refl _); [reflexivity|discriminate]).
  - destruct NU as [->| ->]; destruct IN as [<-|[<-|[<-|[<-|[]]]]]; cbn [gen_binary gen_order] in E; (refine (simple_build c g O f A _ a b _ TBool TBool q v g' S0 KA KB _ E eq_refl _); [reflexivity|discriminate]).
  - assert (SM : simple tt) by (apply SI; destruct IN as [<-|[<-|[]]]; [now left|now right]).
    assert (IS : forall w p g1, gen_is H fold (Some tt) a b g = Ok (w, p, g1) -> exists c' A', step c g O f A c' g1 A' /\ p = Some TBool /\ opok c' f A' w (llt TBool)).
    { intros w p g1 E1. destruct SM as [->|[->|[->|[->| ->]]]]; cbn [gen_is] in E1; try (refine (simple_build c g O f A _ a b _ TBool TBool p w g1 S0 KA KB _ E1 eq_refl _); [reflexivity|discriminate]).
      destruct (helper_ok c g O f A CStrcmp a b _ _ _ w g1 p S0 KA KB eq_refl E1) as (-> & c' & A' & X1 & X2). exists c', A'. auto. }
    destruct IN as [<-|[<-|[]]]; cbn [gen_binary] in E; [now apply IS|]. unfold gen_is_not in E. destruct (gen_is H fold (Some tt) a b g) as [((w, p), g1)|] eqn:E1; [|discriminate E].
    destruct (IS _ _ _ eq_refl) as (c1 & A1 & S1 & -> & K1). cbn [bind] in E. unfold build_not in E. pose proof S1 as (_ & _ & _ & _ & ST1).
    destruct (simple_build c1 g1 O f A1 Xor w (OVal (SvBool true)) (LInt 1) TBool TBool q v g' ST1 K1) as (c2 & A2 & S2 & EQ & K2).
    + split; [repeat constructor|intros x []].
    + reflexivity.
    + exact E.
    + reflexivity.
    + discriminate.
    + exists c2, A2. split; [now apply step_trans with c1 g1 A1|]. auto.
  - destruct IN as [<-|[<-|[<-|[]]]]; cbn [gen_binary gen_logical] in E; (refine (simple_build c g O f A _ a b _ TBool TBool q v g' S0 KA KB _ E eq_refl _); [reflexivity|discriminate]).
Qed.

Lemma args_good : forall args, Forall expr_good args -> forall n c g O f A G L os g', gen_args H (gen_expr H fold gys) n args g = Ok (os, g') -> n = List.length args ->
  (forall x, In x args -> fine_expr H D (all G L) x) -> ~ In TVoid (map x_ty args) -> scope c f A g G L -> st c g O f A ->
  exists c' A', step c g O f A c' g' A' /\ Forall2 (opok c' f A') os (map llt (map x_ty args)).
Proof.
  intros args FA. induction FA as [|x args EG FA IH]; intros n c g O f A G L os g' E EN F NV SC S0.
  - subst n. cbn in E. injection E as <- <-. exists c, A. split; [now apply step_refl|constructor].
  - subst n. change (gen_args H (gen_expr H fold gys) (List.length (x :: args)) (x :: args) g) with
      (do (o, _, g) <- gen_expr H fold gys x g; do (os, g) <- gen_args H (gen_expr H fold gys) (List.length args) args g; Ok (o :: os, g)) in E.
    destruct (gen_expr H fold gys x g) as [((o, t), g1)|] eqn:E1; [|discriminate E]. cbn [bind] in E.
    destruct (gen_args H (gen_expr H fold gys) (List.length args) args g1) as [(os1, g2)|] eqn:E2; [|discriminate E].
    + cbn [bind] in E. injection E as <- <-.
      destruct (EG c g O f A G L o t g1 E1) as (c1 & A1 & S1 & _ & K1 & _); auto; [apply F; now left|].
      pose proof S1 as (L1 & G1 & SM1 & I1 & ST1).
      destruct (IH _ c1 g1 O f A1 G L os1 g2 E2 eq_refl) as (c2 & A2 & S2 & K2); auto.
      * intros y J. apply F. now right.
      * intro J. apply NV. now right.
      * apply scope_same with c A g; auto.
      * exists c2, A2. split; [now apply step_trans with c1 g1 A1|]. cbn [map]. constructor; [|exact K2].
        pose proof S2 as (L2 & _ & _ & I2 & _). apply (opok_le c1 c2 f A1 A2); auto. apply K1. intro Q. apply NV. now left.
Qed.

Lemma fine_un : forall V o x ty c, fine_expr H D V (XUn o x ty c) -> fine_expr H D V x /\ (o = UNeg /\ ty = x_ty x /\ is_number ty \/ o = UNot /\ ty = TBool /\ x_ty x = TBool).
Proof. intros V o x ty c F. inversion F; subst; auto. Qed.
Lemma number_types : forall t, is_number t -> t = TInt \/ t = TFloat.
Proof. intros t [->| ->]; auto. Qed.

Lemma exprs_good : forall x, expr_good x.
Proof.
  induction x as [t k ty cc|t v ty|t k args ty F|o r ty cc IH|b l r ty cc IH1 IH2] using Proof_LLVM.texpr_ind'; intros c g O f A G L o1 t1 g' E FE SC S0; cbn [x_ty].
  - inversion FE as [? ? ? ? m IK DK| | | | |]; subst. destruct (var_use c f A g G L k ty m SC IK DK) as (rf & v & LK & V & VT & NV & _ & OP).
    cbn [gen_expr] in E. unfold gen_identifier, var_ref in E. rewrite V, LK in E. cbn [bind] in E. destruct (rf_global H rf || negb (v_const v)).
    + destruct (emit_reg H g (fun n => ILoad n (v_type v) (rf_val H rf))) as (o, g1) eqn:ER. injection E as <- <- <-. rewrite VT in *. destruct OP as (OP1 & OP2).
      destruct (step_reg c g O f A (fun n => ILoad n ty (rf_val H rf)) (llt ty) o g1 S0 ER) as (S1 & K1); try reflexivity.
      * split; [|split; [exact OP2|intros x []]]. apply in_load; auto; [apply optype_le with c; [apply with_reg_le|exact OP1]|].
        cbn [with_reg c_rt]. rewrite nth_error_app2; rewrite (i_regs _ _ _ (proj1 S0)); [|lia]. now rewrite Nat.sub_diag.
      * exists (with_reg c (llt ty)), (g_reg g :: A). split; [exact S1|]. split; [reflexivity|]. split; [|intro Q; contradiction]. intros _. apply K1. destruct ty; try discriminate. now destruct NV.
    + injection E as <- <- <-. rewrite VT. exists c, A. split; [now apply step_refl|]. split; [reflexivity|]. split; [intros _; exact OP|intro Q; contradiction].
  - inversion FE as [|? ? ? OT| | | |]; subst. cbn [gen_expr] in E. unfold gen_const in E.
    exists c, A. destruct ty, v; try discriminate E; injection E as <- <- <-; (split; [now apply step_refl|]; split; [reflexivity|]; split; [|discriminate]; intros _; split; [repeat constructor|intros x []]).
  - inversion FE as [| |? ? ? ? IK DK FX| | |]; subst. cbn [gen_expr] in E. destruct (SF k _ _ DK) as (y & f0 & EY & KY & EF & FP & FR & FN & _). rewrite EF in E. cbn [bind] in E.
    destruct (gen_args H (gen_expr H fold gys) (N.to_nat (f_num f0)) args g) as [(os, g1)|] eqn:EA; [|discriminate E]. cbn [bind] in E.
    destruct (fun_use c f A g G L k _ _ SC IK DK) as (KF & NV).
    destruct (args_good args F _ c g O f A G L os g1 EA) as (c1 & A1 & S1 & K1); auto; [rewrite FN; apply map_length|].
    pose proof S1 as (L1 & G1 & SM1 & I1 & ST1). destruct (lookup (g_funs g1) k) as [bb|] eqn:LK; [|discriminate E].
    destruct (emit_reg H g1 (fun n => ICall n (CSym k) os)) as (o, g2) eqn:ER. injection E as <- <- <-. rewrite FR. destruct (op_types _ _ _ _ _ K1) as (K2 & U2).
    destruct (step_reg c1 g1 O f A1 (fun n => ICall n (CSym k) os) (llt ty) o g2 ST1 ER) as (S2 & K3); try reflexivity.
    + split; [|split; [exact U2|intros x []]]. apply in_call with (map llt (map x_ty args)) (llt ty).
      * cbn [with_reg c_fs]. now apply L1.
      * exists y, f0. rewrite FP, FR. auto.
      * apply optypes_le with c1; [apply with_reg_le|exact K2].
      * cbn [with_reg c_rt]. rewrite nth_error_app2; rewrite (i_regs _ _ _ (proj1 ST1)); [|lia]. now rewrite Nat.sub_diag.
    + exists (with_reg c1 (llt ty)), (g_reg g1 :: A1). split; [now apply step_trans with c1 g1 A1|]. split; [reflexivity|]. split.
      * intro NT. apply K3. destruct ty; try discriminate. now destruct NT.
      * intros ->. eauto.
  - apply fine_un in FE as (FX & [(-> & -> & NU)|(-> & -> & TX)]).
    + assert (E' : (do (o, t, g) <- gen_expr H fold gys r g; gen_neg H fold t o g) = Ok (o1, t1, g')) by (destruct r; exact E). clear E. rename E' into E.
      destruct (gen_expr H fold gys r g) as [((o, t), g1)|] eqn:E1; [|discriminate E]. cbn [bind] in E.
      destruct (IH c g O f A G L o t g1 E1 FX SC S0) as (c1 & A1 & S1 & -> & K1 & _). pose proof S1 as (L1 & G1 & SM1 & I1 & ST1). unfold gen_neg in E.
      apply number_types in NU. destruct NU as [Q|Q]; rewrite Q in *; cbn [gen_math] in E; specialize (K1 ltac:(discriminate)).
      * destruct (simple_build c1 g1 O f A1 NswSub (OVal (SvInt 0)) o (LInt 64) TInt TInt t1 o1 g' ST1) as (c2 & A2 & S2 & EQ & K2); auto; try discriminate; [split; [repeat constructor|intros x []]|].
        exists c2, A2. split; [now apply step_trans with c1 g1 A1|]. split; [exact EQ|]. split; [auto|discriminate].
      * destruct (simple_build c1 g1 O f A1 FSub (OVal (SvFloat (h_zero H))) o LDouble TFloat TFloat t1 o1 g' ST1) as (c2 & A2 & S2 & EQ & K2); auto; try discriminate; [split; [repeat constructor|intros x []]|].
        exists c2, A2. split; [now apply step_trans with c1 g1 A1|]. split; [exact EQ|]. split; [auto|discriminate].
    + assert (E' : (do (o, _, g) <- gen_expr H fold gys r g; gen_not H fold o g) = Ok (o1, t1, g')) by (destruct r; exact E). clear E. rename E' into E.
      destruct (gen_expr H fold gys r g) as [((o, t), g1)|] eqn:E1; [|discriminate E]. cbn [bind] in E.
      destruct (IH c g O f A G L o t g1 E1 FX SC S0) as (c1 & A1 & S1 & _ & K1 & _). pose proof S1 as (L1 & G1 & SM1 & I1 & ST1). unfold gen_not, build_not in E. rewrite TX in K1.
      destruct (simple_build c1 g1 O f A1 Xor o (OVal (SvBool true)) (LInt 1) TBool TBool t1 o1 g' ST1) as (c2 & A2 & S2 & EQ & K2); auto; try discriminate; [apply K1; discriminate|split; [repeat constructor|intros x []]|].
      exists c2, A2. split; [now apply step_trans with c1 g1 A1|]. split; [exact EQ|]. split; [auto|discriminate].
  - inversion FE as [| | | | |? ? ? ? ? FL FR TL OT CM]; subst. cbn [gen_expr] in E.
    destruct (gen_expr H fold gys l g) as [((ol, tl), g1)|] eqn:E1; [|discriminate E]. cbn [bind] in E.
    destruct (IH1 c g O f A G L ol tl g1 E1 FL SC S0) as (c1 & A1 & S1 & _ & K1 & _). pose proof S1 as (L1 & G1 & SM1 & I1 & ST1).
    destruct (gen_expr H fold gys r g1) as [((or, tr), g2)|] eqn:E2; [|discriminate E]. cbn [bind] in E.
    destruct (IH2 c1 g1 O f A1 G L or tr g2 E2 FR) as (c2 & A2 & S2 & -> & K2 & _); [now apply scope_same with c A g|exact ST1|]. pose proof S2 as (L2 & G2 & SM2 & I2 & ST2).
    assert (NV : x_ty r <> TVoid). { inversion OT; subst; try discriminate; try (match goal with N : is_number _ |- _ => apply number_types in N as [->| ->]; discriminate end). destruct (CM ltac:(match goal with I : In _ _ |- _ => destruct I as [<-|[<-|[]]]; [now left|now right] end)) as [->|[->|[->|[->| ->]]]]; discriminate. }
    destruct (binary_good c2 g2 O f A2 b ol or (x_ty r) ty o1 t1 g' ST2 OT CM) as (c3 & A3 & S3 & EQ & NR & K3); auto.
    + rewrite TL in K1. now apply (opok_le c1 c2 f A1 A2); auto.
    + exists c3, A3. split; [apply step_trans with c2 g2 A2; [now apply step_trans with c1 g1 A1|exact S3]|]. split; [exact EQ|]. split; [auto|]. intro Q. contradiction.
Qed.

(** * Blocks and positions *)

Lemma inv_fields : forall c g g' O, inv c g O -> g_blocks g' = g_blocks g -> g_reg g' = g_reg g -> g_glob g' = g_glob g -> g_funs g' = g_funs g -> inv c g' O.
Proof. intros c g g' O [a1 a2 a3 a4 a5 a6 a7 a8 a9 a10 a11 a12 a13 a14] B R G F. constructor; rewrite ?B, ?R, ?G, ?F; assumption. Qed.
Lemma inv_perm : forall c g O O', inv c g O -> Permutation O O' -> inv c g O'.
Proof.
  intros c g O O' [a1 a2 a3 a4 a5 a6 a7 a8 a9 a10 a11 a12 a13 a14] P. constructor; auto.
  - intros n code E I. apply (a4 n code E). now apply (Permutation_in _ (Permutation_sym P)).
  - intros n code E I. apply (a5 n code E). intro J. apply I. now apply (Permutation_in _ P).
  - now apply (Permutation_NoDup P).
Qed.
Lemma inv_low : forall c g O n, inv c g O -> n < List.length (g_blocks g) -> exists b code, nth_error (c_bk c) n = Some b /\ nth_error (g_blocks g) n = Some code.
Proof.
  intros c g O n I L. destruct (nth_error (g_blocks g) n) as [code|] eqn:E; [|apply nth_error_None in E; lia].
  destruct (nth_error (c_bk c) n) as [b|] eqn:B; [eauto|]. apply nth_error_None in B. rewrite (i_len _ _ _ I) in B. lia.
Qed.

Lemma inits_le : forall c c' l ts, le c c' -> Forall2 (initype c) l ts -> Forall2 (initype c') l ts.
Proof. intros c c' l ts LE F. induction F as [|v t l ts X F IH]; constructor; [exact (initype_le _ _ _ _ LE X)|exact IH]. Qed.
Definition with_block (c : cert) (b : bk) : cert := mkcert (c_bk c ++ [b]) (c_rt c) (c_gt c) (c_fs c).
Lemma with_block_le : forall c b, le c (with_block c b).
Proof. intros c b. repeat split; try (exists []; now rewrite app_nil_r); [exists [b]; reflexivity|apply incl_refl]. Qed.
Lemma concat_nil : forall (l : list (list (instr H))), List.concat (l ++ [[]]) = List.concat l.
Proof. intro l. rewrite concat_app. cbn. now rewrite app_nil_r. Qed.
Lemma nth_snoc : forall A (l : list A) x n y, nth_error (l ++ [x]) n = Some y -> nth_error l n = Some y \/ n = List.length l /\ y = x.
Proof.
  intros A l x n y E. destruct (Nat.lt_ge_cases n (List.length l)) as [L|L]; [left; now rewrite nth_error_app1 in E|right].
  rewrite nth_error_app2 in E by lia. destruct (n - List.length l) as [|q] eqn:Q; [|destruct q; discriminate E]. cbn in E. injection E as <-. split; [lia|reflexivity].
Qed.
Lemma nth_last : forall A (l : list A) x, nth_error (l ++ [x]) (List.length l) = Some x.
Proof. intros A l x. rewrite nth_error_app2 by lia. now rewrite Nat.sub_diag. Qed.

(** A new block, and, for a function, its name. *)
Lemma inv_block : forall c g O b n g', inv c g O -> new_block H g = (n, g') -> own_type ys (b_own b) (ptypes (b_own b)) (rtype (b_own b)) -> (forall x, In x O -> x < List.length (g_blocks g)) ->
  inv (with_block c b) g' (n :: O) /\ grows g g' /\ n = List.length (g_blocks g) /\ nth_error (c_bk (with_block c b)) n = Some b /\ nth_error (g_blocks g') n = Some [].
Proof.
  intros c g O b n g' I E OT LO. unfold new_block in E. injection E as <- <-. pose proof (with_block_le c b) as LE. pose proof I as [a1 a2 a3 a4 a5 a6 a7 a8 a9 a10 a11 a12 a13 a14].
  split; [|split; [|split; [reflexivity|split]]].
  - constructor; cbn [Model_LLVM.g_blocks Model_LLVM.g_reg Model_LLVM.g_glob Model_LLVM.g_funs set_blocks with_block c_bk c_rt c_gt c_fs].
    + rewrite !app_length. cbn. lia.
    + intros m b' code B' E'. apply nth_snoc in E' as [E'|(-> & ->)]; [|exact Logic.I]. apply code_le with c; [exact LE|]. apply nth_snoc in B' as [B'|(-> & ->)]; [now apply a2 with m|].
      exfalso. assert (X : List.length (c_bk c) < List.length (g_blocks g)) by (apply nth_error_Some; rewrite E'; discriminate). lia.
    + intros m b' B'. apply nth_snoc in B' as [B'|(-> & ->)]; [now apply a3 with m|exact OT].
    + intros m code E' J. apply nth_snoc in E' as [E'|(-> & ->)]; [|intros i []]. destruct J as [<-|J]; [|now apply a4 with m].
      exfalso. assert (X : List.length (g_blocks g) < List.length (g_blocks g)) by (apply nth_error_Some; rewrite E'; discriminate). lia.
    + intros m code E' J. apply nth_snoc in E' as [E'|(-> & ->)]; [|destruct J; now left]. apply (a5 m code E'). intro X. apply J. now right.
    + constructor; [|exact a6]. intro X. apply LO in X. lia.
    + exact a7.
    + rewrite concat_nil. exact a8.
    + rewrite concat_nil. exact a9.
    + now apply inits_le with c.
    + exact a11.
    + exact a12.
    + intros k b' J. apply a13 in J. now apply nth_more.
    + now apply nth_more.
  - intros m code E. exists []. cbn [Model_LLVM.g_blocks set_blocks]. rewrite app_nil_r. now apply nth_more.
  - cbn [with_block c_bk]. rewrite <- a1. apply nth_last.
  - cbn [Model_LLVM.g_blocks set_blocks]. apply nth_last.
Qed.
Lemma open_low : forall c g n f A, at_block c g n f A -> n < List.length (g_blocks g).
Proof. intros c g n f A (b & code & _ & E & _). apply nth_error_Some. rewrite E. discriminate. Qed.

(** All open blocks are there. *)
Definition low (g : gst) (O : list nat) : Prop := forall x, In x O -> x < List.length (g_blocks g).
Lemma low_grows : forall g g' O, grows g g' -> low g O -> low g' O.
Proof.
  intros g g' O G L x J. specialize (L x J). destruct (nth_error (g_blocks g) x) as [code|] eqn:E; [|apply nth_error_None in E; lia].
  destruct (G _ _ E) as (y & E'). apply nth_error_Some. rewrite E'. discriminate.
Qed.

(** * Variables *)

Definition with_glob (c : cert) (t : ltype) : cert := mkcert (c_bk c) (c_rt c) (c_gt c ++ [t]) (c_fs c).
Lemma with_glob_le : forall c t, le c (with_glob c t).
Proof. intros c t. repeat split; try (exists []; now rewrite app_nil_r); [exists [t]; reflexivity|apply incl_refl]. Qed.
Lemma inv_glob : forall c g O t v k, inv c g O -> initype (with_glob c t) v t -> inv (with_glob c t) (set_globs H g k (g_glob g ++ [v])) O.
Proof.
  intros c g O t v k [a1 a2 a3 a4 a5 a6 a7 a8 a9 a10 a11 a12 a13 a14] IT. pose proof (with_glob_le c t) as LE.
  constructor; cbn [Model_LLVM.g_blocks Model_LLVM.g_reg Model_LLVM.g_glob Model_LLVM.g_funs set_globs]; auto.
  - intros n b code B E. apply code_le with c; [exact LE|]. now apply a2 with n.
  - apply Forall2_app; [|repeat constructor; exact IT]. now apply inits_le with c.
Qed.
Lemma st_le : forall c c' g g' O f A, st c g O f A -> inv c' g' (g_cur g :: O) -> le c c' -> grows g g' -> g_cur g' = g_cur g -> g_func g' = g_func g -> st c' g' O f A.
Proof. intros c c' g g' O f A (S1 & S2 & S3) I L G C F. split; [now rewrite C|]. split; [rewrite C; now apply at_later with c g|congruence]. Qed.

(** The refs below a, the loop and the function stay; g' knows the functions below z. *)
Definition loops (g g' : gst) : Prop := (g_cond g' = g_cond g \/ g_cond g' = None) /\ (g_end g' = g_end g \/ g_end g' = None).
Definition framed (a : nat) (g g' : gst) : Prop := g_func g' = g_func g /\ (forall k, k < a -> lookup (g_refs g') k = lookup (g_refs g) k) /\ loops g g'.
Definition below (g : gst) (z : nat) : Prop := forall k x, In (k, x) (g_funs g) -> k < z.
Lemma framed_refl : forall a g, framed a g g.
Proof. intros a g. repeat split; auto. Qed.
Lemma framed_trans : forall a a' g g1 g2, a <= a' -> framed a g g1 -> framed a' g1 g2 -> framed a g g2.
Proof.
  intros a a' g g1 g2 L (A1 & A2 & A3 & A4) (B1 & B2 & B3 & B4). split; [congruence|]. split; [intros k K; rewrite B2 by lia; auto|].
  split; [destruct B3 as [->| ->]; auto|destruct B4 as [->| ->]; auto].
Qed.
Lemma framed_same : forall a g g', same g g' -> framed a g g'.
Proof. intros a g g' (A1 & A2 & A3 & A4 & A5 & A6 & A7). split; [exact A7|]. split; [intros; now rewrite A2|]. split; left; assumption. Qed.
Lemma below_same : forall g g' z, same g g' -> below g z -> below g' z.
Proof. intros g g' z (_ & _ & _ & E & _) B k x. rewrite E. apply B. Qed.

Lemma lookup_other : forall A (l : list (nat * A)) j k x, j <> k -> lookup ((k, x) :: l) j = lookup l j.
Proof. intros A l j k x N. cbn [lookup]. destruct (Nat.eqb k j) eqn:E; [apply Nat.eqb_eq in E; congruence|reflexivity]. Qed.
Lemma lookup_here : forall A (l : list (nat * A)) k x, lookup ((k, x) :: l) k = Some x.
Proof. intros A l k x. cbn [lookup]. now rewrite Nat.eqb_refl. Qed.

Lemma is_isok : forall c f A i, itype c f i -> incl (used i) A -> targets i = [] -> isok c f A i.
Proof. intros c f A i T U E. split; [exact T|]. split; [exact U|]. rewrite E. intros t []. Qed.

Lemma const_type : forall t v, const_null H t = Ok v -> forall gt, init_type H gt v (llt t) /\ t <> TVoid.
Proof. intros t v E gt. destruct t; cbn in E; try discriminate E; injection E as <-; split; try discriminate; repeat constructor. Qed.
Lemma constant_init : forall c f o t, optype c f o t -> is_constant H o = true -> initype c (constant_value H o) t.
Proof. intros c f o t T C. inversion T; subst; cbn in C; try discriminate C; constructor; auto. Qed.

(** An assignment to a variable that is not constant. *)
Lemma store_good : forall c g O f A o t p, st c g O f A -> opok c f A o t -> opok c f A p (LPointer t) -> st c (emit H g (IStore o p)) O f A.
Proof.
  intros c g O f A o t p S0 (T1 & U1) (T2 & U2). apply emit_plain; auto. apply is_isok; [|now apply incl_app|reflexivity]. now apply in_store with t.
Qed.
Lemma assign_good : forall c g O f A G L k y m g', gen_var_assign H fold gys k y g = Ok g' -> fine_expr H D (all G L) y -> In k (all G L) -> D k = Some (DVar (x_ty y) m) -> m = true ->
  scope c f A g G L -> st c g O f A -> exists c' A', step c g O f A c' g' A'.
Proof.
  intros c g O f A G L k y m g' E FE IK DK M SC S0. unfold gen_var_assign in E. destruct (gen_expr H fold gys y g) as [((o, t), g1)|] eqn:E1; [|discriminate E]. cbn [bind] in E.
  destruct (exprs_good y c g O f A G L o t g1 E1 FE SC S0) as (c1 & A1 & S1 & _ & K1 & _). pose proof S1 as (L1 & G1 & SM1 & I1 & ST1).
  pose proof (scope_same _ _ _ _ _ _ _ _ _ L1 I1 SM1 SC) as SC1. destruct (var_use c1 f A1 g1 G L k _ m SC1 IK DK) as (r & v & LK & V & VT & NV & VC & OP).
  unfold assign_value_to_var, var_ref in E. rewrite V in E. cbn [bind] in E. rewrite (VC M), LK in *. cbn [andb bind] in E. injection E as <-.
  rewrite orb_true_r in OP. exists c1, A1. apply step_trans with c1 g1 A1; [exact S1|]. split; [apply le_refl|]. split; [apply grows_emit|]. split; [repeat split|].
  split; [apply incl_refl|]. apply store_good with (llt (x_ty y)); auto.
Qed.

Lemma define_good : forall c g O f A G L k y m g', gen_var_def H fold gys k y g = Ok g' -> fine_expr H D (all G L) y -> D k = Some (DVar (x_ty y) m) ->
  (forall t j xs r, y = XCall t j xs r -> r <> TVoid) -> ~ In k (all G L) -> scope c f A g G L -> st c g O f A ->
  exists c' A', le c c' /\ grows g g' /\ g_func g' = g_func g /\ (forall j, j <> k -> lookup (g_refs g') j = lookup (g_refs g) j) /\ loops g g' /\ g_funs g' = g_funs g /\
    incl A A' /\ st c' g' O f A' /\ scope c' f A' g' (addg k G L) (addl k L).
Proof.
  intros c g O f A G L k y m g' E FE DK NC NK SC S0. unfold gen_var_def in E. destruct (gen_expr H fold gys y g) as [((o, t), g1)|] eqn:E1; [|discriminate E]. cbn [bind] in E.
  destruct (exprs_good y c g O f A G L o t g1 E1 FE SC S0) as (c1 & A1 & S1 & _ & K1 & CV). pose proof S1 as (L1 & G1 & SM1 & I1 & ST1).
  pose proof (scope_same _ _ _ _ _ _ _ _ _ L1 I1 SM1 SC) as SC1. destruct (SV k _ m DK) as (v & V & VT & VC).
  assert (NV : x_ty y <> TVoid). { intro Q. destruct (CV Q) as (t0 & j & xs & ->). now apply (NC t0 j xs TVoid eq_refl). }
  specialize (K1 NV). unfold setup_var_llvm in E. rewrite V in E. cbn [bind] in E. pose proof ST1 as (ST1a & ST1b & ST1c). rewrite ST1c in E.
  destruct SM1 as (M1 & M2 & M3 & M4 & M5 & M6 & M7).
  destruct f as [fk|].
  - destruct L as [lo|]; [|destruct SC1 as (_ & SC1); discriminate SC1]. cbn [addg addl]. destruct (v_const v) eqn:VK.
    + injection E as <-. exists c1, A1. split; [exact L1|]. split; [apply grows_trans with g1; [exact G1|now apply grows_blocks]|]. split; [exact M7|].
      split; [intros j N1; cbn [set_ref Model_LLVM.g_refs]; rewrite lookup_other by exact N1; now rewrite M2|]. split; [split; left; assumption|]. split; [exact M4|]. split; [exact I1|].
      split; [apply st_le with c1 g1; auto; [apply inv_fields with g1; auto|apply le_refl|now apply grows_blocks]|].
      destruct SC1 as (SC2 & SC3 & SC4). split.
      * intros j J. apply gok_le with c1 g1; [apply le_refl| |now apply SC2]. cbn [set_ref Model_LLVM.g_refs]. apply lookup_other. intros ->. apply NK. apply in_app_iff. now right.
      * split; [exact SC3|]. intros j [<-|J].
        -- unfold lok. rewrite DK. exists (mkref H o false (is_constant H o)), v. split; [apply lookup_here|]. split; [exact V|]. split; [reflexivity|]. split; [exact NV|]. rewrite VK. exact K1.
        -- apply lok_le with c1 A1 g1; [apply le_refl|apply incl_refl| |now apply SC4]. cbn [set_ref Model_LLVM.g_refs]. apply lookup_other. intros ->. apply NK. apply in_app_iff. now left.
    + rewrite VT in E.
      assert (E' : (let '(p, g) := emit_reg H g1 (fun n => IAlloca n (x_ty y)) in assign_value_to_var H gys o k (set_ref H g k (mkref H p false (is_constant H o)))) = Ok g') by (destruct (x_ty y); try exact E; now destruct NV).
      clear E. rename E' into E. destruct (emit_reg H g1 (fun n => IAlloca n (x_ty y))) as (p, g2) eqn:ER.
      destruct (step_reg c1 g1 O (Some fk) A1 (fun n => IAlloca n (x_ty y)) (LPointer (llt (x_ty y))) p g2 ST1 ER) as (S2 & K2); try reflexivity.
      { apply is_isok; [|intros x []|reflexivity]. apply in_alloca; [|exact NV]. cbn [with_reg c_rt]. rewrite nth_error_app2; rewrite (i_regs _ _ _ ST1a); [|lia]. now rewrite Nat.sub_diag. }
      specialize (K2 ltac:(discriminate)). pose proof S2 as (L2 & G2 & (N1 & N2 & N3 & N4 & N5 & N6 & N7) & I2 & ST2). set (c2 := with_reg c1 (LPointer (llt (x_ty y)))) in *. set (A2 := g_reg g1 :: A1) in *.
      unfold assign_value_to_var, var_ref in E. rewrite V in E. cbn [bind] in E. rewrite VK in E. cbn [andb set_ref Model_LLVM.g_refs] in E. rewrite lookup_here in E. cbn [bind] in E. injection E as <-. cbn [rf_val].
      set (g3 := set_ref H g2 k (mkref H p false (is_constant H o))).
      assert (ST3 : st c2 g3 O (Some fk) A2). { apply st_le with c2 g2; auto; [apply inv_fields with g2; auto; exact (proj1 ST2)|apply le_refl|now apply grows_blocks]. }
      exists c2, A2. split; [now apply le_trans with c1|].
      split; [apply grows_trans with g1; [exact G1|]; apply grows_trans with g2; [exact G2|]; exact (grows_emit g3 _)|]. split; [cbn; congruence|].
      split; [intros j NJ; cbn [emit set_blocks set_ref g3 Model_LLVM.g_refs]; rewrite lookup_other by exact NJ; congruence|]. split; [split; left; cbn; congruence|]. split; [cbn; congruence|].
      split; [now apply incl_tran with A1|].
      split; [apply store_good with (llt (x_ty y)); [exact ST3|now apply (opok_le c1 c2 (Some fk) A1 A2)|exact K2]|].
      destruct SC1 as (SC2 & SC3 & SC4). split.
      * intros j J. apply gok_le with c1 g1; [exact L2| |now apply SC2]. cbn [emit set_blocks set_ref g3 Model_LLVM.g_refs]. rewrite lookup_other; [now rewrite N2|]. intros ->. apply NK. apply in_app_iff. now right.
      * split; [exact SC3|]. intros j [<-|J].
        -- unfold lok. rewrite DK. exists (mkref H p false (is_constant H o)), v. split; [apply lookup_here|]. split; [exact V|]. split; [reflexivity|]. split; [exact NV|]. rewrite VK. exact K2.
        -- apply lok_le with c1 A1 g1; [exact L2|exact I2| |now apply SC4]. cbn [emit set_blocks set_ref g3 Model_LLVM.g_refs]. rewrite lookup_other; [now rewrite N2|]. intros ->. apply NK. apply in_app_iff. now left.
  - destruct L as [lo|]; [destruct SC1 as (_ & SC1 & _); now destruct SC1|]. cbn [addg addl]. destruct (const_null H (v_type v)) as [init|] eqn:CN; [|discriminate E]. cbn [bind] in E. rewrite VT in CN.
    set (c2 := with_glob c1 (llt (x_ty y))). assert (L2 : le c1 c2) by apply with_glob_le.
    set (g2 := set_globs H g1 k (g_glob g1 ++ [if is_constant H o then constant_value H o else init])) in *.
    assert (IT : initype c2 (if is_constant H o then constant_value H o else init) (llt (x_ty y))).
    { destruct (is_constant H o) eqn:IC; [|exact (proj1 (const_type _ _ CN _))]. apply constant_init with None; [|exact IC]. apply optype_le with c1; [exact L2|exact (proj1 K1)]. }
    assert (GL : nth_error (c_gt c2) (List.length (g_glob g1)) = Some (llt (x_ty y))).
    { cbn [c2 with_glob c_gt]. assert (Q : List.length (g_glob g1) = List.length (c_gt c1)) by (clear - ST1a; pose proof (i_globs _ _ _ ST1a) as F; induction F; cbn; auto). rewrite Q. apply nth_last. }
    assert (I2 : inv c2 g2 (g_cur g1 :: O)) by (apply inv_glob; [exact ST1a|exact IT]).
    set (g3 := set_ref H g2 k (mkref H (OGlob (List.length (g_glob g1))) true (is_constant H o))) in *.
    assert (ST3 : st c2 g3 O None A1). { apply st_le with c1 g1; auto; [apply inv_fields with g2; auto|now apply grows_blocks]. }
    assert (SC3 : scope c2 None A1 g3 (k :: G) None).
    { split; [|reflexivity]. intros j [<-|J].
      - unfold gok. rewrite DK. exists (List.length (g_glob g1)), (is_constant H o). split; [apply lookup_here|]. split; [exact GL|exact NV].
      - apply gok_le with c1 g1; [exact L2| |now apply (proj1 SC1)]. cbn [set_ref g3 g2 set_globs Model_LLVM.g_refs]. apply lookup_other. intros ->. now apply NK. }
    assert (RF : forall j, j <> k -> lookup (g_refs g3) j = lookup (g_refs g) j) by (intros j NJ; cbn [set_ref g3 g2 set_globs Model_LLVM.g_refs]; rewrite lookup_other by exact NJ; now rewrite M2).
    assert (G3 : grows g g3) by (apply grows_trans with g1; [exact G1|now apply grows_blocks]).
    destruct (is_constant H o) eqn:IC.
    + injection E as <-. exists c2, A1. split; [now apply le_trans with c1|]. split; [exact G3|]. split; [exact M7|]. split; [exact RF|]. split; [split; left; cbn; congruence|]. split; [exact M4|]. auto.
    + unfold assign_value_to_var, var_ref in E. rewrite V in E. cbn [bind set_ref g3 Model_LLVM.g_refs] in E. rewrite lookup_here in E. cbn [rf_global negb orb rf_val bind] in E. rewrite IC in E.
      rewrite andb_false_r in E. injection E as <-. exists c2, A1. split; [now apply le_trans with c1|]. split; [apply grows_trans with g3; [exact G3|apply grows_emit]|]. split; [exact M7|]. split; [exact RF|].
      split; [split; left; cbn; congruence|]. split; [exact M4|]. split; [exact I1|]. split.
      * apply store_good with (llt (x_ty y)); [exact ST3|apply (opok_le c1 c2 None A1 A1); auto; apply incl_refl|]. split; [now constructor|intros x []].
      * exact SC3.
Qed.

Lemma noop_good : forall c g O f A, st c g O f A -> exists c' A', step c g O f A c' (gen_noop H debug g) A'.
Proof.
  intros c g O f A S0. unfold gen_noop. destruct debug; [|exists c, A; now apply step_refl]. destruct (emit_reg H g (fun n => IAlloca n TInt)) as (p, g1) eqn:E.
  destruct (step_reg c g O f A (fun n => IAlloca n TInt) (LPointer (LInt 64)) p g1 S0 E) as (S1 & K1); try reflexivity.
  { apply is_isok; [|intros x []|reflexivity]. apply in_alloca; [|discriminate]. cbn [with_reg c_rt]. rewrite nth_error_app2; rewrite (i_regs _ _ _ (proj1 S0)); [|lia]. now rewrite Nat.sub_diag. }
  specialize (K1 ltac:(discriminate)). eexists. eexists. eapply step_trans; [exact S1|]. split; [apply le_refl|]. split; [apply grows_emit|]. split; [repeat split|]. split; [apply incl_refl|].
  apply store_good with (LInt 64); [exact (proj2 (proj2 (proj2 (proj2 S1))))| |exact K1]. split; [repeat constructor|intros x []].
Qed.

(** * Jumps and conditions *)

Definition shut (c : cert) (g : gst) (O : list nat) (c' : cert) (g' : gst) : Prop := le c c' /\ grows g g' /\ same g g' /\ inv c' g' O.
Lemma condition_good : forall c g O f A G L y yes no g', gen_condition H fold gys (XExpr y) yes no g = Ok g' -> fine_expr H D (all G L) y -> x_ty y = TBool ->
  scope c f A g G L -> st c g O f A -> target_ok c f A yes -> target_ok c f A no -> exists c', shut c g O c' g'.
Proof.
  intros c g O f A G L y yes no g' E FE TY SC S0 T1 T2. unfold gen_condition in E. destruct (gen_expr H fold gys y g) as [((o, t), g1)|] eqn:E1; [|discriminate E]. cbn [bind] in E. injection E as <-.
  destruct (exprs_good y c g O f A G L o t g1 E1 FE SC S0) as (c1 & A1 & S1 & _ & K1 & _). pose proof S1 as (L1 & G1 & SM1 & I1 & ST1). rewrite TY in K1. destruct (K1 ltac:(discriminate)) as (K2 & K3).
  exists c1. split; [exact L1|]. split; [apply grows_trans with g1; [exact G1|apply grows_emit]|]. split; [apply same_trans with g1; [exact SM1|repeat split]|].
  apply (emit_end c1 g1 O f A1); try reflexivity; [exact ST1|]. split; [now apply in_cond|]. split; [exact K3|]. intros x [<-|[<-|[]]]; apply (target_le c c1 f A A1); auto.
Qed.
Lemma jump_good : forall c g O f A b, st c g O f A -> target_ok c f A b -> shut c g O c (emit H g (IBr b)).
Proof.
  intros c g O f A b S0 T. split; [apply le_refl|]. split; [apply grows_emit|]. split; [repeat split|]. apply (emit_end c g O f A); try reflexivity; [exact S0|].
  split; [apply in_br|]. split; [intros x []|]. intros x [<-|[]]. exact T.
Qed.
Lemma return_good : forall c g O f A G L R p g' fl, gen_return H fold gys p g = Ok (g', fl) -> llt R = rtype f ->
  (forall y, p = XExpr y -> fine_expr H D (all G L) y /\ x_ty y = R /\ x_ty y <> TVoid) -> (p = XNone -> R = TVoid) -> scope c f A g G L -> st c g O f A ->
  (exists c', shut c g O c' g') /\ exists t, fl = Some t /\ (R = TVoid -> t = Some TVoid).
Proof.
  intros c g O f A G L R p g' fl E RT X1 X2 SC S0. unfold gen_return in E. destruct p as [| |k1 y1|k1 y1|g0 ps|y|k1]; try discriminate E.
  - injection E as <- <-. split; [|exists (Some TVoid); auto]. exists c. split; [apply le_refl|]. split; [apply grows_emit|]. split; [repeat split|]. apply (emit_end c g O f A); try reflexivity; [exact S0|].
    apply is_isok; [|intros x []|reflexivity]. apply in_ret_void. rewrite <- RT, (X2 eq_refl). reflexivity.
  - destruct (X1 y eq_refl) as (FE & TY & NV). destruct (gen_expr H fold gys y g) as [((o, t), g1)|] eqn:E1; [|discriminate E]. cbn [bind] in E. injection E as <- <-.
    destruct (exprs_good y c g O f A G L o t g1 E1 FE SC S0) as (c1 & A1 & S1 & ET & K1 & _). pose proof S1 as (L1 & G1 & SM1 & I1 & ST1). destruct (K1 NV) as (K2 & K3).
    split; [|exists t; split; [reflexivity|congruence]].
    exists c1. split; [exact L1|]. split; [apply grows_trans with g1; [exact G1|apply grows_emit]|]. split; [apply same_trans with g1; [exact SM1|repeat split]|].
    apply (emit_end c1 g1 O f A1); try reflexivity; [exact ST1|]. apply is_isok; [|exact K3|reflexivity]. apply in_ret. rewrite <- RT, <- TY. exact K2.
Qed.

(** * Statements *)

Local Notation gen_body := (gen_body H fold gys debug).
Local Notation gen_list := (gen_list H fold gys debug gen_body).
Local Notation fine_expr := (fine_expr H D).
Local Notation fine_stmt := (fine_stmt H ys D).
Local Notation fine_block := (fine_block H ys D).

(** What a function needs: parameters that are names of their own, constant iff they have no
    cells. *)
Definition params_fine (l : list tnode) : Prop := forall n k ks, in_checked n l -> tn_pay n = XProto k ks -> is_external ys k = false ->
  NoDup ks /\ forall p t v, In p ks -> D p = Some (DVar t false) -> sym_var gys p = Ok v -> v_const v = negb debug.
Definition tree_fine (l : list tnode) : Prop := spaces_open l /\ values_returned l /\ params_fine l.
Lemma checked_more : forall (n m : tnode) l, in_checked n l -> in_checked n (m :: l).
Proof. intros n m l C. destruct C as [l I|y l I C]; [apply ic_here; now right|apply ic_below with y; [now right|exact C]]. Qed.
Lemma tree_tail : forall n l, tree_fine (n :: l) -> tree_fine l.
Proof.
  intros n l (A1 & A2 & A3). split; [|split].
  - intros x m C. apply A1. now apply checked_more.
  - intros x y C. apply A2. now apply checked_more.
  - intros x k ks C. apply A3. now apply checked_more.
Qed.
Lemma tree_child : forall n l, tree_fine (n :: l) -> tree_fine (tn_child n).
Proof.
  intros n l (A1 & A2 & A3). assert (K : forall x, in_checked x (tn_child n) -> in_checked x (n :: l)) by (intros x C; apply ic_below with n; [now left|exact C]).
  split; [|split].
  - intros x m C. apply A1. now apply K.
  - intros x y C. apply A2. now apply K.
  - intros x k ks C. apply A3. now apply K.
Qed.

Definition loop_ok (c : cert) (g : gst) (f : option nat) (A : list nat) (b : bool) : Prop :=
  b = true -> forall x, g_cond g = Some x \/ g_end g = Some x -> target_ok c f A x.
Lemma loop_le : forall c c' g g' f A A' b, le c c' -> incl A A' -> loops g g' -> loop_ok c g f A b -> loop_ok c' g' f A' b.
Proof.
  intros c c' g g' f A A' b LE I (E1 & E2) K B x [X|X]; apply target_le with c A; auto; apply (K B).
  - destruct E1 as [E1|E1]; rewrite E1 in X; [now left|discriminate X].
  - destruct E2 as [E2|E2]; rewrite E2 in X; [now right|discriminate X].
Qed.

Definition ends (c' : cert) (g' : gst) (O : list nat) (f : option nat) (A : list nat) (z : nat) (G' : list nat) (L' : option (list nat)) (fl : flow) : Prop :=
  match fl with
  | None => exists A', incl A A' /\ st c' g' O f A' /\ scope c' f A' g' G' L' /\ forall k, In k (all G' L') -> k < z
  | Some _ => inv c' g' O
  end.
Definition flows (R : ty) (l : list tnode) (fl : flow) : Prop :=
  match fl with
  | None => ~ has_return l
  | Some t => (R = TVoid -> t = Some TVoid) /\ exists n, In n l /\ is_jump (tn_type n) = true
  end.
Definition post (c : cert) (g : gst) (O : list nat) (f : option nat) (A : list nat) (a z : nat) (G' : list nat) (L' : option (list nat)) (R : ty) (l : list tnode)
    (c' : cert) (g' : gst) (fl : flow) : Prop :=
  le c c' /\ grows g g' /\ framed a g g' /\ below g' z /\ ends c' g' O f A z G' L' fl /\ flows R l fl.
Definition pre (m : mode) (c : cert) (g : gst) (O : list nat) (f : option nat) (A : list nat) : Prop :=
  match m with
  | Statement => st c g O f A
  | Branch entry last => inv c g (entry :: last :: O) /\ at_block c g entry f A /\ at_block c g last f A /\ target_ok c f A last /\ g_func g = f
  end.
Definition good_list (l : list tnode) : Prop := forall m c g O f A R b p G L G' L' a z g' fl,
  gen_list m l g = Ok (g', fl) -> fine_block R b p G L l G' L' -> seq a l z -> tree_fine l -> (forall k, In k (all G L) -> k < a) -> below g a -> low g O -> llt R = rtype f ->
  loop_ok c g f A b -> scope c f A g G L -> pre m c g O f A -> exists c', post c g O f A a z G' L' R l c' g' fl.

Lemma framed_less : forall a b g g', a <= b -> framed b g g' -> framed a g g'.
Proof. intros a b g g' L (F1 & F2 & F3). split; [exact F1|]. split; [|exact F3]. intros k K. apply F2. lia. Qed.
Lemma below_more : forall g a b, a <= b -> below g a -> below g b.
Proof. intros g a b L B k x I. specialize (B k x I). lia. Qed.
Lemma post_cons : forall c g O f A a z G' L' R n r c1 g1 A1 a1 c' g' fl, le c c1 -> grows g g1 -> framed a g g1 -> a <= a1 -> incl A A1 -> tn_type n <> N_RETURN ->
  post c1 g1 O f A1 a1 z G' L' R r c' g' fl -> post c g O f A a z G' L' R (n :: r) c' g' fl.
Proof.
  intros c g O f A a z G' L' R n r c1 g1 A1 a1 c' g' fl LE GR FR LA IA NR (P1 & P2 & P3 & P4 & P5 & P6).
  split; [now apply le_trans with c1|]. split; [now apply grows_trans with g1|]. split; [now apply framed_trans with a1 g1|]. split; [exact P4|]. split.
  - destruct fl as [t|]; [exact P5|]. destruct P5 as (A' & I' & P5). exists A'. split; [now apply incl_tran with A1|exact P5].
  - destruct fl as [t|]; cbn [flows] in *.
    + destruct P6 as (P6 & x & I & J). split; [exact P6|]. exists x. split; [now right|exact J].
    + intros (x & [<-|I] & T); [now apply NR|]. apply P6. now exists x.
Qed.

(** After a statement. *)
Definition moved (c : cert) (g : gst) (O : list nat) (f : option nat) (A : list nat) (a : nat) (c1 : cert) (g1 : gst) (A1 : list nat) (a1 : nat) (G1 : list nat) (L1 : option (list nat)) : Prop :=
  le c c1 /\ grows g g1 /\ framed a g g1 /\ a <= a1 /\ below g1 a1 /\ incl A A1 /\ st c1 g1 O f A1 /\ scope c1 f A1 g1 G1 L1 /\ forall k, In k (all G1 L1) -> k < a1.
Lemma go_on : forall c g O f A a c1 g1 A1 a1 G1 L1 R b p n r G' L' z g' fl, good_list r -> moved c g O f A a c1 g1 A1 a1 G1 L1 -> gen_list Statement r g1 = Ok (g', fl) ->
  fine_block R b p G1 L1 r G' L' -> seq a1 r z -> tree_fine (n :: r) -> low g O -> llt R = rtype f -> loop_ok c g f A b -> tn_type n <> N_RETURN ->
  exists c', post c g O f A a z G' L' R (n :: r) c' g' fl.
Proof.
  intros c g O f A a c1 g1 A1 a1 G1 L1 R b p n r G' L' z g' fl GL (M1 & M2 & M3 & M4 & M5 & M6 & M7 & M8 & M9) E FB SQ TF LW RT LP NR.
  destruct (GL Statement c1 g1 O f A1 R b p G1 L1 G' L' a1 z g' fl E FB SQ (tree_tail _ _ TF) M9 M5 (low_grows _ _ _ M2 LW) RT) as (c' & P).
  - apply loop_le with c g A; auto. exact (proj2 (proj2 M3)).
  - exact M8.
  - exact M7.
  - exists c'. now apply post_cons with c1 g1 A1 a1.
Qed.
Lemma moved_step : forall c g O f A a b G L c1 g1 A1, step c g O f A c1 g1 A1 -> a <= b -> below g a -> scope c f A g G L -> (forall k, In k (all G L) -> k < a) -> moved c g O f A a c1 g1 A1 b G L.
Proof.
  intros c g O f A a b G L c1 g1 A1 (S1 & S2 & S3 & S4 & S5) LE BE SC BD. split; [exact S1|]. split; [exact S2|]. split; [now apply framed_same|]. split; [exact LE|].
  split; [apply below_same with g; [exact S3|now apply below_more with a]|]. split; [exact S4|]. split; [exact S5|]. split; [now apply scope_same with c A g|]. intros k K. specialize (BD k K). lia.
Qed.
Lemma moved_refl : forall c g O f A a b G L, st c g O f A -> a <= b -> below g a -> scope c f A g G L -> (forall k, In k (all G L) -> k < a) -> moved c g O f A a c g A b G L.
Proof. intros. apply moved_step; auto. now apply step_refl. Qed.

Lemma body_child : forall n g, gen_body n g = gen_list Statement (tn_child n) g.
Proof. intros [t k p c] g. reflexivity. Qed.
Lemma own_there : forall c g O n f A, inv c g O -> at_block c g n f A -> own_type ys f (ptypes f) (rtype f).
Proof. intros c g O n f A I (b & code & B & _ & <- & _). exact (i_own _ _ _ I n b B). Qed.

(** A new block for the code behind a condition. *)
Lemma inner_block : forall c g O n f A g' n0, inv c g O -> low g O -> at_block c g n0 f A -> new_block H g = (n, g') ->
  exists c', le c c' /\ grows g g' /\ same g (position H g' (g_cur g)) /\ inv c' g' (n :: O) /\ low g' (n :: O) /\ at_block c' g' n f A /\ target_ok c' f A n.
Proof.
  intros c g O n f A g' n0 I LW AT E. exists (with_block c (mkbk f true A)). pose proof (own_there _ _ _ _ _ _ I AT) as OT.
  destruct (inv_block c g O (mkbk f true A) n g' I E OT LW) as (I' & GR & -> & B & C). split; [apply with_block_le|]. split; [exact GR|]. unfold new_block in E. injection E as <-.
  split; [repeat split|]. split; [exact I'|]. split; [|split].
  - intros x [<-|J]; [cbn [Model_LLVM.g_blocks set_blocks]; rewrite app_length; cbn; lia|]. apply (low_grows g _ O GR LW x J).
  - exists (mkbk f true A), []. split; [exact B|]. split; [exact C|]. split; [reflexivity|apply incl_refl].
  - exists (mkbk f true A). split; [exact B|]. repeat split. apply incl_refl.
Qed.
Lemma st_at : forall c g O f A n, inv c g (n :: O) -> at_block c g n f A -> g_func g = f -> st c (position H g n) O f A.
Proof. intros c g O f A n I AT F. split; [now apply inv_fields with g|]. split; [exact AT|exact F]. Qed.
Lemma loops_refl : forall g, loops g g.
Proof. intro g. split; now left. Qed.
Lemma low_cons : forall c g n f A O, at_block c g n f A -> low g O -> low g (n :: O).
Proof. intros c g n f A O AT LW x [<-|J]; [exact (open_low _ _ _ _ _ AT)|now apply LW]. Qed.

(** The end of a block of an if or a loop. *)
Lemma closed_good : forall c g O f A a z G' L' R l c' g1 fl last, post c g O f A a z G' L' R l c' g1 fl -> target_ok c f A last ->
  let g2 := branch_to H last (g1, fl) in le c c' /\ grows g g2 /\ framed a g g2 /\ below g2 z /\ inv c' g2 O.
Proof.
  intros c g O f A a z G' L' R l c' g1 fl last (P1 & P2 & P3 & P4 & P5 & P6) T. cbn zeta. unfold branch_to. cbn [fst snd]. destruct fl as [t|].
  - repeat (split; [assumption|]). exact P5.
  - destruct P5 as (A' & IA & S0 & _). pose proof (target_le c c' f A A' last P1 IA T) as T'. destruct (jump_good c' g1 O f A' last S0 T') as (_ & J2 & J3 & J4). split; [exact P1|].
    split; [now apply grows_trans with g1|]. split; [apply framed_trans with a g1; [lia|exact P3|now apply framed_same]|]. split; [now apply below_same with g1|exact J4].
Qed.

Lemma branch_good : forall n entry last c g O f A R b G L G1 L1 a z y follows f0 g1, good_list (tn_child n) ->
  gen_branch H fold gys (gen_body n) (XExpr y) follows entry last g = Ok (f0, g1) -> fine_expr (all G L) y -> x_ty y = TBool -> fine_block R b false G L (tn_child n) G1 L1 ->
  seq a (tn_child n) z -> tree_fine (tn_child n) -> (forall k, In k (all G L) -> k < a) -> below g a -> low g O -> llt R = rtype f -> loop_ok c g f A b -> scope c f A g G L ->
  pre (Branch entry last) c g O f A ->
  exists c1, le c c1 /\ grows g g1 /\ framed a g g1 /\ below g1 z /\ if follows then pre (Branch f0 last) c1 g1 O f A else f0 = last /\ inv c1 g1 (last :: O).
Proof.
  intros n entry last c g O f A R b G L G1 L1 a z y follows f0 g1 GL E FE TY FB SQ TF BD BE LW RT LP SC (I0 & AE & AL & TL & GF).
  unfold gen_branch in E. destruct (new_block H g) as (t, g2) eqn:NB.
  destruct (inner_block c g (entry :: last :: O) t f A g2 entry I0 (low_cons _ _ _ _ _ _ AE (low_cons _ _ _ _ _ _ AL LW)) AE NB) as (c2 & LE2 & GR2 & SM2 & I2 & LW2 & AT2 & TT2).
  assert (X : forall h, same g (position H h (g_cur g)) -> g_func h = g_func g /\ loops g h /\ g_refs h = g_refs g /\ g_funs h = g_funs g).
  { intros h (X1 & X2 & X3 & X4 & X5 & X6 & X7). repeat split; auto; left; assumption. }
  destruct (X g2 SM2) as (F2 & LO2 & RF2 & FU2).
  rewrite body_child in E. destruct (gen_list Statement (tn_child n) (position H g2 t)) as [(g3, fl)|] eqn:E3; [|discriminate E]. cbn [bind] in E.
  assert (SC2 : scope c2 f A g2 G L) by (apply scope_le with c A g; auto; [apply incl_refl|intros; now rewrite RF2]).
  destruct (GL Statement c2 (position H g2 t) (entry :: last :: O) f A R b false G L G1 L1 a z g3 fl E3 FB SQ TF BD) as (c3 & P3).
  { intros k x. cbn [Model_LLVM.g_funs position]. rewrite FU2. apply BE. }
  { intros x J. apply LW2. now right. }
  { exact RT. }
  { apply loop_le with c g A; auto. apply incl_refl. }
  { exact SC2. }
  { apply st_at; [exact I2|exact AT2|congruence]. }
  destruct (closed_good _ _ _ _ _ _ _ _ _ _ _ _ _ _ last P3 (target_le _ _ _ _ _ _ LE2 (incl_refl _) TL)) as (LE3 & GR3 & FR3 & BE3 & I3). set (g4 := branch_to H last (g3, fl)) in *.
  set (g5 := position H g4 entry) in *. assert (LE : le c c3) by now apply le_trans with c2.
  assert (GR : grows g g5) by (apply grows_trans with g2; [exact GR2|exact GR3]).
  assert (FR : framed a g g5). { destruct FR3 as (X1 & X2 & X3 & X4). split; [exact (eq_trans X1 F2)|]. split; [intros k K; rewrite <- RF2; exact (X2 k K)|]. cbn in X3, X4. destruct LO2 as (Y1 & Y2). split; cbn.
    - destruct X3 as [X3|X3]; [destruct Y1 as [Y1|Y1]; [left|right]; congruence|now right].
    - destruct X4 as [X4|X4]; [destruct Y2 as [Y2|Y2]; [left|right]; congruence|now right]. }
  assert (AE5 : at_block c3 g5 entry f A) by now apply at_later with c g.
  assert (AL5 : at_block c3 g5 last f A) by now apply at_later with c g.
  assert (GF5 : g_func g5 = f) by (rewrite (proj1 FR); exact GF).
  assert (I5 : inv c3 g5 (entry :: last :: O)) by now apply inv_fields with g4.
  assert (LW5 : low g5 O) by now apply low_grows with g.
  assert (BE5 : below g5 z) by exact BE3.
  assert (TL5 : target_ok c3 f A last) by (apply target_le with c A; auto; apply incl_refl).
  assert (SC5 : scope c3 f A g5 G L) by (apply scope_le with c A g; auto; [apply incl_refl|intros k K; apply FR; now apply BD]).
  destruct follows.
  - destruct (new_block H g5) as (f1, g6) eqn:NB6.
    destruct (inner_block c3 g5 (entry :: last :: O) f1 f A g6 entry I5 (low_cons _ _ _ _ _ _ AE5 (low_cons _ _ _ _ _ _ AL5 LW5)) AE5 NB6) as (c6 & LE6 & GR6 & SM6 & I6 & LW6 & AT6 & TT6).
    assert (CUR : g_cur g6 = entry) by (unfold new_block in NB6; injection NB6 as _ <-; reflexivity).
    assert (SM6' : same g5 g6) by (destruct SM6 as (Y1 & Y2 & Y3 & Y4 & Y5 & Y6 & Y7); cbn in *; repeat split; auto; congruence).
    destruct (gen_condition H fold gys (XExpr y) t f1 g6) as [g7|] eqn:E7; [|discriminate E]. cbn [bind] in E. injection E as <- <-.
    assert (S6 : st c6 g6 (f1 :: last :: O) f A).
    { split; [rewrite CUR; apply inv_perm with (f1 :: entry :: last :: O); [exact I6|apply perm_swap]|]. split; [rewrite CUR; now apply at_later with c3 g5|]. rewrite (proj2 (proj2 (proj2 (proj2 (proj2 (proj2 SM6')))))). exact GF5. }
    destruct (condition_good c6 g6 (f1 :: last :: O) f A G L y t f1 g7 E7 FE TY) as (c7 & LE7 & GR7 & SM7 & I7).
    { now apply scope_same with c3 A g5; [exact LE6|apply incl_refl|exact SM6'|]. }
    { exact S6. }
    { apply target_le with c2 A; [now apply le_trans with c3|apply incl_refl|exact TT2]. }
    { exact TT6. }
    pose proof (same_trans _ _ _ SM6' SM7) as SM57.
    exists c7. split; [apply le_trans with c3; [exact LE|now apply le_trans with c6]|]. split; [apply grows_trans with g5; [exact GR|now apply grows_trans with g6]|].
    split; [apply framed_trans with a g5; [lia|exact FR|now apply framed_same]|]. split; [now apply below_same with g5|].
    split; [exact I7|]. split; [now apply at_later with c6 g6|]. split; [apply at_later with c3 g5; [now apply le_trans with c6|now apply grows_trans with g6|exact AL5]|].
    split; [apply target_le with c3 A; [now apply le_trans with c6|apply incl_refl|exact TL5]|]. rewrite (proj2 (proj2 (proj2 (proj2 (proj2 (proj2 SM57)))))). exact GF5.
  - destruct (gen_condition H fold gys (XExpr y) t last g5) as [g7|] eqn:E7; [|discriminate E]. cbn [bind] in E. injection E as <- <-.
    destruct (condition_good c3 g5 (last :: O) f A G L y t last g7 E7 FE TY SC5 (conj I5 (conj AE5 GF5))) as (c7 & LE7 & GR7 & SM7 & I7).
    { apply target_le with c2 A; [exact LE3|apply incl_refl|exact TT2]. }
    { exact TL5. }
    exists c7. split; [now apply le_trans with c3|]. split; [now apply grows_trans with g5|]. split; [apply framed_trans with a g5; [lia|exact FR|now apply framed_same]|].
    split; [now apply below_same with g5|]. auto.
Qed.

Lemma while_good : forall n c g O f A R G L G1 L1 a z y g1, good_list (tn_child n) ->
  gen_while H fold gys (gen_body n) (XExpr y) g = Ok g1 -> fine_expr (all G L) y -> x_ty y = TBool -> fine_block R true false G L (tn_child n) G1 L1 ->
  seq a (tn_child n) z -> tree_fine (tn_child n) -> (forall k, In k (all G L) -> k < a) -> below g a -> low g O -> llt R = rtype f -> scope c f A g G L -> st c g O f A ->
  exists c1, le c c1 /\ grows g g1 /\ framed a g g1 /\ below g1 z /\ st c1 g1 O f A.
Proof.
  intros n c g O f A R G L G1 L1 a z y g1 GL E FE TY FB SQ TF BD BE LW RT SC (I0 & AT0 & GF). unfold gen_while in E. set (w := g_cur g) in *.
  destruct (new_block H g) as (hd, g2) eqn:NB2. destruct (inner_block c g (w :: O) hd f A g2 w I0 (low_cons _ _ _ _ _ _ AT0 LW) AT0 NB2) as (c2 & LE2 & GR2 & SM2 & I2 & LW2 & AT2 & TT2).
  destruct (new_block H g2) as (bd, g3) eqn:NB3. destruct (inner_block c2 g2 (hd :: w :: O) bd f A g3 hd I2 LW2 AT2 NB3) as (c3 & LE3 & GR3 & SM3 & I3 & LW3 & AT3 & TT3).
  destruct (new_block H g3) as (en, g4) eqn:NB4. destruct (inner_block c3 g3 (bd :: hd :: w :: O) en f A g4 bd I3 LW3 AT3 NB4) as (c4 & LE4 & GR4 & SM4 & I4 & LW4 & AT4 & TT4).
  assert (SM : g_refs g4 = g_refs g /\ g_funs g4 = g_funs g /\ g_func g4 = g_func g /\ g_cur g4 = w).
  { unfold new_block in NB2, NB3, NB4. injection NB4 as _ <-. injection NB3 as _ <-. injection NB2 as _ <-. repeat split. }
  destruct SM as (RF4 & FU4 & FN4 & CU4). set (g5 := set_loop H g4 (Some hd) (Some en)) in *.
  assert (LE : le c c4) by (apply le_trans with c2; [exact LE2|now apply le_trans with c3]). assert (GR : grows g g4) by (apply grows_trans with g2; [exact GR2|now apply grows_trans with g3]).
  assert (TH : target_ok c4 f A hd) by (apply target_le with c2 A; [now apply le_trans with c3|apply incl_refl|exact TT2]).
  assert (TB : target_ok c4 f A bd) by (apply target_le with c3 A; [exact LE4|apply incl_refl|exact TT3]).
  assert (S5 : st c4 g5 (hd :: bd :: en :: O) f A).
  { split; [|split].
    - apply inv_fields with g4; auto. cbn [g5 set_loop Model_LLVM.g_cur]. rewrite CU4. apply inv_perm with (en :: bd :: hd :: w :: O); [exact I4|].
      change (Permutation ([en; bd; hd; w] ++ O) ([w; hd; bd; en] ++ O)). apply Permutation_app_tail. exact (Permutation_rev [en; bd; hd; w]).
    - cbn [g5 set_loop Model_LLVM.g_cur]. rewrite CU4. now apply (at_later c c4 g).
    - cbn [g5 set_loop Model_LLVM.g_func]. congruence. }
  destruct (jump_good c4 g5 (hd :: bd :: en :: O) f A hd S5 TH) as (_ & GR6 & SM6 & I6). set (g6 := emit H g5 (IBr hd)) in *.
  assert (RF6 : g_refs g6 = g_refs g) by exact RF4. assert (FU6 : g_funs g6 = g_funs g) by exact FU4. assert (FN6 : g_func g6 = f) by (rewrite <- GF; exact FN4).
  assert (AH6 : at_block c4 g6 hd f A) by (apply at_later with c2 g2; [now apply le_trans with c3|apply grows_trans with g3; [exact GR3|]; apply grows_trans with g4; [exact GR4|exact GR6]|exact AT2]).
  assert (AB6 : at_block c4 g6 bd f A) by (apply at_later with c3 g3; [exact LE4|apply grows_trans with g4; [exact GR4|exact GR6]|exact AT3]).
  assert (AE6 : at_block c4 g6 en f A) by (apply at_later with c4 g4; [apply le_refl|exact GR6|exact AT4]).
  assert (SC6 : scope c4 f A (position H g6 hd) G L) by (apply scope_le with c A g; auto; [apply incl_refl|intros; cbn; now rewrite <- RF4]).
  destruct (gen_condition H fold gys (XExpr y) bd en (position H g6 hd)) as [g7|] eqn:E7; [|discriminate E]. cbn [bind] in E.
  destruct (condition_good c4 (position H g6 hd) (bd :: en :: O) f A G L y bd en g7 E7 FE TY SC6 (st_at _ _ _ _ _ _ I6 AH6 FN6) TB TT4) as (c7 & LE7 & GR7 & SM7 & I7).
  assert (GR07 : grows g g7) by (apply grows_trans with g4; [exact GR|]; apply grows_trans with g6; [exact GR6|exact GR7]).
  destruct SM7 as (U1 & U2 & U3 & U4 & U5 & U6 & U7). cbn in U1, U2, U3, U4, U5, U6, U7.
  rewrite body_child in E. destruct (gen_list Statement (tn_child n) (position H g7 bd)) as [(g8, fl)|] eqn:E8; [|discriminate E]. cbn [bind] in E. injection E as <-.
  assert (LE07 : le c c7) by now apply le_trans with c4.
  destruct (GL Statement c7 (position H g7 bd) (en :: O) f A R true false G L G1 L1 a z g8 fl E8 FB SQ TF BD) as (c8 & P8).
  { intros k x. cbn [Model_LLVM.g_funs position]. rewrite U4. change (In (k, x) (g_funs g4) -> k < a). rewrite FU4. apply BE. }
  { intros x J. apply (low_grows g4 (position H g7 bd) (en :: O)); [apply grows_trans with g6; [exact GR6|exact GR7]| |exact J]. intros q [<-|Q]; apply LW4; [now left|]. right. right. right. now right. }
  { exact RT. }
  { intros _ x [X|X]; cbn in X.
    - rewrite U5 in X. cbn in X. injection X as <-. apply target_le with c4 A; [exact LE7|apply incl_refl|exact TH].
    - rewrite U6 in X. cbn in X. injection X as <-. apply target_le with c4 A; [exact LE7|apply incl_refl|exact TT4]. }
  { apply scope_le with c A g; auto; [apply incl_refl|]. intros k _. cbn. rewrite U2. change (lookup (g_refs g4) k = lookup (g_refs g) k). now rewrite RF4. }
  { apply st_at; [exact I7| |now rewrite U7]. apply at_later with c4 g6; [exact LE7|exact GR7|exact AB6]. }
  destruct (closed_good _ _ _ _ _ _ _ _ _ _ _ _ _ _ hd P8 (target_le _ _ _ _ _ _ LE7 (incl_refl _) TH)) as (LE9 & GR9 & FR9 & BE9 & I9). set (g9 := branch_to H hd (g8, fl)) in *.
  exists c8. split; [now apply le_trans with c7|]. split; [apply grows_trans with g7; [exact GR07|exact GR9]|]. destruct FR9 as (X1 & X2 & _). cbn in X1, X2.
  split; [|split; [exact BE9|]].
  - split; [cbn; rewrite X1, U7; rewrite GF; exact FN6|]. split; [|split; right; reflexivity]. intros k K. cbn. rewrite X2 by exact K. rewrite U2. change (lookup (g_refs g4) k = lookup (g_refs g) k). now rewrite RF4.
  - split; [|split].
    + apply inv_fields with g9; auto.
    + apply at_later with c4 g6; [now apply le_trans with c7|apply grows_trans with g7; [exact GR7|exact GR9]|exact AE6].
    + cbn. rewrite X1, U7. exact FN6.
Qed.

(** * Functions *)

Definition with_fun (c : cert) (k : nat) : cert := mkcert (c_bk c) (c_rt c) (c_gt c) (k :: c_fs c).
Lemma with_fun_le : forall c k, le c (with_fun c k).
Proof. intros c k. repeat split; try (exists []; now rewrite app_nil_r). intros x J. now right. Qed.
Lemma inv_fun : forall c g O k x, inv c g O -> ~ In k (map fst (g_funs g)) -> (forall b, x = Some b -> nth_error (c_bk c) b = Some (mkbk (Some k) false [])) -> inv (with_fun c k) (set_fun H g k x) O.
Proof.
  intros c g O k x [a1 a2 a3 a4 a5 a6 a7 a8 a9 a10 a11 a12 a13 a14] N1 F. pose proof (with_fun_le c k) as LE.
  constructor; cbn [Model_LLVM.g_blocks Model_LLVM.g_reg Model_LLVM.g_glob Model_LLVM.g_funs set_fun]; auto.
  - intros n b code B E. apply code_le with c; [exact LE|]. now apply a2 with n.
  - intros j [<-|J]; cbn [lookup]; [rewrite Nat.eqb_refl; discriminate|]. destruct (Nat.eqb k j); [discriminate|]. now apply a11.
  - constructor; auto.
  - intros j b [J|J]; [injection J as <- ->; now apply F|now apply a13].
Qed.
Lemma new_name : forall g a k, below g a -> a <= k -> ~ In k (map fst (g_funs g)).
Proof. intros g a k B L I. apply in_map_iff in I as ((j & x) & E & I). cbn in E. subst j. specialize (B k x I). lia. Qed.

Lemma params_keep : forall ps i g, let g' := gen_params H i ps g in
  g_blocks g' = g_blocks g /\ g_cur g' = g_cur g /\ g_reg g' = g_reg g /\ g_glob g' = g_glob g /\ g_funs g' = g_funs g /\ g_cond g' = g_cond g /\ g_end g' = g_end g /\ g_func g' = g_func g /\
  forall k, ~ In k ps -> lookup (g_refs g') k = lookup (g_refs g) k.
Proof.
  induction ps as [|p ps IH]; intros i g; cbn [gen_params]; [repeat split|]. destruct (IH (S i) (set_ref H g p (mkref H (OArg i) false false))) as (X1 & X2 & X3 & X4 & X5 & X6 & X7 & X8 & X9).
  repeat (split; [assumption|]). intros k N1. rewrite X9 by (intro Q; apply N1; now right). cbn [set_ref Model_LLVM.g_refs]. apply lookup_other. intros ->. apply N1. now left.
Qed.
Lemma params_set : forall ps i g j p, NoDup ps -> nth_error ps j = Some p -> lookup (g_refs (gen_params H i ps g)) p = Some (mkref H (OArg (i + j)) false false).
Proof.
  induction ps as [|q ps IH]; intros i g j p ND E; [destruct j; discriminate E|]. inversion ND as [|q' ps' N1 N2]; subst. cbn [gen_params]. destruct j as [|j]; cbn [nth_error] in E.
  - injection E as <-. destruct (params_keep ps (S i) (set_ref H g q (mkref H (OArg i) false false))) as (_ & _ & _ & _ & _ & _ & _ & _ & X). rewrite X by exact N1. rewrite Nat.add_0_r. apply lookup_here.
  - rewrite (IH _ _ j p N2 E). now replace (S i + j) with (i + S j) by lia.
Qed.

(** The refs of parameters. *)
Definition pok (c : cert) (f : option nat) (A : list nat) (g : gst) (ptr : bool) (p : nat) : Prop :=
  exists t r, D p = Some (DVar t false) /\ t <> TVoid /\ lookup (g_refs g) p = Some r /\ rf_global H r = false /\ opok c f A (rf_val H r) (if ptr then LPointer (llt t) else llt t).
Lemma pok_le : forall c c' f A A' g g' b p, le c c' -> incl A A' -> lookup (g_refs g') p = lookup (g_refs g) p -> pok c f A g b p -> pok c' f A' g' b p.
Proof. intros c c' f A A' g g' b p LE I E (t & r & X1 & X2 & X3 & X4 & X5). exists t, r. rewrite E. refine (conj X1 (conj X2 (conj X3 (conj X4 _)))). now apply (opok_le c c' f A A'). Qed.
Lemma cells_good : forall ps c g O f A g', debug_params H gys ps g = Ok g' -> NoDup ps -> st c g O f A -> (forall p, In p ps -> pok c f A g false p) ->
  exists c' A', le c c' /\ grows g g' /\ incl A A' /\ st c' g' O f A' /\ g_funs g' = g_funs g /\ g_cond g' = g_cond g /\ g_end g' = g_end g /\
    (forall k, ~ In k ps -> lookup (g_refs g') k = lookup (g_refs g) k) /\ forall p, In p ps -> pok c' f A' g' true p.
Proof.
  induction ps as [|p ps IH]; intros c g O f A g' E ND S0 K; cbn [debug_params] in E.
  - injection E as <-. exists c, A. split; [apply le_refl|]. split; [apply grows_refl|]. split; [apply incl_refl|]. split; [exact S0|]. repeat split; auto. intros p [].
  - inversion ND as [|q' ps' N1 N2]; subst. destruct (K p (or_introl eq_refl)) as (t & r & DP & NV & LR & GL & OP). destruct (SV p t false DP) as (v & V & VT & _).
    rewrite V in E. cbn [bind] in E. unfold var_ref in E. rewrite LR in E. cbn [bind] in E. destruct (emit_reg H g (fun n => IAlloca n (v_type v))) as (o, g1) eqn:ER.
    destruct (step_reg c g O f A (fun n => IAlloca n (v_type v)) (LPointer (llt t)) o g1 S0 ER) as (S1 & K1); try reflexivity.
    { apply is_isok; [|intros x []|reflexivity]. rewrite VT. apply in_alloca; [|exact NV]. cbn [with_reg c_rt]. rewrite nth_error_app2; rewrite (i_regs _ _ _ (proj1 S0)); [|lia]. now rewrite Nat.sub_diag. }
    specialize (K1 ltac:(discriminate)). destruct S1 as (L1 & G1 & (M1 & M2 & M3 & M4 & M5 & M6 & M7) & I1 & ST1). set (c1 := with_reg c (LPointer (llt t))) in *. set (A1 := g_reg g :: A) in *.
    set (g2 := emit H g1 (IStore (rf_val H r) o)) in *. assert (S2 : st c1 g2 O f A1) by (apply store_good with (llt t); [exact ST1|now apply (opok_le c c1 f A A1)|exact K1]).
    set (g3 := set_ref H g2 p (mkref H o false false)) in *. assert (S3 : st c1 g3 O f A1) by (apply st_le with c1 g2; auto; [apply inv_fields with g2; auto; exact (proj1 S2)|apply le_refl|now apply grows_blocks]).
    assert (R3 : forall k, k <> p -> lookup (g_refs g3) k = lookup (g_refs g) k) by (intros k Q; cbn [g3 g2 set_ref emit set_blocks Model_LLVM.g_refs]; rewrite lookup_other by exact Q; now rewrite M2).
    destruct (IH c1 g3 O f A1 g' E N2 S3) as (c' & A' & P1 & P2 & P3 & P4 & P5 & P6 & P7 & P8 & P9).
    { intros q Q. apply pok_le with c A g; auto; [|apply K; now right]. apply R3. intros ->. now apply N1. }
    exists c', A'. split; [now apply le_trans with c1|]. split; [apply grows_trans with g1; [exact G1|]; apply grows_trans with g2; [apply grows_emit|exact P2]|]. split; [now apply incl_tran with A1|].
    split; [exact P4|]. split; [rewrite P5; exact M4|]. split; [rewrite P6; exact M5|]. split; [rewrite P7; exact M6|]. split.
    + intros k N3. rewrite P8 by (intro Q; apply N3; now right). apply R3. intros ->. apply N3. now left.
    + intros q [<-|Q]; [|now apply P9]. exists t, (mkref H o false false). refine (conj DP (conj NV (conj _ (conj eq_refl _)))).
      * rewrite P8 by exact N1. apply lookup_here.
      * now apply (opok_le c1 c' f A1 A').
Qed.

Lemma no_void_types : forall l, existsb (fun t => ty_eqb t TVoid) l = false -> ~ In TVoid l.
Proof. intros l E I. assert (X : existsb (fun t => ty_eqb t TVoid) l = true) by (apply existsb_exists; exists TVoid; split; [exact I|reflexivity]). rewrite E in X. discriminate X. Qed.
Lemma external_good : forall n c g O f A G L a b k ks ts r g1, gen_func_decl H gys debug (gen_body n) k ks g = Ok g1 -> is_external ys k = true -> D k = Some (DFun ts r) ->
  a <= k < b -> below g a -> scope c f A g G L -> st c g O f A -> (forall j, In j (all G L) -> j < a) -> exists c1, moved c g O f A a c1 g1 A b (k :: G) L.
Proof.
  intros n c g O f A G L a b k ks ts r g1 E EX DK KB BE SC (S1 & S2 & S3) BD. destruct (SF k ts r DK) as (y & fn & Y1 & Y2 & Y3 & Y4 & Y5 & Y6 & Y7). unfold gen_func_decl in E. rewrite Y3 in E. cbn [bind] in E.
  destruct (existsb (fun t => ty_eqb t TVoid) (f_params fn)) eqn:EV; [discriminate E|]. rewrite Y7, EX in E. injection E as <-. apply no_void_types in EV. rewrite Y4 in EV.
  assert (NN : ~ In k (map fst (g_funs g))) by (apply new_name with a; [exact BE|lia]).
  exists (with_fun c k). pose proof (with_fun_le c k) as LE. split; [exact LE|]. split; [now apply grows_blocks|]. split; [repeat split; now left|]. split; [lia|].
  split; [intros j x [J|J]; [injection J as <- _; lia|]; specialize (BE j x J); lia|]. split; [apply incl_refl|]. split; [|split].
  - split; [|split; [|exact S3]].
    + apply inv_fun; [exact S1|exact NN|discriminate].
    + apply at_later with c g; [exact LE|now apply grows_blocks|exact S2].
  - assert (SC' : scope (with_fun c k) f A (set_fun H g k None) G L) by (apply scope_le with c A g; auto; apply incl_refl). destruct SC' as (Z1 & Z2). split; [|exact Z2]. intros j [<-|J]; [|now apply Z1].
    unfold gok. rewrite DK. split; [now left|exact EV].
  - intros j J. assert (Q : j = k \/ In j (all G L)). { destruct L as [lo|]; cbn [all] in *; [apply in_app_iff in J as [J|[J|J]]|destruct J as [J|J]]; auto; right; apply in_app_iff; auto. }
    destruct Q as [->|Q]; [lia|]. specialize (BD j Q). lia.
Qed.

Lemma function_good : forall n c g O A G a b z k ks ts r g1 G1 L1, good_list (tn_child n) -> gen_func_decl H gys debug (gen_body n) k ks g = Ok g1 -> is_external ys k = false ->
  D k = Some (DFun ts r) -> Forall2 (fun i t => exists m, D i = Some (DVar t m)) ks ts -> (forall i, In i ks -> exists t, D i = Some (DVar t false)) ->
  fine_block r false false (k :: G) (Some ks) (tn_child n) G1 L1 -> (r <> TVoid -> has_return (tn_child n)) -> seq b (tn_child n) z -> tree_fine (tn_child n) ->
  a <= k < b -> (forall p, In p ks -> a <= p < b) -> NoDup ks -> (forall p v, In p ks -> sym_var gys p = Ok v -> v_const v = negb debug) ->
  below g a -> low g O -> scope c None A g G None -> st c g O None A -> (forall j, In j G -> j < a) -> exists c1, moved c g O None A a c1 g1 A z (k :: G) None.
Proof.
  intros n c g O A G a b z k ks ts r g1 G1 L1 GL E EX DK F2 DP FB HR SQ TF KB PB ND PC BE LW SC S0 BD. pose proof S0 as (S1 & S2 & S3).
  destruct (SF k ts r DK) as (y & fn & Y1 & Y2 & Y3 & Y4 & Y5 & Y6 & Y7). unfold gen_func_decl in E. rewrite Y3 in E. cbn [bind] in E.
  destruct (existsb (fun t => ty_eqb t TVoid) (f_params fn)) eqn:EV; [discriminate E|]. rewrite Y7, EX in E. apply no_void_types in EV. rewrite Y4 in EV.
  assert (NN : ~ In k (map fst (g_funs g))) by (apply new_name with a; [exact BE|lia]). set (w := g_cur g) in *.
  assert (SG : ptypes (Some k) = map llt ts /\ rtype (Some k) = llt r) by (unfold ptypes, rtype, sig_of; rewrite Y1, Y2; cbn [fst snd]; rewrite Y4, Y5; auto). destruct SG as (SG1 & SG2).
  destruct (new_block H g) as (e, g2) eqn:NB. assert (LW1 : low g (w :: O)) by exact (low_cons _ _ _ _ _ _ S2 LW).
  destruct (inv_block c g (w :: O) (mkbk (Some k) false []) e g2 S1 NB) as (I2 & GR2 & EE & B2 & C2).
  { cbn [b_own]. exists y, fn. split; [exact Y1|]. split; [exact Y2|]. rewrite SG1, SG2, Y4, Y5. auto. }
  { exact LW1. }
  set (c2 := with_block c (mkbk (Some k) false [])) in *. assert (LE2 : le c c2) by apply with_block_le.
  assert (SM2 : g_refs g2 = g_refs g /\ g_funs g2 = g_funs g /\ g_cond g2 = g_cond g /\ g_end g2 = g_end g) by (unfold new_block in NB; injection NB as _ <-; repeat split). destruct SM2 as (RF2 & FU2 & CO2 & EN2).
  set (g3 := set_fun H g2 k (Some e)) in *. set (c3 := with_fun c2 k) in *. assert (LE3 : le c c3) by (apply le_trans with c2; [exact LE2|apply with_fun_le]).
  assert (I3 : inv c3 g3 (e :: w :: O)). { apply inv_fun; [exact I2|now rewrite FU2|]. intros x [= <-]. exact B2. }
  set (g4 := gen_params H 0 ks g3) in *. destruct (params_keep ks 0 g3) as (K1 & K2 & K3 & K4 & K5 & K6 & K7 & K8 & K9). fold g4 in K1, K2, K3, K4, K5, K6, K7, K8, K9.
  assert (I4 : inv c3 g4 (e :: w :: O)) by now apply inv_fields with g3.
  set (g5 := set_func H (position H g4 e) (Some k)) in *.
  assert (S5 : st c3 g5 (w :: O) (Some k) []).
  { split; [now apply inv_fields with g4|]. split; [|reflexivity]. exists (mkbk (Some k) false []), []. split; [exact B2|]. split; [cbn [g5 set_func position Model_LLVM.g_blocks Model_LLVM.g_cur]; rewrite K1; exact C2|].
    split; [reflexivity|apply incl_refl]. }
  assert (P5 : forall p, In p ks -> pok c3 (Some k) [] g5 false p).
  { intros p J. apply In_nth_error in J as (j & J). assert (T : exists t, nth_error ts j = Some t /\ exists m, D p = Some (DVar t m)).
    { clear - F2 J. revert j J. induction F2 as [|i t l l' X F IH]; intros j J; [destruct j; discriminate J|]. destruct j as [|j]; cbn in *; [injection J as <-; eauto|now apply IH]. }
    destruct T as (t & T1 & m & T2). destruct (DP p (nth_error_In _ _ J)) as (t' & T3). rewrite T2 in T3. injection T3 as <- ->. assert (NV : t <> TVoid) by (intros ->; apply EV; now apply nth_error_In with j).
    exists t, (mkref H (OArg j) false false). refine (conj T2 (conj NV (conj _ (conj eq_refl (conj _ _))))).
    - exact (params_set ks 0 g3 j p ND J).
    - apply op_arg; [rewrite SG1; now apply map_nth_error|]. destruct t; try discriminate; now destruct NV.
    - intros x []. }
  assert (GR5 : grows g g5). { apply grows_trans with g2; [exact GR2|]. apply grows_blocks. exact K1. }
  destruct (func_debug_info H gys debug ks g5) as [g6|] eqn:E6; [|discriminate E]. cbn [bind] in E.
  assert (X : exists c6 A6, le c3 c6 /\ grows g5 g6 /\ st c6 g6 (w :: O) (Some k) A6 /\ g_funs g6 = g_funs g5 /\ g_cond g6 = g_cond g5 /\ g_end g6 = g_end g5 /\
    (forall j, ~ In j ks -> lookup (g_refs g6) j = lookup (g_refs g5) j) /\ forall p, In p ks -> pok c6 (Some k) A6 g6 debug p).
  { unfold func_debug_info in E6. destruct debug.
    - destruct (cells_good ks c3 g5 (w :: O) (Some k) [] g6 E6 ND S5 P5) as (c6 & A6 & Q1 & Q2 & _ & Q3 & Q4 & Q5 & Q6 & Q7 & Q8). exists c6, A6. auto 10.
    - injection E6 as <-. exists c3, []. split; [apply le_refl|]. split; [apply grows_refl|]. auto 10. }
  destruct X as (c6 & A6 & LE6 & GR6 & S6 & FU6 & CO6 & EN6 & RF6 & P6).
  assert (LE06 : le c c6) by now apply le_trans with c3. assert (GR06 : grows g g6) by now apply grows_trans with g5.
  assert (R6 : forall j, j < a -> lookup (g_refs g6) j = lookup (g_refs g) j).
  { intros j J. assert (NJ : ~ In j ks) by (intro Q; specialize (PB j Q); lia). rewrite RF6 by exact NJ. cbn [g5 set_func position Model_LLVM.g_refs]. rewrite K9 by exact NJ. cbn [g3 set_fun Model_LLVM.g_refs]. now rewrite RF2. }
  assert (FU06 : g_funs g6 = (k, Some e) :: g_funs g). { rewrite FU6. change (g_funs g5) with (g_funs g4). rewrite K5. cbn [g3 set_fun Model_LLVM.g_funs]. now rewrite FU2. }
  assert (LO6 : g_cond g6 = g_cond g /\ g_end g6 = g_end g). { split; [rewrite CO6; change (g_cond g5) with (g_cond g4); rewrite K6; exact CO2|rewrite EN6; change (g_end g5) with (g_end g4); rewrite K7; exact EN2]. }
  assert (IK : In k (c_fs c6)) by (apply LE6; now left).
  rewrite body_child in E. destruct (gen_list Statement (tn_child n) g6) as [(g7, fl)|] eqn:E7; [|discriminate E]. cbn [bind] in E. injection E as <-.
  destruct (GL Statement c6 g6 (w :: O) (Some k) A6 r false false (k :: G) (Some ks) G1 L1 b z g7 fl E7 FB SQ TF) as (c7 & LE7 & GR7 & FR7 & BE7 & EN7 & FL7).
  { intros j J. cbn [all] in J. apply in_app_iff in J as [J|[<-|J]]; [now apply PB|lia|]. specialize (BD j J). lia. }
  { intros j x J. rewrite FU06 in J. destruct J as [J|J]; [injection J as <- _; lia|]. specialize (BE j x J). lia. }
  { now apply low_grows with g. }
  { now rewrite SG2. }
  { discriminate. }
  { split.
    - intros j [<-|J]; [unfold gok; rewrite DK; auto|]. apply gok_le with c g; [exact LE06|apply R6; now apply BD|now apply (proj1 SC)].
    - split; [discriminate|]. intros p J. destruct (P6 p J) as (t & rf & Q1 & Q2 & Q3 & Q4 & Q5). unfold lok. rewrite Q1. destruct (SV p t false Q1) as (v & V & _). exists rf, v.
      refine (conj Q3 (conj V (conj Q4 (conj Q2 _)))). rewrite (PC p v J V). destruct debug; exact Q5. }
  { exact S6. }
  destruct FR7 as (F7a & F7b & F7c & F7d). assert (GR07 : grows g g7) by now apply grows_trans with g6. assert (LE07 : le c c7) by now apply le_trans with c6.
  set (g8 := end_func H fn fl (g_func g) g7) in *.
  assert (EQ8 : g_refs g8 = g_refs g7 /\ g_funs g8 = g_funs g7 /\ g_cond g8 = g_cond g7 /\ g_end g8 = g_end g7 /\ g_func g8 = g_func g /\ grows g7 g8).
  { unfold g8, end_func. destruct (_ && _); repeat split; try (now apply grows_blocks). exact (grows_emit g7 (IRet None)). }
  destruct EQ8 as (RF8 & FU8 & CO8 & EN8 & FN8 & GR8).
  assert (I8 : inv c7 g8 (w :: O)).
  { unfold g8, end_func. destruct fl as [t|]; cbn [ends flows] in EN7, FL7.
    - destruct FL7 as (FL7 & _). destruct (ty_eqb (f_ret fn) TVoid) eqn:TR; cbn [andb]; [|now apply inv_fields with g7].
      assert (RV : f_ret fn = TVoid) by (clear - TR; destruct (f_ret fn); try discriminate TR; reflexivity). rewrite Y5 in RV. rewrite (FL7 RV). cbn [negb]. now apply inv_fields with g7.
    - assert (RV : r = TVoid). { destruct r; try reflexivity; exfalso; apply FL7; apply HR; discriminate. }
      rewrite Y5, RV. cbn [ty_eqb andb negb]. destruct EN7 as (A7 & _ & S7 & _).
      assert (I : inv c7 (emit H g7 (IRet None)) (w :: O)). { apply (emit_end c7 g7 (w :: O) (Some k) A7); try reflexivity; [exact S7|]. apply is_isok; [|intros x []|reflexivity]. apply in_ret_void. rewrite SG2, RV. reflexivity. }
      now apply inv_fields with (emit H g7 (IRet None)). }
  assert (R8 : forall j, j < a -> lookup (g_refs g8) j = lookup (g_refs g) j) by (intros j J; rewrite RF8, F7b by lia; now apply R6).
  assert (GR08 : grows g g8) by now apply grows_trans with g7.
  pose proof (seq_le _ _ _ SQ) as BZ.
  exists c7. split; [exact LE07|]. split; [exact GR08|]. split; [|split; [lia|]].
  { split; [exact FN8|]. split; [exact R8|]. destruct LO6 as (LO6a & LO6b). cbn [position Model_LLVM.g_cond Model_LLVM.g_end]. split.
    - cbn. rewrite CO8. destruct F7c as [->|X]; auto.
    - cbn. rewrite EN8. destruct F7d as [->|X]; auto. }
  split; [intros j x J; apply (BE7 j x); rewrite <- FU8; exact J|]. split; [apply incl_refl|]. split; [|split].
  - split; [now apply inv_fields with g8|]. split; [now apply at_later with c g|]. rewrite <- S3. exact FN8.
  - split; [|reflexivity]. intros j [<-|J].
    + unfold gok. rewrite DK. split; [|exact EV]. now apply LE7.
    + apply gok_le with c g; [exact LE07|apply R8; now apply BD|now apply (proj1 SC)].
  - intros j [<-|J]; [lia|]. specialize (BD j J). lia.
Qed.

(** * Lists of statements *)

Lemma post_end : forall c g O f A a z G' L' R n r c' g' t, shut c g O c' g' -> below g a -> a <= z -> is_jump (tn_type n) = true -> (R = TVoid -> t = Some TVoid) ->
  post c g O f A a z G' L' R (n :: r) c' g' (Some t).
Proof.
  intros c g O f A a z G' L' R n r c' g' t (S1 & S2 & S3 & S4) BE LE J V. split; [exact S1|]. split; [exact S2|]. split; [now apply framed_same|].
  split; [apply below_same with g; [exact S3|now apply below_more with a]|]. split; [exact S4|]. split; [exact V|]. exists n. split; [now left|exact J].
Qed.
Lemma in_all_addg : forall k j G L, In j (all (addg k G L) (addl k L)) -> j = k \/ In j (all G L).
Proof. intros k j G [lo|] J; cbn [addg addl all] in *; [cbn [app] in J|]; destruct J as [J|J]; auto. Qed.

Lemma list_good : forall l, Forall (fun n => good_list (tn_child n)) l -> good_list l.
Proof.
  induction l as [|n r IH]; intros GC m c g O f A R b p G L G' L' a z g' fl E FB SQ TF BD BE LW RT LP SC PR.
  - inversion FB; subst. destruct m as [|e0 l0]; [|discriminate E]. injection E as <- <-. exists c. inversion SQ as [a1 b1 LE|]; subst. split; [apply le_refl|]. split; [apply grows_refl|]. split; [apply framed_refl|].
    split; [now apply below_more with a|]. split; [|intros (x & [] & _)]. exists A. split; [apply incl_refl|]. split; [exact PR|]. split; [exact SC|]. intros k K. specialize (BD k K). lia.
  - apply Forall_cons_iff in GC as (GN & GR0). specialize (IH GR0). apply block_inv in FB as (p' & G1 & L1 & FS & FB).
    inversion SQ as [|a1 x1 l1 b0 c0 d0 AB UH NH SQC SQR]; subst. pose proof (seq_le _ _ _ SQC) as BC. pose proof (seq_le _ _ _ SQR) as CZ. pose proof (tree_child _ _ TF) as TC. pose proof (tree_tail _ _ TF) as TR.
    assert (BDb : forall k, In k (all G L) -> k < b0) by (intros k K; specialize (BD k K); lia).
    (* the branches of an if *)
    assert (COND : forall entry last g0 c2 y, le c c2 -> grows g g0 -> same g (position H g0 (g_cur g)) -> pre (Branch entry last) c2 g0 O f A -> tn_pay n = XExpr y -> fine_expr (all G L) y -> x_ty y = TBool -> G1 = G -> L1 = L ->
      fine_block R b false G L (tn_child n) G1 L1 \/ (exists G2 L2, fine_block R b false G L (tn_child n) G2 L2) -> tn_type n <> N_RETURN ->
      (do (f1, g1) <- gen_branch H fold gys (gen_body n) (tn_pay n) (branch_follows r) entry last g0;
       if branch_follows r then gen_list (Branch f1 last) r g1 else gen_list Statement r (position H g1 last)) = Ok (g', fl) -> exists c', post c g O f A a z G' L' R (n :: r) c' g' fl).
    { intros entry last g0 c2 y LE2 GR2 SM2 PR2 PY FE TY -> -> FC NR EB. assert (FC' : exists G2 L2, fine_block R b false G L (tn_child n) G2 L2) by (destruct FC as [FC|FC]; eauto). destruct FC' as (G2 & L2 & FC').
      rewrite PY in EB. destruct (gen_branch H fold gys (gen_body n) (XExpr y) (branch_follows r) entry last g0) as [(f1, g1)|] eqn:EG; [|discriminate EB]. cbn [bind] in EB.
      destruct SM2 as (M1 & M2 & M3 & M4 & M5 & M6 & M7). cbn in M1, M2, M3, M4, M5, M6, M7. assert (LO : loops g g0) by (split; now left).
      assert (SC2 : scope c2 f A g0 G L) by (apply scope_le with c A g; auto; [apply incl_refl|intros; now rewrite M2]).
      destruct (branch_good n entry last c2 g0 O f A R b G L G2 L2 b0 c0 y (branch_follows r) f1 g1 GN EG FE TY FC' SQC TC BDb) as (c1 & LE1 & GR1 & FR1 & BE1 & W).
      { intros k x. rewrite M4. intro J. specialize (BE k x J). lia. }
      { now apply low_grows with g. }
      { exact RT. }
      { apply loop_le with c g A; auto. apply incl_refl. }
      { exact SC2. }
      { exact PR2. }
      assert (LE : le c c1) by now apply le_trans with c2. assert (GR : grows g g1) by now apply grows_trans with g0.
      assert (FR0 : framed b0 g g0). { split; [exact M7|]. split; [intros; now rewrite M2|exact LO]. }
      assert (FR : framed a g g1) by (apply framed_less with b0; [lia|]; now apply framed_trans with b0 g0).
      assert (SC1 : scope c1 f A g1 G L) by (apply scope_le with c A g; auto; [apply incl_refl|]; intros k K; apply FR; now apply BD).
      assert (LP1 : loop_ok c1 g1 f A b) by (apply loop_le with c g A; auto; [apply incl_refl|exact (proj2 (proj2 FR))]).
      assert (BD0 : forall k, In k (all G L) -> k < c0) by (intros k K; specialize (BD k K); lia).
      destruct (branch_follows r) eqn:BF.
      - destruct (IH (Branch f1 last) c1 g1 O f A R b p' G L G' L' c0 z g' fl EB FB SQR TR BD0 BE1 (low_grows _ _ _ GR LW) RT LP1 SC1 W) as (c' & P). exists c'. apply post_cons with c1 g1 A c0; auto; [lia|apply incl_refl].
      - destruct W as (-> & W). destruct PR2 as (_ & _ & AL & _ & GF). cbn in GF. assert (S1 : st c1 (position H g1 last) O f A).
        { apply st_at; [exact W|now apply at_later with c2 g0|]. rewrite (proj1 FR1). exact GF. }
        destruct (IH Statement c1 (position H g1 last) O f A R b p' G L G' L' c0 z g' fl EB FB SQR TR BD0 BE1 (low_grows _ _ _ GR LW) RT LP1 SC1 S1) as (c' & P). exists c'. apply post_cons with c1 (position H g1 last) A c0; auto; [lia|apply incl_refl]. }
    destruct m as [|entry last].
    + cbn [pre] in PR. destruct FS; cbn [tn_child tn_type tn_pay] in *.
      * (* definition *)
        change ((do g <- gen_var_def H fold gys k y g; gen_list Statement r g) = Ok (g', fl)) in E. destruct (gen_var_def H fold gys k y g) as [g1|] eqn:E1; [|discriminate E]. cbn [bind] in E.
        assert (KB : a <= k < b0) by (apply NH; now left).
        destruct (define_good c g O f A G L k y m g1) as (c2 & A2 & X1 & X2 & X3 & X4 & X5 & X6 & X7 & X8 & X9); auto.
        { intro Q. specialize (BD k Q). lia. }
        apply (go_on c g O f A a c2 g1 A2 c0 (addg k G L) (addl k L) R b false _ r G' L' z g' fl IH); auto; try discriminate.
        split; [exact X1|]. split; [exact X2|]. split; [split; [exact X3|split; [intros j J; apply X4; lia|exact X5]]|]. split; [lia|].
        split; [intros j x; rewrite X6; intro J; specialize (BE j x J); lia|]. split; [exact X7|]. split; [exact X8|]. split; [exact X9|].
        intros j J. apply in_all_addg in J as [->|J]; [lia|]. specialize (BD j J). lia.
      * (* alias *)
        apply (go_on c g O f A a c g A c0 G L R b false _ r G' L' z g' fl IH); auto; try discriminate. apply moved_refl; auto. lia.
      * (* assignment *)
        change ((do g <- gen_var_assign H fold gys k y g; gen_list Statement r g) = Ok (g', fl)) in E. destruct (gen_var_assign H fold gys k y g) as [g1|] eqn:E1; [|discriminate E]. cbn [bind] in E.
        destruct (assign_good c g O f A G L k y true g1) as (c2 & A2 & X); auto.
        apply (go_on c g O f A a c2 g1 A2 c0 G L R b false _ r G' L' z g' fl IH); auto; try discriminate. apply moved_step; auto. lia.
      * (* call *)
        destruct y as [t k ty0 ce|v ty0|t k args ty0|o x ty0 ce|o x1 x2 ty0 ce]; try discriminate E.
        change ((do (_, g) <- gen_expr H fold gys (XCall t k args ty0) g; gen_list Statement r g) = Ok (g', fl)) in E. destruct (gen_expr H fold gys (XCall t k args ty0) g) as [((o, t0), g1)|] eqn:E1; [|discriminate E]. cbn [bind] in E.
        match goal with K : Proof_Safe2.fine_expr _ _ _ _ |- _ => destruct (exprs_good _ c g O f A G L o t0 g1 E1 K SC PR) as (c2 & A2 & S1 & _) end.
        apply (go_on c g O f A a c2 g1 A2 c0 G L R b false _ r G' L' z g' fl IH); auto; try discriminate. apply moved_step; auto. lia.
      * (* return with a value *)
        change (gen_return H fold gys (XExpr y) g = Ok (g', fl)) in E.
        match goal with K : Proof_Safe2.fine_expr _ _ _ _ |- _ => rename K into FE end.
        destruct (return_good c g O f A G L R (XExpr y) g' fl E RT) as ((c2 & S1) & t & -> & V); auto.
        { intros y0 [= <-]. split; [exact FE|]. split; [assumption|]. destruct TF as (_ & TF & _). exact (TF _ y (ic_here _ _ (in_eq _ _)) eq_refl eq_refl). }
        { discriminate. }
        exists c2. apply post_end; auto. lia.
      * (* return without *)
        change (gen_return H fold gys XNone g = Ok (g', fl)) in E.
        destruct (return_good c g O f A G L R XNone g' fl E RT) as ((c2 & S1) & t & -> & V); auto; [discriminate|].
        exists c2. apply post_end; auto. lia.
      * (* conditions *)
        match goal with K : In t _ |- _ => destruct K as [<-|[<-|[<-|[]]]] end; cbn [looping forks] in *.
        -- change ((let entry := g_cur g in let '(last, g) := new_block H g in do (f1, g1) <- gen_branch H fold gys (gen_body (mktnode N_IF tok (XExpr y) c1)) (XExpr y) (branch_follows r) entry last g;
             if branch_follows r then gen_list (Branch f1 last) r g1 else gen_list Statement r (position H g1 last)) = Ok (g', fl)) in E.
           cbn zeta in E. destruct (new_block H g) as (last, g2) eqn:NB. destruct PR as (I0 & AT0 & GF).
           destruct (inner_block c g (g_cur g :: O) last f A g2 (g_cur g) I0 (low_cons _ _ _ _ _ _ AT0 LW) AT0 NB) as (c2 & LE2 & GR2 & SM2 & I2 & LW2 & AT2 & TT2).
           apply (COND (g_cur g) last g2 c2 y); auto; try discriminate; [|right; eauto].
           split; [apply inv_perm with (last :: g_cur g :: O); [exact I2|apply perm_swap]|]. split; [now apply at_later with c g|]. split; [exact AT2|]. split; [exact TT2|].
           rewrite <- GF. exact (proj2 (proj2 (proj2 (proj2 (proj2 (proj2 SM2)))))).
        -- discriminate E.
        -- change ((do g <- gen_while H fold gys (gen_body (mktnode N_WHILE tok (XExpr y) c1)) (XExpr y) g; gen_list Statement r g) = Ok (g', fl)) in E.
           destruct (gen_while H fold gys (gen_body (mktnode N_WHILE tok (XExpr y) c1)) (XExpr y) g) as [g1|] eqn:E1; [|discriminate E]. cbn [bind] in E.
           destruct (while_good (mktnode N_WHILE tok (XExpr y) c1) c g O f A R G L G'0 L'0 b0 c0 y g1 GN E1) as (c2 & LE2 & GR2 & FR2 & BE2 & S2); auto; [now apply below_more with a|].
           apply (go_on c g O f A a c2 g1 A c0 G L R b false _ r G' L' z g' fl IH); auto; try discriminate.
           split; [exact LE2|]. split; [exact GR2|]. split; [now apply framed_less with b0|]. split; [lia|]. split; [exact BE2|]. split; [apply incl_refl|]. split; [exact S2|].
           split; [apply scope_le with c A g; auto; [apply incl_refl|]; intros k K; apply FR2; now apply BDb|]. intros k K. specialize (BD k K). lia.
      * discriminate E.
      * (* external function *)
        change ((do g <- gen_func_decl H gys debug (gen_body (mktnode N_FUNCTION_PROTO tok (XProto k ks) c1)) k ks g; gen_list Statement r g) = Ok (g', fl)) in E.
        destruct (gen_func_decl H gys debug (gen_body (mktnode N_FUNCTION_PROTO tok (XProto k ks) c1)) k ks g) as [g1|] eqn:E1; [|discriminate E]. cbn [bind] in E.
        destruct (external_good _ c g O f A G L a c0 k ks ts r0 g1 E1) as (c2 & M); auto.
        { assert (KB : a <= k < b0) by (apply NH; now left). lia. }
        apply (go_on c g O f A a c2 g1 A c0 (k :: G) L R b false _ r G' L' z g' fl IH); auto; discriminate.
      * (* function *)
        change ((do g <- gen_func_decl H gys debug (gen_body (mktnode N_FUNCTION_PROTO tok (XProto k ks) c1)) k ks g; gen_list Statement r g) = Ok (g', fl)) in E.
        destruct (gen_func_decl H gys debug (gen_body (mktnode N_FUNCTION_PROTO tok (XProto k ks) c1)) k ks g) as [g1|] eqn:E1; [|discriminate E]. cbn [bind] in E.
        pose proof SC as (_ & FN). cbn [Nat.add] in FN. subst f.
        assert (TP : NoDup ks /\ forall p t v, In p ks -> D p = Some (DVar t false) -> sym_var gys p = Ok v -> v_const v = negb debug). { destruct TF as (_ & _ & TF). apply (TF _ k ks (ic_here _ _ (in_eq _ _))); auto. }
        destruct TP as (TP1 & TP2).
        destruct (function_good (mktnode N_FUNCTION_PROTO tok (XProto k ks) c1) c g O A G a b0 c0 k ks ts r0 g1 G'0 L'0 GN E1) as (c2 & M); auto.
        { apply NH. now left. }
        { intros q Q. apply NH. now right. }
        { intros q v Q V. match goal with K : forall i, In i ks -> exists t, D i = Some (DVar t false) |- _ => destruct (K q Q) as (t & DQ) end. exact (TP2 q t v Q DQ V). }
        apply (go_on c g O None A a c2 g1 A c0 (k :: G) None R b false _ r G' L' z g' fl IH); auto; discriminate.
      * (* namespace *)
        change ((do (g, _) <- gen_body (mktnode N_NAMESPACE tok (XSpace k) c1) g; gen_list Statement r g) = Ok (g', fl)) in E. rewrite body_child in E. cbn [tn_child] in E.
        destruct (gen_list Statement c1 g) as [(g1, fl1)|] eqn:E1; [|discriminate E]. cbn [bind] in E. assert (KB : a <= k < b0) by (apply NH; now left).
        match goal with K : Proof_Safe2.fine_block _ _ _ R b false _ _ c1 ?G2 ?L2 |- _ => destruct (GN Statement c g O f A R b false (addg k G L) (addl k L) G2 L2 b0 c0 g1 fl1 E1 K SQC TC) as (c2 & LE2 & GR2 & FR2 & BE2 & EN2 & FL2); auto end.
        { intros j J. apply in_all_addg in J as [->|J]; [lia|]. now apply BDb. }
        { now apply below_more with a. }
        { destruct SC as (Z1 & Z2). destruct L as [lo|]; cbn [addg addl].
          - split; [exact Z1|]. destruct Z2 as (Z2 & Z3). split; [exact Z2|]. intros j [<-|J]; [|now apply Z3]. unfold lok. match goal with K : D k = _ |- _ => now rewrite K end.
          - split; [|exact Z2]. intros j [<-|J]; [|now apply Z1]. unfold gok. match goal with K : D k = _ |- _ => now rewrite K end. }
        destruct fl1 as [t|].
        -- exfalso. destruct FL2 as (_ & x & X1 & X2). destruct TF as (TF & _). specialize (TF _ x (ic_here _ _ (in_eq _ _)) eq_refl X1). rewrite X2 in TF. discriminate TF.
        -- destruct EN2 as (A2 & IA2 & S2 & SC2 & BD2). apply (go_on c g O f A a c2 g1 A2 c0 G'0 L'0 R b false _ r G' L' z g' fl IH); auto; try discriminate.
           split; [exact LE2|]. split; [exact GR2|]. split; [now apply framed_less with b0|]. split; [lia|]. auto.
      * (* break and continue *)
        match goal with K : In t _ |- _ => destruct K as [<-|[<-|[]]] end.
        -- change (gen_jump H (g_end g) g = Ok (g', fl)) in E. unfold gen_jump in E. destruct (g_end g) as [x|] eqn:GE; [|discriminate E]. injection E as <- <-. exists c. apply post_end; auto; [|lia]. apply (jump_good c g O f A); [exact PR|]. apply LP; auto.
        -- change (gen_jump H (g_cond g) g = Ok (g', fl)) in E. unfold gen_jump in E. destruct (g_cond g) as [x|] eqn:GE; [|discriminate E]. injection E as <- <-. exists c. apply post_end; auto; [|lia]. apply (jump_good c g O f A); [exact PR|]. apply LP; auto.
      * match goal with K : In t _ |- _ => destruct K as [<-|[<-|[<-|[]]]] end.
        -- apply (go_on c g O f A a c g A c0 G L R b false _ r G' L' z g' fl IH); auto; try discriminate. apply moved_refl; auto. lia.
        -- change (gen_list Statement r (gen_noop H debug g) = Ok (g', fl)) in E. destruct (noop_good c g O f A PR) as (c2 & A2 & S2).
           apply (go_on c g O f A a c2 (gen_noop H debug g) A2 c0 G L R b false _ r G' L' z g' fl IH); auto; try discriminate. apply moved_step; auto. lia.
        -- change (Ok (emit H g IUnreachable, Some (Some TVoid)) = Ok (g', fl)) in E. injection E as <- <-. exists c. apply post_end; auto; [|lia]. split; [apply le_refl|]. split; [apply grows_emit|]. split; [repeat split|].
           apply (emit_end c g O f A); try reflexivity; [exact PR|]. apply is_isok; [apply in_unreachable|intros x []|reflexivity].
      * apply (go_on c g O f A a c g A c0 G L R b p _ r G' L' z g' fl IH); auto; try discriminate. apply moved_refl; auto. lia.
    + (* behind an if *)
      pose proof PR as (I0 & AE & AL & TL & GF). destruct (tn_type n) eqn:T; try (exfalso; clear - E T; destruct n as [t0 k0 p0 ch0]; cbn [tn_type] in T; subst t0; change (@UB (gst * flow) = Ok (g', fl)) in E; discriminate E).
      * (* elif *)
        destruct (condition_inv _ _ _ _ _ _ _ _ _ _ _ _ FS) as (y & G2 & L2 & PY & -> & -> & -> & FE & TY & FC); [rewrite T; cbn; auto|]. rewrite T in FC. cbn [looping] in FC.
        apply (COND entry last g c y); auto; try discriminate; [apply le_refl|apply grows_refl|repeat split|right; eauto|].
        clear - E T. destruct n as [t0 k0 p0 ch0]. cbn [tn_type] in T. subst t0. exact E.
      * (* else *)
        destruct (else_inv _ _ _ _ _ _ _ _ _ _ _ _ FS T) as (G2 & L2 & _ & -> & -> & -> & FC).
        assert (E' : (do x <- gen_body n (position H g entry); gen_list Statement r (position H (branch_to H last x) last)) = Ok (g', fl)) by (clear - E T; destruct n as [t0 k0 p0 ch0]; cbn [tn_type] in T; subst t0; exact E).
        clear E. rewrite body_child in E'. destruct (gen_list Statement (tn_child n) (position H g entry)) as [(g1, fl1)|] eqn:E1; [|discriminate E']. cbn [bind] in E'.
        destruct (GN Statement c (position H g entry) (last :: O) f A R b false G L G2 L2 b0 c0 g1 fl1 E1 FC SQC TC BDb) as (c1 & P); auto.
        { now apply below_more with a. }
        { exact (low_cons _ _ _ _ _ _ AL LW). }
        { now apply st_at. }
        destruct (closed_good _ _ _ _ _ _ _ _ _ _ _ _ _ _ last P TL) as (LE1 & GR1 & FR1 & BE1 & I1). set (g2 := branch_to H last (g1, fl1)) in *.
        apply (go_on c g O f A a c1 (position H g2 last) A c0 G L R b false n r G' L' z g' fl IH); auto; [|rewrite T; discriminate].
        split; [exact LE1|]. split; [exact GR1|]. split; [now apply framed_less with b0|]. split; [lia|]. split; [exact BE1|]. split; [apply incl_refl|].
        split; [apply st_at; [exact I1|now apply at_later with c g|rewrite (proj1 FR1); exact GF]|].
        split; [apply scope_le with c A g; auto; [apply incl_refl|]; intros k K; apply (proj1 (proj2 FR1)); now apply BDb|]. intros k K. specialize (BD k K). lia.
      * (* comment *)
        destruct (comment_inv _ _ _ _ _ _ _ _ _ _ _ _ FS T) as (-> & -> & ->).
        assert (E' : gen_list (Branch entry last) r g = Ok (g', fl)) by (clear - E T; destruct n as [t0 k0 p0 ch0]; cbn [tn_type] in T; subst t0; exact E).
        destruct (IH (Branch entry last) c g O f A R b p G L G' L' c0 z g' fl E' FB SQR TR) as (c' & P); auto.
        { intros k K. specialize (BD k K). lia. }
        { apply below_more with a; [lia|exact BE]. }
        exists c'. apply post_cons with c g A c0; auto; [apply le_refl|apply grows_refl|apply framed_refl|lia|apply incl_refl|rewrite T; discriminate].
Qed.
Lemma lists_good : forall l, good_list l.
Proof.
  assert (K : forall n, good_list (tn_child n)). { apply Proof_Sem8.tnode_ind'. intros t k p c F. cbn [tn_child]. now apply list_good. }
  intro l. apply list_good. clear - K. induction l; constructor; auto.
Qed.

(** * Modules *)

Lemma code_split : forall c f x i y av, code_ok c f av (x ++ i :: y) -> exists av', isok c f av' i /\ forall r, In r av' -> In r (flat_map set_by x) \/ In r av.
Proof.
  intros c f. induction x as [|j x IH]; intros i y av C; cbn [app code_ok flat_map] in *; destruct C as (C1 & C2).
  - exists av. auto.
  - destruct (IH i y _ C2) as (av' & K1 & K2). exists av'. split; [exact K1|]. intros r R. destruct (K2 r R) as [Q|Q]; [left; apply in_app_iff; now right|]. apply in_app_iff in Q as [Q|Q]; [left; apply in_app_iff; now left|now right].
Qed.
Lemma instr_fs : forall rt gt (fs fs' : nat -> Prop) ps r i, (forall k, fs k -> fs' k) -> instr_type H ys rt gt fs ps r i -> instr_type H ys rt gt fs' ps r i.
Proof. intros rt gt fs fs' ps r i K T. destruct T; solve [econstructor; eauto]. Qed.

Lemma inits_nth : forall gt l ts, Forall2 (init_type H gt) l ts -> forall n v, nth_error l n = Some v -> exists t, nth_error ts n = Some t /\ init_type H gt v t.
Proof. intros gt l ts F. induction F as [|x t l ts X F IH]; intros n v E; destruct n as [|n]; try discriminate E; cbn [nth_error] in *; [injection E as <-; eauto|now apply IH]. Qed.
Lemma inv_valid : forall c g, inv c g [] -> valid H ys (mkmodule H (g_blocks g) (g_funs g) 0 (g_glob g)).
Proof.
  intros c g [a1 a2 a3 a4 a5 a6 a7 a8 a9 a10 a11 a12 a13 a14]. set (M := mkmodule H (g_blocks g) (g_funs g) 0 (g_glob g)).
  assert (BK : forall n code, nth_error (g_blocks g) n = Some code -> exists b, nth_error (c_bk c) n = Some b /\ code_ok c (b_own b) (b_av b) code).
  { intros n code E. destruct (nth_error (c_bk c) n) as [b|] eqn:B; [exists b; split; [reflexivity|now apply a2 with n]|]. exfalso. apply nth_error_None in B. rewrite a1 in B.
    assert (n < List.length (g_blocks g)) by (apply nth_error_Some; rewrite E; discriminate). lia. }
  assert (FB : forall b x, first_block H M b -> nth_error (c_bk c) b = Some x -> b_inner x = false /\ b_av x = []).
  { intros b x [->|(k & J)] E; cbn in *; [rewrite a14 in E|rewrite (a13 k b J) in E]; injection E as <-; auto. }
  exists (fun n => match nth_error (c_bk c) n with Some b => b_own b | None => None end), (nth_error (c_rt c)), (nth_error (c_gt c)). constructor; cbn [m_blocks m_funs m_main m_init M].
  - intros code J. apply In_nth_error in J as (n & J). apply (a5 n code J). intros [].
  - intros n code i E J. destruct (BK n code E) as (b & B & C). rewrite B. apply in_split in J as (x & y & ->). destruct (code_split _ _ _ _ _ _ C) as (av & (T & _) & _).
    exists (ptypes (b_own b)), (rtype (b_own b)). split; [now apply a3 with n|]. apply instr_fs with (fun k => In k (c_fs c)); [exact a11|exact T].
  - intros n code i t E J JT. destruct (BK n code E) as (b & B & C). rewrite B. apply in_split in J as (x & y & ->). destruct (code_split _ _ _ _ _ _ C) as (av & (_ & _ & TG) & _).
    destruct (TG t JT) as (b' & B' & O' & N' & _). rewrite B'. split; [rewrite <- a1; apply nth_error_Some; rewrite B'; discriminate|]. split; [exact O'|]. intro F. destruct (FB t b' F B') as (Q & _). rewrite N' in Q. discriminate Q.
  - exact a9.
  - assert (PA : forall a p b, first_block H M a -> path H M a p b -> forall x r, nth_error (c_bk c) b = Some x -> In r (b_av x) -> exists e code, In e p /\ nth_error (g_blocks g) e = Some code /\ In r (flat_map set_by code)).
    { intros a p b F P. induction P as [|p b code i t P IH E J JT]; intros x r B R.
      - destruct (FB a x F B) as (_ & Q). rewrite Q in R. destruct R.
      - cbn [m_blocks M] in E. destruct (BK b code E) as (b' & B' & C). pose proof J as J0. apply in_split in J as (u & v & ->). destruct (code_split _ _ _ _ _ _ C) as (av & (_ & _ & TG) & AV).
        destruct (TG t JT) as (x' & X1 & _ & _ & X2). rewrite B in X1. injection X1 as <-. destruct (AV r (X2 r R)) as [Q|Q].
        + exists b, (u ++ i :: v). split; [now left|]. split; [exact E|]. rewrite flat_map_app. apply in_app_iff. now left.
        + destruct (IH b' r B' Q) as (e & code & K1 & K2 & K3). exists e, code. split; [now right|auto]. }
    intros a p b u v i r F P E R. destruct (BK b _ E) as (x & B & C). destruct (code_split _ _ _ _ _ _ C) as (av & (_ & U & _) & AV). destruct (AV r (U r R)) as [Q|Q]; [now left|right]. exact (PA a p b F P x r B Q).
  - exact a12.
  - rewrite a14. split; [reflexivity|]. rewrite <- a1. apply nth_error_Some. rewrite a14. discriminate.
  - intros k b J. rewrite (a13 k b J). split; [reflexivity|]. rewrite <- a1. apply nth_error_Some. rewrite (a13 k b J). discriminate.
  - intros n v E. exact (inits_nth _ _ _ a10 n v E).
Qed.

Theorem tree_valid : forall l a z G L g fl, gen_tree H fold gys debug l (setup_llvm_state H) = Ok (g, fl) -> fine_block TInt false false [] None l G L -> seq a l z -> tree_fine l ->
  let g := match fl with None => emit H g (IRet (Some (OVal (SvInt 0)))) | Some _ => g end in valid H ys (mkmodule H (g_blocks g) (g_funs g) 0 (g_glob g)).
Proof.
  intros l a z G L g fl E FB SQ TF. set (c := mkcert [mkbk None false []] [] [] []).
  assert (I : inv c (setup_llvm_state H) [0]).
  { constructor; cbn; auto.
    - intros [|[|n]] b code B C; cbn in B, C; try discriminate B. injection C as <-. exact Logic.I.
    - intros [|[|n]] b B; cbn in B; try discriminate B. injection B as <-. cbn. auto.
    - intros [|[|n]] code C _ i J; cbn in C; try discriminate C. injection C as <-. destruct J.
    - intros [|[|n]] code C J; cbn in C; try discriminate C. destruct J. now left.
    - repeat constructor. intros [].
    - intros r [].
    - constructor.
    - constructor.
    - intros k b []. }
  destruct (lists_good l Statement c (setup_llvm_state H) [] None [] TInt false false [] None G L a z g fl E FB SQ TF) as (c' & _ & _ & _ & _ & EN & FL).
  { intros k []. }
  { intros k x []. }
  { intros x []. }
  { reflexivity. }
  { discriminate. }
  { split; [intros k []|reflexivity]. }
  { split; [exact I|]. split; [|reflexivity]. exists (mkbk None false []), []. repeat split. intros x []. }
  cbn zeta. destruct fl as [t|]; cbn [ends] in EN; [exact (inv_valid c' g EN)|]. destruct EN as (A' & _ & S0 & _).
  apply (inv_valid c'). apply (emit_end c' g [] None A'); try reflexivity; [exact S0|]. apply is_isok; [|intros x []|reflexivity]. apply in_ret. repeat constructor.
Qed.
End Valid.
