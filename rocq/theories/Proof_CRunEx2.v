(** Ways to check the hypotheses of Prop_CRun.v, and to find what a given C file says. *)
From Coq Require Import List Arith NArith ZArith Bool Lia Ascii String.
From Verif Require Import Base Model_Token Model_Literal Model_Parse Model_Sem Spec_Sem Spec_Sem2 Model_CGen Model_CFile Spec_C Spec_CGen Spec_CProg Spec_CBack Spec_Run Spec_LLVM
  Proof_SemEx Proof_RunEx Proof_C2 Spec_CRun Spec_CBehave Proof_CRunEx.
Import ListNotations.
Open Scope list_scope.
Open Scope Z_scope.

Lemma ntype_eq_dec : forall a b : ntype, {a = b} + {a <> b}.
Proof. decide equality. Defined.

Section Check.
Variable H : host.
Variable env : cctx.
Variable M : machine H.
Local Notation val := (sv (h_float H)).
Variable b2 : binop -> val -> val -> bool.
Hypothesis b2_sound : forall o a b, b2 o a b = true -> c_exact2 H o a b.

(** The values of expressions without variables and calls. *)
Fixpoint known_value (x : texpr) : option val :=
  match x with
  | XConst _ v t => if of_type H (literal_of H v) t then Some (literal_of H v) else None
  | XUn o a _ _ => match known_value a with Some v => unary H o v | None => None end
  | XBin o a b _ _ =>
      match known_value a, known_value b with
      | Some v, Some w => if b2 o v w then binary H o v w else None
      | _, _ => None
      end
  | _ => None
  end.
Lemma known_value_sound : forall s x v, known_value x = Some v -> eval H (ce_syms env) (c_exact1 H) (c_exact2 H) s x v s.
Proof.
  intro s. fix IH 1. intros [t k ty c|t v0 ty|t k args ty|o a ty c|o a b ty c] v E; cbn [known_value] in E; try discriminate E.
  - destruct (of_type H (literal_of H v0) ty) eqn:T; [|discriminate E]. assert (literal_of H v0 = v) as <- by congruence. now apply ev_const.
  - destruct (known_value a) as [w|] eqn:A; [|discriminate E]. apply IH in A. eapply ev_un; [exact A|exact I|exact E].
  - destruct (known_value a) as [x|] eqn:A; [|discriminate E]. destruct (known_value b) as [y|] eqn:B; [|discriminate E]. destruct (b2 o x y) eqn:O; [|discriminate E].
    apply IH in A, B. eapply ev_bin; [exact A|exact B|now apply b2_sound|exact E].
Qed.

Definition is_type (a : ntype) (n : tnode) : bool := if ntype_eq_dec (tn_type n) a then true else false.
Definition exprs (l : list tnode) : list texpr := flat_map (fun n => match checked_expr n with Some e => xparts e | None => [] end) (flat_map tnodes l).
Lemma uses_exprs : forall l n p, in_checked n l -> uses n p -> In p (exprs l).
Proof.
  intros l n p C (e & CE & P). apply in_flat_map. exists n. split; [now apply in_checked_tnodes|]. rewrite CE. now apply xpart_xparts.
Qed.
Definition calledb (k : nat) (l : list tnode) : bool := existsb (fun p => match p with XCall _ j _ _ => Nat.eqb j k | _ => false end) (exprs l).
Lemma calledb_false : forall k l, calledb k l = false -> ~ is_called k l.
Proof.
  intros k l E (x & t & args & ty & C & U). apply (uses_exprs _ _ _ C) in U. assert (X : calledb k l = true).
  { apply existsb_exists. exists (XCall t k args ty). split; [exact U|apply Nat.eqb_refl]. }
  congruence.
Qed.
Definition livesb (n : tnode) : bool :=
  match tn_pay n with
  | XProto k _ => forallb (fun m => match tn_pay m with XDef j y => if x_cexpr y then negb (mutable (ce_syms env) j) else negb (calledb k (tn_child n)) | _ => true end) (tn_child n)
  | _ => true
  end.
Definition constant_partb (p : texpr) : bool :=
  match p with
  | XVar _ _ _ _ | XCall _ _ _ _ => false
  | XBin o a _ _ _ => match o with BPow => false | BIs | BIsnt => match x_ty a with TStr => false | _ => true end | _ => true end
  | _ => true
  end.
Lemma constant_partb_sound : forall p, constant_partb p = true -> constant_part p.
Proof.
  intros [t k ty c|t v0 ty|t k args ty|o a ty c|o a b ty c] E; try discriminate E; try exact I. cbn [constant_partb constant_part] in *.
  destruct o; try discriminate E; (split; [discriminate|]); intro T; try (split; discriminate); rewrite T in E; discriminate E.
Qed.
Definition constantsb (n : tnode) : bool :=
  match tn_pay n with
  | XDef k y => if x_cexpr y then forallb constant_partb (xparts y) && match known_value y with Some _ => true | None => false end else true
  | _ => true
  end.
Definition sizedb (p : texpr) : bool :=
  match p with
  | XUn UNeg _ TInt _ | XBin _ _ _ TInt _ => wide p || match small p with Some _ => true | None => false end
  | _ => true
  end.
Lemma sizedb_sound : forall p, sizedb p = true -> sized p.
Proof.
  intros p E. destruct p as [t k ty c|t v0 ty|t k args ty|o a ty c|o a b ty c]; try exact I; cbn [sizedb sized] in *; [destruct o; try exact I|]; destruct ty; try exact I;
    apply orb_true_iff in E as [E|E]; [left; exact E|right|left; exact E|right]; intro X; rewrite X in E; discriminate E.
Qed.
Definition sharedb (l : list tnode) (k : nat) : bool := mutable (ce_syms env) k && existsb (Nat.eqb k) (flat_map tops l).
Definition apartb (l : list tnode) (xs : list texpr) : bool :=
  Nat.leb (List.length (filter has_calls xs)) 1 &&
  (negb (existsb has_calls xs) || forallb (fun x => has_calls x || forallb (fun p => match p with XVar _ k _ _ => negb (sharedb l k) | _ => true end) (xparts x)) xs).
Lemma apartb_sound : forall l xs, apartb l xs = true -> apart env l xs.
Proof.
  intros l xs E. unfold apartb in E. apply andb_true_iff in E as (A & B). split; [now apply Nat.leb_le|]. intros HC x t k ty c IN NC P (MU & TO). rewrite HC in B. cbn [negb orb] in B.
  rewrite forallb_forall in B. specialize (B x IN). rewrite NC in B. cbn [orb] in B. rewrite forallb_forall in B. specialize (B _ (xpart_xparts _ _ P)). cbn in B.
  unfold sharedb in B. rewrite MU in B. assert (X : existsb (Nat.eqb k) (flat_map tops l) = true) by (apply existsb_exists; exists k; split; [exact TO|apply Nat.eqb_refl]). rewrite X in B. discriminate B.
Qed.
Definition unorderedb (l : list tnode) (p : texpr) : bool :=
  match p with
  | XBin (BAnd | BOr) _ b _ _ => negb (has_calls b)
  | XBin _ a b _ _ => apartb l [a; b]
  | XCall _ _ args _ => apartb l args
  | _ => true
  end.
Lemma unorderedb_sound : forall l p, unorderedb l p = true -> unordered env l p.
Proof.
  intros l [t k ty c|t v0 ty|t k args ty|o a ty c|o a b ty c] E; try exact I; cbn [unorderedb unordered] in *; [now apply apartb_sound|].
  destruct o; try (now apply apartb_sound); now apply negb_true_iff.
Qed.
Definition fine_symbol (y : symbol) : bool :=
  match y_kind y with
  | KVar v => match v_type v with TVoid => false | _ => negb (existsb (fun h => text_eqb (y_name y) (helper_name h)) [HStrcmp; HIntPow; HFloatPow]) end
  | _ => true
  end.
Definition behavedb (l : list tnode) : bool :=
  forallb (fun n => negb (is_type N_NAMESPACE n)) (flat_map tnodes l) &&
  forallb (fun n => forallb (fun m => negb (is_type N_FUNCTION_PROTO m)) (flat_map tnodes (tn_child n))) l &&
  nodupb (map (name_of env) (flat_map outside l)) &&
  forallb (fun k => negb (inb (name_of env k) (m_headers H M)) && negb (inb (name_of env k) (map u ["main"; "init"; "_strcmp"; "_int_pow"; "_float_pow"]%string))) (flat_map outside l) &&
  negb (inb (u "main") (m_headers H M)) && negb (inb (u "init") (m_headers H M)) &&
  forallb livesb l &&
  forallb constantsb l && forallb (fun m => negb (is_type N_FUNCTION_PROTO m) || forallb constantsb (tn_child m)) l &&
  forallb sizedb (exprs l) && forallb (unorderedb l) (exprs l) && forallb fine_symbol (ce_syms env) &&
  forallb (fun n => negb (is_type N_RETURN n) || match tn_pay n with XExpr e => match x_ty e with TVoid => false | _ => true end | _ => true end) (flat_map tnodes l).
Lemma is_type_yes : forall a n, tn_type n = a -> is_type a n = true.
Proof. intros a n E. unfold is_type. destruct (ntype_eq_dec (tn_type n) a); [reflexivity|contradiction]. Qed.
Lemma constantsb_sound : forall n k y o, constantsb n = true -> tn_pay n = XDef k y -> x_cexpr y = true ->
  (forall p, xpart p y -> constant_part p) /\ exists v, eval H (ce_syms env) (c_exact1 H) (c_exact2 H) (start H o) y v (start H o).
Proof.
  intros n k y o E P C. unfold constantsb in E. rewrite P, C in E. apply andb_true_iff in E as (A & B). rewrite forallb_forall in A. split.
  - intros p PP. apply constant_partb_sound, A, xpart_xparts, PP.
  - destruct (known_value y) as [v|] eqn:K; [|discriminate B]. exists v. now apply known_value_sound.
Qed.
Lemma behavedb_sound : forall l, behavedb l = true -> behaved H env M l.
Proof.
  intros l E. unfold behavedb in E. repeat (match type of E with (_ && _)%bool = true => apply andb_true_iff in E as (E & ?) end).
  repeat match goal with X : forallb _ _ = true |- _ => rewrite forallb_forall in X end.
  match goal with X : forall n, In n l -> livesb n = true |- _ => rename X into LV end.
  match goal with X : forall n, In n l -> constantsb n = true |- _ => rename X into K1 end.
  match goal with X : forall m, In m l -> (negb (is_type N_FUNCTION_PROTO m) || _)%bool = true |- _ => rename X into K2 end.
  match goal with X : forall n, In n l -> forallb _ (flat_map tnodes (tn_child n)) = true |- _ => rename X into FU end.
  match goal with X : forall p, In p (exprs l) -> sizedb p = true |- _ => rename X into SI end.
  match goal with X : forall p, In p (exprs l) -> unorderedb l p = true |- _ => rename X into UN end.
  match goal with X : forall y, In y (ce_syms env) -> _ |- _ => rename X into SY end.
  match goal with X : forall n, In n (flat_map tnodes l) -> (negb (is_type N_RETURN n) || _)%bool = true |- _ => rename X into RE end.
  match goal with X : nodupb _ = true |- _ => rename X into ND end.
  match goal with X : forall k, In k (flat_map outside l) -> _ |- _ => rename X into TK end.
  repeat match goal with X : negb (inb _ _) = true |- _ => apply negb_true_iff in X; apply inb_false in X end.
  constructor.
  - intros n C T. specialize (E n (in_checked_tnodes _ _ C)). rewrite (is_type_yes _ _ T) in E. discriminate E.
  - intros n C T. destruct C as [l IN|y l IN C]; [exact IN|]. exfalso. specialize (FU y IN). rewrite forallb_forall in FU. specialize (FU n (in_checked_tnodes _ _ C)).
    rewrite (is_type_yes _ _ T) in FU. discriminate FU.
  - now apply nodupb_nodup.
  - intros k IN. specialize (TK k IN). apply andb_true_iff in TK as (A & B). apply negb_true_iff in A, B. split; now apply inb_false.
  - split; assumption.
  - intros n m k ks j y IN P IM PM. specialize (LV n IN). unfold livesb in LV. rewrite P in LV. rewrite forallb_forall in LV. specialize (LV m IM). rewrite PM in LV.
    split; intro C; rewrite C in LV; apply negb_true_iff in LV; [exact LV|now apply calledb_false].
  - intros n k y o [IN|(m & IM & TM & IN)] P C; [exact (constantsb_sound n k y o (K1 n IN) P C)|]. specialize (K2 m IM). rewrite (is_type_yes _ _ TM) in K2. cbn [negb orb] in K2.
    rewrite forallb_forall in K2. exact (constantsb_sound n k y o (K2 n IN) P C).
  - intros n p C U. apply sizedb_sound, SI. exact (uses_exprs _ _ _ C U).
  - intros n p C U. apply unorderedb_sound, UN. exact (uses_exprs _ _ _ C U).
  - intros k x v (y & N & _ & K) T. specialize (SY y (nth_error_In _ _ N)). unfold fine_symbol in SY. rewrite K, T in SY. discriminate SY.
  - intros n e C T P X. specialize (RE n (in_checked_tnodes _ _ C)). rewrite (is_type_yes _ _ T), P, X in RE. discriminate RE.
  - intros k x v h (y & N & <- & K) X. specialize (SY y (nth_error_In _ _ N)). unfold fine_symbol in SY. rewrite K in SY.
    assert (Z0 : existsb (fun h => text_eqb (y_name y) (helper_name h)) [HStrcmp; HIntPow; HFloatPow] = true).
    { apply existsb_exists. exists h. split; [destruct h; cbn; auto|now apply text_eqb_eq]. }
    rewrite Z0 in SY. destruct (v_type v); discriminate SY.
Qed.
End Check.

(** A file without helpers: what it says. *)
Lemma file_is : forall c23 t after ts f ds0, t = includes ++ 10%N :: after -> c_tokens (no_directives MStart (10%N :: after)) = Some ts ->
  punit c23 f ts = Some ds0 -> forall hs ds, is_c_file c23 t hs ds -> hs = [] /\ ds = ds0.
Proof.
  intros c23 t after ts f ds0 -> R P hs ds (front & rest & E & F & (ts' & T & U & ONE)). apply app_inv_head in E.
  destruct front as [|c front].
  - cbn [app] in E. subst rest. assert (ts' = ts) as -> by congruence. split; [destruct hs as [|[| |] hs]; [reflexivity|discriminate F..]|]. symmetry. apply ONE. now apply punit_sound in P.
  - cbn [app] in E. assert (c = 10%N) as -> by congruence. destruct hs as [|[| |] hs]; cbn in F; discriminate F.
Qed.
