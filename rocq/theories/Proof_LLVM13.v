(** Accepted programs have code: statements. *)
From Coq Require Import List Arith NArith ZArith Bool Lia.
From Verif Require Import Base Model_Token Model_Literal Model_Parse Model_Sem Spec_Parse Spec_Sem Spec_Sem2 Spec_Run Spec_IR Model_LLVM Spec_Loops
  Proof_Sem Proof_Sem2 Proof_Sem5 Proof_Sem7 Proof_Sem8 Proof_Order Proof_CGen2 Proof_LLVM Proof_LLVM11 Proof_LLVM12.
Import ListNotations.
Open Scope list_scope.
Open Scope nat_scope.

(** * Names in scope *)

(** The declarations that get code. *)
Fixpoint made (ys : list symbol) (x : tnode) : list nat :=
  match x with
  | mktnode _ _ p c =>
      match p with
      | XProto k ks => if is_external ys k then [k] else k :: ks ++ flat_map (made ys) c
      | _ => numbers_here x ++ flat_map (made ys) c
      end
  end.
Lemma made_numbers : forall ys x k, In k (made ys x) -> In k (numbers x).
Proof.
  intros ys x. induction x as [t tk p c F] using tnode_ind'. intros k I. cbn [made numbers] in *.
  assert (Q : In k (flat_map (made ys) c) -> In k (flat_map numbers c)).
  { intro J. apply in_flat_map in J as (y & IN & J). apply in_flat_map. exists y. rewrite Forall_forall in F. auto. }
  assert (G : In k (numbers_here (mktnode t tk p c) ++ flat_map (made ys) c) -> In k (numbers_here (mktnode t tk p c) ++ flat_map numbers c)).
  { intro J. apply in_app_iff in J as [J|J]; apply in_app_iff; auto. }
  destruct p; auto. destruct (is_external ys sym).
  - destruct I as [<-|[]]. now left.
  - apply G. exact I.
Qed.

Section Scope.
Variable ys : list symbol.
Variable D : decls.
Variable w : world.
Variable src : text.
Variable T : nat -> Prop.
Definition entries (e : env) : Prop := forall n k, In (n, k) e -> T k \/ exists t, D k = Some (DType t).
Hypothesis spaces : forall k inside, T k -> D k = Some (DSpace inside) -> entries inside.

Lemma resolved : forall e n k, resolves D e n k -> entries e -> T k \/ exists t, D k = Some (DType t).
Proof.
  intros e n k R. induction R as [n k e N1|m j e n k N1 NE R IH|e a j inside b k N1 R1 IH1 E R2 IH2]; intro EN.
  - apply (EN n). now left.
  - apply IH. intros m' k' I. apply (EN m'). now right.
  - apply IH2. destruct (IH1 EN) as [X|(t & X)]; [now apply spaces with j|congruence].
Qed.
End Scope.

Scheme stmt_ok_ind4 := Minimality for stmt_ok Sort Prop
  with block_ok_ind4 := Minimality for block_ok Sort Prop.
Combined Scheme stmt_block_both from stmt_ok_ind4, block_ok_ind4.

Lemma entries_cons : forall D (T : nat -> Prop) e n k, entries D T e -> T k \/ (exists t, D k = Some (DType t)) -> entries D T ((n, k) :: e).
Proof. intros D T e n k E K m j [I|I]; [injection I as <- <-; exact K|now apply (E m)]. Qed.
Lemma params_entries : forall D src (T : nat -> Prop) e ps ts ks e', params_ok D src e ps ts ks e' -> entries D T e -> (forall k, In k ks -> T k) -> entries D T e'.
Proof.
  intros D src T e ps ts ks e' P. induction P as [|e p ps t ts n k ks e' _ _ _ _ _ IH]; intros E K; [exact E|].
  apply IH; [|intros j J; apply K; now right]. apply entries_cons; [exact E|]. left. apply K. now left.
Qed.

(** The names at the end of a block and inside of its namespaces. *)
Lemma block_entries : forall ys D w src (T : nat -> Prop),
  (forall e n x e', stmt_ok D w src e n x e' -> entries D T e -> (forall k, In k (made ys x) -> T k) ->
     entries D T e' /\ forall k inside, In k (made ys x) -> D k = Some (DSpace inside) -> entries D T inside) /\
  (forall e l xs e', block_ok D w src e l xs e' -> entries D T e -> (forall k, In k (flat_map (made ys) xs) -> T k) ->
     entries D T e' /\ forall k inside, In k (flat_map (made ys) xs) -> D k = Some (DSpace inside) -> entries D T inside).
Proof.
  intros ys D w src T. apply stmt_block_both.
  - intros e n name rest v i c x y z k _ _ _ _ _ _ _ _ E EN TK. cbn [made numbers_here tn_pay flat_map app] in *. split.
    + apply entries_cons; [exact EN|]. left. apply TK. now left.
    + intros j ins [<-|[]] E2. congruence.
  - intros e n name v i ex t q r x k ty _ _ _ _ _ _ E _ _ EN TK. cbn [made numbers_here tn_pay flat_map app] in *. split.
    + apply entries_cons; [exact EN|]. right. eauto.
    + intros j ins [].
  - intros e n v t q r x k ty y _ _ _ _ _ _ _ _ _ EN TK. split; [exact EN|]. intros j ins [].
  - intros e n f a m y _ _ _ _ EN TK. split; [exact EN|]. intros j ins [].
  - intros e n v y _ _ _ _ EN TK. split; [exact EN|]. intros j ins [].
  - intros e n v y c e' _ _ _ _ _ IH EN TK. cbn [made numbers_here tn_pay flat_map app] in *. split; [exact EN|]. apply IH; auto.
  - intros e n c e' _ _ IH EN TK. cbn [made numbers_here tn_pay flat_map app] in *. split; [exact EN|]. apply IH; auto.
  - intros e n name ret num ext exp ps ts ks r x k e1 c e2 _ _ _ _ _ E PO _ IH EN TK. cbn [made] in *. destruct (is_external ys k).
    + split; [apply entries_cons; [exact EN|left; apply TK; now left]|]. intros j ins [<-|[]] E2. congruence.
    + assert (EK : entries D T ((x, k) :: e)) by (apply entries_cons; [exact EN|left; apply TK; now left]). split; [exact EK|].
      intros j ins I E2. destruct I as [<-|I]; [congruence|]. apply in_app_iff in I as [I|I].
      * destruct (params_sig _ _ _ _ _ _ _ PO j I) as (t & E3). congruence.
      * apply IH with j; auto.
        -- apply (params_entries _ _ _ _ _ _ _ _ PO EK). intros k' I'. apply TK. right. apply in_app_iff. now left.
        -- intros k' I'. apply TK. right. apply in_app_iff. now right.
  - intros e n t q r x k c e' _ _ _ _ E _ IH EN TK. cbn [made numbers_here tn_pay flat_map app] in *.
    assert (EK : entries D T ((x, k) :: e)) by (apply entries_cons; [exact EN|left; apply TK; now left]). split; [exact EK|].
    destruct IH as (E1 & E2); [exact EK|intros k' I'; apply TK; now right|].
    intros j ins [<-|I] E3; [|now apply E2 with j]. assert (ins = e') by congruence. now subst.
  - intros e n _ _ _ EN TK. split; [exact EN|]. intros j ins [].
  - intros e EN _. split; [exact EN|]. intros j ins [].
  - intros e n l x xs e1 e2 _ IH1 _ IH2 EN TK. cbn [flat_map] in *.
    destruct IH1 as (A1 & B1); [exact EN|intros k I; apply TK; apply in_app_iff; now left|].
    destruct IH2 as (A2 & B2); [exact A1|intros k I; apply TK; apply in_app_iff; now right|]. split; [exact A2|].
    intros k ins I E. apply in_app_iff in I as [I|I]; [now apply B1 with k|now apply B2 with k].
Qed.

(** * The shape of blocks *)

(** `p`: an if or elif stands before, with comments between. *)
Fixpoint chain (p : bool) (l : list ntype) : Prop :=
  match l with
  | [] => True
  | t :: r =>
      match t with
      | N_ELIF => p = true /\ chain true r
      | N_ELSE => p = true /\ chain false r
      | N_IF => chain true r
      | N_COMMENT => chain p r
      | _ => chain false r
      end
  end.
Fixpoint tidy (l : list ntype) : Prop :=
  match l with [] => True | t :: r => (leaves t -> Forall idle r) /\ tidy r end.

Lemma chain_of : forall l pre,
  (forall a t b, l = a ++ t :: b -> t = N_ELSE \/ t = N_ELIF -> has_if_before (rev a ++ pre) = true) -> chain (has_if_before pre) l.
Proof.
  induction l as [|t l IH]; intros pre Q; [exact I|].
  assert (NEXT : chain (has_if_before (t :: pre)) l).
  { apply IH. intros a t' b E T. replace (rev a ++ t :: pre) with (rev (t :: a) ++ pre) by (cbn; now rewrite <- app_assoc).
    apply (Q (t :: a) t' b); [now rewrite E|exact T]. }
  assert (HERE : t = N_ELSE \/ t = N_ELIF -> has_if_before pre = true) by (intro T; apply (Q [] t l); auto).
  destruct t; cbn [chain has_if_before] in *; auto.
Qed.
Lemma tidy_of : forall l, (forall a t b, l = a ++ t :: b -> leaves t -> Forall idle b) -> tidy l.
Proof.
  induction l as [|t l IH]; intro Q; [exact I|]. split; [apply (Q [] t l eq_refl)|]. apply IH. intros a t' b E. apply (Q (t :: a) t' b). now rewrite E.
Qed.
Lemma map_split : forall A B (f : A -> B) l a t b, map f l = a ++ t :: b -> exists a' n b', l = a' ++ n :: b' /\ map f a' = a /\ f n = t /\ map f b' = b.
Proof.
  intros A B f l a. revert l. induction a as [|x a IH]; intros [|y l] t b E; cbn in E; try discriminate E; injection E as E1 E2.
  - exists [], y, l. auto.
  - destruct (IH _ _ _ E2) as (a' & n & b' & -> & <- & <- & <-). exists (y :: a'), n, b'. cbn. now rewrite E1.
Qed.
Lemma block_shape : forall w src ts tree s l blk, accepted w src ts tree s l -> no_call_blocks tree -> block_of tree blk ->
  chain false (map n_type blk) /\ tidy (map n_type blk).
Proof.
  intros w src ts tree s l blk A NC B. split.
  - apply (chain_of _ []). intros a t b E T. apply map_split in E as (a' & n & b' & E & <- & <- & _).
    destruct (block_split _ _ _ _ _ _ _ _ _ _ A NC B E) as (s1 & s2 & x & R). apply node_ran in R as (_ & p & q & _ & R). rewrite app_nil_r.
    destruct R as [e s0 p T0 P0 H0|T0 F|T0 D0 F|name ret num ext exp ps s0 p q T0|name e i q x1 s0 p T0|e s0 p T0
      |f a0 m s0 x1 T0|e s0 x1 s3 q T0|s0 q T0|e s0 x1 s3 q T0|s0 k q T0|T0]; auto; try (intuition congruence).
    exfalso. cbn in T0. intuition congruence.
  - apply tidy_of. intros a t b E T. apply map_split in E as (a' & n & b' & E & _ & <- & <-).
    pose proof (dead_code_l _ _ _ _ _ _ _ _ _ _ A NC B E T) as F. apply Forall_map. exact F.
Qed.

(** * Statements *)

Section Stmt.
Variable H : host.
Variable fold : iop -> operand H -> operand H -> option (operand H).
Variable s : sst.
Variable w : world.
Variable src : text.
Variable debug : bool.
Variable T : nat -> Prop.
Variable ys : list symbol.
Hypothesis SIGV : forall k t m, sig s k = Some (DVar t m) -> exists v, sym_var ys k = Ok v /\ v_type v = t.
Hypothesis SIGF : forall k ps r, sig s k = Some (DFun ps r) -> exists f, sym_func ys k = Ok f /\ f_ret f = r /\ N.to_nat (f_num f) = List.length ps.
Local Notation D := (sig s).
Local Notation gst := (gst H).
Local Notation gen_expr := (gen_expr H fold ys).
Local Notation gen_body := (gen_body H fold ys debug).
Local Notation gen_list := (gen_list H fold ys debug gen_body).
Hypothesis spaces : forall k inside, T k -> D k = Some (DSpace inside) -> entries D T inside.
Hypothesis NV : no_void ys.

(** The declaration k has code. *)
Definition known (g : gst) (k : nat) : Prop :=
  match D k with
  | Some (DVar _ _) => lookup (g_refs H g) k <> None
  | Some (DFun _ _) => lookup (g_funs H g) k <> None
  | _ => True
  end.
Definition inv (g : gst) (P : nat -> Prop) : Prop := forall k, T k -> known g k \/ P k.
Definition status (g : gst) (b : bool) : Prop :=
  if b then g_cond H g <> None /\ g_end H g <> None else g_cond H g = None /\ g_end H g = None.
Definition more (g g' : gst) : Prop :=
  (forall k, lookup (g_refs H g) k <> None -> lookup (g_refs H g') k <> None) /\
  (forall k, lookup (g_funs H g) k <> None -> lookup (g_funs H g') k <> None) /\ g_cond H g' = g_cond H g /\ g_end H g' = g_end H g.
Lemma more_refl : forall g, more g g.
Proof. repeat split; auto. Qed.
Lemma more_trans : forall g g1 g2, more g g1 -> more g1 g2 -> more g g2.
Proof. intros g g1 g2 (A & B & C & E) (A' & B' & C' & E'). repeat split; auto; congruence. Qed.
Lemma more_same : forall g g', g_refs H g' = g_refs H g -> g_funs H g' = g_funs H g -> g_cond H g' = g_cond H g -> g_end H g' = g_end H g -> more g g'.
Proof. intros g g' A B C E. repeat split; auto; [rewrite A|rewrite B]; auto. Qed.
Lemma more_kept : forall g g', kept H g g' -> more g g'.
Proof. intros g g' (A & B & C & _ & E & _). now apply more_same. Qed.
Lemma known_more : forall g g' k, more g g' -> known g k -> known g' k.
Proof. intros g g' k (A & B & _) K. unfold known in *. destruct (D k) as [[]|]; auto. Qed.
Lemma inv_more : forall g g' P, inv g P -> more g g' -> inv g' P.
Proof. intros g g' P I M k K. destruct (I k K) as [X|X]; [left; eapply known_more; eauto|now right]. Qed.
Lemma inv_less : forall g (P Q : nat -> Prop), inv g P -> (forall k, P k -> Q k) -> inv g Q.
Proof. intros g P Q I M k K. destruct (I k K); auto. Qed.
Lemma status_more : forall g g' b, status g b -> more g g' -> status g' b.
Proof. intros g g' b S (_ & _ & C & E). unfold status in *. now rewrite C, E. Qed.

Definition outcome (r : res (gst * flow)) (o : option bool) (P : nat -> Prop) : Prop :=
  match o with Some b => exists g fl, r = Ok (g, fl) /\ inv g P /\ status g b | None => r = UB end.

(** Names in expressions are known. *)
Lemma elab_resolved : forall e,
  (forall a x, elab D w src e a x -> entries D T e -> forall k, In k (Proof_Sem7.reads x ++ Proof_Sem7.calls x) -> T k) /\
  (forall l xs, elabs D w src e l xs -> entries D T e -> forall k, In k (flat_map Proof_Sem7.reads xs ++ flat_map Proof_Sem7.calls xs) -> T k).
Proof.
  intros e. apply elab_both.
  - intros t n k ty m c _ R E EN j [<-|[]]. destruct (resolved _ _ spaces _ _ _ R EN) as [X|(q & X)]; [exact X|congruence].
  - intros t v ty _ _ k [].
  - intros name args num n k ps r xs _ R E _ IH _ EN j I. cbn [Proof_Sem7.reads Proof_Sem7.calls] in I. apply in_app_iff in I as [I|[<-|I]].
    + apply IH; [exact EN|apply in_app_iff; now left].
    + destruct (resolved _ _ spaces _ _ _ R EN) as [X|(q & X)]; [exact X|congruence].
    + apply IH; [exact EN|apply in_app_iff; now right].
  - intros a x c _ IH _ EN k I. now apply IH.
  - intros a x c _ IH _ EN k I. now apply IH.
  - intros a x c _ IH EN k I. now apply IH.
  - intros a x ty c _ IH _ EN k I. now apply IH.
  - intros o a b x y r c _ IH1 _ IH2 _ _ _ EN k I. cbn [Proof_Sem7.reads Proof_Sem7.calls] in I. rewrite !in_app_iff in I.
    destruct I as [[I|I]|[I|I]]; [apply IH1|apply IH2|apply IH1|apply IH2]; auto; apply in_app_iff; auto.
  - intros _ k [].
  - intros a l x xs _ IH1 _ IH2 EN k I. cbn [flat_map] in I. rewrite !in_app_iff in I.
    destruct I as [[I|I]|[I|I]]; [apply IH1|apply IH2|apply IH1|apply IH2]; auto; apply in_app_iff; auto.
Qed.
Lemma elab_kinds : forall e,
  (forall a x, elab D w src e a x -> (forall k, In k (Proof_Sem7.reads x) -> exists t m, D k = Some (DVar t m)) /\ (forall k, In k (Proof_Sem7.calls x) -> exists ps r, D k = Some (DFun ps r))) /\
  (forall l xs, elabs D w src e l xs -> (forall k, In k (flat_map Proof_Sem7.reads xs) -> exists t m, D k = Some (DVar t m)) /\ (forall k, In k (flat_map Proof_Sem7.calls xs) -> exists ps r, D k = Some (DFun ps r))).
Proof.
  intros e. apply elab_both; try (intros; split; intros ? []; fail); try (intros; assumption).
  - intros t n k ty m c _ R E. split; [|intros j []]. intros j [<-|[]]. eauto.
  - intros name args num n k ps r xs _ R E _ (IH1 & IH2) _. split; [exact IH1|]. intros j [<-|I]; eauto.
  - intros o a b x y r c _ (A1 & A2) _ (B1 & B2) _ _ _. cbn [Proof_Sem7.reads Proof_Sem7.calls]. split; intros k I; apply in_app_iff in I as [I|I]; auto.
  - intros a l x xs _ (A1 & A2) _ (B1 & B2). cbn [flat_map]. split; intros k I; apply in_app_iff in I as [I|I]; auto.
Qed.
Lemma expr_ready : forall e a x g (P : nat -> Prop) n, elab D w src e a x -> entries D T e -> inv g P ->
  (forall k, In k (Proof_Sem7.reads x ++ Proof_Sem7.calls x) -> k < n) -> (forall k, P k -> n <= k) -> ready_for H x g.
Proof.
  intros e a x g P n E EN I U L. destruct (proj1 (elab_kinds e) _ _ E) as (K1 & K2). pose proof (proj1 (elab_resolved e) _ _ E EN) as TT. split.
  - intros k IN. assert (J : In k (Proof_Sem7.reads x ++ Proof_Sem7.calls x)) by (apply in_app_iff; now left).
    destruct (K1 k IN) as (t & m & DK). destruct (I k (TT k J)) as [X|X]; [unfold known in X; now rewrite DK in X|].
    apply U in J. apply L in X. lia.
  - intros k IN. assert (J : In k (Proof_Sem7.reads x ++ Proof_Sem7.calls x)) by (apply in_app_iff; now right).
    destruct (K2 k IN) as (t & m & DK). destruct (I k (TT k J)) as [X|X]; [unfold known in X; now rewrite DK in X|].
    apply U in J. apply L in X. lia.
Qed.

(** * Variables *)

Lemma not_void_var : forall k v, sym_var ys k = Ok v -> v_type v <> TVoid.
Proof.
  intros k v E. unfold sym_var, deref in E. destruct (nth_error ys k) as [y|] eqn:N1; [|discriminate E]. cbn [bind] in E.
  pose proof (NV y (nth_error_In _ _ N1)) as Q. destruct (y_kind y); try discriminate E. now injection E as <-.
Qed.
Lemma not_void_fun : forall k f, sym_func ys k = Ok f -> existsb (fun t => ty_eqb t TVoid) (f_params f) = false.
Proof.
  intros k f E. unfold sym_func, deref in E. destruct (nth_error ys k) as [y|] eqn:N1; [|discriminate E]. cbn [bind] in E.
  pose proof (NV y (nth_error_In _ _ N1)) as Q. destruct (y_kind y); try discriminate E. injection E as <-.
  destruct (existsb _ _) eqn:X; [|reflexivity]. apply existsb_exists in X as (t & I & X). destruct t; try discriminate X. contradiction.
Qed.

Lemma lookup_here : forall A (l : list (nat * A)) k a, lookup ((k, a) :: l) k = Some a.
Proof. intros A l k a. cbn [lookup]. now rewrite Nat.eqb_refl. Qed.
Lemma lookup_more : forall A (l : list (nat * A)) k j a, lookup l k <> None -> lookup ((j, a) :: l) k <> None.
Proof. intros A l k j a N1. cbn [lookup]. destruct (j =? k)%nat; [discriminate|exact N1]. Qed.
Lemma more_ref : forall g k r, more g (set_ref H g k r).
Proof. intros g k r. repeat split; auto. intros j N1. cbn [set_ref g_refs]. now apply lookup_more. Qed.
Lemma more_fun : forall g k r, more g (set_fun H g k r).
Proof. intros g k r. repeat split; auto. intros j N1. cbn [set_fun g_funs]. now apply lookup_more. Qed.

Lemma assign_gives : forall o k v g, sym_var ys k = Ok v -> lookup (g_refs H g) k <> None ->
  exists g', assign_value_to_var H ys o k g = Ok g' /\ more g g'.
Proof.
  intros o k v g E L. unfold assign_value_to_var. rewrite E. cbn [bind]. destruct (v_const v && _).
  - eexists. split; [reflexivity|]. apply more_ref.
  - unfold var_ref. destruct (lookup (g_refs H g) k); [|now elim L]. cbn [bind]. eexists. split; [reflexivity|]. now apply more_same.
Qed.
Lemma setup_gives : forall o k v g, sym_var ys k = Ok v ->
  exists g', setup_var_llvm H ys o k g = Ok g' /\ more g g' /\ lookup (g_refs H g') k <> None.
Proof.
  intros o k v g E. unfold setup_var_llvm. rewrite E. cbn [bind]. pose proof (not_void_var _ _ E) as NT.
  assert (R : forall g r, lookup (g_refs H (set_ref H g k r)) k <> None). { intros g0 r. cbn [set_ref g_refs]. now rewrite lookup_here. }
  destruct (g_func H g).
  - destruct (v_const v).
    + eexists. split; [reflexivity|]. split; [apply more_ref|apply R].
    + cbn [emit_reg].
      set (g1 := set_ref H (emit H (set_next H g (S (g_reg H g))) (IAlloca (g_reg H g) (v_type v))) k (mkref H (OReg (g_reg H g)) false (is_constant H o))).
      assert (M1 : more g g1) by (eapply more_trans; [|apply more_ref]; now apply more_same).
      destruct (assign_gives o k v g1 E (R _ _)) as (g2 & E2 & M2).
      exists g2. split; [destruct (v_type v); [exact E2|exact E2|exact E2|exact E2|exact E2|now elim NT|exact E2]|]. split; [eapply more_trans; eauto|].
      apply M2. apply R.
  - destruct (const_null H (v_type v)) as [init|] eqn:CN; [|exfalso; destruct (v_type v); try discriminate CN; now apply NT].
    cbn [bind]. set (g1 := set_ref H (set_globs H g _ _) k _).
    assert (M1 : more g g1) by (eapply more_trans; [|apply more_ref]; now apply more_same).
    destruct (is_constant H o).
    + exists g1. split; [reflexivity|]. split; [exact M1|apply R].
    + destruct (assign_gives o k v g1 E (R _ _)) as (g2 & E2 & M2). exists g2. split; [exact E2|]. split; [eapply more_trans; eauto|]. apply M2. apply R.
Qed.
Lemma params_more : forall ps i g, more g (gen_params H i ps g) /\ forall k, In k ps -> lookup (g_refs H (gen_params H i ps g)) k <> None.
Proof.
  induction ps as [|p ps IH]; intros i g; cbn [gen_params]; [split; [apply more_refl|intros k []]|].
  destruct (IH (S i) (set_ref H g p (mkref H (OArg i) false false))) as (M & L). split; [eapply more_trans; [apply more_ref|exact M]|].
  intros k [<-|I]; [|auto]. apply M. cbn [set_ref g_refs]. now rewrite lookup_here.
Qed.
Lemma info_more : forall ps g, (forall k, In k ps -> lookup (g_refs H g) k <> None /\ exists v, sym_var ys k = Ok v) ->
  exists g', func_debug_info H ys debug ps g = Ok g' /\ more g g'.
Proof.
  intros ps g P. unfold func_debug_info. destruct debug; [|exists g; split; [reflexivity|apply more_refl]]. revert g P.
  induction ps as [|p ps IH]; intros g P; [exists g; split; [reflexivity|apply more_refl]|]. cbn [debug_params].
  destruct (P p (in_eq _ _)) as (L & v & ->). cbn [bind]. unfold var_ref. destruct (lookup (g_refs H g) p) as [old|]; [|now elim L]. cbn [bind emit_reg].
  match goal with |- context [debug_params _ _ _ ?gg] => set (g1 := gg) end.
  assert (M1 : more g g1) by (unfold g1; eapply more_trans; [|apply more_ref]; now apply more_same).
  destruct (IH g1) as (g' & E & M2).
  - intros k I. destruct (P k (in_cons _ _ _ I)) as (L1 & V). split; [now apply M1|exact V].
  - exists g'. split; [exact E|]. eapply more_trans; eauto.
Qed.
Lemma more_branch : forall b g fl, more g (branch_to H b (g, fl)).
Proof. intros b g [t|]; unfold branch_to; cbn [fst snd]; [apply more_refl|now apply more_same]. Qed.
Lemma more_noop : forall g, more g (gen_noop H debug g).
Proof. intro g. unfold gen_noop. destruct debug; [|apply more_refl]. cbn [emit_reg]. now apply more_same. Qed.
Lemma more_end_func : forall f fl old g, more g (end_func H f fl old g).
Proof. intros f fl old g. unfold end_func. cbv zeta. destruct (_ && _); now apply more_same. Qed.

(** * Blocks *)

Definition comparable_node (x : tnode) : Prop := forall y, checked_expr x = Some y -> comparable_expr y.

(** What is needed of a block: its nodes and the nodes below. *)
Record proper (l : list node) (xs : list tnode) : Prop := mkproper {
  pr_blocks : forall n, in_tree n l -> chain false (map n_type (n_child n)) /\ tidy (map n_type (n_child n));
  pr_known : forall n, in_tree n l -> n_type n <> N_UNKNOWN;
  pr_exprs : forall x, in_checked x xs -> comparable_node x }.
Lemma proper_tail : forall n l x xs, proper (n :: l) (x :: xs) -> proper l xs.
Proof.
  intros n l x xs [A B C]. constructor.
  - intros m I. apply A. inversion I as [? J|m' ? J K]; subst; [apply it_here; now right|apply it_below with m'; [now right|exact K]].
  - intros m I. apply B. inversion I as [? J|m' ? J K]; subst; [apply it_here; now right|apply it_below with m'; [now right|exact K]].
  - intros m I. apply C. inversion I as [? J|m' ? J K]; subst; [apply ic_here; now right|apply ic_below with m'; [now right|exact K]].
Qed.
Lemma proper_child : forall n l x xs, proper (n :: l) (x :: xs) -> proper (n_child n) (tn_child x).
Proof.
  intros n l x xs [A B C]. constructor.
  - intros m I. apply A. apply it_below with n; [now left|exact I].
  - intros m I. apply B. apply it_below with n; [now left|exact I].
  - intros m I. apply C. apply ic_below with x; [now left|exact I].
Qed.

Definition statement_mode (l : list node) (xs : list tnode) : Prop := forall a b g (P : nat -> Prop) k p,
  seq a xs b -> (forall j, P j -> b <= j) -> inv g (fun j => In j (flat_map (made ys) xs) \/ P j) -> status g k ->
  chain p (map n_type l) -> (p = true -> branch_follows xs = false) -> tidy (map n_type l) -> proper l xs ->
  outcome (gen_list Statement xs g) (run k (flat_map (marks ys) xs)) P.
Definition branch_mode (l : list node) (xs : list tnode) : Prop := forall a b g (P : nat -> Prop) k entry last,
  seq a xs b -> (forall j, P j -> b <= j) -> inv g (fun j => In j (flat_map (made ys) xs) \/ P j) -> status g k ->
  chain true (map n_type l) -> branch_follows xs = true -> tidy (map n_type l) -> proper l xs ->
  outcome (gen_list (Branch entry last) xs g) (run k (flat_map (marks ys) xs)) P.

Lemma seq_numbers : forall a l b, seq a l b -> forall k, In k (flat_map numbers l) -> a <= k < b.
Proof.
  intros a l b S. induction S as [a b L|a x l b c d L U N1 S1 IH1 S2 IH2]; intros k I; [destruct I|].
  cbn [flat_map] in I. apply in_app_iff in I as [I|I].
  - destruct x as [t tk p ch]. cbn [numbers tn_child] in *. apply seq_le in S1 as L1. apply seq_le in S2 as L2. apply in_app_iff in I as [I|I].
    + apply N1 in I. lia.
    + apply IH1 in I. lia.
  - apply seq_le in S1. apply IH2 in I. lia.
Qed.
Lemma made_range : forall a l b, seq a l b -> forall k, In k (flat_map (made ys) l) -> a <= k < b.
Proof.
  intros a l b S k I. apply (seq_numbers a l b S). apply in_flat_map in I as (y & IN & I). apply in_flat_map. exists y. split; [exact IN|now apply made_numbers in I].
Qed.
Lemma idle_rest : forall e l xs e', block_ok D w src e l xs e' -> Forall idle (map n_type l) -> flat_map (marks ys) xs = [] /\ flat_map (made ys) xs = [].
Proof.
  intros e l xs e' B. induction B as [e|e n l x xs e1 e2 S0 B IH]; intro F; [auto|]. cbn [map] in F. inversion F as [|? ? F1 F2]; subst.
  destruct (IH F2) as (A1 & A2). cbn [flat_map]. rewrite A1, A2, !app_nil_r. unfold idle in F1.
  inversion S0; subst; try (exfalso; intuition congruence);
    try match goal with E : In (n_type _) _ |- _ => cbn [In] in E; destruct F1 as [F1|[F1|F1]]; rewrite F1 in *; intuition discriminate end.
Qed.
Lemma statement_nil : statement_mode [] [].
Proof.
  intros a b g P k p S0 L I ST _ _ _ _. cbn [flat_map run outcome]. exists g, None. split; [reflexivity|]. split; [|exact ST].
  apply (inv_less _ _ _ I). intros j [[]|X]. exact X.
Qed.

Definition has_code (x : tnode) : Prop := match tn_pay x with XProto k _ => is_external ys k = false | _ => True end.

Lemma sym_external : forall k f, sym_func ys k = Ok f -> f_external f = is_external ys k.
Proof.
  intros k f E. unfold sym_func, deref in E. unfold is_external. destruct (nth_error ys k) as [y|]; [|discriminate E]. cbn [bind] in E.
  destruct (y_kind y); try discriminate E. now injection E as <-.
Qed.

Lemma status_loop : forall g c e b, status (set_loop H g c e) b <-> (if b then c <> None /\ e <> None else c = None /\ e = None).
Proof. intros g c e b. unfold status. cbn. tauto. Qed.
Lemma inv_loop : forall g c e P, inv g P -> inv (set_loop H g c e) P.
Proof. intros g c e P I k K. destruct (I k K); auto. Qed.
Lemma inv_tables : forall g g' P, inv g P -> g_refs H g' = g_refs H g -> g_funs H g' = g_funs H g -> inv g' P.
Proof. intros g g' P I A B k K. destruct (I k K) as [X|X]; [left|now right]. unfold known in *. rewrite A, B. exact X. Qed.

Lemma blocks_give :
  (forall e n x e', stmt_ok D w src e n x e' -> entries D T e -> (forall k, In k (made ys x) -> T k) -> has_code x -> statement_mode (n_child n) (tn_child x)) /\
  (forall e l xs e', block_ok D w src e l xs e' -> entries D T e -> (forall k, In k (flat_map (made ys) xs) -> T k) -> statement_mode l xs /\ branch_mode l xs).
Proof.
  apply stmt_block_both.
  - intros e n name rest v i c x y z k _ EC _ _ _ _ _ _ _ _ _ _. rewrite EC. exact statement_nil.
  - intros e n name v i ex t q r x k ty _ EC _ _ _ _ _ _ _ _ _ _. rewrite EC. exact statement_nil.
  - intros e n v t q r x k ty y _ EC _ _ _ _ _ _ _ _ _ _. rewrite EC. exact statement_nil.
  - intros e n f a m y _ EC _ _ _ _ _. rewrite EC. exact statement_nil.
  - intros e n v y _ EC _ _ _ _ _. rewrite EC. exact statement_nil.
  - intros e n v y c e' _ _ _ _ _ IH EN TK _. cbn [made numbers_here tn_pay flat_map app tn_child] in *. apply IH; auto.
  - intros e n c e' _ _ IH EN TK _. cbn [made numbers_here tn_pay flat_map app tn_child] in *. apply IH; auto.
  - intros e n name ret num ext exp ps ts ks r x k e1 c e2 _ _ _ _ _ E PO _ IH EN TK HC. unfold has_code in HC. cbn [made tn_pay tn_child] in *. rewrite HC in TK.
    assert (EK : entries D T ((x, k) :: e)) by (apply entries_cons; [exact EN|left; apply TK; now left]). apply IH.
    + apply (params_entries _ _ _ _ _ _ _ _ PO EK). intros k' I'. apply TK. right. apply in_app_iff. now left.
    + intros k' I'. apply TK. right. apply in_app_iff. now right.
  - intros e n t q r x k c e' _ _ _ _ E _ IH EN TK _. cbn [made numbers_here tn_pay flat_map app tn_child] in *. apply IH.
    + apply entries_cons; [exact EN|left; apply TK; now left].
    + intros k' I'. apply TK. now right.
  - intros e n _ EC _ _ _ _. rewrite EC. exact statement_nil.
  - intros e _ _. split; [exact statement_nil|]. intros a b g P k entry last _ _ _ _ _ X. discriminate X.
  - intros e n l x xs e1 e2 S0 IH1 B0 IH2 EN TK. cbn [flat_map] in TK.
    assert (TX : forall k, In k (made ys x) -> T k) by (intros k I; apply TK; apply in_app_iff; now left).
    assert (TXS : forall k, In k (flat_map (made ys) xs) -> T k) by (intros k I; apply TK; apply in_app_iff; now right).
    specialize (IH1 EN TX). destruct (IH2 (proj1 (proj1 (block_entries ys D w src T) _ _ _ _ S0 EN TX)) TXS) as (SM & BM). clear IH2 TK.
    assert (TY : tn_type x = n_type n) by (inversion S0; subst; auto).
    (* the block of a node *)
    assert (BODY : has_code x -> forall a1 c b (P : nat -> Prop) g k, seq a1 (tn_child x) c -> seq c xs b -> (forall j, P j -> b <= j) -> proper (n :: l) (x :: xs) ->
      inv g (fun j => In j (flat_map (made ys) (tn_child x)) \/ In j (flat_map (made ys) xs) \/ P j) -> status g k ->
      outcome (gen_body x g) (run k (flat_map (marks ys) (tn_child x))) (fun j => In j (flat_map (made ys) xs) \/ P j)).
    { intros HC a1 c b P g k S1 S2 L PR I ST. destruct (pr_blocks _ _ PR n) as (CH & TD); [apply it_here; now left|].
      replace (gen_body x g) with (gen_list Statement (tn_child x) g) by (destruct x; reflexivity).
      apply (IH1 HC a1 c g _ k false S1); auto.
      - intros j [J|J]; [apply (made_range _ _ _ S2) in J; lia|apply L in J; apply seq_le in S2; lia].
      - intro X. discriminate X.
      - eapply proper_child; exact PR. }
    (* expressions of the node *)
    assert (EXPR : forall a v y g (P : nat -> Prop), elab D w src e v y -> checked_expr x = Some y -> proper (n :: l) (x :: xs) ->
      (forall k, In k (uses_here x) -> k < a) -> inv g P -> (forall k, P k -> a <= k) ->
      exists o t g', gen_expr y g = Ok (o, t, g') /\ more g g').
    { intros a v y g P EL CE PR U I L. destruct (expr_gives H fold s w src ys SIGV SIGF e v y EL) with (g := g) as (o & t & g' & E & _).
      - apply (pr_exprs _ _ PR x); [apply ic_here; now left|exact CE].
      - apply (expr_ready e v y g P a EL EN I); [|exact L]. intros k J. apply U. unfold uses_here, reads_here, calls_here. unfold checked_expr in CE.
        destruct (tn_pay x); try discriminate CE; injection CE as ->; rewrite app_assoc; apply in_app_iff; now left.
      - exists o, t, g'. split; [exact E|]. apply more_kept. eapply kept_expr; exact E. }
    (* a branch of an if and what follows it *)
    assert (COND : n_type n = N_IF \/ n_type n = N_ELIF -> forall a b g (P : nat -> Prop) k entry last, seq a (x :: xs) b -> (forall j, P j -> b <= j) ->
      inv g (fun j => In j (flat_map (made ys) (x :: xs)) \/ P j) -> status g k -> chain true (map n_type l) -> tidy (map n_type l) -> proper (n :: l) (x :: xs) ->
      outcome (do (f, g) <- gen_branch H fold ys (gen_body x) (tn_pay x) (branch_follows xs) entry last g;
               if branch_follows xs then gen_list (Branch f last) xs g else gen_list Statement xs (position H g last))
        (run k (flat_map (marks ys) (x :: xs))) P).
    { intros NT a b g P k entry last SQ L I ST CH TD PR.
      inversion SQ as [|a' x' l' b1 c d L1 U N1 S1 S2]; subst a' x' l' d.
      assert (exists v y c0, x = mktnode (n_type n) (n_token n) (XExpr y) c0 /\ elab D w src e v y) as (v & y & c0 & EX & EL).
      { inversion S0; subst; try (exfalso; destruct NT as [NT|NT]; congruence).
        - eauto.
        - match goal with E : In (n_type n) _ |- _ => cbn [In] in E; exfalso; destruct NT as [NT|NT]; rewrite NT in E; intuition discriminate end. }
      assert (EM : flat_map (marks ys) (x :: xs) = flat_map (marks ys) (tn_child x) ++ flat_map (marks ys) xs).
      { subst x. cbn [flat_map marks tn_child]. destruct NT as [-> | ->]; reflexivity. }
      assert (EA : made ys x = flat_map (made ys) (tn_child x)) by (subst x; reflexivity).
      rewrite EM, run_app. unfold gen_branch. cbn [new_block].
      set (g1 := position H (set_blocks H g (g_blocks H g ++ [[]])) (List.length (g_blocks H g))).
      assert (M1 : more g g1) by (now apply more_same).
      assert (R1 : outcome (gen_body x g1) (run k (flat_map (marks ys) (tn_child x))) (fun j => In j (flat_map (made ys) xs) \/ P j)).
      { apply (BODY) with (a1 := b1) (c := c) (b := b); auto.
        - subst x. exact Logic.I.
        - apply (inv_less g1 (fun j => In j (flat_map (made ys) (x :: xs)) \/ P j)); [eapply inv_more; eauto|].
          cbn [flat_map]. rewrite EA. intros j [J|J]; [apply in_app_iff in J as [J|J]|]; auto. }
      destruct (run k (flat_map (marks ys) (tn_child x))) as [k1|]; cbn [outcome] in R1; [|rewrite R1; reflexivity].
      destruct R1 as (g2 & fl & -> & I2 & ST2). cbn [bind].
      set (g3 := position H (branch_to H last (g2, fl)) entry).
      assert (M3 : more g2 g3) by (eapply more_trans; [apply more_branch|now apply more_same]).
      assert (exists f g4, (if branch_follows xs then new_block H g3 else (last, g3)) = (f, g4) /\ more g3 g4) as (f & g4 & EF & M4).
      { destruct (branch_follows xs); eexists _, _; (split; [reflexivity|]); [now apply more_same|apply more_refl]. }
      rewrite EF. assert (I4 : inv g4 (fun j => In j (flat_map (made ys) xs) \/ P j)) by (eapply inv_more; [exact I2|]; eapply more_trans; eauto).
      destruct (EXPR a v y g4 (fun j => In j (flat_map (made ys) xs) \/ P j)) as (o & t & g5 & E5 & M5); auto.
      { now subst x. }
      { intros j [J|J]; apply seq_le in S1; [apply (made_range _ _ _ S2) in J; lia|apply L in J; apply seq_le in S2; lia]. }
      rewrite EX. cbn [tn_pay gen_condition]. rewrite E5. cbn [bind].
      assert (I6 : inv (emit H g5 (ICondBr o (List.length (g_blocks H g)) f)) (fun j => In j (flat_map (made ys) xs) \/ P j)).
      { eapply inv_more; [exact I4|]. eapply more_trans; [exact M5|now apply more_same]. }
      assert (ST6 : status (emit H g5 (ICondBr o (List.length (g_blocks H g)) f)) k1).
      { eapply status_more; [exact ST2|]. eapply more_trans; [exact M3|]. eapply more_trans; [exact M4|]. eapply more_trans; [exact M5|now apply more_same]. }
      apply proper_tail in PR.
      destruct (branch_follows xs) eqn:BF.
      - apply (BM c b); auto.
      - apply (SM c b _ _ _ true); auto. }
    split.
    + intros a b g P k p SQ L I ST CH BF TD PR. pose proof SQ as SQ0. inversion SQ as [|a' x' l' b1 c d L1 U N1 S1 S2]; subst a' x' l' d.
      cbn [map chain tidy] in CH, TD. destruct TD as (TD1 & TD).
      assert (LOW : forall j, In j (flat_map (made ys) (x :: xs)) \/ P j -> a <= j).
      { intros j [J|J]; [apply (made_range _ _ _ SQ0) in J; lia|apply L in J; apply seq_le in SQ0; lia]. }
      (* the statements behind the node *)
      assert (REST : forall g1 q k1, chain q (map n_type l) -> (q = true -> branch_follows xs = false) ->
        inv g1 (fun j => In j (flat_map (made ys) xs) \/ P j) -> status g1 k1 -> outcome (gen_list Statement xs g1) (run k1 (flat_map (marks ys) xs)) P).
      { intros g1 q k1 CQ BQ I1 ST1. apply (SM c b _ _ _ q); auto. eapply proper_tail; exact PR. }
      assert (STOP : leaves (n_type n) -> forall g1 fl, made ys x = [] -> more g g1 -> forall r, r = Ok (g1, Some fl) ->
        outcome r (run k (flat_map (marks ys) xs)) P).
      { intros LV g1 fl EM M r ->. destruct (idle_rest _ _ _ _ B0 (TD1 LV)) as (-> & EM2). cbn [run outcome]. exists g1, (Some fl). split; [reflexivity|].
        split; [|eapply status_more; eauto]. apply (inv_less g1 (fun j => In j (flat_map (made ys) (x :: xs)) \/ P j)); [eapply inv_more; eauto|].
        cbn [flat_map]. rewrite EM, EM2. intros j [[]|J]. exact J. }
      assert (SAME : made ys x = [] -> forall g1, more g g1 -> inv g1 (fun j => In j (flat_map (made ys) xs) \/ P j) /\ status g1 k).
      { intros EM g1 M. split; [|eapply status_more; eauto]. apply (inv_less g1 (fun j => In j (flat_map (made ys) (x :: xs)) \/ P j)); [eapply inv_more; eauto|].
        cbn [flat_map]. rewrite EM. auto. }
      cbn [Model_LLVM.gen_list]. fold gen_list.
      assert (TX' : n_type n <> N_UNKNOWN) by (apply (pr_known _ _ PR); apply it_here; now left).
      inversion S0; subst.
      * (* definition *)
        cbn [tn_type tn_pay marks made numbers_here flat_map app] in *.
        match goal with EL : elab _ _ _ _ _ _, DK : sig s k0 = _ |- _ => destruct (EXPR a _ _ g _ EL eq_refl PR U I LOW) as (o & t & g1 & E1 & M1);
          destruct (SIGV _ _ _ DK) as (vv & SV & _) end.
        unfold gen_var_def. rewrite E1. cbn [bind]. destruct (setup_gives o k0 vv g1 SV) as (g2 & E2 & M2 & R2). rewrite E2. cbn [bind].
        match goal with X : n_type n = _ |- _ => rewrite X in CH; cbn [chain] in CH end.
        apply (REST g2 false); auto; [intro X; discriminate X| |exact (status_more _ _ _ ST (more_trans _ _ _ M1 M2))].
        intros j J. destruct (I j J) as [X|[[X|X]|X]]; auto; [left; apply (known_more g g2 j (more_trans _ _ _ M1 M2) X)|subst j].
        left. unfold known. match goal with DK : sig s k0 = _ |- _ => rewrite DK end. exact R2.
      * (* alias *)
        cbn [tn_type tn_pay marks made numbers_here flat_map app] in *. match goal with X : n_type n = _ |- _ => rewrite X in CH; cbn [chain] in CH end.
        apply (REST g false); auto. intro X; discriminate X.
      * (* assignment *)
        cbn [tn_type tn_pay marks made numbers_here flat_map app] in *.
        match goal with EL : elab _ _ _ _ _ _, DK : sig s k0 = _, RS : resolves _ _ _ _ |- _ => destruct (EXPR a _ _ g _ EL eq_refl PR U I LOW) as (o & t1 & g1 & E1 & M1);
          destruct (SIGV _ _ _ DK) as (vv & SV & _); destruct (resolved _ _ spaces _ _ _ RS EN) as [TT|(tt & X)]; [|congruence] end.
        assert (R1 : lookup (g_refs H g1) k0 <> None).
        { apply M1. destruct (I k0 TT) as [X|X].
          - unfold known in X. match goal with DK : sig s k0 = _ |- _ => rewrite DK in X end. exact X.
          - exfalso. assert (k0 < a) by (apply U; unfold uses_here; cbn [sets_here tn_pay]; apply in_app_iff; right; apply in_app_iff; right; now left).
            apply LOW in X. lia. }
        unfold gen_var_assign. rewrite E1. cbn [bind]. destruct (assign_gives o k0 vv g1 SV R1) as (g2 & E2 & M2). rewrite E2. cbn [bind].
        match goal with X : n_type n = _ |- _ => rewrite X in CH; cbn [chain] in CH end.
        destruct (SAME eq_refl g2 (more_trans _ _ _ M1 M2)) as (I2 & ST2). apply (REST g2 false); auto. intro X; discriminate X.
      * (* call *)
        cbn [tn_type tn_pay marks made numbers_here flat_map app] in *.
        match goal with EL : elab _ _ _ _ _ _ |- _ => destruct (EXPR a _ _ g _ EL eq_refl PR U I LOW) as (o & t1 & g1 & E1 & M1); inversion EL; subst end.
        rewrite E1. cbn [bind]. match goal with X : n_type n = _ |- _ => rewrite X in CH; cbn [chain] in CH end.
        destruct (SAME eq_refl g1 M1) as (I2 & ST2). apply (REST g1 false); auto. intro X; discriminate X.
      * (* return *)
        cbn [tn_type tn_pay marks made numbers_here flat_map app] in *.
        match goal with EL : elab _ _ _ _ _ _ |- _ => destruct (EXPR a _ _ g _ EL eq_refl PR U I LOW) as (o & t1 & g1 & E1 & M1) end.
        unfold gen_return. rewrite E1. cbn [bind]. apply (STOP) with (g1 := emit H g1 (IRet (Some o))) (fl := t1); auto.
        unfold leaves. auto.
      * (* conditions *)
        match goal with Q : In (n_type n) _ |- _ => destruct Q as [X | [X | [X | []]]] end.
        -- rewrite <- X. cbn [tn_type tn_pay].
           set (g1 := set_blocks H g (g_blocks H g ++ [[]])).
           pose proof (COND (or_introl (eq_sym X)) a b g1 P k (g_cur H g) (List.length (g_blocks H g)) SQ L) as R. cbn [tn_pay] in R. rewrite <- X in R. cbn [new_block]. fold g1.
           apply R; auto; [rewrite <- X in CH; exact CH|rewrite <- X in PR; exact PR].
        -- exfalso. rewrite <- X in CH. cbn [chain] in CH. destruct CH as (-> & _). specialize (BF eq_refl). cbn [branch_follows tn_type] in BF. rewrite <- X in BF. discriminate BF.
        -- rewrite <- X. cbn [tn_type tn_pay]. rewrite <- X in CH. cbn [chain] in CH.
           cbn [flat_map marks app run]. rewrite <- app_assoc, run_app. cbn [app run].
           unfold gen_while. cbn [new_block].
           match goal with |- context [gen_condition H fold ys _ _ _ ?gg] => set (g1 := gg) end.
           match goal with EL : elab _ _ _ _ _ _ |- _ => destruct (EXPR a _ _ g1 _ EL eq_refl PR U I LOW) as (o & t1 & g2 & E2 & M2) end.
           cbn [gen_condition]. rewrite E2. cbn [bind].
           match goal with |- context [gen_body _ ?gg] => set (g3 := gg) end.
           match goal with |- context [gen_body ?xx _] => set (x1 := xx) end.
           assert (M3 : more g1 g3) by (apply more_trans with g2; [exact M2|now apply more_same]).
           assert (ST3 : status g3 true). { eapply status_more; [|exact M3]. unfold g1, status. cbn. split; discriminate. }
           assert (R3 : outcome (gen_body x1 g3) (run true (flat_map (marks ys) c0)) (fun j => In j (flat_map (made ys) xs) \/ P j)).
           { unfold x1. rewrite X. apply (BODY) with (a1 := b1) (c := c) (b := b); auto; [exact Logic.I|]. apply (inv_less g3 _ _ (inv_more _ _ _ (I : inv g1 _) M3)).
             cbn [flat_map made numbers_here tn_pay app tn_child]. intros j [J|J]; [apply in_app_iff in J as [J|J]|]; auto. }
           destruct (run true (flat_map (marks ys) c0)) as [k1|]; cbn [outcome] in R3; [|rewrite R3; reflexivity].
           destruct R3 as (g4 & fl & -> & I4 & ST4). cbn [bind]. apply (REST _ false); auto; [intro Q; discriminate Q| |split; reflexivity].
           apply inv_loop. apply (inv_more g4); [exact I4|]. eapply more_trans; [apply more_branch|now apply more_same].
      * (* else *)
        exfalso. match goal with X : n_type n = _ |- _ => rewrite X in CH; cbn [chain] in CH end. destruct CH as (-> & _). specialize (BF eq_refl). discriminate BF.
      * (* functions *)
        cbn [tn_type tn_pay].
        match goal with X : n_type n = _ |- _ => rewrite X in CH; cbn [chain] in CH end.
        match goal with DK : sig s k0 = _ |- _ => destruct (SIGF _ _ _ DK) as (f & SF & _ & _); rename DK into DK0 end.
        unfold gen_func_decl. rewrite SF. cbn [bind]. rewrite (not_void_fun _ _ SF), (sym_external _ _ SF). cbn [flat_map marks made] in *.
        destruct (is_external ys k0) eqn:EXT.
        -- cbn [bind app]. apply (REST _ false); auto; [intro Q; discriminate Q|].
           intros j J. destruct (I j J) as [X|[[X|X]|X]]; auto.
           ++ left. exact (known_more _ _ _ (more_fun g k0 None) X).
           ++ subst j. left. unfold known. rewrite DK0. cbn [set_fun g_funs]. now rewrite lookup_here.
        -- rewrite run_app. cbn [new_block].
           match goal with |- context [func_debug_info _ _ _ _ ?gg] => set (gp := gg) end.
           match goal with |- context [gen_body ?xx _] => set (x1 := xx) end.
           set (g1 := set_fun H (set_blocks H g (g_blocks H g ++ [[]])) k0 (Some (List.length (g_blocks H g)))).
           destruct (params_more ks 0 g1) as (M1 & K1).
           assert (M0 : more g g1) by (eapply more_trans; [|apply more_fun]; now apply more_same).
           assert (M2p : more (gen_params H 0 ks g1) gp) by (now apply more_same).
           destruct (info_more ks gp) as (g3 & -> & MI).
           { intros j X. split; [apply M2p; now apply K1|]. match goal with PO : params_ok _ _ _ _ _ _ _ |- _ => destruct (params_sig _ _ _ _ _ _ _ PO j X) as (t0 & E3) end.
             destruct (SIGV _ _ _ E3) as (v3 & E4 & _). eauto. }
           cbn [bind]. assert (M2 : more (gen_params H 0 ks g1) g3) by exact (more_trans _ _ _ M2p MI).
           assert (M3 : more g g3) by (apply more_trans with g1; [exact M0|]; eapply more_trans; eauto).
           assert (R3 : outcome (gen_body x1 g3) (run k (flat_map (marks ys) c0)) (fun j => In j (flat_map (made ys) xs) \/ P j)).
           { apply (BODY) with (a1 := b1) (c := c) (b := b); auto; [|exact (status_more _ _ _ ST M3)].
             intros j J. destruct (I j J) as [X|[X|X]]; auto; [left; exact (known_more _ _ _ M3 X)|]. cbn [tn_child]. destruct X as [X|X].
             - subst j. left. unfold known. rewrite DK0. apply M2, M1. unfold g1. cbn [set_fun g_funs]. now rewrite lookup_here.
             - rewrite <- app_assoc in X. apply in_app_iff in X as [X|X]; [|apply in_app_iff in X as [X|X]; auto].
               left. match goal with PO : params_ok _ _ _ _ _ _ _ |- _ => destruct (params_sig _ _ _ _ _ _ _ PO j X) as (t0 & E3) end.
               unfold known. rewrite E3. apply M2. now apply K1. }
           destruct (run k (flat_map (marks ys) c0)) as [k1|]; cbn [outcome] in R3; [|rewrite R3; reflexivity].
           destruct R3 as (g4 & fl & -> & I4 & ST4). cbn [bind].
           assert (M4 : more g4 (position H (end_func H f fl (g_func H g) g4) (g_cur H g))) by (eapply more_trans; [apply more_end_func|now apply more_same]).
           apply (REST _ false); auto; [intro Q; discriminate Q|exact (inv_more _ _ _ I4 M4)|exact (status_more _ _ _ ST4 M4)].
      * (* namespaces *)
        cbn [tn_type tn_pay flat_map marks made numbers_here app] in *. rewrite run_app.
        match goal with X : n_type n = _ |- _ => rewrite X in CH; cbn [chain] in CH end.
        match goal with |- context [gen_body ?xx _] => set (x1 := xx) end.
        assert (R3 : outcome (gen_body x1 g) (run k (flat_map (marks ys) c0)) (fun j => In j (flat_map (made ys) xs) \/ P j)).
        { apply (BODY) with (a1 := b1) (c := c) (b := b); auto; [exact Logic.I|].
          intros j J. cbn [tn_child]. destruct (I j J) as [X|[[X|X]|X]]; auto; [|apply in_app_iff in X as [X|X]; auto].
          subst j. left. unfold known. match goal with DK : sig s k0 = _ |- _ => rewrite DK end. exact Logic.I. }
        destruct (run k (flat_map (marks ys) c0)) as [k1|]; cbn [outcome] in R3; [|rewrite R3; reflexivity].
        destruct R3 as (g4 & fl & -> & I4 & ST4). cbn [bind]. apply (REST _ false); auto. intro Q; discriminate Q.
      * (* others *)
        cbn [tn_type tn_pay] in *.
        match goal with X : In (n_type n) _ |- _ => destruct X as [Q | [Q | [Q | [Q | [Q | [Q | [Q | [Q | []]]]]]]]]; rewrite <- Q in * end; cbn [flat_map marks made numbers_here tn_pay app chain] in *.
        -- cbn [gen_return]. eapply STOP; [unfold leaves; auto|reflexivity| |reflexivity]; now apply more_same.
        -- eapply STOP; [unfold leaves; auto|reflexivity| |reflexivity]; now apply more_same.
        -- cbn [run]. unfold gen_jump, status in *. destruct k.
           ++ destruct (g_end H g) as [t|]; [|exfalso; now apply ST]. eapply STOP; [unfold leaves; auto|reflexivity| |reflexivity]; now apply more_same.
           ++ destruct ST as (_ & ->). reflexivity.
        -- cbn [run]. unfold gen_jump, status in *. destruct k.
           ++ destruct (g_cond H g) as [t|]; [|exfalso; now apply ST]. eapply STOP; [unfold leaves; auto|reflexivity| |reflexivity]; now apply more_same.
           ++ destruct ST as (-> & _). reflexivity.
        -- apply (REST _ false); auto. intro X; discriminate X.
        -- apply (REST _ p); auto.
        -- destruct (SAME eq_refl _ (more_noop g)) as (I2 & ST2). apply (REST _ false); auto. intro X; discriminate X.
        -- now elim TX'.
    + intros a b g P k entry last SQ L I ST CH BF TD PR. pose proof SQ as SQ0. inversion SQ as [|a' x' l' b1 c d L1 U N1 S1 S2]; subst a' x' l' d.
      cbn [map chain tidy] in CH, TD. destruct TD as (TD1 & TD). cbn [branch_follows] in BF. rewrite TY in BF.
      cbn [Model_LLVM.gen_list]. fold gen_list. rewrite TY.
      destruct (n_type n) eqn:NT; try discriminate BF.
      * destruct CH as (_ & CH). apply (COND (or_intror eq_refl) a b); auto.
      * destruct CH as (_ & CH).
        assert (exists c0, x = mktnode N_ELSE (n_token n) XNone c0) as (c0 & EX).
        { inversion S0; subst; try congruence; try (rewrite <- NT; solve [eauto]);
            match goal with Q : In (n_type n) _ |- _ => exfalso; rewrite NT in Q; cbn [In] in Q; intuition discriminate end. }
        assert (EM : flat_map (marks ys) (x :: xs) = flat_map (marks ys) (tn_child x) ++ flat_map (marks ys) xs) by (now subst x).
        assert (EA : made ys x = flat_map (made ys) (tn_child x)) by (now subst x).
        rewrite EM, run_app.
        assert (R1 : outcome (gen_body x (position H g entry)) (run k (flat_map (marks ys) (tn_child x))) (fun j => In j (flat_map (made ys) xs) \/ P j)).
        { apply (BODY) with (a1 := b1) (c := c) (b := b); auto; [subst x; exact Logic.I|].
          apply (inv_less g (fun j => In j (flat_map (made ys) (x :: xs)) \/ P j)); [exact I|].
          cbn [flat_map]. rewrite EA. intros j [J|J]; [apply in_app_iff in J as [J|J]|]; auto. }
        destruct (run k (flat_map (marks ys) (tn_child x))) as [k1|]; cbn [outcome] in R1; [|rewrite R1; reflexivity].
        destruct R1 as (g2 & fl & -> & I2 & ST2). cbn [bind].
        assert (M3 : more g2 (position H (branch_to H last (g2, fl)) last)) by (eapply more_trans; [apply more_branch|now apply more_same]).
        apply (SM c b _ _ _ false); auto; [exact (inv_more _ _ _ I2 M3)|exact (status_more _ _ _ ST2 M3)|intro Q; discriminate Q|eapply proper_tail; exact PR].
      * assert (exists p, x = mktnode N_COMMENT (n_token n) XNone p /\ p = []) as (p & EX & EP).
        { inversion S0; subst; try congruence; try (rewrite <- NT; solve [eauto]);
            match goal with Q : In (n_type n) _ |- _ => exfalso; rewrite NT in Q; cbn [In] in Q; intuition discriminate end. }
        subst p. replace (flat_map (marks ys) (x :: xs)) with (flat_map (marks ys) xs) by (now subst x).
        apply (BM c b); auto; [|eapply proper_tail; exact PR].
        apply (inv_less g (fun j => In j (flat_map (made ys) (x :: xs)) \/ P j)); [exact I|]. subst x. auto.
Qed.
End Stmt.
