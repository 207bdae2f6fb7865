(** Ways to check the hypotheses of the theorems about the checks for given programs. *)
From Coq Require Import List Arith NArith ZArith Bool Lia Ascii String.
From Verif Require Import Base Model_Token Model_Utf8 Spec_Utf8 Spec_Classify Model_Literal Model_Parse Spec_Parse Model_Sem Spec_Sem.
Import ListNotations.
Open Scope list_scope.
Open Scope N_scope.

Lemma node_ind' : forall P : node -> Prop,
  (forall ty tok te p c, Forall P c -> P (mknode ty tok te p c)) -> forall n, P n.
Proof.
  intros P H. fix IH 1. intros [ty tok te p c]. apply H. induction c as [|m c IHc]; constructor; [apply IH|exact IHc].
Qed.

(** All nodes of a tree. *)
Fixpoint nodes (n : node) : list node :=
  match n with mknode _ _ _ _ c => n :: flat_map nodes c end.
Definition all_nodes (t : list node) : list node := flat_map nodes t.

Lemma nodes_self : forall n, In n (nodes n).
Proof. intros []. now left. Qed.

Lemma in_tree_nodes : forall n t, in_tree n t -> In n (all_nodes t).
Proof.
  intros n t H. induction H as [t I|m t I H IH]; apply in_flat_map.
  - exists n. split; [easy|apply nodes_self].
  - exists m. split; [easy|]. destruct m. right. exact IH.
Qed.

(** All parts of an expression. *)
Fixpoint parts (e : expr) : list expr :=
  e :: match e with
       | ECall _ args _ => flat_map (fun a => parts (snd a)) args
       | EUn _ (Some a) => parts a
       | EBin _ (Some a) b => parts a ++ parts b
       | EBin _ None b => parts b
       | _ => []
       end.

Lemma part_parts : forall x e, part x e -> In x (parts e).
Proof.
  intros x e H. induction H as [e|x name args n p a I H IH|x o a H IH|x o a b H IH|x o [a|] b H IH].
  - destruct e; now left.
  - right. apply in_flat_map. now exists (p, a).
  - now right.
  - right. apply in_app_iff. now left.
  - right. apply in_app_iff. now right.
  - now right.
Qed.

Definition no_call_blocksb (t : list node) : bool :=
  forallb (fun n => match n_type n with N_EXPR => match n_child n with [] => true | _ => false end | _ => true end) (all_nodes t).
Lemma no_call_blocks_of : forall t, no_call_blocksb t = true -> no_call_blocks t.
Proof.
  intros t H n I T. unfold no_call_blocksb in H. rewrite forallb_forall in H. apply in_tree_nodes in I. apply H in I.
  rewrite T in I. destruct (n_child n); [easy|discriminate].
Qed.

Definition few_argumentsb (t : list node) : bool :=
  forallb (fun n => match node_expr n with
    | Some e => forallb (fun p => match p with ECall _ args _ => N.of_nat (List.length args) <? 2 ^ 16 | _ => true end) (parts e)
    | None => true end) (all_nodes t).
Lemma few_arguments_of : forall t, few_argumentsb t = true -> few_arguments t.
Proof.
  intros t H n e name args k I E P. unfold few_argumentsb in H. rewrite forallb_forall in H. apply in_tree_nodes in I.
  apply H in I. rewrite E in I. rewrite forallb_forall in I. apply part_parts in P. apply I in P. now apply N.ltb_lt.
Qed.

(** The nodes with their checked forms. *)
Fixpoint npairs (n : node) (x : tnode) {struct n} : list (node * tnode) :=
  match n with mknode _ _ _ _ c =>
    (n, x) :: (fix go l xs := match l, xs with
      | m :: l, y :: xs => npairs m y ++ go l xs
      | _, _ => [] end) c (tn_child x)
  end.
Fixpoint pairs (l : list node) (xs : list tnode) : list (node * tnode) :=
  match l, xs with m :: l, y :: xs => npairs m y ++ pairs l xs | _, _ => [] end.

Lemma npairs_eq : forall n x, npairs n x = (n, x) :: pairs (n_child n) (tn_child x).
Proof.
  intros [ty tok te p c] x. reflexivity.
Qed.

Lemma pairs_paired : forall n x l xs, In (n, x) (pairs l xs) -> paired n x l xs.
Proof.
  assert (Q : forall m n x y, In (n, x) (npairs m y) -> n = m /\ x = y \/ paired n x (n_child m) (tn_child y)).
  { induction m as [ty tok te p c F] using node_ind'. intros n x y H. rewrite npairs_eq in H. destruct H as [H|H]; [inversion H; auto|]. right.
    cbn [n_child] in *. revert H. generalize (tn_child y) as xs. induction F as [|m c Fm Fc IH]; intros [|z xs] H; try now cbn in H.
    cbn [pairs] in H. apply in_app_iff in H as [H|H].
    - destruct (Fm _ _ _ H) as [(-> & ->)|P]; [constructor|now apply pa_below].
    - apply pa_next. now apply IH. }
  intros n x l. induction l as [|m l IH]; intros [|y xs] H; try now cbn in H. cbn [pairs] in H. apply in_app_iff in H as [H|H].
  - destruct (Q _ _ _ _ H) as [(-> & ->)|P]; [constructor|now apply pa_below].
  - apply pa_next. now apply IH.
Qed.

Lemma paired_pairs : forall n x l xs, paired n x l xs -> In (n, x) (pairs l xs).
Proof.
  intros n x l xs H. induction H as [l xs|m y l xs H IH|m y l xs H IH]; cbn [pairs]; apply in_app_iff.
  - left. rewrite npairs_eq. now left.
  - now right.
  - left. rewrite npairs_eq. now right.
Qed.

Definition plain_aliasesb (t : list node) (l : list tnode) : bool :=
  forallb (fun q => match tn_pay (snd q), n_pay (fst q) with
    | XAlias, PVarDef _ _ true _ false => true | XAlias, _ => false | _, _ => true end) (pairs t l).
Lemma plain_aliases_of : forall t l, plain_aliasesb t l = true -> plain_aliases t l.
Proof.
  intros t l H n x P T. unfold plain_aliasesb in H. rewrite forallb_forall in H. apply paired_pairs in P. apply H in P.
  cbn [fst snd] in P. rewrite T in P. destruct (n_pay n) as [|name e [] c []| | |]; try discriminate. eauto.
Qed.

(** Parsing and checking a source text. *)
Definition compile (w : world) (src : text) : option (list node * sst * list tnode) :=
  match parse_ast_tree (tokens_of src) with
  | Ret _ (Some t) => match validate_ast_tree w src t with Pass s l => Some (t, s, l) | _ => None end
  | _ => None
  end.
Lemma compile_accepted : forall w src t s l, compile w src = Some (t, s, l) -> accepted w src (tokens_of src) t s l.
Proof.
  intros w src t s l H. unfold compile in H. destruct (parse_ast_tree (tokens_of src)) as [m [t'|]| |] eqn:P; try discriminate.
  destruct (validate_ast_tree w src t') as [s' l'|m'|] eqn:V; try discriminate. inversion H; subst. split; eauto.
Qed.

(** Spelling of tokens made of one byte characters. *)
Definition spellb (src : text) (t : token) (n : text) : bool :=
  match t_begin t with
  | Some b => if list_eq_dec N.eq_dec (firstn (N.to_nat (t_len t)) (skipn b src)) n then forallb (fun c => (c <? 128) && (0 <? c)) n else false
  | None => false
  end.
Lemma spells_of : forall src t n, spellb src t n = true -> spells src t n.
Proof.
  intros src t n H. unfold spellb in H. destruct (t_begin t) as [b|] eqn:B; [|discriminate]. exists b. split; [easy|].
  destruct (list_eq_dec N.eq_dec _ n) as [E|]; [|discriminate]. rewrite E. clear E B. induction n as [|c n IH]; [constructor|].
  cbn [forallb] in H. apply andb_true_iff in H as (H1 & H2). apply andb_true_iff in H1 as (H0 & H1). apply N.ltb_lt in H0, H1.
  change (c :: n) with ([c] ++ n) at 2. apply utf8_cons; [|now apply IH]. constructor. lia.
Qed.

(** What parsing and checking gives, if the program is accepted. *)
Definition tree_of (w : world) (src : text) : list node :=
  match compile w src with Some (t, _, _) => t | None => [] end.
Definition checked_of (w : world) (src : text) : list tnode :=
  match compile w src with Some (_, _, l) => l | None => [] end.
Definition state_of (w : world) (src : text) : sst :=
  match compile w src with Some (_, s, _) => s | None => mksst None [] [] 0 0 None 0 [] end.
Definition compiles (w : world) (src : text) : bool :=
  match compile w src with Some _ => true | None => false end.
Lemma compiles_accepted : forall w src, compiles w src = true ->
  accepted w src (tokens_of src) (tree_of w src) (state_of w src) (checked_of w src).
Proof.
  intros w src H. apply compile_accepted. unfold compiles, tree_of, state_of, checked_of in *.
  now destruct (compile w src) as [((t & s) & l)|].
Qed.

(** Looking for places in a tree. *)
Lemma find_pair : forall (p : node -> tnode -> bool) l xs, existsb (fun q => p (fst q) (snd q)) (pairs l xs) = true ->
  exists n x, paired n x l xs /\ p n x = true.
Proof.
  intros p l xs H. apply existsb_exists in H as ((n & x) & I & H). exists n, x. split; [now apply pairs_paired|exact H].
Qed.

Fixpoint places_n (b : bool) (n : node) : list (bool * node) :=
  match n with mknode _ _ _ _ c => (b, n) :: flat_map (places_n (enter n b)) c end.
Definition places (t : list node) : list (bool * node) := flat_map (places_n false) t.
Lemma find_place : forall (p : bool -> node -> bool) t, existsb (fun q => p (fst q) (snd q)) (places t) = true ->
  exists b n, enclosed false t b n /\ p b n = true.
Proof.
  intros p t H. apply existsb_exists in H as ((b & n) & I & H). exists b, n. split; [|exact H]. unfold places in I. clear H p.
  apply in_flat_map in I as (m & IM & I). revert t IM I. generalize false as b0. revert b n.
  induction m as [ty tok te p c F] using node_ind'. intros b n b0 t IM [I|I].
  - inversion I; subst. now constructor.
  - eapply en_below; [exact IM|]. cbn [n_child]. apply in_flat_map in I as (m & IC & I). rewrite Forall_forall in F.
    apply (F m IC b n _ c IC I).
Qed.

Fixpoint cuts {A} (a : list A) (l : list A) : list (list A * A * list A) :=
  match l with [] => [] | x :: b => (rev a, x, b) :: cuts (x :: a) b end.
Lemma cuts_ok : forall A (l a : list A) c x b, In (c, x, b) (cuts a l) -> rev a ++ l = c ++ x :: b.
Proof.
  induction l as [|y l IH]; intros a c x b []; [now inversion H|]. apply IH in H. cbn [rev] in H. now rewrite <- app_assoc in H.
Qed.
Lemma nodes_in_tree : forall t n, In n (all_nodes t) -> in_tree n t.
Proof.
  intros t n I. apply in_flat_map in I as (m & IM & I). revert t IM I. induction m as [ty tok te p c F] using node_ind'.
  intros t IM [<-|I]; [now apply it_here|]. eapply it_below; [exact IM|]. cbn [n_child]. apply in_flat_map in I as (k & IK & I).
  rewrite Forall_forall in F. now apply (F k IK).
Qed.
Lemma find_node : forall (p : node -> bool) t, existsb p (all_nodes t) = true -> exists n, in_tree n t /\ p n = true.
Proof. intros p t H. apply existsb_exists in H as (n & I & H). exists n. split; [now apply nodes_in_tree|exact H]. Qed.
Lemma find_cut : forall (p : list node -> node -> list node -> bool) t,
  existsb (fun blk => existsb (fun q => p (fst (fst q)) (snd (fst q)) (snd q)) (cuts [] blk)) (t :: map n_child (all_nodes t)) = true ->
  exists a n b, block_of t (a ++ n :: b) /\ p a n b = true.
Proof.
  intros p t H. apply existsb_exists in H as (blk & IB & H). apply existsb_exists in H as (((a & n) & b) & I & H). exists a, n, b.
  split; [|exact H]. apply cuts_ok in I. cbn [rev app] in I. rewrite <- I. destruct IB as [<-|IB]; [constructor|].
  apply in_map_iff in IB as (m & <- & IM). apply bo_below. now apply nodes_in_tree.
Qed.

(** All parts of a checked expression. *)
Fixpoint xparts (e : texpr) : list texpr :=
  e :: match e with
       | XCall _ _ args _ => flat_map xparts args
       | XUn _ a _ _ => xparts a
       | XBin _ a b _ _ => xparts a ++ xparts b
       | _ => []
       end.
Lemma xparts_xpart : forall e x, In x (xparts e) -> xpart x e.
Proof.
  fix IH 1. intros [t k ty c|t v ty|t k args ty|o a ty c|o a b ty c] x [<-|I]; try (now constructor); try contradiction.
  - assert (F : Forall (fun a => forall x, In x (xparts a) -> xpart x a) args).
    { clear I. induction args as [|b args IHa]; constructor; [apply IH|exact IHa]. }
    apply in_flat_map in I as (a & IA & I). apply xp_arg with a; [exact IA|]. rewrite Forall_forall in F. now apply F.
  - apply xp_un. now apply IH.
  - apply in_app_iff in I as [I|I]; [apply xp_left|apply xp_right]; now apply IH.
Qed.
Lemma find_use : forall (p : node -> tnode -> texpr -> bool) l xs,
  existsb (fun q => match checked_expr (snd q) with Some e => existsb (p (fst q) (snd q)) (xparts e) | None => false end) (pairs l xs) = true ->
  exists n x y, paired n x l xs /\ uses x y /\ p n x y = true.
Proof.
  intros p l xs H. apply existsb_exists in H as ((n & x) & I & H). cbn [fst snd] in H. destruct (checked_expr x) as [e|] eqn:E; [|discriminate].
  apply existsb_exists in H as (y & IY & H). exists n, x, y. split; [now apply pairs_paired|]. split; [|exact H].
  exists e. split; [exact E|now apply xparts_xpart].
Qed.
