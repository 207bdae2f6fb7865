(** Proofs about the semantic checks: scopes and statements. *)
From Coq Require Import List Arith NArith ZArith Bool Lia Ascii String.
From Verif Require Import Base Model_Token Model_Utf8 Model_Classify Model_Literal Model_Parse Model_Sem.
From Verif Require Import Spec_Utf8 Spec_Parse Spec_Sem Proof_Utf8 Proof_Parse Proof_Parse2 Proof_Parse5 Proof_Sem Proof_Sem2.
Import ListNotations.
Open Scope list_scope.
Open Scope nat_scope.

(** * States between statements *)

Record inv (s : sst) : Prop := mkinv {
  iv_links : linked (s_scopes s);
  iv_cur : match s_scope s with None => s_scopes s = [] | Some i => S i = List.length (s_scopes s) end;
  iv_new : forall i c, s_scope s = Some i -> nth_error (s_scopes s) i = Some c -> c_next c = None /\ c_child c = None;
  iv_names : forall i c n k ty, nth_error (s_scopes s) i = Some c -> In (n, k) (table c) -> ~ builtin n ty;
  iv_space : forall k y e, nth_error (s_syms s) k = Some y -> y_kind y = KSpace (Some e) -> S e < List.length (s_scopes s) }.

(** The state with a scope. *)
Definition norm (s : sst) : sst :=
  match s_scope s with
  | Some _ => s
  | None => set_scope (set_scopes s (s_scopes s ++ [empty_scope])) (Some (List.length (s_scopes s)))
  end.

Lemma norm_some : forall s i, s_scope s = Some i -> norm s = s.
Proof. intros s i H. unfold norm. now rewrite H. Qed.

Lemma norm_scope : forall s, exists i, s_scope (norm s) = Some i.
Proof. intro s. unfold norm. destruct (s_scope s) eqn:E; [rewrite E|cbn]; eauto. Qed.

Lemma norm_syms : forall s, s_syms (norm s) = s_syms s.
Proof. intro s. unfold norm. now destruct (s_scope s). Qed.

Lemma linked_nil : linked [].
Proof. intros i c p H. now destruct i. Qed.

Lemma linked_app : forall scs c, linked scs ->
  (forall p, c_parent c = Some p \/ c_last c = Some p -> p < List.length scs) -> linked (scs ++ [c]).
Proof.
  intros scs c L H i d p E Q. destruct (Nat.lt_ge_cases i (List.length scs)) as [LT|GE].
  - rewrite nth_error_app1 in E by exact LT. now apply (L i d p).
  - rewrite nth_error_app2 in E by exact GE. destruct (i - List.length scs) as [|m] eqn:M; cbn in E.
    + inversion E; subst. specialize (H p Q). lia.
    + destruct m; discriminate.
Qed.

Lemma upd_inv : forall A (l : list A) i f j x, nth_error (upd l i f) j = Some x ->
  exists y, nth_error l j = Some y /\ (j <> i /\ x = y \/ j = i /\ x = f y).
Proof.
  intros A l i f j x H. destruct (Nat.eq_dec i j) as [->|NE].
  - destruct (nth_error l j) as [y|] eqn:E.
    + rewrite (nth_upd_same _ _ _ _ _ E) in H. inversion H; subst. eauto.
    + exfalso. apply nth_error_None in E. rewrite <- (upd_length _ l j f) in E. apply nth_error_None in E. congruence.
  - rewrite nth_upd_other in H by exact NE. exists x. auto.
Qed.

Lemma linked_upd : forall scs i f, linked scs ->
  (forall c p, nth_error scs i = Some c -> c_parent (f c) = Some p \/ c_last (f c) = Some p -> p < i) -> linked (upd scs i f).
Proof.
  intros scs i f L H j d p E Q. apply upd_inv in E as (y & E & [(NE & ->)|(-> & ->)]).
  - now apply (L j y p).
  - now apply (H y p).
Qed.

Lemma norm_inv : forall s, inv s -> inv (norm s).
Proof.
  intros s I. unfold norm. destruct (s_scope s) as [i|] eqn:E; [exact I|].
  destruct I as [L C NW B SP]. rewrite E in C. rewrite C in *. constructor; cbn.
  - intros [|[|i]] c p H Q; try discriminate. inversion H; subst. destruct Q; discriminate.
  - reflexivity.
  - intros i c H1 H2. inversion H1; subst. cbn in H2. inversion H2; subst. auto.
  - intros [|[|i]] c n k ty H; try discriminate. inversion H; subst. now intros [].
  - intros k y e H1 H2. pose proof (SP k y e H1 H2) as X. cbn in X. lia.
Qed.

(** Scopes below the current one are as they were. *)
Lemma env_keep : forall scs scs' i e, linked scs -> linked scs' -> (forall j, j < i -> nth_error scs' j = nth_error scs j) ->
  i <= List.length scs -> e < i -> env_of scs' e = env_of scs e.
Proof.
  intros scs scs' i e L L' H LE LT. apply (env_stable scs scs' L L' (S e) e); [lia|]. intros j HJ.
  destruct (nth_error scs j) as [c|] eqn:E.
  - exists c, c. rewrite H by lia. repeat split; auto.
  - apply nth_error_None in E. lia.
Qed.

Lemma norm_sig : forall s k, inv s -> sig (norm s) k = sig s k.
Proof.
  intros s k I. unfold norm. destruct (s_scope s) as [i|] eqn:E; [easy|]. unfold sig. cbn.
  destruct (nth_error (s_syms s) k) as [y|] eqn:EY; [|easy]. destruct (y_kind y) as [v|f|t|[e|]] eqn:K; auto.
  pose proof (iv_space _ I k y e EY K) as X. pose proof (iv_cur _ I) as C. rewrite E in C. rewrite C in X. cbn in X. lia.
Qed.

Lemma norm_cenv : forall s, inv s -> cenv (norm s) = cenv s.
Proof.
  intros s I. unfold norm. destruct (s_scope s) as [i|] eqn:E; [easy|]. pose proof (iv_cur _ I) as C. rewrite E in C.
  unfold cenv. cbn. rewrite E, C. reflexivity.
Qed.

Lemma cur_scope : forall s i, inv s -> s_scope s = Some i -> exists c, nth_error (s_scopes s) i = Some c.
Proof.
  intros s i I E. pose proof (iv_cur _ I) as C. rewrite E in C. destruct (nth_error (s_scopes s) i) as [c|] eqn:X; [eauto|].
  apply nth_error_None in X. lia.
Qed.

(** * Chains of scopes *)

Inductive nexts (scs : list scope) : nat -> nat -> Prop :=
| nx_refl : forall a, nexts scs a a
| nx_step : forall a c m b, nth_error scs a = Some c -> c_next c = Some m -> a < m -> nexts scs m b -> nexts scs a b.
Inductive lasts (scs : list scope) : nat -> nat -> Prop :=
| ls_refl : forall a, lasts scs a a
| ls_step : forall a c m b, nth_error scs a = Some c -> c_last c = Some m -> lasts scs m b -> lasts scs a b.

Lemma nexts_le : forall scs a b, nexts scs a b -> a <= b.
Proof. intros scs a b H. induction H; lia. Qed.

Lemma nexts_trans : forall scs a b c, nexts scs a b -> nexts scs b c -> nexts scs a c.
Proof. intros scs a b c H. induction H; intro H'; auto. apply nx_step with c0 m; auto. Qed.

Lemma lasts_trans : forall scs a b c, lasts scs a b -> lasts scs b c -> lasts scs a c.
Proof. intros scs a b c H. induction H; intro H'; auto. apply ls_step with c0 m; auto. Qed.

Lemma nexts_agree : forall scs scs' a b, nexts scs a b -> (forall j, j < b -> nth_error scs' j = nth_error scs j) -> nexts scs' a b.
Proof.
  intros scs scs' a b H. induction H as [a|a c m b E X LT H IH]; intro A; [constructor|].
  apply nx_step with c m; auto. rewrite A; [easy|]. pose proof (nexts_le _ _ _ H). lia.
Qed.

Lemma lasts_agree : forall scs scs' a b, linked scs -> lasts scs a b ->
  (forall j c, j <= a -> nth_error scs j = Some c -> exists c', nth_error scs' j = Some c' /\ c_last c' = c_last c) -> lasts scs' a b.
Proof.
  intros scs scs' a b L H. induction H as [a|a c m b E X H IH]; intro A; [constructor|].
  destruct (A a c (le_n a) E) as (c' & E' & X'). apply ls_step with c' m; [easy|congruence|].
  apply IH. intros j d HJ. apply A. pose proof (L a c m E (or_intror X)). lia.
Qed.

Lemma chase_nexts : forall scs a b, nexts scs a b -> forall c f r, nth_error scs b = Some c -> c_next c = None ->
  chase c_next f scs a = Ok r -> r = b.
Proof.
  intros scs a b H. induction H as [a|a c m b E X LT H IH]; intros d f r ED N C; destruct f as [|f]; try discriminate; cbn [chase] in C;
    apply bind_ok in C as (c0 & C0 & C); apply deref_ok in C0.
  - assert (c0 = d) by congruence. subst. rewrite N in C. now inversion C.
  - assert (c0 = c) by congruence. subst. rewrite X in C. now apply (IH d f).
Qed.

Lemma chase_lasts : forall scs a b, lasts scs a b -> forall c f r, nth_error scs b = Some c -> c_last c = None ->
  chase c_last f scs a = Ok r -> r = b.
Proof.
  intros scs a b H. induction H as [a|a c m b E X H IH]; intros d f r ED N C; destruct f as [|f]; try discriminate; cbn [chase] in C;
    apply bind_ok in C as (c0 & C0 & C); apply deref_ok in C0.
  - assert (c0 = d) by congruence. subst. rewrite N in C. now inversion C.
  - assert (c0 = c) by congruence. subst. rewrite X in C. now apply (IH d f).
Qed.

(** * From one statement to the next *)

(** The current scope was i and is i', a later one of the same chain. *)
Record tail (scs scs' : list scope) (i i' : nat) : Prop := mktail {
  tl_old : forall j, j < i -> nth_error scs' j = nth_error scs j;
  tl_base : exists c c', nth_error scs i = Some c /\ nth_error scs' i = Some c' /\ c_parent c' = c_parent c /\ c_last c' = c_last c;
  tl_next : nexts scs' i i';
  tl_last : lasts scs' i' i }.

Record grow (s s' : sst) : Prop := mkgrow {
  gr_sig : forall k d, sig s k = Some d -> sig s' k = Some d;
  gr_space : forall k y o, nth_error (s_syms s) k = Some y -> y_kind y = KSpace o ->
    exists y', nth_error (s_syms s') k = Some y' /\ y_kind y' = KSpace o;
  gr_scope : (s_scope s = None /\ s_scope s' = None) \/
    exists i i', s_scope (norm s) = Some i /\ s_scope s' = Some i' /\ tail (s_scopes (norm s)) (s_scopes s') i i' }.

Lemma grow_knows : forall D s s', grow s s' -> knows D s' -> knows D s.
Proof. intros D s s' G K k d E. apply K. now apply (gr_sig _ _ G). Qed.

Lemma grow_refl : forall s, inv s -> grow s s.
Proof.
  intros s I. constructor; auto.
  - intros k y o E K. eauto.
  - destruct (s_scope s) as [i|] eqn:E; [right|now left]. exists i, i. rewrite (norm_some s i E). split; [easy|]. split; [easy|].
    destruct (cur_scope s i I E) as (c & EC). constructor; auto; [|constructor|constructor]. exists c, c. auto.
Qed.

Lemma tail_trans : forall a b c i m n, linked b -> tail a b i m -> tail b c m n -> tail a c i n.
Proof.
  intros a b c i m n L [O1 (x & x' & X1 & X2 & X3 & X4) N1 L1] [O2 (y & y' & Y1 & Y2 & Y3 & Y4) N2 L2].
  pose proof (nexts_le _ _ _ N1) as LE. constructor.
  - intros j HJ. rewrite O2 by lia. apply O1. lia.
  - destruct (Nat.eq_dec i m) as [->|NE].
    + exists x, y'. assert (x' = y) by congruence. subst y. repeat split; auto; congruence.
    + exists x, x'. rewrite O2 by lia. auto.
  - apply nexts_trans with m; [|easy]. now apply (nexts_agree b).
  - apply lasts_trans with m; [easy|]. apply (lasts_agree b); auto. intros j d HJ ED.
    destruct (Nat.eq_dec j m) as [->|NE].
    + exists y'. assert (d = y) by congruence. subst d. auto.
    + exists d. rewrite O2 by lia. auto.
Qed.

Lemma grow_trans : forall a b c, inv a -> inv b -> grow a b -> grow b c -> grow a c.
Proof.
  intros a b c IA IB [S1 P1 C1] [S2 P2 C2]. constructor; auto.
  - intros k y o E K. destruct (P1 k y o E K) as (y' & E' & K'). now apply (P2 k y' o).
  - destruct C1 as [(A1 & A2)|(i & m & A1 & A2 & T1)].
    + destruct C2 as [(B1 & B2)|(i & n & B1 & B2 & T2)]; [now left|right]. exists i, n. split; [|split; [easy|]].
      * unfold norm in *. rewrite A1. rewrite A2 in B1. pose proof (iv_cur _ IA) as CA. pose proof (iv_cur _ IB) as CB.
        rewrite A1 in CA. rewrite A2 in CB. rewrite CA. rewrite CB in B1. exact B1.
      * unfold norm in *. rewrite A1. rewrite A2 in T2. pose proof (iv_cur _ IA) as CA. pose proof (iv_cur _ IB) as CB.
        rewrite A1 in CA. rewrite A2 in CB. cbn in *. rewrite CA. rewrite CB in T2. exact T2.
    + destruct C2 as [(B1 & B2)|(i2 & n & B1 & B2 & T2)]; [congruence|right]. rewrite (norm_some b m A2) in B1, T2.
      assert (i2 = m) by congruence. subst i2. exists i, n. split; [easy|]. split; [easy|].
      apply tail_trans with (s_scopes b) m; auto. apply (iv_links _ IB).
Qed.

Lemma calm_inv : forall s s', calm s s' -> inv s -> inv s'.
Proof.
  intros s s' C [L U NW B SP]. constructor.
  - now rewrite (cm_scopes _ _ C).
  - now rewrite (cm_scopes _ _ C), (cm_scope _ _ C).
  - now rewrite (cm_scopes _ _ C), (cm_scope _ _ C).
  - now rewrite (cm_scopes _ _ C).
  - intros k y e E K. rewrite (cm_scopes _ _ C). destruct (nth_error (s_syms s) k) as [y0|] eqn:E0.
    + destruct (cm_syms _ _ C k y0 E0) as (y' & E1 & _ & _ & KK). assert (y' = y) by congruence. subst y'.
      rewrite K in KK. destruct (y_kind y0) eqn:K0; cbn in KK; try contradiction. subst sc. now apply (SP k y0 e).
    + apply nth_error_None in E0. rewrite <- (cm_len _ _ C) in E0. apply nth_error_None in E0. congruence.
Qed.

Lemma calm_grow : forall s s', calm s s' -> inv s -> grow s s'.
Proof.
  intros s s' C I. constructor.
  - intros k d H. now rewrite (calm_sig _ _ C).
  - intros k y o E K. destruct (cm_syms _ _ C k y E) as (y' & E1 & _ & _ & KK). exists y'. split; [easy|].
    rewrite K in KK. destruct (y_kind y') eqn:K0; cbn in KK; try contradiction. congruence.
  - destruct (s_scope s) as [i|] eqn:E.
    + right. exists i, i. rewrite (norm_some s i E), (cm_scope _ _ C). split; [easy|]. split; [easy|]. rewrite (cm_scopes _ _ C).
      destruct (cur_scope s i I E) as (c & EC). constructor; auto; [|constructor|constructor]. exists c, c. auto.
    + left. split; [easy|]. rewrite (cm_scope _ _ C). exact E.
Qed.

(** ** Declaring a name *)

Lemma added_norm : forall s s' k y, added s s' k y -> exists i c, s_scope (norm s) = Some i /\ s_scope s' = Some i /\
  nth_error (s_scopes (norm s)) i = Some c /\ s_scopes s' = upd (s_scopes (norm s)) i (put_syms ((y_name y, k) :: table c)).
Proof.
  intros s s' k y [_ _ _ _ _ _ _ (i & c & A & B & C & D & _)]. exists i, c. unfold norm. destruct (s_scope s) as [j|] eqn:E.
  - destruct C as [C|(C & _)]; [|discriminate]. inversion C; subst. auto.
  - destruct C as [C|(_ & C)]; [discriminate|]. subst. cbn in *. auto.
Qed.

Lemma free_fresh : forall D s n, inv s -> knows D s -> find_symbol_type s n = Ok None -> fresh D (cenv s) n.
Proof.
  intros D s n I K H. unfold find_symbol_type in H. apply bind_ok in H as (k & HK & H). apply bind_ok in H as (fst & HF & H).
  destruct fst as [t|]; [discriminate|]. apply bind_ok in H as (f & HFF & H). destruct f as [f|]; [discriminate|].
  apply bind_ok in H as (t & HT & H). destruct t as [t|]; [discriminate|].
  unfold find_type in HT. rewrite HK in HT. cbn [bind] in HT. unfold find_func_by_name in HFF. rewrite HK in HFF. cbn [bind] in HFF.
  split.
  - intros ty BI. destruct k as [k|].
    + destruct (In_dec N.eq_dec (chr ".") n) as [ID|ND].
      { inversion BI; subst; cbn in ID; repeat (destruct ID as [ID|ID]; [discriminate|]); contradiction. }
      apply (lookup_plain s n) in HK; [|apply (iv_links _ I)|exact ND]. symmetry in HK.
      assert (Q : forall o, assoc (env_from (s_scopes s) o) n = Some k -> False).
      { assert (QQ : forall m i, i < m -> assoc (env_of (s_scopes s) i) n = Some k -> False).
        { induction m as [|m IH]; intros i LT A; [lia|]. destruct (nth_error (s_scopes s) i) as [c|] eqn:EC.
          - rewrite (env_of_eq _ _ _ (iv_links _ I) EC), assoc_app in A. destruct (assoc (table c) n) as [k'|] eqn:A'.
            + assert (IN : In (n, k') (table c)).
              { clear - A'. induction (table c) as [|(m, j) tb IH]; cbn in A'; [discriminate|].
                destruct (text_eqb m n) eqn:E; [apply text_eqb_true in E; inversion A'; subst; now left|right; auto]. }
              now apply (iv_names _ I i c n k' ty EC IN).
            + destruct (upper c) as [p|] eqn:U; [|discriminate]. cbn [env_from] in A.
              pose proof (upper_less _ _ _ _ (iv_links _ I) EC U). apply (IH p); [lia|exact A].
          - rewrite env_of_none in A by exact EC. discriminate. }
        intros [i|] A; [|discriminate]. apply (QQ (S i) i); [lia|exact A]. }
      apply (Q (s_scope s)). exact HK.
    + apply builtin_found in BI. rewrite BI in HT. discriminate.
  - intros ND k' R. apply assoc_resolves in R; [|exact ND]. pose proof (lookup_plain s n k (iv_links _ I) ND HK) as X.
    rewrite R in X. subst k. apply bind_ok in HF as (y & HY & HF). apply bind_ok in HFF as (y1 & HY1 & HFF). apply bind_ok in HT as (y2 & HY2 & HT).
    apply deref_ok in HY, HY1, HY2. assert (y1 = y) by congruence. assert (y2 = y) by congruence. subst y1 y2.
    apply K. unfold sig. rewrite HY. destruct (y_kind y); try discriminate. now inversion HT.
Qed.

Lemma app_nth_old : forall A (l : list A) x k y, nth_error l k = Some y -> nth_error (l ++ [x]) k = Some y.
Proof. intros A l x k y H. rewrite nth_error_app1; [easy|]. apply nth_error_Some. congruence. Qed.

Lemma app_nth_new : forall A (l : list A) x, nth_error (l ++ [x]) (List.length l) = Some x.
Proof. intros A l x. rewrite nth_error_app2 by lia. now rewrite Nat.sub_diag. Qed.

Lemma app_nth_inv : forall A (l : list A) x k y, nth_error (l ++ [x]) k = Some y ->
  nth_error l k = Some y \/ k = List.length l /\ y = x.
Proof.
  intros A l x k y H. destruct (Nat.lt_ge_cases k (List.length l)) as [LT|GE].
  - rewrite nth_error_app1 in H by exact LT. now left.
  - rewrite nth_error_app2 in H by exact GE. destruct (k - List.length l) as [|m] eqn:M; cbn in H.
    + inversion H; subst. right. split; [lia|easy].
    + destruct m; discriminate.
Qed.

(** What declaring a name does. *)
Lemma added_all : forall s s' k y, inv s -> added s s' k y -> (forall e, y_kind y <> KSpace (Some e)) ->
  inv s' /\ grow s s' /\ cenv s' = (y_name y, k) :: cenv s /\ nth_error (s_syms s') k = Some y /\
  (forall D, knows D s -> fresh D (cenv s) (y_name y)).
Proof.
  intros s s' k y I A NS. pose proof (norm_inv s I) as IN. pose proof (added_norm _ _ _ _ A) as (i & c & N1 & N2 & N3 & N4).
  pose proof (iv_cur _ IN) as CU. rewrite N1 in CU. pose proof (ad_k _ _ _ _ A) as EK. pose proof (ad_syms _ _ _ _ A) as EY.
  assert (FR : forall D, knows D s -> fresh D (cenv s) (y_name y)).
  { intros D K. apply free_fresh; auto. apply (ad_free _ _ _ _ A). }
  assert (LK : linked (s_scopes s')).
  { rewrite N4. apply linked_upd; [apply (iv_links _ IN)|]. intros d p E Q. now apply (iv_links _ IN i d p E). }
  assert (OLD : forall j, j < i -> nth_error (s_scopes s') j = nth_error (s_scopes (norm s)) j).
  { intros j HJ. rewrite N4. apply nth_upd_other. lia. }
  assert (NEW : nth_error (s_scopes s') i = Some (put_syms ((y_name y, k) :: table c) c)).
  { rewrite N4. now apply nth_upd_same. }
  assert (SG : forall j d, sig s j = Some d -> sig s' j = Some d).
  { intros j d E. rewrite <- (norm_sig s j I) in E. unfold sig in *. rewrite norm_syms in E.
    destruct (nth_error (s_syms s) j) as [z|] eqn:EZ; [|discriminate]. rewrite EY, (app_nth_old _ _ _ _ _ EZ).
    destruct (y_kind z) as [v|f|t|[e|]] eqn:KZ; auto. rewrite <- E. do 2 f_equal.
    assert (X : S e < List.length (s_scopes (norm s))). { apply (iv_space _ IN j z e); [now rewrite norm_syms|exact KZ]. }
    apply (env_keep (s_scopes (norm s)) (s_scopes s') i e); auto; [apply (iv_links _ IN)|lia|lia]. }
  split; [|split; [|split; [|split]]]; auto.
  - constructor; auto.
    + rewrite N2, N4, upd_length. exact CU.
    + rewrite N2. intros j d EJ ED. inversion EJ; subst j. rewrite NEW in ED. inversion ED; subst d. cbn. now apply (iv_new _ IN i c).
    + intros j d n q ty ED INN. rewrite N4 in ED. apply upd_inv in ED as (d0 & ED & [(NE & ->)|(-> & ->)]).
      * now apply (iv_names _ IN j d0 n q).
      * assert (d0 = c) by congruence. subst d0. cbn in INN. destruct INN as [X|X].
        -- inversion X; subst. assert (KN : knows (sig s) s) by (intros a b; auto). apply (FR (sig s) KN).
        -- now apply (iv_names _ IN i c n q).
    + intros j z e EZ KZ. rewrite N4, upd_length. rewrite EY in EZ. apply app_nth_inv in EZ as [EZ|(-> & ->)].
      * apply (iv_space _ IN j z e); [now rewrite norm_syms|exact KZ].
      * exfalso. now apply (NS e).
  - constructor; auto.
    + intros j z o EZ KZ. exists z. rewrite EY. split; [now apply app_nth_old|exact KZ].
    + right. exists i, i. split; [easy|]. split; [easy|]. constructor; auto; [|constructor|constructor].
      eexists. eexists. split; [exact N3|]. split; [exact NEW|]. auto.
  - rewrite <- (norm_cenv s I). unfold cenv. rewrite N1, N2. cbn [env_from].
    rewrite (env_of_eq _ _ _ LK NEW), (env_of_eq _ _ _ (iv_links _ IN) N3). cbn [table put_syms c_syms app]. f_equal. f_equal.
    unfold upper. cbn [put_syms c_parent c_last]. destruct (upper c) as [p|] eqn:U.
    + unfold upper in U. rewrite U. cbn [env_from]. apply (env_keep (s_scopes (norm s)) (s_scopes s') i p); auto; [apply (iv_links _ IN)|lia|].
      apply (upper_less (s_scopes (norm s)) i c p); auto; [apply (iv_links _ IN)].
    + unfold upper in U. now rewrite U.
  - rewrite EY, EK. apply app_nth_new.
Qed.

(** ** Blocks *)

(** s1 is the state inside of a new block h below the scope i of s. *)
Record inside (s s1 : sst) (i h : nat) : Prop := mkinside {
  in_cur : s_scope (norm s) = Some i;
  in_h : h = S i;
  in_scope : s_scope s1 = Some h;
  in_old : forall j, j < i -> nth_error (s_scopes s1) j = nth_error (s_scopes (norm s)) j;
  in_base : exists c c', nth_error (s_scopes (norm s)) i = Some c /\ nth_error (s_scopes s1) i = Some c' /\
    alike c c' /\ c_child c' = Some h /\ c_next c' = None;
  in_head : exists c, nth_error (s_scopes s1) h = Some c /\ c_parent c = Some i /\ c_last c = None /\ table c = [];
  in_syms : s_syms s1 = s_syms s;
  in_inv : inv s1 }.

Lemma alike_env : forall scs scs' i, linked scs -> linked scs' ->
  (forall j, j < i -> nth_error scs' j = nth_error scs j) ->
  (exists c c', nth_error scs i = Some c /\ nth_error scs' i = Some c' /\ alike c c') ->
  env_of scs' i = env_of scs i.
Proof.
  intros scs scs' i L L' H (c & c' & E & E' & AL). apply (env_stable scs scs' L L' (S i) i); [lia|]. intros j HJ.
  destruct (Nat.eq_dec j i) as [->|NE]; [now exists c, c'|]. destruct (nth_error scs j) as [d|] eqn:ED.
  - exists d, d. rewrite H by lia. repeat split; auto.
  - exfalso. apply nth_error_None in ED. assert (nth_error scs i = None) by (apply nth_error_None; lia). congruence.
Qed.

Lemma enter_ok : forall s s1, inv s -> make_child_scope s = Ok s1 -> exists i h, inside s s1 i h.
Proof.
  intros s s1 I H. pose proof (norm_inv s I) as IN. destruct (norm_scope s) as (i & NI).
  destruct (cur_scope _ _ IN NI) as (c & EC). pose proof (iv_cur _ IN) as CU. rewrite NI in CU.
  destruct (iv_new _ IN i c NI EC) as (CN & CC).
  assert (E : s_scope s1 = Some (S i) /\ s_scopes s1 = upd (upd (s_scopes (norm s) ++ [empty_scope]) i (put_child (S i))) (S i) (put_parent i) /\ s_syms s1 = s_syms s).
  { unfold make_child_scope in H. unfold norm in *. destruct (s_scope s) as [j|] eqn:ES.
    - assert (j = i) by congruence. subst j. apply bind_ok in H as (d & HD & H). apply deref_ok in HD.
      assert (d = c) by congruence. subst d. rewrite CC in H. unfold make_scope in H. inversion H; subst. cbn. rewrite <- CU. auto.
    - unfold make_scope in H. cbn in NI, EC, CU. assert (List.length (s_scopes s) = i) by congruence. apply bind_ok in H as (d & HD & H). apply deref_ok in HD.
      cbn in HD. rewrite H0 in HD. assert (d = c) by congruence. subst d. rewrite CC in H. inversion H; subst s1. cbn.
      rewrite H0, <- CU. auto. }
  destruct E as (E1 & E2 & E3). exists i, (S i).
  assert (LT : i < List.length (s_scopes (norm s))) by lia.
  assert (N_i : nth_error (s_scopes s1) i = Some (put_child (S i) c)).
  { rewrite E2, nth_upd_other by lia. rewrite (nth_upd_same _ _ _ _ c); [easy|]. now apply app_nth_old. }
  assert (N_h : nth_error (s_scopes s1) (S i) = Some (put_parent i empty_scope)).
  { rewrite E2. apply nth_upd_same. rewrite nth_upd_other by lia. rewrite CU. apply app_nth_new. }
  assert (N_old : forall j, j < i -> nth_error (s_scopes s1) j = nth_error (s_scopes (norm s)) j).
  { intros j HJ. rewrite E2, !nth_upd_other by lia. apply nth_error_app1. lia. }
  assert (LEN : List.length (s_scopes s1) = S (S i)).
  { rewrite E2, !upd_length, app_length. cbn. lia. }
  assert (N_all : forall j d, nth_error (s_scopes s1) j = Some d ->
    j < i /\ nth_error (s_scopes (norm s)) j = Some d \/ j = i /\ d = put_child (S i) c \/ j = S i /\ d = put_parent i empty_scope).
  { intros j d ED. assert (j < S (S i)). { rewrite <- LEN. apply nth_error_Some. congruence. }
    destruct (Nat.lt_ge_cases j i) as [LJ|GJ]; [left; rewrite <- N_old; auto|]. right.
    destruct (Nat.eq_dec j i) as [->|NE]; [left; split; congruence|right]. assert (j = S i) by lia. subst j. split; congruence. }
  constructor; auto.
  - exists c, (put_child (S i) c). repeat split; auto.
  - exists (put_parent i empty_scope). auto.
  - constructor.
    + intros j d p ED Q. apply N_all in ED as [(LJ & ED)|[(-> & ->)|(-> & ->)]].
      * now apply (iv_links _ IN j d p).
      * now apply (iv_links _ IN i c p).
      * cbn in Q. destruct Q as [Q|Q]; inversion Q. lia.
    + rewrite E1. now rewrite LEN.
    + intros j d EJ ED. rewrite E1 in EJ. inversion EJ; subst j. rewrite N_h in ED. inversion ED. auto.
    + intros j d n k ty ED INN. apply N_all in ED as [(LJ & ED)|[(-> & ->)|(-> & ->)]].
      * now apply (iv_names _ IN j d n k).
      * now apply (iv_names _ IN i c n k).
      * contradiction INN.
    + intros k y e EY K. rewrite E3 in EY. rewrite LEN. assert (S e < List.length (s_scopes (norm s))); [|lia].
      apply (iv_space _ IN k y e); [now rewrite norm_syms|exact K].
Qed.

Lemma inside_env : forall s s1 i h, inv s -> inside s s1 i h -> env_of (s_scopes s1) i = cenv s /\ cenv s1 = cenv s.
Proof.
  intros s s1 i h I [C HH SC OLD (c & c' & B1 & B2 & AL & _) (d & D1 & D2 & D3 & D4) SY I1]. pose proof (norm_inv s I) as IN.
  assert (E : env_of (s_scopes s1) i = cenv s).
  { rewrite <- (norm_cenv s I). unfold cenv. rewrite C. cbn [env_from]. apply alike_env; auto; [apply (iv_links _ IN)|apply (iv_links _ I1)|].
    exists c, c'. auto. }
  split; [exact E|]. unfold cenv. rewrite SC. cbn [env_from]. rewrite (env_of_eq _ _ _ (iv_links _ I1) D1), D4.
  unfold upper. rewrite D2. exact E.
Qed.

Lemma inside_sig : forall s s1 i h, inv s -> inside s s1 i h -> forall k, sig s1 k = sig s k.
Proof.
  intros s s1 i h I [C HH SC OLD B HD SY I1] k. pose proof (norm_inv s I) as IN. rewrite <- (norm_sig s k I). unfold sig. rewrite SY, norm_syms.
  destruct (nth_error (s_syms s) k) as [y|] eqn:EY; [|easy]. destruct (y_kind y) as [v|f|t|[e|]] eqn:K; auto. do 2 f_equal.
  assert (X : S e < List.length (s_scopes (norm s))). { apply (iv_space _ IN k y e); [now rewrite norm_syms|exact K]. }
  pose proof (iv_cur _ IN) as CU. rewrite C in CU.
  apply (env_keep (s_scopes (norm s)) (s_scopes s1) i e); auto; [apply (iv_links _ IN)|apply (iv_links _ I1)|lia|lia].
Qed.

(** What is known behind a block: e is the last scope of the block. *)
Record outside (s s2 s5 : sst) (i h e n : nat) : Prop := mkoutside {
  os_inv : inv s5;
  os_grow : grow s s5;
  os_cenv : cenv s5 = cenv s;
  os_syms : s_syms s5 = s_syms s2;
  os_sig : forall k, sig s5 k = sig s2 k;
  os_end : s_scope s2 = Some e;
  os_cur : s_scope s5 = Some n;
  os_less : e < n;
  os_here : exists c, nth_error (s_scopes s5) n = Some c /\ c_last c = Some i;
  os_base : exists c, nth_error (s_scopes s5) i = Some c /\ c_child c = Some h;
  os_chain : nexts (s_scopes s5) h e;
  os_stop : exists c, nth_error (s_scopes s5) e = Some c /\ c_next c = None;
  os_env : env_of (s_scopes s5) e = cenv s2 }.

Lemma leave_ok : forall s s1 s2 s3 s4 s5 i h, inv s -> inside s s1 i h -> inv s2 -> grow s1 s2 ->
  reset_scope_head s2 = Ok s3 -> restore_parent_scope s3 = Ok s4 -> make_adjacent_scope s4 = Ok s5 ->
  exists e n, outside s s2 s5 i h e n.
Proof.
  intros s s1 s2 s3 s4 s5 i h I IS I2 G H3 H4 H5. pose proof (inside_env s s1 i h I IS) as (EI & EC).
  pose proof (inside_sig s s1 i h I IS) as SG1. pose proof (norm_inv s I) as IN.
  destruct IS as [C HH SC OLD (c & c' & B1 & B2 & AL & CH & CN) (d & D1 & D2 & D3 & D4) SY I1].
  pose proof (iv_cur _ IN) as CU. rewrite C in CU. pose proof (iv_cur _ I1) as CU1. rewrite SC in CU1.
  destruct G as [GS GP GC]. destruct GC as [(X & _)|(h0 & e & X & E2 & T)]; [congruence|].
  rewrite (norm_some s1 h SC) in X, T. assert (h0 = h) by congruence. subst h0. clear X.
  destruct T as [TO (x & x' & X1 & X2 & X3 & X4) TN TL]. assert (x = d) by congruence. subst x. clear X1.
  pose proof (iv_cur _ I2) as CU2. rewrite E2 in CU2. pose proof (nexts_le _ _ _ TN) as LE.
  assert (I_i : nth_error (s_scopes s2) i = Some c'). { rewrite TO by lia. exact B2. }
  (* back to scope i *)
  assert (E3 : s3 = set_scope s2 (Some h)).
  { unfold reset_scope_head, find_scope_head in H3. rewrite E2 in H3. apply bind_ok in H3 as (hh & H3 & H3').
    apply bind_ok in H3 as (r & HR & H3). inversion H3; subst hh. inversion H3'; subst s3. f_equal. f_equal.
    apply (chase_lasts _ _ _ TL x' _ r X2) in HR; [easy|congruence]. }
  assert (E4 : s4 = set_scope s2 (Some i)).
  { unfold restore_parent_scope, reset_scope_head, find_scope_head in H4. rewrite E3 in H4. cbn [set_scope s_scope s_scopes] in H4.
    apply bind_ok in H4 as (q & H4 & H4'). apply bind_ok in H4 as (hh & H4 & HQ). apply bind_ok in H4 as (r & HR & H4).
    inversion H4; subst hh. inversion HQ; subst q. assert (r = h). { apply (chase_lasts _ _ _ (ls_refl _ h) x' _ r X2) in HR; congruence. }
    subst r. cbn [set_scope s_scope s_scopes] in H4'. apply bind_ok in H4' as (z & HZ & H4'). apply deref_ok in HZ.
    assert (z = x') by congruence. subst z. inversion H4'. rewrite X3, D2. reflexivity. }
  set (n := List.length (s_scopes s2)) in *.
  assert (E5 : s5 = set_scope (set_scopes s2 (upd (upd (s_scopes s2 ++ [empty_scope]) n (put_last i)) i (put_next n))) (Some n)).
  { unfold make_adjacent_scope in H5. rewrite E4 in H5. cbn [set_scope s_scope] in H5. unfold make_scope in H5. inversion H5. reflexivity. }
  assert (S5 : s_scopes s5 = upd (upd (s_scopes s2 ++ [empty_scope]) n (put_last i)) i (put_next n)) by (rewrite E5; reflexivity).
  assert (LEN : List.length (s_scopes s5) = S n). { rewrite S5, !upd_length, app_length. cbn. fold n. lia. }
  assert (M_n : nth_error (s_scopes s5) n = Some (put_last i empty_scope)).
  { rewrite S5, nth_upd_other by lia. apply nth_upd_same. apply app_nth_new. }
  assert (M_i : nth_error (s_scopes s5) i = Some (put_next n c')).
  { rewrite S5. apply nth_upd_same. rewrite nth_upd_other by lia. now apply app_nth_old. }
  assert (M_o : forall j, j < n -> j <> i -> nth_error (s_scopes s5) j = nth_error (s_scopes s2) j).
  { intros j HJ NE. rewrite S5, !nth_upd_other by lia. apply nth_error_app1. exact HJ. }
  assert (M_all : forall j b, nth_error (s_scopes s5) j = Some b -> j < n /\ (exists a, nth_error (s_scopes s2) j = Some a /\ alike a b) \/ j = n /\ b = put_last i empty_scope).
  { intros j b EB. assert (j < S n). { rewrite <- LEN. apply nth_error_Some. congruence. }
    destruct (Nat.eq_dec j n) as [->|NE]; [right; split; congruence|left]. split; [lia|].
    destruct (Nat.eq_dec j i) as [->|NI].
    - exists c'. split; [exact I_i|]. rewrite M_i in EB. inversion EB; subst b. repeat split.
    - exists b. rewrite <- M_o by lia. split; [exact EB|]. repeat split. }
  assert (L5 : linked (s_scopes s5)).
  { intros j b p EB Q. apply M_all in EB as [(LT & a & EA & AT & AP & AQ)|(-> & ->)].
    - rewrite AP, AQ in Q. now apply (iv_links _ I2 j a p).
    - cbn in Q. destruct Q as [Q|Q]; inversion Q. lia. }
  assert (EV : forall j, j < n -> env_of (s_scopes s5) j = env_of (s_scopes s2) j).
  { intros j HJ. apply (env_stable (s_scopes s2) (s_scopes s5) (iv_links _ I2) L5 (S j) j); [lia|]. intros q HQ.
    destruct (nth_error (s_scopes s5) q) as [b|] eqn:EB.
    - apply M_all in EB as EB'. destruct EB' as [(LT & a & EA & AL2)|(-> & _)]; [|lia]. exists a, b. auto.
    - exfalso. apply nth_error_None in EB. lia. }
  assert (SG : forall k, sig s5 k = sig s2 k).
  { intro k. unfold sig. rewrite E5 at 1. cbn [set_scope set_scopes s_syms].
    destruct (nth_error (s_syms s2) k) as [y|] eqn:EY; [|easy]. destruct (y_kind y) as [v|f|t|[z|]] eqn:K; auto. do 2 f_equal.
    apply EV. pose proof (iv_space _ I2 k y z EY K). fold n in H. lia. }
  assert (EI2 : env_of (s_scopes s2) i = cenv s).
  { rewrite <- EI. apply alike_env; [apply (iv_links _ I1)|apply (iv_links _ I2)| |].
    - intros j HJ. apply TO. lia.
    - exists c', c'. repeat split; auto. }
  assert (IV5 : inv s5).
  { constructor; auto.
    - rewrite LEN, E5. reflexivity.
    - intros j b EJ EB. rewrite E5 in EJ. cbn in EJ. inversion EJ; subst j. rewrite M_n in EB. inversion EB. auto.
    - intros j b nm k ty EB INN. apply M_all in EB as [(LT & a & EA & AT & _)|(-> & ->)]; [|contradiction INN].
      rewrite AT in INN. now apply (iv_names _ I2 j a nm k).
    - intros k y z EY K. rewrite LEN. rewrite E5 in EY. cbn in EY. pose proof (iv_space _ I2 k y z EY K). fold n in H. lia. }
  exists e, n. constructor; auto; try (rewrite E5; reflexivity).
  - constructor.
    + intros k b E. rewrite SG. apply GS. now rewrite SG1.
    + intros k y o EY K. destruct (GP k y o) as (y' & EY' & K'); [now rewrite SY|exact K|]. exists y'. rewrite E5. auto.
    + right. exists i, n. split; [easy|]. split; [now rewrite E5|]. constructor.
      * intros j HJ. rewrite M_o by lia. rewrite TO by lia. now apply OLD.
      * exists c, (put_next n c'). destruct AL as (_ & AP & AQ). auto.
      * apply nx_step with (put_next n c') n; [exact M_i|reflexivity|lia|constructor].
      * apply ls_step with (put_last i empty_scope) i; [exact M_n|reflexivity|constructor].
  - rewrite <- EI2. unfold cenv. replace (s_scope s5) with (Some n) by (now rewrite E5). cbn [env_from].
    rewrite (env_of_eq _ _ _ L5 M_n). cbn. apply EV. lia.
  - lia.
  - exists (put_last i empty_scope). auto.
  - exists (put_next n c'). auto.
  - apply (nexts_agree (s_scopes s5)); [|auto]. clear - TN M_o LE HH CU2.
    induction TN as [a|a q m b EQ X LT TN IH]; [constructor|]. pose proof (nexts_le _ _ _ TN).
    assert (G : forall a b, nexts (s_scopes s2) a b -> i < a -> b < n -> nexts (s_scopes s5) a b).
    { intros a0 b0 N0. induction N0 as [a0|a0 q0 m0 b0 EQ0 X0 LT0 N0 IH0]; intros P1 P2; [constructor|].
      pose proof (nexts_le _ _ _ N0). apply nx_step with q0 m0; auto; [|apply IH0; lia]. rewrite M_o by lia. exact EQ0. }
    apply G; [|lia|lia]. now apply nx_step with q m.
  - destruct (cur_scope s2 e I2 E2) as (b & EB). exists b. destruct (iv_new _ I2 e b E2 EB) as (XN & _). rewrite M_o by lia. auto.
  - unfold cenv. rewrite E2. cbn [env_from]. apply EV. lia.
Qed.
