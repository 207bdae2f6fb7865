From Coq Require Import List Arith NArith Bool Lia Ascii String.
From Verif Require Import Base Model_Vector Model_HashTable Spec_HashTable Proof_HashTable
  Model_Names Model_Sem Model_Types Spec_Types Proof_Names.
Import ListNotations.
Open Scope list_scope.
Open Scope N_scope.

Definition builtins : list ty := [TBool; TInt; TFloat; TRune; TStr; TVoid].

Inductive stands (heap : list tobj) : ptr -> ty -> Prop :=
| St_base : forall p t, p <> 0 -> nth_error builtins (N.to_nat (p - 1)) = Some t ->
    nth_error heap (N.to_nat (p - 1)) = Some (mktobj (spelled t) 0) -> stands heap p t
| St_ref : forall p q t, p <> 0 -> (6 <= N.to_nat (p - 1))%nat ->
    nth_error heap (N.to_nat (p - 1)) = Some (mktobj (spelled (TRef t)) q) ->
    stands heap q t -> stands heap p (TRef t).

Lemma spelled_head : forall t, exists c r, spelled t = c :: r /\ c <> 0.
Proof. destruct t; do 2 eexists; (split; [reflexivity|discriminate]). Qed.

Lemma spelled_no_nul : forall t, ~ In 0 (spelled t).
Proof.
  induction t; cbn; intuition discriminate.
Qed.

Lemma spelled_inj : forall a b, spelled a = spelled b -> a = b.
Proof.
  induction a; destruct b; intro H; try reflexivity; try discriminate H.
  change (38 :: spelled a = 38 :: spelled b) in H. f_equal. apply IHa. congruence.
Qed.

Lemma stands_nonzero : forall heap p t, stands heap p t -> p <> 0.
Proof. intros heap p t [p0 t0 H _ _|p0 q t0 H _ _ _]; exact H. Qed.

Lemma stands_deref : forall heap p t, stands heap p t ->
  exists o, deref heap p = Ok o /\ o_name o = spelled t.
Proof.
  intros heap p t [p0 t0 H _ E|p0 q t0 H _ E _]; unfold deref;
    rewrite (proj2 (N.eqb_neq _ _) H), E; eauto.
Qed.

Lemma builtins_length : List.length builtins = 6%nat.
Proof. reflexivity. Qed.

Lemma stands_fun : forall heap p t, stands heap p t -> forall t', stands heap p t' -> t = t'.
Proof.
  induction 1 as [p t Hz B E|p q t Hz L E S IH]; intros t' S'.
  - destruct S' as [p' t' _ B' _|p' q' t' _ L' _ _]; [congruence|].
    assert (X : (N.to_nat (p' - 1) < List.length builtins)%nat)
      by (apply nth_error_Some; rewrite B; discriminate).
    rewrite builtins_length in X. lia.
  - inversion S' as [p' t2 _ B' _|p' q' t2 _ L' E' S2]; subst.
    + assert (X : (N.to_nat (p - 1) < List.length builtins)%nat)
        by (apply nth_error_Some; rewrite B'; discriminate).
      rewrite builtins_length in X. lia.
    + rewrite E in E'. injection E' as E1 E2.
      apply spelled_inj in E1. congruence.
Qed.

Lemma stands_grow : forall heap o p t, stands heap p t -> stands (heap ++ [o]) p t.
Proof.
  intros heap o p t H.
  induction H as [p t Hz B E|p q t Hz L E S IH].
  - apply St_base; auto. rewrite nth_error_app1; auto. apply nth_error_Some. congruence.
  - apply (St_ref _ p q t); auto. rewrite nth_error_app1; auto. apply nth_error_Some. congruence.
Qed.

(** A state behind the requests whose insertions are `past`. *)
Record tinv (s : tstate) (past : list hcall) : Prop := {
  ti_refs : match ts_refs s with
            | None => past = []
            | Some slots => hrep slots past
            end;
  ti_pre : exists dyn, ts_heap s = builtin_objects ++ dyn;
  ti_found : forall t, first_added past (spelled t) <> 0 ->
               stands (ts_heap s) (first_added past (spelled t)) (TRef t);
  ti_dyn : forall p t, stands (ts_heap s) p (TRef t) -> first_added past (spelled t) = p }.

Lemma builtin_ptr : forall heap, (exists dyn, heap = builtin_objects ++ dyn) ->
  forall k t, nth_error builtins k = Some t -> stands heap (N.of_nat k + 1) t.
Proof.
  intros heap [dyn ->] k t H. apply St_base; [lia| |];
    replace (N.to_nat (N.of_nat k + 1 - 1)) with k by lia; auto.
  rewrite nth_error_app1.
  - do 6 (destruct k as [|k]; [injection H as <-; reflexivity|]). destruct k; discriminate H.
  - apply nth_error_Some. do 6 (destruct k as [|k]; [discriminate|]). destruct k; discriminate H.
Qed.

Lemma stands_inj : forall s past, tinv s past -> forall p q t,
  stands (ts_heap s) p t -> stands (ts_heap s) q t -> p = q.
Proof.
  intros s past I p q t P Q.
  destruct t as [| | | | | |t].
  7:{ rewrite <- (ti_dyn _ _ I p t P). apply (ti_dyn _ _ I q t Q). }
  all: inversion P as [p' t1 Hp Bp _|]; inversion Q as [q' t2 Hq Bq _|]; subst.
  all: assert (X : N.to_nat (p - 1) = N.to_nat (q - 1)); [|lia].
  all: destruct (N.to_nat (p - 1)) as [|[|[|[|[|[|n]]]]]]; cbn in Bp; try discriminate Bp;
       try (destruct n; discriminate Bp).
  all: destruct (N.to_nat (q - 1)) as [|[|[|[|[|[|m]]]]]]; cbn in Bq; try discriminate Bq;
       try (destruct m; discriminate Bq); reflexivity.
Qed.

Lemma hrep_start : hrep (repeat None (N.to_nat max_slots)) [].
Proof.
  split; [apply repeat_length|]. split.
  - intro k. rewrite nth_repeat_none. reflexivity.
  - intros j a d. rewrite nth_repeat_none. intros [].
Qed.

Lemma cstr_text : forall t r, ~ In 0 t -> cstr (map Some t ++ Some 0 :: r) = Ok t.
Proof.
  induction t as [|c t IH]; intros r H; [reflexivity|].
  cbn [map app cstr]. destruct (N.eqb_spec c 0) as [->|]; [exfalso; apply H; left; reflexivity|].
  rewrite IH; [reflexivity|]. intro K. apply H. right. exact K.
Qed.

Lemma amp_name : forall t, ~ In 0 t ->
  (do b <- put1 (malloc (strlen t + 2)) 0 (chr "&");
   do b <- strncpy b 1 t (strlen t + 1); cstr b) = Ok (38 :: t).
Proof.
  intros t H. unfold put1, put at 1. unfold malloc, strlen.
  rewrite repeat_length.
  replace (0 + N.of_nat (List.length [chr "&"]) <=?
    N.of_nat (N.to_nat (N.of_nat (List.length t) + 2))) with true
    by (symmetry; apply N.leb_le; cbn [List.length]; lia).
  cbn [bind]. change (N.to_nat 0) with 0%nat. cbn [firstn app map List.length Nat.add].
  replace (N.to_nat (N.of_nat (List.length t) + 2)) with (S (S (List.length t))) by lia.
  cbn [repeat skipn]. unfold strncpy. cbn [List.length]. rewrite repeat_length.
  replace (1 + (N.of_nat (List.length t) + 1) <=? N.of_nat (S (S (List.length t)))) with true
    by (symmetry; apply N.leb_le; lia).
  replace (N.to_nat (N.of_nat (List.length t) + 1)) with (List.length t + 1)%nat by lia.
  assert (F : firstn (List.length t + 1) (t ++ repeat 0 (List.length t + 1)) = t ++ [0]).
  { rewrite firstn_app. rewrite firstn_all2 by lia.
    replace (List.length t + 1 - List.length t)%nat with 1%nat by lia.
    replace (List.length t + 1)%nat with (S (List.length t)) by lia. reflexivity. }
  rewrite F. unfold put. rewrite app_length. cbn [List.length]. rewrite repeat_length.
  replace (1 + N.of_nat (List.length t + 1) <=? N.of_nat (S (S (List.length t)))) with true
    by (symmetry; apply N.leb_le; lia).
  cbn [bind]. change (N.to_nat 1) with 1%nat. cbn [firstn]. rewrite map_app. cbn [map app].
  rewrite <- app_assoc. cbn [app cstr]. change (chr "&" =? 0) with false. cbn match.
  rewrite cstr_text by exact H. reflexivity.
Qed.

Lemma first_added_keys : forall past k, first_added past k <> 0 ->
  In (HAdd k (first_added past k)) past.
Proof.
  induction past as [|[k' p|k'] r IH]; intros k H; cbn [first_added] in *; [congruence| |].
  - destruct (text_eq_dec k' k) as [->|]; [|right; apply IH; exact H].
    destruct (p =? 0); [right; apply IH; exact H|left; reflexivity].
  - right. apply IH. exact H.
Qed.

Lemma stands_shrink : forall heap o p t, stands (heap ++ [o]) p t ->
  (List.length heap >= 6)%nat ->
  (p - 1 < N.of_nat (List.length heap)) ->
  (forall i ob, nth_error heap i = Some ob -> (6 <= i)%nat ->
     o_inner ob <> 0 /\ o_inner ob - 1 < N.of_nat (List.length heap)) ->
  stands heap p t.
Proof.
  intros heap o p t H L6 L C. remember (heap ++ [o]) as h eqn:Eh. revert L.
  induction H as [p t Hz B E|p q t Hz L1 E S IH]; intro L; subst h.
  - apply St_base; auto. rewrite nth_error_app1 in E; auto. lia.
  - rewrite nth_error_app1 in E by lia.
    apply (St_ref _ p q t); auto. apply IH; try reflexivity.
    apply (C _ _ E L1).
Qed.

Definition closed (heap : list tobj) : Prop :=
  forall i ob, nth_error heap i = Some ob -> (6 <= i)%nat ->
     o_inner ob <> 0 /\ o_inner ob - 1 < N.of_nat (List.length heap).

Lemma stands_bound : forall heap p t, stands heap p t -> p - 1 < N.of_nat (List.length heap).
Proof.
  intros heap p t [p0 t0 _ _ E|p0 q t0 _ _ E _];
    assert (X : (N.to_nat (p0 - 1) < List.length heap)%nat)
      by (apply nth_error_Some; rewrite E; discriminate); lia.
Qed.

Lemma reference_ok : forall s past p t, tinv s past -> closed (ts_heap s) ->
  stands (ts_heap s) p t ->
  exists s' q past', get_reference_type s p = Ok (s', q) /\ tinv s' past' /\
    closed (ts_heap s') /\ stands (ts_heap s') q (TRef t) /\
    (forall r u, stands (ts_heap s) r u -> stands (ts_heap s') r u).
Proof.
  intros s past p t I C P. unfold get_reference_type.
  rewrite (proj2 (N.eqb_neq _ _) (stands_nonzero _ _ _ P)).
  destruct (stands_deref _ _ _ P) as (o & D & On). rewrite D. cbn [bind].
  assert (R : exists slots, match ts_refs s with None => make_ht | r => r end = Some slots /\
                hrep slots past).
  { pose proof (ti_refs _ _ I) as R. destruct (ts_refs s) as [slots|].
    - exists slots. auto.
    - subst past. eexists; split; [reflexivity|apply hrep_start]. }
  destruct R as (slots & -> & R). rewrite On, (get_ok slots past _ R). cbn [bind].
  destruct (first_added past (spelled t) =? 0) eqn:F; cbn [negb].
  - pose proof (amp_name (spelled t) (spelled_no_nul t)) as A.
    destruct (put1 (malloc (strlen (spelled t) + 2)) 0 (chr "&")) as [b1|]; [|discriminate A].
    cbn [bind] in A |- *.
    destruct (strncpy b1 1 (spelled t) (strlen (spelled t) + 1)) as [b2|]; [|discriminate A].
    cbn [bind] in A |- *. rewrite A. cbn [bind].
    set (new := N.of_nat (List.length (ts_heap s)) + 1).
    destruct (add_ok slots past (spelled t) new R) as (slots' & EA & R'). rewrite EA. cbn [bind].
    apply N.eqb_eq in F. destruct (ti_pre _ _ I) as (dyn & Eh).
    assert (L6 : (List.length (ts_heap s) >= 6)%nat)
      by (rewrite Eh, app_length; change (List.length builtin_objects) with 6%nat; lia).
    assert (SN : stands (ts_heap s ++ [mktobj (38 :: spelled t) p]) new (TRef t)).
    { apply (St_ref _ _ p t); [unfold new; lia|unfold new; lia| |apply stands_grow; exact P].
      unfold new. replace (N.to_nat (N.of_nat (List.length (ts_heap s)) + 1 - 1))
        with (List.length (ts_heap s)) by lia.
      rewrite nth_error_app2, Nat.sub_diag by lia. reflexivity. }
    do 3 eexists. split; [reflexivity|]. split; [|split; [|split]].
    + constructor; cbn [ts_refs ts_heap].
      * exact R'.
      * exists (dyn ++ [mktobj (38 :: spelled t) p]). rewrite Eh, app_assoc. reflexivity.
      * intros t0. rewrite first_added_app.
        destruct (N.eqb_spec (first_added past (spelled t0)) 0) as [Z|Z]; cbn [negb].
        -- destruct (text_eq_dec (spelled t) (spelled t0)) as [E|]; [|congruence].
           apply spelled_inj in E. subst t0. intros _. exact SN.
        -- intros _. apply stands_grow. apply (ti_found _ _ I). exact Z.
      * intros p0 t0 S0. rewrite first_added_app.
        destruct (N.eq_dec p0 new) as [->|Hn].
        -- assert (E : TRef t = TRef t0) by (apply (stands_fun _ _ _ SN _ S0)).
           injection E as <-. rewrite F. cbn [N.eqb negb].
           destruct (text_eq_dec (spelled t) (spelled t)); congruence.
        -- assert (B : stands (ts_heap s) p0 (TRef t0)).
           { apply (stands_shrink _ (mktobj (38 :: spelled t) p)); auto.
             pose proof (stands_bound _ _ _ S0) as X. rewrite app_length in X. cbn in X.
             pose proof (stands_nonzero _ _ _ S0). unfold new in Hn. lia. }
           pose proof (ti_dyn _ _ I _ _ B) as E. rewrite E.
           destruct (N.eqb_spec p0 0) as [Z|Z]; [|reflexivity].
           exfalso. apply (stands_nonzero _ _ _ S0). exact Z.
    + intros i ob H Hi. cbn [ts_heap] in *. rewrite app_length. cbn [List.length].
      destruct (Nat.lt_ge_cases i (List.length (ts_heap s))) as [Hl|Hl].
      * rewrite nth_error_app1 in H by exact Hl. destruct (C i ob H Hi). split; [assumption|lia].
      * rewrite nth_error_app2 in H by exact Hl.
        destruct (i - List.length (ts_heap s))%nat as [|n]; [|destruct n; discriminate H].
        injection H as <-. cbn [o_inner]. split; [apply (stands_nonzero _ _ _ P)|].
        pose proof (stands_bound _ _ _ P). lia.
    + exact SN.
    + intros r u0 S0. apply stands_grow. exact S0.
  - apply N.eqb_neq in F. do 2 eexists. exists past. split; [reflexivity|].
    split; [|split; [|split]]; cbn [ts_heap].
    + constructor; cbn [ts_refs ts_heap]; [exact R|apply I|apply I|apply I].
    + exact C.
    + apply (ti_found _ _ I). exact F.
    + auto.
Qed.

Definition matches (heap : list tobj) (p : ptr) (d : option ty) : Prop :=
  match d with None => p = 0 | Some t => stands heap p t end.

Lemma find_builtin_ok : forall heap, (exists dyn, heap = builtin_objects ++ dyn) ->
  forall n, matches heap (find_builtin_type n) (builtin_called n).
Proof.
  intros heap P n. pose proof (builtin_ptr heap P) as B.
  unfold find_builtin_type, builtin_called, builtin_objects. cbn [find find_builtin_from o_name].
  change (spelled TBool) with (u "Bool"). change (spelled TInt) with (u "Int").
  change (spelled TFloat) with (u "Float"). change (spelled TRune) with (u "Rune").
  change (spelled TStr) with (u "Str"). change (spelled TVoid) with (u "Void").
  assert (X : forall t : text, text_eqb n t = if text_eq_dec t n then true else false).
  { intro t. destruct (text_eq_dec t n) as [->|]; [apply text_eqb_refl|].
    apply text_eqb_neq. congruence. }
  rewrite !X.
  destruct (text_eq_dec (u "Bool") n); [apply (B 0%nat TBool); reflexivity|].
  destruct (text_eq_dec (u "Int") n); [apply (B 1%nat TInt); reflexivity|].
  destruct (text_eq_dec (u "Float") n); [apply (B 2%nat TFloat); reflexivity|].
  destruct (text_eq_dec (u "Rune") n); [apply (B 3%nat TRune); reflexivity|].
  destruct (text_eq_dec (u "Str") n); [apply (B 4%nat TStr); reflexivity|].
  destruct (text_eq_dec (u "Void") n); [apply (B 5%nat TVoid); reflexivity|].
  reflexivity.
Qed.

Lemma Forall2_nth0 : forall heap ps ds i, Forall2 (matches heap) ps ds ->
  matches heap (nth i ps 0) (nth i ds None).
Proof.
  intros heap ps ds i H. revert i. induction H as [|p d ps ds P _ IH]; intros [|i]; cbn [nth];
    auto; reflexivity.
Qed.

Lemma trun_ok : forall cs s past ps ds, tinv s past -> closed (ts_heap s) ->
  Forall2 (matches (ts_heap s)) ps ds ->
  exists s' past' ps', trun s ps cs = Ok (s', ps') /\ tinv s' past' /\
    Forall2 (matches (ts_heap s')) ps' (asked ds cs).
Proof.
  induction cs as [|c cs IH]; intros s past ps ds I C F; cbn [trun asked].
  - eauto 6.
  - destruct c as [n|i].
    + apply (IH s past); auto. apply Forall2_app; auto. constructor; [|constructor].
      apply find_builtin_ok. apply I.
    + pose proof (Forall2_nth0 _ _ _ i F) as M.
      destruct (nth i ds None) as [t|]; cbn [matches option_map] in *.
      * destruct (reference_ok s past _ t I C M) as (s' & q & past' & E & I' & C' & Q & G).
        rewrite E. cbn [bind]. apply (IH s' past'); auto. apply Forall2_app.
        -- clear - F G. induction F as [|p d ps ds P F IH]; constructor; auto.
           destruct d; cbn [matches] in *; auto.
        -- constructor; [exact Q|constructor].
      * rewrite M. unfold get_reference_type. change (0 =? 0) with true. cbn [bind].
        apply (IH s past); auto. apply Forall2_app; auto. constructor; [reflexivity|constructor].
Qed.

Lemma tinv_start : tinv tstart [].
Proof.
  constructor; cbn [tstart ts_refs ts_heap].
  - reflexivity.
  - exists []. now rewrite app_nil_r.
  - intros t H. cbn in H. congruence.
  - intros p t H. exfalso. inversion H as [p' t' _ B _|p' q t' _ L E _]; subst.
    + destruct (N.to_nat (p - 1)) as [|[|[|[|[|[|n]]]]]]; cbn in B; try discriminate B.
      destruct n; discriminate B.
    + assert (X : (N.to_nat (p - 1) < List.length builtin_objects)%nat)
        by (apply nth_error_Some; rewrite E; discriminate).
      change (List.length builtin_objects) with 6%nat in X. lia.
Qed.

Lemma closed_start : closed (ts_heap tstart).
Proof.
  intros i ob H L. exfalso.
  assert (X : (i < List.length builtin_objects)%nat) by (apply nth_error_Some; cbn in H |- *; congruence).
  change (List.length builtin_objects) with 6%nat in X. lia.
Qed.

Lemma types_ok_l : forall cs, exists s ps, trun tstart [] cs = Ok (s, ps) /\
  List.length ps = List.length cs /\
  (forall i, nth i ps 0 = 0 <-> nth i (asked [] cs) None = None) /\
  (forall i j, nth i ps 0 = nth j ps 0 <-> nth i (asked [] cs) None = nth j (asked [] cs) None).
Proof.
  intro cs. destruct (trun_ok cs tstart [] [] [] tinv_start closed_start (Forall2_nil _))
    as (s & past & ps & E & I & F).
  exists s, ps. split; [exact E|]. split.
  - assert (FL : List.length ps = List.length (asked [] cs))
      by (clear - F; induction F; cbn [List.length]; congruence).
    rewrite FL.
    assert (G : forall cs l, List.length (asked l cs) = (List.length l + List.length cs)%nat).
    { induction cs0 as [|[n|i] cs0 IHc]; intro l; cbn [asked]; [cbn; lia| |];
        rewrite IHc, app_length; cbn; lia. }
    apply G.
  - assert (N1 : forall i, nth i ps 0 = 0 <-> nth i (asked [] cs) None = None).
    { intro i. pose proof (Forall2_nth0 _ _ _ i F) as M.
      destruct (nth i (asked [] cs) None) as [t|]; cbn [matches] in M.
      - split; [|discriminate]. intro Z. exfalso. apply (stands_nonzero _ _ _ M Z).
      - split; auto. }
    split; [exact N1|]. intros i j.
    pose proof (Forall2_nth0 _ _ _ i F) as Mi. pose proof (Forall2_nth0 _ _ _ j F) as Mj.
    destruct (nth i (asked [] cs) None) as [t|] eqn:Ei;
      destruct (nth j (asked [] cs) None) as [t'|] eqn:Ej; cbn [matches] in *.
    + split; intro H.
      * f_equal. rewrite H in Mi. apply (stands_fun _ _ _ Mi _ Mj).
      * injection H as <-. apply (stands_inj _ _ I _ _ _ Mi Mj).
    + rewrite Mj. split; [|discriminate]. intro Z. exfalso. apply (stands_nonzero _ _ _ Mi Z).
    + rewrite Mi. split; [|discriminate]. intro Z. exfalso.
      apply (stands_nonzero _ _ _ Mj (eq_sym Z)).
    + rewrite Mi, Mj. split; reflexivity.
Qed.

Lemma objects_ok_l : forall cs s ps, trun tstart [] cs = Ok (s, ps) ->
  forall i t, nth i (asked [] cs) None = Some t ->
  exists o, deref (ts_heap s) (nth i ps 0) = Ok o /\ o_name o = spelled t /\
    (forall t', t = TRef t' <-> exists o', deref (ts_heap s) (o_inner o) = Ok o' /\
       o_name o' = spelled t') /\
    is_reference (ts_heap s) (nth i ps 0) = Ok (match t with TRef _ => true | _ => false end).
Proof.
  intros cs s ps R i t H.
  destruct (trun_ok cs tstart [] [] [] tinv_start closed_start (Forall2_nil _))
    as (s' & past & ps' & E & I & F).
  rewrite R in E. injection E as <- <-.
  pose proof (Forall2_nth0 _ _ _ i F) as M. rewrite H in M. cbn [matches] in M.
  unfold is_reference.
  destruct M as [p t Hz B Eo|p q t Hz L Eo S].
  - unfold deref at 1 3. rewrite (proj2 (N.eqb_neq _ _) Hz), Eo.
    exists (mktobj (spelled t) 0). cbn [bind o_inner o_name].
    split; [reflexivity|]. split; [reflexivity|].
    destruct (N.to_nat (p - 1)) as [|[|[|[|[|[|n]]]]]]; cbn in B; try (destruct n; discriminate B);
      injection B as <-; (split; [|reflexivity]); intro t'; (split; [discriminate|]);
      intros (o' & K & _); discriminate K.
  - unfold deref at 1 3. rewrite (proj2 (N.eqb_neq _ _) Hz), Eo.
    exists (mktobj (spelled (TRef t)) q). cbn [bind o_inner o_name].
    destruct (stands_deref _ _ _ S) as (o' & D & On).
    split; [reflexivity|]. split; [reflexivity|]. split.
    + intro t'. split.
      * intro K. injection K as <-. eauto.
      * intros (o2 & D2 & On2). f_equal. apply spelled_inj. congruence.
    + rewrite (proj2 (N.eqb_neq _ _) (stands_nonzero _ _ _ S)). reflexivity.
Qed.
