From Coq Require Import List Arith NArith ZArith Bool Lia.
From Verif Require Import Base Model_Vector Model_HashTable Spec_HashTable.
Import ListNotations.
Open Scope N_scope.

Lemma hash_lt : forall k, (ht_hash_key k < N.to_nat max_slots)%nat.
Proof.
  intro k. unfold ht_hash_key, max_slots.
  pose proof (Z.mod_pos_bound (hash_loop k 0 0) (Z.of_N 64) ltac:(lia)). lia.
Qed.

Definition slot_items (s : slot) := match s with None => [] | Some l => l end.

Definition hrep (slots : list slot) (past : list hcall) : Prop :=
  length slots = N.to_nat max_slots /\
  (forall k, find_item (slot_items (nth (ht_hash_key k) slots None)) k = first_added past k) /\
  (forall j a d, In (a, d) (slot_items (nth j slots None)) -> d <> 0).

Lemma set_slot_ok : forall slots i s, (i < length slots)%nat ->
  exists slots', set_slot slots i s = Ok slots' /\ length slots' = length slots /\
    forall j, nth j slots' None = if Nat.eqb j i then s else nth j slots None.
Proof.
  induction slots as [|x r IH]; intros i s H; cbn in H; [lia|].
  destruct i as [|i]; cbn.
  - eexists; split; [reflexivity|]. split; [reflexivity|]. intros [|j]; reflexivity.
  - destruct (IH i s) as (r' & E & L & N); [lia|]. rewrite E. cbn.
    eexists; split; [reflexivity|]. split; [cbn; lia|]. intros [|j]; cbn; [reflexivity|apply N].
Qed.

Lemma get_ok : forall slots past k, hrep slots past ->
  ht_get (Some slots) k = Ok (first_added past k).
Proof.
  intros slots past k (L & F & _). unfold ht_get.
  rewrite (nth_error_nth' slots None) by (rewrite L; apply hash_lt).
  rewrite <- F. now destruct (nth (ht_hash_key k) slots None).
Qed.

Lemma first_added_app : forall past k k' p,
  first_added (past ++ [HAdd k' p]) k =
  if negb (first_added past k =? 0) then first_added past k
  else if text_eq_dec k' k then p else 0.
Proof.
  induction past as [|c r IH]; intros k k' p; cbn [first_added app].
  - cbn. destruct (text_eq_dec k' k); [destruct (N.eqb_spec p 0)|]; cbn; congruence.
  - destruct c as [k2 p2|k2]; [|apply IH].
    destruct (text_eq_dec k2 k); [|apply IH].
    destruct (p2 =? 0) eqn:E; [apply IH|]. rewrite E. reflexivity.
Qed.

Lemma first_added_app_get : forall past k k', first_added (past ++ [HGet k']) k = first_added past k.
Proof.
  induction past as [|c r IH]; intros k k'; cbn [first_added app]; [reflexivity|].
  destruct c; rewrite ?IH; reflexivity.
Qed.

Lemma find_item_app : forall l k k' p,
  (forall a d, In (a, d) l -> d <> 0) ->
  find_item l k' = 0 ->
  find_item (l ++ [(k', p)]) k = if text_eq_dec k' k then p else find_item l k.
Proof.
  induction l as [|[a d] l IH]; intros k k' p Hnz H; cbn [find_item app] in *.
  - destruct (text_eqb k' k) eqn:E; destruct (text_eq_dec k' k); try reflexivity;
    [apply text_eqb_eq in E | apply text_eqb_neq in E]; congruence.
  - destruct (text_eqb a k) eqn:E.
    + apply text_eqb_eq in E. subst a. destruct (text_eq_dec k' k) as [->|]; [|reflexivity].
      rewrite text_eqb_refl in H. exfalso. apply (Hnz k d); [now left|exact H].
    + destruct (text_eqb a k') eqn:E2.
      * exfalso. apply (Hnz a d); [now left|exact H].
      * apply IH; [|exact H]. intros; eapply Hnz; right; eassumption.
Qed.

Lemma add_ok : forall slots past k p, hrep slots past ->
  exists slots' : list slot,
    ht_add (Some slots) k p =
      Ok (negb (p =? 0) && (first_added past k =? 0), Some slots') /\
    hrep slots' (past ++ [HAdd k p]).
Proof.
  intros slots past k p R. pose proof R as (L & F & Z).
  unfold ht_add. destruct (p =? 0) eqn:Ep; cbn [negb andb].
  - apply N.eqb_eq in Ep. subst p. exists slots. split; [reflexivity|].
    split; [exact L|]. split; [|exact Z]. intro k'. rewrite first_added_app, F.
    destruct (N.eqb_spec (first_added past k') 0) as [E|E]; cbn [negb]; [|reflexivity].
    rewrite E. now destruct (text_eq_dec k k').
  - rewrite (get_ok slots past k R). cbn [bind].
    destruct (first_added past k =? 0) eqn:E0; cbn [negb].
    + rewrite (nth_error_nth' slots None) by (rewrite L; apply hash_lt).
      destruct (set_slot_ok slots (ht_hash_key k)
        (Some (slot_items (nth (ht_hash_key k) slots None) ++ [(k, p)])))
        as (slots' & ES & LS & NS); [rewrite L; apply hash_lt|].
      unfold slot_items in ES. rewrite ES. cbn [bind]. eexists; split; [reflexivity|].
      split; [congruence|]. apply N.eqb_eq in E0. split.
      * intro k'. rewrite NS, first_added_app.
        destruct (Nat.eqb_spec (ht_hash_key k') (ht_hash_key k)) as [Eh|Eh].
        -- cbn [slot_items]. rewrite find_item_app.
           ++ rewrite <- Eh, F. destruct (text_eq_dec k k') as [->|].
              ** rewrite E0. reflexivity.
              ** destruct (N.eqb_spec (first_added past k') 0) as [E|E]; cbn [negb]; congruence.
           ++ apply Z.
           ++ rewrite F. exact E0.
        -- rewrite F. destruct (text_eq_dec k k') as [->|]; [congruence|].
           destruct (N.eqb_spec (first_added past k') 0) as [E|E]; cbn [negb]; congruence.
      * intros j a d. rewrite NS. destruct (Nat.eqb_spec j (ht_hash_key k)) as [->|]; [|apply Z].
        cbn [slot_items]. rewrite in_app_iff. intros [I|[I|[]]]; [eapply Z; exact I|].
        inversion I; subst. now apply N.eqb_neq.
    + exists slots. split; [reflexivity|]. split; [exact L|]. split; [|exact Z].
      intro k'. rewrite first_added_app, F.
      destruct (N.eqb_spec (first_added past k') 0) as [E|E]; cbn [negb]; [|reflexivity].
      apply N.eqb_neq in E0. destruct (text_eq_dec k k') as [->|]; congruence.
Qed.

Lemma hrun_ok : forall cs slots past, hrep slots past ->
  hrun (Some slots) cs = Ok (expected_run past cs).
Proof.
  induction cs as [|c cs IH]; intros slots past R; [reflexivity|].
  cbn [hrun expected_run]. destruct c as [k p|k].
  - destruct (add_ok slots past k p R) as (slots' & E & R'). rewrite E. cbn [bind].
    rewrite (IH _ _ R'). reflexivity.
  - rewrite (get_ok slots past k R). cbn [bind].
    rewrite (IH slots (past ++ [HGet k])); [reflexivity|].
    destruct R as (L & F & Z). split; [exact L|]. split; [|exact Z].
    intro k'. rewrite first_added_app_get. apply F.
Qed.

Lemma nth_repeat_none : forall n j, nth j (repeat (@None (list (text * ptr))) n) None = None.
Proof. induction n; intros [|j]; cbn; auto. Qed.

Lemma ht_is_map_l : forall cs, hrun make_ht cs = Ok (expected_run [] cs).
Proof.
  intro cs. apply hrun_ok. split; [apply repeat_length|]. split.
  - intro k. rewrite nth_repeat_none. reflexivity.
  - intros j a d. rewrite nth_repeat_none. intros [].
Qed.

Lemma ht_null_l : forall cs, hrun None cs =
  Ok (map (fun c => match c with HAdd _ _ => HBool false | HGet _ => HPtr 0 end) cs).
Proof.
  induction cs as [|[k p|k] cs IH]; [reflexivity| |]; cbn [hrun map].
  - unfold ht_add. destruct (p =? 0); cbn [bind]; rewrite IH; reflexivity.
  - cbn [ht_get bind]. rewrite IH. reflexivity.
Qed.
