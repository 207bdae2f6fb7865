From Coq Require Import List Arith NArith Bool Lia.
From Verif Require Import Base Model_Vector Spec_Vector.
Import ListNotations.
Open Scope N_scope.

(** Representation invariant: the first `length` cells hold the list. *)
Definition rep (v : vec) (s : labs) : Prop :=
  v_length v = length (fst s) /\ v_frozen v = snd s /\
  match v_elements v with
  | None => fst s = [] /\ v_max v = start_max
  | Some b => length b = v_max v /\ (v_length v <= v_max v)%nat /\ (0 < v_max v)%nat /\
              firstn (v_length v) b = map Some (fst s)
  end.

Lemma store_ok : forall b i p, (i < length b)%nat ->
  exists b', store b i p = Ok b' /\ length b' = length b /\
             firstn (S i) b' = firstn i b ++ [Some p].
Proof.
  induction b as [|c b IH]; intros i p H; cbn in H; [lia|].
  destruct i as [|i]; cbn.
  - eexists; repeat split.
  - destruct (IH i p) as (b' & E & L & F); [lia|].
    rewrite E. cbn. eexists; split; [reflexivity|]. split; [cbn; lia|].
    cbn in F. rewrite F. reflexivity.
Qed.

Lemma rep_push : forall v s p, rep v s ->
  exists v', vector_push v p = Ok v' /\ rep v' (snd (lstep s (VPush p))).
Proof.
  intros v [l fr] p (HL & HF & HE). cbn [fst snd lstep] in *.
  unfold vector_push. destruct (v_frozen v) eqn:Fz.
  { exists v. split; [easy|]. subst fr. repeat split; cbn; auto. }
  subst fr.
  assert (K : exists b1 max1,
    (let b0 := match v_elements v with None => repeat (Some 0) start_max | Some b => b end in
     let grow := (v_max v <=? v_length v)%nat in
     max1 = (if grow then (v_max v * 2)%nat else v_max v) /\
     b1 = (if grow then realloc b0 max1 else b0)) /\
     length b1 = max1 /\ (v_length v < max1)%nat /\ firstn (v_length v) b1 = map Some l).
  { destruct (v_elements v) as [b|].
    - destruct HE as (Hb & Hle & Hpos & Hf).
      destruct (v_max v <=? v_length v)%nat eqn:G.
      + apply Nat.leb_le in G. eexists _, _. split; [split; reflexivity|].
        assert (v_length v = v_max v) as EQ by lia.
        unfold realloc. rewrite Hb. rewrite app_length, repeat_length, firstn_length.
        repeat split; [lia|lia|].
        rewrite firstn_app, firstn_firstn, firstn_length.
        replace (v_length v - _)%nat with 0%nat by lia. cbn [firstn].
        rewrite app_nil_r.
        replace (Nat.min _ _) with (v_length v) by lia. exact Hf.
      + apply Nat.leb_gt in G. eexists _, _. split; [split; reflexivity|]. auto.
    - destruct HE as (El & Hm). cbn in HL. subst l. cbn in HL. rewrite HL, Hm.
      exists (repeat (Some 0) start_max), start_max. cbn. repeat split; first [reflexivity | unfold start_max; lia]. }
  destruct K as (b1 & max1 & (E1 & E2) & Lb & Lt & Fb).
  cbn zeta. cbn zeta in E1, E2. rewrite <- E1. rewrite <- E2.
  destruct (store_ok b1 (v_length v) p) as (b2 & ES & L2 & F2); [lia|].
  rewrite ES. cbn [bind]. eexists; split; [reflexivity|].
  unfold rep. cbn [v_length v_frozen v_elements v_max fst snd].
  rewrite app_length. cbn [length]. repeat split; try lia.
  rewrite F2, Fb, map_app. reflexivity.
Qed.

Lemma load_ok : forall b n l i, firstn n b = map Some l -> (i < n)%nat -> n = length l ->
  load b i = Ok (nth i l 0).
Proof.
  intros b n l i F Hi Hn. unfold load.
  assert (E : nth_error (firstn n b) i = nth_error b i).
  { clear - Hi. revert n i Hi.
    induction b as [|c b IH]; intros n i Hi; destruct n as [|n]; try lia; destruct i as [|i]; cbn; auto.
    apply IH. lia. }
  rewrite <- E, F, nth_error_map.
  rewrite (nth_error_nth' l 0) by (rewrite <- Hn; exact Hi). reflexivity.
Qed.

Lemma last_nth : forall (l : list ptr), last l 0 = nth (pred (length l)) l 0.
Proof.
  induction l as [|x l IH]; [reflexivity|].
  cbn [length pred]. destruct l as [|y l]; [reflexivity|].
  cbn [last] in *. rewrite IH. reflexivity.
Qed.

Lemma removelast_map : forall {A B} (f : A -> B) l, removelast (map f l) = map f (removelast l).
Proof.
  intros A B f. induction l as [|x l IH]; [reflexivity|].
  destruct l as [|y l]; [reflexivity|]. cbn in *. now rewrite IH.
Qed.

Lemma removelast_length : forall (l : list ptr), length (removelast l) = pred (length l).
Proof.
  induction l as [|x l IH]; [reflexivity|].
  destruct l as [|y l]; [reflexivity|]. cbn in *. now rewrite IH.
Qed.

Lemma step_refines : forall v s c, rep v s ->
  exists v', vstep v c = Ok (fst (lstep s c), v') /\ rep v' (snd (lstep s c)).
Proof.
  intros v [l fr] c R.
  destruct c as [p| |i|].
  - destruct (rep_push v (l, fr) p R) as (v' & E & R'). exists v'. cbn [vstep]. rewrite E.
    split; [reflexivity|exact R'].
  - destruct R as (HL & HF & HE). cbn [fst snd] in *. cbn [vstep]. unfold vector_pop.
    destruct (v_elements v) as [b|] eqn:Eb.
    + destruct HE as (Hb & Hle & Hpos & Hf).
      destruct (v_length v) as [|n] eqn:El.
      * destruct l; [|discriminate]. cbn [bind lstep].
        exists v. split; [destruct fr; reflexivity|].
        destruct fr; cbn [snd removelast]; unfold rep; cbn [fst snd length]; rewrite Eb, El;
        repeat split; auto; lia.
      * destruct (v_frozen v) eqn:Ef.
        -- subst fr. cbn [bind lstep]. exists v. split; [reflexivity|].
           unfold rep; cbn [fst snd]. rewrite Eb, El. repeat split; auto.
        -- subst fr. rewrite (load_ok b (S n) l n Hf) by lia. cbn [bind lstep].
           eexists. split; [cbn [fst]; rewrite last_nth, <- HL; reflexivity|].
           unfold rep; cbn [fst snd v_length v_frozen v_elements v_max].
           rewrite removelast_length. repeat split; auto; try lia.
           rewrite <- removelast_map, <- Hf, removelast_firstn by lia. reflexivity.
    + destruct HE as (-> & Hm). cbn [bind lstep].
      exists v. split; [destruct fr; reflexivity|].
      destruct fr; unfold rep; cbn [fst snd removelast]; rewrite Eb; repeat split; auto.
  - pose proof R as (HL & HF & HE). cbn [fst snd] in *. cbn [vstep]. unfold vector_at.
    exists v. destruct (v_elements v) as [b|] eqn:Eb.
    + destruct HE as (Hb & Hle & Hpos & Hf).
      destruct (v_length v <=? i)%nat eqn:G.
      * apply Nat.leb_le in G. cbn [bind lstep fst snd]. rewrite nth_overflow by lia.
        split; [reflexivity|exact R].
      * apply Nat.leb_gt in G. rewrite (load_ok b (v_length v) l i Hf G HL). cbn [bind].
        split; [reflexivity|exact R].
    + destruct HE as (-> & Hm). cbn [bind lstep fst snd].
      split; [destruct i; reflexivity|exact R].
  - destruct R as (HL & HF & HE). cbn [fst snd] in *. cbn [vstep]. unfold vector_freeze.
    exists (mkvec (v_length v) (v_max v) (v_elements v) true). split.
    + cbn [lstep fst]. destruct (v_elements v) as [b|].
      * destruct HE as (_ & _ & _ & Hf). rewrite Hf. reflexivity.
      * destruct HE as (-> & _). rewrite firstn_nil. reflexivity.
    + unfold rep; cbn [lstep fst snd v_length v_frozen v_elements v_max]. auto.
Qed.

Lemma run_refines : forall cs v s, rep v s -> vrun v cs = Ok (lrun s cs).
Proof.
  induction cs as [|c cs IH]; intros v s R; [reflexivity|].
  destruct (step_refines v s c R) as (v' & E & R').
  cbn [vrun lrun]. rewrite E. cbn [bind].
  destruct (lstep s c) as [o s']. cbn [fst snd] in *.
  rewrite (IH v' s' R'). reflexivity.
Qed.

Lemma vector_is_list_l : forall cs, vrun make_vector cs = Ok (lrun ([], false) cs).
Proof.
  intro cs. apply run_refines. unfold rep. cbn. auto.
Qed.
