(** Statements: the generated code does what Spec_Run.v says. *)
From Coq Require Import List Arith NArith ZArith Bool Lia.
From Verif Require Import Base Model_Literal Model_Parse Model_Sem Spec_Sem Spec_Sem2 Spec_Run Model_Helpers Proof_Helpers Spec_IR Model_LLVM Spec_LLVM Proof_LLVM Proof_LLVM2 Proof_LLVM3 Proof_LLVM4.
Import ListNotations.
Open Scope list_scope.
Open Scope nat_scope.

Scheme eval_m := Minimality for eval Sort Prop
  with evals_m := Minimality for evals Sort Prop
  with exec_m := Minimality for exec Sort Prop
  with branch_m := Minimality for branch Sort Prop
  with otherwise_m := Minimality for otherwise Sort Prop
  with after_m := Minimality for after Sort Prop.
Combined Scheme runs_ind from eval_m, evals_m, exec_m, branch_m, otherwise_m, after_m.

Section Sim.
Variable H : host.
Variable fold : iop -> operand H -> operand H -> option (operand H).
Variable ys : list symbol.
Variable debug : bool.
Local Notation gst := (gst H).
Local Notation gen_expr := (gen_expr H fold ys).
Local Notation typed := (typed ys).
Local Notation grow := (grow H).
Local Notation in_range := (in_range H).
Local Notation here := (here H).
Local Notation blocks := (g_blocks H).
Local Notation count g := (List.length (g_blocks H g)).
Local Notation gens := (gens H fold ys debug).

(** * The parts of an `if` *)

Lemma condition_facts : forall entry last g child g2 fl1 g3 (fo : bool) f g4 e o t' g5,
  entry < count g -> last < count g -> entry <> last ->
  gens GS child (position H (snd (new_block H g)) (count g)) g2 fl1 ->
  g3 = position H (branch_to H last (g2, fl1)) entry ->
  (f, g4) = (if fo then (count g3, snd (new_block H g3)) else (last, g3)) ->
  gen_expr e g4 = Ok (o, t', g5) ->
  let g6 := emit H g5 (ICondBr o (count g) f) in
  in_range (position H (snd (new_block H g)) (count g)) /\
  (forall T : nat -> Prop, grow T g g2) /\ in_range g2 /\ grow (here g2) g2 (branch_to H last (g2, fl1)) /\
  (forall T : nat -> Prop, grow T g (branch_to H last (g2, fl1))) /\
  nth entry (blocks g4) [] = nth entry (blocks g) [] /\ g_cur H g4 = entry /\ in_range g4 /\ g_reg H g2 <= g_reg H g4 /\ g_func H g4 = g_func H g /\
  grow (here g4) (branch_to H last (g2, fl1)) g4 /\
  grow (fun b => b = entry) g g4 /\ grow (fun b => b = entry) g g6 /\ same H g4 g5 /\ same H g4 g6 /\ f < count g4 /\
  (if fo then count g <= f /\ f <> last /\ nth f (blocks g6) [] = [] else f = last) /\
  nth last (blocks g6) [] = nth last (blocks g) [] /\ last < count g6.
Proof.
  intros entry last g child g2 fl1 g3 fo f g4 e o t' g5 RE RL NE G E3 E4 EX g6.
  pose proof (new_count H g) as KN.
  assert (R0 : in_range (position H (snd (new_block H g)) (count g))) by (unfold Proof_LLVM.in_range; cbn [position g_cur g_blocks]; lia).
  assert (RG : ranged H GS (position H (snd (new_block H g)) (count g))) by (intros b ->; exact R0).
  pose proof (gens_grow _ _ _ _ _ _ _ _ _ G RG) as B.
  assert (A2 : forall T : nat -> Prop, grow T g g2).
  { intro T. eapply grow_into; [apply grow_new_at|exact B|exact RG|]. intros b ->. right. cbn [position g_cur]. lia. }
  assert (R2 : in_range g2) by (apply (gr_ok _ _ _ _ B RG)).
  pose proof (gr_len _ _ _ _ B) as K2. cbn [position g_blocks] in K2.
  assert (C2 : count g <= g_cur H g2). { destruct (gr_cur _ _ _ _ (A2 (fun _ => False))); [contradiction|assumption]. }
  pose proof (branch_to_grow H last g2 fl1) as BT.
  assert (A2b : forall T : nat -> Prop, grow T g (branch_to H last (g2, fl1))).
  { intro T. eapply grow_into; [apply A2|exact BT|intros b ->; exact R2|]. intros b ->. now right. }
  assert (K3 : count g3 = count g2) by (rewrite E3; cbn [position g_blocks]; apply branch_count).
  assert (A3 : grow (fun b => b = entry) g g3).
  { rewrite E3. apply grow_at; [apply A2b|intros b ->; exact RE|rewrite branch_count; lia|now left]. }
  assert (S3 : nth entry (blocks g3) [] = nth entry (blocks g) []).
  { rewrite E3. cbn [position g_blocks]. apply (gr_same _ _ _ _ (A2b (fun _ => False)) entry RE). auto. }
  assert (X : (fo = true /\ f = count g3 /\ g4 = snd (new_block H g3)) \/ (fo = false /\ f = last /\ g4 = g3)) by (destruct fo; inversion E4; auto).
  assert (CR3 : g_cur H g3 = entry) by (rewrite E3; reflexivity).
  assert (P : grow (here g4) (branch_to H last (g2, fl1)) g3).
  { rewrite E3. apply here_at. unfold Proof_LLVM.here. destruct X as [(_ & _ & ->)|(_ & _ & ->)]; rewrite E3; reflexivity. }
  assert (D : nth entry (blocks g4) [] = nth entry (blocks g) [] /\ g_cur H g4 = entry /\ in_range g4 /\ g_reg H g2 <= g_reg H g4 /\ g_func H g4 = g_func H g /\
    grow (here g4) (branch_to H last (g2, fl1)) g4 /\ grow (fun b => b = entry) g g4 /\ f < count g4 /\ count g3 <= count g4).
  { assert (REG : g_reg H g2 <= g_reg H g3) by (rewrite E3; cbn [position g_reg]; apply (gr_reg _ _ _ _ BT)).
    assert (HF : g_func H g3 = g_func H g) by (apply (gr_func _ _ _ _ A3)).
    assert (R3 : in_range g3) by (unfold Proof_LLVM.in_range; rewrite CR3; lia).
    destruct X as [(_ & -> & ->)|(_ & -> & ->)].
    - assert (R4 : in_range (snd (new_block H g3))) by (unfold Proof_LLVM.in_range; rewrite new_count; cbn [new_block snd set_blocks g_cur]; lia).
      refine (conj _ (conj CR3 (conj R4 (conj REG (conj HF (conj _ (conj _ (conj _ _)))))))).
      + rewrite new_same; [exact S3|lia].
      + eapply grow_into; [exact P|apply grow_new|intros b ->; exact R3|]. intros b ->. left. reflexivity.
      + apply (grow_then H (fun b => b = entry) g g3); [intros b ->; exact RE|exact A3|apply grow_new].
      + rewrite new_count. lia.
      + rewrite new_count. lia.
    - refine (conj S3 (conj CR3 (conj R3 (conj REG (conj HF (conj P (conj A3 (conj _ _)))))))); lia. }
  destruct D as (D1 & D2 & D3 & D4 & D5 & D6 & D7 & D8 & D9).
  pose proof (same_expr _ _ _ _ _ _ _ _ D3 EX) as S5.
  assert (S6 : same H g4 g6). { eapply same_trans; [exact D3|exact S5|apply same_emit]. }
  assert (A6 : grow (fun b => b = entry) g g6).
  { apply (grow_then H (fun b => b = entry) g g4); [intros b ->; exact RE|exact D7|exact (sm_grow _ _ _ S6)]. }
  do 10 (split; [assumption|]). split; [exact D6|]. do 4 (split; [assumption|]). split; [exact D8|]. split; [|split].
  - destruct X as [(-> & FF & EG)|(-> & -> & _)]; [|reflexivity]. split; [lia|]. split; [lia|].
    assert (NF : nth f (blocks g4) [] = []) by (rewrite EG, FF; apply new_empty).
    transitivity (nth f (blocks g4) []); [|exact NF]. apply (gr_same _ _ _ _ (sm_grow _ _ _ S6)); [lia|]. unfold Proof_LLVM.here. rewrite D2. lia.
  - apply (gr_same _ _ _ _ A6); [exact RL|congruence].
  - rewrite (sm_len _ _ _ S6). lia.
Qed.


(** * Behind the branches *)

Lemma gens_plain : forall r g g' fl, gens GS r g g' fl -> branch_follows r = false -> gens GS (behind r) g g' fl.
Proof.
  induction r as [|n r IH]; intros g g' fl G F; [exact G|]. cbn [branch_follows behind] in *.
  destruct (tn_type n) eqn:T; try discriminate F; try exact G.
  inversion G; subst; try congruence. apply IH; assumption.
Qed.

(** Where the statements behind the branches start. *)
Definition chained (m : gmode) (l : list tnode) (g g' : gst) (fl : flow) : Prop :=
  match m with
  | GS => True
  | GB entry last | GC entry last =>
      entry < count g -> last < count g -> entry <> last ->
      exists g7, gens GS (behind (match m with GC _ _ => tl l | _ => l end)) (position H g7 last) g' fl /\ grow (fun b => b = entry) g g7 /\
        loops H g g7
  end.
Lemma gens_chain : forall m l g g' fl, gens m l g g' fl -> chained m l g g' fl.
Proof.
  intros m l g g' fl G. induction G; try exact I.
  - (* condition *) intros RE RL NE. cbn [tl].
    match goal with E : g3 = _, F : (f, g4) = _, X : gen_expr e g4 = _ |- _ =>
      destruct (condition_facts entry last g (tn_child n) g2 fl1 g3 _ f g4 e o t' g5 RE RL NE G1 E F X) as (_ & _ & _ & _ & _ & _ & _ & _ & _ & _ & _ & _ & A6 & _ & S6 & F1 & F2 & _ & LL);
      assert (L4 : loops H (branch_to H last (g2, fl1)) g4) by (destruct (branch_follows r); inversion F; rewrite E; now apply loops_eq); clear F;
      pose proof (loops_expr _ _ _ _ _ _ _ _ X) as LX end.
    assert (L1 : loops H g g5).
    { eapply loops_trans with (b := g2). { eapply loops_trans; [|eapply gens_loops; exact G1]. now apply loops_eq. }
      eapply loops_trans; [apply (loops_branch H last g2 fl1)|]. apply loops_trans with g4; [|exact LX]. exact L4. }
    match goal with E : (m, g6) = _ |- _ => rename E into EM end.
    destruct (branch_follows r) eqn:FO; inversion EM; subst m g6.
    + destruct F2 as (F2 & F3 & _). destruct IHG2 as (g7 & B1 & B2 & B3); auto; [rewrite (sm_len _ _ _ S6); exact F1|]. cbn [tl] in B1. exists g7. split; [exact B1|]. split.
      * eapply grow_into; [exact A6|exact B2|intros b ->; rewrite (sm_len _ _ _ S6); exact F1|]. intros b ->. now right.
      * eapply loops_trans; [|exact B3]. eapply loops_trans; [exact L1|now apply loops_eq].
    + exists (emit H g5 (ICondBr o (count g) f)). split; [now apply gens_plain|]. split; [exact A6|]. eapply loops_trans; [exact L1|now apply loops_eq].
  - (* comment *) intros RE RL NE. destruct (IHG RE RL NE) as (g7 & B1 & B2 & B3). exists g7. cbn [behind]. match goal with E : tn_type n = _ |- _ => rewrite E end. auto.
  - intros RE RL NE. destruct (IHG RE RL NE) as (g7 & B1 & B2 & B3). exists g7. cbn [behind tl] in *. match goal with E : tn_type n = _ |- _ => rewrite E end. auto.
  - intros RE RL NE. exists (branch_to H last (g1, fl1)). cbn [behind]. match goal with E : tn_type n = _ |- _ => rewrite E end.
    assert (R0 : ranged H GS (position H g entry)) by (intros b ->; exact RE).
    pose proof (gens_grow _ _ _ _ _ _ _ _ _ G1 R0) as B. split; [exact G2|]. split.
    + assert (A0 : grow (fun b => b = entry) g (position H g entry)) by (now apply here_at).
      apply (grow_then H (fun b => b = entry) g g1); [intros b ->; exact RE| |apply branch_to_grow].
      apply (grow_then H (fun b => b = entry) g (position H g entry)); [intros b ->; exact RE|exact A0|exact B].
    + eapply loops_trans; [|apply loops_branch]. eapply loops_trans; [|eapply gens_loops; exact G1]. now apply loops_eq.
Qed.
End Sim.
