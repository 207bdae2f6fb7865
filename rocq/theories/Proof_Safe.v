(** The interpreter of Spec_Safe.v does what Spec_Run.v says. *)
From Coq Require Import List Arith NArith ZArith Bool Lia.
From Verif Require Import Base Model_Literal Model_Parse Spec_Parse Model_Sem Spec_Sem Spec_Sem2 Spec_Run Spec_Safe Proof_LLVM5.
Import ListNotations.
Open Scope list_scope.
Open Scope nat_scope.

Section Steps.
Variable H : host.
Variable ys : list symbol.
Local Notation val := (sv (h_float H)).
Local Notation rst := (rst H).
Local Notation outcome := (outcome H).
Local Notation every1 := (every1 H).
Local Notation every2 := (every2 H).
Local Notation eval := (eval H ys every1 every2).
Local Notation evals := (evals H ys every1 every2).
Local Notation exec := (exec H ys every1 every2).
Local Notation branch := (branch H ys every1 every2).
Local Notation otherwise := (otherwise H ys every1 every2).
Local Notation after := (after H ys every1 every2).
Local Notation run_expr := (run_expr H ys).
Local Notation run_exprs := (run_exprs H ys).
Local Notation run_block := (run_block H ys).
Local Notation run_branch := (run_branch H ys).
Local Notation run_otherwise := (run_otherwise H ys).
Local Notation run_after := (run_after H ys).

Lemma next_done : forall A B (x : answer A) (k : A -> answer B) b, next x k = Done b -> exists a, x = Done a /\ k a = Done b.
Proof. intros A B x k b E. destruct x; try discriminate E. eauto. Qed.
Lemma expect_done : forall v t s w v' s', expect H v t s w = Done (v', s') -> of_type H v t = true /\ v' = v /\ s' = s \/ w = Done (v', s').
Proof. intros v t s w v' s' E. unfold expect in E. destruct (of_type H v t); [|auto]. injection E as -> ->. auto. Qed.
Lemma result_done : forall b r s v' s', result_of H b r s = Done (v', s') -> r = Some v' /\ s' = s.
Proof. intros b r s v' s' E. unfold result_of in E. destruct r; [injection E as -> ->; auto|]. destruct b; discriminate E. Qed.

Lemma run_sound : forall f,
  (forall s x v s', run_expr f s x = Done (v, s') -> eval s x v s') /\
  (forall s l vs s', run_exprs f s l = Done (vs, s') -> evals s l vs s') /\
  (forall s l o s', run_block f s l = Done (o, s') -> exec s l o s') /\
  (forall s n r o s', run_branch f s n r = Done (o, s') -> branch s n r o s') /\
  (forall s r o s', run_otherwise f s r = Done (o, s') -> otherwise s r o s') /\
  (forall s o1 r o s', run_after f s o1 r = Done (o, s') -> after s o1 r o s').
Proof.
  induction f as [|f (I1 & I2 & I3 & I4 & I5 & I6)]; [repeat split; intros; discriminate|].
  refine (conj _ (conj _ (conj _ (conj _ (conj _ _))))).
  - intros s x v s' E. cbn [Spec_Safe.run_expr] in E. destruct x as [t k ty c|t w ty|t k args ty|o x ty c|o x y ty c].
    + destruct (read H s k) as [w|] eqn:R; [|discriminate E]. apply expect_done in E as [(T & -> & ->)|E]; [|discriminate E]. now constructor.
    + apply expect_done in E as [(T & -> & ->)|E]; [|discriminate E]. now constructor.
    + apply next_done in E as ((vs & s1) & EA & E). apply I2 in EA. destruct (is_external ys k) eqn:X.
      * destruct (h_call H k vs (r_out H s1)) as [(w, o)|] eqn:C; [|discriminate E]. apply expect_done in E as [(T & -> & ->)|E]; [|discriminate E]. eapply ev_external; eauto.
      * destruct (lookup (r_funs H s1) k) as [(ps, body)|] eqn:L; [|discriminate E]. destruct (List.length ps =? List.length vs) eqn:LE; [|discriminate E].
        apply Nat.eqb_eq in LE. apply next_done in E as ((o & s2) & EB & E). apply I3 in EB. cbn [fst snd] in E.
        destruct (returned H o) as [w|] eqn:RT; [|discriminate E]. apply expect_done in E as [(T & -> & ->)|E]; [|discriminate E]. eapply ev_call; eauto.
    + apply next_done in E as ((w & s1) & EX & E). apply I1 in EX. cbn [fst snd] in E. apply result_done in E as (U & ->). eapply ev_un; eauto. exact I.
    + apply next_done in E as ((w & s1) & EX & E). apply I1 in EX. cbn [fst snd] in E. apply next_done in E as ((w2 & s2) & EY & E). apply I1 in EY. cbn [fst snd] in E.
      apply result_done in E as (U & ->). eapply ev_bin; eauto. exact I.
  - intros s l vs s' E. cbn [Spec_Safe.run_exprs] in E. destruct l as [|x l]; [injection E as <- <-; constructor|].
    apply next_done in E as ((w & s1) & EX & E). apply I1 in EX. cbn [fst snd] in E. apply next_done in E as ((ws & s2) & EL & E). apply I2 in EL. cbn [fst snd] in E.
    injection E as <- <-. econstructor; eauto.
  - intros s l o s' E. cbn [Spec_Safe.run_block] in E. destruct l as [|n r]; [injection E as <- <-; constructor|].
    destruct (tn_type n) eqn:TN; try discriminate E.
    + destruct (tn_pay n) eqn:TP; try discriminate E.
      * apply ex_skip; [right; auto|]. now apply I3.
      * apply next_done in E as ((w & s1) & EX & E). apply I1 in EX. apply I3 in E. eapply ex_define; eauto.
    + destruct (tn_pay n) eqn:TP; try discriminate E. apply next_done in E as ((w & s1) & EX & E). apply I1 in EX. cbn [fst snd] in E.
      destruct (assign H s1 sym w) as [s2|] eqn:EA; [|discriminate E]. apply I3 in E. eapply ex_assign; eauto.
    + destruct (tn_pay n) eqn:TP; try discriminate E. destruct (is_external ys sym) eqn:X; apply I3 in E; [eapply ex_external; eauto|eapply ex_function; eauto].
    + destruct (tn_pay n) eqn:TP; try discriminate E. apply next_done in E as ((w & s1) & EX & E). apply I1 in EX. apply I3 in E. eapply ex_call; eauto.
    + destruct (tn_pay n) eqn:TP; try discriminate E; [injection E as <- <-; now apply ex_leave|].
      apply next_done in E as ((w & s1) & EX & E). apply I1 in EX. injection E as <- <-. eapply ex_return; eauto.
    + apply ex_if; auto.
    + destruct (tn_pay n) eqn:TP; try discriminate E. apply next_done in E as ((w & s1) & EX & E). apply I1 in EX. destruct w as [z|z|[|]|z|z|]; try discriminate E.
      * apply next_done in E as ((o1 & s2) & EB & E). apply I3 in EB. destruct o1 as [| | |v].
        -- apply I3 in E. eapply ex_again; eauto.
        -- apply I3 in E. eapply ex_quit; eauto.
        -- apply I3 in E. eapply ex_again; eauto.
        -- injection E as <- <-. eapply ex_return_inside; eauto.
      * apply I3 in E. eapply ex_stop; eauto.
    + apply ex_skip; [left; rewrite TN; cbn; auto|]. now apply I3.
    + apply next_done in E as ((o1 & s1) & EB & E). apply I3 in EB. apply I6 in E. eapply ex_space; eauto.
    + apply ex_skip; [left; rewrite TN; cbn; auto|]. now apply I3.
    + apply ex_skip; [left; rewrite TN; cbn; auto|]. now apply I3.
    + injection E as <- <-. now apply ex_break.
    + injection E as <- <-. now apply ex_continue.
  - intros s n r o s' E. cbn [Spec_Safe.run_branch] in E. destruct (tn_pay n) eqn:TP; try discriminate E.
    apply next_done in E as ((w & s1) & EX & E). apply I1 in EX. destruct w as [z|z|[|]|z|z|]; try discriminate E.
    + apply next_done in E as ((o1 & s2) & EB & E). apply I3 in EB. apply I6 in E. eapply br_true; eauto.
    + apply I5 in E. eapply br_false; eauto.
  - intros s r o s' E. cbn [Spec_Safe.run_otherwise] in E. destruct r as [|n r]; [apply ot_end; now apply I3|].
    destruct (tn_type n) eqn:TN; try (apply ot_end; now apply I3).
    + apply ot_elif; auto.
    + apply next_done in E as ((o1 & s1) & EB & E). apply I3 in EB. apply I6 in E. eapply ot_else; eauto.
    + apply ot_comment; auto.
  - intros s o1 r o s' E. cbn [Spec_Safe.run_after] in E. destruct o1; try (injection E as <- <-; apply af_jump; discriminate). apply af_normal. now apply I3.
Qed.

(** No function from outside is declared with a body. *)
Definition inside (s : rst) : Prop := forall k p, lookup (r_funs H s) k = Some p -> is_external ys k = false.
Definition ends {A} (run : nat -> answer A) (a : A) : Prop := exists m, forall f, m <= f -> run f = Done a.

Lemma ends_step : forall A (run : nat -> answer A) a, ends (fun f => run (S f)) a -> ends run a.
Proof. intros A run a (m & E). exists (S m). intros [|f] L; [lia|]. apply E. lia. Qed.
Lemma ends_next : forall A B (x : nat -> answer A) (k : nat -> A -> answer B) a b, ends x a -> ends (fun f => k f a) b -> ends (fun f => next (x f) (k f)) b.
Proof. intros A B x k a b (m & E) (m' & E'). exists (max m m'). intros f L. rewrite (E f) by lia. cbn [next]. apply E'. lia. Qed.
Lemma next_is : forall A B (x : answer A) (k : A -> answer B) a y, x = Done a -> k a = y -> next x k = y.
Proof. intros A B x k a y -> E. exact E. Qed.
Lemma ends_now : forall A (a : A), ends (fun _ => Done a) a.
Proof. intros A a. exists 0. auto. Qed.
Lemma ends_eq : forall A (x y : nat -> answer A) a, (forall f, x f = y f) -> ends y a -> ends x a.
Proof. intros A x y a E (m & L). exists m. intros f LE. rewrite E. auto. Qed.

Ltac step := apply ends_step; cbn [Spec_Safe.run_expr Spec_Safe.run_exprs Spec_Safe.run_block Spec_Safe.run_branch Spec_Safe.run_otherwise Spec_Safe.run_after].

Lemma otherwise_block : forall s r a, ends (fun f => run_block f s r) a -> ends (fun f => run_otherwise f s r) a.
Proof.
  intros s r. induction r as [|n r IH]; intros a E; [step; exact E|]. step.
  assert (D : ends (fun f => run_block (S f) s (n :: r)) a). { destruct E as (m & E). exists m. intros f L. apply E. lia. }
  cbn [Spec_Safe.run_block] in D. destruct (tn_type n) eqn:TN; try exact E.
  - destruct D as (m & D). specialize (D m (le_n _)). discriminate D.
  - destruct D as (m & D). specialize (D m (le_n _)). discriminate D.
  - apply IH. exact D.
Qed.

Lemma run_complete :
  (forall s x v s', eval s x v s' -> inside s -> inside s' /\ ends (fun f => run_expr f s x) (v, s')) /\
  (forall s l vs s', evals s l vs s' -> inside s -> inside s' /\ ends (fun f => run_exprs f s l) (vs, s')) /\
  (forall s l o s', exec s l o s' -> inside s -> inside s' /\ ends (fun f => run_block f s l) (o, s')) /\
  (forall s n r o s', branch s n r o s' -> inside s -> inside s' /\ ends (fun f => run_branch f s n r) (o, s')) /\
  (forall s r o s', otherwise s r o s' -> inside s -> inside s' /\ ends (fun f => run_otherwise f s r) (o, s')) /\
  (forall s o1 r o s', after s o1 r o s' -> inside s -> inside s' /\ ends (fun f => run_after f s o1 r) (o, s')).
Proof.
  apply runs_ind.
  - intros s t k ty c v R T IN. split; [exact IN|]. step. rewrite R. unfold expect. rewrite T. apply ends_now.
  - intros s t v ty T IN. split; [exact IN|]. step. unfold expect. rewrite T. apply ends_now.
  - intros s s1 o x ty c v v' _ IH _ U IN. destruct (IH IN) as (I1 & E). split; [exact I1|]. step. eapply ends_next; [exact E|]. cbn [fst snd].
    rewrite U. apply ends_now.
  - intros s s1 s2 o x y ty c a b v _ IH1 _ IH2 _ U IN. destruct (IH1 IN) as (I1 & E1). destruct (IH2 I1) as (I2 & E2). split; [exact I2|]. step.
    eapply (ends_next _ _ _ (fun f p => next (run_expr f (snd p) y) _)); [exact E1|]. cbn [fst snd]. eapply ends_next; [exact E2|]. cbn [fst snd]. rewrite U. apply ends_now.
  - intros s s1 s2 t k args ty vs ps body o v _ IH1 L LE _ IH2 RT T IN. destruct (IH1 IN) as (I1 & E1). destruct (IH2 I1) as (I2 & E2).
    split; [exact I1|]. step. destruct E1 as (m & E1). destruct E2 as (m' & E2). exists (max m m'). intros f LF; cbv beta. apply (next_is _ _ _ _ _ _ (E1 f ltac:(lia))); cbv beta iota; cbn [fst snd].
    rewrite (I1 _ _ L), L, (proj2 (Nat.eqb_eq _ _) LE). apply (next_is _ _ _ _ _ _ (E2 f ltac:(lia))); cbv beta iota; cbn [fst snd]. rewrite RT. unfold expect. rewrite T. reflexivity.
  - intros s s1 t k args ty vs v o _ IH1 X HC T IN. destruct (IH1 IN) as (I1 & E1). split; [exact I1|]. step.
    destruct E1 as (m & E1). exists m. intros f LF; cbv beta. apply (next_is _ _ _ _ _ _ (E1 f ltac:(lia))); cbv beta iota; cbn [fst snd]. rewrite X, HC. unfold expect. rewrite T. reflexivity.
  - intros s IN. split; [exact IN|]. step. apply ends_now.
  - intros s s1 s2 x xs v vs _ IH1 _ IH2 IN. destruct (IH1 IN) as (I1 & E1). destruct (IH2 I1) as (I2 & E2). split; [exact I2|]. step.
    eapply (ends_next _ _ _ (fun f p => next (run_exprs f (snd p) xs) _)); [exact E1|]. cbn [fst snd]. eapply ends_next; [exact E2|]. apply ends_now.
  - intros s IN. split; [exact IN|]. step. apply ends_now.
  - intros s s' n r o C _ IH IN. destruct (IH IN) as (I1 & E1). split; [exact I1|]. step.
    destruct C as [[<-|[<-|[<-|[]]]]|(-> & ->)]; exact E1.
  - intros s s1 s' n r k e v o TN TP _ IH1 _ IH2 IN. destruct (IH1 IN) as (I1 & E1).
    assert (ID : inside (define H s1 k v)) by (unfold define; destruct (r_loc H s1); exact I1). destruct (IH2 ID) as (I2 & E2). split; [exact I2|]. step. rewrite TN, TP.
    eapply (ends_next _ _ _ (fun f p => run_block f (define H (snd p) k (fst p)) r)); [exact E1|]. exact E2.
  - intros s s1 s2 s' n r k e v o TN TP _ IH1 EA _ IH2 IN. destruct (IH1 IN) as (I1 & E1).
    assert (ID : inside s2).
    { unfold assign in EA. unfold set_loc, set_glob in EA. destruct (r_loc H s1); destruct (local H s1 k); destruct (r_glob H s1 k); try discriminate EA; injection EA as <-; exact I1. }
    destruct (IH2 ID) as (I2 & E2). split; [exact I2|]. step. rewrite TN, TP.
    eapply (ends_next _ _ _ (fun f p => match assign H (snd p) k (fst p) with Some s2 => run_block f s2 r | None => Wrong end)); [exact E1|]. cbn [fst snd]. rewrite EA. exact E2.
  - intros s s1 s' n r e v o TN TP _ IH1 _ IH2 IN. destruct (IH1 IN) as (I1 & E1). destruct (IH2 I1) as (I2 & E2). split; [exact I2|]. step. rewrite TN, TP.
    eapply (ends_next _ _ _ (fun f p => run_block f (snd p) r)); [exact E1|]. exact E2.
  - intros s s1 n r e v TN TP _ IH1 IN. destruct (IH1 IN) as (I1 & E1). split; [exact I1|]. step. rewrite TN, TP. eapply ends_next; [exact E1|]. apply ends_now.
  - intros s n r TN TP IN. split; [exact IN|]. step. rewrite TN, TP. apply ends_now.
  - intros s n r TN IN. split; [exact IN|]. step. rewrite TN. apply ends_now.
  - intros s n r TN IN. split; [exact IN|]. step. rewrite TN. apply ends_now.
  - intros s s' n r o TN _ IH IN. destruct (IH IN) as (I1 & E1). split; [exact I1|]. step. rewrite TN. exact E1.
  - intros s s1 n r e TN TP _ IH1 o s' _ IH2 IN. destruct (IH1 IN) as (I1 & E1). destruct (IH2 I1) as (I2 & E2). split; [exact I2|]. step. rewrite TN, TP.
    destruct E1 as (m & E1). destruct E2 as (m' & E2). exists (max m m'). intros f L; cbv beta. apply (next_is _ _ _ _ _ _ (E1 f ltac:(lia))); cbv beta iota; cbn [fst snd]. apply E2. lia.
  - intros s s1 s2 s' n r e o1 o TN TP _ IH1 _ IH2 C _ IH3 IN. destruct (IH1 IN) as (I1 & E1). destruct (IH2 I1) as (I2 & E2).
    assert (IC : inside (close H s1 s2)) by exact I1. destruct (IH3 IC) as (I3 & E3). split; [exact I3|]. step. rewrite TN, TP.
    destruct E1 as (m & E1). destruct E2 as (m' & E2). destruct E3 as (m'' & E3). exists (max m (max m' m'')). intros f L; cbv beta. apply (next_is _ _ _ _ _ _ (E1 f ltac:(lia))); cbv beta iota; cbn [fst snd].
    apply (next_is _ _ _ _ _ _ (E2 f ltac:(lia))); cbv beta iota; cbn [fst snd]. destruct C as [-> | ->]; apply E3; lia.
  - intros s s1 s2 s' n r e o TN TP _ IH1 _ IH2 _ IH3 IN. destruct (IH1 IN) as (I1 & E1). destruct (IH2 I1) as (I2 & E2).
    assert (IC : inside (close H s1 s2)) by exact I1. destruct (IH3 IC) as (I3 & E3). split; [exact I3|]. step. rewrite TN, TP.
    destruct E1 as (m & E1). destruct E2 as (m' & E2). destruct E3 as (m'' & E3). exists (max m (max m' m'')). intros f L; cbv beta. apply (next_is _ _ _ _ _ _ (E1 f ltac:(lia))); cbv beta iota; cbn [fst snd].
    apply (next_is _ _ _ _ _ _ (E2 f ltac:(lia))); cbv beta iota; cbn [fst snd]. apply E3; lia.
  - intros s s1 s2 n r e v TN TP _ IH1 _ IH2 IN. destruct (IH1 IN) as (I1 & E1). destruct (IH2 I1) as (I2 & E2). split; [exact I1|]. step. rewrite TN, TP.
    destruct E1 as (m & E1). destruct E2 as (m' & E2). exists (max m m'). intros f L; cbv beta. apply (next_is _ _ _ _ _ _ (E1 f ltac:(lia))); cbv beta iota; cbn [fst snd]. exact (next_is _ _ _ _ _ _ (E2 f ltac:(lia)) eq_refl).
  - intros s s1 s' n r o1 o TN _ IH1 _ IH2 IN. destruct (IH1 IN) as (I1 & E1). destruct (IH2 I1) as (I2 & E2). split; [exact I2|]. step. rewrite TN.
    eapply (ends_next _ _ _ (fun f q => run_after f (snd q) (fst q) r)); [exact E1|]. exact E2.
  - intros s s' n r k ps o TN TP X _ IH IN.
    assert (ID : inside (declare H s k ps (tn_child n))).
    { intros j p L. cbn [declare r_funs lookup] in L. destruct (k =? j) eqn:K; [apply Nat.eqb_eq in K; now subst j|exact (IN _ _ L)]. }
    destruct (IH ID) as (I1 & E1). split; [exact I1|]. step. rewrite TN, TP, X. exact E1.
  - intros s s' n r k ps o TN TP X _ IH IN. destruct (IH IN) as (I1 & E1). split; [exact I1|]. step. rewrite TN, TP, X. exact E1.
  - intros s s1 s2 s' n r e o1 o TP _ IH1 _ IH2 _ IH3 IN. destruct (IH1 IN) as (I1 & E1). destruct (IH2 I1) as (I2 & E2).
    assert (IC : inside (close H s1 s2)) by exact I1. destruct (IH3 IC) as (I3 & E3). split; [exact I3|]. step. rewrite TP.
    destruct E1 as (m & E1). destruct E2 as (m' & E2). destruct E3 as (m'' & E3). exists (max m (max m' m'')). intros f L; cbv beta. apply (next_is _ _ _ _ _ _ (E1 f ltac:(lia))); cbv beta iota; cbn [fst snd].
    apply (next_is _ _ _ _ _ _ (E2 f ltac:(lia))); cbv beta iota; cbn [fst snd]. apply E3; lia.
  - intros s s1 s' n r e o TP _ IH1 _ IH2 IN. destruct (IH1 IN) as (I1 & E1). destruct (IH2 I1) as (I2 & E2). split; [exact I2|]. step. rewrite TP.
    destruct E1 as (m & E1). destruct E2 as (m' & E2). exists (max m m'). intros f L; cbv beta. apply (next_is _ _ _ _ _ _ (E1 f ltac:(lia))); cbv beta iota; cbn [fst snd]. apply E2. lia.
  - intros s s' n r o TN _ IH IN. destruct (IH IN) as (I1 & E1). split; [exact I1|]. step. rewrite TN. exact E1.
  - intros s s' n r o TN _ IH IN. destruct (IH IN) as (I1 & E1). split; [exact I1|]. step. rewrite TN. exact E1.
  - intros s s1 s' n r o1 o TN _ IH1 _ IH2 IN. destruct (IH1 IN) as (I1 & E1). assert (IC : inside (close H s s1)) by exact IN. destruct (IH2 IC) as (I2 & E2).
    split; [exact I2|]. step. rewrite TN. eapply (ends_next _ _ _ (fun f q => run_after f (close H s (snd q)) (fst q) r)); [exact E1|]. exact E2.
  - intros s s' r o _ IH IN. destruct (IH IN) as (I1 & E1). split; [exact I1|]. now apply otherwise_block.
  - intros s r o s' _ IH IN. destruct (IH IN) as (I1 & E1). split; [exact I1|]. step. exact E1.
  - intros s r o NE IN. split; [exact IN|]. step. destruct o; try apply ends_now. now destruct NE.
Qed.

Lemma inside_start : forall o, inside (start H o).
Proof. intros o k p L. discriminate L. Qed.

(** Whole programs. *)
Lemma program_exits : forall l o code o', exits H ys every1 every2 l o code o' <-> exists f, run_program H ys f l o = Done (code, o').
Proof.
  intros l o code o'. split.
  - intros (out & s' & EX & EO & C). destruct (proj1 (proj2 (proj2 run_complete)) _ _ _ _ EX (inside_start o)) as (_ & m & E). exists m. unfold run_program.
    rewrite (E m (le_n _)). cbn [next fst snd]. rewrite EO. destruct C as [(-> & ->)| ->]; reflexivity.
  - intros (f & E). unfold run_program in E. apply next_done in E as ((out & s') & R & E). apply (proj1 (proj2 (proj2 (run_sound f)))) in R. exists out, s'. split; [exact R|].
    cbn [fst snd] in E. destruct out as [| | |[[z|z|z|z|z|]|]]; try discriminate E; injection E as <- <-; auto.
Qed.
Lemma exits_one : forall l o c1 o1 c2 o2, exits H ys every1 every2 l o c1 o1 -> exits H ys every1 every2 l o c2 o2 -> c1 = c2 /\ o1 = o2.
Proof.
  intros l o c1 o1 c2 o2 (out & s' & EX & EO & C) (out2 & s2 & EX2 & EO2 & C2).
  destruct (proj1 (proj2 (proj2 run_complete)) _ _ _ _ EX (inside_start o)) as (_ & m & E).
  destruct (proj1 (proj2 (proj2 run_complete)) _ _ _ _ EX2 (inside_start o)) as (_ & m2 & E2).
  specialize (E (max m m2) ltac:(lia)). specialize (E2 (max m m2) ltac:(lia)). rewrite E in E2. injection E2 as <- <-. subst o1 o2. split; [|reflexivity].
  destruct C as [(-> & ->)| ->]; destruct C2 as [(Q & ->)|Q]; try discriminate Q; [reflexivity|now injection Q].
Qed.
End Steps.
