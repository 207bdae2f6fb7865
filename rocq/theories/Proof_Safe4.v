(** Programs that keep the rules of Proof_Safe2.v do not go wrong: the runs. *)
From Coq Require Import List Arith NArith ZArith Bool Lia.
From Verif Require Import Base Model_Literal Model_Parse Spec_Parse Model_Sem Spec_Sem Spec_Sem2 Spec_Run Spec_Safe Proof_LLVM3 Proof_Safe2 Proof_Safe3.
Import ListNotations.
Open Scope list_scope.
Open Scope nat_scope.

Section Runs.
Variable H : host.
Variable ys : list symbol.
Variable D : decls.
Local Notation val := (sv (h_float H)).
Local Notation rst := (rst H).
Local Notation outcome := (Spec_Run.outcome H).
Local Notation fine_expr := (fine_expr H D).
Local Notation fine_stmt := (fine_stmt H ys D).
Local Notation fine_block := (fine_block H ys D).
Local Notation live := (live H ys D).
Local Notation good := (good H ys D).
Local Notation mono := (mono H).
Local Notation run_expr := (run_expr H ys).
Local Notation run_exprs := (run_exprs H ys).
Local Notation run_block := (run_block H ys).
Local Notation run_branch := (run_branch H ys).
Local Notation run_otherwise := (run_otherwise H ys).
Local Notation run_after := (run_after H ys).

Definition okay {A} (Q : A -> Prop) (x : answer A) : Prop := match x with Done a => Q a | Wrong => False | _ => True end.
Lemma okay_next : forall A B (P : A -> Prop) (Q : B -> Prop) x k, okay P x -> (forall a, P a -> okay Q (k a)) -> okay Q (next x k).
Proof. intros A B P Q x k O K. destruct x; cbn in *; auto. Qed.
Lemma okay_weak : forall A (P Q : A -> Prop) x, okay P x -> (forall a, P a -> Q a) -> okay Q x.
Proof. intros A P Q x O K. destruct x; cbn in *; auto. Qed.

Definition gives (s : rst) (t : ty) (p : val * rst) : Prop := of_type H (fst p) t = true /\ good (snd p) /\ mono s (snd p).
Definition give (s : rst) (ts : list ty) (p : list val * rst) : Prop := Forall2 (fun v t => of_type H v t = true) (fst p) ts /\ good (snd p) /\ mono s (snd p).
Definition suitable (R : ty) (b : bool) (o : outcome) : Prop :=
  match o with
  | ONormal => True
  | OBreak | OContinue => b = true
  | OReturn (Some v) => of_type H v R = true
  | OReturn None => R = TVoid
  end.
Definition finish (R : ty) (b : bool) (s : rst) (l : list tnode) (G : list nat) (L : option (list nat)) (q : outcome * rst) : Prop :=
  good (snd q) /\ mono s (snd q) /\ suitable R b (fst q) /\ (fst q = ONormal -> live G L (snd q) /\ ~ has_return l).

Lemma finish_from : forall R b s s' l l' G L q, mono s s' -> (has_return l' -> has_return l) -> finish R b s' l G L q -> finish R b s l' G L q.
Proof.
  intros R b s s' l l' G L q M I (K & M' & S1 & N1). refine (conj K (conj (mono_trans _ _ _ _ M M') (conj S1 _))).
  intro E. destruct (N1 E) as (V & X). split; auto.
Qed.
Lemma no_return : forall n r, tn_type n <> N_RETURN -> has_return (n :: r) -> has_return r.
Proof. intros n r T (x & [<-|I] & E); [now destruct T|]. now exists x. Qed.

Lemma same_length : forall A B (P : A -> B -> Prop) l m, Forall2 P l m -> List.length l = List.length m.
Proof. intros A B P l m F. induction F; cbn; auto. Qed.

(** What a call gives. *)
Lemma returned_fits : forall r body s G L q, finish r false s body G L q -> (r <> TVoid -> has_return body) ->
  exists v, returned H (fst q) = Some v /\ of_type H v r = true.
Proof.
  intros r body s G L (o & s') (_ & _ & S1 & N1) R. cbn [fst snd] in *. destruct o as [| | |[v|]]; cbn [suitable returned] in *; try discriminate S1.
  - exists SvVoid. split; [reflexivity|]. destruct (N1 eq_refl) as (_ & X). destruct r; try reflexivity; destruct X; apply R; discriminate.
  - eauto.
  - subst r. eauto.
Qed.

Definition expr_safe (f : nat) : Prop := forall s x G L, fine_expr (all G L) x -> good s -> live G L s -> okay (gives s (x_ty x)) (run_expr f s x).
Definition exprs_safe (f : nat) : Prop := forall s xs G L, (forall x, In x xs -> fine_expr (all G L) x) -> good s -> live G L s -> okay (give s (map x_ty xs)) (run_exprs f s xs).
Definition block_safe (f : nat) : Prop := forall R b s l G L G' L', fine_block R b false G L l G' L' -> good s -> live G L s -> okay (finish R b s l G' L') (run_block f s l).
Definition branch_safe (f : nat) : Prop := forall R b s n r y G L G1 L1 G' L', tn_pay n = XExpr y -> fine_expr (all G L) y -> x_ty y = TBool ->
  fine_block R b false G L (tn_child n) G1 L1 -> fine_block R b true G L r G' L' -> good s -> live G L s -> okay (finish R b s r G' L') (run_branch f s n r).
Definition otherwise_safe (f : nat) : Prop := forall R b s r G L G' L', fine_block R b true G L r G' L' -> good s -> live G L s -> okay (finish R b s r G' L') (run_otherwise f s r).
Definition after_safe (f : nat) : Prop := forall R b s o r G L G' L', fine_block R b false G L r G' L' -> good s -> suitable R b o -> (o = ONormal -> live G L s) ->
  okay (finish R b s r G' L') (run_after f s o r).

Lemma bool_value : forall v, of_type H v TBool = true -> exists b, v = SvBool b.
Proof. intros v T. destruct v; try discriminate T. eauto. Qed.

Lemma step_expr : forall f, expr_safe f -> exprs_safe f -> block_safe f -> expr_safe (S f).
Proof.
  intros f I1 I2 I3 s x G L F K V. inversion F; subst; cbn [Spec_Safe.run_expr x_ty].
  - destruct (live_read H ys D s G L k ty m K V) as (v & R & T); [assumption|assumption|]. rewrite R. unfold expect. rewrite T. cbn. refine (conj T (conj K (mono_refl _ _))).
  - unfold expect. match goal with A : of_type _ _ _ = true |- _ => rewrite A; cbn; refine (conj A (conj K (mono_refl _ _))) end.
  - eapply okay_next; [apply I2 with G L; assumption|]. intros (vs & s1) (T & K1 & M1). cbn [fst snd] in *. cbv beta iota.
    pose proof (live_mono _ _ _ _ _ _ _ M1 V) as V1. destruct (is_external ys k) eqn:X.
    + destruct (h_call H k vs (r_out H s1)) as [(v, o)|]; [|exact I]. unfold expect. destruct (of_type H v r) eqn:TV; [|exact I]. cbn.
      destruct (good_out H ys D s1 o K1) as (K2 & M2). refine (conj TV (conj K2 (mono_trans _ _ _ _ M1 M2))).
    + assert (LK : lookup (r_funs H s1) k <> None).
      { destruct V1 as (V1 & V2). match goal with A : In k _ |- _ => unfold all in A; rename A into IK end. destruct L as [l|].
        - apply in_app_or in IK as [IK|IK].
          + destruct (r_loc H s1) as [g|]; [|destruct V2]. specialize (V2 k IK). unfold live_in in V2. match goal with A : D k = _ |- _ => rewrite A in V2 end. destruct V2.
          + specialize (V1 k IK). unfold live_at in V1. match goal with A : D k = _ |- _ => rewrite A in V1 end. destruct V1 as [V1|V1]; [congruence|exact V1].
        - specialize (V1 k IK). unfold live_at in V1. match goal with A : D k = _ |- _ => rewrite A in V1 end. destruct V1 as [V1|V1]; [congruence|exact V1]. }
      destruct (lookup (r_funs H s1) k) as [(ps, body)|] eqn:Q; [|now destruct LK].
      destruct (proj2 (proj2 K1) k ps body Q) as (ts & r' & G0 & G2 & L2 & E & P & B & R & A).
      match goal with A : D k = Some (DFun (map _ _) _) |- _ => rewrite A in E; injection E as <- <- end.
      assert (LE : List.length ps = List.length vs). { pose proof (same_length _ _ _ _ _ P). pose proof (same_length _ _ _ _ _ T). congruence. }
      rewrite (proj2 (Nat.eqb_eq _ _) LE). destruct (good_enter H ys D s1 ps (map x_ty xs) vs G0 K1 P T A) as (KE & VE).
      eapply okay_next; [apply (I3 r false _ body G0 (Some ps) G2 L2 B KE VE)|]. intros q FQ. destruct (returned_fits _ _ _ _ _ _ FQ R) as (v & RV & TV). rewrite RV.
      unfold expect. rewrite TV. destruct FQ as (KQ & MQ & _). destruct (good_leave H ys D s1 ps vs (snd q) K1 KQ MQ) as (K2 & M2).
      cbn. refine (conj TV (conj K2 (mono_trans _ _ _ _ M1 M2))).
  - eapply okay_next; [apply I1 with G L; assumption|]. intros (v & s1) (T & K1 & M1). cbn [fst snd] in *. unfold result_of.
    destruct (unary H UNeg v) as [w|] eqn:U.
    + cbn. refine (conj _ (conj K1 M1)). exact (unary_type H UNeg v w (x_ty x0) ltac:(assumption) T U).
    + rewrite (suits1_of H UNeg v (x_ty x0)); [exact I|assumption|exact T].
  - eapply okay_next; [apply I1 with G L; assumption|]. intros (v & s1) (T & K1 & M1). cbn [fst snd] in *. unfold result_of.
    match goal with A : x_ty x0 = TBool |- _ => rewrite A in T end. destruct (unary H UNot v) as [w|] eqn:U.
    + cbn. refine (conj _ (conj K1 M1)). exact (unary_type H UNot v w TBool eq_refl T U).
    + rewrite (suits1_of H UNot v TBool); [exact I|reflexivity|exact T].
  - eapply okay_next; [apply I1 with G L; assumption|]. intros (v & s1) (T & K1 & M1). cbn [fst snd] in *.
    pose proof (live_mono _ _ _ _ _ _ _ M1 V) as V1.
    eapply okay_next; [apply I1 with G L; assumption|]. intros (v2 & s2) (T2 & K2 & M2). cbn [fst snd] in *. unfold result_of.
    match goal with A : x_ty x0 = x_ty y |- _ => rewrite A in T end.
    destruct (binary H o v v2) as [w|] eqn:U.
    + cbn. refine (conj _ (conj K2 (mono_trans _ _ _ _ M1 M2))). exact (binary_type H o (x_ty y) r v v2 w ltac:(assumption) T T2 U).
    + rewrite (suits2_of H o (x_ty y) r v v2); try assumption. exact I.
Qed.
Lemma step_exprs : forall f, expr_safe f -> exprs_safe f -> exprs_safe (S f).
Proof.
  intros f I1 I2 s xs G L F K V. cbn [Spec_Safe.run_exprs]. destruct xs as [|x xs]; [cbn; refine (conj (Forall2_nil _) (conj K (mono_refl _ _)))|].
  eapply okay_next; [apply I1 with G L; [apply F; now left|exact K|exact V]|]. intros (v & s1) (T & K1 & M1). cbn [fst snd] in *.
  pose proof (live_mono _ _ _ _ _ _ _ M1 V) as V1.
  eapply okay_next; [apply (I2 s1 xs G L); [intros z I; apply F; now right|exact K1|exact V1]|]. intros (vs & s2) (T2 & K2 & M2). cbn [fst snd] in *. cbn.
  refine (conj (Forall2_cons _ _ T T2) (conj K2 (mono_trans _ _ _ _ M1 M2))).
Qed.
Lemma step_after : forall f, block_safe f -> after_safe (S f).
Proof.
  intros f I3 R b s o r G L G' L' F K S1 V. cbn [Spec_Safe.run_after]. destruct o as [| | |v];
    [exact (I3 R b s r G L G' L' F K (V eq_refl))|..]; cbn; refine (conj K (conj (mono_refl _ _) (conj S1 _))); cbn; intro Q; discriminate Q.
Qed.
Lemma step_otherwise : forall f, block_safe f -> branch_safe f -> otherwise_safe f -> after_safe f -> otherwise_safe (S f).
Proof.
  intros f I3 I4 I5 I6 R b s r G L G' L' F K V. cbn [Spec_Safe.run_otherwise]. destruct r as [|n r].
  - inversion F; subst. apply (I3 R b s [] G' L' G' L'); [constructor|exact K|exact V].
  - pose proof F as F0. apply block_inv in F as (p' & G1 & L1 & S1 & B1).
    destruct (tn_type n) eqn:T; try (apply (I3 R b s (n :: r) G L G' L'); [apply block_closed with true; [exact F0|rewrite T; discriminate..]|exact K|exact V]).
    + destruct (condition_inv _ _ _ _ _ _ _ _ _ _ _ _ S1) as (y & G3 & L3 & P & -> & -> & -> & FY & TY & FC); [rewrite T; cbn; auto|]. rewrite T in FC, B1. cbn [looping forks] in FC, B1.
      eapply okay_weak; [exact (I4 R b s n r y G L G3 L3 G' L' P FY TY FC B1 K V)|]. intros q. apply finish_from; [apply mono_refl|]. apply no_return. rewrite T. discriminate.
    + destruct (else_inv _ _ _ _ _ _ _ _ _ _ _ _ S1 T) as (G3 & L3 & _ & -> & -> & -> & FC).
      eapply okay_next; [exact (I3 R b s (tn_child n) G L G3 L3 FC K V)|]. intros q (K1 & M1 & S2 & _). destruct (good_close H ys D s (snd q) K K1 M1) as (K2 & M2).
      eapply okay_weak; [exact (I6 R b _ (fst q) r G L G' L' B1 K2 S2 (fun _ => live_mono _ _ _ _ _ _ _ M2 V))|]. intros q'. apply finish_from; [exact M2|]. apply no_return. rewrite T. discriminate.
    + destruct (comment_inv _ _ _ _ _ _ _ _ _ _ _ _ S1 T) as (-> & -> & ->).
      eapply okay_weak; [exact (I5 R b s r G L G' L' B1 K V)|]. intros q. apply finish_from; [apply mono_refl|]. apply no_return. rewrite T. discriminate.
Qed.
Lemma step_branch : forall f, expr_safe f -> block_safe f -> otherwise_safe f -> after_safe f -> branch_safe (S f).
Proof.
  intros f I1 I3 I5 I6 R b s n r y G L G1 L1 G' L' P FY TY FC FR K V. cbn [Spec_Safe.run_branch]. rewrite P.
  eapply okay_next; [exact (I1 s y G L FY K V)|]. intros (v & s1) (T & K1 & M1). cbn [fst snd] in *. rewrite TY in T. destruct (bool_value v T) as ([|] & ->).
  - pose proof (live_mono _ _ _ _ _ _ _ M1 V) as V1.
    eapply okay_next; [exact (I3 R b s1 (tn_child n) G L G1 L1 FC K1 V1)|]. intros q (K2 & M2 & S2 & _). destruct (good_close H ys D s1 (snd q) K1 K2 M2) as (K3 & M3).
    eapply okay_weak; [exact (I6 R b _ (fst q) (behind r) G L G' L' (block_behind _ _ _ _ _ _ _ _ _ _ _ FR) K3 S2 (fun _ => live_mono _ _ _ _ _ _ _ M3 V1))|].
    intros q'. apply finish_from; [exact (mono_trans _ _ _ _ M1 M3)|]. apply return_behind.
  - pose proof (live_mono _ _ _ _ _ _ _ M1 V) as V1.
    eapply okay_weak; [exact (I5 R b s1 r G L G' L' FR K1 V1)|]. intros q'. apply finish_from; [exact M1|auto].
Qed.
Lemma step_block : forall f, expr_safe f -> block_safe f -> branch_safe f -> after_safe f -> block_safe (S f).
Proof.
  intros f I1 I3 I4 I6 R b s l G L G' L' F K V. destruct l as [|n r].
  { inversion F; subst. cbn. refine (conj K (conj (mono_refl _ _) (conj I _))). intros _. split; [exact V|]. intros (x & [] & _). }
  pose proof F as F0. apply block_inv in F as (p' & G1 & L1 & S1 & B1).
  (* the rest of the block *)
  assert (REST : forall s' , mono s s' -> good s' -> live G1 L1 s' -> p' = false -> tn_type n <> N_RETURN -> okay (finish R b s (n :: r) G' L') (run_block f s' r)).
  { intros s' M K' V' -> NR. eapply okay_weak; [exact (I3 R b s' r G1 L1 G' L' B1 K' V')|]. intro q. apply finish_from; [exact M|]. now apply no_return. }
  cbn [Spec_Safe.run_block]. inversion S1; subst; cbn [tn_type tn_pay tn_child] in *.
  - eapply okay_next; [apply I1 with G L; assumption|]. intros (v & s1) (T & K1 & M1). cbn [fst snd] in *.
    destruct (good_define H ys D s1 k v (x_ty y) m G L K1 (live_mono _ _ _ _ _ _ _ M1 V) ltac:(assumption) T) as (K2 & M2 & V2).
    apply REST; auto; [exact (mono_trans _ _ _ _ M1 M2)|discriminate].
  - apply REST; auto; [apply mono_refl|discriminate].
  - eapply okay_next; [apply I1 with G1 L1; assumption|]. intros (v & s1) (T & K1 & M1). cbn [fst snd] in *. pose proof (live_mono _ _ _ _ _ _ _ M1 V) as V1.
    destruct (good_assign H ys D s1 G1 L1 k v (x_ty y) true K1 V1 ltac:(assumption) ltac:(assumption) T) as (s2 & -> & K2 & M2).
    pose proof (mono_trans _ _ _ _ M1 M2) as M. apply REST; auto; [exact (live_mono _ _ _ _ _ _ _ M V)|discriminate].
  - eapply okay_next; [apply I1 with G1 L1; assumption|]. intros (v & s1) (T & K1 & M1). cbn [fst snd] in *. pose proof (live_mono _ _ _ _ _ _ _ M1 V) as V1.
    apply REST; auto. discriminate.
  - eapply okay_next; [apply I1 with G1 L1; assumption|]. intros (v & s1) (T & K1 & M1). cbn [fst snd] in *. cbn. refine (conj K1 (conj M1 (conj T _))). cbn. intro Q. discriminate Q.
  - cbn. refine (conj K (conj (mono_refl _ _) (conj eq_refl _))). cbn. intro Q. discriminate Q.
  - match goal with A : In t _ |- _ => destruct A as [<-|[<-|[<-|[]]]] end; cbn [looping forks] in *.
    + eapply okay_weak; [eapply I4; [reflexivity|eassumption|eassumption|eassumption|exact B1|exact K|exact V]|]. intros q. apply finish_from; [apply mono_refl|]. apply no_return. discriminate.
    + match goal with A : _ -> false = true |- _ => discriminate (A eq_refl) end.
    + eapply okay_next; [apply I1 with G1 L1; assumption|]. intros (v & s1) (T & K1 & M1). cbn [fst snd] in *. pose proof (live_mono _ _ _ _ _ _ _ M1 V) as V1.
      match goal with A : x_ty y = TBool |- _ => rewrite A in T end. destruct (bool_value v T) as ([|] & ->).
      * eapply okay_next; [eapply I3; eassumption|]. intros (o & s2) (K2 & M2 & S2 & _). cbn [fst snd] in *. destruct (good_close H ys D s1 s2 K1 K2 M2) as (K3 & M3).
        pose proof (mono_trans _ _ _ _ M1 M3) as M. pose proof (live_mono _ _ _ _ _ _ _ M V) as V3.
        assert (AGAIN : okay (finish R b s (mktnode N_WHILE tok (XExpr y) c :: r) G' L') (run_block f (close H s1 s2) (mktnode N_WHILE tok (XExpr y) c :: r))).
        { eapply okay_weak; [exact (I3 R b _ _ G1 L1 G' L' F0 K3 V3)|]. intros q. apply finish_from; [exact M|auto]. }
        destruct o as [| | |w]; [exact AGAIN| |exact AGAIN|].
        -- apply REST; auto. discriminate.
        -- cbn. refine (conj K3 (conj M (conj S2 _))). cbn. intro Q. discriminate Q.
      * apply REST; auto. discriminate.
  - match goal with A : is_external _ _ = true |- _ => rewrite A end. apply REST; auto; [apply mono_refl| |discriminate].
    destruct V as (V1 & V2). split; [|exact V2]. intros j [<-|J]; [|now apply V1]. unfold live_at. match goal with A : D k = _ |- _ => rewrite A end. now left.
  - match goal with A : is_external _ _ = false |- _ => rewrite A end.
    destruct (good_declare H ys D s k ks c ts r0 G G'0 L'0 K V) as (K1 & M1 & V1); try assumption. apply REST; auto. discriminate.
  - assert (VK : live (addg k G L) (addl k L) s).
    { destruct V as (V1 & V2). destruct L as [l|]; cbn [addg addl].
      - split; [exact V1|]. destruct (r_loc H s); [|exact V2]. intros j [<-|J]; [|now apply V2]. unfold live_in. match goal with A : D k = _ |- _ => now rewrite A end.
      - split; [|exact V2]. intros j [<-|J]; [|now apply V1]. unfold live_at. match goal with A : D k = _ |- _ => now rewrite A end. }
    eapply okay_next; [eapply I3; [eassumption|exact K|exact VK]|]. intros (o & s1) (K1 & M1 & S2 & N1). cbn [fst snd] in *.
    eapply okay_weak; [exact (I6 R b s1 o r G1 L1 G' L' B1 K1 S2 (fun Q => proj1 (N1 Q)))|]. intros q. apply finish_from; [exact M1|]. apply no_return. discriminate.
  - match goal with A : In t _ |- _ => destruct A as [<-|[<-|[]]] end; cbn; refine (conj K (conj (mono_refl _ _) (conj eq_refl _))); cbn; intro Q; discriminate Q.
  - match goal with A : In t _ |- _ => destruct A as [<-|[<-|[<-|[]]]] end; cbn [tn_type] in *.
    + apply REST; auto; [apply mono_refl|discriminate].
    + apply REST; auto; [apply mono_refl|discriminate].
    + exact I.
  - apply REST; auto; [apply mono_refl|discriminate].
Qed.
Lemma runs_safe : forall f, expr_safe f /\ exprs_safe f /\ block_safe f /\ branch_safe f /\ otherwise_safe f /\ after_safe f.
Proof.
  induction f as [|f (I1 & I2 & I3 & I4 & I5 & I6)].
  - refine (conj _ (conj _ (conj _ (conj _ (conj _ _))))); red; intros; exact I.
  - refine (conj _ (conj _ (conj _ (conj _ (conj _ _))))).
    + now apply step_expr.
    + now apply step_exprs.
    + now apply step_block.
    + now apply step_branch.
    + now apply step_otherwise.
    + now apply step_after.
Qed.

Lemma program_safe : forall l o f G L, fine_block TInt false false [] None l G L -> run_program H ys f l o <> Wrong.
Proof.
  intros l o f G L B. destruct (runs_safe f) as (_ & _ & I3 & _).
  assert (K : good (start H o)). { refine (conj _ (conj _ _)); cbn; [intros k v t m Q; discriminate Q|intros g Q; discriminate Q|intros k ps body Q; discriminate Q]. }
  assert (V : live [] None (start H o)). { split; [intros k []|exact I]. }
  pose proof (I3 TInt false (start H o) l [] None G L B K V) as S1. unfold run_program.
  destruct (run_block f (start H o) l) as [(out & s')| | |]; cbn in *; try discriminate; [|now destruct S1].
  destruct S1 as (_ & _ & S1 & _). cbn [fst] in S1. destruct out as [| | |[v|]]; cbn in *; try discriminate.
  destruct v; discriminate.
Qed.
End Runs.
