(** Programs that keep the rules of Proof_Safe2.v do not go wrong: the states of a run. *)
From Coq Require Import List Arith NArith ZArith Bool Lia.
From Verif Require Import Base Model_Literal Model_Parse Spec_Parse Model_Sem Spec_Sem Spec_Sem2 Spec_Run Spec_Safe Proof_LLVM3 Proof_Safe2.
Import ListNotations.
Open Scope list_scope.
Open Scope nat_scope.

Section States.
Variable H : host.
Variable ys : list symbol.
Variable D : decls.
Local Notation val := (sv (h_float H)).
Local Notation rst := (rst H).
Local Notation outcome := (Spec_Run.outcome H).
Local Notation fine_expr := (fine_expr H D).
Local Notation fine_stmt := (fine_stmt H ys D).
Local Notation fine_block := (fine_block H ys D).

(** What a declaration in scope has in a state. *)
Definition live_at (s : rst) (k : nat) : Prop :=
  match D k with
  | Some (DVar _ _) => r_glob H s k <> None
  | Some (DFun _ _) => is_external ys k = true \/ lookup (r_funs H s) k <> None
  | _ => True
  end.
Definition live_in (f : nat -> option val) (k : nat) : Prop :=
  match D k with
  | Some (DVar _ _) => f k <> None
  | Some (DFun _ _) => False
  | _ => True
  end.
Definition live (G : list nat) (L : option (list nat)) (s : rst) : Prop :=
  (forall k, In k G -> live_at s k) /\
  match L, r_loc H s with
  | None, None => True
  | Some l, Some f => forall k, In k l -> live_in f k
  | _, _ => False
  end.
Definition params_of (ps : list nat) (ts : list ty) : Prop := Forall2 (fun i t => exists m, D i = Some (DVar t m)) ps ts.
Definition entry (s : rst) (k : nat) (ps : list nat) (body : list tnode) : Prop :=
  exists ts r G G' L', D k = Some (DFun ts r) /\ params_of ps ts /\ fine_block r false false G (Some ps) body G' L' /\
    (r <> TVoid -> has_return body) /\ (forall j, In j G -> live_at s j).
Definition typed_in (f : nat -> option val) : Prop := forall k v t m, f k = Some v -> D k = Some (DVar t m) -> of_type H v t = true.
Definition good (s : rst) : Prop :=
  typed_in (r_glob H s) /\ (forall f, r_loc H s = Some f -> typed_in f) /\
  (forall k ps body, lookup (r_funs H s) k = Some (ps, body) -> entry s k ps body).
Definition mono (s s' : rst) : Prop :=
  (forall k, r_glob H s k <> None -> r_glob H s' k <> None) /\
  match r_loc H s, r_loc H s' with
  | None, None => True
  | Some f, Some g => forall k, f k <> None -> g k <> None
  | _, _ => False
  end /\
  (forall k, lookup (r_funs H s) k <> None -> lookup (r_funs H s') k <> None).

Lemma mono_refl : forall s, mono s s.
Proof. intro s. unfold mono. destruct (r_loc H s); auto. Qed.
Lemma mono_trans : forall a b c, mono a b -> mono b c -> mono a c.
Proof.
  intros a b c (G1 & L1 & F1) (G2 & L2 & F2). refine (conj _ (conj _ _)); auto.
  destruct (r_loc H a), (r_loc H b), (r_loc H c); auto; contradiction.
Qed.
Lemma live_at_mono : forall s s' k, mono s s' -> live_at s k -> live_at s' k.
Proof. intros s s' k (G1 & L1 & F1) V. unfold live_at in *. destruct (D k) as [[]|]; auto. destruct V; auto. Qed.
Lemma live_mono : forall G L s s', mono s s' -> live G L s -> live G L s'.
Proof.
  intros G L s s' M (V1 & V2). split; [intros k I; apply live_at_mono with s; auto|]. destruct M as (_ & M & _).
  destruct L as [l|], (r_loc H s) as [f|], (r_loc H s') as [g|]; auto; try contradiction.
  intros k I. specialize (V2 k I). unfold live_in in *. destruct (D k) as [[]|]; auto.
Qed.
Lemma entry_live : forall s s' k ps body, (forall j, live_at s j -> live_at s' j) -> entry s k ps body -> entry s' k ps body.
Proof. intros s s' k ps body V (ts & r & G & G' & L' & E & P & B & R & A). exists ts, r, G, G', L'. repeat (split; [assumption|]). auto. Qed.

(** ** Variables *)

Lemma put_some : forall A (f : nat -> option A) k v i, f i <> None -> put f k v i <> None.
Proof. intros A f k v i N1. unfold put. destruct (i =? k); [discriminate|exact N1]. Qed.
Lemma put_typed : forall f k v t m, typed_in f -> D k = Some (DVar t m) -> of_type H v t = true -> typed_in (put f k v).
Proof.
  intros f k v t m T E V i w t' m' P E'. unfold put in P. destruct (i =? k) eqn:Q; [|eapply T; eauto]. apply Nat.eqb_eq in Q. subst i.
  injection P as <-. congruence.
Qed.
Lemma good_glob : forall s k v t m, good s -> D k = Some (DVar t m) -> of_type H v t = true -> good (set_glob H s k v) /\ mono s (set_glob H s k v).
Proof.
  intros s k v t m (T1 & T2 & T3) E V.
  assert (M : mono s (set_glob H s k v)). { refine (conj _ (conj _ _)); cbn; auto; [intros j N1; now apply put_some|]. destruct (r_loc H s); auto. }
  split; [|exact M]. refine (conj _ (conj _ _)); cbn.
  - eapply put_typed; eauto.
  - exact T2.
  - intros j ps body Q. eapply entry_live; [|now apply T3]. intros i. apply live_at_mono. exact M.
Qed.
Lemma good_loc : forall s f k v t m, good s -> r_loc H s = Some f -> D k = Some (DVar t m) -> of_type H v t = true -> good (set_loc H s f k v) /\ mono s (set_loc H s f k v).
Proof.
  intros s f k v t m (T1 & T2 & T3) F E V.
  assert (M : mono s (set_loc H s f k v)). { refine (conj _ (conj _ _)); cbn; auto. rewrite F. intros j N1. now apply put_some. }
  split; [|exact M]. refine (conj _ (conj _ _)); cbn.
  - exact T1.
  - intros g Q. injection Q as <-. eapply put_typed; eauto.
  - intros j ps body Q. eapply entry_live; [|now apply T3]. intros i. apply live_at_mono. exact M.
Qed.
Lemma good_define : forall s k v t m G L, good s -> live G L s -> D k = Some (DVar t m) -> of_type H v t = true ->
  good (define H s k v) /\ mono s (define H s k v) /\ live (addg k G L) (addl k L) (define H s k v).
Proof.
  intros s k v t m G L K V E T. unfold define. destruct (r_loc H s) as [f|] eqn:F.
  - destruct (good_loc s f k v t m K F E T) as (K' & M). refine (conj K' (conj M _)). pose proof (live_mono _ _ _ _ M V) as (V1 & V2).
    destruct L as [l|]; [|destruct V as (_ & V); rewrite F in V; destruct V]. cbn [addg addl]. split; [exact V1|]. cbn in V2 |- *.
    intros j [<-|I]; [|now apply V2]. unfold live_in. rewrite E. unfold put. rewrite Nat.eqb_refl. discriminate.
  - destruct (good_glob s k v t m K E T) as (K' & M). refine (conj K' (conj M _)). pose proof (live_mono _ _ _ _ M V) as (V1 & V2).
    destruct L as [l|]; [destruct V as (_ & V); rewrite F in V; destruct V|]. cbn [addg addl]. split; [|exact V2].
    intros j [<-|I]; [|now apply V1]. unfold live_at. rewrite E. cbn. unfold put. rewrite Nat.eqb_refl. discriminate.
Qed.
Lemma live_read : forall s G L k t m, good s -> live G L s -> In k (all G L) -> D k = Some (DVar t m) ->
  exists v, read H s k = Some v /\ of_type H v t = true.
Proof.
  intros s G L k t m (T1 & T2 & _) (V1 & V2) I E. unfold read, local, all in *.
  assert (B : In k G -> exists v, r_glob H s k = Some v). { intro J. specialize (V1 k J). unfold live_at in V1. rewrite E in V1. destruct (r_glob H s k); [eauto|now destruct V1]. }
  destruct (r_loc H s) as [f|] eqn:F.
  - destruct L as [l|]; [|destruct V2]. destruct (f k) as [v|] eqn:FK; [exists v; split; [reflexivity|eapply T2; eauto]|].
    apply in_app_or in I as [I|I]; [|destruct (B I) as (v & W); exists v; split; [exact W|eapply T1; eauto]].
    specialize (V2 k I). unfold live_in in V2. rewrite E in V2. now destruct V2.
  - destruct L as [l|]; [destruct V2|]. destruct (B I) as (v & W). exists v. split; [exact W|eapply T1; eauto].
Qed.
Lemma good_assign : forall s G L k v t m, good s -> live G L s -> In k (all G L) -> D k = Some (DVar t m) -> of_type H v t = true ->
  exists s', assign H s k v = Some s' /\ good s' /\ mono s s'.
Proof.
  intros s G L k v t m K V I E T. unfold assign, local. destruct (r_loc H s) as [f|] eqn:F.
  - destruct (f k) as [w|] eqn:FK; [exists (set_loc H s f k v); split; [reflexivity|]; eapply good_loc; eauto|].
    destruct (live_read s G L k t m K V I E) as (w & R & _). unfold read, local in R. rewrite F, FK in R. rewrite R.
    exists (set_glob H s k v). split; [reflexivity|]. eapply good_glob; eauto.
  - destruct (live_read s G L k t m K V I E) as (w & R & _). unfold read, local in R. rewrite F in R. rewrite R.
    exists (set_glob H s k v). split; [reflexivity|]. eapply good_glob; eauto.
Qed.

(** ** Blocks, functions and calls *)

Lemma outer_typed : forall f g, typed_in g -> typed_in (outer f g).
Proof. intros f g T k v t m O E. unfold outer in O. destruct (f k); [|discriminate O]. eapply T; eauto. Qed.
Lemma good_close : forall s s', good s -> good s' -> mono s s' -> good (close H s s') /\ mono s (close H s s').
Proof.
  intros s s' (A1 & A2 & A3) (B1 & B2 & B3) (M1 & M2 & M3).
  assert (M : mono s (close H s s')).
  { refine (conj _ (conj _ _)); cbn.
    - intros k N1. unfold outer. destruct (r_glob H s k) eqn:Q; [|now destruct N1]. apply M1. rewrite Q. discriminate.
    - destruct (r_loc H s) as [f|], (r_loc H s') as [g|]; auto. intros k N1. unfold outer. destruct (f k) eqn:Q; [|now destruct N1]. apply M2. rewrite Q. discriminate.
    - auto. }
  split; [|exact M]. refine (conj _ (conj _ _)); cbn.
  - now apply outer_typed.
  - intros h Q. destruct (r_loc H s) as [f|], (r_loc H s') as [g|]; try discriminate Q. injection Q as <-. apply outer_typed. now apply B2.
  - intros k ps body Q. eapply entry_live; [|now apply A3]. intros i. apply live_at_mono. exact M.
Qed.
Lemma good_declare : forall s k ps body ts r G G' L', good s -> live G None s -> D k = Some (DFun ts r) -> params_of ps ts ->
  fine_block r false false (k :: G) (Some ps) body G' L' -> (r <> TVoid -> has_return body) ->
  good (declare H s k ps body) /\ mono s (declare H s k ps body) /\ live (k :: G) None (declare H s k ps body).
Proof.
  intros s k ps body ts r G G' L' (T1 & T2 & T3) V E P B R.
  assert (M : mono s (declare H s k ps body)).
  { refine (conj _ (conj _ _)); cbn; auto; [destruct (r_loc H s); auto|]. intros j N1. destruct (k =? j); [discriminate|exact N1]. }
  assert (VK : live (k :: G) None (declare H s k ps body)).
  { destruct (live_mono _ _ _ _ M V) as (V1 & V2). split; [|exact V2]. intros j [<-|I]; [|now apply V1]. unfold live_at. rewrite E. right. cbn. rewrite Nat.eqb_refl. discriminate. }
  refine (conj _ (conj M VK)). refine (conj _ (conj _ _)); cbn; auto.
  intros j qs b2 Q. destruct (k =? j) eqn:KJ.
  - apply Nat.eqb_eq in KJ. subst j. injection Q as <- <-. exists ts, r, (k :: G), G', L'. repeat (split; [assumption|]). exact (proj1 VK).
  - eapply entry_live; [|now apply T3]. intros i. apply live_at_mono. exact M.
Qed.
Lemma bind_typed : forall ps ts vs, params_of ps ts -> Forall2 (fun v t => of_type H v t = true) vs ts -> typed_in (bind_all H ps vs) /\ (forall p, In p ps -> bind_all H ps vs p <> None).
Proof.
  intros ps ts vs P. revert vs. induction P as [|p t ps ts (m & E) P IH]; intros vs F; inversion F; subst.
  - split; [intros k v t m Q; discriminate Q|intros p []].
  - match goal with A : Forall2 _ _ ts |- _ => apply IH in A as (T & V) end. cbn [bind_all]. split; [eapply put_typed; eauto|].
    intros q [<-|I]; [unfold put; rewrite Nat.eqb_refl; discriminate|]. apply put_some. auto.
Qed.
Lemma good_enter : forall s ps ts vs G, good s -> params_of ps ts -> Forall2 (fun v t => of_type H v t = true) vs ts -> (forall j, In j G -> live_at s j) ->
  good (enter_call H s ps vs) /\ live G (Some ps) (enter_call H s ps vs).
Proof.
  intros s ps ts vs G (T1 & T2 & T3) P F V. destruct (bind_typed ps ts vs P F) as (B1 & B2). split.
  - refine (conj T1 (conj _ _)); cbn; [intros f Q; injection Q as <-; exact B1|]. intros k qs body Q. eapply entry_live; [|now apply T3]. intros j W. exact W.
  - split; [intros j I; exact (V j I)|]. cbn. intros k I. unfold live_in. assert (E : exists t m, D k = Some (DVar t m)).
    { clear -P I. induction P as [|p t ps ts (m & E) P IH]; [destruct I|]. destruct I as [<-|I]; eauto. }
    destruct E as (t & m & ->). auto.
Qed.
Lemma good_leave : forall s ps vs s', good s -> good s' -> mono (enter_call H s ps vs) s' -> good (leave_call H s s') /\ mono s (leave_call H s s').
Proof.
  intros s ps vs s' (A1 & A2 & A3) (B1 & B2 & B3) (M1 & _ & _).
  assert (M : mono s (leave_call H s s')). { refine (conj _ (conj _ _)); cbn; auto. destruct (r_loc H s); auto. }
  split; [|exact M]. refine (conj B1 (conj A2 _)); cbn. intros k qs body Q. eapply entry_live; [|now apply A3]. intros i. apply live_at_mono. exact M.
Qed.
Lemma good_out : forall s o, good s -> good (set_out H s o) /\ mono s (set_out H s o).
Proof.
  intros s o (A1 & A2 & A3). split; [|refine (conj _ (conj _ _)); cbn; auto; destruct (r_loc H s); auto].
  refine (conj A1 (conj A2 _)); cbn. intros k qs body Q. eapply entry_live; [|now apply A3]. intros i W. exact W.
Qed.

(** ** Operators *)

Lemma suits1_of : forall o v t, match o with UNeg => is_number t | UNot => t = TBool | _ => False end -> of_type H v t = true -> suits1 H o v = true.
Proof. intros o v t T V. destruct o; try contradiction; [destruct T as [-> | ->]|subst t]; destruct v; try discriminate V; reflexivity. Qed.
Lemma suits2_of : forall o t r a b, oper_type o t r -> (comparing o -> simple t) -> of_type H a t = true -> of_type H b t = true -> suits2 H o a b = true.
Proof.
  intros o t r a b O C A B. destruct O as [o t I [-> | ->]|o I|o t I [-> | ->]|o t I|o I].
  6: { assert (C' : comparing o) by (destruct I as [<-|[<-|[]]]; [left|right]; reflexivity). apply C in C'.
       destruct C' as [-> |[-> |[-> |[-> | ->]]]]; destruct a; try discriminate A; destruct b; try discriminate B; destruct I as [<-|[<-|[]]]; reflexivity. }
  all: cbn [In] in I; destruct a; try discriminate A; destruct b; try discriminate B; repeat (destruct I as [<-|I]; [reflexivity|]); destruct I.
Qed.
End States.
