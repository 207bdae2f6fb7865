(** The names in object files made of C files. *)
From Coq Require Import List Arith NArith ZArith Bool Lia Ascii String.
From Verif Require Import Base Model_Token Model_Names Model_Parse Model_Sem Spec_Classify Spec_Names Spec_Sem Spec_Sem2 Model_CGen Model_CFile Spec_C Spec_CGen Spec_CProg Spec_CBack
  Spec_Run Spec_IR Model_LLVM Model_Link Spec_Link Spec_CLink.
From Verif Require Import Proof_Names Proof_Sem8 Proof_CRun8 Proof_Link2 Proof_Link3 Proof_Link4 Prop_CProg.
From Verif Require Spec_Pipeline Spec_Token.
Import ListNotations.
Open Scope list_scope.
Open Scope nat_scope.

Section Covers.
Variable env : cctx.
Local Notation ys := (ce_syms env).
Local Notation stands := (Spec_CBack.stands env).
Local Notation others := (Spec_CBack.others env).

(** A definition of the C program and the symbol it is made for. *)
Inductive made : nat -> cdef -> Prop :=
| mk_var : forall k x v q t lb i, is_var env k x v -> labelled env k (v_exported v) lb -> made k (FVar (negb (v_exported v)) q t x lb i)
| mk_proto : forall k x f t ps lb, is_fun env k x f -> labelled env k (f_export f) lb -> f_export f || f_external f = true -> made k (FProto false t x ps lb)
| mk_fun : forall k x f t ps b, is_fun env k x f -> f_external f = false -> made k (FFunc (negb (f_export f)) t x ps b).
(** All definitions that a symbol needs are there. *)
Definition complete (k : nat) (dd : list cdef) : Prop :=
  (exists x v q t lb i, is_var env k x v /\ labelled env k (v_exported v) lb /\ In (FVar (negb (v_exported v)) q t x lb i) dd) \/
  (exists x f, is_fun env k x f /\ (f_external f = false -> exists t ps b, In (FFunc (negb (f_export f)) t x ps b) dd) /\
     (f_export f || f_external f = true -> exists t ps lb, labelled env k (f_export f) lb /\ In (FProto false t x ps lb) dd)).
Definition covers (K : list nat) (dd : list cdef) : Prop :=
  (forall d, In d dd -> exists k, In k K /\ made k d) /\ (forall k, In k K -> complete k dd).

Lemma complete_more : forall k dd dd', complete k dd -> incl dd dd' -> complete k dd'.
Proof.
  intros k dd dd' [(x & v & q & t & lb & i & V & L & I)|(x & f & F & A & B)] S0; [left; eauto 12|right]. exists x, f. split; [exact F|]. split.
  - intro E. destruct (A E) as (t & ps & b & I). eauto 6.
  - intro E. destruct (B E) as (t & ps & lb & L & I). eauto 8.
Qed.
Lemma covers_nil : covers [] [].
Proof. split; intros z []. Qed.
Lemma covers_app : forall K1 K2 d1 d2, covers K1 d1 -> covers K2 d2 -> covers (K1 ++ K2) (d1 ++ d2).
Proof.
  intros K1 K2 d1 d2 (A1 & B1) (A2 & B2). split.
  - intros d I. apply in_app_iff in I as [I|I]; [destruct (A1 d I) as (k & J & M)|destruct (A2 d I) as (k & J & M)]; exists k; (split; [apply in_app_iff; auto|exact M]).
  - intros k I. apply in_app_iff in I as [I|I]; [apply (complete_more k d1); [auto|]|apply (complete_more k d2); [auto|]]; intros z Z; apply in_app_iff; auto.
Qed.
Lemma covers_swap : forall k K d1 d2, covers (K ++ [k]) (d1 ++ d2) -> covers (k :: K) (d1 ++ d2).
Proof.
  intros k K d1 d2 (A & B). split.
  - intros d I. destruct (A d I) as (j & J & M). exists j. split; [|exact M]. apply in_app_iff in J as [J|[<-|[]]]; [now right|now left].
  - intros j J. apply B. apply in_app_iff. destruct J as [<-|J]; [right; now left|now left].
Qed.
Lemma covers_var : forall k x v q t lb i, is_var env k x v -> labelled env k (v_exported v) lb -> covers [k] [FVar (negb (v_exported v)) q t x lb i].
Proof.
  intros k x v q t lb i V L. split.
  - intros d [<-|[]]. exists k. split; [now left|]. now apply mk_var.
  - intros j [<-|[]]. left. exists x, v, q, t, lb, i. split; [exact V|]. split; [exact L|now left].
Qed.
Lemma covers_fun : forall k x f t ps lb b, is_fun env k x f -> f_external f = false -> labelled env k (f_export f) lb ->
  covers [k] ((if f_export f then [FProto false t x ps lb] else []) ++ [FFunc (negb (f_export f)) t x ps b]).
Proof.
  intros k x f t ps lb b F X L. split.
  - intros d I. exists k. split; [now left|]. apply in_app_iff in I as [I|[<-|[]]]; [|now apply mk_fun].
    destruct (f_export f) eqn:E; [|destruct I]. destruct I as [<-|[]]. apply (mk_proto k x f); [exact F|now rewrite E|now rewrite E].
  - intros j [<-|[]]. right. exists x, f. split; [exact F|]. split.
    + intros _. exists t, ps, b. apply in_app_iff. right. now left.
    + intro E. rewrite X, orb_false_r in E. rewrite E in *. exists t, ps, lb. split; [exact L|now left].
Qed.
Lemma covers_external : forall k x f t ps lb, is_fun env k x f -> f_external f = true -> labelled env k (f_export f) lb -> covers [k] [FProto false t x ps lb].
Proof.
  intros k x f t ps lb F X L. split.
  - intros d [<-|[]]. exists k. split; [now left|]. apply (mk_proto k x f); [exact F|exact L|rewrite X; apply orb_true_r].
  - intros j [<-|[]]. right. exists x, f. split; [exact F|]. split; [congruence|]. intros _. exists t, ps, lb. split; [exact L|now left].
Qed.

Lemma c_declares_eq : forall b n, c_declares ys b n =
  match tn_type n, tn_pay n with
  | N_VAR_DEF, XDef k _ => if b then [k] else []
  | N_FUNCTION_PROTO, XProto k _ => k :: (if external ys k then [] else flat_map (c_declares ys true) (tn_child n))
  | (N_IF | N_ELIF | N_ELSE | N_WHILE | N_NAMESPACE), _ => flat_map (c_declares ys false) (tn_child n)
  | _, _ => []
  end.
Proof. intros b [t tok p c]. reflexivity. Qed.
Lemma external_fun : forall k x f, is_fun env k x f -> external ys k = f_external f.
Proof. intros k x f (y & E & _ & K). unfold external. now rewrite E, K. Qed.

Lemma stands_covers :
  (forall top r cs dd, stands top r cs dd -> covers (flat_map (c_declares ys top) r) dd) /\
  (forall r o dd r', others r o dd r' -> exists K, (forall top, flat_map (c_declares ys top) r = K ++ flat_map (c_declares ys top) r') /\ covers K dd).
Proof.
  apply stands_both; intros; cbn [flat_map]; try rewrite c_declares_eq;
    repeat match goal with E : tn_type _ = _ |- _ => rewrite E | E : tn_pay _ = _ |- _ => rewrite E end; try assumption.
  - apply covers_nil.
  - match goal with X : _ \/ _ |- _ => destruct X as [X|(X & Y)]; [|rewrite X, Y; assumption] end.
    match goal with X : In _ _ |- _ => repeat destruct X as [X|X]; try destruct X; try rewrite <- X; assumption end.
  - apply (covers_app [k] _ [_]); [now apply covers_var|assumption].
  - apply (covers_app [k] _ [_]); [now apply covers_var|assumption].
  - match goal with X : exists K, _ |- _ => destruct X as (K & EK & CK); rewrite EK end. apply covers_app; [assumption|]. now apply covers_app.
  - now apply covers_app.
  - now apply covers_app.
  - match goal with X : is_fun env _ _ _ |- _ => rewrite (external_fun _ _ _ X) end. match goal with X : f_external f = false |- _ => rewrite X end.
    rewrite app_assoc. change (k :: flat_map (c_declares ys true) (tn_child n)) with ([k] ++ flat_map (c_declares ys true) (tn_child n)).
    match goal with |- covers _ ((?a ++ ?p) ++ ?q :: ?r) => change (q :: r) with ([q] ++ r); rewrite app_assoc; apply covers_app; [|assumption]; rewrite <- app_assoc end.
    cbn [app]. apply covers_swap. apply covers_app; [assumption|]. now apply covers_fun.
  - match goal with X : is_fun env _ _ _ |- _ => rewrite (external_fun _ _ _ X) end. match goal with X : f_external f = true |- _ => rewrite X end.
    apply (covers_app [k] _ [_]); [eapply covers_external; eassumption|assumption].
  - exists []. split; [reflexivity|apply covers_nil].
  - match goal with X : exists K, _ |- _ => destruct X as (K & EK & CK) end. exists K. split; [|exact CK]. intro top. rewrite c_declares_eq.
    repeat match goal with E : tn_type _ = _ |- _ => rewrite E end. apply EK.
  - match goal with X : exists K, _ |- _ => destruct X as (K & EK & CK) end. exists (flat_map (c_declares ys false) (tn_child n) ++ K). split; [|now apply covers_app].
    intro top. rewrite c_declares_eq. repeat match goal with E : tn_type _ = _ |- _ => rewrite E end. rewrite EK. apply app_assoc.
  - exists (flat_map (c_declares ys false) (tn_child n)). split; [|assumption].
    intro top. rewrite c_declares_eq. repeat match goal with E : tn_type _ = _ |- _ => rewrite E end. reflexivity.
Qed.
End Covers.

(** * Declared names *)

Lemma c_declares_node : forall env n b k, In k (c_declares (ce_syms env) b n) -> exists x, in_checked x [n] /\ declares_here x k.
Proof.
  intros env n. induction n as [ty tok p c IH] using tnode_ind'. intros b k I.
  assert (R : forall b, In k (flat_map (c_declares (ce_syms env) b) c) -> exists x, in_checked x [mktnode ty tok p c] /\ declares_here x k).
  { intros b' J. apply in_flat_map in J as (m & Jm & J). rewrite Forall_forall in IH. destruct (IH m Jm _ _ J) as (x & C & D). exists x. split; [|exact D].
    apply (ic_below _ (mktnode ty tok p c)); [now left|]. cbn [tn_child]. exact (in_checked_one _ _ _ C Jm). }
  rewrite c_declares_eq in I. cbn [tn_type tn_pay tn_child] in I. destruct ty; try (destruct I; fail); try exact (R _ I).
  - destruct p; try (destruct I; fail). destruct b; [|destruct I]. destruct I as [<-|[]]. eexists. split; [apply ic_here; now left|]. left. eexists. reflexivity.
  - destruct p; try (destruct I; fail). destruct I as [<-|I].
    + eexists. split; [apply ic_here; now left|]. right. eexists. reflexivity.
    + match type of I with context[external _ ?q] => destruct (external (ce_syms env) q) end; [destruct I|]. exact (R _ I).
Qed.
Lemma c_declared_node : forall env l k, In k (c_declared (ce_syms env) l) -> exists x, in_checked x l /\ declares_here x k.
Proof.
  intros env l k I. apply in_flat_map in I as (n & J & I). apply c_declares_node in I as (x & C & D). exists x. split; [|exact D]. exact (in_checked_one _ _ _ C J).
Qed.

(** * The names *)

Section Names.
Variables (env : cctx) (m : text) (l : list tnode) (cs : list cstmt) (ds0 : list cdef) (hs : list Spec_CProg.helper).
Local Notation ys := (ce_syms env).
Hypothesis ST : Spec_CBack.stands env true l cs ds0.
Hypothesis PL : forall k, In k (c_declared ys l) -> simple (name_of ys k) /\ exported ys k && external ys k = false.
Hypothesis MG : mangled env.
Hypothesis HB : has_base (ce_file env) (m ++ u ".sk").
Hypothesis NZ : nz m.
Hypothesis FM : Spec_Names.fits m.
Hypothesis AP : c_apart ys l.
Let ds := ds0 ++ [FProto true TyInt (u "init") [] (Some (chr "." :: m));
               FFunc true TyInt (u "init") [] (cs ++ [CReturn (Some (CNum (u "0")))]);
               FFunc false TyInt (u "main") [] [CReturn (Some (CCall (CId (u "init")) []))]].
Definition full (x : text) : text := m ++ chr "." :: x.

Lemma CV : covers env (c_declared ys l) ds0.
Proof. exact (proj1 (stands_covers env) _ _ _ _ ST). Qed.
Lemma var_names : forall k x v, is_var env k x v -> name_of ys k = x /\ exported ys k = v_exported v /\ external ys k = false.
Proof. intros k x v (y & E & N0 & K). unfold name_of, exported, external. rewrite E, K. auto. Qed.
Lemma fun_names : forall k x f, is_fun env k x f -> name_of ys k = x /\ exported ys k = f_export f /\ external ys k = f_external f.
Proof. intros k x f (y & E & N0 & K). unfold name_of, exported, external. rewrite E, K. auto. Qed.
Lemma label_full : forall k lb, In k (c_declared ys l) -> labelled env k true lb -> lb = Some (full (name_of ys k)).
Proof.
  intros k lb I (E & N0). destruct lb as [t|]; [|contradiction]. symmetry in E. apply MG in E. destruct (PL k I) as (S0 & _).
  rewrite (mangle_ok _ m) in E; [|exact HB|exact NZ|now apply simple_nz|exact FM|exact (proj2 (proj2 S0))]. injection E as <-. reflexivity.
Qed.

Lemma given_from : forall f n, given ds f n -> f = u "init" /\ n = chr "." :: m \/ exists k, In k (c_declared ys l) /\ exported ys k = true /\ name_of ys k = f /\ n = full f.
Proof.
  intros f n (s & t & ps & I). unfold ds in I. apply in_app_iff in I as [I|I].
  - right. destruct (proj1 CV _ I) as (k & J & M). inversion M as [|? x g t' ps' lb F L X E|]; subst. destruct (fun_names _ _ _ F) as (N0 & EX & XT).
    exists k. split; [exact J|]. rewrite EX. unfold labelled in L. destruct (f_export g) eqn:E; [|discriminate L]. split; [reflexivity|]. split; [exact N0|].
    pose proof (label_full k (Some n) J L) as Z. injection Z as ->. now rewrite N0.
  - left. destruct I as [I|[I|[I|[]]]]; try discriminate I. injection I as _ _ <- _ <-. auto.
Qed.
Lemma given_exported : forall k, In k (c_declared ys l) -> exported ys k = true -> (exists x f, is_fun env k x f) -> given ds (name_of ys k) (full (name_of ys k)).
Proof.
  intros k I X (x & f & F). destruct (proj2 CV k I) as [(x' & v & q & t & lb & i & V & _)|(x' & f' & F' & A & B)].
  - destruct V as (y & E & _ & K), F as (y' & E' & _ & K'). congruence.
  - destruct (fun_names _ _ _ F') as (N0 & EX & XT). rewrite EX in X. rewrite X in B. destruct (B eq_refl) as (t & ps & lb & L & J).
    apply (label_full _ _ I) in L. subst lb. rewrite N0 in J. exists false, t, ps. rewrite N0. apply in_app_iff. now left.
Qed.

Lemma defines_all : forall n, c_defines hs ds n <->
  n = u "main" \/ (exists k, In k (c_declared ys l) /\ exported ys k = true /\ n = full (name_of ys k)) \/ (exists h, In h hs /\ n = Spec_CProg.helper_name h).
Proof.
  intro n. assert (NM : forall n', ~ given ds (u "main") n').
  { intros n' G. apply given_from in G as [(E & _)|(k & I & X & N0 & _)]; [discriminate E|]. assert (Z : exported ys k || external ys k = true) by now rewrite X. exact (proj1 (ca_main _ _ AP k I Z) N0). }
  split.
  - intros [(q & t & x & lb & i & I & E)|[(t & f & ps & b & I & LN)|HH]].
    + right. left. unfold ds in I. apply in_app_iff in I as [I|I]; [|destruct I as [I|[I|[I|[]]]]; discriminate I].
      destruct (proj1 CV _ I) as (k & J & M). inversion M as [? x' v q' t' lb' i' V L|  |]; subst. destruct (var_names _ _ _ V) as (N0 & EX & _).
      match goal with X : negb (v_exported v) = false |- _ => apply negb_false_iff in X; rewrite X in L end. pose proof (label_full _ _ J L) as ->. exists k.
      split; [exact J|]. split; [congruence|reflexivity].
    + unfold ds in I. apply in_app_iff in I as [I|I].
      * right. left. destruct (proj1 CV _ I) as (k & J & M). inversion M as [| |? x g t' ps' b' F X]; subst. destruct (fun_names _ _ _ F) as (N0 & EX & XT).
        match goal with Z : negb (f_export g) = false |- _ => apply negb_false_iff in Z; rewrite Z in EX end.
        exists k. split; [exact J|]. split; [exact EX|]. destruct LN as [G|(-> & NG)].
        -- apply given_from in G as [(E & _)|(k' & _ & _ & _ & ->)]; [|now rewrite N0]. exfalso. apply (ca_main _ _ AP k J); [now rewrite EX|congruence].
        -- exfalso. apply NG. exists (full f). rewrite <- N0. apply given_exported; [exact J|exact EX|eauto].
      * left. destruct I as [I|[I|[I|[]]]]; try discriminate I. injection I as _ <- _ _. destruct LN as [G|(-> & _)]; [exfalso; exact (NM _ G)|reflexivity].
    + right. right. exact HH.
  - intros [->|[(k & I & X & ->)|HH]]; [| |right; right; exact HH].
    + right. left. exists TyInt, (u "main"), [], [CReturn (Some (CCall (CId (u "init")) []))]. split; [apply in_app_iff; right; right; right; now left|]. right. split; [reflexivity|]. intros (n' & G). exact (NM _ G).
    + destruct (proj2 CV k I) as [(x & v & q & t & lb & i & V & L & J)|(x & f & F & A & B)].
      * destruct (var_names _ _ _ V) as (N0 & EX & _). rewrite EX in X. rewrite X in *. pose proof (label_full _ _ I L) as ->. left.
        exists q, t, x, (Some (full (name_of ys k))), i. split; [apply in_app_iff; now left|reflexivity].
      * destruct (fun_names _ _ _ F) as (N0 & EX & XT). destruct (PL k I) as (_ & NE). rewrite X, XT in NE. destruct (A NE) as (t & ps & b & J). right. left.
        exists t, x, ps, b. rewrite EX in X. rewrite X in J. split; [apply in_app_iff; now left|]. left. rewrite <- N0. apply given_exported; [exact I|congruence|eauto].
Qed.

Lemma takes_all : forall n, c_takes ds n <-> exists k, In k (c_declared ys l) /\ external ys k = true /\ n = name_of ys k.
Proof.
  intro n. split.
  - intros (t & f & ps & lb & I & NF & LN). unfold ds in I. apply in_app_iff in I as [I|I]; [|destruct I as [I|[I|[I|[]]]]; discriminate I].
    destruct (proj1 CV _ I) as (k & J & M). inversion M as [|? x g t' ps' lb' F L X E|]; subst. destruct (fun_names _ _ _ F) as (N0 & EX & XT).
    assert (XG : f_external g = true).
    { destruct (f_external g) eqn:Z; [reflexivity|]. exfalso. destruct (proj2 CV k J) as [(x' & v & q & t' & lb' & i & V & _)|(x' & f' & F' & A & _)].
      - destruct V as (y & E & _ & K), F as (y' & E' & _ & K'). congruence.
      - assert (F2 := F'). destruct F as (y & E & N1 & K), F2 as (y' & E' & N1' & K'). assert (f' = g) as -> by congruence. assert (x' = f) as -> by congruence.
        destruct (A Z) as (t2 & ps2 & b2 & J2). apply (NF (negb (f_export g)) t2 ps2 b2). apply in_app_iff. now left. }
    exists k. split; [exact J|]. rewrite XG in XT. split; [exact XT|]. destruct LN as [G|(-> & _)]; [|now rewrite N0]. exfalso.
    apply given_from in G as [(E & _)|(k' & J' & X' & N' & _)].
    + apply (ca_main _ _ AP k J); [rewrite XT; apply orb_true_r|congruence].
    + assert (k = k') as <- by (apply (ca_external _ _ AP); congruence). destruct (PL k J) as (_ & NE). rewrite X', XT in NE. discriminate NE.
  - intros (k & I & X & ->). destruct (proj2 CV k I) as [(x & v & q & t & lb & i & V & _)|(x & f & F & A & B)].
    + destruct (var_names _ _ _ V) as (_ & _ & Z). congruence.
    + destruct (fun_names _ _ _ F) as (N0 & EX & XT). assert (XG := X). rewrite XT in XG. destruct B as (t & ps & lb & L & J); [rewrite XG; apply orb_true_r|].
      exists t, x, ps, lb. split; [apply in_app_iff; now left|]. split.
      * intros s t' ps' b Z. unfold ds in Z. apply in_app_iff in Z as [Z|Z].
        -- destruct (proj1 CV _ Z) as (k' & J' & M). inversion M as [| |? x' g t2 ps2 b2 F' X2]; subst. destruct (fun_names _ _ _ F') as (N1 & _ & XT').
           assert (k = k') as <- by (apply (ca_external _ _ AP); congruence). congruence.
        -- assert (MI := ca_main _ _ AP k I). rewrite X, orb_true_r in MI. destruct (MI eq_refl) as (M1 & M2). destruct Z as [Z|[Z|[Z|[]]]]; try discriminate Z; injection Z as _ _ Z _ _; congruence.
      * right. split; [exact N0|]. intros (n' & G). apply given_from in G as [(E & _)|(k' & J' & X' & N' & _)].
        -- apply (ca_main _ _ AP k I); [rewrite X; apply orb_true_r|congruence].
        -- assert (k = k') as <- by (apply (ca_external _ _ AP); congruence). destruct (PL k I) as (_ & NE). rewrite X', X in NE. discriminate NE.
Qed.
End Names.

(** * Files *)

Lemma c_names : forall w src ts tree s l env c23 m t,
  checked_program w src ts tree s l -> ce_syms env = s_syms s -> writable c23 env l -> module_name (ce_file env) m -> mangled env -> c_apart (s_syms s) l -> c_file env l = Ok t ->
  exists hs ds, is_c_file c23 t hs ds /\ helped l hs /\
    (forall n, c_defines hs ds n <-> n = u "main" \/ (exists k, In k (c_declared (s_syms s) l) /\ exported (s_syms s) k = true /\ n = m ++ chr "." :: name_of (s_syms s) k) \/
       (exists h, In h hs /\ n = Spec_CProg.helper_name h)) /\
    (forall n, c_takes ds n <-> exists k, In k (c_declared (s_syms s) l) /\ external (s_syms s) k = true /\ n = name_of (s_syms s) k).
Proof.
  intros w src ts tree s l env c23 m t (SO & FI & LX & A & NC & FA) ES W (HB & NZ & FM) MG AP CF.
  destruct (generated_files_read_back w src ts tree s l env c23 m t A NC FA ES W HB NZ FM CF) as (hs & ds & IS & US & HE & _).
  exists hs, ds. split; [exact IS|]. split; [exact HE|]. destruct US as (cs & ds0 & ST & ->). rewrite <- ES in *.
  assert (PL : forall k, In k (c_declared (ce_syms env) l) -> simple (name_of (ce_syms env) k) /\ exported (ce_syms env) k && external (ce_syms env) k = false).
  { intros k I. apply c_declared_node in I as (x & C & D). rewrite ES. destruct (node_names _ _ _ _ _ _ LX SO FI A NC FA k x C D) as ((N1 & N2 & N3) & XX). split; [|exact XX].
    split; [exact N1|]. split; [exact N2|]. unfold Spec_Names.fits. unfold Spec_Token.fits in FI. lia. }
  split; intro n; [apply defines_all|apply takes_all]; assumption.
Qed.
