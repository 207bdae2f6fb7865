(** C compilers accept what accepted programs are written as. *)
From Coq Require Import List Arith NArith ZArith Bool Lia Ascii String.
From Verif Require Import Base Model_Token Model_Utf8 Model_Literal Model_Parse Model_Sem Spec_Utf8 Spec_Parse Spec_Sem Spec_Sem2 Spec_Names Model_CGen Model_CFile Spec_C Spec_CGen Spec_CProg Spec_CBack Spec_Run
  Spec_LLVM Spec_Loops Spec_Safe Spec_CBehave Proof_Sem2 Proof_Sem5 Proof_Sem8 Proof_Order Proof_SymNames Proof_CGen2 Proof_LLVM Proof_LLVM3 Proof_LLVM10 Proof_LLVM11 Proof_LLVM13 Proof_CProg5
  Proof_CRun3 Proof_CRun7 Proof_CRun9 Proof_CRun10 Proof_Safe7 Spec_CCheck Spec_CReady Proof_CCheck2 Proof_CCheck3.
Import ListNotations.
Open Scope list_scope.
Open Scope nat_scope.
Local Notation known := Proof_Sem5.known.

Lemma all_firsts : forall A B (R : A -> B -> Prop) m ps ks, Forall2 R (firstn m ps) ks -> List.length ps = List.length ks -> Forall2 R ps ks.
Proof.
  intros A B R m ps ks F L. assert (LF : List.length (firstn m ps) = List.length ks) by (clear L; induction F; cbn [List.length]; auto). rewrite firstn_length in LF.
  rewrite firstn_all2 in F by lia. exact F.
Qed.

Section Derive.
Variable env : cctx.
Variable w : world.
Variable src : text.
Variable s : sst.
Local Notation ys := (ce_syms env).
Local Notation D := (sig s).
Local Notation name_of := (name_of env).
Local Notation isvar := (isvar env).
Local Notation isfun := (isfun env).
Local Notation vtype := (vtype env).
Local Notation tidy := (tidy env s).
Local Notation es_of := (es_of s).
Local Notation fresh_names := (fresh_names env).
Local Notation named_in := (named_in src s).
Hypothesis ES : ys = s_syms s.
Hypothesis NODOT : forall k, isvar k \/ isfun k -> ~ In (chr ".") (name_of k).

Definition no_spaces (xs : list tnode) : Prop := forall n, in_checked n xs -> tn_type n <> N_NAMESPACE.

Lemma params_fresh : forall e ps ts ks e', params_ok D src e ps ts ks e' -> Forall2 (fun p k => calls_it src s (pm_name p) k) ps ks -> tidy e -> known D e ->
  tidy e' /\ known D e' /\ es_of e' = rev ks ++ es_of e /\ params_new env (es_of e) ks.
Proof.
  intros e ps ts ks e' P. induction P as [e|e p ps t ts n k ks e' TA SP FR DK P IH]; intros N1 T K.
  - cbn [rev app params_new]. auto.
  - inversion N1 as [|? ? ? ? C N2]; subst. pose proof (calls_name env src s ES _ _ _ C SP) as E. subst n.
    assert (R : (exists t m, D k = Some (DVar t m)) \/ exists ps r, D k = Some (DFun ps r)) by (left; eauto).
    destruct (IH N2) as (A1 & A2 & A3 & A4); [now apply tidy_cons|apply known_cons; [exact K|rewrite DK; discriminate]|].
    rewrite (es_var s _ _ _ _ _ DK) in A3, A4. split; [exact A1|]. split; [exact A2|]. split; [rewrite A3; cbn [rev]; now rewrite <- app_assoc|].
    cbn [params_new]. split; [exact (new_name env s ES NODOT e k T K R FR)|exact A4].
Qed.

Definition new_stmt (e : Spec_Sem.env) (n : node) (x : tnode) (e' : Spec_Sem.env) : Prop := tidy e -> known D e -> no_spaces [x] -> named_in [n] [x] -> plain_aliases [n] [x] ->
  tidy e' /\ known D e' /\ forall r, fresh_names (es_of e') r -> fresh_names (es_of e) (x :: r).
Definition new_block (e : Spec_Sem.env) (ns : list node) (xs : list tnode) (e' : Spec_Sem.env) : Prop := tidy e -> known D e -> no_spaces xs -> named_in ns xs -> plain_aliases ns xs ->
  fresh_names (es_of e) xs.

Lemma spaces_child : forall x xs, no_spaces (x :: xs) -> no_spaces (tn_child x).
Proof. intros x xs N1 m C. apply N1. apply ic_below with x; [now left|exact C]. Qed.
Ltac plain := intros r FR0; apply fn_other; [intros; discriminate|intros; discriminate|try apply fn_nil|exact FR0].
Lemma statements_fresh :
  (forall e n x e', stmt_ok D w src e n x e' -> new_stmt e n x e') /\
  (forall e ns xs e', block_ok D w src e ns xs e' -> new_block e ns xs e').
Proof.
  apply stmt_block_both.
  - (* definition *)
    intros e n name rest v i co ex y x k T C P EL VC TA SP FR DK TI KN NS NM PA.
    pose proof (NM _ _ (pa_here _ _ [] [])) as N1. unfold named in N1. cbn [tn_pay] in N1.
    destruct N1 as (t0 & r0 & e0 & i0 & c0 & z0 & P0 & CI & VA). rewrite P in P0. injection P0 as <- <- <- <- <- <-.
    pose proof (calls_name env src s ES _ _ _ CI SP) as E. subst x.
    assert (R : (exists t m, D k = Some (DVar t m)) \/ exists ps r, D k = Some (DFun ps r)) by (left; eauto).
    split; [now apply tidy_cons|]. split; [apply known_cons; [exact KN|rewrite DK; discriminate]|]. intros r FN. rewrite (es_var s _ _ _ _ _ DK) in FN.
    apply fn_def with k y; [reflexivity|exact (new_name env s ES NODOT e k TI KN R FR)|exact FN].
  - (* alias *)
    intros e n name v i ex t q r0 x k ty T C P TK SP FR DK TA IM TI KN NS NM PA.
    assert (DN : D k <> Some (DType None)).
    { destruct (PA _ _ (pa_here _ _ [] []) eq_refl) as (name' & v' & const' & P'). rewrite P in P'. injection P' as _ _ -> _ ->. rewrite DK. specialize (IM eq_refl eq_refl). congruence. }
    split; [now apply tidy_type with ty|]. split; [now apply known_cons|]. rewrite (es_type s _ _ _ _ DK). plain.
  - (* assignment *)
    intros e n v t q r0 x k ty y T C P TK SP RS DK EL TY TI KN NS NM PA. split; [exact TI|]. split; [exact KN|]. plain.
  - (* call *)
    intros e n f a0 m y T C P EL TI KN NS NM PA. split; [exact TI|]. split; [exact KN|]. plain.
  - (* return *)
    intros e n v y T C P EL TI KN NS NM PA. split; [exact TI|]. split; [exact KN|]. plain.
  - (* condition *)
    intros e n v y ch e' T P EL TY B IH TI KN NS NM PA. split; [exact TI|]. split; [exact KN|]. plain.
    exact (IH TI KN (spaces_child _ _ NS) (named_child _ _ _ _ _ _ NM) (plain_below _ _ _ _ PA)).
  - (* else *)
    intros e n ch e' T B IH TI KN NS NM PA. split; [exact TI|]. split; [exact KN|]. plain.
    exact (IH TI KN (spaces_child _ _ NS) (named_child _ _ _ _ _ _ NM) (plain_below _ _ _ _ PA)).
  - (* function *)
    intros e n name ret num ext exp ps ts ks rt x k e1 ch e2 T P RT SP FR DK PO B IH TI KN NS NM PA.
    set (nd := mktnode N_FUNCTION_PROTO (n_token n) (XProto k ks) ch) in *.
    pose proof (NM _ _ (pa_here _ _ [] [])) as N1. unfold named, nd in N1. cbn [tn_pay] in N1.
    destruct N1 as (t0 & ret0 & num0 & ext0 & exp0 & ps0 & P0 & (CI & _) & m & F2). rewrite P in P0. injection P0 as <- <- <- <- <- <-.
    pose proof (calls_name env src s ES _ _ _ CI SP) as E. subst x. destruct (params_types env src s ES _ _ _ _ _ PO) as (TS & IV & LP).
    pose proof (all_firsts _ _ _ _ _ _ F2 LP) as F3. destruct (Proof_CRun7.d_fun env s ES _ _ _ DK) as (x & f & IF & FP & FRT).
    assert (R : (exists t m, D k = Some (DVar t m)) \/ exists ps r, D k = Some (DFun ps r)) by (right; eauto).
    assert (TY : tidy ((name_of k, k) :: e)) by now apply tidy_cons.
    assert (KN2 : known D ((name_of k, k) :: e)) by (apply known_cons; [exact KN|rewrite DK; discriminate]).
    split; [exact TY|]. split; [exact KN2|]. rewrite (es_fun s _ _ _ _ _ DK). intros r FN.
    destruct (params_fresh _ _ _ _ _ PO F3 TY KN2) as (T1 & K1 & E1 & PN). rewrite (es_fun s _ _ _ _ _ DK) in E1, PN.
    apply fn_proto with k ks; [reflexivity|exact (new_name env s ES NODOT e k TI KN R FR)| | |exact FN].
    + split; [exact PN|]. split; [exact IV|]. intros x' f' IF'. destruct (is_fun_one env _ _ _ _ _ IF IF') as (_ & <-). congruence.
    + rewrite <- E1. exact (IH T1 K1 (spaces_child _ _ NS) (named_child _ _ _ _ _ _ NM) (plain_below _ _ _ _ PA)).
  - (* namespace *)
    intros e n t q r0 x k ch e' T TK SP FR DK B IH TI KN NS NM PA. exfalso. exact (NS _ (ic_here _ _ (in_eq _ _)) eq_refl).
  - (* others *)
    intros e n P C T TI KN NS NM PA. split; [exact TI|]. split; [exact KN|]. plain.
  - intros e TI KN NS NM PA. apply fn_nil.
  - intros e n ns x xs e1 e2 S1 IH1 B IH2 TI KN NS NM PA.
    assert (NS1 : no_spaces [x]).
    { intros m C. apply NS. inversion C as [? I|q ? I C']; subst; destruct I as [<-|[]]; [apply ic_here; now left|apply ic_below with x; [now left|exact C']]. }
    assert (NS2 : no_spaces xs).
    { intros m C. apply NS. inversion C as [? I|q ? I C']; subst; [apply ic_here; now right|apply ic_below with q; [now right|exact C']]. }
    assert (NM1 : named_in [n] [x]).
    { intros m y Q. apply NM. inversion Q as [? ?|? ? ? ? Q'|? ? ? ? Q']; subst; [apply pa_here|inversion Q'|now apply pa_below]. }
    assert (PA1 : plain_aliases [n] [x]).
    { intros m y Q. apply PA. inversion Q as [? ?|? ? ? ? Q'|? ? ? ? Q']; subst; [apply pa_here|inversion Q'|now apply pa_below]. }
    destruct (IH1 TI KN NS1 NM1 PA1) as (T1 & K1 & NX). apply NX. exact (IH2 T1 K1 NS2 (named_next _ _ _ _ _ _ NM) (plain_next _ _ _ _ PA)).
Qed.
End Derive.

Theorem c_compiles_l : forall (H : host) w src ts tree s l env c23 strict headers m t, accepted w src ts tree s l -> no_call_blocks tree -> few_arguments tree -> flat tree -> has_statements tree ->
  no_references l -> comparable l -> ints_returned tree l -> nothing_returned (s_syms s) l -> plain_aliases tree l ->
  ce_syms env = s_syms s -> writable c23 env l -> c_ready strict headers env l ->
  has_base (ce_file env) (m ++ u ".sk") -> nz m -> Spec_Names.fits m -> c_file env l = Ok t ->
  exists hs ds, is_c_file c23 t hs ds /\ compiles_as strict headers hs ds.
Proof.
  intros H w src ts tree s l env c23 strict headers m t A NC FA FL HS NR CO IR NT PA ES W CR HB NZ FI CF.
  destruct (c_programs_l _ _ _ _ _ _ env c23 m t A NC FA ES W HB NZ FI CF) as (hs & ds & IC & US & HP & HD).
  exists hs, ds. split; [exact IC|]. destruct (rules_sig H _ _ _ _ _ _ A NC FA FL HS NR CO IR NT) as (s0 & G & L & E0 & FB). rewrite <- ES in FB.
  refine (unit_compiles H strict headers env s0 l hs (eq_trans ES E0) CR HP (facts env _ _ _ _ _ _ A NC FA ES NR) _ ds G L US (numbers_l _ _ _ _ _ _ A) FB _).
  destruct (final_symbols _ _ _ _ _ _ A NC FA) as (s1 & e & EQ & RD & B).
  assert (NM : named_in src s1 tree l).
  { intros n x P. pose proof (accepted_named _ _ _ _ _ _ A n x P) as NM. unfold named, valued, flagged, calls_it in *. rewrite <- EQ. exact NM. }
  refine (proj2 (statements_fresh env w src s1 (eq_trans ES EQ) (names_no_dot env _ _ _ _ _ _ c23 A ES W)) _ _ _ _ B _ _ _ NM PA).
  - intros x k [].
  - intros x k [].
  - exact (cr_spaces _ _ _ _ CR).
Qed.
