(** Generated C files do what the programs do. *)
From Coq Require Import List Arith NArith ZArith Bool Lia Ascii String.
From Verif Require Import Base Model_Token Model_Literal Model_Parse Model_Sem Spec_Sem Spec_Sem2 Spec_Names Model_CGen Model_CFile Spec_C Spec_CGen Spec_CProg Spec_CBack Spec_Run
  Spec_LLVM Spec_CRun Spec_CBehave Proof_Sem2 Proof_Sem5 Proof_Sem8 Proof_SymNames Proof_Order Proof_CGen2 Proof_LLVM Proof_LLVM3 Proof_LLVM10 Proof_LLVM11 Proof_CProg5
  Proof_CRun3 Proof_CRun7 Proof_CRun9.
Import ListNotations.
Open Scope list_scope.
Open Scope nat_scope.

Lemma word_no_dot : forall x, forallb is_word x = true -> ~ In (chr ".") x.
Proof. intros x F I. rewrite forallb_forall in F. specialize (F _ I). discriminate F. Qed.

Section Behaves.
Variables (H : host) (env : cctx) (M : machine H) (w : world) (src : text) (ts : list token) (tree : list node) (s : sst) (l : list tnode) (c23 : bool).
Hypothesis A : accepted w src ts tree s l.
Hypothesis NC : no_call_blocks tree.
Hypothesis FA : few_arguments tree.
Hypothesis ES : ce_syms env = s_syms s.
Hypothesis W : writable c23 env l.
Hypothesis NR : no_references l.

Lemma names_no_dot : forall k, isvar env k \/ isfun env k -> ~ In (chr ".") (name_of env k).
Proof.
  intros k V. destruct W as (WS & _). destruct k as [|k].
  - unfold name_of. destruct (nth_error (ce_syms env) 0) as [y|] eqn:E; [|intros []]. destruct (first_symbol _ _ _ _ _ _ env A ES y E) as (-> & _). intros [].
  - assert (X : exists y, nth_error (ce_syms env) (S k) = Some y /\ ((exists v, y_kind y = KVar v) \/ exists f, y_kind y = KFunc f)).
    { destruct V as [(x & v & (y & E & _ & K))|(x & f & (y & E & _ & K))]; exists y; eauto. }
    destruct X as (y & E & K). pose proof (WS k y E) as WK. unfold name_of. rewrite E. assert (U : c_name (y_name y) = true).
    { unfold writable_symbol in WK. destruct K as [(v & K)|(f & K)]; rewrite K in WK; exact (proj1 (proj1 WK)). }
    unfold c_name in U. destruct (y_name y) as [|c r]; [discriminate U|]. apply andb_prop in U as (U & _). apply andb_prop in U as (_ & U). now apply word_no_dot.
Qed.

Lemma facts : forall n, in_checked n l -> fact env n.
Proof.
  intros x C. destruct (final_symbols _ _ _ _ _ _ A NC FA) as (s1 & e & EQ & RD & B).
  destruct (checked_paired _ _ _ _ _ C _ _ _ B) as (n & P). destruct (located _ _ _ _ _ _ _ P _ _ B) as (en & en' & S0 & _).
  pose proof (fine_nodes _ _ _ _ _ _ A NC FA NR x C) as FH. pose proof (accepted_named _ _ _ _ _ _ A n x P) as NM.
  assert (T1 : forall k y, tn_pay x = XDef k y -> tn_type x = N_VAR_DEF) by (inversion S0; subst; cbn [tn_pay tn_type]; congruence).
  assert (T2 : forall k ks, tn_pay x = XProto k ks -> tn_type x = N_FUNCTION_PROTO /\ isfun env k).
  { inversion S0; subst; cbn [tn_pay tn_type]; try congruence. intros k0 ks0 E. split; [reflexivity|]. inversion E; subst.
    destruct (d_fun env s1 (eq_trans ES EQ) k0 ts0 r) as (y & f & F & _); [assumption|]. exists y, f. exact F. }
  split; [|split; [exact T2|]].
  - intros k y E. pose proof (T1 k y E) as T. split; [exact T|]. unfold fine_here in FH. rewrite T, E in FH. destruct FH as (_ & TY & _). rewrite ES. split; [exact TY|].
    unfold named in NM. rewrite E in NM. destruct NM as (t & r & e0 & i & c & z & _ & _ & (sy & v & ESY & K & CE & VT & _)). rewrite <- ES in ESY. split.
    + exists (y_name sy), v. split; [exists sy; auto|exact CE].
    + unfold vtype. rewrite ESY, K. exact VT.
  - intro T. inversion S0; subst; cbn [tn_pay tn_type] in *; try discriminate T; [| |].
    + exfalso. match goal with I : In (n_type n) _ |- _ => rewrite T in I; cbn [In] in I; intuition discriminate end.
    + eauto.
    + exfalso. match goal with I : In (n_type n) _ |- _ => rewrite T in I; cbn [In] in I; intuition discriminate end.
Qed.

Theorem c_behaves_l : forall m t o code o', has_base (ce_file env) (m ++ u ".sk") -> nz m -> Spec_Names.fits m -> c_file env l = Ok t ->
  plain_aliases tree l -> behaved H env M l -> numbers_agree H env M -> links_agree H env M ->
  exits H (ce_syms env) (c_exact1 H) (c_exact2 H) l o code o' ->
  exists hs ds, is_c_file c23 t hs ds /\ c_exits H M hs ds o (wrap32 code) o'.
Proof.
  intros m t o code o' HB NZ FI CF PA BH NA LA EX. destruct (c_programs_l _ _ _ _ _ _ env c23 m t A NC FA ES W HB NZ FI CF) as (hs & ds & IC & (cs & ds0 & ST & DS) & HP & HD).
  exists hs, ds. split; [exact IC|]. rewrite DS. pose proof (numbers_l _ _ _ _ _ _ A) as ND.
  destruct (final_symbols _ _ _ _ _ _ A NC FA) as (s1 & e & EQ & RD & B). destruct (accepted_seq _ _ _ _ _ _ A) as (a & b & SQ).
  assert (PT : forall n k ks, In n l -> tn_pay n = XProto k ks -> tn_type n = N_FUNCTION_PROTO) by exact (u_pt env l facts).
  assert (NM : named_in src s1 tree l).
  { intros n x P. pose proof (accepted_named _ _ _ _ _ _ A n x P) as NM. unfold named, valued, flagged, calls_it in *. rewrite <- EQ. exact NM. }
  destruct (program_fit H env M w src s1 l hs (eq_trans ES EQ) BH ND PT (u_ini env l facts) HP NR names_no_dot tree e a b B NM PA SQ) as (SC & BODY).
  refine (unit_runs H env M l hs (chr "." :: m) cs ds0 NA LA BH ND facts _ HD ST SC BODY o code o' EX).
  exact (proj2 (proj2 (proj2 (proj2 W)))).
Qed.
End Behaves.
