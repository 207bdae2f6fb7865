(** What object files define and ask for. *)
From Coq Require Import List Arith NArith ZArith Bool Lia Ascii String.
From Verif Require Import Base Model_Token Spec_Token Spec_Classify Model_Names Spec_Names Model_Parse Spec_Parse Model_Sem Spec_Sem Spec_Run Spec_IR Model_LLVM Model_Link Spec_Link.
From Verif Require Import Proof_Link Proof_Link2 Proof_Link3.
From Verif Require Spec_Pipeline.
Import ListNotations.
Open Scope list_scope.
Open Scope nat_scope.

Lemma helper_names : forall H (M : module H) n, (exists f, helper f /\ calls M f /\ n = helper_text f) <-> exists f, calls M f /\ helper_name f n.
Proof.
  intros H M n. split.
  - intros (f & HF & C & ->). exists f. split; [exact C|]. destruct f; [exfalso; eapply HF; reflexivity|constructor..].
  - intros (f & C & HN). exists f. destruct HN; (split; [intro; discriminate|]); auto.
Qed.
Lemma start_eq : forall n, In n (u "_start" :: shim_names) <-> In n start_names.
Proof. reflexivity. Qed.

Lemma files_all : forall H fold w src ts tree s l fresh filename m binary debug M,
  checked_program w src ts tree s l -> renames fresh -> module_name filename m -> apart (s_syms s) binary l ->
  gen_module H fold (s_syms s) debug l = Ok M ->
  exists T, object_file H fold fresh filename binary debug (s_syms s) l M T /\ NoDup (map en_name T) /\
    (forall T', object_file H fold fresh filename binary debug (s_syms s) l M T' -> T' = T) /\
    (forall n, defines T n <-> n = chr "." :: m \/
      (exists k, In k (declared (s_syms s) l) /\ exported (s_syms s) k = true /\ n = m ++ chr "." :: name_of (s_syms s) k) \/
      binary = true /\ In n start_names) /\
    (forall n, asks M T n <->
      (exists k, In k (declared (s_syms s) l) /\ external (s_syms s) k = true /\ calls M (CSym k) /\ n = name_of (s_syms s) k) \/
      (binary = false /\ exists f, calls M f /\ helper_name f n) \/
      binary = true /\ In n [u "exit"; u "pow"]).
Proof.
  intros H fold w src ts tree s l fresh filename m binary debug M (SO & FI & LX & A & NC & FA) RN (HB & NZ & FM) AP G.
  destruct (accepted_module_names H fold w src ts tree s l debug M fresh filename m binary LX SO FI A NC FA RN HB NZ FM G AP) as (log & T & LG & MN & ND & D & K).
  exists T. split; [split; [exact G|exists log; auto]|]. split; [exact ND|]. split; [|split; [exact D|]].
  - intros T' (_ & log' & LG' & MN'). rewrite LG in LG'. injection LG' as <-. rewrite MN in MN'. now injection MN' as <-.
  - intro n. rewrite K. now rewrite helper_names.
Qed.
Lemma files_made : forall H fold w src ts tree s l fresh filename m binary debug M,
  checked_program w src ts tree s l -> renames fresh -> module_name filename m -> apart (s_syms s) binary l ->
  gen_module H fold (s_syms s) debug l = Ok M ->
  exists T, object_file H fold fresh filename binary debug (s_syms s) l M T /\ NoDup (map en_name T).
Proof. intros. edestruct files_all as (T & X & Y & _); eauto. Qed.
Lemma files_define : forall H fold w src ts tree s l fresh filename m binary debug M T n,
  checked_program w src ts tree s l -> renames fresh -> module_name filename m -> apart (s_syms s) binary l ->
  object_file H fold fresh filename binary debug (s_syms s) l M T ->
  (defines T n <-> n = chr "." :: m \/
    (exists k, In k (declared (s_syms s) l) /\ exported (s_syms s) k = true /\ n = m ++ chr "." :: name_of (s_syms s) k) \/
    binary = true /\ In n start_names).
Proof.
  intros H fold w src ts tree s l fresh filename m binary debug M T n CP RN MN AP OF.
  destruct (files_all H fold w src ts tree s l fresh filename m binary debug M CP RN MN AP (proj1 OF)) as (T0 & _ & _ & UQ & D & _). rewrite (UQ T OF). apply D.
Qed.
Lemma files_ask : forall H fold w src ts tree s l fresh filename m binary debug M T n,
  checked_program w src ts tree s l -> renames fresh -> module_name filename m -> apart (s_syms s) binary l ->
  object_file H fold fresh filename binary debug (s_syms s) l M T ->
  (asks M T n <->
    (exists k, In k (declared (s_syms s) l) /\ external (s_syms s) k = true /\ calls M (CSym k) /\ n = name_of (s_syms s) k) \/
    (binary = false /\ exists f, calls M f /\ helper_name f n) \/
    binary = true /\ In n [u "exit"; u "pow"]).
Proof.
  intros H fold w src ts tree s l fresh filename m binary debug M T n CP RN MN AP OF.
  destruct (files_all H fold w src ts tree s l fresh filename m binary debug M CP RN MN AP (proj1 OF)) as (T0 & _ & _ & UQ & _ & K). rewrite (UQ T OF). apply K.
Qed.

Lemma program_names : forall w src ts tree s l k, checked_program w src ts tree s l -> In k (declared (s_syms s) l) -> simple (name_of (s_syms s) k).
Proof.
  intros w src ts tree s l k (SO & FI & LX & A & NC & FA) I. destruct (declared_names _ _ _ _ _ _ LX SO FI A NC FA k I) as ((N1 & N2 & N3) & _).
  split; [exact N1|]. split; [exact N2|]. unfold Spec_Names.fits. unfold Spec_Token.fits in FI. lia.
Qed.
Lemma start_no_dot : forall n, In n start_names -> ~ In dot n.
Proof. intros n I. repeat destruct I as [<-|I]; try destruct I; intro Z; cbn in Z; repeat destruct Z as [Z|Z]; try discriminate Z; exact Z. Qed.
Lemma main_not_exported : forall m m' n, ~ dot_file m' -> chr "." :: m <> m' ++ chr "." :: n.
Proof. intros m m' n NH E. destruct m' as [|c r]; [apply NH; now left|]. cbn [app] in E. injection E as <- _. apply NH. right. eauto. Qed.

Lemma files_fit : forall H fold1 fold2 w1 src1 ts1 tree1 s1 l1 w2 src2 ts2 tree2 s2 l2 fresh file1 file2 m1 m2 b1 b2 d1 d2 M1 M2 T1 T2 n,
  checked_program w1 src1 ts1 tree1 s1 l1 -> checked_program w2 src2 ts2 tree2 s2 l2 -> renames fresh ->
  module_name file1 m1 -> module_name file2 m2 -> m1 <> m2 -> ~ dot_file m1 -> ~ dot_file m2 -> b1 && b2 = false ->
  apart (s_syms s1) b1 l1 -> apart (s_syms s2) b2 l2 ->
  object_file H fold1 fresh file1 b1 d1 (s_syms s1) l1 M1 T1 -> object_file H fold2 fresh file2 b2 d2 (s_syms s2) l2 M2 T2 ->
  defines T1 n -> defines T2 n -> False.
Proof.
  intros H fold1 fold2 w1 src1 ts1 tree1 s1 l1 w2 src2 ts2 tree2 s2 l2 fresh file1 file2 m1 m2 b1 b2 d1 d2 M1 M2 T1 T2 n C1 C2 RN N1 N2 NE H1 H2 BB P1 P2 O1 O2 D1 D2.
  apply (files_define H fold1 w1 src1 ts1 tree1 s1 l1 fresh file1 m1 b1 d1 M1 T1 n C1 RN N1 P1 O1) in D1.
  apply (files_define H fold2 w2 src2 ts2 tree2 s2 l2 fresh file2 m2 b2 d2 M2 T2 n C2 RN N2 P2 O2) in D2.
  destruct D1 as [E1|[(k1 & I1 & _ & E1)|(B1 & E1)]], D2 as [E2|[(k2 & I2 & _ & E2)|(B2 & E2)]].
  - congruence.
  - apply (main_not_exported m1 m2 (name_of (s_syms s2) k2) H2). congruence.
  - apply (start_no_dot _ E2). rewrite E1. now left.
  - apply (main_not_exported m2 m1 (name_of (s_syms s1) k1) H1). congruence.
  - rewrite E1 in E2. apply last_dot in E2 as (E2 & _); [contradiction| |]; apply simple_no_dot; [exact (program_names _ _ _ _ _ _ _ C1 I1)|exact (program_names _ _ _ _ _ _ _ C2 I2)].
  - apply (start_no_dot _ E2). rewrite E1. apply in_dot.
  - apply (start_no_dot _ E1). rewrite E2. now left.
  - apply (start_no_dot _ E1). rewrite E2. apply in_dot.
  - rewrite B1, B2 in BB. discriminate.
Qed.

Lemma helper_no_dot : forall f n, helper_name f n -> ~ In dot n.
Proof. intros f n HN. apply start_no_dot. destruct HN; cbn; auto. Qed.
Lemma files_serve : forall H fold1 fold2 w1 src1 ts1 tree1 s1 l1 w2 src2 ts2 tree2 s2 l2 fresh file1 file2 m1 m2 b1 b2 d1 d2 M1 M2 T1 T2 n,
  checked_program w1 src1 ts1 tree1 s1 l1 -> checked_program w2 src2 ts2 tree2 s2 l2 -> renames fresh ->
  module_name file1 m1 -> module_name file2 m2 ->
  apart (s_syms s1) b1 l1 -> apart (s_syms s2) b2 l2 ->
  object_file H fold1 fresh file1 b1 d1 (s_syms s1) l1 M1 T1 -> object_file H fold2 fresh file2 b2 d2 (s_syms s2) l2 M2 T2 ->
  asks M1 T1 n -> defines T2 n -> b1 = false /\ b2 = true /\ exists f, calls M1 f /\ helper_name f n.
Proof.
  intros H fold1 fold2 w1 src1 ts1 tree1 s1 l1 w2 src2 ts2 tree2 s2 l2 fresh file1 file2 m1 m2 b1 b2 d1 d2 M1 M2 T1 T2 n C1 C2 RN N1 N2 P1 P2 O1 O2 K1 D2.
  apply (files_ask H fold1 w1 src1 ts1 tree1 s1 l1 fresh file1 m1 b1 d1 M1 T1 n C1 RN N1 P1 O1) in K1.
  apply (files_define H fold2 w2 src2 ts2 tree2 s2 l2 fresh file2 m2 b2 d2 M2 T2 n C2 RN N2 P2 O2) in D2.
  assert (ND : ~ In dot n).
  { destruct K1 as [(k & I & _ & _ & ->)|[(_ & f & _ & HN)|(_ & [<-|[<-|[]]])]].
    - apply simple_no_dot, (program_names _ _ _ _ _ _ _ C1 I).
    - exact (helper_no_dot _ _ HN).
    - exact exit_no_dot.
    - intro Z. cbn in Z. repeat destruct Z as [Z|Z]; try discriminate Z; exact Z. }
  destruct D2 as [->|[(k & _ & _ & ->)|(B2 & S2)]]; [exfalso; apply ND; now left|exfalso; apply ND, in_dot|].
  destruct K1 as [(k & I & _ & _ & ->)|[(B1 & HN)|(_ & Z)]].
  - exfalso. destruct S2 as [S2|[S2|[S2|[S2|[]]]]]; symmetry in S2; exact (simple_not_under _ _ (program_names _ _ _ _ _ _ _ C1 I) S2).
  - auto.
  - exfalso. destruct Z as [<-|[<-|[]]]; repeat destruct S2 as [S2|S2]; try discriminate S2; exact S2.
Qed.
