(** The names in object files of the C back end. *)
From Coq Require Import List Arith NArith ZArith Bool Lia Ascii String.
From Verif Require Import Base Model_Token Spec_Token Model_Names Spec_Names Model_Parse Spec_Parse Model_Sem Spec_Sem Spec_Sem2 Model_CGen Model_CFile Spec_C Spec_CGen Spec_CProg Spec_CBack
  Spec_Run Spec_IR Model_LLVM Model_Link Spec_Link Spec_CLink Proof_C2 Proof_SemEx Proof_RunEx Prop_Sem Prop_LLVM Prop_CProg Prop_CRun Proof_CLink Proof_Link3 Proof_Link4 Prop_Link.
Import ListNotations.
Open Scope list_scope.
Open Scope N_scope.

(** * Theorems *)

(** C67: the object file that is made of the C file of an accepted program defines main,
    module.name for each exported function and each exported variable at the top of the program
    or of a function, and helpers; everything else is static. External functions keep their
    names. *)
Theorem c_object_files : forall w src ts tree s l env c23 m t,
  checked_program w src ts tree s l -> ce_syms env = s_syms s -> writable c23 env l -> module_name (ce_file env) m -> mangled env -> c_apart (s_syms s) l -> c_file env l = Ok t ->
  exists hs ds, is_c_file c23 t hs ds /\ helped l hs /\
    (forall n, c_defines hs ds n <-> n = u "main" \/ (exists k, In k (c_declared (s_syms s) l) /\ exported (s_syms s) k = true /\ n = m ++ chr "." :: name_of (s_syms s) k) \/
       (exists h, In h hs /\ n = Spec_CProg.helper_name h)) /\
    (forall n, c_takes ds n <-> exists k, In k (c_declared (s_syms s) l) /\ external (s_syms s) k = true /\ n = name_of (s_syms s) k).
Proof. exact c_names. Qed.
Print Assumptions c_object_files.

(** Both back ends export the same names, if exports stand where both look for them. *)
Lemma helper_no_dot : forall h, ~ In (chr ".") (Spec_CProg.helper_name h).
Proof. intros h I. destruct h; vm_compute in I; repeat destruct I as [I|I]; try discriminate I; exact I. Qed.
Theorem back_ends_export_the_same : forall H fold w src ts tree s l fresh m binary debug M T env c23 t,
  checked_program w src ts tree s l -> renames fresh -> module_name (ce_file env) m -> ~ dot_file m ->
  apart (s_syms s) binary l -> object_file H fold fresh (ce_file env) binary debug (s_syms s) l M T ->
  ce_syms env = s_syms s -> writable c23 env l -> mangled env -> c_apart (s_syms s) l -> c_file env l = Ok t ->
  plain_exports (s_syms s) l ->
  exists hs ds, is_c_file c23 t hs ds /\ forall x, defines T (m ++ chr "." :: x) <-> c_defines hs ds (m ++ chr "." :: x).
Proof.
  intros H fold w src ts tree s l fresh m binary debug M T env c23 t CP RN MN DF AP OF ES W MG CA CF PE.
  destruct (c_object_files w src ts tree s l env c23 m t CP ES W MN MG CA CF) as (hs & ds & IS & _ & D & _). exists hs, ds. split; [exact IS|]. intro x.
  rewrite D, (files_define H fold w src ts tree s l fresh (ce_file env) m binary debug M T _ CP RN MN AP OF).
  assert (DOT : In (chr ".") (m ++ chr "." :: x)) by (apply in_app_iff; right; now left). split.
  - intros [E|[(k & I & X & E)|(_ & I)]].
    + exfalso. destruct m as [|c r]; [apply DF; now left|]. injection E as -> _. apply DF. right. eauto.
    + right. left. exists k. split; [now apply (PE k X)|auto].
    + exfalso. exact (start_no_dot _ I DOT).
  - intros [E|[(k & I & X & E)|(h & _ & E)]].
    + exfalso. rewrite E in DOT. vm_compute in DOT. repeat destruct DOT as [DOT|DOT]; try discriminate DOT; exact DOT.
    + right. left. exists k. split; [now apply (PE k X)|auto].
    + exfalso. rewrite E in DOT. exact (helper_no_dot _ DOT).
Qed.
Print Assumptions back_ends_export_the_same.

(** * Examples *)

Definition labels (src file : text) (k : nat) : option text :=
  if exported (s_syms (state_of plain src)) k then match mangle_name file (name_of (s_syms (state_of plain src)) k) with Ok t => Some t | UB => None end else None.
Definition at_file (src file : text) : cctx := mkcctx (s_syms (state_of plain src)) (fun _ => u "0x1.8p+1") (fun _ => false) (labels src file) false file.
Lemma at_file_mangled : forall src file, mangled (at_file src file).
Proof.
  intros src file k t E. cbn [at_file ce_linkage ce_file ce_syms] in *. unfold labels in E. destruct (exported (s_syms (state_of plain src)) k); [|discriminate E].
  destruct (mangle_name file (name_of (s_syms (state_of plain src)) k)) as [z|]; [|discriminate E]. now injection E as ->.
Qed.
Lemma at_syms : forall src file, ce_syms (at_file src file) = s_syms (state_of plain src).
Proof. reflexivity. Qed.
Lemma at_named : forall src file m, module_name file m -> module_name (ce_file (at_file src file)) m.
Proof. intros src file m X. exact X. Qed.
Definition wares : text :=
  line "external say(what: Str)" ++
  line "export limit := 10" ++
  line "export area(a: Int) Int {" ++
  line "  return a ^ 2" ++
  line "}" ++
  line "check(a: Str) Bool {" ++
  line "  say(a)" ++
  line "  return a is ""x""" ++
  line "}" ++
  line "if check(""y"") {" ++
  line "  return area(limit)" ++
  line "}" ++
  line "return 0".
Definition inner : text :=
  line "if true {" ++
  line "  export x := 1" ++
  line "}" ++
  line "return 0".

Lemma labels_of : forall src file, forallb (fun k => match labels src file k with Some t => forallb plain_char t | None => true end) (seq 0 (List.length (s_syms (state_of plain src)))) = true ->
  forall k t, ce_linkage (at_file src file) k = Some t -> plain_chars t.
Proof.
  intros src file E k t L. cbn [at_file ce_linkage] in L. rewrite forallb_forall in E. assert (K : In k (seq 0 (List.length (s_syms (state_of plain src))))).
  { apply in_seq. split; [lia|]. unfold labels, exported in L. destruct (nth_error (s_syms (state_of plain src)) k) eqn:N; [|discriminate L]. cbn. apply nth_error_Some. congruence. }
  apply E in K. rewrite L in K. now apply plain_of.
Qed.
Definition capartb (ys : list symbol) (ds : list nat) : bool :=
  forallb (fun j => implb (exported ys j || external ys j) (negb (text_eqb (name_of ys j) (u "main")) && negb (text_eqb (name_of ys j) (u "init"))) &&
    forallb (fun k => implb (external ys j && text_eqb (name_of ys j) (name_of ys k)) (Nat.eqb j k)) ds) ds.
Lemma capart_of : forall ys l, capartb ys (c_declared ys l) = true -> c_apart ys l.
Proof.
  intros ys l E. unfold capartb in E. rewrite forallb_forall in E. constructor.
  - intros k I X. apply E in I. rewrite X in I. apply andb_true_iff in I as (I & _). cbn [implb] in I. apply andb_true_iff in I as (A & B).
    apply negb_true_iff, text_eqb_neq in A, B. auto.
  - intros j k J K X N0. apply E in J. apply andb_true_iff in J as (_ & J). rewrite forallb_forall in J. apply J in K. rewrite X, N0, text_eqb_refl in K. now apply Nat.eqb_eq.
Qed.
Definition mem (k : nat) (l : list nat) : bool := existsb (Nat.eqb k) l.
Lemma mem_in : forall k l, mem k l = true <-> In k l.
Proof.
  intros k l. unfold mem. rewrite existsb_exists. split; [intros (x & I & E); apply Nat.eqb_eq in E; congruence|intro I; exists k; rewrite Nat.eqb_refl; auto].
Qed.
Lemma plain_exports_of : forall ys l, forallb (fun k => implb (exported ys k) (Bool.eqb (mem k (c_declared ys l)) (mem k (declared ys l)))) (seq 0 (List.length ys)) = true -> plain_exports ys l.
Proof.
  intros ys l E k X. rewrite forallb_forall in E. assert (K : In k (seq 0 (List.length ys))).
  { apply in_seq. split; [lia|]. unfold exported in X. destruct (nth_error ys k) eqn:N; [|discriminate X]. cbn. apply nth_error_Some. congruence. }
  apply E in K. rewrite X in K. cbn [implb] in K. apply eqb_prop in K. rewrite <- !mem_in, K. reflexivity.
Qed.
Definition c_makes (file src : text) : bool := match c_file (at_file src file) (checked_of plain src) with Ok _ => true | UB => false end.
Lemma c_made : forall file src, c_makes file src = true -> exists t, c_file (at_file src file) (checked_of plain src) = Ok t.
Proof. intros file src E. unfold c_makes in E. destruct (c_file (at_file src file) (checked_of plain src)) as [t|]; [eauto|discriminate E]. Qed.
Lemma wares_checked : checked_program plain wares (tokens_of wares) (tree_of plain wares) (state_of plain wares) (checked_of plain wares).
Proof. checked wares. Qed.
Lemma inner_checked : checked_program plain inner (tokens_of inner) (tree_of plain inner) (state_of plain inner) (checked_of plain inner).
Proof. checked inner. Qed.
Lemma wares_writable : writable true (at_file wares (u "lib/shapes.sk")) (checked_of plain wares).
Proof. apply writable_of2; [apply labels_of; vm_compute; reflexivity|vm_compute; reflexivity..]. Qed.
Lemma inner_writable : writable true (at_file inner (u "tools.sk")) (checked_of plain inner).
Proof. apply writable_of2; [apply labels_of; vm_compute; reflexivity|vm_compute; reflexivity..]. Qed.

Example c_object_files_ex : exists t hs ds, c_file (at_file wares (u "lib/shapes.sk")) (checked_of plain wares) = Ok t /\ is_c_file true t hs ds /\
  c_defines hs ds (u "main") /\ c_defines hs ds (u "shapes.limit") /\ c_defines hs ds (u "shapes.area") /\ ~ c_defines hs ds (u "check") /\ ~ c_defines hs ds (u ".shapes") /\
  c_takes ds (u "say") /\ ~ c_takes ds (u "check").
Proof.
  destruct (c_made (u "lib/shapes.sk") wares) as (t & E); [vm_compute; reflexivity|].
  destruct (c_object_files plain wares (tokens_of wares) (tree_of plain wares) (state_of plain wares) (checked_of plain wares) (at_file wares (u "lib/shapes.sk")) true (u "shapes") t
    wares_checked (at_syms wares (u "lib/shapes.sk")) wares_writable (at_named wares _ _ shapes_named) (at_file_mangled wares (u "lib/shapes.sk"))) as (hs & ds & IS & _ & D & K); [apply capart_of; vm_compute; reflexivity|exact E|].
  exists t, hs, ds. split; [exact E|]. split; [exact IS|].
  assert (DS : c_declared (s_syms (state_of plain wares)) (checked_of plain wares) = [1; 3; 4; 6]%nat) by (vm_compute; reflexivity).
  rewrite !D, !K, DS. split; [now left|]. split; [right; left; exists 3%nat; split; [cbn; auto|split; vm_compute; reflexivity]|].
  split; [right; left; exists 4%nat; split; [cbn; auto|split; vm_compute; reflexivity]|]. split; [|split; [|split]].
  - intros [Z|[(k & I & _ & Z)|(h & _ & Z)]]; [discriminate Z| |destruct h; discriminate Z]. repeat destruct I as [<-|I]; try destruct I; vm_compute in Z; discriminate Z.
  - intros [Z|[(k & I & _ & Z)|(h & _ & Z)]]; [discriminate Z| |destruct h; discriminate Z]. repeat destruct I as [<-|I]; try destruct I; vm_compute in Z; discriminate Z.
  - exists 1%nat. split; [cbn; auto|split; vm_compute; reflexivity].
  - intros (k & I & X & Z). repeat destruct I as [<-|I]; try destruct I; vm_compute in X, Z; discriminate.
Qed.
Example back_ends_export_the_same_ex : exists t hs ds, c_file (at_file wares (u "lib/shapes.sk")) (checked_of plain wares) = Ok t /\ is_c_file true t hs ds /\
  forall x, defines (names_in (u "lib/shapes.sk") true wares) (u "shapes" ++ chr "." :: x) <-> c_defines hs ds (u "shapes" ++ chr "." :: x).
Proof.
  destruct (c_made (u "lib/shapes.sk") wares) as (t & E); [vm_compute; reflexivity|]. exists t.
  destruct (back_ends_export_the_same toy unfolded plain wares (tokens_of wares) (tree_of plain wares) (state_of plain wares) (checked_of plain wares) ones (u "shapes") true false
    (code_of wares) (names_in (u "lib/shapes.sk") true wares) (at_file wares (u "lib/shapes.sk")) true t wares_checked ones_rename (at_named wares _ _ shapes_named)) as (hs & ds & IS & D).
  - intros [Z|(r & Z)]; vm_compute in Z; discriminate Z.
  - apply apart_of. vm_compute. reflexivity.
  - change (ce_file (at_file wares (u "lib/shapes.sk"))) with (u "lib/shapes.sk"). apply makes_file. vm_compute. reflexivity.
  - apply at_syms.
  - exact wares_writable.
  - apply at_file_mangled.
  - apply capart_of. vm_compute. reflexivity.
  - exact E.
  - apply plain_exports_of. vm_compute. reflexivity.
  - exists hs, ds. auto.
Qed.

(** * Where it goes wrong *)

(** Each C file has a main function: those of two modules can never be linked. *)
Theorem c_files_fit_refuted : forall w1 src1 ts1 tree1 s1 l1 env1 c1 m1 t1 w2 src2 ts2 tree2 s2 l2 env2 c2 m2 t2,
  checked_program w1 src1 ts1 tree1 s1 l1 -> ce_syms env1 = s_syms s1 -> writable c1 env1 l1 -> module_name (ce_file env1) m1 -> mangled env1 -> c_apart (s_syms s1) l1 -> c_file env1 l1 = Ok t1 ->
  checked_program w2 src2 ts2 tree2 s2 l2 -> ce_syms env2 = s_syms s2 -> writable c2 env2 l2 -> module_name (ce_file env2) m2 -> mangled env2 -> c_apart (s_syms s2) l2 -> c_file env2 l2 = Ok t2 ->
  exists hs1 ds1 hs2 ds2 n, is_c_file c1 t1 hs1 ds1 /\ is_c_file c2 t2 hs2 ds2 /\ c_defines hs1 ds1 n /\ c_defines hs2 ds2 n.
Proof.
  intros. destruct (c_object_files w1 src1 ts1 tree1 s1 l1 env1 c1 m1 t1) as (hs1 & ds1 & I1 & _ & D1 & _); auto.
  destruct (c_object_files w2 src2 ts2 tree2 s2 l2 env2 c2 m2 t2) as (hs2 & ds2 & I2 & _ & D2 & _); auto.
  exists hs1, ds1, hs2, ds2, (u "main"). rewrite D1, D2. auto.
Qed.
Print Assumptions c_files_fit_refuted.
Example c_files_fit_refuted_ex : exists t1 t2 hs1 ds1 hs2 ds2 n,
  c_file (at_file wares (u "lib/shapes.sk")) (checked_of plain wares) = Ok t1 /\ c_file (at_file inner (u "tools.sk")) (checked_of plain inner) = Ok t2 /\
  is_c_file true t1 hs1 ds1 /\ is_c_file true t2 hs2 ds2 /\ c_defines hs1 ds1 n /\ c_defines hs2 ds2 n.
Proof.
  destruct (c_made (u "lib/shapes.sk") wares) as (t1 & E1); [vm_compute; reflexivity|]. destruct (c_made (u "tools.sk") inner) as (t2 & E2); [vm_compute; reflexivity|].
  destruct (c_files_fit_refuted plain wares (tokens_of wares) (tree_of plain wares) (state_of plain wares) (checked_of plain wares) (at_file wares (u "lib/shapes.sk")) true (u "shapes") t1
    plain inner (tokens_of inner) (tree_of plain inner) (state_of plain inner) (checked_of plain inner) (at_file inner (u "tools.sk")) true (u "tools") t2
    wares_checked (at_syms wares (u "lib/shapes.sk")) wares_writable (at_named wares _ _ shapes_named) (at_file_mangled wares (u "lib/shapes.sk"))) as (hs1 & ds1 & hs2 & ds2 & n & X).
  - apply capart_of. vm_compute. reflexivity.
  - exact E1.
  - exact inner_checked.
  - apply at_syms.
  - exact inner_writable.
  - apply at_named. exact tools_named.
  - apply at_file_mangled.
  - apply capart_of. vm_compute. reflexivity.
  - exact E2.
  - exists t1, t2, hs1, ds1, hs2, ds2, n. auto.
Qed.

(** A variable that is exported in a block: the LLVM back end defines it, the C back end does
    not. *)
Theorem back_ends_export_the_same_refuted : exists t hs ds,
  checked_program plain inner (tokens_of inner) (tree_of plain inner) (state_of plain inner) (checked_of plain inner) /\
  apart (s_syms (state_of plain inner)) false (checked_of plain inner) /\ c_apart (s_syms (state_of plain inner)) (checked_of plain inner) /\
  object_file toy unfolded ones (u "tools.sk") false false (s_syms (state_of plain inner)) (checked_of plain inner) (code_of inner) (names_in (u "tools.sk") false inner) /\
  c_file (at_file inner (u "tools.sk")) (checked_of plain inner) = Ok t /\ is_c_file true t hs ds /\
  defines (names_in (u "tools.sk") false inner) (u "tools.x") /\ ~ c_defines hs ds (u "tools.x").
Proof.
  destruct (c_made (u "tools.sk") inner) as (t & E); [vm_compute; reflexivity|].
  assert (CA : c_apart (s_syms (state_of plain inner)) (checked_of plain inner)) by (apply capart_of; vm_compute; reflexivity).
  assert (AP : apart (s_syms (state_of plain inner)) false (checked_of plain inner)) by (apply apart_of; vm_compute; reflexivity).
  destruct (c_object_files plain inner (tokens_of inner) (tree_of plain inner) (state_of plain inner) (checked_of plain inner) (at_file inner (u "tools.sk")) true (u "tools") t
    inner_checked (at_syms inner (u "tools.sk")) inner_writable (at_named inner _ _ tools_named) (at_file_mangled inner (u "tools.sk")) CA E) as (hs & ds & IS & _ & D & _).
  exists t, hs, ds. split; [exact inner_checked|]. split; [exact AP|]. split; [exact CA|]. split; [apply makes_file; vm_compute; reflexivity|]. split; [exact E|]. split; [exact IS|]. split.
  - eexists. split; [apply nth_error_In with (n := 1%nat); vm_compute; reflexivity|]. repeat split.
  - rewrite D. assert (DS : c_declared (s_syms (state_of plain inner)) (checked_of plain inner) = []) by (vm_compute; reflexivity). rewrite DS.
    intros [Z|[(k & [] & _)|(h & _ & Z)]]; [discriminate Z|destruct h; discriminate Z].
Qed.
Print Assumptions back_ends_export_the_same_refuted.
