(** Both back ends. *)
From Coq Require Import List Arith NArith ZArith Bool Lia Ascii String.
From Verif Require Import Base Model_Token Model_Literal Model_Parse Spec_Parse Model_Sem Spec_Sem Spec_Sem2 Proof_Sem Proof_SemEx
  Prop_Sem Model_Names Spec_Names Model_CGen Model_CFile Spec_C Spec_CGen Spec_CProg Spec_CBack Prop_CProg
  Spec_Run Spec_IR Model_LLVM Spec_LLVM Proof_RunEx Proof_LLVM5 Prop_LLVM Spec_CRun Spec_CBehave Proof_CRunEx Proof_CRunEx2 Proof_CRun11 Prop_CRun.
Import ListNotations.
Open Scope list_scope.
Open Scope N_scope.

(** Fewer restrictions, more runs. *)
Lemma exits_weaken : forall H ys (p1 q1 : unop -> sv (h_float H) -> Prop) (p2 q2 : binop -> sv (h_float H) -> sv (h_float H) -> Prop),
  (forall o v, p1 o v -> q1 o v) -> (forall o a b, p2 o a b -> q2 o a b) ->
  forall l o code o', exits H ys p1 p2 l o code o' -> exits H ys q1 q2 l o code o'.
Proof.
  intros H ys p1 q1 p2 q2 Q1 Q2 l o code o' (out & s' & E & R). exists out, s'. split; [|exact R]. clear R. revert E. generalize (start H o). intros s E.
  assert (X : (forall s x v s', eval H ys p1 p2 s x v s' -> eval H ys q1 q2 s x v s') /\ (forall s x v s', evals H ys p1 p2 s x v s' -> evals H ys q1 q2 s x v s') /\
    (forall s l o s', exec H ys p1 p2 s l o s' -> exec H ys q1 q2 s l o s') /\ (forall s n r o s', branch H ys p1 p2 s n r o s' -> branch H ys q1 q2 s n r o s') /\
    (forall s r o s', otherwise H ys p1 p2 s r o s' -> otherwise H ys q1 q2 s r o s') /\ (forall s o1 r o s', after H ys p1 p2 s o1 r o s' -> after H ys q1 q2 s o1 r o s')).
  { apply runs_ind; intros; solve [econstructor; eauto]. }
  now apply (proj1 (proj2 (proj2 X))).
Qed.

(** C58: a program that stays within the limits of both back ends has the same result with
    either of them: the module that LLVM gets and the C file end with the same exit code (as far as an
    `int` can hold it) after the same calls of functions from outside. *)
Theorem backends_agree : forall H fold debug M w src ts tree s l env c23 m t R o code o', folds_well H fold ->
  accepted w src ts tree s l -> no_call_blocks tree -> few_arguments tree -> no_references l -> plain_aliases tree l ->
  forallb (steady (s_syms s)) l = true -> gen_module H fold (s_syms s) debug l = Ok R ->
  ce_syms env = s_syms s -> writable c23 env l -> has_base (ce_file env) (m ++ u ".sk") -> nz m -> Spec_Names.fits m -> c_file env l = Ok t ->
  behaved H env M l -> numbers_agree H env M -> links_agree H env M ->
  exits H (s_syms s) (exact1 H) (fun p a b => exact2 H p a b /\ c_exact2 H p a b) l o code o' ->
  exists hs ds, is_c_file c23 t hs ds /\ (exists code1 o1, module_exits H R o code1 o1) /\ (exists code2 o2, c_exits H M hs ds o code2 o2) /\
    forall code1 o1 code2 o2, module_exits H R o code1 o1 -> c_exits H M hs ds o code2 o2 -> code2 = wrap32 code1 /\ o2 = o1.
Proof.
  intros H fold debug M w src ts tree s l env c23 m t R o code o' FW A NC FA NR PA ST G ES W HB NZ FI CF BH NA LA E.
  assert (E1 : exits H (s_syms s) (exact1 H) (exact2 H) l o code o') by (refine (exits_weaken _ _ _ _ _ _ _ _ _ _ _ _ E); intros; tauto).
  assert (E2 : exits H (s_syms s) (c_exact1 H) (c_exact2 H) l o code o') by (refine (exits_weaken _ _ _ _ _ _ _ _ _ _ _ _ E); [intros; exact I|intros; tauto]).
  destruct (code_runs H fold debug w src ts tree s l R o code o' FW A NC FA NR ST G E1) as (ME & M1).
  destruct (c_files_behave H M w src ts tree s l env c23 m t o code o' A NC FA NR PA ES W HB NZ FI CF BH NA LA E2) as (hs & ds & IC & CE & C1).
  exists hs, ds. split; [exact IC|]. split; [now exists code, o'|]. split; [now exists (wrap32 code), o'|].
  intros code1 o1 code2 o2 X Y. destruct (M1 _ _ X) as (-> & ->). exact (C1 _ _ Y).
Qed.
Print Assumptions backends_agree.

Definition okay4 (o : binop) (a b : sv Z) : bool := okay2 o a b && okay3 o a b.
Example backends_agree_ex :
  accepted plain steps (tokens_of steps) (tree_of plain steps) (state_of plain steps) (checked_of plain steps) /\
  exists hs ds t, c_file (file steps) (checked_of plain steps) = Ok t /\ is_c_file false t hs ds /\
    (exists code1 o1, module_exits toy (code_of steps) [] code1 o1) /\ (exists code2 o2, c_exits toy desk hs ds [] code2 o2) /\
    forall code1 o1 code2 o2, module_exits toy (code_of steps) [] code1 o1 -> c_exits toy desk hs ds [] code2 o2 -> code2 = wrap32 code1 /\ o2 = o1.
Proof.
  assert (A : accepted plain steps (tokens_of steps) (tree_of plain steps) (state_of plain steps) (checked_of plain steps)) by (apply compiles_accepted; vm_compute; reflexivity).
  assert (NC : no_call_blocks (tree_of plain steps)) by (apply no_call_blocks_of; vm_compute; reflexivity).
  assert (FA : few_arguments (tree_of plain steps)) by (apply few_arguments_of; vm_compute; reflexivity).
  assert (NR : no_references (checked_of plain steps)) by (apply no_references_of; vm_compute; reflexivity).
  assert (PA : plain_aliases (tree_of plain steps) (checked_of plain steps)) by (apply plain_aliases_of; vm_compute; reflexivity).
  assert (ST : forallb (steady (s_syms (state_of plain steps))) (checked_of plain steps) = true) by (vm_compute; reflexivity).
  assert (G : gen_module toy unfolded (s_syms (state_of plain steps)) false (checked_of plain steps) = Ok (code_of steps)) by (apply generated_code; vm_compute; reflexivity).
  assert (ES : ce_syms (file steps) = s_syms (state_of plain steps)) by (unfold file; cbn [ce_syms]; reflexivity).
  assert (W : writable false (file steps) (checked_of plain steps)) by (apply writable_of2; [exact (file_plain steps)|vm_compute; reflexivity..]).
  assert (B : has_base (ce_file (file steps)) (u "busy" ++ u ".sk")) by (unfold file; cbn [ce_file]; exact busy_base).
  assert (BH : behaved toy (file steps) desk (checked_of plain steps)) by (apply (behavedb_sound toy (file steps) desk okay3 okay3_exact); vm_compute; reflexivity).
  assert (EX : exits toy (s_syms (state_of plain steps)) (exact1 toy) (fun p a b => exact2 toy p a b /\ c_exact2 toy p a b) (checked_of plain steps) [] 26%Z [[SvInt 4]; [SvInt 10]; [SvInt 100]]).
  { apply (exits_of toy _ _ _ okay1 okay4) with (f := 200%nat); [exact okay1_exact| |].
    - intros p a b E. unfold okay4 in E. apply andb_true_iff in E as (E1 & E2). split; [now apply okay2_exact|now apply okay3_exact].
    - assert (X : match ex toy (s_syms (state_of plain steps)) okay1 okay4 200 (start toy []) (checked_of plain steps) with
        | Some (out, s') => Some (exit_code toy out, r_out toy s') | None => None end = Some (Some 26%Z, [[SvInt 4]; [SvInt 10]; [SvInt 100]])) by (vm_compute; reflexivity).
      destruct (ex toy _ _ _ _ _ _) as [(out, s')|]; [|discriminate X]. injection X as X1 X2. split; assumption. }
  split; [exact A|]. destruct (c_file (file steps) (checked_of plain steps)) as [t|] eqn:E; [|exfalso; vm_compute in E; discriminate E].
  destruct (backends_agree toy unfolded false desk plain steps (tokens_of steps) (tree_of plain steps) (state_of plain steps) (checked_of plain steps) (file steps) false (u "busy") t (code_of steps) [] 26%Z
    [[SvInt 4]; [SvInt 10]; [SvInt 100]] unfolded_well A NC FA NR PA ST G ES W B) as (hs & ds & I & C).
  - repeat constructor; discriminate.
  - reflexivity.
  - exact E.
  - exact BH.
  - exact (desk_numbers steps).
  - exact (desk_links steps).
  - exact EX.
  - exists hs, ds, t. split; [reflexivity|]. split; [exact I|exact C].
Qed.

(** The back ends do not agree on all programs: LLVM evaluates both operands of `and`, initialises
    the variables of functions each time, and gives each call its own. *)
Definition differ (src : text) (z z' : Z) : Prop :=
  accepted plain src (tokens_of src) (tree_of plain src) (state_of plain src) (checked_of plain src) /\
  gen_module toy unfolded (s_syms (state_of plain src)) false (checked_of plain src) = Ok (code_of src) /\ module_exits toy (code_of src) [] z [] /\
  exists t, c_file (file src) (checked_of plain src) = Ok t /\ (exists hs ds, is_c_file true t hs ds) /\
    forall hs ds, is_c_file true t hs ds -> c_exits toy desk hs ds [] z' [].
Lemma differ_of : forall f g src z z', meantb 200 src z = true -> generated src = true -> main_result toy (code_of src) f [] = Some (Some (V (SvInt z)), []) ->
  distinctb toy desk [] (unit_of src) = true -> crun toy desk [] (unit_of src) g [] = Some (z', []) -> differ src z z'.
Proof.
  intros f g src z z' ME GE MR D C. destruct (meant_of 200 src z ME) as (t & (A & _ & _ & _ & _ & _ & CF & _) & EX & IS). split; [exact A|]. split; [exact (generated_code _ GE)|].
  split; [exact (module_exits_of toy (code_of src) f [] z [] MR)|]. exists t. split; [exact CF|]. split; [exact EX|]. intros hs ds IC. destruct (IS hs ds IC) as (-> & ->).
  exact (crun_sound toy desk [] (unit_of src) g [] z' [] D C).
Qed.
Theorem backends_agree_refuted : differ skipped 1 0 /\ differ counter 2 3 /\ differ nested 2 0.
Proof. split; [|split]; apply (differ_of 200 200); vm_compute; reflexivity. Qed.
Print Assumptions backends_agree_refuted.
