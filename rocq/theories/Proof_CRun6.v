(** Expressions of the program have the same values in C. *)
From Coq Require Import List Arith NArith ZArith Bool Lia Ascii String.
From Verif Require Import Base Model_Token Model_Literal Model_Parse Model_Sem Spec_Sem Spec_Sem2 Model_CGen Spec_C Spec_CGen Spec_CProg Spec_CBack Spec_Run
  Spec_LLVM Spec_CRun Spec_CBehave Proof_CGen2 Proof_Sem8 Proof_LLVM Proof_LLVM3 Proof_LLVM5 Proof_CRun Proof_CRun2 Proof_CRun3 Proof_CRun4 Proof_CRun5.
Import ListNotations.
Open Scope list_scope.
Open Scope nat_scope.

Section Sim.
Variable H : host.
Variable env : cctx.
Variable M : machine H.
Variable l : list tnode.
Variable hs : list helper.
Variable ds : list cdef.
Local Notation ys := (ce_syms env).
Local Notation name_of := (name_of env).
Local Notation same := (Spec_CGen.same env).
Local Notation same_all := (Spec_CGen.same_all env).
Local Notation sc := (sc env l hs).
Local Notation scope := (scope env l).
Local Notation xok := (xok env l hs).
Local Notation stands := (Spec_CBack.stands env).
Local Notation others := (Spec_CBack.others env).
Local Notation val := (sv (h_float H)).
Local Notation cval := (cval H).
Local Notation cstate := (cstate H).
Local Notation c_glob := (c_glob H).
Local Notation c_frames := (c_frames H).
Local Notation c_out := (c_out H).
Local Notation in_frames := (in_frames H).
Local Notation rst := (rst H).
Local Notation r_glob := (r_glob H).
Local Notation r_loc := (r_loc H).
Local Notation r_funs := (r_funs H).
Local Notation in_c := (in_c H).
Local Notation isvar := (isvar env).
Local Notation isfun := (isfun env).
Local Notation vtype := (vtype env).
Local Notation initial := (initial env).
Local Notation hoisted := (hoisted l).
Local Notation own := (own l).
Local Notation top_of := (top_of l).
Local Notation R := (R H env l).
Local Notation kept := (kept H env l).
Local Notation grown := (grown H env).
Local Notation rep := (rep H).
Local Notation ceval := (ceval H M hs ds).
Local Notation cevals := (cevals H M hs ds).
Local Notation cexec := (cexec H M hs ds).
Local Notation cafter := (cafter H M hs ds).
Local Notation eval := (eval H ys (c_exact1 H) (c_exact2 H)).
Local Notation evals := (evals H ys (c_exact1 H) (c_exact2 H)).
Local Notation exec := (exec H ys (c_exact1 H) (c_exact2 H)).
Local Notation branch := (branch H ys (c_exact1 H) (c_exact2 H)).
Local Notation otherwise := (otherwise H ys (c_exact1 H) (c_exact2 H)).
Local Notation after := (after H ys (c_exact1 H) (c_exact2 H)).
Hypothesis NA : numbers_agree H env M.
Hypothesis LA : links_agree H env M.
Hypothesis BH : behaved H env M l.
Hypothesis ND : NoDup (flat_map numbers l).
Hypothesis PT : forall n k ks, In n l -> tn_pay n = XProto k ks -> tn_type n = N_FUNCTION_PROTO.
Hypothesis INI : forall n k y, in_checked n l -> tn_pay n = XDef k y -> initial k (x_cexpr y).
Hypothesis FN : forall n k ks x f, In n l -> tn_pay n = XProto k ks -> is_fun env k x f -> exists ps, Forall2 (param_of env) ks ps /\
  (f_external f = false -> exists b d1, stands true (tn_child n) b d1 /\ defined ds x (c_type (f_ret f)) ps b) /\
  (f_external f = true -> elsewhere ds x (c_type (f_ret f)) ps (link_name env k x f)).
Hypothesis BODY : forall n f ks, In n l -> tn_pay n = XProto f ks -> body_ok env l hs n f ks.
Local Definition HN : NoDup (map name_of (flat_map outside l)) := bh_names _ _ _ _ BH.

(** * Names of functions and variables *)

Lemma not_helper : forall k, hoisted k -> is_helper (name_of k) = false.
Proof.
  intros k HO. destruct (bh_taken _ _ _ _ BH k HO) as (_ & NT). unfold is_helper. destruct (existsb _ _) eqn:E; [|reflexivity]. exfalso. apply NT.
  apply existsb_exists in E as (x & I & Q). apply text_eqb_eq in Q. subst x. cbn [map In helper_name] in *. tauto.
Qed.
Lemma no_frame_helper : forall cx e s c h, R cx e s c -> in_frames (c_frames c) (helper_name h) = None.
Proof.
  intros cx e s c h RR. destruct (in_frames (c_frames c) (helper_name h)) as [cl|] eqn:E; [|reflexivity]. exfalso.
  destruct (R_names _ _ _ _ _ _ _ RR (helper_name h)) as (k & _ & (x & v & V) & _ & _ & N1); [congruence|]. apply (bh_helpers _ _ _ _ BH k x v h V). now rewrite <- (is_var_name _ _ _ _ V).
Qed.

Lemma xok_un : forall cx e o a ty c, xok cx e (XUn o a ty c) -> xok cx e a.
Proof. intros cx e o a ty c X. apply (xok_part _ _ _ _ _ _ _ X); [apply xp_un, xp_self|exact (proj1 (proj1 X))]. Qed.
Lemma xok_left : forall cx e o a b ty c, xok cx e (XBin o a b ty c) -> xok cx e a.
Proof. intros cx e o a b ty c X. apply (xok_part _ _ _ _ _ _ _ X); [apply xp_left, xp_self|exact (proj1 (proj1 X))]. Qed.
Lemma xok_right : forall cx e o a b ty c, xok cx e (XBin o a b ty c) -> xok cx e b.
Proof. intros cx e o a b ty c X. apply (xok_part _ _ _ _ _ _ _ X); [apply xp_right, xp_self|exact (proj1 (proj2 (proj1 X)))]. Qed.
Lemma xok_args : forall cx e t k args ty, xok cx e (XCall t k args ty) -> Forall (xok cx e) args.
Proof.
  intros cx e t k args ty X. apply Forall_forall. intros a I. apply (xok_part _ _ _ _ _ _ _ X); [apply xp_arg with a; [exact I|apply xp_self]|].
  destruct X as ((_ & T) & _). revert I T. clear. induction args as [|b r IH]; intros I T; [destruct I|]. cbn [fold_right] in T. destruct I as [->|I]; [tauto|]. now apply IH.
Qed.

Lemma same_calls : forall x cx e ce, xok cx e x -> scope cx e -> same x ce -> calling ce = has_calls x /\
  forall z, In z (reading ce) -> exists t k ty c, xpart (XVar t k ty c) x /\ name_of k = z /\ In k e /\ isvar k.
Proof.
  intro x. induction x as [t k ty c|t v ty|t k args ty F|o r ty c IH|o a b ty c IHa IHb] using texpr_ind'; intros cx e ce X S0 S1.
  - inversion S1; subst. split; [reflexivity|]. intros z [<-|[]]. destruct (proj2 X _ (xp_self _)) as ((I & V & _) & _). exists t, k, ty, c. split; [apply xp_self|].
    split; [|auto]. unfold Spec_CBehave.name_of. match goal with E : nth_error _ _ = Some _ |- _ => now rewrite E end.
  - split; inversion S1; subst; cbn [calling reading has_calls]; try reflexivity; intros ? [].
  - inversion S1; subst. match goal with E : nth_error _ _ = Some ?q |- _ => assert (EN : y_name q = name_of k) by (unfold Spec_CBehave.name_of; now rewrite E) end.
    destruct (proj2 X _ (xp_self _)) as ((I & (n & ks & x & f0 & IN & P & _) & _) & _ & _). split.
    + cbn [calling has_calls]. rewrite EN, not_helper; [reflexivity|]. apply (hoisted_is l PT). right. eauto.
    + cbn [reading]. intros z Z. match goal with A : same_all _ _ |- _ => rename A into SA end. pose proof (xok_args _ _ _ _ _ _ X) as XA.
      assert (Q : exists a, In a args /\ exists t k ty c, xpart (XVar t k ty c) a /\ name_of k = z /\ In k e /\ isvar k).
      { clear - F SA XA S0 Z. induction SA as [|a r ca cr S1 SA IH]; [destruct Z|]. cbn [flat_map] in Z. inversion F; subst. inversion XA; subst. apply in_app_iff in Z as [Z|Z].
        - exists a. split; [now left|]. match goal with G : forall _ _ _, _ |- _ => exact (proj2 (G _ _ _ ltac:(eassumption) S0 S1) z Z) end.
        - edestruct IH as (a' & I & Q); [eassumption..|]. exists a'. split; [now right|exact Q]. }
      destruct Q as (a & IA & t' & k' & ty' & c' & XP & Q). exists t', k', ty', c'. split; [now apply xp_arg with a|exact Q].
  - pose proof (proj2 X _ (xp_self _)) as (_ & SZ & _). destruct (un_step H env M hs ds o r ty c ce S1 (proj1 X) SZ) as (ce' & S2 & CA & RE & _). rewrite CA, RE.
    destruct (IH cx e ce' (xok_un _ _ _ _ _ _ X) S0 S2) as (A & B). split; [exact A|]. intros z Z. destruct (B z Z) as (t' & k' & ty' & c' & XP & Q). exists t', k', ty', c'. split; [now apply xp_un|exact Q].
  - pose proof (proj2 X _ (xp_self _)) as (HH & SZ & _). destruct (bin_step H env M hs ds o a b ty c ce S1 (proj1 X) SZ HH) as (ca & cb & SA & SB & CA & RE & _). rewrite CA.
    destruct (IHa cx e ca (xok_left _ _ _ _ _ _ _ X) S0 SA) as (A1 & A2). destruct (IHb cx e cb (xok_right _ _ _ _ _ _ _ X) S0 SB) as (B1 & B2). split; [cbn [has_calls]; now rewrite A1, B1|].
    intros z Z. apply RE in Z. apply in_app_iff in Z as [Z|Z].
    + destruct (A2 z Z) as (t' & k' & ty' & c' & XP & Q). exists t', k', ty', c'. split; [now apply xp_left|exact Q].
    + destruct (B2 z Z) as (t' & k' & ty' & c' & XP & Q). exists t', k', ty', c'. split; [now apply xp_right|exact Q].
Qed.

(** * The order of operands *)

Lemma shared_top : forall j, shared env l j -> top_of None j.
Proof. intros j (_ & SJ). apply in_flat_map in SJ as (m & M1 & M2). apply tops_in in M2 as (y & M2). exists m, y. auto. Qed.

Lemma find_kept : forall cx e s s' c c' k, R cx e s c -> scope cx e -> kept (below cx) s s' c c' -> c_frames c' = c_frames c -> In k e -> isvar k -> ~ shared env l k ->
  find H c (name_of k) = find H c' (name_of k).
Proof.
  intros cx e s s' c c' k RR S0 [_ _ K3] EF I V NS. unfold find. rewrite EF. destruct (in_frames (c_frames c) (name_of k)) eqn:E; [reflexivity|].
  destruct (hoisted_dec l k) as [HO|NH].
  - destruct (K3 (name_of k)) as [X|[(j & NJ & SJ & _)|(g & j & NJ & TJ & _ & L)]]; [now rewrite X| |]; exfalso.
    + assert (j = k) by (apply (hoisted_name env l HN); [exact (top_hoisted l PT _ _ (shared_top _ SJ))|exact HO|exact NJ]). subst j. contradiction.
    + assert (j = k) by (apply (hoisted_name env l HN); [exact (top_hoisted l PT _ _ TJ)|exact HO|exact NJ]). subst j.
      destruct (sc_vars _ _ _ _ S0 k I V) as [O|T]; [|exact (own_apart l ND _ _ (top_own l _ _ T) (top_own l _ _ TJ))].
      pose proof (own_same l ND _ _ _ O (top_own l _ _ TJ)) as ->. cbn [below] in L. lia.
  - exfalso. destruct (R_loc _ _ _ _ _ _ _ RR k I V (local_own env l PT _ _ _ S0 I V NH) NH) as (cl & A & _). congruence.
Qed.

Lemma orders : forall cx e s s' c c' xs es, R cx e s c -> scope cx e -> kept (below cx) s s' c c' -> c_frames c' = c_frames c -> Forall (xok cx e) xs -> same_all xs es -> apart env l xs ->
  (existsb has_calls xs = false -> c' = c) -> any_order H c c' es.
Proof.
  intros cx e s s' c c' xs es RR S0 KP EF XA SA (A1 & A2) NC. split.
  - replace (List.length (filter calling es)) with (List.length (filter has_calls xs)); [exact A1|]. clear A1 A2 NC. revert XA. induction SA as [|x xs ce es S1 SA IH]; [reflexivity|].
    intro XA. inversion XA; subst. cbn [filter]. destruct (same_calls x cx e ce) as (-> & _); auto. destruct (has_calls x); cbn [List.length]; [f_equal|]; auto.
  - intros ce z I C Z. destruct (existsb has_calls xs) eqn:EX; [|now rewrite (NC eq_refl)]. specialize (A2 eq_refl).
    assert (Q : exists x, In x xs /\ xok cx e x /\ same x ce).
    { clear - XA SA I. induction SA as [|x xs ce' es S1 SA IH]; [destruct I|]. inversion XA; subst. destruct I as [->|I]; [exists x; split; [now left|auto]|].
      destruct (IH ltac:(assumption) I) as (x' & J & Q). exists x'. split; [now right|exact Q]. }
    destruct Q as (x & IX & XX & SX). destruct (same_calls x cx e ce XX S0 SX) as (CA & RE). destruct (RE z Z) as (t & k & ty & c0 & XP & <- & IK & VK).
    apply (find_kept _ _ _ _ _ _ _ RR S0 KP EF IK VK). apply (A2 x t k ty c0 IX); [congruence|exact XP].
Qed.

(** * Calls *)

Fixpoint reps (xs : list texpr) (vs : list val) (ws : list cval) : Prop :=
  match xs, vs, ws with
  | [], [], [] => True
  | x :: xs, v :: vs, w :: ws => rep x v w /\ of_type H v (x_ty x) = true /\ reps xs vs ws
  | _, _, _ => False
  end.
Lemma var_not_void : forall k, isvar k -> vtype k <> TVoid.
Proof. intros k (x & v & V). rewrite (is_var_type _ _ _ _ V). exact (bh_void _ _ _ _ BH k x v V). Qed.

Lemma arguments_framed : forall ks ps xs vs ws, Forall2 (param_of env) ks ps -> reps xs vs ws -> map x_ty xs = map vtype ks -> NoDup (map name_of ks) ->
  List.length ks = List.length vs /\ exists fr, arguments H ps ws = Some fr /\ framed H env ks vs fr.
Proof.
  intros ks ps xs vs ws F. revert xs vs ws. induction F as [|k p ks ps (x & v & V & ->) F IH]; intros xs vs ws RP ET N1.
  - destruct xs as [|? ?]; [|discriminate ET]. destruct vs as [|? ?]; [|contradiction RP]. destruct ws as [|? ?]; [|contradiction RP].
    split; [reflexivity|]. exists []. split; [reflexivity|]. split; [reflexivity|]. intros k v E. discriminate E.
  - destruct xs as [|a xs]; [discriminate ET|]. destruct vs as [|v0 vs]; [contradiction RP|]. destruct ws as [|w ws]; [contradiction RP|]. destruct RP as (RA & RT & RP).
    cbn [map] in ET, N1. inversion ET as [[ET1 ET2]]. inversion N1 as [|? ? NI N2]; subst. destruct (IH xs vs ws RP ET2 N2) as (L & fr & A & (B1 & B2)).
    assert (VK : isvar k) by (exists x, v; exact V). rewrite ET1 in RT.
    pose proof (rep_convert H a v0 w (vtype k) RA RT (var_not_void k VK)) as CV.
    split; [cbn [List.length]; now rewrite L|]. exists ((x, mkcell H false (c_type (v_type v)) (in_c v0)) :: fr). split.
    + cbn [arguments]. rewrite <- (is_var_type _ _ _ _ V). now rewrite CV, A.
    + split; [cbn [map fst]; rewrite B1; now rewrite (is_var_name _ _ _ _ V)|]. intros j u0 E. cbn [bind_all] in E. cbn [in_frame]. destruct (Nat.eq_dec j k) as [->|NE].
      * rewrite put_same in E. inversion E; subst u0. rewrite (is_var_name _ _ _ _ V), text_eqb_refl. eexists. split; [reflexivity|]. cbn [k_type k_const k_val]. now rewrite (is_var_type _ _ _ _ V).
      * rewrite put_other in E by exact NE. destruct (text_eqb_spec x (name_of j)) as [EX|_]; [|now apply B2]. exfalso. apply NI. rewrite (is_var_name _ _ _ _ V), EX.
        apply in_map. apply (bind_dom H ks vs). congruence.
Qed.
Lemma arguments_converted : forall ks ps xs vs ws, Forall2 (param_of env) ks ps -> reps xs vs ws -> map x_ty xs = map vtype ks -> converted H (map fst ps) ws = Some (map in_c vs).
Proof.
  intros ks ps xs vs ws F. revert xs vs ws. induction F as [|k p ks ps (x & v & V & ->) F IH]; intros xs vs ws RP ET.
  - destruct xs as [|? ?]; [|discriminate ET]. destruct vs as [|? ?]; [|contradiction RP]. destruct ws as [|? ?]; [|contradiction RP]. reflexivity.
  - destruct xs as [|a xs]; [discriminate ET|]. destruct vs as [|v0 vs]; [contradiction RP|]. destruct ws as [|w ws]; [contradiction RP|]. destruct RP as (RA & RT & RP).
    cbn [map] in ET. inversion ET as [[ET1 ET2]]. assert (VK : isvar k) by (exists x, v; exact V). rewrite ET1 in RT.
    pose proof (rep_convert H a v0 w (vtype k) RA RT (var_not_void k VK)) as CV. cbn [map fst converted]. rewrite <- (is_var_type _ _ _ _ V). now rewrite CV, (IH xs vs ws RP ET2).
Qed.

(** How a block ends. *)
Definition orel (o : Spec_Run.outcome H) (co : coutcome H) : Prop :=
  match o, co with
  | ONormal, CNormal _ | OBreak, CBroken _ | OContinue, CContinued _ | OReturn None, CReturned _ None => True
  | OReturn (Some v), CReturned _ (Some w) => exists x, rep x v w /\ of_type H v (x_ty x) = true /\ x_ty x <> TVoid
  | _, _ => False
  end.
Lemma orel_value : forall o co v t, orel o co -> returned H o = Some v -> of_type H v t = true -> call_value H (c_type t) co = Some (in_c v).
Proof.
  intros o co v t O E T. destruct o as [| | |[v'|]]; try discriminate E; destruct co as [| | |[w|]]; try contradiction; cbn [returned] in E; inversion E; subst.
  - destruct t; try discriminate T. reflexivity.
  - destruct O as (x & RP & TX & NV). destruct t as [| | | | | |t]; try (unfold call_value; cbn [c_type]; exact (rep_convert H x v w _ RP T ltac:(discriminate))).
    + destruct v; try discriminate T. destruct (x_ty x); try discriminate TX. now elim NV.
  - destruct t; try discriminate T. reflexivity.
Qed.

Lemma shared_dec : forall k, {shared env l k} + {~ shared env l k}.
Proof.
  intro k. unfold shared. destruct (mutable ys k); [|right; intros (X & _); discriminate X]. destruct (in_dec Nat.eq_dec k (flat_map tops l)); [left; auto|right; tauto].
Qed.

(** * Statements *)

Definition good_eval (s : rst) (x : texpr) (v : val) (s' : rst) : Prop := forall cx e c ce, xok cx e x -> scope cx e -> same x ce -> R cx e s c ->
  exists w c', ceval c ce w c' /\ rep x v w /\ R cx e s' c' /\ kept (below cx) s s' c c' /\ c_frames c' = c_frames c /\ (has_calls x = false -> s' = s /\ c' = c).
Definition good_evals (s : rst) (xs : list texpr) (vs : list val) (s' : rst) : Prop := forall cx e c es, Forall (xok cx e) xs -> scope cx e -> same_all xs es -> R cx e s c ->
  exists ws c', cevals c es ws c' /\ reps xs vs ws /\ R cx e s' c' /\ kept (below cx) s s' c c' /\ c_frames c' = c_frames c /\ (existsb has_calls xs = false -> s' = s /\ c' = c).
Definition good (run : coutcome H -> cstate -> Prop) (cx : option nat) (top : bool) (e : list nat) (s : rst) (c : cstate) (o : Spec_Run.outcome H) (s' : rst) : Prop :=
  exists co c' new, run co c' /\ orel o co /\ R cx (new ++ e) s' c' /\ scope cx (new ++ e) /\ grown c c' new /\ (top = false -> forall k, In k new -> ~ hoisted k) /\
  forall f, cx = Some f -> kept (fun g => g <= f) s s' c c'.
Definition good_exec (s : rst) (r : list tnode) (o : Spec_Run.outcome H) (s' : rst) : Prop := forall cx top e c cs dd, sc cx top e r -> stands top r cs dd -> R cx e s c ->
  good (cexec c cs) cx top e s c o s'.
Definition good_branch (s : rst) (n : tnode) (r : list tnode) (o : Spec_Run.outcome H) (s' : rst) : Prop := forall cx top e c y ce b oc d1 d2 r' cs dd,
  tn_type n = N_IF \/ tn_type n = N_ELIF -> tn_pay n = XExpr y -> same y ce -> stands false (tn_child n) b d1 -> others r oc d2 r' -> stands top r' cs dd ->
  sc cx top e (n :: r) -> R cx e s c -> good (cexec c (CIf ce b oc :: cs)) cx top e s c o s'.
Definition good_otherwise (s : rst) (r : list tnode) (o : Spec_Run.outcome H) (s' : rst) : Prop := forall cx top e c oc d2 r' cs dd,
  others r oc d2 r' -> stands top r' cs dd -> sc cx top e r -> R cx e s c -> good (cexec c (match oc with Some st => st :: cs | None => cs end)) cx top e s c o s'.
Definition good_after (s : rst) (o1 : Spec_Run.outcome H) (r : list tnode) (o : Spec_Run.outcome H) (s' : rst) : Prop := forall cx top e c co1 cs dd,
  sc cx top e r -> stands top r cs dd -> R cx e s c -> orel o1 co1 -> good (cafter c co1 cs) cx top e s c o s'.

Lemma good_step : forall (run run1 : coutcome H -> cstate -> Prop) cx top e add s c s1 c1 o s', good run1 cx top (add ++ e) s1 c1 o s' -> (forall co c', run1 co c' -> run co c') ->
  grown c c1 add -> (top = false -> forall k, In k add -> ~ hoisted k) -> (forall f, cx = Some f -> kept (fun g => g <= f) s s1 c c1) -> good run cx top e s c o s'.
Proof.
  intros run run1 cx top e add s c s1 c1 o s' (co & c' & new & G1 & G2 & G3 & G4 & G5 & G6 & G7) RN GR NH KP. exists co, c', (new ++ add). split; [now apply RN|]. split; [exact G2|].
  rewrite <- app_assoc. split; [exact G3|]. split; [exact G4|]. split; [exact (grown_trans _ _ _ _ _ _ _ GR G5)|]. split.
  - intros T k K. apply in_app_iff in K as [K|K]; [now apply (G6 T)|now apply (NH T)].
  - intros f E. exact (kept_trans _ _ _ _ _ _ _ _ _ _ (KP f E) (G7 f E)).
Qed.
Lemma kept_below : forall cx s s' c c', kept (below cx) s s' c c' -> forall f, cx = Some f -> kept (fun g => g <= f) s s' c c'.
Proof. intros cx s s' c c' K f ->. apply (kept_more H env l (below (Some f))); [|exact K]. intros g j _ _ B. cbn [below] in B. lia. Qed.
(** Behind the value of an expression. *)
Lemma good_behind : forall (run run1 : coutcome H -> cstate -> Prop) cx top e s c s1 c1 o s', R cx e s c -> kept (below cx) s s1 c c1 -> c_frames c1 = c_frames c ->
  good run1 cx top e s1 c1 o s' -> (forall co c', run1 co c' -> run co c') -> good run cx top e s c o s'.
Proof.
  intros run run1 cx top e s c s1 c1 o s' RR KP EF G RN. apply (good_step run run1 cx top e [] s c s1 c1 o s' G RN); [|intros _ k []|exact (kept_below _ _ _ _ _ KP)].
  apply grown_refl; [exact (R_frames _ _ _ _ _ _ _ RR)|]. unfold fnames. now rewrite EF.
Qed.
(** Behind a block. *)
Lemma good_block : forall (run run1 : coutcome H -> cstate -> Prop) cx top e s c s1 c1 o1 co1 s2 c2 new o s', R cx e s c -> scope cx e -> kept (below cx) s s1 c c1 -> c_frames c1 = c_frames c -> R cx e s1 c1 ->
  orel o1 co1 -> R cx (new ++ e) s2 c2 -> scope cx (new ++ e) -> grown (enter_block H c1) c2 new -> (forall k, In k new -> ~ hoisted k) ->
  (forall f, cx = Some f -> kept (fun g => g <= f) s1 s2 (enter_block H c1) c2) ->
  (R cx e (close H s1 s2) (leave_block H c2) -> good run1 cx top e (close H s1 s2) (leave_block H c2) o s') -> (forall co c', run1 co c' -> run co c') -> good run cx top e s c o s'.
Proof.
  intros run run1 cx top e s c s1 c1 o1 co1 s2 c2 new o s' RR S0 KP EF R1 OR R2 S2 GR NH K2 G RN.
  pose proof (leave_block_R H env l PT cx e s1 c1 s2 c2 new R1 S0 R2 S2 GR NH) as R3.
  apply (good_step run run1 cx top e [] s c (close H s1 s2) (leave_block H c2) o s' (G R3) RN); [|intros _ k []|].
  - apply grown_refl; [exact (R_frames _ _ _ _ _ _ _ RR)|]. rewrite (leave_names H env c1 c2 new GR). unfold fnames. now rewrite EF.
  - intros f E. apply (kept_trans _ _ _ _ _ _ _ _ _ _ (kept_below _ _ _ _ _ KP f E)). apply leave_block_kept. destruct (K2 f E) as [Q1 Q2 Q3]. constructor; [exact Q1|exact Q2|exact Q3].
Qed.

(** * Expressions *)

Lemma types_of : forall s x v s1 cx e, eval s x v s1 -> xok cx e x -> of_type H v (x_ty x) = true.
Proof. intros s x v s1 cx e E X. exact (eval_types H ys x s v s1 E (proj1 X)). Qed.

Lemma ge_var : forall s t k ty c v, read H s k = Some v -> of_type H v ty = true -> good_eval s (XVar t k ty c) v s.
Proof.
  intros s t k ty c v E T cx e c0 ce X S0 S1 RR. inversion S1; subst. match goal with E : nth_error _ _ = Some ?q |- _ => assert (EN : y_name q = name_of k) by (unfold Spec_CBehave.name_of; now rewrite E) end.
  destruct (proj2 X _ (xp_self _)) as ((I & V & _) & _). destruct (read_cell H env l ND PT cx e s c0 k v RR S0 I V E) as (cl & F & K).
  exists (k_val H cl), c0. rewrite EN. split; [now apply cv_id|]. rewrite K. split; [apply in_c_is|]. split; [exact RR|]. split; [apply kept_refl|]. split; [reflexivity|]. now split.
Qed.
Lemma ge_const : forall s t v ty, of_type H (literal_of H v) ty = true -> good_eval s (XConst t v ty) (literal_of H v) s.
Proof.
  intros s t v ty T cx e c ce X S0 S1 RR. destruct (const_step H env M hs ds NA t v ty ce S1 T) as (_ & _ & _ & G). destruct (G c) as (w & A & B).
  exists w, c. split; [exact A|]. split; [exact B|]. split; [exact RR|]. split; [apply kept_refl|]. split; [reflexivity|]. now split.
Qed.
Lemma ge_un : forall s s1 o x ty c v v', eval s x v s1 -> good_eval s x v s1 -> unary H o v = Some v' -> good_eval s (XUn o x ty c) v' s1.
Proof.
  intros s s1 o x ty c v v' E IH U cx e c0 ce X S0 S1 RR. pose proof (proj2 X _ (xp_self _)) as (_ & SZ & _).
  destruct (un_step H env M hs ds o x ty c ce S1 (proj1 X) SZ) as (ce' & S2 & _ & _ & _ & G).
  destruct (IH cx e c0 ce' (xok_un _ _ _ _ _ _ X) S0 S2 RR) as (w & c' & A & B & R1 & K1 & F1 & N1). destruct (G s s1 v v' c0 c' w E U A B) as (w' & A' & B').
  exists w', c'. auto 10.
Qed.
Lemma ge_bin : forall s s1 s2 o x y ty c a b v, eval s x a s1 -> good_eval s x a s1 -> eval s1 y b s2 -> good_eval s1 y b s2 -> c_exact2 H o a b -> binary H o a b = Some v ->
  good_eval s (XBin o x y ty c) v s2.
Proof.
  intros s s1 s2 o x y ty c a b v E1 IH1 E2 IH2 OK U cx e c0 ce X S0 S1 RR. pose proof (proj2 X _ (xp_self _)) as (HH & SZ & UO).
  destruct (bin_step H env M hs ds o x y ty c ce S1 (proj1 X) SZ HH) as (ca & cb & SA & SB & _ & _ & _ & G). pose proof (xok_left _ _ _ _ _ _ _ X) as XL. pose proof (xok_right _ _ _ _ _ _ _ X) as XR.
  destruct (IH1 cx e c0 ca XL S0 SA RR) as (w1 & c1 & A1 & B1 & R1 & K1 & F1 & N1). destruct (IH2 cx e c1 cb XR S0 SB R1) as (w2 & c2 & A2 & B2 & R2 & K2 & F2 & N2).
  pose proof (kept_trans H env l _ _ _ _ _ _ _ K1 K2) as K3.
  destruct (G s s1 s2 a b v c0 c1 c2 w1 w2 E1 E2 OK U A1 A2 B1 B2) as (w & A & B).
  - intro O. apply N2. destruct O as [-> | ->]; exact UO.
  - intros O1 O2. assert (UO' : apart env l [x; y]) by (destruct o; try exact UO; congruence). clear UO.
    apply (orders cx e s s2 c0 c2 [x; y] [ca; cb] RR S0 K3); [congruence|exact (Forall_cons _ XL (Forall_cons _ XR (Forall_nil _)))|exact (sa_cons _ _ _ _ _ SA (sa_cons _ _ _ _ _ SB (sa_nil _)))|exact UO'|].
    cbn [existsb]. rewrite orb_false_r. intro NC. apply orb_false_iff in NC as (NC1 & NC2). destruct (N1 NC1). destruct (N2 NC2). congruence.
  - intro h. exact (no_frame_helper cx e s c0 h RR).
  - exists w, c2. split; [exact A|]. split; [exact B|]. split; [exact R2|]. split; [exact K3|]. split; [congruence|]. cbn [has_calls]. intro NC. apply orb_false_iff in NC as (NC1 & NC2).
    destruct (N1 NC1). destruct (N2 NC2). split; congruence.
Qed.
Lemma gs_nil : forall s, good_evals s [] [] s.
Proof.
  intros s cx e c es _ S0 SA RR. inversion SA; subst. exists [], c. split; [constructor|]. split; [exact I|]. split; [exact RR|]. split; [apply kept_refl|]. split; [reflexivity|]. now split.
Qed.
Lemma gs_cons : forall s s1 s2 x xs v vs, eval s x v s1 -> good_eval s x v s1 -> good_evals s1 xs vs s2 -> good_evals s (x :: xs) (v :: vs) s2.
Proof.
  intros s s1 s2 x xs v vs E IH1 IH2 cx e c es XA S0 SA RR. inversion SA; subst. inversion XA; subst.
  match goal with A : same x _, B : same_all xs _, C : xok cx e x, D : Forall _ xs |- _ => rename A into SX; rename B into SXS; rename C into XX; rename D into XXS end.
  destruct (IH1 cx e c _ XX S0 SX RR) as (w1 & c1 & A1 & B1 & R1 & K1 & F1 & N1). destruct (IH2 cx e c1 _ XXS S0 SXS R1) as (w2 & c2 & A2 & B2 & R2 & K2 & F2 & N2).
  exists (w1 :: w2), c2. split; [econstructor; eassumption|]. split; [cbn [reps]; split; [exact B1|]; split; [exact (types_of _ _ _ _ _ _ E XX)|exact B2]|]. split; [exact R2|].
  split; [exact (kept_trans H env l _ _ _ _ _ _ _ K1 K2)|]. split; [congruence|]. cbn [existsb]. intro NC. apply orb_false_iff in NC as (NC1 & NC2). destruct (N1 NC1). destruct (N2 NC2). split; congruence.
Qed.

Lemma call_inv : forall cx e t k args ty ce, xok cx e (XCall t k args ty) -> same (XCall t k args ty) ce -> scope cx e -> exists es n ks x f,
  ce = CCall (CId (name_of k)) es /\ same_all args es /\ In n l /\ tn_pay n = XProto k ks /\ is_fun env k x f /\ f_ret f = ty /\ map x_ty args = map vtype ks /\ Forall isvar ks /\
  In k e /\ apart env l args /\ forall f, cx = Some f -> k < f \/ k = f /\ forall j, top_of (Some f) j -> initial j true.
Proof.
  intros cx e t k args ty ce X S1 S0. destruct (proj2 X _ (xp_self _)) as ((I & (n & ks & x & f & IN & P & FU & RT & AT & FV) & CL) & _ & UO). inversion S1; subst.
  match goal with E : nth_error _ _ = Some ?q |- _ => assert (EN : y_name q = name_of k) by (unfold Spec_CBehave.name_of; now rewrite E) end.
  match goal with S2 : same_all args ?q |- _ => exists q, n, ks, x, f end. rewrite EN. auto 15.
Qed.
Lemma ge_call : forall s s1 s2 t k args ty vs ps body o v, good_evals s args vs s1 -> lookup (r_funs s1) k = Some (ps, body) -> List.length ps = List.length vs ->
  good_exec (enter_call H s1 ps vs) body o s2 -> returned H o = Some v -> of_type H v ty = true -> good_eval s (XCall t k args ty) v (leave_call H s1 s2).
Proof.
  intros s s1 s2 t k args ty vs ps body o v IH1 LK LE IH2 RT OT cx e c ce X S0 S1 RR.
  destruct (call_inv _ _ _ _ _ _ _ X S1 S0) as (es & n & ks & x & f & -> & SA & IN & P & FU & FR & AT & FV & IK & AP & CL). pose proof (xok_args _ _ _ _ _ _ X) as XA.
  destruct (IH1 cx e c es XA S0 SA RR) as (ws & c1 & A1 & B1 & R1 & K1 & F1 & N1).
  destruct (R_funs _ _ _ _ _ _ _ R1 k ps body LK) as (n' & IN' & P' & CH & EX). destruct (proto_one l ND n n' k ks ps IN IN' P P') as (<- & <-). clear IN' P'. subst body.
  assert (EX' : f_external f = false). { destruct FU as (y & E & _ & KF). unfold is_external in EX. now rewrite E, KF in EX. }
  destruct (FN n k ks x f IN P FU) as (ps & FP & FD & _). destruct (FD EX') as (b & d1 & ST & DF). destruct (BODY n k ks IN P) as (e0 & SB & _ & TB).
  assert (NN : NoDup (map name_of ks)). { pose proof (sc_names _ _ _ _ (sc_scope _ _ _ _ _ _ _ SB)) as N0. rewrite map_app, map_rev in N0. rewrite <- (rev_involutive (map name_of ks)). apply NoDup_rev. clear - N0. induction (rev (map name_of ks)) as [|z q IH]; [constructor|].
    cbn [app] in N0. inversion N0 as [|? ? N3 N4]; subst. constructor; [|now apply IH]. intro I. apply N3. apply in_or_app. now left. }
  destruct (arguments_framed ks ps args vs ws FP B1 AT NN) as (_ & fr & AR & FRM).
  assert (IF : isfun k) by (exists x, f; exact FU).
  pose proof (enter_call_R H env l ND PT cx e s1 c1 k ks vs fr e0 n R1 IN P LE IF FV TB FRM) as RE.
  destruct (IH2 (Some k) true _ (enter_function H c1 fr) b d1 SB ST RE) as (co & c2 & new & G1 & G2 & G3 & _ & _ & _ & G7).
  destruct (leave_call_R H env l ND PT HN cx e s1 c1 k s2 c2 _ ks vs fr R1 S0 G3 (G7 k eq_refl) CL) as (R3 & K3). pose proof (kept_trans H env l _ _ _ _ _ _ _ K1 K3) as K4.
  exists (in_c v), (leave_function H c1 c2). rewrite (is_fun_name _ _ _ _ FU). split.
  - apply cv_call with (t := c_type (f_ret f)) (ps := ps) (b := b) (vs := ws) (fr := fr) (o := co); [exact A1| | |exact DF|exact AR|exact G1|].
    + apply (orders cx e s s1 c c1 args es RR S0 K1 F1 XA SA AP). intro NC. exact (proj2 (N1 NC)).
    + rewrite <- (is_fun_name _ _ _ _ FU). apply (unframed H env l cx e s c k RR S0 IK). right. intro V. exact (var_fun _ _ V IF).
    + rewrite FR. exact (orel_value o co v ty G2 RT OT).
  - split; [apply in_c_is|]. split; [exact R3|]. split; [exact K4|]. split; [exact F1|]. intro NC. discriminate NC.
Qed.
Lemma ge_external : forall s s1 t k args ty vs v o, good_evals s args vs s1 -> is_external ys k = true -> h_call H k vs (r_out H s1) = Some (v, o) -> of_type H v ty = true ->
  good_eval s (XCall t k args ty) v (set_out H s1 o).
Proof.
  intros s s1 t k args ty vs v o IH1 EX HC OT cx e c ce X S0 S1 RR.
  destruct (call_inv _ _ _ _ _ _ _ X S1 S0) as (es & n & ks & x & f & -> & SA & IN & P & FU & FR & AT & FV & IK & AP & CL). pose proof (xok_args _ _ _ _ _ _ X) as XA.
  destruct (IH1 cx e c es XA S0 SA RR) as (ws & c1 & A1 & B1 & R1 & K1 & F1 & N1).
  assert (EX' : f_external f = true). { destruct FU as (y & E & _ & KF). unfold is_external in EX. now rewrite E, KF in EX. }
  destruct (FN n k ks x f IN P FU) as (ps & FP & _ & FE). pose proof (FE EX') as EL.
  assert (IF : isfun k) by (exists x, f; exact FU).
  exists (in_c v), (mkcstate H (c_glob c1) (c_frames c1) o). rewrite (is_fun_name _ _ _ _ FU). split.
  - apply cv_outside with (t := c_type (f_ret f)) (ps := ps) (link := link_name env k x f) (vs := ws) (ws := map in_c vs); [exact A1| | |exact EL| | |].
    + apply (orders cx e s s1 c c1 args es RR S0 K1 F1 XA SA AP). intro NC. exact (proj2 (N1 NC)).
    + rewrite <- (is_fun_name _ _ _ _ FU). apply (unframed H env l cx e s c k RR S0 IK). right. intro V. exact (var_fun _ _ V IF).
    + exact (arguments_converted ks ps args vs ws FP B1 AT).
    + rewrite (R_out _ _ _ _ _ _ _ R1). exact (LA k x f vs _ v o FU EX' HC).
    + rewrite FR. destruct ty; try (exact (in_c_convert H v _ OT ltac:(discriminate))). destruct v; try discriminate OT. reflexivity.
  - split; [apply in_c_is|]. split; [apply set_out_R; exact R1|]. split; [destruct K1 as [Q1 Q2 Q3]; constructor; [exact Q1|exact Q2|exact Q3]|]. split; [exact F1|]. intro NC. discriminate NC.
Qed.

(** * Statements without blocks *)

Lemma good_end : forall (run : coutcome H -> cstate -> Prop) cx top e s c o co, run co c -> orel o co -> R cx e s c -> scope cx e -> good run cx top e s c o s.
Proof.
  intros run cx top e s c o co RN O RR S0. exists co, c, []. split; [exact RN|]. split; [exact O|]. split; [exact RR|]. split; [exact S0|].
  split; [apply grown_refl; [exact (R_frames _ _ _ _ _ _ _ RR)|reflexivity]|]. split; [intros _ k []|]. intros f _. apply kept_refl.
Qed.
Lemma gx_nil : forall s, good_exec s [] ONormal s.
Proof.
  intros s cx top e c cs dd S0 ST RR. inversion ST; subst. apply good_end with (co := CNormal H); [constructor|exact I|exact RR|exact (sc_scope _ _ _ _ _ _ _ S0)].
Qed.
Lemma gx_skip : forall s s' n r o, In (tn_type n) [N_COMMENT; N_NOOP; N_IMPORT] \/ tn_type n = N_VAR_DEF /\ tn_pay n = XAlias -> good_exec s r o s' -> good_exec s (n :: r) o s'.
Proof.
  intros s s' n r o T IH cx top e c cs dd S0 ST RR. destruct (sc_inv_skip _ _ _ _ _ _ _ _ S0 T) as (S1 & S2). destruct (st_skip _ _ _ _ _ _ ST T) as [ST'|(cs' & -> & ST')]; [exact (IH cx top e c cs dd S2 ST' RR)|].
  apply (good_behind _ (cexec c cs') cx top e s c s c o s' RR (kept_refl _ _ _ _ _ _) eq_refl (IH cx top e c cs' dd S2 ST' RR)).
  intros co c' E. apply cx_void with (c1 := c) (v := VI H CInt 0); [apply cv_num; reflexivity|exact E].
Qed.
Lemma gx_call : forall s s1 s' n r y v o, tn_type n = N_EXPR -> tn_pay n = XExpr y -> good_eval s y v s1 -> good_exec s1 r o s' -> good_exec s (n :: r) o s'.
Proof.
  intros s s1 s' n r y v o T P IH1 IH2 cx top e c cs dd S0 ST RR. destruct (sc_inv_value _ _ _ _ _ _ _ _ _ S0 (or_introl T) P) as (S1 & X & _ & S2).
  inversion ST; subst; try (exfalso; kinds; fail). match goal with K : tn_pay n = XExpr ?z |- _ => assert (z = y) as -> by congruence end. match goal with K : same y _ |- _ => rename K into SY end.
  destruct (IH1 cx e c _ X S1 SY RR) as (w & c1 & A & _ & R1 & K1 & F1 & _). match goal with K : stands top r ?q _ |- _ => apply (good_behind _ (cexec c1 q) cx top e s c s1 c1 o s' RR K1 F1 (IH2 cx top e c1 q _ S2 K R1)) end.
  intros co c' E. now apply cx_expr with (c1 := c1) (v := w).
Qed.
Lemma gx_return : forall s s1 n r y v, tn_type n = N_RETURN -> tn_pay n = XExpr y -> eval s y v s1 -> good_eval s y v s1 -> good_exec s (n :: r) (OReturn (Some v)) s1.
Proof.
  intros s s1 n r y v T P EV IH1 cx top e c cs dd S0 ST RR. destruct (sc_inv_value _ _ _ _ _ _ _ _ _ S0 (or_intror T) P) as (S1 & X & NV & S2).
  inversion ST; subst; try (exfalso; kinds; fail). match goal with K : tn_pay n = XExpr ?z |- _ => assert (z = y) as -> by congruence end. match goal with K : same y _ |- _ => rename K into SY end.
  destruct (IH1 cx e c _ X S1 SY RR) as (w & c1 & A & B & R1 & K1 & F1 & _).
  apply (good_behind _ (fun co c' => co = CReturned H (Some w) /\ c' = c1) cx top e s c s1 c1 _ s1 RR K1 F1).
  - apply good_end with (co := CReturned H (Some w)); [now split| |exact R1|exact S1]. cbn [orel]. exists y. split; [exact B|]. split; [exact (types_of _ _ _ _ _ _ EV X)|exact (NV T)].
  - intros co c' (-> & ->). now apply cx_result.
Qed.
Lemma gx_leave : forall s n r, tn_type n = N_RETURN -> tn_pay n = XNone -> good_exec s (n :: r) (OReturn None) s.
Proof.
  intros s n r T P cx top e c cs dd S0 ST RR. inversion ST; subst; try (exfalso; kinds; fail).
  apply good_end with (co := CReturned H None); [apply cx_return|exact I|exact RR|exact (sc_scope _ _ _ _ _ _ _ S0)].
Qed.
Lemma gx_break : forall s n r, tn_type n = N_BREAK -> good_exec s (n :: r) OBreak s.
Proof.
  intros s n r T cx top e c cs dd S0 ST RR. inversion ST; subst; try (exfalso; kinds; fail).
  apply good_end with (co := CBroken H); [apply cx_break|exact I|exact RR|exact (sc_scope _ _ _ _ _ _ _ S0)].
Qed.
Lemma gx_continue : forall s n r, tn_type n = N_CONTINUE -> good_exec s (n :: r) OContinue s.
Proof.
  intros s n r T cx top e c cs dd S0 ST RR. inversion ST; subst; try (exfalso; kinds; fail).
  apply good_end with (co := CContinued H); [apply cx_continue|exact I|exact RR|exact (sc_scope _ _ _ _ _ _ _ S0)].
Qed.
Lemma gx_function : forall s s' n r k ks o, tn_type n = N_FUNCTION_PROTO -> tn_pay n = XProto k ks -> is_external ys k = false ->
  good_exec (declare H s k ks (tn_child n)) r o s' -> good_exec s (n :: r) o s'.
Proof.
  intros s s' n r k ks o T P EX IH cx top e c cs dd S0 ST RR. destruct (sc_inv_fun _ _ _ _ _ _ _ _ _ _ S0 T P) as (-> & -> & IN & S1 & IF & CA & NI & S2).
  assert (ST' : exists d1, stands true r cs d1) by (inversion ST; subst; try (exfalso; kinds; fail); eauto). destruct ST' as (d1 & ST').
  pose proof (declare_R H env l e s c n k ks RR IN P EX IF) as R1.
  apply (good_step _ (cexec c cs) None true e [k] s c (declare H s k ks (tn_child n)) c o s' (IH None true (k :: e) c cs d1 S2 ST' R1)); [auto| |discriminate|discriminate].
  destruct (grown_refl H env c c (R_frames _ _ _ _ _ _ _ RR) eq_refl) as (nn & hd & tl & A & B & C). exists nn, hd, tl. split; [exact A|]. split; [exact B|]. intros z Z. destruct (C z Z).
Qed.
Lemma gx_external : forall s s' n r k ks o, tn_type n = N_FUNCTION_PROTO -> tn_pay n = XProto k ks -> is_external ys k = true ->
  good_exec s r o s' -> good_exec s (n :: r) o s'.
Proof.
  intros s s' n r k ks o T P EX IH cx top e c cs dd S0 ST RR. destruct (sc_inv_fun _ _ _ _ _ _ _ _ _ _ S0 T P) as (-> & -> & IN & S1 & IF & CA & NI & S2).
  assert (ST' : exists d1, stands true r cs d1) by (inversion ST; subst; try (exfalso; kinds; fail); eauto). destruct ST' as (d1 & ST').
  pose proof (external_R H env l e s c k RR IF) as R1.
  apply (good_step _ (cexec c cs) None true e [k] s c s c o s' (IH None true (k :: e) c cs d1 S2 ST' R1)); [auto| |discriminate|discriminate].
  destruct (grown_refl H env c c (R_frames _ _ _ _ _ _ _ RR) eq_refl) as (nn & hd & tl & A & B & C). exists nn, hd, tl. split; [exact A|]. split; [exact B|]. intros z Z. destruct (C z Z).
Qed.

(** * Definitions *)

Lemma home_one : forall cx n y cx' n' y' k, home l cx n -> tn_pay n = XDef k y -> home l cx' n' -> tn_pay n' = XDef k y' -> y = y'.
Proof.
  intros cx n y cx' n' y' k A P B Q. assert (cx = cx') as <- by exact (own_same l ND _ _ _ (top_own l _ k (ex_intro _ n (ex_intro _ y (conj A P)))) (top_own l _ k (ex_intro _ n' (ex_intro _ y' (conj B Q))))).
  assert (n = n'); [|congruence]. destruct cx as [f|]; cbn [home] in A, B.
  - destruct A as (m & ks & IM & _ & PM & IN). destruct B as (m' & ks' & IM' & _ & PM' & IN'). destruct (proto_one l ND m m' f ks ks' IM IM' PM PM') as (<- & <-).
    pose proof (node_nodup l ND m IM) as N1. rewrite (proto_numbers _ _ _ PM) in N1. inversion N1 as [|? ? _ N2]; subst. destruct (nodup_parts _ _ N2) as (N3 & _).
    exact (nodup_flat numbers k n n' _ N3 IN IN' (def_number _ _ _ P) (def_number _ _ _ Q)).
  - exact (node_one l ND n n' k A B (def_number _ _ _ P) (def_number _ _ _ Q)).
Qed.
Lemma home_checked : forall cx n, home l cx n -> in_checked n l.
Proof.
  intros [f|] n A; cbn [home] in A; [|now apply ic_here]. destruct A as (m & ks & IM & _ & _ & IN). apply ic_below with m; [exact IM|now apply ic_here].
Qed.
Lemma define_loc : forall cx e s c k v, R cx e s c -> r_funs (define H s k v) = r_funs s /\ r_out H (define H s k v) = r_out H s /\
  match cx with None => r_glob (define H s k v) = put (r_glob s) k v /\ r_loc (define H s k v) = r_loc s
  | Some _ => exists g, r_glob (define H s k v) = r_glob s /\ r_loc s = Some g /\ r_loc (define H s k v) = Some (put g k v) end.
Proof.
  intros cx e s c k v RR. pose proof (R_dom _ _ _ _ _ _ _ RR) as D. unfold define. destruct cx as [f|].
  - destruct D as ((g & E & _) & _). rewrite E. cbn [set_loc Spec_Run.r_funs Spec_Run.r_out Spec_Run.r_glob Spec_Run.r_loc]. split; [reflexivity|]. split; [reflexivity|]. exists g. auto.
  - destruct D as (E & _). rewrite E. cbn [set_glob Spec_Run.r_funs Spec_Run.r_out Spec_Run.r_glob Spec_Run.r_loc]. auto.
Qed.
Lemma not_in_scope : forall e k, ~ In (name_of k) (map name_of e) -> ~ In k e.
Proof. intros e k N1 I. apply N1. now apply in_map. Qed.

(** A variable inside of a block. *)
Lemma define_local : forall cx e s s1 s' k y v o x var ce c cs r, scope cx e -> xok cx e y -> isvar k -> vtype k = x_ty y -> ~ hoisted k -> own cx k -> ~ In (name_of k) (map name_of e) ->
  is_var env k x var -> same y ce -> eval s y v s1 -> good_eval s y v s1 -> R cx e s c -> sc cx false (k :: e) r ->
  (forall c1, R cx (k :: e) (define H s1 k v) c1 -> good (cexec c1 cs) cx false (k :: e) (define H s1 k v) c1 o s') ->
  good (cexec c (CDecl (v_const var) (c_type (v_type var)) x ce :: cs)) cx false e s c o s'.
Proof.
  intros cx e s s1 s' k y v o x var ce c cs r S0 X V VT NH O NI IV SY EV IH1 RR S2 IH2. destruct (IH1 cx e c ce X S0 SY RR) as (w & c1 & A & B & R1 & K1 & F1 & _).
  pose proof (types_of _ _ _ _ _ _ EV X) as TV. rewrite <- VT in TV. pose proof (rep_convert H y v w (vtype k) B TV (var_not_void k V)) as CV. rewrite (is_var_type _ _ _ _ IV) in CV.
  pose proof (is_var_name _ _ _ _ IV) as NM. assert (NF : in_frames (c_frames c1) x = None) by (rewrite <- NM; exact (unnamed H env l cx e s1 c1 _ R1 NI)).
  set (c2 := add_cell H c1 x (mkcell H (v_const var) (c_type (v_type var)) (in_c v))).
  destruct (c_frames c1) as [|f fs] eqn:EF; [now elim (R_frames _ _ _ _ _ _ _ R1)|].
  assert (F2 : c_frames c2 = ((x, mkcell H (v_const var) (c_type (v_type var)) (in_c v)) :: f) :: fs) by (unfold c2, add_cell; now rewrite EF).
  destruct (define_loc cx e s1 c1 k v R1) as (D1 & D2 & D3).
  assert (R2 : R cx (k :: e) (define H s1 k v) c2).
  { apply (put_inner H env l PT cx e (k :: e) s1 c1 k v _ c2 R1 (sc_scope _ _ _ _ _ _ _ S2) NH V O); [rewrite F2; discriminate|reflexivity|reflexivity| | |now left|now right|exact D1|exact D2|exact D3].
    - intros z NZ. rewrite F2, EF. cbn [Spec_CRun.in_frames Spec_CRun.in_frame]. destruct (text_eqb_spec x z) as [->|_]; [now elim NZ|reflexivity].
    - exists (mkcell H (v_const var) (c_type (v_type var)) (in_c v)). rewrite F2. cbn [Spec_CRun.in_frames Spec_CRun.in_frame k_type k_const k_val]. rewrite NM, text_eqb_refl.
      split; [reflexivity|]. split; [now rewrite (is_var_type _ _ _ _ IV)|]. split; [|reflexivity]. intro Q. rewrite (is_var_mutable _ _ _ _ IV), Q. reflexivity. }
  apply (good_step _ (cexec c2 cs) cx false e [k] s c (define H s1 k v) c2 o s' (IH2 c2 R2)).
  - intros co c' E. apply cx_decl with (c1 := c1) (v := w) (w := in_c v); [|exact A| |exact CV|exact E].
    + intro Z. destruct (proj2 (same_calls y cx e ce X S0 SY) x Z) as (t' & k' & ty' & c0 & _ & NK & IK & _). apply NI. rewrite NM, <- NK. now apply in_map.
    + intros (f' & fs' & E1 & E2). rewrite EF in E1. inversion E1; subst f' fs'. cbn [Spec_CRun.in_frames] in NF. destruct (in_frame H f x); [discriminate NF|now elim E2].
  - exists [x], (map fst f), (map (map fst) fs). unfold fnames. rewrite <- F1, F2. cbn [map fst app]. split; [reflexivity|]. split; [reflexivity|]. intros z [<-|[]]. now left.
  - intros _ j [<-|[]]. exact NH.
  - intros g E. subst cx. destruct D3 as (gg & D3 & _). apply (kept_trans _ _ _ _ _ _ _ _ _ _ (kept_below _ _ _ _ _ K1 g eq_refl)). constructor; [intros j _; now rewrite D3|intro j; now rewrite D3|]. intro z. now left.
Qed.
(** A variable at the top that is not initialised by a constant. *)
Lemma define_outside : forall cx e s s1 s' n k y v o x var ce c cs r, scope cx e -> xok cx e y -> isvar k -> vtype k = x_ty y -> home l cx n -> tn_pay n = XDef k y -> own cx k -> ~ In (name_of k) (map name_of e) ->
  is_var env k x var -> v_cexpr var = Some false -> same y ce -> eval s y v s1 -> good_eval s y v s1 -> R cx e s c -> sc cx true (k :: e) r ->
  (forall c1, R cx (k :: e) (define H s1 k v) c1 -> good (cexec c1 cs) cx true (k :: e) (define H s1 k v) c1 o s') ->
  good (cexec c (CAssign x ce :: cs)) cx true e s c o s'.
Proof.
  intros cx e s s1 s' n k y v o x var ce c cs r S0 X V VT HM P O NI IV CE SY EV IH1 RR S2 IH2. destruct (IH1 cx e c ce X S0 SY RR) as (w & c1 & A & B & R1 & K1 & F1 & _).
  assert (IN0 : initial k false) by (exists x, var; auto).
  assert (T : top_of cx k) by (exists n, y; auto). pose proof (top_hoisted l PT cx k T) as HO.
  pose proof (types_of _ _ _ _ _ _ EV X) as TV. rewrite <- VT in TV. pose proof (rep_convert H y v w (vtype k) B TV (var_not_void k V)) as CV.
  pose proof (is_var_name _ _ _ _ IV) as NM. assert (NF : in_frames (c_frames c1) (name_of k) = None) by exact (unnamed H env l cx e s1 c1 _ R1 NI).
  destruct (R_shape _ _ _ _ _ _ _ R1 k V HO) as (cl & G1 & G2 & G3).
  assert (G4 : k_const H cl = false) by (destruct (k_const H cl); [|reflexivity]; destruct (G3 eq_refl) as (_ & Z); pose proof (initial_one _ _ _ _ Z IN0) as Z'; discriminate Z').
  set (c2 := put_global H env c1 k (in_c v)). destruct (put_global_frames H env c1 k (in_c v) NF) as (F2 & O2). destruct (define_loc cx e s1 c1 k v R1) as (D1 & D2 & D3).
  assert (R2 : R cx (k :: e) (define H s1 k v) c2).
  { apply (put_hoisted H env l ND PT HN cx e (k :: e) s1 c1 k v _ c2 R1 HO V F2 O2); [| | |now left|now right|exact D1|exact D2|].
    - intros z NZ. exact (put_global_other H env c1 k (in_c v) z NF NZ).
    - exists cl, (set_val H cl (in_c v)). split; [exact G1|]. split; [exact (put_global_same H env c1 k (in_c v) cl NF G1)|]. now repeat split.
    - intros u0 (_ & _ & _ & _ & _ & Z & _) _. pose proof (initial_one _ _ _ _ Z IN0) as Z'. discriminate Z'.
    - destruct cx as [f|]; [right|left; now destruct D3]. destruct D3 as (g & E1 & E2 & E3). exists f, g. auto. }
  apply (good_step _ (cexec c2 cs) cx true e [k] s c (define H s1 k v) c2 o s' (IH2 c2 R2)).
  - intros co c' E. apply cx_assign with (c1 := c1) (k := cl) (v := w) (w := in_c v); [exact A| |exact G4|now rewrite G2|].
    + unfold find. rewrite <- NM, NF. exact G1.
    + rewrite <- NM. exact E.
  - destruct (grown_refl H env c c2 (R_frames _ _ _ _ _ _ _ RR)) as (nn & hd & tl & Q1 & Q2 & Q3); [unfold fnames, c2; now rewrite F2, F1|]. exists nn, hd, tl. split; [exact Q1|]. split; [exact Q2|]. intros z Z. destruct (Q3 z Z).
  - discriminate.
  - intros g E. subst cx. destruct D3 as (gg & D3 & _). apply (kept_trans _ _ _ _ _ _ _ _ _ _ (kept_below _ _ _ _ _ K1 g eq_refl)). constructor; [intros j _; now rewrite D3|intro j; now rewrite D3|].
    intro z. destruct (text_eqb_spec z (name_of k)) as [->|NZ]; [|left; exact (put_global_other H env c1 k (in_c v) z NF NZ)]. right; right. exists g, k. auto.
Qed.
(** A variable at the top that is initialised by a constant has its value from the start. *)
Lemma define_constant : forall cx e s s1 s' n k y v o c cs r, scope cx e -> xok cx e y -> isvar k -> home l cx n -> tn_pay n = XDef k y -> own cx k -> ~ In (name_of k) (map name_of e) ->
  initial k true -> x_cexpr y = true -> eval s y v s1 -> R cx e s c -> sc cx true (k :: e) r ->
  (forall c1, R cx (k :: e) (define H s1 k v) c1 -> good (cexec c1 cs) cx true (k :: e) (define H s1 k v) c1 o s') ->
  good (cexec c cs) cx true e s c o s'.
Proof.
  intros cx e s s1 s' n k y v o c cs r S0 X V HM P O NI CE CX EV RR S2 IH2.
  assert (HM' : In n l \/ (exists m, In m l /\ tn_type m = N_FUNCTION_PROTO /\ In n (tn_child m))).
  { destruct cx as [f|]; cbn [home] in HM; [right|now left]. destruct HM as (m & ks & Q1 & Q2 & _ & Q3). exists m. auto. }
  destruct (bh_constants _ _ _ _ BH n k y (r_out H s) HM' P CX) as (CP & _).
  destruct (const_expr H env M hs ds NA y) with (s := s) (v := v) (s1 := s1) as (-> & EA & DT & _); [|exact (proj1 X)|exact EV|].
  { intros p Q. split; [exact (CP p Q)|]. exact (proj1 (proj2 (proj2 X p Q))). }
  assert (ST : starts H env l k v) by (exists cx, n, y; auto).
  assert (T : top_of cx k) by (exists n, y; auto). pose proof (top_hoisted l PT cx k T) as HO.
  assert (GK : glob_is H env c k v).
  { apply (R_const _ _ _ _ _ _ _ RR k v ST). destruct cx as [f|]; [left|right; split; [reflexivity|split; [exact T|exact (not_in_scope _ _ NI)]]].
    destruct HM as (m & ks & Q1 & _ & Q2 & Q3). exact (proj1 (bh_lives _ _ _ _ BH m n f ks k y Q1 Q2 Q3 P) CX). }
  destruct GK as (cl & G1 & G2). destruct (define_loc cx e s c k v RR) as (D1 & D2 & D3).
  assert (R2 : R cx (k :: e) (define H s k v) c).
  { apply (put_hoisted H env l ND PT HN cx e (k :: e) s c k v _ c RR HO V eq_refl eq_refl); [reflexivity| | |now left|now right|exact D1|exact D2|].
    - exists cl, cl. auto.
    - intros u0 (cx' & n' & y' & HM2 & P2 & _ & EA') _. assert (y = y') as <- by exact (home_one _ _ _ _ _ _ _ HM P HM2 P2). exact (DT s u0 s (EA' s)).
    - destruct cx as [f|]; [right|left; now destruct D3]. destruct D3 as (g & E1 & E2 & E3). exists f, g. auto. }
  apply (good_step _ (cexec c cs) cx true e [k] s c (define H s k v) c o s' (IH2 c R2)).
  - auto.
  - destruct (grown_refl H env c c (R_frames _ _ _ _ _ _ _ RR) eq_refl) as (nn & hd & tl & Q1 & Q2 & Q3). exists nn, hd, tl. split; [exact Q1|]. split; [exact Q2|]. intros z Z. destruct (Q3 z Z).
  - discriminate.
  - intros g E. subst cx. destruct D3 as (gg & D3 & _). constructor; [intros j _; now rewrite D3|intro j; now rewrite D3|]. intro z. now left.
Qed.
Lemma gx_define : forall s s1 s' n r k y v o, tn_type n = N_VAR_DEF -> tn_pay n = XDef k y -> eval s y v s1 -> good_eval s y v s1 -> good_exec (define H s1 k v) r o s' -> good_exec s (n :: r) o s'.
Proof.
  intros s s1 s' n r k y v o T P EV IH1 IH2 cx top e c cs dd S0 ST RR. destruct (sc_inv_def _ _ _ _ _ _ _ _ _ _ S0 T P) as (S1 & X & V & VT & IN0 & HM & O & NI & S2).
  inversion ST; subst; try (exfalso; kinds; fail); match goal with K : tn_pay n = XDef ?a ?b |- _ => assert (a = k /\ b = y) as (-> & ->) by (split; congruence) end;
    match goal with K : is_var _ k _ _ |- _ => rename K into IV end; match goal with K : same y _ |- _ => rename K into SY end; match goal with K : stands _ r _ _ |- _ => rename K into SR end.
  - eapply define_local; try eassumption. intros c1 R1. exact (IH2 _ _ _ _ _ _ S2 SR R1).
  - eapply define_outside; try eassumption. intros c1 R1. exact (IH2 _ _ _ _ _ _ S2 SR R1).
  - assert (CE : initial k true) by (eexists; eexists; split; eassumption). assert (CX : x_cexpr y = true) by exact (initial_one _ _ _ _ IN0 CE). eapply define_constant; try eassumption.
    intros c1 R1. exact (IH2 _ _ _ _ _ _ S2 SR R1).
Qed.

(** * Assignments *)

Lemma assign_inv : forall cx e s c k v s2, R cx e s c -> assign H s k v = Some s2 -> r_funs s2 = r_funs s /\ r_out H s2 = r_out H s /\
  (r_glob s2 = put (r_glob s) k v /\ r_loc s2 = r_loc s /\ r_glob s k <> None /\ own None k \/
   exists f g, cx = Some f /\ r_glob s2 = r_glob s /\ r_loc s = Some g /\ r_loc s2 = Some (put g k v) /\ own (Some f) k).
Proof.
  intros cx e s c k v s2 RR E. pose proof (R_dom _ _ _ _ _ _ _ RR) as D. unfold assign, local in E. destruct cx as [f|].
  - destruct D as ((g & EL & DL) & DG). rewrite EL in E. destruct (g k) as [u0|] eqn:EG.
    + inversion E; subst s2. cbn [set_loc Spec_Run.r_funs Spec_Run.r_out Spec_Run.r_glob Spec_Run.r_loc]. split; [reflexivity|]. split; [reflexivity|]. right. exists f, g. do 4 (split; [auto|]). apply (DL k). congruence.
    + destruct (r_glob s k) as [u1|] eqn:EK; [|discriminate E]. inversion E; subst s2. cbn [set_glob Spec_Run.r_funs Spec_Run.r_out Spec_Run.r_glob Spec_Run.r_loc]. split; [reflexivity|]. split; [reflexivity|].
      left. do 2 (split; [auto|]). split; [congruence|]. apply DG. congruence.
  - destruct D as (EL & DG). rewrite EL in E. destruct (r_glob s k) as [u1|] eqn:EK; [|discriminate E]. inversion E; subst s2. cbn [set_glob Spec_Run.r_funs Spec_Run.r_out Spec_Run.r_glob Spec_Run.r_loc].
    split; [reflexivity|]. split; [reflexivity|]. left. do 2 (split; [auto|]). split; [congruence|]. apply DG. congruence.
Qed.
Lemma top_shared : forall k, top_of None k -> mutable ys k = true -> shared env l k.
Proof. intros k (n & y & IN & P) MU. split; [exact MU|]. apply in_flat_map. exists n. split; [exact IN|]. unfold tops. rewrite P. now left. Qed.

Lemma gx_assign : forall s s1 s2 s' n r k y v o, tn_type n = N_VAR_ASSIGN -> tn_pay n = XSet k y -> eval s y v s1 -> good_eval s y v s1 -> assign H s1 k v = Some s2 -> good_exec s2 r o s' ->
  good_exec s (n :: r) o s'.
Proof.
  intros s s1 s2 s' n r k y v o T P EV IH1 AS IH2 cx top e c cs dd S0 ST RR. destruct (sc_inv_set _ _ _ _ _ _ _ _ _ _ S0 T P) as (S1 & X & IK & V & MU & VT & S2).
  inversion ST; subst; try (exfalso; kinds; fail). match goal with K : tn_pay n = XSet ?a ?b |- _ => assert (a = k /\ b = y) as (-> & ->) by (split; congruence) end.
  match goal with K : is_var _ k _ _ |- _ => rename K into IV end. match goal with K : same y _ |- _ => rename K into SY end. match goal with K : stands _ r _ _ |- _ => rename K into SR end.
  destruct (IH1 cx e c _ X S1 SY RR) as (w & c1 & A & B & R1 & K1 & F1 & _). pose proof (is_var_name _ _ _ _ IV) as NM.
  pose proof (types_of _ _ _ _ _ _ EV X) as TV. rewrite VT in TV. pose proof (rep_convert H y v w (vtype k) B TV (var_not_void k V)) as CV.
  destruct (typed_cell H env l PT cx e s1 c1 k R1 S1 IK V) as (cl & FC & TC & KC). assert (KF : k_const H cl = false) by (destruct (k_const H cl); [|reflexivity]; destruct (KC eq_refl); congruence).
  destruct (assign_inv cx e s1 c1 k v s2 R1 AS) as (A1 & A2 & A3).
  set (c2 := store H c1 (name_of k) (in_c v)).
  assert (FIN : R cx e s2 c2 /\ forall f, cx = Some f -> kept (fun g => g <= f) s1 s2 c1 c2).
  { destruct (hoisted_dec l k) as [HO|NH].
    - assert (NF : in_frames (c_frames c1) (name_of k) = None) by exact (unframed H env l cx e s1 c1 k R1 S1 IK (or_introl HO)).
      destruct (put_global_frames H env c1 k (in_c v) NF) as (F2 & O2). destruct (R_shape _ _ _ _ _ _ _ R1 k V HO) as (cl0 & G1 & G2 & G3). split.
      + apply (put_hoisted H env l ND PT HN cx e e s1 c1 k v s2 c2 R1 HO V F2 O2); [| | |exact IK|now left|exact A1|exact A2|].
        * intros z NZ. exact (put_global_other H env c1 k (in_c v) z NF NZ).
        * exists cl0, (set_val H cl0 (in_c v)). split; [exact G1|]. split; [exact (put_global_same H env c1 k (in_c v) cl0 NF G1)|]. now repeat split.
        * intros u0 _ Z. congruence.
        * destruct A3 as [(Q1 & Q2 & _ & Q3)|(f & g & Q0 & Q1 & Q2 & Q3 & Q4)]; [left|right; exists f, g]; repeat (split; [assumption|]); now apply (own_top l ND PT).
      + intros f EC. assert (CH : forall z, z <> name_of k -> c_glob c2 z = c_glob c1 z) by (intros z NZ; exact (put_global_other H env c1 k (in_c v) z NF NZ)).
        destruct A3 as [(Q1 & Q2 & Q5 & Q3)|(f' & g & Q0 & Q1 & Q2 & Q3 & Q4)].
        * pose proof (own_top l ND PT _ _ Q3 HO) as TK. pose proof (top_shared k TK MU) as SH. constructor.
          -- intros j NJ. rewrite Q1. apply put_other. congruence.
          -- intro j. rewrite Q1. destruct (Nat.eq_dec j k) as [->|NE]; [rewrite put_same; split; [discriminate|congruence]|now rewrite put_other].
          -- intro z. destruct (text_eqb_spec z (name_of k)) as [->|NZ]; [|left; now apply CH]. right; left. exists k. auto.
        * assert (f' = f) as -> by congruence. pose proof (own_top l ND PT _ _ Q4 HO) as TK. constructor; [intros j _; now rewrite Q1|intro j; now rewrite Q1|].
          intro z. destruct (text_eqb_spec z (name_of k)) as [->|NZ]; [|left; now apply CH]. right; right. exists f, k. split; [reflexivity|]. split; [exact TK|]. split; [|lia].
          destruct TK as (m & y0 & HM & PM). pose proof (INI m k y0 (home_checked _ _ HM) PM) as I0. destruct (x_cexpr y0) eqn:CX; [|exact I0]. exfalso.
          destruct HM as (m' & ks & IM & _ & PM' & IN'). pose proof (proj1 (bh_lives _ _ _ _ BH m' m f ks k y0 IM PM' IN' PM) CX). congruence.
    - pose proof (local_own env l PT cx e k S1 IK V NH) as OW. destruct (R_loc _ _ _ _ _ _ _ R1 k IK V OW NH) as (cl0 & L1 & L2 & L3 & _).
      assert (E2 : c2 = mkcstate H (c_glob c1) (set_frames H (c_frames c1) (name_of k) (in_c v)) (c_out c1)) by (unfold c2, store; now rewrite L1).
      assert (FR : c_frames c2 = set_frames H (c_frames c1) (name_of k) (in_c v)) by now rewrite E2. assert (GL : c_glob c2 = c_glob c1) by now rewrite E2. split.
      + apply (put_inner H env l PT cx e e s1 c1 k v s2 c2 R1 S1 NH V OW); [|now rewrite E2|exact GL| | |exact IK|now left|exact A1|exact A2|].
        * rewrite FR. pose proof (R_frames _ _ _ _ _ _ _ R1) as NE. destruct (c_frames c1) as [|f fs]; [now elim NE|]. cbn [set_frames]. destruct (in_frame H f (name_of k)); discriminate.
        * intros z NZ. rewrite FR, in_frames_set. destruct (text_eqb_spec (name_of k) z) as [Q|_]; [now elim NZ|reflexivity].
        * exists (set_val H cl0 (in_c v)). rewrite FR, in_frames_set, text_eqb_refl, L1. cbn [option_map set_val k_type k_const k_val]. auto.
        * destruct A3 as [(Q1 & Q2 & Q5 & Q3)|(f' & g & Q0 & Q1 & Q2 & Q3 & Q4)].
          -- destruct cx as [f|]; [exfalso; exact (own_apart l ND f k Q3 OW)|]. now split.
          -- subst cx. exists g. auto.
      + intros f EC. destruct A3 as [(Q1 & Q2 & Q5 & Q3)|(f' & g & Q0 & Q1 & Q2 & Q3 & Q4)]; [exfalso; subst cx; exact (own_apart l ND f k Q3 OW)|].
        constructor; [intros j _; now rewrite Q1|intro j; now rewrite Q1|]. intro z. left. now rewrite GL. }
  destruct FIN as (R2 & KP).
  apply (good_step _ _ cx top e [] s c s2 c2 o s' (IH2 cx top e c2 _ _ S2 SR R2)).
  - intros co c' E. apply cx_assign with (c1 := c1) (k := cl) (v := w) (w := in_c v); [exact A|rewrite <- NM; exact FC|exact KF|now rewrite TC|rewrite <- NM; exact E].
  - apply grown_refl; [exact (R_frames _ _ _ _ _ _ _ RR)|]. unfold c2. rewrite store_names. unfold fnames. now rewrite F1.
  - intros _ j [].
  - intros f E. exact (kept_trans _ _ _ _ _ _ _ _ _ _ (kept_below _ _ _ _ _ K1 f E) (KP f E)).
Qed.

(** * Branches *)

Lemma gx_if : forall s s' n r o, tn_type n = N_IF -> good_branch s n r o s' -> good_exec s (n :: r) o s'.
Proof.
  intros s s' n r o T IH cx top e c cs dd S0 ST RR. inversion ST; subst; try (exfalso; kinds; fail). eapply IH; eauto.
Qed.
Lemma orel_normal : forall o co, orel o co -> o <> ONormal -> co <> CNormal H.
Proof. intros o co O N1 ->. destruct o as [| | |[v|]]; try contradiction. Qed.
Lemma ga_normal : forall s r o s', good_exec s r o s' -> good_after s ONormal r o s'.
Proof.
  intros s r o s' IH cx top e c co1 cs dd S0 ST RR O. destruct co1; try contradiction. destruct (IH cx top e c cs dd S0 ST RR) as (co & c' & new & G1 & G2). exists co, c', new. split; [now constructor|exact G2].
Qed.
Lemma ga_jump : forall s r o, o <> ONormal -> good_after s o r o s.
Proof.
  intros s r o N1 cx top e c co1 cs dd S0 ST RR O. apply good_end with (co := co1); [apply ca_jump; exact (orel_normal _ _ O N1)|exact O|exact RR|exact (sc_scope _ _ _ _ _ _ _ S0)].
Qed.
Lemma gb_true : forall s s1 s2 s' n r y o1 o, tn_pay n = XExpr y -> good_eval s y (SvBool true) s1 -> good_exec s1 (tn_child n) o1 s2 -> good_after (close H s1 s2) o1 (behind r) o s' -> good_branch s n r o s'.
Proof.
  intros s s1 s2 s' n r y o1 o P IH1 IH2 IH3 cx top e c y' ce b oc d1 d2 r' cs dd T P' SY SB OT SR S0 RR. assert (y' = y) as -> by congruence.
  assert (T' : In (tn_type n) [N_IF; N_ELIF; N_WHILE]) by (destruct T as [-> | ->]; cbn [In]; tauto). destruct (sc_inv_cond _ _ _ _ _ _ _ _ _ S0 T' P) as (S1 & X & TB & SC & S2).
  destruct (IH1 cx e c ce X S1 SY RR) as (w & c1 & A & B & R1 & K1 & F1 & _). pose proof (truth_rep H y true w B) as TW.
  destruct (IH2 cx false e (enter_block H c1) b d1 SC SB (enter_block_R H env l cx e s1 c1 R1)) as (co1 & c2 & new & G1 & G2 & G3 & G4 & G5 & G6 & G7).
  apply (good_block _ (cafter (leave_block H c2) co1 cs) cx top e s c s1 c1 o1 co1 s2 c2 new o s' RR S1 K1 F1 R1 G2 G3 G4 G5 (G6 eq_refl) G7).
  - intro R3. exact (IH3 cx top e (leave_block H c2) co1 cs dd (sc_behind _ _ _ _ _ _ _ S2) (others_behind _ _ _ _ _ OT _ _ _ SR) R3 G2).
  - intros co c' E. now apply cx_then with (c1 := c1) (c2 := c2) (v := w) (o1 := co1).
Qed.
Lemma gb_false : forall s s1 s' n r y o, tn_pay n = XExpr y -> good_eval s y (SvBool false) s1 -> good_otherwise s1 r o s' -> good_branch s n r o s'.
Proof.
  intros s s1 s' n r y o P IH1 IH2 cx top e c y' ce b oc d1 d2 r' cs dd T P' SY SB OT SR S0 RR. assert (y' = y) as -> by congruence.
  assert (T' : In (tn_type n) [N_IF; N_ELIF; N_WHILE]) by (destruct T as [-> | ->]; cbn [In]; tauto). destruct (sc_inv_cond _ _ _ _ _ _ _ _ _ S0 T' P) as (S1 & X & TB & SC & S2).
  destruct (IH1 cx e c ce X S1 SY RR) as (w & c1 & A & B & R1 & K1 & F1 & _). pose proof (truth_rep H y false w B) as TW.
  apply (good_behind _ _ cx top e s c s1 c1 o s' RR K1 F1 (IH2 cx top e c1 oc d2 r' cs dd OT SR S2 R1)).
  intros co c' E. destruct oc as [st|]; [now apply cx_else with (c1 := c1) (v := w)|now apply cx_skip with (c1 := c1) (v := w)].
Qed.
Lemma go_comment : forall s s' n r o, tn_type n = N_COMMENT -> good_otherwise s r o s' -> good_otherwise s (n :: r) o s'.
Proof.
  intros s s' n r o T IH cx top e c oc d2 r' cs dd OT SR S0 RR. pose proof (proj2 (sc_inv_skip _ _ _ _ _ _ _ _ S0 (or_introl (or_introl (eq_sym T))))) as S2.
  inversion OT; subst; try congruence; [|eapply IH; eassumption]. pose proof (st_comment _ _ _ _ _ _ SR T) as SR'.
  apply (IH cx top e c None [] r cs dd); [|exact SR'|exact S2|exact RR]. apply Spec_CBack.ot_none. intros m q ->. exact (st_first _ _ _ _ _ _ SR').
Qed.
Lemma go_elif : forall s s' n r o, tn_type n = N_ELIF -> good_branch s n r o s' -> good_otherwise s (n :: r) o s'.
Proof.
  intros s s' n r o T IH cx top e c oc d2 r' cs dd OT SR S0 RR. inversion OT; subst; try congruence.
  - destruct (st_first _ _ _ _ _ _ SR) as (X & _). now elim X.
  - eapply IH; eauto.
Qed.
Lemma go_else : forall s s1 s' n r o1 o, tn_type n = N_ELSE -> good_exec s (tn_child n) o1 s1 -> good_after (close H s s1) o1 r o s' -> good_otherwise s (n :: r) o s'.
Proof.
  intros s s1 s' n r o1 o T IH1 IH2 cx top e c oc d2 r' cs dd OT SR S0 RR. destruct (sc_inv_else _ _ _ _ _ _ _ _ S0 T) as (S1 & SC & S2). inversion OT; subst; try congruence.
  - destruct (st_first _ _ _ _ _ _ SR) as (_ & X). now elim X.
  - match goal with K : stands false (tn_child n) ?q _ |- _ => rename K into SB; rename q into b end.
    destruct (IH1 cx false e (enter_block H c) b d2 SC SB (enter_block_R H env l cx e s c RR)) as (co1 & c2 & new & G1 & G2 & G3 & G4 & G5 & G6 & G7).
    apply (good_block _ (cafter (leave_block H c2) co1 cs) cx top e s c s c o1 co1 s1 c2 new o s' RR S1 (kept_refl _ _ _ _ _ _) eq_refl RR G2 G3 G4 G5 (G6 eq_refl) G7).
    + intro R3. exact (IH2 cx top e (leave_block H c2) co1 cs dd S2 SR R3 G2).
    + intros co c' E. now apply cx_block with (c1 := c2) (o1 := co1).
Qed.
Lemma no_branch : forall r oc d r', others r oc d r' -> oc <> None -> forall s o s', exec s r o s' -> False.
Proof.
  intros r oc d r' O. induction O as [r F|n r o ds' r' T O IH|n r y ce b d1 o ds' r' T P S0 SB O IH|n r b d1 T SB]; intros NN s o1 s' E.
  - now elim NN.
  - apply (IH NN s o1 s'). inversion E; subst; try congruence; try assumption; exfalso; kinds.
  - inversion E; subst; try congruence; kinds.
  - inversion E; subst; try congruence; kinds.
Qed.
Lemma go_end : forall s s' r o, exec s r o s' -> good_exec s r o s' -> good_otherwise s r o s'.
Proof.
  intros s s' r o E IH cx top e c oc d2 r' cs dd OT SR S0 RR. destruct oc as [st|]; [exfalso; exact (no_branch _ _ _ _ OT ltac:(discriminate) _ _ _ E)|].
  exact (IH cx top e c cs dd S0 (others_none _ _ _ _ _ OT _ _ _ SR eq_refl) RR).
Qed.

(** * Loops *)

Lemma st_while : forall top n r y cs dd, stands top (n :: r) cs dd -> tn_type n = N_WHILE -> tn_pay n = XExpr y -> exists ce b d1 cs' dd', cs = CWhile ce b :: cs' /\ same y ce /\ stands false (tn_child n) b d1 /\ stands top r cs' dd'.
Proof.
  intros top n r y cs dd ST T P. inversion ST; subst; try (exfalso; kinds; fail). match goal with K : tn_pay n = XExpr ?z |- _ => assert (z = y) as -> by congruence end. eauto 10.
Qed.
Lemma gx_stop : forall s s1 n r y o s', tn_type n = N_WHILE -> tn_pay n = XExpr y -> good_eval s y (SvBool false) s1 -> good_exec s1 r o s' -> good_exec s (n :: r) o s'.
Proof.
  intros s s1 n r y o s' T P IH1 IH2 cx top e c cs dd S0 ST RR. destruct (st_while _ _ _ _ _ _ ST T P) as (ce & b & d1 & cs' & dd' & -> & SY & SB & SR).
  assert (T' : In (tn_type n) [N_IF; N_ELIF; N_WHILE]) by (rewrite T; cbn [In]; tauto). destruct (sc_inv_cond _ _ _ _ _ _ _ _ _ S0 T' P) as (S1 & X & TB & SC & S2).
  destruct (IH1 cx e c ce X S1 SY RR) as (w & c1 & A & B & R1 & K1 & F1 & _). pose proof (truth_rep H y false w B) as TW.
  apply (good_behind _ _ cx top e s c s1 c1 o s' RR K1 F1 (IH2 cx top e c1 cs' dd' S2 SR R1)). intros co c' E. now apply cx_stop with (c1 := c1) (v := w).
Qed.
Lemma gx_again : forall s s1 s2 s' n r y o1 o, tn_type n = N_WHILE -> tn_pay n = XExpr y -> good_eval s y (SvBool true) s1 -> good_exec s1 (tn_child n) o1 s2 -> o1 = ONormal \/ o1 = OContinue ->
  good_exec (close H s1 s2) (n :: r) o s' -> good_exec s (n :: r) o s'.
Proof.
  intros s s1 s2 s' n r y o1 o T P IH1 IH2 OO IH3 cx top e c cs dd S0 ST RR. destruct (st_while _ _ _ _ _ _ ST T P) as (ce & b & d1 & cs' & dd' & EC & SY & SB & SR).
  assert (T' : In (tn_type n) [N_IF; N_ELIF; N_WHILE]) by (rewrite T; cbn [In]; tauto). destruct (sc_inv_cond _ _ _ _ _ _ _ _ _ S0 T' P) as (S1 & X & TB & SC & S2).
  destruct (IH1 cx e c ce X S1 SY RR) as (w & c1 & A & B & R1 & K1 & F1 & _). pose proof (truth_rep H y true w B) as TW.
  destruct (IH2 cx false e (enter_block H c1) b d1 SC SB (enter_block_R H env l cx e s1 c1 R1)) as (co1 & c2 & new & G1 & G2 & G3 & G4 & G5 & G6 & G7).
  apply (good_block _ (cexec (leave_block H c2) cs) cx top e s c s1 c1 o1 co1 s2 c2 new o s' RR S1 K1 F1 R1 G2 G3 G4 G5 (G6 eq_refl) G7).
  - intro R3. exact (IH3 cx top e (leave_block H c2) cs dd S0 ST R3).
  - subst cs. intros co c' E. apply cx_again with (c1 := c1) (c2 := c2) (v := w) (o1 := co1); auto. destruct OO as [-> | ->]; destruct co1 as [| | |[?|]]; try contradiction; auto.
Qed.
Lemma gx_quit : forall s s1 s2 s' n r y o, tn_type n = N_WHILE -> tn_pay n = XExpr y -> good_eval s y (SvBool true) s1 -> good_exec s1 (tn_child n) OBreak s2 ->
  good_exec (close H s1 s2) r o s' -> good_exec s (n :: r) o s'.
Proof.
  intros s s1 s2 s' n r y o T P IH1 IH2 IH3 cx top e c cs dd S0 ST RR. destruct (st_while _ _ _ _ _ _ ST T P) as (ce & b & d1 & cs' & dd' & -> & SY & SB & SR).
  assert (T' : In (tn_type n) [N_IF; N_ELIF; N_WHILE]) by (rewrite T; cbn [In]; tauto). destruct (sc_inv_cond _ _ _ _ _ _ _ _ _ S0 T' P) as (S1 & X & TB & SC & S2).
  destruct (IH1 cx e c ce X S1 SY RR) as (w & c1 & A & B & R1 & K1 & F1 & _). pose proof (truth_rep H y true w B) as TW.
  destruct (IH2 cx false e (enter_block H c1) b d1 SC SB (enter_block_R H env l cx e s1 c1 R1)) as (co1 & c2 & new & G1 & G2 & G3 & G4 & G5 & G6 & G7).
  apply (good_block _ (cexec (leave_block H c2) cs') cx top e s c s1 c1 OBreak co1 s2 c2 new o s' RR S1 K1 F1 R1 G2 G3 G4 G5 (G6 eq_refl) G7).
  - intro R3. exact (IH3 cx top e (leave_block H c2) cs' dd' S2 SR R3).
  - intros co c' E. destruct co1 as [| | |[?|]]; try contradiction. now apply cx_quit with (c1 := c1) (c2 := c2) (v := w).
Qed.
Lemma gx_inside : forall s s1 s2 n r y v, tn_type n = N_WHILE -> tn_pay n = XExpr y -> good_eval s y (SvBool true) s1 -> good_exec s1 (tn_child n) (OReturn v) s2 ->
  good_exec s (n :: r) (OReturn v) (close H s1 s2).
Proof.
  intros s s1 s2 n r y v T P IH1 IH2 cx top e c cs dd S0 ST RR. destruct (st_while _ _ _ _ _ _ ST T P) as (ce & b & d1 & cs' & dd' & -> & SY & SB & SR).
  assert (T' : In (tn_type n) [N_IF; N_ELIF; N_WHILE]) by (rewrite T; cbn [In]; tauto). destruct (sc_inv_cond _ _ _ _ _ _ _ _ _ S0 T' P) as (S1 & X & TB & SC & S2).
  destruct (IH1 cx e c ce X S1 SY RR) as (w & c1 & A & B & R1 & K1 & F1 & _). pose proof (truth_rep H y true w B) as TW.
  destruct (IH2 cx false e (enter_block H c1) b d1 SC SB (enter_block_R H env l cx e s1 c1 R1)) as (co1 & c2 & new & G1 & G2 & G3 & G4 & G5 & G6 & G7).
  apply (good_block _ (fun co c' => co = co1 /\ c' = leave_block H c2) cx top e s c s1 c1 (OReturn v) co1 s2 c2 new (OReturn v) (close H s1 s2) RR S1 K1 F1 R1 G2 G3 G4 G5 (G6 eq_refl) G7).
  - intro R3. apply good_end with (co := co1); [now split|exact G2|exact R3|exact S1].
  - intros co c' (-> & ->). destruct co1; [destruct v; contradiction..|]. now apply cx_inside with (c1 := c1) (v := w).
Qed.
Lemma no_space : forall cx top e n r, sc cx top e (n :: r) -> tn_type n = N_NAMESPACE -> False.
Proof. intros cx top e n r S0 T. inversion S0; subst; kinds. Qed.

Theorem simulation :
  (forall s x v s', eval s x v s' -> good_eval s x v s') /\ (forall s xs vs s', evals s xs vs s' -> good_evals s xs vs s') /\
  (forall s r o s', exec s r o s' -> good_exec s r o s') /\ (forall s n r o s', branch s n r o s' -> good_branch s n r o s') /\
  (forall s r o s', otherwise s r o s' -> good_otherwise s r o s') /\ (forall s o1 r o s', after s o1 r o s' -> good_after s o1 r o s').
Proof.
  apply runs_ind; intros.
  - now apply ge_var.
  - now apply ge_const.
  - now apply ge_un with (v := v).
  - now apply ge_bin with (s1 := s1) (a := a) (b := b).
  - eapply ge_call; eassumption.
  - eapply ge_external; eassumption.
  - apply gs_nil.
  - eapply gs_cons; eassumption.
  - apply gx_nil.
  - now apply gx_skip.
  - eapply gx_define; eassumption.
  - eapply gx_assign; eassumption.
  - eapply gx_call; eassumption.
  - eapply gx_return; eassumption.
  - now apply gx_leave.
  - now apply gx_break.
  - now apply gx_continue.
  - now apply gx_if.
  - eapply gx_stop; eassumption.
  - eapply gx_again; eassumption.
  - eapply gx_quit; eassumption.
  - eapply gx_inside; eassumption.
  - intros cx top e c cs dd S0 ST RR. exfalso. eapply no_space; eassumption.
  - eapply gx_function; eassumption.
  - eapply gx_external; eassumption.
  - eapply gb_true; eassumption.
  - eapply gb_false; eassumption.
  - now apply go_comment.
  - now apply go_elif.
  - eapply go_else; eassumption.
  - now apply go_end.
  - now apply ga_normal.
  - now apply ga_jump.
Qed.
End Sim.
