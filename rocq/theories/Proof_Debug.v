(** The symbols that the LLVM back end works with in debug builds: parameters are not
    constant. *)
From Coq Require Import List Arith NArith ZArith Bool Lia.
From Verif Require Import Base Model_Token Model_Literal Model_Parse Model_Sem Spec_Parse Spec_Sem Spec_Sem2 Spec_Run Model_Helpers Proof_Helpers Spec_IR Model_LLVM Spec_LLVM Spec_Loops
  Proof_Sem2 Proof_Sem5 Proof_Sem8 Proof_CGen2 Proof_LLVM Proof_LLVM2 Proof_LLVM3 Proof_LLVM4 Proof_LLVM5 Proof_LLVM6 Proof_LLVM9 Proof_LLVM10.
Import ListNotations.
Open Scope list_scope.
Open Scope nat_scope.

Lemma mutable_twice : forall y, set_mutable (set_mutable y) = set_mutable y.
Proof. intros [n l [v|f|t|c]]; reflexivity. Qed.
Lemma loose_nth : forall ps ys j, nth_error (fold_right (fun k ys => upd ys k set_mutable) ys ps) j =
  if existsb (Nat.eqb j) ps then option_map set_mutable (nth_error ys j) else nth_error ys j.
Proof.
  induction ps as [|p ps IH]; intros ys j; [reflexivity|]. cbn [fold_right existsb]. rewrite nth_error_upd, IH.
  destruct (j =? p); [|reflexivity]. cbn [orb]. destruct (existsb (Nat.eqb j) ps); [|reflexivity].
  destruct (nth_error ys j) as [y|]; [|reflexivity]. cbn [option_map]. now rewrite mutable_twice.
Qed.
Definition loose (ys : list symbol) (debug : bool) (l : list tnode) (k : nat) : bool := debug && existsb (Nat.eqb k) (flat_map (params_below ys) l).
Lemma syms_nth : forall ys debug l j, nth_error (debug_syms ys debug l) j =
  if loose ys debug l j then option_map set_mutable (nth_error ys j) else nth_error ys j.
Proof. intros ys [|] l j; [apply loose_nth|reflexivity]. Qed.

Section Syms.
Variable ys : list symbol.
Variable debug : bool.
Variable l : list tnode.
Local Notation ys' := (debug_syms ys debug l).
Local Notation loose := (loose ys debug l).

Lemma syms_external : forall k, is_external ys' k = is_external ys k.
Proof.
  intro k. unfold is_external. rewrite syms_nth. destruct (loose k); [|reflexivity]. destruct (nth_error ys k) as [[n c [v|f|t|s]]|]; reflexivity.
Qed.
Lemma syms_func : forall k, sym_func ys' k = sym_func ys k.
Proof.
  intro k. unfold sym_func, deref. rewrite syms_nth. destruct (loose k); [|reflexivity]. destruct (nth_error ys k) as [[n c [v|f|t|s]]|]; reflexivity.
Qed.
Lemma syms_var : forall k v, sym_var ys k = Ok v -> exists v', sym_var ys' k = Ok v' /\ v_type v' = v_type v /\ v_const v' = v_const v && negb (loose k).
Proof.
  intros k v E. unfold sym_var, deref in *. rewrite syms_nth. destruct (loose k).
  - destruct (nth_error ys k) as [[n c [v0|f|t|s]]|]; cbn [option_map bind] in *; try discriminate E. cbn in E. injection E as ->.
    eexists. split; [reflexivity|]. split; [reflexivity|]. cbn. now rewrite andb_false_r.
  - exists v. split; [exact E|]. split; [reflexivity|]. now rewrite andb_true_r.
Qed.
Lemma syms_no_void : no_void ys -> no_void ys'.
Proof.
  intros NV y I. apply In_nth_error in I as (j & E). rewrite syms_nth in E. destruct (loose j).
  - destruct (nth_error ys j) as [y0|] eqn:F; [|discriminate E]. injection E as <-. pose proof (NV y0 (nth_error_In _ _ F)) as Q. destruct y0 as [n c [v|f|t|s]]; exact Q.
  - exact (NV y (nth_error_In _ _ E)).
Qed.
Lemma syms_typed : forall x, typed ys x -> typed ys' x.
Proof.
  intro x. induction x as [t k ty c|t v ty|t k args ty F|o r ty c IH|o a b ty c IH1 IH2] using Proof_LLVM.texpr_ind'; cbn [typed]; auto.
  - intros (v & V & T). destruct (syms_var _ _ V) as (v' & V' & T' & _). exists v'. split; [exact V'|congruence].
  - intros (f & A). split; [rewrite syms_func; exact f|]. clear f. induction F as [|a args IH _ IHF]; [exact I|]. cbn [fold_right] in *. destruct A as (A1 & A2). split; auto.
  - intros (A & B). auto.
  - intros (A & B & C & D). auto.
Qed.
Lemma syms_mutable : forall k, loose k = false -> mutable ys' k = mutable ys k.
Proof. intros k E. unfold mutable. now rewrite syms_nth, E. Qed.

(** Variables with a definition are not parameters. *)
Fixpoint vars_below (n : tnode) : list nat :=
  match n with mktnode _ _ p c => match p with XDef k _ => [k] | _ => [] end ++ flat_map vars_below c end.
Lemma incl_flat : forall (f g : tnode -> list nat) c, Forall (fun n => incl (f n) (g n)) c -> incl (flat_map f c) (flat_map g c).
Proof. intros f g c F. induction F as [|n c A _ IH]; [intros k []|]. cbn [flat_map]. apply incl_app; [now apply incl_appl|now apply incl_appr]. Qed.
Lemma vars_numbers : forall n, incl (vars_below n) (numbers n).
Proof.
  intro n. induction n as [t tk p c F] using tnode_ind'. cbn [vars_below numbers numbers_here tn_pay].
  apply incl_app; [|apply incl_appr; now apply incl_flat]. destruct p; intros k I; try destruct I as [<-|[]]; try destruct I. now left.
Qed.
Lemma params_numbers : forall n, incl (params_below ys n) (numbers n).
Proof.
  intro n. induction n as [t tk p c F] using tnode_ind'. cbn [params_below numbers numbers_here tn_pay].
  apply incl_app; [|apply incl_appr; now apply incl_flat]. destruct p; intros k I; try destruct I. destruct (is_external ys sym); [destruct I|]. cbn [app]. right. now apply in_or_app; left.
Qed.
Definition apart (n : tnode) : Prop := NoDup (numbers n) -> forall k, In k (vars_below n) -> In k (params_below ys n) -> False.
Lemma apart_list : forall c, Forall apart c -> NoDup (flat_map numbers c) -> forall k, In k (flat_map vars_below c) -> In k (flat_map (params_below ys) c) -> False.
Proof.
  intros c F. induction F as [|n c A _ IH]; intros N k I J; [destruct I|]. cbn [flat_map] in *. pose proof (nodup_left _ _ N) as N1. apply nodup_parts in N as (N2 & D).
  assert (SUB : forall f, (forall n, incl (f n) (numbers n)) -> incl (flat_map f c) (flat_map numbers c)) by (intros f Q; apply incl_flat, Forall_forall; auto).
  apply in_app_iff in I as [I|I]; apply in_app_iff in J as [J|J].
  - exact (A N1 k I J).
  - apply (D k); [now apply vars_numbers|]. now apply (SUB _ params_numbers).
  - apply (D k); [now apply params_numbers|]. now apply (SUB _ vars_numbers).
  - eauto.
Qed.
Lemma all_apart : forall n, apart n.
Proof.
  intro n. induction n as [t tk p c F] using tnode_ind'. intros N k I J. cbn [numbers vars_below params_below] in *. apply nodup_parts in N as (N & D).
  assert (SUB : forall f, (forall n, incl (f n) (numbers n)) -> incl (flat_map f c) (flat_map numbers c)) by (intros f Q; apply incl_flat, Forall_forall; auto).
  apply in_app_iff in I as [I|I]; apply in_app_iff in J as [J|J].
  - destruct p; contradiction.
  - destruct p; try contradiction. destruct I as [<-|[]]. apply (D sym); [now left|]. now apply (SUB _ params_numbers).
  - destruct p; try contradiction. destruct (is_external ys sym); [destruct J|]. apply (D k); [cbn; now right|]. now apply (SUB _ vars_numbers).
  - exact (apart_list c F N k I J).
Qed.
Lemma vars_strict : NoDup (flat_map numbers l) -> forall k, In k (flat_map vars_below l) -> loose k = false.
Proof.
  intros N k I. unfold Proof_Debug.loose. destruct debug; [|reflexivity]. cbn [andb]. destruct (existsb (Nat.eqb k) (flat_map (params_below ys) l)) eqn:E; [|reflexivity].
  apply existsb_exists in E as (j & J & E). apply Nat.eqb_eq in E. subst j. exfalso.
  apply (apart_list l) with k; auto. apply Forall_forall. intros n _. apply all_apart.
Qed.

Lemma syms_defs : forall n, (forall k, In k (vars_below n) -> loose k = false) -> mut_defs ys' n = mut_defs ys n /\ steady ys' n = steady ys n.
Proof.
  intro n. induction n as [t tk p c F] using tnode_ind'. intro V. cbn [vars_below] in V.
  assert (C : flat_map (mut_defs ys') c = flat_map (mut_defs ys) c /\ forallb (steady ys') c = forallb (steady ys) c).
  { assert (VC : forall k, In k (flat_map vars_below c) -> loose k = false) by (intros k I; apply V, in_or_app; now right). clear V.
    induction F as [|n c A _ IH]; [split; reflexivity|]. cbn [flat_map forallb] in *. destruct A as (A1 & A2); [intros k I; apply VC, in_or_app; now left|].
    destruct IH as (B1 & B2); [intros k I; apply VC, in_or_app; now right|]. now rewrite A1, A2, B1, B2. }
  destruct C as (C1 & C2). cbn [mut_defs steady]. rewrite C1, C2. split; [|reflexivity]. f_equal.
  destruct p; try reflexivity. rewrite syms_mutable; [reflexivity|]. apply V. now left.
Qed.
Lemma syms_list : NoDup (flat_map numbers l) -> flat_map (mut_defs ys') l = flat_map (mut_defs ys) l /\ forallb (steady ys') l = forallb (steady ys) l.
Proof.
  intro N. pose proof (vars_strict N) as V. clear N. revert V.
  assert (G : forall c, (forall k, In k (flat_map vars_below c) -> loose k = false) -> flat_map (mut_defs ys') c = flat_map (mut_defs ys) c /\ forallb (steady ys') c = forallb (steady ys) c).
  { induction c as [|n c IH]; intro V; [split; reflexivity|]. cbn [flat_map forallb] in *. destruct (syms_defs n) as (A1 & A2); [intros k I; apply V, in_or_app; now left|].
    destruct IH as (B1 & B2); [intros k I; apply V, in_or_app; now right|]. now rewrite A1, A2, B1, B2. }
  exact (G l).
Qed.
Lemma params_in : forall n, in_checked n l -> forall k ps p, tn_pay n = XProto k ps -> is_external ys k = false -> In p ps -> In p (flat_map (params_below ys) l).
Proof.
  intros n C. induction C as [l I|y l I C IH]; intros k ps p P E J; apply in_flat_map; [exists n|exists y]; (split; [exact I|]).
  - destruct n as [t tk pay c]. cbn [tn_pay] in P. subst pay. cbn [params_below]. rewrite E. apply in_or_app. now left.
  - destruct y as [t tk pay c]. cbn [params_below tn_child] in *. apply in_or_app. right. eauto.
Qed.

(** The meaning of programs only depends on which functions come from outside. *)
Variable H : host.
Variable ok1 : unop -> sv (h_float H) -> Prop.
Variable ok2 : binop -> sv (h_float H) -> sv (h_float H) -> Prop.
Lemma syms_exec : forall s c o s', exec H ys ok1 ok2 s c o s' -> exec H ys' ok1 ok2 s c o s'.
Proof.
  assert (ALL : (forall s x v s', eval H ys ok1 ok2 s x v s' -> eval H ys' ok1 ok2 s x v s') /\
    (forall s xs vs s', evals H ys ok1 ok2 s xs vs s' -> evals H ys' ok1 ok2 s xs vs s') /\
    (forall s c o s', exec H ys ok1 ok2 s c o s' -> exec H ys' ok1 ok2 s c o s') /\
    (forall s n r o s', branch H ys ok1 ok2 s n r o s' -> branch H ys' ok1 ok2 s n r o s') /\
    (forall s r o s', otherwise H ys ok1 ok2 s r o s' -> otherwise H ys' ok1 ok2 s r o s') /\
    (forall s o1 r o s', after H ys ok1 ok2 s o1 r o s' -> after H ys' ok1 ok2 s o1 r o s')).
  { apply runs_ind; intros; try match goal with E : is_external ys _ = _ |- _ => rewrite <- syms_external in E end; solve [econstructor; eauto]. }
  apply ALL.
Qed.
End Syms.
