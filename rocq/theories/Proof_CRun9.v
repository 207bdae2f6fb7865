(** From the start of generated C programs to their end. *)
From Coq Require Import List Arith NArith ZArith Bool Lia Ascii String.
From Verif Require Import Base Model_Token Model_Literal Model_Parse Model_Sem Spec_Sem Spec_Sem2 Model_CGen Spec_C Spec_CGen Spec_CProg Spec_CBack Spec_Run
  Spec_LLVM Spec_CRun Spec_CBehave Proof_Sem8 Proof_LLVM Proof_LLVM3 Proof_CRun Proof_CRun2 Proof_CRun3 Proof_CRun4 Proof_CRun6 Proof_CRun8.
From Verif Require Proof_CRun7.
Import ListNotations.
Open Scope list_scope.
Open Scope nat_scope.

Section Running.
Variable H : host.
Variable M : machine H.
Variable hs : list helper.
Variable ds : list cdef.
Local Notation ceval := (ceval H M hs ds).
Local Notation cevals := (cevals H M hs ds).
Local Notation cexec := (cexec H M hs ds).
Local Notation cafter := (cafter H M hs ds).

Scheme ceval_ind2 := Minimality for Spec_CRun.ceval Sort Prop
  with cevals_ind2 := Minimality for Spec_CRun.cevals Sort Prop
  with cexec_ind2 := Minimality for Spec_CRun.cexec Sort Prop
  with cafter_ind2 := Minimality for Spec_CRun.cafter Sort Prop.
Combined Scheme cruns_ind from ceval_ind2, cevals_ind2, cexec_ind2, cafter_ind2.

(** Statements one after the other. *)
Lemma cexec_app_all :
  (forall c e v c', ceval c e v c' -> True) /\ (forall c e v c', cevals c e v c' -> True) /\
  (forall c cs o c', cexec c cs o c' -> forall r o2 c2, cafter c' o r o2 c2 -> cexec c (cs ++ r) o2 c2) /\
  (forall c o1 cs o c', cafter c o1 cs o c' -> forall r o2 c2, cafter c' o r o2 c2 -> cafter c o1 (cs ++ r) o2 c2).
Proof.
  apply cruns_ind; try (intros; exact I); intros; cbn [app] in *.
  - match goal with X : cafter _ _ _ _ _ |- _ => inversion X; subst end; [assumption|congruence].
  - eapply cx_decl; eauto.
  - eapply cx_assign; eauto.
  - eapply cx_expr; eauto.
  - eapply cx_void; eauto.
  - eapply cx_then; eauto.
  - eapply cx_skip; eauto.
  - eapply cx_else; eauto.
  - eapply cx_stop; eauto.
  - eapply cx_again; eauto.
  - eapply cx_quit; eauto.
  - match goal with X : cafter _ _ _ _ _ |- _ => inversion X; subst end. eapply cx_inside; eauto.
  - match goal with X : cafter _ _ _ _ _ |- _ => inversion X; subst end. constructor.
  - match goal with X : cafter _ _ _ _ _ |- _ => inversion X; subst end. now constructor.
  - match goal with X : cafter _ _ _ _ _ |- _ => inversion X; subst end. constructor.
  - match goal with X : cafter _ _ _ _ _ |- _ => inversion X; subst end. constructor.
  - eapply cx_block; eauto.
  - constructor. eauto.
  - match goal with X : cafter _ _ r0 _ _ |- _ => inversion X; subst end; [congruence|]. now constructor.
Qed.
Lemma cexec_app : forall c cs o c' r o2 c2, cexec c cs o c' -> cafter c' o r o2 c2 -> cexec c (cs ++ r) o2 c2.
Proof. intros c cs o c' r o2 c2 A B. exact (proj1 (proj2 (proj2 cexec_app_all)) _ _ _ _ A _ _ _ B). Qed.

(** Variables outside of functions. *)
Lemma globals_make : forall o (Q : cdef -> cval H -> Prop) r,
  (forall s q t x l i, In (FVar s q t x l i) r -> exists v, first_value H M hs ds t i o v /\ Q (FVar s q t x l i) v) ->
  exists g, globals H M hs ds o r g /\ (forall x cl, g x = Some cl -> exists s q t l i v, In (FVar s q t x l i) r /\ cl = mkcell H q t v /\ Q (FVar s q t x l i) v) /\
    (forall s q t x l i, In (FVar s q t x l i) r -> g x <> None).
Proof.
  intros o Q r. induction r as [|d r IH]; intro A; [exists (fun _ => None); split; [constructor|]; split; [discriminate|intros s q t x l i []]|].
  destruct IH as (g & G1 & G2 & G3); [intros s q t x l i I; apply A; now right|].
  assert (DV : (exists s q t x l i, d = FVar s q t x l i) \/ forall s q t x l i, d <> FVar s q t x l i) by (destruct d; try (right; discriminate); left; eauto 8).
  destruct DV as [(s & q & t & x & l & i & ->)|NV].
  - destruct (A s q t x l i (or_introl eq_refl)) as (v & F & QV). exists (put_cell H g x (mkcell H q t v)). split; [now constructor|]. split.
    + intros y cl E. unfold put_cell in E. destruct (text_eqb_spec y x) as [->|NE].
      * inversion E; subst cl. exists s, q, t, l, i, v. split; [now left|]. split; [reflexivity|exact QV].
      * destruct (G2 y cl E) as (s' & q' & t' & l' & i' & v' & I & X). exists s', q', t', l', i', v'. split; [now right|exact X].
    + intros s' q' t' x' l' i' [E|I]; unfold put_cell; destruct (text_eqb_spec x' x) as [->|NE]; try discriminate; [now inversion E; subst|]. exact (G3 _ _ _ _ _ _ I).
  - exists g. split; [now constructor|]. split.
    + intros y cl E. destruct (G2 y cl E) as (s' & q' & t' & l' & i' & v' & I & X). exists s', q', t', l', i', v'. split; [now right|exact X].
    + intros s' q' t' x' l' i' [E|I]; [elim (NV _ _ _ _ _ _ E)|]. exact (G3 _ _ _ _ _ _ I).
Qed.
End Running.

Lemma sub_nodup : forall (f g : tnode -> list nat) (h : nat -> text) r, (forall n, f n = g n \/ f n = []) -> NoDup (map h (flat_map g r)) -> NoDup (map h (flat_map f r)).
Proof.
  intros f g h r S0. assert (INC : forall z k, In k (flat_map f z) -> In k (flat_map g z)).
  { intros z k I. apply in_flat_map in I as (n & A & I). apply in_flat_map. exists n. split; [exact A|]. destruct (S0 n) as [E|E]; rewrite E in I; [exact I|destruct I]. }
  induction r as [|n r IH]; cbn [flat_map]; [trivial|]. rewrite !map_app. intro N1. destruct (S0 n) as [E|E]; rewrite E.
  - revert N1. generalize (g n). intro a. induction a as [|x a IA]; cbn [map app]; intro N1; [now apply IH|]. inversion N1 as [|? ? X Y]; subst. constructor; [|now apply IA].
    intro I. apply X. apply in_app_iff in I as [I|I]; apply in_or_app; [now left|right]. apply in_map_iff in I as (k & EK & I). apply in_map_iff. exists k. split; [exact EK|now apply INC].
  - cbn [map app]. apply IH. revert N1. generalize (map h (g n)). intro a. induction a as [|x a IA]; cbn [app]; intro N1; [exact N1|]. inversion N1; subst. now apply IA.
Qed.
Lemma nodup_join : forall (A : Type) (a b : list A), NoDup a -> NoDup b -> (forall x, In x a -> ~ In x b) -> NoDup (a ++ b).
Proof.
  intros A a b NA NB D. induction a as [|x a IH]; [exact NB|]. inversion NA as [|? ? X Y]; subst. cbn [app]. constructor.
  - rewrite in_app_iff. intros [I|I]; [now apply X|]. exact (D x (or_introl eq_refl) I).
  - apply IH; [exact Y|]. intros y I. apply D. now right.
Qed.

Section Unit.
Variable H : host.
Variable env : cctx.
Variable M : machine H.
Variable l : list tnode.
Variable hs : list helper.
Variable m : text.
Variable cs : list cstmt.
Variable ds0 : list cdef.
Local Notation ys := (ce_syms env).
Local Notation name_of := (name_of env).
Local Notation isvar := (isvar env).
Local Notation isfun := (isfun env).
Local Notation vtype := (vtype env).
Local Notation initial := (initial env).
Local Notation stands := (Spec_CBack.stands env).
Local Notation eval := (eval H ys (c_exact1 H) (c_exact2 H)).
Let ds := ds0 ++ [FProto true TyInt (u "init") [] (Some m); FFunc true TyInt (u "init") [] (cs ++ [CReturn (Some (CNum (u "0")))]);
                  FFunc false TyInt (u "main") [] [CReturn (Some (CCall (CId (u "init")) []))]].
Definition fact (n : tnode) : Prop :=
  (forall k y, tn_pay n = XDef k y -> tn_type n = N_VAR_DEF /\ typed ys y /\ initial k (x_cexpr y) /\ vtype k = x_ty y) /\
  (forall k ks, tn_pay n = XProto k ks -> tn_type n = N_FUNCTION_PROTO /\ isfun k) /\ (tn_type n = N_FUNCTION_PROTO -> exists k ks, tn_pay n = XProto k ks).
Hypothesis NA : numbers_agree H env M.
Hypothesis LA : links_agree H env M.
Hypothesis BH : behaved H env M l.
Hypothesis ND : NoDup (flat_map numbers l).
Hypothesis FACT : forall n, in_checked n l -> fact n.
Hypothesis WX : forall n k ks x f, in_checked n l -> tn_pay n = XProto k ks -> is_fun env k x f -> f_external f = true -> tn_child n = [].
Hypothesis HD : NoDup hs.
Hypothesis ST : stands true l cs ds0.
Hypothesis SC : sc env l hs None true [] l.
Hypothesis BODY : forall n f ks, In n l -> tn_pay n = XProto f ks -> body_ok env l hs n f ks.

Lemma u_pt : forall n k ks, In n l -> tn_pay n = XProto k ks -> tn_type n = N_FUNCTION_PROTO.
Proof. intros n k ks I P. exact (proj1 (proj1 (proj2 (FACT n (ic_here _ _ I))) _ _ P)). Qed.
Lemma u_ini : forall n k y, in_checked n l -> tn_pay n = XDef k y -> initial k (x_cexpr y).
Proof. intros n k y I P. exact (proj1 (proj2 (proj2 (proj1 (FACT n I) _ _ P)))). Qed.
Lemma u_shape : shape l.
Proof.
  assert (TU : forall n, in_checked n l -> tuned n).
  { intros n C. destruct (FACT n C) as (F1 & F2 & _). split; [exact (bh_spaces _ _ _ _ BH n C)|]. split; [intros k y P; exact (proj1 (F1 _ _ P))|intros k ks P; exact (proj1 (F2 _ _ P))]. }
  intros n I. split; [apply TU; now apply ic_here|]. intros q C. assert (CQ : in_checked q l) by (apply ic_below with n; auto). split; [exact (TU q CQ)|].
  intro T. pose proof (bh_functions _ _ _ _ BH q CQ T) as J. destruct (FACT q CQ) as (_ & _ & F3). destruct (F3 T) as (k & ks & P).
  assert (IN : In k (numbers q)) by (rewrite (proto_numbers _ _ _ P); now left).
  assert (BL : In k (flat_map numbers (tn_child n))). { apply (Proof_CRun7.checked_number q); [exact C|]. unfold numbers_here. rewrite P. now left. }
  assert (n = q) by (apply (node_one l ND n q k I J); [rewrite numbers_is; apply in_or_app; now right|exact IN]). subst q.
  pose proof (node_nodup l ND n I) as N1. rewrite (proto_numbers _ _ _ P) in N1. inversion N1 as [|? ? X Y]; subst. apply X. apply in_or_app. now right.
Qed.
Lemma u_contains : contains env l ds0.
Proof. exact (proj1 (contents env) true l cs ds0 ST u_shape eq_refl). Qed.

Lemma near_home : forall n, near l n -> exists cx, home l cx n.
Proof.
  intros n [I|(q & I & T & J)]; [exists None; exact I|]. destruct (FACT q (ic_here _ _ I)) as (_ & _ & F3). destruct (F3 T) as (k & ks & P).
  exists (Some k), q, ks. auto.
Qed.
Lemma fun_hoisted : forall n k ks, In n l -> tn_pay n = XProto k ks -> hoisted l k.
Proof. intros n k ks I P. apply (hoisted_is l u_pt). right. eauto. Qed.
Lemma var_hoisted : forall cx n k y, home l cx n -> tn_pay n = XDef k y -> hoisted l k.
Proof. intros cx n k y I P. apply (top_hoisted l u_pt cx). exists n, y. auto. Qed.

(** Every definition in the unit. *)
Lemma unit_var : forall s q t x lb i, In (FVar s q t x lb i) ds -> In (FVar s q t x lb i) ds0.
Proof. intros s q t x lb i I. unfold ds in I. apply in_app_iff in I as [I|I]; [exact I|]. cbn [In] in I. intuition discriminate. Qed.
Lemma var_from : forall s q t x lb i, In (FVar s q t x lb i) ds0 -> exists cx n k y v, home l cx n /\ tn_pay n = XDef k y /\ is_var env k x v /\ t = c_type (v_type v) /\
  (v_cexpr v = Some false /\ q = false /\ i = None \/ exists ce, Spec_CGen.same env y ce /\ v_cexpr v = Some true /\ q = v_const v /\ i = Some ce).
Proof.
  intros s q t x lb i I. destruct (cn_from _ _ _ u_contains _ I) as (n & [(A & B)|(A & B)]).
  - destruct (near_home n A) as (cx & HO). destruct B as (k & y & x0 & v & lb0 & P & V & C). exists cx, n, k, y, v. split; [exact HO|]. split; [exact P|].
    destruct C as [(C1 & C2)|(ce & C1 & C2 & C3)].
    + inversion C2; subst. split; [exact V|]. split; [reflexivity|]. left. auto.
    + inversion C3; subst. split; [exact V|]. split; [reflexivity|]. right. exists ce. auto.
  - destruct B as (k & ks & x0 & f & ps & P & V & _ & [(s0 & lb0 & _ & C)|(_ & s0 & b & C)]); discriminate C.
Qed.
Lemma func_from : forall d f, In d ds -> (exists s t ps lb, d = FProto s t f ps lb) \/ (exists s t ps b, d = FFunc s t f ps b) ->
  f = u "init" \/ f = u "main" \/ exists n k ks g, In n l /\ tn_pay n = XProto k ks /\ is_fun env k f g /\ ((exists s t ps b, d = FFunc s t f ps b) -> f_external g = false).
Proof.
  intros d f I D. unfold ds in I. apply in_app_iff in I as [I|I].
  - right. right. destruct (cn_from _ _ _ u_contains _ I) as (n & [(A & B)|(A & B)]).
    + exfalso. destruct B as (k & y & x0 & v & lb0 & P & V & [(_ & C)|(ce & _ & _ & C)]); rewrite C in D; destruct D as [(s & t & ps & lb & D)|(s & t & ps & lb & D)]; discriminate D.
    + destruct B as (k & ks & x0 & g & ps & P & V & _ & C). exists n, k, ks, g. split; [exact A|]. split; [exact P|].
      destruct C as [(s0 & lb0 & _ & C)|(NE & s0 & b & C)]; rewrite C in D.
      * destruct D as [(s & t & ps' & lb & D)|(s & t & ps' & lb & D)]; [|discriminate D]. inversion D; subst. split; [exact V|]. intros (s1 & t1 & p1 & b1 & X). discriminate X.
      * destruct D as [(s & t & ps' & lb & D)|(s & t & ps' & lb & D)]; [discriminate D|]. inversion D; subst. split; [exact V|]. intros _. exact NE.
  - cbn [In] in I. destruct I as [<-|[<-|[<-|[]]]]; destruct D as [(s & t & ps & lb & D)|(s & t & ps & lb & D)]; inversion D; auto.
Qed.
Definition from_program (f : text) (t : cty) (ps : list (cty * text)) (n : tnode) (k : nat) (ks : list nat) (g : func) : Prop :=
  In n l /\ tn_pay n = XProto k ks /\ is_fun env k f g /\ t = c_type (f_ret g) /\ Forall2 (param_of env) ks ps.
Lemma proto_from : forall s t f ps lb, In (FProto s t f ps lb) ds -> f = u "init" /\ t = TyInt /\ ps = [] /\ lb = Some m \/
  exists n k ks g, from_program f t ps n k ks g /\ labelled env k (f_export g) lb.
Proof.
  intros s t f ps lb I. unfold ds in I. apply in_app_iff in I as [I|[I|[I|[I|[]]]]]; try discriminate I; [|left; now inversion I].
  right. destruct (cn_from _ _ _ u_contains _ I) as (n & [(A & (k & y & x0 & v & lb0 & P & V & [(_ & C)|(ce & _ & _ & C)]))|(A & (k & ks & x0 & g & ps0 & P & V & FP & C))]); [discriminate C|discriminate C|].
  destruct C as [(s0 & lb0 & LB & C)|(_ & s0 & b & C)]; [|discriminate C]. inversion C; subst. exists n, k, ks, g. split; [|exact LB]. unfold from_program. auto.
Qed.
Lemma body_from : forall s t f ps b, In (FFunc s t f ps b) ds -> (f = u "init" \/ f = u "main") /\ t = TyInt /\ ps = [] \/ exists n k ks g, from_program f t ps n k ks g.
Proof.
  intros s t f ps b I. unfold ds in I. apply in_app_iff in I as [I|[I|[I|[I|[]]]]]; try discriminate I; [|left; inversion I; auto|left; inversion I; auto].
  right. destruct (cn_from _ _ _ u_contains _ I) as (n & [(A & (k & y & x0 & v & lb0 & P & V & [(_ & C)|(ce & _ & _ & C)]))|(A & (k & ks & x0 & g & ps0 & P & V & FP & C))]); [discriminate C|discriminate C|].
  destruct C as [(s0 & lb0 & _ & C)|(_ & s0 & b0 & C)]; [discriminate C|]. inversion C; subst. exists n, k, ks, g. unfold from_program. auto.
Qed.
Lemma params_one : forall ks ps ps', Forall2 (param_of env) ks ps -> Forall2 (param_of env) ks ps' -> ps' = ps.
Proof.
  intros ks ps ps' A. revert ps'. induction A as [|k p ks ps (x & v & V & ->) A IH]; intros ps' B; inversion B as [|? p' ? r' (x' & v' & V' & ->) B']; subst; [reflexivity|].
  destruct (is_var_one env _ _ _ _ _ V V') as (-> & ->). f_equal. now apply IH.
Qed.
Lemma taken : forall k w, hoisted l k -> In w ["main"; "init"; "_strcmp"; "_int_pow"; "_float_pow"]%string -> name_of k <> u w.
Proof. intros k w T I E. apply (proj2 (bh_taken _ _ _ _ BH k T)). rewrite E. now apply in_map. Qed.

Lemma helper_word : forall h, exists w, In w ["main"; "init"; "_strcmp"; "_int_pow"; "_float_pow"]%string /\ helper_name h = u w.
Proof. intros [| |]; eexists; (split; [|reflexivity]); cbn [In]; auto 6. Qed.

Lemma u_fn : forall n k ks x f, In n l -> tn_pay n = XProto k ks -> is_fun env k x f -> exists ps, Forall2 (param_of env) ks ps /\
  (f_external f = false -> exists b d1, stands true (tn_child n) b d1 /\ defined ds x (c_type (f_ret f)) ps b) /\
  (f_external f = true -> elsewhere ds x (c_type (f_ret f)) ps (link_name env k x f)).
Proof.
  intros n k ks x f I P F. destruct (cn_funs _ _ _ u_contains n k ks x f I P F) as (ps & lb & A & LB & B & C). exists ps. split; [exact A|]. split.
  - intro E. destruct (B E) as (s & b & d1 & S1 & S2 & _). exists b, d1. split; [exact S1|]. exists s. unfold ds. apply in_or_app. now left.
  - intro E. exists lb. split; [unfold ds; apply in_or_app; left; now apply C|]. split.
    + unfold link_name. unfold labelled in LB. destruct (f_export f); [destruct LB as (-> & NN); now destruct (ce_linkage env k)|now rewrite LB].
    + intros t' ps' b (s & D). pose proof (fun_hoisted n k ks I P) as HK. pose proof (is_fun_name env _ _ _ F) as NX.
      destruct (func_from _ x D) as [X|[X|(n' & k' & ks' & g & I' & P' & F' & NE)]]; [right; eauto| | |].
      * apply (taken k "init" HK); [right; now left|congruence].
      * apply (taken k "main" HK); [now left|congruence].
      * assert (k' = k). { apply (hoisted_name env l (bh_names _ _ _ _ BH)); [exact (fun_hoisted _ _ _ I' P')|exact HK|]. rewrite NX. exact (is_fun_name env _ _ _ F'). }
        subst k'. destruct (is_fun_one env _ _ _ _ _ F F') as (_ & <-). rewrite NE in E; [discriminate E|eauto].
Qed.

Lemma from_one : forall f t ps n k ks g t' ps' n' k' ks' g', from_program f t ps n k ks g -> from_program f t' ps' n' k' ks' g' -> k' = k /\ g' = g /\ t' = t /\ ps' = ps.
Proof.
  intros f t ps n k ks g t' ps' n' k' ks' g' (A & P & F & -> & FP) (A' & P' & F' & -> & FP').
  assert (k' = k). { apply (hoisted_name env l (bh_names _ _ _ _ BH)); [exact (fun_hoisted _ _ _ A' P')|exact (fun_hoisted _ _ _ A P)|]. rewrite (is_fun_name env _ _ _ F). exact (is_fun_name env _ _ _ F'). }
  subst k'. destruct (is_fun_one env _ _ _ _ _ F F') as (_ & <-). destruct (proto_one l ND _ _ _ _ _ A A' P P') as (_ & <-). split; [reflexivity|]. split; [reflexivity|]. split; [reflexivity|].
  exact (params_one _ _ _ FP FP').
Qed.
Lemma from_taken : forall f t ps n k ks g w, from_program f t ps n k ks g -> In w ["main"; "init"; "_strcmp"; "_int_pow"; "_float_pow"]%string -> f <> u w.
Proof. intros f t ps n k ks g w (A & P & F & _) I E. apply (taken k w (fun_hoisted _ _ _ A P) I). rewrite (is_fun_name env _ _ _ F). exact E. Qed.
Lemma u_agree : forall s t f ps lb d, In (FProto s t f ps lb) ds -> In d ds -> agreeing t f ps lb d.
Proof.
  intros s t f ps lb d I J. destruct d as [s' q t' y lb' i|s' t' f' ps' lb'|s' t' f' ps' b]; cbn [agreeing]; [exact Logic.I| |]; intro E; subst f'.
  - destruct (proto_from _ _ _ _ _ I) as [(X1 & X2 & X3 & X4)|(n & k & ks & g & X & LB)]; destruct (proto_from _ _ _ _ _ J) as [(Y1 & Y2 & Y3 & Y4)|(n' & k' & ks' & g' & Y & LB')].
    + subst. auto.
    + exfalso. apply (from_taken _ _ _ _ _ _ _ "init" Y); [cbn; auto|exact X1].
    + exfalso. apply (from_taken _ _ _ _ _ _ _ "init" X); [cbn; auto|exact Y1].
    + destruct (from_one _ _ _ _ _ _ _ _ _ _ _ _ _ X Y) as (-> & -> & -> & ->). split; [reflexivity|]. split; [reflexivity|]. unfold labelled in *. destruct (f_export g); [destruct LB as (-> & _); now destruct LB'|congruence].
  - destruct (proto_from _ _ _ _ _ I) as [(X1 & X2 & X3 & X4)|(n & k & ks & g & X & LB)]; destruct (body_from _ _ _ _ _ J) as [(Y1 & Y2 & Y3)|(n' & k' & ks' & g' & Y)].
    + subst. auto.
    + exfalso. apply (from_taken _ _ _ _ _ _ _ "init" Y); [cbn; auto|exact X1].
    + exfalso. destruct Y1 as [Y1|Y1]; [apply (from_taken _ _ _ _ _ _ _ "init" X)|apply (from_taken _ _ _ _ _ _ _ "main" X)]; cbn; auto.
    + destruct (from_one _ _ _ _ _ _ _ _ _ _ _ _ _ X Y) as (-> & -> & -> & ->). auto.
Qed.

Lemma u_distinct : distinct_names H M hs ds.
Proof.
  pose proof (bh_names _ _ _ _ BH) as BN. pose proof u_contains as UC.
  assert (DEF : forall d x, In d ds -> In x (defined_names d) -> x = u "init" \/ x = u "main" \/ exists k, hoisted l k /\ name_of k = x).
  { intros d x I D. destruct d as [s q t y lb i|s t f ps lb|s t f ps b] eqn:ED; cbn [defined_names In] in D; try contradiction; destruct D as [<-|[]].
    - right. right. destruct (var_from _ _ _ _ _ _ (unit_var _ _ _ _ _ _ I)) as (cx & n & k & y0 & v & HO & P & V & _). exists k. split; [exact (var_hoisted _ _ _ _ HO P)|exact (is_var_name env _ _ _ V)].
    - destruct (func_from _ f I) as [X|[X|(n' & k' & ks' & g & I' & P' & F' & NE)]]; [right; eauto|now left|right; now left|]. right. right. exists k'.
      split; [exact (fun_hoisted _ _ _ I' P')|exact (is_fun_name env _ _ _ F')]. }
  split; [|split; [exact u_agree|split]].
  - apply nodup_join.
    + clear -HD. induction HD as [|h r X Y IH]; cbn [map]; [constructor|]. constructor; [|exact (IH Y)]. intro I. apply X. apply in_map_iff in I as (h' & E & I). destruct h, h'; try discriminate E; exact I.
    + unfold ds. rewrite flat_map_app, (cn_names _ _ _ UC). apply nodup_join.
      * apply (sub_nodup _ outside); [|exact BN]. intro n. unfold definite, outside. destruct (tn_pay n); auto. destruct (is_external ys sym); auto.
      * cbn. constructor; [cbn; intros [X|[]]; discriminate X|constructor; [intros []|constructor]].
      * intros x I J. apply in_map_iff in I as (k & <- & I). assert (HK : hoisted l k).
        { unfold hoisted. apply in_flat_map in I as (n & A & I). apply in_flat_map. exists n. split; [exact A|]. unfold definite in I. unfold outside. destruct (tn_pay n); auto. destruct (is_external ys sym); [destruct I|exact I]. }
        cbn [flat_map defined_names app In] in J. destruct J as [J|[J|[]]]; [apply (taken k "init" HK)|apply (taken k "main" HK)]; cbn [In]; auto.
    + intros x I J. apply in_flat_map in J as (d & ID & J). apply in_map_iff in I as (h & <- & _). destruct (DEF d _ ID J) as [X|[X|(k & HK & E)]].
      * destruct h; discriminate X.
      * destruct h; discriminate X.
      * destruct (helper_word h) as (w & IW & EW). apply (taken k w HK IW). congruence.
  - intros d x I D. destruct (DEF d x I D) as [->|[->|(k & HK & <-)]]; [exact (proj2 (bh_headers _ _ _ _ BH))|exact (proj1 (bh_headers _ _ _ _ BH))|exact (proj1 (bh_taken _ _ _ _ BH k HK))].
  - intros s t f ps lb s' q t' l' i I.
    assert (FF : f = u "init" \/ exists n k ks g, In n l /\ tn_pay n = XProto k ks /\ is_fun env k f g).
    { unfold ds in I. apply in_app_iff in I as [I|[I|[I|[I|[]]]]].
      - destruct (func_from (FProto s t f ps lb) f) as [X|[X|(n & k & ks & g & A & P & F & _)]]; [unfold ds; apply in_or_app; now left|left; eauto|now left| |right; eauto 8].
        exfalso. destruct (cn_from _ _ _ UC _ I) as (n & [(A & (k & y & x0 & v & lb0 & P & V & [(_ & C)|(ce & _ & _ & C)]))|(A & (k & ks & x0 & g & ps0 & P & V & _ & C))]); [discriminate C|discriminate C|].
        destruct C as [(s0 & lb0 & _ & C)|(_ & s0 & b & C)]; [|discriminate C]. inversion C; subst. apply (taken k "main" (fun_hoisted _ _ _ A P)); [now left|]. exact (is_fun_name env _ _ _ V).
      - left. now inversion I.
      - discriminate I.
      - discriminate I. }
    assert (VF : In (FVar s' q t' f l' i) ds -> exists k, hoisted l k /\ isvar k /\ name_of k = f).
    { intro J. destruct (var_from _ _ _ _ _ _ (unit_var _ _ _ _ _ _ J)) as (cx & n & k & y0 & v & HO & P & V & _). exists k. split; [exact (var_hoisted _ _ _ _ HO P)|]. split; [exists f, v; exact V|exact (is_var_name env _ _ _ V)]. }
    destruct FF as [->|(n & k & ks & g & A & P & F)].
    + split; [|split].
      * intro J. destruct (VF J) as (k & HK & _ & E). apply (taken k "init" HK); [right; now left|exact E].
      * intro J. apply in_map_iff in J as (h & E & _). destruct h; discriminate E.
      * exact (proj2 (bh_headers _ _ _ _ BH)).
    + pose proof (fun_hoisted _ _ _ A P) as HK. pose proof (is_fun_name env _ _ _ F) as NX. split; [|split].
      * intro J. destruct (VF J) as (k' & HK' & V' & E). assert (k' = k) by (apply (hoisted_name env l BN); [exact HK'|exact HK|congruence]). subst k'. apply (var_fun env k V'). exists f, g. exact F.
      * intro J. apply in_map_iff in J as (h & E & _). destruct (helper_word h) as (w & IW & EW). apply (taken k w HK IW). congruence.
      * rewrite <- NX. exact (proj1 (bh_taken _ _ _ _ BH k HK)).
Qed.

(** Variables get their first values. *)
Lemma u_const : forall cx n k y o, home l cx n -> tn_pay n = XDef k y -> x_cexpr y = true ->
  typed ys y /\ (forall p, xpart p y -> constant_part p /\ sized p) /\ exists v, eval (start H o) y v (start H o).
Proof.
  intros cx n k y o HO P E. pose proof (home_checked l cx n HO) as C. destruct (FACT n C) as (F1 & _). destruct (F1 _ _ P) as (_ & TY & _).
  destruct (bh_constants _ _ _ _ BH n k y o) as (CP & EV); [|exact P|exact E|].
  - destruct cx as [f|]; [destruct HO as (q & ks & A & T & _ & J); right; exists q; auto|now left].
  - split; [exact TY|]. split; [|exact EV]. intros p Q. split; [exact (CP p Q)|]. apply (bh_sized _ _ _ _ BH n p C). exists y. split; [unfold checked_expr; now rewrite P|exact Q].
Qed.
Definition first_ok (d : cdef) (v : cval H) : Prop := match d with
  | FVar _ _ _ x _ (Some _) => forall k v', name_of k = x -> starts H env l k v' -> v = in_c H v'
  | _ => True end.
Lemma u_first : forall o s q t x lb i, In (FVar s q t x lb i) ds0 -> exists v, first_value H M hs ds t i o v /\ first_ok (FVar s q t x lb i) v.
Proof.
  intros o s q t x lb i I. destruct (var_from _ _ _ _ _ _ I) as (cx & n & k & y & v & HO & P & V & -> & C). pose proof (bh_void _ _ _ _ BH k x v V) as NV.
  destruct C as [(C & _ & ->)|(ce & S0 & C & _ & ->)].
  - destruct (zero H (c_type (v_type v))) as [z|] eqn:Z; [|destruct (v_type v); try discriminate Z; now elim NV]. exists z. split; [exact Z|exact Logic.I].
  - assert (E : x_cexpr y = true). { pose proof (u_ini n k y (home_checked l cx n HO) P) as IN. apply (initial_one env k _ true IN). exists x, v. auto. }
    destruct (u_const cx n k y o HO P E) as (TY & CP & v0 & EV). destruct (const_expr H env M hs ds NA y CP TY _ _ _ EV) as (_ & _ & DET & CE).
    destruct (CE ce S0) as (K & _ & CV). destruct (CV (mkcstate H (fun _ => None) [] o) eq_refl) as (w & EW & RP).
    assert (VT : v_type v = x_ty y). { destruct (FACT n (home_checked l cx n HO)) as (F1 & _). destruct (F1 _ _ P) as (_ & _ & _ & VT). rewrite <- VT. symmetry. exact (is_var_type env k x v V). }
    exists (in_c H v0). split.
    + cbn [first_value]. split; [exact K|]. exists w. split; [exact EW|]. apply (rep_convert H y); [exact RP| |exact NV]. rewrite VT. exact (eval_types H ys y _ _ _ EV TY).
    + cbn [first_ok]. intros k' v' NK (cx' & n' & y' & HO' & P' & _ & EV').
      assert (k' = k). { apply (hoisted_name env l (bh_names _ _ _ _ BH)); [exact (var_hoisted _ _ _ _ HO' P')|exact (var_hoisted _ _ _ _ HO P)|]. rewrite NK. symmetry. exact (is_var_name env _ _ _ V). }
      subst k'. assert (y = y') as <- by exact (home_one l ND _ _ _ _ _ _ _ HO P HO' P'). f_equal. symmetry. exact (DET _ _ _ (EV' (start H o))).
Qed.

Lemma top_made : forall cx n k y, home l cx n -> tn_pay n = XDef k y -> exists d, In d ds0 /\ var_made env n d.
Proof.
  intros [f|] n k y HO P; cbn [home] in HO; [|exact (cn_vars _ _ _ u_contains n k y HO P)].
  destruct HO as (q & ks & A & T & Q & J). destruct (FACT q (ic_here _ _ A)) as (_ & F2 & _). destruct (F2 _ _ Q) as (_ & x & g & F).
  destruct (cn_funs _ _ _ u_contains q f ks x g A Q F) as (ps & lb & _ & _ & B & _). destruct (f_external g) eqn:E.
  - rewrite (WX q f ks x g (ic_here _ _ A) Q F E) in J. destruct J.
  - destruct (B eq_refl) as (s & b & d1 & _ & _ & X). exact (X n k y J P).
Qed.

Lemma unit_starts : forall o, exists g, globals H M hs ds o ds g /\ R H env l None [] (start H o) (mkcstate H g [[]] o).
Proof.
  intro o. destruct (globals_make H M hs ds o first_ok ds) as (g & G1 & G2 & G3).
  { intros s q t x lb i I. exact (u_first o s q t x lb i (unit_var _ _ _ _ _ _ I)). }
  assert (CELL : forall cx n k y, home l cx n -> tn_pay n = XDef k y -> exists x v cl, is_var env k x v /\ g (name_of k) = Some cl /\ k_type H cl = c_type (v_type v) /\
    (k_const H cl = true -> v_const v = true /\ v_cexpr v = Some true) /\ (v_cexpr v = Some true -> forall v', starts H env l k v' -> k_val H cl = in_c H v')).
  { intros cx n k y HO P. destruct (top_made cx n k y HO P) as (d & ID & (k0 & y0 & x & v & lb & P0 & V & D)). assert (k0 = k /\ y0 = y) as (-> & ->) by (split; congruence).
    assert (NX : name_of k = x) by exact (is_var_name env _ _ _ V). assert (NN : g x <> None).
    { destruct D as [(_ & D)|(ce & _ & _ & D)]; rewrite D in ID; (eapply G3; unfold ds; apply in_or_app; left; exact ID). }
    destruct (g x) as [cl|] eqn:GX; [|now elim NN]. destruct (G2 x cl GX) as (s' & q' & t' & l' & i' & v' & I' & -> & QV).
    destruct (var_from _ _ _ _ _ _ (unit_var _ _ _ _ _ _ I')) as (cx' & n' & k' & y' & v2 & HO' & P' & V' & ET & C).
    assert (k' = k). { apply (hoisted_name env l (bh_names _ _ _ _ BH)); [exact (var_hoisted _ _ _ _ HO' P')|exact (var_hoisted _ _ _ _ HO P)|]. rewrite NX. exact (is_var_name env _ _ _ V'). }
    subst k'. destruct (is_var_one env _ _ _ _ _ V V') as (_ & <-). exists x, v, (mkcell H q' t' v'). split; [exact V|]. split; [rewrite NX; exact GX|]. split; [exact ET|]. cbn [k_const k_val]. split.
    - intro Q. destruct C as [(_ & -> & _)|(ce & _ & C & -> & _)]; [discriminate Q|auto].
    - intros CE v0 SV. destruct C as [(C & _)|(ce & _ & _ & _ & ->)]; [congruence|]. exact (QV k v0 NX SV). }
  exists g. split; [exact G1|]. constructor; cbn [c_frames c_out c_glob start r_glob r_loc r_funs r_out].
  - discriminate.
  - reflexivity.
  - split; [reflexivity|]. intros k X. now elim X.
  - intros k V T. apply (hoisted_is l u_pt) in T as [(cx & n & y & HO & P)|(n & ks & A & P)].
    + destruct (CELL cx n k y HO P) as (x & v & cl & VV & GX & KT & KC & _). exists cl. split; [exact GX|]. split; [rewrite (is_var_type env _ _ _ VV); exact KT|].
      intro Q. destruct (KC Q) as (Q1 & Q2). split; [rewrite (is_var_mutable env _ _ _ VV), Q1; reflexivity|exists x, v; auto].
    + exfalso. apply (var_fun env k V). exact (proj2 (proj1 (proj2 (FACT n (ic_here _ _ A))) _ _ P)).
  - intros k v _ X. discriminate X.
  - intros f k v X. discriminate X.
  - intros k v SV _. pose proof SV as (cx & n & y & HO & P & (x0 & v0 & V0 & CE) & _). destruct (CELL cx n k y HO P) as (x & v1 & cl & VV & GX & _ & _ & KV).
    destruct (is_var_one env _ _ _ _ _ V0 VV) as (_ & <-). exists cl. split; [exact GX|]. exact (KV CE v SV).
  - intros k [].
  - intros x X. now elim X.
  - intros k ps body X. discriminate X.
Qed.

Lemma wrap32_twice : forall z, wrap32 (wrap32 z) = wrap32 z.
Proof. intro z. unfold wrap32. rewrite Z.sub_add. rewrite Z.mod_mod by (intro X; discriminate X). reflexivity. Qed.

Theorem unit_runs : forall o code o', exits H ys (c_exact1 H) (c_exact2 H) l o code o' -> c_exits H M hs ds o (wrap32 code) o'.
Proof.
  intros o code o' (out & s' & EX & OUT & RES). split; [exact u_distinct|]. destruct (unit_starts o) as (g & G & RR).
  pose proof (proj1 (proj2 (proj2 (simulation H env M l hs ds NA LA BH ND u_pt u_ini u_fn BODY))) _ _ _ _ EX None true [] _ cs ds0 SC ST RR) as (co & c' & new & RUN & OR & RE & _).
  assert (INIT : exists co2, cexec H M hs ds (mkcstate H g [[]] o) (cs ++ [CReturn (Some (CNum (u "0")))]) co2 c' /\ call_value H TyInt co2 = Some (VI H CInt (wrap32 code))).
  { destruct RES as [(-> & ->)| ->]; destruct co as [| | |[w|]]; cbn [orel] in OR; try contradiction.
    - exists (CReturned H (Some (VI H CInt 0))). split; [|reflexivity]. apply (cexec_app H M hs ds _ _ _ _ _ _ _ RUN). constructor. constructor. constructor. reflexivity.
    - destruct OR as (x & RP & _). destruct RP as (t & -> & _). exists (CReturned H (Some (VI H t code))). split; [|reflexivity].
      apply (cexec_app H M hs ds _ _ _ _ _ _ _ RUN). apply ca_jump. discriminate. }
  destruct INIT as (co2 & RI & CV).
  assert (AO : forall c, any_order H c c []) by (intro c; split; [cbn; lia|intros e x []]).
  assert (CI : ceval H M hs ds (mkcstate H g [[]] o) (CCall (CId (u "init")) []) (VI H CInt (wrap32 code)) (leave_function H (mkcstate H g [[]] o) c')).
  { eapply cv_call with (ps := []) (vs := []) (fr := []) (t := TyInt) (c1 := mkcstate H g [[]] o); [constructor|apply AO|reflexivity| |reflexivity|exact RI|exact CV].
    exists true. unfold ds. apply in_or_app. right. right. now left. }
  exists g. eexists. split; [exact G|]. split.
  - eapply cv_call with (ps := []) (vs := []) (fr := []) (t := TyInt) (c1 := mkcstate H g [] o); [constructor|apply AO|reflexivity| |reflexivity| |].
    + exists false. unfold ds. apply in_or_app. right. right. right. now left.
    + apply cx_result. exact CI.
    + cbn [call_value convert]. now rewrite wrap32_twice.
  - cbn [leave_function c_out]. rewrite (R_out _ _ _ _ _ _ _ RE). exact OUT.
Qed.
End Unit.
