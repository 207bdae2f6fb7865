(** C programs have one result. *)
From Coq Require Import List Arith NArith ZArith Bool Lia Ascii String.
From Verif Require Import Base Spec_C Spec_CProg Spec_Run Spec_CRun Model_Helpers Proof_CRun9.
Import ListNotations.
Open Scope list_scope.
Open Scope nat_scope.

Lemma u_inj : forall a b, u a = u b -> a = b.
Proof.
  induction a as [|c a IH]; intros [|d b] E; try discriminate E; [reflexivity|]. cbn [u] in E. unfold u in E. cbn [list_ascii_of_string map] in E. injection E as E1 E2.
  assert (c = d). { rewrite <- (ascii_N_embedding c), <- (ascii_N_embedding d). now f_equal. }
  subst d. f_equal. now apply IH.
Qed.

Section One.
Variable H : host.
Variable M : machine H.
Variable hs : list helper.
Variable ds : list cdef.
Local Notation ceval := (ceval H M hs ds).
Local Notation cevals := (cevals H M hs ds).
Local Notation cexec := (cexec H M hs ds).
Local Notation cafter := (cafter H M hs ds).
Hypothesis DN : distinct_names H M hs ds.

Lemma defined_in : forall f t ps b, defined ds f t ps b -> In f (flat_map defined_names ds).
Proof. intros f t ps b (s & I). apply in_flat_map. exists (FFunc s t f ps b). split; [exact I|now left]. Qed.
Lemma not_both : forall h t ps b, In h hs -> defined ds (helper_name h) t ps b -> False.
Proof.
  intros h t ps b I D. destruct DN as (N1 & _). apply defined_in in D. revert N1 D. generalize (flat_map defined_names ds). clear -I.
  induction hs as [|x r IH]; [destruct I|]. intros z N1 D. cbn [map app] in N1. inversion N1 as [|? ? X Y]; subst. destruct I as [->|I]; [|exact (IH I z Y D)].
  apply X. apply in_or_app. now right.
Qed.
Lemma not_elsewhere : forall h t ps lk, In h hs -> elsewhere ds (helper_name h) t ps lk -> False.
Proof.
  intros h t ps lk I (lb & J & _). destruct DN as (_ & _ & _ & D). apply (proj1 (proj2 (D _ _ _ _ _ true true TyInt None None J))). now apply in_map.
Qed.
Lemma defined_one : forall f t ps b t' ps' b', defined ds f t ps b -> defined ds f t' ps' b' -> t' = t /\ ps' = ps /\ b' = b.
Proof.
  intros f t ps b t' ps' b' (s & I) (s' & J). destruct DN as (N1 & _). assert (N2 : NoDup (flat_map defined_names ds)).
  { revert N1. generalize (map helper_name hs). intro a. induction a as [|x a IH]; intro N1; [exact N1|]. inversion N1; subst. now apply IH. }
  assert (E : FFunc s t f ps b = FFunc s' t' f ps' b').
  { clear - I J N2. induction ds as [|d r IH]; [destruct I|]. cbn [flat_map] in N2. destruct I as [->|I]; destruct J as [J|J].
    - exact J.
    - exfalso. cbn [defined_names app] in N2. inversion N2 as [|? ? X Y]; subst. apply X. apply in_flat_map. eexists. split; [exact J|now left].
    - subst d. exfalso. cbn [defined_names app] in N2. inversion N2 as [|? ? X Y]; subst. apply X. apply in_flat_map. eexists. split; [exact I|now left].
    - apply IH; [exact I|exact J|]. revert N2. generalize (defined_names d). intro a. induction a as [|x a IA]; intro N2; [exact N2|]. inversion N2; subst. now apply IA. }
  inversion E; subst. auto.
Qed.
Lemma elsewhere_one : forall f t ps lk t' ps' lk', elsewhere ds f t ps lk -> elsewhere ds f t' ps' lk' -> t' = t /\ map fst ps' = map fst ps /\ lk' = lk.
Proof.
  intros f t ps lk t' ps' lk' (lb & I & -> & _) (lb' & J & -> & _). destruct DN as (_ & A & _). destruct (A _ _ _ _ _ _ I J eq_refl) as (-> & -> & ->). auto.
Qed.

Ltac lookup :=
  match goal with
  | A : ?x = Some _, B : ?x = Some _ |- _ => rewrite A in B; injection B; clear B; intros; subst
  end.

Lemma runs_one :
  (forall c e v c1, ceval c e v c1 -> forall v' c1', ceval c e v' c1' -> v' = v /\ c1' = c1) /\
  (forall c e v c1, cevals c e v c1 -> forall v' c1', cevals c e v' c1' -> v' = v /\ c1' = c1) /\
  (forall c cs o c1, cexec c cs o c1 -> forall o' c1', cexec c cs o' c1' -> o' = o /\ c1' = c1) /\
  (forall c o1 cs o c1, cafter c o1 cs o c1 -> forall o' c1', cafter c o1 cs o' c1' -> o' = o /\ c1' = c1).
Proof.
  apply cruns_ind; intros.
  all: match goal with
       | X : ceval _ _ ?v' _ |- ?v' = _ /\ _ => inversion X; subst; clear X
       | X : cevals _ _ ?v' _ |- ?v' = _ /\ _ => inversion X; subst; clear X
       | X : cexec _ _ ?v' _ |- ?v' = _ /\ _ => inversion X; subst; clear X
       | X : cafter _ _ _ ?v' _ |- ?v' = _ /\ _ => inversion X; subst; clear X
       end.
  all: try (split; congruence).
  all: repeat match goal with
       | A : forall v' c', ceval ?c ?e v' c' -> _, B : ceval ?c ?e _ _ |- _ => apply A in B; destruct B; subst
       | A : forall v' c', cevals ?c ?e v' c' -> _, B : cevals ?c ?e _ _ |- _ => apply A in B; destruct B; subst
       | A : forall v' c', cexec ?c ?e v' c' -> _, B : cexec ?c ?e _ _ |- _ => apply A in B; destruct B; subst
       | A : forall v' c', cafter ?c ?o ?e v' c' -> _, B : cafter ?c ?o ?e _ _ |- _ => apply A in B; destruct B; subst
       | A : u _ = u _ |- _ => apply u_inj in A; subst
       | A : truth H ?v = Some true, B : truth H ?v = Some false |- _ => exfalso; congruence
       | A : ?x = Some ?a, B : ?x = Some ?b |- _ => rewrite A in B; injection B; clear B; intros; subst
       end.
  all: try (split; congruence).
  all: try match goal with A : c_binary_value H _ ?x ?y = Some _ |- _ => destruct x, y; discriminate A end.
  - assert (h0 = h) by (destruct h, h0; (reflexivity || discriminate)). subst h0. split; [congruence|reflexivity].
  - exfalso. eapply not_both; eassumption.
  - exfalso. eapply not_elsewhere; eassumption.
  - exfalso. eapply not_both; eassumption.
  - match goal with A : defined _ f t ps b, B : defined _ f _ _ _ |- _ => destruct (defined_one _ _ _ _ _ _ _ A B) as (-> & -> & ->) end. lookup.
    match goal with A : forall o c', cexec _ _ o c' -> _, B : cexec _ _ _ c4 |- _ => apply A in B as (-> & ->) end. split; congruence.
  - exfalso. match goal with A : elsewhere _ _ _ _ _ |- _ => destruct A as (? & _ & _ & X) end. eapply X; eassumption.
  - exfalso. eapply not_elsewhere; eassumption.
  - exfalso. match goal with A : elsewhere _ _ _ _ _ |- _ => destruct A as (? & _ & _ & X) end. eapply X; eassumption.
  - match goal with A : elsewhere _ f t ps link, B : elsewhere _ f _ _ _ |- _ => destruct (elsewhere_one _ _ _ _ _ _ _ A B) as (-> & EP & ->) end. rewrite EP in *. lookup. lookup. auto.
  - exfalso. match goal with X : _ \/ _ |- _ => destruct X; discriminate end.
  - exfalso. match goal with X : _ \/ _ |- _ => destruct X; discriminate end.
  - exfalso. match goal with X : _ \/ _ |- _ => destruct X; discriminate end.
  - exfalso. match goal with X : _ \/ _ |- _ => destruct X; discriminate end.
Qed.

Lemma first_value_one : forall t i o v v', first_value H M hs ds t i o v -> first_value H M hs ds t i o v' -> v' = v.
Proof.
  intros t [e|] o v v'; cbn [first_value]; [|congruence]. intros (_ & w & E & C) (_ & w' & E' & C'). destruct (proj1 runs_one _ _ _ _ E _ _ E') as (-> & _). congruence.
Qed.
Lemma globals_one : forall o l g g', globals H M hs ds o l g -> globals H M hs ds o l g' -> g' = g.
Proof.
  intros o l g g' G. revert g'. induction G as [|s q t x lb i r g v G IH FV|d r g NV G IH]; intros g' G'; inversion G' as [|s0 q0 t0 x0 lb0 i0 r0 g0 v0 G0 FV0|d0 r0 g0 NV0 G0]; subst.
  - reflexivity.
  - rewrite (IH _ G0), (first_value_one _ _ _ _ _ FV FV0). reflexivity.
  - exfalso. exact (NV0 _ _ _ _ _ _ eq_refl).
  - exfalso. exact (NV _ _ _ _ _ _ eq_refl).
  - now apply IH.
Qed.
End One.

Lemma c_exits_one : forall H M hs ds o code o1 code' o1', c_exits H M hs ds o code o1 -> c_exits H M hs ds o code' o1' -> code' = code /\ o1' = o1.
Proof.
  intros H M hs ds o code o1 code' o1' (DN & g & c & G & E & <-) (_ & g' & c' & G' & E' & <-). pose proof (globals_one _ _ _ _ DN _ _ _ _ G G') as ->.
  destruct (proj1 (runs_one _ _ _ _ DN) _ _ _ _ E _ _ E') as (X & ->). split; [congruence|reflexivity].
Qed.
