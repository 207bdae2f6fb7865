(** Modules of accepted programs are valid. *)
From Coq Require Import List Arith NArith ZArith Bool Lia.
From Verif Require Proof_Sem8.
From Verif Require Import Base Model_Literal Model_Parse Spec_Parse Model_Sem Spec_Sem Spec_Sem2 Spec_Run Spec_IR Model_LLVM Spec_LLVM Spec_Loops Spec_Safe Spec_Valid
  Proof_Sem2 Proof_LLVM11 Proof_Debug Proof_Order Proof_Safe2 Proof_Safe7 Proof_Valid.
Import ListNotations.
Open Scope list_scope.
Open Scope nat_scope.

Lemma nodup_part : forall A (f : tnode -> list A) n l, In n l -> NoDup (flat_map f l) -> NoDup (f n).
Proof.
  intros A f n l. induction l as [|m l IH]; intros I ND; [destruct I|]. cbn [flat_map] in ND. destruct I as [->|I].
  - clear - ND. induction (f n) as [|x r IHr]; [constructor|]. cbn [app] in ND. inversion ND as [|y s N1 N2]; subst. constructor; [intro Q; apply N1; apply in_or_app; now left|now apply IHr].
  - apply IH; [exact I|]. clear - ND. induction (f m) as [|x r IHr]; [exact ND|]. cbn [app] in ND. inversion ND as [|y s N1 N2]; subst. now apply IHr.
Qed.
Lemma nodup_below : forall n l, in_checked n l -> NoDup (flat_map numbers l) -> NoDup (numbers_here n).
Proof.
  intros n l C. induction C as [l I|y l I C IH]; intro ND; apply (nodup_part _ numbers _ l I) in ND.
  - destruct n as [t k p c]. cbn [numbers] in ND. clear - ND. induction (numbers_here (mktnode t k p c)) as [|x r IHr]; [constructor|].
    cbn [app] in ND. inversion ND as [|y s N1 N2]; subst. constructor; [intro Q; apply N1; apply in_or_app; now left|now apply IHr].
  - apply IH. destruct y as [t k p c]. cbn [numbers tn_child] in *. clear - ND. induction (numbers_here (mktnode t k p c)) as [|x r IHr]; [exact ND|].
    cbn [app] in ND. inversion ND as [|y s N1 N2]; subst. now apply IHr.
Qed.

Theorem modules_valid : forall H fold w src ts tree s l debug M, accepted w src ts tree s l -> no_call_blocks tree -> few_arguments tree -> flat tree -> has_statements tree ->
  no_references l -> comparable l -> ints_returned tree l -> nothing_returned (s_syms s) l -> spaces_open l -> values_returned l -> folds_typed H fold ->
  gen_module H fold (s_syms s) debug l = Ok M -> valid H (s_syms s) M.
Proof.
  intros H fold w src ts tree s l debug M A NC FA FL HS NR C IR NO SO VR FT E. destruct (rules_sig H _ _ _ _ _ _ A NC FA FL HS NR C IR NO) as (s1 & G & L & EQ & FB).
  destruct (accepted_seq _ _ _ _ _ _ A) as (a & z & SQ). pose proof (Proof_Sem8.numbers_l _ _ _ _ _ _ A) as ND. unfold gen_module in E.
  destruct (gen_tree H fold (debug_syms (s_syms s) debug l) debug l (setup_llvm_state H)) as [(g, fl)|] eqn:GT; [|discriminate E]. cbn [bind] in E. injection E as <-.
  refine (tree_valid H fold (s_syms s) (debug_syms (s_syms s) debug l) debug (sig s1) FT _ _ l a z G L g fl GT FB SQ _).
  - intros k t m D. destruct (sig_var _ _ _ _ D) as (v & V & T & K). rewrite <- EQ in V. destruct (syms_var (s_syms s) debug l k v V) as (v' & V' & T' & K'). exists v'. split; [exact V'|]. split; [congruence|].
    intros ->. rewrite K', K. reflexivity.
  - intros k ps r D. unfold sig in D. rewrite <- EQ in D. destruct (nth_error (s_syms s) k) as [y|] eqn:Y; [|discriminate D]. destruct (y_kind y) as [v|f|t|x] eqn:KY; try discriminate D.
    + destruct (N.eqb_spec (N.of_nat (List.length (f_params f))) (f_num f)) as [Q|Q]; [|discriminate D]. injection D as <- <-. exists y, f. split; [reflexivity|]. split; [exact KY|].
      split; [rewrite syms_func; unfold sym_func, deref; rewrite Y; cbn [bind]; now rewrite KY|]. split; [reflexivity|]. split; [reflexivity|]. split; [rewrite <- Q; apply Nnat.Nat2N.id|].
      unfold is_external. now rewrite Y, KY.
    + destruct x; discriminate D.
  - split; [exact SO|]. split; [exact VR|]. intros n k ks I P X. pose proof (nodup_below n l I ND) as NN. unfold numbers_here in NN. rewrite P in NN. inversion NN as [|y r N1 N2]; subst. split; [exact N2|].
    intros p t v J D V. destruct (sig_var _ _ _ _ D) as (v0 & V0 & _ & K0). rewrite <- EQ in V0. destruct (syms_var (s_syms s) debug l p v0 V0) as (v' & V' & _ & K').
    rewrite V in V'. injection V' as <-. rewrite K', K0. cbn [negb andb]. f_equal. unfold loose. destruct debug; [|reflexivity]. cbn [andb]. apply existsb_exists. exists p.
    split; [exact (params_in (s_syms s) l n I k ks p P X J)|apply Nat.eqb_refl].
Qed.
