(** What debuggers show for variables of debug builds. *)
From Coq Require Import List Arith NArith ZArith Bool Lia Ascii String.
From Verif Require Import Base Model_Sem Model_Errors Model_Debug Spec_Debug.
Import ListNotations.
Open Scope list_scope.
Open Scope N_scope.

Lemma word_bound : forall m, sound m -> forall n a, word m a n < 256 ^ N.of_nat n.
Proof.
  intros m S. induction n as [|n IH]; intro a; [reflexivity|]. cbn [word]. specialize (IH (a + 1)). specialize (S a).
  rewrite Nat2N.inj_succ, N.pow_succ_r'. lia.
Qed.
Lemma signed_int : forall m a z, sound m -> (- 2 ^ 63 <= z < 2 ^ 63)%Z -> Z.of_N (word m a 8) = (z mod 2 ^ 64)%Z -> signed 8 (word m a 8) = z.
Proof.
  intros m a z S B E. unfold signed. generalize dependent (word m a 8). intros w E.
  change (2 ^ (8 * N.of_nat 8 - 1)) with 9223372036854775808. change (2 ^ (8 * Z.of_nat 8))%Z with 18446744073709551616%Z.
  change (2 ^ 63)%Z with 9223372036854775808%Z in B. change (2 ^ 64)%Z with 18446744073709551616%Z in E.
  assert (D : (z mod 18446744073709551616 = z \/ z mod 18446744073709551616 = z + 18446744073709551616 /\ z < 0)%Z).
  { destruct (Z_lt_le_dec z 0) as [L|L]; [right|left; apply Z.mod_small; lia]. split; [|exact L].
    rewrite <- (Z.mod_add z 1) by lia. rewrite Z.mul_1_l. apply Z.mod_small. lia. }
  assert (P : (0 <= z mod 18446744073709551616)%Z) by (apply Z.mod_pos_bound; lia).
  destruct (N.ltb_spec w 9223372036854775808) as [L|L]; lia.
Qed.
Lemma string_at_same : forall m a s, string_at m a s -> forall s', string_at m a s' -> s = s'.
Proof.
  intros m. induction 1 as [a Z|a s NZ S IH]; intros s' S'; inversion S'; subst; try congruence. f_equal. now apply IH.
Qed.
Lemma shows_same : forall bytes m a d v, shows bytes m a d v -> forall v', shows bytes m a d v' -> v = v'.
Proof.
  intros bytes m. induction 1; intros v' S'; inversion S'; subst; try reflexivity; try congruence.
  - f_equal. eauto using string_at_same.
  - f_equal. auto.
Qed.
Lemma not_char : forall t, is_char (type_to_llvm_di_type t) = false.
Proof. intros []; reflexivity. Qed.
Lemma shown : forall bytes m a t v, whole_bytes bytes -> sound m -> holds m a t v -> bytes 1 = 1%nat \/ ~ about_bool t ->
  shows bytes m a (type_to_llvm_di_type t) v.
Proof.
  intros bytes m a t v W S O B.
  assert (B64 : bytes 64 = 8%nat) by exact (W 8%nat). assert (B32 : bytes 32 = 4%nat) by exact (W 4%nat).
  induction O; cbn [type_to_llvm_di_type].
  - destruct B as [B|B]; [|destruct (B I)].
    replace b with (negb (word m a (bytes 1) =? 0)); [constructor|]. rewrite B. cbn [word]. rewrite H. now destruct b.
  - replace z with (signed (bytes 64) (word m a (bytes 64))); [constructor|]. rewrite B64. now apply signed_int.
  - subst w. rewrite <- B64. constructor.
  - subst c. rewrite <- B32. constructor.
  - apply sh_string; [reflexivity|]. now rewrite B64.
  - apply sh_pointer; [apply not_char|]. rewrite B64. apply IHO. exact B.
Qed.
Lemma described : forall t, t <> TVoid -> type_to_di_type t = Some (type_to_llvm_di_type t).
Proof. intros []; try reflexivity. intro N. now destruct N. Qed.
Lemma called_name : forall t, called (type_to_llvm_di_type t) = type_name t.
Proof. intros []; reflexivity. Qed.
Lemma name_inj : forall t t', type_name t = type_name t' -> t = t'.
Proof.
  induction t; destruct t'; intro E; try reflexivity; try discriminate E. cbn [type_name] in E. injection E as E. f_equal. now apply IHt.
Qed.
Lemma di_inj : forall t t', type_to_di_type t = type_to_di_type t' -> t = t'.
Proof.
  intros t t' E. destruct (ty_eqb t TVoid) eqn:V.
  - destruct t; try discriminate V. destruct t'; try reflexivity; discriminate E.
  - destruct (ty_eqb t' TVoid) eqn:V'.
    + destruct t'; try discriminate V'. destruct t; try reflexivity; discriminate E.
    + rewrite !described in E by (intros ->; discriminate). injection E as E. apply name_inj. now rewrite <- !called_name, E.
Qed.

(** * Theorems *)

(** Whatever a variable holds is what a debugger shows, and nothing else is, under the name of
    its Skull type. For Bools this takes an LLVM that rounds sizes up. *)
Theorem debuggers_show : forall bytes m a t v, whole_bytes bytes -> sound m -> holds m a t v -> bytes 1 = 1%nat \/ ~ about_bool t ->
  exists d, type_to_di_type t = Some d /\ called d = type_name t /\ forall v', shows bytes m a d v' <-> v' = v.
Proof.
  intros bytes m a t v W S O B. exists (type_to_llvm_di_type t). split; [|split].
  - apply described. intros ->. inversion O.
  - apply called_name.
  - pose proof (shown _ _ _ _ _ W S O B) as X. intro v'. split; [|now intros ->]. intro Y. exact (eq_sym (shows_same _ _ _ _ _ X _ Y)).
Qed.
Print Assumptions debuggers_show.

(** Functions: the return type, then the parameters in their order. Signatures that differ are
    described differently. *)
Theorem signatures_are_described : forall r ps,
  hd_error (di_param_types r ps) = Some (type_to_di_type r)
  /\ List.length (di_param_types r ps) = S (List.length ps)
  /\ (forall i p, nth_error ps i = Some p -> nth_error (di_param_types r ps) (S i) = Some (type_to_di_type p))
  /\ (forall r' ps', di_param_types r ps = di_param_types r' ps' -> r = r' /\ ps = ps').
Proof.
  intros r ps. split; [reflexivity|]. unfold di_param_types. split; [|split].
  - cbn [List.length]. f_equal. induction ps; cbn; congruence.
  - cbn [nth_error]. induction ps as [|q ps IH]; intros [|i] p E; try discriminate E; cbn in *; [now injection E as ->|now apply IH].
  - intros r' ps' E. injection E as E1 E2. split; [now apply di_inj|]. revert ps' E2.
    induction ps as [|q ps IH]; intros [|q' ps'] E; try discriminate E; [reflexivity|]. cbn in E. injection E as Q E. f_equal; [now apply di_inj|now apply IH].
Qed.
Print Assumptions signatures_are_described.

(** * Examples *)

(** At 16 an Int -2, at 32 a reference to it, at 48 a Str "hi" that lies at 64, at 72 a true Bool. *)
Definition a_memory : memory := fun a =>
  if a =? 16 then 254 else if (16 <? a) && (a <? 24) then 255
  else if a =? 32 then 16 else if a =? 48 then 64 else if a =? 64 then 104 else if a =? 65 then 105 else if a =? 72 then 1 else 0.
Lemma a_memory_sound : sound a_memory.
Proof. intro a. unfold a_memory. repeat match goal with |- context [if ?b then _ else _] => destruct b end; reflexivity. Qed.
Lemma up_whole : whole_bytes round_up.
Proof. intro k. unfold round_up. rewrite N.mul_comm, N.div_add_l by discriminate. change (7 / 8) with 0. rewrite N.add_0_r. apply Nat2N.id. Qed.
Lemma down_whole : whole_bytes round_down.
Proof. intro k. unfold round_down. rewrite N.mul_comm, N.div_mul by discriminate. apply Nat2N.id. Qed.

Example debuggers_show_ex :
  holds a_memory 32 (TRef TInt) (VRef (VInt (-2))) /\ shows round_down a_memory 32 (type_to_llvm_di_type (TRef TInt)) (VRef (VInt (-2)))
  /\ holds a_memory 48 TStr (VStr (u "hi")) /\ shows round_down a_memory 48 (type_to_llvm_di_type TStr) (VStr (u "hi"))
  /\ holds a_memory 72 TBool (VBool true) /\ shows round_up a_memory 72 (type_to_llvm_di_type TBool) (VBool true).
Proof.
  assert (HI : string_at a_memory 64 (u "hi")).
  { apply (sa_char a_memory 64 [105]); [discriminate|]. apply (sa_char a_memory 65 []); [discriminate|]. now apply sa_end. }
  assert (A : holds a_memory 32 (TRef TInt) (VRef (VInt (-2)))).
  { constructor. change (word a_memory 32 8) with 16. constructor; [lia|reflexivity]. }
  assert (B : holds a_memory 48 TStr (VStr (u "hi"))) by (constructor; exact HI).
  assert (C : holds a_memory 72 TBool (VBool true)) by now constructor.
  split; [exact A|]. split; [apply shown; [exact down_whole|exact a_memory_sound|exact A|right; now intros []]|].
  split; [exact B|]. split; [apply shown; [exact down_whole|exact a_memory_sound|exact B|right; now intros []]|].
  split; [exact C|]. apply shown; [exact up_whole|exact a_memory_sound|exact C|now left].
Qed.

Example signatures_are_described_ex : di_param_types TVoid [TInt; TRef TRune] =
  [None; Some (DBasic (u "Int") 64 DW_ATE_signed); Some (DPointer (DBasic (u "Rune") 32 DW_ATE_UTF) 64 (u "&Rune"))].
Proof. reflexivity. Qed.

(** Bools are said to be one bit wide. Where LLVM drops the bits that do not make a byte, a
    debugger reads nothing and shows false for a variable that is true. *)
Theorem debuggers_show_refuted : exists m a d, sound m /\ holds m a TBool (VBool true) /\ type_to_di_type TBool = Some d
  /\ whole_bytes round_down /\ forall v, shows round_down m a d v -> v = VBool false.
Proof.
  exists a_memory, 72, (type_to_llvm_di_type TBool). split; [exact a_memory_sound|]. split; [now constructor|]. split; [reflexivity|].
  split; [exact down_whole|]. intros v S. inversion S; subst. reflexivity.
Qed.
Print Assumptions debuggers_show_refuted.
