(** Properties of the helper functions that generated programs call. *)
From Coq Require Import List NArith ZArith Bool Lia String.
From Verif Require Import Base Spec_Run Model_Helpers Proof_Helpers.
Import ListNotations.
Open Scope Z_scope.

(** C31. For positive exponents the helper returns the power, and runs into an overflow
    exactly if the power does not fit. *)
Theorem int_pow_is_power : forall base exp, in64 base = true -> 1 <= exp ->
  (in64 (base ^ exp) = true -> int_pow base exp = Some (Ok (base ^ exp))) /\
  (in64 (base ^ exp) = false -> int_pow base exp = Some UB).
Proof.
  intros base exp B E. split; [now apply int_pow_value|]. intro F. unfold int_pow.
  destruct (pow_loop_ends (Z.to_nat exp) 1 exp base base) as (x & X); [lia|]. rewrite X. destruct x as [z|]; [|reflexivity].
  assert (P := pow_loop_ok (Z.to_nat exp) 1 exp base z). rewrite Z.pow_1_r in P. destruct P as (_ & Q); try lia; [assumption|].
  destruct (Z.eq_dec 1 exp) as [<-|NE]; [rewrite Z.pow_1_r in F; congruence|]. rewrite Q in F by lia. discriminate F.
Qed.
Print Assumptions int_pow_is_power.

Example int_pow_is_power_ex : int_pow (-2) 63 = Some (Ok (- 2 ^ 63)) /\ int_pow (-3) 3 = Some (Ok (-27)) /\ int_pow 2 63 = Some UB /\
  int_pow 0 5 = Some (Ok 0).
Proof. repeat split; vm_compute; reflexivity. Qed.

(** For the exponent zero it returns the base. *)
Theorem int_pow_is_power_refuted : exists base, in64 base = true /\ in64 (base ^ 0) = true /\ int_pow base 0 <> Some (Ok (base ^ 0)).
Proof. exists 7. repeat split. vm_compute. discriminate. Qed.
Print Assumptions int_pow_is_power_refuted.

(** C50. The string helper says whether two strings are the same. *)
Theorem strcmp_is_equality : forall a b, ~ In 0%N a -> ~ In 0%N b -> strcmp a b = true <-> a = b.
Proof. intros a b A B. rewrite strcmp_equal by assumption. apply text_eqb_eq. Qed.
Print Assumptions strcmp_is_equality.

Example strcmp_is_equality_ex : strcmp (u "skull") (u "skull") = true /\ strcmp (u "skull") (u "skulls") = false /\
  strcmp (u "skulls") (u "skull") = false /\ strcmp (u "") (u "") = true /\ strcmp (u "a") (u "b") = false.
Proof. repeat split; vm_compute; reflexivity. Qed.
