(** What a debugger shows for a variable: how values lie in memory on the machines that Skull is
    for (64 bits, the low byte first), and how a debugger reads memory by a DWARF description. *)
From Coq Require Import List Arith NArith ZArith Bool.
From Verif Require Import Base Model_Sem Model_Errors Model_Debug.
Import ListNotations.
Open Scope list_scope.
Open Scope N_scope.

Definition memory := N -> N.
Definition sound (m : memory) : Prop := forall a, m a < 256.

(** The number in the [n] bytes from [a] on. *)
Fixpoint word (m : memory) (a : N) (n : nat) : N :=
  match n with O => 0 | S n => m a + 256 * word m (a + 1) n end.
(** The number in [n] bytes as two's complement. *)
Definition signed (n : nat) (w : N) : Z :=
  if w <? 2 ^ (8 * N.of_nat n - 1) then Z.of_N w else (Z.of_N w - 2 ^ (8 * Z.of_nat n))%Z.

(** The bytes of a string, up to the first zero. *)
Inductive string_at (m : memory) : N -> text -> Prop :=
| sa_end : forall a, m a = 0 -> string_at m a []
| sa_char : forall a s, m a <> 0 -> string_at m (a + 1) s -> string_at m a (m a :: s).

(** Values; a float is its 64 bits. *)
Inductive val := VBool (b : bool) | VInt (z : Z) | VFloat (bits : N) | VRune (c : N) | VStr (s : text) | VRef (v : val).

(** * Values in memory: the value of type [t] at address [a]

    The data layout of LLVM for i1, i64, double, i32, i8* and pointers. *)
Inductive holds (m : memory) : N -> ty -> val -> Prop :=
| ho_bool : forall a b, m a = (if b : bool then 1 else 0) -> holds m a TBool (VBool b)
| ho_int : forall a z, (- 2 ^ 63 <= z < 2 ^ 63)%Z -> Z.of_N (word m a 8) = (z mod 2 ^ 64)%Z -> holds m a TInt (VInt z)
| ho_float : forall a w, word m a 8 = w -> holds m a TFloat (VFloat w)
| ho_rune : forall a c, word m a 4 = c -> holds m a TRune (VRune c)
| ho_str : forall a s, string_at m (word m a 8) s -> holds m a TStr (VStr s)
| ho_ref : forall a t v, holds m (word m a 8) t v -> holds m a (TRef t) (VRef v).

(** * What a debugger shows at address [a], by a description

    The size of a description is in bits; DWARF has bytes. [bytes] is the conversion that LLVM
    does. A pointer to characters is shown as a string. *)
Definition is_char (d : dtype) : bool := match d with DBasic _ _ DW_ATE_signed_char => true | _ => false end.
Inductive shows (bytes : N -> nat) (m : memory) : N -> dtype -> val -> Prop :=
| sh_bool : forall a n k, shows bytes m a (DBasic n k DW_ATE_boolean) (VBool (negb (word m a (bytes k) =? 0)))
| sh_signed : forall a n k, shows bytes m a (DBasic n k DW_ATE_signed) (VInt (signed (bytes k) (word m a (bytes k))))
| sh_float : forall a n k, shows bytes m a (DBasic n k DW_ATE_float) (VFloat (word m a (bytes k)))
| sh_utf : forall a n k, shows bytes m a (DBasic n k DW_ATE_UTF) (VRune (word m a (bytes k)))
| sh_string : forall a d k n s, is_char d = true -> string_at m (word m a (bytes k)) s -> shows bytes m a (DPointer d k n) (VStr s)
| sh_pointer : forall a d k n v, is_char d = false -> shows bytes m (word m a (bytes k)) d v -> shows bytes m a (DPointer d k n) (VRef v).

(** Whole bytes are converted right. What becomes of a single bit depends on the version of LLVM. *)
Definition whole_bytes (bytes : N -> nat) : Prop := forall k, bytes (8 * N.of_nat k) = k.
Definition round_up (bits : N) : nat := N.to_nat ((bits + 7) / 8).
Definition round_down (bits : N) : nat := N.to_nat (bits / 8).

(** Types with a Bool in them. *)
Fixpoint about_bool (t : ty) : Prop := match t with TBool => True | TRef t => about_bool t | _ => False end.

Definition called (d : dtype) : text := match d with DBasic n _ _ => n | DPointer _ _ n => n end.
