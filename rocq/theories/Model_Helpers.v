(** The helper functions that are part of generated programs: `_int_pow` and `_strcmp`. The
    C text is in skull/codegen/c/write.c:96-121; skull/shim.ll has the same loops for the
    LLVM back end. *)
From Coq Require Import List NArith ZArith Bool.
From Verif Require Import Base Spec_Run.
Import ListNotations.
Open Scope Z_scope.

(** A product of two int64_t; overflow is undefined (C11 6.5p5, and `mul nsw` at
    skull/shim.ll:100). *)
Definition mul64 (a b : Z) : res Z := if in64 (a * b) then Ok (a * b) else UB.

(** The loop of _int_pow, skull/codegen/c/write.c:119 and skull/shim.ll:91-109: `i` counts
    from 1 up to `exp`. `fuel` bounds the rounds; None is never reached with enough fuel. *)
Fixpoint pow_loop (fuel : nat) (i exp base result : Z) : option (res Z) :=
  if i <? exp then
    match fuel with
    | O => None
    | S f => match mul64 result base with Ok r => pow_loop f (i + 1) exp base r | UB => Some UB end
    end
  else Some (Ok result).

(** _int_pow, skull/codegen/c/write.c:116-121 and skull/shim.ll:81-113. *)
Definition int_pow (base exp : Z) : option (res Z) := pow_loop (Z.to_nat exp) 1 exp base base.

(** `*s` and `s + 1` for a string in memory; behind its characters is a 0. *)
Definition first_char (s : text) : N := match s with [] => 0%N | c :: _ => c end.

(** _strcmp, skull/codegen/c/write.c:96-107 and skull/shim.ll:3-77. *)
Fixpoint strcmp (a b : text) {struct a} : bool :=
  match a with
  | [] => (first_char b =? 0)%N
  | c :: a' =>
      if negb (c =? 0)%N && negb (first_char b =? 0)%N then
        if negb (c =? first_char b)%N then false else strcmp a' (tl b)
      else (c =? 0)%N && (first_char b =? 0)%N
  end.
