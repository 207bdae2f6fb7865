(** C36: the growable array behaves like a list. *)
From Coq Require Import List NArith.
From Verif Require Import Base Model_Vector Spec_Vector Proof_Vector.
Import ListNotations.
Open Scope N_scope.

(** Any history of calls on a new vector is free of undefined behaviour and shows
    the client exactly what the same calls on a list would show. *)
Theorem vector_behaves_like_list :
  forall cs : list vcall, vrun make_vector cs = Ok (lrun ([], false) cs).
Proof. exact vector_is_list_l. Qed.
Print Assumptions vector_behaves_like_list.

(** A history that grows the array past its first allocation (8 cells), reads out
    of range, pops and freezes. *)
Example vector_behaves_like_list_ex :
  vrun make_vector
    (map VPush [1;2;3;4;5;6;7;8;9] ++ [VAt 8; VAt 9; VPop; VAt 8; VFreeze; VPush 7; VPop; VAt 7])
  = Ok (repeat ONone 9 ++
        [OPtr 9; OPtr 0; OPtr 9; OPtr 0; OArray (map Some [1;2;3;4;5;6;7;8]); ONone; OPtr 0; OPtr 8]).
Proof. vm_compute. reflexivity. Qed.
