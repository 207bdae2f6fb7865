(** Model of skull/common/vector.c. *)
From Coq Require Import List Arith NArith Bool Lia.
From Verif Require Import Base.
Import ListNotations.
Open Scope N_scope.

(** A pointer value; 0 is NULL. Models `void *` (skull/common/vector.h:31-34). *)
Definition ptr := N.

(** A heap block of pointer cells; `None` is a cell never written.
    Models the array behind `elements` (skull/common/vector.h:33). *)
Definition block := list (option ptr).

(** Models `struct Vector` (skull/common/vector.h:30-35); `elements = None` is a
    NULL array. `size_t` is modelled by unbounded numbers: an array of 2^60
    pointers cannot be allocated. *)
Record vec := mkvec {
  v_length : nat;
  v_max : nat;
  v_elements : option block;
  v_frozen : bool }.

(** VECTOR_START_MAX (skull/common/vector.h:5). *)
Definition start_max : nat := 8.

(** Write one cell of a block, undefined outside of it (C array store,
    skull/common/vector.c:22). *)
Fixpoint store (b : block) (i : nat) (p : ptr) : res block :=
  match b, i with
  | [], _ => UB
  | _ :: b', O => Ok (Some p :: b')
  | c :: b', S i' => do r <- store b' i' p; Ok (c :: r)
  end.

(** Read one cell, undefined outside of the block or when never written (C array
    read, skull/common/vector.c:33,62). *)
Definition load (b : block) (i : nat) : res ptr :=
  match nth_error b i with Some (Some p) => Ok p | _ => UB end.

(** `realloc` of the array: keeps the cells that fit, new ones are not written
    (skull/common/malloc.c:37-42; allocation failure exits and is not modelled). *)
Definition realloc (b : block) (n : nat) : block :=
  firstn n b ++ repeat None (n - length b).

(** make_vector, skull/common/vector.c:39-45. *)
Definition make_vector : vec := mkvec 0 start_max None false.

(** vector_push, skull/common/vector.c:10-24. *)
Definition vector_push (v : vec) (p : ptr) : res vec :=
  if v_frozen v then Ok v else
  let b0 := match v_elements v with
            | None => repeat (Some 0) start_max
            | Some b => b end in
  let grow := (v_max v <=? v_length v)%nat in
  let max1 := if grow then (v_max v * 2)%nat else v_max v in
  let b1 := if grow then realloc b0 max1 else b0 in
  do b2 <- store b1 (v_length v) p;
  Ok (mkvec (S (v_length v)) max1 (Some b2) (v_frozen v)).

(** vector_pop, skull/common/vector.c:29-34; 0 stands for the returned NULL. *)
Definition vector_pop (v : vec) : res (ptr * vec) :=
  match v_elements v, v_length v with
  | None, _ => Ok (0, v)
  | _, O => Ok (0, v)
  | Some b, S n =>
      if v_frozen v then Ok (0, v) else
      do p <- load b n;
      Ok (p, mkvec n (v_max v) (Some b) (v_frozen v))
  end.

(** vector_at, skull/common/vector.c:59-63. *)
Definition vector_at (v : vec) (i : nat) : res ptr :=
  match v_elements v with
  | None => Ok 0
  | Some b => if (v_length v <=? i)%nat then Ok 0 else load b i
  end.

(** vector_freeze, skull/common/vector.c:50-54; returns the array (NULL as `[]`). *)
Definition vector_freeze (v : vec) : block * vec :=
  (match v_elements v with None => [] | Some b => b end,
   mkvec (v_length v) (v_max v) (v_elements v) true).

(** One client call, for histories of calls on one vector. *)
Inductive vcall := VPush (p : ptr) | VPop | VAt (i : nat) | VFreeze.

(** What a client sees of one call: nothing, a pointer, or the array that
    vector_freeze hands out (its first `length` cells, which is what the callers
    use: skull/semantic/func.c, skull/parse/ast_node.c:383-405). *)
Inductive vobs := ONone | OPtr (p : ptr) | OArray (l : list (option ptr)).

(** One call on the model. *)
Definition vstep (v : vec) (c : vcall) : res (vobs * vec) :=
  match c with
  | VPush p => do v' <- vector_push v p; Ok (ONone, v')
  | VPop => do r <- vector_pop v; let '(p, v') := r in Ok (OPtr p, v')
  | VAt i => do p <- vector_at v i; Ok (OPtr p, v)
  | VFreeze => let '(b, v') := vector_freeze v in
               Ok (OArray (firstn (v_length v) b), v')
  end.

(** A history of calls on one vector. *)
Fixpoint vrun (v : vec) (cs : list vcall) : res (list vobs) :=
  match cs with
  | [] => Ok []
  | c :: cs' =>
      do r <- vstep v c; let '(o, v') := r in
      do os <- vrun v' cs'; Ok (o :: os)
  end.
