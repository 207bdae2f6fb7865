(** Model of skull/common/hashtable.c. *)
From Coq Require Import List Arith NArith ZArith Bool Lia.
From Verif Require Import Base Model_Vector.
Import ListNotations.
Open Scope N_scope.

(** MAX_SLOTS, skull/common/hashtable.h:5. *)
Definition max_slots : N := 64.

(** Value of a `char` (signed on the modelled machine) converted to
    `unsigned long long`, skull/common/hashtable.c:28. *)
Definition uchar_ull (c : N) : Z :=
  ((if (c <? 128)%N then Z.of_N c else Z.of_N c - 256) mod 2 ^ 64)%Z.

(** Loop of ht_hash_key from index i on, skull/common/hashtable.c:27-29. *)
Fixpoint hash_loop (key : text) (i : Z) (hash : Z) : Z :=
  match key with
  | [] => hash
  | c :: key' => hash_loop key' (i + 1) ((hash + uchar_ull c * i) mod 2 ^ 64)%Z
  end.

(** ht_hash_key, skull/common/hashtable.c:22-32. *)
Definition ht_hash_key (key : text) : nat :=
  Z.to_nat (hash_loop key 0 0 mod Z.of_N max_slots)%Z.

(** HashItem and the items of one slot (skull/common/hashtable.h:7-10). The vector
    of a slot is modelled by its list of items, which is what Prop_Vector.v
    shows a vector to be; `None` is a slot with no vector yet. Keys are kept by
    pointer in C: the model assumes the key text does not change after it was added. *)
Definition slot := option (list (text * ptr)).

(** HashTable (skull/common/hashtable.h:12-14); `None` is a NULL table. *)
Definition table := option (list slot).

(** make_ht, skull/common/hashtable.c:15-17. *)
Definition make_ht : table := Some (repeat None (N.to_nat max_slots)).

(** The search loop of ht_get, skull/common/hashtable.c:70-76. *)
Fixpoint find_item (items : list (text * ptr)) (key : text) : ptr :=
  match items with
  | [] => 0
  | (k, d) :: items' => if text_eqb k key then d else find_item items' key
  end.

(** ht_get, skull/common/hashtable.c:64-77. *)
Definition ht_get (ht : table) (key : text) : res ptr :=
  match ht with
  | None => Ok 0
  | Some slots =>
      match nth_error slots (ht_hash_key key) with
      | None => UB
      | Some None => Ok 0
      | Some (Some items) => Ok (find_item items key)
      end
  end.

(** Replace one slot (store through `slot`, skull/common/hashtable.c:40-54). *)
Fixpoint set_slot (slots : list slot) (i : nat) (s : slot) : res (list slot) :=
  match slots, i with
  | [], _ => UB
  | _ :: r, O => Ok (s :: r)
  | x :: r, S i' => do r' <- set_slot r i' s; Ok (x :: r')
  end.

(** ht_add, skull/common/hashtable.c:37-57. *)
Definition ht_add (ht : table) (key : text) (p : ptr) : res (bool * table) :=
  if p =? 0 then Ok (false, ht) else
  match ht with
  | None => Ok (false, ht)
  | Some slots =>
      do old <- ht_get ht key;
      if negb (old =? 0) then Ok (false, ht) else
      match nth_error slots (ht_hash_key key) with
      | None => UB
      | Some s =>
          let items := match s with None => [] | Some l => l end in
          do slots' <- set_slot slots (ht_hash_key key) (Some (items ++ [(key, p)]));
          Ok (true, Some slots')
      end
  end.

(** One client call on a table. *)
Inductive hcall := HAdd (k : text) (p : ptr) | HGet (k : text).
(** What the client sees. *)
Inductive hobs := HBool (b : bool) | HPtr (p : ptr).

(** A history of calls on one table. *)
Fixpoint hrun (ht : table) (cs : list hcall) : res (list hobs) :=
  match cs with
  | [] => Ok []
  | HAdd k p :: cs' =>
      do r <- ht_add ht k p; let '(b, ht') := r in
      do os <- hrun ht' cs'; Ok (HBool b :: os)
  | HGet k :: cs' =>
      do p <- ht_get ht k;
      do os <- hrun ht cs'; Ok (HPtr p :: os)
  end.
