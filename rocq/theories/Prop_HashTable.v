(** C37: the hash table is a first-writer-wins map. *)
From Coq Require Import List NArith String.
From Verif Require Import Base Model_Vector Model_HashTable Spec_HashTable Proof_HashTable.
Import ListNotations.
Open Scope N_scope.

(** Every history of insertions and lookups on a new table is free of undefined
    behaviour, and each call returns what the past calls dictate. *)
Theorem hashtable_is_first_writer_wins_map :
  forall cs : list hcall, hrun make_ht cs = Ok (expected_run [] cs).
Proof. exact ht_is_map_l. Qed.
Print Assumptions hashtable_is_first_writer_wins_map.

(** "ab" and "cb" collide in the hash (the first character has weight 0), the
    second insertion of "ab" is refused and the byte 200 is a negative `char`. *)
Example hashtable_is_first_writer_wins_map_ex :
  ht_hash_key (u "ab") = ht_hash_key (u "cb") /\
  hrun make_ht [HAdd (u "ab") 5; HAdd (u "cb") 6; HAdd (u "ab") 7; HGet (u "ab"); HGet (u "cb");
                HAdd [65; 200] 9; HGet [65; 200]; HGet (u "zz"); HAdd (u "zz") 0]
  = Ok [HBool true; HBool true; HBool false; HPtr 5; HPtr 6; HBool true; HPtr 9; HPtr 0; HBool false].
Proof. vm_compute. auto. Qed.

(** On a null table every insertion is refused and every lookup finds nothing. *)
Theorem hashtable_null_table_is_empty :
  forall cs, hrun None cs =
    Ok (map (fun c => match c with HAdd _ _ => HBool false | HGet _ => HPtr 0 end) cs).
Proof. exact ht_null_l. Qed.
Print Assumptions hashtable_null_table_is_empty.

Example hashtable_null_table_is_empty_ex :
  hrun None [HAdd (u "a") 3; HGet (u "a")] = Ok [HBool false; HPtr 0].
Proof. reflexivity. Qed.
