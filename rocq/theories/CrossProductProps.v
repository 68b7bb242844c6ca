(* C07: CrossProductRange. *)
From Verif Require Import CInt CrossProductModel CrossProductSpec CrossProductProofs.

(* A ranged for loop runs exactly like the documented nested loop. *)
Theorem C07_iteration_is_nested_loop : forall shape,
  Forall (fun s => 0 <= s <= INT_MAX) shape -> shape <> [] ->
  cp_collect (S (Z.to_nat (volume shape))) (cp_begin shape) = Ok (nested_loop shape).
Proof. exact iterate_spec. Qed.
Print Assumptions C07_iteration_is_nested_loop.

(* The nested loop visits each vector of the box exactly once. *)
Theorem C07_every_vector_once : forall shape,
  (forall v, In v (nested_loop shape) <-> in_box shape v) /\ NoDup (nested_loop shape).
Proof. exact (fun shape => conj (in_nested shape) (nested_nodup shape)). Qed.
Print Assumptions C07_every_vector_once.

Theorem C07_count : forall shape, Forall (fun s => 0 <= s) shape ->
  Z.of_nat (length (nested_loop shape)) = volume shape.
Proof. exact nested_length. Qed.
Print Assumptions C07_count.

(* With no dimensions the nested loop would run its body once; the range is empty. *)
Theorem C07_empty_shape_refuted : exists shape,
  cp_collect 1 (cp_begin shape) = Ok [] /\ nested_loop shape = [[]].
Proof. exact (ex_intro _ [] (conj iterate_nil eq_refl)). Qed.
Print Assumptions C07_empty_shape_refuted.

(* FlatIndex(n) equals begin() incremented n times, up to and including the end. *)
Theorem C07_flat_index_partial : forall shape n,
  Forall (fun s => 0 <= s <= INT_MAX) shape -> Z.of_nat n <= volume shape ->
  cp_eqb (cp_flat_index shape (Z.of_nat n)) (times n cp_incr (cp_begin shape)) = true.
Proof. exact flat_index_spec. Qed.
Print Assumptions C07_flat_index_partial.

(* ... but not for every 64-bit index: an index past the end can denote an
   element again, while incrementing an end iterator stays at the end. *)
Theorem C07_flat_index_refuted :
  exists shape flat, Forall (fun s => 0 <= s <= INT_MAX) shape /\ volume shape <= flat /\
    cp_eqb (cp_flat_index shape flat) cp_end = false.
Proof. exact flat_index_refuted. Qed.
Print Assumptions C07_flat_index_refuted.

Theorem C07_end_stays : forall k it, cp_is_end it = true ->
  cp_eqb (times k cp_incr it) cp_end = true.
Proof. exact end_stays. Qed.
Print Assumptions C07_end_stays.

(* Iterators at different positions, the end included, compare different. *)
Theorem C07_positions_differ : forall shape i j,
  Forall (fun s => 0 <= s <= INT_MAX) shape -> shape <> [] ->
  Z.of_nat i <= volume shape -> Z.of_nat j <= volume shape -> i <> j ->
  cp_eqb (times i cp_incr (cp_begin shape)) (times j cp_incr (cp_begin shape)) = false.
Proof. exact positions_differ. Qed.
Print Assumptions C07_positions_differ.

Example C07_case :
  cp_collect 7 (cp_begin [2; 3]) = Ok [[0;0];[1;0];[0;1];[1;1];[0;2];[1;2]] /\
  cp_indices (cp_flat_index [2; 3] 4) = [0; 2] /\
  cp_collect 1 (cp_begin [3; 0; 2]) = Ok [].
Proof. vm_compute. repeat split. Qed.
