(* C06: the combinations iterator. *)
From Verif Require Import Common CombinationsModel CombinationsSpec CombinationsProofs.
From Coq Require Import Sorted.

(* The loop terminates after binomial(n, k) visits; the visited vectors are
   exactly the k-subsets, each once, in lexicographic order. *)
Theorem C06_combinations : forall n k,
  exists l, comb_collect (S (binomial n k)) (comb_init n k) = Ok l /\
    (forall c, In c l <-> is_combination n k c) /\
    NoDup l /\ StronglySorted lex_lt l /\ length l = binomial n k.
Proof. exact collect_spec. Qed.
Print Assumptions C06_combinations.

(* More fuel changes nothing. *)
Theorem C06_fuel_irrelevant : forall fuel it l,
  comb_collect fuel it = Ok l -> forall fuel', fuel <= fuel' -> comb_collect fuel' it = Ok l.
Proof. exact collect_more. Qed.
Print Assumptions C06_fuel_irrelevant.

Theorem C06_table : forall (V : Type) (values : list V) k,
  exists l t,
    build_combinations_table (S (binomial (length values) k)) values k = Ok t /\
    Forall2 (selects values) l t /\
    (forall c, In c l <-> is_combination (length values) k c) /\
    StronglySorted lex_lt l.
Proof. exact @table_spec. Qed.
Print Assumptions C06_table.

Example C06_case :
  comb_collect 7 (comb_init 4 2) = Ok [[0;1];[0;2];[0;3];[1;2];[1;3];[2;3]] /\
  build_combinations_table 5 [10;20;30] 2 = Ok [[10;20];[10;30];[20;30]] /\
  comb_collect 1 (comb_init 2 3) = Ok [] /\ comb_collect 2 (comb_init 3 0) = Ok [[]].
Proof. vm_compute. repeat split. Qed.
