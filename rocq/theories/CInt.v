(* C integer arithmetic on Z with undefined behaviour made explicit. *)
From Verif Require Export Common.
Open Scope Z_scope.

Definition INT_MAX : Z := 2147483647.
Definition INT_MIN : Z := -2147483648.
Definition UINT_MAX : Z := 4294967295.

Definition in_i32 (z : Z) : bool := (INT_MIN <=? z) && (z <=? INT_MAX).

(* The result of a signed `int` operation: undefined unless representable. *)
Definition i32 (z : Z) : outcome Z := oguard (in_i32 z) (Ok z).

(* Signed division and remainder truncate towards zero; dividing by zero, or a
   quotient that is not representable, is undefined. *)
Definition c_rem (a b : Z) : outcome Z :=
  oguard (negb (b =? 0) && in_i32 (Z.quot a b)) (Ok (Z.rem a b)).
Definition c_div (a b : Z) : outcome Z :=
  oguard (negb (b =? 0) && in_i32 (Z.quot a b)) (Ok (Z.quot a b)).

(* Conversion to uint32_t. *)
Definition u32 (z : Z) : Z := z mod 4294967296.

(* Conversion of a wider integer to `int` (two's complement wrap-around, as
   every supported compiler implements it). *)
Definition to_int32 (z : Z) : Z :=
  (z + 2147483648) mod 4294967296 - 2147483648.

Notation "x <- m ;; k" := (obind m (fun x => k))
  (at level 61, m at next level, right associativity).
Notation "' p <- m ;; k" := (obind m (fun z => let 'p := z in k))
  (at level 61, p pattern, m at next level, right associativity).
