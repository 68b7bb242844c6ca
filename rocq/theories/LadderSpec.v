(* Difference equations of any order and the energy of a vector. *)
From Verif Require Import Common RealUtil CascadeModel LadderModel.
Local Open Scope R_scope.

(* l[n - j], zero before the start *)
Definition past (l : list R) (n j : nat) : R := if (j <=? n)%nat then nth (n - j) l 0 else 0.
Fixpoint weighted (c : list R) (l : list R) (n j : nat) : R :=
  match c with
  | [] => 0
  | a :: c' => a * past l n j + weighted c' l n (S j)
  end.
(* y is the response of the filter (b[0] + b[1] z^-1 + ...) / (a[0] + a[1] z^-1 + ...) to x *)
Definition implements (b a x y : list R) : Prop :=
  length y = length x /\ forall n, (n < length x)%nat -> weighted a y n 0 = weighted b x n 0.

Fixpoint energy (l : list R) : R := match l with [] => 0 | a :: r => a * a + energy r end.

(* total energy fed into channel i *)
Fixpoint fed (i : nat) (ops : list ladder_op) : R :=
  match ops with
  | [] => 0
  | Sample frame :: r => nth i frame 0 * nth i frame 0 + fed i r
  | _ :: r => fed i r
  end.

(* every reflection coefficient requested by the call lies between lo and hi *)
Definition requests (lo hi : R) (o : ladder_op) : Prop :=
  match o with
  | Change k _ => Forall (fun x => lo <= x <= hi) k
  | ChangeTf b a => forall k v, make_ladder b a = Ok (k, v) -> Forall (fun x => lo <= x <= hi) k
  | _ => True
  end.
