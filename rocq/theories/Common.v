(* Shared definitions: outcomes of a call and small list helpers. *)
From Coq Require Export List Arith ZArith Lia Bool.
From Coq Require Export ZifyBool ZifyNat ZifyN.
Export ListNotations.

(* Result of a modelled call.
   [Ok a]       the call returns normally with [a];
   [CheckFail]  a glog CHECK / DCHECK or a C assert fires (the program aborts;
                DCHECKs are modelled as in a debug build);
   [Undef]      the C/C++ code would have undefined behaviour. *)
Inductive outcome (A : Type) : Type :=
| Ok (a : A)
| CheckFail
| Undef.
Arguments Ok {A} a.
Arguments CheckFail {A}.
Arguments Undef {A}.

Definition obind {A B} (m : outcome A) (f : A -> outcome B) : outcome B :=
  match m with
  | Ok a => f a
  | CheckFail => CheckFail
  | Undef => Undef
  end.

Definition omap {A B} (f : A -> B) (m : outcome A) : outcome B :=
  obind m (fun a => Ok (f a)).

(* CHECK(b) *)
Definition ocheck {A} (b : bool) (k : outcome A) : outcome A :=
  if b then k else CheckFail.

(* A memory access that is in bounds exactly when [b]. *)
Definition oguard {A} (b : bool) (k : outcome A) : outcome A :=
  if b then k else Undef.

Definition is_ok {A} (m : outcome A) : bool :=
  match m with Ok _ => true | _ => false end.

(* l[pos .. pos+n) *)
Definition slice {A} (pos n : nat) (l : list A) : list A :=
  firstn n (skipn pos l).

(* std::copy(xs, l.begin() + pos): overwrite l[pos .. pos+|xs|) by xs. *)
Definition splice {A} (pos : nat) (xs l : list A) : list A :=
  firstn pos l ++ xs ++ skipn (pos + length xs) l.

(* std::vector::resize(n, d) *)
Definition vresize {A} (d : A) (n : nat) (l : list A) : list A :=
  firstn n l ++ repeat d (n - length l).

(* Run a step function over a list of operations, collecting outputs. *)
Fixpoint run {S Op Out} (step : S -> Op -> outcome (S * Out)) (s : S)
    (ops : list Op) : outcome (S * list Out) :=
  match ops with
  | [] => Ok (s, [])
  | o :: ops' =>
      obind (step s o) (fun so =>
      obind (run step (fst so) ops') (fun so' =>
      Ok (fst so', snd so :: snd so')))
  end.
