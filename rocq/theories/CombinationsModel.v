(* Model of CombinationsIterator and BuildCombinationsTable
   (audio/dsp/number_util.{h,cc}). Indices are natural numbers; n and k are
   assumed nonnegative (a negative k makes the vector constructor throw). *)
From Verif Require Import Common.

(* number_util.h:213-216 *)
Record comb_it : Type := {
  cn : nat;
  ck : nat;
  indices : list nat;
  is_done : bool
}.

(* number_util.cc:259-264 *)
Definition comb_init (n k : nat) : comb_it :=
  {| cn := n; ck := k; indices := seq 0 k; is_done := n <? k |}.

Definition upd {A} (i : nat) (x : A) (l : list A) : list A := splice i [x] l.

(* number_util.cc:272-278, i counts down from k - 1; [i] here is i + 1.
   indices_[i] <= n_ - k_ + i is written without subtraction. Result: the
   indices and Some i if the loop stopped by break at i. *)
Fixpoint comb_carry (n k i : nat) (idx : list nat) : outcome (list nat * option nat) :=
  match i with
  | 0 => Ok (idx, None)
  | S i' =>
      match nth_error idx i' with
      | None => Undef
      | Some x =>
          let idx' := upd i' (S x) idx in
          if S x + k <=? n + i' then Ok (idx', Some i')
          else comb_carry n k i' idx'
      end
  end.

(* number_util.cc:284-286: for (; i < k_; ++i); [cnt] = k_ - i iterations. *)
Fixpoint comb_roll (cnt i : nat) (idx : list nat) : outcome (list nat) :=
  match cnt with
  | 0 => Ok idx
  | S cnt' =>
      match nth_error idx (i - 1) with
      | None => Undef
      | Some x => oguard (i <? length idx) (comb_roll cnt' (S i) (upd i (S x) idx))
      end
  end.

(* number_util.cc:266-287 *)
Definition comb_next (it : comb_it) : outcome comb_it :=
  if is_done it then Ok it
  else
    obind (comb_carry (cn it) (ck it) (ck it) (indices it)) (fun r =>
    match r with
    | (idx, None) =>
        Ok {| cn := cn it; ck := ck it; indices := idx; is_done := true |}
    | (idx, Some i) =>
        obind (comb_roll (ck it - S i) (S i) idx) (fun idx' =>
        Ok {| cn := cn it; ck := ck it; indices := idx'; is_done := false |})
    end).

(* The client loop  for (it(n, k); !it.Done(); it.Next()) visit(it)
   (number_util.h:224-226), collecting GetCurrentCombination(). Out of fuel is
   reported as Undef. *)
Fixpoint comb_collect (fuel : nat) (it : comb_it) : outcome (list (list nat)) :=
  match fuel with
  | 0 => Undef
  | S fuel' =>
      if is_done it then Ok []
      else obind (comb_next it) (fun it' =>
           obind (comb_collect fuel' it') (fun rest => Ok (indices it :: rest)))
  end.

(* number_util.h:227-230: values[index] for each index. *)
Fixpoint comb_entry {V} (values : list V) (idx : list nat) : outcome (list V) :=
  match idx with
  | [] => Ok []
  | i :: idx' =>
      match nth_error values i with
      | None => Undef
      | Some v => obind (comb_entry values idx') (fun vs => Ok (v :: vs))
      end
  end.

(* number_util.h:220-234 *)
Fixpoint comb_table_loop {V} (fuel : nat) (values : list V) (it : comb_it)
    : outcome (list (list V)) :=
  match fuel with
  | 0 => Undef
  | S fuel' =>
      if is_done it then Ok []
      else obind (comb_entry values (indices it)) (fun entry =>
           obind (comb_next it) (fun it' =>
           obind (comb_table_loop fuel' values it') (fun rest => Ok (entry :: rest))))
  end.

Definition build_combinations_table {V} (fuel : nat) (values : list V) (k : nat)
    : outcome (list (list V)) :=
  comb_table_loop fuel values (comb_init (length values) k).
