(* Model of audio/dsp/batch_top_n.h.  std::sort and std::nth_element are parameters, so nothing
   depends on the algorithm they use; new ElementType[n] gives n default elements.  Moving and
   copying an element are the same, and 2 * limit is taken not to overflow int. *)
From Verif Require Import Common.

Section TopN.
Context {A : Type} (default : A).
(* the comparator, "greater" *)
Variable gt : A -> A -> bool.
(* std::sort(first, last, comparator) and std::nth_element(first, first + k, last, comparator) *)
Variable sort : (nat -> nat -> bool) -> list nat -> list nat.
Variable nth_element : (nat -> nat -> bool) -> nat -> list nat -> list nat.

(* batch_top_n.h:303-320; -1 is None *)
Record topn := { limit : nat; elements : list A; indices : list nat; threshold : option nat; size : nat }.
Definition element (t : topn) (i : nat) : A := nth i (elements t) default.
(* batch_top_n.h:295-297 *)
Definition index_gt (t : topn) (i j : nat) : bool := gt (element t i) (element t j).

(* batch_top_n.h:95-101 *)
Definition topn_reset (t : topn) : topn :=
  {| limit := limit t; elements := elements t; indices := seq 0 (2 * limit t); threshold := None; size := 0 |}.
(* batch_top_n.h:76-85 *)
Definition topn_make (n : nat) : outcome topn :=
  ocheck (1 <=? n)
  (Ok (topn_reset {| limit := n; elements := repeat default (2 * n); indices := repeat 0 (2 * n); threshold := None; size := 0 |})).

(* batch_top_n.h:279-285 *)
Definition find_threshold (t : topn) : nat :=
  fold_left (fun best i => if gt (element t best) (element t i) then i else best) (seq 1 (limit t - 1)) 0.

(* batch_top_n.h:260-288; writing past the buffer is undefined (DCHECKed) *)
Definition topn_push (t : topn) (v : A) : outcome topn :=
  if match threshold t with None => true | Some i => gt v (element t i) end then
    oguard (size t <? 2 * limit t)
    (let t1 := {| limit := limit t; elements := splice (nth (size t) (indices t) 0) [v] (elements t);
                  indices := indices t; threshold := threshold t; size := S (size t) |} in
     if 2 * limit t <=? size t1 then
       let l := nth_element (index_gt t1) (limit t - 1) (firstn (size t1) (indices t1)) ++ skipn (size t1) (indices t1) in
       Ok {| limit := limit t; elements := elements t1; indices := l; threshold := Some (nth (limit t - 1) l 0); size := limit t |}
     else if size t1 =? limit t then
       Ok {| limit := limit t; elements := elements t1; indices := indices t1; threshold := Some (find_threshold t1); size := size t1 |}
     else Ok t1)
  else Ok t.

(* batch_top_n.h:245-256 with the contents the result shows (140-155) *)
Definition topn_get (t : topn) : topn * list A :=
  let l := sort (index_gt t) (firstn (size t) (indices t)) ++ skipn (size t) (indices t) in
  let t' := if limit t <=? size t
            then {| limit := limit t; elements := elements t; indices := l; threshold := Some (nth (limit t - 1) l 0); size := limit t |}
            else {| limit := limit t; elements := elements t; indices := l; threshold := threshold t; size := size t |} in
  (t', map (element t') (firstn (size t') (indices t'))).

(* client calls *)
Inductive topn_op := Push (v : A) | Get | Reset.
Definition topn_step (t : topn) (o : topn_op) : outcome (topn * option (list A)) :=
  match o with
  | Push v => obind (topn_push t v) (fun t' => Ok (t', None))
  | Get => let p := topn_get t in Ok (fst p, Some (snd p))
  | Reset => Ok (topn_reset t, None)
  end.
End TopN.
Arguments topn : clear implicits.
Arguments topn_op : clear implicits.

(* batch_top_n.h:332-372; greater-or-equal is written with a second operator ge *)
Section Peaks.
Context {B : Type} (d : B) (gtb geb : B -> B -> bool).
Variable sort : (nat -> nat -> bool) -> list nat -> list nat.
Variable nth_element : (nat -> nat -> bool) -> nat -> list nat -> list nat.
Definition pushes (periodic : bool) (c : list B) : list nat :=
  let at_ i := nth i c d in
  let n := length c in
  filter (fun i => gtb (at_ i) (at_ (i - 1)) && geb (at_ i) (at_ (i + 1))) (seq 1 (n - 2)) ++
  (if gtb (at_ 0) (at_ 1) && (negb periodic || geb (at_ 0) (at_ (n - 1))) then [0] else []) ++
  (if gtb (at_ (n - 1)) (at_ (n - 2)) && (negb periodic || geb (at_ (n - 1)) (at_ 0)) then [n - 1] else []).
Fixpoint push_all (gt : nat -> nat -> bool) (t : topn nat) (l : list nat) : outcome (topn nat) :=
  match l with [] => Ok t | x :: r => obind (topn_push 0 gt nth_element t x) (fun t' => push_all gt t' r) end.
Definition top_n_peaks (periodic : bool) (n : nat) (c : list B) : outcome (list nat) :=
  if length c <? 2 then Ok []
  else let gt i j := gtb (nth i c d) (nth j c d) in
       obind (topn_make 0 n) (fun t => obind (push_all gt t (pushes periodic c)) (fun t' => Ok (snd (topn_get 0 gt sort t')))).
End Peaks.
