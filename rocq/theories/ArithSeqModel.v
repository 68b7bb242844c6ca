(* Model of class ArithmeticSequence, audio/dsp/number_util.{h,cc}, over the real numbers: every
   argument is finite and the double operations are exact.  Sizes and indices are integers. *)
From Verif Require Import Common RealUtil.
Local Open Scope R_scope.

(* number_util.h:180-185 *)
Record aseq := { seq_base : R; seq_step : R; seq_limit : R; seq_size : Z }.
(* number_util.h:114 *)
Definition seq_default : aseq := {| seq_base := 0; seq_step := 1; seq_limit := 0; seq_size := 0 |}.
(* std::numeric_limits<double>::epsilon(), number_util.cc:182 *)
Definition machine_epsilon : R := / 2 ^ 52.
Definition int_max : Z := 2147483647.
(* number_util.cc:183-192 *)
Definition seq_tol (base step limit : R) : R :=
  let tol := machine_epsilon * (5 * (Rabs base + Rabs limit) + 7 * Rabs (limit - base)) in
  if Rltb (Rabs step) (3 * tol) then Rabs step / 3 else tol.
(* number_util.cc:103-229; std::floor is Int_part *)
Definition seq_make (base step limit : R) : outcome aseq :=
  ocheck (negb (Reqb step 0))
  (let sign_step := if Rltb 0 step then 1 else -1 in
   let tol := seq_tol base step limit in
   let sized := (1 + Int_part (((limit - base) + sign_step * tol) / step))%Z in
   if (sized <=? 0)%Z then Ok {| seq_base := base; seq_step := step; seq_limit := base; seq_size := 0 |} else
   ocheck (sized <=? int_max)%Z
  (ocheck (Rleb (sign_step * (base + step * IZR (sized - 1))) (sign_step * limit + 2 * tol))
  (ocheck (Rltb (sign_step * limit) (sign_step * (base + step * IZR sized)))
  (if (sized =? 1)%Z then Ok {| seq_base := base; seq_step := 1; seq_limit := base; seq_size := 1 |} else
   let last := base + step * IZR (sized - 1) in
   let limit' := if ((Rltb 0 step && Rltb last limit) || (Rltb step 0 && Rltb limit last)) &&
                    Rleb (4 * machine_epsilon * step * Rmax (Rabs limit) (Rabs last)) (Rabs (limit - last))
                 then last else limit in
   Ok {| seq_base := base; seq_step := step; seq_limit := limit'; seq_size := sized |})))).
(* number_util.h:125 *)
Definition seq_empty (s : aseq) : bool := (seq_size s <=? 0)%Z.
(* operator[], number_util.h:127-131 *)
Definition seq_get (s : aseq) (i : Z) : outcome R :=
  ocheck ((0 <=? i) && (i <? seq_size s))%Z
  (Ok (if (i <? seq_size s - 1)%Z then seq_base s + seq_step s * IZR i else seq_limit s)).

(* An iterator is an index; begin and end, number_util.h:177-178; operators, number_util.h:144-175
   and number_util.cc:231-257.  Iterators of different sequences are not compared here. *)
Definition seq_begin (s : aseq) : Z := 0.
Definition seq_end (s : aseq) : Z := seq_size s.
Definition it_deref (s : aseq) (it : Z) : outcome R := seq_get s it.
Definition it_next (it : Z) : Z := it + 1.
(* for (double value : seq) body: the values visited; the fuel bounds the number of iterations *)
Fixpoint seq_iterate (fuel : nat) (s : aseq) (it : Z) : outcome (list R) :=
  match fuel with
  | O => Undef
  | S fuel =>
    if (it =? seq_end s)%Z then Ok [] else
    obind (it_deref s it) (fun v => obind (seq_iterate fuel s (it_next it)) (fun l => Ok (v :: l)))
  end.
(* CopyTo, number_util.h:134-140: assign copies the range begin() .. end() *)
Definition seq_copy (s : aseq) : outcome (list R) :=
  ocheck (seq_size s <=? 1000000000)%Z (seq_iterate (S (Z.to_nat (seq_size s))) s (seq_begin s)).
