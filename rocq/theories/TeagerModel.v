(* Model of audio/dsp/teager_energy_filter.h.  The streaming part is over an arbitrary type of
   numbers with the C++ operators as parameters (conversions between float and double are not
   modelled); the constructor is over the real numbers. *)
From Verif Require Import Common RealUtil.

Section Teager.
Context {F : Type} (zero : F) (sub mul : F -> F -> F).
(* teager_energy_filter.h:140-143; delayed_input_ as a pair; delay_s_ is a constant *)
Record teager := { normalize_factor : F; delayed : F * F }.
(* teager_energy_filter.h:114-117 *)
Definition teager_reset (t : teager) : teager := {| normalize_factor := normalize_factor t; delayed := (zero, zero) |}.
(* teager_energy_filter.h:128-131 *)
Definition teager_sample (t : teager) (x : F) : teager * F :=
  ({| normalize_factor := normalize_factor t; delayed := (snd (delayed t), x) |},
   mul (sub (mul (snd (delayed t)) (snd (delayed t))) (mul (fst (delayed t)) x)) (normalize_factor t)).
(* teager_energy_filter.h:120-133: the output is resized to the input; out is its old content *)
Fixpoint teager_loop (t : teager) (input : list F) (n : nat) (out : list F) : teager * list F :=
  match input with
  | [] => (t, out)
  | x :: r => let p := teager_sample t x in teager_loop (fst p) r (S n) (splice n [snd p] out)
  end.
Definition teager_block (t : teager) (input old : list F) : teager * list F :=
  let out := vresize zero (length input) old in
  match input with [] => (t, out) | _ => teager_loop t input 0 out end.
End Teager.
Arguments teager : clear implicits.

Local Open Scope R_scope.
(* teager_energy_filter.h:98-112 *)
Definition teager_make (fs f : R) : outcome (teager R) :=
  ocheck (Rltb 0 fs) (ocheck (Rltb 0 f) (ocheck (Rltb f (fs / 2))
  (let w := 2 * PI * f / fs in
   Ok {| normalize_factor := 1 / (sin w * sin w); delayed := (0, 0) |}))).
(* teager_energy_filter.h:135 with 110 *)
Definition teager_delay (fs : R) : R := 1 / fs.
