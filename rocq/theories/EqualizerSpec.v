(* What the parametric equaliser is documented to do. *)
From Verif Require Import Common RealUtil BiquadModel DesignModel DesignSpec CascadeModel EqualizerModel.
Local Open Scope R_scope.

(* the parameters the filter designs accept *)
Definition valid_stage (fs : R) (s : stage) : Prop := valid_design fs (frequency_hz s) (quality_factor s).
(* every enabled stage is valid *)
Definition valid_equalizer (fs : R) (e : equalizer) : Prop := Forall (fun p => snd p = true -> valid_stage fs (fst p)) (stages e).

(* the designs of the enabled stages, in order *)
Fixpoint designs (fs : R) (l : list (stage * bool)) : outcome (list (coeffs R)) :=
  match l with
  | [] => Ok []
  | (s, true) :: r => obind (design_stage fs s) (fun c => obind (designs fs r) (fun cs => Ok (c :: cs)))
  | (_, false) :: r => designs fs r
  end.
(* a stage whose numerator and denominator are both of second order, by the measure the code uses *)
Definition second_order (c : coeffs R) : Prop := tolerance < Rabs (b2 c) /\ tolerance < Rabs (a2 c).
