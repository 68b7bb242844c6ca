(* Specification of the window functions: the formulas documented in
   audio/dsp/window_functions.h, for |x| <= radius and without tolerances, and
   the positions at which windows are sampled. *)
From Verif Require Import Common RealUtil WindowModel BesselModel.
From Coquelicot Require Import Hierarchy Derive Continuity RInt RInt_analysis AutoDerive.
Local Open Scope R_scope.

(* Parameters accepted by the constructors. *)
Definition valid (k : kind) (r : R) : Prop :=
  0 < r /\
  match k with
  | Kaiser b => 0 <= b
  | PlanckTaper e => 0 <= e <= r
  | Quartic c2 c4 => -2 <= c2 <= 0 /\ - (1 + c2) <= c4 <= - c2 / 2
  | _ => True
  end.

(* The documented value for |x| <= radius; the Planck taper has no formula in
   the header, only its plateau. *)
Definition documented (k : kind) (r x v : R) : Prop :=
  match k with
  | Rectangular => v = 1
  | Cosine => v = cos (PI / 2 * (x / r))
  | Hamming => v = 54 / 100 + 46 / 100 * cos (PI * (x / r))
  | Hann => v = 1 / 2 + 1 / 2 * cos (PI * (x / r))
  | Kaiser b => v * bessel_i0 b = bessel_i0 (b * sqrt (1 - (x / r) ^ 2))
  | Nuttall => v = 3635819 / 10 ^ 7 + 4891775 / 10 ^ 7 * cos (PI * (x / r))
                   + 1365995 / 10 ^ 7 * cos (2 * (PI * (x / r)))
                   + 106411 / 10 ^ 7 * cos (3 * (PI * (x / r)))
  | PlanckTaper e => Rabs x <= r - e -> (0 < e \/ Rabs x < r) -> v = 1
  | Quartic c2 c4 => v = 1 + c2 * (x / r) ^ 2 + c4 * (x / r) ^ 4
  end.

(* Sample k of num uniformly spaced samples on [-r, r], endpoints included. *)
Definition grid (r : R) (num k : nat) : R := - r + 2 * r * INR k / (INR num - 1).

(* Is the bound by 1 known for this window: for the Kaiser window the code's
   Bessel function is monotone on the range of its power series. *)
Definition series_range (k : kind) : Prop :=
  match k with Kaiser b => b < 21 | _ => True end.

(* v is the Fourier integral of a window w of the given radius at frequency f
   (windows are even, so the transform is the cosine integral). *)
Definition fourier (w : R -> R) (r f v : R) : Prop :=
  is_RInt (fun x => w x * cos (2 * PI * f * x)) (- r) r v.

(* The quantities at whose zeros the closed formulas have removable
   singularities; the code switches branch within 1e-8 of them. *)
Definition singular (k : kind) (r f : R) : list R :=
  match k with
  | Rectangular => cons (2 * PI * f * r) nil
  | Cosine => cons (PI * PI - 4 * (2 * PI * f * r) * (2 * PI * f * r)) nil
  | Hamming | Hann => cons (PI * (2 * f * r)) (cons (1 - 2 * f * r * (2 * f * r)) nil)
  | Nuttall => cons (PI * (2 * f * r)) (cons (1 - 2 * f * r * (2 * f * r))
                (cons (4 - 2 * f * r * (2 * f * r)) (cons (9 - 2 * f * r * (2 * f * r)) nil)))
  | Quartic _ _ => cons (2 * PI * f * r) nil
  | _ => nil
  end.
Definition off_tolerance (t : R) : Prop := t = 0 \/ / 10 ^ 8 <= Rabs t.
Definition closed_form (k : kind) : Prop :=
  match k with Kaiser _ | PlanckTaper _ => False | _ => True end.
