(* What a user of the dynamic range controller relies on. *)
From Verif Require Import Common RealUtil DecibelsModel EnvelopeSpec DrcCurveSpec DrcModel.
Local Open Scope R_scope.

(* gain in decibels for a detected level, as documented (dynamic_range_control.h:185-217) *)
Definition documented_gain (p : drc_params) (level : R) : R :=
  let x := level + input_gain_db p in
  (match dynamics_type p with
   | Compressor => documented_compressor x (threshold_db p) (ratio_of p) (knee_width_db p)
   | Limiter => documented_limiter x (threshold_db p) (knee_width_db p)
   | Expander => documented_expander x (threshold_db p) (ratio_of p) (knee_width_db p)
   | NoiseGate => documented_expander x (threshold_db p) 1000 (knee_width_db p)
   end) - level + output_gain_db p.

(* level in decibels of an envelope value, never below -120 dB (power) or -240 dB (amplitude) *)
Definition level_of (k : envelope_kind) (y : R) : R :=
  match k with Rms => 10 | Peak => 20 end * (ln (Rmax (1 / 10 ^ 12) y) / ln 10).
Definition amplitude (db : R) : R := exp (ln 10 / 20 * db).
(* average power or amplitude over the channels *)
Definition detected (k : envelope_kind) (frame : list R) : R :=
  match k with
  | Rms => fold_right (fun x a => x * x + a) 0 frame
  | Peak => fold_right (fun x a => Rabs x + a) 0 frame
  end / INR (length frame).

(* the whole output for a stream of frames and a sidechain *)
Definition documented_output (p : drc_params) (fs : R) (channels delay : nat) (input sidechain : list (list R)) : list (list R) :=
  let levels := map (level_of (envelope_type p))
    (follower (smoothing_factor (attack_s p) fs) (smoothing_factor (release_s p) fs) 0 (map (detected (envelope_type p)) sidechain)) in
  map (fun fl => map (fun x => x * amplitude (documented_gain p (snd fl))) (fst fl))
      (combine (firstn (length input) (repeat (repeat 0 channels) delay ++ input)) levels).

(* a crossfade from the old to the new gain (in decibels) over a block of n frames *)
Definition crossfaded_gain (old new : drc_params) (level : R) (n i : nat) : R :=
  documented_gain old level + INR (S i) / INR n * (documented_gain new level - documented_gain old level).

(* blocks that ProcessBlock accepts *)
Definition valid_block (channels max_size : nat) (b : list (list R) * list (list R)) : Prop :=
  (1 <= length (fst b) <= max_size)%nat /\ length (snd b) = length (fst b) /\
  Forall (fun c => length c = channels) (fst b) /\ Forall (fun c => length c = channels) (snd b).
Definition process_all (bs : list (list (list R) * list (list R))) : list drc_op := map (fun b => Process (fst b) (snd b)) bs.
Definition inputs_of (bs : list (list (list R) * list (list R))) : list (list R) := concat (map fst bs).
Definition sidechains_of (bs : list (list (list R) * list (list R))) : list (list R) := concat (map snd bs).

(* no parameter change is waiting for the next block *)
Definition settled (ops : list drc_op) : bool :=
  fold_left (fun b o => match o with SetParams _ => false | Process _ _ | ResetDrc => true | Init _ _ _ => b end) ops true.
(* the parameters last set *)
Definition last_set (ops : list drc_op) : option drc_params :=
  fold_left (fun a o => match o with SetParams p => Some p | _ => a end) ops None.
Definition no_init (ops : list drc_op) : Prop := Forall (fun o => match o with Init _ _ _ => False | _ => True end) ops.
