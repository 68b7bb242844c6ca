(* What a user of the multi-band compressor relies on. *)
From Verif Require Import Common RealUtil BiquadModel CascadeModel EnvelopeSpec DrcModel DrcSpec LadderSpec MultiCrossModel MultiCrossSpec MultiCompModel.
Local Open Scope R_scope.

(* sig is what band b of the filterbank makes of the frames x *)
Definition band_signal (d : bank) (nch b : nat) (x sig : list (list R)) : Prop :=
  frames_of nch sig /\ length sig = length x /\
  forall i, (i < nch)%nat -> chain_implements (concat (firstn b (highpass_coeffs d)) ++ nth b (lowpass_coeffs d) [] ++ nth b (allpass_coeffs d) []) (channel i x) (channel i sig).
(* out is the sum of the signals, sample by sample *)
Definition is_sum (nch n : nat) (sigs : list (list (list R))) (out : list (list R)) : Prop :=
  frames_of nch out /\ length out = n /\
  forall j i, (j < n)%nat -> (i < nch)%nat -> nth i (nth j out []) 0 = rsum (map (fun sig => nth i (nth j sig []) 0) sigs).
(* the parameters of one band are accepted, and its lookahead is d frames at the rate fs *)
Definition valid_params (fs : R) (p : drc_params) (d : nat) : Prop :=
  0 <= knee_width_db p /\ 0 < ratio_of p /\ 0 < attack_s p /\ 0 < release_s p /\ 0 <= lookahead_s p * fs /\ INR d - / 2 <= lookahead_s p * fs < INR d + / 2.
Definition valid_frames (nch m : nat) (x : list (list R)) : Prop := (1 <= length x <= m)%nat /\ frames_of nch x.
(* the parameters last given to one band *)
Definition last_given (b : nat) (ops : list mb_op) : option drc_params :=
  fold_left (fun a o => match o with MSetDrc st p => if (st =? Z.of_nat b)%Z then Some p else a | _ => a end) ops None.
(* neither Init nor SetCrossoverFrequencies *)
Definition keeps_bank (ops : list mb_op) : Prop := Forall (fun o => match o with MInit _ _ _ | MSetFrequencies _ => False | _ => True end) ops.
(* no change of the parameters of band b is waiting for the next block *)
Definition mb_settled (b : nat) (ops : list mb_op) : bool :=
  fold_left (fun a o => match o with MSetDrc st _ => if (st =? Z.of_nat b)%Z then false else a | MProcess _ | MReset => true | _ => a end) ops true.
Definition no_minit (ops : list mb_op) : Prop := Forall (fun o => match o with MInit _ _ _ => False | _ => True end) ops.
(* one set of parameters for every band *)
Definition complete (p : mb_params) : Prop := mp_bands p = Z.of_nat (length (mp_drc p)).
Definition with_drc (p : mb_params) (q : list drc_params) : mb_params :=
  {| mp_bands := mp_bands p; mp_order := mp_order p; mp_type := mp_type p; mp_freqs := mp_freqs p; mp_drc := q |}.
(* no change of the parameters of a band, and no Reset *)
Definition keeps_params (ops : list mb_op) : Prop := Forall (fun o => match o with MSetDrc _ _ | MReset => False | _ => True end) ops.
