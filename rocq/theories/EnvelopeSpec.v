(* What a user of the envelope relies on. *)
From Verif Require Import Common RealUtil EnvelopeModel.
Local Open Scope R_scope.

(* largest rectified input since the last Reset *)
Definition peak (ops : list env_op) : R :=
  fold_left (fun m o => match o with EnvReset => 0 | Input x => Rmax m (Rabs x) | _ => m end) ops 0.
Definition nonnegative_times (ops : list env_op) : Prop :=
  Forall (fun o => match o with SetAttack s | SetRelease s => 0 <= s | _ => True end) ops.

(* asymmetric first order recursion with coefficients a (rising) and r (falling) *)
Fixpoint follower (a r y : R) (xs : list R) : list R :=
  match xs with
  | [] => []
  | x :: xs' => let u := Rabs x in
      let y' := if Rlt_dec y u then (1 - a) * y + a * u else (1 - r) * y + r * u in
      y' :: follower a r y' xs'
  end.

(* time constants in force after a history of calls *)
Definition current_times (attack_s release_s : R) (ops : list env_op) : R * R :=
  fold_left (fun t o => match o with SetAttack s => (s, snd t) | SetRelease s => (fst t, s) | _ => t end) ops (attack_s, release_s).
Definition positive_times (ops : list env_op) : Prop :=
  Forall (fun o => match o with SetAttack s | SetRelease s => 0 < s | _ => True end) ops.
(* y[n] = a x[n] + (1 - a) y[n-1] with time constant tau *)
Definition smoothing_factor (tau fs : R) : R := 1 - exp (- / (tau * fs)).
