(* What the background level detector is documented to do, in terms of the envelopes and the reported
   levels only.  [f] and [sl] are the fast and slow envelopes of a channel, [b i] the level reported
   before frame [i] (so [b 0] is the initial level and [b (S i)] the level reported for frame [i]). *)
From Verif Require Import Common RealUtil BackgroundModel.
Local Open Scope R_scope.

(* the level exceeds the instantaneous one by more than the tolerance *)
Definition above_input (b f : nat -> R) (i : nat) : Prop := f i < b i - 1 / 10000.
(* the fast envelope is significantly larger than the slow one *)
Definition transient (sens : R) (f sl : nat -> R) (i : nat) : Prop := 1 / sens * sl i < f i.
(* the initial quick adaptation goes on until the level has once exceeded the input *)
Definition adapting (b f : nat -> R) (i : nat) : Prop := forall j, (j < i)%nat -> ~ above_input b f j.
(* frame [i] is within [T] frames of the start of the rejection period of transient frame [j], which
   has not been ended early by the input falling below the level *)
Definition rejecting (sens : R) (T : Z) (b f sl : nat -> R) (i : nat) : Prop :=
  exists j, (j <= i)%nat /\ ~ adapting b f j /\ transient sens f sl j /\ (Z.of_nat i - Z.of_nat j < T)%Z /\
  forall k, (j < k <= i)%nat -> above_input b f k -> transient sens f sl k.
(* one step of smoothing towards the smaller envelope *)
Definition smoothed (a : R) (b f sl : nat -> R) (i : nat) : R := b i + a * (Rmin (sl i) (f i) - b i).

Definition background_law (fast_coeff slow_coeff sens : R) (T : Z) (n : nat) (b f sl : nat -> R) : Prop :=
  b O = 0 /\ forall i, (i < n)%nat ->
  (adapting b f i -> b (S i) = smoothed fast_coeff b f sl i) /\
  (~ adapting b f i -> rejecting sens T b f sl i -> b (S i) = b i) /\
  (~ adapting b f i -> ~ rejecting sens T b f sl i -> b (S i) = smoothed slow_coeff b f sl i).

(* all the levels reported by a sequence of calls, frame after frame *)
Definition levels (outs : list (option (list (list R)))) : list (list R) := concat (map (fun o => match o with Some x => x | None => [] end) outs).
(* the documented conditions on the parameters *)
Definition valid_params (p : bg_params) (fs : R) : Prop :=
  0 < slow_cutoff p < envelope_rate p / 2 /\ 0 < fast_cutoff p < envelope_rate p / 2 /\ envelope_rate p <= fs /\
  1 / (2 * PI * envelope_rate p) < time_constant p /\ 0 < sensitivity p <= 1 /\ 0 < rejection_time p /\ rejection_time p * envelope_rate p < 2147483648.

(* fast and slow envelope values between [lo] and [hi] (the slow one only bounded below) *)
Definition in_hull (lo hi : R) (x : R * R) : Prop := lo <= fst x <= hi /\ lo <= snd x.
Definition op_in_hull (lo hi : R) (o : bg_op) : Prop := match o with BgBlock frs => Forall (Forall (in_hull lo hi)) frs | _ => True end.
