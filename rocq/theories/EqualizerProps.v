(* C28: the parametric equaliser. *)
From Verif Require Import Common RealUtil BiquadModel BiquadSpec BiquadProps DesignModel DesignSpec CascadeModel CascadeSpec CascadeProofs2 EqualizerModel EqualizerSpec EqualizerProofs.
From Coquelicot Require Import Complex.
Local Open Scope R_scope.

(* After ClearAllGains (any stages of any types, enabled or not, any previous gains) GetCoefficients
   succeeds, the transfer function is 1 wherever it has a value, and a filter cascade running on the
   coefficients returns every signal unchanged. *)
Theorem C28_cleared_is_transparent : forall fs e n blocks, 0 < fs -> valid_equalizer fs e -> (0 < n)%nat -> Forall (Forall (fun fr => length fr = n)) blocks ->
  exists cs f f' outs, get_coefficients (clear_all_gains e) fs = Ok cs /\ (forall z h, cascade_value cs z h -> h = RtoC 1) /\
    cascade_init 0 1 Rmult Rdiv (fun x => Reqb x 0) n cs = Ok f /\ run (cascade_block Rplus Rminus Rmult) f blocks = Ok (f', outs) /\
    map (@length _) outs = map (@length _) blocks /\ forall i, (i < n)%nat -> channel 0 i (concat outs) = channel 0 i (concat blocks).
Proof.
  intros fs e n blocks Hf HV Hn HB. destruct (cleared_coefficients fs e Hf HV) as (cs & E & HN & NE). destruct (neutral_init n cs Hn NE HN) as (f & EI).
  destruct (C21_cascade R 0 1 Rplus Rmult Rminus Ropp Rdiv Rinv (fun x => Reqb x 0) RealField.Rfield (fun x => Reqb_true_iff x 0) n cs f blocks EI HB) as (f' & outs & ER & ML & CH).
  exists cs, f, f', outs. split; [exact E|]. split.
  - intros z h H. apply cascade_value_iff in H. destruct H as [HD HE]. destruct (proj1 (cascade_value_iff cs z (RtoC 1)) (neutral_value cs z HN HD)) as [_ E1].
    rewrite HE in E1. transitivity (Cdiv (Cmult h (den cs z)) (den cs z)); [field; exact HD|]. rewrite E1. field. exact HD.
  - split; [exact EI|]. split; [exact ER|]. split; [exact ML|]. intros i Hi. exact (neutral_cascade cs HN _ _ (CH i Hi)).
Qed.

(* When the designed stages are of second order (measured with the code's tolerance), the cascade
   consists exactly of the designs of the enabled stages in order, with the overall gain applied to
   the first; the number of stages is the number of enabled stages (one if there is none). *)
Theorem C28_coefficients_partial : forall fs e ds, 0 < fs -> designs fs (stages e) = Ok ds -> Forall second_order ds ->
  get_coefficients e fs = Ok (adjust_gain (db_to_linear (gain_db e)) (cascade_of ds)) /\
  length (adjust_gain (db_to_linear (gain_db e)) (cascade_of ds)) = Nat.max 1 (num_enabled e).
Proof.
  intros fs e ds Hf HD HS. split; [exact (coefficients_so fs e ds Hf HD HS)|]. rewrite adjust_gain_length. unfold num_enabled. rewrite <- (designs_length fs _ _ HD). destruct ds; [reflexivity|]. cbn [cascade_of length]. lia.
Qed.

(* "Bypassed stages create a stage of identity coefficients such that the order of the filter is
   always the same": false, bypassing a stage removes it from the cascade. *)
Theorem C28_order_refuted : exists e e' fs cs cs', valid_equalizer fs e /\ set_stage_enabled e 1 false = Ok e' /\
  get_coefficients e fs = Ok cs /\ get_coefficients e' fs = Ok cs' /\ length cs = 2%nat /\ length cs' = 1%nat.
Proof.
  destruct (boosts_length true) as (cs & E1 & L1). destruct (boosts_length false) as (cs' & E2 & L2).
  exists {| gain_db := 0; stages := [(boost, true); (boost, true)] |}, {| gain_db := 0; stages := [(boost, true); (boost, false)] |}, 4, cs, cs'.
  split; [|split; [reflexivity|split; [exact E1|split; [exact E2|split; [exact L1|exact L2]]]]].
  unfold valid_equalizer. cbn [stages]. repeat constructor; cbn [fst boost frequency_hz quality_factor]; lra.
Qed.

(* Fitting the gains to a magnitude response aborts for every equaliser with a bypassed stage,
   whatever the target and the solution of the least squares problem. *)
Theorem C28_fit_refuted : forall solve stop n m it fs e, (num_enabled e < num_stages e)%nat -> fit_gains solve stop n m it fs e = CheckFail.
Proof. exact fit_aborts. Qed.

Example C28_example : valid_equalizer 4 {| gain_db := 3; stages := [(boost, true); ({| type := Lowpass; frequency_hz := 1 / 2; quality_factor := 2; stage_gain_db := 0 |}, true); ({| type := LowShelf; frequency_hz := 0; quality_factor := -1; stage_gain_db := 7 |}, false)] |} /\
  (exists c, designs 4 [(boost, true); (boost, false)] = Ok [c] /\ second_order c) /\
  (num_enabled {| gain_db := 0; stages := [(boost, true); (boost, false)] |} < num_stages {| gain_db := 0; stages := [(boost, true); (boost, false)] |})%nat.
Proof.
  split; [|split].
  - unfold valid_equalizer. cbn [stages]. repeat constructor; cbn [fst snd boost frequency_hz quality_factor] in *; try lra; discriminate.
  - destruct boost_design as (c & E & S). exists c. cbn [designs]. rewrite E. split; [reflexivity|exact S].
  - cbn. lia.
Qed.

Print Assumptions C28_cleared_is_transparent.
Print Assumptions C28_coefficients_partial.
Print Assumptions C28_order_refuted.
Print Assumptions C28_fit_refuted.
