(* Model of audio/dsp/hifi/dynamic_range_control.{h,cc} over the real numbers (rounding is not
   modelled).  A frame is one column of the input (one sample per channel). *)
From Verif Require Import Common RealUtil FixedDelayLineModel EnvelopeModel DecibelsModel DrcCurveModel.
Local Open Scope R_scope.

(* dynamic_range_control.h:112-134 *)
Inductive envelope_kind := Peak | Rms.
Inductive dynamics_kind := Compressor | Limiter | Expander | NoiseGate.
(* dynamic_range_control.h:139-239 *)
Record drc_params := {
  envelope_type : envelope_kind; dynamics_type : dynamics_kind; input_gain_db : R; output_gain_db : R;
  threshold_db : R; ratio_of : R; knee_width_db : R; attack_s : R; release_s : R; lookahead_s : R }.
(* dynamic_range_control.h:140-150 *)
Definition default_params : drc_params :=
  {| envelope_type := Rms; dynamics_type := Compressor; input_gain_db := 0; output_gain_db := 0; threshold_db := 0;
     ratio_of := 1; knee_width_db := 0; attack_s := 1 / 1000; release_s := 5 / 100; lookahead_s := 0 |}.

(* dynamic_range_control.cc:27-32 *)
Definition check_params {A} (p : drc_params) (k : outcome A) : outcome A :=
  ocheck (Rleb 0 (knee_width_db p)) (ocheck (Rltb 0 (ratio_of p)) (ocheck (Rltb 0 (attack_s p)) (ocheck (Rltb 0 (release_s p)) k))).

(* std::round: to the nearest integer, halfway cases away from zero *)
Definition std_round (x : R) : Z := if Rltb x 0 then (- Int_part (- x + / 2))%Z else Int_part (x + / 2).

(* dynamic_range_control.h:354-366.  workspace_ and workspace_drc_output_ hold no state between
   calls and appear as local values below; the null envelope_ before Init is None. *)
Record drc := {
  num_channels : nat; max_block : nat; params : drc_params; change_needed : bool; next_params : drc_params;
  lookahead_delay : dline (list R); detector : option envelope }.

(* dynamic_range_control.cc:131-162, one level; the limiter and the noise gate ignore the ratio *)
Definition level_curve (p : drc_params) (x : R) : outcome R :=
  match dynamics_type p with
  | Compressor => compressor x (threshold_db p) (ratio_of p) (knee_width_db p)
  | Limiter => Ok (limiter x (threshold_db p) (knee_width_db p))
  | Expander => Ok (expander x (threshold_db p) (ratio_of p) (knee_width_db p))
  | NoiseGate => Ok (expander x (threshold_db p) 1000 (knee_width_db p))
  end.
Definition specific_gain (p : drc_params) (level : R) : outcome R :=
  obind (level_curve p (level + input_gain_db p)) (fun o => Ok (o - level)).

(* dynamic_range_control.cc:119-124.  signal_gain_db and interp_signal_gain_db are views of the
   same memory (both are workspace_drc_output_.head(n)), so the loop reads one list [ws]. *)
Fixpoint crossfade_loop (data_size_inv k : R) (ws : list R) : list R :=
  match ws with
  | [] => []
  | w :: r => let k' := k + data_size_inv in (w + k' * (w - w)) :: crossfade_loop data_size_inv k' r
  end.

Section Controller.
(* content of uninitialised memory in the delay line *)
Variable junk : nat -> list R.

(* dynamic_range_control.cc:35-43 *)
Definition drc_make (p : drc_params) : outcome drc :=
  check_params p (Ok {| num_channels := 0; max_block := 0; params := p; change_needed := false; next_params := default_params;
    lookahead_delay := {| delay_samples := 0; last_frame := 0; last_request := 0; buffer := [] |}; detector := None |}).

(* dynamic_range_control.cc:45-61; the envelope's interpolation rate is its default, 200 Hz
   (attack_release_envelope.h); a non-positive count of channels or frames is 0 here *)
Definition drc_init (s : drc) (channels max_block_size : nat) (fs : R) : outcome drc :=
  ocheck (0 <? channels)%nat (ocheck (0 <? max_block_size)%nat (ocheck (Rltb 0 fs)
  (obind (env_make (attack_s (params s)) (release_s (params s)) 200 fs) (fun e =>
   obind (dl_init (repeat 0 channels) junk (std_round (lookahead_s (params s) * fs)) max_block_size) (fun d =>
   Ok {| num_channels := channels; max_block := max_block_size; params := params s; change_needed := change_needed s;
         next_params := next_params s; lookahead_delay := d; detector := Some e |}))))).

(* dynamic_range_control.cc:63-75; before Init envelope_ is a null pointer *)
Definition drc_set (s : drc) (p : drc_params) : outcome drc :=
  check_params p
  match detector s with
  | None => Undef
  | Some e => ocheck (Reqb (lookahead_s p) (lookahead_s (params s)))
      (Ok {| num_channels := num_channels s; max_block := max_block s; params := params s; change_needed := true; next_params := p;
             lookahead_delay := lookahead_delay s; detector := Some (set_release (set_attack e (attack_s p)) (release_s p)) |})
  end.

(* dynamic_range_control.cc:77-81 *)
Definition drc_reset (s : drc) : outcome drc :=
  match detector s with
  | None => Undef
  | Some e => obind (env_reset e) (fun e' =>
      Ok {| num_channels := num_channels s; max_block := max_block s; params := next_params s; change_needed := false;
            next_params := next_params s; lookahead_delay := lookahead_delay s; detector := Some e' |})
  end.

(* dynamic_range_control.cc:83-129; the final DCHECK on finiteness holds for real numbers *)
Definition gain_from_detected (s : drc) (data : list R) : outcome (drc * list R) :=
  match detector s with
  | None => Undef
  | Some e =>
    obind (run env_output e data) (fun r =>
    let rectified := map (Rmax (1 / 10 ^ 12)) (snd r) in
    obind (match envelope_type (params s) with Rms => power_to_db_array rectified | Peak => amplitude_to_db_array rectified end) (fun levels =>
    obind (map_outcome (specific_gain (params s)) levels) (fun g =>
    let ws := map (fun v => v + output_gain_db (params s)) g in
    let s1 := fun p => {| num_channels := num_channels s; max_block := max_block s; params := p; change_needed := false;
                          next_params := next_params s; lookahead_delay := lookahead_delay s; detector := Some (fst r) |} in
    if change_needed s then
      obind (map_outcome (specific_gain (next_params s)) levels) (fun g2 =>
      let ws2 := map (fun v => v + output_gain_db (next_params s)) g2 in
      let ws3 := crossfade_loop (1 / INR (length data)) 0 ws2 in
      Ok (s1 (next_params s), db_to_amplitude_array ws3))
    else Ok (s1 (params s), db_to_amplitude_array ws))))
  end.

(* mean of a column *)
Definition column_mean (f : R -> R) (column : list R) : R := fold_right Rplus 0 (map f column) / INR (length column).

(* dynamic_range_control.h:315-328 *)
Definition compute_gain (s : drc) (frames : list (list R)) : outcome (drc * list R) :=
  ocheck (length frames <=? max_block s)%nat
    (gain_from_detected s (map (column_mean (match envelope_type (params s) with Rms => fun x => x * x | Peak => Rabs end)) frames)).

(* dynamic_range_control.h:332-341 *)
Definition apply_gain (s : drc) (frames : list (list R)) (gain : list R) : outcome (drc * list (list R)) :=
  ocheck (length frames =? length gain)%nat
  (obind (dl_process junk (lookahead_delay s) frames) (fun r =>
   Ok ({| num_channels := num_channels s; max_block := max_block s; params := params s; change_needed := change_needed s;
          next_params := next_params s; lookahead_delay := fst r; detector := detector s |},
       map (fun cg => map (fun x => x * snd cg) (fst cg)) (combine (snd r) gain)))).

(* dynamic_range_control.h:284-308; the output has the shape of the input *)
Definition drc_process (s : drc) (input sidechain : list (list R)) : outcome (drc * list (list R)) :=
  ocheck (1 <=? length input)%nat (ocheck (length input <=? max_block s)%nat
  (ocheck (forallb (fun c => length c =? num_channels s)%nat input)
  (ocheck (length input =? length sidechain)%nat (ocheck (forallb (fun c => length c =? num_channels s)%nat sidechain)
  (obind (compute_gain s sidechain) (fun r => apply_gain (fst r) input (snd r))))))).

(* the calls; ProcessBlock (dynamic_range_control.h:275-278) is Process with the input as sidechain *)
Inductive drc_op := Init (channels max_block_size : nat) (fs : R) | SetParams (p : drc_params) | ResetDrc
  | Process (input sidechain : list (list R)).
Definition drc_step (s : drc) (o : drc_op) : outcome (drc * list (list R)) :=
  match o with
  | Init n m fs => omap (fun s' => (s', [])) (drc_init s n m fs)
  | SetParams p => omap (fun s' => (s', [])) (drc_set s p)
  | ResetDrc => omap (fun s' => (s', [])) (drc_reset s)
  | Process i sc => drc_process s i sc
  end.
Definition drc_session (p : drc_params) (ops : list drc_op) : outcome (drc * list (list (list R))) :=
  obind (drc_make p) (fun s => run drc_step s ops).
End Controller.
