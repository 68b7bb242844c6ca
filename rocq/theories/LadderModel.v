(* Model of audio/linear_filters/ladder_filter.h and ladder_filter-inl.h over the real numbers
   (rounding, overflow and NaN are not modelled).  The three code paths for the channels
   (ladder_filter-inl.h:249-270, 271-285, 286-308) compute the same numbers channel by channel
   and are modelled once. *)
From Verif Require Import Common RealUtil BiquadModel CascadeModel.
Local Open Scope R_scope.

Section Ladder.
(* std::numeric_limits<ScalarType>::epsilon() *)
Variable eps : R.
(* smoothing_coeffs and smoothing_samples_max_ of ladder_filter-inl.h:156-162 *)
Variables (smoothing : coeffs R) (samples_max : nat).

(* ladder_filter-inl.h:36-52, one coefficient and the loop *)
Definition clamp (x : R) : R :=
  if Rltb (Rabs x) 1 then x else if Rltb 0 x then 1 - 10 * eps else -1 + 10 * eps.
Definition force_stability (l : list R) : list R := map clamp l.

(* ladder_filter-inl.h:74-89: element m is the value of pi when coeffs_v[m] is divided by it *)
Fixpoint tail_products (k : list R) : list R :=
  match k with
  | [] => [1]
  | a :: k' => let r := tail_products k' in nth 0 r 1 * sqrt (1 - a * a) :: r
  end.
Definition convert_tap_gains (k v : list R) : list R :=
  map (fun p => fst p / snd p) (combine v (tail_products k)).
(* ladder_filter-inl.h:91-100 *)
Definition scattering_of (k : list R) : list R := force_stability (map (fun x => sqrt (1 - x * x)) k).

(* BiquadFilter<Eigen::Matrix<...>>: one channel per coefficient *)
Definition smoother_init (n : nat) : outcome (biquad R) :=
  biquad_init 0 1 Rmult Rdiv (fun x => Reqb x 0) n smoothing.
Definition smoother_reset (s : biquad R) (target : list R) : outcome (biquad R) :=
  obind (biquad_reset 0 s) (fun s' => set_steady_state 1 Rplus Rdiv s' target).
Definition smoother_step (s : biquad R) (target : list R) : outcome (biquad R * list R) :=
  biquad_sample Rplus Rminus Rmult s target.

(* ladder_filter.h:229-264; state_ has a row for each channel; initialized_ is true *)
Record ladder := {
  reflection : list R; scattering : list R; tap_gains : list R;
  reflection_smoother : biquad R; tap_gains_smoother : biquad R;
  reflection_target : list R; tap_gains_target : list R;
  state : list (list R); smoothing_samples : nat }.

(* ladder_filter-inl.h:191-201 *)
Definition ladder_reset (f : ladder) : outcome ladder :=
  obind (smoother_reset (reflection_smoother f) (reflection_target f)) (fun rs =>
  obind (smoother_reset (tap_gains_smoother f) (tap_gains_target f)) (fun ts =>
  Ok {| reflection := reflection f; scattering := scattering f; tap_gains := tap_gains f;
        reflection_smoother := rs; tap_gains_smoother := ts;
        reflection_target := reflection_target f; tap_gains_target := tap_gains_target f;
        state := map (fun _ => repeat 0 (S (length (reflection f)))) (state f);
        smoothing_samples := 0 |})).

(* ladder_filter-inl.h:104-119 with 125-126 and 136-164 *)
Definition ladder_init (num_channels : nat) (k v : list R) : outcome ladder :=
  ocheck (1 <=? num_channels)%nat (ocheck (negb (length k =? 0)%nat) (ocheck (length v =? S (length k))%nat
  (let reflection := force_stability k in
   let tap_gains := convert_tap_gains reflection v in
   obind (smoother_init (length reflection)) (fun rs =>
   obind (smoother_init (length tap_gains)) (fun ts =>
   ladder_reset
     {| reflection := reflection; scattering := scattering_of reflection; tap_gains := tap_gains;
        reflection_smoother := rs; tap_gains_smoother := ts;
        reflection_target := reflection; tap_gains_target := tap_gains;
        state := repeat [] num_channels; smoothing_samples := 0 |}))))).

(* ladder_filter-inl.h:121-135; the DCHECKs are modelled *)
Definition ladder_change (f : ladder) (k v : list R) : outcome ladder :=
  ocheck (negb (length k =? 0)%nat) (ocheck (length v =? S (length k))%nat
  (ocheck (length (reflection f) =? length k)%nat (ocheck (0 <? samples_max)%nat
  (let target := force_stability k in
   Ok {| reflection := reflection f; scattering := scattering f; tap_gains := tap_gains f;
         reflection_smoother := reflection_smoother f; tap_gains_smoother := tap_gains_smoother f;
         reflection_target := target; tap_gains_target := convert_tap_gains target v;
         state := state f; smoothing_samples := samples_max |})))).

(* ladder_filter-inl.h:224-243 *)
Definition smooth (f : ladder) : outcome ladder :=
  match smoothing_samples f with
  | O => Ok f
  | S O =>
      Ok {| reflection := reflection_target f; scattering := scattering_of (reflection_target f);
            tap_gains := tap_gains f;
            reflection_smoother := reflection_smoother f; tap_gains_smoother := tap_gains_smoother f;
            reflection_target := reflection_target f; tap_gains_target := tap_gains f;
            state := state f; smoothing_samples := 0 |}
  | S n =>
      obind (smoother_step (reflection_smoother f) (reflection_target f)) (fun rs =>
      obind (smoother_step (tap_gains_smoother f) (tap_gains_target f)) (fun ts =>
      let r := force_stability (snd rs) in
      Ok {| reflection := r; scattering := scattering_of r; tap_gains := snd ts;
            reflection_smoother := fst rs; tap_gains_smoother := fst ts;
            reflection_target := reflection_target f; tap_gains_target := tap_gains_target f;
            state := state f; smoothing_samples := n |}))
  end.

(* ladder_filter-inl.h:262-268 from stage i on, given the coefficients and the old state from
   index i: the new state from index i + 1 and the input of the next inner stage *)
Fixpoint lattice (k s st : list R) (x : R) : list R * R :=
  match k, s, st with
  | a :: k', c :: s', g :: st' =>
      let r := lattice k' s' st' x in
      ((a * snd r + c * g) :: fst r, c * snd r - a * g)
  | _, _, _ => ([], x)
  end.
(* ladder_filter-inl.h:261-270: one channel *)
Definition channel_update (k s row : list R) (x : R) : list R :=
  let r := lattice k s row x in snd r :: fst r.
Fixpoint dot (x y : list R) : R :=
  match x, y with a :: x', b :: y' => a * b + dot x' y' | _, _ => 0 end.
(* ladder_filter-inl.h:203-312; the size of the frame is DCHECKed *)
Definition ladder_sample (f : ladder) (frame : list R) : outcome (ladder * list R) :=
  obind (smooth f) (fun f =>
  ocheck (length frame =? length (state f))%nat
  (let rows := map (fun p => channel_update (reflection f) (scattering f) (fst p) (snd p)) (combine (state f) frame) in
   Ok ({| reflection := reflection f; scattering := scattering f; tap_gains := tap_gains f;
          reflection_smoother := reflection_smoother f; tap_gains_smoother := tap_gains_smoother f;
          reflection_target := reflection_target f; tap_gains_target := tap_gains_target f;
          state := rows; smoothing_samples := smoothing_samples f |},
       map (fun row => dot row (tap_gains f)) rows))).

(* ladder_filter-inl.h:168-178 and 180-189 *)
Definition ladder_init_tf (num_channels : nat) (b a : list R) : outcome ladder :=
  obind (make_ladder b a) (fun kv => ladder_init num_channels (fst kv) (snd kv)).
Definition ladder_change_tf (f : ladder) (b a : list R) : outcome ladder :=
  obind (make_ladder b a) (fun kv => ladder_change f (fst kv) (snd kv)).

(* the calls a client can make on an initialised filter *)
Inductive ladder_op := Change (k v : list R) | ChangeTf (b a : list R) | Reset | Sample (frame : list R).
Definition ladder_step (f : ladder) (o : ladder_op) : outcome (ladder * list R) :=
  match o with
  | Change k v => obind (ladder_change f k v) (fun f' => Ok (f', []))
  | ChangeTf b a => obind (ladder_change_tf f b a) (fun f' => Ok (f', []))
  | Reset => obind (ladder_reset f) (fun f' => Ok (f', []))
  | Sample frame => ladder_sample f frame
  end.
End Ladder.
