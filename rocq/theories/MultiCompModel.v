(* Model of audio/dsp/hifi/multiband_compressor.{h,cc} over the real numbers, on top of the models
   of the crossover filterbank (MultiCrossModel) and of the dynamic range controller (DrcModel). *)
From Verif Require Import Common RealUtil BiquadModel CascadeModel PoleZeroModel LadderModel FixedDelayLineModel EnvelopeModel DrcCurveModel DrcModel MultiCrossModel.
Local Open Scope R_scope.

(* multiband_compressor.h:110-118 *)
Record mb_params := { mp_bands : Z; mp_order : Z; mp_type : crossover_type; mp_freqs : list R; mp_drc : list drc_params }.
(* multiband_compressor.h:69-72 *)
Definition mp_set_frequencies (p : mb_params) (freqs : list R) : outcome mb_params :=
  ocheck (Z.of_nat (length freqs) =? mp_bands p - 1)%Z
  (Ok {| mp_bands := mp_bands p; mp_order := mp_order p; mp_type := mp_type p; mp_freqs := freqs; mp_drc := mp_drc p |}).
(* multiband_compressor.h:44-58; a negative count of bands makes the vector throw before the CHECK, CheckFail here *)
Definition mp_make (bands : Z) (freqs : list R) (order : Z) (type : crossover_type) : outcome mb_params :=
  ocheck (1 <? bands)%Z (ocheck (2 <=? order)%Z
  (mp_set_frequencies {| mp_bands := bands; mp_order := order; mp_type := type; mp_freqs := []; mp_drc := repeat default_params (Z.to_nat bands) |} freqs)).
(* multiband_compressor.h:63-67 *)
Definition with_lookahead (l : R) (p : drc_params) : drc_params :=
  {| envelope_type := envelope_type p; dynamics_type := dynamics_type p; input_gain_db := input_gain_db p; output_gain_db := output_gain_db p;
     threshold_db := threshold_db p; ratio_of := ratio_of p; knee_width_db := knee_width_db p; attack_s := attack_s p; release_s := release_s p; lookahead_s := l |}.
Definition mp_set_lookahead (p : mb_params) (l : R) : mb_params :=
  {| mp_bands := mp_bands p; mp_order := mp_order p; mp_type := mp_type p; mp_freqs := mp_freqs p; mp_drc := map (with_lookahead l) (mp_drc p) |}.
(* multiband_compressor.h:79-83: the caller assigns through the pointer *)
Definition mp_set_drc (p : mb_params) (stage : Z) (q : drc_params) : outcome mb_params :=
  ocheck (0 <=? stage)%Z (ocheck (stage <? mp_bands p)%Z
  (Ok {| mp_bands := mp_bands p; mp_order := mp_order p; mp_type := mp_type p; mp_freqs := mp_freqs p; mp_drc := splice (Z.to_nat stage) [q] (mp_drc p) |})).

(* multiband_compressor.h:153-163; crossover type, order and number of bands are members of
   band_splitter_.  The splitter is None before the first Init. *)
Record multiband := { mb_bands : Z; mb_order : Z; mb_type : crossover_type; mb_freqs : list R; mb_splitter : option splitter; mb_drc : list drc }.

(* output += workspace_ (multiband_compressor.cc:80), two blocks of the same shape *)
Definition add_frames (x y : list (list R)) : list (list R) :=
  map (fun p => map (fun q => fst q + snd q) (combine (fst p) (snd p))) (combine x y).

Section Compressor.
Variable eps : R.
Variables (smoothing : coeffs R) (samples_max : nat).
(* content of uninitialised memory in the delay line of each band *)
Variable junk : nat -> nat -> list R.

(* multiband_compressor.cc:24-39 *)
Definition mb_make (p : mb_params) : outcome multiband :=
  ocheck (1 <? mp_bands p)%Z
  (obind (traverse drc_make (mp_drc p)) (fun ds =>
   Ok {| mb_bands := mp_bands p; mb_order := mp_order p; mb_type := mp_type p; mb_freqs := mp_freqs p; mb_splitter := None; mb_drc := ds |})).

(* the calls of Init and ProcessBlock for the bands b, b + 1, ... *)
Fixpoint init_drcs (b : nat) (ds : list drc) (channels max_block_size : nat) (fs : R) : outcome (list drc) :=
  match ds with
  | [] => Ok []
  | d :: ds' => obind (drc_init (junk b) d channels max_block_size fs) (fun d1 =>
                obind (init_drcs (S b) ds' channels max_block_size fs) (fun r => Ok (d1 :: r)))
  end.
Fixpoint process_drcs (b : nat) (ds : list drc) (bands : list (list (list R))) : outcome (list drc * list (list (list R))) :=
  match bands with
  | [] => Ok (ds, [])
  | x :: bands' =>
      match ds with
      | [] => Undef
      | d :: ds' => obind (drc_process (junk b) d x x) (fun r =>
                    obind (process_drcs (S b) ds' bands') (fun r' => Ok (fst r :: fst r', snd r :: snd r')))
      end
  end.
Definition with_parts (c : multiband) (s : splitter) (ds : list drc) : multiband :=
  {| mb_bands := mb_bands c; mb_order := mb_order c; mb_type := mb_type c; mb_freqs := mb_freqs c; mb_splitter := Some s; mb_drc := ds |}.
(* multiband_compressor.cc:41-52 *)
Definition mb_init (c : multiband) (channels max_block_size : nat) (fs : R) : outcome multiband :=
  obind (splitter_init eps smoothing (mb_type c) (mb_order c) (mb_bands c) channels fs (mb_freqs c)) (fun s =>
  obind (init_drcs 0 (mb_drc c) channels max_block_size fs) (fun ds => Ok (with_parts c s ds))).
(* multiband_compressor.cc:54-59; before Init the null envelope_ of the controllers is dereferenced *)
Definition mb_reset (c : multiband) : outcome multiband :=
  match mb_splitter c with
  | None => Undef
  | Some s => obind (splitter_reset s) (fun s' => obind (traverse drc_reset (mb_drc c)) (fun ds => Ok (with_parts c s' ds)))
  end.
(* multiband_compressor.h:132-135.  Before Init the sample rate is zero and every frequency is refused by
   the design (crossover.cc:52) *)
Definition mb_set_frequencies (c : multiband) (freqs : list R) : outcome multiband :=
  match mb_splitter c with
  | None => CheckFail
  | Some s => obind (set_frequencies eps samples_max (mb_type c) (mb_order c) s freqs) (fun s' => Ok (with_parts c s' (mb_drc c)))
  end.
(* multiband_compressor.h:137-142 *)
Definition mb_set_drc (c : multiband) (stage : Z) (p : drc_params) : outcome multiband :=
  ocheck (0 <=? stage)%Z (ocheck (stage <? Z.of_nat (length (mb_drc c)))%Z
  (match nth_error (mb_drc c) (Z.to_nat stage) with
   | None => Undef
   | Some d => obind (drc_set d p) (fun d' =>
       Ok {| mb_bands := mb_bands c; mb_order := mb_order c; mb_type := mb_type c; mb_freqs := mb_freqs c; mb_splitter := mb_splitter c;
             mb_drc := splice (Z.to_nat stage) [d'] (mb_drc c) |})
   end)).
(* multiband_compressor.cc:63-83.  Before Init the filterbank has no filters; the model does not
   describe its output in that case (Undef); the controllers refuse the block (their number of channels is zero). *)
Definition mb_process (c : multiband) (x : list (list R)) : outcome (multiband * list (list R)) :=
  match mb_splitter c with
  | None => Undef
  | Some s =>
      obind (split_block eps s x) (fun r =>
      obind (process_drcs 0 (mb_drc c) (snd r)) (fun r' =>
      Ok (with_parts c (fst r) (fst r'), fold_left add_frames (snd r') (map (map (fun _ => 0)) x))))
  end.

Inductive mb_op := MInit (channels max_block_size : nat) (fs : R) | MReset | MSetFrequencies (freqs : list R) | MSetDrc (stage : Z) (p : drc_params) | MProcess (x : list (list R)).
Definition mb_step (c : multiband) (o : mb_op) : outcome (multiband * list (list R)) :=
  match o with
  | MInit n m fs => omap (fun c' => (c', [])) (mb_init c n m fs)
  | MReset => omap (fun c' => (c', [])) (mb_reset c)
  | MSetFrequencies f => omap (fun c' => (c', [])) (mb_set_frequencies c f)
  | MSetDrc st p => omap (fun c' => (c', [])) (mb_set_drc c st p)
  | MProcess x => mb_process c x
  end.
Definition mb_session (p : mb_params) (ops : list mb_op) : outcome (multiband * list (list (list R))) :=
  obind (mb_make p) (fun c => run mb_step c ops).
End Compressor.
