(* Model of audio/dsp/hifi/multi_crossover_filter.h and hifi/multiband_compressor.{h,cc} over the
   real numbers.  float and double rounding, overflow and NaN are not modelled; a division by zero
   is the outcome Undef. *)
From Verif Require Import Common RealUtil BiquadModel CascadeModel DesignModel ComplexModel PoleZeroModel LadderModel.
From Coquelicot Require Import Complex.
Local Open Scope R_scope.

(* biquad_filter_coefficients.h:92-95 *)
Definition eval_biquad (c : coeffs R) (z : C) : outcome C :=
  let d := Cplus (Cmult (Cplus (Cmult (RtoC (a0 c)) z) (RtoC (a1 c))) z) (RtoC (a2 c)) in
  oguard (negb (Reqb (Cmod d) 0))
  (Ok (Cdiv (Cplus (Cmult (Cplus (Cmult (RtoC (b0 c)) z) (RtoC (b1 c))) z) (RtoC (b2 c))) d)).
(* biquad_filter_coefficients.cc:451-458 *)
Definition eval_cascade (cs : list (coeffs R)) (z : C) : outcome C :=
  fold_left (fun acc c => obind acc (fun t => obind (eval_biquad c z) (fun h => Ok (Cmult t h)))) cs (Ok (RtoC 1)).
(* biquad_filter_coefficients.h:248-256 *)
Definition phase_response (cs : list (coeffs R)) (frequency fs : R) : outcome R :=
  let w := 2 * PI * frequency / fs in
  obind (eval_cascade cs (cos w, sin w)) (fun h => Ok (carg h)).

(* std::fmod: the remainder of the division truncated towards zero *)
Definition fmod (x y : R) : R :=
  let q := x / y in
  x - y * IZR (if Rleb 0 q then Int_part q else - Int_part (- q))%Z.
(* multi_crossover_filter.h:207-215 *)
Definition wrap_angle (x : R) : R :=
  let y := fmod (x + PI) (2 * PI) in
  (if Rltb y 0 then y + 2 * PI else y) - PI.

Fixpoint is_sorted (l : list R) : bool :=
  match l with
  | x :: (y :: _) as l' => Rleb x y && is_sorted l'
  | _ => true
  end.
Fixpoint traverse {A B} (f : A -> outcome B) (l : list A) : outcome (list B) :=
  match l with
  | [] => Ok []
  | a :: l' => obind (f a) (fun b => obind (traverse f l') (fun r => Ok (b :: r)))
  end.

(* lowpass_coeffs_, highpass_coeffs_ and allpass_coeffs_ (multi_crossover_filter.h:319-325).
   appended lists the all-pass sections in the order of the calls of line 255; the code does not
   store it. *)
Record bank := {
  lowpass_coeffs : list (list (coeffs R)); highpass_coeffs : list (list (coeffs R));
  allpass_coeffs : list (list (coeffs R)); appended : list (coeffs R) }.

(* multi_crossover_filter.h:183-204: the sections that are appended, and the result *)
Definition band_sections (num_bands : nat) (d : bank) (band : nat) : list (coeffs R) :=
  (if (band <? num_bands - 1)%nat then nth band (lowpass_coeffs d) [] else []) ++
  concat (firstn band (highpass_coeffs d)) ++
  (if (band <? num_bands - 2)%nat then nth band (allpass_coeffs d) [] else []).
Definition band_coefficients (num_bands : nat) (d : bank) (band : nat) : outcome (list (coeffs R)) :=
  appends tolerance [identity_coeffs] (band_sections num_bands d band).

(* multi_crossover_filter.h:247-257 *)
Definition correct (num_bands : nat) (fs : R) (freqs : list R) (d : bank) (lower : nat) : outcome bank :=
  let f := nth lower freqs 0 in
  obind (obind (band_coefficients num_bands d lower) (fun cs => phase_response cs f fs)) (fun lower_phase =>
  obind (obind (band_coefficients num_bands d (S lower)) (fun cs => phase_response cs f fs)) (fun higher_phase =>
  obind (allpass_minimal fs f (wrap_angle (higher_phase - lower_phase))) (fun c =>
  obind (append_biquad tolerance (nth lower (allpass_coeffs d) []) c) (fun ap =>
  Ok {| lowpass_coeffs := lowpass_coeffs d; highpass_coeffs := highpass_coeffs d;
        allpass_coeffs := splice lower [ap] (allpass_coeffs d); appended := appended d ++ [c] |})))).
Fixpoint correct_all (num_bands : nat) (fs : R) (freqs : list R) (d : bank) (lowers : list nat) : outcome bank :=
  match lowers with
  | [] => Ok d
  | l :: r => obind (correct num_bands fs freqs d l) (fun d' => correct_all num_bands fs freqs d' r)
  end.
(* multi_crossover_filter.h:243-246: the values of lower_band_index *)
Definition correction_order (num_stages : nat) : list nat :=
  flat_map (fun stage => rev (seq 0 stage)) (seq 1 (num_stages - 1)).

(* multi_crossover_filter.h:218-264 *)
Definition design_bank (type : crossover_type) (order : Z) (num_bands : nat) (fs : R) (freqs : list R) : outcome bank :=
  ocheck (length freqs =? num_bands - 1)%nat (ocheck (is_sorted freqs)
  (obind (traverse (fun f => crossover type order f fs) freqs) (fun lh =>
   obind (correct_all num_bands fs freqs
            {| lowpass_coeffs := map fst lh; highpass_coeffs := map snd lh;
               allpass_coeffs := repeat [identity_coeffs] (num_bands - 2); appended := [] |}
            (correction_order (num_bands - 1))) (fun d =>
   obind (traverse (simplify tolerance) (allpass_coeffs d)) (fun ap =>
   Ok {| lowpass_coeffs := lowpass_coeffs d; highpass_coeffs := highpass_coeffs d;
         allpass_coeffs := ap; appended := appended d |}))))).

Section Filters.
(* as in LadderModel *)
Variable eps : R.
Variables (smoothing : coeffs R) (samples_max : nat).

(* multi_crossover_filter.h:303-337; the coefficients are kept as a bank *)
Record splitter := {
  sp_bands : nat; sp_channels : nat; sp_rate : R; sp_bank : bank;
  highpass_filters : list (list ladder); lowpass_filters : list (list ladder); allpass_filters : list (list ladder) }.

(* multi_crossover_filter.h:266-278 with initial = true, for the sections of a cascade *)
Definition init_cascade (channels : nat) (cs : list (coeffs R)) : outcome (list ladder) :=
  traverse (fun c => ladder_init_tf eps smoothing channels (vec_b c) (vec_a c)) cs.
(* multi_crossover_filter.h:91-110 *)
Definition reset_cascades (l : list (list ladder)) : outcome (list (list ladder)) :=
  traverse (traverse ladder_reset) l.
Definition splitter_reset (s : splitter) : outcome splitter :=
  obind (reset_cascades (highpass_filters s)) (fun h =>
  obind (reset_cascades (lowpass_filters s)) (fun l =>
  obind (reset_cascades (allpass_filters s)) (fun a =>
  Ok {| sp_bands := sp_bands s; sp_channels := sp_channels s; sp_rate := sp_rate s; sp_bank := sp_bank s;
        highpass_filters := h; lowpass_filters := l; allpass_filters := a |}))).
(* multi_crossover_filter.h:63-78, 82-89 and 280-300.  With num_bands < 2 the vectors of negative
   size throw before the CHECK of line 77; both are CheckFail here. *)
Definition splitter_init (type : crossover_type) (order num_bands : Z) (channels : nat) (fs : R) (freqs : list R) : outcome splitter :=
  ocheck (1 <? num_bands)%Z
  (let nb := Z.to_nat num_bands in
   obind (design_bank type order nb fs freqs) (fun d =>
   obind (traverse (init_cascade channels) (lowpass_coeffs d)) (fun lp =>
   obind (traverse (init_cascade channels) (highpass_coeffs d)) (fun hp =>
   obind (traverse (init_cascade channels) (allpass_coeffs d)) (fun ap =>
   splitter_reset {| sp_bands := nb; sp_channels := channels; sp_rate := fs; sp_bank := d;
                     highpass_filters := hp; lowpass_filters := lp; allpass_filters := ap |}))))).

(* multi_crossover_filter.h:266-300 with initial = false, for one cascade.  A filter added by
   resize has never been initialised: ChangeLadderCoeffs on it is the outcome Undef. *)
Fixpoint change_cascade (fl : list ladder) (cs : list (coeffs R)) : outcome (list ladder) :=
  match cs, fl with
  | [], _ => Ok []
  | _ :: _, [] => Undef
  | c :: cs', f :: fl' =>
      obind (ladder_change_tf eps samples_max f (vec_b c) (vec_a c)) (fun f' =>
      obind (change_cascade fl' cs') (fun r => Ok (f' :: r)))
  end.
Definition change_cascades (fl : list (list ladder)) (css : list (list (coeffs R))) : outcome (list (list ladder)) :=
  traverse (fun p => change_cascade (fst p) (snd p)) (combine fl css).
(* multi_crossover_filter.h:117-120 *)
Definition set_frequencies (type : crossover_type) (order : Z) (s : splitter) (freqs : list R) : outcome splitter :=
  obind (design_bank type order (sp_bands s) (sp_rate s) freqs) (fun d =>
  obind (change_cascades (lowpass_filters s) (lowpass_coeffs d)) (fun lp =>
  obind (change_cascades (highpass_filters s) (highpass_coeffs d)) (fun hp =>
  obind (change_cascades (allpass_filters s) (allpass_coeffs d)) (fun ap =>
  Ok {| sp_bands := sp_bands s; sp_channels := sp_channels s; sp_rate := sp_rate s; sp_bank := d;
        highpass_filters := hp; lowpass_filters := lp; allpass_filters := ap |})))).

(* LadderFilter::ProcessBlock (ladder_filter.h:198-201) on a block of frames *)
Definition run_ladder (f : ladder) (x : list (list R)) : outcome (ladder * list (list R)) :=
  run (ladder_sample eps) f x.
(* multi_crossover_filter.h:139-143 and 147-151: each filter reads the output of the one before *)
Fixpoint run_cascade (fl : list ladder) (x : list (list R)) : outcome (list ladder * list (list R)) :=
  match fl with
  | [] => Ok ([], x)
  | f :: fl' =>
      obind (run_ladder f x) (fun r =>
      obind (run_cascade fl' (snd r)) (fun r' => Ok (fst r :: fst r', snd r')))
  end.
(* multi_crossover_filter.h:134-154; the result is (highpass, lowpass, filtered_output_).  A stage
   without filters would leave the old block in place; cascades always have at least one stage *)
Fixpoint run_stages (hp lp : list (list ladder)) (x : list (list R)) :
    outcome (list (list ladder) * list (list ladder) * list (list (list R))) :=
  match hp, lp with
  | h :: hp', l :: lp' =>
      obind (run_cascade h x) (fun rh =>
      obind (run_cascade l x) (fun rl =>
      obind (run_stages hp' lp' (snd rh)) (fun r =>
      Ok (fst rh :: fst (fst r), fst rl :: snd (fst r), snd rl :: snd r))))
  | _, _ => Ok ([], [], [x])
  end.
(* multi_crossover_filter.h:156-161 *)
Fixpoint run_allpass (ap : list (list ladder)) (bands : list (list (list R))) :
    outcome (list (list ladder) * list (list (list R))) :=
  match ap, bands with
  | a :: ap', b :: bands' =>
      obind (run_cascade a b) (fun r =>
      obind (run_allpass ap' bands') (fun r' => Ok (fst r :: fst r', snd r :: snd r')))
  | _, _ => Ok ([], bands)
  end.
(* multi_crossover_filter.h:132-162 and 168-171; returns FilteredOutput of every band *)
Definition split_block (s : splitter) (x : list (list R)) : outcome (splitter * list (list (list R))) :=
  obind (run_stages (highpass_filters s) (lowpass_filters s) x) (fun r =>
  obind (run_allpass (allpass_filters s) (snd r)) (fun r' =>
  Ok ({| sp_bands := sp_bands s; sp_channels := sp_channels s; sp_rate := sp_rate s; sp_bank := sp_bank s;
         highpass_filters := fst (fst r); lowpass_filters := snd (fst r); allpass_filters := fst r' |}, snd r'))).
End Filters.
