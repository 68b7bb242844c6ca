(* Model of audio/dsp/kiss_fft.{h,cc} and audio/dsp/kiss_fft_util.{h,cc}.
   Samples and spectra are exact real and complex numbers.  The Kiss FFT library
   itself (third_party, not in the repository) is a parameter of the model.  Raw
   arrays are lists; an access outside of an array is Undef.  int overflow of
   sizes is not modelled. *)
From Coq Require Import Rtrigo1.
From Verif Require Import Common CInt RealUtil MfccModel.
From Coquelicot Require Import Complex.
Local Open Scope R_scope.

(* std::polar(1.0, t) *)
Definition cis (t : R) : C := (cos t, sin t).

Section Fft.
(* kiss_fft(cfg of the size, inverse flag), kiss_fftr, kiss_fftri,
   kiss_fft_next_fast_size, kiss_fftr_next_fast_size_real. *)
Context (kiss_fft : bool -> nat -> list C -> list C)
        (kiss_fftr : nat -> list R -> list C)
        (kiss_fftri : nat -> list C -> list R)
        (next_fast_size next_fast_size_real : nat -> nat).

(* kiss_fft.cc:67-75, one of the loops; the fuel bounds the iterations. *)
Fixpoint strip (fuel : nat) (p size : Z) : outcome Z :=
  if (Z.rem size p =? 0)%Z then
    match fuel with O => Undef | S n => strip n p (Z.quot size p) end
  else Ok size.

(* kiss_fft.cc:66-85 *)
Definition is_fast_kiss_fft_size (size : Z) : outcome bool :=
  let fuel := Z.to_nat size in
  obind (strip fuel 2 size) (fun size =>
  obind (strip fuel 3 size) (fun size =>
  obind (strip fuel 5 size) (fun size => Ok (size <=? 25)%Z))).

(* kiss_fft.cc:97-103; pushing while iterating down from i does not change the
   elements read. *)
Definition reflect_spectrum (size : nat) (spectrum : list C) : outcome (list C) :=
  if Nat.eqb (size / 2 + 1) (length spectrum) then
    let i := (length spectrum - (if Nat.even size then 2 else 1))%nat in
    Ok (spectrum ++ map (fun k => Cconj (nth (i - k) spectrum (RtoC 0))) (seq 0 i))
  else CheckFail.

(* kiss_fft.cc:252-258 and 319-323: phasor *= rotator, rotator *= rotator_step,
   n times; the successive phasors. *)
Fixpoint chirp_loop (n : nat) (phasor rotator rotator_step : C) : list C :=
  match n with
  | O => []
  | S m => let phasor := Cmult phasor rotator in
           phasor :: chirp_loop m phasor (Cmult rotator rotator_step) rotator_step
  end.
Definition chirp (sign : R) (size : nat) : list C :=
  let rotator := cis (sign * PI / INR size) in
  chirp_loop (size - 1) (RtoC 1) rotator (Cmult rotator rotator).

(* kiss_fft.cc:252-258, the writes to b. *)
Fixpoint b_writes (fft_size i : nat) (phasors b : list C) : outcome (list C) :=
  match phasors with
  | [] => Ok b
  | p :: r =>
    obind (vset b (Z.of_nat i) p) (fun b =>
    obind (vset b (Z.of_nat fft_size - Z.of_nat i) p) (fun b =>
    b_writes fft_size (S i) r b))
  end.

(* kiss_fft.cc:327-330 *)
Record bluestein := mkBluestein {
  bl_size : nat; bl_fft : nat; bl_spectrum : list C; bl_twiddle : list C
}.

(* kiss_fft.cc:239-262 *)
Definition bluestein_new (size : nat) : outcome bluestein :=
  let fft_size := next_fast_size (2 * size - 1) in
  let phasors := chirp 1 size in
  obind (vset (repeat (RtoC 0) fft_size) 0 (RtoC 1)) (fun b =>
  obind (b_writes fft_size 1 phasors b) (fun b =>
  Ok (mkBluestein size fft_size (kiss_fft false fft_size b)
        (Cdiv (RtoC 1) (RtoC (INR fft_size))
         :: map (fun p => Cdiv (Cconj p) (RtoC (INR fft_size))) phasors)))).

(* kiss_fft.cc:312-325 *)
Definition multiply_by_chirp (size : nat) (input : list C) (sign : R) : list C :=
  map (fun ip => Cmult (fst ip) (snd ip)) (combine input (RtoC 1 :: chirp sign size)).

(* Pointwise product of arrays of the same length. *)
Definition times (a b : list C) : list C :=
  map (fun p => Cmult (fst p) (snd p)) (combine a b).

(* kiss_fft.cc:268-288 *)
Definition bluestein_forward (t : bluestein) (input : list C) : list C :=
  let a := vresize (RtoC 0) (bl_fft t) (multiply_by_chirp (bl_size t) input (-1)) in
  let s := times (kiss_fft false (bl_fft t) a) (bl_spectrum t) in
  let convolution := kiss_fft true (bl_fft t) s in
  times (bl_twiddle t) (firstn (bl_size t) convolution).

(* kiss_fft.cc:290-308 *)
Definition bluestein_inverse (t : bluestein) (input : list C) : list C :=
  let n := bl_fft t in
  let a := vresize (RtoC 0) n (multiply_by_chirp (bl_size t) input 1) in
  let reversed := map (fun i => Cconj (nth (if Nat.eqb i 0 then 0 else n - i) (bl_spectrum t) (RtoC 0))) (seq 0 n) in
  let s := times (kiss_fft false n a) reversed in
  let convolution := kiss_fft true n s in
  times (map Cconj (bl_twiddle t)) (firstn (bl_size t) convolution).

(* kiss_fft.cc:45-53: the two implementations of a complex transform. *)
Inductive complex_impl := KissComplex (size : nat) | Bluestein (t : bluestein).
Definition ci_size (i : complex_impl) : nat :=
  match i with KissComplex n => n | Bluestein t => bl_size t end.
Definition ci_forward (i : complex_impl) (x : list C) : list C :=
  match i with KissComplex n => kiss_fft false n x | Bluestein t => bluestein_forward t x end.
Definition ci_inverse (i : complex_impl) (x : list C) : list C :=
  match i with KissComplex n => kiss_fft true n x | Bluestein t => bluestein_inverse t x end.

(* kiss_fft.cc:55-61, 146-219 *)
Inductive real_impl := KissReal (size : nat) | ComplexBackend (backend : complex_impl).
Definition ri_size (i : real_impl) : nat :=
  match i with KissReal n => n | ComplexBackend b => ci_size b end.
Definition ri_forward (i : real_impl) (x : list R) : list C :=
  match i with
  | KissReal n => kiss_fftr n x
  | ComplexBackend b => firstn (ci_size b / 2 + 1) (ci_forward b (map RtoC x))
  end.
Definition ri_inverse (i : real_impl) (s : list C) : outcome (list R) :=
  match i with
  | KissReal n => Ok (kiss_fftri n s)
  | ComplexBackend b =>
    obind (reflect_spectrum (ci_size b) (firstn (ci_size b / 2 + 1) s)) (fun r =>
    Ok (map Re (ci_inverse b r)))
  end.

(* kiss_fft.cc:335-345 *)
Definition complex_new (size : Z) : outcome complex_impl :=
  ocheck (0 <? size)%Z
    (obind (is_fast_kiss_fft_size size) (fun fast =>
     if fast then Ok (KissComplex (Z.to_nat size))
     else obind (bluestein_new (Z.to_nat size)) (fun t => Ok (Bluestein t)))).

(* kiss_fft.cc:396-412 *)
Definition real_new (size : Z) : outcome real_impl :=
  ocheck (0 <? size)%Z
    (obind (is_fast_kiss_fft_size size) (fun fast =>
     if negb fast then
       obind (bluestein_new (Z.to_nat size)) (fun t => Ok (ComplexBackend (Bluestein t)))
     else if (Z.rem size 2 =? 0)%Z then Ok (KissReal (Z.to_nat size))
     else Ok (ComplexBackend (KissComplex (Z.to_nat size))))).

(* kiss_fft.cc:360-374 *)
Definition complex_forward (t : complex_impl) (input : list C) : outcome (list C) :=
  ocheck (Nat.eqb (length input) (ci_size t)) (Ok (ci_forward t input)).
(* kiss_fft.cc:376-394 *)
Definition complex_inverse (t : complex_impl) (normalization : bool) (input : list C) : outcome (list C) :=
  ocheck (Nat.eqb (length input) (ci_size t))
    (let output := ci_inverse t input in
     Ok (if normalization then map (Cmult (RtoC (1 / INR (ci_size t)))) output else output)).
(* kiss_fft.cc:427-440 *)
Definition real_forward (t : real_impl) (input : list R) : outcome (list C) :=
  ocheck (Nat.eqb (length input) (ri_size t)) (Ok (ri_forward t input)).
(* kiss_fft.cc:442-459 *)
Definition real_inverse (t : real_impl) (normalization : bool) (input : list C) : outcome (list R) :=
  ocheck (Nat.eqb (length input) (ri_size t / 2 + 1))
    (obind (ri_inverse t input) (fun output =>
     Ok (if normalization then map (Rmult (1 / INR (ri_size t))) output else output))).

(* --- kiss_fft_util.cc --- *)

(* kiss_fft_util.cc:209-236 *)
Definition linear_convolution (a b : list R) : outcome (list R) :=
  let n := (length a + length b - 1)%nat in
  let fft_size := next_fast_size_real n in
  let x := vresize 0 fft_size a in
  let y := vresize 0 fft_size b in
  obind (real_new (Z.of_nat fft_size)) (fun t =>
  obind (real_forward t x) (fun xt =>
  obind (real_forward t y) (fun yt =>
  obind (real_inverse t true (times xt yt)) (fun c =>
  Ok (vresize 0 n c))))).

(* std::pow(complex<float>, int): repeated multiplication, exact. *)
Fixpoint cpow (z : C) (n : nat) : C :=
  match n with O => RtoC 1 | S m => Cmult z (cpow z m) end.

(* kiss_fft_util.cc:238-263 *)
Definition linear_convolution_times (a : list R) (num_times : Z) : outcome (list R) :=
  ocheck (0 <? num_times)%Z
    (let n := ((length a - 1) * Z.to_nat num_times + 1)%nat in
     let fft_size := next_fast_size_real n in
     obind (real_new (Z.of_nat fft_size)) (fun t =>
     obind (real_forward t (vresize 0 fft_size a)) (fun xt =>
     obind (real_inverse t true (map (fun z => cpow z (Z.to_nat num_times)) xt)) (fun c =>
     Ok (vresize 0 n c))))).

(* spectrum.back() /= 2 *)
Definition halve_back (s : list C) : list C :=
  firstn (length s - 1) s ++ [Cdiv (nth (length s - 1) s (RtoC 0)) (RtoC 2)].

(* kiss_fft_util.cc:33-62 *)
Definition upsample (input : list R) (factor : Z) : outcome (list R) :=
  let n := Z.of_nat (length input) in
  let result_size := (n * factor)%Z in
  obind (real_new n) (fun t =>
  obind (real_forward t input) (fun s =>
  let s := if Nat.even (length input) then halve_back s else s in
  obind (real_new result_size) (fun t' =>
  obind (real_inverse t' false (vresize (RtoC 0) (ri_size t' / 2 + 1) s)) (fun r =>
  Ok (map (Rmult (1 / INR (length input))) r))))).

(* kiss_fft_util.cc:155-180; std::round rounds halves away from zero, here of a
   non-negative number, so it is floor(x + 1/2). *)
Definition fft_periodic_resample (input : list R) (in_rate out_rate : R) : outcome (list R) :=
  ocheck (Rltb 0 in_rate && Rltb 0 out_rate)%bool
    (obind (cast_int (IZR (Int_part (INR (length input) * (out_rate / in_rate) + 1 / 2)))) (fun out_size =>
     let n := Z.of_nat (length input) in
     if (out_size =? n)%Z then Ok input
     else
       obind (real_new n) (fun t =>
       obind (real_forward t input) (fun s =>
       let s := if (Nat.even (length input) && (n <? out_size)%Z)%bool then halve_back s else s in
       obind (real_new out_size) (fun t' =>
       obind (real_inverse t' false (vresize (RtoC 0) (ri_size t' / 2 + 1) s)) (fun r =>
       Ok (map (fun y => y / INR (length input)) r))))))).

(* kiss_fft_util.cc:200-204 *)
Fixpoint gaussian_weights (weight ratio ratio_ratio : R) (s : list C) : list C :=
  match s with
  | [] => []
  | x :: r => Cmult x (RtoC weight) :: gaussian_weights (weight * ratio) (ratio * ratio_ratio) ratio_ratio r
  end.

(* kiss_fft_util.cc:182-207 *)
Definition periodic_gaussian_convolution (input : list R) (sigma : R) : outcome (list R) :=
  obind (real_new (Z.of_nat (length input))) (fun t =>
  obind (real_forward t input) (fun s =>
  let n := INR (length input) in
  let factor := 2 * (PI * sigma / n) ^ 2 in
  real_inverse t false (gaussian_weights (1 / n) (exp (- factor)) (exp (-2 * factor)) s))).

(* --- brickwall filters; rd rounds the float operations on the edges --- *)
Section Bands.
Context (rd : R -> R).

(* kiss_fft_util.cc:109-153.  The addition 1 + floor(...) is taken as exact.
   previous is the old content of *output_spectrum,
   or the input itself when in_place. *)
Definition hard_bandpass_spectrum {A} (zero : A) (in_place : bool) (input previous : list A)
    (low high bin_width : R) : outcome (list A) :=
  let size := length input in
  ocheck (negb (Nat.eqb size 0) && Rleb 0 low && Rleb low high
          && Rleb high (rd (bin_width * rd (INR size))))%bool
  (oguard (negb (Reqb bin_width 0))
   (let out := if in_place then input else vresize zero size previous in
    obind (cast_int (IZR (ceil (rd (low / bin_width))))) (fun passband_start =>
    let start_index := Z.min passband_start (Z.of_nat size) in
    oguard (0 <=? start_index)%Z
    (let out := splice 0 (repeat zero (Z.to_nat start_index)) out in
     obind (cast_int (IZR (1 + Int_part (rd (high / bin_width))))) (fun stopband_start =>
     let stop_index := Z.min stopband_start (Z.of_nat size) in
     oguard ((start_index <=? stop_index) && (stop_index <=? Z.of_nat size))%Z
     (let out :=
        if in_place then out
        else splice (Z.to_nat start_index)
               (firstn (Z.to_nat stop_index - Z.to_nat start_index) (skipn (Z.to_nat start_index) input)) out in
      Ok (splice (Z.to_nat stop_index) (repeat zero (size - Z.to_nat stop_index)) out))))))).

(* kiss_fft_util.cc:69-74 *)
Definition hard_lowpass_spectrum {A} (zero : A) in_place (input previous : list A) high bin_width :=
  hard_bandpass_spectrum zero in_place input previous 0 high bin_width.
(* kiss_fft_util.cc:81-87: the product is computed in double and rounded to float. *)
Definition hard_highpass_spectrum {A} (zero : A) in_place (input previous : list A) low bin_width :=
  hard_bandpass_spectrum zero in_place input previous low
    (rd ((INR (length input) - 1 / 2) * bin_width)) bin_width.

(* kiss_fft_util.cc:89-107 *)
Definition fft_hard_bandpass (input : list R) (low high sample_rate : R) : outcome (list R) :=
  ocheck (negb (Nat.eqb (length input) 0) && Rleb 0 low && Rleb low high
          && Rltb high (rd (sample_rate * rd (1 / 2 + rd (1 / 2 / rd (INR (length input)))))))%bool
  (obind (real_new (Z.of_nat (length input))) (fun t =>
   obind (real_forward t input) (fun s =>
   let bin_width := rd (sample_rate / rd (INR (length input))) in
   obind (hard_bandpass_spectrum (RtoC 0) true s s low high bin_width) (fun s =>
   real_inverse t true s)))).
(* kiss_fft_util.cc:64-67 *)
Definition fft_hard_lowpass (input : list R) (high sample_rate : R) : outcome (list R) :=
  fft_hard_bandpass input 0 high sample_rate.
(* kiss_fft_util.cc:76-79 *)
Definition fft_hard_highpass (input : list R) (low sample_rate : R) : outcome (list R) :=
  fft_hard_bandpass input low (rd (sample_rate / 2)) sample_rate.
End Bands.
End Fft.
