(* Model of audio/dsp/mfcc/{mel_filterbank,dct,mfcc}.{h,cc}.
   Doubles are modelled by real numbers.  A call that returns without touching
   its output vector yields [None].  DCHECKs are compiled out in the release
   build and are not modelled; MfccProofs shows that they hold. *)
From Verif Require Import Common CInt RealUtil.
From Coq Require Import Rtrigo1.
Local Open Scope R_scope.

(* static_cast<int>(x): truncation towards zero; undefined when the result is
   not an int. *)
Definition cast_int (x : R) : outcome Z :=
  let z := (if Rleb 0 x then Int_part x else - Int_part (- x))%Z in
  oguard ((INT_MIN <=? z) && (z <=? INT_MAX))%Z (Ok z).

(* std::ceil *)
Definition ceil (x : R) : Z := (- Int_part (- x))%Z.

(* v[c], v[c] = y on a std::vector<T>: undefined out of bounds. *)
Definition vget {A} (l : list A) (c : Z) : outcome A :=
  if (0 <=? c)%Z then
    match nth_error l (Z.to_nat c) with Some x => Ok x | None => Undef end
  else Undef.
Definition vset {A} (l : list A) (c : Z) (y : A) : outcome (list A) :=
  oguard ((0 <=? c) && (c <? Z.of_nat (length l)))%Z
    (Ok (splice (Z.to_nat c) [y] l)).

(* v[c] += y *)
Definition vadd (l : list R) (c : Z) (y : R) : outcome (list R) :=
  obind (vget l c) (fun x => vset l c (x + y)).

(* for (int i = a; i <= b; ++i) *)
Definition zrange (a b : Z) : list Z :=
  map (fun k => (a + Z.of_nat k)%Z) (seq 0 (Z.to_nat (b - a + 1))).

Fixpoint ofold {S A} (f : S -> A -> outcome S) (s : S) (l : list A) : outcome S :=
  match l with
  | [] => Ok s
  | x :: r => obind (f s x) (fun s' => ofold f s' r)
  end.

(* mel_filterbank.h:50-72 *)
Record mel := mkMel {
  me_init : bool; me_num : Z; me_rate : R; me_fft : Z;
  me_weights : list R; me_mapper : list Z; me_sums : list R;
  me_start : Z; me_end : Z
}.

(* mel_filterbank.cc:224-226 *)
Definition freq_to_mel (f : R) : R := 1127 * ln (1 + f / 700).

(* mel_filterbank.cc:100-121, one iteration: (band_mapper_[i], weights_[i])
   and the updated channel_weights_sum_. *)
Definition mel_bin (num start end_ : Z) (hz mel_low spacing : R)
    (st : list Z * list R * list R) (i : Z) : outcome (list Z * list R * list R) :=
  let '(mapper, weights, sums) := st in
  if ((i <? start) || (end_ <? i))%Z then
    Ok (mapper ++ [(-2)%Z], weights ++ [0], sums)
  else
    let pos := (freq_to_mel (IZR i * hz) - mel_low) / spacing - 1 in
    let channel := (ceil pos - 1)%Z in
    let w := 1 - (pos - IZR channel) in
    obind (if (channel + 1 <? num)%Z then vadd sums (channel + 1) (1 - w) else Ok sums)
      (fun s1 =>
    obind (if (0 <=? channel)%Z then vadd s1 channel w else Ok s1) (fun s2 =>
    Ok (mapper ++ [channel], weights ++ [w], s2))).

(* mel_filterbank.cc:45-152.  The loop fills band_mapper_ and weights_ from
   index 0 to fft_length_-1, so they are built as growing lists.  The search
   for bad channels (lines 128-148) only logs. *)
Definition mel_initialize (s : mel) (fft : Z) (rate : R) (num : Z) (low up : R)
    : outcome (mel * bool) :=
  let s1 := mkMel (me_init s) num rate fft (me_weights s) (me_mapper s)
                  (me_sums s) (me_start s) (me_end s) in
  if (num <? 1)%Z then Ok (s1, false)
  else if Rleb rate 0 then Ok (s1, false)
  else if (fft <? 2)%Z then Ok (s1, false)
  else if Rltb low 0 then Ok (s1, false)
  else if Rleb up low then Ok (s1, false)
  else
    let mel_low := freq_to_mel low in
    let mel_hi := freq_to_mel up in
    let spacing := (mel_hi - mel_low) / (IZR num + 1) in
    let hz := rate / (2 * (IZR fft - 1)) in
    obind (cast_int (3 / 2 + low / hz)) (fun start =>
    obind (cast_int (up / hz)) (fun end_ =>
    obind (ofold (mel_bin num start end_ hz mel_low spacing)
             ([], [], repeat 0 (Z.to_nat num)) (zrange 0 (fft - 1))) (fun r =>
    let '(mapper, weights, sums) := r in
    Ok (mkMel true num rate fft weights mapper sums start end_, true)))).

(* mel_filterbank.cc:172-181, one iteration.  The square root of a negative
   number is not a number: [Undef]. *)
Definition mel_compute_bin (s : mel) (x : list R) (m : list R) (i : Z)
    : outcome (list R) :=
  obind (vget x i) (fun xi =>
  oguard (Rleb 0 xi)
  (obind (vget (me_weights s) i) (fun w =>
   obind (vget (me_mapper s) i) (fun channel =>
   let spec := sqrt xi in
   let weighted := spec * w in
   obind (if (0 <=? channel)%Z then vadd m channel weighted else Ok m) (fun m1 =>
   if (channel + 1 <? me_num s)%Z then vadd m1 (channel + 1) (spec - weighted)
   else Ok m1))))).

(* mel_filterbank.cc:157-182.  size_t <= int compares as unsigned 64 bit
   numbers; a negative end_index_ cannot occur after a successful Initialize,
   and then the comparison is always true. *)
Definition mel_compute (s : mel) (x : list R) : outcome (option (list R)) :=
  if negb (me_init s) then Ok None
  else if ((me_end s <? 0) || (Z.of_nat (length x) <=? me_end s))%Z then Ok None
  else
    oguard (0 <=? me_num s)%Z
    (omap Some (ofold (mel_compute_bin s x) (repeat 0 (Z.to_nat (me_num s)))
                 (zrange (me_start s) (me_end s)))).

(* mel_filterbank.cc:208-220, one iteration; division by zero is [Undef]. *)
Definition mel_inverse_bin (s : mel) (m : list R) (out : list R) (i : Z)
    : outcome (list R) :=
  obind (vget (me_mapper s) i) (fun channel =>
  obind (if (channel + 1 <? me_num s)%Z then
           obind (vget (me_weights s) i) (fun w =>
           obind (vget m (channel + 1)) (fun y =>
           obind (vget (me_sums s) (channel + 1)) (fun d =>
           oguard (negb (Reqb d 0)) (vadd out i ((1 - w) * y / d)))))
         else Ok out) (fun o1 =>
  obind (if (0 <=? channel)%Z then
           obind (vget (me_weights s) i) (fun w =>
           obind (vget m channel) (fun y =>
           obind (vget (me_sums s) channel) (fun d =>
           oguard (negb (Reqb d 0)) (vadd o1 i (w * y / d)))))
         else Ok o1) (fun o2 =>
  obind (vget o2 i) (fun v => vset o2 i (v * v))))).

(* mel_filterbank.cc:184-222 *)
Definition mel_estimate_inverse (s : mel) (m : list R) : outcome (option (list R)) :=
  if negb (me_init s) then Ok None
  else if negb (Z.of_nat (length m) =? me_num s)%Z then Ok None
  else
    oguard (0 <=? me_fft s)%Z
    (omap Some (ofold (mel_inverse_bin s m) (repeat 0 (Z.to_nat (me_fft s)))
                 (zrange (me_start s) (me_end s)))).

(* mel_filterbank.cc:43.  Only initialized_ is set; the other members hold
   arbitrary values until Initialize; the vectors are empty. *)
Definition mel_new : mel := mkMel false 0 0 0 [] [] [] 0 0.

(* dct.h: members *)
Record dct := mkDct {
  dc_init : bool; dc_count : Z; dc_length : Z; dc_cosines : list (list R)
}.

(* dct.cc:29-30 *)
Definition dct_new : dct := mkDct false 0 0 [].

(* dct.cc:32-63.  cosines_.resize and cosines_[i].resize keep nothing that is
   not overwritten. *)
Definition dct_initialize (s : dct) (input_length count : Z) : dct * bool :=
  let s1 := mkDct (dc_init s) count input_length (dc_cosines s) in
  if (count <? 1)%Z then (s1, false)
  else if (input_length <? 1)%Z then (s1, false)
  else if (input_length <? count)%Z then (s1, false)
  else
    let fnorm := sqrt (2 / IZR input_length) in
    let arg := PI / IZR input_length in
    (mkDct true count input_length
       (map (fun i => map (fun j => fnorm * cos (INR i * arg * (INR j + 1 / 2)))
                          (seq 0 (Z.to_nat input_length)))
            (seq 0 (Z.to_nat count))), true).

(* dct.cc:79-83: one coefficient *)
Definition dct_row (s : dct) (x : list R) (length_ : Z) (i : Z) : outcome R :=
  ofold (fun sum j =>
    obind (vget (dc_cosines s) i) (fun row =>
    obind (vget row j) (fun c =>
    obind (vget x j) (fun v => Ok (sum + c * v))))) 0 (zrange 0 (length_ - 1)).

Fixpoint omap_list {A B} (f : A -> outcome B) (l : list A) : outcome (list B) :=
  match l with
  | [] => Ok []
  | x :: r => obind (f x) (fun y => omap (cons y) (omap_list f r))
  end.

(* dct.cc:65-85.  output->resize of a negative count throws: [Undef]. *)
Definition dct_compute (s : dct) (x : list R) : outcome (option (list R)) :=
  if negb (dc_init s) then Ok None
  else
    oguard (0 <=? dc_count s)%Z
    (let len := Z.min (Z.of_nat (length x)) (dc_length s) in
     omap Some (omap_list (dct_row s x len) (zrange 0 (dc_count s - 1)))).

(* mfcc.h:70-76 *)
Record mfcc := mkMfcc {
  mf_mel : mel; mf_dct : dct; mf_init : bool;
  mf_low : R; mf_up : R; mf_channels : Z; mf_coeffs : Z
}.

(* mfcc.cc:28-38 (in mfcc.cc numbering) *)
Definition mfcc_new : mfcc := mkMfcc mel_new dct_new false 20 4000 40 13.

(* mfcc.cc:40-51: & is not short-circuiting. *)
Definition mfcc_initialize (s : mfcc) (input_length : Z) (rate : R)
    : outcome (mfcc * bool) :=
  obind (mel_initialize (mf_mel s) input_length rate (mf_channels s)
           (mf_low s) (mf_up s)) (fun r =>
  let '(d, b) := dct_initialize (mf_dct s) (mf_channels s) (mf_coeffs s) in
  let ok := snd r && b in
  Ok (mkMfcc (fst r) d ok (mf_low s) (mf_up s) (mf_channels s) (mf_coeffs s), ok)).

(* mfcc.h:46-64 *)
Inductive mfcc_setting := SetUp (f : R) | SetLow (f : R) | SetChannels (n : Z) | SetCoeffs (n : Z).
Definition mfcc_set (s : mfcc) (p : mfcc_setting) : outcome mfcc :=
  ocheck (negb (mf_init s))
    (Ok match p with
        | SetUp f => mkMfcc (mf_mel s) (mf_dct s) (mf_init s) (mf_low s) f (mf_channels s) (mf_coeffs s)
        | SetLow f => mkMfcc (mf_mel s) (mf_dct s) (mf_init s) f (mf_up s) (mf_channels s) (mf_coeffs s)
        | SetChannels n => mkMfcc (mf_mel s) (mf_dct s) (mf_init s) (mf_low s) (mf_up s) n (mf_coeffs s)
        | SetCoeffs n => mkMfcc (mf_mel s) (mf_dct s) (mf_init s) (mf_low s) (mf_up s) (mf_channels s) n
        end).

Definition kFilterbankFloor : R := / 10 ^ 12.

(* mfcc.cc:53-69.  The local vector [working] stays empty when the filterbank
   returns without writing. *)
Definition mfcc_compute (s : mfcc) (frame : list R) : outcome (option (list R)) :=
  if negb (mf_init s) then Ok None
  else
    obind (mel_compute (mf_mel s) frame) (fun w =>
    let working := match w with Some l => l | None => [] end in
    dct_compute (mf_dct s)
      (map (fun v => ln (if Rltb v kFilterbankFloor then kFilterbankFloor else v)) working)).
