(* Model of audio/linear_filters/biquad_filter-inl.h (BiquadFilter,
   BiquadFilterCascade), the block loops of filter_traits.h, and
   audio/dsp/portable/biquad_filter.h.

   Numbers are elements of an arbitrary type F with the C++ operators as parameters;
   conversions between float and double are not modelled.  Laws are assumed only by the
   theorems that need them. *)
From Verif Require Import Common.

Section Biquad.
Context {F : Type} (zero one : F) (add sub mul div : F -> F -> F) (is_zero : F -> bool).

(* biquad_filter_coefficients.h:151-152, the vectors b and a of length three
   (CHECKed by the constructor, lines 67-72). *)
Record coeffs := { b0 : F; b1 : F; b2 : F; a0 : F; a1 : F; a2 : F }.

(* biquad_filter.h:202-211; num_channels_ is the number of rows of state_; a row holds
   s[n-1] and s[n-2]. *)
Record biquad := { ff0 : F; ff1 : F; ff2 : F; fb1 : F; fb2 : F; rows : list (F * F) }.

(* biquad_filter-inl.h:25-42 (dynamic number of channels) *)
Definition biquad_init (num_channels : nat) (c : coeffs) : outcome biquad :=
  ocheck (1 <=? num_channels)
  (ocheck (negb (is_zero (a0 c)))
  (let scale := div one (a0 c) in
   Ok {| ff0 := mul scale (b0 c); ff1 := mul scale (b1 c); ff2 := mul scale (b2 c);
         fb1 := mul scale (a1 c); fb2 := mul scale (a2 c);
         rows := repeat (zero, zero) num_channels |})).

Definition with_rows (f : biquad) (r : list (F * F)) : biquad :=
  {| ff0 := ff0 f; ff1 := ff1 f; ff2 := ff2 f; fb1 := fb1 f; fb2 := fb2 f; rows := r |}.

(* biquad_filter-inl.h:64-67 *)
Definition biquad_reset (f : biquad) : outcome biquad :=
  ocheck (1 <=? length (rows f))
  (Ok (with_rows f (repeat (zero, zero) (length (rows f))))).

(* biquad_filter-inl.h:46-61; Eigen requires the sizes to agree. *)
Definition set_steady_state (f : biquad) (v : list F) : outcome biquad :=
  oguard (length v =? length (rows f))
  (Ok (with_rows f (map (fun x => let s := div x (add (add (fb1 f) (fb2 f)) one) in (s, s)) v))).

(* biquad_filter-inl.h:111-121 (and 128-137): one channel of ProcessSample. *)
Definition channel_step (f : biquad) (s : F * F) (x : F) : (F * F) * F :=
  let next := sub x (add (mul (fst s) (fb1 f)) (mul (snd s) (fb2 f))) in
  ((next, fst s), add (mul next (ff0 f)) (add (mul (fst s) (ff1 f)) (mul (snd s) (ff2 f)))).

(* biquad_filter-inl.h:71-170; a frame of the wrong size is undefined (DCHECKed). *)
Definition biquad_sample (f : biquad) (frame : list F) : outcome (biquad * list F) :=
  oguard ((1 <=? length (rows f)) && (length frame =? length (rows f)))
  (let r := map (fun p => channel_step f (fst p) (snd p)) (combine (rows f) frame) in
   Ok (with_rows f (map fst r), map snd r)).

(* biquad_filter.h:171-174 with the loops of filter_traits.h:158-160 and 227-254 *)
Definition biquad_block (f : biquad) (frames : list (list F)) : outcome (biquad * list (list F)) :=
  ocheck (1 <=? length (rows f)) (run biquad_sample f frames).

(* biquad_filter-inl.h:174-183 (the DCHECKs make other arguments undefined) *)
Fixpoint init_stages (num_channels : nat) (cs : list coeffs) : outcome (list biquad) :=
  match cs with
  | [] => Ok []
  | c :: r => obind (biquad_init num_channels c) (fun f =>
              obind (init_stages num_channels r) (fun fs => Ok (f :: fs)))
  end.
Definition cascade_init (num_channels : nat) (cs : list coeffs) : outcome (list biquad) :=
  oguard ((1 <=? num_channels) && (1 <=? length cs)) (init_stages num_channels cs).

(* biquad_filter-inl.h:186-190 *)
Fixpoint cascade_reset (fs : list biquad) : outcome (list biquad) :=
  match fs with
  | [] => Ok []
  | f :: r => obind (biquad_reset f) (fun f' => obind (cascade_reset r) (fun r' => Ok (f' :: r')))
  end.

(* biquad_filter-inl.h:198-201 and 210-213: the remaining stages, in place on the output *)
Fixpoint stages_block (fs : list biquad) (x : list (list F)) : outcome (list biquad * list (list F)) :=
  match fs with
  | [] => Ok ([], x)
  | f :: r => obind (biquad_block f x) (fun p =>
              obind (stages_block r (snd p)) (fun q => Ok (fst p :: fst q, snd q)))
  end.
Fixpoint stages_sample (fs : list biquad) (x : list F) : outcome (list biquad * list F) :=
  match fs with
  | [] => Ok ([], x)
  | f :: r => obind (biquad_sample f x) (fun p =>
              obind (stages_sample r (snd p)) (fun q => Ok (fst p :: fst q, snd q)))
  end.
(* biquad_filter-inl.h:194-202 and 206-214; filters_[0] must exist *)
Definition cascade_block (fs : list biquad) (x : list (list F)) :=
  oguard (1 <=? length fs) (stages_block fs x).
Definition cascade_sample (fs : list biquad) (x : list F) :=
  oguard (1 <=? length fs) (stages_sample fs x).

(* portable/biquad_filter.h:57-69; the fields b0 b1 b2 a1 a2 (a0 is not used), z as a pair *)
Definition portable_sample (c : coeffs) (z : F * F) (x : F) : (F * F) * F :=
  let next := sub (sub x (mul (a1 c) (fst z))) (mul (a2 c) (snd z)) in
  ((next, fst z), add (add (mul (b0 c) next) (mul (b1 c) (fst z))) (mul (b2 c) (snd z))).
(* portable/biquad_filter.h:48-51 *)
Definition portable_zero : F * F := (zero, zero).
End Biquad.
Arguments coeffs : clear implicits.
Arguments biquad : clear implicits.
