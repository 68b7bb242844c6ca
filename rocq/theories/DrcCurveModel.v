(* Model of audio/dsp/hifi/dynamic_range_control_functions.{h,cc} over the real numbers (rounding
   is not modelled; a division by zero, which gives an infinity or NaN, is Undef).  The functions
   act coefficient by coefficient on arrays; one coefficient is modelled, and the array is
   [map_outcome]. *)
From Verif Require Import Common RealUtil.
Local Open Scope R_scope.

(* dynamic_range_control_functions.h:38-53 *)
Definition smooth_relu (input center width : R) : R :=
  if Rltb 0 width then
    let start_knee := center - width / 2 in
    let temp := input - start_knee in
    let knee_inv := 1 / width in
    - (1 / 2) * (Rmin (Rmax temp 0) width * temp * knee_inv + Rmax (temp - width) 0)
  else Rmin (center - input) 0.

(* dynamic_range_control_functions.h:89-97 *)
Definition compressor (input threshold ratio knee : R) : outcome R :=
  oguard (negb (Reqb ratio 0))
    (let slope := 1 - 1 / ratio in
     Ok (input + smooth_relu input threshold knee * slope)).

(* dynamic_range_control_functions.h:99-106 *)
Definition limiter (input threshold knee : R) : R :=
  smooth_relu input threshold knee + input.

(* dynamic_range_control_functions.h:129-138 *)
Definition expander (input threshold ratio knee : R) : R :=
  let slope := ratio - 1 in
  input + (input - threshold + smooth_relu input threshold knee) * slope.

(* dynamic_range_control_functions.h:144-162 and 211-229 *)
Record region := { ratio : R; threshold : R; knee : R }.
Record two_way := { expander_region : region; upwards_region : region; soft_region : region; hard_region : region }.

(* dynamic_range_control_functions.cc:22-68; true is kNoParamError *)
Definition verify_params (p : two_way) : bool :=
  if Rltb (threshold (upwards_region p)) (threshold (expander_region p)) then false
  else if Rltb (threshold (soft_region p)) (threshold (upwards_region p)) then false
  else if Rltb (threshold (hard_region p)) (threshold (soft_region p)) then false
  else if Rltb (ratio (expander_region p)) 1 then false
  else if Rltb (ratio (upwards_region p)) 1 then false
  else if Rltb (ratio (hard_region p)) (ratio (soft_region p)) then false
  else true.

(* dynamic_range_control_functions.h:241-243 *)
Definition adjusted_ratio (desired previous : R) : outcome R :=
  oguard (negb (Reqb previous 0)) (Ok (desired / previous)).

(* dynamic_range_control_functions.h:255-321 *)
Definition two_way_compressor (p : two_way) (input : R) : outcome R :=
  ocheck (verify_params p)
  (let ex := expander_region p in let up := upwards_region p in
   let so := soft_region p in let ha := hard_region p in
   obind (compressor input (threshold so) (ratio so) (knee so)) (fun t1 =>
   obind (adjusted_ratio (ratio ha) (ratio so)) (fun hard_ratio =>
   obind (compressor (threshold ha) (threshold so) (ratio so) 0) (fun hard_threshold =>
   obind (compressor t1 hard_threshold hard_ratio (knee ha)) (fun t2 =>
   obind (adjusted_ratio 1 (ratio up)) (fun up_ratio =>
   let t3 := expander t2 (threshold up) up_ratio (knee up) in
   obind (adjusted_ratio (ratio ex) up_ratio) (fun ex_ratio =>
   let ex_threshold := expander (threshold ex) (threshold up) up_ratio 0 in
   Ok (expander t3 ex_threshold ex_ratio (knee ex))))))))).
