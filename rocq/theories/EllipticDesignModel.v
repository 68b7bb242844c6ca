(* Model of the elliptic filter designs: audio/dsp/portable/iir_design.c:788-968 and
   audio/linear_filters/biquad_filter_design_pole_zero.cc:297-365, on top of the models of the elliptic
   functions, of the Zpk utilities and of the pole-zero designs, over exact real and complex numbers.
   An infinite EllipticK is Undef: what the code computes from it is an infinity or NaN. *)
From Verif Require Import Common CInt RealUtil BiquadModel ComplexModel EllipticModel ZpkModel PoleZeroModel.
Local Open Scope R_scope.

(* an EllipticK that is infinite; iir_design.c:830, 866-867, biquad_filter_design_pole_zero.cc:326, 330, 337 *)
Definition finite_k (r : outcome (option R)) : outcome R :=
  v <- r ;; match v with Some x => Ok x | None => Undef end.
(* the values of (2 * n + 1) * K / order for n = 0, ..., order / 2 - 1; iir_design.c:837-838 and 888,
   biquad_filter_design_pole_zero.cc:333 and 343 *)
Definition argument (order : Z) (K : R) (n : nat) : R := (2 * INR n + 1) * K / IZR order.
Definition pair_indices (order : Z) : list nat := seq 0 (Z.to_nat (Z.quot order 2)).

(* what differs between the two versions: EllipticK, EllipticF, JacobiAmplitude *)
Record functions := { f_k : R -> outcome (option R); f_f : cplx -> R -> outcome cplx; f_am : cplx -> R -> outcome cplx }.
Definition c_functions (ex : R -> Z) : functions := {| f_k := elliptic_k; f_f := elliptic_f ex; f_am := jacobi_amplitude ex |}.
Definition cc_functions (ex : R -> Z) : functions := {| f_k := cc_elliptic_k; f_f := cc_elliptic_f ex; f_am := cc_jacobi_amplitude ex |}.

Section Design.
Variable ex : R -> Z.
Variable lib : functions.
(* iir_design.c:800-810, biquad_filter_design_pole_zero.cc:299-303 *)
Definition jacobi_cd (u : cplx) (m : R) : outcome cplx :=
  phi <- f_am lib u m ;;
  cdiv ex (ccos phi) (csqrt ex (csub (1, 0) (cmul_real (csquare (csin phi)) m))).
(* iir_design.c:812-815, biquad_filter_design_pole_zero.cc:305-308 *)
Definition jacobi_sn (u : cplx) (m : R) : outcome cplx := phi <- f_am lib u m ;; Ok (csin phi).
(* iir_design.c:817-820, biquad_filter_design_pole_zero.cc:310-313 *)
Definition inverse_sn (w : cplx) (m : R) : outcome cplx := a <- casin ex w ;; f_f lib a m.

(* iir_design.c:836-840, biquad_filter_design_pole_zero.cc:332-334 *)
Fixpoint sn_product (order : Z) (K m : R) (l : list nat) (kp : R) : outcome R :=
  match l with
  | [] => Ok kp
  | n :: r => w <- jacobi_sn (argument order K n, 0) m ;; sn_product order K m r (kp * fst w)
  end.
(* iir_design.c:828-843, biquad_filter_design_pole_zero.cc:329-336 *)
Definition solve_degree (order : Z) (k1 : R) : outcome R :=
  oguard (Rleb 0 (1 - k1 * k1)) (
  let k1p := sqrt (1 - k1 * k1) in
  K1p <- finite_k (f_k lib (k1p * k1p)) ;;
  kp0 <- sn_product order K1p (k1p * k1p) (pair_indices order) 1 ;;
  let kp := k1p ^ Z.to_nat order * kp0 ^ 4 in
  oguard (Rleb 0 (1 - kp * kp)) (Ok (sqrt (1 - kp * kp)))).

(* iir_design.c:887-903, biquad_filter_design_pole_zero.cc:342-351: a zero and a pole of each pair *)
Definition root_pair (order : Z) (k K v0 : R) (n : nat) : outcome (cplx * cplx) :=
  let u := argument order K n in
  zeta <- jacobi_cd (u, 0) (k * k) ;;
  oguard (negb (Reqb (k * fst zeta) 0)) (
  w <- jacobi_cd (u, - v0 * K) (k * k) ;;
  Ok ((0, 1 / (k * fst zeta)), cmul (0, 1) w)).
Fixpoint root_pairs (order : Z) (k K v0 : R) (l : list nat) : outcome (list (cplx * cplx)) :=
  match l with
  | [] => Ok []
  | n :: r => p <- root_pair order k K v0 n ;; ps <- root_pairs order k K v0 r ;; Ok (p :: ps)
  end.
(* iir_design.c:879-884, biquad_filter_design_pole_zero.cc:353-357: the real pole, if the order is odd *)
Definition real_poles (order : Z) (k K v0 : R) : outcome (list R) :=
  if even_order order then Ok []
  else w <- jacobi_sn (0, v0 * K) (k * k) ;; Ok [- snd w].
(* iir_design.c:863-903, biquad_filter_design_pole_zero.cc:325-357: the roots, from the two ripples as
   amplitudes.  The C++ code computes EllipticK(k1^2) first and the real pole last, which is visible only
   in which of two failures comes first. *)
Definition elliptic_roots (order : Z) (ep es : R) : outcome (list R * list (cplx * cplx)) :=
  oguard (negb (Reqb es 0)) (
  let k1 := ep / es in
  k <- solve_degree order k1 ;;
  K <- finite_k (f_k lib (k * k)) ;;
  K1 <- finite_k (f_k lib (k1 * k1)) ;;
  oguard (negb (Reqb ep 0)) (
  a <- inverse_sn (0, 1 / ep) (k1 * k1) ;;
  oguard (negb (Reqb (IZR order * K1) 0)) (
  let v0 := snd a / (IZR order * K1) in
  rs <- real_poles order k K v0 ;;
  ps <- root_pairs order k K v0 (pair_indices order) ;;
  Ok (rs, ps)))).
End Design.

Section Zpk.
Variable ex : R -> Z.
Variable qsort : list cplx -> list cplx.
(* iir_design.c:850-911 *)
Definition elliptic_zpk (order : Z) (passband_db stopband_db : R) : prototype :=
  with_order order (
  ep <- ripple_epsilon passband_db ;;
  es <- ripple_epsilon stopband_db ;;
  ' (rs, ps) <- elliptic_roots ex (c_functions ex) order ep es ;;
  f <- set_dc_gain ex {| z_zeros := flat_map (fun p => conj_pair (fst p)) ps;
                         z_poles := map (fun r => (r, 0)) rs ++ flat_map (fun p => conj_pair (snd p)) ps; z_gain := 1 |} ;;
  Ok (if even_order order
      then {| z_zeros := z_zeros f; z_poles := z_poles f; z_gain := z_gain f / sqrt (1 + ep * ep) |}
      else f)).
(* iir_design.c:913-968 *)
Definition elliptic_lowpass (order : Z) (rp rs fc fs : R) (max_biquads : Z) :=
  from_prototype (elliptic_zpk order rp rs) (fun f => design_lowpass ex qsort f fc fs max_biquads).
Definition elliptic_highpass (order : Z) (rp rs fc fs : R) (max_biquads : Z) :=
  from_prototype (elliptic_zpk order rp rs) (fun f => design_highpass ex qsort f fc fs max_biquads).
Definition elliptic_bandpass (order : Z) (rp rs low high fs : R) (max_biquads : Z) :=
  from_prototype (elliptic_zpk order rp rs) (fun f => design_bandpass ex qsort f low high fs max_biquads).
Definition elliptic_bandstop (order : Z) (rp rs low high fs : R) (max_biquads : Z) :=
  from_prototype (elliptic_zpk order rp rs) (fun f => design_bandstop ex qsort f low high fs max_biquads).

(* biquad_filter_design_pole_zero.cc:317-365 *)
Definition elliptic_prototype (order : Z) (passband_db stopband_db : R) : outcome pole_zero :=
  ocheck (1 <=? order)%Z (ocheck (Rltb 0 passband_db) (ocheck (Rltb 0 stopband_db) (
  let ep := sqrt (Rpower 10 (passband_db / 10) - 1) in
  let es := sqrt (Rpower 10 (stopband_db / 10) - 1) in
  ' (rs, ps) <- elliptic_roots ex (cc_functions ex) order ep es ;;
  let f1 := fold_left (fun f (p : cplx * cplx) => add_pole_pair (snd p) (add_zero_pair (fst p) f)) ps pz_new in
  let f2 := fold_left (fun f r => add_pole r f) rs f1 in
  f <- unit_dc_gain f2 ;;
  Ok (if even_order order then set_gain (pz_gain f / sqrt (1 + ep * ep)) f else f)))).
End Zpk.
