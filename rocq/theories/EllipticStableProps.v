(* Stability of the elliptic designs up to order 10 (audio/dsp/portable/iir_design.c and
   audio/linear_filters/biquad_filter_design_pole_zero.cc). *)
From Verif Require Import Common RealUtil CInt BiquadModel DesignSpec CascadeSpec PoleZeroModel PoleZeroSpec PoleZeroProps ComplexModel ZpkModel ZpkSpec ZpkProofs5 EllipticDesignModel EllipticDesignSpec EllipticDesignProps EllipticDesignProofs3 EllipticStableProofs4.
From Coq Require Import Permutation Zquot.
From Coquelicot Require Import Complex.
Local Open Scope R_scope.
Local Notation C := Complex.C.

Lemma edges fs low high : 0 < low -> low < high -> high < fs / 2 -> 0 < tan (PI * low / fs) < tan (PI * high / fs) /\ 0 < tan (PI * high / fs).
Proof.
  intros F1 F2 F3. pose proof PI_RGT_0 as PP. assert (A : 0 < PI * low / fs) by (apply Rdiv_lt_0_compat; nra). assert (B : PI * low / fs < PI * high / fs) by (apply Rmult_lt_compat_r; [apply Rinv_0_lt_compat; lra|nra]). assert (D : PI * high / fs < PI / 2) by (apply (Rmult_lt_reg_r fs); [lra|]; unfold Rdiv; rewrite Rmult_assoc, Rinv_l by lra; nra).
  assert (0 < tan (PI * low / fs)) by (apply tan_gt_0; lra). assert (tan (PI * low / fs) < tan (PI * high / fs)) by (apply tan_increasing; lra). lra.
Qed.
(* ---------- C94 ---------- *)
(* For orders 2 to 10, passband ripples of 1 to 3 dB and stopband attenuations of 20 to 100 dB: the C
   function returns a filter, all its poles are in the open left half plane, and all its zeros are on the
   imaginary axis beyond the cutoff; and the C++ function returns the same filter.  Higher orders and other
   ripples are missing. *)
Theorem C94_stable_partial ex order rp rs : (2 <= order <= 10)%Z -> 1 <= rp <= 3 -> 20 <= rs <= 100 ->
  exists f g, elliptic_zpk ex order rp rs = Ok (Some f) /\ elliptic_prototype ex order rp rs = Ok g /\ stands_for f g /\
    (forall p, In p (z_poles f) -> fst p < 0) /\ (forall z, In z (z_zeros f) -> fst z = 0 /\ 1 < Cmod z).
Proof.
  intros N P S. destruct (stable ex order rp rs N P S) as (f & g & E & G & T & _ & _ & _ & _ & A & B).
  exists f, g. split; [exact E|]. split; [exact G|]. split; [exact T|]. split; [exact A|exact B].
Qed.
Print Assumptions C94_stable_partial.
(* The C++ class makes a stable cascade of biquads from every such design, for every corner frequency.  Its
   response is that of the prototype at the warped frequency; at frequency 0 its gain is 1, or the passband
   ripple below when the order is even; at half the sample rate it is silent when the order is odd. *)
Theorem C94_lowpass_partial ex order rp rs fs fc : (2 <= order <= 10)%Z -> 1 <= rp <= 3 -> 20 <= rs <= 100 -> 0 < fc -> fc < fs / 2 ->
  exists p cs, elliptic_prototype ex order rp rs = Ok p /\ lowpass_filter (elliptic_prototype ex order rp rs) fs fc = Ok cs /\ stable_cascade cs /\
    (forall g h, - (fs / 2) < g < fs / 2 -> cascade_value cs (on_circle g fs) h <-> analog_value p (0, tan (PI * g / fs) / tan (PI * fc / fs)) h) /\
    (exists h, cascade_value cs (on_circle 0 fs) h /\ Cmod h = if Z.even order then Rpower 10 (- rp / 20) else 1) /\
    (Z.odd order = true -> cascade_value cs (RtoC (-1)) (RtoC 0)).
Proof.
  intros N P S F1 F2. destruct (stable ex order rp rs N P S) as (f & p & E & G & T & LP & _ & TM & _ & _ & _). assert (A : 0 < PI * fc / fs < PI / 2). { pose proof PI_RGT_0. split; [apply Rdiv_lt_0_compat; nra|]. apply (Rmult_lt_reg_r fs); [lra|]. unfold Rdiv. rewrite Rmult_assoc, Rinv_l by lra. nra. }
  assert (TP : 0 < tan (PI * fc / fs)) by (apply tan_gt_0; lra). destruct (C64_lowpass_partial p fs fc LP F1 F2 (TM _ TP)) as (cs & E1 & ST & V & Z & _). exists p, cs. split; [exact G|]. split; [rewrite G; exact E1|]. split; [exact ST|]. split; [exact V|].
  destruct (C94_structure ex order rp rs f E) as (L1 & L2 & _ & _ & _ & _ & _ & h & VH & MH). split.
  - exists h. split; [|exact MH]. apply V; [lra|]. replace (tan (PI * 0 / fs) / tan (PI * fc / fs)) with 0 by (replace (PI * 0 / fs) with 0 by (field; lra); rewrite tan_0; field; lra). apply (stands_value f p _ h T). exact VH.
  - intros O. apply Z. destruct T as (T1 & T2 & _). apply Permutation_length in T1, T2. rewrite <- Z.negb_even, Zeven_rem in O. pose proof (Z.rem_bound_pos order 2 ltac:(lia) ltac:(lia)). change cplx with C in *. destruct (Z.eqb_spec (Z.rem order 2) 0); [discriminate O|]. lia.
Qed.
Print Assumptions C94_lowpass_partial.
(* The same of the highpass filters, with the frequencies the other way round. *)
Theorem C94_highpass_partial ex order rp rs fs fc : (2 <= order <= 10)%Z -> 1 <= rp <= 3 -> 20 <= rs <= 100 -> 0 < fc -> fc < fs / 2 ->
  exists p cs, elliptic_prototype ex order rp rs = Ok p /\ highpass_filter (elliptic_prototype ex order rp rs) fs fc = Ok cs /\ stable_cascade cs /\
    (forall g h, - (fs / 2) < g < fs / 2 -> g <> 0 -> cascade_value cs (on_circle g fs) h <-> analog_value p (0, - (tan (PI * fc / fs) / tan (PI * g / fs))) h) /\
    (exists h, cascade_value cs (RtoC (-1)) h /\ Cmod h = if Z.even order then Rpower 10 (- rp / 20) else 1) /\
    (Z.odd order = true -> cascade_value cs (RtoC 1) (RtoC 0)).
Proof.
  intros N P S F1 F2. destruct (stable ex order rp rs N P S) as (f & p & E & G & T & LP & _ & TM & _ & _ & _). assert (A : 0 < PI * fc / fs < PI / 2). { pose proof PI_RGT_0. split; [apply Rdiv_lt_0_compat; nra|]. apply (Rmult_lt_reg_r fs); [lra|]. unfold Rdiv. rewrite Rmult_assoc, Rinv_l by lra. nra. }
  assert (TP : 0 < tan (PI * fc / fs)) by (apply tan_gt_0; lra). destruct (C64_highpass_partial p fs fc LP F1 F2 (TM _ (Rinv_0_lt_compat _ TP))) as (cs & E1 & ST & V & Z & W). exists p, cs. split; [exact G|]. split; [rewrite G; exact E1|]. split; [exact ST|]. split; [exact V|].
  destruct (C94_structure ex order rp rs f E) as (L1 & L2 & _ & _ & _ & _ & _ & h & VH & MH). split.
  - exists h. split; [|exact MH]. apply W. apply (stands_value f p _ h T). exact VH.
  - intros O. apply Z. destruct T as (T1 & T2 & _). apply Permutation_length in T1, T2. rewrite <- Z.negb_even, Zeven_rem in O. pose proof (Z.rem_bound_pos order 2 ltac:(lia) ltac:(lia)). change cplx with C in *. destruct (Z.eqb_spec (Z.rem order 2) 0); [discriminate O|]. lia.
Qed.
Print Assumptions C94_highpass_partial.

(* Bandpass and bandstop filters of even order.  Odd orders are missing, like those of C65. *)
Theorem C94_bandpass_partial ex order rp rs fs low high : let tl := tan (PI * low / fs) in let th := tan (PI * high / fs) in
  (2 <= order <= 10)%Z -> Z.even order = true -> 1 <= rp <= 3 -> 20 <= rs <= 100 -> 0 < low -> low < high -> high < fs / 2 ->
  exists p cs, elliptic_prototype ex order rp rs = Ok p /\ bandpass_filter (elliptic_prototype ex order rp rs) fs low high = Ok cs /\ stable_cascade cs /\
    (forall g h, - (fs / 2) < g < fs / 2 -> g <> 0 -> cascade_value cs (on_circle g fs) h <-> analog_value p (0, bandpass_w tl th (tan (PI * g / fs))) h) /\
    (forall g, - (fs / 2) < g < fs / 2 -> g <> 0 -> tan (PI * g / fs) * tan (PI * g / fs) = tl * th -> exists h, cascade_value cs (on_circle g fs) h /\ Cmod h = Rpower 10 (- rp / 20)).
Proof.
  cbv zeta. intros N EV P S F1 F2 F3. destruct (stable ex order rp rs N P S) as (f & p & E & G & T & LP & _ & _ & AW & _ & _). destruct (AW EV) as (Z1 & Z2 & _ & A). destruct (edges fs low high F1 F2 F3) as (TL & TH). set (tl := tan (PI * low / fs)) in *. set (th := tan (PI * high / fs)) in *.
  destruct (C65_bandpass_partial p fs low high LP F1 F2 F3) as (cs & E1 & ST & V & _); [intros x Hx; rewrite Z1, Z2 in Hx; destruct Hx|cbv zeta; fold tl th; apply A; apply Rdiv_lt_0_compat; assert (0 < tl * th) by (apply Rmult_lt_0_compat; lra); lra|]. exists p, cs. split; [exact G|]. split; [rewrite G; exact E1|]. split; [exact ST|]. split; [exact V|].
  intros g GR G0 C0. destruct (C94_structure ex order rp rs f E) as (_ & _ & _ & _ & _ & _ & _ & h & VH & MH). rewrite EV in MH. exists h. split; [|exact MH]. apply V; [exact GR|exact G0|]. fold tl th. unfold bandpass_w. rewrite C0. replace ((tl * th - tl * th) / ((th - tl) * tan (PI * g / fs))) with 0 by (unfold Rdiv; ring). apply (stands_value f p _ h T). exact VH.
Qed.
Print Assumptions C94_bandpass_partial.
Theorem C94_bandstop_partial ex order rp rs fs low high : let tl := tan (PI * low / fs) in let th := tan (PI * high / fs) in
  (2 <= order <= 10)%Z -> Z.even order = true -> 1 <= rp <= 3 -> 20 <= rs <= 100 -> 0 < low -> low < high -> high < fs / 2 ->
  exists p cs, elliptic_prototype ex order rp rs = Ok p /\ bandstop_filter (elliptic_prototype ex order rp rs) fs low high = Ok cs /\ stable_cascade cs /\
    (forall g h, - (fs / 2) < g < fs / 2 -> tan (PI * g / fs) * tan (PI * g / fs) <> tl * th -> cascade_value cs (on_circle g fs) h <-> analog_value p (0, bandstop_w tl th (tan (PI * g / fs))) h) /\
    (exists h, cascade_value cs (on_circle 0 fs) h /\ cascade_value cs (RtoC (-1)) h /\ Cmod h = Rpower 10 (- rp / 20)).
Proof.
  cbv zeta. intros N EV P S F1 F2 F3. destruct (stable ex order rp rs N P S) as (f & p & E & G & T & LP & _ & _ & AW & _ & _). destruct (AW EV) as (Z1 & Z2 & _ & A). destruct (edges fs low high F1 F2 F3) as (TL & TH). set (tl := tan (PI * low / fs)) in *. set (th := tan (PI * high / fs)) in *.
  destruct (C65_bandstop_partial p fs low high LP F1 F2 F3) as (cs & E1 & ST & V & _ & W); [intros x Hx; rewrite Z1, Z2 in Hx; destruct Hx|cbv zeta; fold tl th; apply A; apply Rdiv_lt_0_compat; assert (0 < tl * th) by (apply Rmult_lt_0_compat; lra); lra|]. exists p, cs. split; [exact G|]. split; [rewrite G; exact E1|]. split; [exact ST|]. split; [exact V|].
  destruct (C94_structure ex order rp rs f E) as (_ & _ & _ & _ & _ & _ & _ & h & VH & MH). rewrite EV in MH. apply (proj1 (stands_value f p _ h T)) in VH. exists h. split; [|split; [exact (W h VH)|exact MH]]. assert (T0 : tan (PI * 0 / fs) = 0) by (replace (PI * 0 / fs) with 0 by (field; lra); apply tan_0). apply V; [lra| |]; rewrite T0.
  - fold tl th. nra.
  - fold tl th. unfold bandstop_w. replace ((th - tl) * 0 / (tl * th - 0 * 0)) with 0 by (unfold Rdiv; ring). exact VH.
Qed.
Print Assumptions C94_bandstop_partial.

(* ---------- examples ---------- *)
(* The fifth-order lowpass filter with 1 dB of ripple and 40 dB of attenuation, at a corner of 1 kHz. *)
Example elliptic_fifth ex : exists cs h, lowpass_filter (elliptic_prototype ex 5 1 40) 48000 1000 = Ok cs /\ stable_cascade cs /\
  cascade_value cs (on_circle 0 48000) h /\ Cmod h = 1 /\ cascade_value cs (RtoC (-1)) (RtoC 0).
Proof.
  destruct (C94_lowpass_partial ex 5 1 40 48000 1000 ltac:(lia) ltac:(lra) ltac:(lra) ltac:(lra) ltac:(lra)) as (p & cs & _ & E & S & _ & (h & V & M) & O).
  exists cs, h. split; [exact E|]. split; [exact S|]. split; [exact V|]. split; [exact M|]. now apply O.
Qed.
(* The fourth-order bandpass filter between 1 and 2 kHz. *)
Example elliptic_band ex : exists cs, bandpass_filter (elliptic_prototype ex 4 1 60) 48000 1000 2000 = Ok cs /\ stable_cascade cs.
Proof.
  destruct (C94_bandpass_partial ex 4 1 60 48000 1000 2000 ltac:(lia) eq_refl ltac:(lra) ltac:(lra) ltac:(lra) ltac:(lra) ltac:(lra)) as (p & cs & _ & E & S & _). exists cs. split; [exact E|exact S].
Qed.
