(* Stability of the filters that the C functions make from elliptic designs up to order 10
   (audio/dsp/portable/iir_design.c). *)
From Verif Require Import Common RealUtil CInt BiquadModel DesignSpec CascadeSpec PoleZeroModel PoleZeroSpec ComplexModel ZpkModel ZpkSpec ZpkProofs5 ZpkProofs8 ZpkProps EllipticDesignModel EllipticDesignSpec EllipticDesignProps EllipticStableProofs4 EllipticPortableProofs EllipticPortableProofs2.
From Coq Require Import Permutation Zquot.
From Coquelicot Require Import Complex.
Local Open Scope R_scope.
Local Notation C := Complex.C.

(* the degrees of the prototype *)
Lemma degrees ex order rp rs f p : elliptic_zpk ex order rp rs = Ok (Some f) -> stands_for f p -> (2 <= order)%Z ->
  Z.of_nat (length (poles p)) = order /\ (Z.odd order = true -> (length (zeros p) < length (poles p))%nat) /\ exists h, analog_value p (RtoC 0) h /\ Cmod h = if Z.even order then Rpower 10 (- rp / 20) else 1.
Proof.
  intros E T N. destruct (C94_structure ex order rp rs f E) as (L1 & L2 & _ & _ & _ & _ & _ & h & VH & MH). pose proof T as (T1 & T2 & _). apply Permutation_length in T1, T2. change cplx with C in *. split; [lia|]. split.
  - intros O. rewrite <- Z.negb_even, Zeven_rem in O. pose proof (Z.rem_bound_pos order 2 ltac:(lia) ltac:(lia)). destruct (Z.eqb_spec (Z.rem order 2) 0); [discriminate O|]. lia.
  - exists h. split; [now apply (stands_value f p _ h T)|exact MH].
Qed.
Lemma halves n order : Z.of_nat n = order -> Z.of_nat (Nat.div2 (n + 1)) = ((order + 1) / 2)%Z.
Proof. intros <-. rewrite Nat.div2_div, Nat2Z.inj_div, Nat2Z.inj_add. reflexivity. Qed.
(* ---------- C94 ---------- *)
(* For orders 2 to 10, passband ripples of 1 to 3 dB, stopband attenuations of 20 to 100 dB, corner frequencies
   at least a millionth of the sample rate inside, and room for the biquads: the C function returns a stable
   cascade of half as many biquads, whose response is that of the prototype at the warped frequency; at
   frequency 0 its gain is 1, or the passband ripple below when the order is even; at half the sample rate it
   is silent when the order is odd.  Higher orders and other ripples are missing. *)
Theorem C94_portable_lowpass_partial ex qsort order rp rs fs fc m : sorts qsort -> (2 <= order <= 10)%Z -> 1 <= rp <= 3 -> 20 <= rs <= 100 -> 0 < fs -> fs / 1000000 <= fc -> fc <= fs / 2 - fs / 1000000 -> ((order + 1) / 2 <= m)%Z ->
  exists p cs, elliptic_prototype ex order rp rs = Ok p /\ elliptic_lowpass ex qsort order rp rs fc fs m = Ok (Some cs) /\ Z.of_nat (length cs) = ((order + 1) / 2)%Z /\ stable_cascade cs /\
    (forall g h, - (fs / 2) < g < fs / 2 -> cascade_value cs (on_circle g fs) h <-> analog_value p (0, tan (PI * g / fs) / tan (PI * fc / fs)) h) /\
    (exists h, cascade_value cs (on_circle 0 fs) h /\ Cmod h = if Z.even order then Rpower 10 (- rp / 20) else 1) /\
    (Z.odd order = true -> cascade_value cs (RtoC (-1)) (RtoC 0)).
Proof.
  intros HQ N P S HF F1 F2 HB. destruct (stable ex order rp rs N P S) as (f & p & E & G & T & LP & SZ & _). destruct (degrees ex order rp rs f p E T ltac:(lia)) as (LN & OD & h & VH & MH). pose proof (halves _ _ LN) as HL.
  destruct (design_lowpass_ok ex qsort HQ f p fs m T LP SZ HF fc F1 F2 ltac:(lia)) as (cs & D & L & ST & V & Z & _). exists p, cs. split; [exact G|]. split; [unfold elliptic_lowpass; rewrite (from_prototype_is _ f) by exact E; exact D|]. split; [lia|]. split; [exact ST|]. split; [exact V|]. split; [|intros O; exact (Z (OD O))].
  exists h. split; [|exact MH]. apply V; [lra|]. replace (tan (PI * 0 / fs) / tan (PI * fc / fs)) with 0; [exact VH|]. replace (PI * 0 / fs) with 0 by (field; lra). rewrite tan_0. unfold Rdiv. ring.
Qed.
Print Assumptions C94_portable_lowpass_partial.
(* The same of the highpass filters, with the frequencies the other way round. *)
Theorem C94_portable_highpass_partial ex qsort order rp rs fs fc m : sorts qsort -> (2 <= order <= 10)%Z -> 1 <= rp <= 3 -> 20 <= rs <= 100 -> 0 < fs -> fs / 1000000 <= fc -> fc <= fs / 2 - fs / 1000000 -> ((order + 1) / 2 <= m)%Z ->
  exists p cs, elliptic_prototype ex order rp rs = Ok p /\ elliptic_highpass ex qsort order rp rs fc fs m = Ok (Some cs) /\ Z.of_nat (length cs) = ((order + 1) / 2)%Z /\ stable_cascade cs /\
    (forall g h, - (fs / 2) < g < fs / 2 -> g <> 0 -> cascade_value cs (on_circle g fs) h <-> analog_value p (0, - (tan (PI * fc / fs) / tan (PI * g / fs))) h) /\
    (exists h, cascade_value cs (RtoC (-1)) h /\ Cmod h = if Z.even order then Rpower 10 (- rp / 20) else 1) /\
    (Z.odd order = true -> cascade_value cs (RtoC 1) (RtoC 0)).
Proof.
  intros HQ N P S HF F1 F2 HB. destruct (stable ex order rp rs N P S) as (f & p & E & G & T & LP & SZ & _). destruct (degrees ex order rp rs f p E T ltac:(lia)) as (LN & OD & h & VH & MH). pose proof (halves _ _ LN) as HL.
  destruct (design_highpass_ok ex qsort HQ f p fs m T LP SZ HF fc F1 F2 ltac:(lia)) as (cs & D & L & ST & V & Z & W). exists p, cs. split; [exact G|]. split; [unfold elliptic_highpass; rewrite (from_prototype_is _ f) by exact E; exact D|]. split; [lia|]. split; [exact ST|]. split; [exact V|]. split; [exists h; split; [exact (W h VH)|exact MH]|intros O; exact (Z (OD O))].
Qed.
Print Assumptions C94_portable_highpass_partial.
(* Bandpass and bandstop filters of even order, whose edges are at least a hundredth of the sample rate from
   each other and from the ends.  Odd orders and closer edges are missing. *)
Theorem C94_portable_bandpass_partial ex qsort order rp rs fs low high m : let tl := tan (PI * low / fs) in let th := tan (PI * high / fs) in
  sorts qsort -> (2 <= order <= 10)%Z -> Z.even order = true -> 1 <= rp <= 3 -> 20 <= rs <= 100 -> 0 < fs -> fs / 100 <= low -> high <= fs / 2 - fs / 100 -> fs / 100 <= high - low -> (order <= m)%Z ->
  exists p cs, elliptic_prototype ex order rp rs = Ok p /\ elliptic_bandpass ex qsort order rp rs low high fs m = Ok (Some cs) /\ Z.of_nat (length cs) = order /\ stable_cascade cs /\
    (forall g h, - (fs / 2) < g < fs / 2 -> g <> 0 -> cascade_value cs (on_circle g fs) h <-> analog_value p (0, bandpass_w tl th (tan (PI * g / fs))) h) /\
    (forall g, - (fs / 2) < g < fs / 2 -> g <> 0 -> tan (PI * g / fs) * tan (PI * g / fs) = tl * th -> exists h, cascade_value cs (on_circle g fs) h /\ Cmod h = Rpower 10 (- rp / 20)).
Proof.
  cbv zeta. intros HQ N EV P S HF F1 F2 F3 HB. destruct (stable ex order rp rs N P S) as (f & p & E & G & T & LP & SZ & _ & AW & _). destruct (AW EV) as (_ & _ & NR & _). destruct (degrees ex order rp rs f p E T ltac:(lia)) as (LN & _ & h & VH & MH). rewrite EV in MH.
  destruct (design_bandpass_ok ex qsort HQ f p fs low high m T LP SZ HF ltac:(lia) F1 F2 F3 ltac:(lia)) as (cs & D & L & ST & V & _); [intros x Hx Z; exfalso; exact (NR x Hx Z)|]. set (tl := tan (PI * low / fs)) in *. set (th := tan (PI * high / fs)) in *. exists p, cs. split; [exact G|]. split; [unfold elliptic_bandpass; rewrite (from_prototype_is _ f) by exact E; exact D|]. split; [lia|]. split; [exact ST|]. split; [exact V|].
  intros g GR G0 C0. exists h. split; [|exact MH]. apply V; [exact GR|exact G0|]. unfold bandpass_w. rewrite C0. replace ((tl * th - tl * th) / ((th - tl) * tan (PI * g / fs))) with 0 by (unfold Rdiv; ring). exact VH.
Qed.
Print Assumptions C94_portable_bandpass_partial.
Theorem C94_portable_bandstop_partial ex qsort order rp rs fs low high m : let tl := tan (PI * low / fs) in let th := tan (PI * high / fs) in
  sorts qsort -> (2 <= order <= 10)%Z -> Z.even order = true -> 1 <= rp <= 3 -> 20 <= rs <= 100 -> 0 < fs -> fs / 100 <= low -> high <= fs / 2 - fs / 100 -> fs / 100 <= high - low -> (order <= m)%Z ->
  exists p cs, elliptic_prototype ex order rp rs = Ok p /\ elliptic_bandstop ex qsort order rp rs low high fs m = Ok (Some cs) /\ Z.of_nat (length cs) = order /\ stable_cascade cs /\
    (forall g h, - (fs / 2) < g < fs / 2 -> tan (PI * g / fs) * tan (PI * g / fs) <> tl * th -> cascade_value cs (on_circle g fs) h <-> analog_value p (0, bandstop_w tl th (tan (PI * g / fs))) h) /\
    (exists h, cascade_value cs (RtoC 1) h /\ cascade_value cs (RtoC (-1)) h /\ Cmod h = Rpower 10 (- rp / 20)).
Proof.
  cbv zeta. intros HQ N EV P S HF F1 F2 F3 HB. destruct (stable ex order rp rs N P S) as (f & p & E & G & T & LP & SZ & _ & AW & _). destruct (AW EV) as (_ & _ & NR & _). destruct (degrees ex order rp rs f p E T ltac:(lia)) as (LN & _ & h & VH & MH). rewrite EV in MH.
  destruct (design_bandstop_ok ex qsort HQ f p fs low high m T LP SZ HF ltac:(lia) F1 F2 F3 ltac:(lia)) as (cs & D & L & ST & V & W & _); [intros x Hx Z; exfalso; exact (NR x Hx Z)|]. exists p, cs. split; [exact G|]. split; [unfold elliptic_bandstop; rewrite (from_prototype_is _ f) by exact E; exact D|]. split; [lia|]. split; [exact ST|]. split; [exact V|].
  exists h. destruct (W h VH) as (W1 & W2). split; [exact W1|]. split; [exact W2|exact MH].
Qed.
Print Assumptions C94_portable_bandstop_partial.

(* ---------- examples ---------- *)
(* The fifth-order lowpass filter of three biquads, at a corner of 1 kHz, and a fourth-order bandpass filter. *)
Example portable_fifth ex : exists cs, elliptic_lowpass ex insertion_sort 5 1 40 1000 48000 3 = Ok (Some cs) /\ length cs = 3%nat /\ stable_cascade cs.
Proof.
  destruct (C94_portable_lowpass_partial ex insertion_sort 5 1 40 48000 1000 3 insertion_sorts ltac:(lia) ltac:(lra) ltac:(lra) ltac:(lra) ltac:(lra) ltac:(lra) ltac:(reflexivity || (cbn; lia))) as (p & cs & _ & E & L & S & _).
  exists cs. split; [exact E|]. split; [|exact S]. change ((5 + 1) / 2)%Z with 3%Z in L. lia.
Qed.
Example portable_band ex : exists cs, elliptic_bandpass ex insertion_sort 4 1 60 8000 12000 48000 4 = Ok (Some cs) /\ length cs = 4%nat /\ stable_cascade cs.
Proof.
  destruct (C94_portable_bandpass_partial ex insertion_sort 4 1 60 48000 8000 12000 4 insertion_sorts ltac:(lia) eq_refl ltac:(lra) ltac:(lra) ltac:(lra) ltac:(lra) ltac:(lra) ltac:(lra) ltac:(lia)) as (p & cs & _ & E & L & S & _).
  exists cs. split; [exact E|]. split; [lia|exact S].
Qed.
