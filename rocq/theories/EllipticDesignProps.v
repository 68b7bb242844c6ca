(* Statements about the elliptic filter designs (audio/dsp/portable/iir_design.c and
   audio/linear_filters/biquad_filter_design_pole_zero.cc). *)
From Verif Require Import Common ListLemmas RealUtil CInt BiquadModel DesignSpec PoleZeroModel PoleZeroSpec PoleZeroProofs ComplexModel ComplexProofs EllipticModel ZpkModel ZpkSpec ZpkProofs ZpkProofs2 ZpkProofs5 ZpkProofs7 EllipticDesignModel EllipticDesignSpec EllipticDesignProofs EllipticDesignProofs2 EllipticDesignProofs3 EllipticDesignProofs4 EllipticDesignProofs5 EllipticDesignProofs6.
From Coq Require Import Permutation Zquot.
From Coquelicot Require Import Complex.
Local Open Scope R_scope.
Local Notation C := Complex.C.

(* ---------- C94 ---------- *)
(* Every prototype the C function returns: as many poles as the order, in conjugate pairs; zeros on the
   imaginary axis away from 0; and the gain at 0 is 1, or the passband ripple below when the order is even. *)
Theorem C94_structure ex order rp rs f : elliptic_zpk ex order rp rs = Ok (Some f) ->
  Z.of_nat (length (z_poles f)) = order /\ Z.of_nat (length (z_zeros f)) = (order - Z.rem order 2)%Z /\
  Permutation (map Cconj (z_poles f)) (z_poles f) /\ Permutation (map Cconj (z_zeros f)) (z_zeros f) /\
  (forall z, In z (z_zeros f) -> fst z = 0 /\ snd z <> 0) /\ (forall p, In p (z_poles f) -> p <> RtoC 0) /\ 0 < z_gain f /\
  exists h, zpk_value f (RtoC 0) h /\ Cmod h = if Z.even order then Rpower 10 (- rp / 20) else 1.
Proof.
  intros H. destruct (structure ex order rp rs f H) as (A & B & (D1 & D2) & E & F & G & h & V & M). split; [exact A|]. split; [exact B|]. split; [exact D2|]. split; [exact D1|]. split; [exact E|]. split; [exact F|]. split; [exact G|]. exists h. split; [exact V|]. rewrite M. replace (Z.even order) with (even_order order); [reflexivity|]. symmetry. apply Zeven_rem.
Qed.
Print Assumptions C94_structure.
(* The C and the C++ functions return the same roots and the same gain, and one returns exactly when the other does. *)
Theorem C94_versions_agree ex order rp rs : (1 <= order <= 30)%Z -> 0 < rp < rs ->
  (forall f, elliptic_zpk ex order rp rs = Ok (Some f) -> exists g, elliptic_prototype ex order rp rs = Ok g /\ stands_for f g) /\
  (forall g, elliptic_prototype ex order rp rs = Ok g -> exists f, elliptic_zpk ex order rp rs = Ok (Some f) /\ stands_for f g).
Proof. exact (agree ex order rp rs). Qed.
Print Assumptions C94_versions_agree.
(* The zeros lie beyond the cutoff, at |s| > 1.  Orders above 9 are missing. *)
Theorem C94_zeros_beyond_cutoff_partial ex order rp rs f : ripples_apart rp rs -> (order <= 9)%Z -> elliptic_zpk ex order rp rs = Ok (Some f) ->
  forall z, In z (z_zeros f) -> 1 < Cmod z.
Proof. exact (zeros_beyond ex order rp rs f). Qed.
Print Assumptions C94_zeros_beyond_cutoff_partial.
(* The first-order design is the Chebyshev design of the same ripple; so are the filters made from it. *)
Theorem C94_first_order ex qsort rp rs fc low high fs m : 0 < rp < rs -> rp <= 50 ->
  elliptic_zpk ex 1 rp rs = chebyshev1_zpk ex 1 rp /\ elliptic_prototype ex 1 rp rs = chebyshev1_prototype 1 rp /\
  elliptic_lowpass ex qsort 1 rp rs fc fs m = chebyshev1_lowpass ex qsort 1 rp fc fs m /\
  elliptic_highpass ex qsort 1 rp rs fc fs m = chebyshev1_highpass ex qsort 1 rp fc fs m /\
  elliptic_bandpass ex qsort 1 rp rs low high fs m = chebyshev1_bandpass ex qsort 1 rp low high fs m /\
  elliptic_bandstop ex qsort 1 rp rs low high fs m = chebyshev1_bandstop ex qsort 1 rp low high fs m.
Proof.
  intros O B. pose proof (first_order ex rp rs O B) as E. split; [exact E|]. split; [exact (first_order_cc ex rp rs O B)|]. unfold elliptic_lowpass, elliptic_highpass, elliptic_bandpass, elliptic_bandstop. rewrite E. repeat split; reflexivity.
Qed.
Print Assumptions C94_first_order.
(* The second-order design returns, has its poles in the open left half plane, and its zeros on the imaginary
   axis beyond the cutoff.  Other orders and ripples are missing. *)
Theorem C94_stable_second_order_partial ex rp rs : 1 / 10 <= rp <= 3 -> 20 <= rs <= 100 ->
  exists f, elliptic_zpk ex 2 rp rs = Ok (Some f) /\ (forall p, In p (z_poles f) -> fst p < 0 /\ snd p <> 0) /\ (forall z, In z (z_zeros f) -> fst z = 0 /\ 1 < Cmod z).
Proof. exact (second_order ex rp rs). Qed.
Print Assumptions C94_stable_second_order_partial.
(* What is refused. *)
Theorem C94_refuses ex qsort order rp rs fc low high fs m :
  ((order < 1)%Z -> elliptic_zpk ex order rp rs = Ok None /\
     elliptic_lowpass ex qsort order rp rs fc fs m = Ok None /\ elliptic_highpass ex qsort order rp rs fc fs m = Ok None /\
     elliptic_bandpass ex qsort order rp rs low high fs m = Ok None /\ elliptic_bandstop ex qsort order rp rs low high fs m = Ok None) /\
  ((order < 1)%Z \/ rp <= 0 \/ rs <= 0 -> elliptic_prototype ex order rp rs = CheckFail).
Proof.
  split.
  - intros L. assert (E : elliptic_zpk ex order rp rs = Ok None) by (unfold elliptic_zpk, with_order; replace (order <? 1)%Z with true by lia; reflexivity). split; [exact E|]. unfold elliptic_lowpass, elliptic_highpass, elliptic_bandpass, elliptic_bandstop. rewrite E. repeat split; reflexivity.
  - intros H. unfold elliptic_prototype. destruct (Z.leb_spec 1 order) as [O|O]; cbn [ocheck]; [|reflexivity]. destruct (Rltb_spec 0 rp) as [A|A]; cbn [ocheck]; [|reflexivity]. destruct (Rltb_spec 0 rs) as [B|B]; cbn [ocheck]; [|reflexivity]. exfalso. destruct H as [H|[H|H]]; [lia|lra|lra].
Qed.
Print Assumptions C94_refuses.
(* Neither function checks that the stopband is below the passband: such a design is neither refused nor
   returned, the C function computing with infinities or with roots of negative numbers and the C++ function
   doing the same or stopping at a check of EllipticK. *)
Theorem C94_ripple_order_refuted ex order rp rs : (1 <= order <= 30)%Z -> ~ (0 < rp < rs) ->
  (forall x, elliptic_zpk ex order rp rs <> Ok x) /\ (forall x, elliptic_prototype ex order rp rs <> Ok x).
Proof. intros O N. split; [exact (never_ok ex order rp rs O N)|exact (never_ok_cc ex order rp rs N)]. Qed.
Print Assumptions C94_ripple_order_refuted.
(* The arrays of the C function hold 30 roots, and nothing checks the order against that. *)
Theorem C94_large_order_refuted ex order rp rs : (30 < order)%Z -> elliptic_zpk ex order rp rs = Undef.
Proof. intros L. unfold elliptic_zpk, with_order. replace (order <? 1)%Z with false by lia. replace (order <=? Z.of_nat max_degree)%Z with false by (unfold max_degree; lia). reflexivity. Qed.
Print Assumptions C94_large_order_refuted.

(* ---------- examples ---------- *)
(* A second-order filter with 1 dB of ripple and 40 dB of attenuation meets the hypotheses of the theorems. *)
Example elliptic_second ex : exists f g, elliptic_zpk ex 2 1 40 = Ok (Some f) /\ elliptic_prototype ex 2 1 40 = Ok g /\ stands_for f g /\
  length (z_poles f) = 2%nat /\ length (z_zeros f) = 2%nat /\ (forall p, In p (z_poles f) -> fst p < 0) /\ (forall z, In z (z_zeros f) -> 1 < Cmod z).
Proof.
  destruct (C94_stable_second_order_partial ex 1 40 ltac:(lra) ltac:(lra)) as (f & E & P & Z). destruct (proj1 (C94_versions_agree ex 2 1 40 ltac:(lia) ltac:(lra)) f E) as (g & G & S). destruct (C94_structure _ _ _ _ _ E) as (L1 & L2 & _). change (Z.rem 2 2) with 0%Z in L2. exists f, g. split; [exact E|]. split; [exact G|]. split; [exact S|]. split; [lia|]. split; [lia|]. split; [intros p Hp; exact (proj1 (P p Hp))|intros z Hz; exact (proj2 (Z z Hz))].
Qed.
Example elliptic_apart : ripples_apart 1 40.
Proof. apply moderate_apart; lra. Qed.
Example elliptic_first ex : elliptic_zpk ex 1 1 40 = chebyshev1_zpk ex 1 1.
Proof. apply first_order; lra. Qed.
Example elliptic_swapped ex : forall x, elliptic_zpk ex 4 40 1 <> Ok x.
Proof. apply never_ok; [lia|lra]. Qed.
