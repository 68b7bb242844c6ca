(* Properties of pole-zero filters, of the filters designed from analog prototypes, and of
   two-way crossovers. *)
From Coq Require Import Permutation.
From Verif Require Import Common ListLemmas RealUtil BiquadModel DesignModel DesignSpec DesignProofs CascadeModel CascadeSpec CascadeProofs PoleZeroModel PoleZeroSpec PoleZeroProofs PoleZeroProofs2 PoleZeroProofs3 PoleZeroProofs4 PoleZeroProofs5 PolyRoots PoleZeroProofs6 PoleZeroProofs7 PoleZeroProofs8 PoleZeroProofs11 PoleZeroProofs13 PoleZeroProofs14 PoleZeroProofs15 PoleZeroProofs17 PoleZeroProofs18 PoleZeroProofs19 PoleZeroProofs20 PoleZeroProofs21 PoleZeroProofs22 PoleZeroProofs23 PoleZeroProofs24 PoleZeroProofs25 PoleZeroProofs26.
From Coquelicot Require Import Complex.
Local Open Scope R_scope.

(* ================ C62: filters given by poles and zeros ================ *)
(* Any history of calls gives the poles, zeros and gain that were asked for. *)
Theorem C62_history cs : let f := fold_left run_call cs pz_new in
  Permutation (poles f) (poles_called cs) /\ Permutation (zeros f) (zeros_called cs) /\ pz_gain f = gain_called cs /\
  poles_degree f = Z.of_nat (length (poles_called cs)) /\ zeros_degree f = Z.of_nat (length (zeros_called cs)) /\
  relative_degree f = (Z.of_nat (length (poles_called cs)) - Z.of_nat (length (zeros_called cs)))%Z.
Proof.
  destruct (build_roots cs) as (P & Z & G). change (fold_left run_call cs pz_new) with (build cs). cbv zeta.
  rewrite relative_degree_is, degree_poles, degree_zeros, (Permutation_length P), (Permutation_length Z). auto 10.
Qed.
Print Assumptions C62_history.
(* GetCoefficients gives a cascade with the documented transfer function.  Missing: roots other than
   zero within 1e-5 of zero. *)
Theorem C62_coefficients_partial cs : poles_called cs ++ zeros_called cs <> [] ->
  (forall r, In r (zeros_called cs ++ poles_called cs) -> r = RtoC 0 \/ / 100000 < Cmod r) ->
  exists coeffs, get_coefficients (fold_left run_call cs pz_new) = Ok coeffs /\
    forall z h, z <> RtoC 0 -> cascade_value coeffs z h <->
      (product_over (fun p => Cminus (RtoC 1) (Cdiv p z)) (poles_called cs) <> RtoC 0 /\
       h = Cdiv (Cmult (RtoC (gain_called cs)) (product_over (fun r => Cminus (RtoC 1) (Cdiv r z)) (zeros_called cs)))
                (product_over (fun p => Cminus (RtoC 1) (Cdiv p z)) (poles_called cs))).
Proof.
  intros H1 H2. destruct (realised_of (build cs) (total_build cs H1) (or_introl (clear_build cs H2))) as (co & E & V).
  exists co. split; [exact E|]. intros z h Z0. rewrite (V z h Z0). apply digital_build.
Qed.
Print Assumptions C62_coefficients_partial.
(* The same for a filter with as many zeros as poles, where the lone pole may be near zero. *)
Theorem C62_balanced f : balanced f -> zeros f ++ poles f <> [] ->
  exists coeffs, get_coefficients f = Ok coeffs /\ forall z h, z <> RtoC 0 -> cascade_value coeffs z h <-> digital_value f z h.
Proof.
  intros H N. apply realised_of; [|now right]. intros E. apply N. unfold total_roots in E.
  assert (L : length (zeros f ++ poles f) = 0%nat) by (unfold zeros, poles; rewrite app_length, !roots_length; lia).
  destruct (zeros f ++ poles f); [reflexivity|discriminate].
Qed.
Print Assumptions C62_balanced.
(* A filter with a gain but no roots loses its gain. *)
Theorem C62_gain_refuted : exists cs coeffs, gain_called cs = 5 /\ poles_called cs = [] /\ zeros_called cs = [] /\
  get_coefficients (fold_left run_call cs pz_new) = Ok coeffs /\ forall z, z <> RtoC 0 -> cascade_value coeffs z (RtoC 1).
Proof.
  exists [Call_gain 5], [identity_coeffs]. split; [reflexivity|]. split; [reflexivity|]. split; [reflexivity|]. split; [apply (gain_lost 5)|].
  intros z Z0. cbn [cascade_value]. exists (RtoC 1), (RtoC 1). split; [|split; [reflexivity|ring]].
  assert (N : denominator identity_coeffs z <> RtoC 0) by (unfold denominator, identity_coeffs; cbn [a0 a1 a2]; replace (Cplus (Cplus (Cmult (Cmult (RtoC 1) z) z) (Cmult (RtoC 0) z)) (RtoC 0)) with (Cmult z z) by ring; now apply Cmult_neq).
  split; [exact N|]. exact (Cinv_r _ N).
Qed.
Print Assumptions C62_gain_refuted.
(* Eval is the documented H(s), times -1 for an odd relative degree. *)
Theorem C62_eval cs s : product_over (fun p => Cminus s p) (poles_called cs) <> RtoC 0 ->
  let n := Z.abs_nat (Z.of_nat (length (poles_called cs)) - Z.of_nat (length (zeros_called cs))) in
  eval (fold_left run_call cs pz_new) s =
    Ok (Cmult (RtoC ((-1) ^ n)) (Cdiv (Cmult (RtoC (gain_called cs)) (product_over (fun r => Cminus s r) (zeros_called cs))) (product_over (fun p => Cminus s p) (poles_called cs)))).
Proof.
  intros H n. change (fold_left run_call cs pz_new) with (build cs). erewrite eval_sign by (apply analog_build; split; [exact H|reflexivity]).
  destruct (build_roots cs) as (P & Z & _). rewrite relative_degree_is, (Permutation_length P), (Permutation_length Z). reflexivity.
Qed.
Print Assumptions C62_eval.
(* So that 1 / (s + 1) evaluates to -1 at s = 0. *)
Theorem C62_eval_refuted : exists cs s, poles_called cs = [RtoC (-1)] /\ zeros_called cs = [] /\ gain_called cs = 1 /\
  s = RtoC 0 /\ eval (fold_left run_call cs pz_new) s = Ok (RtoC (-1)).
Proof.
  exists [Call_pole (-1)], (RtoC 0). repeat split. unfold eval. cbn [fold_left run_call add_pole pz_new lone_poles lone_zeros paired_poles paired_zeros pz_gain map app divide_all].
  assert (E : Ceqb (Cminus (RtoC (-1)) (RtoC 0)) (RtoC 0) = false) by (unfold Ceqb; cbn; destruct (Reqb_spec (-1 + - 0) 0) as [X|X]; [lra|reflexivity]).
  rewrite E. cbn [negb oguard obind fold_left]. f_equal. apply injective_projections; cbn; field; lra.
Qed.
Print Assumptions C62_eval_refuted.
Example C62_example : exists coeffs, get_coefficients (fold_left run_call [Call_gain 3; Call_pole_pair (/ 2, / 2); Call_zero (-1); Call_pole (/ 4); Call_gain 2] pz_new) = Ok coeffs /\
  forall z, z <> RtoC 0 -> z <> RtoC (/ 4) -> z <> (/ 2, / 2) -> z <> (/ 2, - / 2) -> exists h, cascade_value coeffs z h.
Proof.
  destruct (C62_coefficients_partial [Call_gain 3; Call_pole_pair (/ 2, / 2); Call_zero (-1); Call_pole (/ 4); Call_gain 2]) as (co & E & V).
  - discriminate.
  - cbn [poles_called zeros_called flat_map app]. intros r Hr. right.
    assert (B : / 4 <= Rabs (fst r)) by (destruct Hr as [<-|[<-|[<-|[<-|[]]]]]; cbn [fst Cconj RtoC]; [rewrite Rabs_left|rewrite Rabs_pos_eq|rewrite Rabs_pos_eq|rewrite Rabs_pos_eq]; lra).
    pose proof (Rmax_Cmod r) as M. pose proof (Rmax_l (Rabs (fst r)) (Rabs (snd r))). lra.
  - exists co. split; [exact E|]. intros z Z0 Z1 Z2 Z3. eexists. apply V; [exact Z0|]. split; [|reflexivity]. apply po_neq. cbn [poles_called flat_map app]. intros r Hr X.
    assert (R : r = z) by (transitivity (Cmult z (Cminus (RtoC 1) (Cminus (RtoC 1) (Cdiv r z)))); [field; assumption|rewrite X; ring]).
    destruct Hr as [<-|[<-|[<-|[]]]]; [now apply Z2|apply Z3; rewrite <- R; reflexivity|now apply Z1].
Qed.

(* ================ C63: the bilinear transform of a pole-zero filter ================ *)
(* k is 2 fs, or makes the match frequency exact.  Missing: filters with more zeros than poles and
   filters that are negative at k. *)
Theorem C63_bilinear_partial f fs m k g : 0 < fs -> 0 <= m < fs / 2 ->
  (m < fs / 10000000 -> k = 2 * fs) -> (fs / 10000000 <= m -> k * tan (PI * m / fs) = 2 * PI * m) ->
  (length (zeros f) <= length (poles f))%nat -> (forall r, In r (zeros f ++ poles f) -> r <> RtoC k) ->
  analog_value f (RtoC k) (RtoC g) -> 0 <= g ->
  exists d, bilinear_pz f fs m = Ok d /\
    (forall z h, z <> RtoC 0 -> z <> RtoC (-1) -> digital_value d z h <-> analog_value f (Cdiv (Cmult (RtoC k) (Cminus z (RtoC 1))) (Cplus z (RtoC 1))) h) /\
    (forall x h, - (fs / 2) < x < fs / 2 -> digital_value d (on_circle x fs) h <-> analog_value f (0, k * tan (PI * x / fs)) h) /\
    (fs / 10000000 <= m -> forall h, digital_value d (on_circle m fs) h <-> analog_value f (0, 2 * PI * m) h) /\
    ((forall p, In p (poles f) -> fst p < 0) -> forall p, In p (poles d) -> Cmod p < 1).
Proof. exact (bilinear_matches f fs m k g). Qed.
Print Assumptions C63_bilinear_partial.
(* The sign of the gain is lost: -1 / (s + 1) is -1 at zero frequency, its transform is 1 there. *)
Theorem C63_sign_refuted : exists f d, bilinear_pz f 1 0 = Ok d /\ (length (zeros f) <= length (poles f))%nat /\
  analog_value f (RtoC 0) (RtoC (-1)) /\ digital_value d (RtoC 1) (RtoC 1).
Proof. destruct bilinear_sign_lost as (d & A & B & C). exists negative_pole, d. repeat split; try assumption; try (cbn; lia); apply B || apply C. Qed.
Print Assumptions C63_sign_refuted.
(* A filter with more zeros than poles, H(s) = s, does not get the poles at Nyquist it needs. *)
Theorem C63_improper_refuted : exists f d, bilinear_pz f 1 0 = Ok d /\
  analog_value f (Cdiv (Cmult (RtoC 2) (Cminus (RtoC 3) (RtoC 1))) (Cplus (RtoC 3) (RtoC 1))) (RtoC 1) /\ digital_value d (RtoC 3) (RtoC (4 / 3)).
Proof. destruct bilinear_improper as (d & H). exists differentiator, d. exact H. Qed.
Print Assumptions C63_improper_refuted.
Example C63_example : exists d, bilinear_pz {| lone_zeros := []; lone_poles := [-1]; paired_zeros := []; paired_poles := []; pz_gain := 1 |} 1 (1 / 4) = Ok d /\
  forall h, digital_value d (on_circle (1 / 4) 1) h <-> analog_value {| lone_zeros := []; lone_poles := [-1]; paired_zeros := []; paired_poles := []; pz_gain := 1 |} (0, 2 * PI * (1 / 4)) h.
Proof.
  set (f := {| lone_zeros := _ |}). assert (T : tan (PI * (1 / 4) / 1) = 1) by (replace (PI * (1 / 4) / 1) with (PI / 4) by field; apply tan_PI4). pose proof PI_RGT_0 as PP.
  assert (N : RtoC (PI / 2 + 1) <> RtoC 0) by (apply RtoC_neq; lra).
  destruct (C63_bilinear_partial f 1 (1 / 4) (PI / 2) (/ (PI / 2 + 1))) as (d & E & _ & _ & M & _); try lra.
  - intros _. rewrite T. field.
  - cbn. lia.
  - intros r [<-|[]] X. apply (f_equal fst) in X. cbn in X. lra.
  - split; unfold poles, zeros; cbn [f lone_zeros lone_poles paired_zeros paired_poles pz_gain roots map app product_over].
    + replace (Cmult (Cminus (RtoC (PI / 2)) (RtoC (-1))) (RtoC 1)) with (RtoC (PI / 2 + 1)) by (apply injective_projections; cbn; ring). exact N.
    + replace (Cmult (Cminus (RtoC (PI / 2)) (RtoC (-1))) (RtoC 1)) with (RtoC (PI / 2 + 1)) by (apply injective_projections; cbn; ring). rewrite RtoC_inv by lra. field. exact N.
  - left. apply Rinv_0_lt_compat. lra.
  - exists d. split; [exact E|]. apply M. lra.
Qed.

(* ================ C64: lowpass and highpass filters from any prototype ================ *)
(* The frequency f of the filter has the response of the prototype at tan (pi f / fs) / tan (pi fc / fs).
   Missing: prototypes with a root that is mapped to less than 1e-5, and an fc of zero. *)
Theorem C64_lowpass_partial p fs fc : lowpass_prototype p -> 0 < fc -> fc < fs / 2 -> tame (tan (PI * fc / fs)) p ->
  exists cs, lowpass_filter (Ok p) fs fc = Ok cs /\ stable_cascade cs /\
    (forall g h, - (fs / 2) < g < fs / 2 -> cascade_value cs (on_circle g fs) h <-> analog_value p (0, tan (PI * g / fs) / tan (PI * fc / fs)) h) /\
    ((length (zeros p) < length (poles p))%nat -> cascade_value cs (RtoC (-1)) (RtoC 0)) /\
    (length (zeros p) = length (poles p) -> cascade_value cs (RtoC (-1)) (RtoC (pz_gain p))).
Proof. exact (lowpass_response p fs fc). Qed.
Print Assumptions C64_lowpass_partial.
Theorem C64_highpass_partial p fs fc : lowpass_prototype p -> 0 < fc -> fc < fs / 2 -> tame (/ tan (PI * fc / fs)) p ->
  exists cs, highpass_filter (Ok p) fs fc = Ok cs /\ stable_cascade cs /\
    (forall g h, - (fs / 2) < g < fs / 2 -> g <> 0 -> cascade_value cs (on_circle g fs) h <-> analog_value p (0, - (tan (PI * fc / fs) / tan (PI * g / fs))) h) /\
    ((length (zeros p) < length (poles p))%nat -> cascade_value cs (RtoC 1) (RtoC 0)) /\
    (forall h, analog_value p (RtoC 0) h -> cascade_value cs (RtoC (-1)) h).
Proof. exact (highpass_response p fs fc). Qed.
Print Assumptions C64_highpass_partial.
(* Corner frequencies out of range are refused. *)
Theorem C64_refused p fs fc : fs <= 0 \/ fc < 0 \/ fs / 2 <= fc -> lowpass_filter p fs fc = CheckFail /\ highpass_filter p fs fc = CheckFail.
Proof.
  intros H. unfold lowpass_filter, highpass_filter. destruct (Rltb_spec 0 fs) as [A|A]; [|split; reflexivity]. destruct (Rleb_spec 0 fc) as [B|B]; [|split; reflexivity]. destruct (Rltb_spec fc (fs / 2)) as [C|C]; [lra|split; reflexivity].
Qed.
Print Assumptions C64_refused.
(* A corner frequency of zero is not refused; the filter has a pole on the unit circle. *)
Theorem C64_zero_corner_refuted fs : 0 < fs -> exists cs, lowpass_filter (butterworth_prototype 1) fs 0 = Ok cs /\ ~ stable_cascade cs /\ forall h, ~ cascade_value cs (on_circle 0 fs) h.
Proof. exact (lowpass_zero fs). Qed.
Print Assumptions C64_zero_corner_refuted.
Example C64_example : exists cs, lowpass_filter (Ok {| lone_zeros := []; lone_poles := [-2]; paired_zeros := []; paired_poles := []; pz_gain := 2 |}) 8 1 = Ok cs /\ stable_cascade cs.
Proof.
  destruct (C64_lowpass_partial {| lone_zeros := []; lone_poles := [-2]; paired_zeros := []; paired_poles := []; pz_gain := 2 |} 8 1) as (cs & E & S1 & _); try lra.
  - split; [intros p [<-|[]]; cbn; lra|]. split; [intros p []|]. repeat split; cbn; lia || lra.
  - right. split; [reflexivity|]. split; [cbn; lia|]. intros r [].
  - exists cs. auto.
Qed.

(* ================ C65: bandpass and bandstop filters from any prototype ================ *)
(* Missing: real poles that the band transformation separates (wide bands), and roots mapped to less
   than 1e-5. *)
Theorem C65_bandpass_partial p fs low high : let tl := tan (PI * low / fs) in let th := tan (PI * high / fs) in
  lowpass_prototype p -> 0 < low -> low < high -> high < fs / 2 ->
  (forall x, In x (lone_zeros p ++ lone_poles p) -> (th - tl) * x * ((th - tl) * x) <= 4 * (tl * th)) -> away ((th - tl) / (1 + tl * th)) p ->
  exists cs, bandpass_filter (Ok p) fs low high = Ok cs /\ stable_cascade cs /\
    (forall g h, - (fs / 2) < g < fs / 2 -> g <> 0 -> cascade_value cs (on_circle g fs) h <-> analog_value p (0, bandpass_w tl th (tan (PI * g / fs))) h) /\
    ((length (zeros p) < length (poles p))%nat -> cascade_value cs (RtoC 1) (RtoC 0) /\ cascade_value cs (RtoC (-1)) (RtoC 0)).
Proof. exact (bandpass_response p fs low high). Qed.
Print Assumptions C65_bandpass_partial.
Theorem C65_bandstop_partial p fs low high : let tl := tan (PI * low / fs) in let th := tan (PI * high / fs) in
  lowpass_prototype p -> 0 < low -> low < high -> high < fs / 2 ->
  (forall x, In x (lone_zeros p ++ lone_poles p) -> (th - tl) * (th - tl) <= 4 * (tl * th) * (x * x)) -> away ((1 + tl * th) / (th - tl)) p ->
  exists cs, bandstop_filter (Ok p) fs low high = Ok cs /\ stable_cascade cs /\
    (forall g h, - (fs / 2) < g < fs / 2 -> tan (PI * g / fs) * tan (PI * g / fs) <> tl * th -> cascade_value cs (on_circle g fs) h <-> analog_value p (0, bandstop_w tl th (tan (PI * g / fs))) h) /\
    ((length (zeros p) < length (poles p))%nat -> forall g, - (fs / 2) < g < fs / 2 -> tan (PI * g / fs) * tan (PI * g / fs) = tl * th -> cascade_value cs (on_circle g fs) (RtoC 0)) /\
    (forall h, analog_value p (RtoC 0) h -> cascade_value cs (RtoC (-1)) h).
Proof. exact (bandstop_response p fs low high). Qed.
Print Assumptions C65_bandstop_partial.
(* The frequency mapping takes the edges to -1 and 1 and the band between them to (-1, 1). *)
Theorem C65_edges fs low high g : 0 < low -> low < high -> high < fs / 2 -> 0 < g < fs / 2 ->
  let w := bandpass_w (tan (PI * low / fs)) (tan (PI * high / fs)) (tan (PI * g / fs)) in
  (g = low \/ g = high -> Rabs w = 1) /\ (low < g < high -> Rabs w < 1) /\ (g < low \/ high < g -> 1 < Rabs w).
Proof. intros H1 H2 H3 G w. split; [|split]; intros X; [now apply edge_at|now apply edge_in|now apply edge_out]. Qed.
Print Assumptions C65_edges.
Theorem C65_refused p fs low high : fs <= 0 \/ low < 0 \/ high <= low \/ fs / 2 <= high ->
  bandpass_filter p fs low high = CheckFail /\ bandstop_filter p fs low high = CheckFail.
Proof.
  intros H. unfold bandpass_filter, bandstop_filter. destruct (Rltb_spec 0 fs) as [A|A]; [|split; reflexivity]. destruct (Rleb_spec 0 low) as [B|B]; [|split; reflexivity]. destruct (Rltb_spec low high) as [C|C]; [|split; reflexivity]. destruct (Rltb_spec high (fs / 2)) as [D|D]; [lra|split; reflexivity].
Qed.
Print Assumptions C65_refused.
(* A first order Butterworth bandpass from 1 to 5 Hz at 12 Hz has a gain of more than 3 at 3 Hz. *)
Theorem C65_wide_band_refuted : exists cs h, bandpass_filter (butterworth_prototype 1) 12 1 5 = Ok cs /\ stable_cascade cs /\ cascade_value cs (on_circle 3 12) h /\ 3 < Cmod h.
Proof. exact bandpass_peak. Qed.
Print Assumptions C65_wide_band_refuted.
Example C65_example : exists cs, bandpass_filter (Ok (butterworth 2)) 12 2 4 = Ok cs /\ stable_cascade cs.
Proof.
  destruct (C65_bandpass_partial (butterworth 2) 12 2 4) as (cs & E & S1 & _); try lra.
  - apply butterworth_lowpass_prototype. lia.
  - intros x [].
  - apply paired_away; [apply butterworth_tame_paired; try lia; apply band_facts; lra|intros x []].
  - exists cs. auto.
Qed.

(* ================ C66: Butterworth filters ================ *)
(* Missing: orders above 50000 (roots mapped near zero are dropped), odd orders with wide bands. *)
Theorem C66_lowpass_partial n fs fc : (1 <= n)%nat -> (Z.of_nat n <= 50000)%Z -> 0 < fc -> fc < fs / 2 ->
  exists cs, lowpass_filter (butterworth_prototype (Z.of_nat n)) fs fc = Ok cs /\ stable_cascade cs /\
    (forall g, - (fs / 2) < g < fs / 2 -> exists h, cascade_value cs (on_circle g fs) h /\ Cmod h = / sqrt (1 + (tan (PI * g / fs) / tan (PI * fc / fs)) ^ (2 * n))) /\
    cascade_value cs (RtoC (-1)) (RtoC 0).
Proof. exact (butterworth_lowpass_ok n fs fc). Qed.
Print Assumptions C66_lowpass_partial.
Theorem C66_highpass_partial n fs fc : (1 <= n)%nat -> (Z.of_nat n <= 50000)%Z -> 0 < fc -> fc < fs / 2 ->
  exists cs, highpass_filter (butterworth_prototype (Z.of_nat n)) fs fc = Ok cs /\ stable_cascade cs /\
    (forall g, - (fs / 2) < g < fs / 2 -> g <> 0 -> exists h, cascade_value cs (on_circle g fs) h /\ Cmod h = / sqrt (1 + (tan (PI * fc / fs) / tan (PI * g / fs)) ^ (2 * n))) /\
    cascade_value cs (RtoC 1) (RtoC 0) /\ (exists h, cascade_value cs (RtoC (-1)) h /\ Cmod h = 1).
Proof. exact (butterworth_highpass_ok n fs fc). Qed.
Print Assumptions C66_highpass_partial.
(* Unit gain at zero frequency, half power at the corner, monotone. *)
Theorem C66_lowpass_shape_partial n fs fc cs : (1 <= n)%nat -> (Z.of_nat n <= 50000)%Z -> 0 < fc -> fc < fs / 2 -> lowpass_filter (butterworth_prototype (Z.of_nat n)) fs fc = Ok cs ->
  (forall h, cascade_value cs (on_circle 0 fs) h -> Cmod h = 1) /\
  (forall h, cascade_value cs (on_circle fc fs) h -> Cmod h = / sqrt 2) /\
  (forall f g hf hg, 0 <= f -> f < g -> g < fs / 2 -> cascade_value cs (on_circle f fs) hf -> cascade_value cs (on_circle g fs) hg -> Cmod hg < Cmod hf).
Proof. exact (butterworth_lowpass_shape n fs fc cs). Qed.
Print Assumptions C66_lowpass_shape_partial.
Theorem C66_highpass_shape_partial n fs fc cs : (1 <= n)%nat -> (Z.of_nat n <= 50000)%Z -> 0 < fc -> fc < fs / 2 -> highpass_filter (butterworth_prototype (Z.of_nat n)) fs fc = Ok cs ->
  (forall h, cascade_value cs (on_circle fc fs) h -> Cmod h = / sqrt 2) /\
  (forall f g hf hg, 0 < f -> f < g -> g < fs / 2 -> cascade_value cs (on_circle f fs) hf -> cascade_value cs (on_circle g fs) hg -> Cmod hf < Cmod hg < 1).
Proof. exact (butterworth_highpass_shape n fs fc cs). Qed.
Print Assumptions C66_highpass_shape_partial.
(* Half power at both edges, more between them and less outside; zero at zero and Nyquist frequency. *)
Theorem C66_bandpass_partial n fs low high : 0 < low -> low < high -> high < fs / 2 -> (1 <= n)%nat -> (Z.of_nat n <= 50000)%Z ->
  (let tl := tan (PI * low / fs) in let th := tan (PI * high / fs) in
   Nat.even n = true \/ ((th - tl) * (th - tl) <= 4 * (tl * th) /\ 100001 * (th - tl) < 99999 * (1 + tl * th))) ->
  exists cs, bandpass_filter (butterworth_prototype (Z.of_nat n)) fs low high = Ok cs /\ stable_cascade cs /\
    (forall g, - (fs / 2) < g < fs / 2 -> g <> 0 -> exists h, cascade_value cs (on_circle g fs) h /\ Cmod h = / sqrt (1 + bandpass_w (tan (PI * low / fs)) (tan (PI * high / fs)) (tan (PI * g / fs)) ^ (2 * n))) /\
    cascade_value cs (RtoC 1) (RtoC 0) /\ cascade_value cs (RtoC (-1)) (RtoC 0) /\
    (forall g h, 0 < g < fs / 2 -> cascade_value cs (on_circle g fs) h ->
      (g = low \/ g = high -> Cmod h = / sqrt 2) /\ (low < g < high -> / sqrt 2 < Cmod h <= 1) /\ (g < low \/ high < g -> Cmod h < / sqrt 2)).
Proof.
  intros H1 H2 H3 HN HN' HO. destruct (butterworth_bandpass_ok fs low high H1 H2 H3 n HN HN' HO) as (cs & E & S1 & V & Z1 & Z2). exists cs. repeat (split; [assumption|]). exact (butterworth_bandpass_shape n fs low high cs HN H1 H2 H3 V).
Qed.
Print Assumptions C66_bandpass_partial.
Theorem C66_bandstop_partial n fs low high : 0 < low -> low < high -> high < fs / 2 -> (1 <= n)%nat -> (Z.of_nat n <= 50000)%Z ->
  (let tl := tan (PI * low / fs) in let th := tan (PI * high / fs) in
   Nat.even n = true \/ ((th - tl) * (th - tl) <= 4 * (tl * th) /\ 100001 * (th - tl) < 99999 * (1 + tl * th))) ->
  exists cs, bandstop_filter (butterworth_prototype (Z.of_nat n)) fs low high = Ok cs /\ stable_cascade cs /\
    (forall g, - (fs / 2) < g < fs / 2 -> tan (PI * g / fs) * tan (PI * g / fs) <> tan (PI * low / fs) * tan (PI * high / fs) ->
       exists h, cascade_value cs (on_circle g fs) h /\ Cmod h = / sqrt (1 + bandstop_w (tan (PI * low / fs)) (tan (PI * high / fs)) (tan (PI * g / fs)) ^ (2 * n))) /\
    (forall g, - (fs / 2) < g < fs / 2 -> tan (PI * g / fs) * tan (PI * g / fs) = tan (PI * low / fs) * tan (PI * high / fs) -> cascade_value cs (on_circle g fs) (RtoC 0)) /\
    (exists h, cascade_value cs (RtoC (-1)) h /\ Cmod h = 1) /\
    (forall g h, 0 < g < fs / 2 -> cascade_value cs (on_circle g fs) h ->
      (g = low \/ g = high -> Cmod h = / sqrt 2) /\ (low < g < high -> Cmod h < / sqrt 2) /\ (g < low \/ high < g -> / sqrt 2 < Cmod h <= 1)).
Proof.
  intros H1 H2 H3 HN HN' HO. destruct (butterworth_bandstop_ok fs low high H1 H2 H3 n HN HN' HO) as (cs & E & S1 & V & Z & NY). exists cs. repeat (split; [assumption|]). exact (butterworth_bandstop_shape n fs low high cs HN H1 H2 H3 V Z).
Qed.
Print Assumptions C66_bandstop_partial.
Example C66_example : exists cs, lowpass_filter (butterworth_prototype 5) 48000 1000 = Ok cs /\ exists h, cascade_value cs (on_circle 1000 48000) h /\ Cmod h = / sqrt 2.
Proof.
  destruct (C66_lowpass_partial 5 48000 1000) as (cs & E & S1 & V & _); try lia; try lra. exists cs. split; [exact E|]. destruct (V 1000 ltac:(lra)) as (h & A & _). exists h. split; [exact A|].
  apply (C66_lowpass_shape_partial 5 48000 1000 cs); try lia; try lra; [exact E|exact A].
Qed.
Example C66_band_example : exists cs, bandpass_filter (butterworth_prototype 4) 48000 1000 8000 = Ok cs /\ stable_cascade cs.
Proof. destruct (C66_bandpass_partial 4 48000 1000 8000) as (cs & E & S1 & _); try lia; try lra; [now left|]. exists cs. auto. Qed.

(* Every design refuses frequencies out of range, whatever the prototype, and orders below one. *)
Theorem C66_refuses proto fs low high n :
  (fs <= 0 \/ low < 0 \/ fs / 2 <= low -> lowpass_filter proto fs low = CheckFail /\ highpass_filter proto fs low = CheckFail) /\
  (fs <= 0 \/ low < 0 \/ high <= low \/ fs / 2 <= high -> bandpass_filter proto fs low high = CheckFail /\ bandstop_filter proto fs low high = CheckFail) /\
  ((n < 1)%Z -> lowpass_filter (butterworth_prototype n) fs low = CheckFail /\ highpass_filter (butterworth_prototype n) fs low = CheckFail /\
    bandpass_filter (butterworth_prototype n) fs low high = CheckFail /\ bandstop_filter (butterworth_prototype n) fs low high = CheckFail).
Proof.
  unfold lowpass_filter, highpass_filter, bandpass_filter, bandstop_filter, butterworth_prototype.
  destruct (Rltb_spec 0 fs), (Rleb_spec 0 low), (Rltb_spec low (fs / 2)), (Rltb_spec low high), (Rltb_spec high (fs / 2)); cbn [ocheck];
    (split; [intro; try lra; auto|split; [intro; try lra; auto|intro Hn; try rewrite (proj2 (Z.leb_gt 1 n) Hn); cbn [ocheck obind]; auto]]).
Qed.
Print Assumptions C66_refuses.
Example C66_refuses_case : lowpass_filter (butterworth_prototype 0) 48000 1000 = CheckFail /\ bandpass_filter (butterworth_prototype 2) 48000 2000 1000 = CheckFail.
Proof.
  split; [destruct (C66_refuses CheckFail 48000 1000 2000 0) as (_ & _ & H); apply H; lia|].
  destruct (C66_refuses (butterworth_prototype 2) 48000 2000 1000 2) as (_ & H & _). apply H. lra.
Qed.

(* ================ C67: Chebyshev filters ================ *)
(* Missing: orders above 25000; odd orders in bandpass and bandstop filters. *)
Theorem C67_type1_lowpass_partial n db fs fc : (1 <= n)%nat -> (Z.of_nat n <= 25000)%Z -> 0 < db -> 0 < fc -> fc < fs / 2 ->
  exists cs, lowpass_filter (chebyshev1_prototype (Z.of_nat n) db) fs fc = Ok cs /\ stable_cascade cs /\
    (forall g, - (fs / 2) < g < fs / 2 -> exists h, cascade_value cs (on_circle g fs) h /\ Cmod h = / sqrt (1 + (Rpower 10 (db / 10) - 1) * (chebyshev_T n (tan (PI * g / fs) / tan (PI * fc / fs))) ^ 2)) /\
    cascade_value cs (RtoC (-1)) (RtoC 0).
Proof. exact (chebyshev1_lowpass_ok n db fs fc). Qed.
Print Assumptions C67_type1_lowpass_partial.
Theorem C67_type1_highpass_partial n db fs fc : (1 <= n)%nat -> (Z.of_nat n <= 25000)%Z -> 0 < db -> 0 < fc -> fc < fs / 2 ->
  exists cs, highpass_filter (chebyshev1_prototype (Z.of_nat n) db) fs fc = Ok cs /\ stable_cascade cs /\
    (forall g, - (fs / 2) < g < fs / 2 -> g <> 0 -> exists h, cascade_value cs (on_circle g fs) h /\ Cmod h = / sqrt (1 + (Rpower 10 (db / 10) - 1) * (chebyshev_T n (tan (PI * fc / fs) / tan (PI * g / fs))) ^ 2)) /\
    cascade_value cs (RtoC 1) (RtoC 0) /\
    (exists h, cascade_value cs (RtoC (-1)) h /\ Cmod h = / sqrt (1 + (Rpower 10 (db / 10) - 1) * (chebyshev_T n 0) ^ 2)).
Proof. exact (chebyshev1_highpass_ok n db fs fc). Qed.
Print Assumptions C67_type1_highpass_partial.
(* Type 1: within the ripple up to the corner, exactly the ripple at the corner, falling off after it. *)
Theorem C67_type1_lowpass_shape_partial n db fs fc cs : (1 <= n)%nat -> (Z.of_nat n <= 25000)%Z -> 0 < db -> 0 < fc -> fc < fs / 2 -> lowpass_filter (chebyshev1_prototype (Z.of_nat n) db) fs fc = Ok cs ->
  (forall g h, 0 <= g <= fc -> cascade_value cs (on_circle g fs) h -> Rpower 10 (- db / 20) <= Cmod h <= 1) /\
  (forall h, cascade_value cs (on_circle fc fs) h -> Cmod h = Rpower 10 (- db / 20)) /\
  (forall f g hf hg, fc <= f -> f < g -> g < fs / 2 -> cascade_value cs (on_circle f fs) hf -> cascade_value cs (on_circle g fs) hg -> Cmod hg < Cmod hf).
Proof. exact (chebyshev1_lowpass_shape n db fs fc cs). Qed.
Print Assumptions C67_type1_lowpass_shape_partial.
Theorem C67_type1_highpass_shape_partial n db fs fc cs : (1 <= n)%nat -> (Z.of_nat n <= 25000)%Z -> 0 < db -> 0 < fc -> fc < fs / 2 -> highpass_filter (chebyshev1_prototype (Z.of_nat n) db) fs fc = Ok cs ->
  (forall g h, fc <= g < fs / 2 -> cascade_value cs (on_circle g fs) h -> Rpower 10 (- db / 20) <= Cmod h <= 1) /\
  (forall h, cascade_value cs (on_circle fc fs) h -> Cmod h = Rpower 10 (- db / 20)) /\
  (forall f g hf hg, 0 < f -> f < g -> g <= fc -> cascade_value cs (on_circle f fs) hf -> cascade_value cs (on_circle g fs) hg -> Cmod hf < Cmod hg).
Proof. exact (chebyshev1_highpass_shape n db fs fc cs). Qed.
Print Assumptions C67_type1_highpass_shape_partial.
Theorem C67_type2_lowpass_partial n db fs fc : (1 <= n)%nat -> (Z.of_nat n <= 25000)%Z -> 0 < db -> 0 < fc -> fc < fs / 2 ->
  exists cs, lowpass_filter (chebyshev2_prototype (Z.of_nat n) db) fs fc = Ok cs /\ stable_cascade cs /\
    cascade_value cs (RtoC 1) (RtoC 1) /\
    (forall g, - (fs / 2) < g < fs / 2 -> g <> 0 -> exists h, cascade_value cs (on_circle g fs) h /\
       let t := chebyshev_T n (tan (PI * fc / fs) / tan (PI * g / fs)) in Cmod h = Rabs t / sqrt (Rpower 10 (db / 10) - 1 + t ^ 2)) /\
    (Nat.odd n = true -> cascade_value cs (RtoC (-1)) (RtoC 0)).
Proof. exact (chebyshev2_lowpass_ok n db fs fc). Qed.
Print Assumptions C67_type2_lowpass_partial.
Theorem C67_type2_highpass_partial n db fs fc : (1 <= n)%nat -> (Z.of_nat n <= 25000)%Z -> 0 < db -> 0 < fc -> fc < fs / 2 ->
  exists cs, highpass_filter (chebyshev2_prototype (Z.of_nat n) db) fs fc = Ok cs /\ stable_cascade cs /\
    cascade_value cs (RtoC (-1)) (RtoC 1) /\
    (forall g, - (fs / 2) < g < fs / 2 -> g <> 0 -> exists h, cascade_value cs (on_circle g fs) h /\
       let t := chebyshev_T n (tan (PI * g / fs) / tan (PI * fc / fs)) in Cmod h = Rabs t / sqrt (Rpower 10 (db / 10) - 1 + t ^ 2)) /\
    (Nat.odd n = true -> cascade_value cs (RtoC 1) (RtoC 0)).
Proof. exact (chebyshev2_highpass_ok n db fs fc). Qed.
Print Assumptions C67_type2_highpass_partial.
(* Type 2: unit gain at zero frequency, falling to the attenuation at the corner and below it after. *)
Theorem C67_type2_lowpass_shape_partial n db fs fc cs : (1 <= n)%nat -> (Z.of_nat n <= 25000)%Z -> 0 < db -> 0 < fc -> fc < fs / 2 -> lowpass_filter (chebyshev2_prototype (Z.of_nat n) db) fs fc = Ok cs ->
  (forall g h, fc <= g < fs / 2 -> cascade_value cs (on_circle g fs) h -> Cmod h <= Rpower 10 (- db / 20)) /\
  (forall h, cascade_value cs (on_circle fc fs) h -> Cmod h = Rpower 10 (- db / 20)) /\
  (forall f g hf hg, 0 < f -> f < g -> g <= fc -> cascade_value cs (on_circle f fs) hf -> cascade_value cs (on_circle g fs) hg -> Cmod hg < Cmod hf < 1).
Proof. exact (chebyshev2_lowpass_shape n db fs fc cs). Qed.
Print Assumptions C67_type2_lowpass_shape_partial.
Theorem C67_type2_highpass_shape_partial n db fs fc cs : (1 <= n)%nat -> (Z.of_nat n <= 25000)%Z -> 0 < db -> 0 < fc -> fc < fs / 2 -> highpass_filter (chebyshev2_prototype (Z.of_nat n) db) fs fc = Ok cs ->
  (forall g h, 0 < g <= fc -> cascade_value cs (on_circle g fs) h -> Cmod h <= Rpower 10 (- db / 20)) /\
  (forall h, cascade_value cs (on_circle fc fs) h -> Cmod h = Rpower 10 (- db / 20)) /\
  (forall f g hf hg, fc <= f -> f < g -> g < fs / 2 -> cascade_value cs (on_circle f fs) hf -> cascade_value cs (on_circle g fs) hg -> Cmod hf < Cmod hg < 1).
Proof. exact (chebyshev2_highpass_shape n db fs fc cs). Qed.
Print Assumptions C67_type2_highpass_shape_partial.
Theorem C67_type1_bandpass_partial n db fs low high : 0 < low -> low < high -> high < fs / 2 -> (1 <= n)%nat -> (Z.of_nat n <= 25000)%Z -> Nat.even n = true -> 0 < db ->
  exists cs, bandpass_filter (chebyshev1_prototype (Z.of_nat n) db) fs low high = Ok cs /\ stable_cascade cs /\
    (forall g, - (fs / 2) < g < fs / 2 -> g <> 0 -> exists h, cascade_value cs (on_circle g fs) h /\
       Cmod h = / sqrt (1 + (Rpower 10 (db / 10) - 1) * (chebyshev_T n (bandpass_w (tan (PI * low / fs)) (tan (PI * high / fs)) (tan (PI * g / fs)))) ^ 2)) /\
    cascade_value cs (RtoC 1) (RtoC 0) /\ cascade_value cs (RtoC (-1)) (RtoC 0) /\
    (forall g h, 0 < g < fs / 2 -> cascade_value cs (on_circle g fs) h ->
      (g = low \/ g = high -> Cmod h = Rpower 10 (- db / 20)) /\ (low < g < high -> Rpower 10 (- db / 20) <= Cmod h <= 1) /\ (g < low \/ high < g -> Cmod h < Rpower 10 (- db / 20))).
Proof.
  intros H1 H2 H3 HN HN' HE HD. destruct (chebyshev1_bandpass_ok fs low high H1 H2 H3 n db HN HN' HE HD) as (cs & E & S1 & V & Z1 & Z2). exists cs. repeat (split; [assumption|]). exact (chebyshev1_bandpass_shape n db fs low high cs HN HD H1 H2 H3 V).
Qed.
Print Assumptions C67_type1_bandpass_partial.
Theorem C67_type1_bandstop_partial n db fs low high : 0 < low -> low < high -> high < fs / 2 -> (1 <= n)%nat -> (Z.of_nat n <= 25000)%Z -> Nat.even n = true -> 0 < db ->
  exists cs, bandstop_filter (chebyshev1_prototype (Z.of_nat n) db) fs low high = Ok cs /\ stable_cascade cs /\
    (forall g, - (fs / 2) < g < fs / 2 -> tan (PI * g / fs) * tan (PI * g / fs) <> tan (PI * low / fs) * tan (PI * high / fs) -> exists h, cascade_value cs (on_circle g fs) h /\
       Cmod h = / sqrt (1 + (Rpower 10 (db / 10) - 1) * (chebyshev_T n (bandstop_w (tan (PI * low / fs)) (tan (PI * high / fs)) (tan (PI * g / fs)))) ^ 2)) /\
    (forall g, - (fs / 2) < g < fs / 2 -> tan (PI * g / fs) * tan (PI * g / fs) = tan (PI * low / fs) * tan (PI * high / fs) -> cascade_value cs (on_circle g fs) (RtoC 0)) /\
    (forall g h, 0 < g < fs / 2 -> cascade_value cs (on_circle g fs) h ->
      (g = low \/ g = high -> Cmod h = Rpower 10 (- db / 20)) /\ (low < g < high -> Cmod h < Rpower 10 (- db / 20)) /\ (g < low \/ high < g -> Rpower 10 (- db / 20) <= Cmod h <= 1)).
Proof.
  intros H1 H2 H3 HN HN' HE HD. destruct (chebyshev1_bandstop_ok fs low high H1 H2 H3 n db HN HN' HE HD) as (cs & E & S1 & V & Z & _). exists cs. repeat (split; [assumption|]). exact (chebyshev1_bandstop_shape n db fs low high cs HN HD H1 H2 H3 V Z).
Qed.
Print Assumptions C67_type1_bandstop_partial.
Theorem C67_type2_bandpass_partial n db fs low high : 0 < low -> low < high -> high < fs / 2 -> (1 <= n)%nat -> (Z.of_nat n <= 25000)%Z -> Nat.even n = true -> 0 < db ->
  exists cs, bandpass_filter (chebyshev2_prototype (Z.of_nat n) db) fs low high = Ok cs /\ stable_cascade cs /\
    (forall g h, 0 < g < fs / 2 -> cascade_value cs (on_circle g fs) h ->
      (g = low \/ g = high -> Cmod h = Rpower 10 (- db / 20)) /\ (low < g < high -> Rpower 10 (- db / 20) < Cmod h <= 1) /\ (g < low \/ high < g -> Cmod h <= Rpower 10 (- db / 20))) /\
    (forall g, - (fs / 2) < g < fs / 2 -> g <> 0 -> tan (PI * g / fs) * tan (PI * g / fs) = tan (PI * low / fs) * tan (PI * high / fs) -> cascade_value cs (on_circle g fs) (RtoC 1)).
Proof.
  intros H1 H2 H3 HN HN' HE HD. destruct (chebyshev2_bandpass_ok fs low high H1 H2 H3 n db HN HN' HE HD) as (cs & E & S1 & Z & V). exists cs. split; [exact E|]. split; [exact S1|]. split; [|exact Z]. exact (chebyshev2_bandpass_shape n db fs low high cs HN HD H1 H2 H3 Z V).
Qed.
Print Assumptions C67_type2_bandpass_partial.
(* at the geometric centre of the stop band the gain is the ripple, too *)
Theorem C67_type2_bandstop_partial n db fs low high : 0 < low -> low < high -> high < fs / 2 -> (1 <= n)%nat -> (Z.of_nat n <= 25000)%Z -> Nat.even n = true -> 0 < db ->
  exists cs, bandstop_filter (chebyshev2_prototype (Z.of_nat n) db) fs low high = Ok cs /\ stable_cascade cs /\
    cascade_value cs (RtoC 1) (RtoC 1) /\ cascade_value cs (RtoC (-1)) (RtoC 1) /\
    (forall g h, 0 < g < fs / 2 -> cascade_value cs (on_circle g fs) h ->
      (g = low \/ g = high \/ tan (PI * g / fs) * tan (PI * g / fs) = tan (PI * low / fs) * tan (PI * high / fs) -> Cmod h = Rpower 10 (- db / 20)) /\ (low < g < high -> Cmod h <= Rpower 10 (- db / 20)) /\ (g < low \/ high < g -> Rpower 10 (- db / 20) < Cmod h < 1)).
Proof.
  intros H1 H2 H3 HN HN' HE HD. destruct (chebyshev2_bandstop_ok fs low high H1 H2 H3 n db HN HN' HE HD) as (cs & E & S1 & Z1 & Z2 & V). exists cs. repeat (split; [assumption|]). exact (chebyshev2_bandstop_all n db fs low high cs HN HE HD H1 H2 H3 S1 V).
Qed.
Print Assumptions C67_type2_bandstop_partial.
Example C67_example : exists cs, lowpass_filter (chebyshev1_prototype 5 1) 48000 1000 = Ok cs /\ exists h, cascade_value cs (on_circle 1000 48000) h /\ Cmod h = Rpower 10 (- 1 / 20).
Proof.
  destruct (C67_type1_lowpass_partial 5 1 48000 1000) as (cs & E & S1 & V & _); try lia; try lra. exists cs. split; [exact E|]. destruct (V 1000 ltac:(lra)) as (h & A & _). exists h. split; [exact A|].
  apply (C67_type1_lowpass_shape_partial 5 1 48000 1000 cs); try lia; try lra; [exact E|exact A].
Qed.
Example C67_type2_example : exists cs, bandstop_filter (chebyshev2_prototype 6 40) 48000 1000 8000 = Ok cs /\ stable_cascade cs.
Proof. destruct (C67_type2_bandstop_partial 6 40 48000 1000 8000) as (cs & E & S1 & _); try lia; try lra; [reflexivity|]. exists cs. auto. Qed.

(* Orders below one and ripples that are not positive are refused. *)
Theorem C67_refuses n db fs low high : (n < 1)%Z \/ db <= 0 ->
  forall proto, proto = chebyshev1_prototype n db \/ proto = chebyshev2_prototype n db ->
  lowpass_filter proto fs low = CheckFail /\ highpass_filter proto fs low = CheckFail /\
  bandpass_filter proto fs low high = CheckFail /\ bandstop_filter proto fs low high = CheckFail.
Proof.
  intros H proto HP.
  assert (E : proto = CheckFail).
  { destruct HP as [-> | ->]; unfold chebyshev1_prototype, chebyshev2_prototype; destruct (Z.leb_spec 1 n); cbn [ocheck]; auto;
    destruct (Rltb_spec 0 db); cbn [ocheck]; auto; exfalso; destruct H; [lia|lra|lia|lra]. }
  rewrite E. unfold lowpass_filter, highpass_filter, bandpass_filter, bandstop_filter.
  destruct (Rltb 0 fs), (Rleb 0 low), (Rltb low (fs / 2)), (Rltb low high), (Rltb high (fs / 2)); cbn [ocheck obind]; auto.
Qed.
Print Assumptions C67_refuses.
Example C67_refuses_case : lowpass_filter (chebyshev1_prototype 4 0) 48000 1000 = CheckFail.
Proof. apply (C67_refuses 4 0 48000 1000 2000 ltac:(right; lra) _ ltac:(left; reflexivity)). Qed.

(* ================ C49: crossovers ================ *)
(* The outputs of a Linkwitz-Riley crossover add up to gain 1 at every frequency, are in phase, and
   are both at half gain at the crossover frequency.  Missing: crossover frequencies so low or high,
   or orders so large, that coefficients fall below the tolerance of the cascade. *)
Theorem C49_linkwitz_riley_partial n fs fc : (1 <= n)%nat -> (Z.of_nat n <= 50000)%Z -> 0 < fc -> fc < fs / 2 ->
  lowpass_gain n (tan (PI * fc / fs)) -> highpass_gain n (tan (PI * fc / fs)) -> lone_clear n (tan (PI * fc / fs)) ->
  exists lo hi, crossover Linkwitz_Riley_crossover (2 * Z.of_nat n) fc fs = Ok (lo, hi) /\ stable_cascade lo /\ stable_cascade hi /\
    forall g, - (fs / 2) <= g <= fs / 2 -> exists hl hh, cascade_value lo (on_circle g fs) hl /\ cascade_value hi (on_circle g fs) hh /\
      Cmod (Cplus hl hh) = 1 /\
      (- (fs / 2) < g < fs / 2 -> exists r, 0 <= r /\ hh = Cmult (RtoC r) hl) /\
      (g = fc -> hl = hh /\ Cmod hl = / 2).
Proof. exact (linkwitz_riley_flat n fs fc). Qed.
Print Assumptions C49_linkwitz_riley_partial.
(* The exact responses: the gains are 1 / (1 + W^2n) and W^2n / (1 + W^2n). *)
Theorem C49_linkwitz_riley_gains_partial n fs fc : (1 <= n)%nat -> (Z.of_nat n <= 50000)%Z -> 0 < fc -> fc < fs / 2 ->
  lowpass_gain n (tan (PI * fc / fs)) -> highpass_gain n (tan (PI * fc / fs)) -> lone_clear n (tan (PI * fc / fs)) ->
  exists lo hi, crossover Linkwitz_Riley_crossover (2 * Z.of_nat n) fc fs = Ok (lo, hi) /\
    forall g, - (fs / 2) < g < fs / 2 -> exists hl, let W := tan (PI * g / fs) / tan (PI * fc / fs) in
       cascade_value lo (on_circle g fs) hl /\ cascade_value hi (on_circle g fs) (Cmult (RtoC (W ^ (2 * n))) hl) /\ Cmod hl * (1 + W ^ (2 * n)) = 1.
Proof.
  intros H HN H1 H2 A B C. destruct (linkwitz_riley_ok n fs fc H HN H1 H2 A B C) as (lo & hi & E & _ & _ & V & _). exists lo, hi. split; [exact E|exact V].
Qed.
Print Assumptions C49_linkwitz_riley_gains_partial.
(* An eighth order crossover at 45 Hz and 48 kHz is not flat: the gain at zero frequency is 11/16. *)
Theorem C49_flat_refuted : exists lo hi hl hh, crossover Linkwitz_Riley_crossover 8 45 48000 = Ok (lo, hi) /\
  cascade_value lo (on_circle 0 48000) hl /\ cascade_value hi (on_circle 0 48000) hh /\ Cmod (Cplus hl hh) = 11 / 16.
Proof.
  destruct linkwitz_riley_dip as (lo & hi & hl & E & A & B & M). exists lo, hi, hl, (RtoC 0). split; [exact E|]. split; [exact A|]. split; [exact B|]. rewrite Cplus_0_r. exact M.
Qed.
Print Assumptions C49_flat_refuted.
(* Butterworth crossovers preserve power; even orders have the documented bump of 3 dB. *)
Theorem C49_butterworth_partial n fs fc : (1 <= n)%nat -> (Z.of_nat n <= 50000)%Z -> 0 < fc -> fc < fs / 2 ->
  exists lo hi, crossover Butterworth_crossover (Z.of_nat n) fc fs = Ok (lo, hi) /\ stable_cascade lo /\ stable_cascade hi /\
    forall g, - (fs / 2) <= g <= fs / 2 -> exists hl hh, cascade_value lo (on_circle g fs) hl /\ cascade_value hi (on_circle g fs) hh /\
      (Cmod hl) ^ 2 + (Cmod hh) ^ 2 = 1 /\
      (Nat.even n = true -> g = fc -> hl = hh /\ Cmod (Cplus hl hh) = sqrt 2) /\
      (Nat.odd n = true -> Cmod (Cplus hl hh) = 1).
Proof. exact (butterworth_crossover_power n fs fc). Qed.
Print Assumptions C49_butterworth_partial.
(* Odd orders are flat; there is no bump. *)
Theorem C49_bump_refuted n fs fc : (1 <= n)%nat -> (Z.of_nat n <= 50000)%Z -> Nat.odd n = true -> 0 < fc -> fc < fs / 2 ->
  exists lo hi hl hh, crossover Butterworth_crossover (Z.of_nat n) fc fs = Ok (lo, hi) /\ cascade_value lo (on_circle fc fs) hl /\ cascade_value hi (on_circle fc fs) hh /\ Cmod (Cplus hl hh) = 1.
Proof.
  intros H HN HO H1 H2. destruct (butterworth_crossover_power n fs fc H HN H1 H2) as (lo & hi & E & _ & _ & V). destruct (V fc ltac:(lra)) as (hl & hh & A & B & _ & _ & M). exists lo, hi, hl, hh. auto.
Qed.
Print Assumptions C49_bump_refuted.
(* Other arguments are refused. *)
Theorem C49_refused type order fc fs : (order <= 0)%Z \/ fc <= 0 \/ fs / 2 <= fc \/ (type = Linkwitz_Riley_crossover /\ (order mod 2 <> 0)%Z) -> crossover type order fc fs = CheckFail.
Proof.
  intros H. unfold crossover. destruct (Z.ltb_spec 0 order) as [A|A]; [|reflexivity]. destruct (Rltb_spec 0 fc) as [B|B]; [|reflexivity]. destruct (Rltb_spec fc (fs / 2)) as [C|C]; [|reflexivity].
  destruct H as [H|[H|[H|[-> H]]]]; try lia; try lra. cbn [ocheck]. unfold make_linkwitz_riley. rewrite Z.rem_mod_nonneg by lia. destruct (Z.eqb_spec (order mod 2) 0) as [X|_]; [contradiction|reflexivity].
Qed.
Print Assumptions C49_refused.
Example C49_example : exists lo hi, crossover Linkwitz_Riley_crossover 4 12000 48000 = Ok (lo, hi) /\
  forall g, - 24000 <= g <= 24000 -> exists hl hh, cascade_value lo (on_circle g 48000) hl /\ cascade_value hi (on_circle g 48000) hh /\ Cmod (Cplus hl hh) = 1.
Proof.
  assert (T : tan (PI * 12000 / 48000) = 1) by (replace (PI * 12000 / 48000) with (PI / 4) by field; apply tan_PI4).
  destruct (C49_linkwitz_riley_partial 2 48000 12000) as (lo & hi & E & _ & _ & V); try lia; try lra; rewrite ?T.
  - unfold lowpass_gain. cbn. lra.
  - unfold highpass_gain. cbn. lra.
  - intros X. discriminate.
  - exists lo, hi. split; [exact E|]. intros g G. destruct (V g ltac:(lra)) as (hl & hh & A & B & M & _). exists hl, hh. auto.
Qed.
