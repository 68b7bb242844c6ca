From Verif Require Import Common ListLemmas RealUtil BiquadModel DesignModel DesignSpec DesignProofs DesignProofs2 DesignProofs3 CascadeModel CascadeSpec CascadeProofs CascadeProofs2 PoleZeroModel PoleZeroSpec PoleZeroProofs PoleZeroProofs2 PoleZeroProofs3 PoleZeroProofs4 PoleZeroProofs5 PolyRoots PoleZeroProofs6 PoleZeroProofs7 PoleZeroProofs8 PoleZeroProofs11 PoleZeroProofs13 PoleZeroProofs15 PoleZeroProofs18 PoleZeroProofs23.
From Coquelicot Require Import Complex.
Local Open Scope R_scope.

Lemma bandpass_w_incr tl th s t : 0 < tl < th -> 0 < s < t -> bandpass_w tl th s < bandpass_w tl th t.
Proof.
  intros H1 H2. unfold bandpass_w. assert (E : forall x, 0 < x -> (x * x - tl * th) / ((th - tl) * x) = (x - tl * th / x) / (th - tl)) by (intros; field; lra). rewrite !E by lra.
  apply ratio_lt; [lra|]. assert (tl * th / t < tl * th / s) by (apply ratio_inv; nra). lra.
Qed.
Lemma bandpass_w_low tl th : 0 < tl < th -> bandpass_w tl th tl = -1.
Proof. intros H. unfold bandpass_w. field. lra. Qed.
Lemma bandpass_w_high tl th : 0 < tl < th -> bandpass_w tl th th = 1.
Proof. intros H. unfold bandpass_w. field. lra. Qed.
Lemma bandstop_bandpass tl th t : 0 < tl < th -> t <> 0 -> t * t <> tl * th -> bandstop_w tl th t = - / bandpass_w tl th t.
Proof. intros H H1 H2. unfold bandstop_w, bandpass_w. field. repeat split; try lra. Qed.
Section Edges.
  Variables (fs low high g : R).
  Hypotheses (H1 : 0 < low) (H2 : low < high) (H3 : high < fs / 2) (G : 0 < g < fs / 2).
  Let tl := tan (PI * low / fs).
  Let th := tan (PI * high / fs).
  Let t := tan (PI * g / fs).
  Let w := bandpass_w tl th t.
  Lemma warped : 0 < tl < th /\ 0 < t.
  Proof. repeat split; [apply tan_pos; lra|apply tan_less; lra|apply tan_pos; lra]. Qed.
  Lemma edge_at : g = low \/ g = high -> Rabs w = 1.
  Proof.
    destruct warped as [A B]. unfold w, t. intros [-> | ->]; fold tl th; [rewrite bandpass_w_low by exact A; rewrite Rabs_left; lra|rewrite bandpass_w_high by exact A; apply Rabs_R1].
  Qed.
  Lemma edge_in : low < g < high -> Rabs w < 1.
  Proof.
    destruct warped as [A B]. intros [L H]. assert (tl < t < th) by (unfold tl, t, th; split; apply tan_mono; lra). pose proof (bandpass_w_incr tl th tl t A ltac:(lra)) as P. pose proof (bandpass_w_incr tl th t th A ltac:(lra)) as Q.
    rewrite bandpass_w_low in P by exact A. rewrite bandpass_w_high in Q by exact A. unfold w. apply Rabs_def1; lra.
  Qed.
  Lemma edge_out : g < low \/ high < g -> 1 < Rabs w.
  Proof.
    destruct warped as [A B]. intros [L|L].
    - assert (t < tl) by (unfold tl, t; apply tan_mono; lra). pose proof (bandpass_w_incr tl th t tl A ltac:(lra)) as P. rewrite bandpass_w_low in P by exact A. fold w in P. rewrite Rabs_left; lra.
    - assert (th < t) by (unfold th, t; apply tan_mono; lra). pose proof (bandpass_w_incr tl th th t A ltac:(lra)) as P. rewrite bandpass_w_high in P by exact A. fold w in P. rewrite Rabs_pos_eq; lra.
  Qed.
  Lemma stop_at : g = low \/ g = high -> t * t <> tl * th -> Rabs (bandstop_w tl th t) = 1.
  Proof. destruct warped as [A B]. intros X Y. rewrite bandstop_bandpass by (assumption || lra). fold w. rewrite Rabs_Ropp, Rabs_inv, (edge_at X). apply Rinv_1. Qed.
  Lemma w_neq : t * t <> tl * th -> w <> 0.
  Proof. destruct warped as [A B]. intros Y Z. apply Y. apply (bandpass_w_zero fs low high H1 H2 H3); [lra|exact Z]. Qed.
  Lemma stop_in : low < g < high -> t * t <> tl * th -> 1 < Rabs (bandstop_w tl th t).
  Proof.
    destruct warped as [A B]. intros X Y. rewrite bandstop_bandpass by (assumption || lra). fold w. pose proof (w_neq Y) as N. rewrite Rabs_Ropp, Rabs_inv. pose proof (edge_in X). rewrite <- Rinv_1. apply Rinv_lt_contravar; [|assumption].
    rewrite Rmult_1_r. now apply Rabs_pos_lt.
  Qed.
  Lemma stop_out : g < low \/ high < g -> t * t <> tl * th /\ Rabs (bandstop_w tl th t) < 1.
  Proof.
    destruct warped as [A B]. intros X. pose proof (edge_out X) as W. assert (Y : t * t <> tl * th) by (intros Y; apply (bandpass_w_zero fs low high H1 H2 H3) in Y; [|fold t; lra]; unfold w, tl, th in W; rewrite Y, Rabs_R0 in W; lra).
    split; [exact Y|]. rewrite bandstop_bandpass by (assumption || lra). fold w. pose proof (w_neq Y) as N. rewrite Rabs_Ropp, Rabs_inv. rewrite <- Rinv_1. apply Rinv_lt_contravar; [|assumption]. rewrite Rmult_1_l. now apply Rabs_pos_lt.
  Qed.
  Lemma stop_at_neq : g = low \/ g = high -> t * t <> tl * th.
  Proof. destruct warped as [A B]. intros [X|X] Y; unfold t in Y; rewrite X in Y; fold tl th in Y; nra. Qed.
End Edges.
Lemma pow_abs w n : Rabs w ^ (2 * n) = w ^ (2 * n).
Proof. rewrite !pow_mult. f_equal. cbn. rewrite !Rmult_1_r, <- Rabs_mult. apply Rabs_pos_eq. nra. Qed.

Lemma butterworth_band_mag n w : (1 <= n)%nat -> (Rabs w = 1 -> / sqrt (1 + w ^ (2 * n)) = / sqrt 2) /\ (Rabs w < 1 -> / sqrt 2 < / sqrt (1 + w ^ (2 * n)) <= 1) /\ (1 < Rabs w -> / sqrt (1 + w ^ (2 * n)) < / sqrt 2).
Proof.
  intros H. rewrite <- (pow_abs w). pose proof (Rabs_pos w) as P. set (a := Rabs w) in *. clearbody a. pose proof (butterworth_mag_1 n) as M1. split; [intros ->; exact M1|]. rewrite <- M1. split.
  - intros A. split; [now apply butterworth_mag_lt|]. pose proof (even_pow_le a n). apply Rle_trans with (/ sqrt 1); [apply inv_sqrt_le; lra|rewrite inv_sqrt_1; lra].
  - intros A. apply butterworth_mag_lt; [exact H|lra].
Qed.

(* ---------- the shape of a response with a known magnitude ---------- *)
Section Shapes.
  Variables (fs : R) (cs : list (coeffs R)) (mag : R -> R).
  (* the magnitude is mag of the warped frequency, relative to the corner *)
  Definition has_magnitude (P : R -> Prop) (W : R -> R) : Prop :=
    forall g h, - (fs / 2) < g < fs / 2 -> P g -> cascade_value cs (on_circle g fs) h -> Cmod h = mag (W (tan (PI * g / fs))).
  Lemma magnitude_of (P : R -> Prop) W : (forall g, - (fs / 2) < g < fs / 2 -> P g -> exists h, cascade_value cs (on_circle g fs) h /\ Cmod h = mag (W (tan (PI * g / fs)))) -> has_magnitude P W.
  Proof. intros V g h G HP A. destruct (V g G HP) as (h' & A' & M'). now rewrite (value_unique _ _ _ _ A A'). Qed.
End Shapes.
Lemma one_le_ratio a b : 0 < a -> a <= b -> 1 <= b / a.
Proof. intros H1 H2. apply (Rmult_le_reg_r a); [exact H1|]. unfold Rdiv. rewrite Rmult_assoc, Rinv_l by lra. lra. Qed.
Lemma low_ratio_facts fs fc f g : 0 < fc -> fc < fs / 2 -> 0 <= f -> f < g -> g < fs / 2 -> 0 <= tan (PI * f / fs) / tan (PI * fc / fs) < tan (PI * g / fs) / tan (PI * fc / fs).
Proof.
  intros H1 H2 F0 FG G. pose proof (tan_pos fc fs H1 H2) as TP. pose proof (tan_mono f g fs ltac:(lra) FG G). pose proof (tan_nonneg f fs ltac:(lra)). split; [|now apply ratio_lt]. unfold Rdiv. apply Rmult_le_pos; [assumption|]. left. now apply Rinv_0_lt_compat.
Qed.
Lemma low_ratio_1 fs fc : 0 < fc -> fc < fs / 2 -> tan (PI * fc / fs) / tan (PI * fc / fs) = 1.
Proof. intros H1 H2. pose proof (tan_pos fc fs H1 H2). field. lra. Qed.
Lemma low_ratio_0 fs fc : 0 < fc -> fc < fs / 2 -> tan (PI * 0 / fs) / tan (PI * fc / fs) = 0.
Proof. intros H1 H2. pose proof (tan_pos fc fs H1 H2). rewrite tan_at_0 by lra. field. lra. Qed.
Lemma high_ratio_facts fs fc f g : 0 < fc -> fc < fs / 2 -> 0 < f -> f < g -> g < fs / 2 -> 0 < tan (PI * fc / fs) / tan (PI * g / fs) < tan (PI * fc / fs) / tan (PI * f / fs).
Proof.
  intros H1 H2 F0 FG G. pose proof (tan_pos fc fs H1 H2) as TP. pose proof (tan_mono f g fs ltac:(lra) FG G). pose proof (tan_pos f fs F0 ltac:(lra)). split; [apply Rdiv_lt_0_compat; lra|apply ratio_inv; lra].
Qed.
Lemma butterworth_lowpass_shape n fs fc cs : (1 <= n)%nat -> (Z.of_nat n <= 50000)%Z -> 0 < fc -> fc < fs / 2 -> lowpass_filter (butterworth_prototype (Z.of_nat n)) fs fc = Ok cs ->
  (forall h, cascade_value cs (on_circle 0 fs) h -> Cmod h = 1) /\
  (forall h, cascade_value cs (on_circle fc fs) h -> Cmod h = / sqrt 2) /\
  (forall f g hf hg, 0 <= f -> f < g -> g < fs / 2 -> cascade_value cs (on_circle f fs) hf -> cascade_value cs (on_circle g fs) hg -> Cmod hg < Cmod hf).
Proof.
  intros HN HN' H1 H2 EC. destruct (butterworth_lowpass_ok n fs fc HN HN' H1 H2) as (cs' & E & S1 & V & _). rewrite E in EC. injection EC as ->.
  assert (M := magnitude_of fs cs (fun w => / sqrt (1 + w ^ (2 * n))) (fun _ => True) (fun t => t / tan (PI * fc / fs)) (fun g G _ => V g G)). cbv beta in M.
  split; [|split].
  - intros h A. rewrite (M 0 h) by (assumption || lra || exact I). rewrite low_ratio_0 by assumption. now apply butterworth_mag_0.
  - intros h A. rewrite (M fc h) by (assumption || lra || exact I). rewrite low_ratio_1 by assumption. apply butterworth_mag_1.
  - intros f g hf hg F0 FG G A B. rewrite (M f hf), (M g hg) by (assumption || lra || exact I). apply butterworth_mag_lt; [exact HN|]. now apply low_ratio_facts.
Qed.
Lemma butterworth_highpass_shape n fs fc cs : (1 <= n)%nat -> (Z.of_nat n <= 50000)%Z -> 0 < fc -> fc < fs / 2 -> highpass_filter (butterworth_prototype (Z.of_nat n)) fs fc = Ok cs ->
  (forall h, cascade_value cs (on_circle fc fs) h -> Cmod h = / sqrt 2) /\
  (forall f g hf hg, 0 < f -> f < g -> g < fs / 2 -> cascade_value cs (on_circle f fs) hf -> cascade_value cs (on_circle g fs) hg -> Cmod hf < Cmod hg < 1).
Proof.
  intros HN HN' H1 H2 EC. destruct (butterworth_highpass_ok n fs fc HN HN' H1 H2) as (cs' & E & S1 & V & _). rewrite E in EC. injection EC as ->.
  assert (M := magnitude_of fs cs (fun w => / sqrt (1 + w ^ (2 * n))) (fun g => g <> 0) (fun t => tan (PI * fc / fs) / t) V). cbv beta in M.
  split.
  - intros h A. rewrite (M fc h) by (assumption || lra). rewrite low_ratio_1 by assumption. apply butterworth_mag_1.
  - intros f g hf hg F0 FG G A B. rewrite (M f hf), (M g hg) by (assumption || lra). pose proof (high_ratio_facts fs fc f g H1 H2 F0 FG G) as R. split; [apply butterworth_mag_lt; [exact HN|lra]|]. rewrite <- (butterworth_mag_0 n HN) at 2. apply butterworth_mag_lt; [exact HN|lra].
Qed.
(* edge cases of a bandpass: half power at both edges, more between them and less outside *)
Lemma butterworth_bandpass_shape n fs low high cs : (1 <= n)%nat -> 0 < low -> low < high -> high < fs / 2 ->
  (forall g, - (fs / 2) < g < fs / 2 -> g <> 0 -> exists h, cascade_value cs (on_circle g fs) h /\ Cmod h = / sqrt (1 + bandpass_w (tan (PI * low / fs)) (tan (PI * high / fs)) (tan (PI * g / fs)) ^ (2 * n))) ->
  forall g h, 0 < g < fs / 2 -> cascade_value cs (on_circle g fs) h ->
    (g = low \/ g = high -> Cmod h = / sqrt 2) /\ (low < g < high -> / sqrt 2 < Cmod h <= 1) /\ (g < low \/ high < g -> Cmod h < / sqrt 2).
Proof.
  intros HN H1 H2 H3 V g h G A. assert (M := magnitude_of fs cs (fun w => / sqrt (1 + w ^ (2 * n))) (fun g => g <> 0) (fun t => bandpass_w (tan (PI * low / fs)) (tan (PI * high / fs)) t) V). cbv beta in M. rewrite (M g h) by (assumption || lra).
  destruct (butterworth_band_mag n (bandpass_w (tan (PI * low / fs)) (tan (PI * high / fs)) (tan (PI * g / fs))) HN) as (B1 & B2 & B3).
  split; [intros X; apply B1; now apply edge_at|]. split; [intros X; apply B2; now apply edge_in|]. intros X; apply B3; now apply edge_out.
Qed.
Lemma butterworth_bandstop_shape n fs low high cs : (1 <= n)%nat -> 0 < low -> low < high -> high < fs / 2 ->
  (forall g, - (fs / 2) < g < fs / 2 -> tan (PI * g / fs) * tan (PI * g / fs) <> tan (PI * low / fs) * tan (PI * high / fs) -> exists h, cascade_value cs (on_circle g fs) h /\ Cmod h = / sqrt (1 + bandstop_w (tan (PI * low / fs)) (tan (PI * high / fs)) (tan (PI * g / fs)) ^ (2 * n))) ->
  (forall g, - (fs / 2) < g < fs / 2 -> tan (PI * g / fs) * tan (PI * g / fs) = tan (PI * low / fs) * tan (PI * high / fs) -> cascade_value cs (on_circle g fs) (RtoC 0)) ->
  forall g h, 0 < g < fs / 2 -> cascade_value cs (on_circle g fs) h ->
    (g = low \/ g = high -> Cmod h = / sqrt 2) /\ (low < g < high -> Cmod h < / sqrt 2) /\ (g < low \/ high < g -> / sqrt 2 < Cmod h <= 1).
Proof.
  intros HN H1 H2 H3 V Z g h G A. assert (M := magnitude_of fs cs (fun w => / sqrt (1 + w ^ (2 * n))) (fun g => tan (PI * g / fs) * tan (PI * g / fs) <> tan (PI * low / fs) * tan (PI * high / fs)) (fun t => bandstop_w (tan (PI * low / fs)) (tan (PI * high / fs)) t) V). cbv beta in M.
  destruct (butterworth_band_mag n (bandstop_w (tan (PI * low / fs)) (tan (PI * high / fs)) (tan (PI * g / fs))) HN) as (B1 & B2 & B3).
  split; [|split].
  - intros X. pose proof (stop_at_neq fs low high g H1 H2 H3 G X) as Y. rewrite (M g h) by (assumption || lra). apply B1. now apply stop_at.
  - intros X. destruct (Req_dec (tan (PI * g / fs) * tan (PI * g / fs)) (tan (PI * low / fs) * tan (PI * high / fs))) as [Y|Y].
    + rewrite (value_unique _ _ _ _ A (Z g ltac:(lra) Y)). rewrite Cmod_0. apply Rinv_0_lt_compat, sqrt_lt_R0. lra.
    + rewrite (M g h) by (assumption || lra). apply B3. now apply stop_in.
  - intros X. destruct (stop_out fs low high g H1 H2 H3 G X) as [Y W]. rewrite (M g h) by (assumption || lra). apply B2. exact W.
Qed.

(* ---------- Chebyshev shapes ---------- *)
Lemma chebyshev1_lowpass_shape n db fs fc cs : (1 <= n)%nat -> (Z.of_nat n <= 25000)%Z -> 0 < db -> 0 < fc -> fc < fs / 2 -> lowpass_filter (chebyshev1_prototype (Z.of_nat n) db) fs fc = Ok cs ->
  (forall g h, 0 <= g <= fc -> cascade_value cs (on_circle g fs) h -> Rpower 10 (- db / 20) <= Cmod h <= 1) /\
  (forall h, cascade_value cs (on_circle fc fs) h -> Cmod h = Rpower 10 (- db / 20)) /\
  (forall f g hf hg, fc <= f -> f < g -> g < fs / 2 -> cascade_value cs (on_circle f fs) hf -> cascade_value cs (on_circle g fs) hg -> Cmod hg < Cmod hf).
Proof.
  intros HN HN' HD H1 H2 EC. destruct (chebyshev1_lowpass_ok n db fs fc HN HN' HD H1 H2) as (cs' & E & S1 & V & _). rewrite E in EC. injection EC as ->.
  assert (M := magnitude_of fs cs (mag1 n db) (fun _ => True) (fun t => t / tan (PI * fc / fs)) (fun g G _ => V g G)). cbv beta in M.
  assert (UP : forall f, 0 <= f < fs / 2 -> 0 <= tan (PI * f / fs) / tan (PI * fc / fs)) by (intros f F; unfold Rdiv; apply Rmult_le_pos; [now apply tan_nonneg|left; apply Rinv_0_lt_compat; now apply tan_pos]).
  assert (AT : forall h, cascade_value cs (on_circle fc fs) h -> Cmod h = Rpower 10 (- db / 20)).
  { intros h A. rewrite (M fc h) by (assumption || lra || exact I). rewrite low_ratio_1 by assumption. apply mag1_edge, Rabs_R1. }
  split; [|split; [exact AT|]].
  - intros g h [G0 [G1| ->]] A; [|rewrite (AT h A)].
    + rewrite (M g h) by (assumption || lra || exact I). apply mag1_in; [exact HD|]. pose proof (low_ratio_facts fs fc g fc H1 H2 G0 G1 H2) as [R1 R2]. rewrite low_ratio_1 in R2 by assumption. lra.
    + pose proof (mag1_in n db HD 1 ltac:(lra)) as B. rewrite (mag1_edge n db 1) in B by apply Rabs_R1. exact B.
  - intros f g hf hg F0 FG G A B. rewrite (M f hf), (M g hg) by (assumption || lra || exact I). pose proof (low_ratio_facts fs fc f g H1 H2 ltac:(lra) FG G) as [R1 R2].
    assert (R0 : 1 <= tan (PI * f / fs) / tan (PI * fc / fs)) by (rewrite <- (low_ratio_1 fs fc) by assumption; apply Rmult_le_compat_r; [left; apply Rinv_0_lt_compat; now apply tan_pos|apply tan_le; lra]).
    apply mag1_decr; try assumption; rewrite !Rabs_pos_eq by lra; assumption.
Qed.
Lemma chebyshev1_highpass_shape n db fs fc cs : (1 <= n)%nat -> (Z.of_nat n <= 25000)%Z -> 0 < db -> 0 < fc -> fc < fs / 2 -> highpass_filter (chebyshev1_prototype (Z.of_nat n) db) fs fc = Ok cs ->
  (forall g h, fc <= g < fs / 2 -> cascade_value cs (on_circle g fs) h -> Rpower 10 (- db / 20) <= Cmod h <= 1) /\
  (forall h, cascade_value cs (on_circle fc fs) h -> Cmod h = Rpower 10 (- db / 20)) /\
  (forall f g hf hg, 0 < f -> f < g -> g <= fc -> cascade_value cs (on_circle f fs) hf -> cascade_value cs (on_circle g fs) hg -> Cmod hf < Cmod hg).
Proof.
  intros HN HN' HD H1 H2 EC. destruct (chebyshev1_highpass_ok n db fs fc HN HN' HD H1 H2) as (cs' & E & S1 & V & _). rewrite E in EC. injection EC as ->.
  assert (M := magnitude_of fs cs (mag1 n db) (fun g => g <> 0) (fun t => tan (PI * fc / fs) / t) V). cbv beta in M. pose proof (tan_pos fc fs H1 H2) as TP.
  assert (AT : forall h, cascade_value cs (on_circle fc fs) h -> Cmod h = Rpower 10 (- db / 20)).
  { intros h A. rewrite (M fc h) by (assumption || lra). rewrite low_ratio_1 by assumption. apply mag1_edge, Rabs_R1. }
  split; [|split; [exact AT|]].
  - intros g h [[G1| <-] G2] A; [|rewrite (AT h A)].
    + rewrite (M g h) by (assumption || lra). apply mag1_in; [exact HD|]. pose proof (high_ratio_facts fs fc fc g H1 H2 H1 G1 G2) as [R1 R2]. rewrite low_ratio_1 in R2 by assumption. lra.
    + pose proof (mag1_in n db HD 1 ltac:(lra)) as B. rewrite (mag1_edge n db 1) in B by apply Rabs_R1. exact B.
  - intros f g hf hg F0 FG G A B. rewrite (M f hf), (M g hg) by (assumption || lra). pose proof (high_ratio_facts fs fc f g H1 H2 F0 FG ltac:(lra)) as [R1 R2].
    assert (R0 : 1 <= tan (PI * fc / fs) / tan (PI * g / fs)) by (pose proof (tan_pos g fs ltac:(lra) ltac:(lra)) as TG; pose proof (tan_le g fc fs ltac:(lra) G H2); now apply one_le_ratio).
    apply mag1_decr; try assumption; rewrite !Rabs_pos_eq by lra; assumption.
Qed.
Lemma chebyshev2_lowpass_shape n db fs fc cs : (1 <= n)%nat -> (Z.of_nat n <= 25000)%Z -> 0 < db -> 0 < fc -> fc < fs / 2 -> lowpass_filter (chebyshev2_prototype (Z.of_nat n) db) fs fc = Ok cs ->
  (forall g h, fc <= g < fs / 2 -> cascade_value cs (on_circle g fs) h -> Cmod h <= Rpower 10 (- db / 20)) /\
  (forall h, cascade_value cs (on_circle fc fs) h -> Cmod h = Rpower 10 (- db / 20)) /\
  (forall f g hf hg, 0 < f -> f < g -> g <= fc -> cascade_value cs (on_circle f fs) hf -> cascade_value cs (on_circle g fs) hg -> Cmod hg < Cmod hf < 1).
Proof.
  intros HN HN' HD H1 H2 EC. destruct (chebyshev2_lowpass_ok n db fs fc HN HN' HD H1 H2) as (cs' & E & S1 & DC & V & _). rewrite E in EC. injection EC as ->.
  assert (M := magnitude_of fs cs (mag2 n db) (fun g => g <> 0) (fun t => tan (PI * fc / fs) / t) V). cbv beta in M. pose proof (tan_pos fc fs H1 H2) as TP.
  assert (AT : forall h, cascade_value cs (on_circle fc fs) h -> Cmod h = Rpower 10 (- db / 20)).
  { intros h A. rewrite (M fc h) by (assumption || lra). rewrite low_ratio_1 by assumption. apply mag2_edge; [exact HD|apply Rabs_R1]. }
  split; [|split; [exact AT|]].
  - intros g h [[G1| <-] G2] A; [|rewrite (AT h A); lra].
    rewrite (M g h) by (assumption || lra). apply mag2_out; [exact HD|]. pose proof (high_ratio_facts fs fc fc g H1 H2 H1 G1 G2) as [R1 R2]. rewrite low_ratio_1 in R2 by assumption. lra.
  - intros f g hf hg F0 FG G A B. rewrite (M f hf), (M g hg) by (assumption || lra). pose proof (high_ratio_facts fs fc f g H1 H2 F0 FG ltac:(lra)) as [R1 R2].
    assert (R0 : 1 <= tan (PI * fc / fs) / tan (PI * g / fs)) by (pose proof (tan_pos g fs ltac:(lra) ltac:(lra)) as TG; pose proof (tan_le g fc fs ltac:(lra) G H2); now apply one_le_ratio).
    split; [apply mag2_incr; try assumption; rewrite !Rabs_pos_eq by lra; assumption|]. apply mag2_in; try assumption. rewrite Rabs_pos_eq; lra.
Qed.
Lemma chebyshev2_highpass_shape n db fs fc cs : (1 <= n)%nat -> (Z.of_nat n <= 25000)%Z -> 0 < db -> 0 < fc -> fc < fs / 2 -> highpass_filter (chebyshev2_prototype (Z.of_nat n) db) fs fc = Ok cs ->
  (forall g h, 0 < g <= fc -> cascade_value cs (on_circle g fs) h -> Cmod h <= Rpower 10 (- db / 20)) /\
  (forall h, cascade_value cs (on_circle fc fs) h -> Cmod h = Rpower 10 (- db / 20)) /\
  (forall f g hf hg, fc <= f -> f < g -> g < fs / 2 -> cascade_value cs (on_circle f fs) hf -> cascade_value cs (on_circle g fs) hg -> Cmod hf < Cmod hg < 1).
Proof.
  intros HN HN' HD H1 H2 EC. destruct (chebyshev2_highpass_ok n db fs fc HN HN' HD H1 H2) as (cs' & E & S1 & NY & V & _). rewrite E in EC. injection EC as ->.
  assert (M := magnitude_of fs cs (mag2 n db) (fun g => g <> 0) (fun t => t / tan (PI * fc / fs)) V). cbv beta in M. pose proof (tan_pos fc fs H1 H2) as TP.
  assert (AT : forall h, cascade_value cs (on_circle fc fs) h -> Cmod h = Rpower 10 (- db / 20)).
  { intros h A. rewrite (M fc h) by (assumption || lra). rewrite low_ratio_1 by assumption. apply mag2_edge; [exact HD|apply Rabs_R1]. }
  split; [|split; [exact AT|]].
  - intros g h [G0 [G1| ->]] A; [|rewrite (AT h A); lra].
    rewrite (M g h) by (assumption || lra). apply mag2_out; [exact HD|]. pose proof (low_ratio_facts fs fc g fc H1 H2 ltac:(lra) G1 H2) as [R1 R2]. rewrite low_ratio_1 in R2 by assumption. lra.
  - intros f g hf hg F0 FG G A B. rewrite (M f hf), (M g hg) by (assumption || lra). pose proof (low_ratio_facts fs fc f g H1 H2 ltac:(lra) FG G) as [R1 R2].
    assert (R0 : 1 <= tan (PI * f / fs) / tan (PI * fc / fs)) by (rewrite <- (low_ratio_1 fs fc) by assumption; apply Rmult_le_compat_r; [left; apply Rinv_0_lt_compat; now apply tan_pos|apply tan_le; lra]).
    split; [apply mag2_incr; try assumption; rewrite !Rabs_pos_eq by lra; assumption|]. apply mag2_in; try assumption. rewrite Rabs_pos_eq; lra.
Qed.
(* bandpass: ripple between the edges, falling off outside *)
Lemma chebyshev1_bandpass_shape n db fs low high cs : (1 <= n)%nat -> 0 < db -> 0 < low -> low < high -> high < fs / 2 ->
  (forall g, - (fs / 2) < g < fs / 2 -> g <> 0 -> exists h, cascade_value cs (on_circle g fs) h /\ Cmod h = mag1 n db (bandpass_w (tan (PI * low / fs)) (tan (PI * high / fs)) (tan (PI * g / fs)))) ->
  forall g h, 0 < g < fs / 2 -> cascade_value cs (on_circle g fs) h ->
    (g = low \/ g = high -> Cmod h = Rpower 10 (- db / 20)) /\ (low < g < high -> Rpower 10 (- db / 20) <= Cmod h <= 1) /\ (g < low \/ high < g -> Cmod h < Rpower 10 (- db / 20)).
Proof.
  intros HN HD H1 H2 H3 V g h G A. assert (M := magnitude_of fs cs (mag1 n db) (fun g => g <> 0) (fun t => bandpass_w (tan (PI * low / fs)) (tan (PI * high / fs)) t) V). cbv beta in M. rewrite (M g h) by (assumption || lra).
  split; [intros X; apply mag1_edge; now apply edge_at|]. split; [intros X; apply mag1_in; [exact HD|]; pose proof (edge_in fs low high g H1 H2 H3 G X) as W; apply Rabs_def2 in W; lra|]. intros X; apply mag1_out; try assumption. now apply edge_out.
Qed.
