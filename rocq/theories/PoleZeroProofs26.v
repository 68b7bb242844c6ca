(* The response of a stable cascade is continuous, so its magnitude at an isolated frequency follows from
   the neighbouring ones. *)
From Verif Require Import Common ListLemmas RealUtil BiquadModel DesignModel DesignSpec DesignProofs CascadeModel CascadeSpec CascadeProofs PoleZeroModel PoleZeroSpec PoleZeroProofs8 PoleZeroProofs18 PoleZeroProofs23 PoleZeroProofs24 PoleZeroProofs25.
From Coquelicot Require Import Coquelicot.
From Coq Require Import Lra Lia Reals.
Local Open Scope R_scope.

Lemma continuous_pairs_mult (f1 f2 g1 g2 : R -> R) x : continuous f1 x -> continuous f2 x -> continuous g1 x -> continuous g2 x ->
  continuous (fun t => f1 t * g1 t - f2 t * g2 t) x /\ continuous (fun t => f1 t * g2 t + f2 t * g1 t) x.
Proof.
  intros A B D E. split.
  - apply (continuous_minus (fun t => f1 t * g1 t) (fun t => f2 t * g2 t)); apply (continuous_mult (K := R_AbsRing)); assumption.
  - apply (continuous_plus (fun t => f1 t * g2 t) (fun t => f2 t * g1 t)); apply (continuous_mult (K := R_AbsRing)); assumption.
Qed.
Lemma stage_continuous c fs g0 : fs <> 0 -> denominator c (on_circle g0 fs) <> RtoC 0 ->
  continuous (fun g => fst (Cdiv (numerator c (on_circle g fs)) (denominator c (on_circle g fs)))) g0 /\ continuous (fun g => snd (Cdiv (numerator c (on_circle g fs)) (denominator c (on_circle g fs)))) g0.
Proof.
  intros Hf HD. assert (N : forall z : Complex.C, z <> RtoC 0 -> fst z ^ 2 + snd z ^ 2 <> 0) by (intros [u v] Hz Q; apply Hz; cbn in Q; assert (u = 0) by nra; assert (v = 0) by nra; subst; reflexivity).
  specialize (N _ HD). clear HD. split; apply (ex_derive_continuous (K := R_AbsRing) (V := R_NormedModule)); unfold Cdiv, Cinv, Cmult, numerator, denominator, on_circle, Cplus, Cmult, RtoC in *; cbn [fst snd] in *; auto_derive; repeat split; auto; cbn in *; intros Q; apply N; rewrite <- Q; ring.
Qed.
Lemma cascade_continuous cs fs : fs <> 0 -> stable_cascade cs -> exists H : R -> Complex.C, (forall g, cascade_value cs (on_circle g fs) (H g)) /\ forall g, continuous (fun g => fst (H g)) g /\ continuous (fun g => snd (H g)) g.
Proof.
  intros Hf HS. assert (HV : forall g, exists h, cascade_value cs (on_circle g fs) h).
  { intros g. apply HS. unfold on_circle. rewrite Cmod_circle || idtac. unfold Cmod. cbn [fst snd]. replace (cos (2 * PI * g / fs) ^ 2 + sin (2 * PI * g / fs) ^ 2) with 1; [rewrite sqrt_1; lra|]. pose proof (sin2_cos2 (2 * PI * g / fs)) as Q. unfold Rsqr in Q. lra. }
  clear HS. induction cs as [|c cs IH].
  - exists (fun _ => RtoC 1). split; [reflexivity|]. intros g. cbn [fst snd RtoC]. split; apply continuous_const.
  - destruct IH as (H & H1 & H2). { intros g. destruct (HV g) as (h & h1 & h2 & _ & A & _). eauto. }
    exists (fun g => Cmult (Cdiv (numerator c (on_circle g fs)) (denominator c (on_circle g fs))) (H g)). assert (D : forall g, denominator c (on_circle g fs) <> RtoC 0) by (intros g; destruct (HV g) as (h & h1 & h2 & (A & _) & _); exact A).
    split. { intros g. exists (Cdiv (numerator c (on_circle g fs)) (denominator c (on_circle g fs))), (H g). split; [split; [apply D|reflexivity]|]. split; [apply H1|reflexivity]. }
    intros g. destruct (stage_continuous c fs g Hf (D g)) as [S1 S2]. destruct (H2 g) as [T1 T2]. exact (continuous_pairs_mult _ _ _ _ g S1 S2 T1 T2).
Qed.
Lemma magnitude_limit cs fs (F : R -> R) g0 : fs <> 0 -> stable_cascade cs -> continuous F g0 ->
  (exists d, 0 < d /\ forall g, g <> g0 -> Rabs (g - g0) < d -> forall h, cascade_value cs (on_circle g fs) h -> Cmod h = F g) ->
  forall h, cascade_value cs (on_circle g0 fs) h -> Cmod h = F g0.
Proof.
  intros Hf HS HF (d & Hd & HM) h Hh. destruct (cascade_continuous cs fs Hf HS) as (H & H1 & H2). rewrite (value_unique _ _ _ _ Hh (H1 g0)).
  assert (HC : continuous (fun g => Cmod (H g)) g0).
  { destruct (H2 g0) as [A B]. unfold Cmod. apply (continuous_comp (fun g => fst (H g) ^ 2 + snd (H g) ^ 2) sqrt); [|apply continuous_sqrt]. apply (continuous_plus (fun g => fst (H g) ^ 2) (fun g => snd (H g) ^ 2)).
    - apply (continuous_ext (fun g => fst (H g) * fst (H g))); [intros; cbn; ring|]. now apply (continuous_mult (K := R_AbsRing)).
    - apply (continuous_ext (fun g => snd (H g) * snd (H g))); [intros; cbn; ring|]. now apply (continuous_mult (K := R_AbsRing)). }
  assert (CM : continuous (fun g => Cmod (H g) - F g) g0) by (apply (continuous_minus (fun g => Cmod (H g)) F); assumption).
  destruct (Req_dec (Cmod (H g0) - F g0) 0) as [Q|Q]; [lra|exfalso].
  assert (P : locally g0 (fun g => Cmod (H g) - F g <> 0)).
  { apply (CM (fun y => y <> 0)). exists (mkposreal _ (Rabs_pos_lt _ Q)). intros y Hy K. change (Rabs (y - (Cmod (H g0) - F g0)) < Rabs (Cmod (H g0) - F g0)) in Hy. rewrite K, Rminus_0_l, Rabs_Ropp in Hy. lra. }
  destruct P as [e P]. pose proof (cond_pos e) as He. set (s := Rmin d e / 2). assert (0 < Rmin d e) by (apply Rmin_glb_lt; assumption). assert (S1 : s < d) by (pose proof (Rmin_l d e); unfold s; lra). assert (S2 : s < e) by (pose proof (Rmin_r d e); unfold s; lra). assert (S0 : 0 < s) by (unfold s; lra).
  apply (P (g0 + s)).
  - change (Rabs (g0 + s - g0) < e). rewrite Rabs_pos_eq; lra.
  - rewrite (HM (g0 + s)) with (h := H (g0 + s)); [lra|lra|rewrite Rabs_pos_eq; lra|apply H1].
Qed.

Local Notation T := chebyshev_T.
Lemma T_continuous n x : continuous (T n) x /\ continuous (T (S n)) x.
Proof.
  induction n as [|n [A B]]; [split; [apply continuous_const|apply continuous_id]|]. split; [exact B|].
  apply (continuous_ext (fun t => 2 * t * T (S n) t - T n t)); [intros t; reflexivity|]. apply (continuous_minus (fun t => 2 * t * T (S n) t) (T n)); [|exact A].
  apply (continuous_mult (K := R_AbsRing) (fun t => 2 * t) (T (S n))); [|exact B]. apply (continuous_mult (K := R_AbsRing) (fun _ => 2) (fun t => t)); [apply continuous_const|apply continuous_id].
Qed.
Lemma mag2_continuous n db x : 0 < db -> continuous (mag2 n db) x.
Proof.
  intros HD. apply (continuous_ext (fun v => sqrt (T n v ^ 2 * / (Rpower 10 (db / 10) - 1 + T n v ^ 2)))); [intros v; symmetry; apply mag2_sq; exact HD|].
  apply (continuous_comp (fun v => T n v ^ 2 * / (Rpower 10 (db / 10) - 1 + T n v ^ 2)) sqrt); [|apply continuous_sqrt]. pose proof (db_pos db HD) as E. destruct (T_continuous n x) as [TC _].
  assert (SQ : continuous (fun v => T n v ^ 2) x) by (apply (continuous_ext (fun v => T n v * T n v)); [intros; cbn; ring|now apply (continuous_mult (K := R_AbsRing))]).
  apply (continuous_mult (K := R_AbsRing) (fun v => T n v ^ 2) (fun v => / (Rpower 10 (db / 10) - 1 + T n v ^ 2))); [exact SQ|]. apply continuous_Rinv_comp; [|pose proof (pow2_ge_0 (T n x)); lra].
  apply (continuous_plus (fun _ => Rpower 10 (db / 10) - 1) (fun v => T n v ^ 2)); [apply continuous_const|exact SQ].
Qed.
Lemma T_even_0 n : Nat.even n = true -> T n 0 ^ 2 = 1.
Proof.
  intros H. assert (K : forall k, T (2 * k) 0 ^ 2 = 1 /\ T (S (2 * k)) 0 = 0).
  { induction k as [|k [A B]]; [cbn; lra|]. replace (2 * S k)%nat with (S (S (2 * k))) by lia. assert (Q : T (S (S (2 * k))) 0 = - T (2 * k) 0). { change (2 * 0 * T (S (2 * k)) 0 - T (2 * k) 0 = - T (2 * k) 0). ring. } split; [rewrite Q, <- A; ring|]. change (2 * 0 * T (S (S (2 * k))) 0 - T (S (2 * k)) 0 = 0). rewrite B. ring. }
  apply Nat.even_spec in H. destruct H as [k ->]. apply K.
Qed.
Lemma tan_strict fs f g : 0 < f -> f < g -> g < fs / 2 -> 0 < tan (PI * f / fs) < tan (PI * g / fs).
Proof.
  intros H1 H2 H3. pose proof PI_RGT_0 as P. assert (E : forall x, PI * x / fs = x * (PI / fs)) by (intros; field; lra). assert (Q : 0 < PI / fs) by (apply Rdiv_lt_0_compat; lra). assert (EH : fs / 2 * (PI / fs) = PI / 2) by (field; lra).
  split; [apply tan_gt_0; rewrite E; nra|]. apply tan_increasing; rewrite !E; nra.
Qed.
(* the type 2 bandstop filter at every frequency, including the centre of the stop band *)
Lemma chebyshev2_bandstop_all n db fs low high cs : (1 <= n)%nat -> Nat.even n = true -> 0 < db -> 0 < low -> low < high -> high < fs / 2 -> stable_cascade cs ->
  (forall g, - (fs / 2) < g < fs / 2 -> g <> 0 -> tan (PI * g / fs) * tan (PI * g / fs) <> tan (PI * low / fs) * tan (PI * high / fs) -> exists h, cascade_value cs (on_circle g fs) h /\ Cmod h = mag2 n db (bandpass_w (tan (PI * low / fs)) (tan (PI * high / fs)) (tan (PI * g / fs)))) ->
  forall g h, 0 < g < fs / 2 -> cascade_value cs (on_circle g fs) h ->
    (g = low \/ g = high \/ tan (PI * g / fs) * tan (PI * g / fs) = tan (PI * low / fs) * tan (PI * high / fs) -> Cmod h = Rpower 10 (- db / 20)) /\ (low < g < high -> Cmod h <= Rpower 10 (- db / 20)) /\ (g < low \/ high < g -> Rpower 10 (- db / 20) < Cmod h < 1).
Proof.
  intros HN HE HD H1 H2 H3 HS V g h G A. destruct (Req_dec (tan (PI * g / fs) * tan (PI * g / fs)) (tan (PI * low / fs) * tan (PI * high / fs))) as [Y|Y].
  2:{ destruct (chebyshev2_bandstop_shape n db fs low high cs HN HD H1 H2 H3 V g h G Y A) as (S1 & S2 & S3). split; [intros [Q|[Q|Q]]; [apply S1; auto|apply S1; auto|contradiction]|]. split; assumption. }
  destruct (tan_strict fs low high H1 H2 H3) as [TL TH]. assert (GG : low < g < high).
  { split; [destruct (Rlt_or_le low g) as [Q|Q]; [exact Q|exfalso]|destruct (Rlt_or_le g high) as [Q|Q]; [exact Q|exfalso]].
    - destruct (Rle_lt_or_eq_dec g low Q) as [Q'| ->]; [destruct (tan_strict fs g low ltac:(lra) Q' ltac:(lra)); nra|nra].
    - destruct (Rle_lt_or_eq_dec high g Q) as [Q'|Q']; [destruct (tan_strict fs high g ltac:(lra) Q' ltac:(lra)); nra|subst; nra]. }
  destruct (tan_strict fs g high ltac:(lra) ltac:(lra) ltac:(lra)) as [TG _].
  assert (W0 : bandpass_w (tan (PI * low / fs)) (tan (PI * high / fs)) (tan (PI * g / fs)) = 0) by (unfold bandpass_w; rewrite Y, Rminus_diag_eq by reflexivity; unfold Rdiv; apply Rmult_0_l).
  assert (CV : Cmod h = Rpower 10 (- db / 20)).
  { rewrite (magnitude_limit cs fs (fun g => mag2 n db (bandpass_w (tan (PI * low / fs)) (tan (PI * high / fs)) (tan (PI * g / fs)))) g ltac:(lra) HS) with (h := h); [| | |exact A].
    - rewrite W0, mag2_sq, (T_even_0 n HE) by exact HD. exact (frac_1 db HD).
    - apply (continuous_comp (fun g => bandpass_w (tan (PI * low / fs)) (tan (PI * high / fs)) (tan (PI * g / fs))) (mag2 n db)); [|apply mag2_continuous; exact HD].
      unfold bandpass_w. apply (ex_derive_continuous (K := R_AbsRing) (V := R_NormedModule)). set (tl := tan (PI * low / fs)) in *. set (th := tan (PI * high / fs)) in *.
      assert (CG : cos (PI * g / fs) <> 0). { intros Q. unfold tan in TG. rewrite Q in TG. unfold Rdiv in TG. rewrite Rinv_0, Rmult_0_r in TG. lra. }
      apply (ex_derive_comp (fun t => (t * t - tl * th) / ((th - tl) * t)) (fun g => tan (PI * g / fs))).
      + auto_derive. apply Rmult_integral_contrapositive_currified; lra.
      + unfold tan. auto_derive. repeat split; exact CG.
    - exists (Rmin (g - 0) (fs / 2 - g)). split; [apply Rmin_glb_lt; lra|]. intros g' NG D h' A'. pose proof (Rmin_l (g - 0) (fs / 2 - g)) as M1. pose proof (Rmin_r (g - 0) (fs / 2 - g)) as M2. apply Rabs_def2 in D.
      destruct (V g' ltac:(lra) ltac:(lra)) as (h2 & A2 & M).
      + rewrite <- Y. destruct (Rtotal_order g' g) as [Q|[Q|Q]]; [destruct (tan_strict fs g' g ltac:(lra) Q ltac:(lra)); nra|contradiction|destruct (tan_strict fs g g' ltac:(lra) Q ltac:(lra)); nra].
      + rewrite (value_unique _ _ _ _ A' A2). exact M. }
  split; [intros _; exact CV|]. split; [intros _; rewrite CV; lra|intros [Q|Q]; lra].
Qed.
