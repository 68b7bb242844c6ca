(* The search by bisection. *)
From Coq Require Import ZArith Reals Lra Lia List Bool Psatz.
From Coquelicot Require Import Coquelicot.
From Verif Require Import Common CInt RealUtil BiquadModel DesignSpec CascadeSpec CascadeModel PeakModel PeakSpec PeakProofs PeakProofs2.
Import ListNotations.
Local Open Scope R_scope.

Section Bis.
Context (f : R -> outcome R) (g : R -> R) (lo hi : R).
Hypothesis H : forall x, lo < x < hi -> f x = Ok (g x).
Hypothesis LH : lo < hi.

Lemma grid_ok step : 0 < step -> forall left k pf pg, (1 <= k)%Z -> lo + IZR (k + Z.of_nat left - 1) * step < hi ->
  exists pf' pg', grid_search f left k lo step pf pg = Ok (pf', pg') /\ pg <= pg' /\
    (forall j, (k <= j < k + Z.of_nat left)%Z -> g (lo + IZR j * step) <= pg') /\
    (pf' = pf /\ pg' = pg \/ pg < pg' /\ exists j, (k <= j < k + Z.of_nat left)%Z /\ pf' = lo + IZR j * step /\ pg' = g pf').
Proof.
  intros SP. induction left as [|left IH]; intros k pf pg K1 B.
  - exists pf, pg. cbn [grid_search]. repeat split; [lra|intros; lia|auto].
  - cbn [grid_search].
    assert (I1 : IZR 1 <= IZR k) by (apply IZR_le; lia).
    assert (I2 : IZR k <= IZR (k + Z.of_nat (S left) - 1)) by (apply IZR_le; lia).
    assert (R1 : lo < lo + IZR k * step < hi) by nra.
    rewrite (H _ R1). cbn [obind].
    assert (B' : lo + IZR (k + 1 + Z.of_nat left - 1) * step < hi).
    { replace (k + 1 + Z.of_nat left - 1)%Z with (k + Z.of_nat (S left) - 1)%Z by lia. exact B. }
    destruct (Rltb_spec pg (g (lo + IZR k * step))) as [L|L].
    + destruct (IH (k + 1)%Z (lo + IZR k * step) (g (lo + IZR k * step)) ltac:(lia) B') as (pf' & pg' & E & A1 & A2 & A3).
      exists pf', pg'. split; [exact E|]. split; [lra|]. split.
      * intros j J. destruct (Z.eq_dec j k) as [->|]; [exact A1|apply A2; lia].
      * right. split; [lra|]. destruct A3 as [[-> ->]|(_ & j & J & E1 & E2)].
        -- exists k. repeat split; lia.
        -- exists j. repeat split; auto; lia.
    + destruct (IH (k + 1)%Z pf pg ltac:(lia) B') as (pf' & pg' & E & A1 & A2 & A3).
      exists pf', pg'. split; [exact E|]. split; [lra|]. split.
      * intros j J. destruct (Z.eq_dec j k) as [->|]; [lra|apply A2; lia].
      * destruct A3 as [A3|(A3 & j & J & E1 & E2)]; [auto|]. right. split; [exact A3|]. exists j. repeat split; auto; lia.
Qed.

(* where the steps of the bisection may end *)
Definition near_enough (p w last : R) : Prop :=
  Rabs (p - w) <= last \/ Rabs (p - w) < 1 / 1000000000 + 5 / 1000000 * w.

Lemma bisect_ok left : forall step pf, 0 < step -> lo <= pf - step -> pf + step <= hi ->
  exists pf', bisect f left step pf (g pf) = Ok (pf', g pf') /\ g pf <= g pf' /\ lo < pf' < hi /\
    forall p, single_peak g lo hi p -> Rabs (p - pf) <= step -> near_enough p pf' (step / 2 ^ left).
Proof.
  induction left as [|left IH]; intros step pf SP B1 B2.
  - exists pf. cbn [bisect]. split; [reflexivity|]. split; [lra|]. split; [lra|]. intros p _ A. left. cbn. lra.
  - cbn [bisect]. set (t := step / 2). assert (T : step = 2 * t) by (unfold t; lra).
    rewrite (H (pf + t)) by lra. cbn [obind].
    assert (LAST : t / 2 ^ left = step / 2 ^ S left).
    { rewrite T. cbn. field. apply pow_nonzero. lra. }
    (* what is known about the point kept *)
    assert (K : exists pf1, (if Rltb (g pf) (g (pf + t)) then Ok (pf + t, g (pf + t))
        else left_gain <- f (pf - t) ;;
          if Rltb (g pf) left_gain then Ok (pf - t, left_gain) else Ok (pf, g pf)) = Ok (pf1, g pf1) /\
        g pf <= g pf1 /\ lo <= pf1 - t /\ pf1 + t <= hi /\
        forall p, single_peak g lo hi p -> Rabs (p - pf) <= step -> Rabs (p - pf1) <= t).
    { destruct (Rltb_spec (g pf) (g (pf + t))) as [L|L].
      - exists (pf + t). split; [reflexivity|]. split; [lra|]. split; [lra|]. split; [lra|].
        intros p (P0 & P1 & P2) A. apply Rabs_le_between in A. apply Rabs_le_between.
        destruct (Rlt_dec p pf) as [Q|Q]; [|lra]. specialize (P2 pf (pf + t) ltac:(lra) ltac:(lra) ltac:(lra) ltac:(lra)). lra.
      - rewrite (H (pf - t)) by lra. cbn [obind].
        destruct (Rltb_spec (g pf) (g (pf - t))) as [L2|L2].
        + exists (pf - t). split; [reflexivity|]. split; [lra|]. split; [lra|]. split; [lra|].
          intros p (P0 & P1 & P2) A. apply Rabs_le_between in A. apply Rabs_le_between.
          destruct (Rlt_dec pf p) as [Q|Q]; [|lra]. specialize (P1 (pf - t) pf ltac:(lra) ltac:(lra) ltac:(lra) ltac:(lra)). lra.
        + exists pf. split; [reflexivity|]. split; [lra|]. split; [lra|]. split; [lra|].
          intros p (P0 & P1 & P2) A. apply Rabs_le_between in A. apply Rabs_le_between.
          destruct (Rlt_dec (pf + t) p) as [Q|Q]; [specialize (P1 pf (pf + t) ltac:(lra) ltac:(lra) ltac:(lra) ltac:(lra)); lra|].
          destruct (Rlt_dec p (pf - t)) as [Q'|Q']; [specialize (P2 (pf - t) pf ltac:(lra) ltac:(lra) ltac:(lra) ltac:(lra)); lra|]. lra. }
    destruct K as (pf1 & -> & K1 & K2 & K3 & K4). cbn [obind].
    destruct (Rltb_spec t (1 / 1000000000 + 5 / 1000000 * pf1)) as [L|L].
    + exists pf1. split; [reflexivity|]. split; [exact K1|]. split; [lra|].
      intros p P A. right. specialize (K4 p P A). lra.
    + destruct (IH t pf1 ltac:(lra) K2 K3) as (pf' & E & A1 & A2 & A3).
      exists pf'. split; [exact E|]. split; [lra|]. split; [exact A2|].
      intros p P A. rewrite <- LAST. apply A3; [exact P|]. now apply K4.
Qed.

Lemma bisection_ok : (exists k, (1 <= k <= 98)%Z /\ 0 < g (lo + IZR k * ((hi - lo) / 99))) ->
  exists w, find_peak_by_bisection f lo hi = Ok (w, g w) /\ lo < w < hi /\
    (forall k, (1 <= k <= 98)%Z -> g (lo + IZR k * ((hi - lo) / 99)) <= g w) /\
    forall p, single_peak g lo hi p -> near_enough p w ((hi - lo) / 99 / 2 ^ 20).
Proof.
  intros (k0 & K0 & P0). unfold find_peak_by_bisection. rewrite (Rltb_true lo hi LH). cbn [ocheck].
  set (step := (hi - lo) / 99) in *. assert (SP : 0 < step) by (unfold step; lra).
  assert (HE : hi = lo + 99 * step) by (unfold step; lra).
  destruct (grid_ok step SP 98 1 0 0 ltac:(lia)) as (pf & pg & E & A1 & A2 & A3).
  { replace (1 + Z.of_nat 98 - 1)%Z with 98%Z by reflexivity. lra. }
  rewrite E. cbn [obind].
  destruct A3 as [[-> ->]|(A3 & j & J & E1 & ->)].
  { specialize (A2 k0 ltac:(lia)). lra. }
  assert (JB : 1 <= IZR j <= 98) by (split; apply IZR_le; lia).
  destruct (bisect_ok 20 step pf SP) as (w & E2 & B1 & B2 & B3); [nra|nra|].
  exists w. split; [exact E2|]. split; [exact B2|]. split.
  { intros k K. specialize (A2 k ltac:(lia)). lra. }
  intros p P. apply B3; [exact P|].
  destruct P as (P & P1 & P2). apply Rabs_le_between.
  assert (U : p <= pf + step).
  { destruct (Rle_dec p (pf + step)) as [Q|Q]; [exact Q|exfalso].
    destruct (Z.eq_dec j 98) as [->|NJ]; [lra|].
    pose proof (A2 (j + 1)%Z ltac:(lia)) as Q2. rewrite plus_IZR in Q2.
    replace (lo + (IZR j + 1) * step) with (pf + step) in Q2 by (rewrite E1; ring).
    specialize (P1 pf (pf + step) ltac:(nra) ltac:(lra) ltac:(lra) ltac:(lra)). lra. }
  assert (V : pf - step <= p).
  { destruct (Rle_dec (pf - step) p) as [Q|Q]; [exact Q|exfalso].
    destruct (Z.eq_dec j 1) as [->|NJ]; [lra|].
    pose proof (A2 (j - 1)%Z ltac:(lia)) as Q2. rewrite minus_IZR in Q2.
    replace (lo + (IZR j - 1) * step) with (pf - step) in Q2 by (rewrite E1; ring).
    specialize (P2 (pf - step) pf ltac:(lra) ltac:(lra) ltac:(lra) ltac:(nra)). lra. }
  lra.
Qed.
End Bis.

(* the function 0 *)
Lemma zero_grid left : forall k lo step, grid_search (fun _ => Ok 0) left k lo step 0 0 = Ok (0, 0).
Proof. induction left; intros; cbn [grid_search obind]; [reflexivity|]. rewrite (Rltb_false 0 0) by lra. apply IHleft. Qed.
Lemma zero_bisect left : forall step, bisect (fun _ => Ok 0) left step 0 0 = Ok (0, 0).
Proof.
  induction left; intros; cbn [bisect obind]; [reflexivity|]. rewrite !(Rltb_false 0 0) by lra. cbn [obind].
  destruct (Rltb _ _); [reflexivity|apply IHleft].
Qed.

(* ---- cascades ---- *)
Fixpoint Gc (cs : list (coeffs R)) (w : R) : R :=
  match cs with [] => 1 | c :: r => PeakProofs.G c w * Gc r w end.

Lemma eval_ok c w : circle_free c -> exists h, eval_transfer c (unit_polar w) = Ok h /\ has_value c (cos w, sin w) h /\ Cmod h = PeakProofs.G c w.
Proof.
  intros CF. pose proof (gain_magnitude_eq c CF w) as E. unfold gain_magnitude in E.
  unfold eval_transfer in *. unfold unit_polar in *.
  replace ((RtoC (a0 c) * (cos w, sin w) + RtoC (a1 c)) * (cos w, sin w) + RtoC (a2 c))%C
    with (denominator c (cos w, sin w)) in * by (unfold denominator; ring).
  replace ((RtoC (b0 c) * (cos w, sin w) + RtoC (b1 c)) * (cos w, sin w) + RtoC (b2 c))%C
    with (numerator c (cos w, sin w)) in * by (unfold numerator; ring).
  destruct (negb _); cbn [oguard obind] in *; [|discriminate].
  eexists. split; [reflexivity|]. injection E as E. split; [|exact E]. split; [apply CF|reflexivity].
Qed.

Lemma cascade_eval_ok cs w : Forall circle_free cs -> forall acc, exists h,
  cascade_eval cs (unit_polar w) acc = Ok (acc * h)%C /\ cascade_value cs (cos w, sin w) h /\ Cmod h = Gc cs w.
Proof.
  induction 1 as [|c r CF _ IH]; intros acc.
  - exists (RtoC 1). cbn. rewrite Cmult_1_r, Cmod_1. auto.
  - destruct (eval_ok c w CF) as (h1 & E1 & V1 & M1). cbn [cascade_eval]. rewrite E1. cbn [obind].
    destruct (IH (acc * h1)%C) as (h2 & E2 & V2 & M2). exists (h1 * h2)%C. split; [|split].
    + rewrite E2. f_equal. ring.
    + exists h1, h2. auto.
    + cbn [Gc]. rewrite Cmod_mult, M1, M2. reflexivity.
Qed.

Lemma cascade_value_det cs z h h' : cascade_value cs z h -> cascade_value cs z h' -> h = h'.
Proof.
  revert h h'. induction cs as [|c r IH]; cbn; intros h h'; [congruence|].
  intros (h1 & h2 & [_ <-] & V & ->) (h3 & h4 & [_ <-] & V' & ->). now rewrite (IH _ _ V V').
Qed.

Lemma cascade_gain_ok cs w : Forall circle_free cs -> cascade_gain cs w = Ok (Gc cs w) /\ forall g, cascade_gain_at cs w g <-> g = Gc cs w.
Proof.
  intros F. destruct (cascade_eval_ok cs w F (RtoC 1)) as (h & E & V & M). unfold cascade_gain. rewrite E. cbn [obind].
  rewrite Cmult_1_l, M. split; [reflexivity|]. intros g. split.
  - intros (h' & V' & <-). rewrite (cascade_value_det _ _ _ _ V' V). exact M.
  - intros ->. exists h. auto.
Qed.

Lemma cascade_peak_ok cs : Forall circle_free cs ->
  (exists k v, (1 <= k <= 98)%Z /\ cascade_gain_at cs (IZR k * PI / 99) v /\ 0 < v) ->
  exists w g, cascade_find_peak cs = Ok (w, g) /\ 0 < w < PI /\ cascade_gain_at cs w g /\
    (forall k v, (1 <= k <= 98)%Z -> cascade_gain_at cs (IZR k * PI / 99) v -> v <= g) /\
    forall p gain, (forall x, 0 < x < PI -> cascade_gain_at cs x (gain x)) -> single_peak gain 0 PI p ->
      Rabs (p - w) <= PI / 99 / 1048576 \/ Rabs (p - w) < 1 / 1000000000 + 5 / 1000000 * w.
Proof.
  intros F (k & v & K & V & VP).
  assert (KE : forall k, 0 + IZR k * ((PI - 0) / 99) = IZR k * PI / 99) by (intros; field).
  destruct (bisection_ok (cascade_gain cs) (Gc cs) 0 PI) as (w & E & W & GR & AC).
  - intros x _. apply cascade_gain_ok. exact F.
  - exact PI_RGT_0.
  - exists k. split; [exact K|]. rewrite KE. apply (cascade_gain_ok cs _ F) in V. lra.
  - exists w, (Gc cs w). split; [exact E|]. split; [exact W|]. split; [now apply cascade_gain_ok|]. split.
    + intros k' v' K' V'. apply (cascade_gain_ok cs _ F) in V'. specialize (GR k' K'). rewrite KE in GR. lra.
    + intros p gain GE (P0 & P1 & P2). assert (X : forall x, 0 < x < PI -> gain x = Gc cs x).
      { intros x Hx. apply (cascade_gain_ok cs _ F). now apply GE. }
      replace (PI / 99 / 1048576) with ((PI - 0) / 99 / 2 ^ 20) by (replace (2 ^ 20) with 1048576 by (cbn; lra); field).
      apply (AC p). split; [exact P0|]. split.
      * intros x y A B D D'. rewrite <- !X by lra. now apply P1.
      * intros x y A B D D'. rewrite <- !X by lra. now apply P2.
Qed.

Lemma cascade_adjust cs k z h : cs <> [] -> cascade_value cs z h -> cascade_value (adjust_gain k cs) z (RtoC k * h)%C.
Proof.
  destruct cs as [|c r]; [congruence|]. intros _ (h1 & h2 & V1 & V2 & ->).
  exists (RtoC k * h1)%C, h2. split; [now apply (adjust_value c k)|]. split; [exact V2|ring].
Qed.

Lemma cascade_set_peak_ok cs g : cs <> [] -> Forall circle_free cs -> 0 <= g ->
  (exists k v, (1 <= k <= 98)%Z /\ cascade_gain_at cs (IZR k * PI / 99) v /\ 0 < v) ->
  exists cs' w p k, cascade_find_peak cs = Ok (w, p) /\ 0 < p /\ k * p = g /\
    cascade_set_peak_gain cs g = Ok cs' /\ cascade_gain_at cs' w g /\
    forall z h, cascade_value cs z h -> cascade_value cs' z (RtoC k * h)%C.
Proof.
  intros NE F G0 (k0 & v & K & V & VP).
  destruct (cascade_peak_ok cs F) as (w & p & E & W & GA & GR & _); [now exists k0, v|].
  assert (PP : 0 < p) by (specialize (GR k0 v K V); lra).
  pose proof GA as GA'. apply (cascade_gain_ok cs w F) in GA'.
  exists (adjust_gain (g / p) cs), w, p, (g / p).
  assert (KP : g / p * p = g) by (field; lra).
  split; [exact E|]. split; [exact PP|]. split; [exact KP|]. split.
  { unfold cascade_set_peak_gain, cascade_set_gain_at_frequency. rewrite E. cbn [obind fst].
    rewrite (proj1 (cascade_gain_ok cs w F)), <- GA'. cbn [obind].
    destruct (Reqb_spec p 0); [lra|reflexivity]. }
  assert (AV : forall z h, cascade_value cs z h -> cascade_value (adjust_gain (g / p) cs) z (RtoC (g / p) * h)%C) by (intros; now apply cascade_adjust).
  split; [|exact AV]. destruct GA as (h & Vh & M). exists (RtoC (g / p) * h)%C. split; [now apply AV|].
  rewrite Cmod_mult, Cmod_R, M. rewrite Rabs_pos_eq; [exact KP|].
  apply Rmult_le_pos; [exact G0|]. left. now apply Rinv_0_lt_compat.
Qed.
