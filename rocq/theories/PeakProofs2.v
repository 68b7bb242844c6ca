From Coq Require Import Reals Lra Lia List Bool Psatz.
From Coquelicot Require Import Coquelicot.
From Verif Require Import Common CInt RealUtil BiquadModel DesignSpec CascadeModel PeakModel PeakSpec PeakProofs.
Import ListNotations.
Local Open Scope R_scope.

Definition roots_of (q : quadratic_roots) : list R :=
  match q with
  | NoRealRoots => []
  | Ambiguous r1 r2 => [r2; r1]
  | TwoRealRoots r1 None => [r1]
  | TwoRealRoots r1 (Some r2) => [r2; r1]
  end.

Lemma square_zero x : x * x = 0 -> x = 0.
Proof. nra. Qed.

Lemma roots_complete a b c y : ~ (a = 0 /\ b = 0 /\ c = 0) ->
  (b ^ 2 - 4 * a * c = 0 \/ 2 * b ^ 2 < 4503599627370496 * Rabs (b ^ 2 - 4 * a * c) /\
     4 * Rabs (a * c) < 4503599627370496 * Rabs (b ^ 2 - 4 * a * c)) ->
  a * y * y + b * y + c = 0 -> In y (roots_of (real_roots_for_quadratic a b c)).
Proof.
  intros NZ CC E. unfold real_roots_for_quadratic.
  destruct (Reqb_spec a 0) as [->|NA].
  { destruct (Reqb_spec b 0) as [->|NB].
    - destruct (Reqb_spec c 0) as [->|NC]; [tauto|lra].
    - cbn. left. replace c with (- (b * y)) by lra. field. exact NB. }
  replace (b * b - 4 * a * c) with (b ^ 2 - 4 * a * c) by ring.
  set (d := b ^ 2 - 4 * a * c) in *.
  assert (SQ : (2 * a * y + b) * (2 * a * y + b) = d) by (unfold d; replace c with (- (a * y * y + b * y)) by lra; ring).
  cbv zeta. destruct (Rleb_spec (Rabs d) (dbl_epsilon * Rmax (2 * b * b) (Rabs (4 * a * c)))) as [LE|GT].
  { assert (D0 : d = 0).
    { destruct CC as [H|[H1 H2]]; [exact H|exfalso].
      assert (M : Rmax (2 * b * b) (Rabs (4 * a * c)) < 4503599627370496 * Rabs d).
      { apply Rmax_lub_lt; [replace (2 * b * b) with (2 * b ^ 2) by ring; exact H1|].
        replace (4 * a * c) with (4 * (a * c)) by ring. rewrite Rabs_mult, (Rabs_pos_eq 4) by lra. exact H2. }
      unfold dbl_epsilon in LE. set (m := Rmax _ _) in *. clearbody m. lra. }
    rewrite D0 in SQ. apply square_zero in SQ. cbn. left.
    replace b with (- (2 * a * y)) by lra. field. exact NA. }
  destruct (Rltb_spec d 0) as [LT|GE]; [exfalso; pose proof (Rle_0_sqr (2 * a * y + b)) as Q; unfold Rsqr in Q; lra|].
  assert (D1 : d <> 0).
  { intros X. apply GT. rewrite X, Rabs_R0. unfold dbl_epsilon. apply Rmult_le_pos; [lra|].
    eapply Rle_trans; [|apply Rmax_r]. apply Rabs_pos. }
  set (s := sqrt d). assert (SP : 0 < s) by (apply sqrt_lt_R0; lra).
  assert (SS : s * s = d) by (apply sqrt_sqrt; lra).
  assert (CS : 2 * a * y + b = s \/ 2 * a * y + b = - s).
  { assert (Z : (2 * a * y + b - s) * (2 * a * y + b + s) = 0) by nra.
    apply Rmult_integral in Z. destruct Z; [left|right]; lra. }
  assert (C4 : 4 * a * c = (b - s) * (b + s)) by (unfold d in SS; nra).
  cbn [roots_of In]. destruct (Rleb_spec 0 b) as [B|B].
  - assert (BS : b + s <> 0) by lra.
    destruct CS as [CS|CS]; [left|right; left].
    + apply Rmult_eq_reg_r with (2 * a * (- (1 / 2) * (b + s))); [|nra].
      transitivity (2 * a * c); [field; lra|].
      replace (2 * a * c) with ((b - s) * (b + s) / 2) by lra. replace s with (2 * a * y + b) by lra. field.
    + replace (- (1 / 2) * (b + s)) with (a * y) by lra. field. exact NA.
  - assert (BS : b + - s <> 0) by lra.
    destruct CS as [CS|CS]; [right; left|left].
    + replace (- (1 / 2) * (b + - s)) with (a * y) by lra. field. exact NA.
    + apply Rmult_eq_reg_r with (2 * a * (- (1 / 2) * (b + - s))); [|nra].
      transitivity (2 * a * c); [field; lra|].
      replace (2 * a * c) with ((b - s) * (b + s) / 2) by lra. replace s with (- (2 * a * y + b)) by lra. field.
Qed.

Section Main.
Context (c : coeffs R).
Notation S2 := (s2 c). Notation S1 := (s1 c). Notation S0 := (s0 c).

Definition candidates : list R := 0 :: flat_map interior (roots_of (real_roots_for_quadratic S2 S1 S0)) ++ [PI].

Lemma find_peak_eq : find_peak c = best_candidate c candidates 0 0.
Proof.
  unfold find_peak, candidates.
  match goal with |- context [real_roots_for_quadratic ?a ?b ?e] =>
    replace a with S2 by (unfold s2, slope; cbn [fst snd]; field);
    replace b with S1 by (unfold s1, slope; cbn [fst snd]; ring);
    replace e with S0 by (unfold s0, slope; cbn [fst snd]; field)
  end.
  destruct (real_roots_for_quadratic _ _ _) as [|r1 r2|r1 [r2|]]; cbn [roots_of flat_map app]; rewrite ?app_nil_r; reflexivity.
Qed.

Context (CF : circle_free c).
Notation G := (G c).

Lemma best_ok ws : forall f0 g0, exists f g, best_candidate c ws f0 g0 = Ok (f, g) /\ g0 <= g /\
  (forall w, In w ws -> G w <= g) /\
  (f = f0 /\ g = g0 \/ exists l1 l2, ws = l1 ++ f :: l2 /\ g = G f /\ g0 < g /\ forall w, In w l1 -> G w < g).
Proof.
  induction ws as [|w ws IH]; intros f0 g0.
  - exists f0, g0. cbn. repeat split; [lra|tauto|auto].
  - cbn [best_candidate]. rewrite (gain_magnitude_eq c CF). cbn [obind].
    destruct (Rltb_spec g0 (G w)) as [L|L].
    + destruct (IH w (G w)) as (f & g & E & L1 & L2 & K). exists f, g. split; [exact E|]. split; [lra|].
      split; [intros w' [<-|I]; [exact L1|auto]|]. right.
      destruct K as [[-> ->]|(l1 & l2 & -> & K1 & K2 & K3)].
      * exists [], ws. repeat split; auto. intros ? [].
      * exists (w :: l1), l2. repeat split; auto; [lra|]. intros w' [<-|I]; auto.
    + destruct (IH f0 g0) as (f & g & E & L1 & L2 & K). exists f, g. split; [exact E|]. split; [lra|].
      split; [intros w' [<-|I]; [lra|auto]|].
      destruct K as [[-> ->]|(l1 & l2 & -> & K1 & K2 & K3)]; [auto|right].
      exists (w :: l1), l2. repeat split; auto. intros w' [<-|I]; [lra|auto].
Qed.

Lemma interior_in r : -1 < r < 1 -> In (acos r) (interior r).
Proof.
  intros H. unfold interior. destruct (Rltb_spec (Rabs r) 1) as [L|L]; [now left|].
  exfalso. apply L. apply Rabs_def1; lra.
Qed.
Lemma in_interior w r : In w (interior r) -> -1 < r < 1 /\ w = acos r.
Proof.
  unfold interior. destruct (Rltb_spec (Rabs r) 1) as [L|L]; [|intros []]. intros [<-|[]].
  apply Rabs_def2 in L. split; [lra|reflexivity].
Qed.

Hypothesis CC : clear_cut c.

Lemma cand_range w : In w candidates -> 0 <= w <= PI.
Proof.
  pose proof PI_RGT_0. unfold candidates. intros [<-|I]; [lra|]. apply in_app_or in I. destruct I as [I|[<-|[]]]; [|lra].
  apply in_flat_map in I. destruct I as (r & _ & I). apply in_interior in I. destruct I as [_ ->]. apply acos_bound.
Qed.

(* a frequency with the largest gain is a candidate, unless the gain is constant *)
Lemma max_candidate w : 0 <= w <= PI -> (forall x, -1 <= x <= 1 -> Fn c x <= Fn c (cos w)) ->
  (forall x, -1 <= x <= 1 -> Fn c x = Fn c (cos w)) \/ In w candidates /\ ~ (S2 = 0 /\ S1 = 0 /\ S0 = 0).
Proof.
  intros W M. pose proof (COS_bound w) as CB.
  destruct (Req_dec S2 0) as [E2|N2]; [destruct (Req_dec S1 0) as [E1|N1]; [destruct (Req_dec S0 0) as [E0|N0]|]|].
  1: { left. intros x Hx. apply (F_constant c CF E2 E1 E0); lra. }
  all: right; split; [|tauto].
  all: assert (NZ : ~ (S2 = 0 /\ S1 = 0 /\ S0 = 0)) by tauto.
  all: destruct (Req_dec w 0) as [->|W0]; [now left|].
  all: destruct (Req_dec w PI) as [->|WP]; [right; apply in_or_app; right; now left|].
  all: right; apply in_or_app; left; apply in_flat_map; exists (cos w).
  all: assert (CI : -1 < cos w < 1) by
    (split; [rewrite <- cos_PI|rewrite <- cos_0]; apply cos_decreasing_1; lra).
  all: split; [|rewrite <- (acos_cos w) at 1 by lra; now apply interior_in].
  all: apply roots_complete; [exact NZ|exact CC|].
  all: apply (F_interior_max c CF (cos w) CI M).
Qed.

Lemma G_le w g : (forall x, -1 <= x <= 1 -> Fn c x <= Fn c (cos g)) -> G w <= G g.
Proof. intros H. unfold PeakProofs.G. apply sqrt_le_1_alt. apply H. apply COS_bound. Qed.

Lemma G_max_iff w g : G w = G g -> (forall x, -1 <= x <= 1 -> Fn c x <= Fn c (cos g)) ->
  forall x, -1 <= x <= 1 -> Fn c x <= Fn c (cos w).
Proof.
  intros E M x Hx. replace (Fn c (cos w)) with (Fn c (cos g)); [auto|].
  apply sqrt_inj; [| |symmetry; exact E]; apply (F_nonneg c CF); apply COS_bound.
Qed.

Lemma peak_ok : exists w g, find_peak c = Ok (w, g) /\ lowest_peak c w g.
Proof.
  rewrite find_peak_eq. destruct (best_ok candidates 0 0) as (f & g & E & G0 & GM & K).
  destruct (F_max c CF) as (y & Y & M).
  assert (YC : cos (acos y) = y) by (apply cos_acos; lra).
  assert (WR : 0 <= acos y <= PI) by apply acos_bound.
  assert (MM : forall x, -1 <= x <= 1 -> Fn c x <= Fn c (cos (acos y))) by (rewrite YC; exact M).
  (* the largest gain is among the candidates *)
  assert (GY : G (acos y) <= g).
  { destruct (max_candidate (acos y) WR MM) as [K'|[I _]]; [|now apply GM].
    replace (G (acos y)) with (G 0); [apply GM; now left|].
    unfold PeakProofs.G. f_equal. apply K'. apply COS_bound. }
  assert (GF : g = G f /\ 0 <= f <= PI).
  { destruct K as [[-> ->]|(l1 & l2 & L & -> & _)].
    - pose proof PI_RGT_0. split; [|lra]. assert (G 0 <= 0) by (apply GM; now left).
      pose proof (G_nonneg c 0). lra.
    - split; [reflexivity|]. apply cand_range. rewrite L. apply in_or_app. right. now left. }
  destruct GF as [GF FR]. exists f, g. split; [exact E|].
  assert (UB : forall w, G w <= g) by (intros w; apply Rle_trans with (G (acos y)); [now apply G_le|exact GY]).
  split; [exact FR|]. split; [now apply (gain_at_iff c CF)|].
  split; [intros w' g' H; apply (gain_at_iff c CF) in H; subst g'; apply UB|].
  intros w' W' H. apply (gain_at_iff c CF) in H.
  destruct (Rle_dec w' PI) as [WP|WP]; [|lra].
  assert (GEQ : G (acos y) = g) by (pose proof (G_le f (acos y) MM); lra).
  assert (MW : forall x, -1 <= x <= 1 -> Fn c x <= Fn c (cos w')) by
    (apply (G_max_iff w' (acos y)); [congruence|exact MM]).
  assert (MF : forall x, -1 <= x <= 1 -> Fn c x <= Fn c (cos f)) by
    (apply (G_max_iff f (acos y)); [congruence|exact MM]).
  (* zero is the first candidate *)
  assert (FZ : G 0 = g -> f = 0).
  { intros Z. destruct K as [[-> _]|(l1 & l2 & L & _ & GP & L1)]; [reflexivity|].
    unfold candidates in L. destruct l1 as [|w1 l1]; [cbn in L; congruence|].
    cbn in L. injection L as <- _. specialize (L1 0 (or_introl eq_refl)). lra. }
  destruct (max_candidate w' ltac:(lra) MW) as [K'|[I NZ]].
  { assert (f = 0); [|lra]. apply FZ. rewrite H. unfold PeakProofs.G. f_equal. apply K'. apply COS_bound. }
  destruct (Rle_dec f w') as [L|L]; [exact L|exfalso].
  destruct K as [[-> _]|(l1 & l2 & L' & _ & GP & L1)]; [lra|].
  assert (W0 : w' <> 0) by (intros ->; pose proof (FZ (eq_sym H)); lra).
  assert (IW : In w' l2).
  { rewrite L' in I. apply in_app_or in I. destruct I as [I|[I|I]]; [|lra|exact I].
    apply L1 in I. lra. }
  (* both interior *)
  assert (W1 : w' < PI) by lra.
  unfold candidates in L'. destruct l1 as [|w1 l1]; [cbn in L'; injection L' as <- _; lra|].
  cbn in L'. injection L' as _ L'.
  assert (IR : exists r1 r2, -1 < r1 < 1 /\ -1 < r2 < 1 /\ f = acos r2 /\ w' = acos r1).
  { assert (A : forall w, In w (l1 ++ f :: l2) -> w <> PI -> exists r, -1 < r < 1 /\ w = acos r).
    { intros w Iw Nw. rewrite <- L' in Iw. apply in_app_or in Iw. destruct Iw as [Iw|[Iw|[]]]; [|congruence].
      apply in_flat_map in Iw. destruct Iw as (r & _ & Iw). exists r. now apply in_interior. }
    assert (NP : f <> PI).
    { intros ->. set (fm := flat_map _ _) in L'.
      assert (X : forall p q (a b : list R) , p ++ [q] = a ++ q :: b -> ~ In q p -> b = []).
      { clear. induction p as [|x p IH]; intros q a b Eq NI.
        - destruct a as [|z a]; cbn in Eq; [congruence|]. injection Eq as _ Eq. destruct a; discriminate.
        - destruct a as [|z a]; cbn in Eq; injection Eq as E1 E2; [subst; exfalso; apply NI; now left|].
          apply (IH q a b E2). intros J. apply NI. now right. }
      assert (Z : l2 = []).
      { apply (X _ _ _ _ L'). intros J. apply in_flat_map in J. destruct J as (r & _ & J). apply in_interior in J.
        destruct J as [R1 R2]. pose proof (acos_cos PI ltac:(pose proof PI_RGT_0; lra)) as AP.
        assert (cos (acos r) = r) by (apply cos_acos; lra). rewrite <- R2, cos_PI in H0. lra. }
      rewrite Z in IW. destruct IW. }
    destruct (A f) as (r2 & R2 & ->); [apply in_or_app; right; now left|exact NP|].
    destruct (A w') as (r1 & R1 & ->); [apply in_or_app; right; now right|lra|]. exists r1, r2. auto. }
  destruct IR as (r1 & r2 & R1 & R2 & EF & EW).
  assert (C1 : cos w' = r1) by (rewrite EW; apply cos_acos; lra).
  assert (C2 : cos f = r2) by (rewrite EF; apply cos_acos; lra).
  assert (LT : r2 < r1) by (rewrite <- C1, <- C2; apply cos_decreasing_1; lra).
  rewrite C1 in MW. rewrite C2 in MF.
  assert (FE : Fn c r2 = Fn c r1) by (apply Rle_antisym; [apply MW|apply MF]; lra).
  destruct (F_rolle c CF r2 r1 ltac:(lra) LT ltac:(lra) FE) as (m & M1 & M2).
  apply NZ. apply (three_roots c r2 m r1 M1); [apply (F_interior_max c CF r2 R2 MF)|exact M2|apply (F_interior_max c CF r1 R1 MW)].
Qed.
End Main.

(* ---- setting the gain ---- *)
Lemma adjust_value c k z h : has_value c z h -> has_value (adjust_stage k c) z (RtoC k * h)%C.
Proof.
  intros [D E]. split; [exact D|]. rewrite <- E.
  unfold adjust_stage, set_b, vec_b, numerator, denominator in *. cbn [map nth a0 a1 a2 b0 b1 b2].
  rewrite !RtoC_mult. field. exact D.
Qed.
Lemma adjust_gain_at c k w g : gain_at c w g -> gain_at (adjust_stage k c) w (Rabs k * g).
Proof.
  intros (h & H & <-). exists (RtoC k * h)%C. split; [now apply adjust_value|].
  now rewrite Cmod_mult, Cmod_R.
Qed.
Lemma adjust_gain_inv c k w g : circle_free c -> gain_at (adjust_stage k c) w g -> exists g', gain_at c w g' /\ g = Rabs k * g'.
Proof.
  intros CF H. exists (PeakProofs.G c w).
  assert (H' : gain_at c w (PeakProofs.G c w)) by now apply gain_at_iff.
  split; [exact H'|]. apply (adjust_gain_at c k) in H'.
  destruct H as (h & [_ H] & <-). destruct H' as (h' & [_ H'] & <-). congruence.
Qed.

Lemma set_peak_ok c g : circle_free c -> clear_cut c -> 0 <= g -> (exists w v, gain_at c w v /\ 0 < v) ->
  exists c' w, set_peak_gain c g = Ok c' /\ 0 <= w <= PI /\ gain_at c' w g /\
    (forall w' g', gain_at c' w' g' -> g' <= g) /\
    exists k, forall z h, has_value c z h -> has_value c' z (RtoC k * h)%C.
Proof.
  intros CF CC HG (w1 & v & V1 & V2). destruct (peak_ok c CF CC) as (w & p & E & R & P & UB & _).
  assert (PP : 0 < p) by (pose proof (UB _ _ V1); lra).
  unfold set_peak_gain, set_gain_at_frequency. rewrite E. cbn [obind fst].
  pose proof P as P'. apply (gain_at_iff c CF) in P'. rewrite (gain_magnitude_eq c CF), <- P'. cbn [obind].
  destruct (Reqb_spec p 0) as [Z|_]; [lra|]. cbn [negb oguard].
  exists (adjust_stage (g / p) c), w. split; [reflexivity|]. split; [exact R|].
  assert (K : Rabs (g / p) = g / p).
  { apply Rabs_pos_eq. apply Rmult_le_pos; [exact HG|]. left. now apply Rinv_0_lt_compat. }
  split.
  - replace g with (Rabs (g / p) * p) at 2 by (rewrite K; field; lra). now apply adjust_gain_at.
  - split.
    + intros w' g' H. apply adjust_gain_inv in H; [|exact CF]. destruct H as (g1 & H1 & ->).
      apply UB in H1. rewrite K. apply Rle_trans with (g / p * p); [|right; field; lra].
      apply Rmult_le_compat_l; [|exact H1]. rewrite <- K. apply Rabs_pos.
    + exists (g / p). intros z h. apply adjust_value.
Qed.
