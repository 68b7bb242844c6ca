(* The portable bandpass and bandstop designs from such prototypes: like those of ZpkProofs6, with edges not
   as close to each other or to the ends. *)
From Verif Require Import Common ListLemmas RealUtil BiquadModel DesignModel DesignSpec DesignProofs DesignProofs3 CascadeModel CascadeSpec CascadeProofs CascadeProofs2 PoleZeroModel PoleZeroSpec PoleZeroProofs PoleZeroProofs3 PoleZeroProofs4 PoleZeroProofs5 PoleZeroProofs6 PoleZeroProofs7 PoleZeroProofs11 PoleZeroProofs12 PoleZeroProofs13 PoleZeroProofs14 PoleZeroProofs15 ComplexModel ComplexProofs ZpkModel ZpkSpec ZpkProofs ZpkProofs2 ZpkProofs3 ZpkProofs4 ZpkProofs5 ZpkProofs6 EllipticStableProofs4 EllipticPortableProofs.
From Coq Require Import Permutation Sorted.
From Coquelicot Require Import Complex.
Local Open Scope R_scope.
Local Notation C := Complex.C.

Definition band_root (b g2 : R) (r : C) : Prop := sized r /\ (snd r = 0 -> edge_clear (b * fst r) g2).
(* the margins of the edges *)
Definition margins (tl th : R) : Prop := 3 / 100 <= tl /\ 3 / 100 * th <= 1 /\ 3 / 100 <= th - tl.
Lemma moved_plain tl th c r w : margins tl th -> 0 < c -> c * c = tl * th -> band_root (th - tl) (tl * th) r ->
  Cmult (Cmult (RtoC 2) (Cmult (RtoC ((th - tl) / 2)) r)) w = Cplus (Cmult w w) (RtoC (c * c)) -> plain w.
Proof.
  intros (M1 & M2 & M3) HC HG (HM & HE) E. assert (GB : c * c <= 1112) by (assert (tl * th <= (100 / 3) * (100 / 3)) by (apply Rmult_le_compat; lra); lra). assert (GL : 9 / 10000 <= c * c) by (assert (3 / 100 * (3 / 100) <= tl * th) by (apply Rmult_le_compat; lra); lra). set (b := th - tl) in *.
  assert (ZR : snd r = 0 -> plain w).
  { intros SZ. specialize (HE SZ). destruct w as [x y], r as [u v]. cbn [fst snd] in *. subst v. pose proof (f_equal fst E) as E1. pose proof (f_equal snd E) as E2. cbn in E1, E2. clear E. unfold plain. rewrite Cmod2. cbn [fst snd].
    destruct (Req_dec y 0) as [->|Y]; [now left|right]. assert (X : 2 * x = b * u) by (apply (Rmult_eq_reg_r y); [lra|exact Y]).
    assert (Y2 : 4 * (y * y) = 4 * (c * c) - b * u * (b * u)) by (rewrite <- X in *; nra). unfold edge_clear in HE. rewrite <- HG in HE. assert (YP : 0 < y * y) by nra. destruct HE as [HE|HE]; [exfalso; lra|].
    assert (XY : x * x + y * y = c * c) by nra. rewrite XY. assert (Y3 : / 2000000 <= Rabs y). { apply Rsqr_incr_0_var; [|apply Rabs_pos]. rewrite <- Rsqr_abs. unfold Rsqr. lra. }
    assert (TC : tol * (1 + c * c) <= tol * 1113) by (apply Rmult_le_compat_l; [pose proof tol_pos; lra|lra]). unfold tol in *. lra. }
  destruct HM as [SZ|(Q1 & Q2 & Q3)]; [now apply ZR|]. right.
  destruct (moved_parts _ c w HC E) as (A0 & A1 & A2 & A3). rewrite Cmod_mult, Cmod_R, Rabs_pos_eq in A2, A3 by lra. replace (snd (Cmult (RtoC (b / 2)) r)) with (b / 2 * snd r) in A1 by (cbn; ring). rewrite Rabs_mult, (Rabs_pos_eq (b / 2)) in A1 by lra.
  set (A := Cmod w) in *. set (q := Cmod r) in *. set (y := Rabs (snd r)) in *. set (Y := Rabs (snd w)) in *. set (B := c * c / A) in *. assert (BA : B * A = c * c) by (unfold B; field; lra). assert (B0 : 0 < B) by (unfold B; apply Rdiv_lt_0_compat; nra). clearbody A q y Y B. clear E ZR HE.
  (* the bounds on the modulus *)
  assert (KM : exists k, 1 <= k /\ q <= k /\ tol * (8000 * (k * k)) < b * q / 10).
  { destruct (Rle_lt_dec 1 q) as [L|L]; [exists q|exists 1]; (split; [lra|]; split; [lra|]); unfold tol; assert (3 / 100 * q <= b * q) by (apply Rmult_le_compat_r; lra); [assert (q * q <= 4000000 * q) by (apply Rmult_le_compat_r; lra); lra|lra]. }
  destruct KM as (k & K1 & K2 & K3). assert (M : 2 * (b / 2 * q) + c <= k * (b + c)) by nra.
  assert (AM : A <= k * (b + c)) by lra. assert (BM : B <= k * (b + c)) by lra. assert (BC : 0 < b + c) by lra.
  assert (A4 : A * A <= k * k * ((b + c) * (b + c))) by (replace (k * k * ((b + c) * (b + c))) with (k * (b + c) * (k * (b + c))) by ring; apply Rmult_le_compat; lra).
  assert (B4 : B * B <= k * k * ((b + c) * (b + c))) by (replace (k * k * ((b + c) * (b + c))) with (k * (b + c) * (k * (b + c))) by ring; apply Rmult_le_compat; lra).
  assert (TB : th = tl + b) by (unfold b; ring). assert (BT : 0 <= tl * th) by nra. assert (CL : c <= th). { apply Rsqr_incr_0_var; [|lra]. unfold Rsqr. rewrite HG. nra. }
  assert (TH0 : 0 < th) by lra. assert (S1 : (b + c) * (b + c) <= 4445) by (assert (b + c <= 200 / 3) by lra; assert ((b + c) * (b + c) <= 200 / 3 * (200 / 3)) by (apply Rmult_le_compat; lra); lra).
  assert (S2 : (b + c) * (b + c) <= 2300 * (c * c)).
  { pose proof (sq_add b c) as X. assert (X1 : b * b <= th * th) by (apply Rmult_le_compat; lra). assert (TT : th <= 1112 * tl) by lra. assert (X2 : th * th <= 1112 * tl * th) by (apply Rmult_le_compat_r; lra). rewrite HG in *. lra. }
  assert (CC : 0 < c * c) by (apply Rmult_lt_0_compat; lra). assert (AA : 0 < A * A) by (apply Rmult_lt_0_compat; lra). assert (KK : 1 <= k * k) by (assert (1 * 1 <= k * k) by (apply Rmult_le_compat; lra); lra).
  (* (1 + A^2) (1 + c^2 / A^2) *)
  assert (D : B * B <= k * k * (2300 * (c * c))) by (eapply Rle_trans; [exact B4|apply Rmult_le_compat_l; lra]). assert (D2 : c * c * (c * c) = B * B * (A * A)) by (rewrite <- BA; ring).
  assert (D3 : c * c <= k * k * 2300 * (A * A)) by (apply (Rmult_le_reg_r (c * c)); [exact CC|]; rewrite D2; apply (Rle_trans _ (k * k * (2300 * (c * c)) * (A * A))); [apply Rmult_le_compat_r; lra|right; ring]).
  assert (F : (1 + A * A) * (A * A + c * c) <= 8000 * (k * k) * (A * A)).
  { assert (Y1 : A * A <= k * k * 4445) by (eapply Rle_trans; [exact A4|apply Rmult_le_compat_l; lra]). assert (Y2 : c * c <= k * k * 1112) by (apply (Rle_trans _ (1 * 1112)); [lra|apply Rmult_le_compat_r; lra]). set (a2 := A * A) in *. set (c2 := c * c) in *. set (k2 := k * k) in *. clearbody a2 c2 k2.
    replace ((1 + a2) * (a2 + c2)) with (a2 * (1 + a2 + c2) + c2) by ring. assert (Y3 : a2 * (1 + a2 + c2) <= a2 * (k2 * 5560)) by (apply Rmult_le_compat_l; lra). assert (0 <= k2 * a2) by (apply Rmult_le_pos; lra). lra. }
  apply (Rmult_lt_reg_r (A * A + c * c)); [lra|]. assert (TP := tol_pos).
  assert (G1 : tol * ((1 + A * A) * (A * A + c * c)) <= tol * (8000 * (k * k) * (A * A))) by (apply Rmult_le_compat_l; lra).
  assert (G2 : tol * (8000 * (k * k)) * (A * A) < b * q / 10 * (A * A)) by (apply Rmult_lt_compat_r; lra).
  assert (G3 : b * q / 10 <= 2 * (b * y)) by (assert (b * q <= b * (20 * y)) by (apply Rmult_le_compat_l; lra); lra). assert (G4 : b * q / 10 * (A * A) <= 2 * (b * y) * (A * A)) by (apply Rmult_le_compat_r; lra).
  assert (G5 : 2 * (b / 2 * y) * (A * A) = b * y * (A * A)) by field. lra.
Qed.
Section Design.
Variables (ex : R -> Z) (qsort : list C -> list C).
Hypothesis HQ : sorts qsort.
Variables (f : zpk) (p : pole_zero) (fs low high : R) (m : Z).
Let tl := tan (PI * low / fs).
Let th := tan (PI * high / fs).
Hypotheses (HS : stands_for f p) (HP : lowpass_prototype p) (HM : forall r, In r (zeros p ++ poles p) -> sized r) (HF : 0 < fs) (HN : (length (poles p) <= 15)%nat).
Hypotheses (H1 : fs / 100 <= low) (H2 : high <= fs / 2 - fs / 100) (H3 : fs / 100 <= high - low) (HB : (Z.of_nat (length (poles p)) <= m)%Z).
Lemma edges : margins tl th /\ 0 < tl /\ tl < th.
Proof.
  destruct (tan_margin (/ 100) low fs HF ltac:(lra) H1 ltac:(lra)) as (A & _). destruct (tan_margin (/ 100) high fs HF ltac:(lra) ltac:(lra) H2) as (_ & B). pose proof (tan_gap (/ 100) low high fs HF ltac:(lra) ltac:(lra) ltac:(lra) H3) as D. fold tl th in A, B, D. unfold margins. repeat split; lra.
Qed.
Let c := sqrt (prewarp low fs * prewarp high fs).
Lemma center : 0 < c /\ c * c = 2 * fs * (2 * fs) * (tl * th).
Proof.
  destruct edges as (_ & A & B). assert (X : prewarp low fs * prewarp high fs = 2 * fs * (2 * fs) * (tl * th)) by (unfold prewarp; fold tl th; ring). assert (P : 0 < 2 * fs * (2 * fs) * (tl * th)) by (apply Rmult_lt_0_compat; nra).
  split; [unfold c; rewrite X; now apply sqrt_lt_R0|]. unfold c. rewrite X. apply sqrt_sqrt. lra.
Qed.
Lemma centre_ok : center_of (prewarp low fs) (prewarp high fs) = Ok c.
Proof.
  destruct center as (A & B). unfold center_of. fold c. destruct (Rleb_spec 0 (prewarp low fs * prewarp high fs)) as [_|X]; [reflexivity|]. exfalso. apply Rnot_le_lt in X. unfold c in A. rewrite sqrt_neg_0 in A by lra. lra.
Qed.
Lemma edge_bw : prewarp high fs - prewarp low fs = 2 * fs * (th - tl).
Proof. unfold prewarp. fold tl th. ring. Qed.
(* a moved root, divided by twice the sample rate *)
Lemma moved_ok w s : band_root (th - tl) (tl * th) w -> fst w <= 0 -> Cmult (Cmult (RtoC 2) (Cmult (RtoC (2 * fs * (th - tl) / 2)) w)) s = Cplus (Cmult s s) (RtoC (c * c)) ->
  (exists u, s = Cmult (RtoC (2 * fs)) u /\ plain u /\ fst s <= 0) /\ (fst w < 0 -> fst s < 0).
Proof.
  intros HW F E. destruct edges as (MG & T1 & T2). destruct center as (C1 & C2). destruct (moved_re c s _ ltac:(lra) E) as (k & K0 & KS). replace (fst (Cmult (RtoC (2 * fs * (th - tl) / 2)) w)) with (fs * (th - tl) * fst w) in KS by (cbn; field).
  assert (P0 : 0 < fs * (th - tl)) by (apply Rmult_lt_0_compat; lra). split.
  - exists (Cmult (RtoC (/ (2 * fs))) s). split; [apply injective_projections; cbn; field; lra|]. split; [|rewrite KS; apply neg_mul; [lra|now apply neg_mul]].
    assert (G0 : 0 < tl * th) by nra. apply (moved_plain tl th (sqrt (tl * th)) w); try assumption; [now apply sqrt_lt_R0|apply sqrt_sqrt; lra|]. rewrite sqrt_sqrt by lra.
    assert (F0 : RtoC (2 * fs) <> RtoC 0) by (apply RtoC_neq; lra). assert (T0 : RtoC 2 <> RtoC 0) by (apply RtoC_neq; lra).
    assert (X1 : RtoC (tl * th) = Cdiv (RtoC (c * c)) (Cmult (RtoC (2 * fs)) (RtoC (2 * fs)))) by (rewrite C2, !(RtoC_mult (2 * fs * (2 * fs))), (RtoC_mult (2 * fs)); field; exact F0).
    assert (X2 : RtoC (2 * fs * (th - tl) / 2) = Cmult (RtoC (2 * fs)) (RtoC ((th - tl) / 2))) by (rewrite <- RtoC_mult; f_equal; field).
    rewrite X1, RtoC_inv by lra. rewrite X2 in E. transitivity (Cdiv (Cmult (Cmult (RtoC 2) (Cmult (Cmult (RtoC (2 * fs)) (RtoC ((th - tl) / 2))) w)) s) (Cmult (RtoC (2 * fs)) (RtoC (2 * fs)))); [field; exact F0|]. rewrite E. field. exact F0.
  - intros F'. rewrite KS. apply neg_mul'; [lra|now apply neg_mul'].
Qed.
Lemma s_zero : Cdiv (Cmult (RtoC (2 * fs)) (Cminus (RtoC 1) (RtoC 1))) (Cplus (RtoC 1) (RtoC 1)) = RtoC 0.
Proof. apply injective_projections; cbn; field. Qed.
Lemma s_circle g : - (fs / 2) < g < fs / 2 -> Cdiv (Cmult (RtoC (2 * fs)) (Cminus (on_circle g fs) (RtoC 1))) (Cplus (on_circle g fs) (RtoC 1)) = Cmult (RtoC (2 * fs)) (0, tan (PI * g / fs)).
Proof.
  intros G. destruct (circle_low g fs 1 G ltac:(lra)) as (Z1 & _). apply plus_one_neq in Z1. rewrite <- circle_s by exact G. field. exact Z1.
Qed.

Lemma design_bandpass_ok : (forall x, In x (zeros p ++ poles p) -> snd x = 0 -> edge_clear ((th - tl) * fst x) (tl * th)) ->
  exists cs, design_bandpass ex qsort f low high fs m = Ok (Some cs) /\ length cs = length (poles p) /\ stable_cascade cs /\
    (forall g h, - (fs / 2) < g < fs / 2 -> g <> 0 -> cascade_value cs (on_circle g fs) h <-> analog_value p (0, bandpass_w tl th (tan (PI * g / fs))) h) /\
    ((length (zeros p) < length (poles p))%nat -> cascade_value cs (RtoC 1) (RtoC 0) /\ cascade_value cs (RtoC (-1)) (RtoC 0)) /\
    (length (zeros p) = length (poles p) -> cascade_value cs (RtoC 1) (RtoC (pz_gain p)) /\ cascade_value cs (RtoC (-1)) (RtoC (pz_gain p))).
Proof.
  intros HE. destruct (facts ex f p fs HS HP HM) as (L1 & L2 & L3 & L4 & FR & FP & RF). destruct edges as (MG & T1 & T2). destruct center as (C1 & C2). set (bw := 2 * fs * (th - tl)). assert (BW : 0 < bw) by (unfold bw; apply Rmult_lt_0_compat; lra).
  set (fl := lowpassed f (bw / 2)). assert (LZ : length (z_zeros fl) = length (z_zeros f)) by (unfold fl, lowpassed; cbn [z_zeros]; apply map_length). assert (LP : length (z_poles fl) = length (z_poles f)) by (unfold fl, lowpassed; cbn [z_poles]; apply map_length).
  set (f2 := {| z_zeros := z_zeros fl; z_poles := z_poles fl; z_gain := z_gain fl * 2 ^ (length (z_poles fl) - length (z_zeros fl)) |}). set (F := shifted ex c f2).
  assert (E : design_bandpass ex qsort f low high fs m = discretize_to_biquads ex qsort F fs m).
  { unfold design_bandpass. destruct (Rleb_spec 0 low) as [_|X]; [|exfalso; lra]. destruct (Rleb_spec low high) as [_|X]; [|exfalso; lra]. destruct (Rltb_spec high (fs / 2)) as [_|X]; [|exfalso; lra]. cbn [andb negb].
    unfold to_bandpass. rewrite edge_bw. fold bw. rewrite to_lowpass_is by now right. fold fl. cbn [obind]. unfold int_power. destruct (Reqb_spec 2 0) as [X|_]; [lra|]. cbn [negb]. rewrite Bool.orb_true_r. cbn [oguard obind].
    assert (EX : powerRZ 2 (excess fl) = 2 ^ (length (z_poles fl) - length (z_zeros fl))) by (unfold excess; rewrite <- Nat2Z.inj_sub by lia; rewrite <- pow_powerRZ; reflexivity).
    rewrite EX, centre_ok. cbn [obind]. fold f2. rewrite shift_is by (unfold f2; cbn [z_zeros z_poles]; lia). reflexivity. }
  rewrite E. clear E. assert (LP' : length (z_poles F) = (2 * length (poles p))%nat) by (unfold F, shifted; cbn [z_poles]; rewrite shift_length; unfold f2; cbn [z_poles]; lia).
  assert (LZ' : length (z_zeros F) = (length (zeros p) + length (poles p))%nat) by (unfold F, shifted; cbn [z_zeros]; rewrite app_length, shift_length, repeat_length; unfold f2; cbn [z_poles z_zeros]; change (@length cplx) with (@length C) in *; lia).
  assert (IN : forall r, In r (flat_map (shift_root ex (c * c)) (z_zeros fl)) \/ In r (flat_map (shift_root ex (c * c)) (z_poles fl)) -> (exists u, r = Cmult (RtoC (2 * fs)) u /\ plain u /\ fst r <= 0)).
  { intros r Hr. assert (Q : exists x, In x (z_zeros f ++ z_poles f) /\ Cmult (Cmult (RtoC 2) (Cmult (RtoC (bw / 2)) x)) r = Cplus (Cmult r r) (RtoC (c * c))).
    { destruct Hr as [Hr|Hr]; apply in_shift in Hr as (y & Hy & E); unfold fl, lowpassed in Hy; cbn [z_zeros z_poles] in Hy; apply in_map_iff in Hy as (x & <- & Hx); exists x; (split; [apply in_or_app; auto|exact E]). }
    destruct Q as (x & Hx & E). destruct (FR x Hx) as (M & F0 & _). apply (moved_ok x r); [|exact F0|exact E]. split; [exact M|]. apply HE. destruct HS as (S1 & S2 & _). apply in_app_iff in Hx as [Hx|Hx]; apply in_or_app; [left; now apply (Permutation_in _ S1)|right; now apply (Permutation_in _ S2)]. }
  assert (LT : forall r, In r (z_poles F) -> fst r < 0).
  { intros r Hr. unfold F, shifted in Hr. cbn [z_poles] in Hr. unfold f2 in Hr. cbn [z_poles] in Hr. apply in_shift in Hr as (y & Hy & E). unfold fl, lowpassed in Hy. cbn [z_poles] in Hy. apply in_map_iff in Hy as (x & <- & Hx). destruct (moved_re c r _ ltac:(lra) E) as (k & K0 & ->).
    specialize (FP x Hx). replace (fst (Cmult (RtoC (bw / 2)) x)) with (bw / 2 * fst x) by (cbn; ring). apply neg_mul'; [lra|apply neg_mul'; lra]. }
  destruct (discretize_ok ex qsort HQ F fs m) as (cs & E & EL & S1 & V & N1 & N2).
  - exact HF.
  - apply shifted_real. unfold f2, real_filter. cbn [z_zeros z_poles]. now apply (lowpassed_real f (bw / 2)).
  - destruct HP as (_ & _ & _ & X & _). lia.
  - lia.
  - intros r Hr. unfold F, shifted in Hr. cbn [z_zeros z_poles] in Hr. rewrite !in_app_iff in Hr. destruct Hr as [[Hr|Hr]|Hr]; [apply IN; now left| |apply IN; now right]. apply repeat_spec in Hr. subst r. exists (RtoC 0). split; [apply injective_projections; cbn; ring|]. split; [apply plain_real|cbn; lra].
  - exact LT.
  - erewrite div2_twice by exact LP'. exact HB.
  - exists cs. split; [exact E|]. split; [rewrite EL; apply div2_twice; exact LP'|]. split; [exact S1|].
    assert (VZ : forall h, zpk_value F (RtoC 0) h -> cascade_value cs (RtoC 1) h) by (intros h Hh; apply V; [apply RtoC_neq; lra|intros X; apply (f_equal fst) in X; cbn in X; lra|rewrite s_zero; exact Hh]).
    assert (NP : po (fun p => Cminus (RtoC 0) p) (z_poles F) <> RtoC 0) by (apply po_minus_neq; intros r Hr ->; apply LT in Hr; cbn in Hr; lra).
    split; [|split].
    + intros g h G G0. destruct (circle_high g fs 1 G G0) as (Z1 & Z2 & _). pose proof (tan_neq g fs G G0) as TN. rewrite (V _ h (circle_neq_0 g fs) Z2), s_circle by exact G. set (t := tan (PI * g / fs)) in *.
      assert (K0 : RtoC (2 * fs) <> RtoC 0) by (apply RtoC_neq; lra). assert (I0 : ((0, t) : C) <> RtoC 0) by (intros X; apply (f_equal snd) in X; cbn in X; lra). assert (B0 : RtoC (th - tl) <> RtoC 0) by (apply RtoC_neq; lra). assert (T0 : RtoC 2 <> RtoC 0) by (apply RtoC_neq; lra).
      unfold F, f2. rewrite shifted_value; [|reflexivity|lia|now apply Cmult_neq]. unfold fl. rewrite lowpassed_value by lra. rewrite <- (stands_value f p) by exact HS.
      rewrite <- (bandpass_point tl th t T1 T2 TN). match goal with |- zpk_value f ?a h <-> zpk_value f ?b h => assert (EQ : a = b); [|rewrite EQ; reflexivity] end.
      assert (X2 : RtoC (bw / 2) = Cdiv (Cmult (RtoC (2 * fs)) (RtoC (th - tl))) (RtoC 2)) by (unfold bw; rewrite RtoC_div by lra; rewrite (RtoC_mult (2 * fs)); reflexivity).
      rewrite X2, C2, !(RtoC_mult (2 * fs * (2 * fs))), (RtoC_mult (2 * fs) (2 * fs)). field. repeat split; assumption.
    + intros LTn. split; [|apply N1; lia]. apply VZ. split; [exact NP|].
      assert (Z0 : po (fun z => Cminus (RtoC 0) z) (z_zeros F) = RtoC 0).
      { unfold F, shifted. cbn [z_zeros]. rewrite po_app, po_rep. unfold f2. cbn [z_zeros z_poles]. match goal with |- context [cpow (Cminus _ _) ?n] => assert (NN : n = S (n - 1)) by lia; rewrite NN end. cbn [cpow]. replace (Cminus (RtoC 0) (RtoC 0)) with (RtoC 0) by ring. ring. }
      rewrite Z0. field. exact NP.
    + intros EQ. assert (GF : z_gain F = pz_gain p).
      { unfold F, shifted. cbn [z_gain]. unfold f2. cbn [z_gain]. assert (D0 : (length (z_poles fl) - length (z_zeros fl))%nat = 0%nat) by lia. rewrite D0. unfold fl, lowpassed. cbn [z_gain]. assert (EX : excess f = 0%Z) by (unfold excess; lia). rewrite EX. cbn. destruct HS as (_ & _ & X). lra. }
      split; [|rewrite <- GF; apply N2; lia]. apply VZ. split; [exact NP|]. rewrite GF.
      assert (EZ : po (fun z => Cminus (RtoC 0) z) (z_zeros F) = po (fun z => Cminus (RtoC 0) z) (z_poles F)).
      { unfold F, shifted. cbn [z_zeros z_poles]. unfold f2. cbn [z_zeros z_poles]. rewrite po_app, po_rep, !po_shift_0. assert (D0 : (length (z_poles fl) - length (z_zeros fl))%nat = 0%nat) by lia. assert (D1 : @length C (z_zeros fl) = @length C (z_poles fl)) by (change (@length cplx) with (@length C) in *; lia). change (@length cplx) with (@length C) in *. rewrite D0, D1. cbn [cpow]. ring. }
      rewrite EZ. set (P := po _ _) in *. clearbody P. field. exact NP.
Qed.
Lemma bandstop_point t : tl * th - t * t <> 0 -> Cdiv (Cmult (RtoC (th - tl)) (0, t)) (Cplus (Cmult (0, t) (0, t)) (RtoC (tl * th))) = ((0, bandstop_w tl th t) : C).
Proof.
  intros N. unfold bandstop_w. replace (Cplus (Cmult (0, t) (0, t)) (RtoC (tl * th))) with (RtoC (tl * th - t * t)) by (apply injective_projections; cbn; ring). apply injective_projections; cbn; field; exact N.
Qed.
Lemma design_bandstop_ok : (forall x, In x (zeros p ++ poles p) -> snd x = 0 -> edge_clear ((th - tl) / fst x) (tl * th)) ->
  exists cs, design_bandstop ex qsort f low high fs m = Ok (Some cs) /\ length cs = length (poles p) /\ stable_cascade cs /\
    (forall g h, - (fs / 2) < g < fs / 2 -> tan (PI * g / fs) * tan (PI * g / fs) <> tl * th -> cascade_value cs (on_circle g fs) h <-> analog_value p (0, bandstop_w tl th (tan (PI * g / fs))) h) /\
    (forall h, analog_value p (RtoC 0) h -> cascade_value cs (RtoC 1) h /\ cascade_value cs (RtoC (-1)) h) /\
    ((length (zeros p) < length (poles p))%nat -> forall g, - (fs / 2) < g < fs / 2 -> tan (PI * g / fs) * tan (PI * g / fs) = tl * th -> cascade_value cs (on_circle g fs) (RtoC 0)).
Proof.
  intros HE. destruct (facts ex f p fs HS HP HM) as (L1 & L2 & L3 & L4 & FR & FP & RF). destruct edges as (MG & T1 & T2). destruct center as (C1 & C2). set (bw := 2 * fs * (th - tl)). assert (BW : 0 < bw) by (unfold bw; apply Rmult_lt_0_compat; lra).
  pose proof (no_zero_root ex f p fs HS HP HM) as NZ. set (fh := highpassed f (bw / 2)). destruct (high_lengths ex f p fs HS HP HM (bw / 2)) as (LZ & LP). fold fh in LZ, LP. set (F := shifted ex c fh).
  assert (E : design_bandstop ex qsort f low high fs m = discretize_to_biquads ex qsort F fs m).
  { unfold design_bandstop. destruct (Rleb_spec 0 low) as [_|X]; [|exfalso; lra]. destruct (Rleb_spec low high) as [_|X]; [|exfalso; lra]. destruct (Rltb_spec high (fs / 2)) as [_|X]; [|exfalso; lra]. cbn [andb negb].
    unfold to_bandstop. rewrite edge_bw. fold bw. cbv zeta. rewrite to_highpass_is by exact NZ. fold fh. cbn [obind]. rewrite centre_ok. cbn [obind]. rewrite shift_is by lia. reflexivity. }
  rewrite E. clear E. assert (LP' : length (z_poles F) = (2 * length (poles p))%nat) by (unfold F, shifted; cbn [z_poles]; rewrite shift_length; lia).
  assert (LZ' : length (z_zeros F) = (2 * length (poles p))%nat) by (unfold F, shifted; cbn [z_zeros]; rewrite app_length, shift_length, repeat_length; change (@length cplx) with (@length C) in *; lia).
  assert (EDG : forall w, (w = RtoC 0 \/ exists x, In x (z_zeros f ++ z_poles f) /\ w = Cinv x) -> snd w = 0 -> edge_clear ((th - tl) * fst w) (tl * th)).
  { intros w [->|(x & Hx & ->)] SZ.
    - right. cbn [fst]. unfold RtoC. cbn [fst]. destruct MG as (M1 & M2 & M3). assert (3 / 100 * (3 / 100) <= tl * th) by (apply Rmult_le_compat; lra). lra.
    - destruct (FR x Hx) as (_ & _ & X0). assert (SX : snd x = 0).
      { destruct x as [a b]. cbn in SZ |- *. destruct (Req_dec b 0) as [->|B]; [reflexivity|exfalso]. assert (P : 0 < a * (a * 1) + b * (b * 1)) by nra. assert (Q : 0 < / (a * (a * 1) + b * (b * 1))) by now apply Rinv_0_lt_compat. unfold Rdiv in SZ. nra. }
      assert (FX : fst x <> 0) by (intros A; apply X0; apply injective_projections; [exact A|exact SX]). replace ((th - tl) * fst (Cinv x)) with ((th - tl) / fst x).
      + apply HE; [|exact SX]. destruct HS as (S1 & S2 & _). apply in_app_iff in Hx as [Hx|Hx]; apply in_or_app; [left; now apply (Permutation_in _ S1)|right; now apply (Permutation_in _ S2)].
      + destruct x as [a b]. cbn [fst snd] in *. subst b. cbn. field. exact FX. }
  assert (IN : forall r, In r (flat_map (shift_root ex (c * c)) (z_zeros fh)) \/ In r (flat_map (shift_root ex (c * c)) (z_poles fh)) -> (exists u, r = Cmult (RtoC (2 * fs)) u /\ plain u /\ fst r <= 0)).
  { intros r Hr. assert (Q : exists y, In y (z_zeros fh ++ z_poles fh) /\ Cmult (Cmult (RtoC 2) y) r = Cplus (Cmult r r) (RtoC (c * c))).
    { destruct Hr as [Hr|Hr]; apply in_shift in Hr as (y & Hy & E); exists y; (split; [apply in_or_app; auto|exact E]). }
    destruct Q as (y & Hy & E). apply (high_roots ex f p fs HS HP HM) in Hy as (w & -> & M & F0 & W). apply (moved_ok w r); [|exact F0|exact E]. split; [exact M|]. now apply EDG. }
  assert (LT : forall r, In r (z_poles F) -> fst r < 0).
  { intros r Hr. unfold F, shifted in Hr. cbn [z_poles] in Hr. apply in_shift in Hr as (y & Hy & E). apply (high_poles ex f p fs HS HP HM) in Hy; [|lra]. destruct (moved_re c r _ ltac:(lra) E) as (k & K0 & ->). apply neg_mul'; lra. }
  destruct (discretize_ok ex qsort HQ F fs m) as (cs & E & EL & S1 & V & N1 & N2).
  - exact HF.
  - apply shifted_real. now apply highpassed_real.
  - lia.
  - lia.
  - intros r Hr. unfold F, shifted in Hr. cbn [z_zeros z_poles] in Hr. rewrite !in_app_iff in Hr. destruct Hr as [[Hr|Hr]|Hr]; [apply IN; now left| |apply IN; now right]. apply repeat_spec in Hr. subst r. exists (RtoC 0). split; [apply injective_projections; cbn; ring|]. split; [apply plain_real|cbn; lra].
  - exact LT.
  - erewrite div2_twice by exact LP'. exact HB.
  - exists cs. split; [exact E|]. split; [rewrite EL; apply div2_twice; exact LP'|]. split; [exact S1|].
    assert (NP : po (fun p => Cminus (RtoC 0) p) (z_poles F) <> RtoC 0) by (apply po_minus_neq; intros r Hr ->; apply LT in Hr; cbn in Hr; lra).
    assert (GF : forall h, analog_value p (RtoC 0) h -> RtoC (z_gain F) = h) by (intros h Hh; apply (gain_dc ex f p fs HS HP HM h Hh)).
    assert (VZ : zpk_value F (RtoC 0) (RtoC (z_gain F))).
    { split; [exact NP|]. assert (EZ : po (fun z => Cminus (RtoC 0) z) (z_zeros F) = po (fun z => Cminus (RtoC 0) z) (z_poles F)).
      { unfold F, shifted. cbn [z_zeros z_poles]. rewrite po_app, po_rep, !po_shift_0. assert (D0 : (length (z_poles fh) - length (z_zeros fh))%nat = 0%nat) by lia. assert (D1 : @length C (z_zeros fh) = @length C (z_poles fh)) by (change (@length cplx) with (@length C) in *; lia). change (@length cplx) with (@length C) in *. rewrite D0, D1. cbn [cpow]. ring. }
      rewrite EZ. set (P := po _ _) in *. clearbody P. field. exact NP. }
    assert (K0 : RtoC (2 * fs) <> RtoC 0) by (apply RtoC_neq; lra). assert (B0 : RtoC (th - tl) <> RtoC 0) by (apply RtoC_neq; lra). assert (T0 : RtoC 2 <> RtoC 0) by (apply RtoC_neq; lra).
    assert (ONE : forall h, analog_value p (RtoC 0) h -> cascade_value cs (RtoC 1) h) by (intros h Hh; apply V; [apply RtoC_neq; lra|intros X; apply (f_equal fst) in X; cbn in X; lra|rewrite s_zero, <- (GF h Hh); exact VZ]).
    split; [|split].
    + intros g h G GN. destruct (circle_low g fs 1 G ltac:(lra)) as (Z1 & _). rewrite (V _ h (circle_neq_0 g fs) Z1), s_circle by exact G. set (t := tan (PI * g / fs)) in *.
      destruct (Req_dec t 0) as [TZ|TZ].
      * rewrite TZ in *. replace (Cmult (RtoC (2 * fs)) (0, 0)) with (RtoC 0) by (apply injective_projections; cbn; ring). replace (bandstop_w tl th 0) with 0 by (unfold bandstop_w; field; nra). change ((0, 0) : C) with (RtoC 0).
        rewrite <- (stands_value f p) by exact HS. destruct (zpk_value_ex f (RtoC 0)) as (h0 & H0); [intros r Hr; apply (FR r); apply in_or_app; now right|].
        rewrite (zpk_value_unique F _ _ h VZ), (zpk_value_unique f _ _ h H0). rewrite (GF h0); [reflexivity|]. now apply (stands_value f p).
      * assert (I0 : ((0, t) : C) <> RtoC 0) by (intros X; apply (f_equal snd) in X; cbn in X; lra). assert (Q0 : Cplus (Cmult (0, t) (0, t)) (RtoC (tl * th)) <> RtoC 0) by (intros X; apply (f_equal fst) in X; cbn in X; lra).
        unfold F. rewrite shifted_value_eq; [|change (@length cplx) with (@length C) in *; lia|now apply Cmult_neq].
        assert (X2 : RtoC (bw / 2) = Cdiv (Cmult (RtoC (2 * fs)) (RtoC (th - tl))) (RtoC 2)) by (unfold bw; rewrite RtoC_div by lra; rewrite (RtoC_mult (2 * fs)); reflexivity).
        assert (X3 : Cdiv (Cplus (Cmult (Cmult (RtoC (2 * fs)) (0, t)) (Cmult (RtoC (2 * fs)) (0, t))) (RtoC (c * c))) (Cmult (RtoC 2) (Cmult (RtoC (2 * fs)) (0, t))) = Cdiv (Cmult (RtoC (2 * fs)) (Cplus (Cmult (0, t) (0, t)) (RtoC (tl * th)))) (Cmult (RtoC 2) (0, t))).
        { rewrite C2, !(RtoC_mult (2 * fs * (2 * fs))), (RtoC_mult (2 * fs) (2 * fs)). field. repeat split; assumption. }
        rewrite X3. unfold fh. rewrite highpassed_value; [|exact RF|exact NZ|exact L1|].
        -- rewrite <- (stands_value f p) by exact HS. rewrite <- (bandstop_point t) by lra. match goal with |- zpk_value f ?a h <-> zpk_value f ?b h => assert (EQ : a = b); [|rewrite EQ; reflexivity] end. rewrite X2. set (q := Cplus (Cmult (0, t) (0, t)) (RtoC (tl * th))) in *. clearbody q. field. repeat split; assumption.
        -- unfold Cdiv. apply Cmult_neq; [now apply Cmult_neq|]. apply Cinv_neq. now apply Cmult_neq.
    + intros h Hh. split; [now apply ONE|]. rewrite <- (GF h Hh). apply N2. lia.
    + intros LTn g G GE. destruct (circle_low g fs 1 G ltac:(lra)) as (Z1 & _). apply (V _ _ (circle_neq_0 g fs) Z1). rewrite s_circle by exact G. set (t := tan (PI * g / fs)) in *. assert (TZ : t <> 0) by (intros X; rewrite X in GE; nra).
      assert (I0 : ((0, t) : C) <> RtoC 0) by (intros X; apply (f_equal snd) in X; cbn in X; lra). unfold F. rewrite shifted_value_eq; [|change (@length cplx) with (@length C) in *; lia|now apply Cmult_neq].
      replace (Cplus (Cmult (Cmult (RtoC (2 * fs)) (0, t)) (Cmult (RtoC (2 * fs)) (0, t))) (RtoC (c * c))) with (RtoC 0) by (rewrite C2, <- GE; apply injective_projections; cbn; ring).
      replace (Cdiv (RtoC 0) (Cmult (RtoC 2) (Cmult (RtoC (2 * fs)) (0, t)))) with (RtoC 0) by (field; repeat split; assumption).
      assert (NH : po (fun p => Cminus (RtoC 0) p) (z_poles fh) <> RtoC 0) by (apply po_minus_neq; intros r Hr ->; apply (high_poles ex f p fs HS HP HM) in Hr; [cbn in Hr; lra|lra]). split; [exact NH|].
      assert (Z0 : po (fun z => Cminus (RtoC 0) z) (z_zeros fh) = RtoC 0).
      { unfold fh, highpassed. cbn [z_zeros]. rewrite po_app, po_rep. match goal with |- context [cpow (Cminus _ _) ?n] => assert (NN : n = S (n - 1)) by lia; rewrite NN end. cbn [cpow]. replace (Cminus (RtoC 0) (RtoC 0)) with (RtoC 0) by ring. ring. }
      rewrite Z0. field. exact NH.
Qed.
End Design.
