From Verif Require Import Common ListLemmas RealUtil BiquadModel DesignModel DesignSpec DesignProofs DesignProofs2 DesignProofs3 CascadeModel CascadeSpec CascadeProofs CascadeProofs2 ComplexModel ComplexProofs PoleZeroModel PoleZeroSpec PoleZeroProofs PoleZeroProofs7 PoleZeroProofs18 LadderModel MultiCrossModel MultiCrossSpec.
From Coquelicot Require Import Complex.
Local Open Scope R_scope.

(* ---------- traverse ---------- *)
Lemma obind_inv {A B} (m : outcome A) (f : A -> outcome B) r : obind m f = Ok r -> exists a, m = Ok a /\ f a = Ok r.
Proof. destruct m; cbn; try discriminate. eauto. Qed.
Lemma traverse_spec {A B} (f : A -> outcome B) l : forall r, traverse f l = Ok r <-> Forall2 (fun a b => f a = Ok b) l r.
Proof.
  induction l as [|a l IH]; intros r; cbn [traverse].
  - split; [intros [= <-]; constructor|intros H; now inversion H].
  - split.
    + intros E. apply obind_inv in E as (b & E1 & E). apply obind_inv in E as (r' & E2 & E). injection E as <-. constructor; [exact E1|now apply IH].
    + intros H. inversion H as [|? b ? r' E1 E2]; subst. rewrite E1. cbn [obind]. apply IH in E2. rewrite E2. reflexivity.
Qed.
Lemma Forall2_nth {A B} (P : A -> B -> Prop) l r da db : Forall2 P l r -> length l = length r /\ forall i, (i < length l)%nat -> P (nth i l da) (nth i r db).
Proof.
  induction 1 as [|a b l r H _ [IL IH]]; cbn [length].
  - split; [reflexivity|lia].
  - split; [lia|]. intros [|i] Hi; cbn [nth]; [exact H|apply IH; lia].
Qed.

(* ---------- angles ---------- *)
Lemma fmod_angle x : exists k : Z, fmod x (2 * PI) = x + 2 * IZR k * PI.
Proof. unfold fmod. cbv zeta. set (m := (if Rleb 0 _ then _ else _)%Z). clearbody m. exists (- m)%Z. rewrite opp_IZR. ring. Qed.
Lemma cos_period_Z x (k : Z) : cos (x + 2 * IZR k * PI) = cos x.
Proof.
  destruct (Z_le_gt_dec 0 k) as [K|K].
  - rewrite <- (Z2Nat.id k K), <- INR_IZR_INZ. apply cos_period.
  - rewrite <- (cos_period (x + 2 * IZR k * PI) (Z.to_nat (- k))). f_equal. rewrite INR_IZR_INZ, Z2Nat.id, opp_IZR by lia. ring.
Qed.
Lemma sin_period_Z x (k : Z) : sin (x + 2 * IZR k * PI) = sin x.
Proof.
  destruct (Z_le_gt_dec 0 k) as [K|K].
  - rewrite <- (Z2Nat.id k K), <- INR_IZR_INZ. apply sin_period.
  - rewrite <- (sin_period (x + 2 * IZR k * PI) (Z.to_nat (- k))). f_equal. rewrite INR_IZR_INZ, Z2Nat.id, opp_IZR by lia. ring.
Qed.
Lemma wrap_shift x : exists k : Z, wrap_angle x = x + 2 * IZR k * PI.
Proof.
  unfold wrap_angle. destruct (fmod_angle (x + PI)) as [k E]. cbv zeta. rewrite E. destruct (Rltb _ 0).
  - exists (k + 1)%Z. rewrite plus_IZR. ring.
  - exists k. ring.
Qed.
Lemma wrap_trig x : cos (wrap_angle x) = cos x /\ sin (wrap_angle x) = sin x.
Proof. destruct (wrap_shift x) as [k ->]. split; [apply cos_period_Z|apply sin_period_Z]. Qed.
Lemma wrap_range x : - PI <= wrap_angle x < PI.
Proof.
  pose proof PI_RGT_0 as P. unfold wrap_angle, fmod. cbv zeta. set (y := x + PI). set (q := y / (2 * PI)).
  assert (E : y = 2 * PI * q) by (unfold q; field; lra). rewrite E. clearbody q. clear E y.
  assert (F : forall r, IZR (Int_part r) <= r < IZR (Int_part r) + 1) by (intros r; pose proof (base_Int_part r); lra).
  destruct (Rleb_spec 0 q) as [Q|Q].
  - destruct (F q) as [A B]. set (m := IZR (Int_part q)) in *. clearbody m. destruct (Rltb_spec (2 * PI * q - 2 * PI * m) 0); nra.
  - rewrite opp_IZR. destruct (F (- q)) as [A B]. set (m := IZR (Int_part (- q))) in *. clearbody m. destruct (Rltb_spec (2 * PI * q - 2 * PI * - m) 0); nra.
Qed.

Definition cis (x : R) : C := (cos x, sin x).
Lemma cis_plus x y : cis (x + y) = Cmult (cis x) (cis y).
Proof. unfold cis. rewrite cos_plus, sin_plus. apply injective_projections; cbn; ring. Qed.
Lemma polar h : h = Cmult (RtoC (Cmod h)) (cis (carg h)).
Proof.
  destruct (Req_dec (Cmod h) 0) as [E|N].
  - rewrite E. apply Cmod_eq_0 in E. rewrite E. ring.
  - assert (P : 0 < Cmod h) by (pose proof (Cmod_ge_0 h); lra).
    destruct (atan2_spec (fst h) (snd h) (Cmod h)) as (A & B & _); [|exact P|].
    + unfold Cmod. rewrite sqrt_sqrt by nra. ring.
    + unfold carg, cis. apply injective_projections; cbn; lra.
Qed.
(* two numbers whose magnitudes add *)
Definition aligned (h h' : C) : Prop := Cmult h (RtoC (Cmod h')) = Cmult h' (RtoC (Cmod h)).
Lemma aligned_sum h h' : aligned h h' -> Cmod (Cplus h h') = Cmod h + Cmod h'.
Proof.
  intros A. destruct (Req_dec (Cmod h) 0) as [E|N].
  - pose proof (Cmod_eq_0 h E) as ->. rewrite Cmod_0. replace (Cplus (RtoC 0) h') with h' by ring. ring.
  - pose proof (Cmod_ge_0 h) as P. pose proof (Cmod_ge_0 h') as P'.
    assert (M : Cmod (Cmult (Cplus h h') (RtoC (Cmod h))) = Cmod (Cmult h (RtoC (Cmod h + Cmod h')))).
    { f_equal. rewrite RtoC_plus. rewrite Cmult_plus_distr_r, <- A. ring. }
    rewrite !Cmod_mult, !Cmod_R, !Rabs_pos_eq in M by lra. nra.
Qed.
Lemma aligned_rotate h h' : aligned (Cmult h (cis (carg h' - carg h))) h'.
Proof.
  unfold aligned. rewrite Cmod_mult. replace (Cmod (cis _)) with 1.
  - rewrite Rmult_1_r. rewrite (polar h) at 1. rewrite (polar h') at 3. set (x := carg h). set (y := carg h').
    replace y with (x + (y - x)) at 2 by ring. rewrite (cis_plus x (y - x)). ring.
  - unfold cis, Cmod. cbn [fst snd]. pose proof (sin2_cos2 (carg h' - carg h)) as E. unfold Rsqr in E. replace (_ + _) with 1 by (cbn [pow]; lra). symmetry. apply sqrt_1.
Qed.
Lemma aligned_scale h r : 0 <= r -> aligned h (Cmult (RtoC r) h).
Proof. intros H. unfold aligned. rewrite Cmod_mult, Cmod_R, Rabs_pos_eq by exact H. rewrite RtoC_mult. ring. Qed.
Lemma aligned_mult x h h' : aligned h h' -> aligned (Cmult x h) (Cmult x h').
Proof. unfold aligned. intros A. rewrite !Cmod_mult, !RtoC_mult. transitivity (Cmult (Cmult x (RtoC (Cmod x))) (Cmult h (RtoC (Cmod h')))); [ring|]. rewrite A. ring. Qed.

(* ---------- evaluation ---------- *)
Lemma eval_biquad_ok c z h : eval_biquad c z = Ok h <-> has_value c z h.
Proof.
  unfold eval_biquad, has_value, numerator, denominator. cbv zeta. set (d := Cplus _ (RtoC (a2 c))).
  replace (Cplus (Cplus (Cmult (Cmult (RtoC (a0 c)) z) z) (Cmult (RtoC (a1 c)) z)) (RtoC (a2 c))) with d by (unfold d; ring).
  set (nn := Cplus _ (RtoC (b2 c))). replace (Cplus (Cplus (Cmult (Cmult (RtoC (b0 c)) z) z) (Cmult (RtoC (b1 c)) z)) (RtoC (b2 c))) with nn by (unfold nn; ring).
  destruct (Reqb_spec (Cmod d) 0) as [E|E]; cbn [negb oguard].
  - split; [discriminate|]. intros [N _]. destruct N. now apply Cmod_eq_0.
  - split; [intros [= <-]; split; [|reflexivity]|intros [_ <-]; reflexivity]. intros X. apply E. rewrite X. apply Cmod_0.
Qed.
Lemma eval_fold cs z : forall t r, fold_left (fun acc c => obind acc (fun t => obind (eval_biquad c z) (fun h => Ok (Cmult t h)))) cs (Ok t) = Ok r <->
  exists h, cascade_value cs z h /\ r = Cmult t h.
Proof.
  induction cs as [|c cs IH]; intros t r; cbn [fold_left cascade_value].
  - split; [intros [= <-]; exists (RtoC 1); split; [reflexivity|ring]|intros (h & -> & ->); f_equal; ring].
  - cbn [obind]. destruct (eval_biquad c z) as [v| |] eqn:E; cbn [obind].
    + pose proof E as E'. apply eval_biquad_ok in E. rewrite IH. split.
      * intros (h & A & ->). exists (Cmult v h). split; [exists v, h; auto|ring].
      * intros (h & (h1 & h2 & A1 & A2 & ->) & ->). exists h2. split; [exact A2|]. apply eval_biquad_ok in A1. rewrite A1 in E'. injection E' as ->. ring.
    + split.
      * intros X. exfalso. revert X. clear. induction cs as [|c cs IH]; cbn [fold_left obind]; [discriminate|exact IH].
      * intros (h & (h1 & h2 & A1 & _) & _). apply eval_biquad_ok in A1. congruence.
    + split.
      * intros X. exfalso. revert X. clear. induction cs as [|c cs IH]; cbn [fold_left obind]; [discriminate|exact IH].
      * intros (h & (h1 & h2 & A1 & _) & _). apply eval_biquad_ok in A1. congruence.
Qed.
Lemma phase_response_ok cs f fs p : phase_response cs f fs = Ok p <-> exists h, cascade_value cs (on_circle f fs) h /\ p = carg h.
Proof.
  unfold phase_response, eval_cascade. cbv zeta. fold (on_circle f fs). split.
  - intros E. apply obind_inv in E as (h & E & X). injection X as <-. apply eval_fold in E as (h' & A & ->). exists h'. split; [exact A|]. f_equal. ring.
  - intros (h & A & ->). rewrite (proj2 (eval_fold cs _ (RtoC 1) h)); [reflexivity|]. exists h. split; [exact A|ring].
Qed.

(* ---------- all-pass sections ---------- *)
Lemma allpass_minimal_inv fs f phase c : allpass_minimal fs f phase = Ok c ->
  stable c /\ (forall z, Cmod z = 1 -> exists h, has_value c z h /\ Cmod h = 1) /\ has_value c (on_circle f fs) (cis phase).
Proof.
  intros E. pose proof E as E0. unfold allpass_minimal, allpass in E.
  apply ocheck_ok in E as [A1 E]. apply ocheck_ok in E as [A2 E]. apply ocheck_ok in E as [A3 E]. apply ocheck_ok in E as [A4 E]. clear E.
  assert (H2 : f < fs / 2) by (destruct (Rltb_spec f (fs / 2)); [assumption|discriminate]).
  assert (H3 : / 100000 < Rabs phase) by (destruct (Rltb_spec (/ 100000) (Rabs phase)); [assumption|discriminate]).
  assert (H4 : / 100000 < Rabs (sin phase)) by (destruct (Rltb_spec (/ 100000) (Rabs (sin phase))); [assumption|discriminate]).
  assert (H1 : 0 < f) by (destruct (Rltb_spec 0 f); [assumption|discriminate]).
  destruct (full_angle f fs H1 H2) as (S2 & _).
  assert (0 < infimal_group_delay fs f phase).
  { unfold infimal_group_delay. apply Rdiv_lt_0_compat; [|exact S2]. apply Rdiv_lt_0_compat; lra. }
  destruct (allpass_props fs f phase (minimum_group_delay fs f phase)) as (c' & E & S & U & P & _).
  - unfold valid_allpass. repeat split; auto. fold (infimal_group_delay fs f phase). unfold minimum_group_delay. lra.
  - unfold allpass_minimal in E0. rewrite E in E0. injection E0 as <-. auto.
Qed.
