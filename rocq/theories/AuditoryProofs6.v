(* Init of the auditory filterbank as a whole, and its answer to sinusoids. *)
From Coq Require Import ZArith Reals Lra Lia List Bool Psatz Field Sorted.
From Coquelicot Require Import Coquelicot.
From Verif Require Import Common CInt ListLemmas NthLemmas RealUtil BiquadModel BiquadSpec BiquadProofs BiquadProps FirModel FirSpec DesignModel DesignSpec CascadeModel SteadySpec SteadyProofs
  PeakModel PeakSpec AuditoryModel AuditorySpec AuditoryProofs AuditoryProofs2 AuditoryProofs3 AuditoryProofs4 AuditoryProofs5.
Import ListNotations.
Local Open Scope R_scope.
Local Notation C := Complex.C.

(* ---- streams ---- *)
Lemma scalar_stream c (x : nat -> R) : a0 c <> 0 -> exists y : nat -> R, forall k, rfilters c (map x (seq 0 k)) (map y (seq 0 k)).
Proof.
  intros A. assert (HI : exists f, binit 1 c = Ok f).
  { unfold biquad_init. cbn [Nat.leb ocheck]. destruct (Reqb_spec (a0 c) 0); [contradiction|]. cbn. eauto. }
  destruct HI as (f & HI). set (xs := fun k => [x k]).
  exists (fun k => nth 0 (output_at rpure f xs k) 0). intros k.
  destruct (init_inv 0 1 Rmult Rdiv _ 1 c f HI) as (Hn & HZ & HW & _ & _ & _ & _ & _ & HR).
  assert (HF : List.Forall (fun fr => length fr = 1%nat) (map xs (seq 0 k))) by (apply Forall_forall; intros fr Hfr; apply in_map_iff in Hfr as (j & <- & _); reflexivity).
  destruct (channel_scan 0 Rplus Rminus Rmult 1 0 (map xs (seq 0 k)) f HW HF ltac:(lia)) as [_ E].
  rewrite scan_stream in E. cbn [snd] in E. unfold channel in E. rewrite !map_map in E. rewrite E, HR, nth_repeat.
  exact (init_filters 0 1 Rplus Rmult Rminus Ropp Rdiv Rinv Rfield (fun x => Reqb x 0) (fun x => Reqb_true_iff x 0) 1 c f _ HI).
Qed.
Lemma evens_seq (x : nat -> R) k : forall s, evens (map x (seq s k)) = map (fun j => x (s + 2 * j)%nat) (seq 0 (Nat.div2 (S k))).
Proof.
  assert (G : forall m k, (k <= m)%nat -> forall s, evens (map x (seq s k)) = map (fun j => x (s + 2 * j)%nat) (seq 0 (Nat.div2 (S k)))).
  { intros m. induction m as [|m IH]; intros [|[|j]] K s; try lia; try reflexivity.
    - cbn. do 2 f_equal. lia.
    - cbn [seq map evens]. rewrite IH by lia. change (Nat.div2 (S (S (S j)))) with (S (Nat.div2 (S j))). cbn [seq map].
      f_equal; [f_equal; lia|]. rewrite <- seq_shift, map_map. apply map_ext. intros q. f_equal. lia. }
  exact (G k k (le_n k)).
Qed.
Fixpoint halving (prev : R) (rates : list R) : Prop :=
  match rates with [] => True | r :: rs => (r = prev \/ r = prev / 2) /\ halving r rs end.

Lemma circle_nz f r : on_circle f r <> RtoC 0.
Proof. intros E. pose proof (circle_mod (2 * PI * f / r)) as M. unfold on_circle in E. rewrite E, Cmod_0 in M. lra. Qed.
Lemma circle_half f r : r <> 0 -> on_circle f (r / 2) = (on_circle f r * on_circle f r)%C.
Proof.
  intros N. unfold on_circle. replace (2 * PI * f / (r / 2)) with (2 * (2 * PI * f / r)) by (field; exact N).
  rewrite cos_2a, sin_2a. apply injective_projections; cbn; ring.
Qed.
Lemma powC_sq z k : powC (z * z)%C k = powC z (2 * k).
Proof.
  induction k as [|k IH]; [reflexivity|]. replace (2 * S k)%nat with (S (S (2 * k))) by lia. cbn [powC]. rewrite IH. ring.
Qed.
Lemma settles_half x A z : settles x (sinusoid A z) -> settles (fun j => x (0 + 2 * j)%nat) (sinusoid A (z * z)%C).
Proof.
  unfold settles. intros H. apply (is_lim_seq_ext (fun j => x (2 * j)%nat - sinusoid A z (2 * j)%nat)).
  - intros j. unfold sinusoid. rewrite powC_sq. reflexivity.
  - apply (is_lim_seq_subseq (fun k => x k - sinusoid A z k) 0 (fun j => (2 * j)%nat)); [|exact H].
    apply eventually_subseq. intros j. lia.
Qed.
Definition dstream (w : nat -> R) (k : nat) : R := w k - match k with O => 0 | S m => w m end.
Lemma dstream_prefix w k : difference (map w (seq 0 k)) = map (dstream w) (seq 0 k).
Proof.
  unfold difference. rewrite map_length, seq_length. apply map_ext_in. intros j J. apply in_seq in J. unfold dstream.
  assert (K : forall i, (i < k)%nat -> nth i (map w (seq 0 k)) 0 = w i).
  { intros i Hi. rewrite (nth_map_lt w _ i 0%nat) by (rewrite seq_length; exact Hi). rewrite seq_nth by exact Hi. reflexivity. }
  rewrite K by lia. destruct j; [reflexivity|]. rewrite K by lia. reflexivity.
Qed.
Lemma dstream_settles w A z : z <> RtoC 0 -> settles w (sinusoid A z) -> settles (dstream w) (sinusoid ((RtoC 1 - / z) * A)%C z).
Proof.
  intros N H. unfold settles in *. apply <- (is_lim_seq_incr_1 (fun k => dstream w k - sinusoid ((RtoC 1 - / z) * A)%C z k) 0).
  apply (is_lim_seq_ext (fun k => (w (S k) - sinusoid A z (S k)) - (w k - sinusoid A z k))).
  - intros k. unfold dstream, sinusoid. cbn [powC].
    assert (E : (((RtoC 1 - / z) * A) * (z * powC z k) = A * (z * powC z k) - A * powC z k)%C) by (field; exact N). rewrite E.
    unfold Re, Cminus, Cplus, Copp. cbn [fst snd]. ring.
  - replace 0 with (0 - 0) by ring. apply is_lim_seq_minus'; [|exact H]. apply (is_lim_seq_incr_1 (fun k => w k - sinusoid A z k) 0) in H. exact H.
Qed.

Lemma streams cs : forall prev rates (x : nat -> R), Forall stable cs -> length rates = length cs -> 0 < prev -> halving prev rates ->
  exists ys : list (nat -> R), length ys = length cs /\
    (forall k, exists ms : list nat,
      (forall j, (j < length cs)%nat -> INR k * nth j rates 0 <= INR (nth j ms 0%nat) * prev) /\
      bank prev cs rates (map x (seq 0 k)) (map (fun j => map (nth j ys (fun _ => 0)) (seq 0 (nth j ms 0%nat))) (seq 0 (length cs)))) /\
    forall f A, settles x (sinusoid A (on_circle f prev)) -> forall j h, channel_response cs rates j f h ->
      settles (nth j ys (fun _ => 0)) (sinusoid (h * A)%C (on_circle f (nth j rates 0))).
Proof.
  induction cs as [|c cs IH]; intros prev rates x ST LR P0 HV.
  - destruct rates; [|discriminate]. exists []. split; [reflexivity|]. split.
    + intros k. exists []. split; [intros j J; cbn in J; lia|exact I].
    + intros f A _ j h (h1 & r & _ & N & _). destruct j; discriminate.
  - destruct rates as [|r rates]; [discriminate|]. injection LR as LR. destruct HV as [HR HV]. inversion ST as [|? ? SC ST']; subst.
    set (x' := if Rle_dec prev r then x else fun j => x (0 + 2 * j)%nat).
    destruct (scalar_stream c x' (proj1 SC)) as (w & W).
    assert (R0 : 0 < r) by (destruct HR; lra).
    destruct (IH r rates w ST' LR R0 HV) as (ys & LY & B & SE). exists (dstream w :: ys). split; [cbn; congruence|]. split.
    + intros k. set (k' := if Rle_dec prev r then k else Nat.div2 (Datatypes.S k)). destruct (B k') as (ms & M & BK). exists (k' :: ms).
      assert (KK : INR k * r <= INR k' * prev).
      { unfold k'. destruct (Rle_dec prev r) as [L|L]; [destruct HR; nra|]. assert (r = prev / 2) by (destruct HR; lra). subst r.
        assert (INR k <= 2 * INR (Nat.div2 (Datatypes.S k))).
        { replace (2 * INR (Nat.div2 (Datatypes.S k))) with (INR (2 * Nat.div2 (Datatypes.S k))) by (rewrite mult_INR; cbn; ring). apply le_INR.
          pose proof (Nat.div2_odd (Datatypes.S k)) as D. destruct (Nat.odd (Datatypes.S k)); cbn [Nat.b2n] in D; lia. }
        nra. }
      split.
      * intros [|j] J; cbn [nth]; [exact KK|]. cbn in J. specialize (M j ltac:(lia)).
        assert (Q : INR k * nth j rates 0 * r <= INR (nth j ms 0%nat) * prev * r).
        { apply Rle_trans with (INR k' * nth j rates 0 * prev); [|nra].
          assert (0 <= nth j rates 0).
          { assert (PR : forall rs q, 0 < q -> halving q rs -> forall i, (i < length rs)%nat -> 0 <= nth i rs 0).
            { induction rs as [|a rs IHr]; intros q Q H i I; [cbn in I; lia|]. destruct H as [Ha H]. assert (0 < a) by (destruct Ha; lra).
              destruct i; cbn [nth]; [lra|]. apply (IHr a); [assumption|exact H|cbn in I; lia]. }
            apply (PR rates r R0 HV). lia. }
          nra. }
        apply Rmult_le_reg_r in Q; [exact Q|exact R0].
      * cbn [length seq map bank nth]. exists (map w (seq 0 k')). split; [|split; [symmetry; apply dstream_prefix|]].
        -- specialize (W k'). unfold x', k' in *. destruct (Rle_dec prev r); [exact W|]. rewrite evens_seq. exact W.
        -- rewrite <- seq_shift, map_map. exact BK.
    + intros f A SX j h CH.
      assert (SX' : settles x' (sinusoid A (on_circle f r))).
      { unfold x'. destruct (Rle_dec prev r) as [L|L].
        - replace r with prev by (destruct HR; lra). exact SX.
        - replace r with (prev / 2) by (destruct HR; lra). rewrite circle_half by lra. now apply settles_half. }
      assert (SW : forall h1, has_value c (on_circle f r) h1 -> settles w (sinusoid (h1 * A)%C (on_circle f r))).
      { intros h1 V. apply (solves_settles c x' w (sinusoid A (on_circle f r)) _ SC); [now apply prefixes_solve| |exact SX'].
        apply sinusoid_solves; [apply circle_nz|exact V]. }
      destruct CH as (h0 & r' & RS & NR & ->). destruct j as [|j].
      * cbn [firstn] in RS. cbn [nth_error] in NR. injection NR as <-. cbn [response] in RS. destruct RS as (h1 & h2 & V & -> & ->). cbn [nth].
        replace (h1 * RtoC 1 * (RtoC 1 - / on_circle f r) * A)%C with ((RtoC 1 - / on_circle f r) * (h1 * A))%C by ring.
        apply dstream_settles; [apply circle_nz|now apply SW].
      * cbn [nth_error] in NR. change (firstn (S (S j)) (c :: cs)) with (c :: firstn (S j) cs) in RS.
        change (firstn (S (S j)) (r :: rates)) with (r :: firstn (S j) rates) in RS.
        cbn [response] in RS. destruct RS as (h1 & h2 & V & RS & ->). cbn [nth].
        replace (h1 * h2 * (RtoC 1 - / on_circle f r') * A)%C with (h2 * (RtoC 1 - / on_circle f r') * (h1 * A))%C by ring.
        apply (SE f (h1 * A)%C (SW h1 V) j). exists h2, r'. auto.
Qed.
Lemma bank_unique cs : forall prev rates x o o', Forall stable cs -> bank prev cs rates x o -> bank prev cs rates x o' -> o = o'.
Proof.
  induction cs as [|c cs IH]; intros prev rates x o o' ST H H'; destruct rates as [|r rates], o as [|y o], o' as [|y' o']; cbn in H, H'; try tauto.
  inversion ST as [|? ? SC ST']; subst. destruct H as (w & F & -> & H), H' as (w' & F' & -> & H').
  assert (w = w') by exact (C21_equation_determines_output R 0 1 Rplus Rmult Rminus Ropp Rdiv Rinv Rfield c _ w w' (proj1 SC) F F'). subst w'.
  f_equal. eapply IH; eassumption.
Qed.

(* ---- Init ---- *)
Lemma resonators_len z : forall ps rs cs, resonators z ps rs cs -> length rs = length ps /\ length cs = length ps /\ Forall stable cs.
Proof.
  induction ps as [|p ps IH]; intros [|r rs] [|c cs] H; cbn in H; try tauto; [repeat split; constructor|].
  destruct H as (_ & _ & S & H). destruct (IH rs cs H) as (A & B & D). cbn. repeat split; [congruence|congruence|]. now constructor.
Qed.
Lemma rates_halving allow first m q : forall ps rs rate, stage_rates allow first m q rate ps rs -> halving rate rs.
Proof.
  revert first. intros first ps. revert first. induction ps as [|p ps IH]; intros first [|r rs] rate H; cbn in H; try tauto.
  destruct H as (H1 & H2 & H3). split; [|exact (IH _ _ _ H3)].
  assert (D : {allow = true /\ first = false /\ m * p < rate /\ q <= rate / 2} + {~ (allow = true /\ first = false /\ m * p < rate /\ q <= rate / 2)}).
  { destruct allow; [|right; intros (Q & _); discriminate]. destruct first; [right; intros (_ & Q & _); discriminate|].
    destruct (Rlt_dec (m * p) rate); [|right; tauto]. destruct (Rle_dec q (rate / 2)); [left; auto|right; tauto]. }
  destruct D as [D|D]; [right; now apply H1|left; now apply H2].
Qed.
Lemma halving_falling rs : forall prev, 0 < prev -> halving prev rs -> falling prev rs.
Proof. induction rs as [|r rs IH]; intros prev P H; [exact I|]. destruct H as [R H]. split; [destruct R; lra|]. apply IH; [destruct R; lra|exact H]. Qed.

Definition with_lowest (p : params) (m : R) : params :=
  {| highest_pole_frequency := highest_pole_frequency p; max_pole_nyquist_fraction := max_pole_nyquist_fraction p; step_erbs := step_erbs p;
     max_samples_per_cycle := max_samples_per_cycle p; min_sample_rate := min_sample_rate p; pole_zeta := pole_zeta p; min_pole_frequency := m;
     use_all_channels := use_all_channels p; first_channel := first_channel p; skip_every_n := skip_every_n p; max_channels := max_channels p |}.

Definition start : design := {| d_coeffs := [identity_coeffs]; d_rates := []; d_peaks := []; d_filters := []; d_diffs := []; d_decimators := [] |}.
Lemma start_inv n : Inv n [] start.
Proof. constructor; cbn; try reflexivity; try constructor. intros k K. lia. Qed.

Record Built (p : params) (allow : bool) (n : nat) (rate : R) (fb : filterbank) (poles : list R) : Prop := {
  B_valid : valid_parameters p allow rate;
  B_n : (0 < n)%nat;
  B_mics : fb_mics fb = n;
  B_poles : erb_scale (min_pole_frequency p) (step_erbs p) (Rmin (highest_pole_frequency p) (max_pole_nyquist_fraction p * rate / 2)) poles;
  B_nonempty : poles <> [];
  B_bandwidths : fb_bandwidths fb = map erb poles;
  B_rates : stage_rates allow true (max_samples_per_cycle p) (min_sample_rate p) rate poles (fb_rates fb);
  B_resonators : resonators (pole_zeta p) poles (fb_rates fb) (fb_coeffs fb);
  B_peaks : length (fb_peaks fb) = length poles;
  B_unit : forall k, (k < length poles)%nat -> unit_peak (fb_coeffs fb) (fb_rates fb) k (nth k (fb_peaks fb) 0);
  B_filters : Forall2 (fun c f => binit n c = Ok f) (fb_coeffs fb) (fb_filters fb);
  B_diffs : fb_diffs fb = repeat (zero_tap n) (length poles);
  B_decimators : fb_decimators fb = repeat false (drops rate (fb_rates fb));
  B_exposed : handle_channel_selection p (length poles) = Ok (fb_exposed fb);
  B_params : fb_params fb = p /\ fb_allow fb = allow;
  B_clear : Forall good (fb_coeffs fb) }.

Lemma init_built p allow n rate fb : init (construct p allow) n rate = Ok fb -> clear_numerators (fb_coeffs fb) -> exists poles, Built p allow n rate fb poles.
Proof.
  unfold init. cbn [construct fb_params fb_allow fb_coeffs]. intros H CN. destruct (Nat.ltb_spec 0 n) as [N0|]; [|discriminate]. cbn [oguard] in H.
  pose proof (check_inv _ _ _ _ _ H) as V. rewrite check_ok in H by exact V. pose proof V as (V1 & V2 & V3 & V4 & V5 & V6 & V7 & V8).
  destruct (poles_ok p rate (proj1 V4) V6) as (poles & EP & ES). rewrite EP in H. cbn [obind] in H. fold start in H.
  destruct (design_stages p allow n 0 rate poles start) as [d| |] eqn:ED; cbn [obind] in H; try discriminate.
  destruct (handle_channel_selection p (length poles)) as [ex| |] eqn:EH; cbn [obind] in H; try discriminate. injection H as <-. cbn [fb_coeffs] in CN.
  assert (NE : poles <> []).
  { intros ->. cbn [design_stages] in ED. injection ED as <-. cbn [start d_coeffs] in CN. inversion CN as [|? ? Q _]; subst. cbn in Q. rewrite Rabs_R0 in Q. lra. }
  destruct (erb_range _ _ (proj1 V4) V6 _ _ ES) as [FR SS].
  assert (HF : highest_frequency p rate < rate / 2).
  { destruct poles as [|q poles]; [congruence|]. destruct ES as (-> & _). cbn [design_stages] in ED. unfold design_stage in ED. cbv zeta in ED.
    unfold decimate_first in ED. cbn [Nat.ltb Nat.leb andb] in ED. unfold resonator, bilinear_transform in ED.
    destruct (Rltb 0 rate); cbn [ocheck obind] in ED; [|discriminate]. destruct (Rleb 0 _); cbn [ocheck obind] in ED; [|discriminate].
    destruct (Rltb_spec (highest_frequency p rate) (rate / 2)); [assumption|discriminate]. }
  assert (FP : Forall (fun q => 0 < q < rate / 2) poles) by (eapply Forall_impl; [|exact FR]; cbn; intros; lra).
  destruct (stages_ok p allow n N0 V5 V8 poles 0 rate start [] d (start_inv n) eq_refl FP SS ED) as (cs & rs & I & ER & SR & RS & DD).
  { intros B. exact (bad_not_clear _ B CN). }
  cbn [app start d_rates d_decimators] in *. destruct (resonators_len _ _ _ _ RS) as (L1 & L2 & _).
  assert (EC : d_coeffs d = cs) by (rewrite (I_coeffs _ _ _ I); destruct cs; [destruct poles; [congruence|discriminate]|reflexivity]).
  exists poles. constructor; cbn [fb_mics fb_bandwidths fb_rates fb_coeffs fb_peaks fb_filters fb_diffs fb_decimators fb_exposed fb_params fb_allow]; try assumption; try reflexivity.
  - apply map_ext. exact bandwidth_erb.
  - rewrite ER. exact SR.
  - rewrite ER, EC. exact RS.
  - rewrite (I_peaks _ _ _ I). exact L2.
  - intros k K. rewrite EC. apply (I_unit _ _ _ I). lia.
  - rewrite EC. exact (I_filters _ _ _ I).
  - rewrite (I_diffs _ _ _ I), L2. reflexivity.
  - rewrite ER. exact DD.
  - auto.
  - rewrite EC. exact (I_good _ _ _ I).
Qed.

Lemma erb_firstn lo s : 0 < s -> 0 < lo -> forall fs f k, erb_scale lo s f fs -> (k < length fs)%nat -> erb_scale (nth k fs 0) s f (firstn k fs) /\ lo < nth k fs 0.
Proof.
  intros S0 L0. induction fs as [|g fs IH]; intros f k H K; [cbn in K; lia|]. destruct H as (-> & L & H). destruct k as [|k].
  - cbn. lra.
  - cbn in K. destruct (IH _ k H ltac:(lia)) as (A & B). cbn [nth firstn erb_scale].
    split; [|exact B]. split; [reflexivity|]. split; [|exact A].
    destruct (erb_range lo s S0 L0 _ _ H) as [FR _]. rewrite Forall_forall in FR. specialize (FR _ (nth_In fs 0 (n := k) ltac:(lia))). cbv beta in FR.
    assert (0 < s * erb f) by (apply Rmult_lt_0_compat; [exact S0|unfold erb; lra]). lra.
Qed.
Lemma lowest_stages p m allow n : forall poles stage rate d, design_stages (with_lowest p m) allow n stage rate poles d = design_stages p allow n stage rate poles d.
Proof.
  induction poles as [|q poles IH]; intros stage rate d; [reflexivity|]. cbn [design_stages].
  change (design_stage (with_lowest p m) allow n stage rate q d) with (design_stage p allow n stage rate q d).
  destruct (design_stage p allow n stage rate q d) as [[d1 r1]| |]; cbn [obind]; [apply IH|reflexivity|reflexivity].
Qed.
Lemma init_total p allow n rate : valid_parameters p allow rate -> (0 < n)%nat -> use_all_channels p = true ->
  Rmin (highest_pole_frequency p) (max_pole_nyquist_fraction p * rate / 2) < rate / 2 ->
  (exists fb, init (construct p allow) n rate = Ok fb) \/
  exists m fb, min_pole_frequency p <= m /\ init (construct (with_lowest p m) allow) n rate = Ok fb /\ ~ clear_numerators (fb_coeffs fb).
Proof.
  intros V N0 U HF. pose proof V as (V1 & V2 & V3 & V4 & V5 & V6 & V7 & V8).
  destruct (poles_ok p rate (proj1 V4) V6) as (poles & EP & ES). destruct (erb_range _ _ (proj1 V4) V6 _ _ ES) as [FR SS].
  change (highest_frequency p rate < rate / 2) in HF.
  assert (FP : Forall (fun q => 0 < q < rate / 2) poles) by (eapply Forall_impl; [|exact FR]; cbn; intros; lra).
  destruct (stages_total p allow n N0 V5 V8 poles 0 rate start [] (start_inv n) eq_refl (Forall_nil _) FP SS) as [(d & E)|(k & d & K & E & NC)].
  - left. unfold init. cbn [construct fb_params fb_allow fb_coeffs]. destruct (Nat.ltb_spec 0 n); [|lia]. cbn [oguard].
    rewrite check_ok by exact V. rewrite EP. cbn [obind]. fold start. rewrite E. cbn [obind]. unfold handle_channel_selection. rewrite U. cbn [obind]. eauto.
  - right. exists (nth k poles 0). destruct (erb_firstn _ _ (proj1 V4) V6 _ _ k ES ltac:(lia)) as [ES' LM].
    set (p' := with_lowest p (nth k poles 0)).
    assert (V' : valid_parameters p' allow rate) by (unfold p', valid_parameters; cbn; repeat (split; [assumption|]); split; [lra|]; split; assumption).
    destruct (poles_ok p' rate (proj1 V4)) as (poles' & EP' & ES2); [cbn; lra|].
    assert (poles' = firstn k poles) by (eapply erb_det; [exact ES2|exact ES']). subst poles'.
    assert (E' : design_stages p' allow n 0 rate (firstn k poles) start = Ok d) by (unfold p'; rewrite lowest_stages; exact E).
    unfold init. cbn [construct fb_params fb_allow fb_coeffs]. destruct (Nat.ltb_spec 0 n); [|lia]. cbn [oguard].
    rewrite check_ok by exact V'. rewrite EP'. cbn [obind]. fold start. rewrite E'. cbn [obind]. unfold handle_channel_selection.
    change (use_all_channels p') with (use_all_channels p). rewrite U. cbn [obind].
    eexists. split; [lra|]. split; [reflexivity|]. exact NC.
Qed.

(* ---- Init again ---- *)
Lemma response_short cs rates f acc : Forall good cs -> (length rates < length cs)%nat -> response_at cs rates f acc = Undef.
Proof.
  intros G. revert rates acc. induction G as [|c cs Gc _ IH]; intros [|r rates] acc L; cbn in L; try lia; cbn [response_at]; [reflexivity|].
  destruct (PeakProofs3.eval_ok c (2 * PI * f / r) (good_free c Gc)) as (h & E & _). rewrite E. cbn [obind]. apply IH. lia.
Qed.
Lemma grid_undef f left k a b c d : f (a + IZR k * b) = Undef -> grid_search f (S left) k a b c d = Undef.
Proof. intros H. cbn [grid_search]. now rewrite H. Qed.
Lemma init_again p allow n rate fb poles n' rate' : Built p allow n rate fb poles -> clear_numerators (fb_coeffs fb) -> (0 < n')%nat ->
  valid_parameters p allow rate' ->
  min_pole_frequency p < Rmin (highest_pole_frequency p) (max_pole_nyquist_fraction p * rate' / 2) < rate' / 2 -> init fb n' rate' = Undef.
Proof.
  intros B CN N0 V HF. pose proof V as (V1 & V2 & V3 & V4 & V5 & V6 & V7 & V8). destruct (B_params _ _ _ _ _ _ B) as [EPA EAL].
  unfold init. rewrite EPA, EAL. destruct (Nat.ltb_spec 0 n'); [|lia]. cbn [oguard]. rewrite check_ok by exact V.
  destruct (poles_ok p rate' (proj1 V4) V6) as (poles' & EP & ES). rewrite EP. cbn [obind].
  destruct poles' as [|q poles']; [cbn in ES; unfold highest_frequency in ES; lra|]. destruct ES as (-> & _).
  cbn [design_stages]. unfold design_stage. cbv zeta. unfold decimate_first. cbn [Nat.ltb Nat.leb andb d_rates d_coeffs app].
  change (min_pole_frequency p < highest_frequency p rate' < rate' / 2) in HF. set (f := highest_frequency p rate') in *.
  destruct (resonator_ok p V5 rate' f ltac:(lra)) as (E & G & CB). rewrite E. cbn [obind].
  set (c := stage_res p rate' f) in *. pose proof (B_clear _ _ _ _ _ _ B) as GC.
  destruct (resonators_len _ _ _ _ (B_resonators _ _ _ _ _ _ B)) as (_ & L2 & _). pose proof (B_nonempty _ _ _ _ _ _ B) as NE.
  rewrite append_clear.
  - cbn [obind]. unfold find_peak_by_bisection. rewrite Rltb_true by lra. cbn [ocheck]. rewrite grid_undef; [reflexivity|]. unfold gain_magnitude_hz.
    rewrite response_short; [reflexivity| |].
    + apply Forall_app. split; [exact GC|]. constructor; [exact G|constructor].
    + rewrite app_length, L2. cbn. destruct poles; [congruence|]. cbn. lia.
  - apply Forall_app. split; [eapply Forall_impl; [exact good_clear|exact GC]|]. constructor; [now apply good_clear|constructor].
  - apply Forall_app. split; [exact CN|]. constructor; [exact CB|constructor].
Qed.
