From Verif Require Import Common ListLemmas NthLemmas RealUtil BiquadModel DesignModel DesignSpec DesignProofs DesignProofs2 DesignProofs3 CascadeModel CascadeSpec CascadeProofs CascadeProofs2 ComplexModel ComplexProofs PoleZeroModel PoleZeroSpec PoleZeroProofs PoleZeroProofs7 PoleZeroProofs15 PoleZeroProofs18 PoleZeroProofs25 LadderModel MultiCrossModel MultiCrossSpec MultiCrossProofs MultiCrossProofs2.
From Coquelicot Require Import Complex.
Local Open Scope R_scope.

(* ---------- the gains of the bands telescope ---------- *)
Fixpoint rproduct (l : list R) : R := match l with [] => 1 | x :: r => x * rproduct r end.
Lemma rsum_app a b : rsum (a ++ b) = rsum a + rsum b.
Proof. induction a as [|x a IH]; cbn; [ring|rewrite IH; ring]. Qed.
Lemma rproduct_app a b : rproduct (a ++ b) = rproduct a * rproduct b.
Proof. induction a as [|x a IH]; cbn; [ring|rewrite IH; ring]. Qed.
Lemma firstn_snoc {A} (d : A) l i : (i < length l)%nat -> firstn (S i) l = firstn i l ++ [nth i l d].
Proof. revert i. induction l as [|x l IH]; intros [|i] H; cbn [firstn nth app length] in *; try lia; [reflexivity|]. f_equal. apply IH. lia. Qed.
Lemma telescope (ls hs : list R) n : length ls = n -> length hs = n -> (forall s, (s < n)%nat -> nth s ls 0 + nth s hs 0 = 1) ->
  rsum (map (fun b => (if (b <? n)%nat then nth b ls 0 else 1) * rproduct (firstn b hs)) (seq 0 (S n))) = 1.
Proof.
  intros L H E.
  assert (P : forall m, (m <= n)%nat -> rsum (map (fun b => (if (b <? n)%nat then nth b ls 0 else 1) * rproduct (firstn b hs)) (seq 0 m)) = 1 - rproduct (firstn m hs)).
  { induction m as [|m IH]; intros Hm; [cbn; ring|]. rewrite seq_S, map_app, rsum_app, IH by lia. cbn [map rsum Nat.add]. replace (m <? n)%nat with true by lia.
    rewrite (firstn_snoc 0 hs m) by lia. rewrite rproduct_app. cbn [rproduct]. specialize (E m ltac:(lia)). nra. }
  rewrite seq_S, map_app, rsum_app, P by lia. cbn [map rsum Nat.add]. replace (n <? n)%nat with false by lia. ring.
Qed.
Lemma Cmod_cproduct l : Cmod (cproduct l) = rproduct (map Cmod l).
Proof. induction l as [|x l IH]; cbn; [apply Cmod_1|]. now rewrite Cmod_mult, IH. Qed.
Lemma choose {A} (P : nat -> A -> Prop) (d : A) n : (forall s, (s < n)%nat -> exists x, P s x) -> exists l, length l = n /\ forall s, (s < n)%nat -> P s (nth s l d).
Proof.
  induction n as [|n IH]; intros H; [exists []; split; [reflexivity|lia]|]. destruct IH as (l & L & V); [intros s Hs; apply H; lia|]. destruct (H n ltac:(lia)) as [x X].
  exists (l ++ [x]). rewrite app_length. cbn [length]. split; [lia|]. intros s Hs. destruct (Nat.eq_dec s n) as [->|N].
  - rewrite app_nth2 by lia. rewrite L, Nat.sub_diag. exact X.
  - rewrite app_nth1 by lia. apply V. lia.
Qed.
Lemma nth_map_in {A B} (f : A -> B) l i da db : (i < length l)%nat -> nth i (map f l) db = f (nth i l da).
Proof. intros H. rewrite (nth_indep _ db (f da)) by (rewrite map_length; exact H). apply map_nth. Qed.

(* m is Cmod or its square *)
Lemma bands_sum (m : R -> R) nb d z : (forall x y, m (x * y) = m x * m y) -> m 1 = 1 -> (2 <= nb)%nat -> scaled_bank nb d -> length (lowpass_coeffs d) = (nb - 1)%nat -> length (highpass_coeffs d) = (nb - 1)%nat -> Cmod z = 1 ->
  (forall s, (s < nb - 1)%nat -> exists l h, cascade_value (nth s (lowpass_coeffs d) []) z l /\ cascade_value (nth s (highpass_coeffs d) []) z h /\ m (Cmod l) + m (Cmod h) = 1) ->
  exists hs, length hs = nb /\ (forall b, (b < nb)%nat -> band_value nb d b z (nth b hs (RtoC 0))) /\ rsum (map (fun h => m (Cmod h)) hs) = 1.
Proof.
  intros MM M1 HN (_ & _ & SA & LA) LL LH Z V.
  destruct (choose (fun s p => cascade_value (nth s (lowpass_coeffs d) []) z (fst p) /\ cascade_value (nth s (highpass_coeffs d) []) z (snd p) /\ m (Cmod (fst p)) + m (Cmod (snd p)) = 1) (RtoC 0, RtoC 0) (nb - 1)) as (ps & LP & VP).
  { intros s Hs. destruct (V s Hs) as (l & h & A). exists (l, h). exact A. }
  destruct (choose (fun s a => cascade_value (nth s (allpass_coeffs d) []) z a /\ Cmod a = 1) (RtoC 0) (nb - 2)) as (az & LZ & VA).
  { intros s Hs. rewrite Forall_forall in SA. assert (IN : In (nth s (allpass_coeffs d) []) (allpass_coeffs d)) by (apply nth_In; lia). destruct (SA _ IN) as (_ & _ & U). exact (U z Z). }
  set (val := fun b => Cmult (Cmult (if (b <? nb - 1)%nat then fst (nth b ps (RtoC 0, RtoC 0)) else RtoC 1) (cproduct (firstn b (map snd ps)))) (if (b <? nb - 2)%nat then nth b az (RtoC 0) else RtoC 1)).
  exists (map val (seq 0 nb)). split; [now rewrite map_length, seq_length|]. split.
  - intros b Hb. rewrite (nth_map_in val (seq 0 nb) b 0%nat) by (now rewrite seq_length). rewrite seq_nth by exact Hb. cbn [Nat.add]. unfold val, band_value. do 3 eexists. split; [|split; [|split; [|split; [|reflexivity]]]].
    + destruct (Nat.ltb_spec b (nb - 1)) as [B|B]; [|reflexivity]. now apply VP.
    + rewrite firstn_length, map_length. lia.
    + intros s Hs. rewrite nth_firstn by exact Hs. rewrite (nth_map_in snd ps s (RtoC 0, RtoC 0)) by lia. apply VP. lia.
    + destruct (Nat.ltb_spec b (nb - 2)) as [B|B]; [|reflexivity]. now apply VA.
  - rewrite map_map. rewrite <- (telescope (map (fun p => m (Cmod (fst p))) ps) (map (fun p => m (Cmod (snd p))) ps) (nb - 1)); [|now rewrite map_length|now rewrite map_length|].
    + replace (S (nb - 1)) with nb by lia. f_equal. apply map_ext_in. intros b Hb. apply in_seq in Hb. unfold val. rewrite !Cmod_mult, !MM, Cmod_cproduct.
      replace (m (Cmod (if (b <? nb - 2)%nat then nth b az (RtoC 0) else RtoC 1))) with 1 by (destruct (Nat.ltb_spec b (nb - 2)) as [B|B]; [now rewrite (proj2 (VA b B))|now rewrite Cmod_1]).
      rewrite Rmult_1_r. f_equal.
      * destruct (Nat.ltb_spec b (nb - 1)) as [B|B]; [|now rewrite Cmod_1]. now rewrite (nth_map_in (fun p => m (Cmod (fst p))) ps b (RtoC 0, RtoC 0)) by lia.
      * rewrite firstn_map, map_map. rewrite firstn_map. generalize (firstn b ps). intros q. induction q as [|p q IH]; cbn [map rproduct]; [exact M1|]. now rewrite MM, IH.
    + intros s Hs. rewrite (nth_map_in (fun p => m (Cmod (fst p))) ps s (RtoC 0, RtoC 0)), (nth_map_in (fun p => m (Cmod (snd p))) ps s (RtoC 0, RtoC 0)) by lia. now apply VP.
Qed.
Lemma circle_mod f fs : Cmod (on_circle f fs) = 1.
Proof. unfold on_circle, Cmod. cbn [fst snd]. pose proof (sin2_cos2 (2 * PI * f / fs)) as E. unfold Rsqr in E. replace (_ + _) with 1 by (cbn [pow]; lra). apply sqrt_1. Qed.

(* ---------- the two types of crossovers ---------- *)
Lemma crossover_range type order f fs p : crossover type order f fs = Ok p -> 0 < f /\ f < fs / 2 /\ (0 < order)%Z.
Proof.
  unfold crossover. intros E. apply ocheck_ok in E as [A E]. apply ocheck_ok in E as [B E]. apply ocheck_ok in E as [D _].
  split; [destruct (Rltb_spec 0 f); [assumption|discriminate]|]. split; [destruct (Rltb_spec f (fs / 2)); [assumption|discriminate]|lia].
Qed.
Lemma design_crossovers type order nb fs freqs d s : design_bank type order nb fs freqs = Ok d -> (s < nb - 1)%nat ->
  crossover type order (nth s freqs 0) fs = Ok (nth s (lowpass_coeffs d) [], nth s (highpass_coeffs d) []).
Proof.
  intros E Hs. destruct (design_inv _ _ _ _ _ _ E) as (L & _ & _ & _ & lh & _ & _ & F & _ & _ & _ & _ & _ & _ & -> & ->).
  destruct (Forall2_nth _ _ _ 0 ([], []) F) as [LE NE]. specialize (NE s ltac:(lia)). cbv beta in NE. rewrite NE. f_equal.
  rewrite (nth_map_in fst lh s ([], [])), (nth_map_in snd lh s ([], [])) by lia. now destruct (nth s lh ([], [])).
Qed.
Lemma linkwitz_riley_mags n fs f g lo hi : (1 <= n)%nat -> (Z.of_nat n <= 50000)%Z -> fine_crossover n fs f -> crossover Linkwitz_Riley_crossover (2 * Z.of_nat n) f fs = Ok (lo, hi) -> - (fs / 2) <= g <= fs / 2 ->
  exists l h, cascade_value lo (on_circle g fs) l /\ cascade_value hi (on_circle g fs) h /\ Cmod l + Cmod h = 1.
Proof.
  intros HN HM (A & B & D) E G. destruct (crossover_range _ _ _ _ _ E) as (F1 & F2 & _).
  destruct (linkwitz_riley_ok n fs f HN HM F1 F2 A B D) as (lo' & hi' & E' & _ & _ & V & NL & h & NH & MH). rewrite E in E'. injection E' as <- <-.
  assert (Q : - (fs / 2) < g < fs / 2 \/ g = fs / 2 \/ g = - (fs / 2)) by lra. destruct Q as [Q|Q].
  - destruct (V g Q) as (hl & V1 & V2 & M). exists hl. eexists. split; [exact V1|]. split; [exact V2|]. rewrite Cmod_mult, Cmod_R, Rabs_pos_eq; [lra|]. rewrite pow_mult. apply pow_le, pow2_ge_0.
  - destruct (on_circle_nyquist fs ltac:(lra)) as [N1 N2]. assert (EQ : on_circle g fs = RtoC (-1)) by (destruct Q as [-> | ->]; assumption). rewrite EQ. exists (RtoC 0), h. rewrite Cmod_0, MH. split; [exact NL|]. split; [exact NH|ring].
Qed.
Lemma linkwitz_riley_bands n nb fs freqs d g : (1 <= n)%nat -> (Z.of_nat n <= 50000)%Z -> (2 <= nb)%nat -> Forall (fine_crossover n fs) freqs ->
  design_bank Linkwitz_Riley_crossover (2 * Z.of_nat n) nb fs freqs = Ok d -> all_scaled d -> - (fs / 2) <= g <= fs / 2 ->
  exists hs, length hs = nb /\ (forall b, (b < nb)%nat -> band_value nb d b (on_circle g fs) (nth b hs (RtoC 0))) /\ rsum (map Cmod hs) = 1.
Proof.
  intros H1 H2 HN HF E SC G. destruct (design_ok _ _ _ _ _ _ E SC) as [SB _]. destruct (design_inv _ _ _ _ _ _ E) as (L & _ & LL & LH & _).
  apply (bands_sum (fun x => x) nb d); auto; [apply circle_mod|]. intros s Hs.
  apply (linkwitz_riley_mags n fs (nth s freqs 0)); auto; [|now apply (design_crossovers _ _ nb _ freqs)]. rewrite Forall_forall in HF. apply HF, nth_In. lia.
Qed.
Lemma butterworth_bands n nb fs freqs d g : (1 <= n)%nat -> (Z.of_nat n <= 50000)%Z -> (2 <= nb)%nat ->
  design_bank Butterworth_crossover (Z.of_nat n) nb fs freqs = Ok d -> all_scaled d -> - (fs / 2) <= g <= fs / 2 ->
  exists hs, length hs = nb /\ (forall b, (b < nb)%nat -> band_value nb d b (on_circle g fs) (nth b hs (RtoC 0))) /\ rsum (map (fun h => (Cmod h) ^ 2) hs) = 1.
Proof.
  intros H1 H2 HN E SC G. destruct (design_ok _ _ _ _ _ _ E SC) as [SB _]. destruct (design_inv _ _ _ _ _ _ E) as (L & _ & LL & LH & _).
  apply (bands_sum (fun x => x ^ 2) nb d); auto; [intros; ring|ring|apply circle_mod|]. intros s Hs.
  pose proof (design_crossovers _ _ nb _ freqs d s E Hs) as X. destruct (crossover_range _ _ _ _ _ X) as (F1 & F2 & _).
  destruct (butterworth_crossover_power n fs _ H1 H2 F1 F2) as (lo & hi & E' & _ & _ & V). rewrite X in E'. injection E' as <- <-. destruct (V g G) as (hl & hh & A & B & M & _). exists hl, hh. auto.
Qed.

(* ---------- neighbouring bands ---------- *)
Lemma top_pair n nb fs freqs d g : (1 <= n)%nat -> (Z.of_nat n <= 50000)%Z -> (2 <= nb)%nat -> Forall (fine_crossover n fs) freqs ->
  design_bank Linkwitz_Riley_crossover (2 * Z.of_nat n) nb fs freqs = Ok d -> - (fs / 2) < g < fs / 2 ->
  exists h h', band_value nb d (nb - 2) (on_circle g fs) h /\ band_value nb d (nb - 1) (on_circle g fs) h' /\ aligned h h'.
Proof.
  intros H1 H2 HN HF E G. destruct (design_inv _ _ _ _ _ _ E) as (L & _ & LL & LH & _).
  assert (V : forall s, (s < nb - 1)%nat -> exists l h, cascade_value (nth s (lowpass_coeffs d) []) (on_circle g fs) l /\ cascade_value (nth s (highpass_coeffs d) []) (on_circle g fs) h /\ aligned l h).
  { intros s Hs. pose proof (design_crossovers _ _ nb _ freqs d s E Hs) as X. destruct (crossover_range _ _ _ _ _ X) as (F1 & F2 & _).
    assert (FF : fine_crossover n fs (nth s freqs 0)) by (rewrite Forall_forall in HF; apply HF, nth_In; lia). destruct FF as (A & B & D).
    destruct (linkwitz_riley_ok n fs _ H1 H2 F1 F2 A B D) as (lo' & hi' & E' & _ & _ & V & _). rewrite X in E'. injection E' as <- <-.
    destruct (V g G) as (hl & V1 & V2 & M). exists hl. eexists. split; [exact V1|]. split; [exact V2|]. apply aligned_scale. rewrite pow_mult. apply pow_le, pow2_ge_0. }
  destruct (choose (fun s h => cascade_value (nth s (highpass_coeffs d) []) (on_circle g fs) h) (RtoC 0) (nb - 2)) as (hs & LS & VS).
  { intros s Hs. destruct (V s ltac:(lia)) as (l & h & _ & A & _). eauto. }
  destruct (V (nb - 2)%nat ltac:(lia)) as (l & h & VL & VH & AL).
  exists (Cmult (Cmult l (cproduct hs)) (RtoC 1)), (Cmult (Cmult (RtoC 1) (cproduct (hs ++ [h]))) (RtoC 1)). split; [|split].
  - exists l, hs, (RtoC 1). replace (nb - 2 <? nb - 1)%nat with true by lia. replace (nb - 2 <? nb - 2)%nat with false by lia. auto 10.
  - exists (RtoC 1), (hs ++ [h]), (RtoC 1). replace (nb - 1 <? nb - 1)%nat with false by lia. replace (nb - 1 <? nb - 2)%nat with false by lia. split; [reflexivity|]. split; [rewrite app_length; cbn [length]; lia|]. split; [|auto].
    intros s Hs. destruct (Nat.eq_dec s (nb - 2)) as [->|N].
    + rewrite app_nth2 by lia. rewrite LS, Nat.sub_diag. exact VH.
    + rewrite app_nth1 by lia. apply VS. lia.
  - replace (cproduct (hs ++ [h])) with (Cmult (cproduct hs) h).
    + replace (Cmult (Cmult l (cproduct hs)) (RtoC 1)) with (Cmult (cproduct hs) l) by ring. replace (Cmult (Cmult (RtoC 1) (Cmult (cproduct hs) h)) (RtoC 1)) with (Cmult (cproduct hs) h) by ring. now apply aligned_mult.
    + clear. induction hs as [|x hs IH]; cbn [cproduct app]; [ring|]. rewrite <- IH. ring.
Qed.
Lemma lower_pairs type order nb fs freqs d l : design_bank type order nb fs freqs = Ok d -> all_scaled d -> (l < nb - 2)%nat ->
  exists h h', band_value nb d l (on_circle (nth l freqs 0) fs) h /\ band_value nb d (S l) (on_circle (nth l freqs 0) fs) h' /\ Cmod (Cplus h h') = Cmod h + Cmod h'.
Proof.
  intros E SC Hl. destruct (design_ok _ _ _ _ _ _ E SC) as [SB AL]. destruct (design_inv _ _ _ _ _ _ E) as (L & _ & LL & LH & _).
  destruct (AL l Hl) as (h & h' & A & B & D). exists h, h'. split; [apply band_value_iff; [lia|exact A]|]. split; [apply band_value_iff; [lia|exact B]|]. now apply aligned_sum.
Qed.
