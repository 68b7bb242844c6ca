From Verif Require Import Common ListLemmas NthLemmas RealUtil BiquadModel DesignModel DesignSpec DesignProofs DesignProofs2 DesignProofs3 CascadeModel CascadeSpec CascadeProofs CascadeProofs2 ComplexModel ComplexProofs PoleZeroModel PoleZeroSpec PoleZeroProofs PoleZeroProofs7 PoleZeroProofs18 LadderModel MultiCrossModel MultiCrossSpec MultiCrossProofs.
From Coquelicot Require Import Complex.
Local Open Scope R_scope.

Lemma identity_value cs z h : z <> RtoC 0 -> cascade_value (identity_coeffs :: cs) z h <-> cascade_value cs z h.
Proof.
  intros Z. cbn [cascade_value].
  assert (I : forall v, has_value identity_coeffs z v <-> v = RtoC 1).
  { intros v. unfold has_value, numerator, denominator. cbn [identity_coeffs b0 b1 b2 a0 a1 a2].
    set (d := Cplus _ _). assert (E : d = Cmult z z) by (unfold d; ring). rewrite E. assert (N : Cmult z z <> RtoC 0) by (now apply Cmult_neq). split.
    - intros [_ <-]. field. exact Z.
    - intros ->. split; [exact N|field; exact Z]. }
  split.
  - intros (h1 & h2 & A & B & ->). apply I in A. subst h1. now replace (Cmult (RtoC 1) h2) with h2 by ring.
  - intros A. exists (RtoC 1), h. split; [now apply I|]. split; [exact A|ring].
Qed.
Lemma scaled_appends cs l : cs <> [] -> Forall well_scaled cs -> Forall well_scaled l ->
  exists cs', appends tolerance cs l = Ok cs' /\ Forall well_scaled cs' /\ same_response (cs ++ l) cs' /\ cs' <> [].
Proof.
  intros HN HC HL. destruct (appends_of tolerance well_scaled) with (l := l) (cs := cs) as (cs' & A & B & C & D); auto.
  - intros c1 N1 F1. destruct (simplify_scaled c1 N1 F1) as (c2 & X1 & X2 & X3 & X4 & _). exists c2. auto.
  - exists cs'. split; [exact A|]. split; [exact B|]. split; [exact C|]. intros ->. cbn in D. lia.
Qed.
(* a cascade of all-pass sections as the bank stores them *)
Definition unit_cascade (cs : list (coeffs R)) : Prop :=
  cs <> [] /\ Forall well_scaled cs /\ forall z, Cmod z = 1 -> exists h, cascade_value cs z h /\ Cmod h = 1.
Lemma unit_identity : unit_cascade [identity_coeffs].
Proof.
  split; [discriminate|]. split; [constructor; [exact identity_well_scaled|constructor]|]. intros z Hz. exists (RtoC 1). split; [|apply Cmod_1].
  apply identity_value; [|reflexivity]. intros ->. rewrite Cmod_0 in Hz. lra.
Qed.
Lemma unit_not_0 z : Cmod z = 1 -> z <> RtoC 0.
Proof. intros H ->. rewrite Cmod_0 in H. lra. Qed.
Lemma append_unit cs c : unit_cascade cs -> well_scaled c -> (forall z, Cmod z = 1 -> exists h, has_value c z h /\ Cmod h = 1) ->
  exists cs', append_biquad tolerance cs c = Ok cs' /\ unit_cascade cs' /\ same_response (cs ++ [c]) cs'.
Proof.
  intros (N & W & U) WC UC. destruct (simplify_scaled (cs ++ [c])) as (cs' & E & W' & S & L & _).
  - destruct cs; discriminate.
  - apply Forall_app. split; [exact W|constructor; [exact WC|constructor]].
  - exists cs'. split; [exact E|]. split; [|exact S]. split; [intros ->; cbn in L; lia|]. split; [exact W'|]. intros z Hz.
    destruct (U z Hz) as (h & A & M). destruct (UC z Hz) as (h' & A' & M'). exists (Cmult h h'). split; [|rewrite Cmod_mult, M, M'; ring].
    apply S; [now apply unit_not_0|]. apply cascade_value_app. exists h, h'. split; [exact A|]. split; [|reflexivity]. exists h', (RtoC 1). split; [exact A'|]. split; [reflexivity|ring].
Qed.
Lemma simplify_unit cs : unit_cascade cs -> exists cs', simplify tolerance cs = Ok cs' /\ unit_cascade cs' /\ same_response cs cs'.
Proof.
  intros (N & W & U). destruct (simplify_scaled cs N W) as (cs' & E & W' & S & L & _). exists cs'. split; [exact E|]. split; [|exact S].
  split; [intros ->; cbn in L; lia|]. split; [exact W'|]. intros z Hz. destruct (U z Hz) as (h & A & M). exists h. split; [|exact M]. apply S; [now apply unit_not_0|exact A].
Qed.

(* ---------- the sections of a band ---------- *)
Definition scaled_bank (nb : nat) (d : bank) : Prop :=
  Forall (Forall well_scaled) (lowpass_coeffs d) /\ Forall (Forall well_scaled) (highpass_coeffs d) /\
  Forall unit_cascade (allpass_coeffs d) /\ length (allpass_coeffs d) = (nb - 2)%nat.
Lemma nth_Forall' {A} (P : A -> Prop) l i d : Forall P l -> P d -> P (nth i l d).
Proof. intros H HD. revert i. induction H as [|x l Hx _ IH]; intros [|i]; cbn [nth]; auto. Qed.
Lemma concat_firstn_Forall {A} (P : A -> Prop) l b : Forall (Forall P) l -> Forall P (concat (firstn b l)).
Proof. intros H. revert b. induction H as [|x l Hx _ IH]; intros [|b]; cbn [firstn concat]; auto. apply Forall_app. auto. Qed.
Lemma sections_scaled nb d b : scaled_bank nb d -> Forall well_scaled (band_sections nb d b).
Proof.
  intros (L & H & A & LA). unfold band_sections. repeat (apply Forall_app; split).
  - destruct (b <? _)%nat; [|constructor]. apply nth_Forall'; [exact L|constructor].
  - now apply concat_firstn_Forall.
  - destruct (b <? _)%nat; [|constructor]. apply nth_Forall'; [|constructor]. revert A. apply Forall_impl. intros cs (_ & W & _). exact W.
Qed.
Lemma band_coefficients_ok nb d b : scaled_bank nb d -> exists cs, band_coefficients nb d b = Ok cs /\ Forall well_scaled cs /\
  forall z h, z <> RtoC 0 -> cascade_value cs z h <-> cascade_value (band_sections nb d b) z h.
Proof.
  intros S. destruct (scaled_appends [identity_coeffs] (band_sections nb d b)) as (cs & E & W & R & _).
  - discriminate.
  - constructor; [exact identity_well_scaled|constructor].
  - now apply sections_scaled.
  - exists cs. split; [exact E|]. split; [exact W|]. intros z h Z. rewrite <- (R z h Z). cbn [app]. now apply identity_value.
Qed.
Lemma cascade_concat css z : forall h, cascade_value (concat css) z h <-> exists hs, length hs = length css /\ (forall s, (s < length css)%nat -> cascade_value (nth s css []) z (nth s hs (RtoC 0))) /\ h = cproduct hs.
Proof.
  induction css as [|cs css IH]; intros h; cbn [concat].
  - cbn [cascade_value length]. split; [intros ->; exists []; repeat split; intros; lia|]. intros (hs & L & _ & ->). destruct hs; [reflexivity|discriminate].
  - rewrite cascade_value_app. split.
    + intros (h1 & h2 & A & B & ->). apply IH in B as (hs & L & V & ->). exists (h1 :: hs). cbn [length]. split; [lia|]. split; [|reflexivity]. intros [|s] Hs; cbn [nth]; [exact A|apply V; lia].
    + intros (hs & L & V & ->). destruct hs as [|h1 hs]; [discriminate|]. cbn [length] in *. exists h1, (cproduct hs). split; [exact (V 0%nat ltac:(lia))|]. split; [|reflexivity]. apply IH. exists hs. split; [lia|]. split; [|reflexivity]. intros s Hs. exact (V (S s) ltac:(lia)).
Qed.
Lemma band_value_iff nb d b z h : (b <= length (highpass_coeffs d))%nat -> band_value nb d b z h <-> cascade_value (band_sections nb d b) z h.
Proof.
  intros HB. unfold band_value, band_sections. rewrite cascade_value_app. setoid_rewrite cascade_value_app.
  assert (LF : length (firstn b (highpass_coeffs d)) = b) by (rewrite firstn_length; lia).
  assert (NF : forall s, (s < b)%nat -> nth s (firstn b (highpass_coeffs d)) [] = nth s (highpass_coeffs d) []) by (intros s Hs; now apply nth_firstn).
  split.
  - intros (l & hs & a & A & L & V & B & ->). exists l, (Cmult (cproduct hs) a). split; [|split; [|ring]].
    + destruct (b <? nb - 1)%nat; [exact A|]. exact A.
    + exists (cproduct hs), a. split; [|split; [|reflexivity]].
      * apply cascade_concat. exists hs. rewrite LF. split; [exact L|]. split; [|reflexivity]. intros s Hs. rewrite NF by exact Hs. now apply V.
      * destruct (b <? nb - 2)%nat; [exact B|]. exact B.
  - intros (l & h2 & A & (hc & a & B & D & ->) & ->). apply cascade_concat in B as (hs & L & V & ->). rewrite LF in *. exists l, hs, a. repeat split; auto.
    + destruct (b <? nb - 1)%nat; [exact A|]. exact A.
    + intros s Hs. specialize (V s Hs). now rewrite NF in V by exact Hs.
    + destruct (b <? nb - 2)%nat; [exact D|]. exact D.
    + ring.
Qed.

(* ---------- one correction ---------- *)
Lemma nth_splice_same {A} (l : list A) i x d : (i < length l)%nat -> nth i (splice i [x] l) d = x.
Proof. intros H. unfold splice. rewrite app_nth2; rewrite firstn_length, Nat.min_l by lia; [|lia]. rewrite Nat.sub_diag. reflexivity. Qed.
Lemma nth_splice_other {A} (l : list A) i x d j : (i < length l)%nat -> j <> i -> nth j (splice i [x] l) d = nth j l d.
Proof.
  intros H N. revert i j H N. induction l as [|y l IH]; intros i j H N; cbn [length] in *; [lia|]. unfold splice in *. destruct i as [|i]; destruct j as [|j]; cbn [firstn skipn app length Nat.add nth]; try lia; try reflexivity.
  apply IH; lia.
Qed.
Lemma splice_one_length {A} (l : list A) i x : (i < length l)%nat -> length (splice i [x] l) = length l.
Proof. intros H. unfold splice. rewrite !app_length, firstn_length, skipn_length. cbn [length]. lia. Qed.
Lemma splice_Forall {A} (P : A -> Prop) (l : list A) i x : Forall P l -> P x -> Forall P (splice i [x] l).
Proof.
  intros H HX. unfold splice. apply Forall_app. split; [|apply Forall_app; split; [now constructor|]]; apply Forall_forall; intros y Hy; rewrite Forall_forall in H; apply H.
  - rewrite <- (firstn_skipn i l). apply in_app_iff. now left.
  - rewrite <- (firstn_skipn (i + length [x]) l). apply in_app_iff. now right.
Qed.
Lemma correct_ok nb fs freqs d l d' : scaled_bank nb d -> (l < nb - 2)%nat -> correct nb fs freqs d l = Ok d' -> Forall well_scaled (appended d') ->
  scaled_bank nb d' /\ lowpass_coeffs d' = lowpass_coeffs d /\ highpass_coeffs d' = highpass_coeffs d /\ (exists c, appended d' = appended d ++ [c]) /\
  (forall b, b <> l -> band_sections nb d' b = band_sections nb d b) /\
  exists h h', cascade_value (band_sections nb d' l) (on_circle (nth l freqs 0) fs) h /\
    cascade_value (band_sections nb d' (S l)) (on_circle (nth l freqs 0) fs) h' /\ aligned h h'.
Proof.
  intros SB Hl E WA. pose proof SB as (SL & SH & SA & LA). set (f := nth l freqs 0) in *. unfold correct in E. cbv zeta in E. fold f in E.
  destruct (band_coefficients_ok nb d l SB) as (cs & E1 & _ & V1). destruct (band_coefficients_ok nb d (S l) SB) as (cs' & E2 & _ & V2).
  rewrite E1, E2 in E. cbn [obind] in E.
  apply obind_inv in E as (p & P1 & E). apply obind_inv in E as (p' & P2 & E). apply obind_inv in E as (c & EC & E). apply obind_inv in E as (ap & EA & E). injection E as <-. cbn [appended] in WA.
  apply phase_response_ok in P1 as (h & H1 & ->). apply phase_response_ok in P2 as (h' & H2 & ->).
  assert (Z0 : on_circle f fs <> RtoC 0) by apply circle_neq_0. apply V1 in H1; [|exact Z0]. apply V2 in H2; [|exact Z0].
  destruct (allpass_minimal_inv fs f _ c EC) as (_ & UC & VC). 
  assert (UL : unit_cascade (nth l (allpass_coeffs d) [])) by (rewrite Forall_forall in SA; apply SA, nth_In; lia).
  assert (WC : well_scaled c) by (apply Forall_app in WA as [_ X]; exact (Forall_inv X)).
  destruct (append_unit _ c UL WC UC) as (ap' & EA' & UA & RA). rewrite EA in EA'. injection EA' as <-.
  assert (OTHER : forall b, b <> l -> band_sections nb {| lowpass_coeffs := lowpass_coeffs d; highpass_coeffs := highpass_coeffs d; allpass_coeffs := splice l [ap] (allpass_coeffs d); appended := appended d ++ [c] |} b = band_sections nb d b).
  { intros b Hb. unfold band_sections. cbn [lowpass_coeffs highpass_coeffs allpass_coeffs]. rewrite nth_splice_other by lia. reflexivity. }
  split; [|split; [reflexivity|split; [reflexivity|split; [exists c; reflexivity|split; [exact OTHER|]]]]].
  - repeat split; cbn [lowpass_coeffs highpass_coeffs allpass_coeffs]; auto; [now apply splice_Forall|rewrite splice_one_length; lia].
  - exists (Cmult h (cis (carg h' - carg h))), h'. split; [|split; [rewrite OTHER by lia; exact H2|apply aligned_rotate]].
    assert (R : same_response (band_sections nb d l ++ [c]) (band_sections nb {| lowpass_coeffs := lowpass_coeffs d; highpass_coeffs := highpass_coeffs d; allpass_coeffs := splice l [ap] (allpass_coeffs d); appended := appended d ++ [c] |} l)).
    { unfold band_sections. cbn [lowpass_coeffs highpass_coeffs allpass_coeffs]. rewrite nth_splice_same by lia. replace (l <? nb - 2)%nat with true by lia.
      intros z v Z. rewrite <- !app_assoc. rewrite !(cascade_value_app (if (l <? nb - 1)%nat then _ else _)). setoid_rewrite (cascade_value_app (concat _)). setoid_rewrite (RA z _ Z). reflexivity. }
    apply (R _ _ Z0). apply cascade_value_app. exists h, (cis (carg h' - carg h)). split; [exact H1|]. split; [|reflexivity]. exists (cis (carg h' - carg h)), (RtoC 1). split; [|split; [reflexivity|ring]].
    unfold cis in *. destruct (wrap_trig (carg h' - carg h)) as [<- <-]. exact VC.
Qed.

(* ---------- all corrections ---------- *)
Lemma correct_all_app nb fs freqs l1 : forall d l2, correct_all nb fs freqs d (l1 ++ l2) = obind (correct_all nb fs freqs d l1) (fun d' => correct_all nb fs freqs d' l2).
Proof. induction l1 as [|x l1 IH]; intros d l2; cbn [app correct_all obind]; [reflexivity|]. destruct (correct nb fs freqs d x); cbn [obind]; auto. Qed.
Lemma correct_appended nb fs freqs d l d' : correct nb fs freqs d l = Ok d' -> exists c, appended d' = appended d ++ [c].
Proof. unfold correct. cbv zeta. intros E. do 4 (apply obind_inv in E as (? & _ & E)). injection E as <-. cbn [appended]. eauto. Qed.
Lemma correct_all_appended nb fs freqs ls : forall d d', correct_all nb fs freqs d ls = Ok d' -> exists r, appended d' = appended d ++ r.
Proof.
  induction ls as [|l ls IH]; intros d d' E; cbn [correct_all] in E.
  - injection E as <-. exists []. now rewrite app_nil_r.
  - apply obind_inv in E as (d1 & E1 & E). apply correct_appended in E1 as [c E1]. apply IH in E as [r ->]. rewrite E1, <- app_assoc. eauto.
Qed.
Lemma correct_all_ok nb fs freqs ls : forall d d', scaled_bank nb d -> Forall (fun l => (l < nb - 2)%nat) ls -> correct_all nb fs freqs d ls = Ok d' -> Forall well_scaled (appended d') ->
  scaled_bank nb d' /\ lowpass_coeffs d' = lowpass_coeffs d /\ highpass_coeffs d' = highpass_coeffs d.
Proof.
  induction ls as [|l ls IH]; intros d d' SB HL E W; cbn [correct_all] in E.
  - injection E as <-. auto.
  - apply obind_inv in E as (d1 & E1 & E). destruct (correct_all_appended nb fs freqs ls d1 d' E) as [r A].
    assert (W1 : Forall well_scaled (appended d1)) by (rewrite A in W; apply Forall_app in W; tauto).
    destruct (correct_ok nb fs freqs d l d1 SB (Forall_inv HL) E1 W1) as (S1 & L1 & H1 & _).
    destruct (IH d1 d' S1 (Forall_inv_tail HL) E W) as (S2 & L2 & H2). split; [exact S2|]. split; congruence.
Qed.
(* the last round aligns every pair of bands it visits *)
Lemma last_round nb fs freqs m : forall d d', scaled_bank nb d -> (m <= nb - 2)%nat -> correct_all nb fs freqs d (rev (seq 0 m)) = Ok d' -> Forall well_scaled (appended d') ->
  (forall b, (m <= b)%nat -> band_sections nb d' b = band_sections nb d b) /\
  forall l, (l < m)%nat -> exists h h', cascade_value (band_sections nb d' l) (on_circle (nth l freqs 0) fs) h /\
    cascade_value (band_sections nb d' (S l)) (on_circle (nth l freqs 0) fs) h' /\ aligned h h'.
Proof.
  induction m as [|m IH]; intros d d' SB Hm E W.
  - cbn in E. injection E as <-. split; [reflexivity|lia].
  - rewrite seq_S, rev_app_distr in E. cbn [rev app Nat.add correct_all] in E. apply obind_inv in E as (d1 & E1 & E).
    destruct (correct_all_appended nb fs freqs _ d1 d' E) as [r A].
    assert (W1 : Forall well_scaled (appended d1)) by (rewrite A in W; apply Forall_app in W; tauto).
    destruct (correct_ok nb fs freqs d m d1 SB ltac:(lia) E1 W1) as (S1 & L1 & H1 & _ & O1 & AL).
    destruct (IH d1 d' S1 ltac:(lia) E W) as [O2 AL2]. split.
    + intros b Hb. rewrite O2 by lia. apply O1. lia.
    + intros l Hl. destruct (Nat.eq_dec l m) as [->|N]; [|apply AL2; lia]. rewrite !O2 by lia. exact AL.
Qed.
Lemma correction_order_ok nb : Forall (fun l => (l < nb - 2)%nat) (correction_order (nb - 1)).
Proof.
  apply Forall_forall. intros l Hl. unfold correction_order in Hl. apply in_flat_map in Hl as (s & Hs & Hl). apply in_seq in Hs. apply in_rev, in_seq in Hl. lia.
Qed.
Lemma correction_order_last S : (2 <= S)%nat -> correction_order S = correction_order (S - 1) ++ rev (seq 0 (S - 1)).
Proof.
  intros H. unfold correction_order. replace (S - 1)%nat with (Datatypes.S (S - 1 - 1))%nat at 1 by lia. rewrite seq_S, flat_map_app. cbn [flat_map]. rewrite app_nil_r. f_equal. f_equal. f_equal. lia.
Qed.

(* ---------- the designed bank ---------- *)
Lemma simplified nb d ap : scaled_bank nb d -> traverse (simplify tolerance) (allpass_coeffs d) = Ok ap ->
  let d' := {| lowpass_coeffs := lowpass_coeffs d; highpass_coeffs := highpass_coeffs d; allpass_coeffs := ap; appended := appended d |} in
  scaled_bank nb d' /\ forall b, same_response (band_sections nb d b) (band_sections nb d' b).
Proof.
  intros (SL & SH & SA & LA) E d'. apply traverse_spec in E. destruct (Forall2_nth _ _ _ [] [] E) as [LE NE].
  assert (U : forall i, (i < length ap)%nat -> unit_cascade (nth i ap []) /\ same_response (nth i (allpass_coeffs d) []) (nth i ap [])).
  { intros i Hi. rewrite <- LE in Hi. specialize (NE i Hi). rewrite Forall_forall in SA. destruct (simplify_unit _ (SA _ (nth_In _ [] Hi))) as (cs & E1 & U1 & R1). rewrite NE in E1. injection E1 as <-. auto. }
  split.
  - repeat split; cbn [d' lowpass_coeffs highpass_coeffs allpass_coeffs]; auto; [|lia]. apply Forall_forall. intros x Hx. destruct (In_nth _ _ [] Hx) as (i & Hi & <-). now apply U.
  - intros b z h Z. unfold band_sections, d'. cbn [lowpass_coeffs highpass_coeffs allpass_coeffs]. rewrite !(cascade_value_app (if (b <? nb - 1)%nat then _ else _)). setoid_rewrite (cascade_value_app (concat _)).
    destruct (Nat.ltb_spec b (nb - 2)) as [B|B]; [|reflexivity]. destruct (U b ltac:(lia)) as [_ R]. setoid_rewrite (R z _ Z). reflexivity.
Qed.
Lemma design_inv type order nb fs freqs d : design_bank type order nb fs freqs = Ok d ->
  length freqs = (nb - 1)%nat /\ is_sorted freqs = true /\ length (lowpass_coeffs d) = (nb - 1)%nat /\ length (highpass_coeffs d) = (nb - 1)%nat /\
  exists lh d0 d1, Forall2 (fun f p => crossover type order f fs = Ok p) freqs lh /\ 
    d0 = {| lowpass_coeffs := map fst lh; highpass_coeffs := map snd lh; allpass_coeffs := repeat [identity_coeffs] (nb - 2); appended := [] |} /\
    correct_all nb fs freqs d0 (correction_order (nb - 1)) = Ok d1 /\ traverse (simplify tolerance) (allpass_coeffs d1) = Ok (allpass_coeffs d) /\
    lowpass_coeffs d = lowpass_coeffs d1 /\ highpass_coeffs d = highpass_coeffs d1 /\ appended d = appended d1 /\
    lowpass_coeffs d = map fst lh /\ highpass_coeffs d = map snd lh.
Proof.
  unfold design_bank. intros E. apply ocheck_ok in E as [L E]. apply ocheck_ok in E as [S E]. apply Nat.eqb_eq in L.
  apply obind_inv in E as (lh & E1 & E). apply obind_inv in E as (d1 & E2 & E). apply obind_inv in E as (ap & E3 & E). injection E as <-. cbn [lowpass_coeffs highpass_coeffs allpass_coeffs appended].
  assert (K : forall ls d0 d1, correct_all nb fs freqs d0 ls = Ok d1 -> lowpass_coeffs d1 = lowpass_coeffs d0 /\ highpass_coeffs d1 = highpass_coeffs d0).
  { clear. induction ls as [|l ls IH]; intros d0 d1 E; cbn [correct_all] in E; [injection E as <-; auto|]. apply obind_inv in E as (d2 & E1 & E). apply IH in E as [-> ->].
    unfold correct in E1. cbv zeta in E1. do 4 (apply obind_inv in E1 as (? & _ & E1)). injection E1 as <-. auto. }
  destruct (K _ _ _ E2) as [K1 K2]. cbn [lowpass_coeffs highpass_coeffs] in K1, K2. apply traverse_spec in E1. destruct (Forall2_nth _ _ _ 0 ([], []) E1) as [LL _].
  split; [exact L|]. split; [exact S|]. rewrite K1, K2, !map_length. split; [lia|]. split; [lia|]. exists lh. do 2 eexists. split; [exact E1|]. split; [reflexivity|]. split; [exact E2|]. auto 10.
Qed.
Lemma design_ok type order nb fs freqs d : design_bank type order nb fs freqs = Ok d -> all_scaled d ->
  scaled_bank nb d /\ forall l, (l < nb - 2)%nat -> exists h h', cascade_value (band_sections nb d l) (on_circle (nth l freqs 0) fs) h /\
    cascade_value (band_sections nb d (S l)) (on_circle (nth l freqs 0) fs) h' /\ aligned h h'.
Proof.
  intros E (SL & SH & WA). destruct (design_inv _ _ _ _ _ _ E) as (_ & _ & _ & _ & lh & d0 & d1 & _ & E0 & EC & ES & L1 & H1 & A1 & L2 & H2).
  assert (S0 : scaled_bank nb d0).
  { rewrite E0. repeat split; cbn [lowpass_coeffs highpass_coeffs allpass_coeffs]; [rewrite <- L2; exact SL|rewrite <- H2; exact SH| |apply repeat_length].
    apply Forall_forall. intros x Hx. apply repeat_spec in Hx. rewrite Hx. exact unit_identity. }
  assert (W1 : Forall well_scaled (appended d1)) by (rewrite <- A1; exact WA).
  destruct (correct_all_ok nb fs freqs _ d0 d1 S0 (correction_order_ok nb) EC W1) as (S1 & _).
  destruct (simplified nb d1 _ S1 ES) as [S2 R]. cbv zeta in S2, R.
  assert (ED : {| lowpass_coeffs := lowpass_coeffs d1; highpass_coeffs := highpass_coeffs d1; allpass_coeffs := allpass_coeffs d; appended := appended d1 |} = d) by (rewrite <- L1, <- H1, <- A1; destruct d; reflexivity).
  rewrite ED in S2, R. split; [exact S2|]. intros l Hl.
  rewrite correction_order_last in EC by lia. rewrite correct_all_app in EC. apply obind_inv in EC as (d2 & EC1 & EC2).
  destruct (correct_all_appended _ _ _ _ _ _ EC2) as [r AR].
  assert (W2 : Forall well_scaled (appended d2)) by (rewrite AR in W1; apply Forall_app in W1; tauto).
  assert (OK2 : Forall (fun l => (l < nb - 2)%nat) (correction_order (nb - 1 - 1))).
  { pose proof (correction_order_ok nb) as F. rewrite correction_order_last in F by lia. apply Forall_app in F. tauto. }
  destruct (correct_all_ok nb fs freqs _ d0 d2 S0 OK2 EC1 W2) as (S3 & _).
  destruct (last_round nb fs freqs (nb - 1 - 1) d2 d1 S3 ltac:(lia) EC2 W1) as [_ AL]. destruct (AL l ltac:(lia)) as (h & h' & V & V' & A).
  assert (Z0 : on_circle (nth l freqs 0) fs <> RtoC 0) by apply circle_neq_0.
  exists h, h'. split; [now apply (R l)|]. split; [now apply (R (S l))|exact A].
Qed.
