From Verif Require Import Common ListLemmas NthLemmas RealUtil BiquadModel CascadeModel CascadeProofs LadderModel LadderSpec LadderProofs LadderProofs2 MultiCrossModel MultiCrossSpec MultiCrossProofs MultiCrossProofs4.
Local Open Scope R_scope.

Section Signal.
Variable eps : R.
Variable sm : coeffs R.


Lemma reflective_ladder c : reflective c -> exists k v, make_ladder (vec_b c) (vec_a c) = Ok (k, v) /\ Forall (fun x => 0 < Rabs x < 1) k.
Proof.
  intros (N & H2 & H1). destruct (is_stable_biquad c N) as (k1 & E & HK). eexists _, _. split; [exact E|].
  assert (NK : 1 - a2 c / a0 c * (a2 c / a0 c) <> 0). { destruct H2 as [_ H2]. apply Rabs_def2 in H2. nra. }
  specialize (HK NK). assert (K : k1 = a1 c / (a0 c + a2 c)).
  { assert (NS : a0 c + a2 c <> 0). { intros Q. apply NK. replace (a2 c) with (- a0 c) by lra. field. exact N. }
    apply (Rmult_eq_reg_r (1 + a2 c / a0 c)); [rewrite HK; field; auto|]. intros Q. apply NS. replace (a0 c + a2 c) with (a0 c * (1 + a2 c / a0 c)) by (field; exact N). rewrite Q. ring. }
  rewrite K. repeat constructor; tauto.
Qed.
Lemma run_cascade_ok nch cs : Forall reflective cs -> forall fl x, init_cascade eps sm nch cs = Ok fl -> frames_of nch x ->
  exists fl' y, run_cascade eps fl x = Ok (fl', y) /\ frames_of nch y /\ length y = length x /\ forall i, (i < nch)%nat -> chain_implements cs (channel i x) (channel i y).
Proof.
  induction 1 as [|c cs H _ IH]; intros fl x E F; unfold init_cascade in E; cbn [traverse] in E.
  - injection E as <-. exists [], x. cbn [run_cascade chain_implements]. auto.
  - apply obind_inv in E as (f & E1 & E). apply obind_inv in E as (fl' & E2 & E). injection E as <-. destruct (reflective_ladder c H) as (k & v & M & K).
    destruct (ladder_realises eps sm nch _ _ k v f x E1 M K F) as (f2 & u & R & FU & I). destruct (IH fl' u E2 FU) as (fl2 & y & R2 & FY & LY & IY).
    cbn [run_cascade]. unfold run_ladder. rewrite R. cbn [obind fst snd]. rewrite R2. cbn [obind fst snd]. eexists _, y. split; [reflexivity|]. split; [exact FY|].
    split. { rewrite LY. revert R. clear. revert f u f2. induction x as [|a x IH]; intros f u f2 E; cbn [run] in E; [injection E as _ <-; reflexivity|]. apply obind_inv in E as (p & _ & E). apply obind_inv in E as ([q1 q2] & E & E'). injection E' as _ <-. cbn [length snd]. f_equal. eapply IH. exact E. }
    intros i Hi. cbn [chain_implements]. exists (channel i u). split; [exact (I i Hi)|exact (IY i Hi)].
Qed.
Lemma chain_app cs1 : forall cs2 x u y, chain_implements cs1 x u -> chain_implements cs2 u y -> chain_implements (cs1 ++ cs2) x y.
Proof. induction cs1 as [|c cs1 IH]; cbn [chain_implements app]; intros cs2 x u y H1 H2; [now rewrite <- H1|]. destruct H1 as (w & A & B). exists w. split; [exact A|]. now apply (IH cs2 w u y). Qed.
Lemma chain_nil x y : chain_implements [] x y -> y = x.
Proof. auto. Qed.

Lemma run_stages_ok nch : forall hc lc, length hc = length lc -> Forall (Forall reflective) hc -> Forall (Forall reflective) lc ->
  forall hp lp x, traverse (init_cascade eps sm nch) hc = Ok hp -> traverse (init_cascade eps sm nch) lc = Ok lp -> frames_of nch x ->
  exists h l b, run_stages eps hp lp x = Ok (h, l, b) /\ length b = S (length hc) /\
    forall j, (j <= length hc)%nat -> frames_of nch (nth j b []) /\ length (nth j b []) = length x /\ forall i, (i < nch)%nat -> chain_implements (concat (firstn j hc) ++ nth j lc []) (channel i x) (channel i (nth j b [])).
Proof.
  induction hc as [|c hc IH]; intros [|c' lc] L RH RL hp lp x EH EL F; cbn [length] in L; try lia; cbn [traverse] in EH, EL.
  - injection EH as <-. injection EL as <-. exists [], [], [x]. cbn [run_stages]. split; [reflexivity|]. split; [reflexivity|]. intros j Hj. cbn [length] in Hj. assert (J : j = O) by lia. rewrite J. cbn [nth firstn concat app chain_implements]. auto.
  - apply obind_inv in EH as (h1 & E1 & EH). apply obind_inv in EH as (hp' & E2 & EH). injection EH as <-. apply obind_inv in EL as (l1 & E3 & EL). apply obind_inv in EL as (lp' & E4 & EL). injection EL as <-.
    destruct (run_cascade_ok nch c (Forall_inv RH) h1 x E1 F) as (h1' & xh & R1 & F1 & N1 & I1). destruct (run_cascade_ok nch c' (Forall_inv RL) l1 x E3 F) as (l1' & xl & R2 & F2 & N2 & I2).
    destruct (IH lc ltac:(lia) (Forall_inv_tail RH) (Forall_inv_tail RL) hp' lp' xh E2 E4 F1) as (h & l & b & R3 & LB & I3).
    cbn [run_stages]. rewrite R1, R2. cbn [obind fst snd]. rewrite R3. cbn [obind fst snd]. eexists _, _, _. split; [reflexivity|]. split; [cbn [length]; lia|].
    intros [|j] Hj; cbn [nth firstn concat app length] in *; [auto|]. destruct (I3 j ltac:(lia)) as (A & B & D). split; [exact A|]. split; [lia|]. intros i Hi. rewrite <- app_assoc. apply (chain_app _ _ _ (channel i xh)); [exact (I1 i Hi)|exact (D i Hi)].
Qed.
Lemma run_allpass_ok nch n : forall ac, Forall (Forall reflective) ac -> forall ap bands, (length ac <= length bands)%nat -> traverse (init_cascade eps sm nch) ac = Ok ap -> Forall (fun b => frames_of nch b /\ length b = n) bands ->
  exists a b, run_allpass eps ap bands = Ok (a, b) /\ length b = length bands /\
    forall j, (j < length bands)%nat -> frames_of nch (nth j b []) /\ length (nth j b []) = n /\ forall i, (i < nch)%nat -> chain_implements (nth j ac []) (channel i (nth j bands [])) (channel i (nth j b [])).
Proof.
  induction 1 as [|c ac H _ IH]; intros ap bands L E F; cbn [traverse] in E.
  - injection E as <-. exists [], bands. split; [reflexivity|]. split; [reflexivity|]. intros j Hj. rewrite Forall_forall in F. destruct (F _ (nth_In _ [] Hj)) as [A B]. split; [exact A|]. split; [exact B|]. intros i Hi. destruct j; reflexivity.
  - apply obind_inv in E as (f & E1 & E). apply obind_inv in E as (ap' & E2 & E). injection E as <-. destruct bands as [|b0 bands]; [cbn [length] in L; lia|]. cbn [length] in L.
    destruct (Forall_inv F) as [F0 L0]. destruct (run_cascade_ok nch c H f b0 E1 F0) as (f' & y & R & FY & NY & I). destruct (IH ap' bands ltac:(lia) E2 (Forall_inv_tail F)) as (a & b & R2 & LB & I2).
    cbn [run_allpass]. rewrite R. cbn [obind fst snd]. rewrite R2. cbn [obind fst snd]. eexists _, _. split; [reflexivity|]. split; [cbn [length]; lia|].
    intros [|j] Hj; cbn [nth length] in *; [split; [exact FY|]; split; [lia|exact I]|]. apply I2. lia.
Qed.
Lemma split_ok type order nb nch fs freqs s x : splitter_init eps sm type order nb nch fs freqs = Ok s -> reflective_bank (sp_bank s) -> frames_of nch x ->
  exists s' bands, split_block eps s x = Ok (s', bands) /\ Z.of_nat (length bands) = nb /\
    forall b, (b < length bands)%nat -> frames_of nch (nth b bands []) /\ length (nth b bands []) = length x /\
      forall i, (i < nch)%nat -> chain_implements (concat (firstn b (highpass_coeffs (sp_bank s))) ++ nth b (lowpass_coeffs (sp_bank s)) [] ++ nth b (allpass_coeffs (sp_bank s)) []) (channel i x) (channel i (nth b bands [])).
Proof.
  intros E (RL & RH & RA) F. apply splitter_parts in E. destruct E as (NB & _ & _ & _ & EL & EH & EA & L1 & L2 & L3 & _). set (d := sp_bank s) in *.
  assert (LL : length (highpass_coeffs d) = length (lowpass_coeffs d)) by lia.
  destruct (run_stages_ok nch _ _ LL RH RL _ _ x EH EL F) as (h & l & b & R & LB & I).
  assert (FB : Forall (fun y => frames_of nch y /\ length y = length x) b). { apply Forall_forall. intros y Hy. destruct (In_nth _ _ [] Hy) as (j & Hj & <-). destruct (I j ltac:(lia)) as (A & B & _). auto. }
  destruct (run_allpass_ok nch (length x) _ RA _ b ltac:(lia) EA FB) as (a & b' & R' & LB' & I').
  unfold split_block. rewrite R. cbn [obind fst snd]. rewrite R'. cbn [obind fst snd]. eexists _, b'. split; [reflexivity|]. split; [lia|].
  intros j Hj. destruct (I' j ltac:(lia)) as (A & B & D). split; [exact A|]. split; [exact B|]. intros i Hi. rewrite app_assoc. apply (chain_app _ _ _ (channel i (nth j b []))); [apply (I j ltac:(lia)); exact Hi|exact (D i Hi)].
Qed.

(* ---------- blocks ---------- *)
Lemma run_ladder_app f x1 x2 f2 y : run_ladder eps f (x1 ++ x2) = Ok (f2, y) <-> exists f1 y1 y2, run_ladder eps f x1 = Ok (f1, y1) /\ run_ladder eps f1 x2 = Ok (f2, y2) /\ y = y1 ++ y2.
Proof.
  unfold run_ladder. rewrite run_app. split.
  - intros E. apply obind_inv in E as ([f1 y1] & E1 & E). apply obind_inv in E as ([f2' y2] & E2 & E). injection E as <- <-. exists f1, y1, y2. auto.
  - intros (f1 & y1 & y2 & E1 & E2 & ->). rewrite E1. cbn [obind fst]. rewrite E2. reflexivity.
Qed.
Lemma run_cascade_app : forall fl x1 x2 fl2 y, run_cascade eps fl (x1 ++ x2) = Ok (fl2, y) <-> exists fl1 y1 y2, run_cascade eps fl x1 = Ok (fl1, y1) /\ run_cascade eps fl1 x2 = Ok (fl2, y2) /\ y = y1 ++ y2.
Proof.
  induction fl as [|f fl IH]; intros x1 x2 fl2 y; cbn [run_cascade].
  - split; [intros E; injection E as <- <-; exists [], x1, x2; auto|]. intros (? & ? & ? & E1 & E2 & ->). injection E1 as <- <-. cbn [run_cascade] in E2. injection E2 as <- <-. reflexivity.
  - split.
    + intros E. apply obind_inv in E as ([g u] & E1 & E). apply obind_inv in E as ([gl w] & E2 & E). injection E as <- <-. cbn [fst snd] in *. apply run_ladder_app in E1 as (f1 & u1 & u2 & A1 & A2 & ->). apply IH in E2 as (fl1 & w1 & w2 & B1 & B2 & ->).
      exists (f1 :: fl1), w1, w2. rewrite A1. cbn [obind fst snd]. rewrite B1. cbn [obind fst snd run_cascade]. rewrite A2. cbn [obind fst snd]. rewrite B2. auto.
    + intros (fl1 & w1 & w2 & E1 & E2 & ->). apply obind_inv in E1 as ([f1 u1] & A1 & E1). apply obind_inv in E1 as ([fl1' w1'] & B1 & E1). injection E1 as <- <-. cbn [fst snd run_cascade] in *.
      apply obind_inv in E2 as ([g u2] & A2 & E2). apply obind_inv in E2 as ([gl w2'] & B2 & E2). injection E2 as <- <-. cbn [fst snd] in *.
      assert (P1 : run_ladder eps f (x1 ++ x2) = Ok (g, u1 ++ u2)) by (apply run_ladder_app; eauto 10). rewrite P1. cbn [obind fst snd].
      assert (P2 : run_cascade eps fl (u1 ++ u2) = Ok (gl, w1' ++ w2')) by (apply IH; eauto 10). rewrite P2. reflexivity.
Qed.
Lemma stages_length : forall hp lp x h l b, run_stages eps hp lp x = Ok (h, l, b) -> length b = S (Nat.min (length hp) (length lp)) /\ length h = Nat.min (length hp) (length lp) /\ length l = Nat.min (length hp) (length lp).
Proof.
  induction hp as [|h0 hp IH]; intros [|l0 lp] x h l b E; cbn [run_stages] in E; try (injection E as <- <- <-; cbn; auto; fail).
  apply obind_inv in E as (rh & _ & E). apply obind_inv in E as (rl & _ & E). apply obind_inv in E as ([[hh ll] bb] & E3 & E). cbn [fst snd] in *. injection E as <- <- <-. apply IH in E3. cbn [length Nat.min]. lia.
Qed.
Lemma run_stages_app : forall hp lp x1 x2 h l b, run_stages eps hp lp (x1 ++ x2) = Ok (h, l, b) <->
  exists h1 l1 b1 b2, run_stages eps hp lp x1 = Ok (h1, l1, b1) /\ run_stages eps h1 l1 x2 = Ok (h, l, b2) /\ b = zip_app b1 b2.
Proof.
  assert (B : forall x1 x2 (h : list (list ladder)) (l : list (list ladder)) b, Ok ([], [], [x1 ++ x2]) = Ok (h, l, b) <-> exists h1 l1 b1 b2, Ok ([], [], [x1]) = Ok (h1, l1, b1) /\ run_stages eps h1 l1 x2 = Ok (h, l, b2) /\ b = zip_app b1 b2).
  { intros. split; [intros E; injection E as <- <- <-; exists [], [], [x1], [x2]; auto|]. intros (? & ? & ? & ? & E1 & E2 & ->). injection E1 as <- <- <-. cbn [run_stages] in E2. injection E2 as <- <- <-. reflexivity. }
  induction hp as [|h0 hp IH]; intros [|l0 lp] x1 x2 h l b; cbn [run_stages]; try apply B. split.
  - intros E. apply obind_inv in E as ([rh yh] & E1 & E). apply obind_inv in E as ([rl yl] & E2 & E). apply obind_inv in E as ([[hh ll] bb] & E3 & E). cbn [fst snd] in *. injection E as <- <- <-.
    apply run_cascade_app in E1 as (rh1 & yh1 & yh2 & A1 & A2 & ->). apply run_cascade_app in E2 as (rl1 & yl1 & yl2 & B1 & B2 & ->). apply IH in E3 as (hh1 & ll1 & bb1 & bb2 & C1 & C2 & ->).
    rewrite A1, B1. cbn [obind fst snd]. rewrite C1. cbn [obind fst snd]. eexists _, _, _, (yl2 :: bb2). split; [reflexivity|]. cbn [run_stages]. rewrite A2, B2. cbn [obind fst snd]. rewrite C2. cbn [obind fst snd]. auto.
  - intros (h1 & l1 & b1 & b2 & E & E' & ->). apply obind_inv in E as ([rh yh] & A1 & E). apply obind_inv in E as ([rl yl] & B1 & E). apply obind_inv in E as ([[hh ll] bb] & C1 & E). cbn [fst snd] in *. injection E as <- <- <-. cbn [run_stages] in E'.
    apply obind_inv in E' as ([rh' yh'] & A2 & E). apply obind_inv in E as ([rl' yl'] & B2 & E). apply obind_inv in E as ([[hh' ll'] bb'] & C2 & E). cbn [fst snd] in *. injection E as <- <- <-.
    assert (P1 : run_cascade eps h0 (x1 ++ x2) = Ok (rh', yh ++ yh')) by (apply run_cascade_app; eauto 10). assert (P2 : run_cascade eps l0 (x1 ++ x2) = Ok (rl', yl ++ yl')) by (apply run_cascade_app; eauto 10).
    rewrite P1, P2. cbn [obind fst snd]. assert (P3 : run_stages eps hp lp (yh ++ yh') = Ok (hh', ll', zip_app bb bb')) by (apply IH; eauto 10). rewrite P3. reflexivity.
Qed.
Lemma run_allpass_app : forall ap b1 b2 a y, length b1 = length b2 -> run_allpass eps ap (zip_app b1 b2) = Ok (a, y) <->
  exists a1 y1 y2, run_allpass eps ap b1 = Ok (a1, y1) /\ run_allpass eps a1 b2 = Ok (a, y2) /\ y = zip_app y1 y2.
Proof.
  induction ap as [|f ap IH]; intros b1 b2 a y L.
  - cbn [run_allpass]. split; [intros E; injection E as <- <-; exists [], b1, b2; auto|]. intros (? & ? & ? & E1 & E2 & ->). injection E1 as <- <-. cbn [run_allpass] in E2. injection E2 as <- <-. reflexivity.
  - destruct b1 as [|p b1], b2 as [|q b2]; cbn [length] in L; try lia.
    + cbn [zip_app combine map run_allpass]. split; [intros E; injection E as <- <-; exists [], [], []; auto|]. intros (? & ? & ? & E1 & E2 & ->). injection E1 as <- <-. cbn [run_allpass] in E2. injection E2 as <- <-. reflexivity.
    + unfold zip_app. cbn [combine map fst snd run_allpass]. fold (zip_app b1 b2). split.
      * intros E. apply obind_inv in E as ([g u] & E1 & E). apply obind_inv in E as ([gl w] & E2 & E). cbn [fst snd] in *. injection E as <- <-. apply run_cascade_app in E1 as (g1 & u1 & u2 & A1 & A2 & ->). apply IH in E2 as (a1 & w1 & w2 & B1 & B2 & ->); [|lia].
        rewrite A1. cbn [obind fst snd]. rewrite B1. cbn [obind fst snd]. eexists _, _, (u2 :: w2). split; [reflexivity|]. cbn [run_allpass]. rewrite A2. cbn [obind fst snd]. rewrite B2. auto.
      * intros (a1 & y1 & y2 & E & E' & ->). apply obind_inv in E as ([g1 u1] & A1 & E). apply obind_inv in E as ([gl1 w1] & B1 & E). cbn [fst snd] in *. injection E as <- <-. cbn [run_allpass] in E'. apply obind_inv in E' as ([g2 u2] & A2 & E). apply obind_inv in E as ([gl2 w2] & B2 & E). cbn [fst snd] in *. injection E as <- <-.
        assert (P1 : run_cascade eps f (p ++ q) = Ok (g2, u1 ++ u2)) by (apply run_cascade_app; eauto 10). rewrite P1. cbn [obind fst snd]. assert (P2 : run_allpass eps ap (zip_app b1 b2) = Ok (gl2, zip_app w1 w2)) by (apply IH; [lia|eauto 10]). rewrite P2. reflexivity.
Qed.
Lemma split_app s x1 x2 s2 y : split_block eps s (x1 ++ x2) = Ok (s2, y) <-> exists s1 y1 y2, split_block eps s x1 = Ok (s1, y1) /\ split_block eps s1 x2 = Ok (s2, y2) /\ y = zip_app y1 y2.
Proof.
  unfold split_block. split.
  - intros E. apply obind_inv in E as ([[h l] b] & E1 & E). apply obind_inv in E as ([a b'] & E2 & E). cbn [fst snd] in *. injection E as <- <-.
    apply run_stages_app in E1 as (h1 & l1 & b1 & b2 & A1 & A2 & ->). assert (L : length b1 = length b2). { apply stages_length in A1, A2. lia. }
    apply run_allpass_app in E2 as (a1 & y1 & y2 & B1 & B2 & ->); [|exact L]. rewrite A1. cbn [obind fst snd]. rewrite B1. cbn [obind fst snd]. eexists _, _, y2. split; [reflexivity|]. cbn [highpass_filters lowpass_filters allpass_filters sp_bands sp_channels sp_rate sp_bank]. rewrite A2. cbn [obind fst snd]. rewrite B2. auto.
  - intros (s1 & y1 & y2 & E & E' & ->). apply obind_inv in E as ([[h l] b] & A1 & E). apply obind_inv in E as ([a b'] & B1 & E). cbn [fst snd] in *. injection E as <- <-. cbn [highpass_filters lowpass_filters allpass_filters sp_bands sp_channels sp_rate sp_bank] in E'.
    apply obind_inv in E' as ([[h2 l2] b2] & A2 & E). apply obind_inv in E as ([a2 b2'] & B2 & E). cbn [fst snd] in *. injection E as <- <-. assert (L : length b = length b2). { pose proof A1 as A1'. apply stages_length in A1, A2. lia. }
    assert (P1 : run_stages eps (highpass_filters s) (lowpass_filters s) (x1 ++ x2) = Ok (h2, l2, zip_app b b2)) by (apply run_stages_app; eauto 10). rewrite P1. cbn [obind fst snd].
    assert (P2 : run_allpass eps (allpass_filters s) (zip_app b b2) = Ok (a2, zip_app b' b2')) by (apply run_allpass_app; [exact L|eauto 10]). rewrite P2. reflexivity.
Qed.
End Signal.
