(* A header accepted without an error flag was completely present: what follows it, and the
   contents of uninitialised buffers, do not matter. *)
From Verif Require Import CInt ListLemmas SerializeModel SerializeSpec SerializeProofs WavModel WavSpec WavProofs WavHeaderProofs WavFileProofs.

(* ---- the error flag only goes up ---- *)
Lemma read_check_mono old r b r' : read_check old r = (b, r') -> r_err r' = false -> r_err r = false.
Proof. unfold read_check. intros H. injection H as <- <-. cbn [r_err]. destruct (r_err r); auto. Qed.
Lemma u16_mono junk r v r' : read_uint16 junk r = Ok (v, r') -> r_err r' = false -> r_err r = false.
Proof.
  unfold read_uint16. destruct (read_check (uninit junk 2) r) as [b r1] eqn:E. destruct (le_read_u16 b); cbn [obind]; try discriminate.
  intros H. injection H as <- <-. exact (read_check_mono _ _ _ _ E).
Qed.
Lemma u32_mono junk r v r' : read_uint32 junk r = Ok (v, r') -> r_err r' = false -> r_err r = false.
Proof.
  unfold read_uint32. destruct (read_check (uninit junk 4) r) as [b r1] eqn:E. destruct (le_read_u32 b); cbn [obind]; try discriminate.
  intros H. injection H as <- <-. exact (read_check_mono _ _ _ _ E).
Qed.
Lemma seek_mono sk n r : r_err (seek_check sk n r) = false -> r_err r = false.
Proof.
  unfold seek_check. destruct sk; [auto|]. destruct (seek_loop _ _ _) as [a b]. cbn [r_err]. destruct (r_err r); auto.
Qed.

Section R.
Context (sk : seek_mode) (custom : bool) (junk junk' : nat -> Z) (more : list Z).

(* [rp] reads the longer input; [loose] allows that a seek went past the end of the shorter one *)
Definition exact (r rp : reader) : Prop := r_err rp = false /\ r_log rp = r_log r /\ r_rest rp = r_rest r ++ more.
Definition loose (r rp : reader) : Prop := r_err rp = false /\ r_log rp = r_log r /\ (r_rest rp = r_rest r ++ more \/ r_rest r = []).
Lemma exact_loose r rp : exact r rp -> loose r rp.
Proof. intros (A & B & C). split; [exact A|]. split; [exact B|]. now left. Qed.

Lemma sim_read old old' r rp b r1 : loose r rp -> read_check old r = (b, r1) -> r_err r1 = false -> length old' = length old -> old <> [] ->
  exists rp1, read_check old' rp = (b, rp1) /\ exact r1 rp1.
Proof.
  unfold loose, exact, read_check. intros (A & B & C) H E L N. injection H as <- <-. cbn [r_err r_log r_rest] in *.
  assert (F : length (firstn (length old) (r_rest r)) = length old) by (destruct (Nat.eqb_spec (length (firstn (length old) (r_rest r))) (length old)); [assumption|destruct (r_err r); discriminate]).
  rewrite firstn_length in F. destruct C as [C|C].
  2:{ rewrite C in F. cbn in F. destruct old; [congruence|cbn in F; lia]. }
  rewrite C, L. assert (X : firstn (length old) (r_rest r ++ more) = firstn (length old) (r_rest r)) by (rewrite firstn_app; replace (length old - length (r_rest r))%nat with 0%nat by lia; cbn [firstn]; apply app_nil_r).
  rewrite X. assert (LF : length (firstn (length old) (r_rest r)) = length old) by (rewrite firstn_length; exact F). rewrite LF.
  rewrite (skipn_all2 old) by lia. rewrite (skipn_all2 old') by lia.
  eexists. split; [reflexivity|]. cbn [r_err r_log r_rest]. rewrite A, Nat.eqb_refl. cbn [negb orb]. split; [reflexivity|]. split; [exact B|].
  rewrite skipn_app. replace (length old - length (r_rest r))%nat with 0%nat by lia. reflexivity.
Qed.
Lemma uninit_ne n : (0 < n)%nat -> uninit junk n <> [].
Proof. intros H X. apply (f_equal (@length Z)) in X. rewrite uninit_length in X. cbn in X. lia. Qed.
Lemma sim_u16 r rp v r1 : loose r rp -> read_uint16 junk r = Ok (v, r1) -> r_err r1 = false ->
  exists rp1, read_uint16 junk' rp = Ok (v, rp1) /\ exact r1 rp1.
Proof.
  intros HL. unfold read_uint16. destruct (read_check (uninit junk 2) r) as [b r2] eqn:E. destruct (le_read_u16 b) as [w| |] eqn:V; cbn [obind]; try discriminate.
  intros H E1. injection H as -> <-. destruct (sim_read _ (uninit junk' 2) r rp b r2 HL E E1) as (rp1 & Q & X); [now rewrite !uninit_length|apply uninit_ne; lia|].
  exists rp1. rewrite Q, V. auto.
Qed.
Lemma sim_u32 r rp v r1 : loose r rp -> read_uint32 junk r = Ok (v, r1) -> r_err r1 = false ->
  exists rp1, read_uint32 junk' rp = Ok (v, rp1) /\ exact r1 rp1.
Proof.
  intros HL. unfold read_uint32. destruct (read_check (uninit junk 4) r) as [b r2] eqn:E. destruct (le_read_u32 b) as [w| |] eqn:V; cbn [obind]; try discriminate.
  intros H E1. injection H as -> <-. destruct (sim_read _ (uninit junk' 4) r rp b r2 HL E E1) as (rp1 & Q & X); [now rewrite !uninit_length|apply uninit_ne; lia|].
  exists rp1. rewrite Q, V. auto.
Qed.
Lemma sim_seek n r rp : exact r rp -> r_err (seek_check sk n r) = false -> loose (seek_check sk n r) (seek_check sk n rp).
Proof.
  intros (A & B & C). unfold seek_check, loose. destruct sk.
  - intros _. cbn [r_err r_log r_rest]. split; [exact A|]. split; [exact B|]. rewrite C.
    destruct (Nat.le_gt_cases (Z.to_nat n) (length (r_rest r))) as [L|L].
    + left. rewrite skipn_app. replace (Z.to_nat n - length (r_rest r))%nat with 0%nat by lia. reflexivity.
    + right. apply skipn_all2. lia.
  - pose proof (seek_loop_spec (Z.to_nat n) (Z.to_nat n) (r_rest r) (le_n _)) as S1.
    pose proof (seek_loop_spec (Z.to_nat n) (Z.to_nat n) (r_rest rp) (le_n _)) as S2.
    destruct (Nat.leb_spec (Z.to_nat n) (length (r_rest r))) as [L|L].
    2:{ destruct S1 as (rest' & -> & _). cbn [r_err]. rewrite orb_true_r. discriminate. }
    rewrite S1. replace (Z.to_nat n <=? length (r_rest rp))%nat with true in S2 by (rewrite C, app_length; symmetry; apply Nat.leb_le; lia). rewrite S2.
    intros _. cbn [r_err r_log r_rest]. rewrite A. split; [reflexivity|]. split; [exact B|]. left. rewrite C, skipn_app. replace (Z.to_nat n - length (r_rest r))%nat with 0%nat by lia. reflexivity.
Qed.
Lemma sim_read_exact old old' r rp b r1 : exact r rp -> read_check old r = (b, r1) -> r_err r1 = false -> length old' = length old ->
  exists rp1, read_check old' rp = (b, rp1) /\ exact r1 rp1.
Proof.
  intros X H E L. destruct old as [|x old].
  - destruct old'; [|discriminate]. unfold read_check in *. cbn in *. injection H as <- <-. eexists. split; [reflexivity|]. destruct X as (A & B & C). unfold exact. cbn. rewrite A. auto.
  - apply (sim_read (x :: old) old' r rp b r1); try assumption; [now apply exact_loose|discriminate].
Qed.

Lemma sim_fmt r rp i size b r1 i1 : exact r rp -> read_fmt_chunk sk junk r i size = Ok (b, r1, i1) -> r_err r1 = false -> b = true ->
  exists rp1, read_fmt_chunk sk junk' rp i size = Ok (true, rp1, i1) /\ loose r1 rp1.
Proof.
  intros X H E ->. unfold read_fmt_chunk in *. destruct (size <? 16); [discriminate|].
  destruct (read_uint16 junk r) as [[v1 q1]| |] eqn:E1; cbn [obind] in H; try discriminate.
  destruct (read_uint16 junk q1) as [[v2 q2]| |] eqn:E2; cbn [obind] in H; try discriminate.
  destruct (read_uint32 junk q2) as [[v3 q3]| |] eqn:E3; cbn [obind] in H; try discriminate.
  destruct (read_uint16 junk (seek_check sk 4 q3)) as [[v4 q4]| |] eqn:E4; cbn [obind] in H; try discriminate.
  destruct (read_uint16 junk q4) as [[v5 q5]| |] eqn:E5; cbn [obind] in H; try discriminate.
  match type of H with context [obind (if ?c then ?x else ?y) _] => set (m := if c then x else y) in H end.
  destruct m as [[v6 q6]| |] eqn:Em; cbn [obind] in H; try discriminate.
  destruct (r_err q6) eqn:F6; [discriminate|].
  assert (M : r_err q5 = false /\ (forall rp5, exact q5 rp5 -> exists rp6,
     (if (v1 =? 65534) && (26 <=? size) then (let r := seek_check sk 8 rp5 in obind (read_uint16 junk' r) (fun '(c, r) => Ok (c, seek_check sk (size - 26) r))) else Ok (v1, seek_check sk (size - 16) rp5)) = Ok (v6, rp6) /\ loose q6 rp6)).
  { subst m. destruct ((v1 =? 65534) && (26 <=? size)).
    - cbv zeta in Em |- *. destruct (read_uint16 junk (seek_check sk 8 q5)) as [[c q7]| |] eqn:E7; cbn [obind] in Em; try discriminate. injection Em as <- <-.
      pose proof (seek_mono _ _ _ F6) as F7. pose proof (u16_mono _ _ _ _ E7 F7) as F8. pose proof (seek_mono _ _ _ F8) as F5. split; [exact F5|].
      intros rp5 X5. destruct (sim_u16 _ _ _ _ (sim_seek 8 _ _ X5 F8) E7 F7) as (rp7 & -> & X7). cbn [obind]. eexists. split; [reflexivity|]. now apply sim_seek.
    - injection Em as <- <-. split; [now apply seek_mono in F6|]. intros rp5 X5. eexists. split; [reflexivity|]. now apply sim_seek. }
  destruct M as [F5 M]. pose proof (u16_mono _ _ _ _ E5 F5) as F4. pose proof (u16_mono _ _ _ _ E4 F4) as F3'. pose proof (seek_mono _ _ _ F3') as F3. pose proof (u32_mono _ _ _ _ E3 F3) as F2. pose proof (u16_mono _ _ _ _ E2 F2) as F1.
  destruct (sim_u16 _ _ _ _ (exact_loose _ _ X) E1 F1) as (p1 & -> & X1). cbn [obind].
  destruct (sim_u16 _ _ _ _ (exact_loose _ _ X1) E2 F2) as (p2 & -> & X2). cbn [obind].
  destruct (sim_u32 _ _ _ _ (exact_loose _ _ X2) E3 F3) as (p3 & -> & X3). cbn [obind].
  destruct (sim_u16 _ _ _ _ (sim_seek 4 _ _ X3 F3') E4 F4) as (p4 & -> & X4). cbn [obind].
  destruct (sim_u16 _ _ _ _ (exact_loose _ _ X4) E5 F5) as (p5 & -> & X5). cbn [obind].
  destruct (M p5 X5) as (p6 & Em' & X6). cbv zeta in Em'. cbv zeta. rewrite Em'. cbn [obind]. destruct X6 as (Y1 & Y2 & Y3). rewrite Y1.
  destruct (v2 =? 0); [discriminate|]. destruct (select_format v6 v5 i) as [[|] i']; [|discriminate]. injection H as <- <-. exists p6. split; [reflexivity|]. split; auto.
Qed.
Lemma sim_fact r rp i size r1 i1 : exact r rp -> read_fact_chunk junk r i size = Ok (true, r1, i1) -> r_err r1 = false ->
  exists rp1, read_fact_chunk junk' rp i size = Ok (true, rp1, i1) /\ loose r1 rp1.
Proof.
  intros X H E. unfold read_fact_chunk in *. destruct (_ || _); [discriminate|].
  destruct (read_uint32 junk r) as [[v q]| |] eqn:E1; cbn [obind] in H; try discriminate. destruct (_ <? v) eqn:C; [discriminate|]. injection H as <- <-.
  destruct (sim_u32 _ _ _ _ (exact_loose _ _ X) E1 E) as (p & -> & X1). cbn [obind]. rewrite C. exists p. split; [reflexivity|now apply exact_loose].
Qed.

Lemma fmt_mono r i size b r1 i1 : read_fmt_chunk sk junk r i size = Ok (b, r1, i1) -> r_err r1 = false -> r_err r = false.
Proof.
  intros H E. unfold read_fmt_chunk in *. destruct (size <? 16); [now injection H as <- <- <-|].
  destruct (read_uint16 junk r) as [[v1 q1]| |] eqn:E1; cbn [obind] in H; try discriminate.
  destruct (read_uint16 junk q1) as [[v2 q2]| |] eqn:E2; cbn [obind] in H; try discriminate.
  destruct (read_uint32 junk q2) as [[v3 q3]| |] eqn:E3; cbn [obind] in H; try discriminate.
  destruct (read_uint16 junk (seek_check sk 4 q3)) as [[v4 q4]| |] eqn:E4; cbn [obind] in H; try discriminate.
  destruct (read_uint16 junk q4) as [[v5 q5]| |] eqn:E5; cbn [obind] in H; try discriminate.
  match type of H with context [obind (if ?c then ?x else ?y) _] => set (m := if c then x else y) in H end.
  destruct m as [[v6 q6]| |] eqn:Em; cbn [obind] in H; try discriminate.
  assert (Q : r1 = q6) by (destruct (r_err q6); [now injection H as <- <- <-|]; destruct (v2 =? 0); [now injection H as <- <- <-|]; destruct (select_format v6 v5 i) as [[|] i']; now injection H as <- <- <-). subst r1.
  assert (F5 : r_err q5 = false).
  { subst m. destruct (_ && _).
    - cbv zeta in Em. destruct (read_uint16 junk (seek_check sk 8 q5)) as [[c q7]| |] eqn:E7; cbn [obind] in Em; try discriminate. injection Em as <- <-. eauto using seek_mono, u16_mono.
    - injection Em as <- <-. eauto using seek_mono. }
  eapply u16_mono; [exact E1|]. eapply u16_mono; [exact E2|]. eapply u32_mono; [exact E3|]. eapply (seek_mono sk 4). eapply u16_mono; [exact E4|]. eapply u16_mono; eassumption.
Qed.
Lemma fact_mono r i size b r1 i1 : read_fact_chunk junk r i size = Ok (b, r1, i1) -> r_err r1 = false -> r_err r = false.
Proof.
  intros H E. unfold read_fact_chunk in *. destruct (_ || _); [now injection H as <- <- <-|].
  destruct (read_uint32 junk r) as [[v q]| |] eqn:E1; cbn [obind] in H; try discriminate.
  assert (Q : r1 = q) by (destruct (_ <? v); now injection H as <- <- <-). subst r1. eapply u32_mono; eassumption.
Qed.

Lemma sim_loop fuel : forall fuel' id r rp i r1 i1, (fuel <= fuel')%nat -> length id = 4%nat -> loose r rp ->
  chunk_loop sk custom junk fuel id r i = Ok (true, r1, i1) -> r_err r1 = false ->
  exists rp1, chunk_loop sk custom junk' fuel' id rp i = Ok (true, rp1, i1) /\ exact r1 rp1.
Proof.
  induction fuel as [|fuel IH]; intros fuel' id r rp i r1 i1 HF HI X H E; [discriminate|]. destruct fuel' as [|fuel']; [lia|]. cbn [chunk_loop] in *.
  destruct (read_check id r) as [id1 q1] eqn:E1. destruct (read_uint32 junk q1) as [[size q2]| |] eqn:E2; cbn [obind] in H; try discriminate.
  assert (LI : length id1 = 4%nat) by (unfold read_check in E1; injection E1 as <- <-; rewrite app_length, skipn_length, firstn_length; lia).
  assert (K : r_err q2 = false -> exists p1 p2, read_check id rp = (id1, p1) /\ read_uint32 junk' p1 = Ok (size, p2) /\ exact q2 p2).
  { intros F2. pose proof (u32_mono _ _ _ _ E2 F2) as F1. destruct (sim_read id id r rp id1 q1 X E1 F1 eq_refl) as (p1 & R1 & X1); [intros Z; rewrite Z in HI; discriminate|].
    destruct (sim_u32 _ _ _ _ (exact_loose _ _ X1) E2 F2) as (p2 & R2 & X2). exists p1, p2. auto. }
  destruct (bytes_eqb id1 id_fmt) eqn:B1.
  { destruct (read_fmt_chunk sk junk q2 i size) as [[[b q3] i3]| |] eqn:E3; cbn [obind] in H; try discriminate. destruct b; [|discriminate]. destruct (r_err q3) eqn:F3; [discriminate|].
    destruct (K (fmt_mono _ _ _ _ _ _ E3 F3)) as (p1 & p2 & -> & R2 & X2). rewrite R2. cbn [obind]. rewrite B1. destruct (sim_fmt _ _ _ _ _ _ _ X2 E3 F3 eq_refl) as (p3 & -> & X3). cbn [obind].
    rewrite (proj1 X3). apply (IH fuel' id1 q3 p3 i3 r1 i1); try assumption. lia. }
  destruct (bytes_eqb id1 id_fact) eqn:B2.
  { destruct (read_fact_chunk junk q2 i size) as [[[b q3] i3]| |] eqn:E3; cbn [obind] in H; try discriminate. destruct b; [|discriminate]. destruct (r_err q3) eqn:F3; [discriminate|].
    destruct (K (fact_mono _ _ _ _ _ _ E3 F3)) as (p1 & p2 & -> & R2 & X2). rewrite R2. cbn [obind]. rewrite B1, B2. destruct (sim_fact _ _ _ _ _ _ X2 E3 F3) as (p3 & -> & X3). cbn [obind].
    rewrite (proj1 X3). apply (IH fuel' id1 q3 p3 i3 r1 i1); try assumption. lia. }
  destruct (bytes_eqb id1 id_data) eqn:B3.
  { destruct (num_channels i =? 0) eqn:C; [discriminate|]. destruct (negb (Z.quot (bit_depth i) 8 =? 0)) eqn:D; cbn [oguard] in H; [|discriminate]. injection H as <- <-.
    destruct (K E) as (p1 & p2 & -> & R2 & X2). rewrite R2. cbn [obind]. rewrite B1, B2, B3; rewrite ?C, ?D; cbn [oguard]. exists p2. auto. }
  destruct custom.
  - destruct (read_check (uninit junk (Z.to_nat size)) q2) as [data q3] eqn:E3. cbn [r_err] in H. destruct (r_err q3) eqn:F3; [discriminate|].
    destruct (K (read_check_mono _ _ _ _ E3 F3)) as (p1 & p2 & -> & R2 & X2). rewrite R2. cbn [obind]. rewrite B1, B2, B3.
    destruct (sim_read_exact _ (uninit junk' (Z.to_nat size)) _ _ _ _ X2 E3 F3) as (p3 & -> & X3); [now rewrite !uninit_length|]. cbn [r_err]. destruct X3 as (Y1 & Y2 & Y3). rewrite Y1.
    eapply (IH fuel' id1); [lia|exact LI| |exact H|exact E]. split; [reflexivity|]. cbn [r_log r_rest]. split; [now rewrite Y2|]. now left.
  - destruct (r_err (seek_check sk size q2)) eqn:F3; [discriminate|].
    destruct (K (seek_mono _ _ _ F3)) as (p1 & p2 & -> & R2 & X2). rewrite R2. cbn [obind]. rewrite B1, B2, B3. pose proof (sim_seek size _ _ X2 F3) as X3. rewrite (proj1 X3).
    apply (IH fuel' id1 (seek_check sk size q2) (seek_check sk size p2) i r1 i1); try assumption. lia.
Qed.

Lemma sim_header file i0 r i : read_wav_header sk custom junk (Some (open_reader file)) (Some i0) = Ok (1, Some r, Some i) -> r_err r = false ->
  exists rp, read_wav_header sk custom junk' (Some (open_reader (file ++ more))) (Some i0) = Ok (1, Some rp, Some i) /\ exact r rp.
Proof.
  unfold read_wav_header, open_reader. intros H E.
  destruct (header_body sk custom junk _ i0) as [[[b r1] i1]| |] eqn:E0; cbn [obind] in H; try discriminate. destruct b; [|discriminate]. injection H as -> ->.
  unfold header_body in *. cbn [r_rest r_log] in *.
  destruct (read_check (uninit junk 4) _) as [id q1] eqn:E1. destruct (bytes_eqb id id_riff) eqn:B1; cbn [negb] in E0; [|discriminate].
  destruct (read_check id (seek_check sk 4 q1)) as [id2 q2] eqn:E2. destruct (bytes_eqb id2 id_wave) eqn:B2; cbn [negb] in E0; [|discriminate]. destruct (r_err q2) eqn:F2; [discriminate|].
  pose proof (read_check_mono _ _ _ _ E2 F2) as F1'. pose proof (seek_mono _ _ _ F1') as F1.
  assert (X0 : exact {| r_rest := file; r_err := false; r_log := [] |} {| r_rest := file ++ more; r_err := false; r_log := [] |}) by (repeat split).
  destruct (sim_read_exact _ (uninit junk' 4) _ _ _ _ X0 E1 F1) as (p1 & -> & X1); [now rewrite !uninit_length|]. rewrite B1. cbn [negb].
  apply bytes_eqb_spec in B1. assert (LI : length id = 4%nat) by now rewrite B1.
  destruct (sim_read id id _ _ _ _ (sim_seek 4 _ _ X1 F1') E2 F2 eq_refl) as (p2 & -> & X2); [intros Z; rewrite Z in LI; discriminate|]. rewrite B2. cbn [negb]. rewrite (proj1 X2).
  apply bytes_eqb_spec in B2. assert (L2 : length id2 = 4%nat) by now rewrite B2.
  assert (LL : (S (length (r_rest q2)) <= S (length (r_rest p2)))%nat) by (rewrite (proj2 (proj2 X2)), app_length; lia).
  destruct (sim_loop _ _ id2 q2 p2 _ r i LL L2 (exact_loose _ _ X2) E0 E) as (rp & -> & X3). cbn [obind]. exists rp. auto.
Qed.
End R.

(* ---- accounting of a read ---- *)
Lemma sample_loop_length junk f n : forall i r vs r' st, sample_loop junk f n i r = Ok (vs, r', st) ->
  if st : bool then (length vs < n)%nat /\ r_err r' = true else length vs = n.
Proof.
  induction n as [|n IH]; intros i r vs r' st H; cbn [sample_loop] in H.
  - injection H as <- <- <-. reflexivity.
  - destruct (read_sample junk f i r) as [[v r1]| |]; cbn [obind] in H; try discriminate. destruct (r_err r1) eqn:E.
    + injection H as <- <- <-. cbn. split; [lia|exact E].
    + destruct (sample_loop junk f n i r1) as [[[vs1 r2] e]| |] eqn:L; cbn [obind] in H; try discriminate. injection H as <- <- <-.
      specialize (IH _ _ _ _ _ L). destruct e; cbn [length]; [destruct IH; split; [lia|assumption]|now f_equal].
Qed.
Lemma read_accounting junk f r i n vs r' i' : 0 < num_channels i -> read_samples junk f r i n = Ok (vs, r', i') ->
  num_channels i' = num_channels i /\ Z.of_nat (length vs) mod num_channels i = 0 /\ Z.of_nat (length vs) <= Z.max 0 n /\
  (remaining_samples i' = remaining_samples i - Z.of_nat (length vs) \/
   (remaining_samples i' = 0 /\ r_err r' = true /\ Z.of_nat (length vs) < n /\ Z.of_nat (length vs) < remaining_samples i)).
Proof.
  intros HC. unfold read_samples.
  assert (T : forall q : reader, num_channels i = num_channels i /\ Z.of_nat (length (@nil Z)) mod num_channels i = 0 /\ Z.of_nat (length (@nil Z)) <= Z.max 0 n /\ (remaining_samples i = remaining_samples i - Z.of_nat (length (@nil Z)) \/ (remaining_samples i = 0 /\ r_err q = true /\ Z.of_nat (length (@nil Z)) < n /\ Z.of_nat (length (@nil Z)) < remaining_samples i))).
  { intros q. cbn [length Z.of_nat]. split; [reflexivity|]. split; [apply Z.mod_0_l; lia|]. split; [lia|]. left. lia. }
  destruct (_ && _); [intros H; injection H as <- <- <-; apply T|].
  destruct ((remaining_samples i <? num_channels i) || (n <=? 0)) eqn:G; [intros H; injection H as <- <- <-; apply T|].
  replace (num_channels i =? 0) with false by lia. cbn [oguard negb].
  set (m := if n <? remaining_samples i then n else remaining_samples i).
  match goal with |- (if ?b then _ else _) = _ -> _ => destruct b end; [intros H; injection H as <- <- <-; apply T|].
  assert (HM : 0 <= m /\ m <= n /\ m <= remaining_samples i) by (subst m; apply orb_false_iff in G; destruct G; destruct (Z.ltb_spec n (remaining_samples i)); lia).
  set (k := m - m mod num_channels i).
  assert (HK : 0 <= k <= m /\ k mod num_channels i = 0).
  { subst k. pose proof (Z.mod_pos_bound m (num_channels i) HC). pose proof (Z.mod_le m (num_channels i) ltac:(lia) HC). split; [lia|]. rewrite Zminus_mod, Zmod_mod, Z.sub_diag. apply Z.mod_0_l. lia. }
  destruct (sample_loop _ _ _ _ _) as [[[vs0 r0] st]| |] eqn:L; cbn [obind]; try discriminate. apply sample_loop_length in L.
  destruct st; intros H; injection H as <- <- <-; cbn [num_channels remaining_samples set_remaining].
  - destruct L as [L1 L2]. set (j := Z.of_nat (length vs0)) in *. assert (HJ : 0 <= j /\ j < k) by (subst j; lia).
    pose proof (Z.mod_pos_bound j (num_channels i) HC). pose proof (Z.mod_le j (num_channels i) ltac:(lia) HC).
    assert (LF : Z.of_nat (length (firstn (Z.to_nat (j - j mod num_channels i)) vs0)) = j - j mod num_channels i) by (rewrite firstn_length; lia).
    rewrite LF. split; [reflexivity|]. split; [rewrite Zminus_mod, Zmod_mod, Z.sub_diag; apply Z.mod_0_l; lia|]. split; [lia|]. right. split; [reflexivity|]. split; [exact L2|]. lia.
  - rewrite L, Z2Nat.id by lia. split; [reflexivity|]. split; [apply HK|]. split; [lia|]. left. reflexivity.
Qed.

(* ---- WriteWavFile for any write function ---- *)
From Verif Require Import WavPropsProofs.
Lemma write_file_reports {IO} (wf : list Z -> IO -> IO * Z) ok io fclose samples n rate ch s :
  write_wav_file (watch wf) ok (Some (io, true)) fclose samples n rate ch = Ok (Some s, 1) ->
  ok = true /\ 0 < rate /\ 0 < ch /\ n mod ch = 0 /\ n <= (UINT32_MAX - 60) / 2 /\ fclose s = true /\
  exists w, write_wav_header (watch wf) {| ww_io := (io, true); ww_err := false |} n rate ch = Ok (w, 1) /\ snd (ww_io w) = true.
Proof.
  unfold write_wav_file. destruct (_ || _) eqn:G; [discriminate|].
  destruct (write_wav_header _ _ _ _ _) as [[w res]| |] eqn:H; cbn [obind]; try discriminate.
  destruct (header_reports wf io false n rate ch w res H) as [A B].
  destruct (ww_err w) eqn:E; [discriminate|]. destruct (snd (ww_io w)) eqn:S1; [|discriminate]. subst res.
  destruct (write_wav_samples _ _ _ _) as [[w2 r2]| |] eqn:H2; cbn [obind]; try discriminate.
  destruct (fclose (ww_io w2)) eqn:C; cbn [negb]; [|discriminate]. intros X. injection X as <-.
  repeat (apply orb_false_iff in G; destruct G as [G ?]). destruct ok; [|discriminate].
  split; [reflexivity|]. split; [lia|]. split; [lia|]. split; [lia|]. split; [lia|]. split; [exact C|]. exists w. auto.
Qed.
Lemma write_file_refuses {IO} (wf : list Z -> IO -> IO * Z) ok fo fclose samples n rate ch :
  ok = false \/ rate <= 0 \/ ch <= 0 \/ n mod ch <> 0 \/ (UINT32_MAX - 60) / 2 < n \/ fo = None ->
  write_wav_file wf ok fo fclose samples n rate ch = Ok (None, 0).
Proof.
  intros H. unfold write_wav_file. destruct (_ || _) eqn:G; [reflexivity|].
  repeat (apply orb_false_iff in G; destruct G as [G ?]). destruct fo; [|reflexivity].
  exfalso. destruct H as [->|[H|[H|[H|[H|H]]]]]; try discriminate; lia.
Qed.

(* ---- the file written is a well formed RIFF file ---- *)
From Verif Require Import WavWriteProofs.
Lemma concat_le2 l : length (concat (map (little_endian 2) l)) = (2 * length l)%nat.
Proof. induction l as [|x l IH]; [reflexivity|]. cbn [map concat]. rewrite app_length, little_endian_length, IH. cbn [length]. lia. Qed.
Lemma field_app_l p n a b : (p + n <= length a)%nat -> field p n (a ++ b) = field p n a.
Proof.
  intros H. unfold field. rewrite skipn_app, firstn_app, skipn_length. replace (n - (length a - p))%nat with 0%nat by lia. cbn [firstn]. now rewrite app_nil_r.
Qed.
Lemma field_here a b n v : length a = n -> field n 2 (a ++ little_endian 2 v ++ b) = v mod 65536.
Proof. intros <-. unfold field. rewrite skipn_exact by reflexivity. rewrite firstn_exact by apply little_endian_length. apply le_value_little_endian. Qed.
Lemma field_here4 a b n v : length a = n -> field n 4 (a ++ little_endian 4 v ++ b) = v mod 2 ^ 32.
Proof. intros <-. unfold field. rewrite skipn_exact by reflexivity. rewrite firstn_exact by apply little_endian_length. apply le_value_little_endian. Qed.

Lemma written_well_formed samples ch rate : 0 < ch < 32768 -> 0 < rate -> ch * 2 * rate <= INT_MAX -> Z.of_nat (length samples) <= (UINT32_MAX - 72) / 2 ->
  let n := Z.of_nat (length samples) in let file := written_file samples ch rate in
  file = wave_file (little_endian 4 (Z.of_nat (length file) - 8))
    ((id_fmt, fmt_body ch rate) :: (if 2 <? ch then [(id_fact, little_endian 4 (n / ch))] else []) ++ [(id_data, concat (map (little_endian 2) samples))]) [] /\
  Z.of_nat (length file) - 8 < 2 ^ 32 /\
  let body := fmt_body ch rate in
  length body = (if (2 <? ch)%Z then 40 else 16)%nat /\ field 0 2 body = (if 2 <? ch then 65534 else 1) /\ field 2 2 body = ch /\ field 4 4 body = rate /\
  field 8 4 body = ch * 2 * rate /\ field 12 2 body = ch * 2 /\ field 14 2 body = 16 /\
  (2 < ch -> field 16 2 body = 22 /\ field 18 2 body = 16 /\ field 20 4 body = 0 /\ field 24 2 body = 1 /\ skipn 26 body = pcm_guid).
Proof.
  intros Hc Hr Ho Hn n file.
  assert (Hn' : n <= 2147483611) by exact Hn. assert (Hp : 0 <= n) by (subst n; lia).
  assert (LF : Z.of_nat (length file) = 28 + (if 2 <? ch then 40 else 16) + (if 2 <? ch then 12 else 0) + 2 * n).
  { unfold file, written_file, wave_file, written_chunks, size_field, data_header, chunk_bytes. fold n. rewrite !app_length, little_endian_length. cbn [map concat fst snd]. destruct (2 <? ch) eqn:E; cbn [map concat fst snd];
    rewrite ?app_length, ?fmt_body_length, ?little_endian_length, ?concat_le2, ?E; cbn [length id_riff id_wave id_fmt id_fact id_data]; subst n; lia. }
  split; [|split; [rewrite LF; destruct (2 <? ch); change (2 ^ 32) with 4294967296; lia|]].
  - rewrite LF. unfold file, written_file, wave_file, written_chunks, size_field, data_header. fold n. rewrite (Z.mod_small (2 * n)) by lia.
    replace (28 + (if 2 <? ch then 40 else 16) + (if 2 <? ch then 12 else 0) + 2 * n - 8) with (20 + (if 2 <? ch then 40 else 16) + (if 2 <? ch then 12 else 0) + 2 * n) by lia.
    rewrite <- !app_assoc. do 3 f_equal. destruct (2 <? ch); cbn [map concat app]; unfold chunk_bytes; cbn [fst snd]; rewrite concat_le2; replace (Z.of_nat (2 * length samples)) with (2 * n) by (subst n; lia); rewrite <- !app_assoc, ?app_nil_r; reflexivity.
  - cbv zeta. split; [apply fmt_body_length|]. unfold fmt_body.
    set (e1 := little_endian 2 (if 2 <? ch then 65534 else 1)). set (tail := if 2 <? ch then _ else []).
    assert (L1 : length e1 = 2%nat) by apply little_endian_length.
    split; [etransitivity; [apply (field_here [] _ 0 (if 2 <? ch then 65534 else 1) eq_refl)|destruct (2 <? ch); reflexivity]|].
    split; [rewrite (field_here e1 _ 2 ch L1); apply Z.mod_small; lia|].
    split; [rewrite app_assoc, (field_here4 _ _ 4 rate) by (rewrite app_length, L1, little_endian_length; reflexivity); apply Z.mod_small; unfold INT_MAX in *; nia|].
    split; [do 2 rewrite app_assoc; rewrite (field_here4 _ _ 8 (ch * 2 * rate)) by (rewrite !app_length, L1, !little_endian_length; reflexivity); apply Z.mod_small; unfold INT_MAX in *; nia|].
    split; [do 3 rewrite app_assoc; rewrite (field_here _ _ 12 (ch * 2)) by (rewrite !app_length, L1, !little_endian_length; reflexivity); apply Z.mod_small; lia|].
    split; [do 4 rewrite app_assoc; rewrite (field_here _ _ 14 16) by (rewrite !app_length, L1, !little_endian_length; reflexivity); reflexivity|].
    intros H2. subst tail. replace (2 <? ch) with true by lia.
    set (h := e1 ++ little_endian 2 ch ++ little_endian 4 rate ++ little_endian 4 (ch * 2 * rate) ++ little_endian 2 (ch * 2) ++ little_endian 2 16).
    assert (LH : length h = 16%nat) by (unfold h; rewrite !app_length, L1, !little_endian_length; reflexivity).
    replace (e1 ++ little_endian 2 ch ++ little_endian 4 rate ++ little_endian 4 (ch * 2 * rate) ++ little_endian 2 (ch * 2) ++ little_endian 2 16 ++ little_endian 2 22 ++ little_endian 2 16 ++ little_endian 4 0 ++ little_endian 2 1 ++ pcm_guid)
      with (h ++ little_endian 2 22 ++ little_endian 2 16 ++ little_endian 4 0 ++ little_endian 2 1 ++ pcm_guid) by (unfold h; now rewrite <- !app_assoc).
    clearbody h. split; [apply (field_here h _ 16 22 LH)|].
    split; [rewrite app_assoc; apply (field_here _ _ 18 16); rewrite app_length, LH; reflexivity|].
    split; [do 2 rewrite app_assoc; apply (field_here4 _ _ 20 0); rewrite !app_length, LH; reflexivity|].
    split; [do 3 rewrite app_assoc; apply (field_here _ _ 24 1); rewrite !app_length, LH; reflexivity|].
    do 4 rewrite app_assoc. apply skipn_exact. rewrite !app_length, LH. reflexivity.
Qed.

Lemma written_size_field samples ch rate : let n := Z.of_nat (length samples) in 2 < ch -> 0 <= n <= 2147483617 ->
  Z.of_nat (length (written_file samples ch rate)) = 80 + 2 * n /\ le_value (firstn 4 (skipn 4 (written_file samples ch rate))) = (72 + 2 * n) mod 2 ^ 32.
Proof.
  intros n H2 Hn. assert (E : (2 <? ch) = true) by lia. split.
  - unfold written_file, wave_file, written_chunks, size_field, data_header, chunk_bytes. fold n. rewrite E, !app_length, little_endian_length. cbn [map concat fst snd].
    rewrite ?app_length, ?fmt_body_length, ?little_endian_length, ?concat_le2, ?E; cbn [length id_riff id_wave id_fmt id_fact id_data]; subst n; lia.
  - unfold written_file, wave_file. fold n. rewrite <- !app_assoc. rewrite skipn_exact by reflexivity. rewrite firstn_exact by apply little_endian_length. unfold size_field. rewrite E, le_value_little_endian. rewrite (Z.mod_small (2 * n)) by (change (2 ^ 32) with 4294967296; lia). f_equal; lia.
Qed.
