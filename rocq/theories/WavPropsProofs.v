From Verif Require Import CInt ListLemmas SerializeModel SerializeSpec SerializeProofs WavModel WavSpec WavProofs WavHeaderProofs WavFileProofs.

Lemma filter_neg {A} (f : A -> bool) l : filter f (filter (fun c => negb (f c)) l) = [].
Proof.
  induction l as [|c l IH]; [reflexivity|]. cbn [filter].
  destruct (f c) eqn:E; cbn [negb filter]; [|rewrite E]; apply IH.
Qed.

Lemma header_known sk custom junk size chunks dsize payload i0 :
  length size = 4%nat -> Forall chunk_ok chunks -> Forall (fun c => fst c <> id_data) chunks ->
  0 <= dsize < 2 ^ 32 ->
  let known := filter (fun c => negb (unknown c)) chunks in
  exists ok r1 r2 i,
    read_wav_header sk custom junk
      (Some (open_reader (wave_file size chunks (data_header dsize ++ payload)))) (Some i0)
      = Ok (ok, Some r1, Some i) /\
    read_wav_header sk custom junk
      (Some (open_reader (wave_file size known (data_header dsize ++ payload)))) (Some i0)
      = Ok (ok, Some r2, Some i) /\
    (ok = 1 ->
       r_rest r1 = payload /\ r_rest r2 = payload /\ r_err r1 = false /\ r_err r2 = false /\
       r_log r1 = (if custom then filter unknown chunks else []) /\ r_log r2 = []).
Proof.
  intros LS CK ND HD known.
  assert (CK' : Forall chunk_ok known) by (subst known; apply Forall_forall; intros x Hx; apply filter_In in Hx; rewrite Forall_forall in CK; apply CK, Hx).
  assert (ND' : Forall (fun c => fst c <> id_data) known) by (subst known; apply Forall_forall; intros x Hx; apply filter_In in Hx; rewrite Forall_forall in ND; apply ND, Hx).
  destruct (header_parse sk custom junk size chunks dsize payload false i0 LS CK ND HD) as (r1 & E1 & X1).
  destruct (header_parse sk custom junk size known dsize payload false i0 LS CK' ND' HD) as (r2 & E2 & X2).
  cbv zeta in *. unfold known in E2, X2. rewrite interpret_known in E2, X2. fold known in E2, X2.
  unfold read_wav_header, open_reader. rewrite E1, E2. cbn [obind].
  destruct (interpret chunks (set_channels i0 0)) as [[|] i]; cbn [fst snd] in *.
  - destruct (X1 eq_refl) as [-> _]. destruct (X2 eq_refl) as [-> _].
    do 4 eexists. split; [reflexivity|]. split; [reflexivity|]. intros _. cbn [r_rest r_err r_log].
    unfold known. rewrite filter_neg. repeat split; auto. destruct custom; auto.
  - do 4 eexists. split; [reflexivity|]. split; [reflexivity|]. discriminate.
Qed.

(* ---- serve ---- *)
Lemma floor_to_le ch n : (0 < ch)%nat -> (floor_to ch n <= n)%nat.
Proof. intros. unfold floor_to. rewrite Nat.mul_comm. apply Nat.mul_div_le. lia. Qed.

Lemma concat_serve ch reqs : forall l,
  concat (serve ch l reqs) = firstn (list_sum (map (floor_to ch) reqs)) l.
Proof.
  induction reqs as [|n reqs IH]; intros l; [reflexivity|].
  cbn [serve map list_sum concat fold_right]. rewrite IH.
  fold (list_sum (map (floor_to ch) reqs)).
  rewrite <- (firstn_skipn (floor_to ch n) l) at 3.
  rewrite firstn_app, firstn_firstn.
  replace (min (floor_to ch n + list_sum (map (floor_to ch) reqs)) (floor_to ch n)) with (floor_to ch n) by lia.
  f_equal. rewrite firstn_length.
  destruct (Nat.le_gt_cases (floor_to ch n) (length l)).
  - f_equal. lia.
  - rewrite skipn_all2 by lia. now rewrite !firstn_nil.
Qed.

Lemma floor_to_mod ch n : (0 < ch)%nat -> (floor_to ch n mod ch = 0)%nat.
Proof. intros. unfold floor_to. apply Nat.mod_mul. lia. Qed.

Lemma firstn_floor_length ch n {A} (l : list A) : (0 < ch)%nat -> (length l mod ch = 0)%nat ->
  (length (firstn (floor_to ch n) l) mod ch = 0)%nat.
Proof.
  intros H E. rewrite firstn_length. destruct (Nat.min_spec (floor_to ch n) (length l)) as [[_ ->]|[_ ->]]; auto.
  now apply floor_to_mod.
Qed.

Lemma mod_sub a b ch : (0 < ch)%nat -> (a mod ch = 0 -> b mod ch = 0 -> (a - b) mod ch = 0)%nat.
Proof.
  intros H Ha Hb. apply Nat.mod_divide in Ha, Hb; try lia. apply Nat.mod_divide; try lia.
  now apply Nat.divide_sub_r.
Qed.

Lemma serve_frames ch reqs : (0 < ch)%nat -> forall l, (length l mod ch = 0)%nat ->
  Forall (fun vs => (length vs mod ch = 0)%nat) (serve ch l reqs).
Proof.
  intros H. induction reqs as [|n reqs IH]; intros l E; cbn [serve]; constructor.
  - now apply firstn_floor_length.
  - apply IH. rewrite skipn_length. apply mod_sub; auto.
    apply floor_to_mod; auto.
Qed.

Lemma deliverable_frames f e wide ch n l : (0 < ch)%nat ->
  (length (deliverable f e wide ch n l) mod ch = 0)%nat.
Proof.
  intros H. unfold deliverable. cbv zeta. rewrite firstn_length.
  set (d := decode f e wide l).
  pose proof (floor_to_le ch (min n (length d)) H).
  replace (min (floor_to ch (min n (length d))) (length d)) with (floor_to ch (min n (length d))) by lia.
  now apply floor_to_mod.
Qed.

(* Streaming after a header that was read successfully. *)
Lemma stream_after_header sk custom junk f file i0 r i wide :
  Forall is_byte file ->
  read_wav_header sk custom junk (Some (open_reader file)) (Some i0) = Ok (1, Some r, Some i) ->
  let info := if wide : bool then upgrade_info i else i in
  let ch := Z.to_nat (num_channels i) in
  let all := deliverable f (enc i) (wide && match fmt i with FInt16 => true | _ => false end)
               ch (Z.to_nat (remaining_samples i)) (r_rest r) in
  (0 < ch)%nat /\
  forall reqs, exists s', run (read_step f junk) (r, info) reqs = Ok (s', serve ch all reqs).
Proof.
  intros F E info ch all.
  unfold read_wav_header in E.
  destruct (header_total sk custom junk file i0 F false []) as (b & r' & i' & EH & G & X).
  unfold open_reader in E. rewrite EH in E. cbn [obind] in E.
  destruct b; [|discriminate]. injection E as <- <-.
  destruct (X eq_refl) as (CO & _ & FC & _). split.
  { subst ch. destruct CO. lia. }
  intros reqs.
  assert (CI : coherent info (wide && match fmt i' with FInt16 => true | _ => false end)).
  { subst info. destruct CO as (A & B & C). unfold fmt_coherent in FC. unfold upgrade_info.
    destruct wide; cbn [andb].
    - destruct (fmt i') eqn:EF; unfold coherent; cbn; (split; [lia|]); (split; [lia|]);
        destruct (enc i') eqn:EE; intuition congruence.
    - unfold coherent. auto. }
  destruct (serve_run junk f info _ r' reqs CI G) as (s' & ES & _).
  exists s'. rewrite ES. do 2 f_equal.
  subst all ch info. unfold avail. destruct wide; [|reflexivity].
  unfold upgrade_info. destruct (fmt i'); reflexivity.
Qed.

(* ---- remaining_samples ---- *)
Lemma read_samples_remaining junk f r i n vs r' i' :
  0 < num_channels i -> remaining_samples i mod num_channels i = 0 ->
  read_samples junk f r i n = Ok (vs, r', i') ->
  num_channels i' = num_channels i /\ remaining_samples i' mod num_channels i' = 0.
Proof.
  intros HC HM. unfold read_samples.
  destruct (_ && _); [intros H; injection H as <- <- <-; auto|].
  destruct (_ || _); [intros H; injection H as <- <- <-; auto|].
  replace (num_channels i =? 0) with false by lia. cbn [oguard negb].
  set (m := if n <? remaining_samples i then n else remaining_samples i).
  match goal with |- (if ?b then _ else _) = _ -> _ => destruct b end; [intros H; injection H as <- <- <-; auto|].
  destruct (sample_loop _ _ _ _ _) as [[[vs0 r0] st]| |]; cbn [obind]; try discriminate.
  destruct st; intros H; injection H as <- <- <-; cbn [num_channels remaining_samples set_remaining]; split; auto.
  rewrite Zminus_mod, HM.
  replace ((m - m mod num_channels i) mod num_channels i) with 0.
  { apply Z.mod_0_l. lia. }
  symmetry. rewrite Zminus_mod, Zmod_mod, Z.sub_diag. apply Z.mod_0_l. lia.
Qed.

Lemma run_remaining junk f reqs : forall s s' outs,
  0 < num_channels (snd s) -> remaining_samples (snd s) mod num_channels (snd s) = 0 ->
  run (read_step f junk) s reqs = Ok (s', outs) ->
  remaining_samples (snd s') mod num_channels (snd s') = 0.
Proof.
  induction reqs as [|n reqs IH]; intros [r i] s' outs HC HM; cbn [run].
  - intros H; injection H as <- <-. auto.
  - unfold read_step at 1. cbn [fst snd] in *.
    destruct (read_samples junk f r i (Z.of_nat n)) as [[[vs r1] i1]| |] eqn:E; cbn [omap obind fst snd]; try discriminate.
    destruct (read_samples_remaining junk f r i _ vs r1 i1 HC HM E) as [E1 E2].
    destruct (run (read_step f junk) (r1, i1) reqs) as [[s2 o2]| |] eqn:ER; cbn [obind fst snd]; try discriminate.
    intros H. injection H as <- <-. eapply IH; [| |exact ER]; cbn [snd]; auto. lia.
Qed.

Lemma whole_frames sk custom junk f size chunks frames payload i0 r i :
  length size = 4%nat -> Forall chunk_ok chunks -> Forall (fun c => fst c <> id_data) chunks ->
  forall dsize, 0 <= dsize < 2 ^ 32 ->
  read_wav_header sk custom junk
    (Some (open_reader (wave_file size chunks (data_header dsize ++ payload)))) (Some i0)
    = Ok (1, Some r, Some i) ->
  dsize = frames * (num_channels i * Z.of_nat (width (enc i))) ->
  remaining_samples i = frames * num_channels i /\
  forall reqs s' outs, run (read_step f junk) (r, i) reqs = Ok (s', outs) ->
    remaining_samples (snd s') mod num_channels (snd s') = 0.
Proof.
  intros LS CK ND dsize HD E ED.
  destruct (header_parse sk custom junk size chunks dsize payload false i0 LS CK ND HD) as (r1 & E1 & X1).
  cbv zeta in *. unfold read_wav_header, open_reader in E. rewrite E1 in E. cbn [obind] in E.
  destruct (interpret chunks (set_channels i0 0)) as [[|] j] eqn:EI; cbn [fst snd] in *; [|discriminate].
  injection E as <- <-. destruct (X1 eq_refl) as [-> HI].
  cbn [num_channels enc remaining_samples set_remaining] in *.
  assert (HCH : num_channels j <> 0 /\ 0 <= num_channels j /\ bit_depth j / 8 = Z.of_nat (width (enc j))).
  { destruct HI as [H0|(H0 & _ & HF)].
    - exfalso. assert (G : forall l k, fst (interpret l k) = true -> num_channels (snd (interpret l k)) <> 0).
      { clear. induction l as [|[id b] l IH]; intros k; cbn [interpret].
        - cbn. destruct (Z.eqb_spec (num_channels k) 0); [discriminate|auto].
        - destruct (bytes_eqb id id_fmt).
          + destruct (fmt_result b k) as [[|] k']; [apply IH|discriminate].
          + destruct (bytes_eqb id id_fact); [|apply IH].
            destruct (fact_result b k) as [[|] k']; [apply IH|discriminate]. }
      specialize (G chunks (set_channels i0 0)). rewrite EI in G. exact (G eq_refl H0).
    - split; [lia|]. split; [lia|]. unfold fmt_coherent in HF. destruct (enc j); destruct HF as [-> _]; reflexivity. }
  destruct HCH as (HC0 & HCp & EB).
  assert (ER : dsize / (bit_depth j / 8) = frames * num_channels j).
  { rewrite EB, ED. rewrite Z.mul_assoc. apply Z.div_mul. destruct (enc j); cbn; lia. }
  split; [exact ER|].
  intros reqs s' outs H. eapply run_remaining; [| |exact H]; cbn [snd num_channels remaining_samples set_remaining].
  - lia.
  - rewrite ER. apply Z.mod_mul. auto.
Qed.

(* ---- writer error reporting ---- *)
Section Report.
Context {IO : Type} (wf : list Z -> IO -> IO * Z).

Definition ok_w (w : @writer (IO * bool)) : Prop := ww_err w = negb (snd (ww_io w)).

Lemma watch_check bytes w : ok_w w -> ok_w (write_check (watch wf) bytes w).
Proof.
  unfold ok_w, write_check, watch. intros ->.
  destruct (ww_io w) as [io b]. cbn [fst snd]. destruct (wf bytes io) as [io' k]. cbn.
  rewrite (Z.eqb_sym k). destruct b, (Z.of_nat (length bytes) =? k); reflexivity.
Qed.
Lemma watch_u16 v w : ok_w w -> ok_w (write_u16 (watch wf) v w).
Proof. apply watch_check. Qed.
Lemma watch_u32 v w : ok_w w -> ok_w (write_u32 (watch wf) v w).
Proof. apply watch_check. Qed.

Lemma header_reports io e n rate ch w' res :
  write_wav_header (watch wf) {| ww_io := (io, true); ww_err := e |} n rate ch = Ok (w', res) ->
  res = (if snd (ww_io w') then 1 else 0) /\ ww_err w' = negb (snd (ww_io w')).
Proof.
  unfold write_wav_header.
  destruct (i32 (ch * 2)) as [ba| |]; cbn [obind]; try discriminate.
  cbv zeta. cbn [ww_io].
  set (w0 := {| ww_io := (io, true); ww_err := false |}).
  assert (H0 : ok_w w0) by reflexivity. clearbody w0.
  set (w1 := write_check _ id_wave _).
  assert (H1 : ok_w w1) by (subst w1; auto using watch_check, watch_u32). clearbody w1.
  destruct (ww_err w1) eqn:X1.
  { intros H; injection H as <- <-. unfold ok_w in H1. rewrite X1 in H1. destruct (snd (ww_io w1)); [discriminate|auto]. }
  destruct (i32 (ba * rate)) as [bps| |]; cbn [obind]; try discriminate.
  set (w2 := write_u16 _ 16 _).
  assert (H2 : ok_w w2) by (subst w2; auto 12 using watch_check, watch_u16, watch_u32). clearbody w2.
  destruct (ww_err w2) eqn:X2.
  { intros H; injection H as <- <-. unfold ok_w in H2. rewrite X2 in H2. destruct (snd (ww_io w2)); [discriminate|auto]. }
  set (w3 := if 2 <? ch then _ else w2).
  assert (H3 : ok_w w3) by (subst w3; destruct (2 <? ch); auto 12 using watch_check, watch_u16, watch_u32). clearbody w3.
  destruct (ww_err w3) eqn:X3.
  { intros H; injection H as <- <-. unfold ok_w in H3. rewrite X3 in H3. destruct (snd (ww_io w3)); [discriminate|auto]. }
  set (w4 := write_u32 _ _ (write_check _ id_data _)).
  assert (H4 : ok_w w4) by (subst w4; auto 12 using watch_check, watch_u16, watch_u32). clearbody w4.
  unfold ok_w in H4. rewrite H4.
  destruct (snd (ww_io w4)) eqn:X4; cbn [negb]; intros H; injection H as <- <-; rewrite X4, H4; auto.
Qed.

Lemma fold_watch l : forall w, ok_w w -> ok_w (fold_left (fun w s => write_u16 (watch wf) s w) l w).
Proof. induction l as [|x l IH]; intros w H; cbn [fold_left]; auto. apply IH. now apply watch_u16. Qed.

Lemma samples_report io e samples n w' res :
  write_wav_samples (watch wf) {| ww_io := (io, true); ww_err := e |} samples n = Ok (w', res) ->
  res = if snd (ww_io w') then 1 else 0.
Proof.
  unfold write_wav_samples. cbn [ww_io].
  destruct (_ && _); cbn [oguard]; [|discriminate].
  set (w := fold_left _ _ _).
  assert (H : ok_w w) by (apply fold_watch; reflexivity). clearbody w.
  intros E. injection E as <- <-. rewrite H. destruct (snd (ww_io w)); reflexivity.
Qed.
End Report.
