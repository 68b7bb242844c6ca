(* C81: the multi-band compressor is the sum of its bands, each under its own dynamic range controller. *)
From Verif Require Import Common ListLemmas NthLemmas Mealy RealUtil BiquadModel CascadeModel PoleZeroModel LadderModel LadderSpec DrcCurveModel DrcModel DrcSpec DrcProofs DrcProps
  MultiCrossModel MultiCrossSpec MultiCrossProofs MultiCrossProofs8 MultiCrossProps MultiCompModel MultiCompSpec MultiCompProofs MultiCompProofs2 MultiCompProofs3 MultiCompProofs4 MultiCompProofs5 MultiCompProofs6 MultiCompProofs7 MultiCompProofs8.
Local Open Scope R_scope.

(* ---------- the output ---------- *)
(* For every parameter object, every number of channels and every sequence of blocks: the output is the sum over the
   bands of the documented output of the controller of the band, applied to the signal of the band. *)
Theorem C81_output : forall eps sm samples junk p n m fs ds s bs, complete p ->
  splitter_init eps sm (mp_type p) (mp_order p) (mp_bands p) n fs (mp_freqs p) = Ok s -> reflective_bank (sp_bank s) -> (0 < n)%nat -> (0 < m)%nat -> 400 < fs ->
  (forall b, (b < length (mp_drc p))%nat -> valid_params fs (nth b (mp_drc p) default_params) (nth b ds 0%nat)) -> Forall (valid_frames n m) bs ->
  exists c outs sigs, mb_session eps sm samples junk p (MInit n m fs :: map MProcess bs) = Ok (c, [] :: outs) /\ length sigs = length (mp_drc p) /\
    (forall b, (b < length sigs)%nat -> band_signal (sp_bank s) n b (concat bs) (nth b sigs [])) /\
    is_sum n (length (concat bs)) (map (fun b => documented_output (nth b (mp_drc p) default_params) fs n (nth b ds 0%nat) (nth b sigs []) (nth b sigs [])) (seq 0 (length sigs))) (concat outs).
Proof. exact output. Qed.
Print Assumptions C81_output.
(* With the parameters a new parameter object has, nothing is compressed: the output is the sum of the bands. *)
Theorem C81_neutral : forall eps sm samples junk bands freqs order type p n m fs s bs, mp_make bands freqs order type = Ok p ->
  splitter_init eps sm type order bands n fs freqs = Ok s -> reflective_bank (sp_bank s) -> (0 < n)%nat -> (0 < m)%nat -> 400 < fs -> Forall (valid_frames n m) bs ->
  exists c outs sigs, mb_session eps sm samples junk p (MInit n m fs :: map MProcess bs) = Ok (c, [] :: outs) /\ Z.of_nat (length sigs) = bands /\
    (forall b, (b < length sigs)%nat -> band_signal (sp_bank s) n b (concat bs) (nth b sigs [])) /\ is_sum n (length (concat bs)) sigs (concat outs).
Proof.
  intros eps sm samples junk bands freqs order type p n m fs s bs EP ES RB N M F V. destruct (params_values _ _ _ _ _ EP) as (CP & Q1 & Q2 & Q3 & Q4 & Q5). rewrite <- Q1, <- Q2, <- Q3, <- Q4 in ES.
  destruct (output eps sm samples junk p n m fs [] s bs CP ES RB N M F) as (c & outs & sigs & E & L & B & S); [|exact V|].
  - intros b _. rewrite Q5. replace (nth b [] 0%nat) with 0%nat by now destruct b. unfold valid_params, default_params. cbn. lra.
  - exists c, outs, sigs. split; [exact E|]. split; [unfold complete in CP; lia|]. split; [exact B|].
    assert (Q : map (fun b => documented_output (nth b (mp_drc p) default_params) fs n (nth b [] 0%nat) (nth b sigs []) (nth b sigs [])) (seq 0 (length sigs)) = sigs); [|rewrite Q in S; exact S].
    rewrite (map_ext _ (fun b => nth b sigs [])); [|intros b; rewrite Q5; replace (nth b [] 0%nat) with 0%nat by (now destruct b); apply neutral_output].
    clear. induction sigs as [|a r IH]; [reflexivity|]. cbn [length seq map nth]. f_equal. rewrite <- seq_shift, map_map. exact IH.
Qed.
Print Assumptions C81_neutral.
(* After any history in which no change of parameters is pending, the way the signal is cut into blocks has no effect. *)
Theorem C81_block_size : forall eps sm samples junk p before n m fs ops c outs bs bs' c1 o1, complete p -> mb_session eps sm samples junk p (before ++ MInit n m fs :: ops) = Ok (c, outs) -> no_minit ops ->
  (forall b, (b < length (mp_drc p))%nat -> mb_settled b (before ++ MInit n m fs :: ops) = true) ->
  run (mb_step eps sm samples junk) c (map MProcess bs) = Ok (c1, o1) -> Forall (fun b => (1 <= length b <= m)%nat) bs' -> concat bs = concat bs' ->
  exists c2 o2, run (mb_step eps sm samples junk) c (map MProcess bs') = Ok (c2, o2) /\ concat o1 = concat o2.
Proof. exact block_size. Qed.
Print Assumptions C81_block_size.

(* ---------- Reset and Init ---------- *)
(* Reset with parameters given to every band since Init: the compressor behaves as a new one with those parameters. *)
Theorem C81_reset_partial : forall eps sm samples junk p before n m fs ops q c outs bs c2 o2, complete p -> Forall (fun r => lookahead_s r = 0) (mp_drc p) -> keeps_bank ops -> length q = length (mp_drc p) ->
  (forall b, (b < length q)%nat -> last_given b ops = Some (nth b q default_params)) ->
  mb_session eps sm samples junk p (before ++ MInit n m fs :: ops ++ [MReset]) = Ok (c, outs) ->
  mb_session eps sm samples junk (with_drc p q) (MInit n m fs :: map MProcess bs) = Ok (c2, o2) ->
  exists c1 o1, run (mb_step eps sm samples junk) c (map MProcess bs) = Ok (c1, o1) /\ concat o1 = concat o2.
Proof. exact reset_new. Qed.
Print Assumptions C81_reset_partial.
(* Without such a call Reset is not a return to the state after Init: it replaces the parameters given to the constructor. *)
Theorem C81_reset_refuted : forall eps sm samples junk, a0 sm <> 0 -> exists p n m fs x c1 o1 c2 o2, complete p /\
  mb_session eps sm samples junk p [MInit n m fs; MProcess x] = Ok (c1, [[]; o1]) /\
  mb_session eps sm samples junk p [MInit n m fs; MReset; MProcess x] = Ok (c2, [[]; []; o2]) /\ o1 <> o2.
Proof. intros eps sm samples junk A. destruct (reset_changes eps sm samples junk A) as (c1 & o1 & c2 & o2 & E1 & E2 & NE). exists (loud_params 48000), 1%nat, 1%nat, 48000, [[1]], c1, o1, c2, o2. split; [reflexivity|]. auto. Qed.
Print Assumptions C81_reset_refuted.
(* Init after any number of other calls of Init, SetCrossoverFrequencies and ProcessBlock gives the compressor that Init
   makes from the parameters of the constructor; in particular the frequencies given in between are dropped. *)
Theorem C81_init_forgets : forall eps sm samples junk p ops n m fs c outs, complete p -> keeps_params ops -> mb_session eps sm samples junk p (ops ++ [MInit n m fs]) = Ok (c, outs) ->
  mb_session eps sm samples junk p [MInit n m fs] = Ok (c, [[]]).
Proof. exact init_again. Qed.
Print Assumptions C81_init_forgets.

(* ---------- the parameters ---------- *)
Theorem C81_parameters : forall bands freqs order type,
  ((exists p, mp_make bands freqs order type = Ok p) <-> (1 < bands)%Z /\ (2 <= order)%Z /\ Z.of_nat (length freqs) = (bands - 1)%Z) /\
  (forall p, mp_make bands freqs order type = Ok p -> complete p /\ mp_bands p = bands /\ mp_order p = order /\ mp_type p = type /\ mp_freqs p = freqs /\ forall b, nth b (mp_drc p) default_params = default_params).
Proof. intros. split; [apply params_made|intros p; apply params_values]. Qed.
Print Assumptions C81_parameters.
Theorem C81_setters : forall p, complete p -> (forall f p', mp_set_frequencies p f = Ok p' -> complete p' /\ mp_freqs p' = f /\ mp_drc p' = mp_drc p) /\
  (forall l, complete (mp_set_lookahead p l) /\ forall b, (b < length (mp_drc p))%nat ->
     let q := nth b (mp_drc (mp_set_lookahead p l)) default_params in let q0 := nth b (mp_drc p) default_params in
     lookahead_s q = l /\ (forall level, documented_gain q level = documented_gain q0 level) /\ attack_s q = attack_s q0 /\ release_s q = release_s q0 /\ envelope_type q = envelope_type q0) /\
  (forall st q, (exists p', mp_set_drc p st q = Ok p') <-> (0 <= st < mp_bands p)%Z) /\
  (forall st q p', mp_set_drc p st q = Ok p' -> complete p' /\ forall b, nth b (mp_drc p') default_params = if (Z.of_nat b =? st)%Z then q else nth b (mp_drc p) default_params).
Proof.
  intros p CP. destruct (setters p CP) as (A & B & C & D). split; [exact A|]. split; [|split; assumption]. intros l. destruct (B l) as [B1 B2]. split; [exact B1|]. intros b Hb. cbv zeta. rewrite (B2 b Hb). repeat split.
Qed.
Print Assumptions C81_setters.
(* After any history, a band number out of range and invalid parameters are refused. *)
Theorem C81_refuses : forall eps sm samples junk p ops c outs st q, complete p -> mb_session eps sm samples junk p ops = Ok (c, outs) ->
  ~ (0 <= st < mp_bands p)%Z \/ knee_width_db q < 0 \/ ratio_of q <= 0 \/ attack_s q <= 0 \/ release_s q <= 0 -> mb_step eps sm samples junk c (MSetDrc st q) = CheckFail.
Proof. exact refused. Qed.
Print Assumptions C81_refuses.

(* ---------- a concrete compressor ---------- *)
(* Two bands of order 2 at 48 kHz, two channels, blocks of up to 64 frames: 6 dB of gain in the lower band with
   a lookahead of one frame, a compressor with ratio 4 in the upper band. *)
Definition example_params : mb_params := {| mp_bands := 2; mp_order := 2; mp_type := Linkwitz_Riley_crossover; mp_freqs := [at_tan 48000 (1 / 4)];
  mp_drc := [with_lookahead (1 / 48000) (flat 6 0); {| envelope_type := Rms; dynamics_type := Compressor; input_gain_db := 0; output_gain_db := 3;
    threshold_db := -20; ratio_of := 4; knee_width_db := 6; attack_s := 1 / 1000; release_s := 1 / 10; lookahead_s := 0 |}] |}.
Example C81_example : forall eps sm samples junk, a0 sm <> 0 -> exists s, complete example_params /\
  splitter_init eps sm (mp_type example_params) (mp_order example_params) (mp_bands example_params) 2 48000 (mp_freqs example_params) = Ok s /\ reflective_bank (sp_bank s) /\
  (forall b, (b < 2)%nat -> valid_params 48000 (nth b (mp_drc example_params) default_params) (nth b [1%nat; 0%nat] 0%nat)) /\
  Forall (valid_frames 2 64) [[[1; 0]]; [[1 / 2; 1]; [0; 0]; [-1; 1]]] /\
  exists c outs, mb_session eps sm samples junk example_params (MInit 2 64 48000 :: map MProcess [[[1; 0]]; [[1 / 2; 1]; [0; 0]; [-1; 1]]]) = Ok (c, [] :: outs).
Proof.
  intros eps sm samples junk A. destruct (two_bands eps sm 2 48000 A ltac:(lia) ltac:(lra)) as (s & l & h & ES & _ & _ & _ & RB & _). exists s. split; [reflexivity|]. split; [exact ES|]. split; [exact RB|].
  assert (V : forall b, (b < 2)%nat -> valid_params 48000 (nth b (mp_drc example_params) default_params) (nth b [1%nat; 0%nat] 0%nat)).
  { intros [|[|b]] Hb; [| |lia]; unfold valid_params; cbn; lra. }
  assert (W : Forall (valid_frames 2 64) [[[1; 0]]; [[1 / 2; 1]; [0; 0]; [-1; 1]]]).
  { constructor; [|constructor; [|constructor]]; (split; [cbn; lia|]); repeat (constructor; [reflexivity|]); constructor. }
  split; [exact V|]. split; [exact W|]. destruct (C81_output eps sm samples junk example_params 2 64 48000 [1%nat; 0%nat] s _ eq_refl ES RB ltac:(lia) ltac:(lia) ltac:(lra) V W) as (c & outs & _ & E & _). eauto.
Qed.
