(* C77: the envelope detector (EnvelopeDetector). *)
From Verif Require Import Common CInt ListLemmas Mealy RealUtil NthLemmas BiquadModel BiquadSpec BiquadProofs DesignModel DesignSpec DesignProps CascadeSpec SteadySpec SteadyProofs
  LoudnessSpec LoudnessProofs LoudnessProofs2 ResamplerModel ResamplerSpec ResamplerProofs ResamplerPropsProofs EnvDetectModel EnvDetectProofs EnvDetectProofs2.
From Coq Require Import Lra Lia Reals.

(* Before Init, ProcessBlock returns false and nothing changes. *)
Theorem C77_uninitialized : forall (F : Type) (zero : F) (add sub mul : F -> F -> F) (root : F -> F)
    (dot : list F -> list (list F) -> list F) (plus : list F -> list F -> list F) (frames : list (list F)),
  detector_block add sub mul root dot plus (detector_new zero) frames = Ok (detector_new zero, None).
Proof. reflexivity. Qed.
Print Assumptions C77_uninitialized.

(* With equal rates, for any arithmetic: one output per input however the signal is cut into blocks, the most
   recent output is the last one (or zero), and after Reset the outputs are those of a fresh detector, but the
   most recent output is kept. *)
Theorem C77_same_rate : forall (F : Type) (zero one : F) (add sub mul div : F -> F -> F) (is_zero : F -> bool) (leb ltb eqb : F -> F -> bool)
    (half root : F -> F) (dot : list F -> list (list F) -> list F) (plus : list F -> list F -> list F)
    (design : F -> F -> outcome (coeffs F)) (resampler_init : F -> F -> option (@config F * Z))
    (n : nat) (fs cutoff env : F) (cs : list (coeffs F)) (d : detector F) (blocks : list (list (list F))),
  detector_init zero one mul div is_zero leb ltb eqb half design resampler_init (Z.of_nat n) fs cutoff env cs = Ok d ->
  eqb env fs = true -> Forall (Forall (fun fr => length fr = n)) blocks ->
  exists d' outs out,
    run (detector_block add sub mul root dot plus) d blocks = Ok (d', map Some outs) /\
    detector_block add sub mul root dot plus d (concat blocks) = Ok (d', Some out) /\
    concat outs = out /\ map (@length _) outs = map (@length _) blocks /\
    most_recent d' = last out (repeat zero n) /\
    exists d'', detector_reset zero d' = Ok d'' /\ most_recent d'' = most_recent d' /\
      forall blocks2, omap snd (run (detector_block add sub mul root dot plus) d'' blocks2)
                      = omap snd (run (detector_block add sub mul root dot plus) d blocks2).
Proof.
  intros F zero one add sub mul div is_zero leb ltb eqb half root dot plus design ri n fs cutoff env cs d blocks HI HE HF.
  destruct (dinit_inv zero one mul div is_zero leb ltb eqb half design ri _ _ _ _ _ _ HI) as (n' & c & E & _ & _ & _ & _ & HS & HR & _ & _ & _ & _ & G).
  assert (Q : n' = n) by lia. rewrite Q in *. rewrite HE in HS.
  destruct (blocks_run add sub mul root dot plus n blocks d (downsampler d) (snd (scan (scan (cstep add sub mul)) (filters_of d) blocks)) G HF) as [R1 _].
  { rewrite HS. apply rs_same. }
  destruct (block_run add sub mul root dot plus n d (concat blocks) (downsampler d) (snd (scan (cstep add sub mul) (filters_of d) (concat blocks))) G (Forall_concat _ _ HF)) as [B1 _].
  { rewrite HS. reflexivity. }
  destruct (scan_blocks (cstep add sub mul) blocks (filters_of d)) as (S1 & S2 & S3).
  assert (CC : concat (map (map (map root)) (snd (scan (scan (cstep add sub mul)) (filters_of d) blocks))) = map (map root) (snd (scan (cstep add sub mul) (filters_of d) (concat blocks)))).
  { rewrite <- S2, concat_map. reflexivity. }
  rewrite CC in R1. eexists _, _, _. split; [exact R1|]. split; [exact B1|]. split; [exact CC|]. split.
  { rewrite <- S3, map_map. apply map_ext. intros l. apply map_length. }
  split; [unfold most_recent; cbn; now rewrite HR|].
  eexists. split.
  { apply (dreset_ok zero one add sub mul div is_zero leb ltb eqb half design ri _ _ _ _ _ d n (concat blocks) _ (downsampler d) HI eq_refl (Forall_concat _ _ HF)).
    destruct (downsampler d) as [[[? ?] ?]|]; auto. }
  split; [reflexivity|]. intros b2. apply recent_irrelevant. unfold same_but_recent, with_all. cbn. auto 10.
Qed.
Print Assumptions C77_same_rate.

(* With different rates, for any arithmetic in which a dot product may be split: the outputs are those of the
   resampler applied to the smoothed powers, however the signal is cut into blocks. *)
Theorem C77_downsampled : forall (F : Type) (zero one : F) (add sub mul div : F -> F -> F) (is_zero : F -> bool) (leb ltb eqb : F -> F -> bool)
    (half root : F -> F) (dot : list F -> list (list F) -> list F) (plus : list F -> list F -> list F)
    (design : F -> F -> outcome (coeffs F)) (resampler_init : F -> F -> option (@config F * Z))
    (n : nat) (fs cutoff env : F) (cs : list (coeffs F)) (d : detector F) (blocks : list (list (list F))) (c : @config F) (radius : Z),
  detector_init zero one mul div is_zero leb ltb eqb half design resampler_init (Z.of_nat n) fs cutoff env cs = Ok d ->
  eqb env fs = false -> Forall (Forall (fun fr => length fr = n)) blocks ->
  resampler_init fs env = Some (c, radius) -> valid_config c -> taps c = (2 * radius + 1)%Z -> (0 <= radius)%Z ->
  (forall f1 f2 s u, length f1 = length s -> length f2 = length u -> plus (dot f1 s) (dot f2 u) = dot (f1 ++ f2) (s ++ u)) ->
  exists d' outs out pre y sm e,
    run (detector_block add sub mul root dot plus) d blocks = Ok (d', map Some outs) /\
    detector_block add sub mul root dot plus d (concat blocks) = Ok (d', Some out) /\
    concat outs = out /\ most_recent d' = last out (repeat zero n) /\
    cascade_block add sub mul (prefilter d) (concat blocks) = Ok (pre, y) /\
    biquad_block add sub mul (smoother d) (map (map (fun x => mul x x)) y) = Ok (sm, e) /\
    out = map (map root) (resampled dot (numer c) (denom c) (Z.to_nat (taps c)) (ResamplerModel.filters c)
                            (repeat (repeat zero n) (Z.to_nat radius) ++ e)) /\
    exists d'', detector_reset zero d' = Ok d'' /\ most_recent d'' = most_recent d' /\
      forall blocks2, omap snd (run (detector_block add sub mul root dot plus) d'' blocks2)
                      = omap snd (run (detector_block add sub mul root dot plus) d blocks2).
Proof.
  intros F zero one add sub mul div is_zero leb ltb eqb half root dot plus design ri n fs cutoff env cs d blocks c radius HI HE HF RI VC HT Hr SL.
  destruct (dinit_inv zero one mul div is_zero leb ltb eqb half design ri _ _ _ _ _ _ HI) as (n' & sc & E & _ & _ & _ & _ & HS & HR & _ & _ & _ & HD & G).
  assert (Q : n' = n) by lia. rewrite Q in *. rewrite HE in HS. rewrite RI in HD.
  destruct (scan_blocks (cstep add sub mul) blocks (filters_of d)) as (S1 & S2 & S3).
  set (e := snd (scan (cstep add sub mul) (filters_of d) (concat blocks))) in *.
  set (eb := snd (scan (scan (cstep add sub mul)) (filters_of d) blocks)) in *.
  destruct (cpp_run (repeat zero n) dot c radius VC HT (q_process dot plus c) radius eb) as (s1 & zs & Q1 & A1 & O1); [intros; now apply q_step|lia|].
  destruct (q_step dot plus c VC SL (repeat (repeat zero n) (Z.to_nat radius)) (reset (repeat zero n) radius) e) as (s2 & z & Q2 & A2 & _ & O2).
  { apply (start_stream (repeat zero n) dot c radius VC HT radius); lia. }
  destruct (start_stream (repeat zero n) dot c radius VC HT radius ltac:(lia)) as [_ O3]. rewrite O3 in O2. cbn [app] in O2. rewrite S2 in O1, A1.
  assert (ES : s1 = s2) by exact (at_stream_unique c _ s1 s2 A1 A2). subst s2.
  assert (EZ : concat zs = z) by congruence.
  destruct (blocks_run add sub mul root dot plus n blocks d (Some (c, radius, s1)) zs G HF) as [R1 _].
  { rewrite HS, HD, rs_down. fold eb. change (reset (repeat zero n) radius) with {| delayed := repeat (repeat zero n) (Z.to_nat radius); phase := 0 |}. rewrite Q1. reflexivity. }
  destruct (block_run add sub mul root dot plus n d (concat blocks) (Some (c, radius, s1)) z G (Forall_concat _ _ HF)) as [B1 _].
  { rewrite HS, HD. unfold rs, resample. fold e. rewrite Q2. reflexivity. }
  assert (CC : concat (map (map (map root)) zs) = map (map root) z) by (rewrite <- EZ, concat_map; reflexivity).
  rewrite CC in R1. destruct G as (G1 & G2 & G3 & G4 & G5).
  destruct (stages_block_ok add sub mul n (prefilter d) (concat blocks) G1 G4 (Forall_concat _ _ HF)) as (A & _ & W).
  destruct (block_ok add sub mul n (smoother d) _ G1 G5 (sq_widths mul n _ W)) as (B & _).
  eexists _, _, _, _, _, _, e. split; [exact R1|]. split; [exact B1|]. split; [exact CC|].
  split; [unfold most_recent; cbn; now rewrite HR|]. split.
  { unfold cascade_block. replace (1 <=? length (prefilter d))%nat with true by lia. cbn [oguard]. rewrite A. apply f_equal, surjective_pairing. }
  split. { rewrite B. unfold e. rewrite cscan. cbn [snd fst filters_of]. apply f_equal, surjective_pairing. }
  split; [now rewrite <- O2|].
  eexists. split.
  { apply (dreset_ok zero one add sub mul div is_zero leb ltb eqb half design ri _ _ _ _ _ d n (concat blocks) _ (Some (c, radius, s1)) HI eq_refl (Forall_concat _ _ HF)).
    rewrite HD. auto. }
  split; [reflexivity|]. intros b2. apply recent_irrelevant. unfold same_but_recent, with_all. cbn. auto 10.
Qed.
Print Assumptions C77_downsampled.

(* ---- real numbers ---- *)
From Coquelicot Require Import Coquelicot.
Local Open Scope R_scope.
Notation "'dinit' ri" := (detector_init 0 1 Rmult Rdiv (fun v => Reqb v 0) Rleb Rltb Reqb (fun x => x / 2) smoother_design ri) (at level 10).
Notation dblock n := (detector_block Rplus Rminus Rmult rms_root (frame_dot n) (frame_plus n)).
Notation square := (map (fun x : R => x * x)).

(* Init accepts exactly the documented parameters. *)
Theorem C77_init ri n fs cutoff env cs :
  (exists d, dinit ri n fs cutoff env cs = Ok d) <->
  (env <= fs /\ cutoff < env / 2 /\ 0 < cutoff /\ (0 < n)%Z /\ cs <> nil /\ List.Forall (fun c => a0 c <> 0) cs).
Proof.
  split.
  - intros [d H]. destruct (dinit_inv 0 1 Rmult Rdiv (fun v => Reqb v 0) Rleb Rltb Reqb (fun x => x / 2) smoother_design ri _ _ _ _ _ _ H)
      as (n' & c & -> & C1 & C2 & C3 & L & _ & _ & HK & _ & _ & _ & G).
    destruct (Rleb_spec env fs); [|discriminate]. destruct (Rltb_spec cutoff (env / 2)); [|discriminate]. destruct (Rltb_spec 0 cutoff); [|discriminate].
    destruct G as (G1 & _). split; [assumption|]. split; [assumption|]. split; [assumption|]. split; [lia|]. split; [intros ->; cbn in L; lia|].
    exact (init_stages_a0 _ _ _ HK).
  - intros (H1 & H2 & H3 & H4 & H5 & H6). unfold detector_init.
    destruct (Rleb_spec env fs); [|lra]. destruct (Rltb_spec cutoff (env / 2)); [|lra]. destruct (Rltb_spec 0 cutoff); [|lra].
    replace (0 <? n)%Z with true by lia. cbn [ocheck]. cbv zeta. set (m := Z.to_nat n). assert (Hm : (1 <= m)%nat) by lia.
    assert (B : forall c, a0 c <> 0 -> exists f, biquad_init 0 1 Rmult Rdiv (fun v => Reqb v 0) m c = Ok f).
    { intros c Hc. unfold biquad_init. replace (1 <=? m)%nat with true by lia. destruct (Reqb_spec (a0 c) 0); [contradiction|]. cbn. eauto. }
    assert (S : exists fs, init_stages 0 1 Rmult Rdiv (fun v => Reqb v 0) m cs = Ok fs).
    { clear -H6 B. induction H6 as [|c ks Hc HK IH]; [eexists; reflexivity|]. cbn [init_stages]. destruct (B c Hc) as [f ->]. destruct IH as [l ->]. cbn. eauto. }
    unfold cascade_init. replace (1 <=? m)%nat with true by lia. replace (1 <=? length cs)%nat with true by (destruct cs; [congruence|cbn; lia]).
    cbn [andb oguard]. destruct S as [l ->]. cbn [obind]. destruct (C27_lowpass fs cutoff (1 / 2)) as (c & E & [N _] & _); [unfold valid_design; lra|].
    unfold smoother_design. rewrite E. cbn [obind]. destruct (B c N) as [f ->]. cbn. eauto.
Qed.
Print Assumptions C77_init.

(* Equal rates: filter every channel, square, smooth with the lowpass filter, take the root. *)
Theorem C77_formula ri n fs cutoff cs d blocks : dinit ri (Z.of_nat n) fs cutoff fs cs = Ok d ->
  List.Forall (List.Forall (fun fr => length fr = n)) blocks ->
  exists d' outs c y e, run (dblock n) d blocks = Ok (d', map Some outs) /\ lowpass fs cutoff (1 / 2) = Ok c /\
    frames_filtered n cs (concat blocks) y /\ frames_filtered n (c :: nil) (map square y) e /\
    concat outs = map (map (fun v => sqrt (Rabs v))) e.
Proof.
  intros HI HF. destruct (dinit_inv 0 1 Rmult Rdiv (fun v => Reqb v 0) Rleb Rltb Reqb (fun x => x / 2) smoother_design ri _ _ _ _ _ _ HI)
    as (n' & c & E & _ & _ & _ & _ & HS & HR & HK & HD & HC & _ & G). assert (Q : n' = n) by lia. rewrite Q in *.
  destruct (Reqb_spec fs fs) as [_|N]; [|congruence].
  destruct (blocks_run Rplus Rminus Rmult rms_root (frame_dot n) (frame_plus n) n blocks d (downsampler d) (snd (scan (scan (cstep Rplus Rminus Rmult)) (filters_of d) blocks)) G HF) as [R1 _].
  { rewrite HS. apply rs_same. }
  destruct (detector_filtered n d cs c (concat blocks) HK HC (Forall_concat _ _ HF)) as (y & F1 & F2).
  eexists _, _, c, y, _. split; [exact R1|]. split; [exact HD|]. split; [exact F1|]. split; [exact F2|].
  destruct (scan_blocks (cstep Rplus Rminus Rmult) blocks (filters_of d)) as (_ & S2 & _). rewrite <- S2, <- concat_map. reflexivity.
Qed.
Print Assumptions C77_formula.

(* Different rates: the smoothed powers go through the resampler; no condition on how a dot product is split is left. *)
Theorem C77_downsampled_formula ri n fs cutoff env cs d blocks rc radius : dinit ri (Z.of_nat n) fs cutoff env cs = Ok d -> env <> fs ->
  List.Forall (List.Forall (fun fr => length fr = n)) blocks ->
  ri fs env = Some (rc, radius) -> valid_config rc -> taps rc = (2 * radius + 1)%Z -> (0 <= radius)%Z ->
  exists d' outs c y e, run (dblock n) d blocks = Ok (d', map Some outs) /\ lowpass fs cutoff (1 / 2) = Ok c /\
    frames_filtered n cs (concat blocks) y /\ frames_filtered n (c :: nil) (map square y) e /\
    concat outs = map (map (fun v => sqrt (Rabs v)))
      (resampled (frame_dot n) (numer rc) (denom rc) (Z.to_nat (taps rc)) (ResamplerModel.filters rc) (repeat (repeat 0 n) (Z.to_nat radius) ++ e)).
Proof.
  intros HI HN HF RI VC HT Hr. destruct (dinit_inv 0 1 Rmult Rdiv (fun v => Reqb v 0) Rleb Rltb Reqb (fun x => x / 2) smoother_design ri _ _ _ _ _ _ HI)
    as (n' & c & E & _ & _ & _ & _ & HS & HR & HK & HD & HC & _ & G). assert (Q : n' = n) by lia. rewrite Q in *.
  destruct (C77_downsampled R 0 1 Rplus Rminus Rmult Rdiv (fun v => Reqb v 0) Rleb Rltb Reqb (fun x => x / 2) rms_root (frame_dot n) (frame_plus n) smoother_design ri
    n fs cutoff env cs d blocks rc radius HI) as (d' & outs & out & pre & y0 & sm & e & R1 & _ & R3 & _ & R5 & R6 & R7 & _); auto.
  { destruct (Reqb_spec env fs); congruence. } { intros. now apply frame_law. }
  destruct (detector_filtered n d cs c (concat blocks) HK HC (Forall_concat _ _ HF)) as (y & F1 & F2).
  assert (EE : snd (scan (cstep Rplus Rminus Rmult) (filters_of d) (concat blocks)) = e).
  { destruct G as (G1 & G2 & G3 & G4 & G5). destruct (stages_block_ok Rplus Rminus Rmult n (prefilter d) (concat blocks) G1 G4 (Forall_concat _ _ HF)) as (A & _ & W).
    unfold cascade_block in R5. replace (1 <=? length (prefilter d))%nat with true in R5 by lia. cbn [oguard] in R5. rewrite A in R5.
    destruct (block_ok Rplus Rminus Rmult n (smoother d) _ G1 G5 (sq_widths Rmult n _ W)) as (B & _). rewrite cscan. cbn [snd fst filters_of].
    destruct (chain_scan (pure_sample Rplus Rminus Rmult) (prefilter d) (concat blocks)) as [c1 c2]. injection R5 as _ <-. cbn [snd] in *. rewrite B in R6.
    destruct (scan (pure_sample Rplus Rminus Rmult) (smoother d) _) as [s1 s2]. injection R6 as _ <-. reflexivity. }
  rewrite EE in F2. exists d', outs, c, y, e. split; [exact R1|]. split; [exact HD|]. split; [exact F1|]. split; [exact F2|]. rewrite R3, R7. reflexivity.
Qed.
Print Assumptions C77_downsampled_formula.

(* With a cutoff of at most a quarter of the rate the envelope never exceeds the largest filtered sample. *)
Theorem C77_range ri n fs cutoff cs d blocks B : dinit ri (Z.of_nat n) fs cutoff fs cs = Ok d -> cutoff <= fs / 4 -> 0 <= B ->
  List.Forall (List.Forall (fun fr => length fr = n)) blocks ->
  exists d' outs y, run (dblock n) d blocks = Ok (d', map Some outs) /\ frames_filtered n cs (concat blocks) y /\
    (List.Forall (List.Forall (fun v => Rabs v <= B)) y -> List.Forall (List.Forall (fun v => 0 <= v <= B)) (concat outs)).
Proof.
  intros HI H4 HB HF. destruct (C77_formula ri n fs cutoff cs d blocks HI HF) as (d' & outs & c & y & e & R1 & HD & F1 & F2 & F3).
  exists d', outs, y. split; [exact R1|]. split; [exact F1|]. intros HY. rewrite F3.
  assert (HX : 0 < cutoff < fs / 2). { destruct (proj1 (C77_init ri (Z.of_nat n) fs cutoff fs cs) (ex_intro _ d HI)) as (_ & ? & ? & _). lra. }
  destruct (smoother_shape fs cutoff ltac:(lra) ltac:(lra)) as (p & Ep & P1 & P2). unfold smoother_design in Ep. rewrite HD in Ep. injection Ep as ->. specialize (P2 H4).
  destruct F1 as (_ & W1 & _). destruct F2 as (L2 & W2 & C2). apply Forall_forall. intros fr Hfr. apply in_map_iff in Hfr as (g & <- & Hg).
  assert (Lg : length g = n) by (rewrite Forall_forall in W2; now apply W2).
  apply Forall_forall. intros v Hv. apply in_map_iff in Hv as (u & <- & Hu). apply In_nth with (d := 0) in Hu as (i & Hi & <-). rewrite Lg in Hi.
  destruct (C2 i Hi) as (e' & C3 & C4). cbn [cascade_filters] in C4. subst e'.
  assert (RG : List.Forall (fun v => 0 <= v <= B * B) (channel 0 i e)).
  { apply (twice_range p (B * B) (channel 0 i (map square y))); [lra|nra| |exact C3]. rewrite (squared_channel n i y Hi W1).
    apply Forall_forall. intros v Hv. apply in_map_iff in Hv as (u & <- & Hu). apply in_map_iff in Hu as (fr & <- & Hfr).
    assert (RB : Rabs (nth i fr 0) <= B).
    { rewrite Forall_forall in HY. specialize (HY fr Hfr). rewrite Forall_forall in HY, W1. apply HY, nth_In. rewrite W1 by exact Hfr. exact Hi. }
    apply Rabs_le_between in RB. split; nra. }
  rewrite Forall_forall in RG. specialize (RG (nth i g 0) (in_map (fun fr => nth i fr 0) _ _ Hg)).
  rewrite Rabs_right by lra. split; [apply sqrt_pos|]. rewrite <- (sqrt_square B HB). apply sqrt_le_1; lra.
Qed.
Print Assumptions C77_range.

(* A tone: the envelope settles to the root mean square of the filtered tone, with a ripple at twice the
   frequency that the smoothing filter attenuates by its gain there. *)
Theorem C77_tone ri n fs cutoff cs d (x : nat -> list R) z h h2 (As : list C) c : dinit ri (Z.of_nat n) fs cutoff fs cs = Ok d ->
  List.Forall stable cs -> (forall k, length (x k) = n) -> Cmod z = 1 -> cascade_value cs z h ->
  lowpass fs cutoff (1 / 2) = Ok c -> has_value c (Cmult z z) h2 -> length As = n ->
  (forall i, (i < n)%nat -> settles (channel_of i x) (sinusoid (nth i As (RtoC 0)) z)) ->
  exists v : nat -> list R,
    (forall blocks k, concat blocks = first_frames x k -> exists d' outs, run (dblock n) d blocks = Ok (d', map Some outs) /\ concat outs = first_frames v k) /\
    forall i, (i < n)%nat -> let B := Cmult h (nth i As (RtoC 0)) in
      settles (channel_of i v) (fun k => sqrt (Rabs (Cmod B * Cmod B / 2 + sinusoid (Cmult h2 (Cmult (RtoC (1 / 2)) (Cmult B B))) (Cmult z z) k))).
Proof.
  intros HI HS HL Hz V HD V2 LA HX. destruct (dinit_inv 0 1 Rmult Rdiv (fun v => Reqb v 0) Rleb Rltb Reqb (fun x => x / 2) smoother_design ri _ _ _ _ _ _ HI)
    as (n' & c' & E & _ & C2 & C3 & _ & HSr & _ & HK & HD' & HC & _ & G). assert (Q : n' = n) by lia. rewrite Q in *. unfold smoother_design in HD'. rewrite HD in HD'. injection HD' as <-.
  destruct (Rltb_spec cutoff (fs / 2)); [|discriminate]. destruct (Rltb_spec 0 cutoff); [|discriminate]. destruct (Reqb_spec fs fs) as [_|N]; [|congruence].
  destruct (C27_lowpass fs cutoff (1 / 2)) as (c1 & E1 & St & V1 & _); [unfold valid_design; lra|]. rewrite HD in E1. injection E1 as <-.
  destruct (detector_streams n d cs c x HK HC HL) as (y & e & Ly & Le & H & HR). exists (fun k => map rms_root (e k)). split.
  - intros blocks k HB. assert (HF : List.Forall (List.Forall (fun fr => length fr = n)) blocks).
    { apply Forall_forall. intros b Hb. apply Forall_forall. intros fr Hfr. assert (I : In fr (concat blocks)) by (apply in_concat; eauto). rewrite HB in I. apply in_map_iff in I as (j & <- & _). apply HL. }
    destruct (blocks_run Rplus Rminus Rmult rms_root (frame_dot n) (frame_plus n) n blocks d (downsampler d) (snd (scan (scan (cstep Rplus Rminus Rmult)) (filters_of d) blocks)) G HF) as [R1 _].
    { rewrite HSr. apply rs_same. }
    eexists _, _. split; [exact R1|]. destruct (scan_blocks (cstep Rplus Rminus Rmult) blocks (filters_of d)) as (_ & S2 & _).
    rewrite <- concat_map. rewrite S2, HB, HR. unfold first_frames. now rewrite map_map.
  - intros i Hi. cbv zeta. destruct (H i Hi) as [S1 S2]. pose proof (channel_settles n cs c x y e i (nth i As (RtoC 0)) z h h2 Hi HS St Hz V V1 V2 S1 S2 (HX i Hi)) as T.
    apply settles_root in T. eapply settles_ext; [|reflexivity|exact T]. intros k. cbv beta. unfold channel_of.
    rewrite (nth_map_lt rms_root (e k) i 0 0) by (rewrite Le; exact Hi). reflexivity.
Qed.
Print Assumptions C77_tone.

(* A constant input: the envelope tends to the magnitude of the filtered constant. *)
Theorem C77_constant ri n fs cutoff cs d (u : list R) g : dinit ri (Z.of_nat n) fs cutoff fs cs = Ok d ->
  List.Forall stable cs -> length u = n -> cascade_value cs (RtoC 1) (RtoC g) ->
  exists v : nat -> list R,
    (forall blocks k, concat blocks = repeat u k -> exists d' outs, run (dblock n) d blocks = Ok (d', map Some outs) /\ concat outs = first_frames v k) /\
    forall i, (i < n)%nat -> is_lim_seq (channel_of i v) (Rabs (g * nth i u 0)).
Proof.
  intros HI HS HL V. destruct (proj1 (C77_init ri (Z.of_nat n) fs cutoff fs cs) (ex_intro _ d HI)) as (_ & H1 & H2 & _).
  destruct (C27_lowpass fs cutoff (1 / 2)) as (c & Ec & St & V1 & _); [unfold valid_design; lra|].
  assert (PW : forall A k, sinusoid (RtoC A) (RtoC 1) k = A).
  { intros A k. unfold sinusoid. assert (P : powC (RtoC 1) k = RtoC 1) by (induction k as [|k IH]; cbn [powC]; [reflexivity|rewrite IH; ring]). rewrite P, Cmult_1_r. reflexivity. }
  assert (V11 : has_value c (Cmult (RtoC 1) (RtoC 1)) (RtoC 1)) by (rewrite Cmult_1_l; exact V1).
  assert (NU : forall i, (i < n)%nat -> nth i (map RtoC u) (RtoC 0) = RtoC (nth i u 0)) by (intros i Hi; exact (map_nth RtoC u 0 i)).
  destruct (C77_tone ri n fs cutoff cs d (fun _ => u) (RtoC 1) (RtoC g) (RtoC 1) (map RtoC u) c HI HS (fun _ => HL) Cmod_1 V Ec V11) as (v & R1 & R2).
  { now rewrite map_length. }
  { intros i Hi. rewrite NU by exact Hi. eapply settles_ext; [reflexivity| |apply settles_refl]. intros k. cbv beta. rewrite PW. reflexivity. }
  exists v. split.
  - intros blocks k HB. apply R1. rewrite HB. unfold first_frames. clear. generalize 0%nat. induction k as [|k IH]; intros j; [reflexivity|]. cbn. now rewrite (IH (S j)).
  - intros i Hi. specialize (R2 i Hi). cbv zeta in R2. rewrite NU in R2 by exact Hi. unfold settles in R2.
    apply is_lim_seq_ext with (fun k => (channel_of i v k - Rabs (g * nth i u 0)) + Rabs (g * nth i u 0)); [intros k; ring|].
    replace (Finite (Rabs (g * nth i u 0))) with (Finite (0 + Rabs (g * nth i u 0))) by (f_equal; ring).
    apply is_lim_seq_plus'; [|apply is_lim_seq_const]. eapply is_lim_seq_ext; [|exact R2]. intros k. cbv beta. apply (f_equal (Rminus _)).
    assert (E : forall t, sqrt (Rabs (Rabs t * Rabs t / 2 + 1 / 2 * (t * t))) = Rabs t).
    { intros t. assert (T : t * t = Rabs t * Rabs t) by (rewrite <- Rabs_mult, Rabs_right; [reflexivity|apply Rle_ge, Rle_0_sqr]).
      rewrite T. replace (Rabs t * Rabs t / 2 + 1 / 2 * (Rabs t * Rabs t)) with (Rabs t * Rabs t) by field.
      rewrite Rabs_right by (apply Rle_ge, Rle_0_sqr). apply sqrt_square, Rabs_pos. }
    set (w := nth i u 0). rewrite !Cmult_1_l, <- !RtoC_mult, Cmod_R, PW. apply E.
Qed.
Print Assumptions C77_constant.

Definition through : coeffs R := {| b0 := 1; b1 := 0; b2 := 0; a0 := 1; a1 := 0; a2 := 0 |}.
Lemma through_stable : stable through.
Proof.
  split; [cbn; lra|]. intros z H. unfold denominator, through in H. cbn [a0 a1 a2] in H.
  assert (Z : (z * z)%C = RtoC 0) by (rewrite <- H; ring). assert (M : Cmod z * Cmod z = 0) by (rewrite <- Cmod_mult, Z; apply Cmod_0).
  pose proof (Cmod_ge_0 z). nra.
Qed.
Lemma through_value z : z <> RtoC 0 -> cascade_value (through :: nil) z (RtoC 1).
Proof.
  intros N. exists (RtoC 1), (RtoC 1). split; [|split; [reflexivity|ring]].
  assert (D : denominator through z = (z * z)%C) by (unfold denominator, through; cbn [a0 a1 a2]; ring).
  assert (M : numerator through z = (z * z)%C) by (unfold numerator, through; cbn [b0 b1 b2]; ring).
  assert (NZ : (z * z)%C <> RtoC 0) by (intros X; apply N, Cmod_eq_0; assert (Q : Cmod z * Cmod z = 0) by (rewrite <- Cmod_mult, X; apply Cmod_0); pose proof (Cmod_ge_0 z); nra).
  split; [rewrite D; exact NZ|]. rewrite D, M. field. exact N.
Qed.

(* Reset does not clear the value that most_recent_output() reports. *)
Theorem C77_reset_refuted : exists ri d d' outs d'' blocks,
  dinit ri 1 8 1 8 (through :: nil) = Ok d /\ run (dblock 1) d blocks = Ok (d', outs) /\
  detector_reset 0 d' = Ok d'' /\ most_recent d'' <> most_recent d.
Proof.
  destruct (proj2 (C77_init (fun _ _ => None) 1 8 1 8 (through :: nil))) as [d HI].
  { split; [lra|]. split; [lra|]. split; [lra|]. split; [lia|]. split; [discriminate|]. constructor; [cbn; lra|constructor]. }
  assert (HF : List.Forall (List.Forall (fun fr : list R => length fr = 1%nat)) (((1 :: nil) :: nil) :: nil)) by (repeat constructor).
  destruct (C77_same_rate R 0 1 Rplus Rminus Rmult Rdiv (fun v => Reqb v 0) Rleb Rltb Reqb (fun x => x / 2) rms_root (frame_dot 1) (frame_plus 1) smoother_design (fun _ _ => None)
    1 8 1 8 (through :: nil) d _ HI ltac:(destruct (Reqb_spec 8 8); congruence) HF) as (d' & outs & out & R1 & _ & R3 & _ & R5 & d'' & R6 & R7 & _).
  destruct (C77_formula (fun _ _ => None) 1 8 1 (through :: nil) d _ HI HF) as (d2 & outs2 & c & y & e & S1 & S2 & S3 & S4 & S5).
  rewrite R1 in S1. assert (EO : outs2 = outs). { assert (K : map Some outs = map Some outs2) by congruence. clear -K. revert outs2 K. induction outs as [|a l IH]; intros [|b l2] K; cbn in K; try discriminate; auto. injection K as <- K. f_equal. symmetry. now rewrite (IH l2 K). }
  exists (fun _ _ => None), d, d', (map Some outs), d'', (((1 :: nil) :: nil) :: nil). split; [exact HI|]. split; [exact R1|]. split; [exact R6|].
  rewrite R7, R5. destruct (dinit_inv 0 1 Rmult Rdiv (fun v => Reqb v 0) Rleb Rltb Reqb (fun x => x / 2) smoother_design _ _ _ _ _ _ _ HI) as (n' & c' & E & _ & _ & _ & _ & _ & HR & _).
  assert (Q : n' = 1%nat) by lia. unfold most_recent. rewrite HR, Q.
  destruct (smoother_shape 8 1 ltac:(lra) ltac:(lra)) as (p & Ep & P1 & _). unfold smoother_design in Ep. rewrite S2 in Ep. injection Ep as ->.
  assert (Ey : y = (1 :: nil) :: nil).
  { apply (filtered_unique 1 (through :: nil) ((1 :: nil) :: nil)); [constructor; [cbn; lra|constructor]|exact S3|].
    split; [reflexivity|]. split; [repeat constructor|]. intros [|i] Hi; [|lia]. eexists; split; [|reflexivity]. cbn. split; try exact I; ring. }
  assert (Ee : e = ((1 - p) / 2 * ((1 - p) / 2) :: nil) :: nil).
  { rewrite Ey in S4. cbn [map] in S4. apply (filtered_unique 1 (twice p :: nil) ((1 * 1 :: nil) :: nil)); [constructor; [cbn; lra|constructor]|exact S4|].
    split; [reflexivity|]. split; [repeat constructor|]. intros [|i] Hi; [|lia]. eexists; split; [|reflexivity]. cbn. split; try exact I; ring. }
  rewrite <- R3, <- EO, S5, Ee. cbn [map last repeat]. rewrite Rabs_right by (apply Rle_ge, Rle_0_sqr). rewrite sqrt_square by lra. intros X. injection X. lra.
Qed.
Print Assumptions C77_reset_refuted.

(* Alternating samples +1 and -1 have the envelope 1. *)
Example C77_case : exists d v, dinit (fun _ _ => None) 1 8 1 8 (through :: nil) = Ok d /\
  (forall blocks k, concat blocks = first_frames (fun k => (-1) ^ k :: nil) k -> exists d' outs, run (dblock 1) d blocks = Ok (d', map Some outs) /\ concat outs = first_frames v k) /\
  is_lim_seq (channel_of 0 v) 1.
Proof.
  destruct (proj2 (C77_init (fun _ _ => None) 1 8 1 8 (through :: nil))) as [d HI].
  { split; [lra|]. split; [lra|]. split; [lra|]. split; [lia|]. split; [discriminate|]. constructor; [cbn; lra|constructor]. }
  destruct (C27_lowpass 8 1 (1 / 2)) as (c & Ec & St & V1 & _); [unfold valid_design; lra|].
  assert (ZZ : Cmult (RtoC (-1)) (RtoC (-1)) = RtoC 1) by (rewrite <- RtoC_mult; f_equal; ring).
  assert (P : forall a k, powC (RtoC a) k = RtoC (a ^ k)) by (intros a k; induction k as [|k IH]; cbn [powC pow]; [reflexivity|rewrite IH, <- RtoC_mult; reflexivity]).
  destruct (C77_tone (fun _ _ => None) 1 8 1 (through :: nil) d (fun k => (-1) ^ k :: nil) (RtoC (-1)) (RtoC 1) (RtoC 1) (RtoC 1 :: nil) c HI) as (v & R1 & R2).
  - constructor; [exact through_stable|constructor].
  - reflexivity.
  - rewrite Cmod_R. replace (-1) with (- (1)) by ring. rewrite Rabs_Ropp. apply Rabs_R1.
  - apply through_value. intros X. apply RtoC_inj in X. lra.
  - exact Ec.
  - rewrite ZZ. exact V1.
  - reflexivity.
  - intros [|i] Hi; [|lia]. cbn [nth]. eapply settles_ext; [reflexivity| |apply settles_refl]. intros k. unfold sinusoid, channel_of. rewrite P, Cmult_1_l. reflexivity.
  - exists d, v. split; [exact HI|]. split; [exact R1|]. specialize (R2 0%nat ltac:(lia)). cbv zeta in R2. cbn [nth] in R2. rewrite ZZ, !Cmult_1_l, Cmult_1_r in R2.
    unfold settles in R2. apply is_lim_seq_ext with (fun k => (channel_of 0 v k - 1) + 1); [intros k; ring|].
    replace (Finite 1) with (Finite (0 + 1)) by (f_equal; ring). apply is_lim_seq_plus'; [|apply is_lim_seq_const]. eapply is_lim_seq_ext; [|exact R2]. intros k. cbv beta. apply (f_equal (Rminus _)).
    unfold sinusoid. rewrite P, pow1, Cmod_1, <- RtoC_mult. unfold Re. cbn [fst RtoC]. replace (1 * 1 / 2 + 1 / 2 * 1) with 1 by field. rewrite Rabs_R1. apply sqrt_1.
Qed.
