From Verif Require Import Common ListLemmas NthLemmas Mealy RealUtil BiquadModel DesignModel LadderProofs FixedDelayLineModel FixedDelayLineSpec FixedDelayLineProofs
  EnvelopeModel EnvelopeSpec EnvelopeProofs DecibelsModel DrcCurveModel DrcCurveSpec DrcCurveProofs DrcModel DrcSpec.
From Coq Require Import Psatz.
Local Open Scope R_scope.

(* --- envelope as a total step --- *)
Definition one_row (e : envelope) : Prop := length (rows (attack_smoother e)) = 1%nat /\ length (rows (release_smoother e)) = 1%nat.
Definition env_pure (e : envelope) (x : R) : envelope * R :=
  let pa := channel_step Rplus Rminus Rmult (attack_smoother e) (row (attack_smoother e)) (attack e) in
  let pr := channel_step Rplus Rminus Rmult (release_smoother e) (row (release_smoother e)) (release e) in
  let c := if Rltb (env e) (Rabs x) then snd pa else snd pr in
  let y := env e + c * (Rabs x - env e) in
  ({| env := y; attack := attack e; release := release e; sample_rate := sample_rate e;
      attack_smoother := with_rows (attack_smoother e) [fst pa]; release_smoother := with_rows (release_smoother e) [fst pr] |}, y).
Lemma env_pure_ok e x : one_row e -> env_output e x = Ok (env_pure e x) /\ one_row (fst (env_pure e x)).
Proof.
  intros [Ha Hr]. unfold env_output. cbv zeta. rewrite !sample_one by assumption. cbn [obind fst snd nth]. split; [reflexivity|split; reflexivity].
Qed.
Lemma env_run e xs : one_row e -> run env_output e xs = Ok (scan env_pure e xs) /\ one_row (fst (scan env_pure e xs)).
Proof.
  intros H. apply (run_scan env_output env_pure one_row (fun _ => True)); [|exact H|apply Forall_forall; auto].
  intros; now apply env_pure_ok.
Qed.

(* --- levels and gains --- *)
Definition ok_params (p : drc_params) : Prop := 0 <= knee_width_db p /\ 0 < ratio_of p.
Lemma check_params_inv {A} p (k : outcome A) r : check_params p k = Ok r -> ok_params p /\ 0 < attack_s p /\ 0 < release_s p /\ k = Ok r.
Proof.
  unfold check_params. intros H. apply ocheck_inv in H as [H1 H]. apply ocheck_inv in H as [H2 H]. apply ocheck_inv in H as [H3 H]. apply ocheck_inv in H as [H4 H].
  destruct (Rleb_spec 0 (knee_width_db p)), (Rltb_spec 0 (ratio_of p)), (Rltb_spec 0 (attack_s p)), (Rltb_spec 0 (release_s p)); try discriminate.
  unfold ok_params. auto.
Qed.
Lemma check_params_ok {A} p (k : outcome A) : ok_params p -> 0 < attack_s p -> 0 < release_s p -> check_params p k = k.
Proof. intros [H1 H2] H3 H4. unfold check_params. rewrite Rleb_true, !Rltb_true by assumption. reflexivity. Qed.
Lemma default_ok : ok_params default_params.
Proof. split; cbn; lra. Qed.

Lemma map_outcome_ok f g l : (forall x, In x l -> f x = Ok (g x)) -> map_outcome f l = Ok (map g l).
Proof.
  induction l as [|x l IH]; intros H; [reflexivity|]. cbn [map_outcome map]. rewrite (H x) by (now left). cbn [obind].
  rewrite IH by (intros; apply H; now right). reflexivity.
Qed.

Lemma specific_gain_ok p l : ok_params p -> specific_gain p l = Ok (documented_gain p l - output_gain_db p).
Proof.
  intros [K R]. unfold specific_gain, level_curve, documented_gain. cbv zeta.
  destruct (dynamics_type p); try (rewrite compressor_doc by lra); try rewrite limiter_doc by lra; try rewrite expander_doc by lra; cbn [obind]; f_equal; ring.
Qed.
Lemma ln10_pos : 0 < ln 10.
Proof. rewrite <- ln_1. apply ln_increasing; lra. Qed.
Lemma levels_ok k ys : match k with Rms => power_to_db_array (map (Rmax (1 / 10 ^ 12)) ys) | Peak => amplitude_to_db_array (map (Rmax (1 / 10 ^ 12)) ys) end = Ok (map (level_of k) ys).
Proof.
  pose proof ln10_pos as HL.
  assert (P : forall y, 0 < Rmax (1 / 10 ^ 12) y).
  { intros y. apply Rlt_le_trans with (1 / 10 ^ 12); [|apply Rmax_l]. apply Rdiv_lt_0_compat; [lra|]. apply pow_lt. lra. }
  destruct k.
  - unfold amplitude_to_db_array. rewrite (map_outcome_ok _ (fun x => 20 / ln 10 * ln x)).
    + rewrite map_map. f_equal. apply map_ext. intros y. unfold level_of. field. lra.
    + intros x Hx. apply in_map_iff in Hx as (y & <- & _). unfold on_positive. rewrite Rltb_true by apply P. reflexivity.
  - unfold power_to_db_array. rewrite (map_outcome_ok _ (fun x => 10 / ln 10 * ln x)).
    + rewrite map_map. f_equal. apply map_ext. intros y. unfold level_of. field. lra.
    + intros x Hx. apply in_map_iff in Hx as (y & <- & _). unfold on_positive. rewrite Rltb_true by apply P. reflexivity.
Qed.
Lemma crossfade_same inv ws : forall k, crossfade_loop inv k ws = ws.
Proof. induction ws as [|w ws IH]; intros k; [reflexivity|]. cbn [crossfade_loop]. cbv zeta. rewrite IH. f_equal. ring. Qed.

Lemma detected_mean k frame : column_mean (match k with Rms => fun x => x * x | Peak => Rabs end) frame = detected k frame.
Proof.
  unfold column_mean, detected. f_equal. destruct k; induction frame as [|x f IH]; try reflexivity; cbn [map fold_right]; now rewrite IH.
Qed.

(* --- the state of an initialised controller --- *)
Definition effective (s : drc) : drc_params := if change_needed s then next_params s else params s.
Record ready (s : drc) (e : envelope) (d : nat) (h : list (list R)) : Prop := {
  ready_env : detector s = Some e; ready_rows : one_row e; ready_params : ok_params (params s); ready_next : ok_params (next_params s);
  ready_delay : dl_inv (repeat 0 (num_channels s)) d (lookahead_delay s) h }.

Definition env_values (k : envelope_kind) (e : envelope) (sc : list (list R)) : envelope * list R := scan env_pure e (map (detected k) sc).
Definition scaled (p : drc_params) (k : envelope_kind) (frames : list (list R)) (ys : list R) : list (list R) :=
  map (fun fy => map (fun x => x * amplitude (documented_gain p (level_of k (snd fy)))) (fst fy)) (combine frames ys).

Lemma combine_map_r {A B C} (f : B -> C) (l : list A) : forall l', combine l (map f l') = map (fun ab => (fst ab, f (snd ab))) (combine l l').
Proof. induction l as [|a l IH]; intros [|b l']; try reflexivity. cbn [combine map fst snd]. now rewrite IH. Qed.

Section Ready.
Variable junk : nat -> list R.

Lemma process_ready s e d h i sc : ready s e d h -> valid_block (num_channels s) (max_block s) (i, sc) ->
  let k := envelope_type (params s) in
  exists s', drc_process junk s i sc = Ok (s', scaled (effective s) k (slice (length h) (length i) (repeat (repeat 0 (num_channels s)) d ++ h ++ i)) (snd (env_values k e sc))) /\
    ready s' (fst (env_values k e sc)) d (h ++ i) /\ num_channels s' = num_channels s /\ max_block s' = max_block s /\
    params s' = effective s /\ next_params s' = next_params s /\ change_needed s' = false.
Proof.
  intros [HE HR HP HN HD] ((V1 & V2) & V3 & V4 & V5). cbn [fst snd] in *. cbv zeta. set (k := envelope_type (params s)).
  unfold drc_process.
  replace (1 <=? length i)%nat with true by lia. replace (length i <=? max_block s)%nat with true by lia. replace (length i =? length sc)%nat with true by lia.
  assert (FB : forall l, Forall (fun c => length c = num_channels s) l -> forallb (fun c : list R => (length c =? num_channels s)%nat) l = true).
  { intros l H. apply forallb_forall. intros x Hx. rewrite Forall_forall in H. apply Nat.eqb_eq. auto. }
  rewrite !FB by assumption. cbn [ocheck]. unfold compute_gain. replace (length sc <=? max_block s)%nat with true by lia. cbn [ocheck].
  unfold gain_from_detected. rewrite HE.
  rewrite (map_ext _ (detected k)) by (intros; apply detected_mean).
  destruct (env_run e (map (detected k) sc) HR) as [ER HR']. rewrite ER. cbn [obind]. cbv zeta. fold k.
  rewrite (levels_ok k). cbn [obind].
  rewrite (map_outcome_ok _ (fun l => documented_gain (params s) l - output_gain_db (params s))) by (intros; now apply specific_gain_ok). cbn [obind].
  set (ys := snd (scan env_pure e (map (detected k) sc))).
  assert (LY : length ys = length i) by (unfold ys; rewrite scan_length, map_length; lia).
  assert (G : forall p, db_to_amplitude_array (map (fun v => v + output_gain_db p) (map (fun l => documented_gain p l - output_gain_db p) (map (level_of k) ys)))
      = map (fun y => amplitude (documented_gain p (level_of k y))) ys).
  { intros p. unfold db_to_amplitude_array. rewrite !map_map. apply map_ext. intros y. unfold amplitude. f_equal. f_equal. ring. }
  destruct (process_spec (repeat 0 (num_channels s)) junk d (lookahead_delay s) h i HD) as (dl' & ED & HD').
  assert (AP : forall s1 p, lookahead_delay s1 = lookahead_delay s ->
     apply_gain junk s1 i (map (fun y => amplitude (documented_gain p (level_of k y))) ys) =
     Ok ({| num_channels := num_channels s1; max_block := max_block s1; params := params s1; change_needed := change_needed s1;
            next_params := next_params s1; lookahead_delay := dl'; detector := detector s1 |},
         scaled p k (slice (length h) (length i) (repeat (repeat 0 (num_channels s)) d ++ h ++ i)) ys)).
  { intros s1 p EL. unfold apply_gain. rewrite map_length, LY, Nat.eqb_refl. cbn [ocheck]. rewrite EL, ED. cbn [obind fst snd]. unfold scaled. rewrite combine_map_r, map_map. reflexivity. }
  unfold effective. destruct (change_needed s) eqn:EC.
  - rewrite (map_outcome_ok _ (fun l => documented_gain (next_params s) l - output_gain_db (next_params s))) by (intros; now apply specific_gain_ok). cbn [obind fst snd].
    rewrite crossfade_same, G, AP by reflexivity. cbn [num_channels max_block params change_needed next_params detector].
    eexists. split; [reflexivity|]. split; [constructor; cbn; assumption || reflexivity|]. repeat split.
  - cbn [obind fst snd]. rewrite G, AP by reflexivity. cbn [num_channels max_block params change_needed next_params detector].
    eexists. split; [reflexivity|]. split; [constructor; cbn; assumption || reflexivity|]. repeat split.
Qed.

(* --- frame by frame --- *)
Definition frame_step (p : drc_params) (k : envelope_kind) (channels d : nat) (st : envelope * list (list R)) (f : list R * list R) : (envelope * list (list R)) * list R :=
  let ev := env_pure (fst st) (detected k (snd f)) in
  ((fst ev, snd st ++ [fst f]),
   map (fun x => x * amplitude (documented_gain p (level_of k (snd ev)))) (nth (length (snd st)) (repeat (repeat 0 channels) d ++ snd st ++ [fst f]) [])).

Lemma slice_S {A} (dflt : A) k n l : (k < length l)%nat -> slice k (S n) l = nth k l dflt :: slice (S k) n l.
Proof using. clear junk.
  revert l. induction k as [|k IH]; intros [|x l] H; cbn in H; try lia; [reflexivity|]. unfold slice in *. cbn [skipn nth]. apply IH. lia.
Qed.

Lemma frames_scan p k channels d : forall i sc e h, length sc = length i ->
  scan (frame_step p k channels d) (e, h) (combine i sc) =
  ((fst (env_values k e sc), h ++ i), scaled p k (slice (length h) (length i) (repeat (repeat 0 channels) d ++ h ++ i)) (snd (env_values k e sc))).
Proof using. clear junk.
  induction i as [|f i IH]; intros [|c sc] e h HL; cbn in HL; try discriminate.
  - cbn. unfold scaled, slice. now rewrite app_nil_r.
  - cbn [combine scan]. cbv zeta. injection HL as HL. set (e1 := fst (env_pure e (detected k c))).
    change (fst (frame_step p k channels d (e, h) (f, c))) with (e1, h ++ [f]).
    change (snd (frame_step p k channels d (e, h) (f, c))) with (map (fun x => x * amplitude (documented_gain p (level_of k (snd (env_pure e (detected k c)))))) (nth (length h) (repeat (repeat 0 channels) d ++ h ++ [f]) [])).
    rewrite (IH sc e1 (h ++ [f]) HL). cbn [fst snd].
    unfold env_values. cbn [map scan fst snd]. cbv zeta. fold e1. cbn [fst snd]. rewrite <- app_assoc. cbn [app]. f_equal.
    set (L := repeat (repeat 0 channels) d ++ h ++ f :: i).
    assert (HK : (length h < length L)%nat) by (unfold L; rewrite !app_length; cbn; lia).
    cbn [length]. rewrite (slice_S [] (length h) (length i) L HK). unfold scaled at 2. cbn [combine map fst snd]. f_equal.
    + f_equal. unfold L. replace (repeat (repeat 0 channels) d ++ h ++ f :: i) with ((repeat (repeat 0 channels) d ++ h ++ [f]) ++ i) by (rewrite <- !app_assoc; reflexivity).
      symmetry. apply app_nth1. rewrite !app_length. cbn. lia.
    + unfold scaled. f_equal. f_equal. f_equal. rewrite app_length. cbn. lia.
Qed.

Lemma combine_app {A B} (a a' : list A) (b b' : list B) : length a = length b -> combine (a ++ a') (b ++ b') = combine a b ++ combine a' b'.
Proof using. clear junk. revert b. induction a as [|x a IH]; intros [|y b] H; cbn in *; try lia; [reflexivity|]. f_equal. apply IH. lia. Qed.

Lemma blocks_ready k p channels size d : forall bs s e h, ready s e d h -> Forall (valid_block channels size) bs ->
  num_channels s = channels -> max_block s = size -> envelope_type (params s) = k -> effective s = p -> envelope_type p = k ->
  exists s' outs, run (drc_step junk) s (process_all bs) = Ok (s', outs) /\
    concat outs = snd (scan (frame_step p k channels d) (e, h) (combine (inputs_of bs) (sidechains_of bs))) /\
    ready s' (fst (fst (scan (frame_step p k channels d) (e, h) (combine (inputs_of bs) (sidechains_of bs))))) d (h ++ inputs_of bs).
Proof.
  induction bs as [|[i sc] bs IH]; intros s e h HR HV EN EM EK EP EPK.
  - exists s, []. cbn. rewrite app_nil_r. auto.
  - pose proof (Forall_inv HV) as V. subst channels size. destruct (process_ready s e d h i sc HR V) as (s1 & E1 & R1 & N1 & M1 & P1 & X1 & C1). cbv zeta in *. rewrite EK in *.
    assert (LS : length sc = length i) by (destruct V as (_ & V & _); exact V).
    destruct (IH s1 _ _ R1 (Forall_inv_tail HV)) as (s2 & outs & E2 & O2 & R2); [congruence|congruence|congruence| |assumption|].
    { unfold effective. rewrite C1. congruence. }
    unfold process_all, inputs_of, sidechains_of in *. cbn [map run drc_step fst snd concat]. rewrite E1. cbn [obind fst snd]. rewrite E2. cbn [obind fst snd].
    do 2 eexists. split; [reflexivity|]. rewrite combine_app by lia. rewrite scan_app. rewrite (frames_scan p k (num_channels s) d i sc e h LS). cbn [fst snd].
    rewrite EP in *. cbn [concat]. rewrite <- app_assoc in R2. split; [f_equal; exact O2|exact R2].
Qed.

(* --- every initialised controller is ready --- *)
Lemma env_make_rows a r rate fs e : env_make a r rate fs = Ok e -> one_row e.
Proof using. clear junk.
  unfold env_make. destruct (lowpass fs rate (49 / 100)) as [c| |]; [|discriminate|discriminate]. cbn [obind].
  destruct (biquad_init 0 1 Rmult Rdiv (fun x => Reqb x 0) 1 c) as [f| |] eqn:EI; [|discriminate|discriminate]. cbn [obind].
  pose proof (init_one _ _ EI) as L. unfold env_reset. cbn [attack_smoother release_smoother attack release]. rewrite !steady_one by exact L. cbn [obind]. intros H. injection H as <-. split; reflexivity.
Qed.
Lemma init_ready s n m fs s' : ok_params (params s) -> ok_params (next_params s) -> drc_init junk s n m fs = Ok s' ->
  (exists e, env_make (attack_s (params s)) (release_s (params s)) 200 fs = Ok e /\ ready s' e (Z.to_nat (std_round (lookahead_s (params s) * fs))) []) /\
  (0 <= std_round (lookahead_s (params s) * fs))%Z /\
  num_channels s' = n /\ max_block s' = m /\ params s' = params s /\ next_params s' = next_params s /\ change_needed s' = change_needed s.
Proof.
  intros HP HN H. unfold drc_init in H. apply ocheck_inv in H as [_ H]. apply ocheck_inv in H as [_ H]. apply ocheck_inv in H as [_ H].
  destruct (env_make _ _ _ _) as [e| |] eqn:EE; [|discriminate|discriminate]. cbn [obind] in H.
  destruct (dl_init _ _ _ _) as [d| |] eqn:ED; [|discriminate|discriminate]. cbn [obind] in H. injection H as <-. cbn.
  unfold dl_init in ED. apply ocheck_inv in ED as [EZ ED]. injection ED as <-.
  split; [|split; [lia|repeat split]]. exists e. split; [reflexivity|]. constructor; cbn [detector params next_params num_channels lookahead_delay]; try assumption; try reflexivity.
  - exact (env_make_rows _ _ _ _ _ EE).
  - apply reset_spec; cbn [delay_samples buffer]; [reflexivity|]. rewrite map_length, seq_length. lia.
Qed.
Lemma reset_rows e e' : one_row e -> env_reset e = Ok e' -> one_row e'.
Proof using. clear junk. intros [A B]. unfold env_reset. rewrite !steady_one by assumption. cbn [obind]. intros H. injection H as <-. split; reflexivity. Qed.

Definition sound (s : drc) : Prop := ok_params (params s) /\ ok_params (next_params s) /\
  match detector s with None => max_block s = 0%nat | Some e => exists d h, ready s e d h end.
Lemma step_sound s o s' out : sound s -> drc_step junk s o = Ok (s', out) -> sound s'.
Proof.
  intros (HP & HN & HD) H. destruct o as [n m fs|p| |i sc]; cbn [drc_step] in H.
  - destruct (drc_init junk s n m fs) as [s1| |] eqn:E; [|discriminate|discriminate]. cbn in H. injection H as <- <-.
    destruct (init_ready s n m fs s1 HP HN E) as ((e & _ & R) & _). destruct R as [R1 R2 R3 R4 R5]. split; [assumption|]. split; [assumption|]. rewrite R1. do 2 eexists. constructor; eassumption.
  - unfold drc_set in H. destruct (check_params p _) as [s1| |] eqn:E; [|discriminate|discriminate]. cbn in H. injection H as <- <-.
    apply check_params_inv in E as (OP & _ & _ & E). destruct (detector s) as [e|]; [|discriminate]. apply ocheck_inv in E as [_ E]. injection E as <-.
    destruct HD as (d & h & R). destruct R as [R1 R2 R3 R4 R5]. split; [assumption|]. split; [assumption|]. cbn [detector]. exists d, h. constructor; cbn; assumption || reflexivity.
  - unfold drc_reset in H. destruct (detector s) as [e|] eqn:ED; [|discriminate]. destruct (env_reset e) as [e'| |] eqn:E; [|discriminate|discriminate]. cbn in H. injection H as <- <-.
    destruct HD as (d & h & R). destruct R as [R1 R2 R3 R4 R5]. split; [assumption|]. split; [assumption|]. cbn [detector]. exists d, h. constructor; cbn; try assumption; try reflexivity. exact (reset_rows e e' R2 E).
  - assert (V : valid_block (num_channels s) (max_block s) (i, sc)).
    { unfold drc_process in H. apply ocheck_inv in H as [H1 H]. apply ocheck_inv in H as [H2 H]. apply ocheck_inv in H as [H3 H]. apply ocheck_inv in H as [H4 H]. apply ocheck_inv in H as [H5 _].
      unfold valid_block. cbn [fst snd]. rewrite forallb_forall in H3, H5.
      split; [lia|]. split; [lia|]. split; apply Forall_forall; intros x Hx; apply Nat.eqb_eq; auto. }
    destruct (detector s) as [e|] eqn:ED; [|destruct V as ((V1 & V2) & _); lia].
    destruct HD as (d & h & R). destruct (process_ready s e d h i sc R V) as (s1 & E1 & R1 & _). cbv zeta in *. rewrite E1 in H. injection H as <- <-.
    destruct R1 as [R1 R2 R3 R4 R5]. split; [assumption|]. split; [assumption|]. rewrite R1. do 2 eexists. constructor; eassumption.
Qed.
Lemma run_app {S Op Out} (step : S -> Op -> outcome (S * Out)) a : forall s b,
  run step s (a ++ b) = obind (run step s a) (fun r => omap (fun r' => (fst r', snd r ++ snd r')) (run step (fst r) b)).
Proof using. clear junk.
  induction a as [|o a IH]; intros s b; cbn [app run obind fst snd].
  - destruct (run step s b) as [[? ?]| |]; reflexivity.
  - destruct (step s o) as [[s1 o1]| |]; [|reflexivity|reflexivity]. cbn [obind fst snd]. rewrite IH.
    destruct (run step s1 a) as [[s2 o2]| |]; [|reflexivity|reflexivity]. cbn [obind fst snd]. destruct (run step s2 b) as [[s3 o3]| |]; reflexivity.
Qed.
Lemma run_sound ops : forall s s' outs, sound s -> run (drc_step junk) s ops = Ok (s', outs) -> sound s'.
Proof.
  induction ops as [|o ops IH]; intros s s' outs HS H; cbn [run] in H; [injection H as <- _; exact HS|].
  destruct (drc_step junk s o) as [[s1 o1]| |] eqn:E; [|discriminate|discriminate]. cbn [obind fst snd] in H.
  destruct (run (drc_step junk) s1 ops) as [[s2 o2]| |] eqn:E2; [|discriminate|discriminate]. cbn [obind fst snd] in H. injection H as <- _.
  exact (IH s1 s2 o2 (step_sound s o s1 o1 HS E) E2).
Qed.
Lemma make_sound p s : drc_make p = Ok s -> sound s /\ params s = p /\ next_params s = default_params /\ change_needed s = false /\ 0 < attack_s p /\ 0 < release_s p.
Proof using. clear junk.
  unfold drc_make. intros H. apply check_params_inv in H as (OP & A & B & H). injection H as <-. repeat split; cbn; try apply OP; try assumption; try lra.
Qed.

(* a pending change corresponds to the history *)
Lemma run_settled ops : forall s s' outs b, run (drc_step junk) s ops = Ok (s', outs) ->
  (b = true -> change_needed s = false) ->
  (fold_left (fun b o => match o with SetParams _ => false | Process _ _ | ResetDrc => true | Init _ _ _ => b end) ops b = true -> change_needed s' = false).
Proof.
  induction ops as [|o ops IH]; intros s s' outs b H HB; cbn [run fold_left] in *; [injection H as <- _; exact HB|].
  destruct (drc_step junk s o) as [[s1 o1]| |] eqn:E; [|discriminate|discriminate]. cbn [obind fst snd] in H.
  destruct (run (drc_step junk) s1 ops) as [[s2 o2]| |] eqn:E2; [|discriminate|discriminate]. cbn [obind fst snd] in H. injection H as <- _.
  apply (IH s1 s2 o2 _ E2). clear IH E2. destruct o as [n m fs|p| |i sc]; cbn [drc_step] in E; try discriminate.
  - intros B. destruct (drc_init junk s n m fs) as [s3| |] eqn:EI; [|discriminate|discriminate]. cbn in E. injection E as <- <-. unfold drc_init in EI.
    apply ocheck_inv in EI as [_ EI]. apply ocheck_inv in EI as [_ EI]. apply ocheck_inv in EI as [_ EI].
    destruct (env_make _ _ _ _); try discriminate. cbn [obind] in EI. destruct (dl_init _ _ _ _); try discriminate. cbn [obind] in EI. injection EI as <-. cbn. auto.
  - intros _. unfold drc_reset in E. destruct (detector s); [|discriminate]. destruct (env_reset e); try discriminate. cbn in E. injection E as <- _. reflexivity.
  - intros _. unfold drc_process in E. do 5 (apply ocheck_inv in E as [_ E]). destruct (compute_gain s sc) as [[s3 g]| |] eqn:EG; [|discriminate|discriminate]. cbn [obind fst snd] in E.
    unfold compute_gain in EG. apply ocheck_inv in EG as [_ EG]. unfold gain_from_detected in EG. destruct (detector s); [|discriminate].
    destruct (run env_output _ _) as [[? ?]| |]; try discriminate. cbn [obind] in EG. cbv zeta in EG.
    match type of EG with obind ?x _ = _ => destruct x; try discriminate end. cbn [obind] in EG.
    match type of EG with obind ?x _ = _ => destruct x; try discriminate end. cbn [obind] in EG.
    assert (C : change_needed s3 = false).
    { destruct (change_needed s).
      - match type of EG with obind ?x _ = _ => destruct x; try discriminate end. cbn [obind] in EG. injection EG as <- _. reflexivity.
      - injection EG as <- _. reflexivity. }
    unfold apply_gain in E. apply ocheck_inv in E as [_ E]. destruct (dl_process junk (lookahead_delay s3) i); try discriminate. cbn [obind] in E. injection E as <- _. exact C.
Qed.
(* --- Reset --- *)
Lemma with_rows_idem (f : biquad R) r r' : with_rows (with_rows f r) r' = with_rows f r'.
Proof using. clear junk. reflexivity. Qed.

(* what does not change between Init and the next Init *)
Record since_init (f : biquad R) (fs : R) (n m : nat) (lp : option drc_params) (s : drc) (e : envelope) : Prop := {
  si_ready : exists h, ready s e 0 h; si_n : num_channels s = n; si_m : max_block s = m; si_fs : sample_rate e = fs;
  si_a : exists r, attack_smoother e = with_rows f [r]; si_r : exists r, release_smoother e = with_rows f [r];
  si_set : match lp with Some p => next_params s = p /\ 0 < attack_s p /\ 0 < release_s p /\ attack e = coefficient_of (attack_s p) fs /\ release e = coefficient_of (release_s p) fs | None => True end;
  si_look : lookahead_s (params s) = 0 /\ lookahead_s (next_params s) = 0 }.

Lemma env_scan_keeps k f : forall sc e r0 r1, one_row e -> attack_smoother e = with_rows f [r0] -> release_smoother e = with_rows f [r1] ->
  let e' := fst (env_values k e sc) in
  attack e' = attack e /\ release e' = release e /\ sample_rate e' = sample_rate e /\
  (exists r, attack_smoother e' = with_rows f [r]) /\ (exists r, release_smoother e' = with_rows f [r]).
Proof using. clear junk.
  induction sc as [|c sc IH]; intros e r0 r1 HR EA ER; cbv zeta; unfold env_values; cbn [map scan fst snd].
  - repeat split; eauto.
  - set (e1 := fst (env_pure e (detected k c))).
    edestruct (IH e1) as (A & B & C & D & E).
    + exact (proj2 (env_pure_ok e (detected k c) HR)).
    + unfold e1, env_pure. cbn [fst attack_smoother]. rewrite EA at 1. apply with_rows_idem.
    + unfold e1, env_pure. cbn [fst release_smoother]. rewrite ER at 1. apply with_rows_idem.
    + cbv zeta in *. unfold env_values in *. repeat split; assumption.
Qed.

Definition next_set (lp : option drc_params) (o : drc_op) : option drc_params := match o with SetParams p => Some p | _ => lp end.
Lemma process_valid s i sc r : drc_process junk s i sc = Ok r -> valid_block (num_channels s) (max_block s) (i, sc).
Proof.
  intros H. unfold drc_process in H. apply ocheck_inv in H as [H1 H]. apply ocheck_inv in H as [H2 H]. apply ocheck_inv in H as [H3 H]. apply ocheck_inv in H as [H4 H]. apply ocheck_inv in H as [H5 _].
  unfold valid_block. cbn [fst snd]. rewrite forallb_forall in H3, H5.
  split; [lia|]. split; [lia|]. split; apply Forall_forall; intros x Hx; apply Nat.eqb_eq; auto.
Qed.
Lemma step_since f fs n m lp s e o s' out : since_init f fs n m lp s e -> match o with Init _ _ _ => False | _ => True end ->
  drc_step junk s o = Ok (s', out) -> exists e', since_init f fs n m (next_set lp o) s' e'.
Proof.
  intros [(h & R) EN EM EF (ra & EA) (rr & ER) ES (L1 & L2)] NI H. destruct o as [? ? ?|p| |i sc]; [contradiction| | |]; cbn [drc_step next_set] in *.
  - unfold drc_set in H. destruct (check_params p _) as [s1| |] eqn:E; [|discriminate|discriminate]. cbn in H. injection H as <- <-.
    apply check_params_inv in E as (OP & PA & PR & E). rewrite (ready_env _ _ _ _ R) in E. apply ocheck_inv in E as [EL E]. injection E as <-. apply Reqb_true_iff in EL.
    exists (set_release (set_attack e (attack_s p)) (release_s p)). destruct R as [R1 R2 R3 R4 R5]. constructor; cbn; try assumption.
    + exists h. constructor; cbn; try assumption. reflexivity.
    + eauto.
    + eauto.
    + rewrite EF. auto.
    + lra.
  - unfold drc_reset in H. rewrite (ready_env _ _ _ _ R) in H. destruct R as [R1 R2 R3 R4 R5]. unfold env_reset in H. destruct R2 as [Ra Rr]. rewrite !steady_one in H by assumption. cbn in H. injection H as <- <-.
    match goal with |- exists e', since_init _ _ _ _ _ {| detector := Some ?x |} e' => exists x end. constructor; cbn; try assumption.
    + exists h. constructor; cbn; try assumption; try reflexivity. split; reflexivity.
    + rewrite EA. eexists. reflexivity.
    + rewrite ER. eexists. reflexivity.
    + split; assumption.
  - destruct (process_ready s e 0 h i sc R (process_valid _ _ _ _ H)) as (s1 & E1 & R1 & N1 & M1 & P1 & X1 & C1). cbv zeta in *. rewrite E1 in H. injection H as <- <-.
    destruct (env_scan_keeps (envelope_type (params s)) f sc e ra rr (ready_rows _ _ _ _ R) EA ER) as (A & B & C & D & E). cbv zeta in *.
    exists (fst (env_values (envelope_type (params s)) e sc)). constructor; try (exists (h ++ i); exact R1); try congruence; try assumption.
    + destruct lp; [|exact I]. destruct ES as (S1 & S2 & S3 & S4 & S5). repeat split; congruence || assumption.
    + rewrite P1, X1. unfold effective. destruct (change_needed s); split; assumption.
Qed.
Lemma run_since f fs n m ops : forall lp s e s' outs, since_init f fs n m lp s e -> no_init ops ->
  run (drc_step junk) s ops = Ok (s', outs) -> exists e', since_init f fs n m (fold_left next_set ops lp) s' e'.
Proof.
  induction ops as [|o ops IH]; intros lp s e s' outs HS HN H; cbn [run fold_left] in *; [injection H as <- _; eauto|].
  destruct (drc_step junk s o) as [[s1 o1]| |] eqn:E; [|discriminate|discriminate]. cbn [obind fst snd] in H.
  destruct (run (drc_step junk) s1 ops) as [[s2 o2]| |] eqn:E2; [|discriminate|discriminate]. cbn [obind fst snd] in H. injection H as <- _.
  destruct (step_since f fs n m lp s e o s1 o1 HS (Forall_inv HN) E) as (e1 & S1). exact (IH _ _ _ _ _ S1 (Forall_inv_tail HN) E2).
Qed.

(* the lookahead stays zero *)
Definition no_lookahead (s : drc) : Prop := lookahead_s (params s) = 0 /\ lookahead_s (next_params s) = 0.
Lemma step_look s o s' out : sound s -> no_lookahead s -> drc_step junk s o = Ok (s', out) -> no_lookahead s'.
Proof.
  intros (HP & HN & HD) (L1 & L2) H. destruct o as [n m fs|p| |i sc]; cbn [drc_step] in H.
  - destruct (drc_init junk s n m fs) as [s1| |] eqn:E; [|discriminate|discriminate]. cbn in H. injection H as <- <-.
    destruct (init_ready s n m fs s1 HP HN E) as (_ & _ & _ & _ & E1 & E2 & _). unfold no_lookahead. now rewrite E1, E2.
  - unfold drc_set in H. destruct (check_params p _) as [s1| |] eqn:E; [|discriminate|discriminate]. cbn in H. injection H as <- <-.
    apply check_params_inv in E as (_ & _ & _ & E). destruct (detector s); [|discriminate]. apply ocheck_inv in E as [EL E]. injection E as <-. apply Reqb_true_iff in EL.
    unfold no_lookahead. cbn. lra.
  - unfold drc_reset in H. destruct (detector s); [|discriminate]. destruct (env_reset e); try discriminate. cbn in H. injection H as <- _. split; exact L2.
  - pose proof (process_valid _ _ _ _ H) as V. destruct (detector s) as [e|] eqn:ED; [|destruct V as ((V1 & V2) & _); lia].
    destruct HD as (d & h & R). destruct (process_ready s e d h i sc R V) as (s1 & E1 & _ & _ & _ & P1 & X1 & _). cbv zeta in *. rewrite E1 in H. injection H as <- _.
    unfold no_lookahead. rewrite P1, X1. unfold effective. destruct (change_needed s); split; assumption.
Qed.
Lemma run_look ops : forall s s' outs, sound s -> no_lookahead s -> run (drc_step junk) s ops = Ok (s', outs) -> no_lookahead s'.
Proof.
  induction ops as [|o ops IH]; intros s s' outs HS HL H; cbn [run] in H; [injection H as <- _; exact HL|].
  destruct (drc_step junk s o) as [[s1 o1]| |] eqn:E; [|discriminate|discriminate]. cbn [obind fst snd] in H.
  destruct (run (drc_step junk) s1 ops) as [[s2 o2]| |] eqn:E2; [|discriminate|discriminate]. cbn [obind fst snd] in H. injection H as <- _.
  exact (IH s1 s2 o2 (step_sound s o s1 o1 HS E) (step_look s o s1 o1 HS HL E) E2).
Qed.

Lemma std_round_zero : std_round 0 = 0%Z.
Proof using. clear junk.
  unfold std_round. rewrite Rltb_false by lra. rewrite Rplus_0_l. unfold Int_part. replace (up (/ 2)) with 1%Z; [reflexivity|]. apply tech_up; cbn; lra.
Qed.
Lemma env_make_shape a r fs e : env_make a r 200 fs = Ok e -> exists f,
  length (rows f) = 1%nat /\
  (forall a' r', env_make a' r' 200 fs = Ok {| env := 0; attack := coefficient_of a' fs; release := coefficient_of r' fs; sample_rate := fs;
    attack_smoother := with_rows f [(coefficient_of a' fs / (fb1 f + fb2 f + 1), coefficient_of a' fs / (fb1 f + fb2 f + 1))];
    release_smoother := with_rows f [(coefficient_of r' fs / (fb1 f + fb2 f + 1), coefficient_of r' fs / (fb1 f + fb2 f + 1))] |}).
Proof using. clear junk.
  unfold env_make. destruct (lowpass fs 200 (49 / 100)) as [c| |]; [|discriminate|discriminate]. cbn [obind].
  destruct (biquad_init 0 1 Rmult Rdiv (fun x => Reqb x 0) 1 c) as [f| |] eqn:EI; [|discriminate|discriminate]. cbn [obind]. intros _.
  pose proof (init_one _ _ EI) as L. exists f. split; [exact L|]. intros a' r'. unfold env_reset. cbn [attack_smoother release_smoother attack release sample_rate]. rewrite !steady_one by exact L. reflexivity.
Qed.

Lemma slice_no_delay {A} (z : A) h i : slice (length h) (length i) (repeat z 0 ++ h ++ i) = i.
Proof using. clear junk. unfold slice. cbn [repeat app]. rewrite skipn_app, skipn_all, Nat.sub_diag. cbn. apply firstn_all. Qed.

Lemma lengths_ok channels size bs : Forall (valid_block channels size) bs -> length (sidechains_of bs) = length (inputs_of bs).
Proof using. clear junk.
  unfold sidechains_of, inputs_of. induction 1 as [|b bs (_ & V & _) _ IH]; [reflexivity|]. cbn [map concat]. rewrite !app_length. lia.
Qed.

Lemma reset_fresh p0 pre n m fs ops p s outs bs : lookahead_s p0 = 0 -> no_init ops -> last_set ops = Some p ->
  drc_session junk p0 (pre ++ Init n m fs :: ops ++ [ResetDrc]) = Ok (s, outs) -> Forall (valid_block n m) bs ->
  exists s1 outs1 s2 outs2, run (drc_step junk) s (process_all bs) = Ok (s1, outs1) /\
    drc_session junk p (Init n m fs :: process_all bs) = Ok (s2, outs2) /\ concat outs1 = concat outs2.
Proof.
  intros L0 HN HL H HV. unfold drc_session in H. destruct (drc_make p0) as [s0| |] eqn:EM; [|discriminate|discriminate]. cbn [obind] in H.
  destruct (make_sound p0 s0 EM) as (S0 & P0 & X0 & C0 & _). assert (K0 : no_lookahead s0) by (unfold no_lookahead; rewrite P0, X0; split; [exact L0|reflexivity]).
  rewrite run_app in H. destruct (run (drc_step junk) s0 pre) as [[sa oa]| |] eqn:EA; [|discriminate|discriminate]. cbn [obind fst snd] in H.
  pose proof (run_sound _ _ _ _ S0 EA) as SA. pose proof (run_look _ _ _ _ S0 K0 EA) as KA.
  cbn [run] in H. destruct (drc_step junk sa (Init n m fs)) as [[sb ob]| |] eqn:EB; [|discriminate|discriminate]. cbn [obind fst snd] in H.
  rewrite run_app in H. destruct (run (drc_step junk) sb ops) as [[sc oc]| |] eqn:EC; [|discriminate|discriminate]. cbn [obind fst snd] in H.
  cbn [run] in H. destruct (drc_step junk sc ResetDrc) as [[sd od]| |] eqn:ED; [|discriminate|discriminate]. cbn in H. injection H as <- _.
  cbn [drc_step] in EB. destruct (drc_init junk sa n m fs) as [sb'| |] eqn:EI; [|discriminate|discriminate]. cbn in EB. injection EB as -> _.
  destruct SA as (PA & NA & _). destruct KA as (LA & LA'). destruct (init_ready sa n m fs sb PA NA EI) as ((e & EE & RB) & _ & NB & MB & PB & XB & CB).
  rewrite LA, Rmult_0_l, std_round_zero in RB. cbn in RB.
  destruct (env_make_shape _ _ _ _ EE) as (f & Lf & SH).
  assert (SB : since_init f fs n m None sb e).
  { rewrite SH in EE. injection EE as <-. constructor; try assumption; try exact I; cbn; eauto. rewrite PB, XB. split; assumption. }
  destruct (run_since f fs n m ops None sb e sc oc SB HN EC) as (ec & SC). change (fold_left next_set ops None) with (last_set ops) in SC. rewrite HL in SC.
  destruct (step_since f fs n m _ sc ec ResetDrc sd od SC I ED) as (ed & SD). cbn [next_set] in SD.
  (* the state after Reset *)
  destruct SC as [(hc & RC) _ _ FC (ra & AC) (rr & RRC) (SC1 & SC2 & SC3 & SC4 & SC5) _].
  cbn [drc_step] in ED. unfold drc_reset in ED. rewrite (ready_env _ _ _ _ RC) in ED. unfold env_reset in ED. destruct (ready_rows _ _ _ _ RC) as [Ra Rr]. rewrite !steady_one in ED by assumption.
  cbn [obind omap] in ED. unfold omap in ED. cbn [obind] in ED. injection ED as <- _.
  destruct SD as [(hd & RD) ND MD _ _ _ _ _]. assert (EED := ready_env _ _ _ _ RD). cbn [detector] in EED. injection EED as EED.
  rewrite AC, RRC, SC4, SC5, FC in EED. cbn [with_rows fb1 fb2] in EED.
  set (st := {| num_channels := num_channels sc; max_block := max_block sc; params := next_params sc; change_needed := false; next_params := next_params sc; lookahead_delay := lookahead_delay sc; detector := _ |}) in *.
  assert (EED' : ed = {| env := 0; attack := coefficient_of (attack_s p) fs; release := coefficient_of (release_s p) fs; sample_rate := fs;
    attack_smoother := with_rows f [(coefficient_of (attack_s p) fs / (fb1 f + fb2 f + 1), coefficient_of (attack_s p) fs / (fb1 f + fb2 f + 1))];
    release_smoother := with_rows f [(coefficient_of (release_s p) fs / (fb1 f + fb2 f + 1), coefficient_of (release_s p) fs / (fb1 f + fb2 f + 1))] |}) by (rewrite <- EED; reflexivity).
  clear EED. rewrite <- (SH (attack_s p) (release_s p)) in EED' || idtac.
  (* a fresh controller *)
  assert (OP : ok_params p) by (rewrite <- SC1; exact (ready_next _ _ _ _ RC)).
  assert (LP : lookahead_s p = 0).
  { assert (K2 : no_lookahead sc) by (apply (run_look ops sb sc oc); [exact (step_sound sa (Init n m fs) sb [] (conj PA (conj NA (proj2 (proj2 (run_sound _ _ _ _ S0 EA))))) ltac:(cbn [drc_step]; rewrite EI; reflexivity))|split; congruence|exact EC]).
    destruct K2 as [_ K2]. congruence. }
  unfold drc_init in EI. apply ocheck_inv in EI as [I1 EI]. apply ocheck_inv in EI as [I2 EI]. apply ocheck_inv in EI as [I3 EI].
  assert (FR : exists sf, obind (drc_make p) (fun s => drc_step junk s (Init n m fs)) = Ok (sf, []) /\ ready sf ed 0 [] /\ num_channels sf = n /\ max_block sf = m /\ params sf = p /\ change_needed sf = false).
  { unfold drc_make. rewrite check_params_ok by assumption. cbn [obind drc_step]. set (s9 := {| num_channels := 0; max_block := 0; params := p; change_needed := false; next_params := default_params; lookahead_delay := _; detector := None |}).
    assert (E9 : exists sf, drc_init junk s9 n m fs = Ok sf).
    { unfold drc_init. rewrite I1, I2, I3. cbn [ocheck params s9]. rewrite SH. cbn [obind]. rewrite LP, Rmult_0_l, std_round_zero. unfold dl_init. cbn [Z.leb Z.compare ocheck obind]. eauto. }
    destruct E9 as (sf & E9). exists sf. rewrite E9. split; [reflexivity|]. destruct (init_ready s9 n m fs sf OP default_ok E9) as ((e9 & EE9 & R9) & _ & N9 & M9 & P9 & _ & C9).
    cbn [params s9] in *. rewrite LP, Rmult_0_l, std_round_zero in R9. cbn [Z.to_nat] in R9. rewrite SH in EE9. injection EE9 as <-. rewrite EED'. auto. }
  destruct FR as (sf & EF & RF & NF & MF & PF & CF).
  assert (EST : effective st = p) by (unfold effective, st; cbn; exact SC1).
  assert (EPS : params st = p) by exact SC1.
  destruct (blocks_ready (envelope_type p) p n m 0 bs st ed hd RD HV ND MD) as (s1 & o1 & E1 & O1 & _); [now rewrite EPS|exact EST|reflexivity|].
  destruct (blocks_ready (envelope_type p) p n m 0 bs sf ed [] RF HV NF MF) as (s2 & o2 & E2 & O2 & _); [now rewrite PF|unfold effective; now rewrite CF|reflexivity|].
  exists s1, o1, s2, ([] :: o2). split; [exact E1|]. split.
  - unfold drc_session. destruct (drc_make p) as [sm| |]; [|discriminate|discriminate]. cbn [obind run] in *. rewrite EF. cbn [obind fst snd]. rewrite E2. reflexivity.
  - cbn [concat app]. rewrite O1, O2, !frames_scan by (eapply lengths_ok; exact HV). cbn [snd]. now rewrite !slice_no_delay.
Qed.
End Ready.
