From Verif Require Import Common CInt ListLemmas Mealy RealUtil NthLemmas BiquadModel BiquadSpec BiquadProofs LoudnessSpec LoudnessProofs DesignModel
  ResamplerModel ResamplerSpec ResamplerProofs ResamplerPropsProofs EnvDetectModel.
From Coq Require Import Lra.
Local Open Scope nat_scope.

Section Any.
Context {F : Type} (zero one : F) (add sub mul div : F -> F -> F) (is_zero : F -> bool) (leb ltb eqb : F -> F -> bool)
        (half root : F -> F) (dot : list F -> list (list F) -> list F) (plus : list F -> list F -> list F)
        (design : F -> F -> outcome (coeffs F)) (resampler_init : F -> F -> option (@config F * Z)).
Notation ps := (pure_sample add sub mul).
Notation sq := (map (fun x => mul x x)).
Notation dblock := (detector_block add sub mul root dot plus).
Notation dinit := (detector_init zero one mul div is_zero leb ltb eqb half design resampler_init).

(* the two filters *)
Definition cstep (s : list (biquad F) * biquad F) (fr : list F) : (list (biquad F) * biquad F) * list F :=
  let p := chain ps (fst s) fr in let q := ps (snd s) (sq (snd p)) in ((fst p, fst q), snd q).
Lemma cscan frames : forall s, scan cstep s frames =
  let p := chain_scan ps (fst s) frames in let q := scan ps (snd s) (map sq (snd p)) in ((fst p, fst q), snd q).
Proof using.
  clear. cbv zeta. induction frames as [|fr frames IH]; intros s.
  - rewrite <- scan_chain. cbn. now destruct s.
  - cbn [scan]. rewrite IH. cbn [cstep fst snd]. rewrite <- !scan_chain. cbn [scan fst snd map]. reflexivity.
Qed.
Definition filters_of (d : detector F) := (prefilter d, smoother d).
Definition good (n : nat) (d : detector F) : Prop :=
  1 <= n /\ channels d = n /\ 1 <= length (prefilter d) /\ Forall (wf n) (prefilter d) /\ wf n (smoother d).
Definition rs (same : bool) (ds : option (@config F * Z * @rstate (list F))) (fr : list (list F)) :=
  if same then Ok (ds, fr) else resample dot plus ds fr.
Definition with_all (d : detector F) (rc : list F) (s : list (biquad F) * biquad F) ds : detector F :=
  {| channels := channels d; same_rate := same_rate d; recent := rc; prefilter := fst s; smoother := snd s; downsampler := ds |}.
Lemma filters_with d rc s ds : filters_of (with_all d rc s ds) = s.
Proof using. clear. destruct s. reflexivity. Qed.
Lemma sq_widths n (y : list (list F)) : Forall (fun fr => length fr = n) y -> Forall (fun fr => length fr = n) (map sq y).
Proof using. clear. intros H. apply Forall_forall. intros fr Hfr. apply in_map_iff in Hfr as (g & <- & Hg). rewrite map_length. rewrite Forall_forall in H. now apply H. Qed.
Lemma last_app_default {A} (a b : list A) d : last (a ++ b) d = last b (last a d).
Proof using.
  clear. destruct b as [|y b]; [now rewrite app_nil_r|].
  assert (K : forall (l : list A) e e', l <> [] -> last l e = last l e') by (intros l e e' H; induction l as [|u l I]; [congruence|destruct l; [reflexivity|apply I; discriminate]]).
  revert d. induction a as [|x a IH]; intros d; [reflexivity|].
  transitivity (last (a ++ y :: b) d); [cbn [app]; destruct a; reflexivity|]. rewrite IH. apply K. discriminate.
Qed.
Lemma block_run n d frames ds' z : good n d -> Forall (fun fr => length fr = n) frames ->
  rs (same_rate d) (downsampler d) (snd (scan cstep (filters_of d) frames)) = Ok (ds', z) ->
  let out := map (map root) z in
  let d' := with_all d (last out (recent d)) (fst (scan cstep (filters_of d) frames)) ds' in
  dblock d frames = Ok (d', Some out) /\ good n d'.
Proof using add sub mul root dot plus.
  clear zero one div is_zero leb ltb eqb half design resampler_init.
  intros (H1 & H2 & H3 & H4 & H5) HF HR. cbv zeta. rewrite cscan in *. cbn [fst snd filters_of] in *. unfold detector_block. rewrite H2.
  replace (n =? 0) with false by lia. unfold cascade_block. replace (1 <=? length (prefilter d)) with true by lia. cbn [oguard].
  destruct (stages_block_ok add sub mul n (prefilter d) frames H1 H4 HF) as (A & B & W). rewrite A. cbn [obind fst snd].
  destruct (block_ok add sub mul n (smoother d) _ H1 H5 (sq_widths n _ W)) as (C & W2 & L2). rewrite C. cbn [obind fst snd].
  unfold rs in HR. rewrite HR. cbn [obind fst snd]. unfold with_all. cbn [fst snd]. split.
  - rewrite H2. do 3 f_equal. destruct (map (map root) z) as [|u l]; [reflexivity|]. clear. revert u. induction l as [|v l IH]; intros u; [reflexivity|]. exact (IH v).
  - unfold good. cbn [channels prefilter smoother]. rewrite chain_scan_length. auto.
Qed.
Lemma blocks_run n blocks : forall d ds' zs, good n d -> Forall (Forall (fun fr => length fr = n)) blocks ->
  run (rs (same_rate d)) (downsampler d) (snd (scan (scan cstep) (filters_of d) blocks)) = Ok (ds', zs) ->
  let outs := map (map (map root)) zs in
  let d' := with_all d (last (concat outs) (recent d)) (fst (scan cstep (filters_of d) (concat blocks))) ds' in
  run dblock d blocks = Ok (d', map Some outs) /\ good n d'.
Proof using add sub mul root dot plus.
  clear zero one div is_zero leb ltb eqb half design resampler_init.
  induction blocks as [|b blocks IH]; intros d ds' zs G HF HR; cbv zeta.
  - cbn in HR. injection HR as <- <-. cbn. destruct d; split; [reflexivity|exact G].
  - inversion HF as [|? ? Hb HB]; subst. cbn [scan run snd fst] in HR.
    destruct (rs (same_rate d) (downsampler d) (snd (scan cstep (filters_of d) b))) as [[ds1 z]| |] eqn:E; cbn [obind fst snd] in HR; try discriminate.
    destruct (run (rs (same_rate d)) ds1 (snd (scan (scan cstep) (fst (scan cstep (filters_of d) b)) blocks))) as [[ds2 zs2]| |] eqn:E2; cbn [obind fst snd] in HR; try discriminate.
    injection HR as <- <-. destruct (block_run n d b ds1 z G Hb E) as [B G1]. cbv zeta in B, G1.
    set (d1 := with_all d (last (map (map root) z) (recent d)) (fst (scan cstep (filters_of d) b)) ds1) in *.
    assert (E3 : run (rs (same_rate d1)) (downsampler d1) (snd (scan (scan cstep) (filters_of d1) blocks)) = Ok (ds2, zs2)) by (unfold d1; rewrite filters_with; exact E2).
    destruct (IH d1 ds2 zs2 G1 HB E3) as [R2 G2]. cbn [run]. rewrite B. cbn [obind]. cbv zeta in R2, G2. cbn [fst snd]. rewrite R2. cbn [obind fst snd].
    cbn [map concat]. rewrite last_app_default. rewrite scan_app. cbn [fst]. unfold d1 in *. rewrite filters_with in *. split; [reflexivity|exact G2].
Qed.
Lemma rs_same ds zs : run (rs true) ds zs = Ok (ds, zs).
Proof using. clear. induction zs as [|z zs IH]; cbn [run]; [reflexivity|]. unfold rs at 1. cbn [obind fst snd]. rewrite IH. reflexivity. Qed.
Lemma rs_down c r zs : forall s, run (rs false) (Some (c, r, s)) zs =
  match run (q_process dot plus c) s zs with Ok (s', o) => Ok (Some (c, r, s'), o) | CheckFail => CheckFail | Undef => Undef end.
Proof using.
  clear. induction zs as [|z zs IH]; intros s; cbn [run]; [reflexivity|]. unfold rs at 1, resample. destruct (q_process dot plus c s z) as [[s1 y]| |]; cbn [obind fst snd]; try reflexivity.
  rewrite IH. destruct (run (q_process dot plus c) s1 zs) as [[s2 ys]| |]; reflexivity.
Qed.
(* outputs do not depend on the most recent output *)
Definition same_but_recent (d d' : detector F) : Prop :=
  channels d = channels d' /\ same_rate d = same_rate d' /\ prefilter d = prefilter d' /\ smoother d = smoother d' /\ downsampler d = downsampler d'.
Lemma recent_irrelevant blocks : forall d d', same_but_recent d d' -> omap snd (run dblock d blocks) = omap snd (run dblock d' blocks).
Proof using.
  clear. induction blocks as [|b blocks IH]; intros d d' H; [reflexivity|]. cbn [run].
  assert (K : match dblock d b, dblock d' b with
              | Ok (e, o), Ok (e', o') => same_but_recent e e' /\ o = o' | CheckFail, CheckFail => True | Undef, Undef => True | _, _ => False end).
  { destruct H as (H1 & H2 & H3 & H4 & H5). unfold detector_block. rewrite H1, H2, H3, H4, H5. destruct (channels d' =? 0).
    - unfold same_but_recent. auto 10.
    - destruct (cascade_block add sub mul (prefilter d') b) as [p| |]; cbn [obind]; auto. destruct (biquad_block add sub mul (smoother d') _) as [q| |]; cbn [obind]; auto.
      destruct (if same_rate d' then _ else _) as [r| |]; cbn [obind]; auto. unfold same_but_recent. cbn. auto 10. }
  destruct (dblock d b) as [[e o]| |], (dblock d' b) as [[e' o']| |]; try contradiction; auto. destruct K as [K ->]. cbn [obind fst snd].
  specialize (IH e e' K). destruct (run dblock e blocks) as [[f fo]| |], (run dblock e' blocks) as [[f' fo']| |]; cbn in *; try discriminate; auto.
  injection IH as ->. reflexivity.
Qed.
Lemma at_stream_unique (c : @config F) (P : list (list F)) s s' : at_stream c P s -> at_stream c P s' -> s = s'.
Proof using. clear. intros (A & B & _) (A' & B' & _). destruct s, s'. cbn in *. congruence. Qed.
(* Init *)
Lemma dinit_inv nz fs cutoff env cs d : dinit nz fs cutoff env cs = Ok d ->
  exists n c, nz = Z.of_nat n /\ leb env fs = true /\ ltb cutoff (half env) = true /\ ltb zero cutoff = true /\ 1 <= length cs /\
    same_rate d = eqb env fs /\ recent d = repeat zero n /\
    Forall2 (fun c f => biquad_init zero one mul div is_zero n c = Ok f) cs (prefilter d) /\
    design fs cutoff = Ok c /\ biquad_init zero one mul div is_zero n c = Ok (smoother d) /\
    downsampler d = match resampler_init fs env with Some (c, r) => Some (c, r, reset (repeat zero n) r) | None => None end /\ good n d.
Proof using zero one mul div is_zero leb ltb eqb half design resampler_init.
  clear add sub root dot plus. unfold detector_init. destruct (leb env fs) eqn:C1; cbn [ocheck]; [|discriminate]. destruct (ltb cutoff (half env)) eqn:C2; cbn [ocheck]; [|discriminate].
  destruct (ltb zero cutoff) eqn:C3; cbn [ocheck]; [|discriminate]. destruct (0 <? nz)%Z eqn:C4; cbn [ocheck]; [|discriminate]. cbv zeta.
  unfold cascade_init. destruct ((1 <=? Z.to_nat nz) && (1 <=? length cs)) eqn:C; cbn [oguard obind]; [|discriminate].
  apply andb_prop in C as [D1 D2]. apply Nat.leb_le in D1, D2.
  destruct (init_stages zero one mul div is_zero (Z.to_nat nz) cs) as [pre| |] eqn:E1; cbn [obind]; try discriminate.
  destruct (design fs cutoff) as [c| |] eqn:E2; cbn [obind]; try discriminate.
  destruct (biquad_init zero one mul div is_zero (Z.to_nat nz) c) as [sm| |] eqn:E3; cbn [obind]; try discriminate.
  intros H. injection H as <-. exists (Z.to_nat nz), c. cbn [channels same_rate recent prefilter smoother downsampler].
  pose proof (init_stages_inv zero one mul div is_zero _ _ _ E1) as H2.
  assert (HL : length cs = length pre) by (clear -H2; induction H2; cbn [length]; lia).
  assert (HW : Forall (wf (Z.to_nat nz)) pre).
  { clear -H2. induction H2 as [|c0 f cs fs H HR IH]; constructor; [|exact IH]. exact (proj1 (proj2 (proj2 (init_inv zero one mul div is_zero _ c0 f H)))). }
  pose proof (proj1 (proj2 (proj2 (init_inv zero one mul div is_zero _ _ _ E3)))) as WA.
  unfold good. cbn [channels same_rate recent prefilter smoother downsampler]. split; [lia|]. do 10 (split; [solve [auto|lia]|]). repeat (split; [solve [auto|lia]|]). exact WA.
Qed.
(* Reset after some blocks: as after Init, except the most recent output *)
Lemma dreset_ok nz fs cutoff env cs d n frames rc ds : dinit nz fs cutoff env cs = Ok d -> nz = Z.of_nat n -> Forall (fun fr => length fr = n) frames ->
  match ds, downsampler d with Some (c, r, _), Some (c', r', _) => c = c' /\ r = r' | None, None => True | _, _ => False end ->
  detector_reset zero (with_all d rc (fst (scan cstep (filters_of d) frames)) ds) = Ok (with_all d rc (filters_of d) (downsampler d)).
Proof using zero one add sub mul div is_zero leb ltb eqb half design resampler_init.
  clear root dot plus.
  intros HI Hn HF HD. destruct (dinit_inv _ _ _ _ _ _ HI) as (n' & c & E & _ & _ & _ & _ & _ & _ & HK & _ & HS & Hds & G). assert (Q : n' = n) by lia. rewrite Q in *.
  destruct G as (G1 & G2 & G3 & G4 & G5). rewrite cscan. unfold detector_reset, with_all. cbn [fst snd prefilter smoother channels same_rate recent downsampler filters_of].
  rewrite (reset_cascade zero one add sub mul div is_zero n cs (prefilter d) HK frames HF). cbn [obind].
  destruct (stages_block_ok add sub mul n (prefilter d) frames G1 G4 HF) as (_ & _ & W).
  rewrite (reset_scan zero one add sub mul div is_zero n c (smoother d) _ HS (sq_widths n _ W)). cbn [obind]. do 2 f_equal.
  rewrite G2. rewrite Hds in *. destruct (resampler_init fs env) as [[c' r']|], ds as [[[c1 r1] s1]|]; try contradiction; [|reflexivity].
  destruct HD as [-> ->]. reflexivity.
Qed.
End Any.
