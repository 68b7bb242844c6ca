(* The gain of a channel of the auditory filterbank and its peak. *)
From Coq Require Import ZArith Reals Lra Lia List Bool Psatz.
From Coquelicot Require Import Coquelicot.
From Verif Require Import Common CInt ListLemmas RealUtil BiquadModel DesignModel DesignSpec DesignProofs CascadeModel CascadeSpec
  PeakModel PeakSpec PeakProofs PeakProofs3 AuditoryModel AuditorySpec AuditoryProofs.
Import ListNotations.
Local Open Scope R_scope.
Local Notation C := Complex.C.

Lemma circle_mod w : Cmod (cos w, sin w) = 1.
Proof.
  unfold Cmod. cbn [fst snd]. replace (cos w ^ 2 + sin w ^ 2) with 1; [apply sqrt_1|].
  pose proof (sin2_cos2 w). unfold Rsqr in *. lra.
Qed.
Lemma good_free c : good c -> circle_free c.
Proof. intros ((_ & S) & _) w E. specialize (S _ E). rewrite circle_mod in S. lra. Qed.
Lemma has_value_det c z h h' : has_value c z h -> has_value c z h' -> h = h'.
Proof. intros [_ A] [_ B]. congruence. Qed.

Lemma response_len cs : forall rates f h, response cs rates f h -> length cs = length rates.
Proof.
  induction cs as [|c cs IH]; intros [|r rates] f h H; cbn in *; try tauto.
  destruct H as (h1 & h2 & _ & H & _). f_equal. eapply IH, H.
Qed.
Lemma response_det cs : forall rates f h h', response cs rates f h -> response cs rates f h' -> h = h'.
Proof.
  induction cs as [|c cs IH]; intros [|r rates] f h h' A B; cbn in *; try tauto.
  - congruence.
  - destruct A as (h1 & h2 & V & A & ->), B as (h3 & h4 & V' & B & ->).
    rewrite (has_value_det _ _ _ _ V V'), (IH _ _ _ _ A B). reflexivity.
Qed.
Lemma response_snoc cs : forall rates c r f h, length cs = length rates ->
  (response (cs ++ [c]) (rates ++ [r]) f h <-> exists h1 h2, response cs rates f h1 /\ has_value c (on_circle f r) h2 /\ h = (h1 * h2)%C).
Proof.
  induction cs as [|d cs IH]; intros [|q rates] c r f h L; cbn in L; try discriminate.
  - cbn. split.
    + intros (h1 & h2 & V & -> & ->). exists (RtoC 1), h1. split; [reflexivity|]. split; [exact V|]. ring.
    + intros (h1 & h2 & -> & V & ->). exists h2, (RtoC 1). split; [exact V|]. split; [reflexivity|]. ring.
  - cbn [app response]. split.
    + intros (h1 & h2 & V & A & ->). apply IH in A; [|lia]. destruct A as (h3 & h4 & A & B & ->).
      exists (h1 * h3)%C, h4. split; [exists h1, h3; auto|]. split; [exact B|]. ring.
    + intros (h1 & h2 & (h3 & h4 & V & A & ->) & B & ->). exists h3, (h4 * h2)%C. split; [exact V|].
      split; [|ring]. apply IH; [lia|]. exists h4, h2. auto.
Qed.

Lemma response_at_ok cs : Forall good cs -> forall rates f acc, length cs = length rates -> exists h,
  response_at cs rates f acc = Ok (acc * h)%C /\ response cs rates f h /\ h <> RtoC 0.
Proof.
  induction 1 as [|c cs G _ IH]; intros [|r rates] f acc L; cbn in L; try discriminate.
  - exists (RtoC 1). cbn. split; [f_equal; ring|]. split; [reflexivity|]. intros E. apply RtoC_inj in E. lra.
  - destruct (eval_ok c (2 * PI * f / r) (good_free c G)) as (h1 & E1 & V1 & _). cbn [response_at]. rewrite E1. cbn [obind].
    destruct (IH rates f (acc * h1)%C ltac:(lia)) as (h2 & E2 & V2 & N2). exists (h1 * h2)%C. split; [|split].
    + rewrite E2. f_equal. ring.
    + exists h1, h2. auto.
    + apply Cmult_neq_0; [|exact N2]. destruct V1 as [D V1]. rewrite <- V1. intros E.
      destruct G as (_ & _ & _ & N). apply (N (2 * PI * f / r)). 
      transitivity (denominator c (cos (2 * PI * f / r), sin (2 * PI * f / r)) * RtoC 0)%C; [|ring]. rewrite <- E. field. exact D.
Qed.

Definition Gh cs rates f : R := match gain_magnitude_hz cs rates f with Ok v => v | _ => 0 end.

Lemma diff_mod w : Cmod (RtoC 1 - (cos w, sin w))%C = Cmod (RtoC 1 - / (cos w, sin w))%C.
Proof.
  pose proof (circle_mod w) as M. assert (N : (cos w, sin w) <> RtoC 0) by (intros E; rewrite E, Cmod_0 in M; lra).
  replace (RtoC 1 - / (cos w, sin w))%C with ((RtoC (-1)) * (RtoC 1 - (cos w, sin w)) * / (cos w, sin w))%C by (change (RtoC (-1)) with (RtoC (- (1))); rewrite RtoC_opp; field; exact N).
  rewrite !Cmod_mult, Cmod_R, Cmod_inv, M by exact N. rewrite Rinv_1, Rmult_1_r.
  replace (Rabs (-1)) with 1 by (rewrite Rabs_left; lra). ring.
Qed.
Lemma diff_pos f r : 0 < f < r / 2 -> 0 < Cmod (RtoC 1 - / on_circle f r)%C.
Proof.
  intros H. unfold on_circle. rewrite <- diff_mod. apply Cmod_gt_0. intros E. apply (f_equal fst) in E.
  cbn in E. pose proof PI_RGT_0. assert (R0 : 0 < r) by lra.
  assert (A1 : 0 < 2 * PI * f / r) by (apply Rdiv_lt_0_compat; nra).
  assert (A2 : 2 * PI * f / r < PI).
  { apply (Rmult_lt_reg_r r); [exact R0|]. unfold Rdiv. rewrite Rmult_assoc, Rinv_l by lra. nra. }
  assert (cos (2 * PI * f / r) < cos 0) by (apply cos_decreasing_1; lra). rewrite cos_0 in *. lra.
Qed.
Lemma nth_error_snoc {A} (l : list A) a k : length l = k -> nth_error (l ++ [a]) k = Some a.
Proof. intros <-. rewrite nth_error_app2, Nat.sub_diag by lia. reflexivity. Qed.

Lemma gain_ok cs rates r f k : Forall good cs -> length cs = length (rates ++ [r]) -> length rates = k ->
  gain_magnitude_hz cs (rates ++ [r]) f = Ok (Gh cs (rates ++ [r]) f) /\
  (exists h, channel_response cs (rates ++ [r]) k f h /\ Cmod h = Gh cs (rates ++ [r]) f) /\
  (0 < f < r / 2 -> 0 < Gh cs (rates ++ [r]) f).
Proof.
  intros GC L K. destruct (response_at_ok cs GC (rates ++ [r]) f (RtoC 1) L) as (h & E & V & N).
  set (G := Gh cs (rates ++ [r]) f).
  assert (EG : gain_magnitude_hz cs (rates ++ [r]) f = Ok (Cmod h * Cmod (RtoC 1 - / on_circle f r)%C)).
  { unfold gain_magnitude_hz. rewrite E. cbn [obind]. rewrite last_last, Cmult_1_l. f_equal. f_equal.
    replace (2 * PI * (f / r)) with (2 * PI * f / r) by (unfold Rdiv; ring). apply diff_mod. }
  assert (GG : G = Cmod h * Cmod (RtoC 1 - / on_circle f r)%C) by (unfold G, Gh; now rewrite EG).
  split; [rewrite EG, GG; reflexivity|]. split.
  - exists (h * (RtoC 1 - / on_circle f r))%C. split; [|rewrite Cmod_mult, GG; reflexivity].
    exists h, r. split; [|split; [now apply nth_error_snoc|reflexivity]].
    rewrite app_length in L. cbn in L. rewrite !firstn_all2; [exact V| |lia]. rewrite app_length. cbn. lia.
  - intros F. rewrite GG. apply Rmult_lt_0_compat; [now apply Cmod_gt_0|now apply diff_pos].
Qed.

Lemma channel_det cs rates k f h h' : channel_response cs rates k f h -> channel_response cs rates k f h' -> h = h'.
Proof.
  intros (h1 & r & A & N & ->) (h2 & r' & B & N' & ->). rewrite (response_det _ _ _ _ _ A B). congruence.
Qed.
Lemma has_value_scale g c z h : g <> 0 -> (has_value (adjust_stage g c) z (RtoC g * h)%C <-> has_value c z h).
Proof.
  intros N. unfold has_value. rewrite adjust_num_at. change (denominator (adjust_stage g c) z) with (denominator c z).
  split; intros [D E]; (split; [exact D|]).
  - assert (NG : RtoC g <> RtoC 0) by (intros Q; apply N; now apply RtoC_inj).
    transitivity (RtoC g * h / RtoC g)%C; [rewrite <- E; field; auto|field; auto].
  - rewrite <- E. field. exact D.
Qed.
Lemma channel_scale g cs c rates r k f h : g <> 0 -> length cs = length rates -> length rates = k ->
  (channel_response (cs ++ [adjust_stage g c]) (rates ++ [r]) k f (RtoC g * h)%C <-> channel_response (cs ++ [c]) (rates ++ [r]) k f h).
Proof.
  intros N L K. unfold channel_response. rewrite !firstn_all2 by (rewrite app_length; cbn; lia).
  assert (NG : RtoC g <> RtoC 0) by (intros Q; apply N; now apply RtoC_inj).
  assert (F : nth_error (rates ++ [r]) k = Some r) by now apply nth_error_snoc.
  set (t := (RtoC 1 - / on_circle f r)%C).
  split; intros (h1 & r' & V & NR & E); rewrite F in NR; injection NR as <-; fold t in E.
  - exists (h1 / RtoC g)%C, r. split; [|split; [exact F|]].
    + apply response_snoc in V; [|exact L]. apply response_snoc; [exact L|]. destruct V as (a & b & A & B & ->).
      exists a, (b / RtoC g)%C. split; [exact A|]. split; [|field; exact NG].
      apply (has_value_scale g); [exact N|]. replace (RtoC g * (b / RtoC g))%C with b by (field; exact NG). exact B.
    + fold t. transitivity (RtoC g * h / RtoC g)%C; [field; exact NG|]. rewrite E. field. exact NG.
  - exists (RtoC g * h1)%C, r. split; [|split; [exact F|]].
    + apply response_snoc in V; [|exact L]. apply response_snoc; [exact L|]. destruct V as (a & b & A & B & ->).
      exists a, (RtoC g * b)%C. split; [exact A|]. split; [|ring]. now apply has_value_scale.
    + fold t. rewrite E. ring.
Qed.

Lemma peak_found cs c rates r k : Forall good (cs ++ [c]) -> length cs = length rates -> length rates = k -> 0 < r ->
  exists w, find_peak_by_bisection (gain_magnitude_hz (cs ++ [c]) (rates ++ [r])) 0 (r / 2) = Ok (w, Gh (cs ++ [c]) (rates ++ [r]) w) /\
    0 < Gh (cs ++ [c]) (rates ++ [r]) w /\
    unit_peak (cs ++ [adjust_stage (1 / Gh (cs ++ [c]) (rates ++ [r]) w) c]) (rates ++ [r]) k w.
Proof.
  intros GC L K R0. set (G := Gh (cs ++ [c]) (rates ++ [r])).
  assert (LL : length (cs ++ [c]) = length (rates ++ [r])) by (rewrite !app_length; cbn; lia).
  assert (GO : forall f, _) by (intros f; exact (gain_ok (cs ++ [c]) rates r f k GC LL K)). fold G in GO.
  destruct (bisection_ok (gain_magnitude_hz (cs ++ [c]) (rates ++ [r])) G 0 (r / 2)) as (w & E & W & GR & NE).
  - intros x _. apply GO.
  - lra.
  - exists 1%Z. split; [lia|]. apply GO. lra.
  - exists w. fold G. split; [exact E|]. assert (GW : 0 < G w) by (apply GO; exact W). split; [exact GW|].
    set (g := 1 / G w). assert (GP : 0 < g) by (apply Rdiv_lt_0_compat; lra).
    assert (SC : forall f h', channel_response (cs ++ [adjust_stage g c]) (rates ++ [r]) k f h' -> Cmod h' = g * G f).
    { intros f h' H. destruct (GO f) as (_ & (h & V & M) & _).
      assert (V' : channel_response (cs ++ [adjust_stage g c]) (rates ++ [r]) k f (RtoC g * h)%C) by (apply channel_scale; [lra|exact L|exact K|exact V]).
      rewrite (channel_det _ _ _ _ _ _ H V'), Cmod_mult, Cmod_R, Rabs_pos_eq, M by lra. reflexivity. }
    destruct (GO w) as (_ & (h & V & M) & _).
    assert (V' : channel_response (cs ++ [adjust_stage g c]) (rates ++ [r]) k w (RtoC g * h)%C) by (apply channel_scale; [lra|exact L|exact K|exact V]).
    assert (G1 : g * G w = 1) by (unfold g; field; lra).
    exists r, (RtoC g * h)%C. split; [now apply nth_error_snoc|]. split; [exact W|]. split; [exact V'|].
    split; [rewrite (SC _ _ V'); exact G1|]. split.
    + intros j h' J H. rewrite (SC _ _ H), <- G1. apply Rmult_le_compat_l; [lra|].
      replace (IZR j * (r / 2 / 99)) with (0 + IZR j * ((r / 2 - 0) / 99)) by (field). now apply GR.
    + intros gain p HG SP.
      assert (EG : forall f, 0 < f < r / 2 -> gain f = g * G f).
      { intros f F. destruct (HG f F) as (h' & Vh & <-). now apply SC. }
      destruct (NE p) as [N|N].
      * destruct SP as (P & S1 & S2). split; [exact P|]. split.
        -- intros x y X XY YP Y. pose proof (S1 x y X XY YP Y) as S. rewrite !EG in S by lra. apply Rmult_lt_reg_l in S; lra.
        -- intros x y X X0 XY Y. pose proof (S2 x y X X0 XY Y) as S. rewrite !EG in S by lra. apply Rmult_lt_reg_l in S; lra.
      * left. replace (r / 2 / 99 / 1048576) with ((r / 2 - 0) / 99 / 2 ^ 20) by (field). exact N.
      * right. exact N.
Qed.

Lemma channel_app cs cs' rates rates' k f h : (k < length cs)%nat -> length cs = length rates ->
  (channel_response (cs ++ cs') (rates ++ rates') k f h <-> channel_response cs rates k f h).
Proof.
  intros K L. unfold channel_response. rewrite !firstn_app, nth_error_app1 by lia.
  replace (S k - length cs)%nat with O by lia. replace (S k - length rates)%nat with O by lia. cbn [firstn]. rewrite !app_nil_r. reflexivity.
Qed.
Lemma unit_peak_app cs cs' rates rates' k w : (k < length cs)%nat -> length cs = length rates ->
  unit_peak cs rates k w -> unit_peak (cs ++ cs') (rates ++ rates') k w.
Proof.
  intros K L (r & h & N & W & V & M & A & B). exists r, h. split; [rewrite nth_error_app1 by lia; exact N|].
  split; [exact W|]. split; [exact (proj2 (channel_app _ _ _ _ _ _ _ K L) V)|]. split; [exact M|]. split.
  - intros j h' J H. apply (A j h' J). exact (proj1 (channel_app _ _ _ _ _ _ _ K L) H).
  - intros gain p HG. apply B. intros f F. destruct (HG f F) as (h' & H & E). exists h'. split; [|exact E]. exact (proj1 (channel_app _ _ _ _ _ _ _ K L) H).
Qed.
