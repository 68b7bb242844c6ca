(* Properties of the ladder filter.  eps is the machine epsilon of the scalar type; c are the
   coefficients of the smoothing filter, a lowpass with corner 0.005 and Q = 0.49 in the code
   (ladder_filter-inl.h:156-158); N is smoothing_samples_max_. *)
From Verif Require Import Common ListLemmas RealUtil BiquadModel DesignModel CascadeModel LadderModel LadderSpec LadderProofs LadderProofs2 LadderProofs3 LadderProofs4.
From Coq Require Import Psatz.
Local Open Scope R_scope.

(* C25: one frame adds at most its own energy, after every history of calls. *)
Theorem C25_energy eps c N nch k v f ops f1 outs frame f2 out i :
  0 < eps /\ 10 * eps < 1 ->
  ladder_init eps c nch k v = Ok f ->
  run (ladder_step eps N) f ops = Ok (f1, outs) ->
  ladder_step eps N f1 (Sample frame) = Ok (f2, out) ->
  (i < nch)%nat ->
  energy (nth i (state f2) []) <= energy (nth i (state f1) []) + nth i frame 0 * nth i frame 0.
Proof.
  intros HE HI HR HS Hi. destruct (init_safe eps HE c nch k v f HI) as (S0 & L0 & Z0).
  assert (E0 : energy (nth i (state f) []) <= 0).
  { rewrite Forall_forall in Z0. rewrite Z0; [lra|]. apply nth_In. lia. }
  destruct (run_energy eps HE N ops f f1 outs i 0 HR S0 ltac:(lia) E0) as (S1 & L1 & _).
  destruct (sample_safe eps HE f1 frame f2 out HS S1) as (_ & _ & _ & _ & B). apply B. lia.
Qed.
Print Assumptions C25_energy.
(* The state is bounded by the energy received so far and so is the output. *)
Theorem C25_bounded eps c N nch k v f ops f1 outs i :
  0 < eps /\ 10 * eps < 1 ->
  ladder_init eps c nch k v = Ok f ->
  run (ladder_step eps N) f ops = Ok (f1, outs) -> (i < nch)%nat ->
  energy (nth i (state f1) []) <= fed i ops /\
  forall frame f2 out, ladder_step eps N f1 (Sample frame) = Ok (f2, out) ->
    nth i out 0 * nth i out 0 <= (fed i ops + nth i frame 0 * nth i frame 0) * energy (tap_gains f2).
Proof.
  intros HE HI HR Hi. destruct (init_safe eps HE c nch k v f HI) as (S0 & L0 & Z0).
  assert (E0 : energy (nth i (state f) []) <= 0).
  { rewrite Forall_forall in Z0. rewrite Z0; [lra|]. apply nth_In. lia. }
  destruct (run_energy eps HE N ops f f1 outs i 0 HR S0 ltac:(lia) E0) as (S1 & L1 & B1).
  split; [lra|]. intros frame f2 out HS.
  destruct (sample_safe eps HE f1 frame f2 out HS S1) as (_ & _ & _ & _ & B). destruct (B i ltac:(lia)) as [B2 B3].
  eapply Rle_trans; [exact B3|]. apply Rmult_le_compat_r; [apply energy_nonneg|lra].
Qed.
Print Assumptions C25_bounded.
(* The class comment promises that a reflection coefficient of magnitude one or more fails a
   CHECK; it is replaced instead. *)
Theorem C25_unstable_coefficients_refuted eps c :
  0 < eps /\ 10 * eps < 1 -> a0 c <> 0 -> exists k v f, Exists (fun x => 1 <= Rabs x) k /\ ladder_init eps c 1 k v = Ok f.
Proof.
  intros HE HA. exists [2], [0; 1]. eexists. split; [left; rewrite Rabs_pos_eq; lra|].
  unfold ladder_init, smoother_init, biquad_init. cbn [length Nat.leb Nat.eqb negb ocheck force_stability map convert_tap_gains combine tail_products].
  destruct (Reqb_spec (a0 c) 0); [contradiction|]. reflexivity.
Qed.
Print Assumptions C25_unstable_coefficients_refuted.

(* C26: the reflection coefficients reach their targets when smoothing is over. *)
Theorem C26_reflection_partial eps N f k v f1 frames f2 outs :
  ladder_change eps N f k v = Ok f1 -> Forall (fun x => Rabs x < 1) k ->
  run (ladder_sample eps) f1 frames = Ok (f2, outs) -> (N <= length frames)%nat ->
  reflection f2 = k /\ scattering f2 = scattering_of eps k /\ smoothing_samples f2 = O.
Proof.
  intros HC HK HR HN. unfold ladder_change in HC. do 3 apply ocheck_inv in HC as [_ HC]. apply ocheck_inv in HC as [HP HC].
  apply Nat.ltb_lt in HP. cbv zeta in HC. injection HC as <-.
  rewrite <- (force_id eps k HK). apply (run_settles eps frames _ f2 outs HR). cbn [smoothing_samples]. lia.
Qed.
Print Assumptions C26_reflection_partial.
(* A change of coefficients is accepted exactly when the sizes fit the order of the filter. *)
Theorem C26_change_accepted eps N f k v : (0 < N)%nat ->
  (is_ok (ladder_change eps N f k v) = true <->
   k <> [] /\ length v = S (length k) /\ length k = length (reflection f)).
Proof.
  intros HN. unfold ladder_change. rewrite (proj2 (Nat.ltb_lt 0 N) HN).
  destruct (Nat.eqb_spec (length k) 0) as [E|E]; cbn [negb ocheck is_ok].
  - destruct k; [|discriminate E]. split; [discriminate|]. intros (H & _). congruence.
  - destruct (Nat.eqb_spec (length v) (S (length k))); cbn [ocheck is_ok]; [|split; [discriminate|intros (_ & H & _); congruence]].
    destruct (Nat.eqb_spec (length (reflection f)) (length k)); cbn [ocheck is_ok]; [|split; [discriminate|intros (_ & _ & H); congruence]].
    split; [|reflexivity]. intros _. split; [|auto]. intros ->. apply E. reflexivity.
Qed.
Print Assumptions C26_change_accepted.
(* While they move, the reflection coefficients stay within the requested values, whatever the
   calls are: the smoother does not overshoot and no coefficient is forced. *)
Theorem C26_no_overshoot eps fc Q c N nch k v f ops f1 outs lo hi :
  0 < eps /\ 10 * eps < 1 -> 1 / 1000 <= fc <= 1 / 100 -> 2 / 5 <= Q <= 1 / 2 -> lowpass 1 fc Q = Ok c ->
  -1 < lo -> hi < 1 -> Forall (fun x => lo <= x <= hi) k -> Forall (requests lo hi) ops ->
  ladder_init eps c nch k v = Ok f -> run (ladder_step eps N) f ops = Ok (f1, outs) ->
  Forall (fun x => lo <= x <= hi) (reflection f1).
Proof.
  intros HE HF HQ HC HL HH HK HO HI HR.
  destruct (init_ranged eps lo hi HL HH 1 fc Q c nch k v f HC ltac:(lra) ltac:(lra) ltac:(lra) HQ HI HK) as [R0 _].
  apply (run_ranged eps lo hi HL HH N ops f f1 outs HR HO R0).
Qed.
Print Assumptions C26_no_overshoot.
(* The tap gains never reach theirs: the last assignment of the smoothing is the wrong way
   round.  However long the smoothing and the wait, the filter answers an impulse differently
   from a filter initialised with the requested coefficients. *)
Theorem C26_tap_gains_refuted eps fc Q c N n :
  0 < eps /\ 10 * eps < 1 -> (1 <= N)%nat -> 1 / 1000 <= fc <= 1 / 100 -> 2 / 5 <= Q <= 1 / 2 -> lowpass 1 fc Q = Ok c ->
  exists k v v' f f1 f2 f3 y outs g g' y',
    ladder_init eps c 1 k v = Ok f /\ ladder_change eps N f k v' = Ok f1 /\
    run (ladder_sample eps) f1 (repeat [0] n) = Ok (f2, outs) /\ ladder_sample eps f2 [1] = Ok (f3, [y]) /\
    ladder_init eps c 1 k v' = Ok g /\ ladder_sample eps g [1] = Ok (g', [y']) /\ y < y'.
Proof. exact (taps_refuted eps fc Q c N n). Qed.
Print Assumptions C26_tap_gains_refuted.
(* Reset during a transition leaves the filter between the old and the new one for good. *)
Theorem C26_reset_refuted eps fc Q c N n :
  0 < eps /\ 10 * eps < 1 -> (2 <= N)%nat -> 1 / 1000 <= fc <= 1 / 100 -> 2 / 5 <= Q <= 1 / 2 -> lowpass 1 fc Q = Ok c ->
  exists k k' v f f' outs f3 y g g3 z h h3 w,
    ladder_init eps c 1 k v = Ok f /\
    run (ladder_step eps N) f (Change k' v :: Sample [0] :: Reset :: []) = Ok (f', outs) /\
    (exists f2, run (ladder_sample eps) f' (repeat [0] n) = Ok (f2, repeat [0] n) /\ ladder_sample eps f2 [1] = Ok (f3, [y])) /\
    ladder_init eps c 1 k v = Ok g /\ ladder_sample eps g [1] = Ok (g3, [z]) /\
    ladder_init eps c 1 k' v = Ok h /\ ladder_sample eps h [1] = Ok (h3, [w]) /\ z < y < w.
Proof. exact (reset_refuted eps fc Q c N n). Qed.
Print Assumptions C26_reset_refuted.

(* The smoothing filter of the code exists and meets the hypotheses. *)
Example C26_smoothing_filter : exists c, lowpass 1 (1 / 200) (49 / 100) = Ok c.
Proof.
  unfold lowpass, check_arguments, bilinear_transform. rewrite !(Rltb_true (1 / 200) (1 / 2)), (Rltb_true 0 (1 / 200)), (Rltb_true 0 (49 / 100)), (Rltb_true 0 1), (Rleb_true 0 (1 / 200)) by lra.
  cbn [ocheck]. eexists. reflexivity.
Qed.

(* C54: a filter made from a transfer function satisfies its difference equation. *)
Theorem C54_ladder_realises eps c nch b a k v f frames :
  ladder_init_tf eps c nch b a = Ok f -> make_ladder b a = Ok (k, v) -> Forall (fun x => 0 < Rabs x < 1) k ->
  Forall (fun fr => length fr = nch) frames ->
  exists f' outs, run (ladder_sample eps) f frames = Ok (f', outs) /\ Forall (fun o => length o = nch) outs /\
    forall i, (i < nch)%nat -> implements b a (map (fun fr => nth i fr 0) frames) (map (fun o => nth i o 0) outs).
Proof. exact (ladder_realises eps c nch b a k v f frames). Qed.
Print Assumptions C54_ladder_realises.
(* A reflection coefficient of zero is not exact: its scattering coefficient 1 is replaced by
   1 - 10 eps.  The pure delay z^-1 is attenuated. *)
Theorem C54_zero_reflection_refuted eps c : 0 < eps /\ 10 * eps < 1 -> a0 c <> 0 ->
  exists b a f f' outs, ladder_init_tf eps c 1 b a = Ok f /\ make_ladder b a = Ok ([0], b) /\
    run (ladder_sample eps) f [[1]; [0]] = Ok (f', outs) /\
    ~ implements b a [1; 0] (map (fun o => nth 0 o 0) outs).
Proof.
  intros HE HA.
  assert (M : make_ladder [0; 1] [1; 0] = Ok ([0], [0; 1])).
  { unfold make_ladder. cbn [length Nat.eqb negb nth]. destruct (Reqb_spec 1 0); [lra|]. cbn. repeat f_equal; field. }
  assert (I : exists f, ladder_init_tf eps c 1 [0; 1] [1; 0] = Ok f).
  { eexists. unfold ladder_init_tf. rewrite M. cbn [obind fst snd]. unfold ladder_init, smoother_init, biquad_init.
    cbn [length Nat.leb Nat.eqb negb ocheck force_stability map convert_tap_gains combine tail_products].
    destruct (Reqb_spec (a0 c) 0); [contradiction|]. reflexivity. }
  destruct I as (f & I). exists [0; 1], [1; 0], f. pose proof I as I'. unfold ladder_init_tf in I'. rewrite M in I'. cbn [obind fst snd] in I'.
  destruct (init_form _ _ _ _ _ _ I') as (ER & ES & ET & SE & EST).
  assert (F0 : force_stability eps [0] = [0]) by (apply force_id; repeat constructor; rewrite Rabs_R0; lra). rewrite F0 in *.
  set (s := 1 - 10 * eps).
  assert (S1 : scattering_of eps [0] = [s]).
  { unfold scattering_of. cbn. replace (1 - 0 * 0) with 1 by ring. rewrite sqrt_1. unfold clamp. rewrite (Rabs_pos_eq 1), (Rltb_false 1 1), (Rltb_true 0 1) by lra. reflexivity. }
  assert (T1 : convert_tap_gains [0] [0; 1] = [0; 1]).
  { unfold convert_tap_gains. cbn. f_equal; [unfold Rdiv; ring|]. f_equal. lra. }
  rewrite S1 in ES. rewrite T1 in ET. cbn [length repeat] in EST.
  assert (HS : settled f -> state f = [[0; 0]] -> exists f', run (ladder_sample eps) f [[1]; [0]] = Ok (f', [[0]; [s * s]])).
  { intros S0 ST. eexists. cbn [run]. rewrite settled_sample by (unfold settled in *; rewrite ?ST; auto). cbn [obind fst snd].
    rewrite settled_sample; [|exact S0|unfold next_rows; rewrite ST; reflexivity].
    cbn [obind fst snd]. unfold next_rows. rewrite ST. cbn [with_state state reflection scattering tap_gains]. rewrite ER, ES, ET. cbn.
    f_equal. apply f_equal2; [reflexivity|]. f_equal; [f_equal; ring|]. f_equal. f_equal. ring. }
  destruct (HS SE EST) as (f' & HR). exists f', [[0]; [s * s]]. split; [exact I|]. split; [exact M|]. split; [exact HR|].
  intros [_ H]. specialize (H 1%nat ltac:(cbn; lia)). cbn in H. assert (X : s * s = 1) by lra. unfold s in X. nra.
Qed.
Print Assumptions C54_zero_reflection_refuted.

(* a first order lowpass: y[n] = x[n]/2 + y[n-1]/2 *)
Example C54_example : exists k v, make_ladder [1 / 2; 0] [1; -1 / 2] = Ok (k, v) /\ Forall (fun x => 0 < Rabs x < 1) k.
Proof.
  unfold make_ladder. cbn [length Nat.eqb negb nth]. destruct (Reqb_spec 1 0); [lra|]. cbn.
  eexists _, _. split; [reflexivity|]. constructor; [|constructor].
  replace (-1 / 2 / 1) with (- (1 / 2)) by field. rewrite Rabs_Ropp, Rabs_pos_eq; lra.
Qed.
(* a history with a change of coefficients, a frame and a reset *)
Example C25_example : exists c k k' v f f1 outs,
  ladder_init (/ 1000) c 1 k v = Ok f /\ run (ladder_step (/ 1000) 700) f [Change k' v; Sample [0]; Reset] = Ok (f1, outs).
Proof.
  destruct C26_smoothing_filter as (c & HC).
  destruct (C26_reset_refuted (/ 1000) (1 / 200) (49 / 100) c 700 3) as (k & k' & v & f & f' & outs & _ & _ & _ & _ & _ & _ & _ & _ & H1 & H2 & _);
    [lra|lia|lra|lra|exact HC|].
  exists c, k, k', v, f, f', outs. split; [exact H1|exact H2].
Qed.
