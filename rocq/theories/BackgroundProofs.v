From Verif Require Import Common RealUtil DesignModel EnvelopeModel EnvelopeProofs DrcProofs BackgroundModel BackgroundSpec.
Local Open Scope R_scope.

(* ---------- one channel ---------- *)
Fixpoint chan_run (s : bg) (factor : R) (c : bg_channel) (xs : list (R * R)) : outcome (list bg_channel) :=
  match xs with
  | [] => Ok []
  | (f, sl) :: r => obind (channel_sample s factor c f sl) (fun c' => obind (chan_run s factor c' r) (fun l => Ok (c' :: l)))
  end.
Definition state_at (c : bg_channel) (l : list bg_channel) (i : nat) : bg_channel := nth i (c :: l) fresh_channel.

Lemma chan_steps s factor xs : forall c l, chan_run s factor c xs = Ok l -> length l = length xs /\
  forall i, (i < length xs)%nat -> channel_sample s factor (state_at c l i) (fst (nth i xs (0, 0))) (snd (nth i xs (0, 0))) = Ok (state_at c l (S i)).
Proof.
  induction xs as [|[f sl] xs IH]; intros c l H; cbn [chan_run] in H.
  - injection H as <-. split; [reflexivity|]. cbn. lia.
  - destruct (channel_sample s factor c f sl) as [c'| |] eqn:E; [|discriminate H|discriminate H]. cbn [obind] in H.
    destruct (chan_run s factor c' xs) as [l'| |] eqn:E2; [|discriminate H|discriminate H]. cbn [obind] in H.
    assert (l = c' :: l') as -> by congruence. destruct (IH c' l' E2) as [L S]. split; [cbn [length]; lia|].
    intros [|i] Hi; [exact E|]. cbn [length] in Hi. exact (S i ltac:(lia)).
Qed.

Section Law.
  Variables (s : bg) (sens : R) (n : nat) (c : nat -> bg_channel) (f sl : nat -> R).
  Hypothesis HT : (0 <= rejection_samples s)%Z.
  Hypothesis H0 : c O = fresh_channel.
  Hypothesis HS : forall i, (i < n)%nat -> channel_sample s (1 / sens) (c i) (f i) (sl i) = Ok (c (S i)).
  Notation b := (fun i => background (c i)).
  Notation T := (rejection_samples s).

  Lemma sample_cases i : (i < n)%nat ->
    let ab := above_input b f i in let tr := transient sens f sl i in
    (burn_in (c i) = true /\ (ab -> burn_in (c (S i)) = false) /\ (~ ab -> burn_in (c (S i)) = true) /\ counter (c (S i)) = 0%Z /\ background (c (S i)) = smoothed (burn_in_coeff s) b f sl i) \/
    (burn_in (c i) = false /\ burn_in (c (S i)) = false /\ exists r,
       ((tr /\ r = T) \/ (~ tr /\ ab /\ r = 0%Z) \/ (~ tr /\ ~ ab /\ r = counter (c i))) /\
       ((r = 0%Z /\ counter (c (S i)) = 0%Z /\ background (c (S i)) = smoothed (coeff s) b f sl i) \/
        (r <> 0%Z /\ counter (c (S i)) = (r - 1)%Z /\ background (c (S i)) = background (c i)))).
  Proof.
    intros Hi ab tr. pose proof (HS i Hi) as E. unfold channel_sample in E. subst ab tr. unfold above_input, transient, smoothed.
    destruct (burn_in (c i)) eqn:B.
    - left. cbn [Z.eqb] in E. replace (0 =? 0)%Z with true in E by reflexivity. assert (c (S i) = {| background := background (c i) + burn_in_coeff s * (Rmin (sl i) (f i) - background (c i)); counter := 0; burn_in := negb (Rltb (f i) (background (c i) - 1 / 10000)) |}) as -> by congruence.
      cbn [burn_in counter background]. split; [reflexivity|]. split; [intros; rewrite Rltb_true by assumption; reflexivity|]. split; [intros; rewrite Rltb_false by lra; reflexivity|]. split; reflexivity.
    - right. split; [reflexivity|].
      destruct (Rltb_spec (1 / sens * sl i) (f i)) as [TR|NT].
      + destruct (T =? 0)%Z eqn:EZ.
        * assert (c (S i) = {| background := background (c i) + coeff s * (Rmin (sl i) (f i) - background (c i)); counter := T; burn_in := false |}) as -> by congruence.
          cbn [burn_in counter background]. split; [reflexivity|]. exists T. split; [left; split; [assumption|reflexivity]|]. left. split; [lia|]. split; [lia|reflexivity].
        * unfold oguard in E. destruct (-2147483648 <? T)%Z; [|discriminate E].
          assert (c (S i) = {| background := background (c i); counter := T - 1; burn_in := false |}) as -> by congruence.
          cbn [burn_in counter background]. split; [reflexivity|]. exists T. split; [left; split; [assumption|reflexivity]|]. right. split; [lia|]. split; reflexivity.
      + destruct (Rltb_spec (f i) (background (c i) - 1 / 10000)) as [AB|NA].
        * replace (0 =? 0)%Z with true in E by reflexivity.
          assert (c (S i) = {| background := background (c i) + coeff s * (Rmin (sl i) (f i) - background (c i)); counter := 0; burn_in := false |}) as -> by congruence.
          cbn [burn_in counter background]. split; [reflexivity|]. exists 0%Z. split; [right; left; split; [assumption|split; [assumption|reflexivity]]|]. left. split; [reflexivity|]. split; reflexivity.
        * destruct (counter (c i) =? 0)%Z eqn:EZ.
          -- assert (c (S i) = {| background := background (c i) + coeff s * (Rmin (sl i) (f i) - background (c i)); counter := counter (c i); burn_in := false |}) as -> by congruence.
             cbn [burn_in counter background]. split; [reflexivity|]. exists (counter (c i)). split; [right; right; split; [assumption|split; [assumption|reflexivity]]|]. left. split; [lia|]. split; [lia|reflexivity].
          -- unfold oguard in E. destruct (-2147483648 <? counter (c i))%Z; [|discriminate E].
             assert (c (S i) = {| background := background (c i); counter := counter (c i) - 1; burn_in := false |}) as -> by congruence.
             cbn [burn_in counter background]. split; [reflexivity|]. exists (counter (c i)). split; [right; right; split; [assumption|split; [assumption|reflexivity]]|]. right. split; [lia|]. split; reflexivity.
  Qed.

  (* j is a transient frame whose rejection period has not been ended early before frame i *)
  Definition opener (i j : nat) : Prop :=
    (j < i)%nat /\ ~ adapting b f j /\ transient sens f sl j /\ forall k, (j < k < i)%nat -> above_input b f k -> transient sens f sl k.
  Definition inv (i : nat) : Prop :=
    (burn_in (c i) = true /\ counter (c i) = 0%Z /\ adapting b f i) \/
    (burn_in (c i) = false /\ ~ adapting b f i /\ (0 <= counter (c i))%Z /\
     ((0 < counter (c i))%Z -> exists j, opener i j /\ counter (c i) = (T - (Z.of_nat i - Z.of_nat j))%Z /\ forall j', opener i j' -> (j' <= j)%nat) /\
     (counter (c i) = 0%Z -> forall j, opener i j -> (T <= Z.of_nat i - Z.of_nat j)%Z)).

  Lemma adapting_S i : adapting b f (S i) <-> adapting b f i /\ ~ above_input b f i.
  Proof.
    unfold adapting. split.
    - intros H. split; [intros j Hj; apply H; lia|apply H; lia].
    - intros [H1 H2] j Hj. destruct (Nat.eq_dec j i) as [->|]; [assumption|apply H1; lia].
  Qed.
  Lemma adapting_mono i j : (j <= i)%nat -> adapting b f i -> adapting b f j.
  Proof. unfold adapting. intros H A k Hk. apply A. lia. Qed.
  Lemma opener_S i j : (j < i)%nat -> opener (S i) j <-> opener i j /\ (above_input b f i -> transient sens f sl i).
  Proof.
    intros Hj. unfold opener. split.
    - intros (A & B & C & D). split; [|intros; apply D; [lia|assumption]]. split; [assumption|]. split; [assumption|]. split; [assumption|]. intros k Hk. apply D. lia.
    - intros ((A & B & C & D) & E). split; [lia|]. split; [assumption|]. split; [assumption|]. intros k Hk HA. destruct (Nat.eq_dec k i) as [->|]; [auto|apply D; [lia|assumption]].
  Qed.
  Lemma opener_last i : opener (S i) i <-> ~ adapting b f i /\ transient sens f sl i.
  Proof. unfold opener. split; [intros (A & B & C & D); auto|]. intros [A B]. split; [lia|]. split; [assumption|]. split; [assumption|]. intros k Hk. lia. Qed.

  Lemma above_dec i : above_input b f i \/ ~ above_input b f i.
  Proof. unfold above_input. destruct (Rlt_dec (f i) (background (c i) - 1 / 10000)); auto. Qed.
  Lemma transient_dec i : transient sens f sl i \/ ~ transient sens f sl i.
  Proof. unfold transient. destruct (Rlt_dec (1 / sens * sl i) (f i)); auto. Qed.

  Lemma inv_all i : (i <= n)%nat -> inv i.
  Proof.
    induction i as [|i IH]; intros Hi.
    - left. rewrite H0. split; [reflexivity|]. split; [reflexivity|]. intros j Hj. lia.
    - specialize (IH ltac:(lia)). pose proof (sample_cases i ltac:(lia)) as SC. cbv zeta in SC. destruct IH as [(B & C & A)|(B & A & C & P & Z0)].
      + destruct SC as [(_ & S1 & S2 & S3 & S4)|(B' & _)]; [|rewrite B in B'; discriminate].
        destruct (above_dec i) as [AB|NA].
        * right. split; [auto|]. split; [rewrite adapting_S; tauto|]. split; [lia|]. split; [lia|].
          intros _ j O. exfalso. destruct O as (O1 & O2 & _). apply O2, (adapting_mono i); [lia|assumption].
        * left. split; [auto|]. split; [assumption|]. rewrite adapting_S. tauto.
      + destruct SC as [(B' & _)|(_ & S1 & r & R & S2)]; [rewrite B in B'; discriminate|].
        assert (A' : ~ adapting b f (S i)) by (rewrite adapting_S; tauto).
        right. split; [assumption|]. split; [assumption|].
        assert (R0 : (0 <= r)%Z) by (destruct R as [[_ ->]|[(_ & _ & ->)|(_ & _ & ->)]]; lia).
        split; [destruct S2 as [(? & -> & _)|(? & -> & _)]; lia|]. split.
        * intros P1. destruct S2 as [(? & ? & _)|(NZ & CE & _)]; [lia|].
          destruct R as [[TR ->]|[(_ & _ & ->)|(NT & NA & ->)]]; [|lia|].
          -- exists i. split; [apply opener_last; tauto|]. split; [lia|]. intros j' (O & _). lia.
          -- destruct (P ltac:(lia)) as (j & O & CJ & LJ). exists j. split; [apply opener_S; [destruct O; lia|tauto]|]. split; [lia|].
             intros j' O'. destruct (Nat.eq_dec j' i) as [->|NE]; [apply opener_last in O'; tauto|]. apply LJ. apply (opener_S i j'); [destruct O'; lia|assumption].
        * intros CZ j O. destruct (Nat.eq_dec j i) as [->|NE].
          -- apply opener_last in O. destruct O as [_ TR]. destruct R as [[_ ->]|[(NT & _)|(NT & _)]]; [|tauto|tauto].
             destruct S2 as [(? & ? & _)|(? & ? & _)]; lia.
          -- assert (O1 : opener i j /\ (above_input b f i -> transient sens f sl i)) by (apply opener_S; [destruct O; lia|assumption]).
             destruct O1 as [O1 O2]. destruct R as [[TR ->]|[(NT & AB & ->)|(NT & NA & ->)]].
             ++ destruct O as (Oa & _). destruct S2 as [(? & ? & _)|(? & ? & _)]; lia.
             ++ tauto.
             ++ destruct S2 as [(? & ? & _)|(? & ? & _)].
                ** specialize (Z0 ltac:(lia) j O1). lia.
                ** destruct (P ltac:(lia)) as (j' & O' & CJ & LJ). specialize (LJ j O1). lia.
  Qed.

  Lemma background_obeys : background_law (burn_in_coeff s) (coeff s) sens T n b f sl.
  Proof.
    split; [cbv beta; rewrite H0; reflexivity|]. intros i Hi. pose proof (sample_cases i Hi) as SC. cbv zeta in SC.
    destruct (inv_all i ltac:(lia)) as [(B & C & A)|(B & A & C & P & Z0)].
    - destruct SC as [(_ & S1 & S2 & S3 & S4)|(B' & _)]; [|rewrite B in B'; discriminate]. split; [intros _; exact S4|]. tauto.
    - destruct SC as [(B' & _)|(_ & S1 & r & R & S2)]; [rewrite B in B'; discriminate|]. split; [tauto|].
      assert (EQ : rejecting sens T b f sl i <-> exists j, opener (S i) j /\ (Z.of_nat i - Z.of_nat j < T)%Z).
      { unfold rejecting, opener. split; intros (j & J).
        - destruct J as (J1 & J2 & J3 & J4 & J5). exists j. split; [|assumption]. split; [lia|]. split; [assumption|]. split; [assumption|]. intros k Hk. apply J5. lia.
        - destruct J as ((J1 & J2 & J3 & J4) & J5). exists j. split; [lia|]. split; [assumption|]. split; [assumption|]. split; [assumption|]. intros k Hk. apply J4. lia. }
      assert (RB : r <> 0%Z <-> exists j, opener (S i) j /\ (Z.of_nat i - Z.of_nat j < T)%Z).
      { split.
        - intros NZ. destruct R as [[TR ->]|[(_ & _ & ->)|(NT & NA & ->)]]; [|lia|].
          + exists i. split; [apply opener_last; tauto|lia].
          + destruct (P ltac:(lia)) as (j & O & CJ & LJ). exists j. split; [apply opener_S; [destruct O; lia|tauto]|lia].
        - intros (j & O & LT). destruct (Nat.eq_dec j i) as [->|NE].
          + apply opener_last in O. destruct R as [[TR ->]|[(NT & _)|(NT & _)]]; [lia|tauto|tauto].
          + apply opener_S in O; [|destruct O; lia]. destruct O as [O1 O2].
            destruct R as [[TR ->]|[(NT & AB & ->)|(NT & NA & ->)]]; [destruct O1; lia|tauto|]. intros CZ. specialize (Z0 CZ j O1). lia. }
      split; intros _ HR.
      + apply EQ, RB in HR. destruct S2 as [(? & _)|(_ & _ & E)]; [contradiction|exact E].
      + destruct S2 as [(_ & _ & E)|(NZ & _)]; [exact E|]. exfalso. apply HR, EQ, RB, NZ.
  Qed.
End Law.

(* ---------- blocks ---------- *)
Lemma frame_channels_ok s factor : forall cs fr cs', frame_channels s factor cs fr = Ok cs' ->
  length fr = length cs /\ length cs' = length cs /\ forall k, (k < length cs)%nat ->
  channel_sample s factor (nth k cs fresh_channel) (fst (nth k fr (0, 0))) (snd (nth k fr (0, 0))) = Ok (nth k cs' fresh_channel).
Proof.
  induction cs as [|c cs IH]; intros [|[f sl] fr] cs' H; cbn [frame_channels] in H; try discriminate H.
  - injection H as <-. split; [reflexivity|]. split; [reflexivity|]. cbn. lia.
  - destruct (channel_sample s factor c f sl) as [c'| |] eqn:E; [|discriminate H|discriminate H]. cbn [obind] in H.
    destruct (frame_channels s factor cs fr) as [r| |] eqn:E2; [|discriminate H|discriminate H]. cbn [obind] in H.
    assert (cs' = c' :: r) as -> by congruence. destruct (IH fr r E2) as (L1 & L2 & S). split; [cbn [length]; lia|]. split; [cbn [length]; lia|].
    intros [|k] Hk; [exact E|]. cbn [length] in Hk. exact (S k ltac:(lia)).
Qed.

Lemma block_frames_ok s factor : forall frs cs cs' out, block_frames s factor cs frs = Ok (cs', out) ->
  length cs' = length cs /\ length out = length frs /\ forall k, (k < length cs)%nat ->
  exists l, chan_run s factor (nth k cs fresh_channel) (map (fun fr => nth k fr (0, 0)) frs) = Ok l /\
    map background l = map (fun o => nth k o 0) out /\ last l (nth k cs fresh_channel) = nth k cs' fresh_channel.
Proof.
  induction frs as [|fr frs IH]; intros cs cs' out H; cbn [block_frames] in H.
  - assert (cs' = cs /\ out = []) as [-> ->] by (split; congruence). split; [reflexivity|]. split; [reflexivity|]. intros k Hk. exists []. split; [reflexivity|]. split; reflexivity.
  - destruct (frame_channels s factor cs fr) as [cs1| |] eqn:E; [|discriminate H|discriminate H]. cbn [obind] in H.
    destruct (block_frames s factor cs1 frs) as [[cs2 o2]| |] eqn:E2; [|discriminate H|discriminate H]. cbn [obind fst snd] in H.
    assert (cs' = cs2 /\ out = map background cs1 :: o2) as [-> ->] by (split; congruence).
    destruct (frame_channels_ok s factor cs fr cs1 E) as (L1 & L2 & S). destruct (IH cs1 cs2 o2 E2) as (L3 & L4 & S2).
    split; [lia|]. split; [cbn [length]; lia|]. intros k Hk. specialize (S k Hk). destruct (S2 k ltac:(lia)) as (l & C1 & C2 & C3).
    exists (nth k cs1 fresh_channel :: l). split; [|split].
    + cbn [map chan_run]. destruct (nth k fr (0, 0)) as [f sl]. cbn [fst snd] in S. rewrite S. cbn [obind]. rewrite C1. reflexivity.
    + cbn [map]. f_equal; [|exact C2]. symmetry. rewrite (nth_indep _ 0 (background fresh_channel)) by (rewrite map_length; lia). apply map_nth.
    + rewrite <- C3. destruct l as [|x l]; [reflexivity|]. clear. cbn [last]. revert x. generalize (nth k cs fresh_channel), (nth k cs1 fresh_channel). intros p q x.
      destruct l as [|y l]; [reflexivity|]. revert x y. induction l as [|z l IHl]; intros x y; [reflexivity|]. exact (IHl y z).
Qed.

Lemma sample_same s s' factor c f sl : coeff s' = coeff s -> burn_in_coeff s' = burn_in_coeff s -> rejection_samples s' = rejection_samples s ->
  channel_sample s' factor c f sl = channel_sample s factor c f sl.
Proof. intros E1 E2 E3. unfold channel_sample. rewrite E1, E2, E3. reflexivity. Qed.
Lemma chan_run_same s s' factor : coeff s' = coeff s -> burn_in_coeff s' = burn_in_coeff s -> rejection_samples s' = rejection_samples s ->
  forall xs c, chan_run s' factor c xs = chan_run s factor c xs.
Proof.
  intros E1 E2 E3. induction xs as [|[f sl] xs IH]; intros c; [reflexivity|]. cbn [chan_run]. rewrite (sample_same s s' factor c f sl E1 E2 E3).
  destruct (channel_sample s factor c f sl) as [c'| |]; [|reflexivity|reflexivity]. cbn [obind]. rewrite IH. reflexivity.
Qed.
Lemma last_app' {A} (l m : list A) d : last (l ++ m) d = last m (last l d).
Proof.
  revert d. induction l as [|x l IH]; intros d; [reflexivity|]. cbn [app].
  transitivity (last (l ++ m) x); [|rewrite IH].
  - generalize (l ++ m). clear. intros l. destruct l as [|y l]; [reflexivity|]. cbn [last]. revert y. induction l as [|z l IHl]; intros y; [reflexivity|]. exact (IHl z).
  - f_equal. clear. destruct l as [|y l]; [reflexivity|]. cbn [last]. revert y. induction l as [|z l IHl]; intros y; [reflexivity|]. exact (IHl z).
Qed.
Lemma chan_run_app s factor : forall xs ys c l m, chan_run s factor c xs = Ok l -> chan_run s factor (last l c) ys = Ok m -> chan_run s factor c (xs ++ ys) = Ok (l ++ m).
Proof.
  induction xs as [|[f sl] xs IH]; intros ys c l m H1 H2; cbn [chan_run app] in *.
  - assert (l = []) as -> by congruence. exact H2.
  - destruct (channel_sample s factor c f sl) as [c'| |] eqn:E; [|discriminate H1|discriminate H1]. cbn [obind] in H1 |- *.
    destruct (chan_run s factor c' xs) as [l'| |] eqn:E2; [|discriminate H1|discriminate H1]. cbn [obind] in H1.
    assert (l = c' :: l') as -> by congruence. rewrite (IH ys c' l' m E2); [reflexivity|].
    rewrite <- H2. f_equal. clear. destruct l' as [|y l]; [reflexivity|]. cbn [last]. revert y. induction l as [|z l IHl]; intros y; [reflexivity|]. exact (IHl z).
Qed.


Lemma blocks_run : forall blocks s s' outs, channels s <> [] -> run bg_step s (map BgBlock blocks) = Ok (s', outs) ->
  length (levels outs) = length (concat blocks) /\
  forall k, (k < length (channels s))%nat -> exists l, chan_run s (1 / sensitivity (bparams s)) (nth k (channels s) fresh_channel) (map (fun fr => nth k fr (0, 0)) (concat blocks)) = Ok l /\
    map background l = map (fun o => nth k o 0) (levels outs).
Proof.
  induction blocks as [|bl blocks IH]; intros s s' outs NE H; cbn [map run] in H.
  - assert (outs = []) as -> by congruence. split; [reflexivity|]. intros k Hk. exists []. split; reflexivity.
  - cbn [bg_step] in H. unfold bg_block in H. assert (L : (length (channels s) =? 0)%nat = false) by (destruct (channels s); [contradiction|reflexivity]).
    rewrite L in H. unfold oguard in H. destruct (negb (Reqb (sensitivity (bparams s)) 0)); [|discriminate H].
    destruct (block_frames s (1 / sensitivity (bparams s)) (channels s) bl) as [[cs1 o1]| |] eqn:E; [|discriminate H|discriminate H]. cbn [obind fst snd] in H.
    match type of H with context [run bg_step ?x] => set (s1 := x) in H end.
    destruct (run bg_step s1 (map BgBlock blocks)) as [[s2 o2]| |] eqn:E2; [|discriminate H|discriminate H]. cbn [obind fst snd] in H.
    assert (outs = Some o1 :: o2) as -> by congruence. destruct (block_frames_ok _ _ _ _ _ _ E) as (L1 & L2 & S).
    assert (NE1 : channels s1 <> []). { cbn [s1 channels]. destruct cs1; [destruct (channels s); [contradiction|discriminate L1]|discriminate]. }
    destruct (IH s1 s2 o2 NE1 E2) as (L3 & S3).
    unfold levels in *. cbn [map concat]. split; [rewrite !app_length; lia|]. intros k Hk. destruct (S k Hk) as (l1 & A1 & A2 & A3). destruct (S3 k ltac:(cbn [s1 channels]; lia)) as (l2 & B1 & B2).
    exists (l1 ++ l2). split; [|rewrite !map_app, A2, B2; reflexivity]. rewrite map_app. apply chan_run_app; [exact A1|]. rewrite A3.
    rewrite <- B1. symmetry. exact (chan_run_same s s1 _ eq_refl eq_refl eq_refl _ _).
Qed.

(* ---------- Init ---------- *)
Lemma init_inv s p n fs s' : bg_init s p n fs = Ok s' ->
  bparams s' = p /\ coeff s' = first_order_coefficient (time_constant p) (envelope_rate p) /\ burn_in_coeff s' = first_order_coefficient (time_constant p / 10) (envelope_rate p) /\
  truncate (rejection_time p * envelope_rate p) = Ok (rejection_samples s') /\ channels s' = repeat fresh_channel n /\ (0 < n)%nat /\
  0 < slow_cutoff p < envelope_rate p / 2 /\ 1 / (2 * PI * envelope_rate p) < time_constant p.
Proof.
  unfold bg_init. intros H. do 10 (apply ocheck_ok in H; destruct H as [? H]).
  destruct (lowpass (envelope_rate p) (slow_cutoff p) (1 / 2)) as [cf| |] eqn:EL; [|discriminate H|discriminate H]. cbn [obind] in H.
  unfold set_time_constant in H. cbn [bparams] in H. destruct (ocheck _ _) as [s2| |] eqn:E2 in H; [|discriminate H|discriminate H]. cbn [obind] in H.
  apply ocheck_ok in E2. destruct E2 as [TC E2]. match type of E2 with Ok ?v = Ok _ => assert (E3 : s2 = v) by congruence end. rewrite E3 in H. clear E2 E3.
  unfold set_rejection_time, set_sensitivity in H. cbn [bparams envelope_rate coeff burn_in_coeff rejection_samples channels slow_cutoff fast_cutoff time_constant sensitivity rejection_time] in H.
  destruct (truncate _) as [m| |] eqn:ET in H; [|discriminate H|discriminate H]. cbn [obind] in H.
  match type of H with Ok ?v = Ok _ => assert (s' = v) as -> by congruence end.
  unfold bg_reset. cbn [bparams envelope_rate coeff burn_in_coeff rejection_samples channels]. rewrite repeat_length.
  unfold lowpass, check_arguments in EL. apply ocheck_ok in EL. destruct EL as [C1 EL]. apply ocheck_ok in EL. destruct EL as [C2 _].
  destruct p as [sc fc tc se rt er]; cbn [slow_cutoff fast_cutoff time_constant sensitivity rejection_time envelope_rate] in *. split; [reflexivity|]. split; [reflexivity|]. split; [reflexivity|]. split; [exact ET|]. split; [reflexivity|].
  split; [lia|]. destruct (Rltb_spec sc (er / 2)) as [A|]; [|discriminate C1]. destruct (Rltb_spec 0 sc) as [B|]; [|discriminate C2]. split; [lra|].
  destruct (Rltb_spec (1 / (2 * PI * er)) tc) as [D|]; [exact D|discriminate TC].
Qed.

Lemma truncate_pos x n : 0 <= x -> truncate x = Ok n -> n = Int_part x /\ (0 <= n)%Z.
Proof.
  intros H. unfold truncate, oguard. destruct (_ && _); [|discriminate]. rewrite Rltb_false by lra. intros E. assert (n = Int_part x) as -> by congruence. split; [reflexivity|].
  destruct (base_Int_part x) as [A B]. assert (-1 < IZR (Int_part x)) by lra. apply lt_IZR in H0. lia.
Qed.

Lemma nth_map_nth {A} (g : A -> R) l i d : nth i (map g l) (g d) = g (nth i l d).
Proof. apply map_nth. Qed.

Lemma law_after_init s p n fs blocks s' o outs : 0 <= rejection_time p ->
  run bg_step s (BgInit p n fs :: map BgBlock blocks) = Ok (s', o :: outs) ->
  length (levels outs) = length (concat blocks) /\ forall k, (k < n)%nat ->
  background_law (1 - exp (-10 / (time_constant p * envelope_rate p))) (1 - exp (-1 / (time_constant p * envelope_rate p))) (sensitivity p) (Int_part (rejection_time p * envelope_rate p))
    (length (concat blocks)) (fun i => nth i (0 :: map (fun fr => nth k fr 0) (levels outs)) 0)
    (fun i => fst (nth k (nth i (concat blocks) []) (0, 0))) (fun i => snd (nth k (nth i (concat blocks) []) (0, 0))).
Proof.
  intros HR H. cbn [run bg_step] in H. destruct (bg_init s p n fs) as [s1| |] eqn:EI; [|discriminate H|discriminate H]. cbn [omap obind fst snd] in H.
  destruct (run bg_step s1 (map BgBlock blocks)) as [[s2 o2]| |] eqn:ER; [|discriminate H|discriminate H]. cbn [obind fst snd] in H.
  assert (outs = o2) as -> by congruence. destruct (init_inv _ _ _ _ _ EI) as (I1 & I2 & I3 & I4 & I5 & I6 & I7 & I8).
  assert (NE : channels s1 <> []) by (rewrite I5; destruct n; [lia|discriminate]).
  destruct (blocks_run blocks s1 s2 o2 NE ER) as (L & S). split; [exact L|]. intros k Hk. rewrite I5, repeat_length in S. destruct (S k Hk) as (l & C & M).
  assert (EF : nth k (repeat fresh_channel n) fresh_channel = fresh_channel) by (clear; revert k; induction n; intros [|k]; cbn; auto). rewrite EF, I1 in C.
  assert (Q : 0 < envelope_rate p) by lra.
  destruct (truncate_pos _ _ (Rmult_le_pos _ _ HR (Rlt_le _ _ Q)) I4) as [T1 T2].
  destruct (chan_steps _ _ _ _ _ C) as [CL CS]. rewrite map_length in CL, CS.
  assert (SL : forall i, (i < length (concat blocks))%nat -> channel_sample s1 (1 / sensitivity p) (state_at fresh_channel l i) (fst (nth k (nth i (concat blocks) []) (0, 0))) (snd (nth k (nth i (concat blocks) []) (0, 0))) = Ok (state_at fresh_channel l (Datatypes.S i))).
  { intros i Hi. specialize (CS i Hi). assert (EN : nth i (map (fun fr => nth k fr (0, 0)) (concat blocks)) (0, 0) = nth k (nth i (concat blocks) []) (0, 0)).
    { rewrite (nth_indep _ (0, 0) ((fun fr : list (R * R) => nth k fr (0, 0)) [])) by (rewrite map_length; exact Hi). rewrite (map_nth (fun fr : list (R * R) => nth k fr (0, 0))). reflexivity. }
    rewrite EN in CS. exact CS. }
  pose proof (background_obeys s1 (sensitivity p) (length (concat blocks)) (state_at fresh_channel l) _ _ T2 eq_refl SL) as BL.
  rewrite I2, I3, <- T1 in *. unfold first_order_coefficient in BL.
  replace (-1 / (time_constant p / 10 * envelope_rate p)) with (-10 / (time_constant p * envelope_rate p)) in BL.
  2: { assert (P : 0 < 1 / (2 * PI * envelope_rate p)) by (apply Rdiv_lt_0_compat; [lra|pose proof PI_RGT_0; nra]). field. split; lra. }
  assert (EB : forall i, nth i (0 :: map (fun fr => nth k fr 0) (levels o2)) 0 = background (state_at fresh_channel l i)).
  { intros i. rewrite <- M. unfold state_at. change (0 :: map background l) with (map background (fresh_channel :: l)). exact (map_nth background (fresh_channel :: l) fresh_channel i). }
  destruct BL as [BL0 BL]. split; [reflexivity|]. intros i Hi. specialize (BL i Hi).
  unfold adapting, rejecting, adapting, smoothed, above_input in BL |- *. setoid_rewrite EB. exact BL.
Qed.

(* ---------- range ---------- *)
Definition good_coeffs (s : bg) : Prop := 0 < envelope_rate (bparams s) /\ 0 <= coeff s <= 1 /\ 0 <= burn_in_coeff s <= 1.

Lemma foc_range t fs : 0 < t -> 0 < fs -> 0 <= first_order_coefficient t fs <= 1.
Proof.
  intros Ht Hf. unfold first_order_coefficient. assert (P : 0 < t * fs) by (apply Rmult_lt_0_compat; assumption).
  assert (Q : -1 / (t * fs) < 0) by (unfold Rdiv; pose proof (Rinv_0_lt_compat _ P); lra).
  pose proof (exp_pos (-1 / (t * fs))). pose proof (exp_increasing _ _ Q) as EI. rewrite exp_0 in EI. lra.
Qed.
Lemma convex_hull lo hi b a x : lo <= b <= hi -> 0 <= a <= 1 -> lo <= x <= hi -> lo <= b + a * (x - b) <= hi.
Proof.
  intros Hb Ha Hx. replace (b + a * (x - b)) with ((1 - a) * b + a * x) by ring.
  pose proof (Rmult_le_compat_l (1 - a) lo b ltac:(lra) ltac:(lra)). pose proof (Rmult_le_compat_l (1 - a) b hi ltac:(lra) ltac:(lra)).
  pose proof (Rmult_le_compat_l a lo x ltac:(lra) ltac:(lra)). pose proof (Rmult_le_compat_l a x hi ltac:(lra) ltac:(lra)). lra.
Qed.
Lemma sample_hull lo hi s factor c x c' : good_coeffs s -> in_hull lo hi x -> lo <= background c <= hi ->
  channel_sample s factor c (fst x) (snd x) = Ok c' -> lo <= background c' <= hi.
Proof.
  intros (_ & G1 & G2) (X1 & X2) HB. set (f := fst x) in *. set (sl := snd x) in *. clearbody f sl.
  assert (M : lo <= Rmin sl f <= hi) by (unfold Rmin; destruct (Rle_dec sl f); lra).
  unfold channel_sample, oguard. intros H.
  destruct (burn_in c); [|destruct (Rltb (factor * sl) f); [|destruct (Rltb f (background c - 1 / 10000))]];
  match type of H with (if ?q then _ else _) = _ => destruct q end;
  repeat match type of H with (if ?q then _ else _) = _ => destruct q end;
  match type of H with Ok ?v = Ok _ => assert (c' = v) as -> by congruence; cbn [background]; first [exact HB | apply convex_hull; assumption] | _ => discriminate H end.
Qed.
Lemma frame_hull lo hi s factor : good_coeffs s -> forall cs fr cs', Forall (in_hull lo hi) fr -> Forall (fun c => lo <= background c <= hi) cs ->
  frame_channels s factor cs fr = Ok cs' -> Forall (fun c => lo <= background c <= hi) cs'.
Proof.
  intros G. induction cs as [|c cs IH]; intros [|[f sl] fr] cs' HF HC H; cbn [frame_channels] in H; try discriminate H.
  - assert (cs' = []) as -> by congruence. constructor.
  - destruct (channel_sample s factor c f sl) as [c'| |] eqn:E; [|discriminate H|discriminate H]. cbn [obind] in H.
    destruct (frame_channels s factor cs fr) as [r| |] eqn:E2; [|discriminate H|discriminate H]. cbn [obind] in H.
    assert (cs' = c' :: r) as -> by congruence. constructor.
    + exact (sample_hull lo hi s factor c (f, sl) c' G (Forall_inv HF) (Forall_inv HC) E).
    + exact (IH fr r (Forall_inv_tail HF) (Forall_inv_tail HC) E2).
Qed.
Lemma block_hull lo hi s factor : good_coeffs s -> forall frs cs cs' out, Forall (Forall (in_hull lo hi)) frs -> Forall (fun c => lo <= background c <= hi) cs ->
  block_frames s factor cs frs = Ok (cs', out) -> Forall (fun c => lo <= background c <= hi) cs' /\ Forall (Forall (fun y => lo <= y <= hi)) out.
Proof.
  intros G. induction frs as [|fr frs IH]; intros cs cs' out HF HC H; cbn [block_frames] in H.
  - assert (cs' = cs /\ out = []) as [-> ->] by (split; congruence). split; [assumption|constructor].
  - destruct (frame_channels s factor cs fr) as [cs1| |] eqn:E; [|discriminate H|discriminate H]. cbn [obind] in H.
    destruct (block_frames s factor cs1 frs) as [[cs2 o2]| |] eqn:E2; [|discriminate H|discriminate H]. cbn [obind fst snd] in H.
    assert (cs' = cs2 /\ out = map background cs1 :: o2) as [-> ->] by (split; congruence).
    pose proof (frame_hull lo hi s factor G cs fr cs1 (Forall_inv HF) HC E) as H1. destruct (IH cs1 cs2 o2 (Forall_inv_tail HF) H1 E2) as [A B].
    split; [assumption|]. constructor; [|assumption]. rewrite Forall_map. exact H1.
Qed.
Lemma fresh_hull lo hi n : lo <= 0 <= hi -> Forall (fun c => lo <= background c <= hi) (repeat fresh_channel n).
Proof. intros H. apply Forall_forall. intros c Hc. apply repeat_spec in Hc. rewrite Hc. exact H. Qed.
Lemma time_constant_pos t fs : 0 < fs -> 1 / (2 * PI * fs) < t -> 0 < t.
Proof. intros Hf Ht. assert (0 < 1 / (2 * PI * fs)); [|lra]. apply Rdiv_lt_0_compat; [lra|]. pose proof PI_RGT_0. apply Rmult_lt_0_compat; lra. Qed.

Lemma step_hull lo hi s o s' y : lo <= 0 <= hi -> op_in_hull lo hi o -> good_coeffs s -> Forall (fun c => lo <= background c <= hi) (channels s) ->
  bg_step s o = Ok (s', y) -> good_coeffs s' /\ Forall (fun c => lo <= background c <= hi) (channels s') /\ forall l, y = Some l -> Forall (Forall (fun v => lo <= v <= hi)) l.
Proof.
  intros HL HO G HC H. destruct o as [p n fs| |frs|v|t|v|t]; cbn [bg_step omap obind op_in_hull] in H, HO.
  - destruct (bg_init s p n fs) as [s1| |] eqn:E; [|discriminate H|discriminate H]. cbn [omap obind] in H. assert (s' = s1 /\ y = None) as [-> ->] by (split; congruence).
    destruct (init_inv _ _ _ _ _ E) as (I1 & I2 & I3 & I4 & I5 & I6 & I7 & I8). assert (Q : 0 < envelope_rate p) by lra. pose proof (time_constant_pos _ _ Q I8).
    split; [|split; [rewrite I5; apply fresh_hull; assumption|discriminate]]. unfold good_coeffs. rewrite I1, I2, I3. split; [assumption|]. split; apply foc_range; lra.
  - assert (s' = bg_reset s /\ y = None) as [-> ->] by (split; congruence). split; [exact G|]. split; [apply fresh_hull; assumption|discriminate].
  - unfold bg_block in H. destruct (_ =? _)%nat. { assert (s' = s /\ y = None) as [-> ->] by (split; congruence). split; [assumption|]. split; [assumption|discriminate]. }
    unfold oguard in H. destruct (negb _); [|discriminate H]. destruct (block_frames _ _ _ _) as [[cs o]| |] eqn:E; [|discriminate H|discriminate H]. cbn [obind fst snd] in H.
    match type of H with Ok (?a, ?b) = Ok _ => assert (s' = a /\ y = b) as [-> ->] by (split; congruence) end.
    destruct (block_hull lo hi s _ G _ _ _ _ HO HC E) as [A B]. split; [exact G|]. split; [exact A|]. intros l El. assert (l = o) as -> by congruence. exact B.
  - unfold set_slow_cutoff in H. destruct (ocheck _ _) as [s1| |] eqn:E in H; [|discriminate H|discriminate H]. cbn [omap obind] in H. assert (s' = s1 /\ y = None) as [-> ->] by (split; congruence).
    apply ocheck_ok in E. destruct E as [_ E]. destruct (lowpass _ _ _); [|discriminate E|discriminate E]. cbn [obind] in E.
    match type of E with Ok ?v = Ok _ => assert (s1 = v) as -> by congruence end. split; [exact G|]. split; [exact HC|discriminate].
  - unfold set_time_constant in H. destruct (ocheck _ _) as [s1| |] eqn:E in H; [|discriminate H|discriminate H]. cbn [omap obind] in H. assert (s' = s1 /\ y = None) as [-> ->] by (split; congruence).
    apply ocheck_ok in E. destruct E as [TC E]. match type of E with Ok ?v = Ok _ => assert (s1 = v) as -> by congruence end.
    destruct (Rltb_spec (1 / (2 * PI * envelope_rate (bparams s))) t) as [TT|]; [|discriminate TC]. destruct G as (G0 & _). pose proof (time_constant_pos _ _ G0 TT).
    split; [|split; [exact HC|discriminate]]. unfold good_coeffs. cbn [bparams envelope_rate coeff burn_in_coeff]. split; [assumption|]. split; apply foc_range; lra.
  - assert (s' = set_sensitivity s v /\ y = None) as [-> ->] by (split; congruence). split; [exact G|]. split; [exact HC|discriminate].
  - unfold set_rejection_time in H. destruct (truncate _) as [n| |]; [|discriminate H|discriminate H]. cbn [omap obind] in H.
    match type of H with Ok (?a, ?b) = Ok _ => assert (s' = a /\ y = b) as [-> ->] by (split; congruence) end. split; [exact G|]. split; [exact HC|discriminate].
Qed.
Lemma session_hull lo hi : lo <= 0 <= hi -> forall ops s s' outs, Forall (op_in_hull lo hi) ops -> good_coeffs s -> Forall (fun c => lo <= background c <= hi) (channels s) ->
  run bg_step s ops = Ok (s', outs) -> Forall (Forall (fun v => lo <= v <= hi)) (levels outs).
Proof.
  intros HL. induction ops as [|o ops IH]; intros s s' outs HO G HC H; cbn [run] in H.
  - assert (outs = []) as -> by congruence. constructor.
  - destruct (bg_step s o) as [[s1 y]| |] eqn:E; [|discriminate H|discriminate H]. cbn [obind fst snd] in H.
    destruct (run bg_step s1 ops) as [[s2 o2]| |] eqn:E2; [|discriminate H|discriminate H]. cbn [obind fst snd] in H. assert (outs = y :: o2) as -> by congruence.
    destruct (step_hull lo hi s o s1 y HL (Forall_inv HO) G HC E) as (G1 & C1 & Y1). unfold levels. cbn [map concat]. apply Forall_app. split; [destruct y; [apply Y1; reflexivity|constructor]|].
    exact (IH s1 s2 o2 (Forall_inv_tail HO) G1 C1 E2).
Qed.
Lemma new_good : good_coeffs bg_new.
Proof. unfold good_coeffs, bg_new, default_bg. cbn [bparams envelope_rate coeff burn_in_coeff]. lra. Qed.

(* ---------- totality ---------- *)
Definition calm (s : bg) : Prop := (0 <= rejection_samples s)%Z /\ Forall (fun c => (0 <= counter c)%Z) (channels s) /\ sensitivity (bparams s) <> 0 /\ channels s <> [].
Lemma sample_total s factor c f sl : (0 <= rejection_samples s)%Z -> (0 <= counter c)%Z -> exists c', channel_sample s factor c f sl = Ok c' /\ (0 <= counter c')%Z.
Proof.
  intros HT HC. unfold channel_sample.
  assert (K : forall cnt b co, (0 <= cnt)%Z -> exists c', (if (cnt =? 0)%Z
  then Ok {| background := background c + co * (Rmin sl f - background c); counter := cnt; burn_in := b |}
  else oguard (-2147483648 <? cnt)%Z (Ok {| background := background c; counter := cnt - 1; burn_in := b |})) = Ok c' /\ (0 <= counter c')%Z).
  { intros cnt b co Hc. destruct (cnt =? 0)%Z eqn:E; [eexists; split; [reflexivity|cbn [counter]; lia]|]. replace (-2147483648 <? cnt)%Z with true by lia. eexists. split; [reflexivity|]. cbn [counter]. lia. }
  destruct (burn_in c); [apply K; lia|]. destruct (Rltb (factor * sl) f); [apply K; assumption|]. destruct (Rltb f (background c - 1 / 10000)); apply K; lia || assumption.
Qed.
Lemma frame_total s factor : (0 <= rejection_samples s)%Z -> forall cs fr, Forall (fun c => (0 <= counter c)%Z) cs -> length fr = length cs ->
  exists cs', frame_channels s factor cs fr = Ok cs' /\ Forall (fun c => (0 <= counter c)%Z) cs' /\ length cs' = length cs.
Proof.
  intros HT. induction cs as [|c cs IH]; intros [|[f sl] fr] HC L; try discriminate L.
  - exists []. split; [reflexivity|]. split; [constructor|reflexivity].
  - destruct (sample_total s factor c f sl HT (Forall_inv HC)) as (c' & E & C). destruct (IH fr (Forall_inv_tail HC) ltac:(cbn in L; lia)) as (r & E2 & C2 & L2).
    exists (c' :: r). cbn [frame_channels]. rewrite E. cbn [obind]. rewrite E2. split; [reflexivity|]. split; [constructor; assumption|cbn [length]; lia].
Qed.
Lemma block_total s factor : (0 <= rejection_samples s)%Z -> forall frs cs, Forall (fun c => (0 <= counter c)%Z) cs -> Forall (fun fr => length fr = length cs) frs ->
  exists cs' out, block_frames s factor cs frs = Ok (cs', out) /\ Forall (fun c => (0 <= counter c)%Z) cs' /\ length cs' = length cs.
Proof.
  intros HT. induction frs as [|fr frs IH]; intros cs HC HF.
  - exists cs, []. split; [reflexivity|]. split; [assumption|reflexivity].
  - destruct (frame_total s factor HT cs fr HC (Forall_inv HF)) as (cs1 & E & C1 & L1).
    destruct (IH cs1 C1) as (cs2 & o2 & E2 & C2 & L2). { rewrite L1. exact (Forall_inv_tail HF). }
    exists cs2, (map background cs1 :: o2). cbn [block_frames]. rewrite E. cbn [obind]. rewrite E2. cbn [obind fst snd]. split; [reflexivity|]. split; [assumption|lia].
Qed.
Lemma blocks_total : forall blocks s, calm s -> Forall (Forall (fun fr => length fr = length (channels s))) blocks -> exists r, run bg_step s (map BgBlock blocks) = Ok r.
Proof.
  induction blocks as [|bl blocks IH]; intros s (H1 & H2 & H3 & H4) HB; [eexists; reflexivity|]. cbn [map run bg_step]. unfold bg_block.
  destruct (block_total s (1 / sensitivity (bparams s)) H1 bl (channels s) H2 (Forall_inv HB)) as (cs & o & E & C & L).
  assert (N : (length (channels s) =? 0)%nat = false) by (destruct (channels s); [contradiction|reflexivity]). rewrite N.
  destruct (Reqb_spec (sensitivity (bparams s)) 0) as [Z|_]; [contradiction|]. cbn [negb oguard]. rewrite E. cbn [obind fst snd].
  match goal with |- context [run bg_step ?x _] => set (s1 := x) end.
  destruct (IH s1) as (r & Er). { split; [exact H1|]. split; [exact C|]. split; [exact H3|]. cbn [s1 channels]. destruct cs; [destruct (channels s); [contradiction|discriminate L]|discriminate]. }
  { cbn [s1 channels]. rewrite L. exact (Forall_inv_tail HB). }
  rewrite Er. eexists. reflexivity.
Qed.

Lemma lowpass_ok fs f q : 0 < f -> f < fs / 2 -> 0 < q -> exists c, lowpass fs f q = Ok c.
Proof.
  intros H1 H2 H3. unfold lowpass, check_arguments. rewrite (Rltb_true f), (Rltb_true 0 f), (Rltb_true 0 q) by lra. cbn [ocheck]. cbv zeta.
  unfold bilinear_transform. rewrite (Rltb_true 0 fs) by lra. rewrite (Rleb_true 0 f) by lra. rewrite (Rltb_true f (fs / 2)) by lra. eexists. reflexivity.
Qed.
Lemma init_gen s q p n fs : bparams s = q -> 0 < slow_cutoff q < envelope_rate q / 2 -> 0 < fast_cutoff q < envelope_rate q / 2 -> 0 < sensitivity q <= 1 -> (0 < n)%nat ->
  0 < slow_cutoff p < envelope_rate p / 2 -> 0 < fast_cutoff p < envelope_rate p / 2 -> envelope_rate p <= fs -> 1 / (2 * PI * envelope_rate p) < time_constant p ->
  -2147483648 <= rejection_time p * envelope_rate p < 2147483648 -> exists s', bg_init s p n fs = Ok s'.
Proof.
  intros Eq Q1 Q2 Q3 Hn P1 P2 P3 P4 P5. unfold bg_init. rewrite Eq.
  rewrite (Rltb_true (fast_cutoff q)), (Rltb_true (slow_cutoff q)), (Rltb_true 0 (fast_cutoff q)), (Rltb_true 0 (slow_cutoff q)), (Rltb_true 0 (sensitivity q)), (Rleb_true (sensitivity q) 1) by lra. cbn [ocheck].
  rewrite (Rleb_true (envelope_rate p) fs), (Rltb_true (fast_cutoff p)), (Rltb_true 0 (fast_cutoff p)) by lra. replace (0 <? n)%nat with true by lia. cbn [ocheck].
  destruct (lowpass_ok (envelope_rate p) (slow_cutoff p) (1 / 2)) as (c & ->); [lra|lra|lra|]. cbn [obind]. cbv zeta. unfold set_time_constant. cbn [bparams]. rewrite Rltb_true by exact P4. cbn [ocheck obind].
  unfold set_rejection_time, set_sensitivity, truncate. cbn [bparams envelope_rate coeff burn_in_coeff rejection_samples channels slow_cutoff fast_cutoff time_constant sensitivity rejection_time].
  rewrite (Rltb_true (-2147483649)), (Rltb_true (rejection_time p * envelope_rate p)) by lra. cbn [andb oguard obind]. eexists. reflexivity.
Qed.
Lemma valid_runs s p0 fs0 p n fs blocks : bparams s = p0 -> valid_params p0 fs0 -> valid_params p fs -> (0 < n)%nat -> Forall (Forall (fun fr => length fr = n)) blocks ->
  exists s' o outs, run bg_step s (BgInit p n fs :: map BgBlock blocks) = Ok (s', o :: outs).
Proof.
  intros E0 (V1 & V2 & V3 & V4 & V5 & V6 & V7) (P1 & P2 & P3 & P4 & P5 & P6 & P7) Hn HB.
  assert (0 < rejection_time p * envelope_rate p) by (apply Rmult_lt_0_compat; lra).
  destruct (init_gen s p0 p n fs E0) as (s1 & E1); try assumption; try lra. cbn [run bg_step]. rewrite E1. cbn [omap obind fst snd].
  destruct (init_inv _ _ _ _ _ E1) as (I1 & I2 & I3 & I4 & I5 & I6 & I7 & I8). destruct (truncate_pos _ _ (Rlt_le _ _ H) I4) as [_ T2].
  destruct (blocks_total blocks s1) as ([s2 o2] & E2).
  - split; [assumption|]. rewrite I5, I1. split; [|split; [lra|destruct n; [lia|discriminate]]]. apply Forall_forall. intros c Hc. apply repeat_spec in Hc. rewrite Hc. cbn [counter fresh_channel]. lia.
  - rewrite I5, repeat_length. exact HB.
  - rewrite E2. cbn [obind fst snd]. eexists. eexists. eexists. reflexivity.
Qed.

Definition with_sensitivity (v : R) : bg_params :=
  {| slow_cutoff := 1; fast_cutoff := 16; time_constant := 1; sensitivity := v; rejection_time := 8 / 10; envelope_rate := 100 |}.
Lemma default_valid : valid_params default_bg 48000.
Proof.
  unfold valid_params, default_bg. cbn [slow_cutoff fast_cutoff time_constant sensitivity rejection_time envelope_rate].
  repeat split; try lra. pose proof PI2_3_2. unfold PI2 in *. apply (Rmult_lt_reg_r (2 * PI * 100)); [lra|]. field_simplify; lra.
Qed.
Lemma bad_accepted v : exists s, bg_init bg_new (with_sensitivity v) 1 48000 = Ok s.
Proof.
  destruct default_valid as (V1 & V2 & V3 & V4 & V5 & V6 & V7).
  apply (init_gen bg_new default_bg); try exact eq_refl; try assumption; try lia. unfold with_sensitivity. cbn [rejection_time envelope_rate]. lra.
Qed.
Lemma good_rejected v s p n fs : v <= 0 \/ 1 < v -> bg_init bg_new (with_sensitivity v) 1 48000 = Ok s -> bg_init s p n fs = CheckFail.
Proof.
  intros Hv H. destruct (init_inv _ _ _ _ _ H) as (I1 & _). unfold bg_init. rewrite I1. unfold with_sensitivity. cbn [slow_cutoff fast_cutoff time_constant sensitivity rejection_time envelope_rate].
  rewrite (Rltb_true 16 (100 / 2)), (Rltb_true 1 (100 / 2)), (Rltb_true 0 16), (Rltb_true 0 1) by lra. cbn [ocheck].
  destruct Hv as [Hv|Hv]; [rewrite Rltb_false by lra; reflexivity|]. rewrite (Rltb_true 0 v) by lra. rewrite Rleb_false by lra. reflexivity.
Qed.
(* with a non-positive sensitivity every positive input is a transient and the level freezes *)
Lemma frozen sens T n b f sl a1 a2 : sens < 0 -> (0 < T)%Z -> background_law a1 a2 sens T n b f sl -> (forall i, (i < n)%nat -> 0 < f i /\ 0 <= sl i) ->
  forall i, (i < n)%nat -> ~ adapting b f i -> b (S i) = b i.
Proof.
  intros Hs HT (_ & L) Hp i Hi NA. destruct (L i Hi) as (_ & L2 & _). apply L2; [assumption|]. destruct (Hp i Hi) as [F SL]. exists i. split; [lia|]. split; [assumption|].
  split; [|split; [lia|intros; lia]]. unfold transient. assert (1 / sens * sl i <= 0); [|lra]. assert (1 / sens < 0) by (unfold Rdiv; pose proof (Rinv_lt_0_compat _ Hs); lra). 
  pose proof (Rmult_le_compat_r (sl i) (1 / sens) 0 SL ltac:(lra)). lra.
Qed.

Lemma channels_independent s1 s2 p n1 n2 fs1 fs2 bl1 bl2 t1 t2 o1 o2 outs1 outs2 k1 k2 : (k1 < n1)%nat -> (k2 < n2)%nat ->
  run bg_step s1 (BgInit p n1 fs1 :: map BgBlock bl1) = Ok (t1, o1 :: outs1) -> run bg_step s2 (BgInit p n2 fs2 :: map BgBlock bl2) = Ok (t2, o2 :: outs2) ->
  map (fun fr => nth k1 fr (0, 0)) (concat bl1) = map (fun fr => nth k2 fr (0, 0)) (concat bl2) ->
  map (fun fr => nth k1 fr 0) (levels outs1) = map (fun fr => nth k2 fr 0) (levels outs2).
Proof.
  intros K1 K2 H1 H2 HE. cbn [run bg_step] in H1, H2.
  destruct (bg_init s1 p n1 fs1) as [u1| |] eqn:EI1; [|discriminate H1|discriminate H1]. cbn [omap obind fst snd] in H1.
  destruct (run bg_step u1 (map BgBlock bl1)) as [[v1 w1]| |] eqn:ER1; [|discriminate H1|discriminate H1]. cbn [obind fst snd] in H1. assert (outs1 = w1) as -> by congruence.
  destruct (bg_init s2 p n2 fs2) as [u2| |] eqn:EI2; [|discriminate H2|discriminate H2]. cbn [omap obind fst snd] in H2.
  destruct (run bg_step u2 (map BgBlock bl2)) as [[v2 w2]| |] eqn:ER2; [|discriminate H2|discriminate H2]. cbn [obind fst snd] in H2. assert (outs2 = w2) as -> by congruence.
  destruct (init_inv _ _ _ _ _ EI1) as (I1 & I2 & I3 & I4 & I5 & I6 & _). destruct (init_inv _ _ _ _ _ EI2) as (J1 & J2 & J3 & J4 & J5 & J6 & _).
  assert (N1 : channels u1 <> []) by (rewrite I5; destruct n1; [lia|discriminate]). assert (N2 : channels u2 <> []) by (rewrite J5; destruct n2; [lia|discriminate]).
  destruct (blocks_run _ _ _ _ N1 ER1) as (_ & S1). destruct (blocks_run _ _ _ _ N2 ER2) as (_ & S2).
  rewrite I5, I1, repeat_length in S1. rewrite J5, J1, repeat_length in S2. destruct (S1 k1 K1) as (l1 & C1 & M1). destruct (S2 k2 K2) as (l2 & C2 & M2).
  assert (EF : forall n k, nth k (repeat fresh_channel n) fresh_channel = fresh_channel) by (clear; induction n; intros [|k]; cbn; auto). rewrite EF in C1, C2.
  rewrite <- M1, <- M2. f_equal. rewrite HE in C1. rewrite (chan_run_same u2 u1) in C1; [congruence|congruence|congruence|]. congruence.
Qed.
