(* The generic transform, its memo table, and counterexamples. *)
From Verif Require Import Common ListLemmas NthLemmas RealUtil BesselModel WindowModel WindowSpec
  WindowProofs WindowProofs2.
From Coq Require Import Lia.
Local Open Scope R_scope.

Lemma map_seq1 {A} (G : nat -> A) n : map G (seq 1 n) = map (fun i => G (S i)) (seq 0 n).
Proof. rewrite <- seq_shift, map_map. reflexivity. Qed.

Lemma ft_loop_sum : forall l t k s,
  ft_loop (cos t) (sin t) l (2 * cos (INR k * t)) (2 * sin (INR k * t)) s
  = s + 2 * fold_right Rplus 0
      (map (fun i => cos (INR (k + i) * t) * nth i l 0) (seq 0 (length l))).
Proof.
  induction l as [|x l IH]; intros t k s; cbn [ft_loop length seq map fold_right]; [ring|].
  replace (2 * cos (INR k * t) * cos t - 2 * sin (INR k * t) * sin t)
    with (2 * cos (INR (S k) * t)).
  2:{ rewrite S_INR. replace ((INR k + 1) * t) with (INR k * t + t) by ring. rewrite cos_plus. ring. }
  replace (2 * cos (INR k * t) * sin t + 2 * sin (INR k * t) * cos t)
    with (2 * sin (INR (S k) * t)).
  2:{ rewrite S_INR. replace ((INR k + 1) * t) with (INR k * t + t) by ring. rewrite sin_plus. ring. }
  rewrite IH. rewrite <- seq_shift, map_map.
  assert (E : map (fun i => cos (INR (S k + i) * t) * nth i l 0) (seq 0 (length l))
            = map (fun i => cos (INR (k + S i) * t) * nth (S i) (x :: l) 0) (seq 0 (length l))).
  { apply map_ext. intros i. cbn [nth]. do 4 f_equal. lia. }
  rewrite E. cbn [nth]. rewrite Nat.add_0_r. ring.
Qed.

Lemma memo_nonempty w : wi_memo (memoize w) <> [].
Proof. unfold memoize. destruct (wi_memo w) eqn:E; [discriminate|]. congruence. Qed.

Lemma memoize_idem w : memoize (memoize w) = memoize w.
Proof.
  pose proof (memo_nonempty w) as N. unfold memoize at 1.
  destruct (wi_memo (memoize w)); [congruence|reflexivity].
Qed.

Lemma ft_keeps w f0 f : snd (eval_ft (fst (eval_ft w f0)) f) = snd (eval_ft w f)
  /\ wi_kind (fst (eval_ft w f0)) = wi_kind w /\ wi_radius (fst (eval_ft w f0)) = wi_radius w.
Proof.
  assert (HK : wi_kind (memoize w) = wi_kind w)
    by (unfold memoize; destruct (wi_memo w); reflexivity).
  assert (HR : wi_radius (memoize w) = wi_radius w)
    by (unfold memoize; destruct (wi_memo w); reflexivity).
  assert (P : eval_ft w f0 = (w, snd (eval_ft w f0)) \/
              (exists e, wi_kind w = PlanckTaper e)).
  { unfold eval_ft. destruct (wi_kind w); [left; reflexivity..| |left; reflexivity].
    right. eexists; reflexivity. }
  destruct P as [P | (e & E)].
  - rewrite P. cbn [fst]. auto.
  - assert (E2 : forall g, eval_ft w g = generic_ft w g) by (intros; unfold eval_ft; rewrite E; reflexivity).
    rewrite E2. cbn [generic_ft fst]. split; [|split; assumption].
    unfold eval_ft. rewrite HK, E. unfold generic_ft. rewrite memoize_idem. reflexivity.
Qed.

Fixpoint after_fts (w : window) (fs : list R) : window :=
  match fs with [] => w | f :: fs' => after_fts (fst (eval_ft w f)) fs' end.

Lemma fts_keep : forall fs w, (forall f, snd (eval_ft (after_fts w fs) f) = snd (eval_ft w f))
  /\ eval_w (after_fts w fs) = eval_w w.
Proof.
  induction fs as [|f0 fs IH]; intros w; cbn [after_fts]; [auto|].
  destruct (IH (fst (eval_ft w f0))) as (A & B). split.
  - intros f. rewrite A. apply ft_keeps.
  - rewrite B. unfold eval_w. destruct (ft_keeps w f0 0) as (_ & -> & ->). reflexivity.
Qed.

Lemma generic_value e r f :
  snd (eval_ft (mkWindow (PlanckTaper e) r []) f) =
  r / 512 * (1 + 2 * fold_right Rplus 0
    (map (fun n => cos (2 * PI * f * (INR n * (r / 512))) * eval (PlanckTaper e) r (INR n * (r / 512)))
         (seq 1 512))).
Proof.
  unfold eval_ft. cbn [wi_kind]. unfold generic_ft, memoize. cbn [wi_memo wi_kind wi_radius snd].
  rewrite map_length, seq_length.
  replace (INR kNumSamples) with 512.
  2:{ unfold kNumSamples. rewrite INR_IZR_INZ. f_equal. }
  set (dx := r / 512). set (t := 2 * PI * f * dx).
  pose proof (ft_loop_sum (map (fun n => eval_w (mkWindow (PlanckTaper e) r []) (dx * INR n)) (seq 1 kNumSamples))
    t 1 1) as H.
  replace (INR 1 * t) with t in H by (cbn; ring).
  rewrite !(Rmult_comm _ 2). rewrite H. rewrite Rmult_comm. do 3 f_equal.
  rewrite map_length, seq_length.
  change 512%nat with kNumSamples.
  rewrite (map_seq1 (fun n => cos (2 * PI * f * (INR n * dx)) * _)). f_equal. apply map_ext_in. intros n Hn.
  apply in_seq in Hn.
  rewrite nth_map_seq by lia.
  change (1 + n)%nat with (S n). change (0 + n)%nat with n. unfold eval_w; cbn [wi_kind wi_radius].
  f_equal.
  - f_equal. unfold t. ring.
  - f_equal. ring.
Qed.

(* --- counterexamples --- *)

Lemma planck_half : planck (1 / 2) = 1 / 2.
Proof.
  unfold planck. pose proof kTol_small. pose proof kTol_pos.
  rewrite Rleb_false by lra. rewrite Rltb_true by lra.
  replace (1 / (1 / 2) - 1 / (1 - 1 / 2)) with 0 by field. rewrite exp_0. lra.
Qed.
Lemma planck_one y : 1 <= y -> planck y = 1.
Proof. intros. unfold planck. pose proof kTol_pos. rewrite Rleb_true by lra. reflexivity. Qed.

Lemma sum_lt : forall l (F G : nat -> R) m, (forall n, In n l -> F n <= G n) -> In m l -> F m < G m ->
  fold_right Rplus 0 (map F l) < fold_right Rplus 0 (map G l).
Proof.
  induction l as [|a l IH]; intros F G m H Hm L; [destruct Hm|]. cbn [map fold_right].
  destruct Hm as [<-|Hm].
  - assert (fold_right Rplus 0 (map F l) <= fold_right Rplus 0 (map G l)); [|lra].
    assert (H' : forall n, In n l -> F n <= G n) by (intros; apply H; right; assumption).
    clear - H'. induction l as [|b l IH]; cbn [map fold_right]; [lra|].
    specialize (IH (fun n Hn => H' n (or_intror Hn))). specialize (H' b (or_introl eq_refl)). lra.
  - specialize (IH F G m (fun n Hn => H n (or_intror Hn)) Hm L).
    specialize (H a (or_introl eq_refl)). lra.
Qed.

Lemma stale_memo :
  let w := mkWindow (PlanckTaper 1) 1 [] in
  snd (eval_ft (set_radius (fst (eval_ft w 0)) 2) 0) < snd (eval_ft (set_radius w 2) 0).
Proof.
  intros w. unfold set_radius at 2. cbn [wi_kind wi_memo w].
  rewrite generic_value.
  assert (E : snd (eval_ft (set_radius (fst (eval_ft w 0)) 2) 0)
    = 2 / 512 * (1 + 2 * fold_right Rplus 0 (map (fun n => eval (PlanckTaper 1) 1 (INR n * (1 / 512))) (seq 1 512)))).
  { pose proof (ft_loop_sum (map (fun n => eval_w w (1 / 512 * INR n)) (seq 1 kNumSamples)) 0 1 1) as H.
    rewrite cos_0, sin_0 in H. rewrite Rmult_0_r, cos_0, sin_0 in H.
    set (M := map (fun n => eval_w w (1 / 512 * INR n)) (seq 1 kNumSamples)) in *.
    assert (LM : length M = 512%nat) by (unfold M; rewrite map_length, seq_length; reflexivity).
    assert (W1 : set_radius (fst (eval_ft w 0)) 2 = mkWindow (PlanckTaper 1) 2 M).
    { unfold eval_ft. cbn [wi_kind w]. unfold generic_ft. cbn [fst].
      unfold memoize. cbn [wi_memo wi_kind wi_radius w]. unfold set_radius. cbn [wi_kind wi_memo].
      replace (INR kNumSamples) with 512 by (unfold kNumSamples; rewrite INR_IZR_INZ; f_equal).
      reflexivity. }
    rewrite W1. unfold eval_ft. cbn [wi_kind]. unfold generic_ft.
    assert (MM : memoize (mkWindow (PlanckTaper 1) 2 M) = mkWindow (PlanckTaper 1) 2 M).
    { unfold memoize. cbn [wi_memo]. destruct M; [discriminate|reflexivity]. }
    rewrite MM. cbn [wi_memo wi_radius snd]. rewrite LM.
    replace (INR 512) with 512 by (rewrite INR_IZR_INZ; f_equal).
    replace (2 * PI * 0 * (2 / 512)) with 0 by ring. rewrite cos_0, sin_0.
    rewrite !(Rmult_comm _ 2). rewrite H, LM. rewrite Rmult_comm. do 4 f_equal.
    change 512%nat with kNumSamples.
    rewrite (map_seq1 (fun n => eval (PlanckTaper 1) 1 _)). apply map_ext_in. intros n Hn. apply in_seq in Hn.
    rewrite Rmult_0_r, cos_0, Rmult_1_l. unfold M.
    rewrite nth_map_seq by lia. change (1 + n)%nat with (S n). unfold eval_w; cbn [wi_kind wi_radius w].
    f_equal. ring. }
  rewrite E.
  assert (S : fold_right Rplus 0 (map (fun n => eval (PlanckTaper 1) 1 (INR n * (1 / 512))) (seq 1 512))
    < fold_right Rplus 0 (map (fun n => cos (2 * PI * 0 * (INR n * (2 / 512))) *
         eval (PlanckTaper 1) 2 (INR n * (2 / 512))) (seq 1 512))); [|lra].
  assert (EQ : forall n, cos (2 * PI * 0 * (INR n * (2 / 512))) * eval (PlanckTaper 1) 2 (INR n * (2 / 512))
     = planck (2 * (1 - INR n / 512))).
  { intros n. replace (2 * PI * 0 * (INR n * (2 / 512))) with 0 by ring. rewrite cos_0, Rmult_1_l.
    rewrite eval_planck by lra. pose proof (pos_INR n). rewrite Rabs_right by lra. f_equal. field. }
  assert (EQ1 : forall n, eval (PlanckTaper 1) 1 (INR n * (1 / 512)) = planck (1 - INR n / 512)).
  { intros n. rewrite eval_planck by lra. pose proof (pos_INR n). rewrite Rabs_right by lra. f_equal. field. }
  apply (sum_lt _ _ _ 256%nat).
  - intros n Hn. apply in_seq in Hn. rewrite EQ, EQ1. apply planck_mono.
    assert (INR n <= 512).
    { replace 512 with (INR 512) by (rewrite INR_IZR_INZ; f_equal). apply le_INR. lia. }
    lra.
  - apply in_seq. lia.
  - rewrite EQ, EQ1. replace (INR 256) with 256 by (rewrite INR_IZR_INZ; f_equal).
    replace (1 - 256 / 512) with (1 / 2) by lra. rewrite planck_half, planck_one by lra. lra.
Qed.

Lemma planck_sampled r : 0 < r ->
  exists s, symmetric_samples (mkWindow (PlanckTaper 1) r []) 3 = Ok s /\
            nth 0 s 0 = planck (r / 2).
Proof.
  intros Hr. destruct (symmetric_ok (mkWindow (PlanckTaper 1) r []) 3 ltac:(lia)) as (s & Hs & _ & N).
  exists s. split; [exact Hs|]. rewrite N by lia. unfold eval_w, sym_pos; cbn [wi_kind wi_radius zero_at_endpoints].
  rewrite eval_planck by lra. f_equal. unfold grid.
  replace (- r + 2 * r * INR (0 + 1) / (INR (3 + 2) - 1)) with (- (r / 2)) by (cbn; field).
  rewrite Rabs_Ropp, Rabs_right by lra. field.
Qed.
