From Verif Require Import CInt RationalApproxModel RationalApproxSpec NumberUtilProofs.
From Coq Require Import QArith Qabs Qround Lqa Qfield.
Open Scope Z_scope.

Ltac Zify.zify_post_hook ::= idtac.

Notation "'!' z" := (inject_Z z) (at level 9, z at level 9) : Q_scope.

(* ---- distances, cross-multiplied ---- *)
Lemma injZ_pos v : 0 < v -> (0 < inject_Z v)%Q.
Proof. intros H. change 0%Q with (inject_Z 0). now rewrite <- Zlt_Qlt. Qed.

Lemma injZ_nonneg v : 0 <= v -> (0 <= inject_Z v)%Q.
Proof. intros H. change 0%Q with (inject_Z 0). now rewrite <- Zle_Qle. Qed.

Lemma dist_mul x u v : 0 < v ->
  (dist x u v * ! v == Qabs (! v * x - ! u))%Q.
Proof.
  intros Hv. unfold dist. pose proof (injZ_pos v Hv) as P.
  rewrite <- (Qabs_pos (! v)) at 2 by lra.
  rewrite <- Qabs_Qmult.
  setoid_replace ((x - ! u / ! v) * ! v)%Q with (! v * x - ! u)%Q; [reflexivity|].
  field. lra.
Qed.

Lemma dist_le x u1 v1 u2 v2 : 0 < v1 -> 0 < v2 ->
  (Qabs (! v1 * x - ! u1) * ! v2 <= Qabs (! v2 * x - ! u2) * ! v1)%Q ->
  (dist x u1 v1 <= dist x u2 v2)%Q.
Proof.
  intros H1 H2 H. rewrite <- !dist_mul in H by assumption.
  pose proof (injZ_pos v1 H1) as P1. pose proof (injZ_pos v2 H2) as P2.
  apply (Qmult_le_r _ _ (! v1 * ! v2)); [nra|]. lra.
Qed.

Lemma dist_lt_inv x u1 v1 u2 v2 : 0 < v1 -> 0 < v2 ->
  (dist x u1 v1 <= dist x u2 v2)%Q ->
  (Qabs (! v1 * x - ! u1) * ! v2 <= Qabs (! v2 * x - ! u2) * ! v1)%Q.
Proof.
  intros H1 H2 H. rewrite <- !dist_mul by assumption.
  pose proof (injZ_pos v1 H1) as P1. pose proof (injZ_pos v2 H2) as P2.
  assert ((dist x u1 v1 * (! v1 * ! v2) <= dist x u2 v2 * (! v1 * ! v2)))%Q.
  { apply Qmult_le_compat_r; [exact H|nra]. }
  lra.
Qed.

(* ---- the loop invariant ---- *)
Record inv (x e : Q) (M a b a' b' : Z) : Prop := {
  i_e0 : (0 <= e)%Q;
  i_e1 : (e < 1)%Q;
  i_x : (x * (! b + e * ! b') == ! a + e * ! a')%Q;
  i_det : a * b' - a' * b = 1 \/ a * b' - a' * b = -1;
  i_b : 1 <= b <= M;
  i_b' : 0 <= b' <= b;
  i_a : 0 <= a <= INT_MAX;
  i_a' : 0 <= a' <= INT_MAX
}.

(* Upper bound for the next term (n of the code). *)
Definition next_bound (M a b a' b' : Z) : Z :=
  let n0 := (M - b') / b in
  if 0 <? a then Z.min n0 ((INT_MAX - a') / a) else n0.

Lemma gcd_from_det p q p' q' : p * q' - p' * q = 1 \/ p * q' - p' * q = -1 -> Z.gcd p q = 1.
Proof.
  intros H. apply Z.bezout_1_gcd. unfold Z.Bezout. destruct H as [H|H].
  - exists q', (- p'). lia.
  - exists (- q'), p'. lia.
Qed.

Section Core.
Variables (x e : Q) (M a b a' b' : Z).
Hypothesis I : inv x e M a b a' b'.

Let N := next_bound M a b a' b'.
Let D' := (! b' * x - ! a')%Q.

Lemma D_eq : (! b * x - ! a == - e * D')%Q.
Proof. destruct I. unfold D'. lra. Qed.

Lemma lin s t :
  (! (s * b + t * b') * x - ! (s * a + t * a') == D' * (! t - ! s * e))%Q.
Proof.
  rewrite !inject_Z_plus, !inject_Z_mult. pose proof D_eq as E.
  setoid_replace ((! s * ! b + ! t * ! b') * x - (! s * ! a + ! t * ! a'))%Q
    with (! s * (! b * x - ! a) + ! t * (! b' * x - ! a'))%Q by ring.
  rewrite E. unfold D'. ring.
Qed.

Lemma lin_abs s t :
  (Qabs (! (s * b + t * b') * x - ! (s * a + t * a')) == Qabs D' * Qabs (! t - ! s * e))%Q.
Proof. rewrite lin. apply Qabs_Qmult. Qed.

Lemma decompose u v : exists s t, u = s * a + t * a' /\ v = s * b + t * b'.
Proof.
  destruct (i_det _ _ _ _ _ _ _ I) as [E|E].
  - exists (u * b' - v * a'), (v * a - u * b). split.
    + transitivity (u * (a * b' - a' * b)); [rewrite E; ring|ring].
    + transitivity (v * (a * b' - a' * b)); [rewrite E; ring|ring].
  - exists (- (u * b' - v * a')), (- (v * a - u * b)). split.
    + transitivity (- u * (a * b' - a' * b)); [rewrite E; ring|ring].
    + transitivity (- v * (a * b' - a' * b)); [rewrite E; ring|ring].
Qed.

Lemma N_nonneg : 0 <= N.
Proof.
  destruct I. unfold N, next_bound.
  assert (0 <= (M - b') / b) by (apply Z.div_pos; lia).
  destruct (Z.ltb_spec 0 a); [|assumption].
  assert (0 <= (INT_MAX - a') / a) by (apply Z.div_pos; lia). lia.
Qed.

Lemma N_fits k : 0 <= k <= N -> k * b + b' <= M /\ k * a + a' <= INT_MAX.
Proof.
  destruct I. unfold N, next_bound. intros Hk.
  assert (B : k <= (M - b') / b) by (destruct (0 <? a); lia).
  assert (E1 : b * ((M - b') / b) <= M - b') by (apply Z.mul_div_le; lia).
  split; [nia|].
  destruct (Z.ltb_spec 0 a).
  - assert (B2 : k <= (INT_MAX - a') / a) by lia.
    assert (E2 : a * ((INT_MAX - a') / a) <= INT_MAX - a') by (apply Z.mul_div_le; lia).
    nia.
  - assert (a = 0) by lia. subst a. lia.
Qed.

Lemma s_le_N s t : 1 <= t -> 1 <= s -> s * b + t * b' <= M -> s * a + t * a' <= INT_MAX ->
  s <= N.
Proof.
  destruct I. intros Ht Hs H1 H2. unfold N, next_bound.
  assert (B : s <= (M - b') / b) by (apply Z.div_le_lower_bound; nia).
  destruct (Z.ltb_spec 0 a); [|exact B].
  assert (s <= (INT_MAX - a') / a) by (apply Z.div_le_lower_bound; nia). lia.
Qed.

Lemma Qabs_ge q : (q <= Qabs q)%Q /\ (- q <= Qabs q)%Q.
Proof. split; [apply Qle_Qabs|]. rewrite <- Qabs_opp. apply Qle_Qabs. Qed.

(* Every admissible fraction is no better than the convergent or no better than
   the semiconvergent with term N. *)
Lemma core s t : (! N * e <= 1)%Q ->
  1 <= s * b + t * b' <= M -> s * a + t * a' <= INT_MAX ->
  (e * ! (s * b + t * b') <= Qabs (! t - ! s * e) * ! b)%Q \/
  (1 <= N /\
   ((1 - ! N * e) * ! (s * b + t * b') <= Qabs (! t - ! s * e) * ! (N * b + b'))%Q).
Proof.
  intros HN Hv Hu. destruct I.
  pose proof (Qabs_ge (! t - ! s * e)%Q) as [G1 G2].
  pose proof (injZ_pos b ltac:(lia)) as Pb.
  pose proof (injZ_nonneg b' ltac:(lia)) as Pb'.
  assert (Lb : (! b' <= ! b)%Q) by (rewrite <- Zle_Qle; lia).
  rewrite !inject_Z_plus, !inject_Z_mult.
  destruct (Z_lt_ge_dec t 1) as [Ht|Ht].
  - left. assert (Hs : 1 <= s) by nia.
    pose proof (injZ_pos s ltac:(lia)) as Ps.
    assert (Pt : (! t <= 0)%Q) by (change 0%Q with (! 0)%Q; rewrite <- Zle_Qle; lia).
    assert (A1 : ((! s * e - ! t) * ! b <= Qabs (! t - ! s * e) * ! b)%Q)
      by (apply Qmult_le_compat_r; lra).
    assert (A2 : (e * ! t * ! b' <= 0)%Q).
    { assert (0 <= e * ! b')%Q by (apply Qmult_le_0_compat; assumption). nra. }
    assert (A3 : (! t * ! b <= 0)%Q) by nra. lra.
  - assert (Pt : (1 <= ! t)%Q) by (change 1%Q with (! 1)%Q; rewrite <- Zle_Qle; lia).
    destruct (Z_lt_ge_dec s 1) as [Hs|Hs].
    + left. assert (Ps : (! s <= 0)%Q) by (change 0%Q with (! 0)%Q; rewrite <- Zle_Qle; lia).
      assert (A1 : ((! t - ! s * e) * ! b <= Qabs (! t - ! s * e) * ! b)%Q)
        by (apply Qmult_le_compat_r; lra).
      assert (A2 : (e * ! t * ! b' <= ! t * ! b)%Q).
      { assert (e * ! b' <= ! b)%Q by nra. nra. }
      assert (A3 : (! s * (e * ! b) <= 0)%Q).
      { assert (0 <= e * ! b)%Q by (apply Qmult_le_0_compat; lra). nra. }
      lra.
    + right. assert (LN : s <= N) by (apply (s_le_N s t); lia).
      split; [lia|].
      assert (QN : (! s <= ! N)%Q) by (rewrite <- Zle_Qle; lia).
      assert (QN0 : (0 <= ! N)%Q) by (apply injZ_nonneg; lia).
      assert (PP : (0 <= ! N * ! b + ! b')%Q) by nra.
      assert (A1 : ((! t - ! s * e) * (! N * ! b + ! b') <=
                    Qabs (! t - ! s * e) * (! N * ! b + ! b'))%Q)
        by (apply Qmult_le_compat_r; lra).
      eapply Qle_trans; [|exact A1].
      assert (A2 : (0 <= (! t * ! N - ! s) * (! b + e * ! b'))%Q).
      { apply Qmult_le_0_compat.
        - assert (! N <= ! t * ! N)%Q by nra. lra.
        - assert (0 <= e * ! b')%Q by (apply Qmult_le_0_compat; assumption). lra. }
      lra.
Qed.

Lemma core_uv u v : (! N * e <= 1)%Q -> 1 <= v <= M -> u <= INT_MAX ->
  (e * Qabs D' * ! v <= Qabs (! v * x - ! u) * ! b)%Q \/
  (1 <= N /\ ((1 - ! N * e) * Qabs D' * ! v <= Qabs (! v * x - ! u) * ! (N * b + b'))%Q).
Proof.
  intros HN Hv Hu. destruct (decompose u v) as (s & t & Eu & Ev).
  destruct (core s t HN) as [C|[P C]]; [lia|lia| |].
  - left. rewrite Eu, Ev, lin_abs. pose proof (Qabs_nonneg D').
    setoid_replace (e * Qabs D' * ! (s * b + t * b'))%Q with
      (Qabs D' * (e * ! (s * b + t * b')))%Q by ring.
    setoid_replace (Qabs D' * Qabs (! t - ! s * e) * ! b)%Q with
      (Qabs D' * (Qabs (! t - ! s * e) * ! b))%Q by ring.
    rewrite (Qmult_comm (Qabs D')), (Qmult_comm (Qabs D') (Qabs _ * _)).
    apply Qmult_le_compat_r; assumption.
  - right. split; [exact P|]. rewrite Eu, Ev, lin_abs. pose proof (Qabs_nonneg D').
    setoid_replace ((1 - ! N * e) * Qabs D' * ! (s * b + t * b'))%Q with
      ((1 - ! N * e) * ! (s * b + t * b') * Qabs D')%Q by ring.
    setoid_replace (Qabs D' * Qabs (! t - ! s * e) * ! (N * b + b'))%Q with
      (Qabs (! t - ! s * e) * ! (N * b + b') * Qabs D')%Q by ring.
    apply Qmult_le_compat_r; assumption.
Qed.

Lemma conv_abs : (Qabs (! b * x - ! a) == e * Qabs D')%Q.
Proof.
  destruct I. rewrite D_eq, Qabs_Qmult, Qabs_opp, (Qabs_pos e) by assumption. reflexivity.
Qed.

Lemma semi_abs : (! N * e <= 1)%Q ->
  (Qabs (! (N * b + b') * x - ! (N * a + a')) == (1 - ! N * e) * Qabs D')%Q.
Proof.
  intros HN. pose proof (lin_abs N 1) as L. rewrite !Z.mul_1_l in L. rewrite L.
  rewrite (Qabs_pos (! 1 - ! N * e)); [ring|]. change (! 1)%Q with 1%Q. lra.
Qed.

(* The convergent is best if it beats the semiconvergent. *)
Lemma conv_best_gen : (! N * e <= 1)%Q ->
  (1 <= N -> (dist x a b <= dist x (N * a + a')%Z (N * b + b')%Z)%Q) ->
  best_approximation x M a b.
Proof.
  intros HN HB. destruct I. split; [lia|]. split; [unfold INT_MIN, INT_MAX in *; lia|].
  split; [eapply gcd_from_det; eassumption|].
  intros u v Hv Hu. 
  destruct (core_uv u v HN Hv ltac:(lia)) as [C|[P C]].
  - apply dist_le; [lia|lia|]. rewrite conv_abs. exact C.
  - eapply Qle_trans; [apply HB; exact P|].
    apply dist_le; [nia|lia|]. rewrite semi_abs by exact HN. exact C.
Qed.

Lemma conv_best : (! (2 * N + 1) * e <= 1)%Q -> best_approximation x M a b.
Proof.
  intros H. pose proof N_nonneg as N0. pose proof (injZ_nonneg N N0) as QN.
  rewrite inject_Z_plus, inject_Z_mult in H. change (! 2)%Q with 2%Q in H.
  change (! 1)%Q with 1%Q in H.
  destruct I.
  assert (NE : (0 <= ! N * e)%Q) by (apply Qmult_le_0_compat; assumption).
  assert (HN : (! N * e <= 1)%Q) by lra.
  apply conv_best_gen; [exact HN|]. intros P.
  apply dist_le; [lia|nia|]. rewrite conv_abs, semi_abs by exact HN.
  setoid_replace (e * Qabs D' * ! (N * b + b'))%Q
    with (e * ! (N * b + b') * Qabs D')%Q by ring.
  setoid_replace ((1 - ! N * e) * Qabs D' * ! b)%Q
    with ((1 - ! N * e) * ! b * Qabs D')%Q by ring.
  apply Qmult_le_compat_r; [|apply Qabs_nonneg].
  rewrite inject_Z_plus, inject_Z_mult.
  pose proof (injZ_pos b ltac:(lia)) as Pb.
  assert (Lb : (! b' <= ! b)%Q) by (rewrite <- Zle_Qle; lia).
  assert (A : (e * ! b' <= e * ! b)%Q) by (rewrite !(Qmult_comm e); apply Qmult_le_compat_r; lra).
  assert (B : ((2 * ! N * e + e) * ! b <= 1 * ! b)%Q) by (apply Qmult_le_compat_r; lra).
  lra.
Qed.

(* The semiconvergent is best if it beats the convergent. *)
Lemma semi_best_gen : (! N * e <= 1)%Q -> 1 <= N ->
  (dist x (N * a + a')%Z (N * b + b')%Z <= dist x a b)%Q ->
  best_approximation x M (N * a + a') (N * b + b').
Proof.
  intros HN P HB. pose proof (N_fits N ltac:(lia)) as [F1 F2]. destruct I.
  split; [nia|]. split; [unfold INT_MIN, INT_MAX in *; nia|].
  split. { apply (gcd_from_det _ _ a b). destruct i_det0; [right|left]; nia. }
  intros u v Hv Hu.
  destruct (core_uv u v HN Hv ltac:(lia)) as [C|[_ C]].
  - eapply Qle_trans; [exact HB|].
    apply dist_le; [lia|lia|]. rewrite conv_abs. exact C.
  - apply dist_le; [nia|lia|]. rewrite semi_abs by exact HN. exact C.
Qed.

Lemma semi_best : (! N * e <= 1)%Q -> 1 <= N -> (1 <= ! (2 * N) * e)%Q ->
  best_approximation x M (N * a + a') (N * b + b').
Proof.
  intros HN P H. apply semi_best_gen; [exact HN|exact P|]. destruct I.
  apply dist_le; [nia|lia|]. rewrite conv_abs, semi_abs by exact HN.
  setoid_replace (e * Qabs D' * ! (N * b + b'))%Q
    with (e * ! (N * b + b') * Qabs D')%Q by ring.
  setoid_replace ((1 - ! N * e) * Qabs D' * ! b)%Q
    with ((1 - ! N * e) * ! b * Qabs D')%Q by ring.
  apply Qmult_le_compat_r; [|apply Qabs_nonneg].
  rewrite inject_Z_plus, inject_Z_mult. rewrite inject_Z_mult in H.
  change (! 2)%Q with 2%Q in H.
  pose proof (injZ_pos b ltac:(lia)) as Pb.
  pose proof (injZ_nonneg b' ltac:(lia)) as Pb'.
  assert (A : (0 <= e * ! b')%Q) by (apply Qmult_le_0_compat; assumption).
  assert (B : (1 * ! b <= 2 * ! N * e * ! b)%Q) by (apply Qmult_le_compat_r; lra).
  lra.
Qed.

(* The distance of the convergent is at most e / b^2. *)
Lemma conv_dist : (dist x a b * ! b * ! b <= e)%Q.
Proof.
  destruct I. rewrite dist_mul by lia. rewrite conv_abs.
  pose proof (injZ_pos b ltac:(lia)) as Pb.
  pose proof (injZ_nonneg b' ltac:(lia)) as Pb'.
  assert (EB : (0 <= e * ! b')%Q) by (apply Qmult_le_0_compat; assumption).
  assert (HD : (Qabs D' * (! b + e * ! b') == 1)%Q).
  { rewrite <- (Qabs_pos (! b + e * ! b')) by lra. rewrite <- Qabs_Qmult.
    assert (E : (D' * (! b + e * ! b') == ! (a * b' - a' * b))%Q).
    { unfold D'. setoid_replace ((! b' * x - ! a') * (! b + e * ! b'))%Q
        with (! b' * (x * (! b + e * ! b')) - ! a' * (! b + e * ! b'))%Q by ring.
      rewrite i_x0. unfold Zminus. rewrite inject_Z_plus, inject_Z_opp, !inject_Z_mult. ring. }
    rewrite E. destruct i_det0 as [-> | ->]; reflexivity. }
  pose proof (Qabs_nonneg D') as PD.
  assert (Qabs D' * ! b <= 1)%Q.
  { assert (0 <= Qabs D' * (e * ! b'))%Q by (apply Qmult_le_0_compat; assumption). lra. }
  setoid_replace (e * Qabs D' * ! b)%Q with ((Qabs D' * ! b) * e)%Q by ring.
  setoid_replace e with (1 * e)%Q at 2 by ring.
  apply Qmult_le_compat_r; assumption.
Qed.

End Core.

(* ---- Fibonacci lower bound on the denominators ---- *)
Fixpoint fib2 (k : nat) : Z * Z :=   (* (fib k, fib (k+1)) *)
  match k with O => (0, 1) | S k' => let '(p, q) := fib2 k' in (q, p + q) end.

Lemma fib2_mono : forall k, 0 <= fst (fib2 k) <= snd (fib2 k).
Proof.
  induction k as [|k IH]; cbn [fib2]; [cbn; lia|].
  destruct (fib2 k) as [p q]. cbn [fst snd] in *. lia.
Qed.

Lemma fib2_le k : forall j, (j <= k)%nat -> fst (fib2 j) <= fst (fib2 k) /\ snd (fib2 j) <= snd (fib2 k).
Proof.
  induction k as [|k IH]; intros j H.
  - assert (j = O) by lia. subst. lia.
  - destruct (Nat.eq_dec j (S k)) as [->|N]; [lia|].
    destruct (IH j ltac:(lia)) as [A B]. pose proof (fib2_mono k) as C.
    cbn [fib2]. destruct (fib2 k) as [p q]. cbn [fst snd] in *. lia.
Qed.

(* ---- loop ---- *)
Definition opt_ok (opt : ra_options) : Prop :=
  47 <= max_terms opt /\ (0 <= convergence_tolerance opt)%Q.

Definition exit_ok (x tol : Q) (M : Z) (ex : ra_exit) : Prop :=
  match ex with
  | Converged (a, b) => exists e a' b', inv x e M a b a' b' /\ (e <= tol)%Q
  | Broke (a, b) (a', b') n cft =>
      exists e, inv x e M a b a' b' /\ (0 < e)%Q /\ cft = Qfloor (/ e) /\
        n = next_bound M a b a' b' /\ n <= cft
  end.

Lemma floor_inv_ge1 e : (0 < e)%Q -> (e < 1)%Q -> 1 <= Qfloor (/ e).
Proof.
  intros H0 H1. change 1 with (Qfloor 1). apply Qfloor_resp_le.
  apply Qle_shift_inv_l; lra.
Qed.

Lemma append_ok a b a' b' k M : 0 <= k -> 0 <= a -> 0 <= a' -> 0 <= b -> 0 <= b' ->
  M <= INT_MAX -> k * b + b' <= M -> k * a + a' <= INT_MAX ->
  append_term (a, b) (a', b') k = Ok (k * a + a', k * b + b').
Proof.
  intros Hk Ha Ha' Hb Hb' HM H1 H2. unfold append_term. cbn [fst snd].
  assert (0 <= k * a) by nia. assert (0 <= k * b) by nia.
  rewrite (i32_ok (k * a)) by (unfold int, INT_MIN in *; lia). cbn [obind].
  rewrite (i32_ok (k * a + a')) by (unfold int, INT_MIN in *; lia). cbn [obind].
  rewrite (i32_ok (k * b)) by (unfold int, INT_MIN in *; lia). cbn [obind].
  rewrite (i32_ok (k * b + b')) by (unfold int, INT_MIN in *; lia). reflexivity.
Qed.

Lemma c_div_ok p q : 0 <= p <= INT_MAX -> 0 < q -> c_div p q = Ok (p / q).
Proof.
  intros Hp Hq. unfold c_div, oguard, in_i32.
  rewrite Z.quot_div_nonneg by lia.
  assert (0 <= p / q <= p).
  { split; [apply Z.div_pos; lia|]. apply Z.div_le_upper_bound; [lia|nia]. }
  replace (q =? 0) with false by lia.
  replace ((INT_MIN <=? p / q) && (p / q <=? INT_MAX)) with true
    by (unfold INT_MIN, INT_MAX in *; lia).
  reflexivity.
Qed.

Lemma floor_le_inv e : (0 < e)%Q -> (! (Qfloor (/ e)) * e <= 1)%Q.
Proof.
  intros H. pose proof (Qfloor_le (/ e)) as F.
  assert (E : (/ e * e == 1)%Q) by (rewrite Qmult_comm; apply Qmult_inv_r; lra).
  rewrite <- E. apply Qmult_le_compat_r; lra.
Qed.

Lemma loop_ok opt M x : opt_ok opt -> M <= INT_MAX ->
  forall left recip cft a b a' b' k,
  inv x (recip - ! cft) M a b a' b' ->
  cft <= INT_MAX ->
  fst (fib2 k) <= b' -> snd (fib2 k) <= b -> (45 <= k + left)%nat ->
  exists ex, ra_loop left opt M recip cft (a, b) (a', b') = Ok ex /\
    exit_ok x (convergence_tolerance opt) M ex.
Proof.
  intros [HT Htol] HM left. induction left as [|left IH];
    intros recip cft a b a' b' k HI HC F1 F2 Hk.
  all: set (e := (recip - ! cft)%Q) in *.
  all: assert (HE0 : (0 <= e)%Q) by apply (i_e0 _ _ _ _ _ _ _ HI).
  all: assert (HE1 : (e < 1)%Q) by apply (i_e1 _ _ _ _ _ _ _ HI).
  all: cbn [ra_loop]; fold e.
  all: destruct (Qle_bool (Qabs e) (convergence_tolerance opt)) eqn:EQ.
  all: try (exists (Converged (a, b)); split; [reflexivity|]; exists e, a', b';
            split; [exact HI|]; apply Qle_bool_iff in EQ; rewrite Qabs_pos in EQ; assumption).
  all: assert (HEp : (0 < e)%Q)
    by (destruct (Qlt_le_dec 0 e) as [L|L]; [exact L|exfalso;
        assert (Qle_bool (Qabs e) (convergence_tolerance opt) = true)
          by (apply Qle_bool_iff; rewrite Qabs_pos by assumption; lra); congruence]).
  all: pose proof (floor_inv_ge1 e HEp HE1) as C1.
  all: pose proof HI as [_ _ HX HD HB HB' HA HA'].
  all: cbn [fst snd].
  all: rewrite (i32_ok (M - b')) by (unfold int, INT_MIN, INT_MAX in *; lia); cbn [obind].
  all: rewrite c_div_ok by lia; cbn [obind].
  all: assert (EN : (if 0 <? a then
            m <- i32 (INT_MAX - a') ;; ub <- c_div m a ;;
            Ok (if ub <? (M - b') / b then ub else (M - b') / b)
          else Ok ((M - b') / b)) = Ok (next_bound M a b a' b'))
    by (unfold next_bound; destruct (Z.ltb_spec 0 a); [|reflexivity];
        rewrite i32_ok by (unfold int, INT_MIN, INT_MAX in *; lia); cbn [obind];
        rewrite c_div_ok by lia; cbn [obind]; f_equal;
        destruct (Z.ltb_spec ((INT_MAX - a') / a) ((M - b') / b)); lia).
  all: rewrite EN; cbn [obind]; clear EN.
  - (* max_terms reached: the bound is 0 *)
    exists (Broke (a, b) (a', b') (next_bound M a b a' b') (Qfloor (/ e))).
    split; [reflexivity|]. exists e. split; [exact HI|]. split; [exact HEp|].
    split; [reflexivity|]. split; [reflexivity|].
    assert (next_bound M a b a' b' <= 0); [|lia].
    pose proof (fib2_le k 45 ltac:(lia)) as [G1 G2].
    assert (E45 : fib2 45 = (1134903170, 1836311903)) by (vm_compute; reflexivity).
    rewrite E45 in *. cbn [fst snd] in *.
    assert ((M - b') / b <= 0).
    { unfold INT_MAX in *. assert ((M - b') / b = 0) by (apply Z.div_small; lia). lia. }
    unfold next_bound. destruct (0 <? a); lia.
  - destruct (Z.leb_spec (next_bound M a b a' b') (Qfloor (/ e))) as [L|L].
    + exists (Broke (a, b) (a', b') (next_bound M a b a' b') (Qfloor (/ e))).
      split; [reflexivity|]. exists e. repeat (split; [assumption || reflexivity|]). exact L.
    + set (c' := Qfloor (/ e)) in *.
      pose proof (N_fits _ _ _ _ _ _ _ HI c' ltac:(lia)) as [N1 N2].
      assert (BI : c' <= INT_MAX).
      { assert (c' * 1 <= c' * b) by nia. unfold INT_MAX in *. lia. }
      unfold oguard. replace (in_i32 c') with true by (unfold in_i32, INT_MIN, INT_MAX in *; lia).
      rewrite (append_ok a b a' b' c' M) by lia. cbn [obind].
      apply (IH (/ e)%Q c' (c' * a + a') (c' * b + b') a b (S k)).
      * assert (FL : (! c' <= / e)%Q) by apply Qfloor_le.
        assert (FG : (/ e < ! c' + 1)%Q).
        { pose proof (Qlt_floor (/ e)) as G. fold c' in G.
          rewrite inject_Z_plus in G. exact G. }
        constructor.
        -- lra.
        -- lra.
        -- assert (EI : (e * / e == 1)%Q) by (apply Qmult_inv_r; lra).
           rewrite !inject_Z_plus, !inject_Z_mult.
           setoid_replace (x * (! c' * ! b + ! b' + (/ e - ! c') * ! b))%Q
             with (/ e * (x * (! b + e * ! b')) + x * ! b' * (1 - e * / e))%Q by ring.
           rewrite HX, EI.
           setoid_replace (/ e * (! a + e * ! a') + x * ! b' * (1 - 1))%Q
             with (/ e * ! a + (e * / e) * ! a')%Q by ring.
           rewrite EI. ring.
        -- destruct HD as [HD|HD]; [right|left]; nia.
        -- nia.
        -- nia.
        -- nia.
        -- lia.
      * exact BI.
      * cbn [fib2]. destruct (fib2 k) as [p q]. cbn [fst snd] in *. lia.
      * cbn [fib2]. destruct (fib2 k) as [p q]. cbn [fst snd] in *. nia.
      * lia.
Qed.

(* ---- final step ---- *)
Lemma fraction_dist x a b : 0 < b -> (Qabs (x - fraction_to_q (a, b)) == dist x a b)%Q.
Proof.
  intros H. unfold dist, fraction_to_q. cbn [fst snd].
  assert (E : (a # Z.to_pos b == ! a / ! b)%Q).
  { rewrite Qmake_Qdiv. rewrite Z2Pos.id by exact H. reflexivity. }
  rewrite E. reflexivity.
Qed.

Lemma Qle_bool_comp p q p' q' : (p == p')%Q -> (q == q')%Q -> Qle_bool p q = Qle_bool p' q'.
Proof. intros E1 E2. now rewrite E1, E2. Qed.

Lemma final_ok x M a b a' b' e cft :
  inv x e M a b a' b' -> (0 < e)%Q -> M <= INT_MAX -> cft = Qfloor (/ e) ->
  let n := next_bound M a b a' b' in n <= cft ->
  exists p q, ra_final x (a, b) (a', b') n cft = Ok (p, q) /\ best_approximation x M p q /\ 0 <= p.
Proof.
  intros HI HE HM HC n HN. pose proof HI as [_ HE1 _ _ HB HB' HA HA'].
  pose proof (N_nonneg _ _ _ _ _ _ _ HI) as N0. fold n in N0.
  pose proof (N_fits _ _ _ _ _ _ _ HI n ltac:(fold n; lia)) as [N1 N2].
  pose proof (floor_inv_ge1 e HE HE1) as C1. rewrite <- HC in C1.
  pose proof (floor_le_inv e HE) as FL. rewrite <- HC in FL.
  assert (FG : (1 < ! (cft + 1) * e)%Q).
  { pose proof (Qlt_floor (/ e)) as G. rewrite <- HC in G.
    assert (E : (/ e * e == 1)%Q) by (rewrite Qmult_comm; apply Qmult_inv_r; lra).
    rewrite <- E. apply Qmult_lt_compat_r; assumption. }
  assert (NE : (! n * e <= 1)%Q).
  { eapply Qle_trans; [|exact FL]. apply Qmult_le_compat_r; [|lra]. rewrite <- Zle_Qle. exact HN. }
  unfold ra_final.
  assert (L1 : Qle_bool (cft # 2) (! n) = (cft <=? 2 * n)).
  { unfold Qle_bool. cbn [Qnum Qden inject_Z]. lia. }
  assert (L2 : Qle_bool (! n) (cft # 2) = (2 * n <=? cft)).
  { unfold Qle_bool. cbn [Qnum Qden inject_Z]. lia. }
  rewrite L1.
  destruct (Z.leb_spec cft (2 * n)) as [Q1|Q1].
  - replace (cft <? n) with false by lia.
    rewrite (append_ok a b a' b' n M) by lia. cbn [obind].
    rewrite L2.
    assert (P : 1 <= n) by lia.
    destruct (Z.leb_spec (2 * n) cft) as [Q2|Q2]; cbn [negb orb].
    + rewrite (Qle_bool_comp _ _ (dist x a b) (dist x (n * a + a') (n * b + b'))).
      2: apply fraction_dist; lia. 2: apply fraction_dist; nia.
      destruct (Qle_bool (dist x a b) (dist x (n * a + a') (n * b + b'))) eqn:C; cbn [negb].
      * exists a, b. split; [reflexivity|]. split; [|lia].
        apply (conv_best_gen _ _ _ _ _ _ _ HI NE). intros _. now apply Qle_bool_iff.
      * exists (n * a + a'), (n * b + b'). split; [reflexivity|]. split; [|nia].
        apply (semi_best_gen _ _ _ _ _ _ _ HI NE P).
        destruct (Qlt_le_dec (dist x a b) (dist x (n * a + a') (n * b + b'))) as [X|X]; [|exact X].
        exfalso. apply Qlt_le_weak, Qle_bool_iff in X. fold n in X. congruence.
    + exists (n * a + a'), (n * b + b'). split; [reflexivity|]. split; [|nia].
      apply (semi_best _ _ _ _ _ _ _ HI NE P). fold n.
      apply Qlt_le_weak. eapply Qlt_le_trans; [exact FG|].
      apply Qmult_le_compat_r; [|lra]. rewrite <- Zle_Qle. lia.
  - exists a, b. split; [reflexivity|]. split; [|lia].
    apply (conv_best _ _ _ _ _ _ _ HI). fold n.
    eapply Qle_trans; [|exact FL]. apply Qmult_le_compat_r; [|lra]. rewrite <- Zle_Qle. lia.
Qed.

(* ---- whole function ---- *)
Lemma init_inv x M : (0 <= x)%Q -> (x <= ! INT_MAX + (1 # 2))%Q -> 1 <= M ->
  inv x (x - ! (Qfloor x)) M (Qfloor x) 1 1 0 /\ Qfloor x <= INT_MAX.
Proof.
  intros H0 H1 HM. pose proof (Qfloor_le x) as F. pose proof (Qlt_floor x) as G.
  rewrite inject_Z_plus in G. change (! 1)%Q with 1%Q in G.
  assert (F0 : 0 <= Qfloor x).
  { change 0 with (Qfloor 0). now apply Qfloor_resp_le. }
  assert (FM : Qfloor x <= INT_MAX).
  { assert (Qfloor x < INT_MAX + 1); [|lia].
    rewrite Zlt_Qlt, inject_Z_plus. change (! 1)%Q with 1%Q. lra. }
  split; [|exact FM].
  constructor; try lia; try lra; change (! 1)%Q with 1%Q; change (! 0)%Q with 0%Q; try ring.
  unfold INT_MAX; lia.
Qed.

Lemma pos_ok opt x M : opt_ok opt -> (0 <= x)%Q -> (x <= ! INT_MAX + (1 # 2))%Q ->
  1 <= M <= INT_MAX ->
  exists ex, ra_loop (Z.to_nat (max_terms opt - 2)) opt M x (Qfloor x) (Qfloor x, 1) (1, 0)
    = Ok ex /\ exit_ok x (convergence_tolerance opt) M ex.
Proof.
  intros HO H0 H1 HM. destruct (init_inv x M H0 H1 ltac:(lia)) as [HI HF].
  apply (loop_ok opt M x HO ltac:(lia) _ x (Qfloor x) (Qfloor x) 1 1 0 O); auto.
  - cbn; lia.
  - cbn; lia.
  - destruct HO. lia.
Qed.

(* Unsigned part of the function. *)
Definition ra_pos (opt : ra_options) (x : Q) (M : Z) : outcome fraction :=
  e <- ra_loop (Z.to_nat (max_terms opt - 2)) opt M x (Qfloor x) (Qfloor x, 1) (1, 0) ;;
  match e with
  | Converged conv => Ok conv
  | Broke conv prev n cft' => ra_final x conv prev n cft'
  end.

Lemma ra_pos_ok opt x M : opt_ok opt -> (0 <= x)%Q -> (x <= ! INT_MAX + (1 # 2))%Q ->
  1 <= M <= INT_MAX ->
  exists p q, ra_pos opt x M = Ok (p, q) /\ 0 <= p /\
    (best_approximation x M p q \/
     exists e a' b', inv x e M p q a' b' /\ (e <= convergence_tolerance opt)%Q).
Proof.
  intros HO H0 H1 HM. destruct (pos_ok opt x M HO H0 H1 HM) as (ex & E & X).
  unfold ra_pos. rewrite E. cbn [obind].
  destruct ex as [[a b]|[a b] [a' b'] n cft].
  - destruct X as (e & a' & b' & HI & HE).
    exists a, b. split; [reflexivity|]. split; [apply (i_a _ _ _ _ _ _ _ HI)|].
    right. exists e, a', b'. auto.
  - destruct X as (e & HI & HE & HC & HN & HL). subst n.
    destruct (final_ok x M a b a' b' e cft HI HE ltac:(lia) HC HL) as (p & q & F & B & P).
    exists p, q. auto.
Qed.

Lemma neg_dist x u v : 0 < v -> (dist (- x) (- u) v == dist x u v)%Q.
Proof.
  intros H. unfold dist. rewrite <- Qabs_opp. rewrite inject_Z_opp.
  pose proof (injZ_pos v H).
  setoid_replace (- (- x - - ! u / ! v))%Q with (x - ! u / ! v)%Q; [reflexivity|].
  field. lra.
Qed.

Lemma neg_best x M p q : 0 <= p ->
  best_approximation x M p q -> best_approximation (- x) M (- p) q.
Proof.
  intros P (A & B & C & D). split; [exact A|].
  split; [unfold INT_MIN, INT_MAX in *; lia|]. split.
  - rewrite Z.gcd_opp_l. exact C.
  - intros u v Hv Hu. rewrite neg_dist by lia.
    rewrite <- (Z.opp_involutive u). rewrite neg_dist by lia. apply D; lia.
Qed.

Lemma dist_comp x y u v : (x == y)%Q -> (dist x u v == dist y u v)%Q.
Proof. intros E. unfold dist. now rewrite E. Qed.

Lemma best_comp x y M p q : (x == y)%Q -> best_approximation x M p q -> best_approximation y M p q.
Proof.
  intros E (A & B & C & D). repeat split; try tauto; try lia.
  intros u v Hv Hu. rewrite <- !(dist_comp _ _ _ _ E). now apply D.
Qed.

(* Relation to the signed function. *)
Lemma in_range_unfold opt x0 M p q :
  (! INT_MIN + (1 # 2) <= x0)%Q -> (x0 <= ! INT_MAX - (1 # 2))%Q -> 1 <= M <= INT_MAX ->
  ra_pos opt (Qabs x0) M = Ok (p, q) -> 0 <= p <= INT_MAX ->
  rational_approximation opt x0 M = Ok ((if Qle_bool 0 x0 then 1 else -1) * p, q).
Proof.
  intros H1 H2 HM E HP. unfold rational_approximation.
  replace (M <=? 0) with false by lia.
  assert (B2 : Qle_bool x0 (! INT_MAX - (1 # 2)) = true) by now apply Qle_bool_iff.
  assert (B1 : Qle_bool (! INT_MIN + (1 # 2)) x0 = true) by now apply Qle_bool_iff.
  rewrite B1, B2. cbn [negb].
  assert (X1 : (Qabs x0 <= ! INT_MAX - (1 # 2) + 1)%Q).
  { apply Qabs_Qle_condition. change (! INT_MIN)%Q with (- ! INT_MAX - 1)%Q in H1.
    split; [|lra]. assert (! INT_MIN == - ! INT_MAX - 1)%Q by reflexivity. lra. }
  unfold oguard.
  assert (FI : in_i32 (Qfloor (Qabs x0)) = true).
  { pose proof (Qfloor_le (Qabs x0)) as F.
    assert (0 <= Qfloor (Qabs x0)).
    { change 0 with (Qfloor 0). apply Qfloor_resp_le, Qabs_nonneg. }
    assert (Qfloor (Qabs x0) <= INT_MAX).
    { assert (Qfloor (Qabs x0) < INT_MAX + 1); [|lia].
      rewrite Zlt_Qlt. rewrite inject_Z_plus. change (! 1)%Q with 1%Q. lra. }
    unfold in_i32, INT_MIN, INT_MAX in *. lia. }
  rewrite FI. unfold ra_pos in E.
  destruct (ra_loop (Z.to_nat (max_terms opt - 2)) opt M (Qabs x0) (Qfloor (Qabs x0))
    (Qfloor (Qabs x0), 1) (1, 0)) as [ex| |]; cbn [obind] in *; try discriminate.
  rewrite E. cbn [obind fst snd].
  rewrite i32_ok; [reflexivity|].
  unfold int, INT_MIN, INT_MAX in *. destruct (Qle_bool 0 x0); lia.
Qed.

Lemma range_cases x0 :
  (! INT_MIN + (1 # 2) <= x0)%Q -> (x0 <= ! INT_MAX - (1 # 2))%Q ->
  (0 <= Qabs x0)%Q /\ (Qabs x0 <= ! INT_MAX + (1 # 2))%Q.
Proof.
  intros H1 H2. split; [apply Qabs_nonneg|].
  assert (! INT_MIN == - ! INT_MAX - 1)%Q by reflexivity.
  apply Qabs_Qle_condition. split; lra.
Qed.

Lemma sat_high x0 M : (! INT_MAX - (1 # 2) < x0)%Q -> 1 <= M ->
  best_approximation x0 M INT_MAX 1.
Proof.
  intros H HM. split; [lia|]. split; [unfold INT_MIN, INT_MAX; lia|]. split; [reflexivity|].
  intros u v Hv Hu. apply dist_le; [lia|lia|].
  change (! 1)%Q with 1%Q.
  pose proof (injZ_pos v ltac:(lia)) as Pv.
  assert (V1 : (1 <= ! v)%Q) by (change 1%Q with (! 1)%Q; rewrite <- Zle_Qle; lia).
  assert (I0 : (0 <= ! INT_MAX)%Q) by (apply injZ_nonneg; unfold INT_MAX; lia).
  destruct (Z.eq_dec u (INT_MAX * v)) as [->|N].
  - rewrite inject_Z_mult.
    setoid_replace (! v * x0 - ! INT_MAX * ! v)%Q with ((1 * x0 - ! INT_MAX) * ! v)%Q by ring.
    rewrite Qabs_Qmult, (Qabs_pos (! v)) by lra. lra.
  - assert (U : u <= (INT_MAX - 1) * v) by (unfold INT_MAX in *; nia).
    assert (UQ : (! u <= (! INT_MAX - 1) * ! v)%Q).
    { rewrite Zle_Qle in U. rewrite inject_Z_mult in U.
      setoid_replace (! INT_MAX - 1)%Q with (! (INT_MAX - 1))%Q by reflexivity. exact U. }
    assert (A1 : (Qabs (1 * x0 - ! INT_MAX) <= x0 - ! INT_MAX + 1)%Q).
    { apply Qabs_Qle_condition. split; lra. }
    assert (A2 : (! v * x0 - ! u <= Qabs (! v * x0 - ! u))%Q) by apply Qle_Qabs.
    assert (A3 : (Qabs (1 * x0 - ! INT_MAX) * ! v <= (x0 - ! INT_MAX + 1) * ! v)%Q)
      by (apply Qmult_le_compat_r; lra).
    lra.
Qed.

Lemma sat_low x0 M : (x0 < ! INT_MIN + (1 # 2))%Q -> 1 <= M ->
  best_approximation x0 M INT_MIN 1.
Proof.
  intros H HM. split; [lia|]. split; [unfold INT_MIN, INT_MAX; lia|]. split; [reflexivity|].
  intros u v Hv Hu. apply dist_le; [lia|lia|].
  change (! 1)%Q with 1%Q.
  pose proof (injZ_pos v ltac:(lia)) as Pv.
  assert (V1 : (1 <= ! v)%Q) by (change 1%Q with (! 1)%Q; rewrite <- Zle_Qle; lia).
  assert (U : (INT_MIN + 1) * v <= u) by (unfold INT_MAX, INT_MIN in *; nia).
  assert (UQ : ((! INT_MIN + 1) * ! v <= ! u)%Q).
  { rewrite Zle_Qle in U. rewrite inject_Z_mult in U.
    setoid_replace (! INT_MIN + 1)%Q with (! (INT_MIN + 1))%Q by reflexivity. exact U. }
  assert (A1 : (Qabs (1 * x0 - ! INT_MIN) <= ! INT_MIN + 1 - x0)%Q).
  { apply Qabs_Qle_condition. split; lra. }
  assert (A2 : (- (! v * x0 - ! u) <= Qabs (! v * x0 - ! u))%Q)
    by (rewrite <- Qabs_opp; apply Qle_Qabs).
  assert (A3 : (Qabs (1 * x0 - ! INT_MIN) * ! v <= (! INT_MIN + 1 - x0) * ! v)%Q)
    by (apply Qmult_le_compat_r; lra).
  lra.
Qed.

Lemma sign_best x0 M p q : 0 <= p -> best_approximation (Qabs x0) M p q ->
  best_approximation x0 M ((if Qle_bool 0 x0 then 1 else -1) * p) q.
Proof.
  intros P B. destruct (Qle_bool 0 x0) eqn:E.
  - apply Qle_bool_iff in E. rewrite Z.mul_1_l.
    eapply best_comp; [|exact B]. now apply Qabs_pos.
  - assert (L : (x0 <= 0)%Q).
    { destruct (Qlt_le_dec 0 x0) as [C|C]; [|exact C].
      apply Qlt_le_weak, Qle_bool_iff in C. congruence. }
    replace (-1 * p) with (- p) by lia.
    apply (best_comp (- Qabs x0)%Q).
    + rewrite Qabs_neg by exact L. ring.
    + now apply neg_best.
Qed.

Lemma sign_dist x0 p q : 0 < q ->
  (dist x0 ((if Qle_bool 0 x0 then 1 else -1) * p) q == dist (Qabs x0) p q)%Q.
Proof.
  intros P. destruct (Qle_bool 0 x0) eqn:E.
  - apply Qle_bool_iff in E. rewrite Z.mul_1_l. apply dist_comp. symmetry. now apply Qabs_pos.
  - assert (L : (x0 <= 0)%Q).
    { destruct (Qlt_le_dec 0 x0) as [C|C]; [|exact C].
      apply Qlt_le_weak, Qle_bool_iff in C. congruence. }
    replace (-1 * p) with (- p) by lia.
    rewrite <- (neg_dist (Qabs x0)) by exact P. apply dist_comp.
    rewrite Qabs_neg by exact L. ring.
Qed.

(* General statement for all options with enough terms. *)
Lemma ra_general opt x0 M : opt_ok opt -> 1 <= M <= INT_MAX ->
  exists p q, rational_approximation opt x0 M = Ok (p, q) /\
    (best_approximation x0 M p q \/
     (exists e a a' b', inv (Qabs x0) e M a q a' b' /\ (e <= convergence_tolerance opt)%Q /\
        p = (if Qle_bool 0 x0 then 1 else -1) * a)).
Proof.
  intros HO HM.
  destruct (Qlt_le_dec (! INT_MAX - (1 # 2)) x0) as [H2|H2].
  { exists INT_MAX, 1. split; [|left; apply sat_high; [exact H2|lia]].
    unfold rational_approximation. replace (M <=? 0) with false by lia.
    assert (Qle_bool x0 (! INT_MAX - (1 # 2)) = false) as ->; [|reflexivity].
    destruct (Qle_bool x0 (! INT_MAX - (1 # 2))) eqn:E; [|reflexivity].
    apply Qle_bool_iff in E. lra. }
  destruct (Qlt_le_dec x0 (! INT_MIN + (1 # 2))) as [H1|H1].
  { exists INT_MIN, 1. split; [|left; apply sat_low; [exact H1|lia]].
    unfold rational_approximation. replace (M <=? 0) with false by lia.
    assert (Qle_bool x0 (! INT_MAX - (1 # 2)) = true) as ->.
    { apply Qle_bool_iff. exact H2. }
    assert (Qle_bool (! INT_MIN + (1 # 2)) x0 = false) as ->; [|reflexivity].
    destruct (Qle_bool (! INT_MIN + (1 # 2)) x0) eqn:E; [|reflexivity].
    apply Qle_bool_iff in E. lra. }
  destruct (range_cases x0 H1 H2) as [R0 R1].
  destruct (ra_pos_ok opt (Qabs x0) M HO R0 R1 HM) as (p & q & E & P & D).
  assert (PM : p <= INT_MAX).
  { destruct D as [B|(e & a' & b' & HI & _)].
    - destruct B as (_ & B & _). lia.
    - apply (i_a _ _ _ _ _ _ _ HI). }
  exists ((if Qle_bool 0 x0 then 1 else -1) * p), q. split.
  - apply in_range_unfold; auto.
  - destruct D as [B|(e & a' & b' & HI & HE)].
    + left. now apply sign_best.
    + right. exists e, p, a', b'. auto.
Qed.

Lemma ra_exact opt x0 M : 47 <= max_terms opt -> (convergence_tolerance opt == 0)%Q ->
  1 <= M <= INT_MAX ->
  exists p q, rational_approximation opt x0 M = Ok (p, q) /\ best_approximation x0 M p q.
Proof.
  intros HT HTol HM. destruct (ra_general opt x0 M) as (p & q & E & D).
  - split; [exact HT|]. rewrite HTol. lra.
  - exact HM.
  - exists p, q. split; [exact E|]. destruct D as [B|(e & a & a' & b' & HI & HE & ->)]; [exact B|].
    apply sign_best; [apply (i_a _ _ _ _ _ _ _ HI)|].
    apply (conv_best _ e _ _ _ _ _ HI).
    pose proof (i_e0 _ _ _ _ _ _ _ HI). assert (E0 : (e == 0)%Q) by lra.
    rewrite E0, Qmult_0_r. lra.
Qed.

Lemma ra_default_small x0 M : 1 <= M <= 499999999 ->
  exists p q, rational_approximation ra_default x0 M = Ok (p, q) /\ best_approximation x0 M p q.
Proof.
  intros HM. destruct (ra_general ra_default x0 M) as (p & q & E & D).
  - split; cbn [max_terms convergence_tolerance ra_default]; [lia|]. lra.
  - unfold INT_MAX; lia.
  - exists p, q. split; [exact E|]. destruct D as [B|(e & a & a' & b' & HI & HE & ->)]; [exact B|].
    apply sign_best; [apply (i_a _ _ _ _ _ _ _ HI)|].
    apply (conv_best _ e _ _ _ _ _ HI).
    cbn [convergence_tolerance ra_default] in HE.
    pose proof (i_e0 _ _ _ _ _ _ _ HI) as E0.
    pose proof (N_nonneg _ _ _ _ _ _ _ HI) as N0.
    assert (NM : next_bound M a q a' b' <= M).
    { destruct HI. assert ((M - b') / q <= M) by (apply Z.div_le_upper_bound; nia).
      unfold next_bound. destruct (0 <? a); lia. }
    set (n := next_bound M a q a' b') in *.
    assert (B : (! (2 * n + 1) <= 1000000000 # 1)%Q).
    { change (1000000000 # 1)%Q with (! 1000000000)%Q. rewrite <- Zle_Qle. lia. }
    assert (Bp : (0 <= ! (2 * n + 1))%Q) by (apply injZ_nonneg; lia).
    eapply Qle_trans; [apply Qmult_le_compat_r; [exact B|exact E0]|]. lra.
Qed.

Lemma ra_default_close x0 M : 1 <= M <= INT_MAX ->
  exists p q, rational_approximation ra_default x0 M = Ok (p, q) /\
    1 <= q <= M /\ Z.gcd p q = 1 /\
    (best_approximation x0 M p q \/
     (dist x0 p q * inject_Z q * inject_Z q <= 1 # 1000000000)%Q).
Proof.
  intros HM. destruct (ra_general ra_default x0 M) as (p & q & E & D).
  - split; cbn [max_terms convergence_tolerance ra_default]; [lia|]. lra.
  - exact HM.
  - exists p, q. split; [exact E|]. destruct D as [B|(e & a & a' & b' & HI & HE & ->)].
    + pose proof B as (B1 & _ & B3 & _). auto.
    + pose proof HI as [_ _ _ HD HB _ _ _]. split; [exact HB|]. split.
      * apply gcd_from_det in HD. destruct (Qle_bool 0 x0).
        -- now rewrite Z.mul_1_l.
        -- replace (-1 * a) with (- a) by lia. now rewrite Z.gcd_opp_l.
      * right. rewrite sign_dist by lia.
        eapply Qle_trans; [apply (conv_dist _ _ _ _ _ _ _ HI)|exact HE].
Qed.

Lemma ra_default_refuted :
  exists x0 M p q u v, 1 <= M <= INT_MAX /\
    rational_approximation ra_default x0 M = Ok (p, q) /\
    1 <= v <= M /\ - INT_MAX <= u <= INT_MAX /\ (dist x0 u v < dist x0 p q)%Q.
Proof.
  exists (1 # 2000000000)%Q, 2000000000, 0, 1, 1, 2000000000.
  split; [unfold INT_MAX; lia|]. split; [vm_compute; reflexivity|].
  split; [lia|]. split; [unfold INT_MAX; lia|]. vm_compute. reflexivity.
Qed.

Lemma ra_bad_den opt x0 M : M <= 0 -> rational_approximation opt x0 M = Ok (0, 0).
Proof. intros H. unfold rational_approximation. now replace (M <=? 0) with true by lia. Qed.
