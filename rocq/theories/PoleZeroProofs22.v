From Verif Require Import Common ListLemmas RealUtil BiquadModel DesignModel DesignSpec DesignProofs DesignProofs2 DesignProofs3 CascadeModel CascadeSpec CascadeProofs CascadeProofs2 PoleZeroModel PoleZeroSpec PoleZeroProofs PoleZeroProofs2 PoleZeroProofs3 PoleZeroProofs4 PoleZeroProofs5 PolyRoots PoleZeroProofs6 PoleZeroProofs7 PoleZeroProofs8 PoleZeroProofs13 PoleZeroProofs15 PoleZeroProofs18.
From Coquelicot Require Import Complex.
Local Open Scope R_scope.

Lemma analog_opp f s h : analog_value (set_gain (- pz_gain f) f) s h <-> analog_value f s (Copp h).
Proof.
  unfold analog_value, zeros, poles. cbn [set_gain lone_zeros lone_poles paired_zeros paired_poles pz_gain]. fold (zeros f) (poles f). split; intros [A B]; (split; [exact A|]).
  - rewrite B. rewrite RtoC_opp. field. exact A.
  - transitivity (Copp (Copp h)); [ring|]. rewrite B, RtoC_opp. field. exact A.
Qed.
Lemma bilinear_value f fs m g : let K := compute_K m fs in
  (length (zeros f) <= length (poles f))%nat -> (forall r, In r (zeros f ++ poles f) -> r <> RtoC K) -> analog_value f (RtoC K) (RtoC g) ->
  exists d, bilinear_pz f fs m = Ok d /\ poles d = map (bilinear_root K) (poles f) /\
    forall z h, z <> RtoC 0 -> z <> RtoC (-1) -> digital_value d z h <-> analog_value f (Cdiv (Cmult (RtoC K) (Cminus z (RtoC 1))) (Cplus z (RtoC 1))) (if Rlt_dec g 0 then Copp h else h).
Proof.
  intros K HD HK V. rewrite (bilinear_pz_ok f fs m (RtoC g) HK V), Cmod_R. fold K. eexists. split; [reflexivity|]. split; [now apply discretized_poles|].
  intros z h Z0 Z1. destruct (Rlt_dec g 0) as [N|N].
  - rewrite Rabs_left by exact N. rewrite <- analog_opp. change (discretized K f (- g)) with (discretized K (set_gain (- pz_gain f) f) (- g)). apply discretized_value; try assumption.
    apply analog_opp. rewrite RtoC_opp. now replace (Copp (Copp (RtoC g))) with (RtoC g) by ring.
  - rewrite Rabs_pos_eq by lra. now apply discretized_value.
Qed.
Lemma compute_K_is k m fs : 0 < fs -> 0 <= m < fs / 2 -> (m < fs / 10000000 -> k = 2 * fs) -> (fs / 10000000 <= m -> k * tan (PI * m / fs) = 2 * PI * m) -> compute_K m fs = k /\ 0 < k.
Proof.
  intros Hfs [M1 M2] A B. unfold compute_K. change (fs * / 10000000) with (fs / 10000000). destruct (Rltb_spec m (fs / 10000000)) as [L|L].
  - rewrite (A L). split; [reflexivity|lra].
  - assert (E : k * tan (PI * m / fs) = 2 * PI * m) by (apply B; lra). assert (0 < m) by (assert (0 < fs / 10000000) by (apply Rdiv_lt_0_compat; lra); lra). pose proof (tan_pos m fs H M2) as T. pose proof PI_RGT_0 as P.
    set (t := tan _) in *. clearbody t. assert (Q : 2 * PI * m / t = k) by (rewrite <- E; field; lra). split; [exact Q|]. rewrite <- Q. apply Rdiv_lt_0_compat; [|exact T]. nra.
Qed.
Lemma circle_k k g fs : - (fs / 2) < g < fs / 2 -> Cdiv (Cmult (RtoC k) (Cminus (on_circle g fs) (RtoC 1))) (Cplus (on_circle g fs) (RtoC 1)) = (0, k * tan (PI * g / fs)).
Proof.
  intros G. destruct (circle_low g fs 1 G ltac:(lra)) as [N _]. apply plus_one_neq in N. replace (Cdiv (Cmult (RtoC k) (Cminus (on_circle g fs) (RtoC 1))) (Cplus (on_circle g fs) (RtoC 1))) with (Cmult (RtoC k) (Cdiv (Cminus (on_circle g fs) (RtoC 1)) (Cplus (on_circle g fs) (RtoC 1)))) by (field; exact N).
  rewrite circle_s by exact G. apply injective_projections; cbn; ring.
Qed.
Lemma bilinear_matches f fs m k g : 0 < fs -> 0 <= m < fs / 2 -> (m < fs / 10000000 -> k = 2 * fs) -> (fs / 10000000 <= m -> k * tan (PI * m / fs) = 2 * PI * m) ->
  (length (zeros f) <= length (poles f))%nat -> (forall r, In r (zeros f ++ poles f) -> r <> RtoC k) -> analog_value f (RtoC k) (RtoC g) -> 0 <= g ->
  exists d, bilinear_pz f fs m = Ok d /\
    (forall z h, z <> RtoC 0 -> z <> RtoC (-1) -> digital_value d z h <-> analog_value f (Cdiv (Cmult (RtoC k) (Cminus z (RtoC 1))) (Cplus z (RtoC 1))) h) /\
    (forall x h, - (fs / 2) < x < fs / 2 -> digital_value d (on_circle x fs) h <-> analog_value f (0, k * tan (PI * x / fs)) h) /\
    (fs / 10000000 <= m -> forall h, digital_value d (on_circle m fs) h <-> analog_value f (0, 2 * PI * m) h) /\
    ((forall p, In p (poles f) -> fst p < 0) -> forall p, In p (poles d) -> Cmod p < 1).
Proof.
  intros Hfs M A B HD HK V G. destruct (compute_K_is k m fs Hfs M A B) as [E KP]. destruct (bilinear_value f fs m g) as (d & ED & PD & VD); try (rewrite E; assumption); [exact HD|]. rewrite E in *.
  destruct (Rlt_dec g 0) as [L|_]; [lra|]. exists d. split; [exact ED|]. split; [exact VD|].
  assert (C : forall x h, - (fs / 2) < x < fs / 2 -> digital_value d (on_circle x fs) h <-> analog_value f (0, k * tan (PI * x / fs)) h).
  { intros x h X. rewrite VD, circle_k by (apply circle_neq_0 || exact X || (destruct (circle_low x fs 1 X ltac:(lra)); assumption)). reflexivity. }
  split; [exact C|]. split; [intros L h; rewrite C, (B L) by lra; reflexivity|].
  intros HP p Hp. rewrite PD in Hp. apply in_map_iff in Hp. destruct Hp as (q & <- & Hq). apply bilinear_inside; [exact KP|now apply HP].
Qed.
(* the sign of a negative gain is lost *)
Definition negative_pole : pole_zero := {| lone_zeros := []; lone_poles := [-1]; paired_zeros := []; paired_poles := []; pz_gain := -1 |}.
Lemma bilinear_sign_lost : exists d, bilinear_pz negative_pole 1 0 = Ok d /\ analog_value negative_pole (RtoC 0) (RtoC (-1)) /\ digital_value d (RtoC 1) (RtoC 1).
Proof.
  pose proof (compute_K_0 1 ltac:(lra)) as EK.
  assert (AV : forall s, s <> RtoC (-1) -> analog_value negative_pole s (Cdiv (RtoC (-1)) (Cminus s (RtoC (-1))))).
  { intros s Hs. assert (N : Cminus s (RtoC (-1)) <> RtoC 0) by now apply Cminus_neq. unfold analog_value, zeros, poles. cbn [negative_pole lone_zeros lone_poles paired_zeros paired_poles pz_gain roots map app product_over]. rewrite !Cmult_1_r. split; [exact N|reflexivity]. }
  assert (V : analog_value negative_pole (RtoC 2) (RtoC (- / 3))).
  { replace (RtoC (- / 3)) with (Cdiv (RtoC (-1)) (Cminus (RtoC 2) (RtoC (-1)))); [apply AV; intros X; apply (f_equal fst) in X; cbn in X; lra|]. apply injective_projections; cbn; field; lra. }
  destruct (bilinear_value negative_pole 1 0 (- / 3)) as (d & ED & _ & VD); rewrite ?EK; replace (2 * 1) with 2 in * by ring.
  - cbn. lia.
  - intros r [<-|[]] X. apply (f_equal fst) in X. cbn in X. lra.
  - exact V.
  - rewrite EK in VD. replace (2 * 1) with 2 in VD by ring. assert (A0 : analog_value negative_pole (RtoC 0) (RtoC (-1))).
    { replace (RtoC (-1)) with (Cdiv (RtoC (-1)) (Cminus (RtoC 0) (RtoC (-1)))) at 1; [apply AV; intros X; apply (f_equal fst) in X; cbn in X; lra|]. apply injective_projections; cbn; field; lra. }
    exists d. split; [exact ED|]. split; [exact A0|]. apply VD; [apply RtoC_neq; lra|intros X; apply (f_equal fst) in X; cbn in X; lra|]. destruct (Rlt_dec (- / 3) 0) as [_|N]; [|lra].
    replace (Copp (RtoC 1)) with (RtoC (-1)) by (apply injective_projections; cbn; lra). replace (Cdiv (Cmult (RtoC 2) (Cminus (RtoC 1) (RtoC 1))) (Cplus (RtoC 1) (RtoC 1))) with (RtoC 0); [exact A0|]. apply injective_projections; cbn; field; lra.
Qed.
(* more zeros than poles *)
Definition differentiator : pole_zero := {| lone_zeros := [0]; lone_poles := []; paired_zeros := []; paired_poles := []; pz_gain := 1 |}.
Lemma bilinear_improper : exists d, bilinear_pz differentiator 1 0 = Ok d /\
  analog_value differentiator (Cdiv (Cmult (RtoC 2) (Cminus (RtoC 3) (RtoC 1))) (Cplus (RtoC 3) (RtoC 1))) (RtoC 1) /\ digital_value d (RtoC 3) (RtoC (4 / 3)).
Proof.
  pose proof (compute_K_0 1 ltac:(lra)) as EK. replace (2 * 1) with 2 in EK by ring.
  assert (V : analog_value differentiator (RtoC 2) (RtoC 2)) by (split; [cbn; apply RtoC_neq; lra|]; apply injective_projections; cbn; field; lra).
  pose proof (bilinear_pz_ok differentiator 1 0 (RtoC 2)) as B. rewrite EK in B. rewrite B; [|intros r [<-|[]] X; apply (f_equal fst) in X; cbn in X; lra|exact V].
  eexists. split; [reflexivity|]. split.
  - replace (Cdiv (Cmult (RtoC 2) (Cminus (RtoC 3) (RtoC 1))) (Cplus (RtoC 3) (RtoC 1))) with (RtoC 1) by (apply injective_projections; cbn; field; lra). split; [cbn; apply RtoC_neq; lra|]. apply injective_projections; cbn; field; lra.
  - rewrite Cmod_R, Rabs_pos_eq by lra. unfold digital_value, zeros, poles, discretized. cbn [lone_zeros lone_poles paired_zeros paired_poles pz_gain differentiator map]. change (Z.to_nat (relative_degree differentiator)) with 0%nat. cbn [repeat app roots map product_over]. split; [apply RtoC_neq; lra|].
    apply injective_projections; cbn; field; lra.
Qed.
