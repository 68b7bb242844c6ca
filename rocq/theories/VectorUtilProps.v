(* Properties of the helpers in audio/dsp/signal_vector_util.h. *)
From Verif Require Import Common ListLemmas NthLemmas RealUtil VectorUtilModel VectorUtilSpec VectorUtilProofs VectorUtilProofs2 VectorUtilProofs3.
From Coq Require Import Lra Psatz.
From Coquelicot Require Import Coquelicot.
Local Open Scope R_scope.

(* ---- C69: the class FIRFilter ---- *)
(* for any sample type and arithmetic: the documented direct form, whatever was filtered before *)
Theorem C69_direct_form : forall (T H : Type) (zero : T) (add : T -> T -> T) (mul : T -> H -> T) h f xs, fir_new zero h = Ok f ->
  exists f' ys, fir_filter add mul f xs = Ok (f', ys) /\ length ys = length xs /\
    (forall i, (i < length xs)%nat -> nth i ys zero = direct zero add mul h (rev (firstn (i + 1) xs))) /\
    fir_new zero h = Ok (fir_reset zero f').
Proof. intros T H zero add mul h f xs E. destruct (fir_all zero add mul h f xs E) as [f' [ys [A [B [C D]]]]]. exists f', ys. auto. Qed.
Print Assumptions C69_direct_form.
(* a signal passed in any chunks gives the same samples and leaves the same filter *)
Theorem C69_chunks : forall (T H : Type) (zero : T) (add : T -> T -> T) (mul : T -> H -> T) h f chunks, fir_new zero h = Ok f ->
  exists f' yss, run (fun g xs => fir_filter add mul g xs) f chunks = Ok (f', yss) /\ fir_filter add mul f (concat chunks) = Ok (f', concat yss) /\
    map (@length T) yss = map (@length T) chunks.
Proof.
  intros T H zero add mul h f chunks E. destruct (fir_new_ok zero add mul h f E) as [c [hs [_ F]]]. exact (fir_chunks zero add mul (c, hs) f chunks _ F).
Qed.
Print Assumptions C69_chunks.
(* real samples: convolution with the impulse response; only an empty response is refused *)
Theorem C69_convolution : forall h, (h = nil -> fir_new 0 h = CheckFail) /\ (h <> nil -> exists f, fir_new 0 h = Ok f) /\
  forall f xs, fir_new 0 h = Ok f -> exists f' ys, fir_filter Rplus Rmult f xs = Ok (f', ys) /\ length ys = length xs /\
    forall i, (i < length xs)%nat -> nth i ys 0 = sumf (length h) (fun k => if (k <=? i)%nat then nth (i - k) xs 0 * nth k h 0 else 0).
Proof.
  intros h. split; [intros ->; reflexivity|]. split; [intros N; destruct h; [congruence|eexists; reflexivity]|]. intros f xs. apply fir_convolution.
Qed.
Print Assumptions C69_convolution.
Example C69_case : exists f, fir_new 0%Z (1 :: 2 :: 3 :: nil)%Z = Ok f /\
  run (fun g xs => omap (fun r => (fst r, snd r)) (fir_filter Z.add Z.mul g xs)) f ((1 :: nil) :: (0 :: 0 :: 5 :: nil) :: nil)%Z =
  Ok ({| taps_of := (1 :: 2 :: 3 :: nil)%Z; state_of := (10 :: 15 :: nil)%Z |}, ((1 :: nil) :: (2 :: 3 :: 5 :: nil) :: nil)%Z).
Proof. eexists. split; reflexivity. Qed.

(* ---- C70: statistics ---- *)
Theorem C70_mean_variance : forall l, (l = nil -> second_order_stats l = CheckFail) /\ (l <> nil -> exists m v, second_order_stats l = Ok (m, v) /\
  m * INR (length l) = sumf (length l) (fun i => nth i l 0) /\ v * INR (length l) = sumf (length l) (fun i => (nth i l 0 - m) * (nth i l 0 - m)) /\
  0 <= v /\ (v = 0 <-> forall x, In x l -> x = m)).
Proof.
  intros l. split; [intros ->; reflexivity|]. intros N. destruct (stats_ok l N) as [m [v [A [B [C [D E]]]]]]. exists m, v.
  assert (G : forall g l, rsum (map g l) = sumf (length l) (fun i => g (nth i l 0))).
  { intros g. induction l0 as [|x r IH]; [unfold rsum; reflexivity|]. cbn [map length]. rewrite rsum_cons, sumf_shift, IH. reflexivity. }
  split; [exact A|]. split; [rewrite B, <- (G (fun x => x)), map_id; reflexivity|]. split; [|split; [exact D|exact E]].
  rewrite <- (G (fun x => (x - m) * (x - m))), C. field. apply not_0_INR. destruct l; [congruence|discriminate].
Qed.
Print Assumptions C70_mean_variance.
(* the normalised values, their mean and variance; the length is kept *)
Theorem C70_z_score : forall floor l m v, 0 <= floor -> second_order_stats l = Ok (m, v) -> 0 < floor \/ v <> 0 ->
  exists out, z_score_normalize floor l = Ok out /\ length out = length l /\
    (forall i, (i < length l)%nat -> nth i out 0 = (nth i l 0 - m) / (floor + sqrt v)) /\
    second_order_stats out = Ok (0, v / ((floor + sqrt v) * (floor + sqrt v))).
Proof. exact z_score_ok. Qed.
Print Assumptions C70_z_score.
(* without a floor a constant signal is 0 / 0 *)
Theorem C70_z_score_refuted : exists l : list R, l <> nil /\ z_score_normalize 0 l = Undef.
Proof. exists (1 :: 1 :: nil). split; [discriminate|apply (z_score_constant 1 1)]. Qed.
Print Assumptions C70_z_score_refuted.
Theorem C70_max_magnitude : forall l, (l = nil -> max_magnitude l = 0) /\ (l <> nil -> is_largest (max_magnitude l) (map Rabs l)).
Proof. intros l. split; [intros ->; reflexivity|apply max_magnitude_ok]. Qed.
Print Assumptions C70_max_magnitude.
Theorem C70_rms_error : forall a b, (length a <> length b -> rms_error a b = CheckFail) /\ (length a = length b -> a <> nil -> exists e, rms_error a b = Ok e /\ 0 <= e /\
  e * e * INR (length a) = sumf (length a) (fun i => (nth i a 0 - nth i b 0) * (nth i a 0 - nth i b 0)) /\ rms_error b a = Ok e /\ (e = 0 <-> a = b)).
Proof.
  intros a b. split; [|apply rms_ok]. intros N. unfold rms_error. destruct (Nat.eqb_spec (length a) (length b)); [congruence|reflexivity].
Qed.
Print Assumptions C70_rms_error.
(* the first index of the largest value *)
Theorem C70_find_max : forall l, (l = nil -> find_max l = CheckFail) /\ (l <> nil -> exists i v, find_max l = Ok (i, v) /\ (i < length l)%nat /\ nth i l 0 = v /\
  (forall j, (j < length l)%nat -> nth j l 0 <= v) /\ (forall j, (j < i)%nat -> nth j l 0 < v)).
Proof. intros l. split; [intros ->; reflexivity|apply find_max_ok]. Qed.
Print Assumptions C70_find_max.
Example C70_case : second_order_stats (1 :: 3 :: nil) = Ok (2, 1) /\ max_magnitude (1 :: -5 :: 3 :: nil) = 5 /\ find_max (1 :: 4 :: 4 :: nil) = Ok (1%nat, 4) /\
  z_score_normalize 1 (1 :: 3 :: nil) = Ok (- (1 / 2) :: 1 / 2 :: nil) /\ rms_error (1 :: 1 :: nil) (4 :: 4 :: nil) = Ok 3.
Proof.
  assert (A : second_order_stats (1 :: 3 :: nil) = Ok (2, 1)).
  { unfold second_order_stats, rsum. cbn [length fold_left map Nat.eqb negb ocheck INR]. do 2 f_equal; field. }
  split; [exact A|]. split; [|split; [|split]].
  - unfold max_magnitude, list_min, list_max. cbn [fold_left]. rewrite (Rltb_true (-5) 1), (Rltb_false 3 (-5)), (Rltb_false 1 (-5)), (Rltb_true 1 3) by lra. rewrite Rltb_false by lra. lra.
  - unfold find_max. cbn [max_from]. rewrite Rltb_true by lra. rewrite Rltb_false by lra. reflexivity.
  - unfold z_score_normalize. rewrite A. cbn [obind fst snd]. rewrite Rleb_true by lra. cbn [oguard]. rewrite sqrt_1. destruct (Reqb_spec (1 + 1) 0); [lra|]. cbn [negb oguard map]. f_equal. f_equal; [field|f_equal; field].
  - unfold rms_error. cbn [length Nat.eqb ocheck negb oguard combine fold_left fst snd INR]. f_equal. replace ((0 + (1 - 4) * (1 - 4) + (1 - 4) * (1 - 4)) / (1 + 1)) with (3 * 3) by field. apply sqrt_square. lra.
Qed.

(* ---- C71: smoothers ---- *)
(* any arithmetic: the forward smoother can be run in chunks, the backward one is its mirror image *)
Theorem C71_chunks : forall (T : Type) (add sub : T -> T -> T) (scale : T -> T) s a b,
  let run_ := forward_smooth add sub scale in
  run_ s (a ++ b) = (fst (run_ (fst (run_ s a)) b), snd (run_ s a) ++ snd (run_ (fst (run_ s a)) b)) /\
  backward_smooth add sub scale s a = (fst (run_ s (rev a)), rev (snd (run_ s (rev a)))) /\ length (snd (run_ s a)) = length a.
Proof. intros T add sub scale s a b. cbv zeta. split; [apply fwd_app|]. split; [apply bwd_eq|apply fwd_length]. Qed.
Print Assumptions C71_chunks.
(* exponential averaging, and no value outside the range of the state and the samples *)
Theorem C71_forward : forall c s l, (forall i, (i < length l)%nat -> nth i (snd (forward_smooth Rplus Rminus (Rmult c) s l)) 0 =
    (1 - c) ^ (i + 1) * s + sumf (i + 1) (fun k => c * (1 - c) ^ k * nth (i - k) l 0)) /\
  (forall lo hi, 0 <= c <= 1 -> lo <= s <= hi -> (forall x, In x l -> lo <= x <= hi) ->
     forall y, In y (snd (forward_smooth Rplus Rminus (Rmult c) s l)) -> lo <= y <= hi).
Proof. intros c s l. split; [apply fwd_closed|]. intros lo hi C A B. exact (proj2 (fwd_range c lo hi C l s A B)). Qed.
Print Assumptions C71_forward.
(* the coefficient for a scale: the kernel of one pass has variance (1-c)/c^2, four passes have the
   requested variance *)
Theorem C71_coefficient : forall s, (s <= 1 / 100 -> smoother_coefficient s = 1) /\ (1 / 100 < s -> let c := smoother_coefficient s in 0 < c < 1 /\ 4 * ((1 - c) / c ^ 2) = s ^ 2 /\
  is_series (fun n => c * (1 - c) ^ n) 1 /\ is_series (fun n => INR n * (c * (1 - c) ^ n)) ((1 - c) / c) /\
  is_series (fun n => (INR n - (1 - c) / c) ^ 2 * (c * (1 - c) ^ n)) ((1 - c) / c ^ 2)).
Proof.
  intros s. split; [apply coefficient_small|]. intros H. cbv zeta. destruct (coefficient_ok s H) as [A B]. split; [exact A|]. split; [exact B|]. apply kernel_moments. exact A.
Qed.
Print Assumptions C71_coefficient.
(* SmoothVector: size kept, linear, never outside the range of zero and the samples, identity for
   coefficient 1; an empty container is read out of bounds *)
Theorem C71_smooth_vector_partial : forall c, smooth_vector c nil = Undef /\
  (forall l, l <> nil -> smooth_vector 1 l = Ok l) /\
  (forall l lo hi, 0 <= c <= 1 -> l <> nil -> lo <= 0 <= hi -> (forall x, In x l -> lo <= x <= hi) ->
     exists out, smooth_vector c l = Ok out /\ length out = length l /\ forall y, In y out -> lo <= y <= hi) /\
  (forall a b x y, length x = length y -> x <> nil -> exists u v, smooth_vector c x = Ok u /\ smooth_vector c y = Ok v /\ length u = length x /\ length v = length y /\
     smooth_vector c (lin a b x y) = Ok (lin a b u v)).
Proof. intros c. split; [reflexivity|]. split; [exact smooth_vector_identity|]. split; [intros; apply smooth_vector_range; assumption|apply smooth_vector_linear]. Qed.
Print Assumptions C71_smooth_vector_partial.
(* the edges are pulled towards zero: a constant signal is not kept *)
Theorem C71_constant_refuted : exists c l out, 0 < c < 1 /\ l = 1 :: nil /\ smooth_vector c l = Ok out /\ out <> l.
Proof.
  exists (1 / 2), (1 :: nil). eexists. split; [lra|]. split; [reflexivity|]. split; [reflexivity|].
  unfold smooth_pass, backward_smooth. cbn [forward_smooth rev app fst snd]. intros E. injection E as E. lra.
Qed.
Print Assumptions C71_constant_refuted.
(* the DC blocker subtracts the smoothed signal; a constant decays geometrically *)
Theorem C71_block_dc : forall c s l, (forall i, (i < length l)%nat ->
    nth i (block_dc Rplus Rminus (Rmult c) s l) 0 = nth i l 0 - nth i (snd (forward_smooth Rplus Rminus (Rmult c) s l)) 0) /\
  forall x n i, (i < n)%nat -> nth i (block_dc Rplus Rminus (Rmult c) 0 (repeat x n)) 0 = x * (1 - c) ^ (i + 1).
Proof. intros c s l. split; [apply block_dc_split|]. intros x n i Hi. rewrite block_dc_constant by exact Hi. ring. Qed.
Print Assumptions C71_block_dc.
(* the Hermitian smoother for any arithmetic with conjugation and real part: short signals are left
   alone, the size is kept, the two end points are real, and with coefficient 1 nothing else changes *)
Theorem C71_hermitian : forall (T : Type) (zero : T) (add sub : T -> T -> T) (scale conj re : T -> T) extra l, (forall x, re (re x) = re x) ->
  let out := hermitian_smooth zero add sub scale conj re extra l in
  length out = length l /\ ((length l < 2)%nat -> out = l) /\
  ((2 <= length l)%nat -> re (nth 0 out zero) = nth 0 out zero /\ re (nth (length l - 1) out zero) = nth (length l - 1) out zero) /\
  ((2 <= length l)%nat -> (forall x s, add s (scale (sub x s)) = x) -> forall i, (0 < i < length l - 1)%nat -> nth i out zero = nth i l zero).
Proof.
  intros T zero add sub scale conj re extra l RR out. unfold out. destruct (Nat.lt_ge_cases (length l) 2) as [L|L].
  - unfold hermitian_smooth. cbv zeta. rewrite (proj2 (Nat.ltb_lt _ _) L). split; [reflexivity|]. split; [reflexivity|]. split; intros; lia.
  - destruct (hermitian_facts add sub scale zero conj re extra l L) as [sm [A [B C]]]. rewrite B. destruct (real_ends_facts add sub scale zero conj re sm ltac:(lia)) as [D E].
    split; [congruence|]. split; [lia|]. split.
    + intros _. rewrite !E by lia. rewrite A. cbn [Nat.eqb orb]. rewrite Nat.eqb_refl, orb_true_r. rewrite !RR. split; reflexivity.
    + intros _ I i Hi. rewrite E by lia. specialize (C I). subst sm. destruct (Nat.eqb_spec i 0); [lia|]. destruct (Nat.eqb_spec i (length l - 1)); [lia|]. reflexivity.
Qed.
Print Assumptions C71_hermitian.
(* with a conjugation that respects the arithmetic: twice, a forward and a backward pass over the signal continued on
   both sides by Hermitian symmetry, x[-j] = conj x[j] and x[n - 1 + j] = conj x[n - 1 - j], by k = min (extra, n - 1) values *)
Definition extended_pass {T} (zero : T) (add sub : T -> T -> T) (scale conj : T -> T) (k : nat) (x e x' e' : list T) : Prop :=
  length x' = length x /\ length e' = length e /\ exists left, length left = k /\ (forall j, (j < k)%nat -> nth j left zero = conj (nth (k - j) x zero)) /\
  x' ++ e' = snd (backward_smooth add sub scale zero (skipn k (snd (forward_smooth add sub scale zero (left ++ x ++ e))))).
Theorem C71_hermitian_extension : forall (T : Type) (zero : T) (add sub : T -> T -> T) (scale conj re : T -> T) extra l,
  conj zero = zero -> (forall a b, conj (add a b) = add (conj a) (conj b)) -> (forall a b, conj (sub a b) = sub (conj a) (conj b)) -> (forall a, conj (scale a) = scale (conj a)) ->
  (2 <= length l)%nat -> let n := length l in let k := Nat.min extra (n - 1) in
  exists right x1 e1 x2 e2, length right = k /\ (forall j, (j < k)%nat -> nth j right zero = conj (nth (n - 2 - j) l zero)) /\
    extended_pass zero add sub scale conj k l right x1 e1 /\ extended_pass zero add sub scale conj k x1 e1 x2 e2 /\
    forall i, (i < n)%nat -> nth i (hermitian_smooth zero add sub scale conj re extra l) zero = if ((i =? 0) || (i =? n - 1))%nat then re (nth i x2 zero) else nth i x2 zero.
Proof.
  intros T zero add sub scale conj re extra l CZ CA CS CC L n k.
  assert (PASS : forall x e x' e', (k < length x)%nat -> hermitian_pass zero add sub scale conj k (x, e) = (x', e') -> extended_pass zero add sub scale conj k x e x' e').
  { intros x e x' e' K E. destruct (hp_extended add sub scale zero conj re CZ CA CS CC k x e x' e' K E) as (A & B & D). split; [exact A|]. split; [exact B|]. eexists. split; [|split; [|exact D]].
    - rewrite map_length, rev_length, firstn_length, skipn_length. lia.
    - intros j Hj. rewrite (nth_indep _ _ (conj zero)) by (rewrite map_length, rev_length, firstn_length, skipn_length; lia). rewrite map_nth. f_equal.
      rewrite rev_nth by (rewrite firstn_length, skipn_length; lia). rewrite firstn_length, skipn_length. replace (Nat.min k (length x - 1) - S j)%nat with (k - 1 - j)%nat by lia.
      rewrite nth_firstn by lia. destruct x as [|x0 x]; [cbn in K; lia|]. cbn [skipn]. replace (k - j)%nat with (S (k - 1 - j)) by lia. reflexivity. }
  exists (map conj (firstn k (skipn 1 (rev l)))).
  assert (HS : hermitian_smooth zero add sub scale conj re extra l = real_ends zero re (fst (hermitian_pass zero add sub scale conj k (hermitian_pass zero add sub scale conj k (l, map conj (firstn k (skipn 1 (rev l)))))))).
  { unfold hermitian_smooth. destruct (Nat.ltb_spec (length l) 2); [lia|]. cbv zeta. assert (QK : (if (length l <=? extra)%nat then (length l - 1)%nat else extra) = k); [|now rewrite QK]. unfold k, n. destruct (Nat.leb_spec (length l) extra); lia. }
  rewrite HS. set (right := map conj _). assert (LR : length right = k) by (unfold right; rewrite map_length, firstn_length, skipn_length, rev_length; unfold k, n; lia).
  destruct (hermitian_pass zero add sub scale conj k (l, right)) as [x1 e1] eqn:E1. destruct (hermitian_pass zero add sub scale conj k (x1, e1)) as [x2 e2] eqn:E2. cbn [fst].
  assert (P1 := PASS l right x1 e1 ltac:(unfold k, n; lia) E1). assert (N1 : length x1 = length l) by apply P1. assert (P2 := PASS x1 e1 x2 e2 ltac:(rewrite N1; unfold k, n; lia) E2). assert (N2 : length x2 = n) by (transitivity (length x1); [apply P2|exact N1]).
  exists x1, e1, x2, e2. split; [exact LR|]. split; [|split; [exact P1|split; [exact P2|]]].
  - intros j Hj. unfold right. rewrite (nth_indep _ _ (conj zero)) by (rewrite map_length, firstn_length, skipn_length, rev_length; unfold k, n in *; lia). rewrite map_nth. f_equal. rewrite nth_firstn by lia.
    destruct (rev l) as [|y r] eqn:ER; [apply (f_equal (@length T)) in ER; rewrite rev_length in ER; cbn in ER; unfold n in *; lia|]. cbn [skipn]. change (nth j r zero) with (nth (S j) (y :: r) zero). rewrite <- ER, rev_nth by (unfold k, n in *; lia). f_equal. unfold n; lia.
  - intros i Hi. destruct (real_ends_facts add sub scale zero conj re x2 ltac:(lia)) as [_ E]. rewrite E by lia. now rewrite N2.
Qed.
Print Assumptions C71_hermitian_extension.
(* complex numbers, three samples continued by one on either side *)
Example C71_extension_case : forall (x y z : C) (a : R), exists right x1 e1 x2 e2, length right = 1%nat /\ nth 0 right (RtoC 0) = Cconj y /\
  extended_pass (RtoC 0) Cplus Cminus (Cmult (RtoC a)) Cconj 1 (x :: y :: z :: nil) right x1 e1 /\ extended_pass (RtoC 0) Cplus Cminus (Cmult (RtoC a)) Cconj 1 x1 e1 x2 e2 /\
  nth 1 (hermitian_smooth (RtoC 0) Cplus Cminus (Cmult (RtoC a)) Cconj (fun v => RtoC (Re v)) 1 (x :: y :: z :: nil)) (RtoC 0) = nth 1 x2 (RtoC 0).
Proof.
  intros x y z a. destruct (C71_hermitian_extension C (RtoC 0) Cplus Cminus (Cmult (RtoC a)) Cconj (fun v => RtoC (Re v)) 1 (x :: y :: z :: nil)) as (r & x1 & e1 & x2 & e2 & A & B & P1 & P2 & H).
  - unfold Cconj, RtoC. cbn. f_equal. ring.
  - intros u v. unfold Cconj, Cplus. cbn. f_equal. ring.
  - intros u v. unfold Cconj, Cminus, Cplus, Copp. cbn. f_equal. ring.
  - intros u. unfold Cconj, Cmult, RtoC. cbn. f_equal; ring.
  - cbn. lia.
  - exists r, x1, e1, x2, e2. cbn [length] in *. change (Nat.min 1 (3 - 1)) with 1%nat in *. split; [exact A|]. split; [exact (B 0%nat ltac:(lia))|]. split; [exact P1|]. split; [exact P2|]. exact (H 1%nat ltac:(lia)).
Qed.
Theorem C71_split_combine : forall (A : Type) (l : list (A * A)) (re im : list A), (let (r, i) := split_complex l in combine_complex r i = Ok l) /\
  (length re = length im -> exists c, combine_complex re im = Ok c /\ split_complex c = (re, im)) /\ (length re <> length im -> combine_complex re im = CheckFail).
Proof.
  intros A l re im. split; [|split].
  - unfold split_complex, combine_complex. rewrite !map_length, Nat.eqb_refl. cbn [ocheck]. f_equal. induction l as [|[a b] r IH]; cbn; congruence.
  - intros L. unfold combine_complex. rewrite L, Nat.eqb_refl. cbn [ocheck]. eexists. split; [reflexivity|]. unfold split_complex. revert im L. induction re as [|a r IH]; intros [|b s] L; try discriminate; [reflexivity|].
    cbn [combine map fst snd]. injection L as L. specialize (IH s L). injection IH as E1 E2. rewrite E1, E2. reflexivity.
  - intros L. unfold combine_complex. destruct (Nat.eqb_spec (length re) (length im)); [congruence|reflexivity].
Qed.
Print Assumptions C71_split_combine.
Example C71_case : smoother_coefficient 2 = sqrt (5 / 4) - 1 / 2 /\ snd (forward_smooth Rplus Rminus (Rmult (1 / 2)) 0 (4 :: 0 :: nil)) = 2 :: 1 :: nil /\
  block_dc Rplus Rminus (Rmult (1 / 2)) 0 (4 :: 4 :: nil) = 2 :: 1 :: nil.
Proof.
  split; [|split].
  - unfold smoother_coefficient. rewrite Rleb_false by lra. cbv zeta. f_equal; [f_equal; field|field].
  - cbn [forward_smooth snd]. f_equal; [field|f_equal; field].
  - cbn [block_dc]. f_equal; [field|f_equal; field].
Qed.

(* ---- C72: QuadraticInterpolateMax ---- *)
Theorem C72_location : forall l x0, ((0 <= x0 < Z.of_nat (length l))%Z -> exists loc v, quadratic_max l x0 = Ok (loc, v) /\ 0 <= loc <= INR (length l - 1) /\ Rabs (IZR x0 - loc) <= 1) /\
  (~ (0 <= x0 < Z.of_nat (length l))%Z -> quadratic_max l x0 = CheckFail).
Proof.
  intros l x0. split; [|apply quad_refuse]. intros H. rewrite <- (Z2Nat.id x0) by lia. set (n := Z.to_nat x0). assert (N : (n < length l)%nat) by lia.
  assert (E : n = 0%nat \/ n = (length l - 1)%nat \/ (0 < n < length l - 1)%nat) by lia. rewrite <- INR_IZR_INZ.
  assert (P : 0 <= INR n <= INR (length l - 1)) by (split; [apply pos_INR|apply le_INR; lia]).
  assert (Ends : n = 0%nat \/ n = (length l - 1)%nat -> exists loc v, quadratic_max l (Z.of_nat n) = Ok (loc, v) /\ 0 <= loc <= INR (length l - 1) /\ Rabs (INR n - loc) <= 1).
  { intros EE. rewrite (quad_end l n N EE). eexists _, _. split; [reflexivity|]. split; [exact P|]. rewrite Rminus_eq_0, Rabs_R0. lra. }
  destruct E as [E|[E|E]]; [apply Ends; auto|apply Ends; auto|].
  destruct (quad_facts l n E) as [d [Q [D _]]]. rewrite Q. eexists _, _. split; [reflexivity|]. split.
  - assert (1 <= INR n) by (apply (le_INR 1); lia). assert (INR (n + 1) <= INR (length l - 1)) by (apply le_INR; lia). rewrite plus_INR in H1. cbn [INR] in H1. lra.
  - replace (INR n - (INR n + d)) with (- d) by ring. rewrite Rabs_Ropp. apply Rabs_le. lra.
Qed.
Print Assumptions C72_location.
(* unless the slope is below the tolerance, the maximum over one sample to either side of the
   parabola A + B d + C d^2 through the three samples *)
Theorem C72_maximum_partial : forall l x0 A B C, (0 < x0 < length l - 1)%nat -> A - B + C = nth (x0 - 1) l 0 -> A = nth x0 l 0 -> A + B + C = nth (x0 + 1) l 0 ->
  exists d, quadratic_max l (Z.of_nat x0) = Ok (INR x0 + d, A + B * d + C * d ^ 2) /\ -1 <= d <= 1 /\
  (kTolerance <= Rabs B -> forall e, -1 <= e <= 1 -> A + B * e + C * e ^ 2 <= A + B * d + C * d ^ 2) /\
  (* a sample that is no smaller than its neighbours *)
  (nth (x0 - 1) l 0 <= nth x0 l 0 -> nth (x0 + 1) l 0 <= nth x0 l 0 -> forall e, -1 <= e <= 1 -> A + B * e + C * e ^ 2 <= A + B * d + C * d ^ 2 + kTolerance / 4).
Proof.
  intros l x0 A B C H E1 E2 E3. destruct (quad_facts l x0 H) as [d [Q [D [M Z]]]]. exists d.
  assert (EB : (nth (x0 + 1) l 0 - nth (x0 - 1) l 0) / 2 = B) by lra.
  assert (P : forall e, parabola l x0 e = A + B * e + C * e ^ 2). { intros e. unfold parabola. rewrite EB. replace ((nth (x0 - 1) l 0 - 2 * nth x0 l 0 + nth (x0 + 1) l 0) / 2) with C by lra. rewrite <- E2. ring. }
  rewrite EB in M, Z. assert (M' : kTolerance <= Rabs B -> forall e, -1 <= e <= 1 -> A + B * e + C * e ^ 2 <= A + B * d + C * d ^ 2) by (intros K e He; rewrite <- !P; apply M; assumption).
  split; [rewrite Q, P; reflexivity|]. split; [exact D|]. split; [exact M'|]. intros F1 F2 e He. assert (KP : 0 < kTolerance) by (unfold kTolerance; apply Rmult_lt_0_compat; [lra|apply Rinv_0_lt_compat, pow_lt; lra]).
  destruct (Rle_or_lt kTolerance (Rabs B)) as [K|K]; [pose proof (M' K e He); lra|]. rewrite (Z K). 
  assert (C <= - Rabs B) by (unfold Rabs; destruct (Rcase_abs B); lra). pose proof (Rabs_pos B). assert (BE : B * e <= Rabs B * Rabs e) by (rewrite <- Rabs_mult; apply Rle_abs).
  assert (EE : e ^ 2 = Rabs e * Rabs e) by (rewrite <- Rabs_mult, Rabs_right by nra; ring). rewrite EE. set (b := Rabs B) in *. set (t := Rabs e) in *. pose proof (Rabs_pos e : 0 <= t).
  assert (C * (t * t) <= - b * (t * t)) by (apply Rmult_le_compat_r; nra). pose proof (Rmult_le_pos b ((t - 1 / 2) * (t - 1 / 2)) ltac:(assumption) (Rle_0_sqr (t - 1 / 2))). cbn [pow]. lra.
Qed.
Print Assumptions C72_maximum_partial.
(* samples of a parabola with its vertex near x0 are reproduced exactly *)
Theorem C72_exact : forall l x0 top beta mu, (0 < x0 < length l - 1)%nat -> 0 < beta -> Rabs (mu - INR x0) <= 1 ->
  (forall i, (x0 - 1 <= i <= x0 + 1)%nat -> nth i l 0 = top - beta * (INR i - mu) ^ 2) -> kTolerance <= 2 * beta * Rabs (mu - INR x0) ->
  quadratic_max l (Z.of_nat x0) = Ok (mu, top).
Proof.
  intros l x0 top beta mu H BP MU S K. set (u := mu - INR x0) in *.
  assert (X1 : INR (x0 - 1) = INR x0 - 1) by (rewrite minus_INR by lia; reflexivity). assert (X2 : INR (x0 + 1) = INR x0 + 1) by (rewrite plus_INR; reflexivity).
  destruct (C72_maximum_partial l x0 (top - beta * u ^ 2) (2 * beta * u) (- beta) H) as [d [Q [D [M _]]]].
  - rewrite S, X1 by lia. unfold u. ring.
  - rewrite S by lia. unfold u. ring.
  - rewrite S, X2 by lia. unfold u. ring.
  - assert (MM : kTolerance <= Rabs (2 * beta * u)). { rewrite Rabs_mult, (Rabs_right (2 * beta)) by lra. exact K. }
    assert (U : -1 <= u <= 1). { unfold Rabs in MU. destruct (Rcase_abs u); lra. }
    pose proof (M MM u U) as L. assert (E : d = u). { assert (0 <= - (beta * ((d - u) * (d - u)))) by nra. assert ((d - u) * (d - u) <= 0) by nra. nra. }
    rewrite Q, E. unfold u. do 2 f_equal; ring.
Qed.
Print Assumptions C72_exact.
(* at the bottom of a symmetric valley the minimum is returned *)
Theorem C72_maximum_refuted : exists l x0 v, quadratic_max l x0 = Ok (IZR x0, v) /\ (0 < x0 < Z.of_nat (length l) - 1)%Z /\ (forall y, In y l -> v <= y) /\ exists y, In y l /\ v < y.
Proof.
  exists (1 :: 0 :: 1 :: nil), 1%Z, 0. split; [|split].
  - pose proof (quad_eq (1 :: 0 :: 1 :: nil) 1 ltac:(cbn; lia)) as Q. cbv zeta in Q. cbn [nth Nat.add Nat.sub INR] in Q. change (Z.of_nat 1) with 1%Z in Q. rewrite Q. rewrite Rltb_true; [reflexivity|]. replace ((1 - 1) / 2) with 0 by field. rewrite Rabs_R0. unfold kTolerance. apply Rmult_lt_0_compat; [lra|apply Rinv_0_lt_compat, pow_lt; lra].
  - cbn. lia.
  - split; [intros y Hy; cbn in Hy; destruct Hy as [<-|[<-|[<-|[]]]]; lra|exists 1; split; [left; reflexivity|lra]].
Qed.
Print Assumptions C72_maximum_refuted.
Example C72_case : quadratic_max (0 :: 3 :: 4 :: nil) 1 = Ok (2, 4) /\ quadratic_max (7 :: 16 :: 15 :: nil) 1 = Ok (1 + 2 / 5, 16 + 4 / 5).
Proof.
  assert (KT : kTolerance < 1) by (unfold kTolerance; cbn [pow]; lra). split.
  - pose proof (quad_eq (0 :: 3 :: 4 :: nil) 1 ltac:(cbn; lia)) as Q. cbv zeta in Q. cbn [nth Nat.add Nat.sub INR] in Q. change (Z.of_nat 1) with 1%Z in Q. rewrite Q. rewrite Rltb_false by (rewrite Rabs_right; lra). rewrite Rltb_true by lra. replace (- ((4 - 0) / 2) / (2 * ((0 - 2 * 3 + 4) / 2))) with 1 by field.
    rewrite (Rmin_left 1 1) by lra. rewrite Rmax_right by lra. do 2 f_equal; field.
  - pose proof (quad_eq (7 :: 16 :: 15 :: nil) 1 ltac:(cbn; lia)) as Q. cbv zeta in Q. cbn [nth Nat.add Nat.sub INR] in Q. change (Z.of_nat 1) with 1%Z in Q. rewrite Q. rewrite Rltb_false by (rewrite Rabs_right; lra). rewrite Rltb_true by lra. replace (- ((15 - 7) / 2) / (2 * ((7 - 2 * 16 + 15) / 2))) with (2 / 5) by field.
    rewrite Rmin_left by lra. rewrite Rmax_right by lra. do 2 f_equal; field.
Qed.

(* ---- C73: phasors, sine waves and circular averages ---- *)
Theorem C73_phasors : forall step n, length (phasor_vector step n) = n /\
  forall i, (i < n)%nat -> nth i (phasor_vector step n) (0, 0) = (cos (INR i * step), sin (INR i * step)).
Proof. exact phasor_vector_ok. Qed.
Print Assumptions C73_phasors.
Theorem C73_sine : forall f fs phase n, fs <> 0 -> exists out, sine_wave f fs phase n = Ok out /\ length out = n /\
  forall i, (i < n)%nat -> nth i out 0 = sin (2 * PI * f * (INR i / fs) + phase).
Proof. exact sine_wave_ok. Qed.
Print Assumptions C73_sine.
(* the direction of the (weighted) sum of unit vectors, in [0, period); zero when the sum vanishes *)
Theorem C73_average : forall vs ws p, vs <> nil -> length vs = length ws -> 0 < p -> (forall w, In w ws -> 0 <= w) ->
  exists a, weighted_circular_average vs ws p = Ok a /\ 0 <= a < p /\ points_at p a (csum p vs ws cos) (csum p vs ws sin) /\
  (csum p vs ws cos = 0 -> csum p vs ws sin = 0 -> a = 0) /\
  (* the only such direction when the sum does not vanish *)
  (csum p vs ws cos <> 0 \/ csum p vs ws sin <> 0 -> forall b, 0 <= b < p -> points_at p b (csum p vs ws cos) (csum p vs ws sin) -> b = a).
Proof.
  intros vs ws p N L P W. destruct (weighted_ok vs ws p N L P W) as [a [A [B [C D]]]]. exists a. split; [exact A|]. split; [exact B|]. split; [exact C|]. split; [exact D|].
  intros Z b Hb E. exact (points_unique p b a _ _ P Hb B Z E C).
Qed.
Print Assumptions C73_average.
Theorem C73_unweighted : forall vs p, circular_average vs p = weighted_circular_average vs (repeat 1 (length vs)) p.
Proof. exact average_weighted. Qed.
Print Assumptions C73_unweighted.
(* turning every value turns the average, and whole periods do not matter *)
Theorem C73_rotation : forall vs ws p d a b, 0 < p -> csum p vs ws cos <> 0 \/ csum p vs ws sin <> 0 -> (forall w, In w ws -> 0 <= w) ->
  weighted_circular_average vs ws p = Ok a -> weighted_circular_average (map (fun v => v + d) vs) ws p = Ok b -> exists k : Z, b = a + d + IZR k * p.
Proof. exact weighted_rotation. Qed.
Print Assumptions C73_rotation.
Theorem C73_whole_periods : forall vs ws p (ks : list Z), 0 < p -> length ks = length vs -> length vs = length ws ->
  weighted_circular_average (map (fun q => fst q + IZR (snd q) * p) (combine vs ks)) ws p = weighted_circular_average vs ws p.
Proof. exact average_periodic. Qed.
Print Assumptions C73_whole_periods.
Theorem C73_single : forall v p, 0 < p -> exists a k, circular_average (v :: nil) p = Ok a /\ 0 <= a < p /\ a = v + IZR k * p.
Proof. exact average_single. Qed.
Print Assumptions C73_single.
(* what is refused: no values, different sizes, a period that is not positive; negative weights
   are outside the domain of std::polar *)
Theorem C73_refused : forall vs ws p, (vs = nil \/ length vs <> length ws \/ p <= 0 -> weighted_circular_average vs ws p = CheckFail) /\
  (vs <> nil -> length vs = length ws -> 0 < p -> (exists w, In w ws /\ w < 0) -> weighted_circular_average vs ws p = Undef).
Proof.
  intros vs ws p. unfold weighted_circular_average. split.
  - intros H. destruct (Nat.eqb_spec (length vs) 0); [reflexivity|]. cbn [negb ocheck]. destruct (Nat.eqb_spec (length vs) (length ws)); [|reflexivity]. cbn [ocheck].
    destruct H as [->|[H|H]]; [cbn in *; congruence|congruence|]. rewrite Rltb_false by exact H. reflexivity.
  - intros N L P [w [Hw Neg]]. destruct (Nat.eqb_spec (length vs) 0); [destruct vs; [congruence|discriminate]|]. rewrite L, Nat.eqb_refl, Rltb_true by exact P. cbn [negb ocheck].
    destruct (forallb (fun w => Rleb 0 w) ws) eqn:E; [|reflexivity]. rewrite forallb_forall in E. specialize (E w Hw). cbv beta in E. rewrite Rleb_false in E by exact Neg. discriminate.
Qed.
Print Assumptions C73_refused.
Example C73_case : exists a, circular_average (7 :: nil) 4 = Ok a /\ a = 3.
Proof.
  destruct (C73_single 7 4 ltac:(lra)) as [a [k [A [B C]]]]. exists a. split; [exact A|]. assert (k = (-1)%Z); [|subst k; rewrite C; cbn; lra].
  assert (-2 < IZR k) by lra. assert (IZR k < 0) by lra. apply lt_IZR in H. apply lt_IZR in H0. lia.
Qed.

(* ---- C74: windowed-sinc FIR designs ---- *)
Theorem C74_lowpass : forall edge fs w, 0 < fs -> (0 <= edge <= fs / 2 -> Nat.odd (length w) = true -> exists f, fir_lowpass edge fs w = Ok f /\ length f = length w /\
  forall i, (i < length w)%nat -> nth i f 0 = nth i w 0 * (2 * edge / fs * sinc (PI * (2 * edge / fs) * (INR i - INR ((length w - 1) / 2))))) /\
  (~ (0 <= edge <= fs / 2) \/ Nat.odd (length w) = false -> fir_lowpass edge fs w = CheckFail).
Proof. intros edge fs w F. split; [apply lowpass_ok; exact F|apply lowpass_reject]. Qed.
Print Assumptions C74_lowpass.
(* with a symmetric window the response is symmetric, so the filter has zero phase about its centre *)
Theorem C74_zero_phase : forall edge fs w f omega, 0 < fs -> rev w = w -> fir_lowpass edge fs w = Ok f -> rev f = f /\
  sumf (length f) (fun i => nth i f 0 * sin (omega * (INR i - INR ((length w - 1) / 2)))) = 0.
Proof. intros edge fs w f omega F W A. split; [exact (lowpass_symmetric edge fs w f F W A)|exact (lowpass_zero_phase edge fs w f omega F W A)]. Qed.
Print Assumptions C74_zero_phase.
(* lowpass and highpass add up to the windowed unit impulse *)
Theorem C74_highpass : forall edge fs w, 0 < fs -> 0 <= edge <= fs / 2 -> Nat.odd (length w) = true -> exists f g, fir_lowpass edge fs w = Ok f /\ fir_highpass edge fs w = Ok g /\ length g = length w /\
  forall i, (i < length w)%nat -> nth i f 0 + nth i g 0 = if (i =? (length w - 1) / 2)%nat then nth i w 0 else 0.
Proof. exact highpass_ok. Qed.
Print Assumptions C74_highpass.
(* a bandpass is the difference of two lowpasses; from zero it is a lowpass, up to Nyquist a highpass *)
Theorem C74_bandpass : forall lo hi fs w, 0 < fs -> 0 <= lo -> lo <= hi <= fs / 2 -> Nat.odd (length w) = true ->
  (exists f1 f2 g, fir_lowpass lo fs w = Ok f1 /\ fir_lowpass hi fs w = Ok f2 /\ fir_bandpass lo hi fs w = Ok g /\ length g = length w /\ forall i, (i < length w)%nat -> nth i g 0 = nth i f2 0 - nth i f1 0) /\
  fir_bandpass 0 hi fs w = fir_lowpass hi fs w /\ fir_bandpass lo (fs / 2) fs w = fir_highpass lo fs w /\ fir_bandpass hi (lo - 1) fs w = CheckFail.
Proof.
  intros lo hi fs w F L H O. split; [apply bandpass_ok; assumption|]. split; [apply (bandpass_ends hi fs w F ltac:(lra) O)|]. split; [apply (bandpass_ends lo fs w F ltac:(lra) O)|].
  unfold fir_bandpass. rewrite Rleb_false by lra. reflexivity.
Qed.
Print Assumptions C74_bandpass.
Example C74_case : exists f, fir_lowpass 1000 4000 (1 :: 1 :: 1 :: nil) = Ok f /\ nth 1 f 0 = 1 / 2 /\ nth 0 f 0 = 1 / PI.
Proof.
  destruct (C74_lowpass 1000 4000 (1 :: 1 :: 1 :: nil) ltac:(lra)) as [H _]. destruct (H ltac:(lra) eq_refl) as [f [A [B C]]]. exists f. split; [exact A|].
  pose proof PI_RGT_0. rewrite !C by (cbn; lia). cbn [length nth]. change ((3 - 1) / 2)%nat with 1%nat. cbn [INR]. unfold sinc. split.
  - destruct (Reqb_spec (PI * (2 * 1000 / 4000) * (1 - 1)) 0) as [_|K]; [lra|exfalso; apply K; ring].
  - destruct (Reqb_spec (PI * (2 * 1000 / 4000) * (0 - 1)) 0) as [K|K]; [nra|]. replace (PI * (2 * 1000 / 4000) * (0 - 1)) with (- (PI / 2)) by field. rewrite sin_neg, sin_PI2. field. lra.
Qed.
