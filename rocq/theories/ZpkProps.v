(* Statements about filters given by zeros, poles and gain (audio/dsp/portable/iir_design.c). *)
From Verif Require Import Common ListLemmas RealUtil BiquadModel DesignModel DesignSpec DesignProofs CascadeSpec CascadeProofs PoleZeroSpec PoleZeroProofs PoleZeroProofs3 PoleZeroProofs5 PoleZeroProofs6 PoleZeroProofs7 PoleZeroProofs15 ComplexModel ComplexProofs ZpkModel ZpkSpec ZpkProofs ZpkProofs2 ZpkProofs3 ZpkProofs5 ZpkProofs6 ZpkProofs7 ZpkProofs8 ZpkProofs9 ZpkProofs10.
From Coq Require Import Permutation Sorted.
From Coquelicot Require Import Complex.
Local Open Scope R_scope.

(* ---------- C82: evaluation and frequency transformations ---------- *)
Theorem C82_eval ex f s : (forall h : C, zpk_value f s h -> zpk_eval ex f s = Ok h) /\ (In s (z_poles f) -> zpk_eval ex f s = Undef).
Proof.
  split.
  - intros h (N & ->). now apply zpk_eval_ok.
  - intros H. apply zpk_eval_undef. destruct (Ceq_dec (product_over (fun p => Cminus s p) (z_poles f)) (RtoC 0)) as [E|E]; [exact E|]. exfalso. exact (po_minus_in s _ E s H eq_refl).
Qed.
Print Assumptions C82_eval.
Theorem C82_to_lowpass f c : c <> 0 -> exists f', to_lowpass f c = Ok f' /\
  length (z_zeros f') = length (z_zeros f) /\ length (z_poles f') = length (z_poles f) /\ (real_filter f -> real_filter f') /\
  forall s h, zpk_value f' s h <-> zpk_value f (Cdiv s (RtoC c)) h.
Proof.
  intros H. exists (lowpassed f c). split; [apply to_lowpass_is; now left|]. split; [cbn [lowpassed z_zeros]; apply map_length|]. split; [cbn [lowpassed z_poles]; apply map_length|]. split; [apply lowpassed_real|]. intros s h. now apply lowpassed_value.
Qed.
Print Assumptions C82_to_lowpass.
Theorem C82_to_highpass ex f c : real_filter f -> (forall r, In r (z_zeros f ++ z_poles f) -> r <> RtoC 0) -> (length (z_zeros f) <= length (z_poles f))%nat ->
  exists f', to_highpass ex f c = Ok f' /\ length (z_zeros f') = length (z_poles f) /\ length (z_poles f') = length (z_poles f) /\ real_filter f' /\
  forall s h, s <> RtoC 0 -> zpk_value f' s h <-> zpk_value f (Cdiv (RtoC c) s) h.
Proof.
  intros HR HN HL. exists (highpassed f c). split; [now apply to_highpass_is|]. split; [cbn [highpassed z_zeros]; rewrite app_length, map_length, repeat_length; change cplx with C in *; lia|]. split; [cbn [highpassed z_poles]; apply map_length|]. split; [now apply highpassed_real|]. intros s h HS. now apply highpassed_value.
Qed.
Print Assumptions C82_to_highpass.
Lemma center_ok low high : 0 < low -> low < high -> center_of low high = Ok (sqrt (low * high)) /\ sqrt (low * high) * sqrt (low * high) = low * high.
Proof. intros H1 H2. assert (0 <= low * high) by nra. split; [|now apply sqrt_sqrt]. unfold center_of. destruct (Rleb_spec 0 (low * high)); [reflexivity|lra]. Qed.
Theorem C82_to_bandpass ex f low high : (length (z_zeros f) <= length (z_poles f) <= 15)%nat -> 0 < low -> low < high ->
  exists f', to_bandpass ex f low high = Ok (true, f') /\ length (z_poles f') = (2 * length (z_poles f))%nat /\
  length (z_zeros f') = (length (z_zeros f) + length (z_poles f))%nat /\ (real_filter f -> real_filter f') /\
  forall s h, s <> RtoC 0 -> zpk_value f' s h <-> zpk_value f (Cdiv (Cplus (Cmult s s) (RtoC (low * high))) (Cmult (RtoC (high - low)) s)) h.
Proof.
  intros HL H1 H2. destruct (center_ok low high H1 H2) as (EC & CC). set (c := sqrt (low * high)) in *. set (b := high - low). set (fl := lowpassed f (b / 2)).
  assert (LZ : length (z_zeros fl) = length (z_zeros f)) by apply map_length. assert (LP : length (z_poles fl) = length (z_poles f)) by apply map_length.
  set (g := 2 ^ (length (z_poles fl) - length (z_zeros fl))). set (f2 := {| z_zeros := z_zeros fl; z_poles := z_poles fl; z_gain := z_gain fl * g |}).
  exists (shifted ex c f2). split; [|split; [|split; [|split]]].
  - unfold to_bandpass. fold b. rewrite to_lowpass_is by (now right). fold fl. cbn [obind]. unfold int_power. destruct (Reqb_spec 2 0) as [X|_]; [lra|]. cbn [negb]. rewrite Bool.orb_true_r. cbn [oguard obind].
    assert (EX : powerRZ 2 (excess fl) = g) by (unfold excess, g; rewrite <- Nat2Z.inj_sub by lia; rewrite <- pow_powerRZ; reflexivity). rewrite EX, EC. cbn [obind]. fold f2. rewrite shift_is by (unfold f2; cbn [z_zeros z_poles]; lia). reflexivity.
  - cbn [shifted z_poles]. rewrite shift_length. unfold f2. cbn [z_poles]. lia.
  - cbn [shifted z_zeros]. rewrite app_length, shift_length, repeat_length. unfold f2. cbn [z_zeros z_poles]. change cplx with C in *. lia.
  - intros HR. apply shifted_real. destruct (lowpassed_real f (b / 2) HR) as (X & Y). now split.
  - intros s h HS. unfold f2. rewrite (shifted_value ex c fl g s h eq_refl ltac:(lia) HS). unfold fl. rewrite lowpassed_value by (unfold b; lra). rewrite CC.
    assert (B0 : RtoC b <> RtoC 0) by (apply RtoC_neq; unfold b; lra). assert (T0 : RtoC 2 <> RtoC 0) by (apply RtoC_neq; lra).
    replace (Cdiv (Cdiv (Cplus (Cmult s s) (RtoC (low * high))) (Cmult (RtoC 2) s)) (RtoC (b / 2))) with (Cdiv (Cplus (Cmult s s) (RtoC (low * high))) (Cmult (RtoC b) s)); [reflexivity|].
    replace (RtoC (b / 2)) with (Cdiv (RtoC b) (RtoC 2)) by (rewrite <- RtoC_div by lra; reflexivity). field. now repeat split.
Qed.
Print Assumptions C82_to_bandpass.
Theorem C82_to_bandstop ex f low high : real_filter f -> (forall r, In r (z_zeros f ++ z_poles f) -> r <> RtoC 0) -> (length (z_zeros f) <= length (z_poles f) <= 15)%nat -> 0 < low -> low < high ->
  exists f', to_bandstop ex f low high = Ok (true, f') /\ length (z_poles f') = (2 * length (z_poles f))%nat /\ length (z_zeros f') = (2 * length (z_poles f))%nat /\ real_filter f' /\
  forall s h, s <> RtoC 0 -> Cplus (Cmult s s) (RtoC (low * high)) <> RtoC 0 -> zpk_value f' s h <-> zpk_value f (Cdiv (Cmult (RtoC (high - low)) s) (Cplus (Cmult s s) (RtoC (low * high)))) h.
Proof.
  intros HR HN HL H1 H2. destruct (center_ok low high H1 H2) as (EC & CC). set (c := sqrt (low * high)) in *. set (b := high - low). set (fh := highpassed f (b / 2)).
  assert (LZ : length (z_zeros fh) = length (z_poles f)) by (unfold fh, highpassed; cbn [z_zeros]; rewrite app_length, map_length, repeat_length; change cplx with C in *; lia). assert (LP : length (z_poles fh) = length (z_poles f)) by apply map_length.
  exists (shifted ex c fh). split; [|split; [|split; [|split]]].
  - unfold to_bandstop. fold b. rewrite to_highpass_is by exact HN. fold fh. cbn [obind]. rewrite EC. cbn [obind]. rewrite shift_is by lia. reflexivity.
  - cbn [shifted z_poles]. rewrite shift_length. lia.
  - cbn [shifted z_zeros]. rewrite app_length, shift_length, repeat_length. change cplx with C in *. lia.
  - apply shifted_real. now apply highpassed_real.
  - intros s h HS HD. rewrite shifted_value_eq by (assumption || lia). rewrite CC. assert (T0 : RtoC 2 <> RtoC 0) by (apply RtoC_neq; lra).
    unfold fh. rewrite highpassed_value; [|exact HR|exact HN|lia|apply Cdiv_neq; [exact HD|now apply Cmult_neq]].
    replace (Cdiv (RtoC (b / 2)) (Cdiv (Cplus (Cmult s s) (RtoC (low * high))) (Cmult (RtoC 2) s))) with (Cdiv (Cmult (RtoC b) s) (Cplus (Cmult s s) (RtoC (low * high)))); [reflexivity|].
    replace (RtoC (b / 2)) with (Cdiv (RtoC b) (RtoC 2)) by (rewrite <- RtoC_div by lra; reflexivity). field. now repeat split.
Qed.
Print Assumptions C82_to_bandstop.
(* more than fifteen zeros or poles are refused; the filter is then only scaled *)
Theorem C82_band_capacity ex f low high : (length (z_zeros f) <= length (z_poles f))%nat -> (15 < length (z_poles f))%nat -> 0 < low -> low < high ->
  exists f', to_bandpass ex f low high = Ok (false, f') /\ length (z_poles f') = length (z_poles f).
Proof.
  intros HL HN H1 H2. destruct (center_ok low high H1 H2) as (EC & _). unfold to_bandpass. rewrite to_lowpass_is by now right. cbn [obind]. unfold int_power. destruct (Reqb_spec 2 0) as [X|_]; [lra|]. cbn [negb]. rewrite Bool.orb_true_r. cbn [oguard obind]. rewrite EC. cbn [obind].
  rewrite shift_refuse by (right; cbn [z_poles lowpassed]; rewrite map_length; exact HN). eexists. split; [reflexivity|]. cbn [z_poles lowpassed]. apply map_length.
Qed.
Print Assumptions C82_band_capacity.
Theorem C82_bilinear ex f fs : (0 < fs -> real_filter f -> (forall r, In r (z_zeros f ++ z_poles f) -> r <> RtoC (2 * fs)) ->
    exists f', zpk_bilinear ex f fs = Ok (true, f') /\ length (z_zeros f') = Nat.max (length (z_zeros f)) (length (z_poles f)) /\ length (z_poles f') = Nat.max (length (z_zeros f)) (length (z_poles f)) /\ real_filter f' /\
    forall z h, z <> RtoC (-1) -> zpk_value f' z h <-> zpk_value f (Cdiv (Cmult (RtoC (2 * fs)) (Cminus z (RtoC 1))) (Cplus z (RtoC 1))) h) /\
  (fs <= 0 -> zpk_bilinear ex f fs = Ok (false, f)).
Proof.
  split.
  - intros HF HR HN. exists (digital (2 * fs) f). split; [now apply zpk_bilinear_is|]. destruct (digital_lengths (2 * fs) f) as (L1 & L2). unfold max_num in L1, L2. split; [rewrite L1; apply Nat.max_comm || reflexivity|]. split; [rewrite L2; apply Nat.max_comm || reflexivity|]. split; [now apply digital_real|]. intros z h HZ. now apply ZpkProofs2.digital_value.
  - intros H. unfold zpk_bilinear. destruct (Rltb_spec 0 fs); [exfalso; lra|reflexivity].
Qed.
Print Assumptions C82_bilinear.

(* ---------- C82: sorting and second order sections ---------- *)
Theorem C82_sort ex qsort f : sorts qsort -> clear_cut (z_zeros f) -> clear_cut (z_poles f) ->
  (real_filter f -> exists f', zpk_sort ex qsort f = (true, f') /\ Permutation (z_zeros f') (z_zeros f) /\ Permutation (z_poles f') (z_poles f) /\ arranged (z_zeros f') /\ arranged (z_poles f') /\ z_gain f' = z_gain f) /\
  (~ real_filter f -> fst (zpk_sort ex qsort f) = false).
Proof.
  intros HQ C1 C2. split; [now apply zpk_sort_ok|]. intros N. destruct (fst (zpk_sort ex qsort f)) eqn:E; [|reflexivity]. exfalso. apply N. now apply (zpk_sort_only ex qsort HQ).
Qed.
Print Assumptions C82_sort.
Theorem C82_to_biquads ex qsort f m : sorts qsort -> clear_cut (z_zeros f) -> clear_cut (z_poles f) -> real_filter f -> length (z_zeros f) = length (z_poles f) ->
  (1 <= m)%Z -> (Z.of_nat (Nat.div2 (length (z_poles f) + 1)) <= m)%Z ->
  exists cs, to_biquads ex qsort f m = Ok (Some cs) /\ length cs = Nat.max 1 (Nat.div2 (length (z_poles f) + 1)) /\ forall z h, z <> RtoC 0 -> cascade_value cs z h <-> zpk_value f z h.
Proof. intros HQ C1 C2 HR HL HM HB. now apply to_biquads_ok. Qed.
Print Assumptions C82_to_biquads.
Theorem C82_to_biquads_refuses ex qsort f m : sorts qsort -> clear_cut (z_zeros f) -> clear_cut (z_poles f) ->
  (m <= 0)%Z \/ (m < Z.of_nat (Nat.div2 (Nat.max (length (z_zeros f)) (length (z_poles f)) + 1)))%Z \/ ~ real_filter f -> to_biquads ex qsort f m = Ok None.
Proof.
  intros HQ C1 C2 H. unfold to_biquads. destruct (Z.leb_spec m 0) as [_|M]; [reflexivity|].
  destruct (Nat.eqb_spec (length (z_zeros f)) 0) as [Z0|Z0]; destruct (Nat.eqb_spec (length (z_poles f)) 0) as [P0|P0]; cbn [andb].
  { exfalso. destruct H as [H|[H|H]]; [lia|rewrite Z0, P0 in H; cbn in H; lia|]. apply H. destruct f as [zs ps g]. cbn [z_zeros z_poles] in *. destruct zs; [|discriminate Z0]. destruct ps; [|discriminate P0]. split; apply conj_closed_nil. }
  all: destruct (Z.ltb_spec m (Z.of_nat (Nat.div2 (Nat.max (length (z_zeros f)) (length (z_poles f)) + 1)))) as [X|X]; [reflexivity|]; destruct H as [H|[H|H]]; [lia|lia|]; pose proof (proj2 (C82_sort ex qsort f HQ C1 C2) H) as S0; destruct (zpk_sort ex qsort f) as [ok f']; cbn [fst] in S0; rewrite S0; reflexivity.
Qed.
Print Assumptions C82_to_biquads_refuses.
(* A filter with fewer zeros than poles, a lowpass prototype for example, makes it read roots that were never written. *)
Theorem C82_uneven_refuted ex qsort f m : sorts qsort -> clear_cut (z_zeros f) -> clear_cut (z_poles f) -> real_filter f -> length (z_zeros f) <> length (z_poles f) ->
  (1 <= m)%Z -> (Z.of_nat (Nat.div2 (Nat.max (length (z_zeros f)) (length (z_poles f)) + 1)) <= m)%Z -> to_biquads ex qsort f m = Undef.
Proof.
  intros HQ C1 C2 HR HL HM HB. destruct (proj1 (C82_sort ex qsort f HQ C1 C2) HR) as (f' & E & _). unfold to_biquads. destruct (Z.leb_spec m 0) as [X|_]; [lia|]. rewrite E.
  destruct (Nat.eqb_spec (length (z_zeros f)) 0) as [Z0|Z0]; destruct (Nat.eqb_spec (length (z_poles f)) 0) as [P0|P0]; cbn [andb]; [congruence|..]; (destruct (Z.ltb_spec m (Z.of_nat (Nat.div2 (Nat.max (length (z_zeros f)) (length (z_poles f)) + 1)))) as [X|_]; [lia|]; cbn [negb]; destruct (Nat.eqb_spec (length (z_zeros f)) (length (z_poles f))); [contradiction|reflexivity]).
Qed.
Print Assumptions C82_uneven_refuted.
(* A pole that is almost real is taken for a real one, even without its conjugate. *)
Theorem C82_almost_real_refuted : exists f : zpk, ~ real_filter f /\ forall ex qsort, sorts qsort -> exists cs, to_biquads ex qsort f 1 = Ok (Some cs).
Proof.
  exists {| z_zeros := [RtoC (-1)]; z_poles := [(1 / 2, / 1000000000000000)]; z_gain := 1 |}. split.
  - intros (_ & P). unfold conj_closed in P. cbn [z_poles map] in P. apply Permutation_length_1 in P. apply (f_equal snd) in P. cbn in P. lra.
  - intros ex qsort HQ.
    assert (Q1 : forall x : C, qsort [x] = [x]) by (intros x; apply Permutation_length_1_inv, Permutation_sym; apply HQ).
    assert (N1 : nearly_real ex (RtoC (-1)) = true) by (apply nearly_real_iff; [left|]; reflexivity).
    assert (N2 : nearly_real ex (1 / 2, / 1000000000000000) = true).
    { unfold nearly_real. rewrite cabs_Cmod. match goal with |- Rleb ?a ?b = true => destruct (Rleb_spec a b) as [_|X]; [reflexivity|exfalso; apply X] end. cbn [snd].
      assert (M : 1 / 2 <= Cmod (1 / 2, / 1000000000000000)) by (apply Rle_trans with (Rmax (Rabs (1 / 2)) (Rabs (/ 1000000000000000))); [rewrite (Rabs_pos_eq (1 / 2)) by lra; apply Rmax_l|exact (Rmax_Cmod (1 / 2, / 1000000000000000))]). rewrite Rabs_pos_eq by lra. unfold root_tol.
      apply Rle_trans with (100 / 4503599627370496 * (1 / 2)); [lra|]. apply Rmult_le_compat_l; lra. }
    unfold to_biquads, zpk_sort, roots_sort. cbn -[nearly_real]. rewrite N1, N2. cbn. rewrite !Q1. cbn. eexists. reflexivity.
Qed.
Print Assumptions C82_almost_real_refuted.

(* a qsort that meets the standard: insertion sort *)
Fixpoint insert_root (x : C) (l : list C) : list C :=
  match l with [] => [x] | y :: l' => match order_complex x y with Gt => y :: insert_root x l' | _ => x :: l end end.
Definition insertion_sort (l : list C) : list C := fold_right insert_root [] l.
Lemma insert_perm x l : Permutation (insert_root x l) (x :: l).
Proof. induction l as [|y l IH]; cbn; [constructor; constructor|]. destruct (order_complex x y); try reflexivity. rewrite IH. apply perm_swap. Qed.
Lemma not_after_trans w z x : not_after w z -> not_after z x -> not_after w x.
Proof. unfold not_after. intros [A|(A & B)] [D|(D & E)]; try (left; lra). right. lra. Qed.
Lemma after_swap w z : order_complex w z = Gt -> not_after z w.
Proof. unfold order_complex, not_after. destruct (Rltb_spec (fst w) (fst z)); [discriminate|]. destruct (Rltb_spec (fst z) (fst w)); [intros _; now left|]. destruct (Rltb_spec (Rabs (snd w)) (Rabs (snd z))); [discriminate|]. destruct (Rltb_spec (Rabs (snd z)) (Rabs (snd w))); [|discriminate]. intros _. right. lra. Qed.
Lemma insertion_sorts : sorts insertion_sort.
Proof.
  assert (I : forall x l, StronglySorted not_after l -> StronglySorted not_after (insert_root x l)).
  { intros x l. induction l as [|y l IH]; intros HS; [repeat constructor|]. cbn [insert_root]. inversion HS as [|? ? HS' HY]; subst.
    assert (CASE : order_complex x y <> Gt -> StronglySorted not_after (x :: y :: l)). { intros N. apply order_gt in N. constructor; [exact HS|]. constructor; [exact N|]. rewrite Forall_forall in HY |- *. intros z Hz. apply (not_after_trans x y z N). now apply HY. }
    destruct (order_complex x y) eqn:E; try (apply CASE; discriminate). constructor; [now apply IH|]. rewrite Forall_forall in HY |- *. intros z Hz. apply (Permutation_in _ (insert_perm x l)) in Hz. destruct Hz as [<-|Hz]; [now apply after_swap|now apply HY]. }
  intros l. split.
  - induction l as [|x l IH]; [constructor|]. cbn. rewrite insert_perm. now constructor.
  - assert (SS : StronglySorted not_after (insertion_sort l)) by (induction l as [|x l IH]; [constructor|]; cbn; now apply I). revert SS. generalize (insertion_sort l). intros l0 SS. induction SS as [|y l0 SS IH HY]; constructor; [exact IH|]. rewrite Forall_forall in HY |- *. intros z Hz. apply order_gt. now apply HY.
Qed.
(* a filter with a conjugate pair of poles and a double zero: everything asked for above holds of it *)
Definition example_zpk : zpk := {| z_zeros := [RtoC (-1); RtoC (-1)]; z_poles := [(1 / 2, 1 / 2); (1 / 2, - (1 / 2))]; z_gain := 3 |}.
Example C82_filter : real_filter example_zpk /\ clear_cut (z_zeros example_zpk) /\ clear_cut (z_poles example_zpk) /\ length (z_zeros example_zpk) = length (z_poles example_zpk) /\
  (forall r, In r (z_zeros example_zpk ++ z_poles example_zpk) -> r <> RtoC 0 /\ r <> RtoC (2 * 48000)) /\ zpk_value example_zpk (RtoC 0) (RtoC 6) /\ sorts insertion_sort.
Proof.
  split; [|split; [|split; [|split; [reflexivity|split; [|split; [|exact insertion_sorts]]]]]].
  - split; unfold conj_closed; cbn [example_zpk z_zeros z_poles map].
    + replace (Cconj (RtoC (-1))) with (RtoC (-1)) by (apply injective_projections; cbn; ring). reflexivity.
    + unfold Cconj. cbn [fst snd]. rewrite Ropp_involutive. apply perm_swap.
  - intros r [<-|[<-|[]]]; left; reflexivity.
  - assert (B : forall y, y = 1 / 2 \/ y = - (1 / 2) -> 100 / 2 ^ 52 * Cmod (1 / 2, y) < Rabs y).
    { intros y Hy. assert (A : Rabs y = 1 / 2) by (destruct Hy as [-> | ->]; try rewrite Rabs_Ropp; apply Rabs_pos_eq; lra). rewrite A. assert (M : Cmod (1 / 2, y) <= 1). { unfold Cmod. cbn [fst snd]. apply Rle_trans with (sqrt 1); [apply sqrt_le_1_alt|rewrite sqrt_1; lra]. destruct Hy as [-> | ->]; cbn [pow]; lra. } apply Rle_lt_trans with (100 / 2 ^ 52 * 1); [apply Rmult_le_compat_l; lra|lra]. }
    intros r [<-|[<-|[]]]; right; apply B; auto.
  - intros r Hr. cbn in Hr. destruct Hr as [<-|[<-|[<-|[<-|[]]]]]; split; intros X; apply (f_equal fst) in X; cbn in X; lra.
  - unfold zpk_value, example_zpk. cbn [z_zeros z_poles z_gain product_over].
    assert (D : Cmult (Cminus (RtoC 0) (1 / 2, 1 / 2)) (Cmult (Cminus (RtoC 0) (1 / 2, - (1 / 2))) (RtoC 1)) = RtoC (1 / 2)) by (apply injective_projections; cbn; field). rewrite D.
    split; [apply RtoC_neq; lra|]. assert (N : RtoC (1 / 2) <> RtoC 0) by (apply RtoC_neq; lra).
    replace (Cmult (RtoC 3) (Cmult (Cminus (RtoC 0) (RtoC (-1))) (Cmult (Cminus (RtoC 0) (RtoC (-1))) (RtoC 1)))) with (Cmult (RtoC 6) (RtoC (1 / 2))) by (apply injective_projections; cbn; field). field. exact N.
Qed.

(* ---------- C83: the Butterworth and Chebyshev designs ---------- *)
Theorem C83_butterworth_lowpass ex qsort n fs fc m : sorts qsort -> (1 <= n <= 30)%nat -> 0 < fs -> corner_inside fs fc -> (Z.of_nat (Nat.div2 (n + 1)) <= m)%Z ->
  exists cs, butterworth_lowpass ex qsort (Z.of_nat n) fc fs m = Ok (Some cs) /\ length cs = Nat.div2 (n + 1) /\ stable_cascade cs /\
    (forall g, - (fs / 2) < g < fs / 2 -> exists h, cascade_value cs (on_circle g fs) h /\ Cmod h = / sqrt (1 + (tan (PI * g / fs) / tan (PI * fc / fs)) ^ (2 * n))) /\
    cascade_value cs (RtoC (-1)) (RtoC 0) /\
    (forall h, cascade_value cs (on_circle 0 fs) h -> Cmod h = 1) /\
    (forall h, cascade_value cs (on_circle fc fs) h -> Cmod h = / sqrt 2) /\
    (forall f g hf hg, 0 <= f -> f < g -> g < fs / 2 -> cascade_value cs (on_circle f fs) hf -> cascade_value cs (on_circle g fs) hg -> Cmod hg < Cmod hf).
Proof. intros HQ (H1 & H2) HF HC HB. now apply butterworth_lowpass_design. Qed.
Print Assumptions C83_butterworth_lowpass.
Theorem C83_butterworth_highpass ex qsort n fs fc m : sorts qsort -> (1 <= n <= 30)%nat -> 0 < fs -> corner_inside fs fc -> (Z.of_nat (Nat.div2 (n + 1)) <= m)%Z ->
  exists cs, butterworth_highpass ex qsort (Z.of_nat n) fc fs m = Ok (Some cs) /\ length cs = Nat.div2 (n + 1) /\ stable_cascade cs /\
    (forall g, - (fs / 2) < g < fs / 2 -> g <> 0 -> exists h, cascade_value cs (on_circle g fs) h /\ Cmod h = / sqrt (1 + (tan (PI * fc / fs) / tan (PI * g / fs)) ^ (2 * n))) /\
    cascade_value cs (RtoC 1) (RtoC 0) /\ (exists h, cascade_value cs (RtoC (-1)) h /\ Cmod h = 1) /\
    (forall h, cascade_value cs (on_circle fc fs) h -> Cmod h = / sqrt 2) /\
    (forall f g hf hg, 0 < f -> f < g -> g < fs / 2 -> cascade_value cs (on_circle f fs) hf -> cascade_value cs (on_circle g fs) hg -> Cmod hf < Cmod hg < 1).
Proof. intros HQ (H1 & H2) HF HC HB. now apply butterworth_highpass_design. Qed.
Print Assumptions C83_butterworth_highpass.
Theorem C83_butterworth_bandpass ex qsort n fs low high m : sorts qsort -> (1 <= n <= 15)%nat -> 0 < fs -> band_inside fs low high -> (Z.of_nat n <= m)%Z ->
  let tl := tan (PI * low / fs) in let th := tan (PI * high / fs) in (Nat.odd n = true -> edge_clear (th - tl) (tl * th)) ->
  exists cs, butterworth_bandpass ex qsort (Z.of_nat n) low high fs m = Ok (Some cs) /\ length cs = n /\ stable_cascade cs /\
    (forall g, - (fs / 2) < g < fs / 2 -> g <> 0 -> exists h, cascade_value cs (on_circle g fs) h /\ Cmod h = / sqrt (1 + bandpass_w tl th (tan (PI * g / fs)) ^ (2 * n))) /\
    cascade_value cs (RtoC 1) (RtoC 0) /\ cascade_value cs (RtoC (-1)) (RtoC 0) /\
    (forall g h, 0 < g < fs / 2 -> cascade_value cs (on_circle g fs) h ->
       (g = low \/ g = high -> Cmod h = / sqrt 2) /\ (low < g < high -> / sqrt 2 < Cmod h <= 1) /\ (g < low \/ high < g -> Cmod h < / sqrt 2)).
Proof. intros HQ (H1 & H2) HF HC HB tl th HO. now apply butterworth_bandpass_design. Qed.
Print Assumptions C83_butterworth_bandpass.
Theorem C83_butterworth_bandstop ex qsort n fs low high m : sorts qsort -> (1 <= n <= 15)%nat -> 0 < fs -> band_inside fs low high -> (Z.of_nat n <= m)%Z ->
  let tl := tan (PI * low / fs) in let th := tan (PI * high / fs) in (Nat.odd n = true -> edge_clear (th - tl) (tl * th)) ->
  exists cs, butterworth_bandstop ex qsort (Z.of_nat n) low high fs m = Ok (Some cs) /\ length cs = n /\ stable_cascade cs /\
    (forall g, - (fs / 2) < g < fs / 2 -> tan (PI * g / fs) * tan (PI * g / fs) <> tl * th -> exists h, cascade_value cs (on_circle g fs) h /\ Cmod h = / sqrt (1 + bandstop_w tl th (tan (PI * g / fs)) ^ (2 * n))) /\
    (forall g, - (fs / 2) < g < fs / 2 -> tan (PI * g / fs) * tan (PI * g / fs) = tl * th -> cascade_value cs (on_circle g fs) (RtoC 0)) /\
    (exists h, cascade_value cs (RtoC (-1)) h /\ Cmod h = 1) /\
    (forall g h, 0 < g < fs / 2 -> cascade_value cs (on_circle g fs) h ->
       (g = low \/ g = high -> Cmod h = / sqrt 2) /\ (low < g < high -> Cmod h < / sqrt 2) /\ (g < low \/ high < g -> / sqrt 2 < Cmod h <= 1)).
Proof. intros HQ (H1 & H2) HF HC HB tl th HO. now apply butterworth_bandstop_design. Qed.
Print Assumptions C83_butterworth_bandstop.
Theorem C83_chebyshev1_lowpass ex qsort n db fs fc m : sorts qsort -> (1 <= n <= 30)%nat -> 0 < fs -> corner_inside fs fc -> (Z.of_nat (Nat.div2 (n + 1)) <= m)%Z -> / 1000000 <= db ->
  exists cs, chebyshev1_lowpass ex qsort (Z.of_nat n) db fc fs m = Ok (Some cs) /\ length cs = Nat.div2 (n + 1) /\ stable_cascade cs /\
    (forall g, - (fs / 2) < g < fs / 2 -> exists h, cascade_value cs (on_circle g fs) h /\ Cmod h = / sqrt (1 + (Rpower 10 (db / 10) - 1) * (chebyshev_T n (tan (PI * g / fs) / tan (PI * fc / fs))) ^ 2)) /\
    cascade_value cs (RtoC (-1)) (RtoC 0) /\
    (forall g h, 0 <= g <= fc -> cascade_value cs (on_circle g fs) h -> Rpower 10 (- db / 20) <= Cmod h <= 1) /\
    (forall h, cascade_value cs (on_circle fc fs) h -> Cmod h = Rpower 10 (- db / 20)) /\
    (forall f g hf hg, fc <= f -> f < g -> g < fs / 2 -> cascade_value cs (on_circle f fs) hf -> cascade_value cs (on_circle g fs) hg -> Cmod hg < Cmod hf).
Proof. intros HQ (H1 & H2) HF HC HB HD. now apply chebyshev1_lowpass_design. Qed.
Print Assumptions C83_chebyshev1_lowpass.
Theorem C83_chebyshev1_highpass ex qsort n db fs fc m : sorts qsort -> (1 <= n <= 30)%nat -> 0 < fs -> corner_inside fs fc -> (Z.of_nat (Nat.div2 (n + 1)) <= m)%Z -> / 1000000 <= db ->
  exists cs, chebyshev1_highpass ex qsort (Z.of_nat n) db fc fs m = Ok (Some cs) /\ length cs = Nat.div2 (n + 1) /\ stable_cascade cs /\
    (forall g, - (fs / 2) < g < fs / 2 -> g <> 0 -> exists h, cascade_value cs (on_circle g fs) h /\ Cmod h = / sqrt (1 + (Rpower 10 (db / 10) - 1) * (chebyshev_T n (tan (PI * fc / fs) / tan (PI * g / fs))) ^ 2)) /\
    cascade_value cs (RtoC 1) (RtoC 0) /\ (exists h, cascade_value cs (RtoC (-1)) h /\ Cmod h = / sqrt (1 + (Rpower 10 (db / 10) - 1) * (chebyshev_T n 0) ^ 2)) /\
    (forall g h, fc <= g < fs / 2 -> cascade_value cs (on_circle g fs) h -> Rpower 10 (- db / 20) <= Cmod h <= 1) /\
    (forall h, cascade_value cs (on_circle fc fs) h -> Cmod h = Rpower 10 (- db / 20)) /\
    (forall f g hf hg, 0 < f -> f < g -> g <= fc -> cascade_value cs (on_circle f fs) hf -> cascade_value cs (on_circle g fs) hg -> Cmod hf < Cmod hg).
Proof. intros HQ (H1 & H2) HF HC HB HD. now apply chebyshev1_highpass_design. Qed.
Print Assumptions C83_chebyshev1_highpass.
Theorem C83_chebyshev1_bandpass ex qsort n db fs low high m : sorts qsort -> (1 <= n <= 15)%nat -> 0 < fs -> band_inside fs low high -> (Z.of_nat n <= m)%Z -> / 1000000 <= db ->
  let tl := tan (PI * low / fs) in let th := tan (PI * high / fs) in (Nat.odd n = true -> edge_clear ((th - tl) * real_pole1 n db) (tl * th)) ->
  exists cs, chebyshev1_bandpass ex qsort (Z.of_nat n) db low high fs m = Ok (Some cs) /\ length cs = n /\ stable_cascade cs /\
    (forall g, - (fs / 2) < g < fs / 2 -> g <> 0 -> exists h, cascade_value cs (on_circle g fs) h /\ Cmod h = / sqrt (1 + (Rpower 10 (db / 10) - 1) * (chebyshev_T n (bandpass_w tl th (tan (PI * g / fs)))) ^ 2)) /\
    cascade_value cs (RtoC 1) (RtoC 0) /\ cascade_value cs (RtoC (-1)) (RtoC 0) /\
    (forall g h, 0 < g < fs / 2 -> cascade_value cs (on_circle g fs) h ->
       (g = low \/ g = high -> Cmod h = Rpower 10 (- db / 20)) /\ (low < g < high -> Rpower 10 (- db / 20) <= Cmod h <= 1) /\ (g < low \/ high < g -> Cmod h < Rpower 10 (- db / 20))).
Proof. intros HQ (H1 & H2) HF HC HB HD tl th HO. now apply chebyshev1_bandpass_design. Qed.
Print Assumptions C83_chebyshev1_bandpass.
Theorem C83_chebyshev1_bandstop ex qsort n db fs low high m : sorts qsort -> (1 <= n <= 15)%nat -> 0 < fs -> band_inside fs low high -> (Z.of_nat n <= m)%Z -> / 1000000 <= db ->
  let tl := tan (PI * low / fs) in let th := tan (PI * high / fs) in (Nat.odd n = true -> edge_clear ((th - tl) / real_pole1 n db) (tl * th)) ->
  exists cs, chebyshev1_bandstop ex qsort (Z.of_nat n) db low high fs m = Ok (Some cs) /\ length cs = n /\ stable_cascade cs /\
    (forall g, - (fs / 2) < g < fs / 2 -> tan (PI * g / fs) * tan (PI * g / fs) <> tl * th -> exists h, cascade_value cs (on_circle g fs) h /\ Cmod h = / sqrt (1 + (Rpower 10 (db / 10) - 1) * (chebyshev_T n (bandstop_w tl th (tan (PI * g / fs)))) ^ 2)) /\
    (forall g, - (fs / 2) < g < fs / 2 -> tan (PI * g / fs) * tan (PI * g / fs) = tl * th -> cascade_value cs (on_circle g fs) (RtoC 0)) /\
    (exists h, cascade_value cs (RtoC (-1)) h /\ Cmod h = / sqrt (1 + (Rpower 10 (db / 10) - 1) * (chebyshev_T n 0) ^ 2)) /\
    (forall g h, 0 < g < fs / 2 -> cascade_value cs (on_circle g fs) h ->
       (g = low \/ g = high -> Cmod h = Rpower 10 (- db / 20)) /\ (low < g < high -> Cmod h < Rpower 10 (- db / 20)) /\ (g < low \/ high < g -> Rpower 10 (- db / 20) <= Cmod h <= 1)).
Proof. intros HQ (H1 & H2) HF HC HB HD tl th HO. now apply chebyshev1_bandstop_design. Qed.
Print Assumptions C83_chebyshev1_bandstop.
Theorem C83_chebyshev2_lowpass ex qsort n db fs fc m : sorts qsort -> (1 <= n <= 30)%nat -> 0 < fs -> corner_inside fs fc -> (Z.of_nat (Nat.div2 (n + 1)) <= m)%Z -> 0 < db -> db <= 80 ->
  exists cs, chebyshev2_lowpass ex qsort (Z.of_nat n) db fc fs m = Ok (Some cs) /\ length cs = Nat.div2 (n + 1) /\ stable_cascade cs /\
    cascade_value cs (RtoC 1) (RtoC 1) /\
    (forall g, - (fs / 2) < g < fs / 2 -> g <> 0 -> exists h, cascade_value cs (on_circle g fs) h /\
       let t := chebyshev_T n (tan (PI * fc / fs) / tan (PI * g / fs)) in Cmod h = Rabs t / sqrt (Rpower 10 (db / 10) - 1 + t ^ 2)) /\
    (Nat.odd n = true -> cascade_value cs (RtoC (-1)) (RtoC 0)) /\
    (forall g h, fc <= g < fs / 2 -> cascade_value cs (on_circle g fs) h -> Cmod h <= Rpower 10 (- db / 20)) /\
    (forall h, cascade_value cs (on_circle fc fs) h -> Cmod h = Rpower 10 (- db / 20)) /\
    (forall f g hf hg, 0 < f -> f < g -> g <= fc -> cascade_value cs (on_circle f fs) hf -> cascade_value cs (on_circle g fs) hg -> Cmod hg < Cmod hf < 1).
Proof. intros HQ (H1 & H2) HF HC HB HD HE. now apply chebyshev2_lowpass_design. Qed.
Print Assumptions C83_chebyshev2_lowpass.
Theorem C83_chebyshev2_highpass ex qsort n db fs fc m : sorts qsort -> (1 <= n <= 30)%nat -> 0 < fs -> corner_inside fs fc -> (Z.of_nat (Nat.div2 (n + 1)) <= m)%Z -> 0 < db -> db <= 80 ->
  exists cs, chebyshev2_highpass ex qsort (Z.of_nat n) db fc fs m = Ok (Some cs) /\ length cs = Nat.div2 (n + 1) /\ stable_cascade cs /\
    cascade_value cs (RtoC (-1)) (RtoC 1) /\
    (forall g, - (fs / 2) < g < fs / 2 -> g <> 0 -> exists h, cascade_value cs (on_circle g fs) h /\
       let t := chebyshev_T n (tan (PI * g / fs) / tan (PI * fc / fs)) in Cmod h = Rabs t / sqrt (Rpower 10 (db / 10) - 1 + t ^ 2)) /\
    (Nat.odd n = true -> cascade_value cs (RtoC 1) (RtoC 0)) /\
    (forall g h, 0 < g <= fc -> cascade_value cs (on_circle g fs) h -> Cmod h <= Rpower 10 (- db / 20)) /\
    (forall h, cascade_value cs (on_circle fc fs) h -> Cmod h = Rpower 10 (- db / 20)) /\
    (forall f g hf hg, fc <= f -> f < g -> g < fs / 2 -> cascade_value cs (on_circle f fs) hf -> cascade_value cs (on_circle g fs) hg -> Cmod hf < Cmod hg < 1).
Proof. intros HQ (H1 & H2) HF HC HB HD HE. now apply chebyshev2_highpass_design. Qed.
Print Assumptions C83_chebyshev2_highpass.
Theorem C83_chebyshev2_bandpass ex qsort n db fs low high m : sorts qsort -> (1 <= n <= 15)%nat -> 0 < fs -> band_inside fs low high -> (Z.of_nat n <= m)%Z -> 0 < db -> db <= 80 ->
  let tl := tan (PI * low / fs) in let th := tan (PI * high / fs) in (Nat.odd n = true -> edge_clear ((th - tl) * real_pole2 n db) (tl * th)) ->
  exists cs, chebyshev2_bandpass ex qsort (Z.of_nat n) db low high fs m = Ok (Some cs) /\ length cs = n /\ stable_cascade cs /\
    (forall g, - (fs / 2) < g < fs / 2 -> g <> 0 -> tan (PI * g / fs) * tan (PI * g / fs) = tl * th -> cascade_value cs (on_circle g fs) (RtoC 1)) /\
    (forall g, - (fs / 2) < g < fs / 2 -> g <> 0 -> tan (PI * g / fs) * tan (PI * g / fs) <> tl * th -> exists h, cascade_value cs (on_circle g fs) h /\
       let t := chebyshev_T n (/ bandpass_w tl th (tan (PI * g / fs))) in Cmod h = Rabs t / sqrt (Rpower 10 (db / 10) - 1 + t ^ 2)) /\
    (Nat.odd n = true -> cascade_value cs (RtoC 1) (RtoC 0) /\ cascade_value cs (RtoC (-1)) (RtoC 0)) /\
    (forall g h, 0 < g < fs / 2 -> cascade_value cs (on_circle g fs) h ->
       (g = low \/ g = high -> Cmod h = Rpower 10 (- db / 20)) /\ (low < g < high -> Rpower 10 (- db / 20) < Cmod h <= 1) /\ (g < low \/ high < g -> Cmod h <= Rpower 10 (- db / 20))).
Proof. intros HQ (H1 & H2) HF HC HB HD HE tl th HO. now apply chebyshev2_bandpass_design. Qed.
Print Assumptions C83_chebyshev2_bandpass.
Theorem C83_chebyshev2_bandstop ex qsort n db fs low high m : sorts qsort -> (1 <= n <= 15)%nat -> 0 < fs -> band_inside fs low high -> (Z.of_nat n <= m)%Z -> 0 < db -> db <= 80 ->
  let tl := tan (PI * low / fs) in let th := tan (PI * high / fs) in (Nat.odd n = true -> edge_clear ((th - tl) / real_pole2 n db) (tl * th)) ->
  exists cs, chebyshev2_bandstop ex qsort (Z.of_nat n) db low high fs m = Ok (Some cs) /\ length cs = n /\ stable_cascade cs /\
    cascade_value cs (RtoC 1) (RtoC 1) /\ cascade_value cs (RtoC (-1)) (RtoC 1) /\
    (forall g, - (fs / 2) < g < fs / 2 -> g <> 0 -> tan (PI * g / fs) * tan (PI * g / fs) <> tl * th -> exists h, cascade_value cs (on_circle g fs) h /\
       let t := chebyshev_T n (bandpass_w tl th (tan (PI * g / fs))) in Cmod h = Rabs t / sqrt (Rpower 10 (db / 10) - 1 + t ^ 2)) /\
    (Nat.odd n = true -> forall g, - (fs / 2) < g < fs / 2 -> tan (PI * g / fs) * tan (PI * g / fs) = tl * th -> cascade_value cs (on_circle g fs) (RtoC 0)) /\
    (forall g h, 0 < g < fs / 2 -> tan (PI * g / fs) * tan (PI * g / fs) <> tl * th -> cascade_value cs (on_circle g fs) h ->
       (g = low \/ g = high -> Cmod h = Rpower 10 (- db / 20)) /\ (low < g < high -> Cmod h <= Rpower 10 (- db / 20)) /\ (g < low \/ high < g -> Rpower 10 (- db / 20) < Cmod h < 1)).
Proof. intros HQ (H1 & H2) HF HC HB HD HE tl th HO. now apply chebyshev2_bandstop_design. Qed.
Print Assumptions C83_chebyshev2_bandstop.
(* orders below one, frequencies out of range and too little room are refused *)
Theorem C83_small_order ex qsort order db fc low high fs m : (order < 1)%Z ->
  butterworth_lowpass ex qsort order fc fs m = Ok None /\
  butterworth_highpass ex qsort order fc fs m = Ok None /\
  butterworth_bandpass ex qsort order low high fs m = Ok None /\
  butterworth_bandstop ex qsort order low high fs m = Ok None /\
  chebyshev1_lowpass ex qsort order db fc fs m = Ok None /\
  chebyshev1_highpass ex qsort order db fc fs m = Ok None /\
  chebyshev1_bandpass ex qsort order db low high fs m = Ok None /\
  chebyshev1_bandstop ex qsort order db low high fs m = Ok None /\
  chebyshev2_lowpass ex qsort order db fc fs m = Ok None /\
  chebyshev2_highpass ex qsort order db fc fs m = Ok None /\
  chebyshev2_bandpass ex qsort order db low high fs m = Ok None /\
  chebyshev2_bandstop ex qsort order db low high fs m = Ok None.
Proof.
  intros H. unfold butterworth_lowpass, butterworth_highpass, butterworth_bandpass, butterworth_bandstop, chebyshev1_lowpass, chebyshev1_highpass, chebyshev1_bandpass, chebyshev1_bandstop, chebyshev2_lowpass, chebyshev2_highpass, chebyshev2_bandpass, chebyshev2_bandstop, butterworth_zpk, chebyshev1_zpk, chebyshev2_zpk. rewrite !with_order_small by exact H. repeat split; reflexivity.
Qed.
Print Assumptions C83_small_order.
Theorem C83_bad_frequency ex qsort n db fc low high fs m : (1 <= n <= 30)%nat -> 0 < db ->
  (fc < 0 \/ fs / 2 <= fc ->
  butterworth_lowpass ex qsort (Z.of_nat n) fc fs m = Ok None /\
  butterworth_highpass ex qsort (Z.of_nat n) fc fs m = Ok None /\
  chebyshev1_lowpass ex qsort (Z.of_nat n) db fc fs m = Ok None /\
  chebyshev1_highpass ex qsort (Z.of_nat n) db fc fs m = Ok None /\
  chebyshev2_lowpass ex qsort (Z.of_nat n) db fc fs m = Ok None /\
  chebyshev2_highpass ex qsort (Z.of_nat n) db fc fs m = Ok None) /\
  (low < 0 \/ high < low \/ fs / 2 <= high ->
  butterworth_bandpass ex qsort (Z.of_nat n) low high fs m = Ok None /\
  butterworth_bandstop ex qsort (Z.of_nat n) low high fs m = Ok None /\
  chebyshev1_bandpass ex qsort (Z.of_nat n) db low high fs m = Ok None /\
  chebyshev1_bandstop ex qsort (Z.of_nat n) db low high fs m = Ok None /\
  chebyshev2_bandpass ex qsort (Z.of_nat n) db low high fs m = Ok None /\
  chebyshev2_bandstop ex qsort (Z.of_nat n) db low high fs m = Ok None).
Proof.
  intros (H1 & H2) HD. destruct (butterworth_zpk_ok ex n H1 H2) as (f0 & E0 & _). destruct (chebyshev1_zpk_ok ex n db H1 H2 HD) as (f1 & E1 & _). destruct (chebyshev2_zpk_ok ex n db H1 H2 HD) as (f2 & E2 & _).
  unfold butterworth_lowpass, butterworth_highpass, butterworth_bandpass, butterworth_bandstop, chebyshev1_lowpass, chebyshev1_highpass, chebyshev1_bandpass, chebyshev1_bandstop, chebyshev2_lowpass, chebyshev2_highpass, chebyshev2_bandpass, chebyshev2_bandstop. rewrite !E0, !E1, !E2. cbn [from_prototype obind].
  split; intros H; repeat split; (now apply lowpass_bad_edge) || (now apply highpass_bad_edge) || (now apply bandpass_bad_edge) || (now apply bandstop_bad_edge).
Qed.
Print Assumptions C83_bad_frequency.
(* with less room than the biquads that a design needs, it fails *)
Theorem C83_too_little_room ex qsort order db fc low high fs m m' cs : (m' < Z.of_nat (length cs))%Z ->
  (butterworth_lowpass ex qsort order fc fs m = Ok (Some cs) -> butterworth_lowpass ex qsort order fc fs m' = Ok None) /\
  (butterworth_highpass ex qsort order fc fs m = Ok (Some cs) -> butterworth_highpass ex qsort order fc fs m' = Ok None) /\
  (butterworth_bandpass ex qsort order low high fs m = Ok (Some cs) -> butterworth_bandpass ex qsort order low high fs m' = Ok None) /\
  (butterworth_bandstop ex qsort order low high fs m = Ok (Some cs) -> butterworth_bandstop ex qsort order low high fs m' = Ok None) /\
  (chebyshev1_lowpass ex qsort order db fc fs m = Ok (Some cs) -> chebyshev1_lowpass ex qsort order db fc fs m' = Ok None) /\
  (chebyshev1_highpass ex qsort order db fc fs m = Ok (Some cs) -> chebyshev1_highpass ex qsort order db fc fs m' = Ok None) /\
  (chebyshev1_bandpass ex qsort order db low high fs m = Ok (Some cs) -> chebyshev1_bandpass ex qsort order db low high fs m' = Ok None) /\
  (chebyshev1_bandstop ex qsort order db low high fs m = Ok (Some cs) -> chebyshev1_bandstop ex qsort order db low high fs m' = Ok None) /\
  (chebyshev2_lowpass ex qsort order db fc fs m = Ok (Some cs) -> chebyshev2_lowpass ex qsort order db fc fs m' = Ok None) /\
  (chebyshev2_highpass ex qsort order db fc fs m = Ok (Some cs) -> chebyshev2_highpass ex qsort order db fc fs m' = Ok None) /\
  (chebyshev2_bandpass ex qsort order db low high fs m = Ok (Some cs) -> chebyshev2_bandpass ex qsort order db low high fs m' = Ok None) /\
  (chebyshev2_bandstop ex qsort order db low high fs m = Ok (Some cs) -> chebyshev2_bandstop ex qsort order db low high fs m' = Ok None).
Proof.
  intros H. split; [|split; [|split; [|split; [|split; [|split; [|split; [|split; [|split; [|split; [|split]]]]]]]]]].
  - intros E. apply (prototype_room _ (fun m f => design_lowpass ex qsort f fc fs m) m m' cs); [intros f; apply lowpass_room|exact E|exact H].
  - intros E. apply (prototype_room _ (fun m f => design_highpass ex qsort f fc fs m) m m' cs); [intros f; apply highpass_room|exact E|exact H].
  - intros E. apply (prototype_room _ (fun m f => design_bandpass ex qsort f low high fs m) m m' cs); [intros f; apply bandpass_room|exact E|exact H].
  - intros E. apply (prototype_room _ (fun m f => design_bandstop ex qsort f low high fs m) m m' cs); [intros f; apply bandstop_room|exact E|exact H].
  - intros E. apply (prototype_room _ (fun m f => design_lowpass ex qsort f fc fs m) m m' cs); [intros f; apply lowpass_room|exact E|exact H].
  - intros E. apply (prototype_room _ (fun m f => design_highpass ex qsort f fc fs m) m m' cs); [intros f; apply highpass_room|exact E|exact H].
  - intros E. apply (prototype_room _ (fun m f => design_bandpass ex qsort f low high fs m) m m' cs); [intros f; apply bandpass_room|exact E|exact H].
  - intros E. apply (prototype_room _ (fun m f => design_bandstop ex qsort f low high fs m) m m' cs); [intros f; apply bandstop_room|exact E|exact H].
  - intros E. apply (prototype_room _ (fun m f => design_lowpass ex qsort f fc fs m) m m' cs); [intros f; apply lowpass_room|exact E|exact H].
  - intros E. apply (prototype_room _ (fun m f => design_highpass ex qsort f fc fs m) m m' cs); [intros f; apply highpass_room|exact E|exact H].
  - intros E. apply (prototype_room _ (fun m f => design_bandpass ex qsort f low high fs m) m m' cs); [intros f; apply bandpass_room|exact E|exact H].
  - intros E. apply (prototype_room _ (fun m f => design_bandstop ex qsort f low high fs m) m m' cs); [intros f; apply bandstop_room|exact E|exact H].
Qed.
Print Assumptions C83_too_little_room.
(* An order above thirty is not refused: the roots are written past the end of their arrays. *)
Theorem C83_large_order_refuted ex qsort order db fc low high fs m : (30 < order)%Z ->
  butterworth_lowpass ex qsort order fc fs m = Undef /\
  butterworth_highpass ex qsort order fc fs m = Undef /\
  butterworth_bandpass ex qsort order low high fs m = Undef /\
  butterworth_bandstop ex qsort order low high fs m = Undef /\
  chebyshev1_lowpass ex qsort order db fc fs m = Undef /\
  chebyshev1_highpass ex qsort order db fc fs m = Undef /\
  chebyshev1_bandpass ex qsort order db low high fs m = Undef /\
  chebyshev1_bandstop ex qsort order db low high fs m = Undef /\
  chebyshev2_lowpass ex qsort order db fc fs m = Undef /\
  chebyshev2_highpass ex qsort order db fc fs m = Undef /\
  chebyshev2_bandpass ex qsort order db low high fs m = Undef /\
  chebyshev2_bandstop ex qsort order db low high fs m = Undef.
Proof.
  intros H. unfold butterworth_lowpass, butterworth_highpass, butterworth_bandpass, butterworth_bandstop, chebyshev1_lowpass, chebyshev1_highpass, chebyshev1_bandpass, chebyshev1_bandstop, chebyshev2_lowpass, chebyshev2_highpass, chebyshev2_bandpass, chebyshev2_bandstop, butterworth_zpk, chebyshev1_zpk, chebyshev2_zpk. rewrite !with_order_large by exact H. repeat split; reflexivity.
Qed.
Print Assumptions C83_large_order_refuted.
(* A bandpass or bandstop design of an order from 16 to 30 reports success, but it is neither: the
   Butterworth "bandpass" filter amplifies a constant signal by 2^n, the "bandstop" filter removes it. *)
Theorem C83_band_order_refuted ex qsort n fs low high m : sorts qsort -> (16 <= n <= 30)%nat -> 0 < fs -> band_inside fs low high -> (Z.of_nat (Nat.div2 (n + 1)) <= m)%Z ->
  (exists cs h, butterworth_bandpass ex qsort (Z.of_nat n) low high fs m = Ok (Some cs) /\ length cs = Nat.div2 (n + 1) /\ cascade_value cs (RtoC 1) h /\ Cmod h = 2 ^ n) /\
  (exists cs, butterworth_bandstop ex qsort (Z.of_nat n) low high fs m = Ok (Some cs) /\ length cs = Nat.div2 (n + 1) /\ cascade_value cs (RtoC 1) (RtoC 0)).
Proof.
  intros HQ (H1 & H2) HF HC HB. destruct (butterworth_zpk_ok ex n ltac:(lia) H2) as (f & E & SF). destruct (butterworth_lowpass_prototype n ltac:(lia)) as (L & LP & LZ). pose proof (butterworth_moderate n ltac:(lia) H2) as M.
  split.
  - destruct (overflow_bandpass ex qsort HQ f _ fs low high m SF L M HF) as (cs & E1 & E2 & V); [rewrite LP; lia|exact HC|rewrite LP; exact HB|]. destruct (butterworth_dc n ltac:(lia)) as (h & VH & MH). exists cs. eexists. unfold butterworth_bandpass. rewrite (from_prototype_is _ f) by exact E. split; [exact E1|]. split; [rewrite E2, LP; reflexivity|]. split; [apply V; exact VH|].
    rewrite Cmod_mult, MH, Cmod_R, LP, LZ. cbn [length]. rewrite Nat.sub_0_r, Rmult_1_r. apply Rabs_pos_eq. apply pow_le. lra.
  - destruct (overflow_bandstop ex qsort HQ f _ fs low high m SF L M HF) as (cs & E1 & E2 & V); [rewrite LP; lia|exact HC|rewrite LP; exact HB|]. exists cs. unfold butterworth_bandstop. rewrite (from_prototype_is _ f) by exact E. split; [exact E1|]. split; [rewrite E2, LP; reflexivity|]. apply V. rewrite LP, LZ. cbn. lia.
Qed.
Print Assumptions C83_band_order_refuted.
(* 48 kHz, a corner at 1 kHz, a band from 8 to 12 kHz, orders 3 and 20 *)
Example C83_hypotheses : corner_inside 48000 1000 /\ band_inside 48000 8000 12000 /\ sorts insertion_sort /\ (Z.of_nat (Nat.div2 (20 + 1)) <= 10)%Z /\
  edge_clear (tan (PI * 12000 / 48000) - tan (PI * 8000 / 48000)) (tan (PI * 8000 / 48000) * tan (PI * 12000 / 48000)).
Proof.
  split; [unfold corner_inside; lra|]. split; [unfold band_inside; lra|]. split; [exact insertion_sorts|]. split; [cbn; lia|].
  replace (PI * 12000 / 48000) with (PI / 4) by field. replace (PI * 8000 / 48000) with (PI / 6) by field. rewrite tan_PI4, tan_PI6. right.
  assert (S3 : sqrt 3 * sqrt 3 = 3) by (apply sqrt_sqrt; lra). assert (S0 : 0 < sqrt 3) by (apply sqrt_lt_R0; lra). assert (SL : 3 / 2 < sqrt 3) by nra. assert (SU : sqrt 3 < 2) by nra.
  assert (Q : / 2 < 1 / sqrt 3) by (apply (Rmult_lt_reg_r (sqrt 3)); [exact S0|]; unfold Rdiv; rewrite Rmult_assoc, Rinv_l by lra; lra). assert (Q2 : 1 / sqrt 3 < 1) by (apply (Rmult_lt_reg_r (sqrt 3)); [exact S0|]; unfold Rdiv; rewrite Rmult_assoc, Rinv_l by lra; lra). set (q := 1 / sqrt 3) in *. clearbody q. nra.
Qed.
