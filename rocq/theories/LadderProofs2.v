(* The ladder filter realises the transfer function it was initialised from. *)
From Verif Require Import Common ListLemmas Mealy RealUtil BiquadModel CascadeModel CascadeProofs LadderModel LadderSpec LadderProofs.
From Coq Require Import Psatz.
Local Open Scope R_scope.

(* polynomials in the delay operator acting on signals *)
Definition delay (s : nat -> R) (n : nat) : R := match n with O => 0 | S n' => s n' end.
Fixpoint pact (p : list R) (s : nat -> R) (n : nat) : R :=
  match p with [] => 0 | a :: p' => a * s n + pact p' (delay s) n end.
Lemma delay_ext s t : (forall n, s n = t n) -> forall n, delay s n = delay t n.
Proof. intros H [|n]; [reflexivity|apply H]. Qed.
Lemma pact_ext p : forall s t, (forall n, s n = t n) -> forall n, pact p s n = pact p t n.
Proof. induction p as [|a p IH]; intros s t H n; cbn [pact]; [reflexivity|]. rewrite H, (IH _ _ (delay_ext s t H)). reflexivity. Qed.
Lemma pact_add p : forall s t n, pact p (fun m => s m + t m) n = pact p s n + pact p t n.
Proof.
  induction p as [|a p IH]; intros s t n; cbn [pact]; [lra|].
  rewrite (pact_ext p (delay (fun m => s m + t m)) (fun m => delay s m + delay t m)) by (intros [|m]; cbn; lra).
  rewrite IH. ring.
Qed.
Lemma pact_scale_signal p : forall c s n, pact p (fun m => c * s m) n = c * pact p s n.
Proof.
  induction p as [|a p IH]; intros c s n; cbn [pact]; [lra|].
  rewrite (pact_ext p (delay (fun m => c * s m)) (fun m => c * delay s m)) by (intros [|m]; cbn; lra).
  rewrite IH. ring.
Qed.
Lemma pact_delay p : forall s n, pact p (delay s) n = delay (pact p s) n.
Proof.
  induction p as [|a p IH]; intros s n; cbn [pact]; [destruct n; reflexivity|]. rewrite (IH (delay s)). destruct n as [|n]; cbn; [ring|]. reflexivity.
Qed.
Lemma pact_nil_zero p s n : (forall j, nth j p 0 = 0) -> pact p s n = 0.
Proof.
  revert s. induction p as [|a p IH]; intros s H; cbn [pact]; [reflexivity|].
  pose proof (H O) as H0. cbn in H0. subst a. rewrite IH; [lra|]. intros j. exact (H (S j)).
Qed.
Lemma pact_coef p : forall q s n, (forall j, nth j p 0 = nth j q 0) -> pact p s n = pact q s n.
Proof.
  induction p as [|a p IH]; intros q s n H.
  - symmetry. cbn [pact]. apply pact_nil_zero. intros j. rewrite <- H. now destruct j.
  - destruct q as [|b q].
    + apply (pact_nil_zero (a :: p)). intros j. rewrite H. now destruct j.
    + cbn [pact]. pose proof (H O) as H0. cbn in H0. subst b. rewrite (IH q); [reflexivity|]. intros j. exact (H (S j)).
Qed.
Lemma pact_padd x : forall y s n, pact (padd x y) s n = pact x s n + pact y s n.
Proof. induction x as [|a x IH]; intros [|b y] s n; cbn [padd pact]; try lra. rewrite IH. ring. Qed.
Lemma pact_scale c p : forall s n, pact (map (Rmult c) p) s n = c * pact p s n.
Proof. induction p as [|a p IH]; intros s n; cbn [map pact]; [lra|]. rewrite IH. ring. Qed.
Lemma pact_shift p s n : pact (0 :: p) s n = delay (pact p s) n.
Proof. cbn [pact]. rewrite pact_delay. lra. Qed.
Lemma pact_zero_signal q : forall n, pact q (fun _ => 0) n = 0.
Proof.
  induction q as [|b q IH]; intros n; cbn [pact]; [reflexivity|].
  rewrite (pact_ext q _ (fun _ => 0)) by (intros [|m]; reflexivity). rewrite IH. lra.
Qed.
Lemma pact_comm p : forall q s n, pact p (pact q s) n = pact q (pact p s) n.
Proof.
  induction p as [|a p IH]; intros q s n; cbn [pact].
  - symmetry. apply pact_zero_signal.
  - rewrite (pact_ext p (delay (pact q s)) (pact q (delay s))) by (intros m; symmetry; apply pact_delay).
    rewrite IH.
    pose proof (pact_add q (fun m => a * s m) (pact p (delay s)) n) as X. cbv beta in X.
    change (pact q (fun m => a * s m + pact p (delay s) m) n) with (pact q (pact (a :: p) s) n) in X. 
    change (a * pact q s n + pact q (pact p (delay s)) n = pact q (pact (a :: p) s) n). rewrite X, pact_scale_signal. ring.
Qed.

(* the polynomials of the Levinson recursion, as operators *)
Section Step.
Variables (m : nat) (pa : list R).
Hypothesis HL : length pa = S (S m).
Let k := nth (S m) pa 0.
Hypothesis Hk : 1 - k * k <> 0.
Hypothesis H0 : nth 0 pa 0 = 1.
Let pa' := map (fun j => (nth j pa 0 - k * nth (S m - j) pa 0) * (1 / (1 - k * k))) (seq 0 (S m)).
Lemma op_forward s n : pact pa s n = pact pa' s n + k * delay (pact (rev pa') s) n.
Proof.
  transitivity (pact (padd pa' (0 :: map (Rmult k) (rev pa'))) s n).
  - apply pact_coef. exact (forward_coef m pa HL Hk H0).
  - rewrite pact_padd, pact_shift. destruct n as [|n]; cbn [delay]; [lra|]. now rewrite pact_scale.
Qed.
Lemma op_backward s n : pact (rev pa) s n = k * pact pa' s n + delay (pact (rev pa') s) n.
Proof.
  transitivity (pact (padd (map (Rmult k) pa') (0 :: rev pa')) s n).
  - apply pact_coef. exact (backward_coef m pa HL Hk H0).
  - rewrite pact_padd, pact_shift, pact_scale. reflexivity.
Qed.
End Step.

(* products of the scattering coefficients below stage m *)
Fixpoint spi (sc : nat -> R) (m : nat) : R := match m with O => 1 | S m' => spi sc m' * sc m' end.
Fixpoint vsum (v : list R) (sc : nat -> R) (g : nat -> nat -> R) (m : nat) (n : nat) : R :=
  match m with
  | O => nth 0 v 0 * spi sc 0 * g O n
  | S m' => vsum v sc g m' n + nth m v 0 * spi sc m * g m n
  end.
Lemma vsum_ext v v' sc g n : forall m, (forall j, (j <= m)%nat -> nth j v 0 = nth j v' 0) -> vsum v sc g m n = vsum v' sc g m n.
Proof.
  induction m as [|m IH]; intros H; cbn [vsum]; [now rewrite (H O) by lia|]. rewrite (H (S m)) by lia. rewrite IH; [reflexivity|]. intros j Hj. apply H. lia.
Qed.

Section Signals.
(* signals at the stages: f is the forward and g the backward signal; sc, kk the coefficients *)
Variables (M : nat) (f g : nat -> nat -> R) (sc kk : nat -> R).
Hypothesis H0 : forall n, f O n = g O n.
Hypothesis HF : forall i n, (i < M)%nat -> sc i * f (S i) n = f i n + kk i * delay (g i) n.
Hypothesis HG : forall i n, (i < M)%nat -> sc i * g (S i) n = kk i * f i n + delay (g i) n.

Lemma ladder_signals m : (m <= M)%nat -> forall pa pp, length pa = S m -> length pp = S m -> nth 0 pa 0 = 1 ->
  Forall (fun k => Rabs k < 1) (fst (ladder_loop m pa pp)) ->
  (forall i, (i < m)%nat -> kk i = nth i (fst (ladder_loop m pa pp)) 0) ->
  forall n, spi sc m * f m n = pact pa (g O) n /\ spi sc m * g m n = pact (rev pa) (g O) n /\
    vsum (snd (ladder_loop m pa pp)) sc g m n = pact pp (g O) n.
Proof.
  induction m as [|m IH]; intros HM pa pp La Lp A0 HK KK n.
  - destruct pa as [|a [|? ?]]; try discriminate. cbn in A0. subst a. destruct pp as [|p [|? ?]]; try discriminate.
    cbn. rewrite H0. repeat split; ring.
  - cbn [ladder_loop fst snd] in *. cbv zeta in *. cbn [fst snd] in *.
    set (k := nth (S m) pa 0) in *. set (v := nth (S m) pp 0) in *.
    set (pa' := map (fun j => (nth j pa 0 - k * nth (S m - j) pa 0) * (1 / (1 - k * k))) (seq 0 (S m))) in *.
    set (pp' := map (fun j => nth j pp 0 - nth (S m - j) pa 0 * v) (seq 0 (S m))) in *.
    apply Forall_app in HK. destruct HK as [HK1 HK2]. pose proof (Forall_inv HK2) as Hk.
    assert (NK : 1 - k * k <> 0) by (pose proof (square_lt1 k Hk); lra).
    destruct (ladder_loop_length m pa' pp') as [LK LV].
    assert (KKm : kk m = k).
    { rewrite KK by lia. rewrite app_nth2 by (rewrite LK; lia). rewrite LK, Nat.sub_diag. reflexivity. }
    assert (IHn : forall n, spi sc m * f m n = pact pa' (g O) n /\ spi sc m * g m n = pact (rev pa') (g O) n /\
      vsum (snd (ladder_loop m pa' pp')) sc g m n = pact pp' (g O) n).
    { apply IH.
      - lia.
      - unfold pa'. now rewrite map_length, seq_length.
      - unfold pp'. now rewrite map_length, seq_length.
      - exact (reduced_head m pa La NK A0).
      - exact HK1.
      - intros i Hi. rewrite KK by lia. rewrite app_nth1 by (rewrite LK; lia). reflexivity. }
    destruct (IHn n) as (I1 & I2 & I3).
    assert (DG : spi sc m * delay (g m) n = delay (pact (rev pa') (g O)) n).
    { destruct n as [|n']; cbn [delay]; [ring|]. apply (IHn n'). }
    assert (R1 : spi sc (S m) * f (S m) n = pact pa (g O) n).
    { cbn [spi]. rewrite Rmult_assoc, HF by lia. rewrite (op_forward m pa La NK A0). fold k. fold pa'. rewrite <- I1, <- DG, KKm. ring. }
    assert (R2 : spi sc (S m) * g (S m) n = pact (rev pa) (g O) n).
    { cbn [spi]. rewrite Rmult_assoc, HG by lia. rewrite (op_backward m pa La NK A0). fold k. fold pa'. rewrite <- I1, <- DG, KKm. ring. }
    split; [exact R1|]. split; [exact R2|]. cbn [vsum].
    rewrite (vsum_ext _ (snd (ladder_loop m pa' pp'))) by (intros j Hj; apply app_nth1; rewrite LV; lia).
    rewrite I3. rewrite app_nth2 by (rewrite LV; lia). rewrite LV, Nat.sub_diag. cbn [nth].
    rewrite Rmult_assoc, R2.
    rewrite (pact_coef pp (padd pp' (map (Rmult v) (rev pa)))); [rewrite pact_padd, pact_scale; reflexivity|].
    intros j. rewrite nth_padd, nth_scale. destruct (le_lt_dec j m) as [L|L].
    + unfold pp'. rewrite nth_map_seq by lia. rewrite nth_rev_R by lia. rewrite La. replace (S (S m) - S j)%nat with (S m - j)%nat by lia. ring.
    + rewrite (nth_overflow pp') by (unfold pp'; rewrite map_length, seq_length; lia).
      destruct (Nat.eq_dec j (S m)) as [->|NE].
      * rewrite nth_rev_R by lia. rewrite La. replace (S (S m) - S (S m))%nat with O by lia. rewrite A0. unfold v. ring.
      * rewrite (nth_overflow pp) by lia. rewrite nth_overflow by (rewrite rev_length; lia). ring.
Qed.
End Signals.

(* one step of the lattice: relations between neighbouring stages *)
Fixpoint forward (k s st : list R) (x : R) : list R :=
  match k, s, st with
  | a :: k', c :: s', g :: st' => let r := forward k' s' st' x in (c * nth 0 r 0 - a * g) :: r
  | _, _, _ => [x]
  end.
Lemma forward_head k : forall s st x, nth 0 (forward k s st x) 0 = snd (lattice k s st x).
Proof.
  induction k as [|a k IH]; intros s st x; [reflexivity|]. destruct s as [|c s]; [reflexivity|]. destruct st as [|g st]; [reflexivity|].
  cbn [forward lattice nth snd]. now rewrite IH.
Qed.
Lemma forward_last k : forall s st x, length s = length k -> (length k <= length st)%nat -> nth (length k) (forward k s st x) 0 = x.
Proof.
  induction k as [|a k IH]; intros s st x Ls Lst; [destruct s, st; reflexivity|].
  destruct s as [|c s]; [discriminate|]. destruct st as [|g st]; [cbn in Lst; lia|]. cbn [forward length nth] in *. apply IH; lia.
Qed.
Lemma lattice_relations k : forall s st x i, length s = length k -> (length k <= length st)%nat ->
  Forall2 (fun a c => a * a + c * c = 1) k s -> (i < length k)%nat ->
  nth i s 0 * nth (S i) (forward k s st x) 0 = nth i (forward k s st x) 0 + nth i k 0 * nth i st 0 /\
  nth i s 0 * nth i (fst (lattice k s st x)) 0 = nth i k 0 * nth i (forward k s st x) 0 + nth i st 0.
Proof.
  induction k as [|a k IH]; intros s st x i Ls Lst HS Hi; [cbn in Hi; lia|].
  destruct s as [|c s]; [discriminate|]. destruct st as [|g st]; [cbn in Lst; lia|].
  inversion HS as [|? ? ? ? H1 H2]; subst. cbn [length] in *. cbn [forward lattice fst snd]. destruct i as [|i]; cbn [nth].
  - rewrite <- forward_head. set (p := nth 0 (forward k s st x) 0). split; [ring|].
    replace (c * (a * p + c * g)) with (a * (c * p - a * g) + (a * a + c * c) * g) by ring. rewrite H1. ring.
  - apply IH; auto; lia.
Qed.
Lemma lattice_length k : forall s st x, length s = length k -> (length k <= length st)%nat -> length (fst (lattice k s st x)) = length k.
Proof.
  induction k as [|a k IH]; intros s st x Ls Lst; [destruct s, st; reflexivity|].
  destruct s as [|c s]; [discriminate|]. destruct st as [|g st]; [cbn in Lst; lia|]. cbn [lattice fst length] in *. rewrite IH; lia.
Qed.

(* sums *)
Fixpoint sumn (h : nat -> R) (m : nat) : R := match m with O => h O | S m' => sumn h m' + h m end.
Lemma sumn_ext h h' m : (forall j, (j <= m)%nat -> h j = h' j) -> sumn h m = sumn h' m.
Proof. induction m as [|m IH]; intros H; cbn [sumn]; [apply H; lia|]. rewrite IH, (H (S m)) by (intros; try apply H; lia). reflexivity. Qed.
Lemma sumn_shift h m : sumn h (S m) = h O + sumn (fun j => h (S j)) m.
Proof. induction m as [|m IH]; [cbn; ring|]. cbn [sumn] in *. rewrite IH. ring. Qed.
Lemma sumn_scale c h m : sumn (fun j => c * h j) m = c * sumn h m.
Proof. induction m as [|m IH]; cbn [sumn]; [reflexivity|]. rewrite IH. ring. Qed.
Lemma dot_sumn x : forall y m, length x = S m -> length y = S m -> dot x y = sumn (fun j => nth j x 0 * nth j y 0) m.
Proof.
  induction x as [|a x IH]; intros y m Lx Ly; [discriminate|]. destruct y as [|b y]; [discriminate|]. cbn [dot].
  destruct m as [|m].
  - destruct x; [|discriminate]. cbn. ring.
  - rewrite sumn_shift. cbn [nth]. rewrite (IH y m) by (cbn in *; lia). reflexivity.
Qed.
Lemma vsum_sumn v sc g n m : vsum v sc g m n = sumn (fun j => nth j v 0 * spi sc j * g j n) m.
Proof. induction m as [|m IH]; cbn [vsum sumn]; [reflexivity|]. now rewrite IH. Qed.

Lemma tail_products_length k : length (tail_products k) = S (length k).
Proof. induction k as [|a k IH]; [reflexivity|]. cbn [tail_products length]. now rewrite IH. Qed.
Lemma spi_ext f g m : (forall i, (i < m)%nat -> f i = g i) -> spi f m = spi g m.
Proof. induction m as [|m IH]; intros H; [reflexivity|]. cbn [spi]. rewrite IH, (H m) by (intros; try apply H; lia). reflexivity. Qed.
Lemma spi_cons f m : spi f (S m) = f O * spi (fun i => f (S i)) m.
Proof. induction m as [|m IH]; [cbn; ring|]. cbn [spi] in *. rewrite IH. ring. Qed.
Lemma tail_products_spi k : forall m, (m <= length k)%nat ->
  spi (fun i => sqrt (1 - nth i k 0 * nth i k 0)) m * nth m (tail_products k) 0 = spi (fun i => sqrt (1 - nth i k 0 * nth i k 0)) (length k).
Proof.
  induction k as [|a k IH]; intros m Hm; [assert (m = O) as -> by (cbn in Hm; lia); cbn; ring|].
  cbn [length]. rewrite spi_cons. cbn [nth]. destruct m as [|m].
  - cbn [spi tail_products nth]. pose proof (IH O ltac:(lia)) as H. cbn [spi] in H. rewrite <- H.
    rewrite (nth_indep _ 1 0) by (rewrite tail_products_length; lia). ring.
  - rewrite spi_cons. cbn [nth tail_products]. rewrite Rmult_assoc, IH by (cbn in Hm; lia). reflexivity.
Qed.

Section Rows.
Variables (k s : list R).
Fixpoint row_from (r : list R) (x : nat -> R) (n : nat) : list R :=
  match n with O => r | S n' => channel_update k s (row_from r x n') (x n') end.
Lemma row_from_shift r x n : row_from (channel_update k s r (x O)) (fun m => x (S m)) n = row_from r x (S n).
Proof. induction n as [|n IH]; [reflexivity|]. cbn [row_from] in *. now rewrite IH. Qed.
End Rows.

Section Realise.
Variables (b a k v : list R).
Hypothesis HM : make_ladder b a = Ok (k, v).
Hypothesis HK : Forall (fun x => Rabs x < 1) k.
Let s := map (fun x => sqrt (1 - x * x)) k.
Let tap := convert_tap_gains k v.
Variable x : nat -> R.
Let row := row_from k s (repeat 0 (S (length k))) x.
Let y (n : nat) : R := dot (row (S n)) tap.

Lemma s_length : length s = length k.
Proof. apply map_length. Qed.
Lemma s_squares : Forall2 (fun p c => p * p + c * c = 1) k s.
Proof.
  unfold s. clear - HK. revert HK. generalize k as l. induction l as [|p l IH]; intros F; [constructor|].
  inversion F as [|? ? H F']; subst. cbn [map]. constructor; [|now apply IH].
  rewrite sqrt_sqrt; [lra|]. pose proof (square_lt1 p H). lra.
Qed.
Lemma s_nth i : (i < length k)%nat -> nth i s 0 = sqrt (1 - nth i k 0 * nth i k 0).
Proof.
  intros H. unfold s. rewrite (nth_indep _ 0 ((fun p => sqrt (1 - p * p)) 0)) by (rewrite map_length; exact H).
  exact (map_nth (fun p => sqrt (1 - p * p)) k 0 i).
Qed.
Lemma row_length n : length (row n) = S (length k).
Proof.
  induction n as [|n IH]; [apply repeat_length|]. unfold row in *. cbn [row_from]. unfold channel_update. cbn [length].
  rewrite lattice_length; [reflexivity|apply s_length|lia].
Qed.
Lemma make_ladder_inv : exists m pa pp, ladder_loop m pa pp = (k, v) /\ length pa = S m /\ length pp = S m /\ nth 0 pa 0 = 1 /\ length k = m /\ length v = S m /\
  nth 0 a 0 <> 0 /\ (forall j, nth j pa 0 = nth j a 0 / nth 0 a 0) /\ (forall j, nth j pp 0 = nth j b 0 / nth 0 a 0).
Proof.
  unfold make_ladder in HM. apply ocheck_inv in HM as [B1 H1]. apply ocheck_inv in H1 as [B2 H1]. apply ocheck_inv in H1 as [B3 H1].
  cbv zeta in H1. injection H1 as E.
  set (m := (Nat.max (length b) (length a) - 1)%nat) in *.
  set (pp := vresize 0 (S m) (map (fun x => x / nth 0 a 0) b)) in *. set (pa := vresize 0 (S m) (map (fun x => x / nth 0 a 0) a)) in *.
  assert (LB : length b <> O) by (destruct (Nat.eqb_spec (length b) 0); [discriminate|assumption]).
  assert (NA : nth 0 a 0 <> 0) by (destruct (Reqb_spec (nth 0 a 0) 0); [discriminate|assumption]).
  exists m, pa, pp. destruct (ladder_loop_length m pa pp) as [L1 L2]. rewrite E in L1, L2. cbn [fst snd] in L1, L2.
  assert (Ja : forall j, nth j pa 0 = nth j a 0 / nth 0 a 0).
  { intros j. unfold pa. rewrite vresize_nth by (rewrite map_length; lia). apply nth_div. }
  split; [exact E|]. split; [unfold pa; apply vresize_len; rewrite map_length; lia|]. split; [unfold pp; apply vresize_len; rewrite map_length; lia|].
  split; [rewrite Ja; field; exact NA|]. split; [exact L1|]. split; [exact L2|]. split; [exact NA|]. split; [exact Ja|].
  intros j. unfold pp. rewrite vresize_nth by (rewrite map_length; lia). apply nth_div.
Qed.

Lemma realises n : pact a y n = pact b x n.
Proof.
  destruct make_ladder_inv as (m & pa & pp & E & La & Lp & A0 & Lk & Lv & NA & Ja & Jb).
  set (f := fun i n => nth i (forward k s (row n) (x n)) 0).
  set (g := fun i n => nth i (row (S n)) 0).
  assert (DG : forall i n, delay (g i) n = nth i (row n) 0).
  { intros i [|n']; [|reflexivity]. cbn [delay]. unfold row. cbn [row_from]. symmetry.
    apply nth_zeros. apply Forall_forall. intros z Hz. now apply repeat_spec in Hz. }
  assert (SG : forall n, row (S n) = channel_update k s (row n) (x n)) by reflexivity.
  assert (H0 : forall n, f O n = g O n).
  { intros n'. unfold f, g. rewrite SG, forward_head. reflexivity. }
  assert (REL : forall i n, (i < m)%nat ->
    nth i s 0 * f (S i) n = f i n + nth i k 0 * delay (g i) n /\ nth i s 0 * g (S i) n = nth i k 0 * f i n + delay (g i) n).
  { intros i n' Hi. rewrite DG. unfold f, g. rewrite SG. unfold channel_update. cbn [nth].
    apply lattice_relations; [apply s_length|rewrite row_length; lia|apply s_squares|lia]. }
  pose proof (ladder_signals m f g (fun i => nth i s 0) (fun i => nth i k 0) H0
    (fun i n Hi => proj1 (REL i n Hi)) (fun i n Hi => proj2 (REL i n Hi)) m (le_n m) pa pp La Lp A0) as SIG.
  rewrite E in SIG. cbn [fst snd] in SIG. specialize (SIG HK (fun i _ => eq_refl)).
  set (P := spi (fun i => nth i s 0) m).
  assert (PN : P <> 0).
  { unfold P. assert (H : forall j, (j <= m)%nat -> spi (fun i => nth i s 0) j <> 0).
    { induction j as [|j IH]; intros Hj; [cbn; lra|]. cbn [spi]. apply Rmult_integral_contrapositive. split; [apply IH; lia|].
      rewrite s_nth by lia. apply Rgt_not_eq, sqrt_lt_R0.
      assert (Rabs (nth j k 0) < 1) by (rewrite Forall_forall in HK; apply HK, nth_In; lia).
      pose proof (square_lt1 _ H). lra. }
    apply H. lia. }
  assert (X : forall n, P * x n = pact pa (g O) n).
  { intros n'. destruct (SIG n') as (S1 & _ & _). rewrite <- S1. unfold P. f_equal. unfold f. rewrite <- Lk. symmetry.
    apply forward_last; [apply s_length|rewrite row_length; lia]. }
  assert (SP : forall j, (j <= m)%nat -> spi (fun i => nth i s 0) j = spi (fun i => sqrt (1 - nth i k 0 * nth i k 0)) j).
  { intros j Hj. apply spi_ext. intros i Hi. apply s_nth. lia. }
  assert (Y : forall n, P * y n = pact pp (g O) n).
  { intros n'. destruct (SIG n') as (_ & _ & S3). rewrite <- S3, vsum_sumn. unfold y.
    assert (LT : length tap = S m).
    { unfold tap, convert_tap_gains. rewrite map_length, combine_length, tail_products_length. lia. }
    rewrite (dot_sumn _ _ m); [|rewrite row_length; lia|exact LT]. rewrite <- sumn_scale. apply sumn_ext. intros j Hj.
    fold (g j n'). change (nth j (row (S n')) 0) with (g j n').
    assert (NT : nth j tap 0 = nth j v 0 / nth j (tail_products k) 0).
    { unfold tap, convert_tap_gains.
      rewrite (nth_indep _ 0 ((fun p : R * R => fst p / snd p) (0, 0))) by (rewrite map_length, combine_length, tail_products_length; lia).
      rewrite (map_nth (fun p : R * R => fst p / snd p)). rewrite combine_nth by (rewrite tail_products_length; lia). reflexivity. }
    rewrite NT. pose proof (tail_products_spi k j ltac:(lia)) as TP. rewrite Lk, <- !SP in TP by lia. fold P in TP.
    assert (TN : nth j (tail_products k) 0 <> 0) by (intros Z; apply PN; rewrite <- TP, Z; ring).
    rewrite <- TP. field. exact TN. }
  apply (Rmult_eq_reg_l (P / nth 0 a 0)).
  2:{ intros Z. apply PN. apply (Rmult_eq_reg_r (/ nth 0 a 0)); [|now apply Rinv_neq_0_compat]. unfold Rdiv in Z. lra. }
  transitivity (pact pa (fun n => P * y n) n).
  { rewrite pact_scale_signal. rewrite (pact_coef pa (map (Rmult (/ nth 0 a 0)) a)).
    - rewrite pact_scale. field. exact NA.
    - intros j. rewrite Ja, nth_scale. field. exact NA. }
  rewrite (pact_ext pa (fun n => P * y n) (pact pp (g O))) by exact Y. rewrite pact_comm.
  rewrite (pact_ext pp (pact pa (g O)) (fun n => P * x n)) by (intros n'; symmetry; apply X).
  rewrite pact_scale_signal. rewrite (pact_coef pp (map (Rmult (/ nth 0 a 0)) b)).
  - rewrite pact_scale. field. exact NA.
  - intros j. rewrite Jb, nth_scale. field. exact NA.
Qed.
End Realise.

(* back to lists *)
Definition sig (l : list R) (n : nat) : R := nth n l 0.
Definition shifted (j : nat) (s : nat -> R) (n : nat) : R := if (j <=? n)%nat then s (n - j)%nat else 0.
Lemma delay_shifted j s n : delay (shifted j s) n = shifted (S j) s n.
Proof. destruct n as [|n]; cbn [delay]; unfold shifted; cbn [Nat.leb]; [reflexivity|]. destruct (Nat.leb_spec j n); reflexivity. Qed.
Lemma weighted_pact c l n : forall j, weighted c l n j = pact c (shifted j (sig l)) n.
Proof.
  induction c as [|p c IH]; intros j; [reflexivity|]. cbn [weighted pact]. rewrite IH.
  rewrite (pact_ext c (delay (shifted j (sig l))) (shifted (S j) (sig l))) by apply delay_shifted. reflexivity.
Qed.
Lemma weighted_pact0 c l n : weighted c l n 0 = pact c (sig l) n.
Proof. rewrite weighted_pact. apply pact_ext. intros m. unfold shifted. cbn [Nat.leb]. now rewrite Nat.sub_0_r. Qed.
Lemma pact_local p : forall s t n, (forall m, (m <= n)%nat -> s m = t m) -> pact p s n = pact p t n.
Proof.
  induction p as [|a p IH]; intros s t n H; cbn [pact]; [reflexivity|]. rewrite (H n) by lia.
  rewrite (IH (delay s) (delay t)); [reflexivity|]. intros [|m] Hm; [reflexivity|]. cbn [delay]. apply H. lia.
Qed.

(* the filter without pending smoothing *)
Definition settled (f : ladder) : Prop := smoothing_samples f = O.
Definition with_state (f : ladder) (rows : list (list R)) : ladder :=
  {| reflection := reflection f; scattering := scattering f; tap_gains := tap_gains f;
     reflection_smoother := reflection_smoother f; tap_gains_smoother := tap_gains_smoother f;
     reflection_target := reflection_target f; tap_gains_target := tap_gains_target f;
     state := rows; smoothing_samples := smoothing_samples f |}.
Definition next_rows (f : ladder) (frame : list R) : list (list R) :=
  map (fun p => channel_update (reflection f) (scattering f) (fst p) (snd p)) (combine (state f) frame).
Lemma settled_sample eps f frame : settled f -> length frame = length (state f) ->
  ladder_sample eps f frame = Ok (with_state f (next_rows f frame), map (fun row => dot row (tap_gains f)) (next_rows f frame)).
Proof.
  intros HS HL. unfold ladder_sample, smooth. rewrite HS. cbn [obind]. rewrite HL, Nat.eqb_refl. reflexivity.
Qed.
Lemma next_rows_nth f frame i : length frame = length (state f) -> (i < length (state f))%nat ->
  nth i (next_rows f frame) [] = channel_update (reflection f) (scattering f) (nth i (state f) []) (nth i frame 0).
Proof.
  intros HL Hi. unfold next_rows.
  rewrite (nth_indep _ [] (channel_update (reflection f) (scattering f) (fst (@nil R, 0)) (snd (@nil R, 0)))) by (rewrite map_length, combine_length; lia).
  rewrite (map_nth (fun p : list R * R => channel_update (reflection f) (scattering f) (fst p) (snd p))).
  rewrite combine_nth by lia. reflexivity.
Qed.
Lemma settled_run eps frames : forall f, settled f -> Forall (fun fr => length fr = length (state f)) frames ->
  exists f' outs, run (ladder_sample eps) f frames = Ok (f', outs) /\ length outs = length frames /\
    Forall (fun o => length o = length (state f)) outs /\
    forall i n, (i < length (state f))%nat -> (n < length frames)%nat ->
      nth i (nth n outs []) 0 = dot (row_from (reflection f) (scattering f) (nth i (state f) []) (fun n => nth i (nth n frames []) 0) (S n)) (tap_gains f).
Proof.
  induction frames as [|fr frames IH]; intros f HS HF.
  - exists f, []. repeat split; auto. intros i n _ Hn. cbn in Hn. lia.
  - pose proof (Forall_inv HF) as H1. pose proof (Forall_inv_tail HF) as H2. cbv beta in H1.
    cbn [run]. rewrite (settled_sample eps f fr HS H1). cbn [obind fst snd].
    assert (LN : length (next_rows f fr) = length (state f)) by (unfold next_rows; rewrite map_length, combine_length; lia).
    destruct (IH (with_state f (next_rows f fr))) as (f' & outs & E & L & FO & HV).
    + exact HS.
    + cbn [state with_state]. rewrite LN. exact H2.
    + exists f', (map (fun row => dot row (tap_gains f)) (next_rows f fr) :: outs). rewrite E. cbn [obind fst snd].
      split; [reflexivity|]. split; [cbn; lia|]. cbn [state with_state] in *. rewrite LN in *.
      split; [constructor; [now rewrite map_length|exact FO]|]. intros i n Hi Hn. destruct n as [|n].
      * cbn [nth row_from]. rewrite <- next_rows_nth by assumption.
        rewrite (nth_indep _ 0 (dot [] (tap_gains f))) by (rewrite map_length; lia). exact (map_nth (fun row => dot row (tap_gains f)) (next_rows f fr) [] i).
      * cbn [nth]. cbn [length] in Hn. rewrite (HV i n Hi ltac:(lia)). cbn [reflection scattering tap_gains with_state].
        rewrite next_rows_nth by assumption.
        apply (f_equal (fun r => dot r (tap_gains f))).
        exact (row_from_shift (reflection f) (scattering f) (nth i (state f) []) (fun n => nth i (nth n (fr :: frames) []) 0) (S n)).
Qed.

Lemma init_form eps sm nch k v f : ladder_init eps sm nch k v = Ok f ->
  reflection f = force_stability eps k /\ scattering f = scattering_of eps (force_stability eps k) /\
  tap_gains f = convert_tap_gains (force_stability eps k) v /\ settled f /\
  state f = repeat (repeat 0 (S (length k))) nch.
Proof.
  unfold ladder_init. intros H. do 3 apply ocheck_inv in H as [_ H].
  cbv zeta in H. destruct (smoother_init _ _) as [rs| |]; try discriminate. cbn [obind] in H.
  destruct (smoother_init _ _) as [ts| |]; try discriminate. cbn [obind] in H.
  unfold ladder_reset in H. cbn [reflection_smoother reflection_target tap_gains_smoother tap_gains_target] in H.
  destruct (smoother_reset rs _) as [rs'| |]; try discriminate. cbn [obind] in H.
  destruct (smoother_reset ts _) as [ts'| |]; try discriminate. cbn [obind] in H. injection H as <-.
  cbn [reflection scattering tap_gains state]. repeat split.
  unfold force_stability. rewrite map_length. clear. induction nch as [|n IH]; [reflexivity|]. cbn [repeat map]. now rewrite IH.
Qed.
Lemma scattering_exact eps k : Forall (fun x => 0 < Rabs x < 1) k -> scattering_of eps k = map (fun x => sqrt (1 - x * x)) k.
Proof.
  induction 1 as [|x k [H0 H1] _ IH]; [reflexivity|]. unfold scattering_of in *. cbn [map force_stability] in *. f_equal; [|exact IH].
  apply clamp_id. rewrite Rabs_pos_eq by apply sqrt_pos. rewrite <- sqrt_1 at 2. apply sqrt_lt_1; pose proof (square_lt1 x H1); [lra|lra|].
  assert (0 < x * x) by (apply Rsqr_pos_lt; intros Z; rewrite Z, Rabs_R0 in H0; lra). lra.
Qed.

Lemma ladder_realises eps sm nch b a k v f frames :
  ladder_init_tf eps sm nch b a = Ok f -> make_ladder b a = Ok (k, v) -> Forall (fun x => 0 < Rabs x < 1) k ->
  Forall (fun fr => length fr = nch) frames ->
  exists f' outs, run (ladder_sample eps) f frames = Ok (f', outs) /\ Forall (fun o => length o = nch) outs /\
    forall i, (i < nch)%nat -> implements b a (map (fun fr => nth i fr 0) frames) (map (fun o => nth i o 0) outs).
Proof.
  intros HI HM HK HF. unfold ladder_init_tf in HI. rewrite HM in HI. cbn [obind fst snd] in HI.
  destruct (init_form _ _ _ _ _ _ HI) as (ER & ES & ET & SE & EST).
  assert (HK' : Forall (fun x => Rabs x < 1) k) by (eapply Forall_impl; [|exact HK]; intros z Hz; apply Hz).
  rewrite (force_id eps k HK') in ER, ES, ET. rewrite (scattering_exact eps k HK) in ES.
  assert (LS : length (state f) = nch) by (rewrite EST; apply repeat_length).
  destruct (settled_run eps frames f SE) as (f' & outs & E & L & FO & HV); [now rewrite LS|].
  rewrite LS in *. exists f', outs. split; [exact E|]. split; [exact FO|]. intros i Hi. split; [now rewrite !map_length|].
  rewrite map_length. intros n Hn. rewrite !weighted_pact0.
  assert (NF : forall m, (m < length frames)%nat -> sig (map (fun fr => nth i fr 0) frames) m = nth i (nth m frames []) 0).
  { intros m Hm. unfold sig. rewrite (nth_indep _ 0 ((fun fr : list R => nth i fr 0) [])) by (rewrite map_length; exact Hm).
    exact (map_nth (fun fr : list R => nth i fr 0) frames [] m). }
  assert (NO : forall m, (m < length outs)%nat -> sig (map (fun fr => nth i fr 0) outs) m = nth i (nth m outs []) 0).
  { intros m Hm. unfold sig. rewrite (nth_indep _ 0 ((fun fr : list R => nth i fr 0) [])) by (rewrite map_length; exact Hm).
    exact (map_nth (fun fr : list R => nth i fr 0) outs [] m). }
  set (xs := fun n => nth i (nth n frames []) 0).
  rewrite (pact_local b (sig _) xs n) by (intros m Hm; apply NF; lia).
  rewrite <- (realises b a k v HM HK' xs n).
  apply pact_local. intros m Hm. rewrite NO by lia. rewrite HV by lia. rewrite ER, ES, ET.
  replace (nth i (state f) []) with (repeat 0 (S (length k))); [reflexivity|].
  rewrite EST. symmetry. rewrite (nth_indep _ [] (repeat 0 (S (length k)))) by (rewrite repeat_length; exact Hi). apply nth_repeat.
Qed.
