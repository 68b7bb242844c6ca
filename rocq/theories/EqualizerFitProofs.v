(* Linear algebra for the fit of the equaliser: sums, the regularised normal equations, positive
   definite systems and their solution by elimination. *)
From Verif Require Import Common RealUtil NelderMeadModel NelderMeadProofs EqualizerFitModel EqualizerFitSpec.
Local Open Scope R_scope.

(* ---------- sums ---------- *)
Lemma sumn_ext n f g : (forall i, (i < n)%nat -> f i = g i) -> sumn n f = sumn n g.
Proof. induction n as [|n IH]; intros H; cbn [sumn]; [reflexivity|]. rewrite IH, H by auto. reflexivity. Qed.
Lemma sumn_plus n f g : sumn n (fun i => f i + g i) = sumn n f + sumn n g.
Proof. induction n as [|n IH]; cbn [sumn]; [ring|]. rewrite IH. ring. Qed.
Lemma sumn_scal n c f : sumn n (fun i => c * f i) = c * sumn n f.
Proof. induction n as [|n IH]; cbn [sumn]; [ring|]. rewrite IH. ring. Qed.
Lemma sumn_zero n f : (forall i, (i < n)%nat -> f i = 0) -> sumn n f = 0.
Proof. induction n as [|n IH]; intros H; cbn [sumn]; [reflexivity|]. rewrite IH, H by auto. ring. Qed.
Lemma sumn_swap m n (f : nat -> nat -> R) : sumn m (fun i => sumn n (f i)) = sumn n (fun j => sumn m (fun i => f i j)).
Proof.
  induction m as [|m IH]; cbn [sumn]; [symmetry; apply sumn_zero; reflexivity|]. rewrite IH, <- sumn_plus. reflexivity.
Qed.
Lemma sumn_nonneg n f : (forall i, (i < n)%nat -> 0 <= f i) -> 0 <= sumn n f.
Proof. induction n as [|n IH]; intros H; cbn [sumn]; [lra|]. specialize (IH (fun i Hi => H i ltac:(lia))). pose proof (H n ltac:(lia)). lra. Qed.
Lemma sumn_le_one n f k : (k < n)%nat -> (forall i, (i < n)%nat -> 0 <= f i) -> f k <= sumn n f.
Proof.
  induction n as [|n IH]; intros Hk H; [lia|]. cbn [sumn]. destruct (Nat.eq_dec k n) as [->|N].
  - pose proof (sumn_nonneg n f (fun i Hi => H i ltac:(lia))). lra.
  - pose proof (IH ltac:(lia) (fun i Hi => H i ltac:(lia))). pose proof (H n ltac:(lia)). lra.
Qed.
Lemma sumn_shift n f : sumn (S n) f = f 0%nat + sumn n (fun i => f (S i)).
Proof. induction n as [|n IH]; cbn [sumn] in *; [ring|]. rewrite IH. ring. Qed.
Lemma sumn_delta n i f : (i < n)%nat -> sumn n (fun j => (if (i =? j)%nat then 1 else 0) * f j) = f i.
Proof.
  induction n as [|n IH]; intros Hi; [lia|]. cbn [sumn]. destruct (Nat.eq_dec i n) as [->|N].
  - rewrite Nat.eqb_refl, sumn_zero; [ring|]. intros j Hj. rewrite (proj2 (Nat.eqb_neq n j)) by lia. ring.
  - rewrite IH by lia. rewrite (proj2 (Nat.eqb_neq i n)) by lia. ring.
Qed.
Lemma total_sumn {A} (f : A -> R) d l : total (map f l) = sumn (length l) (fun i => f (nth i l d)).
Proof. induction l as [|x l IH]; [reflexivity|]. cbn [map total fold_right length]. rewrite sumn_shift. cbn [nth]. unfold total in IH. rewrite IH. reflexivity. Qed.
Lemma total_vmap2 {A B} (f : A -> B -> R) da db a b : length a = length b -> total (vmap2 f a b) = sumn (length a) (fun i => f (nth i a da) (nth i b db)).
Proof.
  revert b; induction a as [|x a IH]; intros [|y b] H; try discriminate H; [reflexivity|]. cbn [vmap2 total fold_right length]. rewrite sumn_shift. cbn [nth].
  unfold total in IH. rewrite IH by (cbn in H; lia). reflexivity.
Qed.

Lemma nth_map_seq {A} (f : nat -> A) n i d : (i < n)%nat -> nth i (map f (seq 0 n)) d = f i.
Proof. intros H. rewrite nth_indep with (d' := f 0%nat) by (rewrite map_length, seq_length; exact H). rewrite map_nth, seq_nth by exact H. reflexivity. Qed.

(* ---------- the gramian ---------- *)
Section Gram.
Variables (n : nat) (rows : list (list R)).
Let M := length rows.
Let A (m k : nat) : R := nth k (nth m rows []) 0.
Let ridge : R := 1 / 10000.
Lemma gramian_length : length (gramian n rows) = n.
Proof. unfold gramian. rewrite map_length, seq_length. reflexivity. Qed.
Lemma gramian_rows r : In r (gramian n rows) -> length r = n.
Proof. unfold gramian. intros H. apply in_map_iff in H as (i & <- & _). rewrite map_length, seq_length. reflexivity. Qed.
Lemma gramian_entry i j : (i < n)%nat -> (j < n)%nat ->
  entry (gramian n rows) i j = sumn M (fun m => A m i * A m j) + (if (i =? j)%nat then ridge else 0).
Proof.
  intros Hi Hj. unfold entry, gramian. rewrite nth_map_seq by exact Hi. rewrite nth_map_seq by exact Hj.
  rewrite (total_sumn _ []). reflexivity.
Qed.
Lemma projected_nth t i : length t = M -> (i < n)%nat -> nth i (projected n rows t) 0 = sumn M (fun m => A m i * nth m t 0).
Proof.
  intros Ht Hi. unfold projected. rewrite nth_map_seq by exact Hi.
  rewrite (total_vmap2 _ [] 0) by (symmetry; exact Ht). reflexivity.
Qed.
Lemma projected_length t : length (projected n rows t) = n.
Proof. unfold projected. rewrite map_length, seq_length. reflexivity. Qed.
(* the gramian times a vector *)
Lemma gramian_apply i z : (i < n)%nat -> sumn n (fun j => entry (gramian n rows) i j * z j) =
  sumn M (fun m => A m i * sumn n (fun j => A m j * z j)) + ridge * z i.
Proof.
  intros Hi. rewrite (sumn_ext n _ (fun j => sumn M (fun m => A m i * (A m j * z j)) + ridge * ((if (i =? j)%nat then 1 else 0) * z j))).
  - rewrite sumn_plus, <- sumn_swap, sumn_scal, sumn_delta by exact Hi. f_equal. apply sumn_ext. intros m _. rewrite sumn_scal. reflexivity.
  - intros j Hj. rewrite gramian_entry by assumption. rewrite (sumn_ext M (fun m => A m i * (A m j * z j)) (fun m => z j * (A m i * A m j))) by (intros; ring).
    rewrite sumn_scal. destruct (i =? j)%nat; ring.
Qed.
Lemma gramian_form y z : sumn n (fun i => y i * sumn n (fun j => entry (gramian n rows) i j * z j)) =
  sumn M (fun m => sumn n (fun i => A m i * y i) * sumn n (fun j => A m j * z j)) + ridge * sumn n (fun i => y i * z i).
Proof.
  rewrite (sumn_ext n _ (fun i => sumn M (fun m => y i * (A m i * sumn n (fun j => A m j * z j))) + ridge * (y i * z i))).
  - rewrite sumn_plus, sumn_scal. f_equal. rewrite <- (sumn_swap M n (fun m i => y i * (A m i * sumn n (fun j => A m j * z j)))).
    apply sumn_ext. intros m _. rewrite Rmult_comm, <- sumn_scal. apply sumn_ext. intros i _. ring.
  - intros i Hi. rewrite gramian_apply by exact Hi. rewrite sumn_scal. ring.
Qed.
Lemma gramian_spd : spd n (gramian n rows).
Proof.
  split; [exact gramian_length|]. split; [exact gramian_rows|]. split.
  - intros i j Hi Hj. rewrite !gramian_entry by assumption. rewrite Nat.eqb_sym. f_equal. apply sumn_ext. intros; ring.
  - intros y (k & Hk & Hy). rewrite gramian_form. unfold ridge.
    assert (0 <= sumn M (fun m => sumn n (fun i => A m i * y i) * sumn n (fun j => A m j * y j))) by (apply sumn_nonneg; intros m _; pose proof (Rle_0_sqr (sumn n (fun i => A m i * y i))) as Q; unfold Rsqr in Q; exact Q).
    assert (P : 0 < y k * y k) by (pose proof (Rsqr_pos_lt _ Hy) as Q; unfold Rsqr in Q; exact Q).
    pose proof (sumn_le_one n (fun i => y i * y i) k Hk (fun i _ => Rle_0_sqr (y i))) as Q. cbn beta in Q. lra.
Qed.

(* the solution of the normal equations is the only minimiser *)
Lemma cost_expand t x d :
  cost M n A t (fun k => x k + d k) = cost M n A t x
  + 2 * sumn n (fun i => d i * (sumn n (fun j => entry (gramian n rows) i j * x j) - sumn M (fun m => A m i * t m)))
  + sumn M (fun m => Rsqr (sumn n (fun k => A m k * d k))) + ridge * sumn n (fun k => Rsqr (d k)).
Proof.
  assert (E : sumn n (fun i => d i * (sumn n (fun j => entry (gramian n rows) i j * x j) - sumn M (fun m => A m i * t m)))
    = sumn M (fun m => sumn n (fun i => A m i * d i) * (sumn n (fun j => A m j * x j) - t m)) + ridge * sumn n (fun i => d i * x i)).
  { transitivity (sumn n (fun i => d i * sumn n (fun j => entry (gramian n rows) i j * x j)) - sumn n (fun i => d i * sumn M (fun m => A m i * t m))).
    - rewrite (sumn_ext n _ (fun i => d i * sumn n (fun j => entry (gramian n rows) i j * x j) + -1 * (d i * sumn M (fun m => A m i * t m)))) by (intros; ring).
      rewrite sumn_plus, sumn_scal. ring.
    - rewrite gramian_form. rewrite (sumn_ext n (fun i => d i * sumn M (fun m => A m i * t m)) (fun i => sumn M (fun m => d i * (A m i * t m)))) by (intros; rewrite sumn_scal; ring).
      rewrite <- (sumn_swap M n (fun m i => d i * (A m i * t m))).
      rewrite (sumn_ext M (fun m => sumn n (fun i => A m i * d i) * (sumn n (fun j => A m j * x j) - t m))
        (fun m => sumn n (fun i => A m i * d i) * sumn n (fun j => A m j * x j) + -1 * sumn n (fun i => d i * (A m i * t m)))).
      + rewrite sumn_plus, sumn_scal. ring.
      + intros m _. rewrite (sumn_ext n (fun i => d i * (A m i * t m)) (fun i => t m * (A m i * d i))) by (intros; ring). rewrite sumn_scal. ring. }
  rewrite E. unfold cost, ridge.
  rewrite (sumn_ext M (fun i => Rsqr (sumn n (fun k => A i k * (x k + d k)) - t i))
    (fun m => Rsqr (sumn n (fun k => A m k * x k) - t m) + (2 * (sumn n (fun i => A m i * d i) * (sumn n (fun j => A m j * x j) - t m)) + Rsqr (sumn n (fun k => A m k * d k))))).
  - rewrite !sumn_plus, sumn_scal.
    rewrite (sumn_ext n (fun k => Rsqr (x k + d k)) (fun k => Rsqr (x k) + (2 * (d k * x k) + Rsqr (d k)))) by (intros; unfold Rsqr; ring).
    rewrite !sumn_plus, sumn_scal. field.
  - intros m _. rewrite (sumn_ext n (fun k => A m k * (x k + d k)) (fun k => A m k * x k + A m k * d k)) by (intros; ring). rewrite sumn_plus. unfold Rsqr. ring.
Qed.
Lemma normal_equations t x :
  (forall i, (i < n)%nat -> sumn n (fun j => entry (gramian n rows) i j * x j) = sumn M (fun m => A m i * t m)) ->
  minimises M n A t x.
Proof.
  intros HN y.
  assert (E : cost M n A t y = cost M n A t x + sumn M (fun m => Rsqr (sumn n (fun k => A m k * (y k - x k)))) + ridge * sumn n (fun k => Rsqr (y k - x k))).
  { assert (EE : cost M n A t y = cost M n A t (fun k => x k + (y k - x k))).
    { unfold cost. f_equal.
      - apply sumn_ext. intros i _. do 2 f_equal. apply sumn_ext. intros; ring.
      - f_equal. apply sumn_ext. intros; f_equal; ring. }
    rewrite EE, cost_expand. rewrite sumn_zero; [ring|]. intros i Hi. rewrite HN by exact Hi. ring. }
  assert (P1 : 0 <= sumn M (fun m => Rsqr (sumn n (fun k => A m k * (y k - x k))))) by (apply sumn_nonneg; intros; apply Rle_0_sqr).
  assert (P2 : 0 <= sumn n (fun k => Rsqr (y k - x k))) by (apply sumn_nonneg; intros; apply Rle_0_sqr).
  unfold ridge in E. split; [lra|]. intros Hle k Hk.
  pose proof (sumn_le_one n (fun k => Rsqr (y k - x k)) k Hk (fun i _ => Rle_0_sqr _)) as Q. cbn beta in Q.
  assert (Z : Rsqr (y k - x k) = 0) by (pose proof (Rle_0_sqr (y k - x k)); lra). apply Rsqr_0_uniq in Z. lra.
Qed.
End Gram.

(* the solution of a positive definite system is unique *)
Lemma spd_unique n m x y : spd n m ->
  (forall i, (i < n)%nat -> sumn n (fun j => entry m i j * x j) = sumn n (fun j => entry m i j * y j)) -> forall k, (k < n)%nat -> x k = y k.
Proof.
  intros (_ & _ & _ & P) H k Hk. destruct (Req_dec (x k - y k) 0) as [E|N]; [lra|]. exfalso.
  specialize (P (fun i => x i - y i) (ex_intro _ k (conj Hk N))). cbn beta in P.
  rewrite sumn_zero in P; [lra|]. intros i Hi.
  rewrite (sumn_ext n (fun j => entry m i j * (x j - y j)) (fun j => entry m i j * x j + -1 * (entry m i j * y j))) by (intros; ring).
  rewrite sumn_plus, sumn_scal, H by exact Hi. ring.
Qed.

(* ---------- elimination ---------- *)
Fixpoint eliminate (fuel : nat) (m : list (list R)) (b : list R) : list R :=
  match fuel, m, b with
  | S k, (a :: r) :: rest, b0 :: bs =>
      let m' := map (fun row => vmap2 (fun x y => x - hd 0 row / a * y) (tl row) r) rest in
      let b' := vmap2 (fun row bi => bi - hd 0 row / a * b0) rest bs in
      let x := eliminate k m' b' in
      (b0 - total (vmap2 Rmult r x)) / a :: x
  | _, _, _ => []
  end.
Definition elimination (m : list (list R)) (b : list R) : list R := eliminate (length m) m b.
Lemma nth_hd_tl {A} (l : list A) i d : nth (S i) l d = nth i (tl l) d.
Proof. destruct l; [destruct i; reflexivity|reflexivity]. Qed.
Lemma eliminate_ok n : forall m b, spd n m -> length b = n ->
  length (eliminate n m b) = n /\ forall i, (i < n)%nat -> sumn n (fun j => entry m i j * nth j (eliminate n m b) 0) = nth i b 0.
Proof.
  induction n as [|n IH]; intros m b (Lm & Lr & Sy & P) Lb; [split; [reflexivity|intros; lia]|].
  destruct m as [|[|a r] rest]; cbn [length] in Lm; [discriminate| |].
  { specialize (Lr [] (or_introl eq_refl)). discriminate Lr. }
  destruct b as [|b0 bs]; [discriminate|]. cbn [length] in Lb.
  assert (Lr0 : length r = n) by (specialize (Lr _ (or_introl eq_refl)); cbn in Lr; lia).
  assert (Lrest : length rest = n) by lia.
  cbn [eliminate].
  set (m' := map (fun row => vmap2 (fun x y => x - hd 0 row / a * y) (tl row) r) rest).
  set (b' := vmap2 (fun row bi => bi - hd 0 row / a * b0) rest bs).
  set (m := (a :: r) :: rest) in *.
  assert (E00 : entry m 0 0 = a) by reflexivity.
  assert (Ha : 0 < a).
  { specialize (P (fun k => if (k =? 0)%nat then 1 else 0)). 
    assert (H : 0 < sumn (S n) (fun i => (if (i =? 0)%nat then 1 else 0) * sumn (S n) (fun j => entry m i j * (if (j =? 0)%nat then 1 else 0)))) by (apply P; exists 0%nat; split; [lia|cbn; lra]).
    rewrite sumn_shift in H. cbn [Nat.eqb] in H. rewrite (sumn_zero n) in H by (intros i Hi; ring). rewrite sumn_shift in H. cbn [Nat.eqb] in H.
    rewrite (sumn_zero n) in H by (intros i Hi; ring). rewrite E00 in H. lra. }
  assert (Row : forall i, (i < n)%nat -> length (nth i rest []) = S n).
  { intros i Hi. apply Lr. right. apply nth_In. lia. }
  assert (E' : forall i j, (i < n)%nat -> (j < n)%nat -> entry m' i j = entry m (S i) (S j) - entry m (S i) 0 / a * entry m 0 (S j)).
  { intros i j Hi Hj. unfold entry, m', m. cbn [nth].
    rewrite nth_indep with (d' := (fun row => vmap2 (fun x y => x - hd 0 row / a * y) (tl row) r) []) by (rewrite map_length; lia).
    rewrite (map_nth (fun row => vmap2 (fun x y => x - hd 0 row / a * y) (tl row) r)).
    pose proof (Row i Hi) as Ri. destruct (nth i rest []) as [|h tlr]; [discriminate|]. cbn [hd tl nth length] in *.
    rewrite (vmap2_nth _ _ _ _ 0 0) by (rewrite ?Lr0; lia). reflexivity. }
  assert (Spd' : spd n m').
  { split; [unfold m'; rewrite map_length; lia|]. split.
    - intros row Hr. unfold m' in Hr. apply in_map_iff in Hr as (q & <- & Hq). assert (length q = S n) by (apply Lr; right; exact Hq).
      destruct q; [discriminate|]. cbn [tl length] in *. rewrite vmap2_length; lia.
    - split.
      + intros i j Hi Hj. rewrite !E' by assumption. rewrite (Sy (S i) (S j)), (Sy (S i) 0%nat), (Sy 0%nat (S j)) by lia. field. lra.
      + intros y (k & Hk & Hy).
        set (s := sumn n (fun j => entry m 0 (S j) * y j)).
        specialize (P (fun i => match i with O => - s / a | S i => y i end)).
        assert (X : exists k0, (k0 < S n)%nat /\ match k0 with O => - s / a | S i => y i end <> 0) by (exists (S k); split; [lia|exact Hy]).
        assert (P' := P X). clear P X.
        rewrite sumn_shift in P'. cbn iota beta in P'.
        rewrite sumn_shift in P'. fold s in P'. rewrite E00 in P'.
        rewrite (sumn_ext n _ (fun i => y i * (- s / a) * entry m 0 (S i) + y i * sumn n (fun j => entry m (S i) (S j) * y j))) in P'.
        2: { intros i Hi. rewrite sumn_shift. rewrite (Sy (S i) 0%nat) by lia. ring. }
        rewrite sumn_plus in P'.
        rewrite (sumn_ext n (fun i => y i * (- s / a) * entry m 0 (S i)) (fun i => (- s / a) * (entry m 0 (S i) * y i))) in P' by (intros; ring).
        rewrite sumn_scal in P'. fold s in P'.
        rewrite (sumn_ext n _ (fun i => y i * sumn n (fun j => entry m (S i) (S j) * y j) + (- s / a) * (entry m 0 (S i) * y i))).
        * rewrite sumn_plus, sumn_scal. fold s. set (T := sumn n (fun i => y i * sumn n (fun j => entry m (S i) (S j) * y j))) in *.
          replace (- s / a * (a * (- s / a) + s) + (- s / a * s + T)) with (T + - s / a * s) in P' by (field; lra). exact P'.
        * intros i Hi. rewrite (sumn_ext n _ (fun j => entry m (S i) (S j) * y j + (- entry m (S i) 0 / a) * (entry m 0 (S j) * y j))).
          -- rewrite sumn_plus, sumn_scal. fold s. rewrite (Sy (S i) 0%nat) by lia. field. lra.
          -- intros j Hj. rewrite E' by assumption. field. lra. }
  assert (Lb' : length b' = n) by (unfold b'; rewrite vmap2_length; lia).
  destruct (IH m' b' Spd' Lb') as (Lx & Hx). set (x := eliminate n m' b') in *.
  split; [cbn [length]; lia|].
  assert (T0 : total (vmap2 Rmult r x) = sumn n (fun j => entry m 0 (S j) * nth j x 0)).
  { rewrite (total_vmap2 Rmult 0 0) by lia. rewrite Lr0. reflexivity. }
  intros [|i] Hi.
  - rewrite sumn_shift. cbn [nth]. rewrite E00, T0. field. lra.
  - rewrite sumn_shift. cbn [nth]. specialize (Hx i ltac:(lia)).
    rewrite (sumn_ext n _ (fun j => entry m (S i) (S j) * nth j x 0 + (- entry m (S i) 0 / a) * (entry m 0 (S j) * nth j x 0))) in Hx.
    2: { intros j Hj. rewrite E' by lia. field. lra. }
    rewrite sumn_plus, sumn_scal in Hx. rewrite <- T0 in Hx.
    assert (Eb : nth i b' 0 = nth i bs 0 - entry m (S i) 0 / a * b0).
    { unfold b'. rewrite (vmap2_nth _ _ _ _ [] 0) by lia. unfold entry, m. cbn [nth]. destruct (nth i rest []); reflexivity. }
    rewrite Eb in Hx. replace (sumn n (fun i0 => entry m (S i) (S i0) * nth i0 x 0)) with (nth i bs 0 - entry m (S i) 0 / a * b0 + entry m (S i) 0 / a * total (vmap2 Rmult r x)) by lra.
    field. lra.
Qed.
Lemma elimination_solves : solves_spd elimination.
Proof. intros n m b H Hb. unfold elimination. rewrite (proj1 H). apply eliminate_ok; assumption. Qed.
