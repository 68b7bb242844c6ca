(* Proofs about signal_vector_util.h: FIRFilter and the statistics. *)
From Verif Require Import Common ListLemmas NthLemmas RealUtil VectorUtilModel VectorUtilSpec.
From Coq Require Import Lra Psatz.
Local Open Scope R_scope.

(* ---- FIRFilter ---- *)
Section Fir.
Context {S H : Type} (zero : S) (add : S -> S -> S) (mul : S -> H -> S).
Let dir := direct zero add mul.
(* the state that summarises the past *)
Fixpoint states (hs : list H) (past : list S) : list S :=
  match hs with [] => [] | _ :: r => dir hs past :: states r past end.
Lemma states_length hs past : length (states hs past) = length hs.
Proof. induction hs; cbn; congruence. Qed.
Lemma dir_nil hs : dir hs [] = zero.
Proof. destruct hs as [|h [|h2 r]]; reflexivity. Qed.
Lemma states_nil hs : states hs [] = repeat zero (length hs).
Proof. induction hs as [|h r IH]; [reflexivity|]. cbn [states repeat length]. rewrite dir_nil, IH. reflexivity. Qed.
Lemma shift_states x : forall hs past, fir_shift add mul x hs (states hs past) = states hs (x :: past).
Proof.
  induction hs as [|h [|h2 r] IH]; intros past; [reflexivity|reflexivity|].
  change (states (h :: h2 :: r) past) with (dir (h :: h2 :: r) past :: states (h2 :: r) past).
  change (states (h :: h2 :: r) (x :: past)) with (add (mul x h) (dir (h2 :: r) past) :: states (h2 :: r) (x :: past)).
  rewrite <- IH. reflexivity.
Qed.
Lemma fir_sample_ok h hs past x :
  fir_sample add mul {| taps_of := h :: hs; state_of := states hs past |} x =
  Ok ({| taps_of := h :: hs; state_of := states hs (x :: past) |}, dir (h :: hs) (x :: past)).
Proof.
  destruct hs as [|h2 r]; [reflexivity|]. unfold fir_sample. cbn [taps_of state_of].
  rewrite states_length, Nat.eqb_refl. cbn [oguard]. rewrite shift_states. reflexivity.
Qed.
Fixpoint firs (h : list H) (past xs : list S) : list S :=
  match xs with [] => [] | x :: r => dir h (x :: past) :: firs h (x :: past) r end.
Lemma fir_run h hs : forall xs past,
  fir_filter add mul {| taps_of := h :: hs; state_of := states hs past |} xs =
  Ok ({| taps_of := h :: hs; state_of := states hs (rev xs ++ past) |}, firs (h :: hs) past xs).
Proof.
  induction xs as [|x r IH]; intros past; [reflexivity|]. unfold fir_filter in *. cbn [run]. rewrite fir_sample_ok. cbn [obind fst snd].
  rewrite IH. cbn [obind fst snd rev firs]. rewrite <- app_assoc. reflexivity.
Qed.
Lemma firs_length h : forall xs past, length (firs h past xs) = length xs.
Proof. induction xs; intros; cbn [firs length]; [reflexivity|]. rewrite IHxs. reflexivity. Qed.
Lemma firs_nth h : forall xs past i, (i < length xs)%nat -> nth i (firs h past xs) zero = dir h (rev (firstn (i + 1) xs) ++ past).
Proof.
  induction xs as [|x r IH]; intros past i Hi; [cbn in Hi; lia|]. destruct i as [|i]; [reflexivity|].
  cbn [firs nth]. cbn [length] in Hi. rewrite IH by lia. cbn [Nat.add firstn rev]. rewrite <- app_assoc. reflexivity.
Qed.
Lemma fir_new_ok h f : fir_new zero h = Ok f -> exists c hs, h = c :: hs /\ f = {| taps_of := c :: hs; state_of := states hs [] |}.
Proof.
  unfold fir_new. intros E. apply ocheck_ok in E. destruct E as [E1 E2]. destruct h as [|c hs]; [discriminate|].
  exists c, hs. split; [reflexivity|]. injection E2 as <-. rewrite states_nil. unfold fir_reset. cbn [taps_of length]. rewrite Nat.sub_succ, Nat.sub_0_r. reflexivity.
Qed.
Lemma fir_all h f xs : fir_new zero h = Ok f -> exists f' ys, fir_filter add mul f xs = Ok (f', ys) /\ length ys = length xs /\ fir_new zero h = Ok (fir_reset zero f') /\
  forall i, (i < length xs)%nat -> nth i ys zero = direct zero add mul h (rev (firstn (i + 1) xs)).
Proof.
  intros E. destruct (fir_new_ok h f E) as [c [hs [-> ->]]]. rewrite fir_run. eexists _, _. split; [reflexivity|]. split; [apply firs_length|].
  split; [reflexivity|]. intros i Hi. rewrite firs_nth, app_nil_r by assumption. reflexivity.
Qed.
Lemma fir_chunks h f : forall chunks past, f = {| taps_of := fst h :: snd h; state_of := states (snd h) past |} ->
  exists f' yss, run (fun g xs => fir_filter add mul g xs) f chunks = Ok (f', yss) /\ fir_filter add mul f (concat chunks) = Ok (f', concat yss) /\
    map (@length S) yss = map (@length S) chunks.
Proof.
  intros chunks. revert f. destruct h as [c hs]. cbn [fst snd]. induction chunks as [|xs r IH]; intros f past ->.
  - cbn [run concat]. eexists _, _. split; [reflexivity|]. split; reflexivity.
  - cbn [run concat map]. rewrite fir_run. cbn [obind fst snd]. destruct (IH _ (rev xs ++ past) eq_refl) as [f' [yss [A [B C]]]]. rewrite A. cbn [obind fst snd].
    eexists _, _. split; [reflexivity|]. split.
    + unfold fir_filter in *. rewrite ListLemmas.run_app. pose proof (fir_run c hs xs past) as D. unfold fir_filter in D. rewrite D. cbn [obind fst snd].
      rewrite B. cbn [obind fst snd concat]. reflexivity.
    + cbn [map]. rewrite firs_length, C. reflexivity.
Qed.
End Fir.

(* over the reals *)
Lemma sumf_ext n f g : (forall k, (k < n)%nat -> f k = g k) -> sumf n f = sumf n g.
Proof. induction n as [|n IH]; intros E; [reflexivity|]. cbn [sumf]. rewrite IH, E by (auto with arith; intros; apply E; lia). reflexivity. Qed.
Lemma sumf_shift n f : sumf (S n) f = f 0%nat + sumf n (fun k => f (S k)).
Proof. induction n as [|n IH]; [cbn; ring|]. change (sumf (S (S n)) f) with (sumf (S n) f + f (S n)). rewrite IH. cbn [sumf]. ring. Qed.
Lemma sumf_zero n f : (forall k, (k < n)%nat -> f k = 0) -> sumf n f = 0.
Proof. induction n as [|n IH]; intros E; [reflexivity|]. cbn [sumf]. rewrite IH, E by (auto with arith; intros; apply E; lia). ring. Qed.
Lemma direct_sum : forall h past, direct 0 Rplus Rmult h past = sumf (length h) (fun k => nth k past 0 * nth k h 0).
Proof.
  induction h as [|c [|c2 r] IH]; intros past; [reflexivity| |].
  - destruct past; cbn; ring.
  - cbn [length]. rewrite sumf_shift. cbn [nth]. destruct past as [|x p].
    + cbn [direct nth]. rewrite sumf_zero; [ring|]. intros k _. destruct k; cbn; ring.
    + change (direct 0 Rplus Rmult (c :: c2 :: r) (x :: p)) with (x * c + direct 0 Rplus Rmult (c2 :: r) p). rewrite IH. cbn [length nth]. reflexivity.
Qed.
Lemma fir_convolution h f xs : fir_new 0 h = Ok f -> exists f' ys, fir_filter Rplus Rmult f xs = Ok (f', ys) /\ length ys = length xs /\
  forall i, (i < length xs)%nat -> nth i ys 0 = sumf (length h) (fun k => if (k <=? i)%nat then nth (i - k) xs 0 * nth k h 0 else 0).
Proof.
  intros E. destruct (fir_all 0 Rplus Rmult h f xs E) as [f' [ys [A [B [_ C]]]]]. exists f', ys. split; [exact A|]. split; [exact B|].
  intros i Hi. rewrite C by exact Hi. rewrite direct_sum. apply sumf_ext. intros k Hk. 
  assert (L : length (firstn (i + 1) xs) = (i + 1)%nat) by (rewrite firstn_length; lia).
  destruct (Nat.leb_spec k i).
  - rewrite rev_nth by (rewrite L; lia). rewrite L. rewrite nth_firstn by lia. replace (i + 1 - S k)%nat with (i - k)%nat by lia. reflexivity.
  - rewrite nth_overflow by (rewrite rev_length, L; lia). ring.
Qed.

(* ---- statistics ---- *)
Lemma rsum_acc l : forall a, fold_left Rplus l a = a + rsum l.
Proof. unfold rsum. induction l as [|x r IH]; intros a; cbn [fold_left]; [ring|]. rewrite IH, (IH (0 + x)). ring. Qed.
Lemma rsum_cons x l : rsum (x :: l) = x + rsum l.
Proof. unfold rsum at 1. cbn [fold_left]. rewrite rsum_acc. ring. Qed.
Lemma rsum_affine (a b : R) l : rsum (map (fun x => a * x + b) l) = a * rsum l + INR (length l) * b.
Proof. induction l as [|x r IH]; [cbn; unfold rsum; cbn; ring|]. cbn [map length]. rewrite !rsum_cons, IH, S_INR. ring. Qed.
Lemma rsum_squares (a b : R) l : rsum (map (fun x => (a * x + b) * (a * x + b)) l) = a * a * rsum (map (fun x => x * x) l) + 2 * a * b * rsum l + INR (length l) * (b * b).
Proof. induction l as [|x r IH]; [cbn; unfold rsum; cbn; ring|]. cbn [map length]. rewrite !rsum_cons, IH, S_INR. ring. Qed.
Lemma rsum_nonneg l : (forall x, In x l -> 0 <= x) -> 0 <= rsum l.
Proof. induction l as [|x r IH]; intros P; [unfold rsum; cbn; lra|]. rewrite rsum_cons. pose proof (P x (or_introl eq_refl)). assert (0 <= rsum r) by (apply IH; intros; apply P; right; assumption). lra. Qed.
Lemma rsum_zero l : (forall x, In x l -> 0 <= x) -> rsum l = 0 -> forall x, In x l -> x = 0.
Proof.
  induction l as [|x r IH]; intros P E y Hy; [destruct Hy|]. rewrite rsum_cons in E. pose proof (P x (or_introl eq_refl)).
  assert (0 <= rsum r) by (apply rsum_nonneg; intros; apply P; right; assumption).
  destruct Hy as [->|Hy]; [lra|]. apply IH; [intros; apply P; right; assumption|lra|exact Hy].
Qed.
Lemma stats_ok l : l <> [] -> exists m v, second_order_stats l = Ok (m, v) /\ m * INR (length l) = rsum l /\
  v = rsum (map (fun x => (x - m) * (x - m)) l) / INR (length l) /\ 0 <= v /\ (v = 0 <-> forall x, In x l -> x = m).
Proof.
  intros N. assert (L : 0 < INR (length l)) by (destruct l; [congruence|apply lt_0_INR; cbn [length]; lia]).
  unfold second_order_stats. replace (length l =? 0)%nat with false by (destruct l; [congruence|reflexivity]). cbn [negb ocheck].
  set (m := rsum l / INR (length l)). eexists m, _. split; [reflexivity|].
  assert (M : m * INR (length l) = rsum l) by (unfold m; field; lra). split; [exact M|].
  assert (V : rsum (map (fun x => x * x) l) / INR (length l) - m * m = rsum (map (fun x => (x - m) * (x - m)) l) / INR (length l)).
  { rewrite (map_ext (fun x => (x - m) * (x - m)) (fun x => (1 * x + - m) * (1 * x + - m))) by (intros; ring). rewrite rsum_squares. rewrite <- M. field. lra. }
  split; [exact V|]. rewrite V.
  assert (P : forall x, In x (map (fun x => (x - m) * (x - m)) l) -> 0 <= x) by (intros x Hx; apply in_map_iff in Hx; destruct Hx as [y [<- _]]; apply Rle_0_sqr).
  split; [apply Rmult_le_pos; [apply rsum_nonneg; exact P|left; apply Rinv_0_lt_compat; exact L]|]. split.
  - intros E x Hx. assert (E' : rsum (map (fun x => (x - m) * (x - m)) l) = 0).
    { apply (Rmult_eq_reg_r (/ INR (length l))); [|apply Rinv_neq_0_compat; lra]. unfold Rdiv in E. lra. }
    pose proof (rsum_zero _ P E' ((x - m) * (x - m)) (in_map (fun x => (x - m) * (x - m)) l x Hx)) as Z. nra.
  - intros E. rewrite (map_ext_in _ (fun x => 0 * x + 0)) by (intros x Hx; rewrite (E x Hx); ring). rewrite rsum_affine. field. lra.
Qed.
Lemma z_score_ok floor l m v : 0 <= floor -> second_order_stats l = Ok (m, v) -> 0 < floor \/ v <> 0 ->
  exists out, z_score_normalize floor l = Ok out /\ length out = length l /\
    (forall i, (i < length l)%nat -> nth i out 0 = (nth i l 0 - m) / (floor + sqrt v)) /\
    second_order_stats out = Ok (0, v / ((floor + sqrt v) * (floor + sqrt v))).
Proof.
  intros F E D. assert (N : l <> []) by (intros ->; discriminate).
  destruct (stats_ok l N) as [m' [v' [E' [M [V [P _]]]]]]. rewrite E in E'. injection E' as <- <-.
  assert (Q : 0 < floor + sqrt v).
  { pose proof (sqrt_pos v). destruct D as [D|D]; [lra|]. assert (0 < sqrt v) by (apply sqrt_lt_R0; lra). lra. }
  unfold z_score_normalize. destruct l as [|x0 r]; [congruence|]. rewrite E. cbn [obind fst snd]. rewrite (Rleb_true 0 v P). cbn [oguard].
  destruct (Reqb_spec (floor + sqrt v) 0) as [Z|_]; [lra|]. cbn [negb oguard]. set (l := x0 :: r) in *. set (q := floor + sqrt v) in *.
  eexists. split; [reflexivity|]. split; [apply map_length|]. split.
  - intros i Hi. rewrite (nth_indep _ 0 ((0 - m) / q)) by (rewrite map_length; exact Hi). apply (map_nth (fun x => (x - m) / q)).
  - assert (L : 0 < INR (length l)) by (apply lt_0_INR; cbn; lia).
    rewrite (map_ext (fun x => (x - m) / q) (fun x => / q * x + - m / q)) by (intros; unfold Rdiv; ring).
    unfold second_order_stats. rewrite map_length. replace (length l =? 0)%nat with false by reflexivity. cbn [negb ocheck].
    assert (A : rsum (map (fun x => / q * x + - m / q) l) / INR (length l) = 0) by (rewrite rsum_affine, <- M; field; lra).
    rewrite A. do 2 f_equal. rewrite map_map, rsum_squares, <- M. rewrite V.
    rewrite (map_ext (fun x => (x - m) * (x - m)) (fun x => (1 * x + - m) * (1 * x + - m))) by (intros; ring). rewrite rsum_squares, <- M. field. lra.
Qed.
Lemma z_score_constant x n : z_score_normalize 0 (repeat x (S n)) = Undef.
Proof.
  assert (N : repeat x (S n) <> []) by discriminate. destruct (stats_ok _ N) as [m [v [E [M [_ [_ Z]]]]]].
  assert (v = 0). { apply Z. intros y Hy. apply repeat_spec in Hy. subst y. 
    assert (B : forall k, rsum (repeat x k) = INR k * x) by (induction k as [|k IH]; [unfold rsum; cbn; ring|cbn [repeat]; rewrite rsum_cons, IH, S_INR; ring]).
    rewrite B, repeat_length in M. assert (0 < INR (S n)) by (apply lt_0_INR; lia). nra. }
  subst v. unfold z_score_normalize. change (repeat x (S n)) with (x :: repeat x n) in *. rewrite E. cbn [obind fst snd]. rewrite Rleb_true by lra. cbn [oguard].
  rewrite sqrt_0. destruct (Reqb_spec (0 + 0) 0); [reflexivity|lra].
Qed.

Lemma list_max_spec l : forall x, is_largest (list_max x l) (x :: l).
Proof.
  unfold list_max. induction l as [|y r IH]; intros x; cbn [fold_left].
  - split; [left; reflexivity|]. intros z [->|[]]; lra.
  - destruct (Rltb_spec x y).
    + destruct (IH y) as [A B]. split; [right; exact A|]. intros z [<-|Hz]; [pose proof (B y (or_introl eq_refl)); lra|apply B; exact Hz].
    + destruct (IH x) as [A B]. split; [destruct A as [A|A]; [left; exact A|right; right; exact A]|].
      intros z [<-|[<-|Hz]]; [apply B; left; reflexivity|pose proof (B x (or_introl eq_refl)); lra|apply B; right; exact Hz].
Qed.
Lemma list_min_spec l : forall x, In (list_min x l) (x :: l) /\ forall z, In z (x :: l) -> list_min x l <= z.
Proof.
  unfold list_min. induction l as [|y r IH]; intros x; cbn [fold_left].
  - split; [left; reflexivity|]. intros z [->|[]]; lra.
  - destruct (Rltb_spec y x).
    + destruct (IH y) as [A B]. split; [right; exact A|]. intros z [<-|Hz]; [pose proof (B y (or_introl eq_refl)); lra|apply B; exact Hz].
    + destruct (IH x) as [A B]. split; [destruct A as [A|A]; [left; exact A|right; right; exact A]|].
      intros z [<-|[<-|Hz]]; [apply B; left; reflexivity|pose proof (B x (or_introl eq_refl)); lra|apply B; right; exact Hz].
Qed.
Lemma max_magnitude_ok l : l <> [] -> is_largest (max_magnitude l) (map Rabs l).
Proof.
  destruct l as [|x r]; [congruence|]. intros _. unfold max_magnitude. destruct (list_max_spec r x) as [A B]. destruct (list_min_spec r x) as [C D].
  set (M := list_max x r) in *. set (m := list_min x r) in *. set (l := x :: r) in *. pose proof (D M A).
  assert (G : forall z, In z l -> Rabs z <= Rmax (- m) M).
  { intros z Hz. pose proof (B z Hz). pose proof (D z Hz). pose proof (Rmax_l (- m) M). pose proof (Rmax_r (- m) M). apply Rabs_le. lra. }
  destruct (Rltb_spec (- m) M).
  - split; [apply in_map_iff; exists M; split; [apply Rabs_right; lra|exact A]|]. intros y Hy. apply in_map_iff in Hy. destruct Hy as [z [<- Hz]].
    pose proof (G z Hz) as K. rewrite Rmax_right in K by lra. exact K.
  - split; [apply in_map_iff; exists m; split; [apply Rabs_left1; lra|exact C]|]. intros y Hy. apply in_map_iff in Hy. destruct Hy as [z [<- Hz]].
    pose proof (G z Hz) as K. rewrite Rmax_left in K by lra. exact K.
Qed.

Lemma sq_fold (l : list (R * R)) : forall a, fold_left (fun s p => s + (fst p - snd p) * (fst p - snd p)) l a = a + rsum (map (fun p => (fst p - snd p) * (fst p - snd p)) l).
Proof. induction l as [|p r IH]; intros a; [unfold rsum; cbn; ring|]. cbn [fold_left map]. rewrite IH, rsum_cons. ring. Qed.
Lemma combine_same : forall a b : list R, length a = length b -> (forall p, In p (combine a b) -> fst p = snd p) -> a = b.
Proof.
  induction a as [|x a IH]; intros [|y b] L E; try discriminate; [reflexivity|]. injection L as L. f_equal; [apply (E (x, y)); left; reflexivity|].
  apply IH; [exact L|]. intros p Hp. apply E. right. exact Hp.
Qed.
Lemma combine_flip (a : list R) : forall b, map (fun p => (fst p - snd p) * (fst p - snd p)) (combine a b) = map (fun p => (fst p - snd p) * (fst p - snd p)) (combine b a).
Proof. induction a as [|x a IH]; intros [|y b]; try reflexivity. cbn [combine map fst snd]. rewrite IH. f_equal. ring. Qed.
Lemma combine_sum : forall a b : list R, length a = length b -> rsum (map (fun p => (fst p - snd p) * (fst p - snd p)) (combine a b)) =
  sumf (length a) (fun i => (nth i a 0 - nth i b 0) * (nth i a 0 - nth i b 0)).
Proof.
  induction a as [|x a IH]; intros [|y b] L; try discriminate; [unfold rsum; reflexivity|]. injection L as L. cbn [combine map length].
  rewrite rsum_cons, sumf_shift. cbn [nth fst snd]. rewrite IH by exact L. reflexivity.
Qed.
Lemma rms_ok a b : length a = length b -> a <> [] -> exists e, rms_error a b = Ok e /\ 0 <= e /\
  e * e * INR (length a) = sumf (length a) (fun i => (nth i a 0 - nth i b 0) * (nth i a 0 - nth i b 0)) /\
  rms_error b a = Ok e /\ (e = 0 <-> a = b).
Proof.
  intros L N. assert (P : 0 < INR (length a)) by (destruct a; [congruence|apply lt_0_INR; cbn; lia]).
  unfold rms_error. rewrite <- L, Nat.eqb_refl. replace (length a =? 0)%nat with false by (destruct a; [congruence|reflexivity]). cbn [ocheck oguard negb].
  rewrite !sq_fold. rewrite (combine_flip b a). set (s := rsum _). eexists. split; [reflexivity|].
  assert (P0 : forall x, In x (map (fun p => (fst p - snd p) * (fst p - snd p)) (combine a b)) -> 0 <= x).
  { intros x Hx. apply in_map_iff in Hx. destruct Hx as [p [<- _]]. apply Rle_0_sqr. }
  assert (S0 : 0 <= s) by (apply rsum_nonneg; exact P0).
  assert (Q : 0 <= (0 + s) / INR (length a)) by (apply Rmult_le_pos; [lra|left; apply Rinv_0_lt_compat; exact P]).
  split; [apply sqrt_pos|]. split; [rewrite sqrt_sqrt by exact Q; rewrite <- combine_sum by exact L; fold s; field; lra|]. split; [reflexivity|]. split.
  - intros E. apply sqrt_eq_0 in E; [|exact Q]. assert (s = 0). { apply (Rmult_eq_reg_r (/ INR (length a))); [|apply Rinv_neq_0_compat; lra]. unfold Rdiv in E. lra. }
    apply combine_same; [exact L|]. intros p Hp. pose proof (rsum_zero _ P0 H _ (in_map (fun p => (fst p - snd p) * (fst p - snd p)) _ p Hp)) as Z. cbv beta in Z. nra.
  - intros <-. assert (s = 0). { unfold s. rewrite combine_sum by reflexivity. apply sumf_zero. intros; ring. } rewrite H. replace ((0 + 0) / INR (length a)) with 0 by (field; lra). apply sqrt_0.
Qed.

Lemma max_from_spec l : forall pre best m, nth best pre 0 = m -> (best < length pre)%nat -> (forall j, (j < length pre)%nat -> nth j pre 0 <= m) ->
  (forall j, (j < best)%nat -> nth j pre 0 < m) ->
  let (i, v) := max_from (length pre) best m l in
  (i < length (pre ++ l))%nat /\ nth i (pre ++ l) 0 = v /\ (forall j, (j < length (pre ++ l))%nat -> nth j (pre ++ l) 0 <= v) /\ (forall j, (j < i)%nat -> nth j (pre ++ l) 0 < v).
Proof.
  induction l as [|y r IH]; intros pre best m A B C D; cbn [max_from].
  - rewrite app_nil_r. auto.
  - replace (pre ++ y :: r) with ((pre ++ [y]) ++ r) by (rewrite <- app_assoc; reflexivity).
    replace (S (length pre)) with (length (pre ++ [y])) by (rewrite app_length; cbn; lia).
    assert (K : nth (length pre) (pre ++ [y]) 0 = y) by (rewrite app_nth2, Nat.sub_diag by lia; reflexivity).
    destruct (Rltb_spec m y).
    + apply IH; rewrite ?app_length; cbn [length].
      * exact K.
      * lia.
      * intros j Hj. destruct (Nat.eq_dec j (length pre)) as [->|]; [rewrite K; lra|]. rewrite app_nth1 by lia. pose proof (C j ltac:(lia)). lra.
      * intros j Hj. rewrite app_nth1 by lia. pose proof (C j Hj). lra.
    + apply IH; rewrite ?app_length; cbn [length].
      * rewrite app_nth1 by lia. exact A.
      * lia.
      * intros j Hj. destruct (Nat.eq_dec j (length pre)) as [->|]; [rewrite K; lra|]. rewrite app_nth1 by lia. apply C. lia.
      * intros j Hj. rewrite app_nth1 by lia. apply D. exact Hj.
Qed.
Lemma find_max_ok l : l <> [] -> exists i v, find_max l = Ok (i, v) /\ (i < length l)%nat /\ nth i l 0 = v /\
  (forall j, (j < length l)%nat -> nth j l 0 <= v) /\ (forall j, (j < i)%nat -> nth j l 0 < v).
Proof.
  destruct l as [|x r]; [congruence|]. intros _. pose proof (max_from_spec r [x] 0 x eq_refl) as H. unfold find_max. cbn [length] in H.
  destruct (max_from 1 0 x r) as [i v]. exists i, v. split; [reflexivity|]. apply H; [lia| |].
  - intros j Hj. replace j with 0%nat by lia. cbn. lra.
  - intros j Hj. lia.
Qed.
