(* Proofs about signal_vector_util.h: smoothers and quadratic interpolation. *)
From Verif Require Import Common ListLemmas NthLemmas RealUtil VectorUtilModel VectorUtilSpec VectorUtilProofs.
From Coq Require Import Lra Psatz.
From Coquelicot Require Import Coquelicot.
Local Open Scope R_scope.

(* ---- any arithmetic ---- *)
Section Smooth.
Context {T : Type} (add sub : T -> T -> T) (scale : T -> T).
Let fwd := forward_smooth add sub scale.
Let bwd := backward_smooth add sub scale.
Lemma fwd_app : forall a b s, fwd s (a ++ b) = (fst (fwd (fst (fwd s a)) b), snd (fwd s a) ++ snd (fwd (fst (fwd s a)) b)).
Proof.
  induction a as [|x a IH]; intros b s; [cbn; apply surjective_pairing|]. unfold fwd in *. cbn [app forward_smooth]. rewrite IH.
  destruct (forward_smooth add sub scale (add s (scale (sub x s))) a). reflexivity.
Qed.
Lemma fwd_length : forall l s, length (snd (fwd s l)) = length l.
Proof. induction l as [|x l IH]; intros s; [reflexivity|]. unfold fwd in *. cbn [forward_smooth]. specialize (IH (add s (scale (sub x s)))).
  destruct (forward_smooth add sub scale _ l). cbn [snd length] in *. congruence. Qed.
Lemma bwd_eq s l : bwd s l = (fst (fwd s (rev l)), rev (snd (fwd s (rev l)))).
Proof. unfold bwd, backward_smooth. fold fwd. destruct (fwd s (rev l)). reflexivity. Qed.
Lemma bwd_length s l : length (snd (bwd s l)) = length l.
Proof. rewrite bwd_eq. cbn [snd]. rewrite rev_length, fwd_length, rev_length. reflexivity. Qed.
Lemma block_dc_eq : forall l s, block_dc add sub scale s l = map (fun p => sub (fst p) (snd p)) (combine l (snd (fwd s l))).
Proof. induction l as [|x l IH]; intros s; [reflexivity|]. unfold fwd in *. cbn [block_dc forward_smooth]. rewrite IH.
  destruct (forward_smooth add sub scale _ l). reflexivity. Qed.
(* a coefficient of one *)
Lemma fwd_id : (forall x s, add s (scale (sub x s)) = x) -> forall l s, snd (fwd s l) = l.
Proof. intros E. induction l as [|x l IH]; intros s; [reflexivity|]. unfold fwd in *. cbn [forward_smooth]. rewrite E. specialize (IH x).
  destruct (forward_smooth add sub scale x l). cbn [snd] in *. congruence. Qed.
Lemma bwd_id : (forall x s, add s (scale (sub x s)) = x) -> forall l s, snd (bwd s l) = l.
Proof. intros E l s. rewrite bwd_eq. cbn [snd]. rewrite fwd_id by exact E. apply rev_involutive. Qed.

Context (zero : T) (conj rp : T -> T).
Let hp := hermitian_pass zero add sub scale conj.
Lemma hp_eq k sg ex : exists a b, fst (hp k (sg, ex)) = snd (bwd a (snd (fwd b sg))).
Proof.
  unfold hp, hermitian_pass. destruct (forward_smooth add sub scale zero (rev (firstn k (skipn 1 sg)))) as [a0 x0].
  destruct (forward_smooth add sub scale (conj a0) sg) as [a1 s1] eqn:E1. destruct (forward_smooth add sub scale a1 ex) as [a2 e1].
  destruct (backward_smooth add sub scale zero e1) as [a3 e2]. exists a3, (conj a0). unfold fwd, bwd. rewrite E1. cbn [snd]. destruct (backward_smooth add sub scale a3 s1). reflexivity.
Qed.
Lemma hp_length k p : length (fst (hp k p)) = length (fst p).
Proof. destruct p as [sg ex]. destruct (hp_eq k sg ex) as [a [b E]]. rewrite E, bwd_length, fwd_length. reflexivity. Qed.
Lemma hp_id k p : (forall x s, add s (scale (sub x s)) = x) -> fst (hp k p) = fst p.
Proof. intros E. destruct p as [sg ex]. destruct (hp_eq k sg ex) as [a [b F]]. rewrite F, bwd_id, fwd_id by exact E. reflexivity. Qed.
Lemma real_ends_facts l : (2 <= length l)%nat -> length (real_ends zero rp l) = length l /\
  (forall i, (i < length l)%nat -> nth i (real_ends zero rp l) zero = if ((i =? 0) || (i =? length l - 1))%nat then rp (nth i l zero) else nth i l zero).
Proof.
  destruct l as [|x r]; [cbn; lia|]. intros L. assert (N : r <> []) by (intros ->; cbn in L; lia).
  destruct (exists_last N) as [r' [z ->]]. unfold real_ends. cbv zeta.
  assert (E1 : removelast (rp x :: r' ++ (z :: nil)) = rp x :: r').
  { change (rp x :: r' ++ (z :: nil)) with ((rp x :: r') ++ (z :: nil)). apply removelast_last. }
  assert (E2 : last (rp x :: r' ++ (z :: nil)) zero = z).
  { change (rp x :: r' ++ (z :: nil)) with ((rp x :: r') ++ (z :: nil)). apply last_last. }
  rewrite E1, E2. cbn [length]. rewrite !app_length. cbn [length]. split; [cbn [length]; lia|].
  intros i Hi. destruct i as [|i]; [reflexivity|]. destruct (Nat.eqb_spec (S i) 0) as [E0|_]; [lia|]. cbn [app nth orb].
  destruct (Nat.eqb_spec (S i) (S (length r' + 1) - 1)) as [E|E].
  - replace i with (length r') by lia. rewrite !app_nth2, Nat.sub_diag by lia. reflexivity.
  - rewrite !app_nth1 by lia. reflexivity.
Qed.
Lemma hermitian_facts extra l : (2 <= length l)%nat -> exists sm, length sm = length l /\ hermitian_smooth zero add sub scale conj rp extra l = real_ends zero rp sm /\
  ((forall x s, add s (scale (sub x s)) = x) -> sm = l).
Proof.
  intros L. unfold hermitian_smooth. cbv zeta. destruct (Nat.ltb_spec (length l) 2); [lia|]. eexists. split; [|split; [reflexivity|]].
  - rewrite !hp_length. reflexivity.
  - intros E. rewrite !hp_id by exact E. reflexivity.
Qed.
(* one pass is a forward and a backward pass over the extended signal *)
Lemma fwd_conj (CA : forall a b, conj (add a b) = add (conj a) (conj b)) (CS : forall a b, conj (sub a b) = sub (conj a) (conj b)) (CC : forall a, conj (scale a) = scale (conj a)) :
  forall l s, fst (fwd (conj s) (map conj l)) = conj (fst (fwd s l)).
Proof.
  induction l as [|x l IH]; intros s; [reflexivity|]. unfold fwd in *. cbn [map forward_smooth]. specialize (IH (add s (scale (sub x s)))). rewrite CA, CC, CS in IH.
  destruct (forward_smooth add sub scale _ (map conj l)), (forward_smooth add sub scale _ l). exact IH.
Qed.
Lemma hp_extended (CZ : conj zero = zero) (CA : forall a b, conj (add a b) = add (conj a) (conj b)) (CS : forall a b, conj (sub a b) = sub (conj a) (conj b)) (CC : forall a, conj (scale a) = scale (conj a)) k sg ex s1 e1 :
  (k < length sg)%nat -> hp k (sg, ex) = (s1, e1) -> length s1 = length sg /\ length e1 = length ex /\
  s1 ++ e1 = snd (bwd zero (skipn k (snd (fwd zero (map conj (rev (firstn k (skipn 1 sg))) ++ sg ++ ex))))).
Proof.
  intros K. unfold hp, hermitian_pass. fold fwd bwd. set (L := rev (firstn k (skipn 1 sg))). assert (HL : length L = k) by (unfold L; rewrite rev_length, firstn_length, skipn_length; lia).
  pose proof (fwd_conj CA CS CC L zero) as Q. rewrite CZ in Q. rewrite fwd_app, Q. cbn [snd]. rewrite skipn_app, fwd_length, map_length, HL, Nat.sub_diag. cbn [skipn]. rewrite skipn_all2 by (rewrite fwd_length, map_length, HL; lia). cbn [app].
  destruct (fwd zero L) as [b0 x0]. cbn [fst]. rewrite fwd_app. cbn [snd]. pose proof (fwd_length sg (conj b0)) as N1. destruct (fwd (conj b0) sg) as [b1 x1]. cbn [fst snd] in *. pose proof (fwd_length ex b1) as N2. destruct (fwd b1 ex) as [b2 x2]. cbn [snd] in *.
  pose proof (bwd_length zero x2) as N3. pose proof (bwd_eq zero x2) as B2. pose proof (bwd_eq zero (x1 ++ x2)) as B3. rewrite rev_app_distr, fwd_app in B3. cbn [fst snd] in B3. rewrite rev_app_distr in B3. destruct (bwd zero x2) as [b3 y2]. injection B2 as B2 B2'. cbn [fst snd] in *.
  pose proof (bwd_length b3 x1) as N4. pose proof (bwd_eq b3 x1) as B4. rewrite <- B2, <- B2' in B3. destruct (bwd b3 x1) as [b4 y1]. injection B4 as B4 B4'. cbn [snd] in *. intros E. injection E as <- <-. split; [lia|]. split; [lia|]. rewrite B3. cbn [snd]. now rewrite B4'.
Qed.
End Smooth.

Lemma nthS {A} (x d : A) l n : nth (S n) (x :: l) d = nth n l d.
Proof. reflexivity. Qed.
(* ---- real samples ---- *)
Lemma fwd_closed c : forall l s i, (i < length l)%nat -> nth i (snd (forward_smooth Rplus Rminus (Rmult c) s l)) 0 =
  (1 - c) ^ (i + 1) * s + sumf (i + 1) (fun k => c * (1 - c) ^ k * nth (i - k) l 0).
Proof.
  induction l as [|x r IH]; intros s i Hi; [cbn in Hi; lia|]. cbn [forward_smooth].
  assert (E : forall j, nth j (snd (let (s2, out) := forward_smooth Rplus Rminus (Rmult c) (s + c * (x - s)) r in (s2, s + c * (x - s) :: out))) 0 =
     nth j (s + c * (x - s) :: snd (forward_smooth Rplus Rminus (Rmult c) (s + c * (x - s)) r)) 0) by (intros; destruct (forward_smooth _ _ _ _ r); reflexivity).
  rewrite E. destruct i as [|i]; [cbn; ring|]. rewrite nthS. cbn [length] in Hi. rewrite IH by lia.
  replace (S i + 1)%nat with (S (i + 1)) by lia. cbn [sumf]. replace (S i - (i + 1))%nat with 0%nat by lia.
  rewrite (sumf_ext (i + 1)%nat (fun k => c * (1 - c) ^ k * nth (S i - k) (x :: r) 0) (fun k => c * (1 - c) ^ k * nth (i - k) r 0)).
  - cbn [pow nth]. ring.
  - intros k Hk. replace (S i - k)%nat with (S (i - k)) by lia. reflexivity.
Qed.
Lemma fwd_range c lo hi : 0 <= c <= 1 -> forall l s, lo <= s <= hi -> (forall x, In x l -> lo <= x <= hi) ->
  lo <= fst (forward_smooth Rplus Rminus (Rmult c) s l) <= hi /\ forall y, In y (snd (forward_smooth Rplus Rminus (Rmult c) s l)) -> lo <= y <= hi.
Proof.
  intros C. induction l as [|x r IH]; intros s A B; [cbn; tauto|]. cbn [forward_smooth].
  assert (P : lo <= s + c * (x - s) <= hi) by (pose proof (B x (or_introl eq_refl)); nra).
  destruct (IH _ P (fun y H => B y (or_intror H))) as [D E]. destruct (forward_smooth _ _ _ _ r). cbn [fst snd] in *. split; [exact D|]. intros y [<-|Hy]; [exact P|apply E; exact Hy].
Qed.
Lemma bwd_range c lo hi l s : 0 <= c <= 1 -> lo <= s <= hi -> (forall x, In x l -> lo <= x <= hi) ->
  lo <= fst (backward_smooth Rplus Rminus (Rmult c) s l) <= hi /\ forall y, In y (snd (backward_smooth Rplus Rminus (Rmult c) s l)) -> lo <= y <= hi.
Proof.
  intros C A B. rewrite bwd_eq. cbn [fst snd]. destruct (fwd_range c lo hi C (rev l) s A) as [D E]; [intros x Hx; apply B; apply in_rev; exact Hx|].
  split; [exact D|]. intros y Hy. apply E. apply in_rev. exact Hy.
Qed.
Lemma smooth_pass_range c lo hi p : 0 <= c <= 1 -> lo <= 0 <= hi -> lo <= fst p <= hi -> (forall x, In x (snd p) -> lo <= x <= hi) ->
  lo <= fst (smooth_pass c p) <= hi /\ (forall y, In y (snd (smooth_pass c p)) -> lo <= y <= hi) /\ length (snd (smooth_pass c p)) = length (snd p).
Proof.
  intros C Z A B. destruct p as [s l]. unfold smooth_pass. cbn [fst snd] in *.
  assert (K : forall u, lo <= u <= hi -> lo <= u * (1 - c) <= hi) by (intros u Hu; nra).
  destruct (fwd_range c lo hi C l (s * (1 - c)) (K s A) B) as [D E]. pose proof (fwd_length Rplus Rminus (Rmult c) l (s * (1 - c))) as L.
  destruct (forward_smooth Rplus Rminus (Rmult c) (s * (1 - c)) l) as [s1 x1]. cbn [fst snd] in *.
  destruct (bwd_range c lo hi x1 (s1 * (1 - c)) C (K s1 D) E) as [F G]. split; [exact F|]. split; [exact G|]. rewrite bwd_length. exact L.
Qed.
Lemma smooth_vector_range c l lo hi : 0 <= c <= 1 -> l <> [] -> lo <= 0 <= hi -> (forall x, In x l -> lo <= x <= hi) ->
  exists out, smooth_vector c l = Ok out /\ length out = length l /\ forall y, In y out -> lo <= y <= hi.
Proof.
  intros C N Z B. destruct l as [|x r]; [congruence|]. unfold smooth_vector. eexists. split; [reflexivity|].
  destruct (smooth_pass_range c lo hi (x, x :: r) C Z (B x (or_introl eq_refl)) B) as [D [E L]].
  destruct (smooth_pass_range c lo hi (smooth_pass c (x, x :: r)) C Z D E) as [_ [F L2]]. split; [rewrite L2, L; reflexivity|exact F].
Qed.
Lemma smooth_vector_identity l : l <> [] -> smooth_vector 1 l = Ok l.
Proof.
  intros N. destruct l as [|x r]; [congruence|]. unfold smooth_vector. 
  assert (E : forall p, snd (smooth_pass 1 p) = snd p).
  { intros [s l]. unfold smooth_pass. cbn [fst snd]. pose proof (fwd_id Rplus Rminus (Rmult 1) ltac:(intros; ring) l (s * (1 - 1))) as F.
    destruct (forward_smooth Rplus Rminus (Rmult 1) (s * (1 - 1)) l) as [s1 x1]. cbn [snd] in F. subst x1. apply bwd_id. intros; ring. }
  rewrite !E. reflexivity.
Qed.
(* linearity *)
Lemma lin_length a b x y : length x = length y -> length (lin a b x y) = length x.
Proof. intros L. unfold lin. rewrite map_length, combine_length. lia. Qed.
Lemma lin_nth a b : forall x y i, length x = length y -> (i < length x)%nat -> nth i (lin a b x y) 0 = a * nth i x 0 + b * nth i y 0.
Proof. induction x as [|p x IH]; intros [|q y] i L Hi; try discriminate; [cbn in Hi; lia|]. destruct i; [reflexivity|]. exact (IH y i ltac:(cbn in L; lia) ltac:(cbn in Hi; lia)). Qed.
Lemma lin_app a b x y x' y' : length x = length y -> lin a b (x ++ x') (y ++ y') = lin a b x y ++ lin a b x' y'.
Proof. unfold lin. revert y. induction x as [|p x IH]; intros [|q y] L; try discriminate; [reflexivity|]. cbn [app combine map]. f_equal. apply IH. cbn in L; lia. Qed.
Lemma lin_rev a b : forall x y, length x = length y -> lin a b (rev x) (rev y) = rev (lin a b x y).
Proof. induction x as [|p x IH]; intros [|q y] L; try discriminate; [reflexivity|]. cbn [rev]. rewrite lin_app by (rewrite !rev_length; cbn in L; lia). rewrite IH by (cbn in L; lia). reflexivity. Qed.
Lemma fwd_lin c a b : forall x y s t, length x = length y ->
  forward_smooth Rplus Rminus (Rmult c) (a * s + b * t) (lin a b x y) =
  (a * fst (forward_smooth Rplus Rminus (Rmult c) s x) + b * fst (forward_smooth Rplus Rminus (Rmult c) t y),
   lin a b (snd (forward_smooth Rplus Rminus (Rmult c) s x)) (snd (forward_smooth Rplus Rminus (Rmult c) t y))).
Proof.
  induction x as [|p x IH]; intros [|q y] s t L; try discriminate; [reflexivity|]. unfold lin. cbn [combine map forward_smooth fst snd]. fold (lin a b x y).
  replace (a * s + b * t + c * (a * p + b * q - (a * s + b * t))) with (a * (s + c * (p - s)) + b * (t + c * (q - t))) by ring.
  rewrite IH by (cbn in L; lia). destruct (forward_smooth _ _ _ _ x). destruct (forward_smooth _ _ _ _ y). reflexivity.
Qed.
Lemma bwd_lin c a b x y s t : length x = length y ->
  backward_smooth Rplus Rminus (Rmult c) (a * s + b * t) (lin a b x y) =
  (a * fst (backward_smooth Rplus Rminus (Rmult c) s x) + b * fst (backward_smooth Rplus Rminus (Rmult c) t y),
   lin a b (snd (backward_smooth Rplus Rminus (Rmult c) s x)) (snd (backward_smooth Rplus Rminus (Rmult c) t y))).
Proof.
  intros L. rewrite !bwd_eq, <- lin_rev by exact L. rewrite fwd_lin by (rewrite !rev_length; exact L). cbn [fst snd].
  rewrite <- lin_rev by (rewrite !fwd_length, !rev_length; exact L). reflexivity.
Qed.
Lemma smooth_pass_lin c a b p q : length (snd p) = length (snd q) ->
  smooth_pass c (a * fst p + b * fst q, lin a b (snd p) (snd q)) =
  (a * fst (smooth_pass c p) + b * fst (smooth_pass c q), lin a b (snd (smooth_pass c p)) (snd (smooth_pass c q))).
Proof.
  intros L. unfold smooth_pass. cbn [fst snd]. replace ((a * fst p + b * fst q) * (1 - c)) with (a * (fst p * (1 - c)) + b * (fst q * (1 - c))) by ring.
  rewrite fwd_lin by exact L. pose proof (fwd_length Rplus Rminus (Rmult c) (snd p) (fst p * (1 - c))) as L1. pose proof (fwd_length Rplus Rminus (Rmult c) (snd q) (fst q * (1 - c))) as L2.
  destruct (forward_smooth Rplus Rminus (Rmult c) (fst p * (1 - c)) (snd p)) as [s1 x1]. destruct (forward_smooth Rplus Rminus (Rmult c) (fst q * (1 - c)) (snd q)) as [s2 x2].
  cbn [fst snd] in *. replace ((a * s1 + b * s2) * (1 - c)) with (a * (s1 * (1 - c)) + b * (s2 * (1 - c))) by ring. apply bwd_lin. lia.
Qed.
Lemma smooth_pass_length c p : length (snd (smooth_pass c p)) = length (snd p).
Proof.
  destruct p as [s l]. unfold smooth_pass. cbn [fst snd]. pose proof (fwd_length Rplus Rminus (Rmult c) l (s * (1 - c))) as L.
  destruct (forward_smooth Rplus Rminus (Rmult c) (s * (1 - c)) l) as [s1 x1]. rewrite bwd_length. exact L.
Qed.
Lemma smooth_vector_linear c a b x y : length x = length y -> x <> [] -> exists u v,
  smooth_vector c x = Ok u /\ smooth_vector c y = Ok v /\ length u = length x /\ length v = length y /\ smooth_vector c (lin a b x y) = Ok (lin a b u v).
Proof.
  intros L N. destruct x as [|p x]; [congruence|]. destruct y as [|q y]; [discriminate|]. unfold smooth_vector. eexists _, _. split; [reflexivity|]. split; [reflexivity|].
  rewrite !smooth_pass_length. split; [reflexivity|]. split; [reflexivity|].
  pose proof (smooth_pass_lin c a b (p, p :: x) (q, q :: y) L) as E. cbn [fst snd] in E.
  change (Ok (snd (smooth_pass c (smooth_pass c (a * p + b * q, lin a b (p :: x) (q :: y))))) =
    Ok (lin a b (snd (smooth_pass c (smooth_pass c (p, p :: x)))) (snd (smooth_pass c (smooth_pass c (q, q :: y)))))).
  rewrite E. rewrite smooth_pass_lin by (rewrite !smooth_pass_length; exact L). reflexivity.
Qed.

Lemma coefficient_small s : s <= 1 / 100 -> smoother_coefficient s = 1.
Proof. intros H. unfold smoother_coefficient. rewrite Rleb_true by exact H. reflexivity. Qed.
Lemma coefficient_ok s : 1 / 100 < s -> let c := smoother_coefficient s in 0 < c < 1 /\ 4 * ((1 - c) / c ^ 2) = s ^ 2.
Proof.
  intros H. cbv zeta. unfold smoother_coefficient. rewrite Rleb_false by exact H. cbv zeta.
  assert (T : 0 < s * s) by nra. set (u := 2 / (s * s)). assert (U : 0 < u) by (apply Rdiv_lt_0_compat; lra).
  set (q := sqrt _). assert (Q : q * q = (1 + u) * (1 + u) - 1) by (apply sqrt_sqrt; nra). assert (Q0 : 0 <= q) by apply sqrt_pos. clearbody q.
  assert (A : u < q) by nra. assert (B : q < 1 + u) by nra. split; [lra|].
  assert (E : (q - u) ^ 2 = 2 * u * (1 - (q - u))) by (cbn [pow]; nra).
  rewrite E. replace (s ^ 2) with (2 / u) by (unfold u; field; nra). field. split; lra.
Qed.
(* the one-pole kernel c (1-c)^n is a distribution with variance (1-c)/c^2 *)
Ltac inR := match goal with |- @eq _ ?a ?b => change (@eq R a b) end.
Lemma geom_CV q : Rabs q < 1 -> Rbar_lt (Rabs q) (CV_radius (fun _ : nat => 1)).
Proof.
  intros Q. pose proof (Rabs_pos q). apply (Rbar_lt_le_trans _ (Finite ((Rabs q + 1) / 2))); [cbn; lra|].
  destruct (Lub_Rbar_correct (CV_disk (fun _ : nat => 1))) as [A _]. apply A. unfold CV_disk.
  apply (ex_series_ext (fun n => ((Rabs q + 1) / 2) ^ n)).
  - intros n. rewrite Rmult_1_l. rewrite <- RPow_abs. rewrite (Rabs_right ((Rabs q + 1) / 2)) by lra. reflexivity.
  - apply ex_series_geom. rewrite (Rabs_right ((Rabs q + 1) / 2)); lra.
Qed.
Lemma geom_value q : Rabs q < 1 -> PSeries (fun _ : nat => 1) q = / (1 - q).
Proof.
  intros Q. unfold PSeries. apply is_series_unique. apply (is_series_ext (fun n => q ^ n)); [intros; inR; ring|]. apply is_series_geom. exact Q.
Qed.
Lemma near q : Rabs q < 1 -> locally q (fun y => Rabs y < 1).
Proof.
  intros Q. assert (E : 0 < 1 - Rabs q) by lra. exists (mkposreal _ E). intros y Hy. change (Rabs (y - q) < 1 - Rabs q) in Hy.
  replace y with (q + (y - q)) by ring. pose proof (Rabs_triang q (y - q)). lra.
Qed.
Lemma geom1 q : Rabs q < 1 -> PSeries (PS_derive (fun _ : nat => 1)) q = / (1 - q) ^ 2.
Proof.
  intros Q. rewrite <- Derive_PSeries by (apply geom_CV; exact Q). assert (q < 1) by (apply Rabs_def2 in Q; lra).
  rewrite (Derive_ext_loc _ (fun y => / (1 - y))).
  - apply is_derive_unique. auto_derive; [lra|]. field. lra.
  - apply (filter_imp (fun y => Rabs y < 1)); [intros y Hy; apply geom_value; exact Hy|apply near; exact Q].
Qed.
Lemma geom2 q : Rabs q < 1 -> PSeries (PS_derive (PS_derive (fun _ : nat => 1))) q = 2 / (1 - q) ^ 3.
Proof.
  intros Q. rewrite <- Derive_PSeries by (rewrite CV_radius_derive; apply geom_CV; exact Q). assert (q < 1) by (apply Rabs_def2 in Q; lra).
  rewrite (Derive_ext_loc _ (fun y => / (1 - y) ^ 2)).
  - apply is_derive_unique. auto_derive; [nra|]. field. lra.
  - apply (filter_imp (fun y => Rabs y < 1)); [intros y Hy; apply geom1; exact Hy|apply near; exact Q].
Qed.
Lemma pser a q l : Rbar_lt (Rabs q) (CV_radius a) -> PSeries a q = l -> is_series (fun n => a n * q ^ n) l.
Proof.
  intros A <-. unfold PSeries. apply (Series_correct (fun n => a n * q ^ n)). apply ex_series_Rabs. apply CV_disk_inside. exact A.
Qed.
Lemma ser_scal (c : R) (a : nat -> R) (l : R) : is_series a l -> is_series (fun n => c * a n) (c * l).
Proof. exact (@is_series_scal R_AbsRing R_NormedModule c a l). Qed.
Lemma ser_plus (a b : nat -> R) (l m : R) : is_series a l -> is_series b m -> is_series (fun n => a n + b n) (l + m).
Proof. exact (@is_series_plus R_AbsRing R_NormedModule a b l m). Qed.
Lemma kernel_moments c : 0 < c < 1 ->
  is_series (fun n => c * (1 - c) ^ n) 1 /\ is_series (fun n => INR n * (c * (1 - c) ^ n)) ((1 - c) / c) /\
  is_series (fun n => (INR n - (1 - c) / c) ^ 2 * (c * (1 - c) ^ n)) ((1 - c) / c ^ 2).
Proof.
  intros C. set (q := 1 - c). assert (Q : Rabs q < 1) by (unfold q; rewrite Rabs_right; lra). pose proof (geom_CV q Q) as V.
  pose proof (pser _ q _ V (geom_value q Q)) as S0.
  pose proof (pser _ q _ (eq_ind_r (fun v => Rbar_lt (Rabs q) v) V (CV_radius_derive _)) (geom1 q Q)) as S1.
  assert (V2 : Rbar_lt (Rabs q) (CV_radius (PS_derive (PS_derive (fun _ : nat => 1))))) by (rewrite !CV_radius_derive; exact V).
  pose proof (pser _ q _ V2 (geom2 q Q)) as S2.
  assert (comb : forall x y z, is_series (fun n => c * (x * (PS_derive (PS_derive (fun _ : nat => 1)) n * q ^ n) + (y * (PS_derive (fun _ : nat => 1) n * q ^ n) + z * (1 * q ^ n))))
      (c * (x * (2 / (1 - q) ^ 3) + (y * / (1 - q) ^ 2 + z * / (1 - q))))).
  { intros x y z. apply ser_scal, ser_plus; [|apply ser_plus]; apply ser_scal; assumption. }
  assert (fin : forall x y z f l, (forall n, f n = c * (x * (PS_derive (PS_derive (fun _ : nat => 1)) n * q ^ n) + (y * (PS_derive (fun _ : nat => 1) n * q ^ n) + z * (1 * q ^ n)))) ->
     c * (x * (2 / (1 - q) ^ 3) + (y * / (1 - q) ^ 2 + z * / (1 - q))) = l -> is_series f l).
  { intros x y z f l E <-. apply (is_series_ext (fun n => c * (x * (PS_derive (PS_derive (fun _ : nat => 1)) n * q ^ n) + (y * (PS_derive (fun _ : nat => 1) n * q ^ n) + z * (1 * q ^ n))))); [intros n; symmetry; apply E|apply comb]. }
  assert (q1 : 1 - q = c) by (unfold q; ring).
  assert (D1 : forall n, PS_derive (fun _ : nat => 1) n = INR n + 1) by (intros; unfold PS_derive; rewrite S_INR; ring).
  assert (D2 : forall n, PS_derive (PS_derive (fun _ : nat => 1)) n = (INR n + 1) * (INR n + 2)) by (intros; unfold PS_derive; rewrite !S_INR; ring).
  split; [|split].
  - apply (fin 0 0 1); [intros; ring|rewrite q1; field; lra].
  - apply (fin 0 1 (-1)); [intros n; rewrite D1; ring|rewrite q1; unfold q; field; lra].
  - apply (fin 1 (-3 - 2 * (q / c)) (1 + 2 * (q / c) + (q / c) ^ 2)); [intros n; rewrite D1, D2; ring|rewrite q1; unfold q; field; lra].
Qed.
(* block_dc of a constant *)
Lemma block_dc_constant c x : forall n s i, (i < n)%nat -> nth i (block_dc Rplus Rminus (Rmult c) s (repeat x n)) 0 = (x - s) * (1 - c) ^ (i + 1).
Proof.
  induction n as [|n IH]; intros s i Hi; [lia|]. cbn [repeat block_dc]. destruct i as [|i]; [cbn; ring|]. cbn [nth]. rewrite IH by lia.
  replace (S i + 1)%nat with (S (i + 1)) by lia. cbn [pow]. ring.
Qed.
Lemma block_dc_split c : forall l s i, (i < length l)%nat ->
  nth i (block_dc Rplus Rminus (Rmult c) s l) 0 = nth i l 0 - nth i (snd (forward_smooth Rplus Rminus (Rmult c) s l)) 0.
Proof.
  induction l as [|x l IH]; intros s i Hi; [cbn in Hi; lia|]. cbn [block_dc forward_smooth]. specialize (IH (s + c * (x - s))).
  destruct (forward_smooth Rplus Rminus (Rmult c) (s + c * (x - s)) l). cbn [snd] in *. destruct i as [|i]; [reflexivity|]. cbn [nth]. apply IH. cbn in Hi. lia.
Qed.

(* ---- quadratic interpolation ---- *)
Lemma quad_eq l x0 : (0 < x0 < length l - 1)%nat ->
  let a := (nth (x0 - 1) l 0 - 2 * nth x0 l 0 + nth (x0 + 1) l 0) / 2 in
  let b := (nth (x0 + 1) l 0 - nth (x0 - 1) l 0) / 2 in
  quadratic_max l (Z.of_nat x0) =
    if Rltb (Rabs b) kTolerance then Ok (INR x0, nth x0 l 0)
    else if Rltb a 0 then let d := Rmax (-1) (Rmin (- b / (2 * a)) 1) in Ok (INR x0 + d, nth x0 l 0 + (b + a * d) * d)
    else Ok (INR x0 + (if Rltb b 0 then -1 else 1), nth (if Rltb b 0 then x0 - 1 else x0 + 1) l 0).
Proof.
  intros H. cbv zeta. unfold quadratic_max. cbv zeta. rewrite (proj2 (Z.leb_le 0 (Z.of_nat x0))) by lia. rewrite (proj2 (Z.ltb_lt _ _)) by lia. cbn [ocheck].
  rewrite (proj2 (Z.eqb_neq (Z.of_nat x0) 0)) by lia. rewrite (proj2 (Z.eqb_neq (Z.of_nat x0) (Z.of_nat (length l) - 1))) by lia. cbn [orb].
  rewrite <- INR_IZR_INZ. replace (Z.to_nat (Z.of_nat x0 - 1)) with (x0 - 1)%nat by lia. replace (Z.to_nat (Z.of_nat x0 + 1)) with (x0 + 1)%nat by lia. rewrite Nat2Z.id.
  destruct (Rltb (Rabs _) _); [reflexivity|]. destruct (Rltb _ 0); [reflexivity|]. destruct (Rltb _ 0).
  - rewrite plus_IZR, <- INR_IZR_INZ. replace (Z.to_nat (Z.of_nat x0 + -1)) with (x0 - 1)%nat by lia. reflexivity.
  - rewrite plus_IZR, <- INR_IZR_INZ. replace (Z.to_nat (Z.of_nat x0 + 1)) with (x0 + 1)%nat by lia. reflexivity.
Qed.
Lemma clamp_cases t : let d := Rmax (-1) (Rmin t 1) in -1 <= d <= 1 /\ (d = t \/ (d = 1 /\ 1 <= t) \/ (d = -1 /\ t <= -1)).
Proof. cbv zeta. unfold Rmax, Rmin. destruct (Rle_dec t 1); destruct (Rle_dec (-1) _); lra. Qed.
Lemma quad_facts l x0 : (0 < x0 < length l - 1)%nat -> exists d,
  quadratic_max l (Z.of_nat x0) = Ok (INR x0 + d, parabola l x0 d) /\ -1 <= d <= 1 /\
  (kTolerance <= Rabs ((nth (x0 + 1) l 0 - nth (x0 - 1) l 0) / 2) -> forall e, -1 <= e <= 1 -> parabola l x0 e <= parabola l x0 d) /\
  (Rabs ((nth (x0 + 1) l 0 - nth (x0 - 1) l 0) / 2) < kTolerance -> d = 0).
Proof.
  intros H. rewrite (quad_eq l x0 H). cbv zeta. unfold parabola.
  set (a := (nth (x0 - 1) l 0 - 2 * nth x0 l 0 + nth (x0 + 1) l 0) / 2). set (b := (nth (x0 + 1) l 0 - nth (x0 - 1) l 0) / 2).
  assert (Y1 : nth (x0 + 1) l 0 = nth x0 l 0 + b + a) by (unfold a, b; field). assert (Y2 : nth (x0 - 1) l 0 = nth x0 l 0 - b + a) by (unfold a, b; field).
  set (y := nth x0 l 0) in *. clearbody a b.
  destruct (Rltb_spec (Rabs b) kTolerance) as [B|B].
  - exists 0. split; [do 2 f_equal; ring|]. split; [lra|]. split; [lra|reflexivity].
  - destruct (Rltb_spec a 0) as [A|A].
    + set (t := - b / (2 * a)). assert (T : 2 * a * t = - b) by (unfold t; field; lra). clearbody t. destruct (clamp_cases t) as [D1 D2]. set (d := Rmax (-1) (Rmin t 1)) in *. clearbody d.
      exists d. split; [do 2 f_equal; ring|]. split; [exact D1|]. split; [|lra]. intros _ e He.
      assert (Bv : b = - (2 * a * t)) by lra. rewrite Bv.
      assert (K : a * ((e - t) * (e - t)) <= a * ((d - t) * (d - t))); [|nra].
      apply Rmult_le_compat_neg_l; [lra|]. destruct D2 as [->|[[-> G]|[-> G]]].
      * replace ((t - t) * (t - t)) with 0 by ring. apply Rle_0_sqr.
      * pose proof (Rmult_le_pos (1 - e) (2 * t - 1 - e) ltac:(lra) ltac:(lra)). lra.
      * pose proof (Rmult_le_pos (1 + e) (e - 1 - 2 * t) ltac:(lra) ltac:(lra)). lra.
    + destruct (Rltb_spec b 0) as [C|C].
      * exists (-1). split; [do 2 f_equal; lra|]. split; [lra|]. split; [|lra]. intros _ e He.
        pose proof (Rmult_le_pos (- b) (1 + e) ltac:(lra) ltac:(lra)). pose proof (Rmult_le_pos a ((1 - e) * (1 + e)) ltac:(lra) ltac:(apply Rmult_le_pos; lra)). lra.
      * exists 1. split; [do 2 f_equal; lra|]. split; [lra|]. split; [|lra]. intros _ e He.
        pose proof (Rmult_le_pos b (1 - e) ltac:(lra) ltac:(lra)). pose proof (Rmult_le_pos a ((1 - e) * (1 + e)) ltac:(lra) ltac:(apply Rmult_le_pos; lra)). lra.
Qed.
Lemma quad_end l x0 : (x0 < length l)%nat -> x0 = 0%nat \/ x0 = (length l - 1)%nat -> quadratic_max l (Z.of_nat x0) = Ok (INR x0, nth x0 l 0).
Proof.
  intros L H. unfold quadratic_max. cbv zeta. rewrite (proj2 (Z.leb_le 0 (Z.of_nat x0))) by lia. rewrite (proj2 (Z.ltb_lt _ _)) by lia. cbn [ocheck].
  replace ((Z.of_nat x0 =? 0) || (Z.of_nat x0 =? Z.of_nat (length l) - 1))%Z with true by lia. rewrite <- INR_IZR_INZ, Nat2Z.id. reflexivity.
Qed.
Lemma quad_accepts l x0 : (0 <= x0 < Z.of_nat (length l))%Z <-> exists r, quadratic_max l x0 = Ok r.
Proof.
  split.
  - intros H. rewrite <- (Z2Nat.id x0) by lia. set (n := Z.to_nat x0). assert (n < length l)%nat by lia.
    destruct (Nat.eq_dec n 0); [eexists; apply quad_end; auto|]. destruct (Nat.eq_dec n (length l - 1)); [eexists; apply quad_end; auto|].
    destruct (quad_facts l n) as [d [E _]]; [lia|]. eexists. exact E.
  - intros [r E]. unfold quadratic_max in E. cbv zeta in E. apply ocheck_ok in E. destruct E as [A E]. apply ocheck_ok in E. destruct E as [B _]. lia.
Qed.
Lemma quad_refuse l x0 : ~ (0 <= x0 < Z.of_nat (length l))%Z -> quadratic_max l x0 = CheckFail.
Proof.
  intros H. unfold quadratic_max. cbv zeta. destruct (Z.leb_spec 0 x0); [|reflexivity]. cbn [ocheck]. destruct (Z.ltb_spec x0 (Z.of_nat (length l))); [lia|reflexivity].
Qed.
