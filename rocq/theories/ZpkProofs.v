From Verif Require Import Common ListLemmas RealUtil BiquadModel DesignModel DesignSpec DesignProofs CascadeModel CascadeSpec CascadeProofs CascadeProofs2 PoleZeroModel PoleZeroSpec PoleZeroProofs PoleZeroProofs3 PoleZeroProofs4 PoleZeroProofs5 PoleZeroProofs6 ComplexModel ComplexProofs ZpkModel ZpkSpec.
From Coq Require Import Permutation Sorted.
From Coquelicot Require Import Complex.
Local Open Scope R_scope.

(* ---------- products ---------- *)
Lemma po_perm g l l' : Permutation l l' -> po g l = po g l'.
Proof. induction 1; cbn [product_over]; [reflexivity|now rewrite IHPermutation|ring|congruence]. Qed.
Lemma po_rep g x n : po g (repeat x n) = cpow (g x) n.
Proof. induction n as [|n IH]; cbn [repeat product_over cpow]; [reflexivity|now rewrite IH]. Qed.
Lemma fold_cmul (s : C) (l : list C) : forall a : C, @eq C (fold_left (fun acc r => cmul acc (csub s r)) l a) (Cmult a (po (fun r => Cminus s r) l)).
Proof. induction l as [|r l IH]; intros a; cbn [fold_left product_over]; [ring|]. rewrite IH. change (cmul a (csub s r)) with (Cmult a (Cminus s r)). ring. Qed.
Lemma po_minus_neq s l : (forall r, In r l -> r <> s) -> po (fun r => Cminus s r) l <> RtoC 0.
Proof. intros H. apply po_neq. intros r Hr. apply Cminus_neq. intros E. now apply (H r Hr). Qed.
Lemma po_minus_in s l : po (fun r => Cminus s r) l <> RtoC 0 -> forall r, In r l -> r <> s.
Proof. intros H r Hr E. apply (proj1 (po_neq _ _) H r Hr). subst. ring. Qed.

(* ---------- evaluation ---------- *)
Definition value_of (f : zpk) (s : C) : C := Cdiv (Cmult (RtoC (z_gain f)) (po (fun z => Cminus s z) (z_zeros f))) (po (fun p => Cminus s p) (z_poles f)).
Lemma zpk_eval_ok ex f s : po (fun p => Cminus s p) (z_poles f) <> RtoC 0 -> zpk_eval ex f s = Ok (value_of f s).
Proof.
  intros H. unfold zpk_eval. cbv zeta. rewrite !fold_cmul. change ((z_gain f, 0) : C) with (RtoC (z_gain f)). change ((1, 0) : C) with (RtoC 1). rewrite Cmult_1_l. rewrite cdiv_ok by exact H. reflexivity.
Qed.
Lemma zpk_eval_undef ex f s : po (fun p => Cminus s p) (z_poles f) = RtoC 0 -> zpk_eval ex f s = Undef.
Proof.
  intros H. unfold zpk_eval. cbv zeta. rewrite !fold_cmul. change ((1, 0) : C) with (RtoC 1). rewrite Cmult_1_l, H. unfold cdiv. cbn [RtoC fst snd]. cbv zeta. unfold ldexp. destruct (Reqb_spec (0 * powerRZ 2 (- (if Rleb (Rabs 0) (Rabs 0) then ex 0 else ex 0)) * (0 * powerRZ 2 (- (if Rleb (Rabs 0) (Rabs 0) then ex 0 else ex 0))) + 0 * powerRZ 2 (- (if Rleb (Rabs 0) (Rabs 0) then ex 0 else ex 0)) * (0 * powerRZ 2 (- (if Rleb (Rabs 0) (Rabs 0) then ex 0 else ex 0)))) 0) as [E|E]; [reflexivity|exfalso; apply E; ring].
Qed.
Lemma value_iff f f' s s' kz kp h : po (fun z => Cminus s' z) (z_zeros f') = Cmult kz (po (fun z => Cminus s z) (z_zeros f)) ->
  po (fun p => Cminus s' p) (z_poles f') = Cmult kp (po (fun p => Cminus s p) (z_poles f)) -> kp <> RtoC 0 ->
  Cmult (RtoC (z_gain f')) kz = Cmult (RtoC (z_gain f)) kp -> zpk_value f' s' h <-> zpk_value f s h.
Proof.
  intros EZ EP HP EG. unfold zpk_value. rewrite EZ, EP. set (Z := po _ (z_zeros f)). set (P := po _ (z_poles f)).
  assert (A : Cmult kp P <> RtoC 0 <-> P <> RtoC 0).
  { split; intros H; [intros E; apply H; rewrite E; ring|now apply Cmult_neq]. }
  split; intros (H1 & H2); (split; [now apply A|]); rewrite H2.
  - assert (P0 : P <> RtoC 0) by now apply A. transitivity (Cdiv (Cmult (Cmult (RtoC (z_gain f')) kz) Z) (Cmult kp P)); [field; now split|]. rewrite EG. field. now split.
  - transitivity (Cdiv (Cmult (Cmult (RtoC (z_gain f)) kp) Z) (Cmult kp P)); [field; now split|]. rewrite <- EG. field. now split.
Qed.

(* ---------- conjugates ---------- *)
Lemma conj_closed_map g l : (forall r, g (Cconj r) = Cconj (g r)) -> conj_closed l -> conj_closed (map g l).
Proof. intros G H. unfold conj_closed in *. rewrite map_map. rewrite (map_ext _ (fun r => g (Cconj r))) by (intros r; now rewrite G). rewrite <- (map_map Cconj g). now apply Permutation_map. Qed.
Lemma conj_closed_rep x n : conj_closed (repeat (RtoC x) n).
Proof. unfold conj_closed. induction n as [|n IH]; cbn [repeat map]; [constructor|]. rewrite Cconj_RtoC. now constructor. Qed.
Lemma conj_closed_app l l' : conj_closed l -> conj_closed l' -> conj_closed (l ++ l').
Proof. unfold conj_closed. intros H H'. rewrite map_app. now apply Permutation_app. Qed.
Lemma conj_closed_nil : conj_closed [].
Proof. constructor. Qed.
Lemma conj_closed_flat (g : C -> list C) l : (forall r, Permutation (map Cconj (g r)) (g (Cconj r))) -> conj_closed l -> conj_closed (flat_map g l).
Proof.
  intros G H. unfold conj_closed in *. transitivity (flat_map g (map Cconj l)); [|now apply Permutation_flat_map].
  clear H. induction l as [|r l IH]; cbn [flat_map map]; [constructor|]. rewrite map_app. now apply Permutation_app.
Qed.
Lemma po_real x l : conj_closed l -> exists y, po (fun r => Cminus (RtoC x) r) l = RtoC y.
Proof.
  intros H. set (p := po _ l). assert (E : Cconj p = p).
  { unfold p at 1. rewrite po_conj. rewrite (po_ext _ (fun r => Cminus (RtoC x) (Cconj r))) by (intros r _; now rewrite Cconj_minus, Cconj_RtoC). rewrite <- (po_map (fun r => Cminus (RtoC x) r)). now apply po_perm. }
  exists (fst p). apply injective_projections; [reflexivity|]. cbn. apply (f_equal snd) in E. cbn in E. lra.
Qed.
Lemma value_real f x : real_filter f -> po (fun p => Cminus (RtoC x) p) (z_poles f) <> RtoC 0 -> RtoC (fst (value_of f (RtoC x))) = value_of f (RtoC x).
Proof.
  intros (HZ & HP) H. unfold value_of. destruct (po_real x _ HZ) as (a & ->). destruct (po_real x _ HP) as (b & E). rewrite E in *.
  assert (B : b <> 0) by (intros ->; now apply H). rewrite <- RtoC_mult, <- RtoC_div by exact B. reflexivity.
Qed.

(* ---------- lowpass ---------- *)
Lemma cmul_real_C r c : cmul_real r c = Cmult (RtoC c) r.
Proof. apply injective_projections; cbn; ring. Qed.
Definition lowpassed (f : zpk) (c : R) : zpk :=
  {| z_zeros := map (fun r => Cmult (RtoC c) r) (z_zeros f); z_poles := map (fun r => Cmult (RtoC c) r) (z_poles f); z_gain := z_gain f * powerRZ c (excess f) |}.
Lemma to_lowpass_is f c : c <> 0 \/ (length (z_zeros f) <= length (z_poles f))%nat -> to_lowpass f c = Ok (lowpassed f c).
Proof.
  intros H. unfold to_lowpass, int_power.
  assert (E : (0 <=? excess f)%Z || negb (Reqb c 0) = true).
  { destruct (Z.leb_spec 0 (excess f)) as [A|A]; [reflexivity|]. destruct (Reqb_spec c 0) as [E|E]; [|reflexivity]. unfold excess in A. destruct H as [H|H]; [contradiction|lia]. }
  rewrite E. cbn [oguard obind]. unfold lowpassed. rewrite (map_ext _ _ (fun r => cmul_real_C r c) (z_zeros f)), (map_ext _ _ (fun r => cmul_real_C r c) (z_poles f)). reflexivity.
Qed.
Lemma power_split c (n m : nat) : c <> 0 -> powerRZ c (Z.of_nat n - Z.of_nat m) * c ^ m = c ^ n.
Proof. intros H. rewrite !pow_powerRZ, <- powerRZ_add by exact H. f_equal. lia. Qed.
Lemma lowpassed_value f c s h : c <> 0 -> zpk_value (lowpassed f c) s h <-> zpk_value f (Cdiv s (RtoC c)) h.
Proof.
  intros H. assert (HC : RtoC c <> RtoC 0) by now apply RtoC_neq.
  apply (value_iff _ _ _ _ (cpow (RtoC c) (length (z_zeros f))) (cpow (RtoC c) (length (z_poles f)))).
  - apply po_scale. exact HC.
  - apply po_scale. exact HC.
  - now apply cpow_neq.
  - cbn [lowpassed z_gain]. rewrite !cpow_RtoC, <- !RtoC_mult. f_equal. unfold excess. rewrite <- (power_split c (length (z_poles f)) (length (z_zeros f)) H). ring.
Qed.
Lemma lowpassed_real f c : real_filter f -> real_filter (lowpassed f c).
Proof. intros (A & B). split; apply conj_closed_map; try assumption; intros r; apply scale_conj. Qed.

(* ---------- highpass ---------- *)
Lemma map_outcome_ok {A B} (g : A -> outcome B) (h : A -> B) l : (forall x, In x l -> g x = Ok (h x)) -> map_outcome g l = Ok (map h l).
Proof. induction l as [|x l IH]; intros H; cbn [map_outcome map]; [reflexivity|]. rewrite (H x) by now left. cbn [obind]. rewrite IH by (intros y Hy; apply H; now right). reflexivity. Qed.
Definition highpassed (f : zpk) (c : R) : zpk :=
  {| z_zeros := map (fun r => Cdiv (RtoC c) r) (z_zeros f) ++ repeat (RtoC 0) (length (z_poles f) - length (z_zeros f));
     z_poles := map (fun r => Cdiv (RtoC c) r) (z_poles f); z_gain := fst (value_of f (RtoC 0)) |}.
Definition no_root_at (x : C) (f : zpk) : Prop := forall r, In r (z_zeros f ++ z_poles f) -> r <> x.
Lemma to_highpass_is ex f c : no_root_at (RtoC 0) f -> to_highpass ex f c = Ok (highpassed f c).
Proof.
  intros H. assert (HP : po (fun p => Cminus (RtoC 0) p) (z_poles f) <> RtoC 0) by (apply po_minus_neq; intros r Hr; apply H, in_or_app; now right).
  unfold to_highpass. change ((0, 0) : C) with (RtoC 0). rewrite zpk_eval_ok by exact HP. cbn [obind].
  rewrite (map_outcome_ok _ (fun r => Cdiv (RtoC c) r) (z_zeros f)) by (intros r Hr; apply cdiv_ok; apply H, in_or_app; now left). cbn [obind].
  rewrite (map_outcome_ok _ (fun r => Cdiv (RtoC c) r) (z_poles f)) by (intros r Hr; apply cdiv_ok; apply H, in_or_app; now right). cbn [obind].
  unfold highpassed, pad. rewrite !map_length. reflexivity.
Qed.
Lemma po_invert c s l : s <> RtoC 0 -> (forall r, In r l -> r <> RtoC 0) ->
  po (fun r => Cminus s r) (map (fun r => Cdiv (RtoC c) r) l) = Cmult (Cdiv (cpow s (length l)) (po (fun r => Cminus (RtoC 0) r) l)) (po (fun r => Cminus (Cdiv (RtoC c) s) r) l).
Proof.
  intros HS. induction l as [|r l IH]; intros H; cbn [map product_over length cpow]; [field; exact one_neq|].
  rewrite IH by (intros x Hx; apply H; now right). assert (R0 : r <> RtoC 0) by (apply H; now left).
  assert (P0 : po (fun r => Cminus (RtoC 0) r) l <> RtoC 0) by (apply po_minus_neq; intros x Hx; apply H; now right).
  assert (M0 : Cminus (RtoC 0) r <> RtoC 0) by (apply Cminus_neq; now apply not_eq_sym).
  replace (Cminus (RtoC 0) r) with (Copp r) in * by ring.
  field. repeat split; try assumption.
Qed.
Lemma alg1 (a b P Q : C) : P <> RtoC 0 -> Cmult (Cmult (Cdiv a P) Q) b = Cmult (Cdiv (Cmult a b) P) Q.
Proof. intros H. field. exact H. Qed.
Lemma alg2 (g a P Q : C) : P <> RtoC 0 -> Q <> RtoC 0 -> Cmult (Cdiv (Cmult g P) Q) (Cdiv a P) = Cmult g (Cdiv a Q).
Proof. intros H H'. field. now split. Qed.
Lemma highpassed_value f c s h : real_filter f -> no_root_at (RtoC 0) f -> (length (z_zeros f) <= length (z_poles f))%nat -> s <> RtoC 0 ->
  zpk_value (highpassed f c) s h <-> zpk_value f (Cdiv (RtoC c) s) h.
Proof.
  intros HR H HD HS.
  assert (HP : po (fun p => Cminus (RtoC 0) p) (z_poles f) <> RtoC 0) by (apply po_minus_neq; intros r Hr; apply H, in_or_app; now right).
  assert (HZ : po (fun p => Cminus (RtoC 0) p) (z_zeros f) <> RtoC 0) by (apply po_minus_neq; intros r Hr; apply H, in_or_app; now left).
  apply (value_iff _ _ _ _ (Cdiv (cpow s (length (z_poles f))) (po (fun r => Cminus (RtoC 0) r) (z_zeros f))) (Cdiv (cpow s (length (z_poles f))) (po (fun r => Cminus (RtoC 0) r) (z_poles f)))).
  - cbn [highpassed z_zeros]. rewrite po_app, po_rep, po_invert; [|exact HS|intros r Hr; apply H, in_or_app; now left].
    replace (Cminus s (RtoC 0)) with s by ring. assert (E : cpow s (length (z_poles f)) = Cmult (cpow s (length (z_zeros f))) (cpow s (length (z_poles f) - length (z_zeros f)))) by (rewrite <- cpow_add; f_equal; lia). rewrite E. now apply alg1.
  - cbn [highpassed z_poles]. apply po_invert; [exact HS|intros r Hr; apply H, in_or_app; now right].
  - apply Cdiv_neq; [now apply cpow_neq|exact HP].
  - cbn [highpassed z_gain]. rewrite value_real by assumption. unfold value_of. now apply alg2.
Qed.
Lemma highpassed_real f c : real_filter f -> real_filter (highpassed f c).
Proof. intros (A & B). split; [apply conj_closed_app; [|apply conj_closed_rep]|]; (apply conj_closed_map; [|assumption]); intros r; apply inv_conj. Qed.

(* ---------- shifting ---------- *)
Section Shift.
Variables (ex : R -> Z) (c : R).
Definition sroot (r : C) : C := csqrt ex (fst r * fst r - snd r * snd r - c * c, 2 * fst r * snd r).
Lemma shift_root_is r : shift_root ex (c * c) r = [Cminus r (sroot r); Cplus r (sroot r)].
Proof. reflexivity. Qed.
Lemma sroot_sq r : Cmult (sroot r) (sroot r) = Cminus (Cmult r r) (RtoC (c * c)).
Proof. unfold sroot. destruct (csqrt_spec ex (fst r * fst r - snd r * snd r - c * c, 2 * fst r * snd r)) as (E & _). unfold cmul in E. unfold Cmult at 1. rewrite E. apply injective_projections; cbn; ring. Qed.
Lemma sroot_conj r : sroot (Cconj r) = Cconj (sroot r) \/ sroot (Cconj r) = Copp (Cconj (sroot r)).
Proof.
  pose proof (sroot_sq r) as E. apply (f_equal Cconj) in E. rewrite Cconj_mult', Cconj_minus, Cconj_mult', Cconj_RtoC in E. rewrite <- sroot_sq in E.
  set (a := sroot (Cconj r)) in *. set (b := Cconj (sroot r)) in *.
  assert (M : Cmult (Cminus a b) (Cplus a b) = RtoC 0) by (transitivity (Cminus (Cmult a a) (Cmult b b)); [ring|rewrite E; ring]).
  destruct (Ceq_dec (Cminus a b) (RtoC 0)) as [X|X]; [left; transitivity (Cplus (Cminus a b) b); [ring|rewrite X; ring]|].
  destruct (Ceq_dec (Cplus a b) (RtoC 0)) as [Y|Y]; [right; transitivity (Cminus (Cplus a b) b); [ring|rewrite Y; ring]|]. exfalso. revert M. now apply Cmult_neq.
Qed.
Lemma shift_conj r : Permutation (map Cconj (shift_root ex (c * c) r)) (shift_root ex (c * c) (Cconj r)).
Proof.
  rewrite !shift_root_is. cbn [map]. rewrite Cconj_minus, Cconj_plus. destruct (sroot_conj r) as [->| ->]; [reflexivity|].
  replace (Cminus (Cconj r) (Copp (Cconj (sroot r)))) with (Cplus (Cconj r) (Cconj (sroot r))) by ring.
  replace (Cplus (Cconj r) (Copp (Cconj (sroot r)))) with (Cminus (Cconj r) (Cconj (sroot r))) by ring. constructor.
Qed.
Lemma po_shift s l : s <> RtoC 0 ->
  po (fun r => Cminus s r) (flat_map (shift_root ex (c * c)) l) = Cmult (cpow (Cmult (RtoC 2) s) (length l)) (po (fun r => Cminus (Cdiv (Cplus (Cmult s s) (RtoC (c * c))) (Cmult (RtoC 2) s)) r) l).
Proof.
  intros HS. assert (T2 : RtoC 2 <> RtoC 0) by (apply RtoC_neq; lra). induction l as [|r l IH]; cbn [flat_map length cpow product_over]; [ring|].
  rewrite po_app, IH, shift_root_is. cbn [product_over]. pose proof (sroot_sq r) as E. set (w := sroot r) in *.
  assert (F : Cmult (Cminus s (Cminus r w)) (Cmult (Cminus s (Cplus r w)) (RtoC 1)) = Cmult (Cmult (RtoC 2) s) (Cminus (Cdiv (Cplus (Cmult s s) (RtoC (c * c))) (Cmult (RtoC 2) s)) r)).
  { transitivity (Cminus (Cplus (Cmult s s) (Cminus (Cmult r r) (Cmult w w))) (Cmult (Cmult (RtoC 2) r) s)).
    - replace (RtoC 2) with (Cplus (RtoC 1) (RtoC 1)) by (apply injective_projections; cbn; ring). ring.
    - rewrite E. field. now split. }
  rewrite F. ring.
Qed.
Lemma shift_length l : length (flat_map (shift_root ex (c * c)) l) = (2 * length l)%nat.
Proof. induction l as [|r l IH]; cbn [flat_map]; [reflexivity|]. rewrite app_length, IH. cbn [shift_root length]. lia. Qed.
Lemma in_shift r l : In r (flat_map (shift_root ex (c * c)) l) -> exists p, In p l /\ Cmult (Cmult (RtoC 2) p) r = Cplus (Cmult r r) (RtoC (c * c)).
Proof.
  intros H. apply in_flat_map in H as (p & Hp & H). exists p. split; [exact Hp|]. rewrite shift_root_is in H. pose proof (sroot_sq p) as E. set (w := sroot p) in *.
  assert (Q : RtoC (c * c) = Cminus (Cmult p p) (Cmult w w)) by (rewrite E; ring). rewrite Q.
  replace (RtoC 2) with (Cplus (RtoC 1) (RtoC 1)) by (apply injective_projections; cbn; ring).
  destruct H as [<-|[<-|[]]]; ring.
Qed.
Definition shifted (f : zpk) : zpk :=
  {| z_zeros := flat_map (shift_root ex (c * c)) (z_zeros f) ++ repeat (RtoC 0) (length (z_poles f) - length (z_zeros f));
     z_poles := flat_map (shift_root ex (c * c)) (z_poles f); z_gain := z_gain f |}.
Lemma shift_is f : (length (z_zeros f) <= 15)%nat -> (length (z_poles f) <= 15)%nat -> shift_from_baseband ex f c = (true, shifted f).
Proof.
  intros H1 H2. unfold shift_from_baseband, max_degree. destruct (Nat.ltb_spec 30 (2 * length (z_zeros f))) as [A|A]; [lia|]. destruct (Nat.ltb_spec 30 (2 * length (z_poles f))) as [B|B]; [lia|]. reflexivity.
Qed.
Lemma shift_refuse f : (15 < length (z_zeros f))%nat \/ (15 < length (z_poles f))%nat -> shift_from_baseband ex f c = (false, f).
Proof.
  intros H. unfold shift_from_baseband, max_degree. destruct (Nat.ltb_spec 30 (2 * length (z_zeros f))) as [A|A]; [reflexivity|]. destruct (Nat.ltb_spec 30 (2 * length (z_poles f))) as [B|B]; [reflexivity|lia].
Qed.
Lemma shifted_real f : real_filter f -> real_filter (shifted f).
Proof. intros (A & B). split; cbn [shifted z_zeros z_poles]; [apply conj_closed_app; [|apply conj_closed_rep]|]; (apply conj_closed_flat; [exact shift_conj|assumption]). Qed.
(* g is the factor by which the gain has been multiplied beforehand *)
Lemma shifted_value f g s h : g = 2 ^ (length (z_poles f) - length (z_zeros f)) -> (length (z_zeros f) <= length (z_poles f))%nat -> s <> RtoC 0 ->
  zpk_value (shifted {| z_zeros := z_zeros f; z_poles := z_poles f; z_gain := z_gain f * g |}) s h <-> zpk_value f (Cdiv (Cplus (Cmult s s) (RtoC (c * c))) (Cmult (RtoC 2) s)) h.
Proof.
  intros -> HD HS. assert (T2 : RtoC 2 <> RtoC 0) by (apply RtoC_neq; lra). set (d := (length (z_poles f) - length (z_zeros f))%nat).
  apply (value_iff _ _ _ _ (Cmult (cpow (Cmult (RtoC 2) s) (length (z_zeros f))) (cpow s d)) (cpow (Cmult (RtoC 2) s) (length (z_poles f)))).
  - cbn [shifted z_zeros z_poles]. rewrite po_app, po_rep, po_shift by exact HS. replace (Cminus s (RtoC 0)) with s by ring. fold d. ring.
  - cbn [shifted z_poles]. now apply po_shift.
  - apply cpow_neq. now apply Cmult_neq.
  - cbn [shifted z_gain]. replace (length (z_poles f)) with (length (z_zeros f) + d)%nat by (unfold d; lia). rewrite cpow_add, (cpow_mult (RtoC 2) s d), cpow_RtoC, RtoC_mult. ring.
Qed.
(* without the factor, with as many zeros as poles *)
Lemma shifted_value_eq f s h : length (z_zeros f) = length (z_poles f) -> s <> RtoC 0 ->
  zpk_value (shifted f) s h <-> zpk_value f (Cdiv (Cplus (Cmult s s) (RtoC (c * c))) (Cmult (RtoC 2) s)) h.
Proof.
  intros HD HS. rewrite <- (shifted_value f 1 s h) by (rewrite ?HD, ?Nat.sub_diag; cbn; lra || lia || exact HS). destruct f as [zs ps k]. cbn [z_zeros z_poles z_gain]. rewrite Rmult_1_r. reflexivity.
Qed.
End Shift.
