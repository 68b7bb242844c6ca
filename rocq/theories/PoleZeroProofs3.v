From Verif Require Import Common ListLemmas RealUtil BiquadModel DesignModel DesignSpec DesignProofs CascadeModel CascadeSpec CascadeProofs CascadeProofs2 PoleZeroModel PoleZeroSpec PoleZeroProofs PoleZeroProofs2.
From Coquelicot Require Import Complex.
Local Open Scope R_scope.

(* ---------- adding roots one by one ---------- *)
Lemma add_poles l : forall f, add_all add_pole l f = {| lone_zeros := lone_zeros f; lone_poles := lone_poles f ++ l; paired_zeros := paired_zeros f; paired_poles := paired_poles f; pz_gain := pz_gain f |}.
Proof. unfold add_all. induction l as [|x l IH]; intros f; cbn [fold_left]; [rewrite app_nil_r; destruct f; reflexivity|]. rewrite IH. unfold add_pole. cbn [lone_zeros lone_poles paired_zeros paired_poles pz_gain]. rewrite <- app_assoc. reflexivity. Qed.
Lemma add_zeros l : forall f, add_all add_zero l f = {| lone_zeros := lone_zeros f ++ l; lone_poles := lone_poles f; paired_zeros := paired_zeros f; paired_poles := paired_poles f; pz_gain := pz_gain f |}.
Proof. unfold add_all. induction l as [|x l IH]; intros f; cbn [fold_left]; [rewrite app_nil_r; destruct f; reflexivity|]. rewrite IH. unfold add_zero. cbn [lone_zeros lone_poles paired_zeros paired_poles pz_gain]. rewrite <- app_assoc. reflexivity. Qed.
Lemma add_pole_pairs l : forall f, add_all add_pole_pair l f = {| lone_zeros := lone_zeros f; lone_poles := lone_poles f; paired_zeros := paired_zeros f; paired_poles := paired_poles f ++ l; pz_gain := pz_gain f |}.
Proof. unfold add_all. induction l as [|x l IH]; intros f; cbn [fold_left]; [rewrite app_nil_r; destruct f; reflexivity|]. rewrite IH. unfold add_pole_pair. cbn [lone_zeros lone_poles paired_zeros paired_poles pz_gain]. rewrite <- app_assoc. reflexivity. Qed.
Lemma add_zero_pairs l : forall f, add_all add_zero_pair l f = {| lone_zeros := lone_zeros f; lone_poles := lone_poles f; paired_zeros := paired_zeros f ++ l; paired_poles := paired_poles f; pz_gain := pz_gain f |}.
Proof. unfold add_all. induction l as [|x l IH]; intros f; cbn [fold_left]; [rewrite app_nil_r; destruct f; reflexivity|]. rewrite IH. unfold add_zero_pair. cbn [lone_zeros lone_poles paired_zeros paired_poles pz_gain]. rewrite <- app_assoc. reflexivity. Qed.

Lemma degree_zeros f : zeros_degree f = Z.of_nat (length (zeros f)).
Proof. unfold zeros_degree, zeros. rewrite roots_length. lia. Qed.
Lemma degree_poles f : poles_degree f = Z.of_nat (length (poles f)).
Proof. unfold poles_degree, poles. rewrite roots_length. lia. Qed.
Lemma relative_degree_is f : relative_degree f = (Z.of_nat (length (poles f)) - Z.of_nat (length (zeros f)))%Z.
Proof. unfold relative_degree. now rewrite degree_zeros, degree_poles. Qed.

Lemma RtoC_m1 : RtoC (-1) = Copp (RtoC 1).
Proof. apply injective_projections; cbn; lra. Qed.

(* ---------- Eval ---------- *)
Lemma divide_all_ok l : forall r, (forall x, In x l -> x <> RtoC 0) -> divide_all l r = Ok (Cdiv r (po (fun x => x) l)).
Proof.
  induction l as [|x l IH]; intros r H; cbn [divide_all product_over].
  - f_equal. field. exact one_neq.
  - assert (X : x <> RtoC 0) by (apply H; now left). destruct (Ceqb_spec x (RtoC 0)) as [E|_]; [contradiction|]. cbn [negb oguard]. rewrite IH by (intros y Hy; apply H; now right). f_equal. field.
    split; [apply po_neq; intros y Hy; apply H; now right|exact X].
Qed.
Lemma fold_mul {A} (g : A -> C) l : forall r, fold_left (fun r z => Cmult r (g z)) l r = Cmult r (fold_right (fun z x => Cmult (g z) x) (RtoC 1) l).
Proof. induction l as [|x l IH]; intros r; cbn [fold_left fold_right]; [ring|rewrite IH; ring]. Qed.
Lemma fold_po {A} (g : C -> C) (h : A -> C) l : fold_right (fun z x => Cmult (g (h z)) x) (RtoC 1) l = po g (map h l).
Proof. induction l as [|x l IH]; cbn [fold_right map product_over]; [reflexivity|now rewrite IH]. Qed.
Lemma po_id_map (g : C -> C) l : po (fun x => x) (map g l) = po g l.
Proof. exact (po_map (fun x => x) g l). Qed.
Lemma eval_ok f s : (forall p, In p (poles f) -> p <> s) ->
  eval f s = Ok (Cdiv (Cmult (RtoC (pz_gain f)) (po (fun z => Cminus z s) (zeros f))) (po (fun p => Cminus p s) (poles f))).
Proof.
  intros H. assert (HN : forall p, In p (poles f) -> Cminus p s <> RtoC 0).
  { intros p Hp E. apply (H p Hp). transitivity (Cplus (Cminus p s) s); [ring|rewrite E; ring]. }
  unfold eval. replace (map (fun p => Cminus (RtoC p) s) (lone_poles f)) with (map (fun p => Cminus p s) (map RtoC (lone_poles f))) by (rewrite map_map; reflexivity).
  rewrite divide_all_ok.
  2: { intros x Hx. apply in_map_iff in Hx. destruct Hx as (p & <- & Hp). apply HN. unfold poles, roots. apply in_app_iff. now left. }
  cbn [obind]. rewrite divide_all_ok.
  2: { intros x Hx. apply in_map_iff in Hx. destruct Hx as (p & <- & Hp). unfold pair_factor. apply Cmult_neq; apply HN; unfold poles; apply in_roots; [right; now left|right; right; now exists p]. }
  cbn [obind]. rewrite !po_id_map. unfold zeros, poles. rewrite !po_roots. f_equal. rewrite !fold_mul.
  rewrite (fold_po (fun z => Cminus z s) RtoC). replace (fold_right (fun z x => Cmult (pair_factor s z) x) (RtoC 1) (paired_zeros f)) with (po (pair_factor s) (paired_zeros f)) by (clear; induction (paired_zeros f) as [|x l IH]; cbn [fold_right product_over]; [reflexivity|now rewrite IH]).
  change (fun r => Cmult (Cminus r s) (Cminus (Cconj r) s)) with (pair_factor s). field.
  split; apply po_neq; intros x Hx.
  - unfold pair_factor. apply Cmult_neq; apply HN; unfold poles; apply in_roots; [right; now left|right; right; now exists x].
  - apply HN. unfold poles, roots. apply in_app_iff. now left.
Qed.
Lemma po_flip s l : po (fun r => Cminus r s) l = Cmult (cpow (RtoC (-1)) (length l)) (po (fun r => Cminus s r) l).
Proof. rewrite (po_ext _ (fun r => Cmult (RtoC (-1)) (Cminus s r))), po_mul, po_const; [reflexivity|]. intros r _. rewrite RtoC_m1. ring. Qed.
Lemma Cmod_sign n : Cmod (cpow (RtoC (-1)) n) = 1.
Proof. rewrite Cmod_cpow, Cmod_R, Rabs_left by lra. replace (- -1) with 1 by lra. apply pow1. Qed.
Lemma eval_mod f s h : analog_value f s h -> exists h', eval f s = Ok h' /\ Cmod h' = Cmod h.
Proof.
  intros [HP ->]. pose proof (proj1 (po_neq _ _) HP) as HN. eexists. split.
  - apply eval_ok. intros p Hp ->. apply (HN s Hp). ring.
  - rewrite !po_flip. set (Z := po (fun r => Cminus s r) (zeros f)). set (P := po (fun r => Cminus s r) (poles f)) in *.
    assert (HP' : Cmult (cpow (RtoC (-1)) (length (poles f))) P <> RtoC 0) by (apply Cmult_neq; [apply cpow_neq, RtoC_neq; lra|exact HP]).
    rewrite !Cmod_div, !Cmod_mult, !Cmod_sign by assumption. field. intros E. apply Cmod_eq_0 in E. contradiction.
Qed.

(* ---------- mapping the roots ---------- *)
Lemma roots_map (g : C -> C) (gl : R -> R) lone paired : (forall x, In x lone -> RtoC (gl x) = g (RtoC x)) -> (forall r, In r paired -> g (Cconj r) = Cconj (g r)) ->
  roots (map gl lone) (map g paired) = map g (roots lone paired).
Proof.
  intros H1 H2. unfold roots. rewrite !map_app, !map_map. f_equal; [apply map_ext_in; exact H1|]. f_equal. apply map_ext_in. intros r Hr. symmetry. now apply H2.
Qed.
Lemma roots_app l l' p p' r : In r (roots (l ++ l') (p ++ p')) <-> In r (roots l p) \/ In r (roots l' p').
Proof.
  rewrite !in_roots. split.
  - intros [(x & H & E)|[H|(x & H & E)]]; apply in_app_iff in H; destruct H as [H|H]; eauto 8.
  - intros [[(x & H & E)|[H|(x & H & E)]]|[(x & H & E)|[H|(x & H & E)]]]; try (left; exists x; split; [apply in_app_iff|]; auto; fail); try (right; left; apply in_app_iff; auto; fail); right; right; exists x; (split; [apply in_app_iff|]; auto).
Qed.
Lemma po_roots_app g l l' p p' : po g (roots (l ++ l') (p ++ p')) = Cmult (po g (roots l p)) (po g (roots l' p')).
Proof. rewrite !po_roots, map_app, !po_app. ring. Qed.
Lemma po_repeat g x n : po g (roots (repeat x n) []) = cpow (g (RtoC x)) n.
Proof. rewrite po_roots. cbn [product_over]. induction n as [|n IH]; cbn [repeat map product_over cpow] in *; [ring|]. rewrite <- IH. ring. Qed.
Lemma Cconj_plus a b : Cconj (Cplus a b) = Cplus (Cconj a) (Cconj b).
Proof. apply injective_projections; cbn; ring. Qed.
Lemma Cconj_minus a b : Cconj (Cminus a b) = Cminus (Cconj a) (Cconj b).
Proof. apply injective_projections; cbn; ring. Qed.
Lemma Cconj_mult' a b : Cconj (Cmult a b) = Cmult (Cconj a) (Cconj b).
Proof. apply injective_projections; cbn; ring. Qed.
Lemma Cconj_inv a : Cconj (Cinv a) = Cinv (Cconj a).
Proof. unfold Cinv, Cconj. cbn [fst snd]. apply injective_projections; cbn [fst snd]; replace (- snd a * (- snd a * 1)) with (snd a * (snd a * 1)) by ring; replace ((- snd a) ^ 2) with (snd a ^ 2) by ring; [reflexivity|]. unfold Rdiv. ring. Qed.
Lemma Cconj_div a b : Cconj (Cdiv a b) = Cdiv (Cconj a) (Cconj b).
Proof. unfold Cdiv. now rewrite Cconj_mult', Cconj_inv. Qed.
Lemma Cconj_neq a : a <> RtoC 0 -> Cconj a <> RtoC 0.
Proof. intros H E. apply H. apply (f_equal Cconj) in E. rewrite Cconj_RtoC in E. rewrite <- E. apply injective_projections; cbn; ring. Qed.
Lemma Cminus_neq a b : a <> b -> Cminus a b <> RtoC 0.
Proof. intros H E. apply H. transitivity (Cplus (Cminus a b) b); [ring|rewrite E; ring]. Qed.
Lemma RtoC_div_neq x y : y <> 0 -> RtoC (x / y) = Cdiv (RtoC x) (RtoC y).
Proof. intros H. rewrite RtoC_div by exact H. reflexivity. Qed.

Lemma plus_one_neq z : z <> RtoC (-1) -> Cplus z (RtoC 1) <> RtoC 0.
Proof. intros H E. apply H. transitivity (Cminus (Cplus z (RtoC 1)) (RtoC 1)); [ring|rewrite E, RtoC_m1; ring]. Qed.

(* ---------- the bilinear transform ---------- *)
Section Bilinear.
Variable K : R.
Lemma bilinear_factor z p : z <> RtoC 0 -> z <> RtoC (-1) -> p <> RtoC K ->
  Cminus (Cdiv (Cmult (RtoC K) (Cminus z (RtoC 1))) (Cplus z (RtoC 1))) p
  = Cmult (Cmult (Cminus (RtoC K) p) (Cdiv z (Cplus z (RtoC 1)))) (Cminus (RtoC 1) (Cdiv (bilinear_root K p) z)).
Proof.
  intros Z1 Z2 HP. unfold bilinear_root. field. split; [|split; [exact Z1|]].
  - apply Cminus_neq. congruence.
  - apply plus_one_neq. exact Z2.
Qed.
Lemma bilinear_po z l : z <> RtoC 0 -> z <> RtoC (-1) -> (forall p, In p l -> p <> RtoC K) ->
  po (fun p => Cminus (Cdiv (Cmult (RtoC K) (Cminus z (RtoC 1))) (Cplus z (RtoC 1))) p) l
  = Cmult (Cmult (po (fun p => Cminus (RtoC K) p) l) (cpow (Cdiv z (Cplus z (RtoC 1))) (length l))) (po (fun r => Cminus (RtoC 1) (Cdiv r z)) (map (bilinear_root K) l)).
Proof.
  intros Z1 Z2 H. rewrite po_map. rewrite <- po_const, <- !po_mul. apply po_ext. intros p Hp. apply bilinear_factor; auto.
Qed.
Lemma bilinear_conj r : bilinear_root K (Cconj r) = Cconj (bilinear_root K r).
Proof. unfold bilinear_root. now rewrite Cconj_div, Cconj_plus, Cconj_minus, Cconj_RtoC. Qed.
Lemma bilinear_real x : K <> x -> RtoC ((K + x) / (K - x)) = bilinear_root K (RtoC x).
Proof. intros H. unfold bilinear_root. rewrite RtoC_div_neq by lra. rewrite RtoC_plus, RtoC_minus. reflexivity. Qed.
End Bilinear.

Lemma avoids_true x f : (forall r, In r (zeros f ++ poles f) -> r <> x) -> avoids x f = true.
Proof.
  intros H. unfold avoids. apply andb_true_iff. split; apply forallb_forall; intros r Hr.
  - destruct (Ceqb_spec (RtoC r) x) as [E|_]; [|reflexivity]. exfalso. apply (H (RtoC r)); [|exact E]. apply in_app_iff. unfold zeros, poles. rewrite !in_roots. apply in_app_iff in Hr. destruct Hr; eauto 6.
  - destruct (Ceqb_spec r x) as [E|_]; [|reflexivity]. exfalso. apply (H r); [|exact E]. apply in_app_iff. unfold zeros, poles. rewrite !in_roots. apply in_app_iff in Hr. destruct Hr; eauto 6.
Qed.
Lemma avoids_false x f : avoids (RtoC x) f = true -> forall r, In r (zeros f ++ poles f) -> r <> RtoC x.
Proof.
  unfold avoids. rewrite andb_true_iff, !forallb_forall. intros [H1 H2] r Hr E. subst r. apply in_app_iff in Hr.
  assert (A : forall y, In y (lone_poles f ++ lone_zeros f) -> y <> x).
  { intros y Hy E. subst y. specialize (H1 x Hy). destruct (Ceqb_spec (RtoC x) (RtoC x)); [discriminate|contradiction]. }
  assert (B : forall y, In y (paired_poles f ++ paired_zeros f) -> y <> RtoC x /\ Cconj y <> RtoC x).
  { intros y Hy. specialize (H2 y Hy). destruct (Ceqb_spec y (RtoC x)); [discriminate|]. split; [assumption|]. intros E. apply n. apply (f_equal Cconj) in E. rewrite Cconj_RtoC in E. rewrite <- E. apply injective_projections; cbn; ring. }
  unfold zeros, poles in Hr. rewrite !in_roots in Hr.
  destruct Hr as [[(y & Hy & E)|[Hy|(y & Hy & E)]]|[(y & Hy & E)|[Hy|(y & Hy & E)]]].
  - apply (A y); [apply in_app_iff; now right|]. apply (f_equal fst) in E. cbn in E. lra.
  - refine (proj1 (B (RtoC x) _) eq_refl). apply in_app_iff; now right.
  - refine (proj2 (B y _) (eq_sym E)). apply in_app_iff; now right.
  - apply (A y); [apply in_app_iff; now left|]. apply (f_equal fst) in E. cbn in E. lra.
  - refine (proj1 (B (RtoC x) _) eq_refl). apply in_app_iff; now left.
  - refine (proj2 (B y _) (eq_sym E)). apply in_app_iff; now left.
Qed.

(* the result of the bilinear transform *)
Definition discretized (K : R) (f : pole_zero) (g : R) : pole_zero :=
  {| lone_zeros := map (fun z => (K + z) / (K - z)) (lone_zeros f) ++ repeat (-1) (Z.to_nat (relative_degree f));
     lone_poles := map (fun p => (K + p) / (K - p)) (lone_poles f);
     paired_zeros := map (bilinear_root K) (paired_zeros f);
     paired_poles := map (bilinear_root K) (paired_poles f); pz_gain := 1 * g |}.
Lemma bilinear_pz_ok f fs m g : (forall r, In r (zeros f ++ poles f) -> r <> RtoC (compute_K m fs)) -> analog_value f (RtoC (compute_K m fs)) g ->
  bilinear_pz f fs m = Ok (discretized (compute_K m fs) f (Cmod g)).
Proof.
  intros H V. unfold bilinear_pz. rewrite avoids_true by exact H. cbn [oguard]. destruct (eval_mod f _ _ V) as (h & -> & E). cbn [obind].
  rewrite add_poles, add_pole_pairs, add_zeros, add_zero_pairs, add_zeros. unfold set_gain, pz_new, discretized. cbn [lone_zeros lone_poles paired_zeros paired_poles pz_gain app]. rewrite E. reflexivity.
Qed.
Section Discretized.
Variables (K : R) (f : pole_zero) (g : R).
Hypothesis (HK : forall r, In r (zeros f ++ poles f) -> r <> RtoC K).
Lemma discretized_poles : poles (discretized K f g) = map (bilinear_root K) (poles f).
Proof.
  unfold poles, discretized. cbn [lone_poles paired_poles]. apply roots_map; [|intros r _; apply bilinear_conj].
  intros x Hx. apply bilinear_real. intros ->. apply (HK (RtoC x)); [|reflexivity]. apply in_app_iff. right. unfold poles. apply in_roots. eauto.
Qed.
Lemma discretized_zeros_po h : po h (zeros (discretized K f g)) = Cmult (po h (map (bilinear_root K) (zeros f))) (cpow (h (RtoC (-1))) (Z.to_nat (relative_degree f))).
Proof.
  unfold zeros, discretized. cbn [lone_zeros paired_zeros]. rewrite <- (app_nil_r (map (bilinear_root K) (paired_zeros f))), po_roots_app, po_repeat. f_equal. f_equal. apply roots_map; [|intros r _; apply bilinear_conj].
  intros x Hx. apply bilinear_real. intros ->. apply (HK (RtoC x)); [|reflexivity]. apply in_app_iff. left. unfold zeros. apply in_roots. eauto.
Qed.
Lemma discretized_zeros_length : length (zeros (discretized K f g)) = (length (zeros f) + Z.to_nat (relative_degree f))%nat.
Proof. unfold zeros, discretized. cbn [lone_zeros paired_zeros]. rewrite !roots_length, app_length, repeat_length, !map_length. lia. Qed.
Hypothesis (HV : analog_value f (RtoC K) (RtoC g)).
Hypothesis (HD : (length (zeros f) <= length (poles f))%nat).
Lemma discretized_value z h : z <> RtoC 0 -> z <> RtoC (-1) ->
  digital_value (discretized K f g) z h <-> analog_value f (Cdiv (Cmult (RtoC K) (Cminus z (RtoC 1))) (Cplus z (RtoC 1))) h.
Proof.
  intros Z1 Z2. unfold digital_value, analog_value.
  rewrite discretized_poles, discretized_zeros_po, !bilinear_po; try assumption; try (intros p Hp; apply HK, in_app_iff; auto).
  set (PD := po _ (map _ (poles f))). set (ZD := po _ (map _ (zeros f))). destruct HV as [PK EG].
  set (P := po _ (poles f)) in *. set (Z := po _ (zeros f)) in *. rewrite relative_degree_is. cbn [discretized pz_gain].
  replace (Z.to_nat _) with (length (poles f) - length (zeros f))%nat by lia. set (d := (length (poles f) - length (zeros f))%nat). set (nz := length (zeros f)) in *.
  replace (length (poles f)) with (nz + d)%nat by (unfold d, nz; lia). rewrite cpow_add. clearbody d nz.
  assert (Z3 : Cplus z (RtoC 1) <> RtoC 0) by now apply plus_one_neq.
  assert (Q : cpow (Cdiv z (Cplus z (RtoC 1))) nz <> RtoC 0) by (apply cpow_neq, Cdiv_neq; assumption).
  assert (Q2 : cpow (Cdiv z (Cplus z (RtoC 1))) d <> RtoC 0) by (apply cpow_neq, Cdiv_neq; assumption).
  assert (Q3 : Cmult (cpow (Cminus (RtoC 1) (Cdiv (RtoC (-1)) z)) d) (cpow (Cdiv z (Cplus z (RtoC 1))) d) = RtoC 1).
  { rewrite <- cpow_mult. replace (Cmult _ _) with (RtoC 1); [apply cpow_1|]. rewrite RtoC_m1. field. now split. }
  set (a := cpow (Cdiv z (Cplus z (RtoC 1))) nz) in *. set (b := cpow (Cdiv z (Cplus z (RtoC 1))) d) in *. set (c := cpow (Cminus (RtoC 1) (Cdiv (RtoC (-1)) z)) d) in *. clearbody a b c.
  rewrite Rmult_1_l, EG. assert (X : c = Cinv b) by (transitivity (Cmult (Cmult c b) (Cinv b)); [field; exact Q2|rewrite Q3; field; exact Q2]). subst c.
  split; intros [A ->].
  - split; [repeat apply Cmult_neq; assumption|]. field. auto.
  - assert (PD <> RtoC 0) by (intros E; apply A; rewrite E; ring). split; [assumption|]. field. auto.
Qed.
(* at Nyquist *)
Lemma discretized_nyquist : (length (zeros f) < length (poles f))%nat ->
  po (fun p => Cminus (RtoC 1) (Cdiv p (RtoC (-1)))) (poles (discretized K f g)) <> RtoC 0 -> digital_value (discretized K f g) (RtoC (-1)) (RtoC 0).
Proof.
  intros HL HN. split; [exact HN|]. rewrite discretized_zeros_po, relative_degree_is. replace (Z.to_nat _) with (S (length (poles f) - length (zeros f) - 1))%nat by lia. cbn [cpow].
  assert (E : Cminus (RtoC 1) (Cdiv (RtoC (-1)) (RtoC (-1))) = RtoC 0) by (field; apply RtoC_neq; lra). rewrite E. field. exact HN.
Qed.
Lemma nyquist_po l : (forall p, In p l -> p <> RtoC K) -> po (fun p => Cminus (RtoC 1) (Cdiv p (RtoC (-1)))) (map (bilinear_root K) l) = Cdiv (cpow (RtoC (2 * K)) (length l)) (po (fun p => Cminus (RtoC K) p) l).
Proof.
  intros HL. assert (N : po (fun p => Cminus (RtoC K) p) l <> RtoC 0) by (apply po_neq; intros p Hp; apply Cminus_neq; intros E; now apply (HL p Hp)).
  apply (f_equal (fun x => x)). transitivity (Cdiv (Cmult (po (fun p => Cminus (RtoC 1) (Cdiv p (RtoC (-1)))) (map (bilinear_root K) l)) (po (fun p => Cminus (RtoC K) p) l)) (po (fun p => Cminus (RtoC K) p) l)); [field; exact N|].
  f_equal. rewrite po_map, <- po_mul, <- po_const. apply po_ext. intros p Hp. unfold bilinear_root. rewrite RtoC_mult, RtoC_m1. assert (Cminus (RtoC K) p <> RtoC 0) by (apply Cminus_neq; intros E; now apply (HL p Hp)).
  replace (RtoC 2) with (Cplus (RtoC 1) (RtoC 1)) by (rewrite <- RtoC_plus; f_equal; lra). field. split; [|try assumption]; try assumption; intros E; apply (f_equal fst) in E; cbn in E; lra.
Qed.
Lemma discretized_nyquist_eq : length (zeros f) = length (poles f) -> K <> 0 -> digital_value (discretized K f g) (RtoC (-1)) (RtoC (pz_gain f)).
Proof.
  intros HL H0. unfold digital_value. rewrite discretized_poles, discretized_zeros_po, !nyquist_po by (intros p Hp; apply HK, in_app_iff; auto). rewrite relative_degree_is, HL.
  replace (Z.to_nat _) with 0%nat by lia. cbn [cpow discretized pz_gain]. destruct HV as [PK EG]. rewrite Rmult_1_l, EG.
  assert (ZK : po (fun z => Cminus (RtoC K) z) (zeros f) <> RtoC 0) by (apply po_neq; intros p Hp; apply Cminus_neq; intros E; apply (HK p); [apply in_app_iff; auto|now symmetry]).
  assert (N2 : cpow (RtoC (2 * K)) (length (poles f)) <> RtoC 0) by (apply cpow_neq, RtoC_neq; lra).
  split; [now apply Cdiv_neq|]. field. auto.
Qed.
End Discretized.
