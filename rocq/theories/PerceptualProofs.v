From Verif Require Import Common ListLemmas RealUtil BiquadModel DesignModel DesignSpec DesignProofs CascadeModel CascadeSpec CascadeProofs CascadeProofs2
  PoleZeroModel PoleZeroSpec PoleZeroProofs PoleZeroProofs2 PoleZeroProofs3 PoleZeroProofs4 PerceptualModel PerceptualSpec.
From Coquelicot Require Import Complex.
From Coq Require Import Psatz.
Local Open Scope R_scope.

Section Keep.
Context {A : Type} (mag : A -> R) (ny : R) (add : A -> pole_zero -> pole_zero) (drop : R -> R -> R).
Notation kept := (fun r => Rltb (mag r) ny).
Notation lost := (fun r => negb (Rltb (mag r) ny)).
Lemma keep_is l : forall st, keep_roots mag ny add drop l st = (add_all add (filter kept l) (fst st), fold_left (fun g r => drop g (mag r)) (filter lost l) (snd st)).
Proof.
  induction l as [|r l IH]; intros [f g]; [reflexivity|]. unfold keep_roots in *. cbn [fold_left filter fst snd].
  destruct (Rltb (mag r) ny); cbn [negb]; rewrite IH; reflexivity.
Qed.
End Keep.
Lemma perceptual_is w fs : let ny := 2 * PI * fs / 2 in let t := weighting_table w in
  lone_zeros (perceptual_pz w fs) = filter (fun r => Rltb (Rabs r) ny) (lone_zeros t) /\
  lone_poles (perceptual_pz w fs) = filter (fun r => Rltb (Rabs r) ny) (lone_poles t) /\
  paired_zeros (perceptual_pz w fs) = filter (fun r => Rltb (Cmod r) ny) (paired_zeros t) /\
  paired_poles (perceptual_pz w fs) = filter (fun r => Rltb (Cmod r) ny) (paired_poles t) /\
  pz_gain (perceptual_pz w fs) =
    fold_left (fun g r => g / (Cmod r * Cmod r)) (filter (fun r => negb (Rltb (Cmod r) ny)) (paired_poles t))
    (fold_left (fun g r => g / Rabs r) (filter (fun r => negb (Rltb (Rabs r) ny)) (lone_poles t))
    (fold_left (fun g r => g * (Cmod r * Cmod r)) (filter (fun r => negb (Rltb (Cmod r) ny)) (paired_zeros t))
    (fold_left (fun g r => g * Rabs r) (filter (fun r => negb (Rltb (Rabs r) ny)) (lone_zeros t)) (pz_gain t)))).
Proof.
  cbv zeta. unfold perceptual_pz. cbv zeta. rewrite !keep_is. cbn [fst snd]. rewrite add_zeros, add_zero_pairs, add_poles, add_pole_pairs.
  unfold set_gain, pz_new. cbn [lone_zeros lone_poles paired_zeros paired_poles pz_gain app]. repeat split.
Qed.

Notation po := product_over.
Lemma po_filter g (b : C -> bool) l : po g l = Cmult (po g (filter b l)) (po g (filter (fun r => negb (b r)) l)).
Proof.
  induction l as [|r l IH]; cbn [product_over filter]; [ring|]. destruct (b r); cbn [negb product_over]; rewrite IH; ring.
Qed.
Lemma filter_map_comm {A B} (f : A -> B) (b : B -> bool) l : filter b (map f l) = map f (filter (fun x => b (f x)) l).
Proof. induction l as [|x l IH]; [reflexivity|]. cbn. destruct (b (f x)); cbn; now rewrite IH. Qed.
Lemma filter_roots (b : C -> bool) (bl : R -> bool) lone paired : (forall x, bl x = b (RtoC x)) -> (forall r, b (Cconj r) = b r) ->
  roots (filter bl lone) (filter b paired) = filter b (roots lone paired).
Proof.
  intros H1 H2. unfold roots. rewrite !filter_app, !filter_map_comm. f_equal; [f_equal; apply filter_ext; exact H1|].
  f_equal. f_equal. apply filter_ext. intros r. symmetry. apply H2.
Qed.
Definition keeps (fs : R) (r : C) : bool := Rltb (Cmod r) (2 * PI * fs / 2).
Lemma keeps_lone fs x : Rltb (Rabs x) (2 * PI * fs / 2) = keeps fs (RtoC x).
Proof. unfold keeps. now rewrite Cmod_R. Qed.
Lemma keeps_conj fs r : keeps fs (Cconj r) = keeps fs r.
Proof. unfold keeps. now rewrite Cmod_Cconj. Qed.
Lemma perceptual_zeros w fs : zeros (perceptual_pz w fs) = filter (keeps fs) (zeros (weighting_table w)).
Proof.
  destruct (perceptual_is w fs) as (E1 & _ & E3 & _ & _). unfold zeros. rewrite E1, E3. apply filter_roots; [intros; apply keeps_lone|apply keeps_conj].
Qed.
Lemma perceptual_poles w fs : poles (perceptual_pz w fs) = filter (keeps fs) (poles (weighting_table w)).
Proof.
  destruct (perceptual_is w fs) as (_ & E2 & _ & E4 & _). unfold poles. rewrite E2, E4. apply filter_roots; [intros; apply keeps_lone|apply keeps_conj].
Qed.
(* the gain *)
Definition magnitudes (l : list C) : C := po (fun r => RtoC (Cmod r)) l.
Lemma fold_mul_lone l : forall g, RtoC (fold_left (fun g r => g * Rabs r) l g) = Cmult (RtoC g) (magnitudes (map RtoC l)).
Proof.
  induction l as [|x l IH]; intros g; unfold magnitudes in *; cbn [fold_left map product_over]; [ring|]. rewrite IH, RtoC_mult, Cmod_R. ring.
Qed.
Lemma fold_mul_pair l : forall g, RtoC (fold_left (fun g r => g * (Cmod r * Cmod r)) l g) = Cmult (RtoC g) (po (fun r => Cmult (RtoC (Cmod r)) (RtoC (Cmod (Cconj r)))) l).
Proof.
  induction l as [|x l IH]; intros g; cbn [fold_left map product_over]; [ring|]. rewrite IH, !RtoC_mult, Cmod_Cconj. ring.
Qed.
Lemma fold_div_lone l : (forall x, In x l -> x <> 0) -> forall g, Cmult (RtoC (fold_left (fun g r => g / Rabs r) l g)) (magnitudes (map RtoC l)) = RtoC g.
Proof.
  intros H. induction l as [|x l IH]; intros g; unfold magnitudes in *; cbn [fold_left map product_over]; [ring|].
  assert (N : Rabs x <> 0) by (apply Rabs_no_R0, H; now left).
  replace (Cmult _ _) with (Cmult (RtoC (Cmod (RtoC x))) (Cmult (RtoC (fold_left (fun g r => g / Rabs r) l (g / Rabs x))) (po (fun r => RtoC (Cmod r)) (map RtoC l)))) by ring.
  rewrite IH by (intros y Hy; apply H; now right). rewrite Cmod_R, <- RtoC_mult. f_equal. field. exact N.
Qed.
Lemma fold_div_pair l : (forall x, In x l -> x <> RtoC 0) -> forall g, Cmult (RtoC (fold_left (fun g r => g / (Cmod r * Cmod r)) l g)) (po (fun r => Cmult (RtoC (Cmod r)) (RtoC (Cmod (Cconj r)))) l) = RtoC g.
Proof.
  intros H. induction l as [|x l IH]; intros g; cbn [fold_left map product_over]; [ring|].
  assert (N : Cmod x <> 0) by (intros E; apply Cmod_eq_0 in E; exact (H x (or_introl eq_refl) E)).
  set (a := po _ l) in *. clearbody a.
  replace (Cmult _ _) with (Cmult (Cmult (RtoC (Cmod x)) (RtoC (Cmod (Cconj x)))) (Cmult (RtoC (fold_left (fun g r => g / (Cmod r * Cmod r)) l (g / (Cmod x * Cmod x)))) a)) by ring.
  rewrite IH by (intros y Hy; apply H; now right). rewrite Cmod_Cconj, <- !RtoC_mult. f_equal. field. exact N.
Qed.
Definition loses (fs : R) (r : C) : bool := negb (keeps fs r).
Lemma loses_nonzero fs r : 0 < fs -> loses fs r = true -> r <> RtoC 0.
Proof.
  intros Hf H ->. unfold loses, keeps in H. rewrite Cmod_R, Rabs_R0 in H. pose proof PI_RGT_0. rewrite Rltb_true in H by nra. discriminate.
Qed.
Lemma perceptual_gain w fs : 0 < fs ->
  Cmult (RtoC (pz_gain (perceptual_pz w fs))) (magnitudes (filter (loses fs) (poles (weighting_table w)))) =
  Cmult (RtoC (pz_gain (weighting_table w))) (magnitudes (filter (loses fs) (zeros (weighting_table w)))).
Proof.
  intros Hf. destruct (perceptual_is w fs) as (_ & _ & _ & _ & EG). rewrite EG. clear EG.
  assert (LC : forall r, loses fs (Cconj r) = loses fs r) by (intros r; unfold loses; now rewrite keeps_conj).
  assert (M : forall lone paired, magnitudes (filter (loses fs) (roots lone paired)) =
    Cmult (magnitudes (map RtoC (filter (fun x => negb (Rltb (Rabs x) (2 * PI * fs / 2))) lone))) (po (fun r => Cmult (RtoC (Cmod r)) (RtoC (Cmod (Cconj r)))) (filter (loses fs) paired))).
  { intros lone paired. rewrite <- (filter_roots (loses fs) (fun x => negb (Rltb (Rabs x) (2 * PI * fs / 2)))); [|intros x; unfold loses; now rewrite <- keeps_lone|exact LC].
    unfold magnitudes. apply po_roots. }
  unfold poles, zeros. rewrite !M.
  change (fun r => negb (Rltb (Cmod r) (2 * PI * fs / 2))) with (loses fs).
  set (lp := filter _ (lone_poles _)). set (pp := filter _ (paired_poles _)). set (lz := filter _ (lone_zeros _)). set (pz := filter _ (paired_zeros _)).
  assert (NL : forall x, In x lp -> x <> 0).
  { intros x Hx. unfold lp in Hx. apply filter_In in Hx as [_ Hx]. intros ->. apply (loses_nonzero fs (RtoC 0) Hf); [unfold loses; rewrite <- keeps_lone; exact Hx|reflexivity]. }
  assert (NP : forall x, In x pp -> x <> RtoC 0).
  { intros x Hx. unfold pp in Hx. apply filter_In in Hx as [_ Hx]. now apply (loses_nonzero fs). }
  rewrite Cmult_assoc, (Cmult_comm (RtoC _) (magnitudes _)), <- Cmult_assoc, fold_div_pair by exact NP. rewrite Cmult_comm, fold_div_lone by exact NL. rewrite fold_mul_pair, fold_mul_lone. ring.
Qed.
(* a dropped root stands for its value at zero frequency *)
Lemma dropped_roots (fs : R) (lone : list R) (paired : list C) s : 0 < fs -> (forall x, In x lone -> x <= 0) ->
  let l := filter (loses fs) (roots lone paired) in
  Cmult (magnitudes l) (factors l s) = po (fun r => Cminus s r) l.
Proof.
  intros Hf HL. cbv zeta. rewrite <- (filter_roots (loses fs) (fun x => loses fs (RtoC x))); [|reflexivity|intros r; unfold loses; now rewrite keeps_conj].
  set (lo := filter _ lone). set (pa := filter _ paired).
  assert (E1 : forall l l', factors (l ++ l') s = Cmult (factors l s) (factors l' s)) by (induction l as [|r l IH]; intros l'; cbn [factors app]; [ring|rewrite IH; ring]).
  assert (X1 : forall x, In x lo -> x < 0).
  { intros x Hx. apply filter_In in Hx as [Hx Hy]. specialize (HL x Hx). destruct (Req_dec x 0) as [->|]; [|lra]. exfalso. exact (loses_nonzero fs _ Hf Hy eq_refl). }
  assert (X2 : forall x, In x pa -> x <> RtoC 0) by (intros x Hx; apply filter_In in Hx as [_ Hy]; now apply (loses_nonzero fs)).
  clearbody lo pa. unfold roots, magnitudes. rewrite !po_app, !E1.
  assert (A1 : Cmult (po (fun r => RtoC (Cmod r)) (map RtoC lo)) (factors (map RtoC lo) s) = po (fun r => Cminus s r) (map RtoC lo)).
  { clear X2. induction lo as [|x lo IH]; cbn [map product_over factors]; [ring|]. rewrite <- IH by (intros y Hy; apply X1; now right).
    assert (HX : x < 0) by (apply X1; now left). rewrite Cmod_R, Rabs_left by exact HX. assert (RtoC x <> RtoC 0) by (apply RtoC_neq; lra).
    rewrite RtoC_opp. field. assumption. }
  assert (A2 : Cmult (Cmult (po (fun r => RtoC (Cmod r)) pa) (po (fun r => RtoC (Cmod r)) (map Cconj pa))) (Cmult (factors pa s) (factors (map Cconj pa) s)) =
    Cmult (po (fun r => Cminus s r) pa) (po (fun r => Cminus s r) (map Cconj pa))).
  { clear X1 A1. induction pa as [|x pa IH]; cbn [map product_over factors]; [ring|].
    assert (HX : x <> RtoC 0) by (apply X2; now left). pose proof (Cconj_neq x HX) as HC.
    transitivity (Cmult (Cmult (Cmult (RtoC (Cmod x)) (RtoC (Cmod (Cconj x)))) (Cmult (Cminus (RtoC 1) (Cdiv s x)) (Cminus (RtoC 1) (Cdiv s (Cconj x)))))
      (Cmult (Cmult (po (fun r => RtoC (Cmod r)) pa) (po (fun r => RtoC (Cmod r)) (map Cconj pa))) (Cmult (factors pa s) (factors (map Cconj pa) s)))); [ring|].
    rewrite IH by (intros y Hy; apply X2; now right). rewrite Cmod_Cconj, <- RtoC_mult, <- Cconj_mul. field. auto. }
  rewrite <- A1, <- A2. ring.
Qed.
Lemma table_shape w : (forall x, In x (lone_zeros (weighting_table w)) -> x = 0) /\ (forall x, In x (lone_poles (weighting_table w)) -> x < 0) /\
  (forall r, In r (paired_zeros (weighting_table w) ++ paired_poles (weighting_table w)) -> fst r < 0 /\ fst r * fst r <= 2 * (snd r * snd r)) /\ 0 < pz_gain (weighting_table w).
Proof.
  destruct w; cbn; repeat split; try lra; intros; repeat match goal with H : _ \/ _ |- _ => destruct H | H : False |- _ => destruct H end; subst; cbn [fst snd]; lra.
Qed.
