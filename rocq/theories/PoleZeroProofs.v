From Verif Require Import Common ListLemmas RealUtil BiquadModel DesignModel DesignSpec DesignProofs CascadeModel CascadeSpec CascadeProofs CascadeProofs2 PoleZeroModel PoleZeroSpec EqualizerSpec EqualizerProofs.
From Coq Require Import Permutation.
From Coquelicot Require Import Complex.
Local Open Scope R_scope.

(* ---------- complex numbers ---------- *)
Fixpoint cpow (z : C) (n : nat) : C := match n with O => RtoC 1 | S n' => Cmult z (cpow z n') end.
Lemma cpow_neq z n : z <> RtoC 0 -> cpow z n <> RtoC 0.
Proof. intros H. induction n as [|n IH]; cbn [cpow]; [apply RtoC_neq; lra|now apply Cmult_neq]. Qed.
Lemma cpow_add z n m : cpow z (n + m) = Cmult (cpow z n) (cpow z m).
Proof. induction n as [|n IH]; cbn [cpow Nat.add]; [ring|rewrite IH; ring]. Qed.
Lemma cpow_mult z w n : cpow (Cmult z w) n = Cmult (cpow z n) (cpow w n).
Proof. induction n as [|n IH]; cbn [cpow]; [ring|rewrite IH; ring]. Qed.
Lemma cpow_1 n : cpow (RtoC 1) n = RtoC 1.
Proof. induction n as [|n IH]; cbn [cpow]; [reflexivity|rewrite IH; ring]. Qed.
Lemma cpow_RtoC x n : cpow (RtoC x) n = RtoC (x ^ n).
Proof. induction n as [|n IH]; cbn [cpow pow]; [reflexivity|rewrite IH, RtoC_mult; reflexivity]. Qed.
Lemma Cmod_cpow z n : Cmod (cpow z n) = Cmod z ^ n.
Proof. induction n as [|n IH]; cbn [cpow pow]; [apply Cmod_1|rewrite Cmod_mult, IH; reflexivity]. Qed.
Lemma Ceqb_spec z w : reflect (z = w) (Ceqb z w).
Proof.
  unfold Ceqb. destruct (Reqb_spec (fst z) (fst w)) as [A|A]; cbn [andb].
  - destruct (Reqb_spec (snd z) (snd w)) as [B|B]; constructor; [now apply injective_projections|intros E; apply B; now rewrite E].
  - constructor. intros E. apply A. now rewrite E.
Qed.
Lemma Cconj_RtoC x : Cconj (RtoC x) = RtoC x.
Proof. apply injective_projections; cbn; lra. Qed.
Lemma Cmod_Cconj z : Cmod (Cconj z) = Cmod z.
Proof. unfold Cmod. cbn [Cconj fst snd]. f_equal. ring. Qed.
Lemma Cconj_mul z : Cmult z (Cconj z) = RtoC (Cmod z * Cmod z).
Proof. rewrite Cmod2. apply injective_projections; cbn; ring. Qed.
Lemma Cdiv_neq a b : a <> RtoC 0 -> b <> RtoC 0 -> Cdiv a b <> RtoC 0.
Proof. intros HA HB E. apply HA. transitivity (Cmult (Cdiv a b) b); [field; exact HB|]. rewrite E. ring. Qed.
Lemma one_neq : RtoC 1 <> RtoC 0.
Proof. apply RtoC_neq. lra. Qed.

(* ---------- products ---------- *)
Notation po := product_over.
Lemma po_app g l l' : po g (l ++ l') = Cmult (po g l) (po g l').
Proof. induction l as [|r l IH]; cbn [app product_over]; [ring|rewrite IH; ring]. Qed.
Lemma po_map g (h : C -> C) l : po g (map h l) = po (fun r => g (h r)) l.
Proof. induction l as [|r l IH]; cbn [map product_over]; [reflexivity|now rewrite IH]. Qed.
Lemma po_ext g h l : (forall r, In r l -> g r = h r) -> po g l = po h l.
Proof. induction l as [|r l IH]; intros H; cbn [product_over]; [reflexivity|]. rewrite (H r), IH; [reflexivity| |now left]. intros x Hx. apply H. now right. Qed.
Lemma po_mul g h l : po (fun r => Cmult (g r) (h r)) l = Cmult (po g l) (po h l).
Proof. induction l as [|r l IH]; cbn [product_over]; [ring|rewrite IH; ring]. Qed.
Lemma po_const c l : po (fun _ => c) l = cpow c (length l).
Proof. induction l as [|r l IH]; cbn [product_over length cpow]; [reflexivity|now rewrite IH]. Qed.
Lemma po_neq g l : po g l <> RtoC 0 <-> forall r, In r l -> g r <> RtoC 0.
Proof.
  induction l as [|r l IH]; cbn [product_over].
  - split; [intros _ r []|intros _; exact one_neq].
  - split.
    + intros H x [->|Hx] E; [apply H; rewrite E; ring|]. revert E. apply IH; [|exact Hx]. intros E. apply H. rewrite E. ring.
    + intros H. apply Cmult_neq; [apply H; now left|]. apply IH. intros x Hx. apply H. now right.
Qed.
Lemma po_roots g lone paired : po g (roots lone paired) = Cmult (po g (map RtoC lone)) (po (fun r => Cmult (g r) (g (Cconj r))) paired).
Proof. unfold roots. rewrite !po_app, (po_map g Cconj), po_mul. reflexivity. Qed.
Lemma roots_length lone paired : length (roots lone paired) = (length lone + 2 * length paired)%nat.
Proof. unfold roots. rewrite !app_length, !map_length. lia. Qed.
Lemma in_roots r lone paired : In r (roots lone paired) <-> (exists x, In x lone /\ r = RtoC x) \/ In r paired \/ (exists p, In p paired /\ r = Cconj p).
Proof.
  unfold roots. rewrite !in_app_iff, !in_map_iff. split.
  - intros [(x & <- & H)|[H|(p & <- & H)]]; [left; now exists x|right; now left|right; right; now exists p].
  - intros [(x & H & ->)|[H|(p & H & ->)]]; [left; now exists x|right; now left|right; right; now exists p].
Qed.

(* ---------- the stages of a digital filter ---------- *)
Definition pv (q : poly) (u : C) : C := Cplus (RtoC (fst (fst q))) (Cplus (Cmult (RtoC (snd (fst q))) u) (Cmult (RtoC (snd q)) (Cmult u u))).
Definition monic (u r : C) : C := Cminus (RtoC 1) (Cmult r u).
Lemma from_pair_value r u : pv (from_pair r) u = Cmult (monic u r) (monic u (Cconj r)).
Proof. destruct r as [x y], u as [a b]. unfold pv, from_pair, monic. cbn [fst snd]. apply injective_projections; cbn; ring. Qed.
Lemma from_lone_value r1 r2 u : pv (from_lone r1 r2) u = Cmult (monic u (RtoC r1)) (monic u (RtoC r2)).
Proof. destruct u as [a b]. unfold pv, from_lone, monic. cbn [fst snd]. apply injective_projections; cbn; ring. Qed.
Lemma next_poly_value paired lone u :
  let '(q, (paired', lone')) := next_poly paired lone in
  po (monic u) (roots lone paired) = Cmult (pv q u) (po (monic u) (roots lone' paired')) /\
  (length lone' + length paired' <= pred (length lone + length paired))%nat.
Proof.
  destruct paired as [|r paired]; [destruct lone as [|r1 [|r2 lone]]|]; cbn [next_poly].
  - split; [|cbn; lia]. unfold pv. cbn [fst snd]. replace (po (monic u) (roots [] [])) with (RtoC 1) by reflexivity. ring.
  - split; [|cbn; lia]. rewrite from_lone_value, !po_roots. cbn [map product_over]. unfold monic. ring.
  - split; [|cbn; lia]. rewrite from_lone_value, !po_roots. cbn [map product_over]. ring.
  - split; [|cbn [length]; lia]. rewrite from_pair_value, !po_roots. cbn [map product_over]. ring.
Qed.
Lemma next_poly_left paired lone q paired' lone' : next_poly paired lone = (q, (paired', lone')) ->
  (length lone' + length paired' <= pred (length lone + length paired))%nat.
Proof. intros H. pose proof (next_poly_value paired lone (RtoC 1)) as X. rewrite H in X. exact (proj2 X). Qed.

Lemma make_coeffs_ev b a z : z <> RtoC 0 ->
  numerator (make_coeffs b a) z = Cmult (Cmult z z) (pv b (Cinv z)) /\
  denominator (make_coeffs b a) z = Cmult (Cmult z z) (pv a (Cinv z)).
Proof. intros H. unfold numerator, denominator, make_coeffs, pv. cbn [b0 b1 b2 a0 a1 a2]. split; field; exact H. Qed.

Lemma pz_stages_value z : z <> RtoC 0 -> forall fuel pz lz pp lp, (length lz + length pz + (length lp + length pp) <= fuel)%nat ->
  exists w, w <> RtoC 0 /\ num (pz_stages fuel pz lz pp lp) z = Cmult w (po (monic (Cinv z)) (roots lz pz)) /\
    den (pz_stages fuel pz lz pp lp) z = Cmult w (po (monic (Cinv z)) (roots lp pp)).
Proof.
  intros Hz. induction fuel as [|fuel IH]; intros pz lz pp lp HL.
  - assert (length lz = 0 /\ length pz = 0 /\ length lp = 0 /\ length pp = 0)%nat as (A & B & C1 & D) by lia.
    destruct lz, pz, lp, pp; try discriminate. exists (RtoC 1). split; [exact one_neq|]. cbn. split; ring.
  - cbn [pz_stages]. destruct (_ =? 0)%nat eqn:E.
    + assert (length lz = 0 /\ length pz = 0 /\ length lp = 0 /\ length pp = 0)%nat as (A & B & C1 & D) by lia.
      destruct lz, pz, lp, pp; try discriminate. exists (RtoC 1). split; [exact one_neq|]. cbn. split; ring.
    + pose proof (next_poly_value pz lz (Cinv z)) as B. destruct (next_poly pz lz) as [b [pz' lz']]. destruct B as [B BL].
      pose proof (next_poly_value pp lp (Cinv z)) as A. destruct (next_poly pp lp) as [a [pp' lp']]. destruct A as [A AL].
      destruct (IH pz' lz' pp' lp' ltac:(lia)) as (w & W & N & D). exists (Cmult (Cmult z z) w).
      split; [apply Cmult_neq; [now apply Cmult_neq|exact W]|]. unfold num, den in *. rewrite !cprod_cons, N, D, A, B.
      destruct (make_coeffs_ev b a z Hz) as [-> ->]. split; ring.
Qed.

Definition stages_of (f : pole_zero) : list (coeffs R) := pz_stages (total_roots f) (paired_zeros f) (lone_zeros f) (paired_poles f) (lone_poles f).
Lemma monic_div z r : z <> RtoC 0 -> monic (Cinv z) r = Cminus (RtoC 1) (Cdiv r z).
Proof. intros H. unfold monic. field. exact H. Qed.
Lemma stages_value f z h : z <> RtoC 0 ->
  cascade_value (adjust_gain (pz_gain f) (identity_coeffs :: stages_of f)) z h <-> digital_value f z h.
Proof.
  intros Hz. rewrite cascade_value_iff, adjust_num, adjust_den by discriminate.
  destruct (pz_stages_value z Hz (total_roots f) (paired_zeros f) (lone_zeros f) (paired_poles f) (lone_poles f)) as (w & W & N & D); [unfold total_roots; lia|].
  fold (stages_of f) in N, D. unfold num, den in *. rewrite !cprod_cons.
  replace (cprod (fun c => numerator c z) (stages_of f)) with (Cmult w (po (monic (Cinv z)) (roots (lone_zeros f) (paired_zeros f)))) by (symmetry; exact N).
  replace (cprod (fun c => denominator c z) (stages_of f)) with (Cmult w (po (monic (Cinv z)) (roots (lone_poles f) (paired_poles f)))) by (symmetry; exact D).
  unfold digital_value, zeros, poles. change (fun p => Cminus (RtoC 1) (Cdiv p z)) with (monic (Cinv z)).
  set (P := po _ (roots (lone_poles f) _)). set (Q := po _ (roots (lone_zeros f) _)).
  assert (I1 : numerator identity_coeffs z = Cmult z z) by (unfold numerator; cbn [identity_coeffs b0 b1 b2]; ring).
  assert (I2 : denominator identity_coeffs z = Cmult z z) by (unfold denominator; cbn [identity_coeffs a0 a1 a2]; ring).
  rewrite I1, I2. split.
  - intros [A B]. assert (P <> RtoC 0) by (intros E; apply A; rewrite E; ring). split; [assumption|].
    assert (X : Cmult (Cmult (Cmult z z) w) (Cmult (RtoC (pz_gain f)) Q) = Cmult (Cmult (Cmult z z) w) (Cmult h P)) by (transitivity (Cmult (RtoC (pz_gain f)) (Cmult (Cmult z z) (Cmult w Q))); [ring|rewrite B; ring]).
    apply (f_equal (fun x => Cdiv x (Cmult (Cmult (Cmult z z) w) P))) in X.
    transitivity (Cdiv (Cmult (Cmult (Cmult z z) w) (Cmult h P)) (Cmult (Cmult (Cmult z z) w) P)); [field; auto|rewrite <- X; field; auto].
  - intros [A ->]. split; [repeat apply Cmult_neq; assumption|]. field. exact A.
Qed.

(* ---------- first theorem: clear roots ---------- *)
Lemma small_sq x : / 100000 < x -> / 10000000000 < x * x.
Proof. intros H. apply Rlt_trans with (/ 100000 * x); [|apply Rmult_lt_compat_r; lra]. replace (/ 10000000000) with (/ 100000 * / 100000) by lra. apply Rmult_lt_compat_l; lra. Qed.
Definition clear (r : C) : Prop := r = RtoC 0 \/ / 100000 < Cmod r.
Definition nice_poly (q : poly) : Prop := separated (fst (fst q)) (snd (fst q)) (snd q) /\ fst (fst q) = 1.
Lemma from_pair_nice r : clear r -> nice_poly (from_pair r).
Proof.
  intros H. unfold nice_poly, from_pair. cbn [fst snd]. split; [|reflexivity]. rewrite Cconj_mul. cbn [RtoC fst].
  destruct H as [-> |H].
  - left. rewrite Cmod_0. split; [ring|]. left. cbn. ring.
  - right. pose proof (small_sq _ H). rewrite Rabs_pos_eq; [assumption|]. assert (0 < Cmod r) by lra. nra.
Qed.
Lemma clear_R x : clear (RtoC x) -> x = 0 \/ / 100000 < Rabs x.
Proof. intros [H|H]; [left; now apply (f_equal fst) in H|right; now rewrite Cmod_R in H]. Qed.
Lemma from_lone_nice r1 r2 : clear (RtoC r1) -> clear (RtoC r2) -> nice_poly (from_lone r1 r2).
Proof.
  intros H1 H2. apply clear_R in H1, H2. unfold nice_poly, from_lone. cbn [fst snd]. split; [|reflexivity].
  destruct H1 as [-> |H1]; [left; split; [ring|]; destruct H2 as [-> |H2]; [left; ring|right; replace (-0 - r2) with (- r2) by ring; rewrite Rabs_Ropp; exact H2]|].
  destruct H2 as [-> |H2]; [left; split; [ring|]; right; replace (- r1 - 0) with (- r1) by ring; rewrite Rabs_Ropp; exact H1|].
  right. rewrite Rabs_mult. apply Rlt_trans with (/ 100000 * Rabs r2); [|apply Rmult_lt_compat_r; lra]. replace (/ 10000000000) with (/ 100000 * / 100000) by lra. apply Rmult_lt_compat_l; lra.
Qed.
Lemma next_nice paired lone q paired' lone' : next_poly paired lone = (q, (paired', lone')) ->
  Forall clear paired -> Forall (fun x => clear (RtoC x)) lone -> nice_poly q /\ Forall clear paired' /\ Forall (fun x => clear (RtoC x)) lone'.
Proof.
  intros E HP HL. destruct paired as [|r paired]; [destruct lone as [|r1 [|r2 lone]]|]; cbn [next_poly] in E; injection E as <- <- <-.
  - split; [|now split]. split; [left; cbn; auto|reflexivity].
  - apply Forall_inv in HL. split; [|split; constructor]. apply from_lone_nice; [exact HL|left; reflexivity].
  - inversion HL as [|x l H1 H2]; subst. inversion H2 as [|x l H3 H4]; subst. split; [now apply from_lone_nice|now split].
  - inversion HP; subst. split; [now apply from_pair_nice|now split].
Qed.
Lemma nice_stage b a : nice_poly b -> nice_poly a -> well_scaled (make_coeffs b a).
Proof.
  intros [B1 B2] [A1 A2]. unfold well_scaled, make_coeffs. cbn [b0 b1 b2 a0 a1 a2]. rewrite B2, A2 in *.
  split; [exact B1|]. split; [exact A1|]. split; [lra|]. rewrite Rabs_R1. split; intros; lra.
Qed.
Lemma pz_stages_nice fuel : forall pz lz pp lp, Forall clear pz -> Forall (fun x => clear (RtoC x)) lz -> Forall clear pp -> Forall (fun x => clear (RtoC x)) lp ->
  Forall well_scaled (pz_stages fuel pz lz pp lp).
Proof.
  induction fuel as [|fuel IH]; intros pz lz pp lp H1 H2 H3 H4; cbn [pz_stages]; [constructor|]. destruct (_ =? 0)%nat; [constructor|].
  destruct (next_poly pz lz) as [b [pz' lz']] eqn:B. destruct (next_poly pp lp) as [a [pp' lp']] eqn:A.
  destruct (next_nice _ _ _ _ _ B H1 H2) as (X1 & X2 & X3). destruct (next_nice _ _ _ _ _ A H3 H4) as (Y1 & Y2 & Y3).
  constructor; [now apply nice_stage|auto].
Qed.
Lemma identity_well_scaled : well_scaled identity_coeffs.
Proof. unfold well_scaled, separated. cbn [identity_coeffs a0 a1 a2 b0 b1 b2]. rewrite Rabs_R1. repeat split; try lra; left; auto. Qed.

Lemma adjust_same g cs cs' : cs <> [] -> cs' <> [] -> same_response cs cs' -> same_response (adjust_gain g cs) (adjust_gain g cs').
Proof.
  intros N N' H z h Hz.
  assert (X : forall a, a <> [] -> cascade_value (adjust_gain g a) z h <-> exists h', cascade_value a z h' /\ h = Cmult (RtoC g) h').
  { intros a NA. rewrite cascade_value_iff, adjust_num, adjust_den by exact NA. split.
    - intros [D E]. exists (Cdiv (num a z) (den a z)). rewrite cascade_value_iff. split; [split; [exact D|field; exact D]|].
      transitivity (Cdiv (Cmult h (den a z)) (den a z)); [field; exact D|]. rewrite <- E. field. exact D.
    - intros (h' & V & ->). apply cascade_value_iff in V. destruct V as [D E]. split; [exact D|]. rewrite E. ring. }
  rewrite (X cs N), (X cs' N'). split; intros (h' & V & E); exists h'; (split; [|exact E]); now apply (H z h' Hz).
Qed.

Lemma get_coefficients_clear f : clear_roots f -> exists cs, get_coefficients f = Ok cs /\ (total_roots f <> 0%nat -> forall z h, z <> RtoC 0 -> cascade_value cs z h <-> digital_value f z h).
Proof.
  intros H. unfold get_coefficients. destruct (total_roots f =? 0)%nat eqn:E; [exists [identity_coeffs]; split; [reflexivity|intros X; lia]|].
  assert (K : forall r, In r (zeros f ++ poles f) -> clear r) by exact H.
  destruct (appends_of tolerance well_scaled) with (l := stages_of f) (cs := [identity_coeffs]) as (cs & A & B & S & L).
  - intros c1 N1 F1. destruct (simplify_scaled c1 N1 F1) as (c2 & X1 & X2 & X3 & X4 & _). exists c2. auto.
  - discriminate.
  - constructor; [exact identity_well_scaled|constructor].
  - apply pz_stages_nice; apply Forall_forall; intros r Hr; apply K, in_app_iff; unfold zeros, poles; rewrite !in_roots; eauto 6.
  - unfold stages_of in A. rewrite A. cbn [obind]. exists (adjust_gain (pz_gain f) cs). split; [reflexivity|]. intros _ z h Hz.
    rewrite <- (stages_value f z h Hz). symmetry. apply adjust_same; try assumption; [discriminate|]. intros ->. cbn in L. lia.
Qed.
