(* The arc sine along a path, and the comparison of integrals. *)
From Coq Require Import ZArith Reals Lra Lia List Bool.
From Coquelicot Require Import Coquelicot.
From Verif Require Import Common RealUtil CInt ComplexModel ComplexProofs EllipticModel EllipticProofs EllipticProofs2 EllipticProofs4 EllipticPathSpec EllipticPathProofs EllipticPathProofs2 EllipticPathProofs3.
Import ListNotations.
Local Open Scope R_scope.
Local Notation C := Complex.C.

Lemma der_comp (f g : R -> R) t df dg : is_derive f (g t) df -> is_derive g t dg -> is_derive (fun s => f (g s)) t (dg * df).
Proof. apply (is_derive_comp (K := R_AbsRing) (V := R_NormedModule)). Qed.
Lemma der_sinh t : is_derive sinh t (cosh t).
Proof. apply is_derive_Reals, derivable_pt_lim_sinh. Qed.
Lemma der_cosh t : is_derive cosh t (sinh t).
Proof. apply is_derive_Reals, derivable_pt_lim_cosh. Qed.
Lemma cder_csin a t d : cder a t d -> cder (fun s => csin (a s)) t (Cmult (ccos (a t)) d).
Proof.
  intros [A B]. unfold csin, ccos. split; cbn [fst snd Cmult].
  - eapply der_eq; [apply der_mult; [apply (der_comp sin); [apply is_derive_sin|exact A]|apply (der_comp cosh); [apply der_cosh|exact B]]|]. cbn. ring.
  - eapply der_eq; [apply der_mult; [apply (der_comp cos); [apply is_derive_cos|exact A]|apply (der_comp sinh); [apply der_sinh|exact B]]|]. cbn. ring.
Qed.
Lemma hyp b : cosh b * cosh b = 1 + sinh b * sinh b.
Proof. unfold cosh, sinh. pose proof (exp_neg b). nra. Qed.
Lemma trig a : sin a * sin a + cos a * cos a = 1.
Proof. pose proof (sin2_cos2 a) as H. unfold Rsqr in H. exact H. Qed.
Lemma ccos_sq z : Cmult (ccos z) (ccos z) = under 1 (csin z).
Proof.
  destruct z as [a b]. unfold ccos, csin, under. pose proof (hyp b) as H. pose proof (trig a) as T. apply injective_projections; unfold Cmult, Cminus, Cplus, Copp, RtoC; cbn [fst snd]; [|ring].
  set (c := cosh b) in *. set (s := sinh b) in *. set (x := cos a) in *. set (y := sin a) in *. clearbody c s x y.
  replace (x * c * (x * c) - - y * s * (- y * s)) with (x * x * (c * c) - y * y * (s * s)) by ring. replace (1 + - (1 * 1 * (y * c * (y * c) - x * s * (x * s)) - 0 * (y * c * (x * s) + x * s * (y * c)))) with (1 - y * y * (c * c) + x * x * (s * s)) by ring. rewrite H. replace (x * x) with (1 - y * y) by lra. ring.
Qed.
Lemma ccos_pos z : - (PI / 2) < fst z < PI / 2 -> 0 < fst (ccos z).
Proof. intros H. unfold ccos. cbn [fst]. apply Rmult_lt_0_compat; [apply cos_gt_0; lra|apply ComplexProofs.cosh_pos]. Qed.
Lemma ccos_root z : - (PI / 2) < fst z < PI / 2 -> ccos z = root (under 1 (csin z)) /\ inside (csin z).
Proof. intros H. pose proof (ccos_pos z H) as P. split; [apply root_unique; [apply ccos_sq|exact P]|]. unfold inside. rewrite <- ccos_sq. now apply square_slit. Qed.

Definition arc_re (x y : R) : R := asin ((sqrt ((x + 1) ^ 2 + y ^ 2) - sqrt ((x - 1) ^ 2 + y ^ 2)) / 2).
Definition arc (w : C) : C := (arc_re (fst w) (snd w), arcsinh (snd w / cos (arc_re (fst w) (snd w)))).
Lemma abs_one a b : cosh b >= 1 -> sqrt ((sin a * cosh b + 1) ^ 2 + (cos a * sinh b) ^ 2) = cosh b + sin a /\ sqrt ((sin a * cosh b - 1) ^ 2 + (cos a * sinh b) ^ 2) = cosh b - sin a.
Proof.
  intros G. pose proof (hyp b) as H. pose proof (trig a) as T. pose proof (SIN_bound a). split.
  - replace ((sin a * cosh b + 1) ^ 2 + (cos a * sinh b) ^ 2) with ((cosh b + sin a) * (cosh b + sin a)); [apply sqrt_square; lra|]. replace ((cos a * sinh b) ^ 2) with (cos a * cos a * (sinh b * sinh b)) by ring. replace (sinh b * sinh b) with (cosh b * cosh b - 1) by lra. replace (cos a * cos a) with (1 - sin a * sin a) by lra. ring.
  - replace ((sin a * cosh b - 1) ^ 2 + (cos a * sinh b) ^ 2) with ((cosh b - sin a) * (cosh b - sin a)); [apply sqrt_square; lra|]. replace ((cos a * sinh b) ^ 2) with (cos a * cos a * (sinh b * sinh b)) by ring. replace (sinh b * sinh b) with (cosh b * cosh b - 1) by lra. replace (cos a * cos a) with (1 - sin a * sin a) by lra. ring.
Qed.
Lemma cosh_ge1 b : cosh b >= 1.
Proof. destruct (Req_dec b 0) as [-> |N]; [rewrite cosh_0'; lra|pose proof (cosh_gt b N); lra]. Qed.
Lemma arc_csin a b : - (PI / 2) < a < PI / 2 -> arc (csin (a, b)) = (a, b).
Proof.
  intros A. unfold arc, arc_re, csin. cbn [fst snd]. destruct (abs_one a b (cosh_ge1 b)) as (-> & ->). replace ((cosh b + sin a - (cosh b - sin a)) / 2) with (sin a) by field. rewrite asin_sin by lra. f_equal. replace (cos a * sinh b / cos a) with (sinh b); [apply arcsinh_sinh|]. field. apply Rgt_not_eq, cos_gt_0; lra.
Qed.
Lemma casin_arc ex w : inside w -> casin ex w = Ok (arc w) /\ csin (arc w) = w /\ - (PI / 2) < fst (arc w) < PI / 2.
Proof.
  intros I. destruct (casin_ok ex w) as ((a, b) & E & S & B). cbn [fst] in B. assert (A : - (PI / 2) < a < PI / 2).
  { assert (N : cos a <> 0). { intros Z. unfold inside in I. rewrite <- S in I. pose proof (ccos_sq (a, b)) as Q. unfold ccos in Q. cbn [fst snd] in Q. rewrite Z in Q. rewrite <- Q in I. unfold slit, Cmult in I. cbn [fst snd] in I. destruct I as [I|I]; [nra|apply I; ring]. }
    split; [destruct (proj1 B) as [L|L]; [exact L|]|destruct (proj2 B) as [L|L]; [exact L|]]; exfalso; apply N; [rewrite <- L, cos_neg; apply cos_PI2|rewrite L; apply cos_PI2]. }
  rewrite E, <- S, arc_csin by exact A. cbn [fst]. now repeat split.
Qed.
Lemma arc_real (x y : R -> R) t : ex_derive x t -> ex_derive y t -> 0 < (x t + 1) ^ 2 + y t ^ 2 -> 0 < (x t - 1) ^ 2 + y t ^ 2 -> ex_derive (fun s => (sqrt ((x s + 1) ^ 2 + y s ^ 2) - sqrt ((x s - 1) ^ 2 + y s ^ 2)) / 2) t.
Proof. intros A B P Q. auto_derive. cbn in *. repeat split; try assumption; lra. Qed.
Lemma ex_cder_arc f t d : cder f t d -> inside (f t) -> exists e, cder (fun s => arc (f s)) t e.
Proof.
  intros [A B] I. destruct (casin_arc (fun _ => 0%Z) (f t) I) as (_ & S & G). assert (EA : ex_derive (fun s => fst (f s)) t) by (eexists; exact A). assert (EB : ex_derive (fun s => snd (f s)) t) by (eexists; exact B).
  assert (Q : forall e, e = 1 \/ e = -1 -> 0 < (fst (f t) + e) ^ 2 + snd (f t) ^ 2).
  { intros e He. unfold inside, slit, under in I. destruct (f t) as [x y]. cbn in I. cbn [fst snd]. replace ((x + e) ^ 2 + y ^ 2) with ((x + e) * (x + e) + y * y) by ring. pose proof (Rle_0_sqr (x + e)) as X1. unfold Rsqr in X1. destruct (Req_dec y 0) as [-> |N].
    - destruct I as [I|I]; [|exfalso; apply I; ring]. assert (X : x * x < 1) by lra. assert (NZ : x + e <> 0) by (intros Z; assert (x = - e) by lra; subst x; destruct He as [-> | ->]; lra). apply Rsqr_pos_lt in NZ. unfold Rsqr in NZ. lra.
    - apply Rsqr_pos_lt in N. unfold Rsqr in N. lra. }
  destruct (arc_real (fun s => fst (f s)) (fun s => snd (f s)) t EA EB (Q 1 (or_introl eq_refl)) (Q (-1) (or_intror eq_refl))) as [x X].
  set (g := fun s => (sqrt ((fst (f s) + 1) ^ 2 + snd (f s) ^ 2) - sqrt ((fst (f s) - 1) ^ 2 + snd (f s) ^ 2)) / 2) in *. assert (AG : forall s, fst (arc (f s)) = asin (g s)) by reflexivity.
  assert (GB : -1 < g t < 1). { assert (E : g t = sin (fst (arc (f t)))). { unfold g. set (al := arc (f t)) in *. rewrite <- S. destruct al as [a b]. unfold csin. cbn [fst snd]. destruct (abs_one a b (cosh_ge1 b)) as (-> & ->). field. }
    rewrite E. pose proof (cos_gt_0 (fst (arc (f t))) ltac:(lra) ltac:(lra)). pose proof (trig (fst (arc (f t)))). nra. }
  assert (XA : is_derive (fun s => fst (arc (f s))) t (x * / sqrt (1 - g t * g t))) by (apply (der_comp asin g); [now apply asin_derive|exact X]).
  assert (YA : ex_derive (fun s => snd (f s) / cos (fst (arc (f s)))) t).
  { apply (ex_derive_div (fun s => snd (f s)) (fun s => cos (fst (arc (f s))))); [exact EB| |apply Rgt_not_eq, cos_gt_0; lra]. eexists. apply (der_comp cos); [apply is_derive_cos|exact XA]. }
  destruct YA as [y Y]. eexists (_, _). split; [exact XA|]. apply (der_comp arcsinh (fun s => snd (f s) / cos (fst (arc (f s))))); [apply is_derive_Reals, derivable_pt_lim_arcsinh|exact Y].
Qed.
Lemma arc_relation (U : R -> Prop) f t e a : (forall t, U t -> locally t U) -> (forall s, U s -> inside (f s)) -> U t -> cder f t e -> cder (fun s => arc (f s)) t a -> Cmult (root (under 1 (f t))) a = e.
Proof.
  intros O I T E A. pose proof (cder_csin _ _ _ A) as S. destruct (casin_arc (fun _ => 0%Z) (f t) (I t T)) as (_ & SA & B). destruct (ccos_root _ B) as (CR & _). rewrite SA in CR. rewrite <- CR. symmetry. apply (cder_unique f t _ _ E).
  apply (cder_loc (fun s => csin (arc (f s)))); [|exact S]. generalize (O t T). apply filter_imp. intros s Hs. now apply (casin_arc (fun _ => 0%Z)), I.
Qed.
Lemma arc_0 : arc (RtoC 0) = RtoC 0.
Proof.
  change (RtoC 0) with ((0, 0) : C). pose proof PI_RGT_0. rewrite <- (arc_csin 0 0) at 2 by lra. f_equal. unfold csin. cbn [fst snd]. rewrite sin_0, sinh_0. f_equal; ring.
Qed.
(* a curve that moves almost with speed g ends close to the integral of g *)
Lemma dot_mod (a b : C) : fst a * fst b + snd a * snd b <= Cmod a * Cmod b.
Proof.
  pose proof (Cmod_ge_0 a). pose proof (Cmod_ge_0 b). pose proof (Cmod_sq a) as A. pose proof (Cmod_sq b) as B. set (x := fst a * fst b + snd a * snd b). destruct (Rle_dec x 0) as [L|L]; [nra|].
  apply Rsqr_incr_0_var; [|nra]. unfold Rsqr. replace (Cmod a * Cmod b * (Cmod a * Cmod b)) with (Cmod a * Cmod a * (Cmod b * Cmod b)) by ring. rewrite A, B. unfold x. pose proof (Rle_0_sqr (fst a * snd b - snd a * fst b)) as Q. unfold Rsqr in Q. nra.
Qed.
Section Compare.
Variables (E g h : R -> C) (eps : R).
Hypothesis Ep : 0 <= eps.
Hypothesis E0 : E 0 = RtoC 0.
Hypothesis D : forall t, 0 <= t <= 1 -> cder E t (Cmult (h t) (g t)).
Hypothesis H : forall t, 0 <= t <= 1 -> Cmod (Cminus (h t) (RtoC 1)) <= eps.
Variable U : R -> Prop.
Hypothesis Uopen : forall t, U t -> locally t U.
Hypothesis Uconv : forall s t, U t -> Rmin 0 t <= s <= Rmax 0 t -> U s.
Hypothesis U01 : forall t, 0 <= t <= 1 -> U t.
Hypothesis G : forall t, U t -> continuity_pt (fun s => fst (g s)) t /\ continuity_pt (fun s => snd (g s)) t.
Lemma int_derive (f : R -> R) t : (forall s, U s -> continuity_pt f s) -> U t -> is_derive (fun b => RInt f 0 b) t (f t).
Proof.
  intros F T. apply (is_derive_RInt f (fun b => RInt f 0 b) 0 t).
  - generalize (Uopen t T). apply filter_imp. intros b B. apply (RInt_correct (V := R_CompleteNormedModule)). apply (ex_RInt_continuous (V := R_CompleteNormedModule)). intros z Z. apply continuity_pt_filterlim. apply F. apply (Uconv z b B). exact Z.
  - apply continuity_pt_filterlim. now apply F.
Qed.
Lemma mod_cont s : U s -> continuity_pt (fun s => Cmod (g s)) s.
Proof.
  intros S. destruct (G s S) as (A & B). unfold Cmod. apply (continuity_pt_comp (fun s => fst (g s) ^ 2 + snd (g s) ^ 2) sqrt).
  - apply continuity_pt_plus; cbn; apply continuity_pt_mult; try assumption; (apply continuity_pt_mult; [assumption|]); apply continuity_pt_const; intros ? ?; reflexivity.
  - apply continuity_pt_sqrt. pose proof (pow2_ge_0 (fst (g s))). pose proof (pow2_ge_0 (snd (g s))). lra.
Qed.
Lemma compare : Cmod (Cminus (E 1) (RInt (fun t => fst (g t)) 0 1, RInt (fun t => snd (g t)) 0 1)) <= eps * RInt (fun t => Cmod (g t)) 0 1.
Proof.
  set (I1 := fun t => RInt (fun t => fst (g t)) 0 t). set (I2 := fun t => RInt (fun t => snd (g t)) 0 t). set (L := fun t => RInt (fun t => Cmod (g t)) 0 t).
  assert (Q : forall u : C, fst u * (fst (E 1) - I1 1) + snd u * (snd (E 1) - I2 1) <= Cmod u * (eps * L 1)).
  { intros u. destruct (MVT_gen (fun t => Cmod u * (eps * L t) - (fst u * (fst (E t) - I1 t) + snd u * (snd (E t) - I2 t))) 0 1
      (fun t => Cmod u * (eps * Cmod (g t)) - (fst u * (fst (Cmult (h t) (g t)) - fst (g t)) + snd u * (snd (Cmult (h t) (g t)) - snd (g t))))) as (c & CB & EQ).
    1, 2: rewrite Rmin_left, Rmax_right by lra.
    1: intros t T; assert (T' : 0 <= t <= 1) by lra. 2: intros t T'.
    1, 2: assert (DD : is_derive (fun t => Cmod u * (eps * L t) - (fst u * (fst (E t) - I1 t) + snd u * (snd (E t) - I2 t))) t (Cmod u * (eps * Cmod (g t)) - (fst u * (fst (Cmult (h t) (g t)) - fst (g t)) + snd u * (snd (Cmult (h t) (g t)) - snd (g t))))) by
     (destruct (D t T') as [D1 D2]; apply der_minus; [apply (is_derive_scal (fun t => eps * L t) t (Cmod u)), (is_derive_scal L t eps), (int_derive (fun t => Cmod (g t))); [exact mod_cont|now apply U01]|];
      apply der_plus; [apply (is_derive_scal (fun t => fst (E t) - I1 t) t (fst u))|apply (is_derive_scal (fun t => snd (E t) - I2 t) t (snd u))]; (apply der_minus; [assumption|]);
      [apply (int_derive (fun t => fst (g t)))|apply (int_derive (fun t => snd (g t)))]; try (now apply U01); intros s Us; now apply G).
    - exact DD.
    - apply derivable_continuous_pt. eexists. apply is_derive_Reals. exact DD.
    - rewrite Rmin_left, Rmax_right in CB by lra. cbv beta in EQ. assert (Z : I1 0 = 0 /\ I2 0 = 0 /\ L 0 = 0) by (unfold I1, I2, L; now rewrite !RInt_point). destruct Z as (Z1 & Z2 & Z3). rewrite Z1, Z2, Z3, E0 in EQ. unfold RtoC in EQ. cbn [fst snd] in EQ.
      pose proof (dot_mod u (Cmult (Cminus (h c) (RtoC 1)) (g c))) as DM. rewrite Cmod_mult in DM. pose proof (H c CB) as HC. pose proof (Cmod_ge_0 u) as P1. pose proof (Cmod_ge_0 (g c)) as P2.
      assert (F1 : fst (Cmult (Cminus (h c) (RtoC 1)) (g c)) = fst (Cmult (h c) (g c)) - fst (g c)) by (unfold Cmult, Cminus, Cplus, Copp, RtoC; cbn [fst snd]; ring). assert (F2 : snd (Cmult (Cminus (h c) (RtoC 1)) (g c)) = snd (Cmult (h c) (g c)) - snd (g c)) by (unfold Cmult, Cminus, Cplus, Copp, RtoC; cbn [fst snd]; ring). rewrite F1, F2 in DM.
      assert (Cmod u * (Cmod (Cminus (h c) (RtoC 1)) * Cmod (g c)) <= Cmod u * (eps * Cmod (g c))) by (apply Rmult_le_compat_l; [exact P1|]; apply Rmult_le_compat_r; assumption). lra. }
  set (z := Cminus (E 1) (RInt (fun t => fst (g t)) 0 1, RInt (fun t => snd (g t)) 0 1)). pose proof (Q z) as X. assert (ZZ : fst z * (fst (E 1) - I1 1) + snd z * (snd (E 1) - I2 1) = Cmod z * Cmod z) by (rewrite Cmod_sq; unfold z, I1, I2, Cminus, Cplus, Copp; cbn [fst snd]; ring). rewrite ZZ in X. change (Cmod z <= eps * L 1).
  pose proof (Cmod_ge_0 z) as P. destruct (Req_dec (Cmod z) 0) as [N|N].
  - rewrite N. apply Rmult_le_pos; [exact Ep|]. unfold L. apply RInt_ge_0; [lra| |intros; apply Cmod_ge_0]. apply (ex_RInt_continuous (V := R_CompleteNormedModule)). intros s S. apply continuity_pt_filterlim. apply mod_cont. apply U01. rewrite Rmin_left, Rmax_right in S by lra. exact S.
  - apply (Rmult_le_reg_l (Cmod z)); [lra|exact X].
Qed.
End Compare.
