From Verif Require Import Common ListLemmas RealUtil BiquadModel DesignModel DesignSpec DesignProofs CascadeModel CascadeSpec CascadeProofs CascadeProofs2 PoleZeroModel PoleZeroSpec PoleZeroProofs PoleZeroProofs3 PoleZeroProofs4 PoleZeroProofs5 PoleZeroProofs6 ComplexModel ComplexProofs ZpkModel ZpkSpec ZpkProofs ZpkProofs2.
From Coq Require Import Permutation Sorted.
From Coquelicot Require Import Complex.
Local Open Scope R_scope.

(* ---------- real roots first ---------- *)
Lemma tol_is : root_tol = 100 / 2 ^ 52.
Proof. unfold root_tol. field. Qed.
Lemma nearly_real_iff ex (r : C) : plainly_real_or_not r -> nearly_real ex r = true <-> snd r = 0.
Proof.
  intros H. unfold nearly_real. rewrite cabs_Cmod, tol_is. set (t := 100 / 2 ^ 52) in *. assert (T : 0 < t) by (unfold t; lra). pose proof (Cmod_ge_0 r) as M. destruct H as [H|H].
  - split; [intros _; exact H|intros _]. rewrite H, Rabs_R0. destruct (Rleb_spec 0 (t * Cmod r)) as [_|X]; [reflexivity|]. nra.
  - fold t in H. destruct (Rleb_spec (Rabs (snd r)) (t * Cmod r)) as [X|X]; [lra|]. split; [discriminate|]. intros E. rewrite E, Rabs_R0 in X. nra.
Qed.
Definition is_real (r : C) : Prop := snd r = 0.
Definition not_real (r : C) : Prop := snd r <> 0.
Lemma reals_first_spec ex (l : list C) : clear_cut l -> forall reals others : list C, Forall is_real reals -> Forall not_real others ->
  exists reals' others' : list C, reals_first ex l reals others = (reals', others') /\ Forall is_real reals' /\ Forall not_real others' /\ Permutation (reals' ++ others') (reals ++ others ++ l).
Proof.
  induction l as [|r l IH]; intros HC reals others HR HO; cbn [reals_first].
  - exists reals, others. rewrite app_nil_r. now repeat split.
  - assert (HC' : clear_cut l) by (intros x Hx; apply HC; now right). pose proof (nearly_real_iff ex r (HC r (or_introl eq_refl))) as N. destruct (nearly_real ex r) eqn:E.
    + assert (S0 : snd r = 0) by now apply N. assert (ER : ((fst r, 0) : C) = r) by (apply injective_projections; cbn; congruence). destruct others as [|o others].
      * destruct (IH HC' (reals ++ [r]) []) as (a & b & A & B & D & F); [apply Forall_app; split; [exact HR|repeat constructor; exact S0]|constructor|]. exists a, b. split; [exact A|]. split; [exact B|]. split; [exact D|]. rewrite F, <- app_assoc. reflexivity.
      * rewrite ER. destruct (IH HC' (reals ++ [r]) (others ++ [o])) as (a & b & A & B & D & F); [apply Forall_app; split; [exact HR|repeat constructor; exact S0]|inversion HO; subst; apply Forall_app; split; [assumption|repeat constructor; assumption]|].
        exists a, b. split; [exact A|]. split; [exact B|]. split; [exact D|]. rewrite F, <- !app_assoc. apply Permutation_app_head. cbn [app].
        transitivity (r :: o :: others ++ l); [constructor|]. { symmetry. apply Permutation_middle. } rewrite perm_swap. constructor. apply Permutation_middle.
    + destruct (IH HC' reals (others ++ [r])) as (a & b & A & B & D & F); [exact HR|apply Forall_app; split; [exact HO|]; repeat constructor; intros X; apply N in X; discriminate X|].
      exists a, b. split; [exact A|]. split; [exact B|]. split; [exact D|]. rewrite F, <- app_assoc. reflexivity.
Qed.

(* ---------- sorting ---------- *)
Section Sort.
Variables (ex : R -> Z) (qsort : list C -> list C).
Hypothesis HQ : sorts qsort.
Lemma qsort_perm l : Permutation (qsort l) l.
Proof. apply HQ. Qed.
Lemma qsort_sorted l : StronglySorted not_after (qsort l).
Proof.
  destruct (HQ l) as (_ & H). induction H as [|a m H IH F]; constructor; [exact IH|]. eapply Forall_impl; [|exact F]. intros x Hx. now apply order_gt.
Qed.
Lemma Forall_perm {A} (P : A -> Prop) l l' : Permutation l l' -> Forall P l -> Forall P l'.
Proof. intros H HF. rewrite Forall_forall in *. intros x Hx. apply HF. now apply (Permutation_in _ (Permutation_sym H)). Qed.
Lemma conj_reals (l : list C) : Forall is_real l -> map Cconj l = l.
Proof. induction 1 as [|x l H _ IH]; cbn [map]; [reflexivity|]. rewrite IH. f_equal. apply injective_projections; cbn; unfold is_real in H; lra. Qed.
Lemma closed_others (l reals others : list C) : Permutation (reals ++ others) l -> Forall is_real reals -> conj_closed l <-> forall x, cnt others (Cconj x) = cnt others x.
Proof.
  intros HP HR. rewrite conj_closed_cnt. assert (E : forall x, cnt l x = (cnt reals x + cnt others x)%nat) by (intros x; rewrite <- cnt_app; symmetry; now apply (Permutation_count_occ Ceq_dec)).
  assert (Q : forall x, cnt reals (Cconj x) = cnt reals x) by (intros x; rewrite <- cnt_conj, conj_reals by exact HR; reflexivity).
  split; intros H x; specialize (H x); rewrite !E in *; rewrite ?Q in *; lia.
Qed.
Lemma reals_as_R (l : list C) : Forall is_real l -> l = map RtoC (map fst l).
Proof. intros H. rewrite map_map. transitivity (map (fun x : C => x) l); [now rewrite map_id|]. apply map_ext_in. intros x Hx. rewrite Forall_forall in H. apply injective_projections; [reflexivity|]. cbn. now apply H. Qed.
Lemma sorted_reals (l : list C) : Forall is_real l -> StronglySorted not_after l -> StronglySorted Rle (map fst l).
Proof.
  intros HR. induction 1 as [|a m H IH F]; cbn [map]; constructor; [apply IH; now inversion HR|]. apply Forall_map. inversion HR; subst. rewrite Forall_forall in *. intros x Hx. destruct (F x Hx) as [X|(X & _)]; lra.
Qed.
Lemma roots_sort_parts (l : list C) : clear_cut l -> l <> [] -> exists reals others : list C, Forall is_real reals /\ Forall not_real others /\ StronglySorted not_after reals /\ StronglySorted not_after others /\
  Permutation (reals ++ others) l /\ roots_sort ex qsort l = (fst (pair_runs (length others) others), reals ++ snd (pair_runs (length others) others)).
Proof.
  intros HC HN. destruct (reals_first_spec ex l HC [] []) as (a & b & A & B & D & F); [constructor|constructor|]. cbn [app] in F. exists (qsort a), (qsort b).
  split; [now apply (Forall_perm _ a _ (Permutation_sym (qsort_perm a)))|]. split; [now apply (Forall_perm _ b _ (Permutation_sym (qsort_perm b)))|]. split; [apply qsort_sorted|]. split; [apply qsort_sorted|].
  split; [now rewrite !qsort_perm|]. unfold roots_sort. change cplx with C. destruct (Nat.eqb_spec (length l) 0) as [X|_]; [destruct l; [contradiction|discriminate X]|]. change (reals_first ex l nil nil) with (reals_first ex l (@nil C) (@nil C)); rewrite A. cbv beta iota zeta.
  destruct (Nat.eqb_spec (length b) 0) as [X|_].
  - assert (b = []) by (destruct b; [reflexivity|discriminate X]). subst b. assert (Q : qsort [] = []) by (apply Permutation_nil, Permutation_sym, qsort_perm). rewrite Q. change (pair_runs (length (@nil C)) []) with (true, @nil C). cbn [fst snd]. now rewrite app_nil_r.
  - destruct (pair_runs (length (qsort b)) (qsort b)). reflexivity.
Qed.
Lemma roots_sort_ok (l : list C) : clear_cut l -> conj_closed l -> exists l' : list C, roots_sort ex qsort l = (true, l') /\ Permutation l' l /\ arranged l'.
Proof.
  intros HC HK. destruct l as [|r0 l0] eqn:EL.
  - exists []. split; [reflexivity|]. split; [constructor|]. exists [], []. repeat split; constructor.
  - rewrite <- EL in *. destruct (roots_sort_parts l HC) as (a & b & A & B & SA & SB & P & E); [rewrite EL; discriminate|]. rewrite E.
    destruct (pair_runs_ok (length b) b (le_n _) SB) as (up & U1 & U2 & U3 & U4); [intros x Hx; rewrite Forall_forall in B; now apply B|now apply (closed_others l a b P A)|].
    rewrite U1. cbn [fst snd]. exists (a ++ flat_map pair_of up). split; [reflexivity|]. split; [rewrite U2; exact P|]. exists (map fst a), up. split; [rewrite <- reals_as_R by exact A; reflexivity|]. split; [now apply sorted_reals|]. now split.
Qed.
Lemma roots_sort_only (l : list C) : clear_cut l -> fst (roots_sort ex qsort l) = true -> conj_closed l.
Proof.
  intros HC H. destruct l as [|r0 l0] eqn:EL; [constructor|]. rewrite <- EL in *. destruct (roots_sort_parts l HC) as (a & b & A & B & SA & SB & P & E); [rewrite EL; discriminate|]. rewrite E in H. cbn [fst] in H.
  apply (closed_others l a b P A). apply (pair_runs_only (length b) b (le_n _) SB); [|exact H]. intros x Hx. rewrite Forall_forall in B. now apply B.
Qed.
Lemma zpk_sort_ok f : clear_cut (z_zeros f) -> clear_cut (z_poles f) -> real_filter f ->
  exists f', zpk_sort ex qsort f = (true, f') /\ Permutation (z_zeros f') (z_zeros f) /\ Permutation (z_poles f') (z_poles f) /\ arranged (z_zeros f') /\ arranged (z_poles f') /\ z_gain f' = z_gain f.
Proof.
  intros C1 C2 (R1 & R2). destruct (roots_sort_ok _ C1 R1) as (zs & A & B & D). destruct (roots_sort_ok _ C2 R2) as (ps & A' & B' & D').
  unfold zpk_sort. rewrite A, A'. eexists. split; [reflexivity|]. cbn [z_zeros z_poles z_gain]. auto.
Qed.
Lemma zpk_sort_only f : clear_cut (z_zeros f) -> clear_cut (z_poles f) -> fst (zpk_sort ex qsort f) = true -> real_filter f.
Proof.
  intros C1 C2 H. unfold zpk_sort in H. pose proof (roots_sort_only (z_zeros f) C1) as X. pose proof (roots_sort_only (z_poles f) C2) as Y.
  destruct (roots_sort ex qsort (z_zeros f)) as [[] zs]; [|discriminate H]. destruct (roots_sort ex qsort (z_poles f)) as [[] ps]; [|discriminate H]. split; [now apply X|now apply Y].
Qed.
End Sort.

(* ---------- second order sections ---------- *)
Definition matched (r1 r2 : C) : Prop := (snd r1 = 0 /\ snd r2 = 0) \/ r2 = Cconj r1.
Inductive in_pairs : list C -> Prop :=
| ip_nil : in_pairs []
| ip_one r : snd r = 0 -> in_pairs [r]
| ip_two r1 r2 l : matched r1 r2 -> in_pairs l -> in_pairs (r1 :: r2 :: l).
Lemma reals_in_pairs (l : list R) : in_pairs (map RtoC l).
Proof.
  assert (H : forall n (l : list R), (length l <= n)%nat -> in_pairs (map RtoC l)).
  { intros n. induction n as [n IH] using lt_wf_ind. intros [|a [|b m]] L; cbn [map]; [constructor|constructor; reflexivity|]. constructor; [left; split; reflexivity|]. cbn [length] in L. apply (IH (n - 2)%nat); lia. }
  now apply (H (length l)).
Qed.
Lemma arranged_rev l : arranged l -> in_pairs (rev l).
Proof.
  intros (reals & upper & -> & _). rewrite rev_app_distr. rewrite <- map_rev. induction upper as [|r upper IH] using rev_ind; cbn [flat_map rev app]; [apply reals_in_pairs|].
  rewrite flat_map_app. cbn [flat_map app]. rewrite rev_app_distr. cbn [rev app]. constructor; [right; reflexivity|exact IH].
Qed.
Definition quad (q : R * R) (z : C) : C := Cplus (Cplus (Cmult z z) (Cmult (RtoC (fst q)) z)) (RtoC (snd q)).
Lemma factor_two r1 r2 z : matched r1 r2 -> quad (- fst r1 - fst r2, fst r1 * fst r2 - snd r1 * snd r2) z = Cmult (Cminus z r1) (Cminus z r2).
Proof.
  destruct r1 as [a b], r2 as [c d], z as [x y]. unfold quad. cbn [fst snd]. intros [(H1 & H2)|H].
  - cbn in H1, H2. subst. apply injective_projections; cbn; ring.
  - apply (f_equal fst) in H as H1. apply (f_equal snd) in H as H2. cbn in H1, H2. subst. apply injective_projections; cbn; ring.
Qed.
Lemma factor_one r z : snd r = 0 -> quad (- fst r, 0) z = Cmult z (Cminus z r).
Proof. destruct r as [a b], z as [x y]. unfold quad. cbn [fst snd]. intros ->. apply injective_projections; cbn; ring. Qed.
Lemma stage_value g (q d : R * R) z h : has_value {| b0 := 1 * g; b1 := fst q * g; b2 := snd q * g; a0 := 1; a1 := fst d; a2 := snd d |} z h <-> quad d z <> RtoC 0 /\ h = Cdiv (Cmult (RtoC g) (quad q z)) (quad d z).
Proof.
  unfold has_value, numerator, denominator. cbn [b0 b1 b2 a0 a1 a2].
  assert (E1 : Cplus (Cplus (Cmult (Cmult (RtoC 1) z) z) (Cmult (RtoC (fst d)) z)) (RtoC (snd d)) = quad d z) by (unfold quad; ring).
  assert (E2 : Cplus (Cplus (Cmult (Cmult (RtoC (1 * g)) z) z) (Cmult (RtoC (fst q * g)) z)) (RtoC (snd q * g)) = Cmult (RtoC g) (quad q z)) by (unfold quad; rewrite !RtoC_mult; ring).
  rewrite E1, E2. split; intros (A & B); (split; [exact A|now symmetry]).
Qed.
Lemma stage_value_1 (q d : R * R) z h : has_value {| b0 := 1; b1 := fst q; b2 := snd q; a0 := 1; a1 := fst d; a2 := snd d |} z h <-> quad d z <> RtoC 0 /\ h = Cdiv (quad q z) (quad d z).
Proof.
  pose proof (stage_value 1 q d z h) as H. rewrite !Rmult_1_r, Cmult_1_l in H. exact H.
Qed.
Lemma biquads_value (z : C) gain : z <> RtoC 0 -> forall n (zs ps : list C) (h : C), length zs = length ps -> n = Nat.div2 (length ps + 1) -> (1 <= n)%nat -> in_pairs zs -> in_pairs ps ->
  cascade_value (make_biquads n gain zs ps) z h <-> po (fun r => Cminus z r) ps <> RtoC 0 /\ h = Cdiv (Cmult (RtoC gain) (po (fun r => Cminus z r) zs)) (po (fun r => Cminus z r) ps).
Proof.
  intros HZ n. induction n as [|n IH]; intros zs ps h HL HN H1 GZ GP; [lia|].
  assert (K : forall q d zs' ps', next_factor zs = (q, zs') -> next_factor ps = (d, ps') -> cascade_value (make_biquads (S n) gain zs ps) z h <->
    cascade_value ((if (n =? 0)%nat then {| b0 := 1 * gain; b1 := fst q * gain; b2 := snd q * gain; a0 := 1; a1 := fst d; a2 := snd d |} else {| b0 := 1; b1 := fst q; b2 := snd q; a0 := 1; a1 := fst d; a2 := snd d |}) :: make_biquads n gain zs' ps') z h).
  { intros [c1 c2] [d1 d2] zs' ps' E1 E2. cbn [make_biquads]. rewrite E1, E2. reflexivity. }
  inversion GZ as [|r Hr|r1 r2 zs' Hm Gz]; subst zs.
  - cbn [length] in HL. rewrite <- HL in HN. cbn in HN. lia.
  - inversion GP as [|p Hp|p1 p2 ps' Hm Gp]; subst ps; cbn [length] in HL; try lia. cbn in HN. assert (n = 0%nat) by lia. subst n.
    rewrite (K (- fst r, 0) (- fst p, 0) [] [] eq_refl eq_refl). cbn [Nat.eqb make_biquads cascade_value product_over]. rewrite !Cmult_1_r. split.
    + intros (h1 & h2 & A & -> & ->). apply (stage_value gain (- fst r, 0) (- fst p, 0)) in A as (A & ->). rewrite (factor_one _ _ Hr), (factor_one _ _ Hp) in *. assert (N : Cminus z p <> RtoC 0) by (intros X; apply A; rewrite X; ring). split; [exact N|]. field. now split.
    + intros (A & ->). exists (Cdiv (Cmult (RtoC gain) (Cminus z r)) (Cminus z p)), (RtoC 1). split; [|split; [reflexivity|ring]]. apply (stage_value gain (- fst r, 0) (- fst p, 0)). rewrite (factor_one _ _ Hr), (factor_one _ _ Hp). split; [now apply Cmult_neq|]. field. now split.
  - inversion GP as [|p Hp|p1 p2 ps' Hm' Gp]; subst ps; cbn [length] in HL; try lia.
    rewrite (K (- fst r1 - fst r2, fst r1 * fst r2 - snd r1 * snd r2) (- fst p1 - fst p2, fst p1 * fst p2 - snd p1 * snd p2) zs' ps' eq_refl eq_refl).
    pose proof (factor_two r1 r2 z Hm) as F1. pose proof (factor_two p1 p2 z Hm') as F2. set (q := (- fst r1 - fst r2, fst r1 * fst r2 - snd r1 * snd r2)) in *. set (d := (- fst p1 - fst p2, fst p1 * fst p2 - snd p1 * snd p2)) in *. clearbody q d.
    cbn [product_over]. set (PZ := po _ zs') in *. set (PP := po _ ps') in *. set (P1 := Cminus z p1) in *. set (P2 := Cminus z p2) in *. set (R1 := Cminus z r1) in *. set (R2 := Cminus z r2) in *.
    assert (SP : Cmult P1 (Cmult P2 PP) <> RtoC 0 <-> Cmult P1 P2 <> RtoC 0 /\ PP <> RtoC 0).
    { split; [intros N; split; intros X; apply N; [transitivity (Cmult (Cmult P1 P2) PP); [ring|rewrite X; ring]|rewrite X; ring]|]. intros (N1 & N2) X. apply (Cmult_neq _ _ N1 N2). rewrite <- X. ring. }
    assert (SQ : Cmult P1 P2 <> RtoC 0 <-> P1 <> RtoC 0 /\ P2 <> RtoC 0).
    { split; [intros N; split; intros X; apply N; rewrite X; ring|intros (N1 & N2); now apply Cmult_neq]. }
    destruct n as [|n].
    + assert (E0 : ps' = [] /\ zs' = []). { destruct ps' as [|? ps']; [|exfalso; cbn [length Nat.add Nat.div2] in HN; rewrite Nat.add_comm in HN; cbn in HN; lia]. destruct zs'; [now split|cbn in HL; lia]. }
      destruct E0 as (-> & ->). cbn [product_over] in PZ, PP. cbn [Nat.eqb make_biquads cascade_value]. split.
      * intros (h1 & h2 & A & -> & ->). apply stage_value in A as (A & ->). rewrite F1, F2 in *. split; [apply SP; split; [exact A|exact one_neq]|]. unfold PZ, PP. apply SQ in A. field. tauto.
      * intros (A & ->). exists (Cdiv (Cmult (RtoC gain) (quad q z)) (quad d z)), (RtoC 1). split; [|split; [reflexivity|]]; rewrite ?F1, ?F2.
        -- apply stage_value. rewrite F1, F2. split; [now apply SP|reflexivity].
        -- unfold PZ, PP. apply SP in A as (A & _). apply SQ in A. field. tauto.
    + cbn [Nat.eqb cascade_value]. assert (HL' : length zs' = length ps') by lia. assert (HN' : S n = Nat.div2 (length ps' + 1)) by (cbn [length Nat.add Nat.div2] in HN; injection HN as HN; exact HN).
      split.
      * intros (h1 & h2 & A & B & ->). apply stage_value_1 in A as (A & ->). apply (IH zs' ps' h2 HL' HN' ltac:(lia) Gz Gp) in B as (B & ->). fold PZ PP in B |- *. rewrite F1, F2 in *. split; [apply SP; now split|]. apply SQ in A. field. tauto.
      * intros (A & ->). apply SP in A as (A & B). exists (Cdiv (quad q z) (quad d z)), (Cdiv (Cmult (RtoC gain) PZ) PP). split; [|split].
        -- apply stage_value_1. rewrite F2. split; [exact A|reflexivity].
        -- apply (IH zs' ps' _ HL' HN' ltac:(lia) Gz Gp). fold PZ PP. split; [exact B|reflexivity].
        -- rewrite F1, F2. apply SQ in A. field. tauto.
Qed.
Lemma make_biquads_length n gain : forall zs ps, length (make_biquads n gain zs ps) = n.
Proof. induction n as [|n IH]; intros zs ps; cbn [make_biquads]; [reflexivity|]. destruct (next_factor zs) as [[c1 c2] zs'], (next_factor ps) as [[d1 d2] ps']. cbn [length]. now rewrite IH. Qed.

Section Biquads.
Variables (ex : R -> Z) (qsort : list C -> list C).
Hypothesis HQ : sorts qsort.
Lemma to_biquads_ok f m : length (z_zeros f) = length (z_poles f) -> clear_cut (z_zeros f) -> clear_cut (z_poles f) -> real_filter f -> (1 <= m)%Z -> (Z.of_nat (Nat.div2 (length (z_poles f) + 1)) <= m)%Z ->
  exists cs, to_biquads ex qsort f m = Ok (Some cs) /\ length cs = Nat.max 1 (Nat.div2 (length (z_poles f) + 1)) /\ forall z h, z <> RtoC 0 -> cascade_value cs z h <-> zpk_value f z h.
Proof.
  intros HL C1 C2 HR HM HB. unfold to_biquads. destruct (Z.leb_spec m 0) as [X|_]; [lia|]. rewrite HL.
  destruct (Nat.eqb_spec (length (z_poles f)) 0) as [Z0|Z0]; cbn [andb].
  - eexists. split; [reflexivity|]. rewrite Z0. split; [reflexivity|]. intros z h HZ. rewrite Z0 in HL. destruct f as [zs ps g]. cbn [z_zeros z_poles z_gain] in *. destruct zs; [|discriminate HL]. destruct ps; [|discriminate Z0].
    unfold zpk_value. cbn [z_zeros z_poles z_gain product_over cascade_value]. unfold has_value, numerator, denominator. cbn [b0 b1 b2 a0 a1 a2].
    assert (E1 : Cplus (Cplus (Cmult (Cmult (RtoC 1) z) z) (Cmult (RtoC 0) z)) (RtoC 0) = Cmult z z) by ring. assert (E2 : Cplus (Cplus (Cmult (Cmult (RtoC g) z) z) (Cmult (RtoC 0) z)) (RtoC 0) = Cmult (RtoC g) (Cmult z z)) by ring. rewrite E1, E2.
    split; [intros (h1 & h2 & (A & <-) & -> & ->); split; [exact one_neq|]; field; repeat split; (exact HZ || exact one_neq)|]. intros (_ & ->). exists (RtoC g), (RtoC 1). split; [split; [now apply Cmult_neq|field; exact HZ]|]. split; [reflexivity|field; exact one_neq].
  - rewrite Nat.max_id. destruct (Z.ltb_spec m (Z.of_nat (Nat.div2 (length (z_poles f) + 1)))) as [X|_]; [lia|].
    destruct (zpk_sort_ok ex qsort HQ f C1 C2 HR) as (f' & E & P1 & P2 & A1 & A2 & G). rewrite E. cbn [negb]. rewrite Nat.eqb_refl. cbn [oguard]. eexists. split; [reflexivity|].
    assert (D1 : (1 <= Nat.div2 (length (z_poles f) + 1))%nat) by (destruct (z_poles f) as [|? ps]; [now elim Z0|]; cbn [length Nat.add]; rewrite Nat.add_comm; cbn [Nat.add Nat.div2]; lia).
    rewrite make_biquads_length. split; [lia|]. intros z h HZ.
    assert (L2 : length (rev (z_poles f')) = length (z_poles f)) by (rewrite rev_length; now apply Permutation_length).
    assert (L1 : length (rev (z_zeros f')) = length (z_zeros f)) by (rewrite rev_length; now apply Permutation_length).
    rewrite (biquads_value z (z_gain f') HZ _ (rev (z_zeros f')) (rev (z_poles f')) h); [|change (@length C) with (@length cplx); congruence|change (@length C) with (@length cplx); now rewrite L2|exact D1|now apply arranged_rev|now apply arranged_rev].
    rewrite (po_perm _ (rev (z_poles f')) (z_poles f)), (po_perm _ (rev (z_zeros f')) (z_zeros f)), G; [reflexivity| |]; (etransitivity; [apply Permutation_sym, Permutation_rev|assumption]).
Qed.
End Biquads.
