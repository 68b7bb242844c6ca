From Verif Require Import Common RealUtil ArithSeqModel ArithSeqSpec.
From Coq Require Import Lra Psatz Lia ZifyBool.
Local Open Scope R_scope.

Lemma eps_pos : 0 < dbl_eps.
Proof. unfold dbl_eps. apply Rinv_0_lt_compat, pow_lt. lra. Qed.
Lemma eps_small : dbl_eps <= / 1000000.
Proof. unfold dbl_eps. apply Rinv_le_contravar; [lra|]. cbn. lra. Qed.
Lemma tol_doc b s l : seq_tol b s l = doc_tol b s l.
Proof.
  unfold seq_tol, doc_tol, machine_epsilon, dbl_eps. cbv zeta. set (t := / 2 ^ 52 * _). destruct (Rltb_spec (Rabs s) (3 * t)).
  - rewrite Rmin_right; lra.
  - rewrite Rmin_left; lra.
Qed.
Lemma tol_nonneg b s l : 0 <= doc_tol b s l.
Proof.
  unfold doc_tol. pose proof eps_pos. pose proof (Rabs_pos b). pose proof (Rabs_pos l). pose proof (Rabs_pos s). pose proof (Rabs_pos (l - b)).
  apply Rmin_glb; [|lra]. apply Rmult_le_pos; lra.
Qed.
Lemma tol_third b s l : doc_tol b s l <= Rabs s / 3.
Proof. apply Rmin_r. Qed.
Definition sgn (s : R) : R := if Rltb 0 s then 1 else -1.
Lemma sgn_abs s : s <> 0 -> sgn s * s = Rabs s.
Proof. intros N. unfold sgn. destruct (Rltb_spec 0 s); [rewrite Rabs_right|rewrite Rabs_left]; lra. Qed.
Lemma sgn_sq s : sgn s * sgn s = 1.
Proof. unfold sgn. destruct (Rltb 0 s); lra. Qed.
(* the floor *)
Definition count (b s l : R) : Z := (1 + Int_part (((l - b) + sgn s * doc_tol b s l) / s))%Z.
Lemma count_bounds b s l : s <> 0 ->
  Rabs s * (IZR (count b s l) - 1) <= sgn s * (l - b) + doc_tol b s l < Rabs s * IZR (count b s l).
Proof.
  intros N. unfold count. set (t := doc_tol b s l). set (u := (l - b + sgn s * t) / s).
  destruct (base_Int_part u) as [A B]. rewrite plus_IZR. set (z := IZR (Int_part u)) in *.
  assert (P : 0 < Rabs s) by (apply Rabs_pos_lt, N).
  assert (E : Rabs s * u = sgn s * (l - b) + t).
  { rewrite <- (sgn_abs s N). unfold u. transitivity (sgn s * (l - b) + sgn s * sgn s * t); [field; assumption|]. rewrite sgn_sq. ring. }
  rewrite <- E. split; [|]; nra.
Qed.
Lemma doc_size_iff b s l n : s <> 0 -> doc_size b s l n <->
  ((0 <= n)%Z /\ ((0 < n)%Z -> Rabs s * (IZR n - 1) <= sgn s * (l - b) + doc_tol b s l) /\ sgn s * (l - b) + doc_tol b s l < Rabs s * IZR n).
Proof.
  intros N. unfold doc_size, sgn. destruct (Rltb_spec 0 s).
  - rewrite Rabs_right by lra. set (t := doc_tol b s l). split.
    + intros (A & B & _). destruct (B r) as [C D]. split; [assumption|]. split; [intros Z; specialize (C Z)|]; nra.
    + intros (A & B & C). split; [assumption|]. split; [|lra]. intros _. split; [intros Z; specialize (B Z)|]; nra.
  - rewrite Rabs_left by lra. set (t := doc_tol b s l). split.
    + intros (A & _ & B). destruct B as [C D]; [lra|]. split; [assumption|]. split; [intros Z; specialize (C Z)|]; nra.
    + intros (A & B & C). split; [assumption|]. split; [lra|]. intros _. split; [intros Z; specialize (B Z)|]; nra.
Qed.
(* there is exactly one documented size *)
Lemma doc_size_count b s l : s <> 0 -> doc_size b s l (Z.max 0 (count b s l)).
Proof.
  intros N. apply doc_size_iff; [assumption|]. destruct (count_bounds b s l N) as [A B].
  assert (P : 0 < Rabs s) by (apply Rabs_pos_lt, N). split; [lia|].
  destruct (Z.leb_spec (count b s l) 0) as [C|C].
  - rewrite Z.max_l by assumption. split; [lia|]. apply IZR_le in C. nra.
  - rewrite Z.max_r by lia. split; auto.
Qed.
Lemma doc_size_unique b s l m n : s <> 0 -> doc_size b s l m -> doc_size b s l n -> m = n.
Proof.
  intros N. rewrite !doc_size_iff by assumption. assert (P : 0 < Rabs s) by (apply Rabs_pos_lt, N).
  intros (M0 & M1 & M2) (N0 & N1 & N2). destruct (Z.lt_trichotomy m n) as [L|[L|L]]; [|assumption|]; exfalso.
  - specialize (N1 ltac:(lia)). assert (Q : IZR m <= IZR n - 1) by (rewrite <- minus_IZR; apply IZR_le; lia). nra.
  - specialize (M1 ltac:(lia)). assert (Q : IZR n <= IZR m - 1) by (rewrite <- minus_IZR; apply IZR_le; lia). nra.
Qed.
(* the constructor *)
Definition last_of b s (n : Z) : R := b + s * (IZR n - 1).
Definition final_limit b s l (n : Z) : R :=
  if ((Rltb 0 s && Rltb (last_of b s n) l) || (Rltb s 0 && Rltb l (last_of b s n))) &&
     Rleb (4 * dbl_eps * s * Rmax (Rabs l) (Rabs (last_of b s n))) (Rabs (l - last_of b s n)) then last_of b s n else l.
Lemma make_zero b l : seq_make b 0 l = CheckFail.
Proof. unfold seq_make. replace (Reqb 0 0) with true by (symmetry; apply Reqb_true_iff; reflexivity). reflexivity. Qed.
Lemma make_ok b s l : s <> 0 -> seq_make b s l =
  (let n := count b s l in
   if (n <=? 0)%Z then Ok {| seq_base := b; seq_step := s; seq_limit := b; seq_size := 0 |} else
   if (int_max <? n)%Z then CheckFail else
   if (n =? 1)%Z then Ok {| seq_base := b; seq_step := 1; seq_limit := b; seq_size := 1 |} else
   Ok {| seq_base := b; seq_step := s; seq_limit := final_limit b s l n; seq_size := n |}).
Proof.
  intros N. unfold seq_make. cbv zeta. rewrite tol_doc. fold (sgn s). fold (count b s l).
  destruct (Reqb_spec s 0); [contradiction|]. cbn [negb ocheck].
  destruct (count_bounds b s l N) as [A B]. set (n0 := count b s l) in *. pose proof (tol_nonneg b s l) as T. set (t := doc_tol b s l) in *.
  destruct (Z.leb_spec n0 0) as [C|C]; [reflexivity|]. destruct (Z.ltb_spec int_max n0) as [D|D].
  { replace (n0 <=? int_max)%Z with false by (symmetry; apply Z.leb_gt; assumption). reflexivity. }
  replace (n0 <=? int_max)%Z with true by (symmetry; apply Z.leb_le; assumption). cbn [ocheck].
  pose proof (sgn_abs s N) as S. rewrite minus_IZR.
  rewrite Rleb_true. 2:{ apply Rle_trans with (sgn s * b + Rabs s * (IZR n0 - 1)); [rewrite <- S; right; ring|]. lra. }
  rewrite Rltb_true. 2:{ apply Rlt_le_trans with (sgn s * b + Rabs s * IZR n0); [lra|]. rewrite <- S. right. ring. }
  cbn [ocheck]. destruct (n0 =? 1)%Z; reflexivity.
Qed.
Lemma make_size b s l q : seq_make b s l = Ok q ->
  s <> 0 /\ seq_base q = b /\ doc_size b s l (seq_size q) /\ (seq_size q <= int_max)%Z /\
  ((1 < seq_size q)%Z -> seq_step q = s /\ seq_limit q = final_limit b s l (seq_size q)) /\ ((seq_size q <= 1)%Z -> seq_limit q = b).
Proof.
  intros E. destruct (Req_dec s 0) as [->|N]; [rewrite make_zero in E; discriminate|]. split; [assumption|].
  rewrite make_ok in E by assumption. cbv zeta in E. pose proof (doc_size_count b s l N) as D. set (n := count b s l) in *.
  unfold int_max in *. clearbody n.
  destruct (Z.leb_spec n 0) as [C|C]; [injection E as <-; cbn; rewrite Z.max_l in D by assumption; split; [reflexivity|]; split; [assumption|]; split; [lia|]; split; [lia|auto]|].
  rewrite Z.max_r in D by lia. destruct (Z.ltb_spec 2147483647 n) as [C'|C']; [discriminate|].
  destruct (Z.eqb_spec n 1) as [C1|C1]; injection E as <-; cbn; rewrite ?C1 in *; (split; [reflexivity|]); (split; [assumption|]); (split; [lia|]); (split; [try lia; auto|try lia; auto]).
Qed.
Lemma make_refused b s l : seq_make b s l = CheckFail <-> (s = 0 \/ exists n, (int_max < n)%Z /\ doc_size b s l n).
Proof.
  destruct (Req_dec s 0) as [->|N]; [rewrite make_zero; tauto|]. rewrite make_ok by assumption. cbv zeta.
  pose proof (doc_size_count b s l N) as D. set (n := count b s l) in *. unfold int_max in *.
  destruct (Z.leb_spec n 0) as [C|C]; [|destruct (Z.ltb_spec 2147483647 n) as [C'|C']].
  - split; [discriminate|]. intros [?|(m & M & Dm)]; [contradiction|]. pose proof (doc_size_unique _ _ _ _ _ N D Dm). lia.
  - split; [|reflexivity]. intros _. right. exists n. split; [lia|]. rewrite Z.max_r in D by lia. assumption.
  - split; [destruct (n =? 1)%Z; discriminate|]. intros [?|(m & M & Dm)]; [contradiction|]. pose proof (doc_size_unique _ _ _ _ _ N D Dm). lia.
Qed.
Lemma make_total b s l : seq_make b s l <> Undef.
Proof.
  destruct (Req_dec s 0) as [->|N]; [rewrite make_zero; discriminate|]. rewrite make_ok by assumption. cbv zeta.
  repeat match goal with |- context [if ?c then _ else _] => destruct c end; discriminate.
Qed.

(* intended values with a whole number of steps *)
Lemma intended_back x x' : intended x x' -> Rabs (x - x') <= 5 * dbl_eps * Rabs x /\ Rabs x' <= (1 + 5 * dbl_eps) * Rabs x.
Proof.
  unfold intended. intros H. pose proof eps_pos as P. pose proof eps_small as Q. pose proof (Rabs_pos x) as X. pose proof (Rabs_pos x') as X'.
  set (e := dbl_eps) in *. clearbody e.
  assert (T : Rabs x' <= Rabs x + Rabs (x - x')). { replace x' with (x + - (x - x')) at 1 by ring. rewrite <- (Rabs_Ropp (x - x')). apply Rabs_triang. }
  assert (U : (1 - 4 * e) * Rabs x' <= Rabs x) by nra.
  assert (V : 4 * Rabs x' <= 5 * Rabs x) by nra. split; nra.
Qed.
Lemma near_count b s l b' s' l' (n : Z) : intended b b' -> intended s s' -> intended l l' -> b' + IZR n * s' = l' ->
  Rabs (b + IZR n * s - l) <= dbl_eps * (5 * (Rabs b + Rabs l) + 7 * Rabs (l - b)).
Proof.
  intros Hb Hs Hl E. pose proof eps_pos as P. pose proof eps_small as Q.
  destruct (intended_back _ _ Hb) as [B1 B2]. destruct (intended_back _ _ Hl) as [L1 L2]. unfold intended in Hb, Hs, Hl.
  set (e := dbl_eps) in *. clearbody e.
  assert (D : Rabs (IZR n * (s - s')) <= 4 * e * Rabs (l' - b')).
  { replace (l' - b') with (IZR n * s') by lra. rewrite !Rabs_mult. pose proof (Rabs_pos (IZR n)).
    apply Rle_trans with (Rabs (IZR n) * (4 * e * Rabs s')); [apply Rmult_le_compat_l; assumption|right; ring]. }
  assert (F : Rabs (l' - b') <= Rabs (l - b) + 4 * e * Rabs l' + 4 * e * Rabs b').
  { replace (l' - b') with ((l - b) + (- (l - l') + (b - b'))) by ring. eapply Rle_trans; [apply Rabs_triang|].
    pose proof (Rabs_triang (- (l - l')) (b - b')) as G. rewrite Rabs_Ropp in G. lra. }
  assert (G : Rabs (b + IZR n * s - l) <= Rabs (b - b') + Rabs (IZR n * (s - s')) + Rabs (l - l')).
  { replace (b + IZR n * s - l) with ((b - b') + IZR n * (s - s') + - (l - l')) by lra. eapply Rle_trans; [apply Rabs_triang|].
    rewrite Rabs_Ropp. pose proof (Rabs_triang (b - b') (IZR n * (s - s'))). lra. }
  pose proof (Rabs_pos b) as Pb. pose proof (Rabs_pos l) as Pl. pose proof (Rabs_pos (l - b)) as Pd.
  set (Ab := Rabs b) in *. set (Al := Rabs l) in *. set (Ad := Rabs (l - b)) in *. set (Ab' := Rabs b') in *. set (Al' := Rabs l') in *.
  set (X := Rabs (l' - b')) in *. set (Y := Rabs (IZR n * (s - s'))) in *. clearbody Ab Al Ad Ab' Al' X Y.
  assert (K1 : 4 * e * Ab' + 4 * e * Al' <= e * (4 * (1 + 5 * e)) * (Ab + Al)) by nra.
  assert (K2 : 4 * e * X <= 4 * e * Ad + 4 * e * (e * (4 * (1 + 5 * e)) * (Ab + Al))) by nra.
  assert (K3 : e * (4 * (1 + 5 * e)) * (Ab + Al) + 4 * e * (e * (4 * (1 + 5 * e)) * (Ab + Al)) <= e * (5 * (Ab + Al))).
  { replace (e * (4 * (1 + 5 * e)) * (Ab + Al) + 4 * e * (e * (4 * (1 + 5 * e)) * (Ab + Al))) with (e * ((4 * (1 + 5 * e) * (1 + 4 * e)) * (Ab + Al))) by ring.
    apply Rmult_le_compat_l; [lra|]. apply Rmult_le_compat_r; [lra|]. nra. }
  assert (K4 : e * Ad <= e * Ad) by lra. assert (0 <= e * Ad) by (apply Rmult_le_pos; lra). lra.
Qed.
Lemma whole_steps b s l b' s' l' (n : Z) : s <> 0 -> intended b b' -> intended s s' -> intended l l' -> b' + IZR n * s' = l' -> (-1 <= n)%Z ->
  3 * (dbl_eps * (5 * (Rabs b + Rabs l) + 7 * Rabs (l - b))) <= Rabs s -> doc_size b s l (n + 1).
Proof.
  intros N Hb Hs Hl E Hn T. pose proof (near_count _ _ _ _ _ _ _ Hb Hs Hl E) as C. apply doc_size_iff; [assumption|].
  assert (D : doc_tol b s l = dbl_eps * (5 * (Rabs b + Rabs l) + 7 * Rabs (l - b))) by (unfold doc_tol; apply Rmin_left; lra).
  rewrite D. set (t := dbl_eps * _) in *. rewrite plus_IZR. pose proof (sgn_abs s N) as S.
  assert (P : 0 < Rabs s) by (apply Rabs_pos_lt, N).
  assert (F : sgn s * (l - b) = Rabs s * IZR n - sgn s * (b + IZR n * s - l)) by (rewrite <- S; ring).
  assert (G : Rabs (sgn s * (b + IZR n * s - l)) <= t).
  { rewrite Rabs_mult. replace (Rabs (sgn s)) with 1; [lra|]. unfold sgn. destruct (Rltb 0 s); [rewrite Rabs_R1|rewrite Rabs_left]; lra. }
  apply Rabs_le_between in G || (unfold Rabs in G; destruct (Rcase_abs (sgn s * (b + IZR n * s - l)))).
  all: split; [lia|]; split; [intros _|]; lra.
Qed.
(* a negative number of steps: nothing *)
Lemma no_steps b s l b' s' l' (n : Z) : s <> 0 -> intended b b' -> intended s s' -> intended l l' -> b' + IZR n * s' = l' -> (n < 0)%Z ->
  3 * (dbl_eps * (5 * (Rabs b + Rabs l) + 7 * Rabs (l - b))) <= Rabs s -> doc_size b s l 0.
Proof.
  intros N Hb Hs Hl E Hn T. pose proof (near_count _ _ _ _ _ _ _ Hb Hs Hl E) as C. apply doc_size_iff; [assumption|].
  assert (D : doc_tol b s l = dbl_eps * (5 * (Rabs b + Rabs l) + 7 * Rabs (l - b))) by (unfold doc_tol; apply Rmin_left; lra).
  rewrite D. set (t := dbl_eps * _) in *. pose proof (sgn_abs s N) as S.
  assert (P : 0 < Rabs s) by (apply Rabs_pos_lt, N).
  assert (F : sgn s * (l - b) = Rabs s * IZR n - sgn s * (b + IZR n * s - l)) by (rewrite <- S; ring).
  assert (G : Rabs (sgn s * (b + IZR n * s - l)) <= t).
  { rewrite Rabs_mult. replace (Rabs (sgn s)) with 1; [lra|]. unfold sgn. destruct (Rltb 0 s); [rewrite Rabs_R1|rewrite Rabs_left]; lra. }
  assert (M : IZR n <= -1) by (apply IZR_le; lia).
  assert (W : Rabs s * IZR n <= - Rabs s) by nra.
  unfold Rabs in G at 1; destruct (Rcase_abs (sgn s * (b + IZR n * s - l))) in G.
  all: split; [lia|]; split; [intros ?; lia|]; lra.
Qed.

(* the last element *)
Lemma final_cases b s l n : s <> 0 -> (0 < n)%Z -> doc_size b s l n ->
  (final_limit b s l n = last_of b s n /\ sgn s * last_of b s n <= sgn s * l) \/
  (final_limit b s l n = l /\ sgn s * l <= sgn s * last_of b s n <= sgn s * l + doc_tol b s l) \/
  (final_limit b s l n = l /\ 0 < s /\ last_of b s n < l /\ l - last_of b s n < 4 * dbl_eps * s * Rmax (Rabs l) (Rabs (last_of b s n))).
Proof.
  intros N P D. apply doc_size_iff in D; [|assumption]. destruct D as (_ & D & _). specialize (D P).
  pose proof (sgn_abs s N) as S.
  assert (U : sgn s * last_of b s n <= sgn s * l + doc_tol b s l).
  { unfold last_of. replace (sgn s * (b + s * (IZR n - 1))) with (sgn s * b + (sgn s * s) * (IZR n - 1)) by ring. rewrite S. lra. }
  unfold final_limit. set (x := last_of b s n) in *. clearbody x. clear D. unfold sgn in *.
  destruct (Rltb_spec 0 s) as [Q|Q]; cbn [andb orb].
  - rewrite (Rltb_false s 0) by lra. cbn [andb]. rewrite Bool.orb_false_r.
    destruct (Rltb_spec x l) as [L|L]; cbn [andb].
    + destruct (Rleb_spec (4 * dbl_eps * s * Rmax (Rabs l) (Rabs x)) (Rabs (l - x))) as [M|M]; [left; split; [reflexivity|lra]|].
      right. right. rewrite (Rabs_right (l - x)) in M by lra. split; [reflexivity|]. split; [lra|]. split; lra.
    + right. left. split; [reflexivity|lra].
  - rewrite (Rltb_true s 0) by lra. cbn [andb].
    destruct (Rltb_spec l x) as [L|L]; cbn [andb].
    + rewrite Rleb_true; [left; split; [reflexivity|lra]|].
      pose proof eps_pos. pose proof (Rmax_l (Rabs l) (Rabs x)). pose proof (Rabs_pos l). pose proof (Rabs_pos (l - x)).
      assert (0 <= (4 * dbl_eps * Rmax (Rabs l) (Rabs x)) * (- s)) by (apply Rmult_le_pos; [apply Rmult_le_pos; lra|lra]). lra.
    + right. left. split; [reflexivity|lra].
Qed.
Lemma get_inner q i : (0 <= i < seq_size q - 1)%Z -> seq_get q i = Ok (seq_base q + seq_step q * IZR i).
Proof.
  intros H. unfold seq_get. replace ((0 <=? i) && (i <? seq_size q))%Z with true by (symmetry; lia). cbn [ocheck].
  replace (i <? seq_size q - 1)%Z with true by (symmetry; lia). reflexivity.
Qed.
Lemma get_last q : (0 < seq_size q)%Z -> seq_get q (seq_size q - 1) = Ok (seq_limit q).
Proof.
  intros H. unfold seq_get. replace ((0 <=? seq_size q - 1) && (seq_size q - 1 <? seq_size q))%Z with true by (symmetry; lia). cbn [ocheck].
  rewrite Z.ltb_irrefl. reflexivity.
Qed.
Lemma get_outside q i : ~ (0 <= i < seq_size q)%Z -> seq_get q i = CheckFail.
Proof. intros H. unfold seq_get. replace ((0 <=? i) && (i <? seq_size q))%Z with false by (symmetry; lia). reflexivity. Qed.
(* every element *)
Lemma elements b s l q i : seq_make b s l = Ok q -> (0 <= i < seq_size q)%Z ->
  exists v, seq_get q i = Ok v /\
    ((i < seq_size q - 1)%Z -> v = b + s * IZR i) /\
    Rabs (v - (b + s * IZR i)) <= Rmax (doc_tol b s l) (4 * dbl_eps * Rabs s * Rmax (Rabs l) (Rabs (b + s * IZR i))) /\
    sgn s * v <= sgn s * l + doc_tol b s l /\
    (i = 0%Z -> seq_size q = 1%Z -> v = b) /\
    ((1 < seq_size q)%Z -> i = (seq_size q - 1)%Z -> sgn s * (v - (b + s * IZR i)) >= - (Rabs s / 3)) /\
    (b + s * IZR i = l -> v = l).
Proof.
  intros E H. destruct (make_size _ _ _ _ E) as (N & B & D & I & G & K).
  pose proof (tol_nonneg b s l) as T. pose proof (tol_third b s l) as T3. pose proof (sgn_abs s N) as S.
  assert (W : 0 < Rabs s) by (apply Rabs_pos_lt, N).
  pose proof D as D'. apply doc_size_iff in D'; [|assumption]. destruct D' as (_ & D' & _). specialize (D' ltac:(lia)).
  assert (Z0 : Rabs 0 <= Rmax (doc_tol b s l) (4 * dbl_eps * Rabs s * Rmax (Rabs l) (Rabs (b + s * IZR i)))).
  { rewrite Rabs_R0. eapply Rle_trans; [exact T|apply Rmax_l]. }
  assert (In : IZR i <= IZR (seq_size q) - 1) by (rewrite <- minus_IZR; apply IZR_le; lia).
  assert (Up : sgn s * (b + s * IZR i) <= sgn s * l + doc_tol b s l).
  { replace (sgn s * (b + s * IZR i)) with (sgn s * b + (sgn s * s) * IZR i) by ring. rewrite S. nra. }
  destruct (Z.eq_dec (seq_size q) 1) as [O|O].
  - assert (i = 0%Z) by lia. subst i. exists b. rewrite (eq_refl : (0 = 1 - 1)%Z). rewrite <- O at 1. rewrite get_last by lia. rewrite K by lia.
    split; [reflexivity|]. rewrite Rmult_0_r, Rplus_0_r in *. rewrite O.
    split; [lia|]. split; [rewrite Rminus_diag_eq by reflexivity; exact Z0|]. split; [assumption|].
    split; [reflexivity|]. split; [lia|auto].
  - destruct (G ltac:(lia)) as [G1 G2]. destruct (Z.ltb_spec i (seq_size q - 1)) as [L|L].
    + exists (b + s * IZR i). rewrite get_inner by lia. rewrite B, G1. rewrite Rminus_diag_eq by reflexivity.
      split; [reflexivity|]. split; [reflexivity|]. split; [assumption|]. split; [assumption|]. split; [intros; lia|]. split; [intros; lia|auto].
    + assert (Hi : i = (seq_size q - 1)%Z) by lia. exists (final_limit b s l (seq_size q)). subst i. rewrite get_last by lia. rewrite G2.
      assert (X : last_of b s (seq_size q) = b + s * IZR (seq_size q - 1)) by (unfold last_of; rewrite minus_IZR; reflexivity).
      split; [reflexivity|]. split; [intros; lia|].
      destruct (final_cases b s l (seq_size q) N ltac:(lia) D) as [[F1 F2]|[[F1 F2]|(F1 & F2 & F3 & F4)]]; rewrite F1; rewrite ?X in *.
      * rewrite Rminus_diag_eq by reflexivity. split; [assumption|]. split; [assumption|]. split; [intros; lia|]. split; [intros; lra|auto].
      * set (x := b + s * IZR (seq_size q - 1)) in *. clearbody x.
        split. { eapply Rle_trans; [|apply Rmax_l]. apply Rabs_le. unfold sgn in F2. destruct (Rltb 0 s); lra. }
        split; [lra|]. split; [intros; lia|]. split; [intros; lra|auto].
      * set (x := b + s * IZR (seq_size q - 1)) in *. clearbody x.
        split. { eapply Rle_trans; [|apply Rmax_r]. rewrite (Rabs_right s) by lra. rewrite (Rabs_right (l - x)) by lra. lra. }
        split; [lra|]. split; [intros; lia|]. split; [intros; unfold sgn; rewrite Rltb_true by lra; lra|auto].
Qed.
Lemma increasing b s l q i j x y : seq_make b s l = Ok q -> (0 <= i)%Z -> (i < j)%Z -> seq_get q i = Ok x -> seq_get q j = Ok y ->
  sgn s * x < sgn s * y.
Proof.
  intros E Hi Hj X Y. destruct (make_size _ _ _ _ E) as (N & _).
  assert (Lj : (j < seq_size q)%Z) by (destruct (Z.ltb_spec j (seq_size q)); [assumption|rewrite get_outside in Y by lia; discriminate]).
  destruct (elements _ _ _ _ i E ltac:(lia)) as (x' & X' & A & _). rewrite X in X'. injection X' as <-. rewrite (A ltac:(lia)).
  destruct (elements _ _ _ _ j E ltac:(lia)) as (y' & Y' & B & _ & _ & _ & C & _). rewrite Y in Y'. injection Y' as <-.
  pose proof (sgn_abs s N) as S. assert (W : 0 < Rabs s) by (apply Rabs_pos_lt, N).
  assert (D : IZR i + 1 <= IZR j) by (rewrite <- (plus_IZR i 1); apply IZR_le; lia).
  assert (F : sgn s * (b + s * IZR j) = sgn s * b + Rabs s * IZR j) by (rewrite <- S; ring).
  replace (sgn s * (b + s * IZR i)) with (sgn s * b + Rabs s * IZR i) by (rewrite <- S; ring).
  destruct (Z.ltb_spec j (seq_size q - 1)) as [L|L].
  - rewrite (B L), F. nra.
  - specialize (C ltac:(lia) ltac:(lia)). rewrite Rmult_minus_distr_l, F in C. nra.
Qed.
Lemma make_known b s l n : s <> 0 -> (n <= int_max)%Z -> doc_size b s l n -> exists q, seq_make b s l = Ok q /\ seq_size q = n.
Proof.
  intros N I D. destruct (seq_make b s l) as [q| |] eqn:E.
  - exists q. split; [reflexivity|]. destruct (make_size _ _ _ _ E) as (_ & _ & D' & _). exact (doc_size_unique _ _ _ _ _ N D' D).
  - exfalso. apply make_refused in E. destruct E as [?|(m & M & Dm)]; [contradiction|]. pose proof (doc_size_unique _ _ _ _ _ N D Dm). lia.
  - exfalso. exact (make_total _ _ _ E).
Qed.
(* iteration *)
Lemma iterate_from q k : forall fuel i, (0 <= i)%Z -> (i + Z.of_nat k = seq_size q)%Z -> (k < fuel)%nat ->
  exists l, seq_iterate fuel q i = Ok l /\ length l = k /\ forall j, (j < k)%nat -> seq_get q (i + Z.of_nat j) = Ok (nth j l 0).
Proof.
  induction k as [|k IH]; intros fuel i Hi Hs Hf; (destruct fuel as [|fuel]; [lia|]); cbn [seq_iterate]; unfold seq_end.
  - rewrite (proj2 (Z.eqb_eq i (seq_size q))) by lia. exists nil. split; [reflexivity|]. split; [reflexivity|]. intros; lia.
  - rewrite (proj2 (Z.eqb_neq i (seq_size q))) by lia. unfold it_deref, it_next.
    assert (V : exists v, seq_get q i = Ok v).
    { unfold seq_get. replace ((0 <=? i) && (i <? seq_size q))%Z with true by (symmetry; lia). eexists; reflexivity. }
    destruct V as [v V]. rewrite V. cbn [obind]. destruct (IH fuel (i + 1)%Z ltac:(lia) ltac:(lia) ltac:(lia)) as (r & R & L & G).
    rewrite R. cbn [obind]. exists (v :: r). split; [reflexivity|]. split; [cbn; lia|]. intros [|j] Hj; cbn [nth].
    + rewrite Z.add_0_r. assumption.
    + rewrite <- G by lia. f_equal. lia.
Qed.
