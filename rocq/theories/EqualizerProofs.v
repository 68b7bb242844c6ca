From Verif Require Import Common ListLemmas RealUtil BiquadModel BiquadSpec BiquadProps DesignModel DesignSpec DesignProofs CascadeModel CascadeSpec CascadeProofs CascadeProofs2 EqualizerModel EqualizerSpec.
From Coquelicot Require Import Complex.
From Coq Require Import Psatz Field.
Local Open Scope R_scope.

(* ---------- simplifying a cascade of stages with equal numerator and denominator ---------- *)
Definition neutral (c : coeffs R) : Prop := vec_b c = vec_a c /\ a0 c <> 0.

(* the pair merging on the polynomials alone *)
Fixpoint find_l (f : list R -> bool) (ps : list (list R)) (i : nat) : option nat :=
  match ps with [] => None | p :: r => if f p then Some i else find_l f r (S i) end.
Definition pair_l (tol : R) (ps : list (list R)) : option (nat * nat) :=
  match find_l (first_order tol) ps 0 with
  | None => None
  | Some i => match find_l (first_order tol) (skipn (S i) ps) (S i) with None => None | Some j => Some (i, j) end
  end.
Definition three (l : list R) : list R := [nth 0 l 0; nth 1 l 0; nth 2 l 0].
Fixpoint merge_l (tol : R) (fuel : nat) (ps : list (list R)) : outcome (list (list R)) :=
  match fuel, pair_l tol ps with
  | S fuel', Some (i, j) =>
      obind (convolve (nth i ps [1; 0; 0]) (nth j ps [1; 0; 0])) (fun p => merge_l tol fuel' (splice j [[1; 0; 0]] (splice i [three (vresize 0 3 p)] ps)))
  | _, _ => Ok ps
  end.

Lemma find_l_map f poly cs : forall i, find_from (fun c => f (poly c)) cs i = find_l f (map poly cs) i.
Proof. induction cs as [|c cs IH]; intros i; cbn [find_from find_l map]; [reflexivity|]. destruct (f (poly c)); auto. Qed.
Lemma pair_l_map tol poly cs : find_pair tol poly cs = pair_l tol (map poly cs).
Proof.
  unfold find_pair, pair_l. rewrite (find_l_map (first_order tol) poly cs 0). destruct (find_l _ _ _) as [i|]; [|reflexivity].
  rewrite (find_l_map (first_order tol) poly _ (S i)). rewrite skipn_map. reflexivity.
Qed.
Lemma map_splice {A B} (f : A -> B) i xs l : map f (splice i xs l) = splice i (map f xs) (map f l).
Proof. unfold splice. rewrite !map_app, firstn_map, skipn_map, map_length. reflexivity. Qed.
Lemma splice_self {A} (l : list A) i d : (i < length l)%nat -> splice i [nth i l d] l = l.
Proof.
  revert i. induction l as [|x l IH]; intros [|i] Hi; cbn [length] in Hi; try lia; [reflexivity|].
  unfold splice in *. cbn [firstn app nth length Nat.add]. f_equal. exact (IH i ltac:(lia)).
Qed.
Lemma merge_map tol poly other set : poly identity_coeffs = [1; 0; 0] -> (forall c l, poly (set c l) = three l) -> (forall c l, other (set c l) = other c) ->
  forall fuel cs cs', merge_pairs tol poly set fuel cs = Ok cs' -> merge_l tol fuel (map poly cs) = Ok (map poly cs') /\ map other cs' = (map other cs : list (list R)).
Proof.
  intros HI HS HO. induction fuel as [|fuel IH]; intros cs cs' H; cbn [merge_pairs merge_l] in *.
  - assert (cs' = cs) as -> by congruence. split; reflexivity.
  - rewrite <- pair_l_map. destruct (find_pair tol poly cs) as [[i j]|] eqn:E; [|assert (cs' = cs) as -> by congruence; split; reflexivity].
    cbv zeta in H. rewrite <- HI, !map_nth. destruct (convolve _ _) as [p| |]; [|discriminate H|discriminate H]. cbn [obind] in H |- *.
    destruct (find_pair_some _ _ _ _ _ E) as (pre & ci & mid & cj & post & EQ & Hi & Hj & _).
    destruct (IH _ _ H) as [A B]. unfold update in A, B. rewrite !map_splice in A, B. cbn [map] in A, B. rewrite !HS in A. rewrite !HO in B.
    assert (I1 : (i < length cs)%nat) by (rewrite EQ, app_length; cbn [length]; rewrite app_length; lia).
    assert (I2 : (j < length cs)%nat) by (rewrite Hj, EQ, !app_length; cbn [length]; rewrite app_length; cbn [length]; lia).
    split; [rewrite HI; exact A|]. rewrite B. rewrite <- !(map_nth other). rewrite (splice_self (map other cs) i) by (rewrite map_length; exact I1).
    apply splice_self. rewrite map_length. exact I2.
Qed.

Lemma Forall_splice {A} (P : A -> Prop) i xs l : Forall P xs -> Forall P l -> Forall P (splice i xs l).
Proof.
  intros H1 H2. unfold splice. rewrite !Forall_app. split; [|split; [assumption|]].
  - rewrite <- (firstn_skipn i l) in H2. apply Forall_app in H2. tauto.
  - rewrite <- (firstn_skipn (i + length xs) l) in H2. apply Forall_app in H2. tauto.
Qed.
Lemma Forall_nth_default {A} (P : A -> Prop) l d i : P d -> Forall P l -> P (nth i l d).
Proof. intros HD. revert i. induction l as [|x l IH]; intros [|i] H; cbn [nth]; auto; [exact (Forall_inv H)|exact (IH i (Forall_inv_tail H))]. Qed.
Lemma merge_l_leading tol fuel : forall ps ps', Forall (fun p => nth 0 p 0 <> 0) ps -> merge_l tol fuel ps = Ok ps' -> Forall (fun p => nth 0 p 0 <> 0) ps'.
Proof.
  assert (D : nth 0 [1; 0; 0] 0 <> 0) by (cbn; lra).
  induction fuel as [|fuel IH]; intros ps ps' HP H; cbn [merge_l] in H; [assert (ps' = ps) as -> by congruence; exact HP|].
  destruct (pair_l tol ps) as [[i j]|]; [|assert (ps' = ps) as -> by congruence; exact HP].
  destruct (convolve _ _) as [p| |] eqn:E; [|discriminate H|discriminate H]. cbn [obind] in H. apply (IH _ _) in H; [exact H|].
  apply Forall_splice; [constructor; [exact D|constructor]|]. apply Forall_splice; [|exact HP]. constructor; [|constructor]. cbn [three nth].
  rewrite vresize3_nth by lia. rewrite (convolve_nth _ _ _ 0 E), nth0_product. apply Rmult_integral_contrapositive. split; apply (Forall_nth_default (fun p => nth 0 p 0 <> 0)); assumption.
Qed.

Lemma neutral_map cs : Forall neutral cs <-> map vec_b cs = map vec_a cs /\ Forall (fun p => nth 0 p 0 <> 0) (map vec_a cs).
Proof.
  induction cs as [|c cs IH]; cbn [map]; [split; auto|]. split.
  - intros H. destruct (Forall_inv H) as [A B]. apply Forall_inv_tail, IH in H. destruct H as [C D]. split; [f_equal; assumption|]. constructor; assumption.
  - intros [A B]. injection A as A1 A2 A3 A4. constructor; [split; [unfold vec_b, vec_a; congruence|exact (Forall_inv B)]|]. apply IH. split; [assumption|exact (Forall_inv_tail B)].
Qed.

Lemma merge_gains_neutral tol fuel : forall cs, cs <> [] -> Forall neutral cs -> Forall neutral (merge_gains tol fuel cs) /\ merge_gains tol fuel cs <> [].
Proof.
  induction fuel as [|fuel IH]; intros cs NE HN; cbn [merge_gains]; [split; assumption|].
  destruct (Nat.ltb_spec 1 (length cs)) as [L|L]; [|split; assumption].
  destruct (find_zero_order tol cs) as [[[ai bi] g]|] eqn:E; [|split; assumption]. unfold find_zero_order in E.
  pose proof (proj1 (neutral_map cs) HN) as [EM _].
  rewrite (find_l_map (zero_order tol) vec_a cs 0), (find_l_map (zero_order tol) vec_b cs 0), EM, <- (find_l_map (zero_order tol) vec_a cs 0) in E.
  destruct (find_from _ cs 0) as [k|] eqn:EF; [|discriminate E]. destruct (find_from_some _ _ _ _ EF) as (pre & c & post & EC & Hk & _). cbn [Nat.add] in Hk.
  assert (ai = k /\ bi = k /\ b0 (nth k cs identity_coeffs) / a0 (nth k cs identity_coeffs) = g) as (-> & -> & G) by (split; [|split]; congruence). rewrite Nat.eqb_refl.
  assert (G1 : g = 1). { assert (HC : neutral c) by (rewrite EC in HN; apply Forall_app in HN; exact (Forall_inv (proj2 HN))).
    rewrite EC, Hk, nth_mid in G. destruct HC as [HB HA]. assert (b0 c = a0 c) as HB0 by (unfold vec_b, vec_a in HB; congruence). rewrite HB0 in G. rewrite <- G. field. exact HA. }
  rewrite (proj2 (Reqb_true_iff g 1) G1). rewrite EC, Hk, erase_mid. apply IH.
  - intros N. apply app_eq_nil in N. destruct N as [-> ->]. rewrite EC in L. cbn in L. lia.
  - rewrite EC in HN. apply Forall_app in HN. apply Forall_app. split; [tauto|exact (Forall_inv_tail (proj2 HN))].
Qed.
Lemma merge_length tol poly set : forall fuel cs cs', merge_pairs tol poly set fuel cs = Ok cs' -> length cs' = length cs.
Proof.
  induction fuel as [|fuel IH]; intros cs cs' H; cbn [merge_pairs] in H; [assert (cs' = cs) as -> by congruence; reflexivity|].
  destruct (find_pair tol poly cs) as [[i j]|] eqn:E; [|assert (cs' = cs) as -> by congruence; reflexivity].
  cbv zeta in H. destruct (convolve _ _) as [p| |]; [|discriminate H|discriminate H]. cbn [obind] in H. apply IH in H. rewrite H.
  destruct (find_pair_some _ _ _ _ _ E) as (pre & ci & mid & cj & post & EQ & Hi & Hj & _).
  assert (I1 : (i < length cs)%nat) by (rewrite EQ, app_length; cbn [length]; rewrite app_length; lia).
  assert (I2 : (j < length cs)%nat) by (rewrite Hj, EQ, !app_length; cbn [length]; rewrite app_length; cbn [length]; lia).
  rewrite update_length; rewrite update_length; auto.
Qed.
Lemma simplify_neutral tol cs : 0 <= tol -> cs <> [] -> Forall neutral cs -> exists cs', simplify tol cs = Ok cs' /\ Forall neutral cs' /\ cs' <> [].
Proof.
  intros Ht NE HN. destruct (simplify_complete tol cs Ht) as (cs1 & cs2 & E1 & _ & E2 & _ & ES & _). exists (merge_gains tol (length cs2) cs2). split; [exact ES|].
  pose proof (merge_length _ _ _ _ _ _ E1) as L1. pose proof (merge_length _ _ _ _ _ _ E2) as L2.
  destruct (merge_map tol vec_b vec_a set_b eq_refl vec_b_set_b vec_a_set_b _ _ _ E1) as [A1 A2].
  destruct (merge_map tol vec_a vec_b set_a eq_refl vec_a_set_a vec_b_set_a _ _ _ E2) as [B1 B2].
  apply neutral_map in HN. destruct HN as [EM HA]. rewrite L1, A2, <- EM, A1 in B1. assert (EQ : map vec_b cs1 = map vec_a cs2) by congruence.
  apply merge_gains_neutral.
  - destruct cs2; [|discriminate]. destruct cs1; [|discriminate L2]. destruct cs; [contradiction|discriminate L1].
  - apply neutral_map. rewrite B2. split; [exact EQ|]. rewrite EM in A1. rewrite <- EQ. exact (merge_l_leading _ _ _ _ HA A1).
Qed.
Lemma tol_pos : 0 < tolerance.
Proof. unfold tolerance. lra. Qed.
Lemma append_neutral cs c : cs <> [] -> Forall neutral cs -> neutral c -> exists cs', append_biquad tolerance cs c = Ok cs' /\ Forall neutral cs' /\ cs' <> [].
Proof.
  intros NE HN HC. unfold append_biquad. apply simplify_neutral; [pose proof tol_pos; lra|destruct cs; discriminate|]. apply Forall_app. split; [assumption|]. constructor; [assumption|constructor].
Qed.
Lemma identity_neutral : neutral identity_coeffs.
Proof. split; [reflexivity|]. cbn. lra. Qed.

(* ---------- the designs at 0 dB ---------- *)
Lemma db_zero : db_to_linear 0 = 1.
Proof. unfold db_to_linear. replace (0 / 20) with 0 by field. apply Rpower_O. lra. Qed.
Lemma beta_pos fs f q : valid_design fs f q -> 0 < sin (2 * PI * f / fs) * sqrt (sqrt 1) / q.
Proof.
  intros (H1 & H2 & H3). rewrite !sqrt_1. assert (Hfs : 0 < fs) by lra. pose proof PI_RGT_0.
  assert (0 < 2 * PI * f / fs) by (apply Rdiv_lt_0_compat; [apply Rmult_lt_0_compat; lra|lra]).
  assert (2 * PI * f / fs < PI). { apply (Rmult_lt_reg_r fs); [lra|]. unfold Rdiv. rewrite Rmult_assoc, Rinv_l by lra. nra. }
  apply Rdiv_lt_0_compat; [|lra]. pose proof (sin_gt_0 _ H0 H4). lra.
Qed.
Lemma flat_design fs s : valid_stage fs s -> stage_gain_db s = 0 -> type s <> Lowpass -> type s <> Highpass -> exists c, design_stage fs s = Ok c /\ neutral c.
Proof.
  intros V G N1 N2. pose proof V as (H1 & H2 & H3). pose proof (beta_pos _ _ _ V) as HB. unfold design_stage. rewrite G, db_zero.
  assert (CA : forall A (k : outcome A), check_arguments fs (frequency_hz s) (quality_factor s) k = k).
  { intros A k. unfold check_arguments. rewrite (Rltb_true (frequency_hz s) (fs / 2)), (Rltb_true 0 (frequency_hz s)), (Rltb_true 0 (quality_factor s)) by lra. reflexivity. }
  destruct (type s); try contradiction.
  - unfold low_shelf. rewrite CA, Rltb_true by lra. cbn [ocheck]. cbv zeta. rewrite sqrt_1 in *. eexists. split; [reflexivity|]. rewrite sqrt_1 in *.
    unfold neutral, make_coeffs, vec_b, vec_a. cbn [fst snd b0 b1 b2 a0 a1 a2]. split; [|nra]. f_equal; [ring|]. f_equal; [ring|]. f_equal. ring.
  - unfold peak_symmetric. rewrite Rltb_false by lra. unfold peak. rewrite CA, Rleb_true by lra. cbn [ocheck]. cbv zeta.
    set (w := 2 * PI * frequency_hz s). assert (PW : 0 < w) by (unfold w; pose proof PI_RGT_0; apply Rmult_lt_0_compat; lra).
    replace (0 + 1, 1 * (w / quality_factor s), 0 + w * w) with (1, w / quality_factor s, w * w) by (f_equal; [f_equal|]; ring).
    unfold bilinear_transform. rewrite (Rltb_true 0 fs), (Rleb_true 0 (frequency_hz s)), (Rltb_true (frequency_hz s) (fs / 2)) by lra. cbn [ocheck]. cbv zeta.
    eexists. split; [reflexivity|]. pose proof (compute_K_pos (frequency_hz s) fs H1 H2) as HK. set (K := compute_K _ _) in *. clearbody K.
    assert (D1 : 0 < w / quality_factor s) by (apply Rdiv_lt_0_compat; lra). set (d := w / quality_factor s) in *. clearbody d.
    assert (PA : 0 < 1 * K * K + d * K + w * w) by nra.
    unfold neutral, normalize, make_coeffs, bilinear_map, vec_b, vec_a. cbn [fst snd b0 b1 b2 a0 a1 a2]. split; [reflexivity|]. rewrite Rmult_1_l in *.
    assert ((K * K + d * K + w * w) / (K * K + d * K + w * w) = 1) as ->; [field|]; lra.
  - unfold high_shelf. rewrite CA, Rltb_true by lra. cbn [ocheck]. cbv zeta. rewrite sqrt_1 in *. eexists. split; [reflexivity|]. rewrite sqrt_1 in *.
    unfold neutral, make_coeffs, vec_b, vec_a. cbn [fst snd b0 b1 b2 a0 a1 a2]. split; [|nra]. f_equal; [ring|]. f_equal; [ring|]. f_equal. ring.
Qed.

Lemma append_flat fs : forall l cs, cs <> [] -> Forall neutral cs ->
  Forall (fun p => snd p = true -> valid_stage fs (fst p) /\ stage_gain_db (fst p) = 0 /\ type (fst p) <> Lowpass /\ type (fst p) <> Highpass) l ->
  exists cs', append_stages fs cs l = Ok cs' /\ Forall neutral cs' /\ cs' <> [].
Proof.
  induction l as [|[s en] l IH]; intros cs NE HN HL; cbn [append_stages]; [exists cs; auto|].
  assert (D : exists c, (if en then design_stage fs s else Ok identity_coeffs) = Ok c /\ neutral c).
  { destruct en; [|exists identity_coeffs; split; [reflexivity|exact identity_neutral]]. destruct (Forall_inv HL eq_refl) as (A & B & C & D). cbn [fst] in *. now apply flat_design. }
  destruct D as (c & -> & HC). cbn [obind]. destruct (append_neutral cs c NE HN HC) as (cs1 & -> & N1 & NE1). cbn [obind]. apply IH; [assumption|assumption|exact (Forall_inv_tail HL)].
Qed.

Lemma cleared_coefficients fs e : 0 < fs -> valid_equalizer fs e -> exists cs, get_coefficients (clear_all_gains e) fs = Ok cs /\ Forall neutral cs /\ cs <> [].
Proof.
  intros Hfs HV. unfold get_coefficients. rewrite Rltb_true by assumption. cbn [ocheck clear_all_gains stages gain_db].
  destruct (append_flat fs (map (fun p => (with_gain (fst p) 0, match type (fst p) with Lowpass | Highpass => false | _ => snd p end)) (stages e)) [identity_coeffs]) as (cs & -> & HN & NE).
  - discriminate.
  - constructor; [exact identity_neutral|constructor].
  - rewrite Forall_map. revert HV. unfold valid_equalizer. apply Forall_impl. intros [s en] H. cbn [fst snd] in *. intros HE.
    assert (T : type s <> Lowpass /\ type s <> Highpass /\ en = true) by (destruct (type s); try discriminate HE; split; [discriminate|split; [discriminate|assumption]|discriminate|split; [discriminate|assumption]|discriminate|split; [discriminate|assumption]]).
    destruct T as (T1 & T2 & T3). split; [exact (H T3)|]. split; [reflexivity|]. split; assumption.
  - cbn [obind]. rewrite db_zero. eexists. split; [reflexivity|]. destruct cs as [|c cs]; [contradiction|]. cbn [adjust_gain]. split; [|discriminate].
    constructor; [|exact (Forall_inv_tail HN)]. destruct (Forall_inv HN) as [A B]. split; [|exact B]. unfold set_b, vec_b, vec_a in *. cbn [map nth b0 b1 b2 a0 a1 a2] in *. rewrite !Rmult_1_r. exact A.
Qed.

(* ---------- a cascade of neutral stages does nothing ---------- *)
Lemma neutral_value cs z : Forall neutral cs -> den cs z <> RtoC 0 -> cascade_value cs z (RtoC 1).
Proof.
  intros HN HD. apply cascade_value_iff. split; [assumption|]. rewrite Cmult_1_l. unfold CascadeProofs2.num, CascadeProofs2.den. clear HD. induction HN as [|c cs [HC _] _ IH]; [reflexivity|].
  rewrite !cprod_cons, IH. rewrite numerator_ev, denominator_ev, HC. reflexivity.
Qed.
Lemma neutral_filters c : neutral c -> forall x y x1 x2, difference_equation Rplus Rminus Rmult c x1 x2 x1 x2 x y -> y = x.
Proof.
  intros [HC HA]. assert (b0 c = a0 c /\ b1 c = a1 c /\ b2 c = a2 c) as (E0 & E1 & E2) by (unfold vec_b, vec_a in HC; split; [|split]; congruence).
  induction x as [|x x' IH]; intros [|y y'] x1 x2; cbn [difference_equation]; try contradiction; [reflexivity|]. rewrite E0, E1, E2. intros [A B].
  assert (y = x) as ->. { assert (a0 c * (y - x) = 0) by lra. apply Rmult_integral in H. destruct H; [contradiction|lra]. } f_equal. exact (IH _ _ _ B).
Qed.
Lemma neutral_cascade cs : Forall neutral cs -> forall x y, cascade_filters 0 Rplus Rminus Rmult cs x y -> y = x.
Proof.
  induction 1 as [|c cs HC _ IH]; intros x y; cbn [cascade_filters]; [auto|]. intros (w & A & B). apply IH in B. rewrite B. exact (neutral_filters c HC _ _ _ _ A).
Qed.
Lemma neutral_init n cs : (0 < n)%nat -> cs <> [] -> Forall neutral cs -> exists fs, cascade_init 0 1 Rmult Rdiv (fun x => Reqb x 0) n cs = Ok fs.
Proof.
  intros Hn NE HN. unfold cascade_init. replace (1 <=? n)%nat with true by lia. destruct cs as [|c0 cs0]; [contradiction|]. cbn [length Nat.leb andb oguard].
  clear NE. induction HN as [|c cs [_ HC] _ IH]; cbn [init_stages]; [eexists; reflexivity|]. unfold biquad_init at 1. replace (1 <=? n)%nat with true by lia. cbn [ocheck].
  destruct (Reqb_spec (a0 c) 0) as [E|_]; [contradiction|]. cbn [negb ocheck obind]. destruct IH as (fs & ->). eexists. reflexivity.
Qed.

(* ---------- stages of second order are left alone ---------- *)
Lemma find_none f cs i : Forall (fun c => f c = false) cs -> find_from f cs i = None.
Proof. intros H. apply find_from_iff. exact H. Qed.
Lemma find_last f pre c : Forall (fun c => f c = false) pre -> f c = true -> forall i, find_from f (pre ++ [c]) i = Some (i + length pre)%nat.
Proof.
  induction 1 as [|d pre HD _ IH]; intros HC i; cbn [app find_from length]; [rewrite HC; f_equal; lia|]. rewrite HD, IH by assumption. f_equal. lia.
Qed.
Lemma merge_pairs_none tol poly set fuel cs : Forall (fun c => first_order tol (poly c) = false) cs -> merge_pairs tol poly set fuel cs = Ok cs.
Proof. intros H. destruct fuel; cbn [merge_pairs]; [reflexivity|]. unfold find_pair. rewrite find_none by exact H. reflexivity. Qed.
Lemma so_first c : second_order c -> first_order tolerance (vec_b c) = false /\ first_order tolerance (vec_a c) = false.
Proof. intros [H1 H2]. split; apply first_order_false_hi; assumption. Qed.
Lemma so_zero c : second_order c -> zero_order tolerance (vec_b c) = false /\ zero_order tolerance (vec_a c) = false.
Proof. intros [H1 H2]. split; apply zero_order_false_hi; assumption. Qed.
Lemma id_first : first_order tolerance (vec_b identity_coeffs) = false /\ first_order tolerance (vec_a identity_coeffs) = false.
Proof. pose proof tol_pos. split; apply first_order_false_lo; cbn [vec_a vec_b nth identity_coeffs a0 a1 a2 b0 b1 b2]; rewrite Rabs_R0; lra. Qed.
Lemma id_zero : zero_order tolerance (vec_b identity_coeffs) = true /\ zero_order tolerance (vec_a identity_coeffs) = true.
Proof. pose proof tol_pos. split; apply zero_order_is; cbn [vec_a vec_b nth identity_coeffs a0 a1 a2 b0 b1 b2]; rewrite Rabs_R0; lra. Qed.
Lemma gains_so fuel cs : Forall second_order cs -> merge_gains tolerance fuel cs = cs.
Proof.
  intros H. destruct fuel; cbn [merge_gains]; [reflexivity|]. destruct (1 <? length cs)%nat; [|reflexivity]. unfold find_zero_order. rewrite find_none; [reflexivity|].
  revert H. apply Forall_impl. intros c Hc. exact (proj2 (so_zero c Hc)).
Qed.
Lemma simplify_first_free cs : Forall (fun c => first_order tolerance (vec_b c) = false /\ first_order tolerance (vec_a c) = false) cs -> simplify tolerance cs = Ok (merge_gains tolerance (length cs) cs).
Proof.
  intros H. unfold simplify. rewrite merge_pairs_none by (revert H; apply Forall_impl; tauto). cbn [obind]. rewrite merge_pairs_none by (revert H; apply Forall_impl; tauto). reflexivity.
Qed.
Lemma append_so cs c : Forall second_order cs -> second_order c -> append_biquad tolerance cs c = Ok (cs ++ [c]).
Proof.
  intros H HC. assert (F : Forall second_order (cs ++ [c])) by (apply Forall_app; split; [assumption|constructor; [assumption|constructor]]).
  unfold append_biquad. rewrite simplify_first_free by (revert F; apply Forall_impl; exact so_first). rewrite gains_so by exact F. reflexivity.
Qed.
Lemma append_id cs : cs <> [] -> Forall second_order cs -> append_biquad tolerance cs identity_coeffs = Ok cs.
Proof.
  intros NE H. unfold append_biquad. rewrite simplify_first_free.
  2: { apply Forall_app. split; [revert H; apply Forall_impl; exact so_first|]. constructor; [exact id_first|constructor]. }
  f_equal. rewrite app_length. replace (length cs + length [identity_coeffs])%nat with (S (length cs)) by (cbn; lia). cbn [merge_gains].
  replace (1 <? length (cs ++ [identity_coeffs]))%nat with true by (rewrite app_length; destruct cs; [contradiction|cbn [length]; lia]).
  unfold find_zero_order. rewrite (find_last (fun c => zero_order tolerance (vec_a c)) cs identity_coeffs); [|revert H; apply Forall_impl; intros c Hc; exact (proj2 (so_zero c Hc))|exact (proj2 id_zero)].
  rewrite (find_last (fun c => zero_order tolerance (vec_b c)) cs identity_coeffs); [|revert H; apply Forall_impl; intros c Hc; exact (proj1 (so_zero c Hc))|exact (proj1 id_zero)].
  cbn [Nat.add]. rewrite nth_mid, Nat.eqb_refl, erase_mid, app_nil_r. destruct (Reqb_spec (b0 identity_coeffs / a0 identity_coeffs) 1) as [_|N]; [apply gains_so; assumption|]. exfalso. apply N. cbn. field.
Qed.
Lemma append_first c : second_order c \/ c = identity_coeffs -> append_biquad tolerance [identity_coeffs] c = Ok [c].
Proof.
  intros H. assert (F : first_order tolerance (vec_b c) = false /\ first_order tolerance (vec_a c) = false) by (destruct H as [H| ->]; [exact (so_first c H)|exact id_first]).
  unfold append_biquad. cbn [app]. rewrite simplify_first_free by (constructor; [exact id_first|constructor; [exact F|constructor]]). f_equal. cbn [length merge_gains Nat.ltb Nat.leb].
  unfold find_zero_order. cbn [find_from]. destruct id_zero as [-> ->]. cbn [nth Nat.eqb firstn skipn app].
  destruct (Reqb_spec (b0 identity_coeffs / a0 identity_coeffs) 1) as [_|N]; [reflexivity|]. exfalso. apply N. cbn. field.
Qed.
Lemma append_stages_so fs : forall l cs ds, Forall second_order cs -> designs fs l = Ok ds -> Forall second_order ds -> append_stages fs (cascade_of cs) l = Ok (cascade_of (cs ++ ds)).
Proof.
  induction l as [|[s en] l IH]; intros cs ds HC HD HS; cbn [designs append_stages] in *.
  - assert (ds = []) as -> by congruence. rewrite app_nil_r. reflexivity.
  - destruct en.
    + destruct (design_stage fs s) as [c| |]; [|discriminate HD|discriminate HD]. cbn [obind] in *. destruct (designs fs l) as [ds'| |]; [|discriminate HD|discriminate HD]. cbn [obind] in HD.
      assert (ds = c :: ds') as -> by congruence. pose proof (Forall_inv HS) as H1. apply Forall_inv_tail in HS.
      assert (E : append_biquad tolerance (cascade_of cs) c = Ok (cascade_of (cs ++ [c]))).
      { destruct cs as [|d cs]; [apply append_first; left; assumption|]. apply append_so; assumption. }
      rewrite E. cbn [obind]. rewrite (IH (cs ++ [c]) ds'); [rewrite <- app_assoc; reflexivity| |reflexivity|assumption]. apply Forall_app. split; [assumption|constructor; [assumption|constructor]].
    + cbn [obind]. assert (E : append_biquad tolerance (cascade_of cs) identity_coeffs = Ok (cascade_of cs)).
      { destruct cs as [|d cs]; [apply append_first; right; reflexivity|]. apply append_id; [discriminate|assumption]. }
      rewrite E. cbn [obind]. exact (IH cs ds HC HD HS).
Qed.
Lemma designs_length fs : forall l ds, designs fs l = Ok ds -> length ds = length (filter snd l).
Proof.
  induction l as [|[s en] l IH]; intros ds H; cbn [designs filter snd] in *; [assert (ds = []) as -> by congruence; reflexivity|]. destruct en; [|auto].
  destruct (design_stage fs s) as [c| |]; [|discriminate H|discriminate H]. cbn [obind] in H. destruct (designs fs l) as [ds'| |]; [|discriminate H|discriminate H]. cbn [obind] in H.
  assert (ds = c :: ds') as -> by congruence. cbn [length]. f_equal. auto.
Qed.
Lemma coefficients_so fs e ds : 0 < fs -> designs fs (stages e) = Ok ds -> Forall second_order ds ->
  get_coefficients e fs = Ok (adjust_gain (db_to_linear (gain_db e)) (cascade_of ds)).
Proof.
  intros Hf HD HS. unfold get_coefficients. rewrite Rltb_true by assumption. cbn [ocheck]. change [identity_coeffs] with (cascade_of []). rewrite (append_stages_so fs (stages e) [] ds (Forall_nil _) HD HS). reflexivity.
Qed.

(* ---------- examples ---------- *)
Definition boost : stage := {| type := Peak; frequency_hz := 1; quality_factor := 1; stage_gain_db := 20 |}.
Lemma boost_design : exists c, design_stage 4 boost = Ok c /\ second_order c.
Proof.
  unfold design_stage, boost. cbn [type frequency_hz quality_factor stage_gain_db].
  assert (G : db_to_linear 20 = 10) by (unfold db_to_linear; replace (20 / 20) with 1 by field; apply Rpower_1; lra). rewrite G.
  unfold peak_symmetric. rewrite Rltb_false by lra. unfold peak, check_arguments. rewrite (Rltb_true 1 (4 / 2)), !(Rltb_true 0 1), (Rleb_true 0 10) by lra. cbn [ocheck]. cbv zeta.
  unfold bilinear_transform. rewrite (Rltb_true 0 4), (Rleb_true 0 1), (Rltb_true 1 (4 / 2)) by lra. cbn [ocheck]. cbv zeta. eexists. split; [reflexivity|].
  assert (EK : compute_K 1 4 = 2 * PI). { unfold compute_K. rewrite Rltb_false by lra. replace (PI * 1 / 4) with (PI / 4) by field. rewrite tan_PI4. field. }
  rewrite EK. pose proof PI_RGT_0 as HP. set (p := PI) in *. clearbody p. unfold second_order, normalize, make_coeffs, bilinear_map. cbn [fst snd b0 b1 b2 a0 a1 a2]. unfold tolerance.
  assert (DIV : forall x k, x = k * (12 * (p * p)) -> x / (1 * (2 * p) * (2 * p) + 2 * p * 1 / 1 * (2 * p) + 2 * p * 1 * (2 * p * 1)) = k).
  { intros x k ->. replace (1 * (2 * p) * (2 * p) + 2 * p * 1 / 1 * (2 * p) + 2 * p * 1 * (2 * p * 1)) with (12 * (p * p)) by field. field. lra. }
  assert (E1 : ((0 + 1) * (2 * p) * (2 * p) - 10 * (2 * p * 1 / 1) * (2 * p) + (0 + 2 * p * 1 * (2 * p * 1))) / (1 * (2 * p) * (2 * p) + 2 * p * 1 / 1 * (2 * p) + 2 * p * 1 * (2 * p * 1)) = - (8 / 3)) by (apply DIV; field).
  assert (E2 : (1 * (2 * p) * (2 * p) - 2 * p * 1 / 1 * (2 * p) + 2 * p * 1 * (2 * p * 1)) / (1 * (2 * p) * (2 * p) + 2 * p * 1 / 1 * (2 * p) + 2 * p * 1 * (2 * p * 1)) = 1 / 3) by (apply DIV; field).
  rewrite E1, E2, Rabs_Ropp, !Rabs_pos_eq by lra. lra.
Qed.
Lemma boosts_length b : exists cs, get_coefficients {| gain_db := 0; stages := [(boost, true); (boost, b)] |} 4 = Ok cs /\ length cs = if b then 2%nat else 1%nat.
Proof.
  destruct boost_design as (c & E & S). eexists. split.
  - apply (coefficients_so 4 _ (if b then [c; c] else [c])); [lra| |destruct b; repeat constructor; apply S].
    cbn [stages designs]. rewrite E. cbn [obind]. destruct b; cbn [obind]; reflexivity.
  - rewrite adjust_gain_length. destruct b; reflexivity.
Qed.
Lemma fit_aborts solve stop n m it fs e : (num_enabled e < num_stages e)%nat -> fit_gains solve stop n m it fs e = CheckFail.
Proof.
  intros H. unfold fit_gains, ocheck at 1. destruct (n =? m)%nat; [|reflexivity]. cbv zeta. unfold set_gains, ocheck. rewrite repeat_length.
  replace (1 + num_enabled e =? num_stages e + 1)%nat with false by lia. reflexivity.
Qed.
