(* C33: the Teager energy filter. *)
From Verif Require Import Common ListLemmas Mealy RealUtil TeagerModel TeagerProofs.
From Coq Require Import Psatz.

(* client program: blocks with the old content of the output vector *)
Fixpoint feed {F} (zero : F) (sub mul : F -> F -> F) (t : teager F) (blocks : list (list F * list F)) : teager F * list (list F) :=
  match blocks with
  | [] => (t, [])
  | b :: r => let p := teager_block zero sub mul t (fst b) (snd b) in
      let q := feed zero sub mul (fst p) r in (fst q, snd p :: snd q)
  end.
Lemma feed_scan {F} (zero : F) sub mul : forall blocks t,
  concat (snd (feed zero sub mul t blocks)) = snd (scan (teager_sample sub mul) t (concat (map fst blocks))) /\
  map (@length F) (snd (feed zero sub mul t blocks)) = map (fun b => length (fst b)) blocks.
Proof.
  induction blocks as [|b r IH]; intros t; [split; reflexivity|]. cbn [feed map concat]. rewrite !block_scan, scan_app. cbn [fst snd concat map].
  destruct (IH (fst (scan (teager_sample sub mul) t (fst b)))) as [E1 E2]. rewrite E1, E2, scan_length. split; reflexivity.
Qed.

(* For every sequence of blocks, whatever the output vector held, and whatever numbers and
   operations are used (so bit for bit for float): block sizes are kept and output n is
   (x[n-1]^2 - x[n-2] x[n]) * factor, where samples before the first (or before a Reset) are
   zero. *)
Theorem C33_operator : forall (F : Type) (zero : F) (sub mul : F -> F -> F) (t0 : teager F) blocks n,
  let t := teager_reset zero t0 in
  let xs := concat (map fst blocks) in
  let ys := concat (snd (feed zero sub mul t blocks)) in
  map (@length F) (snd (feed zero sub mul t blocks)) = map (fun b => length (fst b)) blocks /\
  (n < length xs ->
   nth n ys zero = mul (sub (mul (past zero xs n 1) (past zero xs n 1)) (mul (past zero xs n 2) (nth n xs zero))) (normalize_factor t0)).
Proof.
  intros F zero sub mul t0 blocks n t xs ys. destruct (feed_scan zero sub mul blocks t) as [E1 E2]. split; [exact E2|]. intros Hn.
  unfold ys. rewrite E1. fold xs. rewrite scan_nth by exact Hn. unfold past.
  destruct n as [|[|n]]; [reflexivity|reflexivity|]. replace (S (S n) <? 1)%nat with false by reflexivity. replace (S (S n) <? 2)%nat with false by reflexivity.
  replace (S (S n) - 1)%nat with (S n) by lia. replace (S (S n) - 2)%nat with n by lia. reflexivity.
Qed.
Print Assumptions C33_operator.

Local Open Scope R_scope.
(* For every accepted centre frequency the filter is made, and a sinusoid at that frequency
   gives its squared amplitude from the third sample on, whatever its amplitude and phase and
   however it is cut into blocks. *)
Theorem C33_sinusoid : forall fs f A phi blocks, 0 < f < fs / 2 ->
  (forall n, (n < length (concat (map fst blocks)))%nat -> nth n (concat (map fst blocks)) 0 = A * cos (2 * PI * f / fs * INR n + phi)) ->
  exists t, teager_make fs f = Ok t /\
  forall n, (2 <= n < length (concat (map fst blocks)))%nat ->
    nth n (concat (snd (feed 0 Rminus Rmult t blocks))) 0 = A * A.
Proof.
  intros fs f A phi blocks [H1 H2] HX. unfold teager_make. rewrite (Rltb_true 0 fs), (Rltb_true 0 f), (Rltb_true f (fs / 2)) by lra. cbn [ocheck]. cbv zeta.
  set (w := 2 * PI * f / fs) in *. eexists. split; [reflexivity|]. intros n Hn.
  assert (W : 0 < sin w).
  { assert (P := PI_RGT_0). apply sin_gt_0; unfold w.
    - apply Rdiv_lt_0_compat; nra.
    - apply (Rmult_lt_reg_r fs); [lra|]. unfold Rdiv. rewrite Rmult_assoc, Rinv_l by lra. nra. }
  destruct (C33_operator R 0 Rminus Rmult {| normalize_factor := 1 / (sin w * sin w); delayed := (0, 0) |} blocks n) as [_ E].
  change (teager_reset 0 {| normalize_factor := 1 / (sin w * sin w); delayed := (0, 0) |}) with {| normalize_factor := 1 / (sin w * sin w); delayed := (0, 0) |} in E.
  rewrite E by lia. cbn [normalize_factor]. unfold past. replace (n <? 1)%nat with false by (symmetry; apply Nat.ltb_ge; lia). replace (n <? 2)%nat with false by (symmetry; apply Nat.ltb_ge; lia).
  rewrite !HX by lia. rewrite !minus_INR by lia. cbn [INR]. set (x := INR n).
  set (b := w * (x - 1) + phi). replace (w * (x - (1 + 1)) + phi) with (b - w) by (unfold b; ring). replace (w * x + phi) with (b + w) by (unfold b; ring).
  rewrite cos_minus, cos_plus. pose proof (sin2_cos2 b) as S1. pose proof (sin2_cos2 w) as S2. unfold Rsqr in *.
  transitivity ((A * A) * (cos b * cos b - ((cos b * cos w) * (cos b * cos w) - (sin b * sin w) * (sin b * sin w))) * / (sin w * sin w)); [unfold Rdiv; ring|].
  replace (cos b * cos b - (cos b * cos w * (cos b * cos w) - sin b * sin w * (sin b * sin w))) with (sin w * sin w).
  - field. lra.
  - transitivity (sin w * sin w * 1); [ring|]. rewrite <- S1.
    transitivity (cos b * cos b * (1 - cos w * cos w) + sin b * sin b * (sin w * sin w)); [|ring].
    replace (1 - cos w * cos w) with (sin w * sin w) by lra. ring.
Qed.
Print Assumptions C33_sinusoid.

(* three blocks, one of them empty, integers *)
Example C33_example : concat (snd (feed 0%Z Z.sub Z.mul {| normalize_factor := 2%Z; delayed := (0, 0)%Z |} [([1; 2]%Z, [7]%Z); ([], [9]%Z); ([5]%Z, [])])) = [0; 2; -2]%Z.
Proof. reflexivity. Qed.
