(* C90: three-tap smoothing of arrays. *)
From Coq Require Import ZArith Reals Lra Lia List Bool Psatz.
From Verif Require Import Common CInt RealUtil TapSmoothModel TapSmoothSpec TapSmoothProofs TapSmoothProofs2.
Import ListNotations.
Local Open Scope R_scope.

Lemma constructed g n o : construct g n = Ok o -> valid o /\ Z.of_nat (num_points o) = n.
Proof.
  unfold construct. destruct (Z.ltb_spec n 0); [discriminate|]. destruct (Z.ltb_spec 1 n); [|discriminate]. intros E. injection E as <-.
  unfold valid. cbn. rewrite map_length, seq_length. repeat split; lia.
Qed.
(* one call: the smoother changes, the result is returned *)
Definition step (o : smoother) (c : boundary * R * list R) : outcome (smoother * list R) := smooth o (fst (fst c)) (snd (fst c)) (snd c).

(* C90: every call, whatever was smoothed before, returns the convolution *)
Theorem C90_convolution g n o (cs : list (boundary * R * list R)) : construct g n = Ok o ->
  Forall (fun c => 0 < snd (fst c) <= 1 / 3 /\ Z.of_nat (length (snd c)) = n) cs ->
  exists o', run step o cs = Ok (o', map (fun c => smoothed (fst (fst c)) (snd (fst c)) (snd c)) cs).
Proof.
  intros C H. apply constructed in C as (V & N). revert o V N. induction H as [|[[m s] x] cs (S & L) _ IH]; intros o V N; [exists o; reflexivity|].
  cbn [fst snd] in *. destruct (smooth_ok o m s x V ltac:(lia) S) as (o1 & E & V1 & N1). destruct (IH o1 V1 ltac:(lia)) as (o2 & E2).
  exists o2. cbn [run]. unfold step at 1. cbn [fst snd]. rewrite E. cbn [obind fst snd]. rewrite E2. reflexivity.
Qed.
Print Assumptions C90_convolution.
Example C90_ex : smoothed Circular (1 / 4) [4; 0; 8] = [4; 3; 5] /\ smoothed Reflect (1 / 4) [4; 0; 8] = [2; 3; 4] /\ smoothed ZeroPad (1 / 4) [4; 0; 8] = [2; 3; 4].
Proof. unfold smoothed, extended. cbn; unfold Pos.to_nat; cbn. split; [|split]; repeat (apply f_equal2; [lra|]); reflexivity. Qed.
Example C90_construct_ex : exists o, construct (fun _ => 7) 3 = Ok o /\
  exists o', run step o [(Circular, 1 / 4, [4; 0; 8]); (ZeroPad, 1 / 4, [4; 0; 8])] = Ok (o', [[4; 3; 5]; [2; 3; 4]]).
Proof.
  eexists. split; [reflexivity|]. destruct C90_ex as (E1 & _ & E2).
  destruct (C90_convolution (fun _ => 7) 3 _ [(Circular, 1 / 4, [4; 0; 8]); (ZeroPad, 1 / 4, [4; 0; 8])] eq_refl) as (o' & E).
  - repeat constructor; cbn; lra.
  - exists o'. etransitivity; [exact E|]. cbn [map fst snd]. now rewrite E1, E2.
Qed.

(* C90: what is refused *)
Theorem C90_refuses g n o mode s x : construct g n = Ok o -> ~ (0 < s <= 1 / 3) \/ Z.of_nat (length x) <> n -> smooth o mode s x = CheckFail.
Proof.
  intros C H. apply constructed in C as (V & N). unfold smooth. destruct (Nat.eqb_spec (length x) (num_points o)) as [E|E]; [|reflexivity].
  cbn [negb]. destruct (Rltb_spec 0 s) as [A|A]; [|reflexivity]. cbn [negb]. destruct (Rleb_spec s (1 / 3)) as [B|B]; [|reflexivity].
  exfalso. destruct H as [H|H]; [apply H; lra|lia].
Qed.
Print Assumptions C90_refuses.
Theorem C90_construct g n : (n = 0 \/ n = 1 -> construct g n = CheckFail)%Z /\ (1 < n -> exists o, construct g n = Ok o)%Z.
Proof.
  split.
  - intros [->| ->]; reflexivity.
  - intros H. unfold construct. destruct (Z.ltb_spec n 0); [lia|]. destruct (Z.ltb_spec 1 n); [|lia]. eauto.
Qed.
Print Assumptions C90_construct.

(* C90: results stay between the least and the greatest value (with zero padding: and zero) *)
Theorem C90_range mode s x a b : (2 <= length x)%nat -> 0 < s <= 1 / 3 -> (mode = ZeroPad -> a <= 0 <= b) ->
  (forall j, (j < length x)%nat -> a <= nth j x 0 <= b) -> forall j, (j < length x)%nat -> a <= nth j (smoothed mode s x) 0 <= b.
Proof. exact (stay mode s x a b). Qed.
Print Assumptions C90_range.

(* C90: smoothing again and again, with coefficients that are not below some s0 > 0, leads to a constant:
   the mean (circular), the mean with half weights at the ends (symmetric), zero (zero padding) *)
Theorem C90_repeated g n o mode s0 x eps : construct g n = Ok o -> Z.of_nat (length x) = n -> 0 < s0 -> 0 < eps ->
  exists m, forall ss, (m <= length ss)%nat -> Forall (fun s => s0 <= s <= 1 / 3) ss ->
    exists o' y us, run call (o, x) (map (pair mode) ss) = Ok ((o', y), us) /\ length y = length x /\
      forall j, (j < length x)%nat -> Rabs (nth j y 0 - limit_value mode x) < eps.
Proof.
  intros C L S0 E. apply constructed in C as (V & N). assert (L2 : (2 <= length x)%nat) by (destruct V; lia).
  destruct (converges mode s0 x eps L2 S0 E) as (m & H). exists m. intros ss LS OK.
  assert (R : exists o' us, run call (o, x) (map (pair mode) ss) = Ok ((o', many mode ss x), us)).
  { assert (L' : length x = num_points o) by lia. clear - V L' S0 OK. revert o x V L'. induction OK as [|s ss S _ IH]; intros o x V L; [exists o, []; reflexivity|].
    destruct (smooth_ok o mode s x V L ltac:(lra)) as (o1 & E & V1 & N1). destruct (IH o1 (smoothed mode s x) V1) as (o2 & us & E2); [rewrite smoothed_len; lia|].
    exists o2, (tt :: us). cbn [map run]. unfold call at 1. cbn [fst snd]. rewrite E. cbn [obind fst snd]. rewrite E2. reflexivity. }
  destruct R as (o' & us & R). exists o', (many mode ss x), us. split; [exact R|]. split; [apply many_len|]. now apply H.
Qed.
Print Assumptions C90_repeated.
Example C90_limit_ex : limit_value Circular [4; 0; 8] = 4 /\ limit_value Reflect [4; 0; 8] = 3 /\ limit_value ZeroPad [4; 0; 8] = 0.
Proof. unfold limit_value. cbn. repeat split; lra. Qed.

(* C90: the example of the documentation is not what is computed: 1 - 2s is 0.8 for s = 0.1 *)
Theorem C90_documented_example_refuted : smoothed ZeroPad (1 / 10) [1; 2; 3] <> [11 / 10; 22 / 10; 29 / 10].
Proof. unfold smoothed, extended. cbn; unfold Pos.to_nat; cbn. intros H. injection H. intros. lra. Qed.
Print Assumptions C90_documented_example_refuted.
