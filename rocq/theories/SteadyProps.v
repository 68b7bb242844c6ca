(* What a stable cascade does in the long run: its transfer function is the response to a sinusoid, it
   forgets the past, and bounded inputs give bounded outputs. *)
From Verif Require Import Common ListLemmas Mealy RealUtil BiquadModel BiquadSpec BiquadProofs DesignSpec CascadeSpec SteadySpec SteadyProofs.
From Coq Require Import Lra Lia Reals.
From Coquelicot Require Import Coquelicot.
Local Open Scope R_scope.

Lemma on_circle_nonzero z : Cmod z = 1 -> z <> RtoC 0.
Proof. intros H ->. rewrite Cmod_0 in H. lra. Qed.

(* If a channel of the input approaches the sinusoid A z^k, |z| = 1, the output approaches the sinusoid with
   amplitude and phase multiplied by the transfer function at z (z = 1: a constant input). *)
Theorem C22_frequency_response n cs fs (x : nat -> list R) :
  cascade_init 0 1 Rmult Rdiv (fun v => Reqb v 0) n cs = Ok fs -> List.Forall stable cs -> (forall k, length (x k) = n) ->
  exists y, runs_as (cascade_block Rplus Rminus Rmult) fs x y /\
    forall i A z h, (i < n)%nat -> Cmod z = 1 -> cascade_value cs z h ->
      settles (channel_of i x) (sinusoid A z) -> settles (channel_of i y) (sinusoid (Cmult h A) z).
Proof.
  intros HI F HL. destruct (cascade_stream n cs fs x HI HL) as (y & R1 & R2). exists y. split; [exact R1|].
  intros i A z h Hi Hz V D. exact (cascade_settles cs _ _ A z h F (on_circle_nonzero z Hz) (R2 i Hi) V D).
Qed.
Print Assumptions C22_frequency_response.

(* Inputs that agree in the long run give outputs that agree in the long run: the cascade forgets how it started. *)
Theorem C24_stable_forgets n cs fs (x x' : nat -> list R) :
  cascade_init 0 1 Rmult Rdiv (fun v => Reqb v 0) n cs = Ok fs -> List.Forall stable cs ->
  (forall k, length (x k) = n) -> (forall k, length (x' k) = n) ->
  exists y y', runs_as (cascade_block Rplus Rminus Rmult) fs x y /\ runs_as (cascade_block Rplus Rminus Rmult) fs x' y' /\
    forall i, (i < n)%nat -> settles (channel_of i x) (channel_of i x') -> settles (channel_of i y) (channel_of i y').
Proof.
  intros HI F HL HL'. destruct (cascade_stream n cs fs x HI HL) as (y & R1 & R2). destruct (cascade_stream n cs fs x' HI HL') as (y' & R1' & R2').
  exists y, y'. split; [exact R1|]. split; [exact R1'|]. intros i Hi D. exact (cascade_forgets cs _ _ _ _ F (R2 i Hi) (R2' i Hi) D).
Qed.
Print Assumptions C24_stable_forgets.

Theorem C24_stable_bounded n cs fs (x : nat -> list R) :
  cascade_init 0 1 Rmult Rdiv (fun v => Reqb v 0) n cs = Ok fs -> List.Forall stable cs -> (forall k, length (x k) = n) ->
  exists y, runs_as (cascade_block Rplus Rminus Rmult) fs x y /\
    forall i, (i < n)%nat -> stays_bounded (channel_of i x) -> stays_bounded (channel_of i y).
Proof.
  intros HI F HL. destruct (cascade_stream n cs fs x HI HL) as (y & R1 & R2). exists y. split; [exact R1|].
  intros i Hi B. exact (cascade_bounded cs _ _ F (R2 i Hi) B).
Qed.
Print Assumptions C24_stable_bounded.

(* y[n] = (x[n] + y[n-1]) / 2: the alternating input 1, -1, 1, ... ends up scaled by 1/3, the constant 1 by 1. *)
Definition half : coeffs R := {| b0 := 1; b1 := 0; b2 := 0; a0 := 2; a1 := -1; a2 := 0 |}.
Lemma half_stable : stable half.
Proof.
  split; [cbn; lra|]. intros z H. unfold denominator in H. cbn in H.
  assert (E : (z * (RtoC 2 * z + RtoC (-1)) = RtoC 0)%C) by (rewrite <- H; ring).
  destruct (Ceq_dec z (RtoC 0)) as [->|N]; [rewrite Cmod_0; lra|].
  assert (E2 : (RtoC 2 * z + RtoC (-1) = RtoC 0)%C).
  { transitivity (/ z * (z * (RtoC 2 * z + RtoC (-1))))%C; [field; exact N|]. rewrite E. ring. }
  assert (E3 : z = RtoC (1 / 2)).
  { transitivity (RtoC (1/2) * (RtoC 2 * z + RtoC (-1)) + RtoC (1/2))%C; [|rewrite E2; ring].
    apply injective_projections; cbn; field. }
  rewrite E3, Cmod_R, Rabs_right; lra.
Qed.
Example C22_frequency_case : exists fs y,
  cascade_init 0 1 Rmult Rdiv (fun v => Reqb v 0) 1 (half :: nil) = Ok fs /\
  runs_as (cascade_block Rplus Rminus Rmult) fs (fun k => sinusoid (RtoC 1) (RtoC (-1)) k :: nil) y /\
  settles (channel_of 0 y) (sinusoid (RtoC (1 / 3)) (RtoC (-1))).
Proof.
  assert (HI : exists fs, cascade_init 0 1 Rmult Rdiv (fun v => Reqb v 0) 1 (half :: nil) = Ok fs).
  { unfold cascade_init. cbn [length Nat.leb andb oguard init_stages]. unfold biquad_init. cbn [Nat.leb ocheck a0 half].
    destruct (Reqb_spec 2 0); [lra|]. cbn. eexists. reflexivity. }
  destruct HI as [fs HI]. destruct (C22_frequency_response 1 (half :: nil) fs (fun k => sinusoid (RtoC 1) (RtoC (-1)) k :: nil) HI) as (y & R1 & R2).
  - constructor; [exact half_stable|constructor].
  - reflexivity.
  - exists fs, y. split; [exact HI|]. split; [exact R1|].
    replace (RtoC (1 / 3)) with (Cmult (RtoC (1 / 3)) (RtoC 1)) by (rewrite Cmult_1_r; reflexivity). apply R2.
    + lia.
    + rewrite Cmod_R, Rabs_left; lra.
    + exists (RtoC (1/3)), (RtoC 1). assert (D : denominator half (RtoC (-1)) = RtoC 3) by (unfold denominator; cbn; apply injective_projections; cbn; ring).
      split; [|split; [reflexivity|now rewrite Cmult_1_r]]. split.
      * rewrite D. intros E. apply RtoC_inj in E. lra.
      * rewrite D. assert (N : numerator half (RtoC (-1)) = RtoC 1) by (unfold numerator; cbn; apply injective_projections; cbn; ring). rewrite N.
        rewrite RtoC_div by lra. reflexivity.
    + unfold settles, channel_of. cbn [nth]. apply is_lim_seq_ext with (fun _ => 0); [intros; ring|apply is_lim_seq_const].
Qed.
