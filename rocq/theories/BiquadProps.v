(* C21: the biquad filter satisfies its difference equation; C22: steady state. *)
From Verif Require Import Common ListLemmas Mealy BiquadModel BiquadSpec BiquadProofs.
From Coq Require Import Field QArith Qcanon Reals RealField.
Local Open Scope nat_scope.

(* Block boundaries are invisible, bit for bit (no law of arithmetic is assumed). *)
Theorem C21_block_boundaries : forall (F : Type) (zero one : F) (add sub mul div : F -> F -> F)
    (is_zero : F -> bool) (n : nat) (c : coeffs F) (f : biquad F) (blocks : list (list (list F))),
  biquad_init zero one mul div is_zero n c = Ok f ->
  Forall (Forall (fun fr => length fr = n)) blocks ->
  exists f' outs out,
    run (biquad_block add sub mul) f blocks = Ok (f', outs) /\
    biquad_block add sub mul f (concat blocks) = Ok (f', out) /\
    concat outs = out.
Proof.
  intros F zero one add sub mul div is_zero n c f blocks HI HF.
  destruct (init_inv zero one mul div is_zero n c f HI) as (Hn & _ & HW & _).
  destruct (blocks_ok add sub mul n blocks f Hn HW HF) as (outs & E & EC & _ & _).
  destruct (block_ok add sub mul n f (concat blocks) Hn HW (Forall_concat _ _ HF)) as (E2 & _ & _).
  eexists _, outs, _. split; [exact E|]. split; [rewrite E2; apply f_equal, surjective_pairing|exact EC].
Qed.
Print Assumptions C21_block_boundaries.

(* In every field: every channel, any split into blocks. *)
Theorem C21_difference_equation : forall (F : Type) (zero one : F) (add mul sub : F -> F -> F)
    (opp : F -> F) (div : F -> F -> F) (inv : F -> F) (is_zero : F -> bool),
  field_theory zero one add mul sub opp div inv (@eq F) ->
  (forall x, is_zero x = true <-> x = zero) ->
  forall (n : nat) (c : coeffs F) (f : biquad F) (blocks : list (list (list F))),
  biquad_init zero one mul div is_zero n c = Ok f ->
  Forall (Forall (fun fr => length fr = n)) blocks ->
  exists f' outs,
    run (biquad_block add sub mul) f blocks = Ok (f', outs) /\
    map (@length _) outs = map (@length _) blocks /\
    forall i, i < n ->
      filters zero add sub mul c (channel zero i (concat blocks)) (channel zero i (concat outs)).
Proof.
  intros F zero one add mul sub opp div inv is_zero FT ZT n c f blocks HI HF.
  exact (filter_blocks zero one add mul sub opp div inv FT is_zero ZT n c f blocks HI HF).
Qed.
Print Assumptions C21_difference_equation.

(* The equation determines the output, so this is the whole behaviour. *)
Theorem C21_equation_determines_output : forall (F : Type) (zero one : F) (add mul sub : F -> F -> F)
    (opp : F -> F) (div : F -> F -> F) (inv : F -> F),
  field_theory zero one add mul sub opp div inv (@eq F) ->
  forall (c : coeffs F) (x y y' : list F), a0 c <> zero ->
  filters zero add sub mul c x y -> filters zero add sub mul c x y' -> y = y'.
Proof.
  intros F zero one add mul sub opp div inv FT c x y y' HA.
  exact (difference_unique zero one add mul sub opp div inv FT c HA x zero zero zero zero y y').
Qed.
Print Assumptions C21_equation_determines_output.

(* Init refuses exactly no channels and a0 = 0; Reset restores the state after Init. *)
Theorem C21_init_and_reset : forall (F : Type) (zero one : F) (add sub mul div : F -> F -> F)
    (is_zero : F -> bool) (n : nat) (c : coeffs F),
  (biquad_init zero one mul div is_zero n c = CheckFail <-> n = 0 \/ is_zero (a0 c) = true) /\
  (forall f blocks f' outs,
     biquad_init zero one mul div is_zero n c = Ok f ->
     Forall (Forall (fun fr => length fr = n)) blocks ->
     run (biquad_block add sub mul) f blocks = Ok (f', outs) -> biquad_reset zero f' = Ok f).
Proof.
  intros F zero one add sub mul div is_zero n c. split.
  - unfold biquad_init. destruct n; cbn [Nat.leb ocheck]; [tauto|].
    destruct (is_zero (a0 c)); cbn [negb ocheck]; [tauto|]. split; [discriminate|intros [H|H]; discriminate].
  - intros f blocks f' outs. exact (reset_init zero one add sub mul div is_zero n c f blocks f' outs).
Qed.
Print Assumptions C21_init_and_reset.

(* A cascade is the composition of its stages over the whole signal. *)
Theorem C21_cascade : forall (F : Type) (zero one : F) (add mul sub : F -> F -> F)
    (opp : F -> F) (div : F -> F -> F) (inv : F -> F) (is_zero : F -> bool),
  field_theory zero one add mul sub opp div inv (@eq F) ->
  (forall x, is_zero x = true <-> x = zero) ->
  forall (n : nat) (cs : list (coeffs F)) (fs : list (biquad F)) (blocks : list (list (list F))),
  cascade_init zero one mul div is_zero n cs = Ok fs ->
  Forall (Forall (fun fr => length fr = n)) blocks ->
  exists fs' outs,
    run (cascade_block add sub mul) fs blocks = Ok (fs', outs) /\
    map (@length _) outs = map (@length _) blocks /\
    forall i, i < n ->
      cascade_filters zero add sub mul cs (channel zero i (concat blocks)) (channel zero i (concat outs)).
Proof.
  intros F zero one add mul sub opp div inv is_zero FT ZT n cs fs blocks HI HF.
  unfold cascade_init in HI. destruct (1 <=? n) eqn:En; [|discriminate].
  destruct (1 <=? length cs) eqn:Ec; [|discriminate]. cbn [andb oguard] in HI.
  pose proof (init_stages_inv zero one mul div is_zero n cs fs HI) as H2.
  assert (HW : Forall (wf n) fs).
  { clear -H2. induction H2 as [|c f cs fs H HR IH]; constructor; [|exact IH].
    exact (proj1 (proj2 (proj2 (init_inv zero one mul div is_zero n c f H)))). }
  assert (HL : length cs = length fs) by (clear -H2; induction H2; cbn [length]; lia).
  destruct (cascade_blocks_ok add sub mul n fs blocks) as (outs & E & EC & ML); [lia|lia|exact HW|exact HF|].
  exists (fst (chain_scan (pure_sample add sub mul) fs (concat blocks))), outs.
  split; [exact E|]. split; [exact ML|]. intros i Hi. rewrite EC.
  exact (chain_channels zero one add mul sub opp div inv FT is_zero ZT n cs fs (concat blocks) H2 (Forall_concat _ _ HF) i Hi).
Qed.
Print Assumptions C21_cascade.

(* Sample by sample or block by block: the same outputs and the same state, bit for bit. *)
Theorem C21_cascade_sample_or_block : forall (F : Type) (zero one : F) (add sub mul div : F -> F -> F)
    (is_zero : F -> bool) (n : nat) (cs : list (coeffs F)) (fs : list (biquad F)) (blocks : list (list (list F))),
  cascade_init zero one mul div is_zero n cs = Ok fs ->
  Forall (Forall (fun fr => length fr = n)) blocks ->
  exists fs' outs out,
    run (cascade_block add sub mul) fs blocks = Ok (fs', outs) /\
    run (cascade_sample add sub mul) fs (concat blocks) = Ok (fs', out) /\
    concat outs = out.
Proof.
  intros F zero one add sub mul div is_zero n cs fs blocks HI HF.
  unfold cascade_init in HI. destruct (1 <=? n) eqn:En; [|discriminate].
  destruct (1 <=? length cs) eqn:Ec; [|discriminate]. cbn [andb oguard] in HI.
  pose proof (init_stages_inv zero one mul div is_zero n cs fs HI) as H2.
  assert (HW : Forall (wf n) fs).
  { clear -H2. induction H2 as [|c f cs fs H HR IH]; constructor; [|exact IH].
    exact (proj1 (proj2 (proj2 (init_inv zero one mul div is_zero n c f H)))). }
  assert (HL : length cs = length fs) by (clear -H2; induction H2; cbn [length]; lia).
  destruct (cascade_blocks_ok add sub mul n fs blocks) as (outs & E & EC & ML); [lia|lia|exact HW|exact HF|].
  eexists _, outs, _. split; [exact E|]. split; [|exact EC].
  rewrite (cascade_samples_ok add sub mul n fs (concat blocks)); [apply f_equal, surjective_pairing|lia|lia|exact HW|].
  exact (Forall_concat _ _ HF).
Qed.
Print Assumptions C21_cascade_sample_or_block.

(* Reset restores every stage of a cascade to the state after Init. *)
Theorem C21_cascade_reset : forall (F : Type) (zero one : F) (add sub mul div : F -> F -> F)
    (is_zero : F -> bool) (n : nat) (cs : list (coeffs F)) (fs fs' : list (biquad F)) (blocks outs : list (list (list F))),
  cascade_init zero one mul div is_zero n cs = Ok fs ->
  Forall (Forall (fun fr => length fr = n)) blocks ->
  run (cascade_block add sub mul) fs blocks = Ok (fs', outs) -> cascade_reset zero fs' = Ok fs.
Proof.
  intros F zero one add sub mul div is_zero n cs fs fs' blocks outs HI HF HRun.
  unfold cascade_init in HI. destruct (1 <=? n) eqn:En; [|discriminate].
  destruct (1 <=? length cs) eqn:Ec; [|discriminate]. cbn [andb oguard] in HI.
  pose proof (init_stages_inv zero one mul div is_zero n cs fs HI) as H2.
  assert (HW : Forall (wf n) fs).
  { clear -H2. induction H2 as [|c f cs fs H HR IH]; constructor; [|exact IH].
    exact (proj1 (proj2 (proj2 (init_inv zero one mul div is_zero n c f H)))). }
  assert (HL : length cs = length fs) by (clear -H2; induction H2; cbn [length]; lia).
  destruct (cascade_blocks_ok add sub mul n fs blocks) as (o & E & _ & _); [lia|lia|exact HW|exact HF|].
  rewrite E in HRun. injection HRun as <- _.
  exact (reset_cascade zero one add sub mul div is_zero n cs fs H2 _ (Forall_concat _ _ HF)).
Qed.
Print Assumptions C21_cascade_reset.

(* The portable biquad; its coefficients are normalised, a0 = 1. *)
Theorem C21_portable : forall (F : Type) (zero one : F) (add mul sub : F -> F -> F)
    (opp : F -> F) (div : F -> F -> F) (inv : F -> F),
  field_theory zero one add mul sub opp div inv (@eq F) ->
  forall (c : coeffs F) (x : list F), a0 c = one ->
  exists z y, run (fun z v => Ok (portable_sample add sub mul c z v)) (portable_zero zero) x = Ok (z, y) /\
    filters zero add sub mul c x y.
Proof.
  intros F zero one add mul sub opp div inv FT c x HA.
  destruct (run_scan (fun z v => Ok (portable_sample add sub mul c z v)) (portable_sample add sub mul c)
             (fun _ => True) (fun _ => True)) with (xs := x) (s := portable_zero zero) as [E _]; auto.
  { apply Forall_forall. auto. }
  eexists _, _. split; [rewrite E; apply f_equal, surjective_pairing|].
  exact (portable_filters zero one add mul sub opp div inv FT c x HA).
Qed.
Print Assumptions C21_portable.

(* After SetSteadyStateCondition(v), frames equal to v give the DC gain times v from the first
   sample on, whatever the block sizes, and the state does not move. *)
Theorem C22_steady_state : forall (F : Type) (zero one : F) (add mul sub : F -> F -> F)
    (opp : F -> F) (div : F -> F -> F) (inv : F -> F) (is_zero : F -> bool),
  field_theory zero one add mul sub opp div inv (@eq F) ->
  (forall x, is_zero x = true <-> x = zero) ->
  forall (n : nat) (c : coeffs F) (f : biquad F) (v : list F) (block_sizes : list nat),
  biquad_init zero one mul div is_zero n c = Ok f -> length v = n ->
  add (add (a0 c) (a1 c)) (a2 c) <> zero ->
  exists g, set_steady_state one add div f v = Ok g /\
    run (biquad_block add sub mul) g (map (repeat v) block_sizes)
    = Ok (g, map (repeat (map (fun x => div (mul x (add (add (b0 c) (b1 c)) (b2 c)))
                                           (add (add (a0 c) (a1 c)) (a2 c))) v)) block_sizes).
Proof.
  intros F zero one add mul sub opp div inv is_zero FT ZT n c f v sizes HI HL HS.
  exact (steady_blocks zero one add mul sub opp div inv FT is_zero ZT n c f v sizes HI HL HS).
Qed.
Print Assumptions C22_steady_state.

(* Two channels over the rationals, a0 = 2, blocks of 1, 0 and 3 frames. *)
Definition qz (z : Z) : Qc := Q2Qc (inject_Z z).
Definition qc_is_zero (x : Qc) : bool := if Qc_eq_dec x (qz 0) then true else false.
Definition case_coeffs : coeffs Qc :=
  {| b0 := qz 2; b1 := qz 4; b2 := qz 6; a0 := qz 2; a1 := qz (-2); a2 := qz 4 |}.
Example C21_case : exists f f' outs,
  biquad_init (qz 0) (qz 1) Qcmult Qcdiv qc_is_zero 2 case_coeffs = Ok f /\
  run (biquad_block Qcplus Qcminus Qcmult) f [[[qz 1; qz 0]]; []; [[qz 0; qz 1]; [qz 0; qz 0]; [qz 0; qz 0]]] = Ok (f', outs) /\
  map (map (map this)) outs = map (map (map inject_Z))
    [[[1; 0]]; []; [[3; 1]; [4; 3]; [-2; 4]]]%Z.
Proof. eexists _, _, _. split; [vm_compute; reflexivity|]. split; [vm_compute; reflexivity|]. vm_compute. reflexivity. Qed.
Example C21_field_instances :
  field_theory (qz 0) (qz 1) Qcplus Qcmult Qcminus Qcopp Qcdiv Qcinv (@eq Qc) /\
  (forall x, qc_is_zero x = true <-> x = qz 0) /\
  field_theory 0%R 1%R Rplus Rmult Rminus Ropp Rdiv Rinv (@eq R).
Proof.
  split; [exact Qcft|]. split; [|exact Rfield].
  intros x. unfold qc_is_zero. destruct (Qc_eq_dec x (qz 0)); split; intros H; auto; discriminate.
Qed.
Example C22_case : exists f g f' outs,
  biquad_init (qz 0) (qz 1) Qcmult Qcdiv qc_is_zero 1 case_coeffs = Ok f /\
  set_steady_state (qz 1) Qcplus Qcdiv f [qz 5] = Ok g /\
  run (biquad_block Qcplus Qcminus Qcmult) g [[[qz 5]]; [[qz 5]; [qz 5]]] = Ok (f', outs) /\
  map (map (map this)) outs = map (map (map inject_Z)) [[[15]]; [[15]; [15]]]%Z.
Proof. eexists _, _, _, _. split; [vm_compute; reflexivity|]. split; [vm_compute; reflexivity|]. split; vm_compute; reflexivity. Qed.
