(* ProcessBlock of the auditory filterbank. *)
From Coq Require Import ZArith Reals Lra Lia List Bool Psatz Field.
From Coquelicot Require Import Coquelicot.
From Verif Require Import Common CInt ListLemmas RealUtil BiquadModel BiquadSpec BiquadProofs BiquadProps FirModel FirSpec FirProofs DesignSpec
  AuditoryModel AuditorySpec AuditoryProofs4.
Import ListNotations.
Local Open Scope R_scope.
Notation rfilters := (BiquadSpec.filters 0 Rplus Rminus Rmult).
Notation chan := (BiquadSpec.channel 0).
Notation framed n := (Forall (fun fr : list R => length fr = n)).

Lemma run_len {S A B} (step : S -> A -> outcome (S * B)) xs : forall s s' ys, run step s xs = Ok (s', ys) -> length ys = length xs.
Proof.
  induction xs as [|x xs IH]; intros s s' ys H; cbn [run] in H; [now injection H as <- <-|].
  destruct (step s x) as [[s1 y]| |]; cbn [obind fst snd] in H; try discriminate.
  destruct (run step s1 xs) as [[s2 ys2]| |] eqn:E; cbn [obind fst snd] in H; try discriminate. injection H as <- <-. cbn. f_equal. eapply IH, E.
Qed.
Lemma Forall_concat_inv {A} (P : A -> Prop) ls : Forall P (concat ls) -> Forall (Forall P) ls.
Proof. induction ls as [|l ls IH]; cbn; intros H; constructor; apply Forall_app in H as [A1 A2]; auto. Qed.

Lemma filter_run n c f blocks : binit n c = Ok f -> Forall (framed n) blocks -> exists f' outs,
  run rblock f blocks = Ok (f', outs) /\ Forall (framed n) outs /\ length outs = length blocks /\ biquad_reset 0 f' = Ok f /\
  forall i, (i < n)%nat -> rfilters c (chan i (concat blocks)) (chan i (concat outs)).
Proof.
  intros HI HF.
  destruct (C21_difference_equation R 0 1 Rplus Rmult Rminus Ropp Rdiv Rinv (fun x => Reqb x 0) Rfield (fun x => Reqb_true_iff x 0) n c f blocks HI HF) as (f' & outs & E & ML & D).
  exists f', outs. split; [exact E|].
  destruct (init_inv 0 1 Rmult Rdiv (fun x => Reqb x 0) n c f HI) as (Hn & _ & HW & _).
  destruct (blocks_ok Rplus Rminus Rmult n blocks f Hn HW HF) as (o & E2 & EC & _ & _). rewrite E in E2. injection E2 as _ <-.
  destruct (block_ok Rplus Rminus Rmult n f (concat blocks) Hn HW (proj2 (List.Forall_concat _ _) HF)) as (_ & _ & FL).
  split; [apply Forall_concat_inv; rewrite EC; exact FL|]. split; [exact (run_len _ _ _ _ _ E)|].
  split; [exact (proj2 (C21_init_and_reset R 0 1 Rplus Rminus Rmult Rdiv (fun x => Reqb x 0) n c) f blocks f' outs HI HF E)|exact D].
Qed.
Lemma evens_ind2 {A} (P : list A -> Prop) : P [] -> (forall a, P [a]) -> (forall a b l, P l -> P (a :: b :: l)) -> forall l, P l.
Proof.
  intros H0 H1 H2. fix IH 1. intros [|a [|b l]]; [exact H0|apply H1|]. apply H2, IH.
Qed.
Lemma evens_Forall {A} (P : A -> Prop) l : Forall P l -> Forall P (evens l).
Proof.
  revert l. apply (evens_ind2 (fun l => Forall P l -> Forall P (evens l))).
  - auto.
  - auto.
  - intros a b l IH H. inversion H as [|? ? H1 H2]; subst. inversion H2; subst. cbn. constructor; auto.
Qed.
Lemma evens_map {A B} (f : A -> B) l : map f (evens l) = evens (map f l).
Proof.
  revert l. apply (evens_ind2 (fun l => map f (evens l) = evens (map f l))); [reflexivity|reflexivity|].
  intros a b l IH. cbn. now rewrite IH.
Qed.
Lemma decimator_run n blocks : Forall (framed n) blocks -> exists d outs,
  run decimate false blocks = Ok (d, outs) /\ Forall (framed n) outs /\ length outs = length blocks /\ concat outs = evens (concat blocks).
Proof.
  intros HF. destruct (decimate_run blocks false) as (outs & E & EC). eexists _, outs. split; [exact E|]. cbv iota in EC.
  split; [|split; [exact (run_len _ _ _ _ _ E)|exact EC]]. apply Forall_concat_inv. rewrite EC. apply evens_Forall. now apply List.Forall_concat.
Qed.

(* the signal of stage j over all blocks *)
Definition stage_signal (j : nat) (outs : list (list frames)) : frames := concat (map (fun o => nth j o []) outs).
Fixpoint zipc {A} (ys : list A) (zs : list (list A)) : list (list A) :=
  match ys, zs with y :: ys', z :: zs' => (y :: z) :: zipc ys' zs' | _, _ => [] end.
Lemma zipc_signal ys zs j : length ys = length zs ->
  stage_signal 0 (zipc ys zs) = concat ys /\ stage_signal (S j) (zipc ys zs) = stage_signal j zs /\ length (zipc ys zs) = length ys.
Proof.
  revert zs. induction ys as [|y ys IH]; intros [|z zs] H; cbn in H; try discriminate; [auto|].
  destruct (IH zs ltac:(lia)) as (A & B & D). unfold stage_signal in *. cbn. rewrite A, B, D. auto.
Qed.
Lemma zipc_Forall m (ys : list frames) zs : length ys = length zs -> Forall (fun o => length o = m) zs -> Forall (fun o => length o = S m) (zipc ys zs).
Proof.
  revert zs. induction ys as [|y ys IH]; intros [|z zs] H F; cbn in H; try discriminate; [constructor|]. inversion F; subst.
  cbn. constructor; [reflexivity|]. apply IH; [lia|assumption].
Qed.

Definition lstep (prev : R) (rates : list R) (st : list (biquad R) * list bool) (x : frames) : outcome (list (biquad R) * list bool * list frames) :=
  later_stages prev (fst st) rates (snd st) x.
Lemma lstep_nil prev rates decs blocks : run (lstep prev rates) ([], decs) blocks = Ok (([], decs), map (fun _ => []) blocks).
Proof. induction blocks as [|x blocks IH]; cbn [run]; [reflexivity|]. cbn [lstep later_stages fst snd obind]. rewrite IH. reflexivity. Qed.
Lemma lstep_same prev rates fs' decs' blocks : forall f fs decs f' ys zs,
  run rblock f blocks = Ok (f', ys) -> run (lstep prev rates) (fs, decs) ys = Ok ((fs', decs'), zs) ->
  run (lstep prev (prev :: rates)) (f :: fs, decs) blocks = Ok ((f' :: fs', decs'), zipc ys zs).
Proof.
  induction blocks as [|x blocks IH]; intros f fs decs f' ys zs H1 H2; cbn [run] in H1.
  - injection H1 as <- <-. cbn [run] in H2. injection H2 as <- <- <-. reflexivity.
  - destruct (rblock f x) as [[f1 y]| |] eqn:E1; cbn [obind fst snd] in H1; try discriminate.
    destruct (run rblock f1 blocks) as [[f2 ys2]| |] eqn:E2; cbn [obind fst snd] in H1; try discriminate. injection H1 as <- <-.
    cbn [run] in H2. destruct (lstep prev rates (fs, decs) y) as [[[fs1 decs1] z]| |] eqn:E3; cbn [obind fst snd] in H2; try discriminate.
    destruct (run (lstep prev rates) (fs1, decs1) ys2) as [[[fs2 decs2] zs2]| |] eqn:E4; cbn [obind fst snd] in H2; try discriminate. injection H2 as <- <- <-.
    cbn [run]. unfold lstep at 1. cbn [later_stages fst snd]. destruct (Reqb_spec prev prev) as [_|N]; [|congruence].
    rewrite E1. cbn [obind]. unfold lstep in E3. cbn [fst snd] in E3. rewrite E3. cbn [obind fst snd].
    rewrite (IH f1 fs1 decs1 f2 ys2 zs2 E2 E4). reflexivity.
Qed.
Lemma lstep_halved prev r rates fs' decs' blocks : r <> prev -> forall d f fs decs d' xs f' ys zs,
  run decimate d blocks = Ok (d', xs) ->
  run rblock f xs = Ok (f', ys) -> run (lstep r rates) (fs, decs) ys = Ok ((fs', decs'), zs) ->
  run (lstep prev (r :: rates)) (f :: fs, d :: decs) blocks = Ok ((f' :: fs', d' :: decs'), zipc ys zs).
Proof.
  intros NR. induction blocks as [|x blocks IH]; intros d f fs decs d' xs f' ys zs H0 H1 H2; cbn [run] in H0.
  - injection H0 as <- <-. cbn [run] in H1. injection H1 as <- <-. cbn [run] in H2. injection H2 as <- <- <-. reflexivity.
  - destruct (decimate d x) as [[d1 x1]| |] eqn:E0; cbn [obind fst snd] in H0; try discriminate.
    destruct (run decimate d1 blocks) as [[d2 xs2]| |] eqn:EE; cbn [obind fst snd] in H0; try discriminate. injection H0 as <- <-. cbn [run] in H1.
    destruct (rblock f x1) as [[f1 y]| |] eqn:E1; cbn [obind fst snd] in H1; try discriminate.
    destruct (run rblock f1 xs2) as [[f2 ys2]| |] eqn:E2; cbn [obind fst snd] in H1; try discriminate. injection H1 as <- <-.
    cbn [run] in H2. destruct (lstep r rates (fs, decs) y) as [[[fs1 decs1] z]| |] eqn:E3; cbn [obind fst snd] in H2; try discriminate.
    destruct (run (lstep r rates) (fs1, decs1) ys2) as [[[fs2 decs2] zs2]| |] eqn:E4; cbn [obind fst snd] in H2; try discriminate. injection H2 as <- <- <-.
    cbn [run]. unfold lstep at 1. cbn [later_stages fst snd]. destruct (Reqb_spec r prev) as [N|_]; [congruence|].
    rewrite E0. cbn [obind]. rewrite E1. cbn [obind]. unfold lstep in E3. cbn [fst snd] in E3. rewrite E3. cbn [obind fst snd].
    rewrite (IH d1 f1 fs1 decs1 d2 xs2 f2 ys2 zs2 EE E2 E4). reflexivity.
Qed.

(* the signals between the stages *)
Fixpoint bankw (prev : R) (cs : list (coeffs R)) (rates : list R) (x : list R) (ws : list (list R)) : Prop :=
  match cs, rates, ws with
  | [], [], [] => True
  | c :: cs', r :: rates', w :: ws' => rfilters c (if Rle_dec prev r then x else evens x) w /\ bankw r cs' rates' w ws'
  | _, _, _ => False
  end.
Fixpoint falling (prev : R) (rates : list R) : Prop := match rates with [] => True | r :: rs => r <= prev /\ falling r rs end.

Lemma later_run n cs : forall fs rates prev blocks, Forall2 (fun c f => binit n c = Ok f) cs fs -> length rates = length cs -> falling prev rates ->
  Forall (framed n) blocks -> exists fs' decs' outs,
  run (lstep prev rates) (fs, repeat false (drops prev rates)) blocks = Ok ((fs', decs'), outs) /\
  length outs = length blocks /\ Forall (fun o => length o = length cs) outs /\
  (forall j, (j < length cs)%nat -> framed n (stage_signal j outs)) /\
  cascade_reset 0 fs' = Ok fs /\ map (fun _ => false) decs' = repeat false (drops prev rates) /\
  forall i, (i < n)%nat -> bankw prev cs rates (chan i (concat blocks)) (map (fun j => chan i (stage_signal j outs)) (seq 0 (length cs))).
Proof.
  induction cs as [|c cs IH]; intros fs rates prev blocks H2 LR FA HF; inversion H2 as [|? f ? fs0 HI H2']; subst.
  - destruct rates; [|discriminate]. cbn [drops repeat]. exists [], [], (map (fun _ => []) blocks). rewrite lstep_nil. split; [reflexivity|].
    split; [apply map_length|]. split; [apply Forall_forall; intros o O; apply in_map_iff in O as (b & <- & _); reflexivity|].
    split; [intros j J; cbn in J; lia|]. repeat split.
  - destruct rates as [|r rates]; [discriminate|]. destruct FA as [LE FA]. injection LR as LR. cbn [drops].
    assert (FIN : forall xs f' ys fs' (decs' : list bool) zs, (forall i, chan i (concat xs) = if Rle_dec prev r then chan i (concat blocks) else evens (chan i (concat blocks))) ->
      length ys = length blocks -> Forall (framed n) ys -> biquad_reset 0 f' = Ok f ->
      (forall i, (i < n)%nat -> rfilters c (chan i (concat xs)) (chan i (concat ys))) ->
      length zs = length ys -> Forall (fun o => length o = length cs) zs -> (forall j, (j < length cs)%nat -> framed n (stage_signal j zs)) ->
      cascade_reset 0 fs' = Ok fs0 -> map (fun _ => false) decs' = repeat false (drops r rates) ->
      (forall i, (i < n)%nat -> bankw r cs rates (chan i (concat ys)) (map (fun j => chan i (stage_signal j zs)) (seq 0 (length cs)))) ->
      length (zipc ys zs) = length blocks /\ Forall (fun o => length o = S (length cs)) (zipc ys zs) /\
      (forall j, (j < S (length cs))%nat -> framed n (stage_signal j (zipc ys zs))) /\ cascade_reset 0 (f' :: fs') = Ok (f :: fs0) /\
      forall i, (i < n)%nat -> bankw prev (c :: cs) (r :: rates) (chan i (concat blocks)) (map (fun j => chan i (stage_signal j (zipc ys zs))) (seq 0 (S (length cs))))).
    { intros xs f' ys fs' decs' zs X Y FY RF D LZ FZ SZ CR _ B. symmetry in LZ. destruct (zipc_signal ys zs 0 LZ) as (Z0 & _ & ZL).
      split; [congruence|]. split; [now apply zipc_Forall|]. split; [|split].
      - intros [|j] J; [rewrite Z0; now apply List.Forall_concat|]. rewrite (proj1 (proj2 (zipc_signal ys zs j LZ))). apply SZ. lia.
      - cbn [cascade_reset]. rewrite RF. cbn [obind]. rewrite CR. reflexivity.
      - intros i I. cbn [seq map bankw]. rewrite Z0. split; [rewrite <- X; now apply D|]. rewrite <- seq_shift, map_map.
        rewrite (map_ext _ (fun j => chan i (stage_signal j zs))); [now apply B|]. intros j. now rewrite (proj1 (proj2 (zipc_signal ys zs j LZ))). }
    destruct (Rle_dec prev r) as [GE|LT].
    + assert (r = prev) by lra. subst r. cbn [Nat.add].
      destruct (filter_run n c f blocks HI HF) as (f' & ys & E1 & FY & LY & RF & D).
      destruct (IH fs0 rates prev ys H2' LR FA FY) as (fs' & decs' & zs & E2 & LZ & FZ & SZ & CR & DR & B).
      exists (f' :: fs'), decs', (zipc ys zs). split; [exact (lstep_same prev rates fs' decs' blocks _ _ _ _ _ _ E1 E2)|].
      destruct (FIN blocks f' ys fs' decs' zs) as (R1 & R2 & R3 & R4 & R5); try assumption; [reflexivity|]. auto 10.
    + cbn [Nat.add repeat]. destruct (decimator_run n blocks HF) as (d & xs & E0 & FX & LX & X).
      destruct (filter_run n c f xs HI FX) as (f' & ys & E1 & FY & LY & RF & D).
      destruct (IH fs0 rates r ys H2' LR FA FY) as (fs' & decs' & zs & E2 & LZ & FZ & SZ & CR & DR & B).
      exists (f' :: fs'), (d :: decs'), (zipc ys zs). split; [apply (lstep_halved prev r rates fs' decs' blocks) with (xs := xs); try assumption; lra|].
      destruct (FIN xs f' ys fs' decs' zs) as (R1 & R2 & R3 & R4 & R5); try assumption; [|congruence|].
      { intros i. unfold channel. rewrite X, <- evens_map. reflexivity. }
      split; [exact R1|]. split; [exact R2|]. split; [exact R3|]. split; [exact R4|]. split; [cbn [map]; now rewrite DR|exact R5].
Qed.

(* ---- the differences ---- *)
Notation ttap := (two_tap (V := list R) (G := R)).
Definition zero_tap (n : nat) : ttap := tt_init (repeat 0 n) (-1, 1).
Definition tap_reset (n : nat) (d : ttap) : ttap := {| gain_prev := gain_prev d; gain_now := gain_now d; tstate := repeat 0 n |}.
Lemma dstep_cons blocks : forall (d d' : ttap) ds ds' (xs os : list frames) (zs : list (list frames)) xzs,
  run (fun f x => Ok (tt_process vadd vscale f x)) d xs = Ok (d', os) -> run differences ds blocks = Ok (ds', zs) ->
  zipc xs blocks = xzs -> length xs = length blocks ->
  run differences (d :: ds) xzs = Ok (d' :: ds', zipc os zs).
Proof.
  induction blocks as [|b blocks IH]; intros d d' ds ds' xs os zs xzs H1 H2 <- L; destruct xs as [|x xs]; try discriminate.
  - cbn [run] in *. injection H1 as <- <-. injection H2 as <- <-. reflexivity.
  - cbn [run obind] in H1. destruct (tt_process vadd vscale d x) as [d1 o] eqn:E1. cbn [fst snd] in H1.
    destruct (run _ d1 xs) as [[d2 os2]| |] eqn:E2; cbn [obind fst snd] in H1; try discriminate. injection H1 as <- <-.
    cbn [run] in H2. destruct (differences ds b) as [[ds1 z]| |] eqn:E3; cbn [obind fst snd] in H2; try discriminate.
    destruct (run differences ds1 blocks) as [[ds2 zs2]| |] eqn:E4; cbn [obind fst snd] in H2; try discriminate. injection H2 as <- <-.
    cbn [zipc run differences]. rewrite E1. cbn [obind fst snd]. rewrite E3. cbn [obind fst snd].
    rewrite (IH d1 d2 ds1 ds2 xs os2 zs2 _ E2 E4 eq_refl) by (cbn in L; lia). reflexivity.
Qed.
Lemma tt_gains xs : forall (d d' : ttap) os, run (fun f x => Ok (tt_process vadd vscale f x)) d xs = Ok (d', os) ->
  gain_prev d' = gain_prev d /\ gain_now d' = gain_now d.
Proof.
  induction xs as [|x xs IH]; intros d d' os H; cbn [run obind] in H; [injection H as <- _; auto|].
  destruct (tt_process vadd vscale d x) as [d1 o] eqn:E1. cbn [fst snd] in H.
  destruct (run _ d1 xs) as [[d2 os2]| |] eqn:E2; cbn [obind fst snd] in H; try discriminate. injection H as <- _.
  destruct (IH _ _ _ E2) as [A B]. unfold tt_process in E1. destruct x; injection E1 as <- _; auto.
Qed.
Lemma dnil ds blocks : Forall (fun o => length o = 0%nat) blocks -> run differences ds blocks = Ok (ds, blocks).
Proof.
  induction 1 as [|b blocks B _ IH]; cbn [run]; [reflexivity|]. destruct b; [|discriminate]. destruct ds; cbn [differences obind fst snd]; rewrite IH; reflexivity.
Qed.
Lemma unzip m (outs : list (list frames)) : Forall (fun o => length o = S m) outs -> exists xs zs, outs = zipc xs zs /\ length xs = length zs /\ Forall (fun o => length o = m) zs.
Proof.
  induction 1 as [|o outs L _ IH]; [exists [], []; repeat split; constructor|]. destruct IH as (xs & zs & -> & LL & F).
  destruct o as [|x o]; [discriminate|]. exists (x :: xs), (o :: zs). cbn. repeat split; [congruence|]. constructor; [now injection L|exact F].
Qed.
Lemma diff_run n m : forall outs, Forall (fun o => length o = m) outs -> (forall j, (j < m)%nat -> framed n (stage_signal j outs)) -> exists ds' os,
  run differences (repeat (zero_tap n) m) outs = Ok (ds', os) /\ length os = length outs /\ Forall (fun o => length o = m) os /\
  map (tap_reset n) ds' = repeat (zero_tap n) m /\
  forall j, (j < m)%nat -> stage_signal j os = two_tap_spec vadd vscale (-1) 1 (repeat 0 n) (stage_signal j outs).
Proof.
  induction m as [|m IH]; intros outs F SG.
  - exists [], outs. cbn [repeat]. split; [now apply dnil|]. repeat split; [exact F|]. intros j J. lia.
  - destruct (unzip m outs F) as (xs & zs & -> & L & FZ).
    assert (SZ : forall j, (j < m)%nat -> framed n (stage_signal j zs)).
    { intros j J. rewrite <- (proj1 (proj2 (zipc_signal xs zs j L))). apply SG. lia. }
    destruct (IH zs FZ SZ) as (ds' & os & E & LO & FO & RS & SP).
    destruct (tt_run vadd vscale xs (zero_tap n)) as (d' & ys & E1 & ML & EC).
    assert (LY : length ys = length xs) by exact (run_len _ _ _ _ _ E1).
    exists (d' :: ds'), (zipc ys os). cbn [repeat]. split; [now apply (dstep_cons zs) with (xs := xs)|].
    assert (LYO : length ys = length os) by congruence.
    destruct (zipc_signal ys os 0 LYO) as (Z0 & _ & ZL). destruct (zipc_signal xs zs 0 L) as (X0 & _ & XL).
    split; [congruence|]. split; [now apply zipc_Forall|]. split.
    + cbn [map]. rewrite RS. f_equal. destruct (tt_gains _ _ _ _ E1) as [G1 G2]. unfold tap_reset. rewrite G1, G2. reflexivity.
    + intros [|j] J.
      * rewrite Z0, X0. exact EC.
      * rewrite (proj1 (proj2 (zipc_signal ys os j LYO))), (proj1 (proj2 (zipc_signal xs zs j L))). apply SP. lia.
Qed.
Lemma vadd_nth x y i : length x = length y -> nth i (vadd x y) 0 = nth i x 0 + nth i y 0.
Proof.
  revert y i. induction x as [|a x IH]; intros [|b y] i L; cbn in L; try discriminate; destruct i as [|i]; cbn; try lra. apply IH. lia.
Qed.
Lemma vscale_nth g x i : nth i (vscale g x) 0 = g * nth i x 0.
Proof. revert i. induction x as [|a x IH]; intros [|i]; cbn; try lra. apply IH. Qed.
Fixpoint diff_from (p : R) (x : list R) : list R := match x with [] => [] | a :: r => a - p :: diff_from a r end.
Lemma diff_from_eq x : forall p, diff_from p x = map (fun n => nth n x 0 - match n with O => p | S m => nth m x 0 end) (seq 0 (length x)).
Proof.
  induction x as [|a x IH]; intros p; [reflexivity|]. cbn [diff_from length seq map nth]. f_equal. rewrite IH, <- seq_shift, map_map.
  apply map_ext. intros [|k]; reflexivity.
Qed.
Lemma two_tap_chan n i x : forall p, framed n x -> length p = n -> chan i (two_tap_spec vadd vscale (-1) 1 p x) = diff_from (nth i p 0) (chan i x).
Proof.
  induction x as [|a x IH]; intros p F L; [reflexivity|]. inversion F as [|? ? F1 F2]; subst. cbn [two_tap_spec channel map diff_from].
  f_equal.
  - rewrite vadd_nth, !vscale_nth; [ring|]. unfold vscale. now rewrite !map_length, F1.
  - apply IH; [exact F2|exact F1].
Qed.

(* ---- the whole block ---- *)
Lemma run_process blocks : forall fb r rates fs' decs' ds' ys outs, fb_rates fb = r :: rates -> fb_filters fb <> [] ->
  run (lstep r (r :: rates)) (fb_filters fb, fb_decimators fb) blocks = Ok ((fs', decs'), ys) ->
  run differences (fb_diffs fb) ys = Ok (ds', outs) ->
  run process_block fb blocks =
    Ok ({| fb_params := fb_params fb; fb_allow := fb_allow fb; fb_mics := fb_mics fb; fb_coeffs := fb_coeffs fb;
           fb_rates := fb_rates fb; fb_peaks := fb_peaks fb; fb_bandwidths := fb_bandwidths fb;
           fb_filters := fs'; fb_diffs := ds'; fb_decimators := decs'; fb_exposed := fb_exposed fb |}, outs).
Proof.
  induction blocks as [|x blocks IH]; intros fb r rates fs' decs' ds' ys outs ER NF H1 H2; cbn [run] in H1.
  - injection H1 as <- <- <-. cbn [run] in H2. injection H2 as <- <-. cbn [run]. now destruct fb.
  - unfold lstep in H1 at 1. cbn [fst snd] in H1. destruct (fb_filters fb) as [|f fs] eqn:EF; [congruence|].
    cbn [later_stages] in H1. destruct (Reqb_spec r r) as [_|N]; [|congruence].
    destruct (rblock f x) as [[f1 y]| |] eqn:E1; cbn [obind fst snd] in H1; try discriminate.
    destruct (later_stages r fs rates (fb_decimators fb) y) as [[[fs1 decs1] yl]| |] eqn:E2; cbn [obind fst snd] in H1; try discriminate.
    destruct (run _ (f1 :: fs1, decs1) blocks) as [[[fs2 decs2] ys2]| |] eqn:E3; cbn [obind fst snd] in H1; try discriminate. injection H1 as <- <- <-.
    cbn [run] in H2. destruct (differences (fb_diffs fb) (y :: yl)) as [[ds1 o]| |] eqn:E4; cbn [obind fst snd] in H2; try discriminate.
    destruct (run differences ds1 ys2) as [[ds2 os2]| |] eqn:E5; cbn [obind fst snd] in H2; try discriminate. injection H2 as <- <-.
    cbn [run]. unfold process_block at 1. rewrite EF, ER, E1. cbn [obind]. rewrite E2. cbn [obind]. rewrite E4. cbn [obind fst snd].
    match goal with |- context [run process_block ?q blocks] => rewrite (IH q r rates fs2 decs2 ds2 ys2 os2) end; try reflexivity; [discriminate|exact E3|exact E5].
Qed.

Lemma bank_of n cs : forall prev rates x ws os, bankw prev cs rates x ws -> length os = length ws ->
  (forall j, (j < length ws)%nat -> nth j os [] = difference (nth j ws [])) -> (0 < n)%nat -> bank prev cs rates x os.
Proof.
  induction cs as [|c cs IH]; intros prev rates x ws os B L D N; destruct rates as [|r rates], ws as [|w ws]; cbn in B; try tauto; destruct os as [|o os]; cbn in L; try discriminate; [exact I|].
  destruct B as [B1 B2]. cbn [bank]. exists w. split; [exact B1|]. split; [exact (D 0%nat ltac:(cbn; lia))|].
  apply (IH r rates w ws os B2); [lia| |exact N]. intros j J. apply (D (S j)). cbn. lia.
Qed.

Lemma process_ok fb n cs r rates blocks : fb_rates fb = r :: rates -> fb_mics fb = n -> (0 < n)%nat -> cs <> [] ->
  Forall2 (fun c f => binit n c = Ok f) cs (fb_filters fb) -> length (fb_rates fb) = length cs -> falling r rates ->
  fb_decimators fb = repeat false (drops r (r :: rates)) -> fb_diffs fb = repeat (zero_tap n) (length cs) -> Forall (framed n) blocks ->
  exists fb' outs, run process_block fb blocks = Ok (fb', outs) /\ Forall (fun o => length o = length cs) outs /\ reset fb' = Ok fb /\
    fb_exposed fb' = fb_exposed fb /\ fb_rates fb' = fb_rates fb /\ fb_peaks fb' = fb_peaks fb /\ fb_bandwidths fb' = fb_bandwidths fb /\
    forall i, (i < n)%nat -> bank r cs (fb_rates fb) (chan i (concat blocks)) (map (fun j => chan i (stage_signal j outs)) (seq 0 (length cs))).
Proof.
  intros ER EM N0 NC H2 LR FA ED EDF HF.
  destruct (later_run n cs (fb_filters fb) (r :: rates) r blocks H2) as (fs' & decs' & ys & E1 & LY & FY & SY & CR & DR & B).
  { now rewrite <- ER. } { cbn. split; [lra|exact FA]. } { exact HF. }
  destruct (diff_run n (length cs) ys FY SY) as (ds' & outs & E2 & LO & FO & RS & SP).
  rewrite <- EDF in E2. rewrite <- ED in E1.
  assert (NF : fb_filters fb <> []) by (intros Q; rewrite Q in H2; inversion H2; congruence).
  eexists _, outs. split; [exact (run_process blocks fb r rates fs' decs' ds' ys outs ER NF E1 E2)|].
  split; [exact FO|]. split.
  - unfold reset. cbn [fb_filters fb_params fb_allow fb_mics fb_coeffs fb_rates fb_peaks fb_bandwidths fb_diffs fb_decimators fb_exposed].
    rewrite CR. cbn [obind]. rewrite EM. change (fun d : ttap => {| gain_prev := gain_prev d; gain_now := gain_now d; tstate := repeat 0 n |}) with (tap_reset n).
    rewrite RS, DR, <- ED, <- EDF, <- EM. now destruct fb.
  - cbn [fb_exposed fb_rates fb_peaks fb_bandwidths]. repeat (split; [reflexivity|]). intros i Hi. rewrite ER. eapply (bank_of n); [exact (B i Hi)| | |exact N0].
    + now rewrite !map_length.
    + intros j J. rewrite map_length, seq_length in J.
      rewrite !(nth_indep (map _ _) [] (chan i (stage_signal 0 []))) by (rewrite map_length, seq_length; exact J).
      rewrite (nth_indep _ _ ((fun j => chan i (stage_signal j outs)) 0%nat)) by (rewrite map_length, seq_length; exact J).
      rewrite (map_nth (fun j => chan i (stage_signal j outs))), seq_nth by exact J.
      rewrite (nth_indep _ _ ((fun j => chan i (stage_signal j ys)) 0%nat)) by (rewrite map_length, seq_length; exact J).
      rewrite (map_nth (fun j => chan i (stage_signal j ys))), seq_nth by exact J. cbn [Nat.add].
      rewrite SP by exact J. rewrite (two_tap_chan n) by (try apply SY; try apply repeat_length; exact J).
      rewrite nth_repeat. apply diff_from_eq.
Qed.
