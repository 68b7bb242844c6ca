From Verif Require Import Common ListLemmas Mealy BiquadModel BiquadSpec.
From Coq Require Import Field.

Section NoLaws.
Context {F : Type} (add sub mul : F -> F -> F).
Notation cstep := (channel_step add sub mul).
Notation bsample := (biquad_sample add sub mul).
Notation bblock := (biquad_block add sub mul).

Definition pure_sample (f : biquad F) (frame : list F) : biquad F * list F :=
  let r := map (fun p => cstep f (fst p) (snd p)) (combine (rows f) frame) in
  (with_rows f (map fst r), map snd r).

Definition wf (n : nat) (f : biquad F) : Prop := length (rows f) = n.

Lemma sample_ok n f frame : 1 <= n -> wf n f -> length frame = n ->
  bsample f frame = Ok (pure_sample f frame) /\ wf n (fst (pure_sample f frame)) /\
  length (snd (pure_sample f frame)) = n.
Proof.
  intros Hn HW HL. unfold biquad_sample. unfold wf in *. rewrite HW, HL, Nat.eqb_refl.
  replace (1 <=? n) with true by lia. cbn [andb oguard]. split; [reflexivity|].
  cbn [pure_sample fst snd rows with_rows]. rewrite !map_length, combine_length, HW, HL. lia.
Qed.

Lemma block_ok n f frames : 1 <= n -> wf n f -> Forall (fun fr => length fr = n) frames ->
  bblock f frames = Ok (scan pure_sample f frames) /\ wf n (fst (scan pure_sample f frames)) /\
  Forall (fun fr => length fr = n) (snd (scan pure_sample f frames)).
Proof.
  intros Hn HW HF. unfold biquad_block. replace (1 <=? length (rows f)) with true by (rewrite HW; lia).
  cbn [ocheck].
  destruct (run_scan bsample pure_sample (wf n) (fun fr => length fr = n)) with (xs := frames) (s := f) as [E I]; auto.
  { intros s x Hs Hx. destruct (sample_ok n s x Hn Hs Hx) as (A & B & _). auto. }
  split; [exact E|]. apply (scan_inv pure_sample (wf n) (fun fr => length fr = n)); auto.
  intros s x Hs Hx. destruct (sample_ok n s x Hn Hs Hx) as (_ & A & B). auto.
Qed.

Lemma blocks_ok n blocks : forall f, 1 <= n -> wf n f -> Forall (Forall (fun fr => length fr = n)) blocks ->
  exists outs, run bblock f blocks = Ok (fst (scan pure_sample f (concat blocks)), outs) /\
    concat outs = snd (scan pure_sample f (concat blocks)) /\
    map (@length _) outs = map (@length _) blocks /\
    wf n (fst (scan pure_sample f (concat blocks))).
Proof.
  intros f Hn HW HF.
  destruct (run_scan bblock (scan pure_sample) (wf n) (Forall (fun fr => length fr = n))) with (xs := blocks) (s := f) as [E I]; auto.
  { intros s x Hs Hx. destruct (block_ok n s x Hn Hs Hx) as (A & B & _). auto. }
  destruct (scan_blocks pure_sample blocks f) as (H1 & H2 & H3).
  exists (snd (scan (scan pure_sample) f blocks)). rewrite E. rewrite <- H1 at 1.
  split; [now destruct (scan (scan pure_sample) f blocks)|]. rewrite <- H1. auto.
Qed.

(* one channel *)
Lemma nth_map_lt {A B} (g : A -> B) l i d d' : i < length l -> nth i (map g l) d' = g (nth i l d).
Proof. intros H. rewrite (nth_indep _ d' (g d)) by (rewrite map_length; exact H). apply map_nth. Qed.

(* cascades *)
Lemma stages_sample_ok n fs : forall x, 1 <= n -> Forall (wf n) fs -> length x = n ->
  stages_sample add sub mul fs x = Ok (chain pure_sample fs x) /\
  Forall (wf n) (fst (chain pure_sample fs x)) /\ length (snd (chain pure_sample fs x)) = n.
Proof.
  induction fs as [|f fs IH]; intros x Hn HW HL; [repeat split; auto|].
  inversion HW as [|? ? Hf Hfs]; subst. cbn [stages_sample chain].
  destruct (sample_ok (length x) f x Hn Hf eq_refl) as (E & W & L). rewrite E. cbn [obind].
  destruct (IH (snd (pure_sample f x))) as (E2 & W2 & L2); [lia|rewrite <- L in Hfs; rewrite L in *; exact Hfs|exact L|].
  rewrite E2. cbn [obind fst snd]. split; [reflexivity|]. split; [constructor; assumption|exact L2].
Qed.

Lemma stages_block_ok n fs : forall x, 1 <= n -> Forall (wf n) fs -> Forall (fun fr => length fr = n) x ->
  stages_block add sub mul fs x = Ok (chain_scan pure_sample fs x) /\
  Forall (wf n) (fst (chain_scan pure_sample fs x)) /\
  Forall (fun fr => length fr = n) (snd (chain_scan pure_sample fs x)).
Proof.
  induction fs as [|f fs IH]; intros x Hn HW HL; [repeat split; auto|].
  inversion HW as [|? ? Hf Hfs]; subst. cbn [stages_block chain_scan].
  destruct (block_ok n f x Hn Hf HL) as (E & W & L). rewrite E. cbn [obind].
  destruct (IH (snd (scan pure_sample f x)) Hn Hfs L) as (E2 & W2 & L2).
  rewrite E2. cbn [obind fst snd]. split; [reflexivity|]. split; [constructor; assumption|exact L2].
Qed.

Lemma chain_scan_length {S A} (st : S -> A -> S * A) ss : forall xs, length (fst (chain_scan st ss xs)) = length ss.
Proof. induction ss as [|s ss IH]; intros xs; cbn; [reflexivity|now rewrite IH]. Qed.
Lemma chain_length {S A} (st : S -> A -> S * A) ss : forall x, length (fst (chain st ss x)) = length ss.
Proof. induction ss as [|s ss IH]; intros xs; cbn; [reflexivity|now rewrite IH]. Qed.

Lemma cascade_blocks_ok n fs blocks : 1 <= n -> 1 <= length fs -> Forall (wf n) fs ->
  Forall (Forall (fun fr => length fr = n)) blocks ->
  exists outs, run (cascade_block add sub mul) fs blocks = Ok (fst (chain_scan pure_sample fs (concat blocks)), outs) /\
    concat outs = snd (chain_scan pure_sample fs (concat blocks)) /\
    map (@length _) outs = map (@length _) blocks.
Proof.
  intros Hn Hfs HW HF.
  destruct (run_scan (cascade_block add sub mul) (chain_scan pure_sample)
     (fun s => 1 <= length s /\ Forall (wf n) s) (Forall (fun fr => length fr = n))) with (xs := blocks) (s := fs) as [E I]; auto.
  { intros s x [Hs1 Hs2] Hx. unfold cascade_block. replace (1 <=? length s) with true by lia. cbn [oguard].
    destruct (stages_block_ok n s x Hn Hs2 Hx) as (A & B & _). split; [exact A|]. rewrite chain_scan_length. auto. }
  destruct (chain_scan_blocks pure_sample blocks fs) as (H1 & H2 & H3).
  exists (snd (scan (chain_scan pure_sample) fs blocks)). rewrite E, <- H1.
  split; [now destruct (scan (chain_scan pure_sample) fs blocks)|]. auto.
Qed.

Lemma cascade_samples_ok n fs xs : 1 <= n -> 1 <= length fs -> Forall (wf n) fs ->
  Forall (fun fr => length fr = n) xs ->
  run (cascade_sample add sub mul) fs xs = Ok (chain_scan pure_sample fs xs).
Proof.
  intros Hn Hfs HW HF. rewrite <- scan_chain.
  destruct (run_scan (cascade_sample add sub mul) (chain pure_sample)
     (fun s => 1 <= length s /\ Forall (wf n) s) (fun fr => length fr = n)) with (xs := xs) (s := fs) as [E I]; auto.
  intros s x [Hs1 Hs2] Hx. unfold cascade_sample. replace (1 <=? length s) with true by lia. cbn [oguard].
  destruct (stages_sample_ok n s x Hn Hs2 Hx) as (A & B & _). split; [exact A|]. rewrite chain_length. auto.
Qed.

End NoLaws.

Section Channel.
Context {F : Type} (zero : F) (add sub mul : F -> F -> F).
Notation cstep := (channel_step add sub mul).
Notation pure_sample := (pure_sample add sub mul).
Lemma channel_scan n i frames : forall f, wf n f -> Forall (fun fr => length fr = n) frames -> i < n ->
  nth i (rows (fst (scan pure_sample f frames))) (zero, zero)
    = fst (scan (cstep f) (nth i (rows f) (zero, zero)) (channel zero i frames)) /\
  channel zero i (snd (scan pure_sample f frames))
    = snd (scan (cstep f) (nth i (rows f) (zero, zero)) (channel zero i frames)).
Proof.
  induction frames as [|fr frames IH]; intros f HW HF Hi; [split; reflexivity|].
  inversion HF as [|? ? Hfr Hfrs]; subst. unfold wf in *.
  assert (HW1 : length (rows (fst (pure_sample f fr))) = length fr).
  { cbn [BiquadProofs.pure_sample fst rows with_rows]. rewrite !map_length, combine_length, HW. lia. }
  destruct (IH (fst (pure_sample f fr)) HW1 Hfrs Hi) as [I1 I2].
  cbn [scan fst snd channel map]. fold (channel zero i frames).
  assert (P : nth i (rows (fst (pure_sample f fr))) (zero, zero) = fst (cstep f (nth i (rows f) (zero, zero)) (nth i fr zero))
            /\ nth i (snd (pure_sample f fr)) zero = snd (cstep f (nth i (rows f) (zero, zero)) (nth i fr zero))).
  { cbn [BiquadProofs.pure_sample fst snd rows with_rows]. rewrite map_map, map_map.
    rewrite !(nth_map_lt _ _ i ((zero,zero),zero)) by (rewrite combine_length, HW; lia).
    rewrite combine_nth by exact HW. split; reflexivity. }
  destruct P as [P1 P2]. rewrite I1. split.
  - rewrite P1. reflexivity.
  - fold (channel zero i (snd (scan pure_sample (fst (pure_sample f fr)) frames))).
    rewrite I2, P1, P2. reflexivity.
Qed.

End Channel.

(* initialisation *)
Section Init.
Context {F : Type} (zero one : F) (add sub mul div : F -> F -> F) (is_zero : F -> bool).
Notation bblock := (biquad_block add sub mul).
Notation pure_sample := (pure_sample add sub mul).
Lemma init_inv n c f : biquad_init zero one mul div is_zero n c = Ok f ->
  1 <= n /\ is_zero (a0 c) = false /\ wf n f /\
  ff0 f = mul (div one (a0 c)) (b0 c) /\ ff1 f = mul (div one (a0 c)) (b1 c) /\ ff2 f = mul (div one (a0 c)) (b2 c) /\
  fb1 f = mul (div one (a0 c)) (a1 c) /\ fb2 f = mul (div one (a0 c)) (a2 c) /\ rows f = repeat (zero, zero) n.
Proof using zero one mul div is_zero.
  clear add sub. unfold biquad_init. destruct (1 <=? n) eqn:E; [|discriminate]. cbn [ocheck].
  destruct (is_zero (a0 c)); [discriminate|]. cbn [negb ocheck]. intros H. injection H as <-.
  unfold wf. cbn [rows ff0 ff1 ff2 fb1 fb2]. rewrite repeat_length. repeat split. lia.
Qed.

Lemma reset_init n c f blocks f' outs :
  biquad_init zero one mul div is_zero n c = Ok f -> Forall (Forall (fun fr => length fr = n)) blocks ->
  run bblock f blocks = Ok (f', outs) -> biquad_reset zero f' = Ok f.
Proof.
  intros HI HF HR. destruct (init_inv n c f HI) as (Hn & _ & HW & _ & _ & _ & _ & _ & HR0).
  destruct (blocks_ok add sub mul n blocks f Hn HW HF) as (o & E & _ & _ & W). rewrite E in HR. injection HR as <- <-.
  unfold biquad_reset. rewrite W. replace (1 <=? n) with true by lia. cbn [ocheck]. f_equal.
  assert (K : forall xs g, with_rows (fst (scan pure_sample g xs)) (repeat (zero, zero) n) = with_rows g (repeat (zero, zero) n)).
  { induction xs as [|x xs IH]; intros g; [reflexivity|]. cbn [scan fst]. rewrite IH. reflexivity. }
  rewrite K, <- HR0. now destruct f.
Qed.
Lemma reset_scan n c f xs : biquad_init zero one mul div is_zero n c = Ok f -> Forall (fun fr => length fr = n) xs ->
  biquad_reset zero (fst (scan pure_sample f xs)) = Ok f.
Proof.
  intros HI HF. assert (HF1 : Forall (Forall (fun fr => length fr = n)) [xs]) by (constructor; [exact HF|constructor]).
  destruct (init_inv n c f HI) as (Hn & _ & HW & _).
  destruct (blocks_ok add sub mul n [xs] f Hn HW HF1) as (o & E & _). cbn [concat] in E. rewrite app_nil_r in E.
  exact (reset_init n c f [xs] _ o HI HF1 E).
Qed.
Lemma reset_cascade n cs fs : Forall2 (fun c f => biquad_init zero one mul div is_zero n c = Ok f) cs fs ->
  forall xs, Forall (fun fr => length fr = n) xs -> cascade_reset zero (fst (chain_scan pure_sample fs xs)) = Ok fs.
Proof.
  induction 1 as [|c f cs fs HI HR IH]; intros xs HF; [reflexivity|]. cbn [chain_scan fst cascade_reset].
  rewrite (reset_scan n c f xs HI HF). cbn [obind].
  destruct (init_inv n c f HI) as (Hn & _ & HW & _). destruct (block_ok add sub mul n f xs Hn HW HF) as (_ & _ & L).
  rewrite (IH _ L). reflexivity.
Qed.
Lemma init_stages_inv n : forall cs fs, init_stages zero one mul div is_zero n cs = Ok fs ->
  Forall2 (fun c f => biquad_init zero one mul div is_zero n c = Ok f) cs fs.
Proof.
  induction cs as [|c cs IH]; intros fs; cbn [init_stages].
  - intros E. injection E as <-. constructor.
  - destruct (biquad_init zero one mul div is_zero n c) eqn:E1; [|discriminate|discriminate]. cbn [obind].
    destruct (init_stages zero one mul div is_zero n cs) eqn:E2; [|discriminate|discriminate]. cbn [obind].
    intros E. injection E as <-. constructor; auto.
Qed.
End Init.

Section Laws.
Context {F : Type} (zero one : F) (add mul sub : F -> F -> F) (opp : F -> F) (div : F -> F -> F) (inv : F -> F).
Context (FT : field_theory zero one add mul sub opp div inv (@eq F)).
Context (is_zero : F -> bool) (ZT : forall x, is_zero x = true <-> x = zero).
Add Field field_F : FT.

Notation "x + y" := (add x y). Notation "x * y" := (mul x y). Notation "x - y" := (sub x y). Notation "x / y" := (div x y).

Lemma scan_difference c (f : biquad F) :
  a0 c <> zero ->
  ff0 f = (one / a0 c) * b0 c -> ff1 f = (one / a0 c) * b1 c -> ff2 f = (one / a0 c) * b2 c ->
  fb1 f = (one / a0 c) * a1 c -> fb2 f = (one / a0 c) * a2 c ->
  forall xs s1 s2 s3 s4 x1 x2 y1 y2,
  x1 = s1 + fb1 f * s2 + fb2 f * s3 -> x2 = s2 + fb1 f * s3 + fb2 f * s4 ->
  y1 = ff0 f * s1 + ff1 f * s2 + ff2 f * s3 -> y2 = ff0 f * s2 + ff1 f * s3 + ff2 f * s4 ->
  difference_equation add sub mul c x1 x2 y1 y2 xs (snd (scan (channel_step add sub mul f) (s1, s2) xs)).
Proof.
  intros HA E0 E1 E2 E3 E4. induction xs as [|x xs IH]; intros s1 s2 s3 s4 x1 x2 y1 y2 X1 X2 Y1 Y2; [exact I|].
  cbn [scan snd difference_equation channel_step fst]. split.
  - subst x1 x2 y1 y2. rewrite E0, E1, E2, E3, E4. field. exact HA.
  - apply IH with (s3 := s2) (s4 := s3); [ring|exact X1|ring|exact Y1].
Qed.

Lemma init_filters n c f xs : biquad_init zero one mul div is_zero n c = Ok f ->
  filters zero add sub mul c xs (snd (scan (channel_step add sub mul f) (zero, zero) xs)).
Proof.
  intros H. destruct (init_inv zero one mul div is_zero n c f H) as (Hn & HZ & HW & E0 & E1 & E2 & E3 & E4 & _).
  assert (HA : a0 c <> zero) by (intros Q; apply ZT in Q; congruence).
  apply (scan_difference c f HA E0 E1 E2 E3 E4 xs zero zero zero zero); ring.
Qed.

Lemma difference_unique c : a0 c <> zero -> forall x x1 x2 y1 y2 y y',
  difference_equation add sub mul c x1 x2 y1 y2 x y -> difference_equation add sub mul c x1 x2 y1 y2 x y' -> y = y'.
Proof.
  intros HA. induction x as [|x0 x IH]; intros x1 x2 y1 y2 [|u y] [|v y'] H1 H2; cbn in *; try contradiction; auto.
  destruct H1 as [H1 K1]. destruct H2 as [H2 K2].
  assert (u = v). { assert (E : a0 c * u = a0 c * v) by congruence.
    transitivity (a0 c * u / a0 c); [field; exact HA|rewrite E; field; exact HA]. }
  subst v. f_equal. eapply IH; eassumption.
Qed.

Lemma portable_filters c xs : a0 c = one ->
  filters zero add sub mul c xs (snd (scan (portable_sample add sub mul c) (zero, zero) xs)).
Proof.
  intros HA. unfold filters.
  assert (G : forall xs s1 s2 s3 s4 x1 x2 y1 y2,
    x1 = s1 + a1 c * s2 + a2 c * s3 -> x2 = s2 + a1 c * s3 + a2 c * s4 ->
    y1 = b0 c * s1 + b1 c * s2 + b2 c * s3 -> y2 = b0 c * s2 + b1 c * s3 + b2 c * s4 ->
    difference_equation add sub mul c x1 x2 y1 y2 xs (snd (scan (portable_sample add sub mul c) (s1, s2) xs))).
  { clear xs. induction xs as [|x xs IH]; intros s1 s2 s3 s4 x1 x2 y1 y2 X1 X2 Y1 Y2; [exact I|].
    cbn [scan snd difference_equation portable_sample fst]. split.
    - subst x1 x2 y1 y2. rewrite HA. ring.
    - apply IH with (s3 := s2) (s4 := s3); [ring|exact X1|ring|exact Y1]. }
  apply (G xs zero zero zero zero); ring.
Qed.

Lemma filter_blocks n c f blocks : biquad_init zero one mul div is_zero n c = Ok f ->
  Forall (Forall (fun fr => length fr = n)) blocks ->
  exists f' outs, run (biquad_block add sub mul) f blocks = Ok (f', outs) /\
    map (@length _) outs = map (@length _) blocks /\
    forall i, i < n -> filters zero add sub mul c (channel zero i (concat blocks)) (channel zero i (concat outs)).
Proof.
  intros H HF. destruct (init_inv zero one mul div is_zero n c f H) as (Hn & HZ & HW & _ & _ & _ & _ & _ & HR).
  destruct (blocks_ok add sub mul n blocks f Hn HW HF) as (outs & E & EC & ML & _).
  exists (fst (scan (pure_sample add sub mul) f (concat blocks))), outs. split; [exact E|]. split; [exact ML|].
  intros i Hi. rewrite EC.
  destruct (channel_scan zero add sub mul n i (concat blocks) f HW (Forall_concat _ _ HF) Hi) as [_ ->].
  rewrite HR, nth_repeat. eapply init_filters, H.
Qed.

Lemma chain_channels n cs : forall fs xs,
  Forall2 (fun c f => biquad_init zero one mul div is_zero n c = Ok f) cs fs ->
  Forall (fun fr => length fr = n) xs -> forall i, i < n ->
  cascade_filters zero add sub mul cs (channel zero i xs)
    (channel zero i (snd (chain_scan (pure_sample add sub mul) fs xs))).
Proof.
  induction cs as [|c cs IH]; intros fs xs H2 HF i Hi; inversion H2 as [|? f ? fs' HI HR]; subst; [reflexivity|].
  cbn [chain_scan snd cascade_filters].
  destruct (init_inv zero one mul div is_zero n c f HI) as (Hn & HZ & HW & _ & _ & _ & _ & _ & HR0).
  exists (channel zero i (snd (scan (pure_sample add sub mul) f xs))). split.
  - destruct (channel_scan zero add sub mul n i xs f HW HF Hi) as [_ ->].
    rewrite HR0, nth_repeat. eapply init_filters, HI.
  - apply IH; [exact HR| |exact Hi]. destruct (block_ok add sub mul n f xs Hn HW HF) as (_ & _ & L). exact L.
Qed.

(* steady state *)
Lemma steady_step c f v : a0 c <> zero -> (a0 c + a1 c + a2 c) <> zero ->
  ff0 f = (one / a0 c) * b0 c -> ff1 f = (one / a0 c) * b1 c -> ff2 f = (one / a0 c) * b2 c ->
  fb1 f = (one / a0 c) * a1 c -> fb2 f = (one / a0 c) * a2 c ->
  let s := v / (fb1 f + fb2 f + one) in
  channel_step add sub mul f (s, s) v = ((s, s), v * (b0 c + b1 c + b2 c) / (a0 c + a1 c + a2 c)).
Proof.
  intros HA HS E0 E1 E2 E3 E4 s. unfold channel_step. cbn [fst snd]. unfold s. rewrite E0, E1, E2, E3, E4.
  assert (D : one / a0 c * a1 c + one / a0 c * a2 c + one <> zero).
  { intros Q. apply HS. transitivity (a0 c * (one / a0 c * a1 c + one / a0 c * a2 c + one)); [field; exact HA|].
    rewrite Q. ring. }
  assert (D2 : a1 c + a2 c + a0 c <> zero).
  { intros Q. apply HS. transitivity (a1 c + a2 c + a0 c); [ring|exact Q]. }
  f_equal; [f_equal|]; field; repeat split; auto; intros Q; apply HS; rewrite <- Q; ring.
Qed.

Definition coeffs_of (c : coeffs F) (f : biquad F) : Prop :=
  ff0 f = (one / a0 c) * b0 c /\ ff1 f = (one / a0 c) * b1 c /\ ff2 f = (one / a0 c) * b2 c /\
  fb1 f = (one / a0 c) * a1 c /\ fb2 f = (one / a0 c) * a2 c.
Definition dc (c : coeffs F) (v : F) : F := v * (b0 c + b1 c + b2 c) / (a0 c + a1 c + a2 c).

Lemma steady_sample c f vs : a0 c <> zero -> (a0 c + a1 c + a2 c) <> zero -> coeffs_of c f ->
  rows f = map (fun v => (v / (fb1 f + fb2 f + one), v / (fb1 f + fb2 f + one))) vs ->
  pure_sample add sub mul f vs = (f, map (dc c) vs).
Proof.
  intros HA HS (E0 & E1 & E2 & E3 & E4) HR. unfold pure_sample. rewrite HR.
  assert (K : map (fun p => channel_step add sub mul f (fst p) (snd p))
      (combine (map (fun v => (v / (fb1 f + fb2 f + one), v / (fb1 f + fb2 f + one))) vs) vs)
      = map (fun v => ((v / (fb1 f + fb2 f + one), v / (fb1 f + fb2 f + one)), dc c v)) vs).
  { clear HR. induction vs as [|v vs IH]; [reflexivity|]. cbn [map combine fst snd]. rewrite IH. f_equal.
    exact (steady_step c f v HA HS E0 E1 E2 E3 E4). }
  rewrite K, !map_map. cbn [fst snd]. rewrite <- HR. now destruct f.
Qed.

Lemma steady_scan c f vs k : a0 c <> zero -> (a0 c + a1 c + a2 c) <> zero -> coeffs_of c f ->
  rows f = map (fun v => (v / (fb1 f + fb2 f + one), v / (fb1 f + fb2 f + one))) vs ->
  scan (pure_sample add sub mul) f (repeat vs k) = (f, repeat (map (dc c) vs) k).
Proof.
  intros HA HS HC HR. induction k as [|k IH]; [reflexivity|]. cbn [repeat scan].
  rewrite (steady_sample c f vs HA HS HC HR). cbn [fst snd]. now rewrite IH.
Qed.

Lemma steady_blocks n c f vs sizes : biquad_init zero one mul div is_zero n c = Ok f ->
  length vs = n -> (a0 c + a1 c + a2 c) <> zero ->
  exists g, set_steady_state one add div f vs = Ok g /\
    run (biquad_block add sub mul) g (map (repeat vs) sizes) = Ok (g, map (repeat (map (dc c) vs)) sizes).
Proof.
  intros H HL HS. destruct (init_inv zero one mul div is_zero n c f H) as (Hn & HZ & HW & E0 & E1 & E2 & E3 & E4 & HR).
  assert (HA : a0 c <> zero) by (intros Q; apply ZT in Q; congruence).
  unfold set_steady_state. replace (length vs =? length (rows f))%nat with true by (rewrite HW, HL; symmetry; apply Nat.eqb_refl).
  cbn [oguard]. eexists. split; [reflexivity|].
  match goal with |- run _ ?g _ = _ => set (g0 := g) end.
  assert (W : wf n g0) by (unfold wf, g0; cbn [rows with_rows]; rewrite map_length; exact HL).
  destruct (blocks_ok add sub mul n (map (repeat vs) sizes) g0 Hn W) as (outs & E & EC & ML & _).
  { apply Forall_forall. intros b Hb. apply in_map_iff in Hb. destruct Hb as (k & <- & _). now apply Forall_repeat'. }
  rewrite concat_repeat in E, EC.
  rewrite (steady_scan c g0 vs) in E, EC; [|exact HA|exact HS|repeat split; assumption|reflexivity|exact HA|exact HS|repeat split; assumption|reflexivity].
  cbn [fst snd] in E, EC. rewrite E. do 2 f_equal. apply concat_const; [|exact EC].
  rewrite ML, map_map. rewrite <- (map_id sizes) at 2. apply map_ext. intros k. apply repeat_length.
Qed.
End Laws.
