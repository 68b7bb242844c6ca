(* C28: setters of the parametric equaliser and fitting of its gains. *)
From Verif Require Import Common RealUtil ListLemmas BiquadModel DesignModel DesignSpec CascadeModel CascadeProofs2 EqualizerModel EqualizerSpec EqualizerProofs.
Local Open Scope R_scope.

Lemma designs_app fs l1 : forall l2, designs fs (l1 ++ l2) = obind (designs fs l1) (fun a => obind (designs fs l2) (fun b => Ok (a ++ b))).
Proof.
  induction l1 as [|[s b] l1 IH]; intros l2; cbn [app designs obind].
  - destruct (designs fs l2); reflexivity.
  - destruct b; [|apply IH]. destruct (design_stage fs s) as [c| |]; cbn [obind]; try reflexivity. rewrite IH.
    destruct (designs fs l1) as [a| |]; cbn [obind]; try reflexivity. destruct (designs fs l2); reflexivity.
Qed.

(* A new stage comes last and is enabled; nothing else changes.  Its design is the last of the
   designs that make up the filter. *)
Theorem C28_add_stage : forall e s,
  num_stages (add_stage e s) = S (num_stages e) /\ num_enabled (add_stage e s) = S (num_enabled e) /\
  nth_error (stages (add_stage e s)) (num_stages e) = Some (s, true) /\
  (forall i, (i < num_stages e)%nat -> nth_error (stages (add_stage e s)) i = nth_error (stages e) i) /\
  gain_db (add_stage e s) = gain_db e /\
  forall fs ds d, designs fs (stages e) = Ok ds -> design_stage fs s = Ok d -> designs fs (stages (add_stage e s)) = Ok (ds ++ [d]).
Proof.
  intros e s. unfold num_stages, num_enabled, add_stage. cbn [stages gain_db].
  split; [rewrite app_length; cbn; lia|]. split; [rewrite filter_app, app_length; cbn; lia|].
  split; [rewrite nth_error_app2, Nat.sub_diag by lia; reflexivity|]. split; [intros i Hi; apply nth_error_app1; exact Hi|]. split; [reflexivity|].
  intros fs ds d HD Hd. rewrite designs_app, HD. cbn [designs obind]. rewrite Hd. reflexivity.
Qed.
Print Assumptions C28_add_stage.

(* Enabling or bypassing a stage changes that and nothing else; an index out of range aborts. *)
Theorem C28_stage_enabled : forall e i b,
  (forall e', set_stage_enabled e i b = Ok e' ->
     (i < num_stages e)%nat /\ gain_db e' = gain_db e /\ map fst (stages e') = map fst (stages e) /\
     forall j, nth_error (map snd (stages e')) j = if Nat.eqb j i then Some b else nth_error (map snd (stages e)) j) /\
  ((i < num_stages e)%nat -> exists e', set_stage_enabled e i b = Ok e').
Proof.
  intros e i b. unfold set_stage_enabled, num_stages. split.
  - intros e' H. destruct (nth_error (stages e) i) as [[s b0]|] eqn:E; [|discriminate]. injection H as <-. cbn [gain_db stages].
    assert (Hi : (i < length (stages e))%nat) by (apply nth_error_Some; rewrite E; discriminate).
    split; [exact Hi|]. split; [reflexivity|]. destruct (nth_error_split _ _ E) as (l1 & l2 & Es & El). rewrite Es.
    assert (Sp : splice i [(s, b)] (l1 ++ (s, b0) :: l2) = l1 ++ (s, b) :: l2).
    { unfold splice. cbn [length]. rewrite firstn_app, <- El, Nat.sub_diag, firstn_all, firstn_O, app_nil_r. rewrite skipn_app, skipn_all2 by lia. replace (length l1 + 1 - length l1)%nat with 1%nat by lia. reflexivity. }
    rewrite Sp. split; [rewrite !map_app; reflexivity|]. intros j. rewrite !map_app. cbn [map snd].
    destruct (Nat.eqb_spec j i) as [->|N].
    + rewrite nth_error_app2 by (rewrite map_length; lia). rewrite map_length, El, Nat.sub_diag. reflexivity.
    + destruct (Nat.ltb_spec j (length l1)).
      * rewrite !nth_error_app1 by (rewrite map_length; lia). reflexivity.
      * rewrite !nth_error_app2 by (rewrite map_length; lia). rewrite map_length. replace (j - length l1)%nat with (S (j - length l1 - 1)) by lia. reflexivity.
  - intros H. destruct (nth_error (stages e) i) as [[s b0]|] eqn:E; [eexists; reflexivity|]. apply nth_error_None in E. lia.
Qed.
Print Assumptions C28_stage_enabled.

Lemma combine_fst {A B} (l : list A) (g : list B) : (length l <= length g)%nat -> map fst (combine l g) = l.
Proof. revert g; induction l as [|x l IH]; intros [|y g] H; cbn in *; try reflexivity; try lia. now rewrite IH by lia. Qed.
Lemma combine_snd {A B} (l : list A) (g : list B) : length g = S (length l) -> map snd (combine l g) = removelast g.
Proof.
  revert g; induction l as [|x l IH]; intros g H.
  - destruct g as [|y [|z g]]; cbn in *; try reflexivity; lia.
  - destruct g as [|y g]; [cbn in H; lia|]. cbn [length] in H. cbn [combine map snd]. rewrite IH by lia. destruct g; [cbn in H; lia|]. reflexivity.
Qed.

(* the gains of the stages followed by the overall gain *)
Definition all_gains (e : equalizer) : list R := map (fun p => stage_gain_db (fst p)) (stages e) ++ [gain_db e].
(* everything but the gains *)
Definition shape (e : equalizer) : list (stage_type * R * R * bool) :=
  map (fun p => (type (fst p), frequency_hz (fst p), quality_factor (fst p), snd p)) (stages e).

Lemma shape_length e : length (shape e) = num_stages e.
Proof. apply map_length. Qed.
Lemma set_gains_ok e g e' : set_gains e g = Ok e' -> all_gains e' = g /\ shape e' = shape e /\ length g = S (num_stages e).
Proof.
  unfold set_gains, ocheck. destruct (Nat.eqb_spec (length g) (num_stages e + 1)) as [L|]; [|discriminate]. intros [= <-].
  unfold all_gains, shape, num_stages in *. cbn [stages gain_db]. rewrite !map_map. cbn [fst snd with_gain stage_gain_db type frequency_hz quality_factor].
  assert (N : g <> []) by (intros ->; cbn in L; lia). split; [|split; [|lia]].
  - rewrite <- (map_map snd (fun x => x)), map_id, combine_snd by lia. symmetry. apply app_removelast_last. exact N.
  - rewrite <- (map_map fst (fun p => (type (fst p), frequency_hz (fst p), quality_factor (fst p), snd p))), combine_fst by lia. reflexivity.
Qed.
Lemma fit_loop_ok solve stop fs : forall it gains e e', (0 < it)%nat -> fit_loop solve stop it fs gains e = Ok e' ->
  shape e' = shape e /\ exists cs g, all_gains e' = solve cs g.
Proof.
  induction it as [|it IH]; intros gains e e' Hit H; [lia|]. cbn [fit_loop] in H.
  destruct (get_coefficients (set_gain_db e 0) fs) as [cs| |]; try discriminate. cbn [obind] in H.
  unfold oguard in H. destruct (length gains - 1 <=? length cs)%nat; [|discriminate]. destruct (length (solve cs gains) =? length gains)%nat; [|discriminate].
  destruct (set_gains (set_gain_db e 0) (solve cs gains)) as [e2| |] eqn:E2; try discriminate. cbn [obind] in H.
  destruct (set_gains_ok _ _ _ E2) as (G & Sh & _). assert (Sh' : shape e2 = shape e) by exact Sh.
  destruct (stop (solve cs gains) gains).
  - injection H as <-. split; [exact Sh'|]. exists cs, gains. exact G.
  - destruct it as [|it].
    + injection H as <-. split; [exact Sh'|]. exists cs, gains. exact G.
    + destruct (IH _ _ _ ltac:(lia) H) as (S2 & X). split; [rewrite S2; exact Sh'|exact X].
Qed.
(* Fitting changes the gains only: types, frequencies, quality factors and enabled flags stay.  The
   gains afterwards are exactly a solution of the least squares problem, the overall gain last. *)
Theorem C28_fit_gains_only : forall solve stop n m it fs e e', (0 < it)%nat -> fit_gains solve stop n m it fs e = Ok e' ->
  shape e' = shape e /\ exists cs g, all_gains e' = solve cs g.
Proof.
  intros solve stop n m it fs e e' Hit H. unfold fit_gains, ocheck in H. destruct (n =? m)%nat; [|discriminate].
  destruct (set_gains e _) as [e1| |] eqn:E1; try discriminate. cbn [obind] in H. destruct (set_gains_ok _ _ _ E1) as (_ & Sh & _).
  destruct (fit_loop_ok _ _ _ _ _ _ _ Hit H) as (S2 & X). split; [rewrite S2; exact Sh|exact X].
Qed.
Print Assumptions C28_fit_gains_only.
(* ClearAllGains keeps frequencies, quality factors, types and the bypass status of shelves and peaks. *)
Theorem C28_cleared_keeps : forall e i t f q b, nth_error (shape e) i = Some (t, f, q, b) ->
  exists b', nth_error (shape (clear_all_gains e)) i = Some (t, f, q, b') /\
  (t = LowShelf \/ t = Peak \/ t = HighShelf -> b' = b) /\ (t = Lowpass \/ t = Highpass -> b' = false) /\ Forall (eq 0) (all_gains (clear_all_gains e)).
Proof.
  intros e i t f q b H. unfold shape in *. rewrite nth_error_map in H. destruct (nth_error (stages e) i) as [[s b0]|] eqn:E; [|discriminate].
  cbn in H. injection H as Ht Hf Hq Hb. exists (match t with Lowpass | Highpass => false | _ => b end).
  split; [unfold clear_all_gains; cbn [stages]; rewrite nth_error_map, nth_error_map, E; cbn; rewrite Ht, Hf, Hq, Hb; reflexivity|].
  split; [intros [-> | [-> | ->]]; reflexivity|]. split; [intros [-> | ->]; reflexivity|].
  unfold all_gains, clear_all_gains. cbn [stages gain_db]. apply Forall_app. split; [|repeat constructor].
  rewrite map_map. apply Forall_map. apply Forall_forall. intros x _. reflexivity.
Qed.
Print Assumptions C28_cleared_keeps.

Definition wide : stage := {| type := Peak; frequency_hz := 1; quality_factor := 1 / 4; stage_gain_db := 6 |}.
Lemma wide_design : exists c, design_stage 4 wide = Ok c /\ second_order c.
Proof.
  unfold design_stage, wide. cbn [type frequency_hz quality_factor stage_gain_db].
  assert (G : 1 < db_to_linear 6) by (unfold db_to_linear; rewrite <- (Rpower_O 10) by lra; apply Rpower_lt; lra). set (g := db_to_linear 6) in *. clearbody g.
  unfold peak_symmetric. rewrite Rltb_false by lra. unfold peak, check_arguments. rewrite (Rltb_true 1 (4 / 2)), (Rltb_true 0 1), (Rltb_true 0 (1 / 4)), (Rleb_true 0 g) by lra. cbn [ocheck]. cbv zeta.
  unfold bilinear_transform. rewrite (Rltb_true 0 4), (Rleb_true 0 1), (Rltb_true 1 (4 / 2)) by lra. cbn [ocheck]. cbv zeta. eexists. split; [reflexivity|].
  assert (EK : compute_K 1 4 = 2 * PI). { unfold compute_K. rewrite Rltb_false by lra. replace (PI * 1 / 4) with (PI / 4) by field. rewrite tan_PI4. field. }
  rewrite EK. pose proof PI_RGT_0 as HP. set (p := PI) in *. clearbody p. unfold second_order, normalize, make_coeffs, bilinear_map. cbn [fst snd b0 b1 b2 a0 a1 a2]. unfold tolerance.
  assert (DIV : forall x k, x = k * (24 * (p * p)) -> x / (1 * (2 * p) * (2 * p) + 2 * p * 1 / (1 / 4) * (2 * p) + 2 * p * 1 * (2 * p * 1)) = k).
  { intros x k ->. replace (1 * (2 * p) * (2 * p) + 2 * p * 1 / (1 / 4) * (2 * p) + 2 * p * 1 * (2 * p * 1)) with (24 * (p * p)) by field. field. lra. }
  assert (E1 : ((0 + 1) * (2 * p) * (2 * p) - g * (2 * p * 1 / (1 / 4)) * (2 * p) + (0 + 2 * p * 1 * (2 * p * 1))) / (1 * (2 * p) * (2 * p) + 2 * p * 1 / (1 / 4) * (2 * p) + 2 * p * 1 * (2 * p * 1)) = - ((4 * g - 2) / 6)) by (apply DIV; field).
  assert (E2 : (1 * (2 * p) * (2 * p) - 2 * p * 1 / (1 / 4) * (2 * p) + 2 * p * 1 * (2 * p * 1)) / (1 * (2 * p) * (2 * p) + 2 * p * 1 / (1 / 4) * (2 * p) + 2 * p * 1 * (2 * p * 1)) = - (1 / 3)) by (apply DIV; field).
  rewrite E1, E2, !Rabs_Ropp, !Rabs_pos_eq by lra. lra.
Qed.
(* a fit of one peak stage with the constant solution (2 dB, 1 dB overall) *)
Example C28_fit_example : exists e', fit_gains (fun _ _ => [2; 1]) (fun _ _ => true) 3 3 1 4 {| gain_db := 5; stages := [(wide, true)] |} = Ok e' /\
  all_gains e' = [2; 1] /\ gain_db e' = 1.
Proof.
  unfold fit_gains, ocheck. cbn [Nat.eqb]. unfold num_enabled. cbn [stages filter snd length Nat.add repeat].
  unfold set_gains at 1, ocheck. cbn [length num_stages stages Nat.add Nat.eqb obind last combine map fst snd]. unfold fit_loop.
  unfold set_gain_db. cbn [stages gain_db].
  set (e := {| gain_db := 0; stages := [(wide, true)] |}).
  assert (G : exists cs, get_coefficients e 4 = Ok cs /\ (1 <= length cs)%nat).
  { destruct (wide_design) as (c & E & SO). exists (adjust_gain (db_to_linear (gain_db e)) (cascade_of [c])). split.
    - apply (coefficients_so 4 e [c]); [lra| |apply Forall_cons; [exact SO|apply Forall_nil]]. cbn [designs e stages]. rewrite E. reflexivity.
    - rewrite adjust_gain_length. cbn. lia. }
  destruct G as (cs & EG & L). change (get_coefficients _ 4) with (get_coefficients e 4). rewrite EG. cbn [obind]. unfold oguard. destruct (Nat.leb_spec (length [6; 6] - 1) (length cs)) as [_|X]; [|cbn in X; lia].
  cbn [length Nat.eqb]. eexists. split; [reflexivity|]. split; reflexivity.
Qed.
