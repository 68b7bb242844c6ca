(* Init of the auditory filterbank: the stages one after another, and the channels. *)
From Coq Require Import ZArith Reals Lra Lia List Bool Psatz Sorted.
From Coquelicot Require Import Coquelicot.
From Verif Require Import Common CInt ListLemmas RealUtil BiquadModel FirModel DesignModel DesignSpec DesignProofs CascadeModel CascadeSpec
  PeakModel PeakSpec PeakProofs3 AuditoryModel AuditorySpec AuditoryProofs AuditoryProofs2 AuditoryProofs3.
Import ListNotations.
Local Open Scope R_scope.
Local Notation C := Complex.C.
Notation binit := (biquad_init 0 1 Rmult Rdiv (fun x => Reqb x 0)).

Definition coeffs_of (cs : list (coeffs R)) : list (coeffs R) := match cs with [] => [identity_coeffs] | _ => cs end.
Record Inv (n : nat) (cs : list (coeffs R)) (d : design) : Prop := {
  I_coeffs : d_coeffs d = coeffs_of cs;
  I_rates : length (d_rates d) = length cs;
  I_peaks : length (d_peaks d) = length cs;
  I_good : Forall good cs;
  I_filters : Forall2 (fun c f => binit n c = Ok f) cs (d_filters d);
  I_diffs : d_diffs d = repeat (tt_init (repeat 0 n) (-1, 1)) (length cs);
  I_unit : forall k, (k < length cs)%nat -> unit_peak cs (d_rates d) k (nth k (d_peaks d) 0) }.

(* the number of decimators the stages use *)
Fixpoint drops (prev : R) (rates : list R) : nat :=
  match rates with [] => 0%nat | r :: rs => ((if Rle_dec prev r then 0 else 1) + drops r rs)%nat end.

Lemma adjust_last_snoc g cs c : adjust_last g (cs ++ [c]) = cs ++ [adjust_stage g c].
Proof.
  induction cs as [|a cs IH]; [reflexivity|]. change ((a :: cs) ++ [c]) with (a :: (cs ++ [c])).
  destruct (cs ++ [c]) as [|q l] eqn:E; [destruct cs; discriminate|]. rewrite <- E in *.
  transitivity (a :: adjust_last g (cs ++ [c])); [rewrite E; reflexivity|]. now rewrite IH.
Qed.
Lemma adjust_last_length g cs : length (adjust_last g cs) = length cs.
Proof.
  destruct cs as [|q l] using rev_ind; [reflexivity|]. rewrite adjust_last_snoc, !app_length. reflexivity.
Qed.
Lemma repeat_snoc {A} (x : A) m : repeat x m ++ [x] = repeat x (S m).
Proof. replace (S m) with (m + 1)%nat by lia. now rewrite repeat_app. Qed.

Section Design.
Context (p : params) (allow : bool) (n : nat).
Hypothesis N0 : (0 < n)%nat.
Hypothesis Zeta : 0 < pole_zeta p < 1 / 2.
Hypothesis Dec : allow = true -> 6 < max_samples_per_cycle p /\ 0 < min_sample_rate p.

Definition next_rate stage rate pole := if decimate_first p allow stage rate pole then rate / 2 else rate.
Definition stage_res rate pole := res (compute_K pole rate / (2 * PI * pole)) (pole_zeta p).

Lemma decimate_iff stage rate pole : 0 < pole -> decimate_first p allow stage rate pole = true <->
  (allow = true /\ (0 < stage)%nat /\ max_samples_per_cycle p * pole < rate /\ min_sample_rate p <= rate / 2).
Proof.
  intros P. unfold decimate_first. rewrite !andb_true_iff, Nat.ltb_lt.
  assert (E : Rltb (max_samples_per_cycle p) (rate / pole) = true <-> max_samples_per_cycle p * pole < rate).
  { destruct (Rltb_spec (max_samples_per_cycle p) (rate / pole)) as [L|L]; split; try discriminate; try tauto; intros H.
    - apply (Rmult_lt_compat_r pole) in L; [|exact P]. unfold Rdiv in L. rewrite Rmult_assoc, Rinv_l, Rmult_1_r in L by lra. exact L.
    - exfalso. apply L. apply (Rmult_lt_reg_r pole); [exact P|]. unfold Rdiv. rewrite Rmult_assoc, Rinv_l by lra. lra. }
  rewrite E. destruct (Rleb_spec (2 * min_sample_rate p) rate) as [L|L]; split; intros H; decompose [and] H; repeat split; try assumption; try lra; try discriminate.
Qed.
Lemma next_range stage rate pole : 0 < pole < rate / 2 -> 0 < pole < next_rate stage rate pole / 2 /\ 0 < next_rate stage rate pole.
Proof.
  intros P. unfold next_rate. destruct (decimate_first p allow stage rate pole) eqn:E; [|lra].
  apply decimate_iff in E; [|lra]. destruct E as (A & _ & M & _). destruct (Dec A) as [D _].
  assert (6 * pole < max_samples_per_cycle p * pole) by (apply Rmult_lt_compat_r; lra). lra.
Qed.
Lemma resonator_ok rate pole : 0 < pole < rate / 2 -> resonator p rate pole = Ok (stage_res rate pole) /\ good (stage_res rate pole) /\ clear_b (stage_res rate pole).
Proof.
  intros P. destruct (resonator_eq p rate pole) as [E X]; try lra. split; [exact E|]. split; [now apply res_good|].
  unfold clear_b, stage_res. pose proof (res_b2 _ _ X Zeta). rewrite Rabs_pos_eq by lra. unfold tolerance. lra.
Qed.

(* a stage is designed when appending does not merge anything *)
Lemma stage_ok stage rate pole cs d : Inv n cs d -> 0 < pole < rate / 2 ->
  let r := next_rate stage rate pole in let c := stage_res r pole in
  append_biquad tolerance (coeffs_of cs) c = Ok (cs ++ [c]) ->
  exists d' g, design_stage p allow n stage rate pole d = Ok (d', r) /\ g <> 0 /\ Inv n (cs ++ [adjust_stage g c]) d' /\
    d_rates d' = d_rates d ++ [r] /\
    d_decimators d' = if decimate_first p allow stage rate pole then d_decimators d ++ [false] else d_decimators d.
Proof.
  intros [IC IR IP IG IF ID IU] P r c A. destruct (next_range stage rate pole P) as [P2 R0]. fold r in P2, R0.
  destruct (resonator_ok r pole P2) as (E & G & _). fold c in E, G.
  assert (GA : Forall good (cs ++ [c])) by (apply Forall_app; split; [exact IG|constructor; [exact G|constructor]]).
  destruct (peak_found cs c (d_rates d) r (length cs) GA (eq_sym IR) IR R0) as (w & EP & GP & UP).
  set (gn := Gh (cs ++ [c]) (d_rates d ++ [r]) w) in *.
  assert (GN : 1 / gn <> 0) by (assert (0 < 1 / gn) by (apply Rdiv_lt_0_compat; lra); lra).
  assert (GG : good (adjust_stage (1 / gn) c)) by (apply adjust_good; [exact GN|exact G]).
  assert (BI : exists f, binit n (adjust_stage (1 / gn) c) = Ok f).
  { unfold biquad_init. destruct (Nat.leb_spec 1 n); [|lia]. cbn [ocheck].
    change (a0 (adjust_stage (1 / gn) c)) with (a0 c). destruct (Reqb_spec (a0 c) 0) as [Q|_]; [exfalso; destruct G as (_ & G & _); lra|].
    cbn [negb ocheck]. eauto. }
  destruct BI as (f & BF).
  set (d1 := {| d_coeffs := cs ++ [adjust_stage (1 / gn) c]; d_rates := d_rates d ++ [r]; d_peaks := d_peaks d ++ [w];
          d_filters := d_filters d ++ [f]; d_diffs := d_diffs d ++ [tt_init (repeat 0 n) (-1, 1)];
          d_decimators := if decimate_first p allow stage rate pole then d_decimators d ++ [false] else d_decimators d |}).
  exists d1, (1 / gn). split; [|split; [exact GN|split; [|split; reflexivity]]].
  - unfold design_stage. cbv zeta. fold (next_rate stage rate pole). fold r. rewrite E. cbn [obind]. rewrite IC, A. cbn [obind].
    rewrite EP. cbn [obind]. destruct (Reqb_spec gn 0) as [Q|_]; [lra|]. cbn [negb oguard].
    rewrite adjust_last_snoc, last_last, BF. reflexivity.
  - constructor; unfold d1; cbn [d_coeffs d_rates d_peaks d_filters d_diffs].
    + destruct cs; reflexivity.
    + rewrite !app_length. cbn. lia.
    + rewrite !app_length. cbn. lia.
    + apply Forall_app. split; [exact IG|]. constructor; [exact GG|constructor].
    + apply Forall2_app; [exact IF|]. constructor; [exact BF|constructor].
    + rewrite ID, app_length. cbn [length]. rewrite repeat_snoc. f_equal. lia.
    + intros k K. rewrite app_length in K. cbn in K. destruct (Nat.eq_dec k (length cs)) as [->|NK].
      * rewrite app_nth2, IP, Nat.sub_diag by lia. exact UP.
      * rewrite app_nth1 by lia. apply unit_peak_app; [lia|lia|]. apply IU. lia.
Qed.

Lemma adjust_last_bad0 g cs : bad0 cs -> bad0 (adjust_last g cs).
Proof.
  intros (i & I & B). exists i. rewrite adjust_last_length. split; [exact I|].
  destruct cs as [|c cs _] using rev_ind; [cbn in I; lia|]. rewrite adjust_last_snoc. rewrite app_length in I. cbn in I.
  destruct (Nat.eq_dec i (length cs)) as [->|NI].
  - rewrite nth_middle in *. unfold adjust_stage, set_b, vec_b. cbn. rewrite B. ring.
  - rewrite app_nth1 in * by lia. exact B.
Qed.
Lemma adjust_last_bad g cs : bad cs -> bad (adjust_last g cs).
Proof.
  intros (i & I & B & [S|B0]).
  - exists i. rewrite adjust_last_length. split; [exact I|].
    destruct cs as [|c cs _] using rev_ind; [cbn in I; lia|]. rewrite adjust_last_snoc. rewrite app_length in S. cbn in S.
    rewrite app_nth1 in * by lia. split; [exact B|]. left. rewrite app_length. cbn. lia.
  - apply bad0_bad, adjust_last_bad0. exists i. auto.
Qed.
Lemma adjust_last_clear_a g cs : Forall clear_a cs -> Forall clear_a (adjust_last g cs).
Proof.
  intros H. destruct cs as [|c cs _] using rev_ind; [constructor|]. rewrite adjust_last_snoc.
  apply Forall_app in H as [A B]. apply Forall_app. split; [exact A|]. inversion B; subst. constructor; [assumption|constructor].
Qed.

(* whatever Init did, a stage either was appended unchanged or left a negligible coefficient *)
Lemma stage_cases stage rate pole cs d d' r' : Forall clear_a cs -> d_coeffs d = cs -> 0 < pole < rate / 2 ->
  design_stage p allow n stage rate pole d = Ok (d', r') ->
  let c := stage_res (next_rate stage rate pole) pole in
  r' = next_rate stage rate pole /\ Forall clear_a (d_coeffs d') /\
  (append_biquad tolerance cs c = Ok (cs ++ [c]) /\ (bad cs -> bad (d_coeffs d')) \/ bad (d_coeffs d')).
Proof.
  intros CA EC P H c. destruct (next_range stage rate pole P) as [P2 _]. unfold design_stage in H. cbv zeta in H.
  fold (next_rate stage rate pole) in H. destruct (resonator_ok _ _ P2) as (E & G & _). rewrite E in H. cbn [obind] in H. fold c in G, H.
  rewrite EC in H. destruct (append_biquad tolerance cs c) as [c1| |] eqn:EA; cbn [obind] in H; try discriminate.
  destruct (find_peak_by_bisection _ _ _) as [[w gn]| |]; cbn [obind] in H; try discriminate.
  destruct (Reqb gn 0); cbn [negb oguard] in H; try discriminate.
  destruct (biquad_init _ _ _ _ _ _ _) as [f| |]; cbn [obind] in H; try discriminate. injection H as <- <-. cbn [d_coeffs].
  assert (CA1 : Forall clear_a (cs ++ [c])) by (apply Forall_app; split; [exact CA|constructor; [now apply good_clear|constructor]]).
  destruct (append_cases cs c c1 CA1 EA) as (L & A1 & D). split; [reflexivity|]. split; [now apply adjust_last_clear_a|].
  destruct D as [->|D]; [left|right; now apply bad0_bad, adjust_last_bad0]. split; [reflexivity|].
  intros (i & I & B & _). rewrite adjust_last_snoc. exists i. rewrite app_length, app_nth1 by lia. cbn. split; [lia|]. split; [exact B|]. left. lia.
Qed.
Lemma stages_bad poles : forall stage rate d d', Forall clear_a (d_coeffs d) -> bad (d_coeffs d) ->
  Forall (fun q => 0 < q < rate / 2) poles -> StronglySorted (fun a b => b <= a) poles ->
  design_stages p allow n stage rate poles d = Ok d' -> bad (d_coeffs d').
Proof.
  induction poles as [|pole poles IH]; intros stage rate d d' CA B FP SP H; cbn [design_stages] in H.
  - now injection H as <-.
  - inversion FP as [|? ? P FP']; subst. inversion SP as [|? ? SP' LE]; subst.
    destruct (design_stage _ _ _ _ _ _ _) as [[d1 r1]| |] eqn:E; cbn [obind] in H; try discriminate.
    destruct (stage_cases stage rate pole _ d d1 r1 CA eq_refl P E) as (-> & CA1 & D).
    destruct (next_range stage rate pole P) as [P2 _].
    apply (IH (S stage) (next_rate stage rate pole) d1 d'); try assumption.
    + destruct D as [[_ D]|D]; auto.
    + rewrite Forall_forall in *. intros q Q. specialize (LE q Q). specialize (FP' q Q). lra.
Qed.

Lemma coeffs_of_app cs c : coeffs_of (cs ++ [c]) = cs ++ [c].
Proof. destruct cs; reflexivity. Qed.
Lemma append_base cs c : Forall good cs -> good c -> clear_b c -> Forall clear_b cs -> append_biquad tolerance (coeffs_of cs) c = Ok (cs ++ [c]).
Proof.
  intros A B D E. destruct cs as [|c0 cs].
  - apply append_first; [now apply good_clear|exact D].
  - apply append_clear; apply Forall_app; (split; [|constructor; [auto|constructor]]).
    + eapply Forall_impl; [|exact A]. exact good_clear.
    + now apply good_clear.
    + exact E.
Qed.
Lemma rate_step stage rate pole ps rs : 0 < pole ->
  stage_rates allow false (max_samples_per_cycle p) (min_sample_rate p) (next_rate stage rate pole) ps rs ->
  stage_rates allow (stage =? 0)%nat (max_samples_per_cycle p) (min_sample_rate p) rate (pole :: ps) (next_rate stage rate pole :: rs).
Proof.
  intros P H. cbn [stage_rates]. pose proof (decimate_iff stage rate pole P) as D. unfold next_rate in *.
  assert (ST : (stage =? 0)%nat = false <-> (0 < stage)%nat) by (rewrite Nat.eqb_neq; lia).
  split; [|split; [|exact H]]; intros Q; destruct (decimate_first p allow stage rate pole); try reflexivity.
  - destruct Q as (Q1 & Q2 & Q3 & Q4). apply ST in Q2. assert (X : false = true) by (apply D; auto). discriminate.
  - exfalso. apply Q. destruct (proj1 D eq_refl) as (D1 & D2 & D3 & D4). apply ST in D2. auto.
Qed.
Lemma drops_step stage rate pole rs l : 0 < rate -> l ++ repeat false (drops rate (next_rate stage rate pole :: rs)) =
  (if decimate_first p allow stage rate pole then l ++ [false] else l) ++ repeat false (drops (next_rate stage rate pole) rs).
Proof.
  intros R0. cbn [drops]. set (m := drops (next_rate stage rate pole) rs). clearbody m.
  destruct (Rle_dec rate (next_rate stage rate pole)) as [L|L]; unfold next_rate in L; destruct (decimate_first p allow stage rate pole); try lra.
  - reflexivity.
  - cbn [Nat.add repeat]. now rewrite <- app_assoc.
Qed.

Lemma stages_ok poles : forall stage rate d cs d', Inv n cs d -> stage = length cs ->
  Forall (fun q => 0 < q < rate / 2) poles -> StronglySorted (fun a b => b <= a) poles ->
  design_stages p allow n stage rate poles d = Ok d' -> ~ bad (d_coeffs d') ->
  exists cs' rs', Inv n (cs ++ cs') d' /\ d_rates d' = d_rates d ++ rs' /\
    stage_rates allow (stage =? 0)%nat (max_samples_per_cycle p) (min_sample_rate p) rate poles rs' /\
    resonators (pole_zeta p) poles rs' cs' /\ d_decimators d' = d_decimators d ++ repeat false (drops rate rs').
Proof.
  induction poles as [|pole poles IH]; intros stage rate d cs d' I ST FP SP H NB; cbn [design_stages] in H.
  - injection H as <-. exists [], []. cbn [drops repeat]. rewrite !app_nil_r. cbn. auto.
  - inversion FP as [|? ? P FP']; subst. inversion SP as [|? ? SP' LE]; subst.
    destruct (design_stage _ _ _ _ _ _ _) as [[d1 r1]| |] eqn:E; cbn [obind] in H; try discriminate.
    set (r := next_rate (length cs) rate pole) in *. destruct (next_range (length cs) rate pole P) as [P2 R0]. fold r in P2, R0.
    set (c := stage_res r pole). destruct (resonator_ok r pole P2) as (_ & G & CB). fold c in G, CB.
    assert (FP2 : Forall (fun q => 0 < q < r / 2) poles).
    { rewrite Forall_forall in *. intros q Q. specialize (LE q Q). specialize (FP' q Q). lra. }
    assert (AP : append_biquad tolerance (coeffs_of cs) c = Ok (cs ++ [c])).
    { destruct cs as [|c0 cs]; [apply append_first; [now apply good_clear|exact CB]|].
      assert (CA : Forall clear_a (c0 :: cs)) by (eapply Forall_impl; [exact good_clear|exact (I_good _ _ _ I)]).
      destruct (stage_cases _ _ _ _ _ _ _ CA (I_coeffs _ _ _ I) P E) as (-> & CA1 & [[D _]|D]); [exact D|].
      exfalso. apply NB. exact (stages_bad poles _ _ _ _ CA1 D FP2 SP' H). }
    destruct (stage_ok (length cs) rate pole cs d I P AP) as (d2 & g & E2 & GN & I2 & RR & DD).
    rewrite E in E2. injection E2 as <- ->. fold r c in I2, RR.
    destruct (IH (S (length cs)) r d1 _ d' I2) as (cs' & rs' & I3 & R3 & S3 & Q3 & D3); try assumption.
    { rewrite app_length. cbn. lia. }
    exists (adjust_stage g c :: cs'), (r :: rs'). rewrite <- app_assoc in I3. split; [exact I3|].
    split; [rewrite R3, RR, <- app_assoc; reflexivity|]. split; [apply rate_step; [lra|exact S3]|]. split.
    + cbn [resonators]. split; [exact P2|]. split; [|split; [|exact Q3]].
      * unfold c, stage_res. apply res_is; lra.
      * destruct G as [G _]. exact G.
    + rewrite D3, DD. unfold r. rewrite drops_step by lra. reflexivity.
Qed.

(* a design that does not succeed has a negligible coefficient after fewer stages *)
Lemma stages_total poles : forall stage rate d cs, Inv n cs d -> stage = length cs -> Forall clear_b cs ->
  Forall (fun q => 0 < q < rate / 2) poles -> StronglySorted (fun a b => b <= a) poles ->
  (exists d', design_stages p allow n stage rate poles d = Ok d') \/
  exists k d', (0 < k < length poles)%nat /\ design_stages p allow n stage rate (firstn k poles) d = Ok d' /\ ~ clear_numerators (d_coeffs d').
Proof.
  induction poles as [|pole poles IH]; intros stage rate d cs I ST CB FP SP; [left; eexists; reflexivity|].
  inversion FP as [|? ? P FP']; subst. inversion SP as [|? ? SP' LE]; subst.
  set (r := next_rate (length cs) rate pole). destruct (next_range (length cs) rate pole P) as [P2 R0]. fold r in P2, R0.
  destruct (resonator_ok r pole P2) as (_ & G & CBc).
  assert (FP2 : Forall (fun q => 0 < q < r / 2) poles).
  { rewrite Forall_forall in *. intros q Q. specialize (LE q Q). specialize (FP' q Q). lra. }
  destruct (stage_ok (length cs) rate pole cs d I P) as (d1 & g & E1 & GN & I1 & _ & _).
  { apply append_base; try assumption. exact (I_good _ _ _ I). }
  fold r in E1, I1. set (c := adjust_stage g (stage_res r pole)) in *.
  destruct poles as [|pole2 poles].
  { left. exists d1. cbn [design_stages]. rewrite E1. reflexivity. }
  destruct (Rlt_dec tolerance (Rabs (b2 c))) as [BC|BC].
  - destruct (IH (S (length cs)) r d1 (cs ++ [c])) as [(d' & E)|(k & d' & K & E & NC)]; try assumption.
    + rewrite app_length. cbn. lia.
    + apply Forall_app. split; [exact CB|]. constructor; [exact BC|constructor].
    + left. exists d'. cbn [design_stages] in *. rewrite E1. exact E.
    + right. exists (S k), d'. split; [cbn in *; lia|]. split; [|exact NC].
      cbn [firstn design_stages]. rewrite E1. exact E.
  - right. exists 1%nat, d1. split; [cbn; lia|]. split; [cbn [firstn design_stages]; rewrite E1; reflexivity|].
    intros NC. apply BC. rewrite (I_coeffs _ _ _ I1), coeffs_of_app in NC. unfold clear_numerators in NC.
    apply Forall_app in NC as [_ NC]. inversion NC; subst. assumption.
Qed.
End Design.

(* ---- channel selection ---- *)
Lemma selected_nil i skip left stages : (0 < skip)%Z -> (stages <= i \/ left <= 0)%Z -> selected i skip left stages [].
Proof.
  intros S0 H. split; [|split]; cbn [length nth].
  - intros k K. lia.
  - intros k K1 K2 K3. assert (0 <= k * skip)%Z by (apply Z.mul_nonneg_nonneg; lia). lia.
  - intros k K. lia.
Qed.
Lemma select_ok skip stages : (0 < skip)%Z -> forall fuel i left, (0 <= i)%Z -> (0 <= left)%Z -> (Z.max 0 (stages - i) <= Z.of_nat fuel)%Z ->
  exists l, selected i skip left stages l /\
    (Forall (fun k => Z.of_nat k + skip <= INT_MAX)%Z l -> select fuel i stages skip left = Ok l) /\
    (~ Forall (fun k => Z.of_nat k + skip <= INT_MAX)%Z l -> select fuel i stages skip left = Undef).
Proof.
  intros S0. induction fuel as [|fuel IH]; intros i left I0 L0 F.
  - exists []. split; [|split; [reflexivity|intros N; exfalso; apply N; constructor]].
    apply selected_nil; lia.
  - cbn [select]. destruct (Z.ltb_spec i stages) as [LI|LI]; [|exists []; cbn [andb]; split; [|split; [reflexivity|intros N; exfalso; apply N; constructor]]; apply selected_nil; lia].
    destruct (Z.ltb_spec 0 left) as [LL|LL]; [|exists []; cbn [andb]; split; [|split; [reflexivity|intros N; exfalso; apply N; constructor]]; apply selected_nil; lia].
    cbn [andb]. destruct (IH (i + skip)%Z (left - 1)%Z) as (l & (S1 & S2 & S3) & A & B); try lia.
    exists (Z.to_nat i :: l). split; [|split].
    + split; [|split].
      * intros [|k] K; cbn [nth length] in *; [lia|]. rewrite S1 by lia. lia.
      * intros k K1 K2 K3. cbn [length]. destruct (Z.eq_dec k 0) as [->|]; [lia|].
        assert (k - 1 < Z.of_nat (length l))%Z by (apply S2; lia). lia.
      * intros k K. cbn [length] in K. destruct (Z.eq_dec k 0) as [->|]; [lia|].
        destruct (S3 (k - 1)%Z); lia.
    + intros H. inversion H as [|? ? H1 H2]; subst. rewrite Z2Nat.id in H1 by lia. destruct (Z.leb_spec (i + skip) INT_MAX); [|lia]. cbn [oguard].
      rewrite (A H2). reflexivity.
    + intros H. destruct (Z.leb_spec (i + skip) INT_MAX) as [L|L]; cbn [oguard]; [|reflexivity].
      rewrite B; [reflexivity|]. intros Q. apply H. constructor; [rewrite Z2Nat.id by lia; exact L|exact Q].
Qed.
Lemma selection_ok p stages : use_all_channels p = false -> (0 <= first_channel p)%Z -> (0 < skip_every_n p)%Z -> (0 < max_channels p)%Z ->
  exists l, selected (first_channel p) (skip_every_n p) (max_channels p) (Z.of_nat stages) l /\
    (l = [] -> handle_channel_selection p stages = CheckFail) /\
    (l <> [] -> Forall (fun k => Z.of_nat k + skip_every_n p <= INT_MAX)%Z l -> handle_channel_selection p stages = Ok l) /\
    (~ Forall (fun k => Z.of_nat k + skip_every_n p <= INT_MAX)%Z l -> handle_channel_selection p stages = Undef).
Proof.
  intros U F S M. destruct (select_ok (skip_every_n p) (Z.of_nat stages) S (Datatypes.S stages) (first_channel p) (max_channels p)) as (l & A & B & D); try lia.
  exists l. split; [exact A|]. unfold handle_channel_selection. rewrite U. split; [|split].
  - intros ->. rewrite B by constructor. reflexivity.
  - intros NL H. rewrite (B H). cbn [obind]. destruct l; [congruence|]. reflexivity.
  - intros H. rewrite (D H). reflexivity.
Qed.
