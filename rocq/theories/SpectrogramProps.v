(* C34 and C35: Spectrogram and InverseSpectrogram. *)
From Coq Require Import Reals Lra.
From Verif Require Import Common CInt NumberUtilModel ListLemmas NthLemmas RealUtil
  SpectrogramModel SpectrogramSpec SpectrogramProofs SpectrogramProofs2 SpectrogramProofs3.
Local Open Scope nat_scope.

(* The slice of frame [i] of the whole input [xs]. *)
Definition slice_spec {D} (zero : D) (add mul : D -> D -> D) (rdft : list D -> list D)
    (w : list D) (step N : nat) (xs : list D) (md : mode) (i : nat) : @spec_slice D :=
  let b := map (spectrum_bin zero N (frame_spectrum zero mul rdft w N xs (i * step)))
               (seq 0 (1 + Nat.div N 2)) in
  match md with
  | Complex => CSlice b
  | SquaredMagnitude =>
      PSlice (map (fun c => add (mul (fst c) (fst c)) (mul (snd c) (snd c))) b)
  end.

(* After a successful Initialize on any object, any sequence of calls (each of
   either kind, with any number of samples) succeeds; call j returns exactly
   the frames that fit into the samples of calls 0..j but not in those of
   calls 0..j-1; frame i is the transform of the windowed samples starting at
   i*step of all samples together.  ResetSampleBuffer then restores the state
   reached by Initialize. *)
Theorem C34_frames : forall D (zero : D) (add mul : D -> D -> D) rdft s0 w step,
  2 <= length w -> (Z.of_nat (length w) <= 2 ^ 30)%Z -> (1 <= step)%Z ->
  exists N k s1, N = 2 ^ S k /\ length w <= N < 2 * length w /\
    spectro_init s0 w step = Ok (s1, true) /\
    ((forall u, length u = N -> length (rdft u) = N) ->
     forall calls, exists s2 outs,
      run (compute zero add mul rdft) s1 calls = Ok (s2, outs) /\
      length outs = length calls /\
      (forall j c, nth_error calls j = Some c ->
        let a := frame_count (length w) (Z.to_nat step) (total (firstn j calls)) in
        let b := frame_count (length w) (Z.to_nat step) (total (firstn (S j) calls)) in
        nth_error outs j = Some (Some (map
          (slice_spec zero add mul rdft w (Z.to_nat step) N (concat (map snd calls)) (fst c))
          (seq a (b - a))))) /\
      reset_sample_buffer s2 = Ok s1).
Proof.
  intros D zero add mul rdft s0 w step H2 Hb Hs.
  destruct (init_inv s0 w step H2 Hb Hs) as (N & k & s1 & EN & HN & E1 & Hi & Es1).
  exists N, k, s1. split; [exact EN|]. split; [exact HN|]. split; [exact E1|].
  intros Hl calls.
  destruct (run_ok zero add mul rdft w (Z.to_nat step) N H2 ltac:(lia) calls s1 [] 0 Hi)
    as (s2 & Hi2 & E2).
  exists s2. eexists. split; [exact E2|]. split; [apply expected_length|]. split.
  - intros j c Hc a b. rewrite expected_nth by lia. rewrite Hc. cbv zeta. cbn [length Nat.add app].
    fold a b. f_equal. f_equal. apply map_ext_in. intros i Hin. apply in_seq in Hin.
    unfold frame_of, slice_spec. rewrite (render_eq zero add mul rdft N k); try assumption;
      [destruct (fst c); reflexivity|lia|].
    assert (i < b) as Hib by lia. revert Hib. unfold b, frame_count.
    assert (total (firstn (S j) calls) <= length (concat (map snd calls))) as Ht.
    { unfold total. rewrite <- (firstn_skipn (S j) calls) at 2.
      rewrite map_app, concat_app, app_length. lia. }
    destruct (Nat.ltb_spec (total (firstn (S j) calls)) (length w)); [lia|].
    intros Hib. pose proof (Nat.mul_div_le (total (firstn (S j) calls) - length w) (Z.to_nat step) ltac:(lia)).
    set (q := (total (firstn (S j) calls) - length w) / Z.to_nat step) in *.
    assert (i * Z.to_nat step <= Z.to_nat step * q) by nia. lia.
  - destruct Hi2 as (Ew & Ess & Ef & Ein & Ea & _). unfold reset_sample_buffer.
    rewrite Ea. cbn [oguard]. rewrite Ew, Ess, Ef, Ein, Es1. reflexivity.
Qed.
Print Assumptions C34_frames.

(* Two ways to cut the same input give the same frames. *)
Theorem C34_chunking : forall D (zero : D) (add mul : D -> D -> D) rdft s0 w step md
    chunks1 chunks2 s1 t1 t2 o1 o2,
  spectro_init s0 w step = Ok (s1, true) ->
  concat chunks1 = concat chunks2 ->
  (Z.of_nat (length w) <= 2 ^ 30)%Z ->
  run (compute zero add mul rdft) s1 (map (pair md) chunks1) = Ok (t1, o1) ->
  run (compute zero add mul rdft) s1 (map (pair md) chunks2) = Ok (t2, o2) ->
  concat (map (fun o => match o with Some l => l | None => [] end) o1) =
  concat (map (fun o => match o with Some l => l | None => [] end) o2).
Proof.
  intros D zero add mul rdft s0 w step md c1 c2 s1 t1 t2 o1 o2 E0 Hc Hb R1 R2.
  assert (2 <= length w /\ (1 <= step)%Z) as [H2 Hs].
  { revert E0. unfold spectro_init. destruct (Nat.ltb_spec (length w) 2); [discriminate|].
    destruct (Z.ltb_spec step 1); [discriminate|]. intros _. lia. }
  destruct (init_inv s0 w step H2 Hb Hs) as (N & k & s1' & EN & HN & E1 & Hi & _).
  rewrite E0 in E1. assert (s1' = s1) as -> by congruence.
  destruct (run_ok zero add mul rdft w (Z.to_nat step) N H2 ltac:(lia) (map (pair md) c1) s1 [] 0 Hi)
    as (u1 & _ & F1).
  destruct (run_ok zero add mul rdft w (Z.to_nat step) N H2 ltac:(lia) (map (pair md) c2) s1 [] 0 Hi)
    as (u2 & _ & F2).
  rewrite R1 in F1. rewrite R2 in F2.
  assert (o1 = _) as -> by (injection F1; intros HH _; exact HH).
  assert (o2 = _) as -> by (injection F2; intros HH _; exact HH).
  assert (forall c : list (list D), map snd (map (pair md) c) = c) as Em
    by (intros c; rewrite map_map; apply map_id).
  assert (forall c : list (list D), Forall (fun x => fst x = md) (map (pair md) c)) as Hf.
  { intros c. apply Forall_forall. intros x Hx. apply in_map_iff in Hx. destruct Hx as (y & <- & _). reflexivity. }
  rewrite !(expected_concat zero add mul rdft w (Z.to_nat step) N H2 ltac:(lia) md) by apply Hf.
  rewrite !Em, Hc. reflexivity.
Qed.
Print Assumptions C34_chunking.

(* A failed Initialize makes every later call report failure. *)
Theorem C34_failed_initialize : forall D (zero : D) (add mul : D -> D -> D) rdft s0 w step,
  length w < 2 \/ (step < 1)%Z ->
  exists s1, spectro_init s0 w step = Ok (s1, false) /\
    forall calls, run (compute zero add mul rdft) s1 calls = Ok (s1, map (fun _ => None) calls).
Proof.
  intros D zero add mul rdft s0 w step H.
  assert (exists s1, spectro_init s0 w step = Ok (s1, false) /\ sp_initialized s1 = false) as (s1 & E & Ei).
  { unfold spectro_init. destruct (Nat.ltb_spec (length w) 2).
    - eexists. split; reflexivity.
    - destruct (Z.ltb_spec step 1); [|lia]. eexists. split; reflexivity. }
  exists s1. split; [exact E|]. induction calls as [|c cs IH]; [reflexivity|].
  cbn [run]. unfold compute at 1. rewrite Ei. cbn [obind fst snd]. rewrite IH. reflexivity.
Qed.
Print Assumptions C34_failed_initialize.

(* The public ResetSampleBuffer on an object never initialised writes to
   element 0 of an empty vector. *)
Theorem C34_reset_uninitialized_refuted : forall D : Type,
  reset_sample_buffer (@spectro_new D) = Undef.
Proof. reflexivity. Qed.
Print Assumptions C34_reset_uninitialized_refuted.

(* Window 3, step 5 (larger than the window), transform = identity on Z. *)
Example C34_example :
  omap (fun r => snd r)
    (obind (spectro_init spectro_new [1; 1; 2]%Z 5) (fun s =>
     run (compute 0%Z Z.add Z.mul (fun u => u)) (fst s)
       [(Complex, [1; 2]%Z); (Complex, [3; 4; 5; 6; 7]%Z); (SquaredMagnitude, [8; 9]%Z)]))
  = Ok [Some []; Some [CSlice [(1, 0); (6, 0); (2, 0)]%Z];
        Some [PSlice [36; 256; 49]%Z]].
Proof. vm_compute. reflexivity. Qed.

(* ---------- C35 ---------- *)

(* The synthesised frame of a slice. *)
Definition frame_spec {D} (zero : D) (mul div : D -> D -> D) (of_nat : nat -> D)
    (irdft : list D -> list D) (N F : nat) (win : nat -> D) (sl : list (D * D)) : list D :=
  synth_frame zero mul div (of_nat (Nat.div N 2)) win F (irdft (spectrum_layout zero N sl)).

(* Initialised with a window on any object: for every grouping of the slices
   into calls the outputs are the overlap-added frames at multiples of the
   step, and Flush returns the rest.  0 + x = x is the only law used. *)
Theorem C35_overlap_add_window : forall D (zero one : D) (add mul div : D -> D -> D)
    of_nat irdft s0 w step,
  (forall x, add zero x = x) ->
  2 <= length w -> (Z.of_nat (length w) <= 2 ^ 30)%Z -> (1 <= step <= Z.of_nat (length w))%Z ->
  exists N k v, N = 2 ^ S k /\ length w <= N < 2 * length w /\
    inverse_init_window zero s0 w step = Ok (v, true) /\
    ((forall u, length u = N -> length (irdft u) = N) ->
     forall groups, Forall (fun sl => length sl = Nat.div N 2 + 1) (concat groups) ->
     exists v' outs,
      let frames := map (frame_spec zero mul div of_nat irdft N (length w)
                           (fun k => nth k w zero)) (concat groups) in
      let st := Z.to_nat step in
      run (inv_process zero one add mul div of_nat irdft) v groups = Ok (v', map Some outs) /\
      length outs = length groups /\
      concat outs = map (overlap_add zero add st frames) (seq 0 (length frames * st)) /\
      omap snd (inv_flush zero v' false) =
        Ok (Some (if length frames =? 0 then []
                  else map (overlap_add zero add st frames)
                         (seq (length frames * st) (length w - st))))).
Proof.
  intros D zero one add mul div of_nat irdft s0 w step H0 H2 Hb Hs.
  destruct (init_window_ok zero add s0 w step H2 Hb ltac:(lia)) as (N & k & v & EN & HN & _ & E & Hi).
  exists N, k, v. split; [exact EN|]. split; [exact HN|]. split; [exact E|].
  intros Hir groups HFo.
  destruct (groups_ok zero one add mul div of_nat irdft H0 N (length w) (Z.to_nat step)
     (fun k => nth k w zero) true w (ex_intro _ k EN) ltac:(lia) ltac:(lia) Hir
     (win_window zero one w) groups v [] Hi HFo) as (v' & outs & E2 & Hi2 & EL & EC).
  exists v', outs. cbv zeta.
  replace (length w - (length w - Z.to_nat step)) with (Z.to_nat step) in EC by lia.
  assert (map (frame_spec zero mul div of_nat irdft N (length w) (fun k => nth k w zero)) (concat groups)
    = map (fr zero mul div of_nat irdft N (length w) (fun k => nth k w zero)) (concat groups)) as Efr.
  { apply map_ext. intros sl. unfold fr, frame_spec. now rewrite (pack_layout zero N k). }
  rewrite Efr. split; [exact E2|]. split; [exact EL|]. split.
  { rewrite EC, map_length. reflexivity. }
  rewrite (flush_ok zero add N (length w) (Z.to_nat step) true w v' _ Hi2). cbn [app].
  replace (length w - (length w - Z.to_nat step)) with (Z.to_nat step) by lia.
  do 2 f_equal. destruct (length _ =? 0); [reflexivity|].
  apply (nth_ext _ _ zero zero); rewrite !map_length, !seq_length; [reflexivity|].
  intros j Hj. rewrite !nth_map_seq by lia. reflexivity.
Qed.
Print Assumptions C35_overlap_add_window.

(* The same for Initialize(fft_length, step_length); here Flush also restores
   exactly the state Initialize gave. *)
Theorem C35_overlap_add_fft : forall D (zero one : D) (add mul div : D -> D -> D)
    of_nat irdft s0 n step,
  (forall x, add zero x = x) ->
  (2 <= n <= INT_MAX)%Z -> (exists k, (0 <= k)%Z /\ n = (2 ^ k)%Z) -> (1 <= step <= n)%Z ->
  exists v, inverse_init_fft zero s0 n step = (v, true) /\
    let N := Z.to_nat n in
    ((forall u, length u = N -> length (irdft u) = N) ->
     forall groups, Forall (fun sl => length sl = Nat.div N 2 + 1) (concat groups) ->
     exists v' outs,
      let frames := map (frame_spec zero mul div of_nat irdft N N (fun _ => one)) (concat groups) in
      let st := Z.to_nat step in
      run (inv_process zero one add mul div of_nat irdft) v groups = Ok (v', map Some outs) /\
      length outs = length groups /\
      concat outs = map (overlap_add zero add st frames) (seq 0 (length frames * st)) /\
      inv_flush zero v' false =
        Ok (v, Some (if length frames =? 0 then []
                  else map (overlap_add zero add st frames)
                         (seq (length frames * st) (N - st))))).
Proof.
  intros D zero one add mul div of_nat irdft s0 n step H0 H2 Hk Hs.
  destruct (init_fft_ok zero add s0 n step ltac:(lia) ltac:(lia) Hk ltac:(lia))
    as (k & v & EN & E & Hi & Ev).
  exists v. split; [exact E|]. cbv zeta. set (N := Z.to_nat n) in *.
  intros Hir groups HFo.
  destruct (groups_ok zero one add mul div of_nat irdft H0 N N (Z.to_nat step)
     (fun _ => one) false (iv_window s0) (ex_intro _ k EN) ltac:(lia) ltac:(lia) Hir
     (win_fft zero one (iv_window s0) N) groups v [] Hi HFo) as (v' & outs & E2 & Hi2 & EL & EC).
  exists v', outs.
  replace (N - (N - Z.to_nat step)) with (Z.to_nat step) in EC by lia.
  assert (map (frame_spec zero mul div of_nat irdft N N (fun _ => one)) (concat groups)
    = map (fr zero mul div of_nat irdft N N (fun _ => one)) (concat groups)) as Efr.
  { apply map_ext. intros sl. unfold fr, frame_spec. now rewrite (pack_layout zero N k). }
  rewrite Efr. split; [exact E2|]. split; [exact EL|]. split.
  { rewrite EC, map_length. reflexivity. }
  pose proof (flush_ok zero add N N (Z.to_nat step) false _ v' _ Hi2) as EF. cbn [app] in EF.
  replace (N - (N - Z.to_nat step)) with (Z.to_nat step) in EF by lia.
  destruct Hi2 as ((Ef & EFr & Est & Eo & Ei & Eww & Ewf) & _).
  revert EF. unfold inv_flush. cbn [negb oguard]. rewrite Ei, Ef, Est.
  unfold omap. cbn [obind snd]. intros EF.
  assert (fst (inverse_init_fft zero v' (Z.of_nat N) (Z.of_nat (Z.to_nat step))) = v) as Efst.
  { destruct (init_fft_ok zero add v' n step ltac:(lia) ltac:(lia) Hk ltac:(lia))
      as (k' & v2 & _ & E' & _ & Ev2).
    unfold N. rewrite !Z2Nat.id by lia. rewrite E'. cbn [fst]. rewrite Ev2, Ev, Ewf. reflexivity. }
  rewrite Efst.
  match type of EF with Ok (Some ?a) = Ok (Some ?b) => assert (a = b) as -> by congruence end.
  do 3 f_equal. destruct (length _ =? 0); [reflexivity|].
  apply (nth_ext _ _ zero zero); rewrite !map_length, !seq_length; [reflexivity|].
  intros j Hj. rewrite !nth_map_seq by lia. reflexivity.
Qed.
Print Assumptions C35_overlap_add_fft.

(* Flush after Initialize(window, step) forgets the window: the same slices
   processed again give other samples, though the header promises "as if
   Initialize() had just been called". *)
Theorem C35_flush_window_refuted :
  exists w step sl v v1 v2 out1 out2,
    inverse_init_window 0%Z inverse_new w step = Ok (v, true) /\
    inv_process 0%Z 1%Z Z.add Z.mul Z.div Z.of_nat (fun u => u) v [sl] = Ok (v1, Some out1) /\
    omap fst (inv_flush 0%Z v1 false) = Ok v2 /\
    omap snd (inv_process 0%Z 1%Z Z.add Z.mul Z.div Z.of_nat (fun u => u) v2 [sl]) = Ok (Some out2) /\
    out1 <> out2.
Proof.
  exists [3; 3; 3]%Z, 2%Z, [(1, 0); (2, 0); (3, 0)]%Z.
  do 5 eexists. split; [vm_compute; reflexivity|]. split; [vm_compute; reflexivity|].
  split; [vm_compute; reflexivity|]. split; [vm_compute; reflexivity|].
  discriminate.
Qed.
Print Assumptions C35_flush_window_refuted.

(* Flush(NULL), documented as "just re-initializes", dereferences NULL. *)
Theorem C35_flush_null_refuted : forall D (zero : D) s, inv_flush zero s true = Undef.
Proof. reflexivity. Qed.
Print Assumptions C35_flush_null_refuted.

(* A step larger than the frame is accepted, but frames are then written one
   right after the other instead of at multiples of the step. *)
Theorem C35_large_step_refuted :
  exists v v' out groups,
    let frames := map (frame_spec 0%Z Z.mul Z.div Z.of_nat (fun u => u) 2 2 (fun _ => 1%Z))
                      (concat groups) in
    inverse_init_fft 0%Z inverse_new 2 3 = (v, true) /\
    run (inv_process 0%Z 1%Z Z.add Z.mul Z.div Z.of_nat (fun u => u)) v groups
      = Ok (v', [Some out]) /\
    nth 2 out 0%Z <> overlap_add 0%Z Z.add 3 frames 2 /\ length out < 3 * length frames.
Proof.
  do 3 eexists. exists [[[(5, 0); (6, 0)]%Z; [(7, 0); (8, 0)]%Z]]. cbv zeta.
  split; [vm_compute; reflexivity|]. split; [vm_compute; reflexivity|].
  split; [vm_compute; discriminate|]. vm_compute. lia.
Qed.
Print Assumptions C35_large_step_refuted.

(* The analysis/synthesis chain over the reals: spectrogram with any window
   whose squared samples have a nonzero sum in every residue class modulo the
   step, any cutting of the input, any grouping of the slices; if irdft undoes
   rdft up to the factor N/2 (as documented for fft2d) every sample covered by
   all its frames comes back unchanged. *)
Theorem C35_reconstruction : forall (rdft irdft : list R -> list R) w step g N,
  2 <= length w -> (Z.of_nat (length w) <= 2 ^ 30)%Z -> (1 <= step <= Z.of_nat (length w))%Z ->
  next_power_of_two (Z.of_nat (length w)) = Ok (Z.of_nat N) ->
  (forall u, length u = N -> length (rdft u) = N /\ length (irdft u) = N /\
     irdft (rdft u) = map (Rmult (INR (Nat.div N 2))) u) ->
  generate_synthesis_window 0%R Rplus Rmult Rdiv (fun x => Reqb x 0) w (Z.to_nat step) = Ok g ->
  exists s v, spectro_init spectro_new w step = Ok (s, true) /\
    inverse_init_window 0%R inverse_new g step = Ok (v, true) /\
    forall chunks groups s' outs,
      run (compute 0%R Rplus Rmult rdft) s (map (pair Complex) chunks) = Ok (s', map Some outs) ->
      map CSlice (concat groups) = concat outs ->
      exists v' audio,
        run (inv_process 0%R 1%R Rplus Rmult Rdiv INR irdft) v groups = Ok (v', map Some audio) /\
        length (concat audio) = frame_count (length w) (Z.to_nat step) (length (concat chunks))
                                * Z.to_nat step /\
        forall t, length w - Z.to_nat step <= t < length (concat audio) ->
          nth t (concat audio) 0%R = nth t (concat chunks) 0%R.
Proof.
  intros rdft irdft w step g N H2 Hb Hs EN Hr Hg.
  destruct (init_inv spectro_new w step H2 Hb ltac:(lia)) as (N1 & k & s1 & EN1 & HN & E1 & Hi & Es1).
  assert (length g = length w) as Lg by (eapply g_length; eauto).
  destruct (init_window_ok 0%R Rplus inverse_new g step ltac:(lia) ltac:(lia) ltac:(lia))
    as (N2 & k2 & v & EN2 & HN2 & Ef2 & E2 & Hi2).
  destruct (fft_length_ok (length w) H2 Hb) as (N3 & k3 & E3 & EN3 & HN3 & Ep3 & _).
  assert (N3 = N) as -> by (rewrite EN in Ep3; injection Ep3; lia).
  rewrite Lg, E3 in Ef2. assert (N2 = N) as -> by congruence.
  assert (N1 = N) as ->.
  { revert E1. unfold spectro_init. destruct (Nat.ltb_spec (length w) 2); [lia|].
    destruct (Z.ltb_spec step 1); [lia|]. rewrite E3. cbn. intros EE.
    rewrite Es1 in EE. congruence. }
  exists s1, v. split; [exact E1|]. split; [exact E2|].
  intros chunks groups s' outs Hrun Hgr.
  assert (Hl : forall u, length u = N -> length (rdft u) = N) by (intros u Hu; now apply Hr).
  assert (Hli : forall u, length u = N -> length (irdft u) = N) by (intros u Hu; now apply Hr).
  assert (Hinv : forall u, length u = N -> irdft (rdft u) = map (Rmult (INR (N / 2))) u)
    by (intros u Hu; now apply Hr).
  destruct (run_ok 0%R Rplus Rmult rdft w (Z.to_nat step) N H2 ltac:(lia) (map (pair Complex) chunks) s1 [] 0 Hi)
    as (s2 & _ & Erun).
  rewrite Hrun in Erun.
  assert (map Some outs = expected 0%R Rplus Rmult rdft w (Z.to_nat step) N [] (map (pair Complex) chunks)) as Eo
    by (injection Erun; intros HH _; exact HH).
  pose proof (expected_concat 0%R Rplus Rmult rdft w (Z.to_nat step) N H2 ltac:(lia) Complex
     (map (pair Complex) chunks) []) as EC.
  rewrite <- Eo in EC. rewrite map_map, map_id in EC.
  assert (map snd (map (pair Complex) chunks) = chunks) as Em by (rewrite map_map; apply map_id).
  rewrite Em in EC. cbn [app] in EC.
  assert (frame_count (length w) (Z.to_nat step) (length (@nil R)) = 0) as E0.
  { unfold frame_count. cbn [length]. destruct (Nat.ltb_spec 0 (length w)); [reflexivity|lia]. }
  rewrite E0, Nat.sub_0_r in EC.
  specialize (EC ltac:(apply Forall_forall; intros x Hx; apply in_map_iff in Hx;
     destruct Hx as (y & <- & _); reflexivity)).
  set (m := frame_count (length w) (Z.to_nat step) (length (concat chunks))) in *.
  assert (concat groups = map (slice_at rdft w (Z.to_nat step) N (concat chunks)) (seq 0 m)) as Egr.
  { rewrite <- Hgr in EC.
    assert (map CSlice (concat groups) =
      map CSlice (map (slice_at rdft w (Z.to_nat step) N (concat chunks)) (seq 0 m))) as EE.
    { rewrite EC, map_map. apply map_ext_in. intros i Hi'. apply in_seq in Hi'.
      unfold frame_of. rewrite (render_eq 0%R Rplus Rmult rdft N k); try assumption;
        [reflexivity|lia|].
      assert (i < m) as Him by lia. revert Him. unfold m, frame_count.
      destruct (Nat.ltb_spec (length (concat chunks)) (length w)); [lia|].
      intros Him. pose proof (Nat.mul_div_le (length (concat chunks) - length w) (Z.to_nat step) ltac:(lia)).
      set (q := (length (concat chunks) - length w) / Z.to_nat step) in *.
      assert (i * Z.to_nat step <= Z.to_nat step * q) by nia. lia. }
    revert EE. generalize (concat groups) as l1.
    generalize (map (slice_at rdft w (Z.to_nat step) N (concat chunks)) (seq 0 m)) as l2.
    intros l2 l1. revert l2. induction l1 as [|a l1 IH]; intros [|b l2] EE; try discriminate; [reflexivity|].
    cbn [map] in EE. injection EE as -> EE. f_equal. now apply IH. }
  assert (Forall (fun sl : list (R * R) => length sl = N / 2 + 1) (concat groups)) as HFo.
  { rewrite Egr. apply Forall_forall. intros x Hx. apply in_map_iff in Hx. destruct Hx as (i & <- & _).
    unfold slice_at. rewrite map_length, seq_length. lia. }
  destruct (groups_ok 0%R 1%R Rplus Rmult Rdiv INR irdft Rplus_0_l N (length g) (Z.to_nat step)
     (fun k => nth k g 0%R) true g (ex_intro _ k2 EN2) ltac:(lia) ltac:(lia) Hli
     (win_window 0%R 1%R g) groups v [] Hi2 HFo) as (v' & audio & E4 & _ & _ & EA).
  exists v', audio. split; [exact E4|].
  replace (length g - (length g - Z.to_nat step)) with (Z.to_nat step) in EA by lia.
  rewrite EA, map_length, seq_length, Egr, map_length, seq_length.
  split; [reflexivity|].
  intros t Ht. cbn [app length Nat.mul].
  rewrite nth_map_seq by lia. cbn [Nat.add].
  rewrite map_map, Lg.
  apply (recon rdft irdft w (Z.to_nat step) N k3 EN3 ltac:(lia) ltac:(lia) Hl Hinv g Hg); lia.
Qed.
Print Assumptions C35_reconstruction.

(* Window (1, 2), step 1, the two-point transform: the hypotheses hold and the
   synthesis window is (1/5, 2/5). *)
Example C35_example :
  let rdft := fun u => match u with [a; b] => [(a + b)%R; (a - b)%R] | _ => u end in
  let irdft := fun u => match u with [a; b] => [((a + b) / 2)%R; ((a - b) / 2)%R] | _ => u end in
  (forall u, length u = 2 -> length (rdft u) = 2 /\ length (irdft u) = 2 /\
     irdft (rdft u) = map (Rmult (INR (Nat.div 2 2))) u) /\
  next_power_of_two 2 = Ok 2%Z /\
  generate_synthesis_window 0%R Rplus Rmult Rdiv (fun x => Reqb x 0) [1; 2]%R 1
    = Ok [1 / 5; 2 / 5]%R.
Proof.
  cbv zeta. split; [|split].
  - intros [|a [|b [|c u]]] Hu; try discriminate. split; [reflexivity|]. split; [reflexivity|].
    cbn. f_equal; [field|]. f_equal. field.
  - reflexivity.
  - unfold generate_synthesis_window. cbn. unfold Reqb.
    destruct (Req_EM_T (0 + 1 * 1 + 2 * 2) 0) as [H|H]; [lra|]. cbn.
    f_equal. f_equal; [field|]. f_equal. field.
Qed.
