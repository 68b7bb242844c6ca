From Coq Require Import ZArith QArith List Lia.
From Verif Require Import Common CInt WavModel WavSpec WavPropsProofs WavWriteProofs
  WavStringModel WavStringSpec WavStringProofs.
Import ListNotations.
Local Open Scope Z_scope.

(* C84: writing float samples to a WAV string.  For every signal without NaN,
   of any length, the string is the one the 16-bit overload makes from the
   quantised samples, and reading it gives these samples back, whatever the
   position of a sample relative to the 512-sample blocks.
   Partial: NaN samples are excluded, see C84_nan_refuted; channel count and
   byte rate are restricted as in C10. *)
Theorem C84_float_string_partial sk custom junk f samples ch rate i0 :
  Forall (fun x => x <> FNaN) samples ->
  0 < ch < 65536 -> 0 < rate -> ch * 2 * rate <= INT_MAX ->
  Z.of_nat (length samples) <= (UINT32_MAX - 60) / 2 ->
  Z.of_nat (length samples) mod ch = 0 ->
  exists ints file,
    Forall2 quantised samples ints /\ Forall is_i16 ints /\
    write_float_wav_to_string samples (Z.of_nat (length samples)) rate ch = Ok (file, 1) /\
    write_wav_to_string ints (Z.of_nat (length ints)) rate ch = Ok (file, 1) /\
    read_16bit_wav_file sk custom junk f file i0 = Ok (Some ints, ch, rate).
Proof.
  intros N Hc Hr Ho Hn Hm.
  destruct (samples_ok samples) as (ints & A & B & D).
  { eapply Forall_impl; [|exact N]. intros [q| | |] H; cbn; auto. }
  pose proof (Forall2_len _ _ _ A) as L. exists ints, (written_file ints ch rate).
  assert (Hn' : Z.of_nat (length ints) <= 2147483617) by (rewrite <- L; exact Hn).
  rewrite L in *.
  split; [exact D|]. split; [exact B|]. split.
  { rewrite <- L. apply float_string_ok; auto. apply Hc. }
  split.
  - apply write_string_mem; [apply Hc|exact Hr|exact Ho|]. clear - Hn'. unfold INT_MAX. lia.
  - apply read_written; [exact B|exact Hc|clear - Hc Hr Ho; unfold INT_MAX in *; nia|exact Hn|exact Hm].
Qed.
Print Assumptions C84_float_string_partial.

(* There is at most one 16-bit sample for a float, so the quantised samples
   above are determined by the input. *)
Theorem C84_one_sample x s t : quantised x s -> quantised x t -> s = t.
Proof. exact (quantised_unique x s t). Qed.
Print Assumptions C84_one_sample.

(* The code means to write 0 for NaN, but std::max(kLowest, NaN) is kLowest, so
   the test for NaN comes too late: NaN is written as full scale negative. *)
Theorem C84_nan_refuted sk custom junk f i0 : exists samples file ints,
  write_float_wav_to_string samples (Z.of_nat (length samples)) 8000 1 = Ok (file, 1) /\
  read_16bit_wav_file sk custom junk f file i0 = Ok (Some ints, 1, 8000) /\
  ~ Forall2 quantised samples ints.
Proof.
  exists [FNaN; FFin (1 # 2)]. eexists. exists [-32768; 16384]. split; [vm_compute; reflexivity|].
  split; [destruct sk, custom; vm_compute; reflexivity|].
  intros H. inversion H as [|x s l m Q F]. cbn in Q. discriminate.
Qed.
Print Assumptions C84_nan_refuted.

(* 515 samples: two blocks, with values that are rounded and clipped. *)
Definition ex_samples : list fval :=
  repeat (FFin (1 # 3)) 511 ++ [FFin (-1 # 3); FFin (5 # 4); FNegInf; FFin (-1 # 100000)].
Example C84_ex : exists file,
  write_float_wav_to_string ex_samples 515 8000 5 = Ok (file, 1) /\
  read_16bit_wav_file SeekFile false (fun _ => 0) (fun z => z) file
    {| num_channels := 0; sample_rate_hz := 0; remaining_samples := 0; bit_depth := 0;
       dest_align := 0; enc := Pcm16; fmt := FInt16 |}
  = Ok (Some (repeat 10922 511 ++ [-10922; 32767; -32768; 0]), 5, 8000) /\
  Forall2 quantised ex_samples (repeat 10922 511 ++ [-10922; 32767; -32768; 0]).
Proof.
  eexists. split; [vm_compute; reflexivity|]. split; [vm_compute; reflexivity|].
  apply Forall2_app.
  - unfold ex_samples. assert (G : forall n, Forall2 quantised (repeat (FFin (1 # 3)) n) (repeat 10922 n)).
    { induction n; cbn [repeat]; constructor; auto. cbn. unfold Qle, Qlt; cbn. repeat split; intros; try lia. }
    apply G.
  - repeat (apply Forall2_cons; [cbn; unfold Qle, Qlt; cbn; repeat split; intros; try reflexivity; try lia|]). constructor.
Qed.
