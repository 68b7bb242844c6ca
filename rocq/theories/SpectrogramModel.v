(* Model of audio/dsp/spectrogram/spectrogram.{h,cc} and
   audio/dsp/spectrogram/inverse_spectrogram.{h,cc}.

   [D] is the type of the `double` samples and [mul], [add], [div] its
   operations, with no laws.  The third-party routine rdft (fft2d) is the pair
   of functions [rdft] (sign 1) and [irdft] (sign -1) from a buffer to a
   buffer of the same length; its working areas only cache tables.
   The conversions between float and double in the templates are not
   modelled: samples are of the one type [D]. *)
From Verif Require Import Common CInt NumberUtilModel.
Local Open Scope nat_scope.

Section Spectro.
Context {D : Type} (zero one : D) (add mul div : D -> D -> D)
        (of_nat : nat -> D).
Variables (rdft irdft : list D -> list D).

(* ---------- Spectrogram ---------- *)

(* spectrogram.h:124-146. [int_area] says whether fft_integer_working_area_ is
   non-empty. fft_input_output_ holds no information between frames. *)
Record spectro := mkSpectro {
  sp_window : list D;            (* window_, window_length_ *)
  sp_step : nat;                 (* step_length_ *)
  sp_fft : nat;                  (* fft_length_ *)
  sp_initialized : bool;
  sp_int_area : bool;
  sp_queue : list D;             (* input_queue_ *)
  sp_to_next : nat               (* samples_to_next_step_ *)
}.

(* spectrogram.h: the constructor only clears initialized_. *)
Definition spectro_new : spectro := mkSpectro [] 0 0 false false [] 0.

(* spectrogram.cc:32-39; element 0 of an empty vector is out of bounds. *)
Definition reset_sample_buffer (s : spectro) : outcome spectro :=
  oguard (sp_int_area s)
  (Ok (mkSpectro (sp_window s) (sp_step s) (sp_fft s) (sp_initialized s)
                 (sp_int_area s) [] (length (sp_window s)))).

(* spectrogram.cc:64-65: NextPowerOfTwo(window_length_) stored in an int. *)
Definition fft_length_for (n : nat) : outcome nat :=
  obind (next_power_of_two (Z.of_nat n)) (fun z =>
  ocheck (Z.of_nat n <=? to_int32 z)%Z (Ok (Z.to_nat (to_int32 z)))).

(* spectrogram.cc:47-78 *)
Definition spectro_init (s : spectro) (window : list D) (step : Z)
    : outcome (spectro * bool) :=
  if length window <? 2 then
    Ok (mkSpectro window (sp_step s) (sp_fft s) false (sp_int_area s)
                  (sp_queue s) (sp_to_next s), false)
  else if (step <? 1)%Z then
    Ok (mkSpectro window (sp_step s) (sp_fft s) false (sp_int_area s)
                  (sp_queue s) (sp_to_next s), false)
  else
    obind (fft_length_for (length window)) (fun n =>
    obind (reset_sample_buffer
             (mkSpectro window (Z.to_nat step) n (sp_initialized s) true
                        (sp_queue s) (sp_to_next s))) (fun s' =>
    Ok (mkSpectro (sp_window s') (sp_step s') (sp_fft s') true
                  (sp_int_area s') (sp_queue s') (sp_to_next s'), true))).

Definition set_queue (s : spectro) q t :=
  mkSpectro (sp_window s) (sp_step s) (sp_fft s) (sp_initialized s)
            (sp_int_area s) q t.

(* spectrogram.cc:220-244; [rest] is the input from *input_start on.  The
   erase needs a queue of at least window_length_ samples. *)
Definition get_next_window (s : spectro) (rest : list D)
    : outcome (spectro * list D * bool) :=
  if length rest <? sp_to_next s then
    Ok (set_queue s (sp_queue s ++ rest) (sp_to_next s - length rest), [],
        false)
  else
    let q := sp_queue s ++ firstn (sp_to_next s) rest in
    let w := length (sp_window s) in
    oguard (w <=? length q)
    (Ok (set_queue s (skipn (length q - w) q) (sp_step s),
         skipn (sp_to_next s) rest, true)).

(* spectrogram.cc:247-253: windowed samples, zero padded to fft_length_. *)
Definition windowed (window : list D) (n : nat) (q : list D) : list D :=
  map (fun p => mul (fst p) (snd p)) (combine q window)
  ++ repeat zero (n - length window).

(* spectrogram.cc:254-265: the transform and the unpacked layout. *)
Definition core_fft (window : list D) (n : nat) (q : list D) : list D :=
  let b := rdft (windowed window n q) in
  [nth 0 b zero; zero] ++ skipn 2 b ++ [nth 1 b zero; zero].

(* One output slice: spectrogram.cc:99-105 and 149-158. *)
Inductive mode := Complex | SquaredMagnitude.
Inductive spec_slice :=
| CSlice (l : list (D * D))
| PSlice (l : list D).

(* spectrogram.cc:66, 100-105: bins 0 .. fft_length_/2. *)
Definition bins (n : nat) (b : list D) : list (D * D) :=
  map (fun i => (nth (2 * i) b zero, nth (2 * i + 1) b zero))
      (seq 0 (1 + Nat.div n 2)).

(* spectrogram.cc:154-157 *)
Definition norm2 (c : D * D) : D :=
  add (mul (fst c) (fst c)) (mul (snd c) (snd c)).

Definition render (m : mode) (n : nat) (b : list D) : spec_slice :=
  match m with
  | Complex => CSlice (bins n b)
  | SquaredMagnitude => PSlice (map norm2 (bins n b))
  end.

(* spectrogram.cc:92-106, 142-159: the loop over windows; each iteration
   consumes samples, so length input + 1 iterations are enough. *)
Fixpoint compute_loop (fuel : nat) (m : mode) (s : spectro) (rest : list D)
    : outcome (spectro * list spec_slice) :=
  match fuel with
  | O => Undef
  | S fuel' =>
      obind (get_next_window s rest) (fun r =>
      let '(s', rest', more) := r in
      if more then
        ocheck (length (sp_window s') =? length (sp_queue s'))
        (obind (compute_loop fuel' m s' rest') (fun r' =>
         Ok (fst r',
             render m (sp_fft s')
               (core_fft (sp_window s') (sp_fft s') (sp_queue s'))
             :: snd r')))
      else Ok (s', []))
  end.

(* spectrogram.cc:81-108, 131-161; [None] is the result false. *)
Definition compute (s : spectro) (call : mode * list D)
    : outcome (spectro * option (list spec_slice)) :=
  if sp_initialized s then
    obind (compute_loop (S (length (snd call))) (fst call) s (snd call))
      (fun r => Ok (fst r, Some (snd r)))
  else Ok (s, None).

(* ---------- InverseSpectrogram ---------- *)

(* inverse_spectrogram.h:102-118 *)
Record inverse := mkInverse {
  iv_fft : nat;                  (* fft_length_ *)
  iv_frame : nat;                (* frame_size_ *)
  iv_step : nat;                 (* step_length_ *)
  iv_overlap : nat;              (* overlap_ *)
  iv_initialized : bool;
  iv_processed : bool;           (* at_least_one_frame_processed_ *)
  iv_with_window : bool;
  iv_window : list D;            (* window_function_ *)
  iv_working : list D            (* working_output_ *)
}.

Definition inverse_new : inverse :=
  mkInverse 0 0 0 0 false false false [] [].

(* inverse_spectrogram.cc:57-78 *)
Definition internal_init (s : inverse) : inverse :=
  let ov := iv_frame s - iv_step s in
  mkInverse (iv_fft s) (iv_frame s) (iv_step s) ov true false
            (iv_with_window s) (iv_window s) (repeat zero ov).

Definition uninit (s : inverse) fft frame ww w : inverse :=
  mkInverse fft frame (iv_step s) (iv_overlap s) false (iv_processed s) ww w
            (iv_working s).

(* inverse_spectrogram.cc:80-102 *)
Definition inverse_init_fft (s : inverse) (fft_length step : Z)
    : inverse * bool :=
  if (fft_length <? 2)%Z then
    (uninit s (iv_fft s) (iv_frame s) (iv_with_window s) (iv_window s), false)
  else if negb (is_power_of_two_or_zero fft_length) then
    (uninit s (iv_fft s) (iv_frame s) (iv_with_window s) (iv_window s), false)
  else
    let n := Z.to_nat fft_length in
    if (step <? 1)%Z then
      (uninit s n n (iv_with_window s) (iv_window s), false)
    else
      (internal_init (mkInverse n n (Z.to_nat step) (iv_overlap s) false
                        (iv_processed s) false (iv_window s) (iv_working s)),
       true).

(* inverse_spectrogram.cc:104-123; a window above 2^30 samples overflows the
   int fft_length_. *)
Definition inverse_init_window (s : inverse) (window : list D) (step : Z)
    : outcome (inverse * bool) :=
  if length window <? 2 then
    Ok (uninit s (iv_fft s) (iv_frame s) (iv_with_window s) (iv_window s),
        false)
  else
    obind (next_power_of_two (Z.of_nat (length window))) (fun z =>
    oguard (z <? 2 ^ 31)%Z
    (let n := Z.to_nat z in
     if (step <? 1)%Z then
       Ok (uninit s n (length window) true window, false)
     else
       Ok (internal_init
             (mkInverse n (length window) (Z.to_nat step) (iv_overlap s) false
                        (iv_processed s) true window (iv_working s)), true))).

(* inverse_spectrogram.cc:193-201 (the zero past the end cannot be reached:
   frame_size_ is the window length when there is a window). *)
Definition window_value (s : inverse) (k : nat) : outcome D :=
  if negb (iv_with_window s) then Ok one
  else if length (iv_window s) <? k then Ok zero
  else match nth_error (iv_window s) k with Some w => Ok w | None => Undef end.

(* inverse_spectrogram.cc:139-146: the packed spectrum handed to rdft. *)
Definition pack (n : nat) (sl : list (D * D)) : list D :=
  [fst (nth 0 sl (zero, zero)); fst (nth (Nat.div n 2) sl (zero, zero))]
  ++ flat_map (fun j => [fst (nth j sl (zero, zero));
                         snd (nth j sl (zero, zero))])
       (seq 1 (Nat.div n 2 - 1)).

(* inverse_spectrogram.cc:182-190: the loop over k; [k] counts up, [left]
   iterations remain, [y] is the inverse transform. *)
Fixpoint overlap_loop (s : inverse) (y : list D) (left k : nat)
    (work : list D) : outcome (list D) :=
  match left with
  | O => Ok work
  | S left' =>
      match nth_error y k with
      | None => Undef
      | Some v =>
          obind (window_value s k) (fun w =>
          let cur := mul (div v (of_nat (Nat.div (iv_fft s) 2))) w in
          if k <? iv_overlap s then
            match nth_error work k with
            | None => Undef
            | Some o =>
                overlap_loop s y left' (S k) (splice k [add o cur] work)
            end
          else overlap_loop s y left' (S k) (work ++ [cur]))
      end
  end.

(* inverse_spectrogram.cc:135-157: one slice. *)
Definition process_slice (s : inverse) (sl : list (D * D))
    : outcome (inverse * list D) :=
  ocheck (length sl =? Nat.div (iv_fft s) 2 + 1)
  (let y := irdft (pack (iv_fft s) sl) in
   ocheck (iv_overlap s =? length (iv_working s))
   (obind (overlap_loop s y (iv_frame s) 0 (iv_working s)) (fun work =>
    let n := length work - iv_overlap s in
    Ok (mkInverse (iv_fft s) (iv_frame s) (iv_step s) (iv_overlap s)
          (iv_initialized s) true (iv_with_window s) (iv_window s)
          (skipn n work), firstn n work)))).

(* inverse_spectrogram.cc:126-159; [None] is the result false. *)
Definition inv_process (s : inverse) (input : list (list (D * D)))
    : outcome (inverse * option (list D)) :=
  if iv_initialized s then
    obind (run process_slice s input) (fun r =>
    Ok (fst r, Some (concat (snd r))))
  else Ok (s, None).

(* inverse_spectrogram.cc:204-222; [null] is a NULL argument, which line 205
   dereferences. *)
Definition inv_flush (s : inverse) (null : bool)
    : outcome (inverse * option (list D)) :=
  oguard (negb null)
  (if iv_initialized s then
     let out := if iv_processed s then iv_working s else [] in
     Ok (fst (inverse_init_fft s (Z.of_nat (iv_fft s)) (Z.of_nat (iv_step s))),
         Some out)
   else Ok (s, None)).

(* inverse_spectrogram.cc:41-45: denom for residue i. *)
Definition synth_denom (window : list D) (step i : nat) : D :=
  fold_left (fun acc o =>
     let w := nth o window zero in add acc (mul w w))
   (filter (fun o => Nat.modulo o step =? i) (seq 0 (length window))) zero.

(* inverse_spectrogram.cc:29-55; [eqb_zero] is the test denom == 0.  Element o
   is divided once, when i is its residue modulo step. *)
Definition generate_synthesis_window (is_zero : D -> bool) (window : list D)
    (step : nat) : outcome (list D) :=
  ocheck (step <=? length window)
  (ocheck (forallb (fun i => negb (is_zero (synth_denom window step i)))
             (seq 0 step))
   (Ok (map (fun o => div (nth o window zero)
                          (synth_denom window step (Nat.modulo o step)))
            (seq 0 (length window))))).

End Spectro.
