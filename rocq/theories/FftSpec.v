(* The discrete Fourier transform and what is assumed about the Kiss FFT library. *)
From Coq Require Import ZArith Reals List Arith.
From Coquelicot Require Import Complex.
Import ListNotations.
Local Open Scope R_scope.

Fixpoint csum (n : nat) (f : nat -> C) : C :=
  match n with O => RtoC 0 | S m => Cplus (csum m f) (f m) end.

(* exp(2 pi i a / N) *)
Definition root (N : nat) (a : Z) : C :=
  (cos (2 * PI * IZR a / INR N), sin (2 * PI * IZR a / INR N)).

(* sum_n f(n) exp(sign 2 pi i k n / N) *)
Definition dft (sign : Z) (N : nat) (f : nat -> C) (k : nat) : C :=
  csum N (fun n => Cmult (f n) (root N (sign * Z.of_nat k * Z.of_nat n))).

Definition at_ (l : list C) (n : nat) : C := nth n l (RtoC 0).
Definition rat (l : list R) (n : nat) : C := RtoC (nth n l 0).

(* l consists of the first n values of f. *)
Definition lists (n : nat) (f : nat -> C) (l : list C) : Prop :=
  length l = n /\ forall k, (k < n)%nat -> at_ l k = f k.

(* The spectrum of N values whose first N/2+1 ones are s, extended by Hermitian
   symmetry. *)
Definition hermitian (N : nat) (s : nat -> C) (k : nat) : C :=
  if Nat.leb k (N / 2) then s k else Cconj (s (N - k)%nat).

(* The contract of the Kiss FFT functions that are used. *)
Definition kiss_spec (kiss_fft : bool -> nat -> list C -> list C)
    (kiss_fftr : nat -> list R -> list C) (kiss_fftri : nat -> list C -> list R)
    (next_fast_size next_fast_size_real : nat -> nat) : Prop :=
  (forall (inv : bool) N x, (1 <= N)%nat -> length x = N ->
     lists N (dft (if inv then 1 else -1) N (at_ x)) (kiss_fft inv N x)) /\
  (forall N x, (1 <= N)%nat -> Nat.even N = true -> length x = N ->
     lists (N / 2 + 1) (dft (-1) N (rat x)) (kiss_fftr N x)) /\
  (forall N s, (1 <= N)%nat -> Nat.even N = true -> length s = (N / 2 + 1)%nat ->
     length (kiss_fftri N s) = N /\
     forall n, (n < N)%nat -> nth n (kiss_fftri N s) 0 = Re (dft 1 N (hermitian N (at_ s)) n)) /\
  (forall n, (n <= next_fast_size n)%nat) /\ (forall n, (n <= next_fast_size_real n)%nat).

(* Linear convolution of two signals that are zero outside of their lists. *)
Fixpoint rsumn (n : nat) (f : nat -> R) : R :=
  match n with O => 0 | S m => rsumn m f + f m end.
Definition conv (a b : nat -> R) (n : nat) : R := rsumn (S n) (fun k => a k * b (n - k)%nat).
(* The num_times-fold convolution of a with itself. *)
Fixpoint conv_power (a : nat -> R) (m : nat) (n : nat) : R :=
  match m with
  | O => if Nat.eqb n 0 then 1 else 0
  | S p => conv a (conv_power a p) n
  end.

(* A periodic band-limited signal: sum_{k<K} Re(c_k exp(2 pi i k n / N)), sampled at
   N points of a period. *)
Definition trig (c : nat -> C) (K N n : nat) : R :=
  rsumn K (fun k => Re (Cmult (c k) (root N (Z.of_nat k * Z.of_nat n)))).

(* The continuous Fourier transform exp(-2 pi^2 sigma^2 f^2) of a unit-area Gaussian
   at the frequency f = k/N. *)
Definition gauss_gain (sigma : R) (N k : nat) : R :=
  exp (- (2 * PI ^ 2 * sigma ^ 2 * INR k ^ 2 / INR N ^ 2)).

(* kiss_fft_util.h:117-122: the two-sided sum over |n| <= K of
   input[(m - n) mod N] exp(-n^2 / (2 sigma^2)), and the same with input = 1. *)
Definition two_sided (K : nat) (f : Z -> R) : R :=
  f 0%Z + rsumn K (fun j => f (Z.of_nat (S j)) + f (- Z.of_nat (S j))%Z).
Definition documented_gaussian (x : list R) (sigma : R) (m K : nat) : R :=
  two_sided K (fun n => nth (Z.to_nat ((Z.of_nat m - n) mod Z.of_nat (length x))) x 0 * exp (- IZR n ^ 2 / (2 * sigma ^ 2))) /
  two_sided K (fun n => exp (- IZR n ^ 2 / (2 * sigma ^ 2))).
