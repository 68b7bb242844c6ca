(* A polynomial with as many distinct roots as its degree is the product of its linear factors. *)
From Verif Require Import Common RealUtil DesignProofs PoleZeroModel PoleZeroSpec PoleZeroProofs PoleZeroProofs3.
From Coquelicot Require Import Complex.
Local Open Scope C_scope.

(* coefficients in increasing order *)
Fixpoint ceval (l : list C) (x : C) : C := match l with [] => RtoC 0 | a :: q => a + x * ceval q x end.
Fixpoint cadd (l m : list C) : list C :=
  match l, m with [], _ => m | _, [] => l | a :: l', b :: m' => (a + b) :: cadd l' m' end.
Definition cscale (c : C) (l : list C) : list C := map (Cmult c) l.
Lemma cadd_eval l : forall m x, ceval (cadd l m) x = ceval l x + ceval m x.
Proof. induction l as [|a l IH]; intros [|b m] x; cbn [cadd ceval]; try ring. rewrite IH. ring. Qed.
Lemma cadd_length l : forall m, length (cadd l m) = Nat.max (length l) (length m).
Proof. induction l as [|a l IH]; intros [|b m]; cbn [cadd length]; try reflexivity. now rewrite IH. Qed.
Lemma cscale_eval c l x : ceval (cscale c l) x = c * ceval l x.
Proof. unfold cscale. induction l as [|a l IH]; cbn [map ceval]; [ring|rewrite IH; ring]. Qed.
Lemma cscale_length c l : length (cscale c l) = length l.
Proof. apply map_length. Qed.
(* f is a polynomial of degree less than n *)
Definition poly_lt (n : nat) (f : C -> C) : Prop := exists l, (length l <= n)%nat /\ forall x, f x = ceval l x.
Lemma poly_ext n f g : (forall x, f x = g x) -> poly_lt n g -> poly_lt n f.
Proof. intros E (l & L & H). exists l. split; [exact L|]. intros x. now rewrite E. Qed.
Lemma poly_zero n : poly_lt n (fun _ => RtoC 0).
Proof. exists []. split; [cbn; lia|reflexivity]. Qed.
Lemma poly_const n c : (1 <= n)%nat -> poly_lt n (fun _ => c).
Proof. intros H. exists [c]. split; [exact H|]. intros x. cbn. ring. Qed.
Lemma poly_add n f g : poly_lt n f -> poly_lt n g -> poly_lt n (fun x => f x + g x).
Proof. intros (l & L & H) (m & M & G). exists (cadd l m). split; [rewrite cadd_length; lia|]. intros x. now rewrite cadd_eval, H, G. Qed.
Lemma poly_scale n c f : poly_lt n f -> poly_lt n (fun x => c * f x).
Proof. intros (l & L & H). exists (cscale c l). split; [now rewrite cscale_length|]. intros x. now rewrite cscale_eval, H. Qed.
Lemma poly_shift n f : poly_lt n f -> poly_lt (S n) (fun x => x * f x).
Proof. intros (l & L & H). exists (RtoC 0 :: l). split; [cbn; lia|]. intros x. cbn [ceval]. rewrite H. ring. Qed.
Lemma poly_weaken n m f : (n <= m)%nat -> poly_lt n f -> poly_lt m f.
Proof. intros H (l & L & G). exists l. split; [lia|exact G]. Qed.
Lemma poly_pow n : poly_lt (S n) (fun x => cpow x n).
Proof. induction n as [|n IH]; cbn [cpow]; [apply poly_const; lia|]. now apply poly_shift. Qed.
Lemma poly_sub n f g : poly_lt n f -> poly_lt n g -> poly_lt n (fun x => f x - g x).
Proof. intros H G. apply poly_ext with (g := fun x => f x + RtoC (-1) * g x); [intros x; rewrite RtoC_m1; ring|]. apply poly_add; [exact H|now apply poly_scale]. Qed.
(* f x = c x^n + lower terms *)
Definition leading (n : nat) (c : C) (f : C -> C) : Prop := poly_lt n (fun x => f x - c * cpow x n).

Lemma horner l r : exists m, (length m <= pred (length l))%nat /\ forall x, ceval l x - ceval l r = (x - r) * ceval m x.
Proof.
  induction l as [|a q IH]; [exists []; split; [cbn; lia|intros x; cbn; ring]|]. destruct IH as (m & M & H).
  exists (cadd q (cscale r m)). split; [rewrite cadd_length, cscale_length; cbn [length]; lia|].
  intros x. cbn [ceval]. rewrite cadd_eval, cscale_eval. transitivity ((x - r) * ceval q x + r * (ceval q x - ceval q r)); [ring|]. rewrite H. ring.
Qed.
Lemma ceval_pad m k x : ceval (m ++ repeat (RtoC 0) k) x = ceval m x.
Proof. induction m as [|a m IH]; cbn [app ceval]; [|now rewrite IH]. induction k as [|k IH]; cbn [repeat ceval]; [reflexivity|rewrite IH; ring]. Qed.
Lemma poly_vanish l : forall rs, NoDup rs -> (length l <= length rs)%nat -> (forall r, In r rs -> ceval l r = RtoC 0) -> forall x, ceval l x = RtoC 0.
Proof.
  remember (length l) as n eqn:N. revert l N. induction n as [|n IH]; intros l N rs ND HL HR x; [destruct l; [reflexivity|discriminate]|].
  destruct rs as [|r rs]; [cbn in HL; lia|]. destruct (horner l r) as (m & M & H). inversion ND as [|? ? NI ND']; subst.
  assert (Z : ceval l r = RtoC 0) by (apply HR; now left).
  assert (G : forall y, In y rs -> ceval m y = RtoC 0).
  { intros y Hy. specialize (H y). rewrite Z, (HR y (or_intror Hy)) in H. assert (D : y - r <> RtoC 0) by (apply Cminus_neq; intros ->; contradiction).
    transitivity (((y - r) * ceval m y) / (y - r)); [field; exact D|]. rewrite <- H. field. exact D. }
  assert (E : ceval m x = RtoC 0).
  { destruct (Nat.eq_dec (length m) n) as [EM|EM]; [apply (IH m (eq_sym EM) rs); auto; cbn [length] in HL; lia|].
    apply (IH (m ++ repeat (RtoC 0) (n - length m))) with (x := x) in ND'; [|rewrite app_length, repeat_length; lia|cbn [length] in HL; lia|].
    - rewrite <- ND'. symmetry. apply ceval_pad.
    - intros y Hy. rewrite ceval_pad. exact (G y Hy). }
  transitivity (ceval l x - ceval l r); [rewrite Z; ring|]. rewrite H, E. ring.
Qed.
Lemma monic_product rs : leading (length rs) (RtoC 1) (fun x => po (fun r => x - r) rs).
Proof.
  unfold leading. induction rs as [|r rs IH]; cbn [product_over length cpow]; [apply poly_ext with (g := fun _ => RtoC 0); [intros x; ring|apply poly_zero]|].
  apply poly_ext with (g := fun x => (x * (po (fun r => x - r) rs - RtoC 1 * cpow x (length rs)) + (- r) * (po (fun r => x - r) rs - RtoC 1 * cpow x (length rs))) + (- r) * cpow x (length rs)); [intros x; ring|].
  apply poly_add; [apply poly_add|].
  - apply (poly_shift (length rs) (fun x => po (fun r => x - r) rs - RtoC 1 * cpow x (length rs))), IH.
  - apply poly_weaken with (n := length rs); [lia|]. apply (poly_scale _ (- r) (fun x => po (fun r => x - r) rs - RtoC 1 * cpow x (length rs))), IH.
  - apply poly_scale, poly_pow.
Qed.
Lemma factored f c rs : NoDup rs -> leading (length rs) c f -> (forall r, In r rs -> f r = RtoC 0) -> forall x, f x = c * po (fun r => x - r) rs.
Proof.
  intros ND HF HR x. pose proof (monic_product rs) as HM. unfold leading in *.
  assert (D : poly_lt (length rs) (fun x => f x - c * po (fun r => x - r) rs)).
  { apply poly_ext with (g := fun x => (f x - c * cpow x (length rs)) - c * (po (fun r => x - r) rs - RtoC 1 * cpow x (length rs))); [intros y; ring|].
    apply (poly_sub _ (fun x => f x - c * cpow x (length rs)) (fun x => c * (po (fun r => x - r) rs - RtoC 1 * cpow x (length rs)))); [exact HF|]. apply (poly_scale _ c (fun x => po (fun r => x - r) rs - RtoC 1 * cpow x (length rs))), HM. }
  destruct D as (l & L & H). assert (Z : ceval l x = RtoC 0).
  { apply (poly_vanish l rs ND L). intros r Hr. rewrite <- H, (HR r Hr). replace (po (fun r0 => r - r0) rs) with (RtoC 0); [ring|].
    clear - Hr. induction rs as [|y rs IH]; [destruct Hr|]. cbn [product_over]. destruct Hr as [->|Hr]; [ring|]. rewrite <- (IH Hr). ring. }
  rewrite <- H in Z. transitivity (f x - c * po (fun r => x - r) rs + c * po (fun r => x - r) rs); [ring|]. rewrite Z. ring.
Qed.
