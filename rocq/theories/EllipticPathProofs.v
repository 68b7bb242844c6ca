(* Complex functions of a real variable: derivatives and square roots. *)
From Coq Require Import ZArith Reals Lra Lia List Bool.
From Coquelicot Require Import Coquelicot.
From Verif Require Import EllipticPathSpec.
Local Open Scope R_scope.
Local Notation C := Complex.C.

Definition cder (f : R -> C) (t : R) (d : C) : Prop := is_derive (fun s => fst (f s)) t (fst d) /\ is_derive (fun s => snd (f s)) t (snd d).
Lemma cder_const c t : cder (fun _ => c) t (RtoC 0).
Proof. split; apply (is_derive_const (K := R_AbsRing) (V := R_NormedModule)). Qed.
Lemma cder_plus f g t d e : cder f t d -> cder g t e -> cder (fun s => Cplus (f s) (g s)) t (Cplus d e).
Proof. intros [A B] [A' B']. split; cbn; now apply (is_derive_plus (K := R_AbsRing) (V := R_NormedModule)). Qed.
Lemma cder_minus f g t d e : cder f t d -> cder g t e -> cder (fun s => Cminus (f s) (g s)) t (Cminus d e).
Proof. intros [A B] [A' B']. split; cbn; now apply (is_derive_minus (K := R_AbsRing) (V := R_NormedModule)). Qed.
Lemma der_mult f g t d e : is_derive f t d -> is_derive g t e -> is_derive (fun s : R => f s * g s) t (d * g t + f t * e).
Proof. intros A B. apply (is_derive_mult (K := R_AbsRing) f g t d e A B). intros. apply Rmult_comm. Qed.
Lemma der_minus f g t d e : is_derive f t d -> is_derive g t e -> is_derive (fun s : R => f s - g s) t (d - e).
Proof. apply (is_derive_minus (K := R_AbsRing) (V := R_NormedModule)). Qed.
Lemma der_plus f g t d e : is_derive f t d -> is_derive g t e -> is_derive (fun s : R => f s + g s) t (d + e).
Proof. apply (is_derive_plus (K := R_AbsRing) (V := R_NormedModule)). Qed.
Lemma der_eq (f : R -> R) t (d e : R) : is_derive f t d -> d = e -> is_derive f t e.
Proof. now intros ? <-. Qed.
Lemma cder_eq f t d e : cder f t d -> d = e -> cder f t e.
Proof. now intros ? <-. Qed.
Lemma cder_mult f g t d e : cder f t d -> cder g t e -> cder (fun s => Cmult (f s) (g s)) t (Cplus (Cmult d (g t)) (Cmult (f t) e)).
Proof.
  intros [A B] [A' B']. split; unfold Cmult, Cplus; cbn [fst snd].
  - eapply der_eq; [apply der_minus; apply der_mult; eassumption|]. cbn. ring.
  - eapply der_eq; [apply der_plus; apply der_mult; eassumption|]. cbn. ring.
Qed.
Lemma cder_unique f t d e : cder f t d -> cder f t e -> d = e.
Proof. intros [A B] [A' B']. apply is_derive_unique in A, B, A', B'. apply injective_projections; congruence. Qed.
Lemma cder_loc f g t d : locally t (fun s => f s = g s) -> cder f t d -> cder g t d.
Proof. intros L [A B]. split; (eapply is_derive_ext_loc; [|eassumption]); revert L; apply filter_imp; cbn; now intros s ->. Qed.
Lemma norm_pos (z : C) : z <> RtoC 0 -> 0 < fst z * fst z + snd z * snd z.
Proof. intros N. destruct z as [x y]. cbn [fst snd]. destruct (Req_dec x 0) as [-> |X]; [|nra]. destruct (Req_dec y 0) as [-> |Y]; [now destruct N|nra]. Qed.
Lemma inv_real (x y : R -> R) t : ex_derive x t -> ex_derive y t -> 0 < x t * x t + y t * y t -> ex_derive (fun s => x s / (x s ^ 2 + y s ^ 2)) t /\ ex_derive (fun s => - y s / (x s ^ 2 + y s ^ 2)) t.
Proof. intros A B P. split; auto_derive; repeat split; try assumption; cbn; nra. Qed.
Lemma ex_cder_inv f t d : cder f t d -> f t <> RtoC 0 -> exists e, cder (fun s => Cinv (f s)) t e.
Proof.
  intros [A B] N. pose proof (norm_pos _ N) as P. destruct (inv_real (fun s => fst (f s)) (fun s => snd (f s)) t) as [[x X] [y Y]]; [eexists; exact A|eexists; exact B|exact P|]. exists (x, y). split; [exact X|exact Y].
Qed.
Lemma ex_cder_div f g t d e : cder f t d -> cder g t e -> g t <> RtoC 0 -> exists h, cder (fun s => Cdiv (f s) (g s)) t h.
Proof. intros A B N. destruct (ex_cder_inv g t e B N) as (i & I). eexists. exact (cder_mult _ _ _ _ _ A I). Qed.
Lemma cder_cont f t d : cder f t d -> continuity_pt (fun s => fst (f s)) t /\ continuity_pt (fun s => snd (f s)) t.
Proof. intros [A B]. split; apply derivable_continuous_pt; eexists; apply is_derive_Reals; eassumption. Qed.

(* numbers that are neither zero nor negative *)
Definition slit (z : C) : Prop := 0 < fst z \/ snd z <> 0.
Lemma slit_nz z : slit z -> z <> RtoC 0.
Proof. intros H E. rewrite E in H. unfold slit, RtoC in H. cbn [fst snd] in H. destruct H as [H|H]; [lra|now apply H]. Qed.
Lemma Cmod_sq (z : C) : Cmod z * Cmod z = fst z * fst z + snd z * snd z.
Proof. unfold Cmod. pose proof (pow2_ge_0 (fst z)). pose proof (pow2_ge_0 (snd z)). rewrite sqrt_sqrt by lra. ring. Qed.
Lemma slit_pos z : slit z -> 0 < Cmod z + fst z.
Proof.
  intros S. assert (P : 0 <= Cmod z) by apply Cmod_ge_0. pose proof (Cmod_sq z) as Q. destruct S as [S|S]; [lra|]. assert (Y : 0 < snd z * snd z) by (apply Rsqr_pos_lt in S; exact S). apply Rnot_le_lt. intros L. assert (Cmod z * Cmod z <= (- fst z) * (- fst z)) by (apply Rmult_le_compat; lra). lra.
Qed.
Lemma root_ok z : slit z -> Cmult (root z) (root z) = z /\ 0 < fst (root z).
Proof.
  intros S. pose proof (slit_pos z S) as P. unfold root. cbv zeta. assert (Q : 0 < sqrt ((Cmod z + fst z) / 2)) by (apply sqrt_lt_R0; lra). assert (QQ : sqrt ((Cmod z + fst z) / 2) * sqrt ((Cmod z + fst z) / 2) = (Cmod z + fst z) / 2) by (apply sqrt_sqrt; lra). set (q := sqrt _) in *. split; [|exact Q].
  pose proof (Cmod_sq z) as M. set (n := Cmod z) in *. clearbody n q. destruct z as [x y]. unfold Cmult. cbn [fst snd] in *. apply injective_projections; cbn [fst snd].
  - assert (YY : y * y = 4 * (q * q) * (q * q - x)) by (rewrite QQ; nra). replace (q * q - y / (2 * q) * (y / (2 * q))) with (q * q - y * y / (4 * (q * q))) by (field; lra). rewrite YY. field. nra.
  - field. lra.
Qed.
Lemma square_slit s : 0 < fst s -> slit (Cmult s s).
Proof. intros P. destruct s as [a b]. unfold slit, Cmult. cbn [fst snd] in *. destruct (Req_dec b 0) as [-> |N]; [left; nra|right; nra]. Qed.
Lemma Csq_eq (a b : C) : Cmult a a = Cmult b b -> a = b \/ a = Copp b.
Proof.
  intros E. destruct (Ceq_dec (Cminus a b) (RtoC 0)) as [Z|N].
  - left. transitivity (Cplus (Cminus a b) b); [ring|]. rewrite Z. ring.
  - right. assert (P : Cmult (Cminus a b) (Cplus a b) = RtoC 0) by (replace (Cmult (Cminus a b) (Cplus a b)) with (Cminus (Cmult a a) (Cmult b b)) by ring; rewrite E; ring).
    assert (Z : Cplus a b = RtoC 0). { transitivity (Cmult (Cinv (Cminus a b)) (Cmult (Cminus a b) (Cplus a b))); [field; exact N|]. rewrite P. ring. }
    transitivity (Cminus (Cplus a b) b); [ring|]. rewrite Z. ring.
Qed.
Lemma root_unique s z : Cmult s s = z -> 0 < fst s -> s = root z.
Proof.
  intros E P. subst z. destruct (root_ok _ (square_slit s P)) as (R1 & R2). destruct (Csq_eq _ _ (eq_sym R1)) as [H|H]; [exact H|]. apply (f_equal fst) in H. unfold Copp in H. cbn [fst] in H. exfalso. set (q := fst (root (Cmult s s))) in *. clearbody q. lra.
Qed.
Lemma root_real (x y : R -> R) t : ex_derive x t -> ex_derive y t -> 0 < x t * x t + y t * y t -> 0 < sqrt (x t ^ 2 + y t ^ 2) + x t -> ex_derive (fun s => sqrt ((sqrt (x s ^ 2 + y s ^ 2) + x s) / 2)) t.
Proof. intros A B P Q. auto_derive. cbn in *. repeat split; try assumption; try nra. Qed.
Lemma ex_cder_root f t d : cder f t d -> slit (f t) -> exists e, cder (fun s => root (f s)) t e.
Proof.
  intros [A B] S. pose proof (slit_pos _ S) as P. pose proof (norm_pos _ (slit_nz _ S)) as N. assert (EA : ex_derive (fun s => fst (f s)) t) by (eexists; exact A). assert (EB : ex_derive (fun s => snd (f s)) t) by (eexists; exact B).
  assert (Q : 0 < sqrt ((Cmod (f t) + fst (f t)) / 2)) by (apply sqrt_lt_R0; lra).
  assert (X : ex_derive (fun s => sqrt ((Cmod (f s) + fst (f s)) / 2)) t) by (apply (root_real (fun s => fst (f s)) (fun s => snd (f s))); assumption).
  assert (Y : ex_derive (fun s => snd (f s) / (2 * sqrt ((Cmod (f s) + fst (f s)) / 2))) t).
  { apply (ex_derive_div (fun s => snd (f s)) (fun s => 2 * sqrt ((Cmod (f s) + fst (f s)) / 2))); [exact EB| |lra]. apply (ex_derive_scal (fun s => sqrt ((Cmod (f s) + fst (f s)) / 2)) 2 t X). }
  destruct X as [x X], Y as [y Y]. exists (x, y). now split.
Qed.
