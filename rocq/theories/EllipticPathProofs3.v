(* The descending recursion along a path of complex numbers. *)
From Coq Require Import ZArith Reals Lra Lia List Bool.
From Coquelicot Require Import Coquelicot.
From Verif Require Import Common RealUtil CInt ComplexModel ComplexProofs EllipticModel EllipticProofs EllipticProofs2 EllipticProofs4 EllipticPathSpec EllipticPathProofs EllipticPathProofs2.
Import ListNotations.
Local Open Scope R_scope.
Local Notation C := Complex.C.

Lemma root_1 : root (RtoC 1) = RtoC 1.
Proof. symmetry. apply root_unique; [ring|cbn; lra]. Qed.
Lemma under_0 k : under k (RtoC 0) = RtoC 1.
Proof. unfold under. ring. Qed.
Lemma step_0 k k1 : step_w k k1 (RtoC 0) = RtoC 0.
Proof. unfold step_w, Cdiv. ring. Qed.
Section Path.
Variable U : R -> Prop.
Hypothesis Uopen : forall t, U t -> locally t U.
Hypothesis U0 : U 0.
Hypothesis Udown : forall s t, U t -> 0 <= s <= t -> U s.
Definition path (w : R -> C) : Prop := w 0 = RtoC 0 /\ forall t, U t -> inside (w t) /\ exists d, cder w t d.
Lemma under_cder k w t d : cder w t d -> exists e, cder (fun s => under k (w s)) t e.
Proof. intros H. eexists. unfold under. apply cder_minus; [apply cder_const|]. apply cder_mult; [apply cder_const|]. apply cder_mult; exact H. Qed.
Lemma root_under_cder k w t : 0 <= k <= 1 -> path w -> U t -> exists e, cder (fun s => root (under k (w s))) t e.
Proof.
  intros K0 (_ & P) T. destruct (P t T) as (I & d & D). destruct (under_cder k w t d D) as (e & E). apply (ex_cder_root _ _ _ E). now apply inside_slit.
Qed.
Lemma step_path k w : 0 <= k < 1 -> path w -> path (fun s => step_w k (landen_step k) (w s)).
Proof.
  intros K0 P. split; [rewrite (proj1 P); apply step_0|]. intros t T. destruct (proj2 P t T) as (I & d & D). split; [now apply w1_inside|].
  destruct (root_under_cder k w t ltac:(lra) P T) as (e & E). unfold step_w. eapply ex_cder_div; [exact D| |].
  - apply cder_mult; [|apply cder_const]. apply cder_plus; [apply cder_const|exact E].
  - apply Cmult_neq_0; [apply one_plus_nz; now apply r_pos|now apply half_nz].
Qed.
Section Step.
Variables (k : R) (w : R -> C).
Hypothesis K0 : 0 <= k < 1.
Hypothesis P : path w.
Let k1 := landen_step k.
Let w1 := fun s => step_w k k1 (w s).
Let v := fun s => Cmult (RtoC k1) (Cmult (w1 s) (w1 s)).
Let q := fun s => Cdiv (Cmult (root (under 1 (w1 s))) (root (under k1 (w1 s)))) (Cplus (RtoC 1) (v s)).
Lemma K1 : 0 <= k1 < 1.
Proof. now apply k1_range. Qed.
Lemma P1 : path w1.
Proof. now apply step_path. Qed.
Lemma q_sq s : U s -> Cmult (q s) (q s) = under 1 (w s).
Proof.
  intros T. destruct (proj2 P s T) as (I & _). rewrite (under_is k (w s) K0 I). pose proof (one_v_nz k (w s) K0 I) as N. fold k1 in N |- *. fold (w1 s) in N |- *. fold (v s) in N |- *. pose proof (w1_inside k (w s) K0 I) as I1. fold k1 in I1. fold (w1 s) in I1. pose proof K1 as KR.
  rewrite <- (proj1 (root_ok _ (inside_slit 1 (w1 s) ltac:(lra) I1))) at 1. rewrite <- (proj1 (root_ok _ (inside_slit k1 (w1 s) ltac:(lra) I1))). unfold q. field. exact N.
Qed.
Lemma q_cder t : U t -> exists e, cder q t e.
Proof.
  intros T. pose proof K1 as KR. destruct (root_under_cder 1 w1 t ltac:(lra) P1 T) as (e1 & E1). destruct (root_under_cder k1 w1 t ltac:(lra) P1 T) as (e2 & E2). destruct (proj2 P1 t T) as (_ & d & D).
  unfold q. eapply ex_cder_div; [apply cder_mult; eassumption| |].
  - apply cder_plus; [apply cder_const|]. unfold v. apply cder_mult; [apply cder_const|apply cder_mult; exact D].
  - destruct (proj2 P t T) as (I & _). exact (one_v_nz k (w t) K0 I).
Qed.
Lemma re_nz (z : C) : slit (Cmult z z) -> fst z <> 0.
Proof. intros S E. destruct z as [a b]. cbn [fst] in E. subst a. unfold slit, Cmult in S. cbn [fst snd] in S. destruct S as [S|S]; [nra|apply S; ring]. Qed.
Lemma sign t : U t -> 0 <= t -> root (under 1 (w t)) = q t.
Proof.
  intros T T0. symmetry. apply root_unique; [now apply q_sq|].
  assert (NZ : forall s, U s -> fst (q s) <> 0) by (intros s S; apply re_nz; rewrite q_sq by exact S; apply (proj2 P s S)).
  assert (Q0 : q 0 = RtoC 1). { unfold q, v. rewrite (proj1 P1). rewrite !under_0, root_1. replace (Cplus (RtoC 1) (Cmult (RtoC k1) (Cmult (RtoC 0) (RtoC 0)))) with (RtoC 1) by ring. field. apply RtoC_nz. lra. }
  destruct T0 as [T0| <-]; [|rewrite Q0; cbn; lra]. apply Rnot_le_lt. intros L. pose proof (NZ t T) as N.
  destruct (Ranalysis5.IVT_interv (fun s => - fst (q s)) 0 t) as (z & Z & E).
  - intros a A. assert (UA : U a) by (apply (Udown a t); assumption). destruct (q_cder a UA) as (e & D). apply continuity_pt_opp. exact (proj1 (cder_cont _ _ _ D)).
  - exact T0.
  - rewrite Q0. cbn. lra.
  - assert (fst (q t) < 0) by (destruct (Rdichotomy _ _ N); lra). lra.
  - apply (NZ z); [apply (Udown z t); assumption|lra].
Qed.
Lemma step_relation t d e : U t -> 0 <= t -> cder w t d -> cder w1 t e ->
  Cdiv d (Cmult (root (under 1 (w t))) (root (under k (w t)))) = Cdiv (Cmult (RtoC (1 + k1)) e) (Cmult (root (under 1 (w1 t))) (root (under k1 (w1 t)))).
Proof.
  intros T T0 D E. destruct (proj2 P t T) as (I & _). rewrite (sign t T T0). pose proof (one_v_nz k (w t) K0 I) as N. pose proof (r_is k (w t) K0 I) as RI. pose proof (w_is k (w t) K0 I) as WI. pose proof (r_pos k (w t) K0 I) as RP. fold k1 in N, RI, WI. fold (w1 t) in N, RI, WI. fold (v t) in N, RI, WI. rewrite RI in RP |- *.
  (* differentiate w (1 + v) = (1 + k1) w1 *)
  assert (A : cder (fun s => Cmult (w s) (Cplus (RtoC 1) (v s))) t (Cmult (RtoC (1 + k1)) e)).
  { apply (cder_loc (fun s => Cmult (RtoC (1 + k1)) (w1 s))).
    - generalize (Uopen t T). apply filter_imp. intros s S. destruct (proj2 P s S) as (Is & _). pose proof (one_v_nz k (w s) K0 Is) as Ns. pose proof (w_is k (w s) K0 Is) as Ws. fold k1 in Ns, Ws. fold (w1 s) in Ns, Ws. fold (v s) in Ns, Ws. rewrite Ws. field. exact Ns.
    - eapply cder_eq; [apply cder_mult; [apply cder_const|exact E]|]. cbv beta. ring. }
  assert (B : cder (fun s => Cmult (w s) (Cplus (RtoC 1) (v s))) t (Cplus (Cmult d (Cplus (RtoC 1) (v t))) (Cmult (w t) (Cmult (RtoC k1) (Cmult (RtoC 2) (Cmult (w1 t) e)))))).
  { eapply cder_eq; [apply cder_mult; [exact D|]|].
    - apply cder_plus; [apply cder_const|]. unfold v. apply cder_mult; [apply cder_const|apply cder_mult; exact E].
    - cbv beta. unfold v. replace (RtoC 2) with (Cplus (RtoC 1) (RtoC 1)) by (rewrite <- RtoC_plus; f_equal; ring). ring. }
  pose proof (cder_unique _ _ _ _ A B) as X. clear A B.
  assert (DI : d = Cdiv (Cminus (Cmult (RtoC (1 + k1)) e) (Cmult (w t) (Cmult (RtoC k1) (Cmult (RtoC 2) (Cmult (w1 t) e))))) (Cplus (RtoC 1) (v t))). { rewrite X. field. exact N. }
  assert (NV : Cminus (RtoC 1) (v t) <> RtoC 0). { intros Z. rewrite Z in RP. unfold Cdiv in RP. replace (Cmult (RtoC 0) (Cinv (Cplus (RtoC 1) (v t)))) with (RtoC 0) in RP by ring. cbn in RP. lra. }
  destruct (proj2 P1 t T) as (I1 & _). pose proof K1 as KR. destruct (root_ok _ (inside_slit 1 (w1 t) ltac:(lra) I1)) as (_ & C1). destruct (root_ok _ (inside_slit k1 (w1 t) ltac:(lra) I1)) as (_ & C2). unfold q. set (c1 := root (under 1 (w1 t))) in *. set (d1 := root (under k1 (w1 t))) in *.
  assert (N1 : c1 <> RtoC 0) by (intros Z; rewrite Z in C1; cbn in C1; lra). assert (N2 : d1 <> RtoC 0) by (intros Z; rewrite Z in C2; cbn in C2; lra). clearbody c1 d1.
  rewrite DI, WI. rewrite RtoC_plus. unfold v in *. set (y := w1 t) in *. clearbody y. set (kk := RtoC k1) in *. clearbody kk. clear - N NV N1 N2. replace (RtoC 2) with (Cplus (RtoC 1) (RtoC 1)) by (rewrite <- RtoC_plus; f_equal; ring). field. repeat split; assumption.
Qed.
End Step.

Fixpoint descend_w (k : R) (ks : list R) (w : C) : C := match ks with [] => w | k1 :: r => descend_w k1 r (step_w k k1 w) end.
Lemma descend_path ks : forall k w, 0 <= k < 1 -> chain k ks -> path w -> path (fun s => descend_w k ks (w s)).
Proof.
  induction ks as [|k1 r IH]; intros k w K0 CH P; cbn [descend_w chain] in *; [exact P|]. destruct CH as (-> & CH). apply (IH (landen_step k) (fun s => step_w k (landen_step k) (w s))); [now apply k1_range|exact CH|now apply step_path].
Qed.
Lemma descend_relation ks : forall k w t d e, 0 <= k < 1 -> chain k ks -> path w -> U t -> 0 <= t -> cder w t d -> cder (fun s => descend_w k ks (w s)) t e ->
  Cdiv d (Cmult (root (under 1 (w t))) (root (under k (w t)))) = Cdiv (Cmult (RtoC (product ks)) e) (Cmult (root (under 1 (descend_w k ks (w t)))) (root (under (final k ks) (descend_w k ks (w t))))).
Proof.
  induction ks as [|k1 r IH]; intros k w t d e K0 CH P T T0 D E; cbn [descend_w chain product final] in *.
  - rewrite (cder_unique _ _ _ _ D E). f_equal. ring.
  - destruct CH as (-> & CH). pose proof (step_path k w K0 P) as P1. destruct (proj2 P1 t T) as (_ & e1 & E1). pose proof (step_relation k w K0 P t d e1 T T0 D E1) as A.
    pose proof (IH (landen_step k) (fun s => step_w k (landen_step k) (w s)) t e1 e (k1_range k K0) CH P1 T T0 E1 E) as B. cbv beta in B. rewrite A, RtoC_mult. unfold Cdiv in *. rewrite <- !Cmult_assoc. rewrite B. ring.
Qed.
End Path.
Lemma descend_mod ks : forall k w, 0 <= k < 1 -> chain k ks -> inside w -> ks <> [] \/ Cmod (Cmult (RtoC k) (Cmult w w)) <= 1 ->
  inside (descend_w k ks w) /\ Cmod (Cmult (RtoC (final k ks)) (Cmult (descend_w k ks w) (descend_w k ks w))) <= 1.
Proof.
  induction ks as [|k1 r IH]; intros k w K0 CH I H; cbn [descend_w chain final] in *; [destruct H as [H|H]; [congruence|now split]|]. destruct CH as (-> & CH).
  apply IH; [now apply k1_range|exact CH|now apply w1_inside|right]. now apply v_mod.
Qed.
Lemma csqrt_root ex z : slit z -> csqrt ex z = root z.
Proof.
  intros S. destruct (csqrt_spec ex z) as (E & P & _). set (s := csqrt ex z) in *. assert (E' : Cmult s s = z) by exact E. apply root_unique; [exact E'|]. rewrite <- E' in S. pose proof (re_nz s S). destruct (Rdichotomy _ _ H); [lra|assumption].
Qed.
Lemma descend_is ex ks : forall k w, 0 <= k < 1 -> chain k ks -> inside w -> descend ex k ks w = Ok (descend_w k ks w).
Proof.
  induction ks as [|k1 r IH]; intros k w K0 CH I; cbn [descend descend_w chain] in *; [reflexivity|]. destruct CH as (-> & CH). set (k1 := landen_step k) in *.
  replace (csub (1, 0) (csquare (cmul_real w k))) with (under k w : cplx) by (destruct w as [x y]; unfold under, csub, csquare, cmul_real; cbn [fst snd]; apply injective_projections; cbn; ring).
  rewrite csqrt_root by (apply inside_slit; [lra|exact I]). replace (cmul_real (cadd (1, 0) (root (under k w))) (1 / 2 * (1 + k1))) with (Cmult (Cplus (RtoC 1) (root (under k w))) (RtoC (1 / 2 * (1 + k1)))) by (unfold cmul_real, cadd; apply injective_projections; cbn [fst snd Cmult Cplus RtoC]; ring).
  rewrite cdiv_ok; [|apply Cmult_neq_0; [apply one_plus_nz; now apply r_pos|now apply half_nz]]. cbn [obind]. fold (step_w k k1 w). apply IH; [now apply k1_range|exact CH|now apply w1_inside].
Qed.
