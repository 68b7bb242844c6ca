From Coq Require Import Permutation.
From Verif Require Import Common ListLemmas RealUtil BiquadModel DesignModel DesignSpec DesignProofs DesignProofs2 DesignProofs3 CascadeModel CascadeSpec CascadeProofs CascadeProofs2 PoleZeroModel PoleZeroSpec PoleZeroProofs PoleZeroProofs2 PoleZeroProofs3 PoleZeroProofs4 PoleZeroProofs5 PolyRoots PoleZeroProofs6 PoleZeroProofs7 PoleZeroProofs8 PoleZeroProofs13 PoleZeroProofs15 PoleZeroProofs18.
From Coquelicot Require Import Complex.
Local Open Scope R_scope.

(* ---------- histories of calls ---------- *)
Definition build (cs : list pz_call) : pole_zero := fold_left run_call cs pz_new.
Lemma roots_snoc_lone l x p : Permutation (roots (l ++ [x]) p) (roots l p ++ [RtoC x]).
Proof. unfold roots. set (q := p ++ map Cconj p). rewrite map_app, <- !app_assoc. apply Permutation_app_head. apply Permutation_cons_append. Qed.
Lemma roots_snoc_pair l p x : Permutation (roots l (p ++ [x])) (roots l p ++ [x; Cconj x]).
Proof.
  unfold roots. rewrite map_app, <- !app_assoc. cbn [map app]. apply Permutation_app_head, Permutation_app_head.
  change (Permutation (x :: (map Cconj p ++ [Cconj x])) (map Cconj p ++ [x; Cconj x])). apply Permutation_middle.
Qed.
Lemma build_snoc cs c : build (cs ++ [c]) = run_call (build cs) c.
Proof. unfold build. now rewrite fold_left_app. Qed.
Lemma build_roots cs : Permutation (poles (build cs)) (poles_called cs) /\ Permutation (zeros (build cs)) (zeros_called cs) /\ pz_gain (build cs) = gain_called cs.
Proof.
  induction cs as [|c cs (P & Z & G)] using rev_ind; [repeat split; constructor|].
  rewrite build_snoc. unfold poles_called, zeros_called, gain_called. rewrite !flat_map_app, fold_left_app. fold (poles_called cs) (zeros_called cs) (gain_called cs). cbn [flat_map fold_left app].
  destruct c; cbn [run_call app]; rewrite ?app_nil_r; unfold poles, zeros, add_pole, add_pole_pair, add_zero, add_zero_pair, set_gain; cbn [lone_zeros lone_poles paired_zeros paired_poles pz_gain];
    (split; [|split]); try assumption; try reflexivity; (eapply perm_trans; [apply roots_snoc_lone || apply roots_snoc_pair|]); apply Permutation_app_tail; assumption.
Qed.
Lemma product_perm g l l' : Permutation l l' -> product_over g l = product_over g l'.
Proof. induction 1; cbn [product_over]; [reflexivity|now rewrite IHPermutation|ring|congruence]. Qed.
Lemma digital_build cs z h : digital_value (build cs) z h <->
  product_over (fun p => Cminus (RtoC 1) (Cdiv p z)) (poles_called cs) <> RtoC 0 /\
  h = Cdiv (Cmult (RtoC (gain_called cs)) (product_over (fun r => Cminus (RtoC 1) (Cdiv r z)) (zeros_called cs))) (product_over (fun p => Cminus (RtoC 1) (Cdiv p z)) (poles_called cs)).
Proof. destruct (build_roots cs) as (P & Z & G). unfold digital_value. rewrite G, (product_perm _ _ _ P), (product_perm _ _ _ Z). reflexivity. Qed.
Lemma analog_build cs s h : analog_value (build cs) s h <->
  product_over (fun p => Cminus s p) (poles_called cs) <> RtoC 0 /\
  h = Cdiv (Cmult (RtoC (gain_called cs)) (product_over (fun r => Cminus s r) (zeros_called cs))) (product_over (fun p => Cminus s p) (poles_called cs)).
Proof. destruct (build_roots cs) as (P & Z & G). unfold analog_value. rewrite G, (product_perm _ _ _ P), (product_perm _ _ _ Z). reflexivity. Qed.
Lemma total_build cs : poles_called cs ++ zeros_called cs <> [] -> total_roots (build cs) <> 0%nat.
Proof.
  intros H E. apply H. destruct (build_roots cs) as (P & Z & _). unfold total_roots in E.
  assert (L : length (poles_called cs ++ zeros_called cs) = 0%nat).
  { rewrite app_length, <- (Permutation_length P), <- (Permutation_length Z). unfold poles, zeros, roots. rewrite !app_length, !map_length. lia. }
  destruct (poles_called cs ++ zeros_called cs); [reflexivity|discriminate].
Qed.
Lemma clear_build cs : (forall r, In r (zeros_called cs ++ poles_called cs) -> r = RtoC 0 \/ / 100000 < Cmod r) -> clear_roots (build cs).
Proof.
  intros H r Hr. apply H. destruct (build_roots cs) as (P & Z & _). apply in_app_iff in Hr. apply in_app_iff. destruct Hr as [Hr|Hr]; [left; now apply (Permutation_in _ Z)|right; now apply (Permutation_in _ P)].
Qed.
(* Eval is the transfer function up to a sign *)
Lemma eval_sign f s h : analog_value f s h -> eval f s = Ok (Cmult (RtoC ((-1) ^ Z.abs_nat (relative_degree f))) h).
Proof.
  intros [HP ->]. pose proof (proj1 (po_neq _ _) HP) as HN. rewrite eval_ok by (intros p Hp ->; apply (HN s Hp); ring). f_equal. rewrite !po_flip.
  set (Z := po (fun r => Cminus s r) (zeros f)). set (P := po (fun r => Cminus s r) (poles f)) in *. rewrite relative_degree_is. set (np := length (poles f)). set (nz := length (zeros f)).
  assert (CP : forall k, cpow (RtoC (-1)) k = RtoC ((-1) ^ k)) by (induction k as [|k IH]; [reflexivity|cbn [cpow pow]; rewrite IH, RtoC_mult; reflexivity]). rewrite !CP.
  assert (NN : forall k, (-1) ^ k <> 0) by (intros; apply pow_nonzero; lra).
  assert (S2 : forall k, (-1) ^ k * (-1) ^ k = 1) by (intros; rewrite <- Rpow_mult_distr; replace (-1 * -1) with 1 by ring; apply pow1).
  assert (E : (-1) ^ Z.abs_nat (Z.of_nat np - Z.of_nat nz) = (-1) ^ nz * (-1) ^ np).
  { destruct (Nat.le_ge_cases nz np) as [L|L].
    - replace (Z.abs_nat (Z.of_nat np - Z.of_nat nz)) with (np - nz)%nat by lia. replace np with (nz + (np - nz))%nat at 2 by lia. rewrite pow_add, <- Rmult_assoc, S2. ring.
    - replace (Z.abs_nat (Z.of_nat np - Z.of_nat nz)) with (nz - np)%nat by lia. replace nz with (np + (nz - np))%nat at 2 by lia. rewrite pow_add. replace ((-1) ^ np * (-1) ^ (nz - np) * (-1) ^ np) with ((-1) ^ np * (-1) ^ np * (-1) ^ (nz - np)) by ring. rewrite S2. ring. }
  rewrite E. replace ((-1) ^ nz * (-1) ^ np) with ((-1) ^ nz / (-1) ^ np) by (apply (Rmult_eq_reg_r ((-1) ^ np)); [|apply NN]; unfold Rdiv; rewrite !Rmult_assoc, Rinv_l, S2 by apply NN; reflexivity).
  rewrite RtoC_div_neq by apply NN. field. split; [exact HP|]. apply RtoC_neq, NN.
Qed.
