From Verif Require Import CInt ListLemmas CrossProductModel CrossProductSpec.
From Coq Require Import FinFun.

(* Mixed-radix digits, least significant first. *)
Fixpoint digits (shape : list Z) (n : Z) : list Z :=
  match shape with
  | [] => []
  | s :: rest => (n mod s) :: digits rest (n / s)
  end.

Definition pos_shape (shape : list Z) : Prop := Forall (fun s => 0 < s <= INT_MAX) shape.

Lemma volume_pos shape : pos_shape shape -> 0 < volume shape.
Proof. induction 1; cbn [volume fold_right]; [lia|]. fold (volume l). nia. Qed.

Lemma volume_cons s shape : volume (s :: shape) = s * volume shape.
Proof. reflexivity. Qed.

Lemma incr_digits shape : pos_shape shape -> forall n, 0 <= n < volume shape ->
  cp_incr_loop shape (digits shape n) =
  (if n + 1 =? volume shape then map (fun _ => 0) shape else digits shape (n + 1),
   n + 1 =? volume shape).
Proof.
  induction 1 as [|s shape Hs HS IH]; intros n Hn.
  - cbn in *. replace (n + 1 =? 1) with true by lia. reflexivity.
  - pose proof (volume_pos shape HS) as HV.
    rewrite volume_cons in *. cbn [digits cp_incr_loop map].
    pose proof (Z.div_mod n s) as D. pose proof (Z.mod_pos_bound n s) as M.
    destruct (Z.leb_spec s (n mod s + 1)) as [L|L].
    + assert (EM : n mod s = s - 1) by lia.
      assert (E1 : n + 1 = s * (n / s + 1)) by lia.
      assert (Q : 0 <= n / s < volume shape).
      { split; [apply Z.div_pos; lia|]. apply Z.div_lt_upper_bound; lia. }
      rewrite IH by exact Q. cbn [fst snd].
      assert (EB : (n / s + 1 =? volume shape) = (n + 1 =? s * volume shape)).
      { rewrite E1. destruct (Z.eqb_spec (n / s + 1) (volume shape)),
          (Z.eqb_spec (s * (n / s + 1)) (s * volume shape)); try reflexivity; nia. }
      rewrite EB. destruct (n + 1 =? s * volume shape); [reflexivity|].
      f_equal. f_equal.
      * rewrite E1, Z.mul_comm. symmetry. apply Z.mod_mul. lia.
      * f_equal. rewrite E1, Z.mul_comm. symmetry. apply Z.div_mul. lia.
    + assert (EM : (n + 1) mod s = n mod s + 1).
      { symmetry. apply (Z.mod_unique_pos _ _ (n / s)); lia. }
      assert (ED : (n + 1) / s = n / s).
      { symmetry. apply (Z.div_unique_pos _ _ _ (n mod s + 1)); lia. }
      assert (NE : n + 1 <> s * volume shape).
      { intros E. rewrite E, Z.mul_comm, Z.mod_mul in EM by lia. lia. }
      replace (n + 1 =? s * volume shape) with false by lia.
      rewrite EM, ED. reflexivity.
Qed.

Lemma digits_zero shape : pos_shape shape -> digits shape 0 = map (fun _ => 0) shape.
Proof.
  induction 1 as [|s shape Hs HS IH]; [reflexivity|].
  cbn [digits map]. rewrite Z.mod_0_l, Z.div_0_l, IH by lia. reflexivity.
Qed.

Definition at_flat (shape : list Z) (n : Z) : cp_it :=
  {| cp_shape := shape; cp_indices := digits shape n; cp_is_end := false |}.

Lemma empty_false shape : pos_shape shape -> shape <> [] -> cp_empty shape = false.
Proof.
  intros HS N. unfold cp_empty.
  assert (existsb (fun s => s <=? 0) shape = false) as ->.
  { clear N. induction HS; [reflexivity|]. cbn [existsb].
    replace (x <=? 0) with false by lia. exact IHHS. }
  destruct shape; [congruence|reflexivity].
Qed.

Lemma empty_true shape : (exists s, In s shape /\ s <= 0) -> cp_empty shape = true.
Proof.
  intros (s & I & L). unfold cp_empty.
  assert (existsb (fun s => s <=? 0) shape = true) as ->; [|reflexivity].
  apply existsb_exists. exists s. split; [exact I|lia].
Qed.

Lemma begin_flat shape : pos_shape shape -> shape <> [] -> cp_begin shape = at_flat shape 0.
Proof.
  intros HS N. unfold cp_begin, at_flat. rewrite empty_false by assumption.
  now rewrite digits_zero.
Qed.

Lemma incr_flat shape n : pos_shape shape -> 0 <= n < volume shape ->
  cp_incr (at_flat shape n) =
  if n + 1 =? volume shape
  then {| cp_shape := shape; cp_indices := map (fun _ => 0) shape; cp_is_end := true |}
  else at_flat shape (n + 1).
Proof.
  intros HS Hn. unfold cp_incr, at_flat. cbn [cp_is_end cp_shape cp_indices].
  rewrite incr_digits by assumption. cbn [fst snd].
  destruct (n + 1 =? volume shape); reflexivity.
Qed.

Lemma eqb_end_flat shape n : cp_eqb (at_flat shape n) cp_end = false.
Proof. reflexivity. Qed.

Lemma collect_flat shape : pos_shape shape -> forall k n fuel,
  0 <= n -> n + Z.of_nat k = volume shape -> (0 < k)%nat -> (k < fuel)%nat ->
  cp_collect fuel (at_flat shape n) =
  Ok (map (fun j => digits shape (n + Z.of_nat j)) (seq 0 k)).
Proof.
  intros HS. induction k as [|k IH]; intros n fuel Hn HV Hk Hf; [lia|].
  destruct fuel as [|fuel]; [lia|].
  cbn [cp_collect]. rewrite eqb_end_flat, incr_flat by (auto; lia).
  cbn [seq map]. rewrite Z.add_0_r. 
  destruct (Z.eqb_spec (n + 1) (volume shape)) as [E|E].
  - assert (k = O) by lia. subst k. destruct fuel as [|fuel]; [lia|]. reflexivity.
  - rewrite IH by lia. cbn [obind]. unfold at_flat at 1. cbn [cp_indices].
    f_equal. f_equal. rewrite <- seq_shift, map_map. apply map_ext. intros j. f_equal. lia.
Qed.

(* The nested loop lists the digits of 0, 1, 2, ... *)
Lemma seq_block : forall (f : nat -> list Z) s m,
  flat_map (fun q => map (fun i => f (i + s * q)%nat) (seq 0 s)) (seq 0 m) =
  map f (seq 0 (s * m)).
Proof.
  intros f s m. induction m as [|m IH].
  - cbn. now rewrite Nat.mul_0_r.
  - rewrite seq_S, flat_map_app, IH. cbn [flat_map Nat.add]. rewrite app_nil_r.
    replace (s * S m)%nat with (s * m + s)%nat by lia.
    rewrite seq_app, map_app. f_equal. cbn [Nat.add].
    rewrite <- (map_map (fun i => (i + s * m)%nat) f).
    f_equal. clear. 
    assert (G : forall s a b, map (fun i => (i + b)%nat) (seq a s) = seq (a + b) s).
    { clear. induction s as [|s IH]; intros a b; cbn; [reflexivity|]. rewrite IH. reflexivity. }
    rewrite G. reflexivity.
Qed.

Lemma nested_digits shape : pos_shape shape ->
  nested_loop shape =
  map (fun j => digits shape (Z.of_nat j)) (seq 0 (Z.to_nat (volume shape))).
Proof.
  induction 1 as [|s shape Hs HS IH]; [reflexivity|].
  cbn [nested_loop]. rewrite IH, volume_cons.
  pose proof (volume_pos shape HS) as HV.
  rewrite flat_map_concat_map, map_map, <- flat_map_concat_map.
  replace (Z.to_nat (s * volume shape)) with (Z.to_nat s * Z.to_nat (volume shape))%nat by nia.
  rewrite <- seq_block.
  apply flat_map_ext. intros q. unfold zrange. rewrite map_map.
  apply map_ext_in. intros i Hi. apply in_seq in Hi. cbn [digits].
  rewrite Nat2Z.inj_add, Nat2Z.inj_mul, Z2Nat.id by lia.
  f_equal.
  - rewrite Z.mul_comm, Z.mod_add, Z.mod_small by lia. reflexivity.
  - f_equal. rewrite Z.mul_comm, Z.div_add, Z.div_small by lia. lia.
Qed.

Lemma collect_nested shape : pos_shape shape -> shape <> [] ->
  forall fuel, (Z.to_nat (volume shape) < fuel)%nat ->
  cp_collect fuel (cp_begin shape) = Ok (nested_loop shape).
Proof.
  intros HS N fuel HF. rewrite begin_flat by assumption.
  pose proof (volume_pos shape HS).
  rewrite (collect_flat shape HS (Z.to_nat (volume shape))) by lia.
  rewrite nested_digits by assumption. f_equal.
Qed.

Lemma nested_zero shape : Forall (fun s => 0 <= s) shape -> In 0 shape -> nested_loop shape = [].
Proof.
  induction shape as [|s shape IH]; intros F I; [destruct I|].
  cbn [nested_loop]. inversion F; subst. destruct I as [->|I].
  - clear. induction (nested_loop shape); [reflexivity|]. cbn. exact IHl.
  - rewrite IH by assumption. reflexivity.
Qed.

Lemma shape_cases shape : Forall (fun s => 0 <= s <= INT_MAX) shape ->
  pos_shape shape \/ In 0 shape.
Proof.
  induction 1 as [|s shape Hs HS IH]; [left; constructor|].
  destruct (Z.eq_dec s 0) as [->|N]; [right; now left|].
  destruct IH as [IH|IH]; [left; constructor; [lia|exact IH]|right; now right].
Qed.

Lemma volume_zero shape : In 0 shape -> volume shape = 0.
Proof.
  induction shape as [|s shape IH]; intros I; [destruct I|].
  rewrite volume_cons. destruct I as [->|I]; [lia|]. rewrite IH by exact I. lia.
Qed.

Lemma iterate_spec shape : Forall (fun s => 0 <= s <= INT_MAX) shape -> shape <> [] ->
  cp_collect (S (Z.to_nat (volume shape))) (cp_begin shape) = Ok (nested_loop shape).
Proof.
  intros F N. destruct (shape_cases shape F) as [P|Z0].
  - apply collect_nested; auto.
  - rewrite nested_zero; auto.
    + cbn [cp_collect]. unfold cp_begin. rewrite empty_true.
      * reflexivity.
      * exists 0. split; [exact Z0|lia].
    + eapply Forall_impl; [|exact F]. cbn. intros; lia.
Qed.

Lemma iterate_nil : cp_collect 1 (cp_begin []) = Ok [].
Proof. reflexivity. Qed.

Lemma in_zrange s i : In i (zrange s) <-> 0 <= i < s.
Proof.
  unfold zrange. rewrite in_map_iff. split.
  - intros (j & <- & Hj). apply in_seq in Hj. lia.
  - intros H. exists (Z.to_nat i). split; [lia|]. apply in_seq. lia.
Qed.

Lemma in_nested shape : forall v, In v (nested_loop shape) <-> in_box shape v.
Proof.
  induction shape as [|s shape IH]; intros v; cbn [nested_loop].
  - split.
    + intros [<-|[]]. constructor.
    + intros H. inversion H. now left.
  - rewrite in_flat_map. split.
    + intros (ix & Hix & Hv). apply in_map_iff in Hv as (i & <- & Hi).
      constructor; [now apply in_zrange|now apply IH].
    + intros H. inversion H; subst. exists l'. split; [now apply IH|].
      apply in_map_iff. eexists. split; [reflexivity|]. now apply in_zrange.
Qed.

Lemma nested_nodup shape : NoDup (nested_loop shape).
Proof.
  induction shape as [|s shape IH]; cbn [nested_loop].
  - repeat constructor. intros [].
  - assert (ZR : NoDup (zrange s)).
    { unfold zrange. apply FinFun.Injective_map_NoDup; [|apply seq_NoDup].
      intros a b H. lia. }
    induction IH as [|ix l NI ND IHl]; cbn [flat_map]; [constructor|].
    assert (G : forall l1 l2 : list (list Z), NoDup l1 -> NoDup l2 ->
              (forall x, In x l1 -> ~ In x l2) -> NoDup (l1 ++ l2)).
    { clear. induction 1 as [|x l1 NI N1 IH]; intros N2 D; [exact N2|].
      cbn. constructor.
      - rewrite in_app_iff. intros [H|H]; [tauto|]. apply (D x); [now left|exact H].
      - apply IH; auto. intros y Hy. apply D. now right. }
    apply G; [|exact IHl|].
    + apply FinFun.Injective_map_NoDup; [|exact ZR]. intros a b H. congruence.
    + intros x Hx HI. apply in_map_iff in Hx as (i & <- & _).
      apply in_flat_map in HI as (ix' & Hix & HI). apply in_map_iff in HI as (j & E & _).
      injection E as _ <-. contradiction.
Qed.

Lemma nested_length shape : Forall (fun s => 0 <= s) shape ->
  Z.of_nat (length (nested_loop shape)) = volume shape.
Proof.
  induction 1 as [|s shape Hs HS IH]; [reflexivity|].
  rewrite volume_cons, <- IH. cbn [nested_loop]. clear IH.
  induction (nested_loop shape) as [|ix l IHl]; cbn [flat_map length]; [lia|].
  rewrite app_length, map_length. unfold zrange at 1. rewrite map_length, seq_length. lia.
Qed.

(* ---- flat index ---- *)
Lemma flat_loop_digits shape : forall n, pos_shape shape -> shape <> [] ->
  0 <= n -> n <= volume shape ->
  snd (cp_flat_loop shape n) = (volume shape <=? n) /\
  (n < volume shape -> fst (cp_flat_loop shape n) = digits shape n).
Proof.
  induction shape as [|s rest IH]; intros n HS N Hn HV; [congruence|].
  inversion HS; subst. destruct rest as [|s' rest].
  - cbn [cp_flat_loop fst snd digits]. rewrite volume_cons in *.
    change (volume []) with 1 in *.
    assert (E : to_int32 n = n).
    { unfold to_int32. rewrite Z.mod_small; unfold INT_MAX in *; lia. }
    rewrite E. split; [f_equal; lia|]. intros L. rewrite Z.mod_small by lia. reflexivity.
  - pose proof (volume_pos (s' :: rest) H2) as VP.
    rewrite volume_cons in HV |- *.
    assert (Q : 0 <= n / s <= volume (s' :: rest)).
    { split; [apply Z.div_pos; lia|]. apply Z.div_le_upper_bound; lia. }
    change (cp_flat_loop (s :: s' :: rest) n) with
      (let r := cp_flat_loop (s' :: rest) (Z.quot n s) in
       (to_int32 (Z.rem n s) :: fst r, snd r)).
    cbv zeta. rewrite Z.quot_div_nonneg, Z.rem_mod_nonneg by lia.
    destruct (IH (n / s)) as [S1 F1]; auto; try congruence; try lia.
    cbn [fst snd]. rewrite S1. split.
    + destruct (Z.leb_spec (volume (s' :: rest)) (n / s)), (Z.leb_spec (s * volume (s' :: rest)) n); try reflexivity; exfalso.
      * pose proof (Z.mul_div_le n s). nia.
      * assert (volume (s' :: rest) <= n / s) by (apply Z.div_le_lower_bound; lia). lia.
    + intros L. cbn [digits]. rewrite F1.
      * f_equal. unfold to_int32. pose proof (Z.mod_pos_bound n s).
        rewrite (Z.mod_small (n mod s + 2147483648)); unfold INT_MAX in *; lia.
      * apply Z.div_lt_upper_bound; lia.
Qed.

Lemma times_end n it : cp_is_end it = true -> times n cp_incr it = it.
Proof.
  revert it. induction n as [|n IH]; intros it H; [reflexivity|].
  cbn [times]. assert (E : cp_incr it = it) by (unfold cp_incr; now rewrite H).
  rewrite E. now apply IH.
Qed.

Lemma times_flat shape : pos_shape shape -> forall k n,
  0 <= n -> n + Z.of_nat k < volume shape ->
  times k cp_incr (at_flat shape n) = at_flat shape (n + Z.of_nat k).
Proof.
  intros HS. induction k as [|k IH]; intros n Hn HV.
  - cbn [times]. f_equal. lia.
  - cbn [times]. rewrite incr_flat by (auto; lia).
    replace (n + 1 =? volume shape) with false by lia.
    rewrite IH by lia. f_equal. lia.
Qed.

Lemma times_S {A} k (f : A -> A) x : times (S k) f x = f (times k f x).
Proof. revert x. induction k as [|k IH]; intros x; [reflexivity|]. cbn [times] in *. apply IH. Qed.

Lemma cp_eqb_refl a : cp_eqb a a = true.
Proof.
  unfold cp_eqb. destruct (cp_is_end a); [reflexivity|]. cbn.
  unfold zlist_eqb. destruct (list_eq_dec Z.eq_dec (cp_shape a) (cp_shape a)); [|congruence].
  destruct (list_eq_dec Z.eq_dec (cp_indices a) (cp_indices a)); [|congruence]. reflexivity.
Qed.

Lemma flat_index_spec shape n :
  Forall (fun s => 0 <= s <= INT_MAX) shape -> Z.of_nat n <= volume shape ->
  cp_eqb (cp_flat_index shape (Z.of_nat n)) (times n cp_incr (cp_begin shape)) = true.
Proof.
  intros F HV.
  destruct (list_eq_dec Z.eq_dec shape []) as [->|N].
  { rewrite times_end by reflexivity. reflexivity. }
  destruct (shape_cases shape F) as [P|Z0].
  - unfold cp_flat_index. rewrite begin_flat by assumption. cbn [at_flat cp_is_end].
    destruct (flat_loop_digits shape (Z.of_nat n) P N) as [S1 F1]; [lia|lia|].
    destruct (Z.eq_dec (Z.of_nat n) (volume shape)) as [E|NE].
    + destruct n as [|n]; [pose proof (volume_pos shape P); lia|].
      rewrite times_S, times_flat by (auto; lia). 
      rewrite incr_flat by (auto; lia).
      replace (0 + Z.of_nat n + 1 =? volume shape) with true by lia.
      unfold cp_eqb. cbn [cp_is_end]. rewrite S1.
      replace (volume shape <=? Z.of_nat (S n)) with true by lia. reflexivity.
    + rewrite times_flat by (auto; lia).
      assert (E : {| cp_shape := shape; cp_indices := fst (cp_flat_loop shape (Z.of_nat n));
                     cp_is_end := snd (cp_flat_loop shape (Z.of_nat n)) |}
                  = at_flat shape (0 + Z.of_nat n)).
      { unfold at_flat. rewrite S1, F1 by lia.
        replace (volume shape <=? Z.of_nat n) with false by lia. reflexivity. }
      cbv zeta. rewrite E. apply cp_eqb_refl.
  - assert (E : cp_empty shape = true) by (apply empty_true; exists 0; split; [exact Z0|lia]).
    unfold cp_flat_index, cp_begin. rewrite E. cbn [cp_is_end].
    rewrite times_end by reflexivity. apply cp_eqb_refl.
Qed.

(* Far beyond the end the 64-bit index is truncated to int. *)
Lemma flat_index_refuted :
  exists shape flat, Forall (fun s => 0 <= s <= INT_MAX) shape /\ volume shape <= flat /\
    cp_eqb (cp_flat_index shape flat) cp_end = false.
Proof.
  exists [10], 4294967296. split; [repeat constructor; unfold INT_MAX; lia|].
  split; [cbn; lia|]. vm_compute. reflexivity.
Qed.

Lemma end_stays k : forall it, cp_is_end it = true ->
  cp_eqb (times k cp_incr it) cp_end = true.
Proof. intros it H. rewrite times_end by exact H. unfold cp_eqb. rewrite H. reflexivity. Qed.

Lemma digits_inj shape i j : pos_shape shape -> 0 <= i < volume shape -> 0 <= j < volume shape ->
  digits shape i = digits shape j -> i = j.
Proof.
  intros HS Hi Hj E. pose proof (nested_nodup shape) as ND. rewrite (nested_digits shape HS) in ND.
  set (l := map (fun k => digits shape (Z.of_nat k)) (seq 0 (Z.to_nat (volume shape)))) in *.
  assert (L : length l = Z.to_nat (volume shape)) by (unfold l; now rewrite map_length, seq_length).
  assert (N : forall k, 0 <= k < volume shape -> nth_error l (Z.to_nat k) = Some (digits shape k)).
  { intros k Hk. unfold l. rewrite nth_error_map.
    rewrite (nth_error_nth' _ 0%nat) by (rewrite seq_length; lia). rewrite seq_nth by lia. cbn [option_map]. do 2 f_equal. lia. }
  assert (Z.to_nat i = Z.to_nat j); [|lia].
  apply (proj1 (NoDup_nth_error l) ND); [lia|]. rewrite !N, E by lia. reflexivity.
Qed.
Lemma positions_differ shape i j : Forall (fun s => 0 <= s <= INT_MAX) shape -> shape <> [] ->
  Z.of_nat i <= volume shape -> Z.of_nat j <= volume shape -> i <> j ->
  cp_eqb (times i cp_incr (cp_begin shape)) (times j cp_incr (cp_begin shape)) = false.
Proof.
  intros F N Hi Hj D.
  destruct (shape_cases shape F) as [P|Z0].
  2:{ assert (V : volume shape = 0).
      { clear -Z0. induction shape as [|s shape IH]; [destruct Z0|]. unfold volume in *. cbn [fold_right].
        destruct Z0 as [->|Z0]; [reflexivity|]. rewrite IH by exact Z0. apply Z.mul_0_r. }
      lia. }
  assert (C : forall n, Z.of_nat n <= volume shape ->
    times n cp_incr (cp_begin shape) = at_flat shape (Z.of_nat n) /\ Z.of_nat n < volume shape \/
    cp_is_end (times n cp_incr (cp_begin shape)) = true /\ Z.of_nat n = volume shape).
  { intros n Hn. rewrite begin_flat by assumption. destruct (Z.eq_dec (Z.of_nat n) (volume shape)) as [E|NE].
    - right. split; [|exact E]. destruct n as [|n]; [pose proof (volume_pos shape P); lia|].
      rewrite times_S, times_flat by (auto; lia). rewrite incr_flat by (auto; lia).
      replace (0 + Z.of_nat n + 1 =? volume shape) with true by lia. reflexivity.
    - left. rewrite times_flat by (auto; lia). split; [f_equal|]; lia. }
  destruct (C i Hi) as [[-> Li]|[Ei Li]], (C j Hj) as [[-> Lj]|[Ej Lj]]; try lia;
    unfold cp_eqb; rewrite ?Ei, ?Ej; cbn [at_flat cp_is_end cp_shape cp_indices andb orb Bool.eqb]; try reflexivity.
  unfold zlist_eqb at 2. destruct (list_eq_dec Z.eq_dec _ _) as [E|]; [|apply andb_false_r].
  apply digits_inj in E; [lia|exact P|lia|lia].
Qed.
