(* Concrete searches: counterexamples and illustrations for the Nelder-Mead searcher. *)
From Flocq Require Import Core.
From Verif Require Import Common RealUtil ListLemmas NthLemmas NelderMeadModel NelderMeadSpec.
From Verif Require Import FastFunModel FftFloat.
Local Open Scope R_scope.

Ltac nums := rewrite ?Rmult_1_l, ?Rmult_1_r, ?Rmult_0_r, ?Rmult_0_l, ?Rplus_0_l, ?Rplus_0_r.
Ltac dec1 :=
  match goal with
  | |- context [Rltb ?a ?b] => first [rewrite (Rltb_true a b) by lra | rewrite (Rltb_false a b) by lra]
  | |- context [Rleb ?a ?b] => first [rewrite (Rleb_true a b) by lra | rewrite (Rleb_false a b) by lra]
  end.
Lemma sqrt_zero x : x = 0 -> sqrt x = 0.
Proof. intros ->. apply sqrt_0. Qed.

(* the state after SetSimplex(ps) and SetObjectiveFunction(f) on a new searcher *)
Definition ready (d : nat) (f : list R -> ext) (ps : list (list R)) : searcher :=
  {| dims := d; objective := Some f; points := ps; values := []; lower := []; upper := [];
     argmin := None; argmax := 0; evals := 0; calls := [] |}.
Lemma ready_reached to_float d f ps junk : (0 < d)%nat -> length ps = (d + 1)%nat -> (forall p, In p ps -> length p = d) ->
  obind (nm_new d junk) (fun s => nm_history to_float s [SetSimplex ps; SetObjectiveFunction f]) = Ok (ready d f ps).
Proof.
  intros Hd Hl Hp. unfold nm_new. replace (0 <? d)%nat with true by (symmetry; apply Nat.ltb_lt; lia).
  cbn [ocheck obind nm_history nm_exec set_simplex dims].
  assert (E : forallb (fun p => length p =? d)%nat ps = true) by (apply forallb_forall; intros p H; apply Nat.eqb_eq, Hp, H).
  unfold set_simplex. cbn [dims]. rewrite E. cbn [ocheck obind]. rewrite Hl, Nat.eqb_refl. reflexivity.
Qed.
(* the first state of a search without bounds *)
Definition begun (d : nat) (f : list R -> ext) (ps : list (list R)) (i j : nat) : searcher :=
  {| dims := d; objective := Some f; points := ps; values := map f ps; lower := []; upper := [];
     argmin := Some i; argmax := j; evals := Z.of_nat (length ps); calls := rev ps |}.
Lemma evaluate_list_free f s ps : lower s = [] -> upper s = [] ->
  evaluate_list f s ps = (map f ps, counted s (evals s + Z.of_nat (length ps)) (rev ps ++ calls s)).
Proof.
  revert s. induction ps as [|p ps IH]; intros s H1 H2; cbn [evaluate_list map].
  - cbn. rewrite Z.add_0_r. destruct s; reflexivity.
  - unfold evaluate, is_feasible. rewrite H1, H2. cbn [andb]. rewrite IH by assumption.
    unfold counted. cbn [evals calls length rev dims objective points values lower upper argmin argmax].
    rewrite <- app_assoc. replace (evals s + 1 + Z.of_nat (length ps))%Z with (evals s + Z.of_nat (S (length ps)))%Z by lia.
    reflexivity.
Qed.
Lemma minimize_ready to_float fuel max tol goal d f ps i j : length ps = (d + 1)%nat ->
  arg_min (map f ps) = i -> arg_max (map f ps) = j ->
  minimize to_float fuel max tol goal (ready d f ps) = Ok (nm_loop to_float fuel max tol goal f (begun d f ps i j)).
Proof.
  intros Hl <- <-. unfold minimize, ready. cbn [points dims objective]. rewrite Hl, Nat.eqb_refl. cbn [ocheck].
  unfold evaluate_all, enforce_bounds, clamp. cbn [counted with_points points lower upper map]. rewrite map_id.
  rewrite evaluate_list_free by reflexivity.
  unfold with_values, begun. cbn [counted points dims objective lower upper evals calls]. rewrite app_nil_r. reflexivity.
Qed.

(* ---- tolerance 0: a square in one dimension, both vertices have the value 1 ---- *)
Definition square (p : list R) : ext := Fin (nth 0 p 0 * nth 0 p 0).
Definition pair_simplex : list (list R) := [[-1]; [1]].
Lemma square_args : arg_min (map square pair_simplex) = 0%nat /\ arg_max (map square pair_simplex) = 0%nat.
Proof.
  unfold arg_min, arg_max, square, pair_simplex. cbn [map arg_first nth xltb].
  rewrite (Rltb_false (1 * 1)), (Rltb_false (-1 * -1)) by lra. auto.
Qed.
Lemma square_stops to_float tol fuel max goal : 0 <= tol ->
  minimize to_float fuel max tol goal (ready 1 square pair_simplex) = Ok (Some (begun 1 square pair_simplex 0 0)).
Proof.
  intros Ht. destruct square_args as [A1 A2].
  rewrite (minimize_ready to_float fuel max tol goal 1 square pair_simplex 0 0 eq_refl A1 A2). f_equal.
  assert (K : keep_going max tol goal (begun 1 square pair_simplex 0 0) = false).
  { unfold keep_going, std_dev. cbn [begun argmin values].
    assert (E : std_dev_of (map square pair_simplex) = Some 0).
    { unfold std_dev_of, square, pair_simplex. cbn [map nth finite]. f_equal. apply sqrt_zero.
      unfold Rsqr, total. cbn. field. }
    rewrite E, Rltb_false by lra. apply andb_false_r. }
  destruct fuel; cbn [nm_loop]; rewrite K; reflexivity.
Qed.

(* ---- an objective that is infinite at a vertex: the search stops at once ---- *)
Definition wall (p : list R) : ext := if Rltb 2 (nth 0 p 0) then PInf else Fin (nth 0 p 0 * nth 0 p 0).
Definition wall_simplex : list (list R) := [[1]; [3]].
Lemma wall_args : arg_min (map wall wall_simplex) = 0%nat /\ arg_max (map wall wall_simplex) = 1%nat.
Proof.
  unfold arg_min, arg_max, wall, wall_simplex. cbn [map nth].
  rewrite (Rltb_false 2 1), (Rltb_true 2 3) by lra. auto.
Qed.
Lemma wall_stops to_float tol fuel max goal :
  minimize to_float fuel max tol goal (ready 1 wall wall_simplex) = Ok (Some (begun 1 wall wall_simplex 0 1)).
Proof.
  destruct wall_args as [A1 A2].
  rewrite (minimize_ready to_float fuel max tol goal 1 wall wall_simplex 0 1 eq_refl A1 A2). f_equal.
  assert (K : keep_going max tol goal (begun 1 wall wall_simplex 0 1) = false).
  { unfold keep_going, std_dev. cbn [begun argmin values].
    assert (E : std_dev_of (map wall wall_simplex) = None).
    { unfold std_dev_of, wall, wall_simplex. cbn [map nth].
      rewrite (Rltb_false 2 1), (Rltb_true 2 3) by lra. reflexivity. }
    rewrite E. apply andb_false_r. }
  destruct fuel; cbn [nm_loop]; rewrite K; reflexivity.
Qed.

(* ---- Scalar = double: values that differ by less than the float spacing ---- *)
Definition va : R := 1 + / 2 ^ 40.
Definition vb : R := 1 + / 2 ^ 39.
Definition vc : R := 1 + / 2 ^ 41.
Definition bump3 (p : list R) : ext :=
  let x := nth 0 p 0 in let y := nth 1 p 0 in
  if Rltb 0 x && Rltb x 1 && Rltb 0 y then Fin vc
  else if Rleb (x * x + y * y) 0 then Fin va else Fin vb.
Definition tri : list (list R) := [[0; 0]; [1; 0]; [0; 1]].
Definition to32 (x : R) : ext := Fin (rnd32 x).
Lemma v_order : 1 < vc /\ vc < va /\ va < vb.
Proof. unfold va, vb, vc. cbn [pow]. lra. Qed.
Lemma rnd_vb : rnd32 vb = 1.
Proof.
  unfold vb. rewrite (rnd32_compute _ 1 8388608).
  - change (1 - 24)%Z with (-23)%Z. cbn [bpow]. cbn. lra.
  - cbn [bpow]. cbn [pow]. cbn. lra.
  - lia.
  - change (24 - 1)%Z with 23%Z. replace (bpow radix2 23) with 8388608 by (cbn; lra). cbn [pow].
    rewrite Rabs_pos_eq; lra.
Qed.
Lemma rnd_va : rnd32 va = 1.
Proof.
  unfold va. rewrite (rnd32_compute _ 1 8388608).
  - change (1 - 24)%Z with (-23)%Z. cbn [bpow]. cbn. lra.
  - cbn [bpow]. cbn [pow]. cbn. lra.
  - lia.
  - change (24 - 1)%Z with 23%Z. replace (bpow radix2 23) with 8388608 by (cbn; lra). cbn [pow].
    rewrite Rabs_pos_eq; lra.
Qed.
Ltac decs := repeat (cbn [andb]; dec1); cbn [andb].
Lemma bump_tri : map bump3 tri = [Fin va; Fin vb; Fin vb].
Proof. unfold bump3, tri. cbn [map nth]. decs. reflexivity. Qed.
Lemma tri_args : arg_min (map bump3 tri) = 0%nat /\ arg_max (map bump3 tri) = 1%nat.
Proof.
  rewrite bump_tri. destruct v_order as (? & ? & ?). unfold arg_min, arg_max. cbn [arg_first xltb].
  decs. cbn [arg_first xltb]. decs. auto.
Qed.
Lemma std_pos a b c : a < b -> exists x, std_dev_of [Fin a; Fin b; Fin c] = Some x /\ 0 < x.
Proof.
  intros H. eexists. split; [reflexivity|]. apply sqrt_lt_R0. cbn [finite].
  set (m := total [a; b; c] / INR (length [a; b; c])). clearbody m. unfold total. cbn [map fold_right].
  pose proof (Rle_0_sqr (a - m)). pose proof (Rle_0_sqr (b - m)). pose proof (Rle_0_sqr (c - m)).
  destruct (Req_dec a m).
  - assert (0 < Rsqr (b - m)) by (apply Rsqr_pos_lt; lra). lra.
  - assert (0 < Rsqr (a - m)) by (apply Rsqr_pos_lt; lra). lra.
Qed.

Ltac leq := repeat (apply f_equal2; [lra|]); reflexivity.
Lemma evaluate_free f s p : lower s = [] -> upper s = [] ->
  evaluate f s p = (f p, counted s (evals s + 1) (p :: calls s)).
Proof. intros H1 H2. unfold evaluate, is_feasible. rewrite H1, H2. reflexivity. Qed.
(* an iteration that ends in a shrink after an inside contraction *)
Lemma step_inside_shrink to_float f b c w r k :
  lower b = [] -> upper b = [] -> centroid b = c -> get_argmax b = w ->
  vminus (vscale (1 + 1) c) (vscale 1 w) = r -> vplus c (vscale (1 / 2) (vminus w c)) = k ->
  (exists m, get_min b = Ok m /\ xltb (f r) m = false) ->
  (match second_highest b with Some v => xltb (f r) (xfloat to_float v) | None => false end) = false ->
  xltb (f r) (xfloat to_float (get_max b)) = false -> xltb (f k) (xfloat to_float (get_max b)) = false ->
  nm_step to_float f b = shrink f (counted b (evals b + 1 + 1) (k :: r :: calls b)).
Proof.
  intros Hl Hu Hc Hw Hr Hk (m & Hm & Em) H2 H3 H4.
  unfold nm_step. rewrite Hc, Hw, Hr, Hk. rewrite evaluate_free by assumption.
  rewrite Hm, Em, H2, H3. rewrite evaluate_free by assumption. rewrite H4. reflexivity.
Qed.
Definition tri_end : searcher := shrink bump3 (counted (begun 2 bump3 tri 0 1) 5 ([1/2; 1/4] :: [-1; 1] :: rev tri)).
Lemma tri_step : nm_step to32 bump3 (begun 2 bump3 tri 0 1) = tri_end.
Proof.
  destruct v_order as (? & ? & ?).
  assert (V : values (begun 2 bump3 tri 0 1) = [Fin va; Fin vb; Fin vb]) by apply bump_tri.
  assert (R1 : bump3 [-1; 1] = Fin vb) by (unfold bump3; cbn [nth]; decs; reflexivity).
  assert (R2 : bump3 [1/2; 1/4] = Fin vc) by (unfold bump3; cbn [nth]; decs; reflexivity).
  assert (M : get_max (begun 2 bump3 tri 0 1) = Fin vb) by (unfold get_max; rewrite V; reflexivity).
  assert (S2 : second_highest (begun 2 bump3 tri 0 1) = Some (Fin va)) by (unfold second_highest; rewrite V; reflexivity).
  unfold tri_end.
  etransitivity; [apply (step_inside_shrink to32 bump3 _ [0; 1/2] [1; 0] [-1; 1] [1/2; 1/4]); auto|reflexivity].
  - unfold centroid, get_argmax. cbn; leq.
  - cbn; leq.
  - cbn; leq.
  - exists (Fin va). split; [unfold get_min; rewrite V; reflexivity|]. rewrite R1. cbn. decs. reflexivity.
  - rewrite S2, R1. cbn [xfloat to32 xltb]. rewrite rnd_va. decs. reflexivity.
  - rewrite M, R1. cbn [xfloat to32 xltb]. rewrite rnd_vb. decs. reflexivity.
  - rewrite M, R2. cbn [xfloat to32 xltb]. rewrite rnd_vb. decs. reflexivity.
Qed.
Lemma tri_end_values : values tri_end = [Fin va; Fin vb; Fin vb] /\ evals tri_end = 7%Z /\ In [1/2; 1/4] (calls tri_end) /\
  argmin tri_end = Some 0%nat.
Proof.
  destruct v_order as (? & ? & ?).
  assert (R3 : bump3 (vscale (1 / 2) (vplus [1; 0] [0; 0])) = Fin vb) by (unfold bump3; cbn [vscale vplus vmap2 map nth]; decs; reflexivity).
  assert (R4 : bump3 (vscale (1 / 2) (vplus [0; 1] [0; 0])) = Fin vb) by (unfold bump3; cbn [vscale vplus vmap2 map nth]; decs; reflexivity).
  assert (R5 : bump3 [0; 0] = Fin va) by (unfold bump3; cbn [nth]; decs; reflexivity).
  assert (A : arg_min [Fin va; Fin vb; Fin vb] = 0%nat) by (rewrite <- bump_tri; apply tri_args).
  unfold tri_end, shrink, begun. cbn [counted argmin points values tri map nth shrink_list Nat.eqb evaluate is_feasible lower upper andb
    dims objective argmax evals calls with_values].
  rewrite R3, R4, R5. rewrite A. repeat split. cbn. auto.
Qed.
Lemma tri_search fuel : (1 <= fuel)%nat ->
  minimize to32 fuel 4 0 None (ready 2 bump3 tri) = Ok (Some tri_end).
Proof.
  intros Hf. destruct tri_args as [A1 A2]. destruct v_order as (? & ? & ?). destruct tri_end_values as (V & E & _ & Am).
  rewrite (minimize_ready to32 fuel 4 0 None 2 bump3 tri 0 1 eq_refl A1 A2). f_equal.
  destruct fuel as [|k]; [lia|]. cbn [nm_loop].
  assert (K : keep_going 4 0 None (begun 2 bump3 tri 0 1) = true).
  { unfold keep_going, std_dev, get_min. cbn [begun argmin values evals tri length]. rewrite bump_tri.
    destruct (std_pos va vb vb) as (x & -> & Hx); [lra|]. cbn [nth]. rewrite Rltb_true by lra. reflexivity. }
  rewrite K, tri_step.
  assert (K2 : keep_going 4 0 None tri_end = false) by (unfold keep_going; rewrite E; reflexivity).
  destruct k; cbn [nm_loop]; rewrite K2; reflexivity.
Qed.

(* ---- the reflected point is better than the second worst vertex, but is not kept ---- *)
Definition bowl (p : list R) : ext :=
  let x := nth 0 p 0 in let y := nth 1 p 0 in
  if Rleb y (-1) then Fin (3/2) else if Rltb y 0 then Fin 10
  else if Rleb 1 y then Fin 3 else if Rleb 1 x then Fin 2 else Fin 1.
Definition tri2 : list (list R) := [[0; 1]; [0; 0]; [1; 0]].
Lemma bowl_tri : map bowl tri2 = [Fin 3; Fin 1; Fin 2].
Proof. unfold bowl, tri2. cbn [map nth]. decs. reflexivity. Qed.
Lemma bowl_args : arg_min (map bowl tri2) = 1%nat /\ arg_max (map bowl tri2) = 0%nat.
Proof. rewrite bowl_tri. unfold arg_min, arg_max. cbn [arg_first xltb]. decs. cbn [arg_first xltb]. decs. auto. Qed.
Lemma step_outside_shrink to_float f b c w r k :
  lower b = [] -> upper b = [] -> centroid b = c -> get_argmax b = w ->
  vminus (vscale (1 + 1) c) (vscale 1 w) = r -> vplus c (vscale (1 / 2) (vminus r c)) = k ->
  (exists m, get_min b = Ok m /\ xltb (f r) m = false) ->
  (match second_highest b with Some v => xltb (f r) (xfloat to_float v) | None => false end) = false ->
  xltb (f r) (xfloat to_float (get_max b)) = true -> xltb (f r) (f k) = true ->
  nm_step to_float f b = shrink f (counted b (evals b + 1 + 1) (k :: r :: calls b)).
Proof.
  intros Hl Hu Hc Hw Hr Hk (m & Hm & Em) H2 H3 H4.
  unfold nm_step. rewrite Hc, Hw, Hr, Hk. rewrite evaluate_free by assumption.
  rewrite Hm, Em, H2, H3. rewrite evaluate_free by assumption. rewrite H4. reflexivity.
Qed.
Definition bowl_end : searcher := shrink bowl (counted (begun 2 bowl tri2 1 0) 5 ([3/4; -1/2] :: [1; -1] :: rev tri2)).
Lemma bowl_step : nm_step Fin bowl (begun 2 bowl tri2 1 0) = bowl_end.
Proof.
  assert (V : values (begun 2 bowl tri2 1 0) = [Fin 3; Fin 1; Fin 2]) by apply bowl_tri.
  assert (R1 : bowl [1; -1] = Fin (3/2)) by (unfold bowl; cbn [nth]; decs; reflexivity).
  assert (R2 : bowl [3/4; -1/2] = Fin 10) by (unfold bowl; cbn [nth]; decs; reflexivity).
  assert (M : get_max (begun 2 bowl tri2 1 0) = Fin 3) by (unfold get_max; rewrite V; reflexivity).
  assert (S2 : second_highest (begun 2 bowl tri2 1 0) = Some (Fin 1)) by (unfold second_highest; rewrite V; reflexivity).
  unfold bowl_end.
  etransitivity; [apply (step_outside_shrink Fin bowl _ [1/2; 0] [0; 1] [1; -1] [3/4; -1/2]); auto|reflexivity].
  - unfold centroid, get_argmax. cbn; leq.
  - cbn; leq.
  - cbn; leq.
  - exists (Fin 1). split; [unfold get_min; rewrite V; reflexivity|]. rewrite R1. cbn. decs. reflexivity.
  - rewrite S2, R1. cbn [xfloat xltb]. decs. reflexivity.
  - rewrite M, R1. cbn [xfloat xltb]. decs. reflexivity.
  - rewrite R1, R2. cbn [xltb]. decs. reflexivity.
Qed.
Lemma bowl_end_points : points bowl_end = [[1/2 * (0 + 0); 1/2 * (1 + 0)]; [0; 0]; [1/2 * (1 + 0); 1/2 * (0 + 0)]] /\
  evals bowl_end = 7%Z.
Proof. split; reflexivity. Qed.
Lemma bowl_search fuel : (1 <= fuel)%nat ->
  minimize Fin fuel 4 0 None (ready 2 bowl tri2) = Ok (Some bowl_end).
Proof.
  intros Hf. destruct bowl_args as [A1 A2]. destruct bowl_end_points as (_ & E).
  rewrite (minimize_ready Fin fuel 4 0 None 2 bowl tri2 1 0 eq_refl A1 A2). f_equal.
  destruct fuel as [|k]; [lia|]. cbn [nm_loop].
  assert (K : keep_going 4 0 None (begun 2 bowl tri2 1 0) = true).
  { unfold keep_going, std_dev, get_min. cbn [begun argmin values evals tri2 length]. rewrite bowl_tri.
    assert (P : exists x, std_dev_of [Fin 3; Fin 1; Fin 2] = Some x /\ 0 < x).
    { eexists. split; [reflexivity|]. apply sqrt_lt_R0. unfold total, Rsqr. cbn. lra. }
    destruct P as (x & -> & Hx). cbn [nth]. rewrite Rltb_true by lra. reflexivity. }
  rewrite K, bowl_step.
  assert (K2 : keep_going 4 0 None bowl_end = false) by (unfold keep_going; rewrite E; reflexivity).
  destruct k; cbn [nm_loop]; rewrite K2; reflexivity.
Qed.

(* ---- the reflected point is kept: the same simplex with two vertices exchanged ---- *)
Definition tri3 : list (list R) := [[0; 1]; [1; 0]; [0; 0]].
Lemma bowl_tri3 : map bowl tri3 = [Fin 3; Fin 2; Fin 1].
Proof. unfold bowl, tri3. cbn [map nth]. decs. reflexivity. Qed.
Lemma bowl_args3 : arg_min (map bowl tri3) = 2%nat /\ arg_max (map bowl tri3) = 0%nat.
Proof. rewrite bowl_tri3. unfold arg_min, arg_max. cbn [arg_first xltb]. decs. cbn [arg_first xltb]. decs. auto. Qed.
Lemma step_reflect to_float f b c w r :
  lower b = [] -> upper b = [] -> centroid b = c -> get_argmax b = w ->
  vminus (vscale (1 + 1) c) (vscale 1 w) = r ->
  (exists m, get_min b = Ok m /\ xltb (f r) m = false) ->
  (match second_highest b with Some v => xltb (f r) (xfloat to_float v) | None => false end) = true ->
  nm_step to_float f b = replace_argmax (counted b (evals b + 1) (r :: calls b)) r (f r).
Proof.
  intros Hl Hu Hc Hw Hr (m & Hm & Em) H2.
  unfold nm_step. rewrite Hc, Hw, Hr. rewrite evaluate_free by assumption. rewrite Hm, Em, H2. reflexivity.
Qed.
Definition keep_end : searcher :=
  replace_argmax (counted (begun 2 bowl tri3 2 0) 4 ([1; -1] :: rev tri3)) [1; -1] (bowl [1; -1]).
Lemma keep_step : nm_step Fin bowl (begun 2 bowl tri3 2 0) = keep_end.
Proof.
  assert (V : values (begun 2 bowl tri3 2 0) = [Fin 3; Fin 2; Fin 1]) by apply bowl_tri3.
  assert (R1 : bowl [1; -1] = Fin (3/2)) by (unfold bowl; cbn [nth]; decs; reflexivity).
  assert (S2 : second_highest (begun 2 bowl tri3 2 0) = Some (Fin 2)) by (unfold second_highest; rewrite V; reflexivity).
  unfold keep_end.
  etransitivity; [apply (step_reflect Fin bowl _ [1/2; 0] [0; 1] [1; -1]); auto|reflexivity].
  - unfold centroid, get_argmax. cbn; leq.
  - cbn; leq.
  - exists (Fin 1). split; [unfold get_min; rewrite V; reflexivity|]. rewrite R1. cbn. decs. reflexivity.
  - rewrite S2, R1. cbn [xfloat xltb]. decs. reflexivity.
Qed.
Lemma keep_search fuel : (1 <= fuel)%nat ->
  minimize Fin fuel 4 0 None (ready 2 bowl tri3) = Ok (Some keep_end).
Proof.
  intros Hf. destruct bowl_args3 as [A1 A2].
  rewrite (minimize_ready Fin fuel 4 0 None 2 bowl tri3 2 0 eq_refl A1 A2). f_equal.
  destruct fuel as [|k]; [lia|]. cbn [nm_loop].
  assert (K : keep_going 4 0 None (begun 2 bowl tri3 2 0) = true).
  { unfold keep_going, std_dev, get_min. cbn [begun argmin values evals tri3 length]. rewrite bowl_tri3.
    assert (P : exists x, std_dev_of [Fin 3; Fin 2; Fin 1] = Some x /\ 0 < x).
    { eexists. split; [reflexivity|]. apply sqrt_lt_R0. unfold total, Rsqr. cbn. lra. }
    destruct P as (x & -> & Hx). cbn [nth]. rewrite Rltb_true by lra. reflexivity. }
  rewrite K, keep_step.
  assert (K2 : keep_going 4 0 None keep_end = false) by reflexivity.
  destruct k; cbn [nm_loop]; rewrite K2; reflexivity.
Qed.

Lemma history_app to_float s cs ds :
  nm_history to_float s (cs ++ ds) = obind (nm_history to_float s cs) (fun t => nm_history to_float t ds).
Proof.
  revert s. induction cs as [|c cs IH]; intros s; [reflexivity|]. cbn [app nm_history].
  destruct (nm_exec to_float s c); cbn [obind]; auto.
Qed.
Lemma ready_reachable to_float d f ps : (0 < d)%nat -> length ps = (d + 1)%nat -> (forall p, In p ps -> length p = d) ->
  nm_reachable to_float d (ready d f ps).
Proof.
  intros Hd Hl Hp. pose proof (ready_reached to_float d f ps ps Hd Hl Hp) as R.
  destruct (nm_new d ps) as [s0| |] eqn:En; try discriminate R.
  exists ps, [SetSimplex ps; SetObjectiveFunction f], s0. auto.
Qed.
