From Verif Require Import Common RealUtil DrcCurveModel DrcCurveSpec.
From Coq Require Import Psatz.
Local Open Scope R_scope.

Lemma relu_low x c w : 0 <= w -> x - c <= - (w / 2) -> smooth_relu x c w = 0.
Proof.
  intros HW H. unfold smooth_relu. destruct (Rltb_spec 0 w) as [P|P].
  - cbv zeta. rewrite (Rmax_right (x - (c - w / 2)) 0) by lra. rewrite Rmin_left by lra. rewrite Rmax_right by lra. field. lra.
  - rewrite Rmin_right by lra. reflexivity.
Qed.
Lemma relu_high x c w : 0 <= w -> w / 2 <= x - c -> smooth_relu x c w = c - x.
Proof.
  intros HW H. unfold smooth_relu. destruct (Rltb_spec 0 w) as [P|P].
  - cbv zeta. rewrite (Rmax_left (x - (c - w / 2)) 0) by lra. rewrite Rmin_right by lra. rewrite Rmax_left by lra. field. lra.
  - rewrite Rmin_left by lra. reflexivity.
Qed.
Lemma relu_knee x c w : 0 < w -> - (w / 2) <= x - c <= w / 2 -> smooth_relu x c w = - ((x - c + w / 2) * (x - c + w / 2) / (2 * w)).
Proof.
  intros HW H. unfold smooth_relu. rewrite Rltb_true by lra. cbv zeta. rewrite (Rmax_left (x - (c - w / 2)) 0) by lra.
  rewrite Rmin_left by lra. rewrite Rmax_right by lra. field. lra.
Qed.

Lemma compressor_doc x t r w : 0 <= w -> r <> 0 -> compressor x t r w = Ok (documented_compressor x t r w).
Proof.
  intros HW HR. unfold compressor. destruct (Reqb_spec r 0); [contradiction|]. cbn [negb oguard]. cbv zeta. f_equal. unfold documented_compressor.
  destruct (Rle_dec (x - t) (- (w / 2))); [rewrite relu_low by assumption; ring|].
  destruct (Rle_dec (w / 2) (x - t)); [rewrite relu_high by assumption; field; exact HR|].
  rewrite relu_knee by lra. field; split; assumption || lra.
Qed.
Lemma limiter_doc x t w : 0 <= w -> limiter x t w = documented_limiter x t w.
Proof.
  intros HW. unfold limiter, documented_limiter.
  destruct (Rle_dec (x - t) (- (w / 2))); [rewrite relu_low by assumption; ring|].
  destruct (Rle_dec (w / 2) (x - t)); [rewrite relu_high by assumption; ring|].
  rewrite relu_knee by lra. field. lra.
Qed.
Lemma expander_doc x t r w : 0 <= w -> expander x t r w = documented_expander x t r w.
Proof.
  intros HW. unfold expander, documented_expander. cbv zeta.
  destruct (Rle_dec (w / 2) (x - t)); [rewrite relu_high by assumption; ring|].
  destruct (Rle_dec (x - t) (- (w / 2))); [rewrite relu_low by assumption; ring|].
  rewrite relu_knee by lra. field. lra.
Qed.

(* the smooth corner decreases with slope between -1 and 0 *)
Lemma relu_slope x y c w : 0 <= w -> x <= y -> 0 <= smooth_relu x c w - smooth_relu y c w <= y - x.
Proof.
  intros HW HXY. destruct (Req_dec w 0) as [->|NW].
  - unfold smooth_relu. rewrite Rltb_false by lra. unfold Rmin. destruct (Rle_dec (c - x) 0), (Rle_dec (c - y) 0); lra.
  - assert (P : 0 < w) by lra. assert (PI : 0 < / (2 * w)) by (apply Rinv_0_lt_compat; lra).
    set (f := fun z => smooth_relu z c w).
    (* each of the three pieces has the property *)
    assert (A1 : forall a b, a <= b -> b - c <= - (w / 2) -> 0 <= f a - f b <= b - a) by (intros a b H1 H2; unfold f; rewrite !relu_low by lra; lra).
    assert (A3 : forall a b, a <= b -> w / 2 <= a - c -> 0 <= f a - f b <= b - a) by (intros a b H1 H2; unfold f; rewrite !relu_high by lra; lra).
    assert (A2 : forall a b, a <= b -> - (w / 2) <= a - c -> b - c <= w / 2 -> 0 <= f a - f b <= b - a).
    { intros a b H1 H2 H3. unfold f. rewrite !relu_knee by lra. set (u := a - c + w / 2). set (v := b - c + w / 2).
      assert (HU : 0 <= u) by (unfold u; lra). assert (HV : v <= w) by (unfold v; lra). assert (HD : b - a = v - u) by (unfold u, v; ring). rewrite HD.
      assert (HL : u <= v) by lra. clearbody u v.
      replace (- (u * u / (2 * w)) - - (v * v / (2 * w))) with ((v - u) * ((u + v) * / (2 * w))) by (field; lra). set (i := / (2 * w)) in *.
      assert (B : 0 <= (u + v) * i) by (apply Rmult_le_pos; lra).
      assert (B2 : (u + v) * i <= 1) by (apply (Rmult_le_reg_r (2 * w)); [lra|]; unfold i; rewrite Rmult_assoc, Rinv_l by lra; lra).
      split; [apply Rmult_le_pos; lra|]. rewrite <- (Rmult_1_r (v - u)) at 2. apply Rmult_le_compat_l; lra. }
    (* cut [x, y] at the two ends of the knee *)
    set (l := c - w / 2). set (h := c + w / 2).
    assert (B1 : forall b, l <= b -> b <= h -> forall a, a <= b -> 0 <= f a - f b <= b - a).
    { intros b H1 H2 a H3. destruct (Rle_dec l a).
      - apply A2; unfold l, h in *; lra.
      - pose proof (A1 a l ltac:(lra) ltac:(unfold l; lra)). pose proof (A2 l b ltac:(lra) ltac:(unfold l; lra) ltac:(unfold h in *; lra)). lra. }
    fold (f x) (f y). destruct (Rle_dec y l); [apply A1; unfold l in *; lra|]. destruct (Rle_dec y h); [apply B1; lra|].
    destruct (Rle_dec h x); [apply A3; unfold h in *; lra|].
    pose proof (B1 h ltac:(unfold l, h; lra) ltac:(lra) x ltac:(lra)). pose proof (A3 h y ltac:(lra) ltac:(unfold h; lra)). lra.
Qed.

Lemma compressor_slope x y t r w a b : 0 <= w -> 0 < r -> x <= y -> compressor x t r w = Ok a -> compressor y t r w = Ok b ->
  Rmin 1 (1 / r) * (y - x) <= b - a <= Rmax 1 (1 / r) * (y - x).
Proof.
  intros HW HR HXY. unfold compressor. destruct (Reqb_spec r 0); [lra|]. cbn [negb oguard]. cbv zeta. intros EA EB. injection EA as <-. injection EB as <-.
  destruct (relu_slope x y t w HW HXY) as [H1 H2]. set (d := smooth_relu x t w - smooth_relu y t w) in *.
  replace (y + smooth_relu y t w * (1 - 1 / r) - (x + smooth_relu x t w * (1 - 1 / r))) with (y - x - d * (1 - 1 / r)) by (unfold d; ring).
  set (q := 1 / r). assert (E : y - x - d * (1 - q) = (y - x - d) * 1 + d * q) by ring. rewrite E. split.
  - pose proof (Rmult_le_compat_l (y - x - d) _ _ ltac:(lra) (Rmin_l 1 q)). pose proof (Rmult_le_compat_l d _ _ H1 (Rmin_r 1 q)). lra.
  - pose proof (Rmult_le_compat_l (y - x - d) _ _ ltac:(lra) (Rmax_l 1 q)). pose proof (Rmult_le_compat_l d _ _ H1 (Rmax_r 1 q)). lra.
Qed.
Lemma limiter_slope x y t w : 0 <= w -> x <= y -> 0 <= limiter y t w - limiter x t w <= y - x.
Proof. intros HW H. unfold limiter. pose proof (relu_slope x y t w HW H). lra. Qed.
Lemma expander_slope x y t r w : 0 <= w -> x <= y ->
  Rmin 1 r * (y - x) <= expander y t r w - expander x t r w <= Rmax 1 r * (y - x).
Proof.
  intros HW H. unfold expander. cbv zeta. destruct (relu_slope x y t w HW H) as [H1 H2]. set (d := smooth_relu x t w - smooth_relu y t w) in *.
  assert (E : y + (y - t + smooth_relu y t w) * (r - 1) - (x + (x - t + smooth_relu x t w) * (r - 1)) = d * 1 + (y - x - d) * r) by (unfold d; ring).
  rewrite E. split.
  - pose proof (Rmult_le_compat_l d _ _ H1 (Rmin_l 1 r)). pose proof (Rmult_le_compat_l (y - x - d) _ _ ltac:(lra) (Rmin_r 1 r)). lra.
  - pose proof (Rmult_le_compat_l d _ _ H1 (Rmax_l 1 r)). pose proof (Rmult_le_compat_l (y - x - d) _ _ ltac:(lra) (Rmax_r 1 r)). lra.
Qed.

Lemma limiter_le x t w : 0 <= w -> limiter x t w <= t.
Proof.
  intros HW. pose proof (limiter_slope x (Rmax x (t + w / 2)) t w HW (Rmax_l _ _)) as [H _].
  assert (limiter (Rmax x (t + w / 2)) t w = t); [|lra]. unfold limiter. rewrite relu_high; [ring|exact HW|]. pose proof (Rmax_r x (t + w / 2)). lra.
Qed.

(* two-way curve *)
Lemma verify_inv p : verify_params p = true ->
  threshold (expander_region p) <= threshold (upwards_region p) <= threshold (soft_region p) /\
  threshold (soft_region p) <= threshold (hard_region p) /\
  1 <= ratio (expander_region p) /\ 1 <= ratio (upwards_region p) /\ ratio (soft_region p) <= ratio (hard_region p).
Proof.
  unfold verify_params.
  repeat match goal with |- context [if Rltb ?a ?b then _ else _] => destruct (Rltb_spec a b) end; intros H; try discriminate H; lra.
Qed.

Lemma compressor_zero x t r : r <> 0 -> compressor x t r 0 = Ok (if Rle_dec x t then x else t + (x - t) / r).
Proof.
  intros HR. rewrite compressor_doc by (assumption || lra). f_equal. unfold documented_compressor.
  destruct (Rle_dec (x - t) (- (0 / 2))), (Rle_dec x t); try lra. destruct (Rle_dec (0 / 2) (x - t)); lra.
Qed.
Lemma expander_zero x t r : expander x t r 0 = if Rle_dec t x then x else t + (x - t) * r.
Proof.
  rewrite expander_doc by lra. unfold documented_expander.
  destruct (Rle_dec (0 / 2) (x - t)), (Rle_dec t x); try lra. destruct (Rle_dec (x - t) (- (0 / 2))); lra.
Qed.

Lemma two_way_steps p x : verify_params p = true -> 0 < ratio (soft_region p) ->
  exists t1 th t2, compressor x (threshold (soft_region p)) (ratio (soft_region p)) (knee (soft_region p)) = Ok t1 /\
  compressor (threshold (hard_region p)) (threshold (soft_region p)) (ratio (soft_region p)) 0 = Ok th /\
  compressor t1 th (ratio (hard_region p) / ratio (soft_region p)) (knee (hard_region p)) = Ok t2 /\
  two_way_compressor p x = Ok (expander (expander t2 (threshold (upwards_region p)) (1 / ratio (upwards_region p)) (knee (upwards_region p)))
     (expander (threshold (expander_region p)) (threshold (upwards_region p)) (1 / ratio (upwards_region p)) 0)
     (ratio (expander_region p) / (1 / ratio (upwards_region p))) (knee (expander_region p))).
Proof.
  intros HV HS. destruct (verify_inv p HV) as (_ & _ & HE & HU & HH). unfold two_way_compressor. rewrite HV. cbn [ocheck]. cbv zeta.
  assert (G : forall x t r w, 0 < r -> compressor x t r w = Ok (x + smooth_relu x t w * (1 - 1 / r))).
  { intros. unfold compressor. destruct (Reqb_spec r 0); [lra|]. reflexivity. }
  assert (RH : 0 < ratio (hard_region p) / ratio (soft_region p)) by (apply Rdiv_lt_0_compat; lra).
  assert (RU : 0 < 1 / ratio (upwards_region p)) by (apply Rdiv_lt_0_compat; lra).
  rewrite !(G _ _ (ratio (soft_region p))) by exact HS. do 3 eexists. split; [reflexivity|]. split; [reflexivity|]. rewrite (G _ _ (_ / _)) by exact RH. split; [reflexivity|].
  cbn [obind]. unfold adjusted_ratio at 1. destruct (Reqb_spec (ratio (soft_region p)) 0); [lra|]. cbn [negb oguard obind]. rewrite (G _ _ (_ / _)) by exact RH. cbn [obind].
  unfold adjusted_ratio at 1. destruct (Reqb_spec (ratio (upwards_region p)) 0); [lra|]. cbn [negb oguard obind].
  unfold adjusted_ratio at 1. destruct (Reqb_spec (1 / ratio (upwards_region p)) 0); [lra|]. cbn [negb oguard obind]. reflexivity.
Qed.

Lemma two_way_regions p x : verify_params p = true -> 0 < ratio (soft_region p) ->
  knee (expander_region p) = 0 -> knee (upwards_region p) = 0 -> knee (soft_region p) = 0 -> knee (hard_region p) = 0 ->
  two_way_compressor p x = Ok (five_regions (threshold (expander_region p)) (threshold (upwards_region p)) (threshold (soft_region p)) (threshold (hard_region p))
    (ratio (expander_region p)) (ratio (upwards_region p)) (ratio (soft_region p)) (ratio (hard_region p)) x).
Proof.
  intros HV HS K1 K2 K3 K4. destruct (two_way_steps p x HV HS) as (t1 & th & t2 & E1 & E2 & E3 & E). rewrite E. clear E.
  destruct (verify_inv p HV) as ((O1 & O2) & O3 & HE & HU & HH). rewrite K1, K2, K3, K4 in *.
  destruct p as [[re te ke] [ru tu ku] [rs ts ks] [rh th' kh]]. cbn [expander_region upwards_region soft_region hard_region ratio threshold knee] in *.
  clear HV K1 K2 K3 K4 ke ku ks kh.
  rewrite compressor_zero in E1, E2 by lra. assert (RH : 0 < rh / rs) by (apply Rdiv_lt_0_compat; lra). rewrite compressor_zero in E3 by lra.
  assert (IS : 0 < / rs) by (apply Rinv_0_lt_compat; lra). assert (IU : 0 < / ru) by (apply Rinv_0_lt_compat; lra).
  injection E1 as E1. injection E2 as E2. injection E3 as E3.
  assert (ETH : th = ts + (th' - ts) / rs).
  { rewrite <- E2. destruct (Rle_dec th' ts); [|reflexivity]. replace th' with ts by lra. field. lra. }
  clear E2.
  (* stage 1 and 2: the downward compressors *)
  assert (ET2 : t2 = if Rle_dec x ts then x else if Rle_dec x th' then ts + (x - ts) / rs else ts + (th' - ts) / rs + (x - th') / rh).
  { rewrite <- E3, <- E1, ETH. destruct (Rle_dec x ts) as [A|A].
    - destruct (Rle_dec x (ts + (th' - ts) / rs)); [reflexivity|]. assert (0 <= (th' - ts) * / rs) by (apply Rmult_le_pos; lra). unfold Rdiv in *. lra.
    - destruct (Rle_dec (ts + (x - ts) / rs) (ts + (th' - ts) / rs)) as [B|B], (Rle_dec x th') as [C|C].
      + reflexivity.
      + exfalso. assert ((th' - ts) * / rs < (x - ts) * / rs) by (apply Rmult_lt_compat_r; lra). unfold Rdiv in *. lra.
      + exfalso. assert ((x - ts) * / rs <= (th' - ts) * / rs) by (apply Rmult_le_compat_r; lra). unfold Rdiv in *. lra.
      + field. split; lra. }
  assert (GE : ts < x -> ts <= t2).
  { intros A. rewrite ET2. destruct (Rle_dec x ts); [lra|]. assert (IH : 0 < / rh) by (apply Rinv_0_lt_compat; lra). destruct (Rle_dec x th').
    - assert (0 <= (x - ts) * / rs) by (apply Rmult_le_pos; lra). unfold Rdiv. lra.
    - assert (0 <= (th' - ts) * / rs) by (apply Rmult_le_pos; lra). assert (0 <= (x - th') * / rh) by (apply Rmult_le_pos; lra). unfold Rdiv. lra. }
  clear E1 E3 ETH. f_equal. rewrite !expander_zero. unfold five_regions.
  assert (EEX : (if Rle_dec tu te then te else tu + (te - tu) * (1 / ru)) = tu + (te - tu) / ru).
  { destruct (Rle_dec tu te); [replace te with tu by lra; field; lra|field; lra]. }
  rewrite EEX. clear EEX.
  assert (LE : tu + (te - tu) / ru <= tu) by (assert (0 <= (tu - te) * / ru) by (apply Rmult_le_pos; lra); unfold Rdiv; lra).
  destruct (Rle_dec x ts) as [A|A].
  - rewrite ET2. clear ET2. destruct (Rle_dec tu x) as [B|B].
    + destruct (Rle_dec (tu + (te - tu) / ru) x); [|lra].
      destruct (Rle_dec x te) as [C|C]; [assert (x = te) by lra; assert (x = tu) by lra; subst x; subst te; field; lra|].
      destruct (Rle_dec x tu); [replace x with tu by lra; field; lra|reflexivity].
    + destruct (Rle_dec x tu); [|lra]. destruct (Rle_dec (tu + (te - tu) / ru) (tu + (x - tu) * (1 / ru))) as [C|C], (Rle_dec x te) as [D|D].
      * assert (x = te); [|subst x; field; lra]. apply Rle_antisym; [exact D|]. apply Rnot_lt_le. intros L.
        assert ((x - tu) * / ru < (te - tu) * / ru) by (apply Rmult_lt_compat_r; lra). unfold Rdiv in *. rewrite Rmult_1_l in C. lra.
      * field. lra.
      * field. lra.
      * exfalso. assert ((te - tu) * / ru <= (x - tu) * / ru) by (apply Rmult_le_compat_r; lra). unfold Rdiv in *. rewrite Rmult_1_l in C. lra.
  - destruct (Rle_dec tu t2) as [B|B]; [|lra]. destruct (Rle_dec (tu + (te - tu) / ru) t2) as [C|C]; [|lra].
    destruct (Rle_dec x te); [lra|]. destruct (Rle_dec x tu); [lra|]. exact ET2.
Qed.

(* with any knees the curve is increasing *)
Lemma two_way_monotone p x y a b : 0 < ratio (soft_region p) ->
  0 <= knee (expander_region p) -> 0 <= knee (upwards_region p) -> 0 <= knee (soft_region p) -> 0 <= knee (hard_region p) ->
  x < y -> two_way_compressor p x = Ok a -> two_way_compressor p y = Ok b -> a < b.
Proof.
  intros HS K1 K2 K3 K4 HXY EA EB.
  assert (HV : verify_params p = true) by (unfold two_way_compressor in EA; destruct (verify_params p); [reflexivity|discriminate EA]).
  destruct (two_way_steps p x HV HS) as (t1 & th & t2 & E1 & E2 & E3 & E). destruct (two_way_steps p y HV HS) as (u1 & th' & u2 & F1 & F2 & F3 & F).
  assert (th' = th) by congruence. subst th'. rewrite E in EA. rewrite F in EB. injection EA as <-. injection EB as <-. clear E F E2 F2.
  destruct (verify_inv p HV) as (_ & _ & HE & HU & HH).
  assert (RH : 0 < ratio (hard_region p) / ratio (soft_region p)) by (apply Rdiv_lt_0_compat; lra).
  assert (RU : 0 < 1 / ratio (upwards_region p)) by (apply Rdiv_lt_0_compat; lra).
  assert (RX : 0 < ratio (expander_region p) / (1 / ratio (upwards_region p))) by (apply Rdiv_lt_0_compat; lra).
  assert (CS : forall x y t r w a b, 0 <= w -> 0 < r -> x < y -> compressor x t r w = Ok a -> compressor y t r w = Ok b -> a < b).
  { intros x0 y0 t r w a b W R L A B. destruct (compressor_slope x0 y0 t r w a b W R ltac:(lra) A B) as [M _].
    assert (0 < Rmin 1 (1 / r)) by (apply Rmin_glb_lt; [lra|apply Rdiv_lt_0_compat; lra]). pose proof (Rmult_lt_0_compat _ (y0 - x0) H ltac:(lra)). lra. }
  assert (ES : forall x y t r w, 0 <= w -> 0 < r -> x < y -> expander x t r w < expander y t r w).
  { intros x0 y0 t r w W R L. destruct (expander_slope x0 y0 t r w W ltac:(lra)) as [M _].
    assert (0 < Rmin 1 r) by (apply Rmin_glb_lt; lra). pose proof (Rmult_lt_0_compat _ (y0 - x0) H ltac:(lra)). lra. }
  apply ES; [assumption|assumption|]. apply ES; [assumption|assumption|].
  eapply CS; [exact K4|exact RH| |exact E3|exact F3]. eapply CS; [exact K3|exact HS|exact HXY|exact E1|exact F1].
Qed.
