From Verif Require Import Common ListLemmas Mealy RealUtil TeagerModel.
From Coq Require Import Psatz.

Section Stream.
Context {F : Type} (zero : F) (sub mul : F -> F -> F).
Notation sample := (teager_sample sub mul).
Notation block := (teager_block zero sub mul).

Lemma loop_scan : forall input t done out, length out = length done + length input -> firstn (length done) out = done ->
  teager_loop sub mul t input (length done) out = (fst (scan sample t input), done ++ snd (scan sample t input)).
Proof.
  induction input as [|x r IH]; intros t done out L P; cbn [teager_loop scan].
  - cbn [length] in L. cbn [fst snd]. rewrite app_nil_r. f_equal. rewrite <- P. symmetry. apply firstn_all2. lia.
  - cbv zeta. cbn [fst snd]. set (y := snd (sample t x)). set (t' := fst (sample t x)).
    assert (E : splice (length done) [y] out = done ++ [y] ++ skipn (length done + 1) out) by (unfold splice; rewrite P; reflexivity).
    replace (S (length done)) with (length (done ++ [y])) by (rewrite app_length; cbn; lia).
    rewrite IH.
    + f_equal. rewrite <- app_assoc. reflexivity.
    + rewrite E, !app_length, skipn_length. cbn [length] in *. rewrite L. lia.
    + rewrite E, app_assoc, firstn_app, Nat.sub_diag, firstn_O, app_nil_r. apply firstn_all.
Qed.
Lemma block_scan t input old : block t input old = scan sample t input.
Proof.
  unfold teager_block. cbv zeta. destruct input as [|x r].
  - cbn. f_equal.
  - rewrite (loop_scan (x :: r) t [] _); [now destruct (scan sample t (x :: r))| |reflexivity].
    unfold vresize. rewrite app_length, firstn_length, repeat_length. cbn [length]. lia.
Qed.

(* samples before the first are zero *)
Definition past (xs : list F) (n k : nat) : F := if (n <? k)%nat then zero else nth (n - k) xs zero.
Lemma scan_nth : forall xs t n, n < length xs -> 
  nth n (snd (scan sample t xs)) zero =
  mul (sub (mul (match n with O => snd (delayed t) | S m => nth m xs zero end) (match n with O => snd (delayed t) | S m => nth m xs zero end))
           (mul (match n with O => fst (delayed t) | S O => snd (delayed t) | S (S m) => nth m xs zero end) (nth n xs zero))) (normalize_factor t).
Proof.
  induction xs as [|x xs IH]; intros t n Hn; [cbn in Hn; lia|]. cbn [scan fst snd]. destruct n as [|n]; [reflexivity|].
  cbn [nth]. rewrite IH by (cbn in Hn; lia). cbn [teager_sample fst snd delayed normalize_factor]. destruct n as [|[|n]]; reflexivity.
Qed.
End Stream.
