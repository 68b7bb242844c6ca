(* Generic list lemmas used by the proofs. *)
From Verif Require Import Common.

Lemma nth_error_ext {A} (l l' : list A) :
  (forall i, nth_error l i = nth_error l' i) -> l = l'.
Proof.
  revert l'; induction l as [|a l IH]; intros [|b l'] H.
  - reflexivity.
  - specialize (H 0); discriminate.
  - specialize (H 0); discriminate.
  - f_equal.
    + specialize (H 0); cbn in H; congruence.
    + apply IH; intro i; exact (H (S i)).
Qed.

Lemma nth_error_firstn {A} (l : list A) n i :
  nth_error (firstn n l) i = if i <? n then nth_error l i else None.
Proof.
  revert n i; induction l as [|a l IH]; intros [|n] [|i]; cbn [firstn nth_error]; auto.
  - destruct (S i <? S n); reflexivity.
  - rewrite IH. change (S i <? S n) with (i <? n). reflexivity.
Qed.

Lemma nth_error_skipn {A} (l : list A) n i :
  nth_error (skipn n l) i = nth_error l (n + i).
Proof.
  revert l; induction n as [|n IH]; intros l; cbn; auto.
  destruct l; cbn; auto. destruct i; reflexivity.
Qed.

Lemma nth_error_app {A} (l l' : list A) i :
  nth_error (l ++ l') i =
  if i <? length l then nth_error l i else nth_error l' (i - length l).
Proof.
  destruct (Nat.ltb_spec i (length l)) as [H|H].
  - apply nth_error_app1; auto.
  - apply nth_error_app2; auto.
Qed.

Lemma nth_error_repeat' {A} (d : A) n i :
  nth_error (repeat d n) i = if i <? n then Some d else None.
Proof.
  revert i; induction n as [|n IH]; intros [|i]; cbn; auto.
  rewrite IH. reflexivity.
Qed.

Lemma nth_error_map' {A B} (f : A -> B) l i :
  nth_error (map f l) i = option_map f (nth_error l i).
Proof. revert i; induction l; intros [|i]; cbn; auto. Qed.

Lemma nth_error_seq s n i :
  nth_error (seq s n) i = if i <? n then Some (s + i) else None.
Proof.
  revert s i; induction n as [|n IH]; intros s [|i]; cbn [seq nth_error]; auto.
  - cbn. f_equal; lia.
  - rewrite IH. replace (S i <? S n) with (i <? n) by reflexivity.
    destruct (i <? n); auto. f_equal; lia.
Qed.

Lemma nth_error_None_ge {A} (l : list A) i :
  length l <= i -> nth_error l i = None.
Proof. apply nth_error_None. Qed.

Lemma nth_error_Some_lt {A} (l : list A) i a :
  nth_error l i = Some a -> i < length l.
Proof. intro H; apply nth_error_Some; congruence. Qed.

Lemma length_splice {A} pos (xs l : list A) :
  pos + length xs <= length l -> length (splice pos xs l) = length l.
Proof.
  intro H; unfold splice.
  rewrite !app_length, firstn_length, skipn_length. lia.
Qed.

Lemma nth_error_splice {A} pos (xs l : list A) i :
  pos + length xs <= length l ->
  nth_error (splice pos xs l) i =
  if i <? pos then nth_error l i
  else if i <? pos + length xs then nth_error xs (i - pos)
  else nth_error l i.
Proof.
  intro H; unfold splice.
  rewrite nth_error_app, firstn_length, Nat.min_l by lia.
  rewrite nth_error_firstn.
  destruct (Nat.ltb_spec i pos); auto.
  rewrite nth_error_app.
  destruct (Nat.ltb_spec (i - pos) (length xs));
    destruct (Nat.ltb_spec i (pos + length xs)); try lia; auto.
  rewrite nth_error_skipn. f_equal; lia.
Qed.

Lemma length_slice {A} pos n (l : list A) :
  pos + n <= length l -> length (slice pos n l) = n.
Proof. intro; unfold slice; rewrite firstn_length, skipn_length; lia. Qed.

Lemma nth_error_slice {A} pos n (l : list A) i :
  nth_error (slice pos n l) i = if i <? n then nth_error l (pos + i) else None.
Proof. unfold slice; rewrite nth_error_firstn, nth_error_skipn; reflexivity. Qed.

Lemma length_vresize {A} (d : A) n l : length (vresize d n l) = n.
Proof. unfold vresize; rewrite app_length, firstn_length, repeat_length; lia. Qed.

Lemma firstn_app_exact {A} (l l' : list A) : firstn (length l) (l ++ l') = l.
Proof. rewrite firstn_app, Nat.sub_diag, firstn_all; cbn; apply app_nil_r. Qed.

Lemma skipn_app_exact {A} (l l' : list A) : skipn (length l) (l ++ l') = l'.
Proof. rewrite skipn_app, Nat.sub_diag, skipn_all; reflexivity. Qed.

Lemma skipn_skipn' {A} (l : list A) n m : skipn n (skipn m l) = skipn (m + n) l.
Proof.
  apply nth_error_ext; intro i. rewrite !nth_error_skipn. f_equal; lia.
Qed.

Lemma mod_lt2 a c : a < 2 * c -> a mod c = if a <? c then a else a - c.
Proof.
  intro H. destruct (Nat.ltb_spec a c).
  - apply Nat.mod_small; auto.
  - symmetry; apply (Nat.mod_unique a c 1 (a - c)); lia.
Qed.

Lemma run_app {S Op Out} (step : S -> Op -> outcome (S * Out)) s ops1 ops2 :
  run step s (ops1 ++ ops2) =
  obind (run step s ops1) (fun r1 =>
  obind (run step (fst r1) ops2) (fun r2 =>
  Ok (fst r2, snd r1 ++ snd r2))).
Proof.
  revert s; induction ops1 as [|o ops1 IH]; intro s; cbn [run app].
  - cbn. destruct (run step s ops2) as [[? ?]| |]; reflexivity.
  - destruct (step s o) as [[s' out]| |]; cbn [obind fst snd]; auto.
    rewrite IH.
    destruct (run step s' ops1) as [[s1 o1]| |]; cbn [obind fst snd]; auto.
    destruct (run step s1 ops2) as [[s2 o2]| |]; cbn [obind fst snd]; auto.
Qed.
