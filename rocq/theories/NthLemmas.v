(* More list lemmas. *)
From Verif Require Import Common.
Lemma nth_firstn {A} (d : A) : forall n i l, i < n -> nth i (firstn n l) d = nth i l d.
Proof. induction n as [|n IH]; intros i l H; [lia|]. destruct l as [|x l]; [now destruct i|]. destruct i as [|i]; [reflexivity|]. cbn. apply IH. lia. Qed.
Lemma nth_skipn {A} (d : A) : forall n i l, nth i (skipn n l) d = nth (n + i) l d.
Proof. induction n as [|n IH]; intros i l; [reflexivity|]. destruct l as [|x l]; [now destruct i|]. cbn. apply IH. Qed.
Lemma nth_splice_same {A} (d : A) p x l : p < length l -> nth p (splice p [x] l) d = x.
Proof. intros H. unfold splice. rewrite app_nth2; rewrite firstn_length; [|lia]. replace (p - Nat.min p (length l)) with 0 by lia. reflexivity. Qed.
Lemma nth_splice_other {A} (d : A) p i x l : p < length l -> i <> p -> nth i (splice p [x] l) d = nth i l d.
Proof.
  intros H N. unfold splice. destruct (Nat.lt_ge_cases i p) as [L|L].
  - rewrite app_nth1 by (rewrite firstn_length; lia). now apply nth_firstn.
  - rewrite app_nth2; rewrite firstn_length; [|lia]. replace (Nat.min p (length l)) with p by lia.
    rewrite app_nth2 by (cbn; lia). cbn [length]. rewrite nth_skipn. f_equal. lia.
Qed.
Lemma firstn_S {A} (d : A) n l : n < length l -> firstn (S n) l = firstn n l ++ [nth n l d].
Proof. revert l. induction n as [|n IH]; intros [|x l] H; cbn in *; try lia; [reflexivity|]. f_equal. apply IH. lia. Qed.
Lemma nth_map_seq {A} (d : A) (f : nat -> A) a n k : k < n ->
  nth k (map f (seq a n)) d = f (a + k).
Proof.
  intros H. rewrite (nth_indep _ d (f 0)) by (rewrite map_length, seq_length; lia).
  rewrite map_nth, seq_nth by lia. reflexivity.
Qed.
