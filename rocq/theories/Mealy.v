(* Lemmas about step functions applied along a list (used by proofs only). *)
From Verif Require Import Common ListLemmas.

Section Scan.
Context {S A B : Type}.
Fixpoint scan (step : S -> A -> S * B) (s : S) (xs : list A) : S * list B :=
  match xs with
  | [] => (s, [])
  | x :: r => let p := step s x in let q := scan step (fst p) r in (fst q, snd p :: snd q)
  end.

Lemma scan_app step s xs ys :
  scan step s (xs ++ ys)
  = (fst (scan step (fst (scan step s xs)) ys),
     snd (scan step s xs) ++ snd (scan step (fst (scan step s xs)) ys)).
Proof.
  revert s. induction xs as [|x xs IH]; intros s; cbn [app scan fst snd].
  - now destruct (scan step s ys).
  - now rewrite IH.
Qed.

Lemma scan_length step xs : forall s, length (snd (scan step s xs)) = length xs.
Proof. induction xs as [|x xs IH]; intros s; cbn; [reflexivity|now rewrite IH]. Qed.

Lemma scan_ext step step' xs : (forall s x, step s x = step' s x) ->
  forall s, scan step s xs = scan step' s xs.
Proof. intros H. induction xs as [|x xs IH]; intros s; cbn [scan]; [reflexivity|]. rewrite H. now rewrite IH. Qed.

(* a partial step that succeeds on the states and inputs that occur *)
Lemma run_scan (step : S -> A -> outcome (S * B)) (pure : S -> A -> S * B) (I : S -> Prop) (P : A -> Prop) :
  (forall s x, I s -> P x -> step s x = Ok (pure s x) /\ I (fst (pure s x))) ->
  forall xs s, I s -> Forall P xs ->
  run step s xs = Ok (scan pure s xs) /\ I (fst (scan pure s xs)).
Proof.
  intros H. induction xs as [|x xs IH]; intros s Hs HP; [split; [reflexivity|exact Hs]|].
  inversion HP as [|? ? Hx Hxs]; subst. destruct (H s x Hs Hx) as [E I1].
  destruct (IH _ I1 Hxs) as [E2 I2]. cbn [run scan]. rewrite E. cbn [obind fst snd]. rewrite E2.
  cbn [obind fst snd]. split; [reflexivity|exact I2].
Qed.

Lemma scan_inv (pure : S -> A -> S * B) (I : S -> Prop) (P : A -> Prop) (Q : B -> Prop) :
  (forall s x, I s -> P x -> I (fst (pure s x)) /\ Q (snd (pure s x))) ->
  forall xs s, I s -> Forall P xs -> I (fst (scan pure s xs)) /\ Forall Q (snd (scan pure s xs)).
Proof.
  intros H. induction xs as [|x xs IH]; intros s Hs HP; [split; [exact Hs|constructor]|].
  inversion HP as [|? ? Hx Hxs]; subst. destruct (H s x Hs Hx) as [I1 Q1].
  destruct (IH _ I1 Hxs) as [I2 Q2]. cbn [scan fst snd]. split; [exact I2|constructor; assumption].
Qed.
End Scan.

(* blocks: scanning block by block is scanning the concatenation *)
Lemma scan_blocks {S A B} (step : S -> A -> S * B) (blocks : list (list A)) : forall s,
  fst (scan (scan step) s blocks) = fst (scan step s (concat blocks)) /\
  concat (snd (scan (scan step) s blocks)) = snd (scan step s (concat blocks)) /\
  map (@length B) (snd (scan (scan step) s blocks)) = map (@length A) blocks.
Proof.
  induction blocks as [|b blocks IH]; intros s; [repeat split|].
  cbn [scan concat]. rewrite scan_app. cbn [fst snd]. destruct (IH (fst (scan step s b))) as (H1 & H2 & H3).
  split; [exact H1|]. split; [cbn [concat]; now rewrite H2|]. cbn [map]. now rewrite scan_length, H3.
Qed.

Lemma Forall_concat {A} (P : A -> Prop) (l : list (list A)) : Forall (Forall P) l -> Forall P (concat l).
Proof. induction 1; cbn [concat]; [constructor|]. apply Forall_app. split; assumption. Qed.

(* independent components *)
Lemma scan_component {S T A B} (step : S -> A -> S * B) (pr : S -> T) (step' : T -> A -> T * B) :
  (forall s x, pr (fst (step s x)) = fst (step' (pr s) x) /\ snd (step s x) = snd (step' (pr s) x)) ->
  forall xs s, pr (fst (scan step s xs)) = fst (scan step' (pr s) xs) /\
               snd (scan step s xs) = snd (scan step' (pr s) xs).
Proof.
  intros H. induction xs as [|x xs IH]; intros s; [split; reflexivity|].
  cbn [scan fst snd]. destruct (H s x) as [H1 H2]. destruct (IH (fst (step s x))) as [I1 I2].
  rewrite I1, I2, H1, H2. split; reflexivity.
Qed.

(* chains *)
Section Chain.
Context {S A : Type} (step : S -> A -> S * A).
Fixpoint chain (ss : list S) (x : A) : list S * A :=
  match ss with
  | [] => ([], x)
  | s :: r => let p := step s x in let q := chain r (snd p) in (fst p :: fst q, snd q)
  end.
Fixpoint chain_scan (ss : list S) (xs : list A) : list S * list A :=
  match ss with
  | [] => ([], xs)
  | s :: r => let p := scan step s xs in let q := chain_scan r (snd p) in (fst p :: fst q, snd q)
  end.
Lemma scan_chain_nil xs : scan chain [] xs = ([], xs).
Proof. induction xs as [|x xs IH]; cbn [scan chain fst snd]; [reflexivity|]. now rewrite IH. Qed.
Lemma scan_chain_cons xs : forall s r,
  scan chain (s :: r) xs
  = (fst (scan step s xs) :: fst (scan chain r (snd (scan step s xs))), snd (scan chain r (snd (scan step s xs)))).
Proof.
  induction xs as [|x xs IH]; intros s r; [reflexivity|].
  cbn [scan chain fst snd]. rewrite IH. reflexivity.
Qed.
Lemma scan_chain ss : forall xs, scan chain ss xs = chain_scan ss xs.
Proof.
  induction ss as [|s r IH]; intros xs; [apply scan_chain_nil|].
  rewrite scan_chain_cons. cbn [chain_scan]. now rewrite IH.
Qed.
Lemma chain_scan_app ss xs ys :
  chain_scan ss (xs ++ ys)
  = (fst (chain_scan (fst (chain_scan ss xs)) ys), snd (chain_scan ss xs) ++ snd (chain_scan (fst (chain_scan ss xs)) ys)).
Proof. rewrite <- !scan_chain. apply scan_app. Qed.
Lemma chain_scan_blocks blocks : forall ss,
  fst (scan chain_scan ss blocks) = fst (chain_scan ss (concat blocks)) /\
  concat (snd (scan chain_scan ss blocks)) = snd (chain_scan ss (concat blocks)) /\
  map (@length A) (snd (scan chain_scan ss blocks)) = map (@length A) blocks.
Proof.
  intros ss. rewrite <- scan_chain, (scan_ext chain_scan (scan chain)) by (intros; symmetry; apply scan_chain).
  apply scan_blocks.
Qed.
End Chain.

Lemma Forall_repeat' {A} (P : A -> Prop) x k : P x -> Forall P (repeat x k).
Proof. intros H. induction k; cbn [repeat]; constructor; auto. Qed.

Lemma concat_repeat {A} (x : A) sizes : concat (map (repeat x) sizes) = repeat x (list_sum sizes).
Proof. induction sizes as [|k sizes IH]; [reflexivity|]. cbn [map concat list_sum fold_right]. rewrite IH, <- repeat_app. reflexivity. Qed.

Lemma app_split_len {A} (a b c d : list A) : length a = length c -> a ++ b = c ++ d -> a = c /\ b = d.
Proof.
  revert c. induction a as [|x a IH]; intros [|y c] HL HE; cbn in *; try discriminate; [auto|].
  injection HE as -> HE. injection HL as HL. destruct (IH c HL HE) as [-> ->]. auto.
Qed.

Lemma concat_const {A} (y : A) : forall sizes outs, map (@length A) outs = sizes ->
  concat outs = repeat y (list_sum sizes) -> outs = map (repeat y) sizes.
Proof.
  induction sizes as [|k sizes IH]; intros [|o outs] HL HC; cbn [map] in HL; try discriminate; [reflexivity|].
  injection HL as HL1 HL2. cbn [concat] in HC. cbn [list_sum fold_right] in HC.
  change (fold_right Init.Nat.add 0 sizes) with (list_sum sizes) in HC. rewrite repeat_app in HC.
  apply app_split_len in HC; [|now rewrite repeat_length].
  destruct HC as [-> E]. cbn [map]. f_equal. now apply IH.
Qed.
