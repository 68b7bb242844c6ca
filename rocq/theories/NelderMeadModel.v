(* Model of audio/dsp/nelder_mead_searcher.h.  Coordinates are real numbers and the vector
   arithmetic is exact; objective values may be real or +infinity (NaN and -infinity are left out).
   The conversions of objective values to float at lines 292 and 300 are kept: [to_float] is the
   identity for Scalar = float and a rounding for Scalar = double.  Bounds are finite or the
   infinity that means "unconstrained" (None); evaluation counts do not overflow. *)
From Verif Require Import Common RealUtil.
Local Open Scope R_scope.

(* a RealScalar that is a real number or +infinity *)
Inductive ext := Fin (x : R) | PInf.
(* operator< on such values *)
Definition xltb (a b : ext) : bool :=
  match a, b with Fin x, Fin y => Rltb x y | Fin _, PInf => true | PInf, _ => false end.

(* Eigen::Array expressions: element-wise operations on columns *)
Fixpoint vmap2 {A B C} (f : A -> B -> C) (a : list A) (b : list B) : list C :=
  match a, b with x :: a', y :: b' => f x y :: vmap2 f a' b' | _, _ => [] end.
Definition vplus := vmap2 Rplus.
Definition vminus := vmap2 Rminus.
Definition vscale (c : R) := map (Rmult c).

(* DenseBase::maxCoeff(&index), minCoeff(&index): the first coefficient that is largest, smallest *)
Fixpoint arg_first (better : ext -> ext -> bool) (i : nat) (best : nat) (v : ext) (l : list ext) : nat :=
  match l with
  | [] => best
  | x :: l' => if better x v then arg_first better (S i) i x l' else arg_first better (S i) best v l'
  end.
Definition arg_max (l : list ext) : nat :=
  match l with [] => 0%nat | x :: l' => arg_first (fun a b => xltb b a) 1 0 x l' end.
Definition arg_min (l : list ext) : nat :=
  match l with [] => 0%nat | x :: l' => arg_first xltb 1 0 x l' end.

(* nelder_mead_searcher.h:175-190, without the four fixed coefficients.  [points] are the columns of
   simplex_; [argmin] is None for argmin_index_ = -1.  [calls] is not in the code: it records the
   arguments of the calls to objective_function_ since the last MinimizeObjective() began. *)
Record searcher := {
  dims : nat; objective : option (list R -> ext);
  points : list (list R); values : list ext;
  lower : list (option R); upper : list (option R);
  argmin : option nat; argmax : nat; evals : Z; calls : list (list R) }.

Definition with_points (s : searcher) ps :=
  {| dims := dims s; objective := objective s; points := ps; values := values s; lower := lower s; upper := upper s;
     argmin := argmin s; argmax := argmax s; evals := evals s; calls := calls s |}.
Definition with_bounds (s : searcher) lo hi :=
  {| dims := dims s; objective := objective s; points := points s; values := values s; lower := lo; upper := hi;
     argmin := argmin s; argmax := argmax s; evals := evals s; calls := calls s |}.
(* simplex_ and function_values_ after a change, with both indices recomputed (lines 416-417,
   425-426, 482-483) *)
Definition with_values (s : searcher) ps vs :=
  {| dims := dims s; objective := objective s; points := ps; values := vs; lower := lower s; upper := upper s;
     argmin := Some (arg_min vs); argmax := arg_max vs; evals := evals s; calls := calls s |}.
Definition counted (s : searcher) (n : Z) (cs : list (list R)) :=
  {| dims := dims s; objective := objective s; points := points s; values := values s; lower := lower s; upper := upper s;
     argmin := argmin s; argmax := argmax s; evals := n; calls := cs |}.

(* nelder_mead_searcher.h:198-212.  The simplex and the values are uninitialised: [junk] stands
   for whatever the simplex contains. *)
Definition nm_new (d : nat) (junk : list (list R)) : outcome searcher :=
  ocheck (0 <? d)%nat
  (Ok {| dims := d; objective := None; points := junk; values := []; lower := []; upper := [];
         argmin := None; argmax := 0; evals := 0; calls := [] |}).

(* (point <= upper_bounds_).all(), (point >= lower_bounds_).all() *)
Definition below (x : R) (b : option R) : bool := match b with Some u => Rleb x u | None => true end.
Definition above (x : R) (b : option R) : bool := match b with Some l => Rleb l x | None => true end.
Definition allb (l : list bool) : bool := forallb (fun b => b) l.
(* nelder_mead_searcher.h:486-496 *)
Definition is_feasible (s : searcher) (p : list R) : bool :=
  (match upper s with [] => true | hi => allb (vmap2 below p hi) end) &&
  (match lower s with [] => true | lo => allb (vmap2 above p lo) end).

(* nelder_mead_searcher.h:214-225 (the span version, 227-233, only wraps it) *)
Definition bump (guess : list R) (offset : R) (dim : nat) : list R :=
  splice dim [nth dim guess 0 + offset] guess.
Definition set_guess (s : searcher) (guess : list R) (offset : R) : outcome searcher :=
  ocheck (length guess =? dims s)%nat
  (ocheck (is_feasible s guess)
  (Ok (with_points s (guess :: map (bump guess offset) (seq 0 (dims s)))))).
(* nelder_mead_searcher.h:235-239 *)
Definition set_objective (s : searcher) (f : list R -> ext) : searcher :=
  {| dims := dims s; objective := Some f; points := points s; values := values s; lower := lower s; upper := upper s;
     argmin := argmin s; argmax := argmax s; evals := evals s; calls := calls s |}.
(* nelder_mead_searcher.h:356-361 *)
Definition set_simplex (s : searcher) (ps : list (list R)) : outcome searcher :=
  ocheck (forallb (fun p => length p =? dims s)%nat ps)
  (ocheck (length ps =? dims s + 1)%nat (Ok (with_points s ps))).
(* upper_bounds_ >= lower_bounds_; an infinity that means "unconstrained" satisfies it *)
Definition ordered (hi lo : option R) : bool :=
  match hi, lo with Some u, Some l => Rleb l u | _, _ => true end.
(* nelder_mead_searcher.h:369-379 *)
Definition set_lower (s : searcher) (lo : list (option R)) : outcome searcher :=
  ocheck (length lo =? dims s)%nat
  (ocheck (match upper s with [] => true | hi => allb (vmap2 ordered hi lo) end)
  (Ok (with_bounds s lo (upper s)))).
(* nelder_mead_searcher.h:381-391 *)
Definition set_upper (s : searcher) (hi : list (option R)) : outcome searcher :=
  ocheck (length hi =? dims s)%nat
  (ocheck (match lower s with [] => true | lo => allb (vmap2 ordered hi lo) end)
  (Ok (with_bounds s (lower s) hi))).
(* nelder_mead_searcher.h:393-397 *)
Definition clear_bounds (s : searcher) : searcher := with_bounds s [] [].
(* nelder_mead_searcher.h:138 *)
Definition reset_evaluations (s : searcher) : searcher := counted s 0 (calls s).

(* nelder_mead_searcher.h:334-339 *)
Definition get_argmin (s : searcher) : outcome (list R) :=
  match argmin s with Some i => Ok (nth i (points s) []) | None => CheckFail end.
(* nelder_mead_searcher.h:341-346 *)
Definition get_min (s : searcher) : outcome ext :=
  match argmin s with Some i => Ok (nth i (values s) PInf) | None => CheckFail end.
(* The real numbers behind a list of values, None if one of them is infinite. *)
Fixpoint finite (l : list ext) : option (list R) :=
  match l with
  | [] => Some []
  | Fin x :: l' => match finite l' with Some r => Some (x :: r) | None => None end
  | PInf :: _ => None
  end.
Definition total (l : list R) : R := fold_right Rplus 0 l.
(* nelder_mead_searcher.h:348-354; None is NaN, the result of infinity - infinity *)
Definition std_dev_of (vs : list ext) : option R :=
  match finite vs with
  | Some l => let mean := total l / INR (length l) in Some (sqrt (total (map (fun v => Rsqr (v - mean)) l)))
  | None => None
  end.
Definition std_dev (s : searcher) : outcome (option R) :=
  match argmin s with Some _ => Ok (std_dev_of (values s)) | None => CheckFail end.

(* nelder_mead_searcher.h:399-409 *)
Definition evaluate (f : list R -> ext) (s : searcher) (p : list R) : ext * searcher :=
  if is_feasible s p then (f p, counted s (evals s + 1) (p :: calls s)) else (PInf, s).
(* nelder_mead_searcher.h:411-418: first the loop, then the indices *)
Fixpoint evaluate_list (f : list R -> ext) (s : searcher) (ps : list (list R)) : list ext * searcher :=
  match ps with
  | [] => ([], s)
  | p :: ps' =>
      let (v, s1) := evaluate f s p in
      let (vs, s2) := evaluate_list f s1 ps' in (v :: vs, s2)
  end.
Definition evaluate_all (f : list R -> ext) (s : searcher) : searcher :=
  let (vs, s') := evaluate_list f s (points s) in with_values s' (points s') vs.

(* nelder_mead_searcher.h:420-427 *)
Definition replace_argmax (s : searcher) (p : list R) (v : ext) : searcher :=
  with_values s (splice (argmax s) [p] (points s)) (splice (argmax s) [v] (values s)).

(* simplex_.col(i).max(lower_bounds_), .min(upper_bounds_) *)
Definition raise_to (x : R) (b : option R) : R := match b with Some l => Rmax x l | None => x end.
Definition lower_to (x : R) (b : option R) : R := match b with Some u => Rmin x u | None => x end.
(* nelder_mead_searcher.h:434-441 *)
Definition clamp (s : searcher) (p : list R) : list R :=
  let p1 := match lower s with [] => p | lo => vmap2 raise_to p lo end in
  match upper s with [] => p1 | hi => vmap2 lower_to p1 hi end.
(* nelder_mead_searcher.h:429-442 *)
Definition enforce_bounds (s : searcher) : searcher := with_points s (map (clamp s) (points s)).

(* nelder_mead_searcher.h:450-454 *)
Definition get_argmax (s : searcher) : list R := nth (argmax s) (points s) [].
(* nelder_mead_searcher.h:456-460 *)
Definition get_max (s : searcher) : ext := nth (argmax s) (values s) PInf.
(* nelder_mead_searcher.h:444-448: rowwise().sum() adds the columns *)
Definition centroid (s : searcher) : list R :=
  map (fun x => x / INR (dims s))
      (vminus (fold_right vplus (repeat 0 (dims s)) (points s)) (get_argmax s)).
(* nelder_mead_searcher.h:462-471: the loop stops before the last column; None is -infinity *)
Fixpoint second_from (i : nat) (skip : nat) (best : option ext) (l : list ext) : option ext :=
  match l with
  | [] => best
  | v :: l' =>
      let better := negb (i =? skip)%nat && match best with Some b => xltb b v | None => true end in
      second_from (S i) skip (if better then Some v else best) l'
  end.
Definition second_highest (s : searcher) : option ext :=
  second_from 0 (argmax s) None (firstn (dims s) (values s)).
(* nelder_mead_searcher.h:473-481: the columns before the indices are recomputed *)
Fixpoint shrink_list (f : list R -> ext) (s : searcher) (keep : nat) (best : list R) (i : nat)
    (ps : list (list R)) (vs : list ext) : list (list R) * list ext * searcher :=
  match ps, vs with
  | p :: ps', v :: vs' =>
      let '(p1, v1, s1) :=
        if (i =? keep)%nat then (p, v, s)
        else let q := vscale (1 / 2) (vplus p best) in let (w, s') := evaluate f s q in (q, w, s') in
      let '(ps2, vs2, s2) := shrink_list f s1 keep best (S i) ps' vs' in
      (p1 :: ps2, v1 :: vs2, s2)
  | _, _ => ([], [], s)
  end.
(* nelder_mead_searcher.h:473-484 *)
Definition shrink (f : list R -> ext) (s : searcher) : searcher :=
  match argmin s with
  | Some i =>
      let '(ps, vs, s') := shrink_list f s i (nth i (points s) []) 0 (points s) (values s) in
      with_values s' ps vs
  | None => s
  end.

Section Minimize.
(* conversion of a RealScalar to float *)
Variable to_float : R -> ext.
Definition xfloat (v : ext) : ext := match v with Fin x => to_float x | PInf => PInf end.

(* nelder_mead_searcher.h:263-264; a comparison with NaN is false *)
Definition keep_going (max : Z) (tol : R) (goal : option R) (s : searcher) : bool :=
  (evals s <? max)%Z &&
  (match get_min s, goal with
   | Ok (Fin m), Some g => Rltb g m
   | Ok _, _ => true
   | _, _ => false
   end) &&
  (match std_dev s with Ok (Some d) => Rltb tol d | _ => false end).

(* The body of the loop, nelder_mead_searcher.h:269-330, with the coefficients 1, 2, 1/2 of
   lines 201-203 *)
Definition nm_step (f : list R -> ext) (s : searcher) : searcher :=
  let c := centroid s in
  let refl := vminus (vscale (1 + 1) c) (vscale 1 (get_argmax s)) in
  let (r, s1) := evaluate f s refl in
  let best := match get_min s with Ok m => m | _ => PInf end in
  if xltb r best then
    let expa := vplus (vscale 2 refl) (vscale (1 - 2) c) in
    let (e, s2) := evaluate f s1 expa in
    if xltb e r then replace_argmax s2 expa e else replace_argmax s2 refl r
  else if match second_highest s with Some v => xltb r (xfloat v) | None => false end then
    replace_argmax s1 refl r
  else
    let highest := xfloat (get_max s) in
    if xltb r highest then
      let contr := vplus c (vscale (1 / 2) (vminus refl c)) in
      let (k, s2) := evaluate f s1 contr in
      if negb (xltb r k) then replace_argmax s2 contr k else shrink f s2
    else
      let contr := vplus c (vscale (1 / 2) (vminus (get_argmax s) c)) in
      let (k, s2) := evaluate f s1 contr in
      if xltb k highest then replace_argmax s2 contr k else shrink f s2.

(* The loop of line 263; [None] if it has not ended after [fuel] iterations. *)
Fixpoint nm_loop (fuel : nat) (max : Z) (tol : R) (goal : option R) (f : list R -> ext) (s : searcher)
    : option searcher :=
  if keep_going max tol goal s then
    match fuel with
    | O => None
    | S k => nm_loop k max tol goal f (nm_step f s)
    end
  else Some s.

(* nelder_mead_searcher.h:241-332 with at most [fuel] iterations; [Ok None] means that the loop
   is still running then *)
Definition minimize (fuel : nat) (max : Z) (tol : R) (goal : option R) (s : searcher)
    : outcome (option searcher) :=
  ocheck (length (points s) =? dims s + 1)%nat
  (match objective s with
   | None => CheckFail
   | Some f => Ok (nm_loop fuel max tol goal f (evaluate_all f (enforce_bounds (counted s 0 []))))
   end).
End Minimize.
