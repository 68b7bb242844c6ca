(* Model of audio/linear_filters/biquad_filter_coefficients.{h,cc}: polynomial products,
   conversion to lattice/ladder coefficients, IsStable, Simplify and AppendBiquad, over the
   real numbers.  Rounding, overflow and NaN are not modelled. *)
From Verif Require Import Common RealUtil BiquadModel.
Local Open Scope R_scope.

(* sum of two coefficient vectors, the shorter one extended by zeros *)
Fixpoint padd (x y : list R) : list R :=
  match x, y with
  | [], _ => y
  | _, [] => x
  | a :: x', b :: y' => (a + b) :: padd x' y'
  end.
(* biquad_filter_coefficients.cc:87-92: result[i + j] += x[i] * y[j], by recursion on x *)
Fixpoint product (x y : list R) : list R :=
  match x with
  | [] => []
  | [a] => map (Rmult a) y
  | a :: x' => padd (map (Rmult a) y) (0 :: product x' y)
  end.
(* biquad_filter_coefficients.cc:95-100: drop highest order coefficients that are zero; running
   past the beginning reads result[-1] *)
Fixpoint drop_zeros (rev_result : list R) : outcome (list R) :=
  match rev_result with
  | [] => Undef
  | a :: r => if Reqb (Rabs a) 0 then drop_zeros r else Ok (a :: r)
  end.
(* biquad_filter_coefficients.cc:85-101 *)
Definition convolve (x y : list R) : outcome (list R) :=
  obind (drop_zeros (rev (product x y))) (fun r => Ok (rev r)).

(* biquad_filter_coefficients.cc:131-164, the loop from m down to 1.  pa and pp are A and P.
   Where 1 - k^2 is zero C++ gets infinities or NaN in the coefficients of lower index; here
   they are arbitrary reals.  The k of that index is then +-1 in both. *)
Fixpoint ladder_loop (m : nat) (pa pp : list R) : list R * list R :=
  match m with
  | O => ([], [nth 0 pp 0])
  | S m' =>
      let zB := fun j => nth (m - j) pa 0 in
      let k := nth m pa 0 in
      let v := nth m pp 0 in
      let pa' := map (fun j => (nth j pa 0 - k * zB j) * (1 / (1 - k * k))) (seq 0 m) in
      let pp' := map (fun j => nth j pp 0 - zB j * v) (seq 0 m) in
      let r := ladder_loop m' pa' pp' in
      (fst r ++ [k], snd r ++ [v])
  end.
(* biquad_filter_coefficients.cc:107-165; returns (k, v) *)
Definition make_ladder (b a : list R) : outcome (list R * list R) :=
  ocheck (negb (length b =? 0)%nat) (ocheck (negb (length a =? 0)%nat)
  (ocheck (negb (Reqb (nth 0 a 0) 0))
  (let normalize := nth 0 a 0 in
   let order := (Nat.max (length b) (length a) - 1)%nat in
   let pp := vresize 0 (S order) (map (fun x => x / normalize) b) in
   let pa := vresize 0 (S order) (map (fun x => x / normalize) a) in
   Ok (ladder_loop order pa pp)))).

(* the vectors of a stage *)
Definition vec_b (c : coeffs R) : list R := [b0 c; b1 c; b2 c].
Definition vec_a (c : coeffs R) : list R := [a0 c; a1 c; a2 c].
Definition set_b (c : coeffs R) (l : list R) : coeffs R :=
  {| b0 := nth 0 l 0; b1 := nth 1 l 0; b2 := nth 2 l 0; a0 := a0 c; a1 := a1 c; a2 := a2 c |}.
Definition set_a (c : coeffs R) (l : list R) : coeffs R :=
  {| b0 := b0 c; b1 := b1 c; b2 := b2 c; a0 := nth 0 l 0; a1 := nth 1 l 0; a2 := nth 2 l 0 |}.
Definition identity_coeffs : coeffs R := {| b0 := 1; b1 := 0; b2 := 0; a0 := 1; a1 := 0; a2 := 0 |}.

(* biquad_filter_coefficients.cc:167-177.  A +-1 among the k makes the result false whatever
   the coefficients of lower index are. *)
Definition is_stable (c : coeffs R) : outcome bool :=
  obind (make_ladder (vec_b c) (vec_a c)) (fun kv => Ok (forallb (fun k => negb (Rleb 1 (Rabs k))) (fst kv))).

(* biquad_filter_coefficients.cc:438-448 *)
Fixpoint product_of (l : list (list R)) (acc : list R) : outcome (list R) :=
  match l with
  | [] => Ok acc
  | p :: r => obind (convolve p acc) (product_of r)
  end.
Definition as_polynomial_ratio (cs : list (coeffs R)) : outcome (list R * list R) :=
  obind (product_of (map vec_b cs) [1]) (fun b => obind (product_of (map vec_a cs) [1]) (fun a => Ok (b, a))).
(* biquad_filter_coefficients.cc:389-404 *)
Definition cascade_is_stable (cs : list (coeffs R)) : outcome bool :=
  obind (as_polynomial_ratio cs) (fun ba =>
  obind (make_ladder (fst ba) (snd ba)) (fun kv => Ok (forallb (fun k => Rltb (Rabs k) 1) (fst kv)))).

Section Simplify.
(* the tolerance; 1e-10 in the code *)
Variable tol : R.
(* biquad_filter_coefficients.cc:31-37 *)
Definition first_order (p : list R) : bool := Rleb (Rabs (nth 2 p 0)) tol && Rltb tol (Rabs (nth 1 p 0)).
Definition zero_order (p : list R) : bool := Rleb (Rabs (nth 1 p 0)) tol && Rleb (Rabs (nth 2 p 0)) tol.

(* std::find_if over the stages from an index on *)
Fixpoint find_from (f : coeffs R -> bool) (cs : list (coeffs R)) (i : nat) : option nat :=
  match cs with
  | [] => None
  | c :: r => if f c then Some i else find_from f r (S i)
  end.
(* biquad_filter_coefficients.cc:40-59; coeffs is not empty.  A stage with a[0] = 0 gives an
   infinite or NaN gain in C++, here an arbitrary real; the theorems assume a[0] <> 0. *)
Definition find_zero_order (cs : list (coeffs R)) : option (nat * nat * R) :=
  match find_from (fun c => zero_order (vec_a c)) cs 0, find_from (fun c => zero_order (vec_b c)) cs 0 with
  | Some ai, Some bi => Some (ai, bi, b0 (nth bi cs identity_coeffs) / a0 (nth ai cs identity_coeffs))
  | _, _ => None
  end.
(* biquad_filter_coefficients.cc:62-82 *)
Definition find_pair (poly : coeffs R -> list R) (cs : list (coeffs R)) : option (nat * nat) :=
  match find_from (fun c => first_order (poly c)) cs 0 with
  | None => None
  | Some i =>
      match find_from (fun c => first_order (poly c)) (skipn (S i) cs) (S i) with
      | None => None
      | Some j => Some (i, j)
      end
  end.
Definition update (cs : list (coeffs R)) (i : nat) (c : coeffs R) : list (coeffs R) := splice i [c] cs.
(* biquad_filter_coefficients.cc:411-416 and 417-422; the number of iterations is bounded by
   the number of stages, C23_simplify_complete shows that this is enough *)
Fixpoint merge_pairs (poly : coeffs R -> list R) (set : coeffs R -> list R -> coeffs R)
    (fuel : nat) (cs : list (coeffs R)) : outcome (list (coeffs R)) :=
  match fuel, find_pair poly cs with
  | S fuel', Some (i, j) =>
      let ci := nth i cs identity_coeffs in
      let cj := nth j cs identity_coeffs in
      obind (convolve (poly ci) (poly cj)) (fun p =>
      merge_pairs poly set fuel' (update (update cs i (set ci (vresize 0 3 p))) j (set cj [1; 0; 0])))
  | _, _ => Ok cs
  end.
(* biquad_filter_coefficients.h:268-270 and 143-147 *)
Definition adjust_gain (g : R) (cs : list (coeffs R)) : list (coeffs R) :=
  match cs with
  | [] => []
  | c :: r => set_b c (map (fun x => x * g) (vec_b c)) :: r
  end.
(* biquad_filter_coefficients.cc:426-435 *)
Fixpoint merge_gains (fuel : nat) (cs : list (coeffs R)) : list (coeffs R) :=
  match fuel with
  | O => cs
  | S fuel' =>
      if (1 <? length cs)%nat then
        match find_zero_order cs with
        | None => cs
        | Some (ai, bi, gain) =>
            let cs1 := if (ai =? bi)%nat then cs
                       else update cs bi (set_b (nth bi cs identity_coeffs) (vec_b (nth ai cs identity_coeffs))) in
            let cs2 := firstn ai cs1 ++ skipn (S ai) cs1 in
            merge_gains fuel' (if Reqb gain 1 then cs2 else adjust_gain gain cs2)
        end
      else cs
  end.
(* biquad_filter_coefficients.cc:407-436 *)
Definition simplify (cs : list (coeffs R)) : outcome (list (coeffs R)) :=
  obind (merge_pairs vec_b set_b (length cs) cs) (fun cs1 =>
  obind (merge_pairs vec_a set_a (length cs1) cs1) (fun cs2 =>
  Ok (merge_gains (length cs2) cs2))).
(* biquad_filter_coefficients.h:180-183 *)
Definition append_biquad (cs : list (coeffs R)) (c : coeffs R) : outcome (list (coeffs R)) :=
  simplify (cs ++ [c]).
End Simplify.
Definition tolerance : R := / 10000000000.
(* a client calling AppendBiquad (biquad_filter_coefficients.h:180-183) once for each of l *)
Fixpoint appends (tol : R) (cs : list (coeffs R)) (l : list (coeffs R)) : outcome (list (coeffs R)) :=
  match l with
  | [] => Ok cs
  | c :: r => obind (append_biquad tol cs c) (fun cs' => appends tol cs' r)
  end.


(* biquad_filter_coefficients.h:163-170 *)
Definition cascade_of (cs : list (coeffs R)) : list (coeffs R) :=
  match cs with [] => [identity_coeffs] | _ => cs end.
