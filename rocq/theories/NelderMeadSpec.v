(* Specification side for the Nelder-Mead searcher: order on objective values, bounds as sets of
   points, histories of calls, and the moves of the published algorithm. *)
From Verif Require Import Common RealUtil NelderMeadModel.
Local Open Scope R_scope.

(* a <= b for objective values, +infinity being the largest *)
Definition xle (a b : ext) : Prop :=
  match a, b with Fin x, Fin y => x <= y | _, PInf => True | PInf, Fin _ => False end.

(* p respects every bound: coordinate i is at least / at most the i-th bound, if there is one *)
Definition within (lo hi : list (option R)) (p : list R) : Prop :=
  (forall i l, nth_error lo i = Some (Some l) -> l <= nth i p 0) /\
  (forall i u, nth_error hi i = Some (Some u) -> nth i p 0 <= u).

(* the calls of the public interface *)
Inductive nm_call :=
| SetSimplexFromStartingGuess (guess : list R) (offset : R)
| SetSimplex (ps : list (list R))
| SetObjectiveFunction (f : list R -> ext)
| SetLowerBounds (lo : list (option R))
| SetUpperBounds (hi : list (option R))
| ClearBounds
| ResetEvaluations
| MinimizeObjective (max : Z) (tol : R) (goal : option R).

(* A search still running after one iteration per permitted evaluation is reported as [Undef];
   C42_stops shows that this does not happen and that allowing more iterations changes nothing. *)
Definition nm_exec (to_float : R -> ext) (s : searcher) (c : nm_call) : outcome searcher :=
  match c with
  | SetSimplexFromStartingGuess g o => set_guess s g o
  | SetSimplex ps => set_simplex s ps
  | SetObjectiveFunction f => Ok (set_objective s f)
  | SetLowerBounds lo => set_lower s lo
  | SetUpperBounds hi => set_upper s hi
  | ClearBounds => Ok (clear_bounds s)
  | ResetEvaluations => Ok (reset_evaluations s)
  | MinimizeObjective max tol goal =>
      obind (minimize to_float (Z.to_nat max) max tol goal s)
            (fun r => match r with Some s' => Ok s' | None => Undef end)
  end.
Fixpoint nm_history (to_float : R -> ext) (s : searcher) (cs : list nm_call) : outcome searcher :=
  match cs with
  | [] => Ok s
  | c :: cs' => obind (nm_exec to_float s c) (fun s' => nm_history to_float s' cs')
  end.

(* A searcher obtained from the constructor by some calls; the uninitialised simplex has the right
   shape and any contents. *)
Definition nm_reachable (to_float : R -> ext) (d : nat) (s : searcher) : Prop :=
  exists junk cs s0, length junk = (d + 1)%nat /\ (forall p, In p junk -> length p = d) /\
    nm_new d junk = Ok s0 /\ nm_history to_float s0 cs = Ok s.

(* mean and standard deviation of a sample *)
Definition mean_of (l : list R) : R := fold_right Rplus 0 l / INR (length l).
Definition variance_of (l : list R) : R := mean_of (map (fun v => (v - mean_of l) * (v - mean_of l)) l).
Definition standard_deviation_of (l : list R) : R := sqrt (variance_of l).

(* The moves of Nelder and Mead for a simplex [ps] in d dimensions with worst vertex number [w]:
   the centroid of the other vertices and the points c + t (p_w - c) *)
Definition others (w : nat) (ps : list (list R)) : list (list R) := firstn w ps ++ skipn (S w) ps.
Definition centre (w : nat) (ps : list (list R)) (j : nat) : R :=
  mean_of (map (fun p => nth j p 0) (others w ps)).
Definition on_line (t : R) (w : nat) (ps : list (list R)) (q : list R) : Prop :=
  forall j, (j < length q)%nat -> nth j q 0 = centre w ps j + t * (nth j (nth w ps []) 0 - centre w ps j).
Definition replaces (t : R) (w : nat) (ps qs : list (list R)) : Prop :=
  length qs = length ps /\ on_line t w ps (nth w qs []) /\
  forall i, i <> w -> nth i qs [] = nth i ps [].
Definition halves_towards (b : nat) (ps qs : list (list R)) : Prop :=
  length qs = length ps /\
  forall i j, (i < length ps)%nat -> nth j (nth i qs []) 0 = (nth j (nth i ps []) 0 + nth j (nth b ps []) 0) / 2.

Definition xlt (a b : ext) : Prop := ~ xle b a.
(* One move: the worst vertex goes to the point t = -1 (reflection), -2 (expansion), -1/2 (outside
   contraction) or 1/2 (inside contraction) of its line through the centre of the others, with
   [accept new_value old_value]; or every vertex moves half way to the best one. *)
Definition nm_one (accept : ext -> ext -> Prop) (f : list R -> ext) (ps qs : list (list R)) : Prop :=
  (exists w t, (w < length ps)%nat /\ (forall p, In p ps -> xle (f p) (f (nth w ps []))) /\
     In t [-1; -2; -1/2; 1/2] /\ replaces t w ps qs /\ accept (f (nth w qs [])) (f (nth w ps []))) \/
  (exists b, (b < length ps)%nat /\ (forall p, In p ps -> xle (f (nth b ps [])) (f p)) /\ halves_towards b ps qs).
Inductive nm_moves (accept : ext -> ext -> Prop) (f : list R -> ext) : list (list R) -> list (list R) -> Prop :=
| nm_done ps : nm_moves accept f ps ps
| nm_move ps qs rs : nm_one accept f ps qs -> nm_moves accept f qs rs -> nm_moves accept f ps rs.

(* p moved into the bounds, coordinate by coordinate *)
Definition pushed_into (lo hi : list (option R)) (p q : list R) : Prop :=
  length q = length p /\
  forall i, (i < length p)%nat ->
    nth i q 0 =
    let x := match nth i lo None with Some l => Rmax (nth i p 0) l | None => nth i p 0 end in
    match nth i hi None with Some u => Rmin x u | None => x end.
