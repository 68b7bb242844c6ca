(* Specification of the circular buffer: a bounded FIFO queue, oldest first. *)
From Verif Require Import Common CircularBufferModel.

Section Spec.
Context {A : Type}.

(* One call on a queue of capacity [cap]. [None] = the caller broke the rules
   (wrote more than fits, or asked for more than is there). The
   result of IsFull is not specified here but by [qf_step]. *)
Definition q_step (cap : nat) (q : list A) (o : cb_op A)
    : option (list A * cb_out A) :=
  match o with
  | CWrite xs =>
      if length q + length xs <=? cap then Some (q ++ xs, OUnit) else None
  | CRead n =>
      if n <=? length q then Some (skipn n q, OData (firstn n q)) else None
  | CPeek n => if n <=? length q then Some (q, OData (firstn n q)) else None
  | CAdvance n => if n <=? length q then Some (skipn n q, OUnit) else None
  | CClear => Some ([], OUnit)
  | CNumReadable => Some (q, ONum (length q))
  | CCapacity => Some (q, ONum cap)
  | CIsFull => Some (q, OUnit)
  end.

Fixpoint q_run (cap : nat) (q : list A) (ops : list (cb_op A))
    : option (list A * list (cb_out A)) :=
  match ops with
  | [] => Some (q, [])
  | o :: ops' =>
      match q_step cap q o with
      | None => None
      | Some (q', out) =>
          match q_run cap q' ops' with
          | None => None
          | Some (q'', outs) => Some (q'', out :: outs)
          end
      end
  end.

(* Same, with IsFull() meaning "NumReadableEntries() = capacity()". *)
Definition qf_step (cap : nat) (q : list A) (o : cb_op A)
    : option (list A * cb_out A) :=
  match o with
  | CIsFull => Some (q, OBool (length q =? cap))
  | _ => q_step cap q o
  end.

Fixpoint qf_run (cap : nat) (q : list A) (ops : list (cb_op A))
    : option (list A * list (cb_out A)) :=
  match ops with
  | [] => Some (q, [])
  | o :: ops' =>
      match qf_step cap q o with
      | None => None
      | Some (q', out) =>
          match qf_run cap q' ops' with
          | None => None
          | Some (q'', outs) => Some (q'', out :: outs)
          end
      end
  end.

(* Forget the answers of IsFull. *)
Definition hide_full (o : cb_out A) : cb_out A :=
  match o with OBool _ => OUnit | _ => o end.

(* Calls that consume nothing: Read(0) and Advance(0). *)
Definition zero_consume (o : cb_op A) : bool :=
  match o with
  | CRead n | CAdvance n => n =? 0
  | _ => false
  end.

(* The most recent [n] elements of a history. *)
Definition newest (n : nat) (h : list A) : list A := skipn (length h - n) h.

(* Planar buffers: one queue per channel. *)
Definition pq_step (cap : nat) (qs : list (list A)) (o : pl_op A)
    : option (list (list A) * pl_out A) :=
  match o with
  | PWrite x =>
      if (length x =? length qs)
         && forallb (fun c => length c =? length (hd [] x)) x
         && forallb (fun q => length q + length (hd [] x) <=? cap) qs
      then Some (map (fun p => fst p ++ snd p) (combine qs x), PUnit)
      else None
  | PRead n =>
      if forallb (fun q => n <=? length q) qs
      then Some (map (skipn n) qs, PData (map (firstn n) qs))
      else None
  | PNumReadable =>
      match qs with
      | [] => None
      | q :: _ => Some (qs, PNum (length q))
      end
  end.

Fixpoint pq_run (cap : nat) (qs : list (list A)) (ops : list (pl_op A))
    : option (list (list A) * list (pl_out A)) :=
  match ops with
  | [] => Some (qs, [])
  | o :: ops' =>
      match pq_step cap qs o with
      | None => None
      | Some (qs', out) =>
          match pq_run cap qs' ops' with
          | None => None
          | Some (qs'', outs) => Some (qs'', out :: outs)
          end
      end
  end.

End Spec.
