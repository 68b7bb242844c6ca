(* Model of CrossProductRange (audio/dsp/number_util.{h,cc}). *)
From Verif Require Import CInt.

(* number_util.h:300-304 *)
Record cp_it : Type := {
  cp_shape : list Z;
  cp_indices : list Z;
  cp_is_end : bool
}.

(* number_util.cc:292-299 *)
Definition cp_empty (shape : list Z) : bool :=
  existsb (fun s => s <=? 0) shape || match shape with [] => true | _ => false end.

(* number_util.cc:301-304 *)
Definition cp_begin (shape : list Z) : cp_it :=
  {| cp_shape := shape; cp_indices := map (fun _ => 0) shape;
     cp_is_end := cp_empty shape |}.

(* number_util.h:284 *)
Definition cp_end : cp_it := {| cp_shape := []; cp_indices := []; cp_is_end := true |}.

(* number_util.cc:310-315. All but the last index are remainders; the last one
   is the remaining quotient converted from int64 to int. Returns the indices
   and the new is_end_. *)
Fixpoint cp_flat_loop (shape : list Z) (flat : Z) : list Z * bool :=
  match shape with
  | [] => ([], true)
  | [s] => let b := to_int32 flat in ([b], s <=? b)
  | s :: rest =>
      let r := cp_flat_loop rest (Z.quot flat s) in
      (to_int32 (Z.rem flat s) :: fst r, snd r)
  end.

(* number_util.cc:306-317 *)
Definition cp_flat_index (shape : list Z) (flat : Z) : cp_it :=
  let it := cp_begin shape in
  if cp_is_end it then it
  else let r := cp_flat_loop shape flat in
       {| cp_shape := shape; cp_indices := fst r; cp_is_end := snd r |}.

(* number_util.cc:321-328: the loop; the flag tells whether it ran to its end
   (every index rolled over). *)
Fixpoint cp_incr_loop (shape idx : list Z) : list Z * bool :=
  match shape, idx with
  | s :: shape', i :: idx' =>
      if s <=? i + 1 then
        let r := cp_incr_loop shape' idx' in (0 :: fst r, snd r)
      else ((i + 1) :: idx', false)
  | _, _ => ([], true)
  end.

(* number_util.cc:319-332 *)
Definition cp_incr (it : cp_it) : cp_it :=
  if cp_is_end it then it
  else let r := cp_incr_loop (cp_shape it) (cp_indices it) in
       {| cp_shape := cp_shape it; cp_indices := fst r; cp_is_end := snd r |}.

Definition zlist_eqb (a b : list Z) : bool :=
  if list_eq_dec Z.eq_dec a b then true else false.

(* number_util.cc:342-351 *)
Definition cp_eqb (a b : cp_it) : bool :=
  (cp_is_end a && cp_is_end b) ||
  (Bool.eqb (cp_is_end a) (cp_is_end b) &&
   zlist_eqb (cp_shape a) (cp_shape b) && zlist_eqb (cp_indices a) (cp_indices b)).

(* The ranged for loop: for (it = begin; it != end; ++it) visit the iterate. *)
Fixpoint cp_collect (fuel : nat) (it : cp_it) : outcome (list (list Z)) :=
  match fuel with
  | O => Undef
  | S fuel' =>
      if cp_eqb it cp_end then Ok []
      else rest <- cp_collect fuel' (cp_incr it) ;; Ok (cp_indices it :: rest)
  end.
