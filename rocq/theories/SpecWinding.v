(** * SpecWinding: closed loops of constraints and how often they turn around a point.

    Definitions only; no proof. *)

From Coq Require Import ZArith NArith List Bool QArith.
From Verif Require Import Types Spec SpecDomain.
Import ListNotations.

Section Winding.
Variable at_ : N -> point.

(** How the segment from [f] to [g] crosses the half line going up from [p]: 1 from left to right, -1
    from right to left, 0 not at all.  A segment with an end straight above [p] is seen as if the half
    line were moved a little to the right. *)
Definition crossing (f g p : point) : Z :=
  if Qle_bool (fst f) (fst p) && negb (Qle_bool (fst g) (fst p)) then
    if Qle_bool 0 (orient f g p) then 0%Z else 1%Z
  else if Qle_bool (fst g) (fst p) && negb (Qle_bool (fst f) (fst p)) then
    if Qle_bool (orient f g p) 0 then 0%Z else (-1)%Z
  else 0%Z.

(** The winding number of the constraints around [p], clockwise turns counted positively. *)
Definition winding (cs : list edge) (p : point) : Z :=
  fold_right Z.add 0%Z (map (fun e => crossing (at_ (efrom e)) (at_ (eto e)) p) cs).

(** The constraints are closed loops: at each place as many arrive as leave. *)
Definition place_eqb (p q : point) : bool := Qeq_bool (fst p) (fst q) && Qeq_bool (snd p) (snd q).
Definition closed_loops (cs : list edge) : Prop := forall p,
  length (filter (fun e => place_eqb (at_ (efrom e)) p) cs) = length (filter (fun e => place_eqb (at_ (eto e)) p) cs).

(** Next to each constraint, the winding number is positive on its right and not on its left: outer
    loops are clockwise, holes in them counter-clockwise. *)
Definition inside_right (cs : list edge) : Prop :=
  forall e s, In e cs -> proper at_ e -> (0 < s < 1)%Q ->
    let m := along (at_ (efrom e)) (at_ (eto e)) s in
    exists r, (0 < r)%Q /\ forall q, (- r <= fst q - fst m <= r)%Q -> (- r <= snd q - snd m <= r)%Q ->
      ((orient (at_ (efrom e)) (at_ (eto e)) q < 0)%Q -> (0 < winding cs q)%Z) /\
      ((0 < orient (at_ (efrom e)) (at_ (eto e)) q)%Q -> (winding cs q <= 0)%Z).

(** ** Simple loops *)

(** Two constraints have no points in common, except their ends. *)
Definition meet_at_ends (cs : list edge) : Prop :=
  forall e f s r, In e cs -> In f cs -> (0 <= s <= 1)%Q -> (0 <= r <= 1)%Q ->
    same_place (along (at_ (efrom e)) (at_ (eto e)) s) (along (at_ (efrom f)) (at_ (eto f)) r) ->
    e = f \/ ((s == 0 \/ s == 1) /\ (r == 0 \/ r == 1))%Q.

(** Each constraint ends where exactly one other starts, starts where exactly one other ends, and
    meets the others only there. *)
Record simple_loops (cs : list edge) : Prop := {
  sl_once : NoDup cs;
  sl_proper : forall e, In e cs -> proper at_ e;
  sl_next : forall e, In e cs -> exists f, In f cs /\ same_place (at_ (eto e)) (at_ (efrom f));
  sl_prev : forall f, In f cs -> exists e, In e cs /\ same_place (at_ (eto e)) (at_ (efrom f));
  sl_start : forall e f, In e cs -> In f cs -> same_place (at_ (efrom e)) (at_ (efrom f)) -> e = f;
  sl_end : forall e f, In e cs -> In f cs -> same_place (at_ (eto e)) (at_ (eto f)) -> e = f;
  sl_meet : meet_at_ends cs
}.

(** The constraint [f] comes after [e] in its loop. *)
Inductive same_loop (cs : list edge) (e : edge) : edge -> Prop :=
| loop_here : same_loop cs e e
| loop_next f g : same_loop cs e f -> In g cs -> same_place (at_ (eto f)) (at_ (efrom g)) -> same_loop cs e g.

(** The constraints are the sides of one simple polygon. *)
Definition simple_polygon (cs : list edge) : Prop :=
  simple_loops cs /\ forall e f, In e cs -> In f cs -> same_loop cs e f.

(** From [p] one sees a point of the constraint [e], which is not one of its ends. *)
Definition sees_side (cs : list edge) (p : point) (e : edge) : Prop :=
  exists s, (0 < s < 1)%Q /\
    forall t, (0 < t <= 1)%Q -> ~ on_constraint at_ cs (along (along (at_ (efrom e)) (at_ (eto e)) s) p t).
End Winding.
