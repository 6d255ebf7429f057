(** What slerp should return: a point on the shorter arc between two unit quaternions. *)
From Coq Require Import Reals.
From Flocq Require Import Core.Core.
Open Scope R_scope.

(** one entry of the point at the fraction t of the arc of angle th from the entry p to the entry q *)
Definition on_arc (th t p q : R) : R := (sin ((1 - t) * th) * p + sin (t * th) * q) / sin th.
(** what is asked of one entry r: for an angle of at least nine tenths of a millionth, the point of the arc up to 2^-44 / sin th *)
Definition arc_entry (th t p q r : R) : Prop := Rabs (r - on_arc th t p q) <= bpow radix2 (-44) / sin th.
(** below eleven tenths of a millionth, the first quaternion itself up to 2^-50 *)
Definition end_entry (p r : R) : Prop := Rabs (r - p) <= bpow radix2 (-50).
