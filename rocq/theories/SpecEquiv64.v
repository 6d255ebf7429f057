(** The alternatives of a vector of joint values: some rotary joints, at least one, take another value. *)
From Coq Require Import List Bool.
From Verif Require Import ModelTransform ModelRobot ModelFloat.
Import ListNotations.

Section Alternatives.
Context {A : arith} (alts : num A -> num A -> num A -> list (num A)).
(** [alts lower upper t] are the other values of a joint at t; the flags tell which joints take one *)
Definition alternative (ty : list jtype) (lower upper theta : list (num A)) (y : list (num A)) : Prop :=
  length y = length theta /\ exists flags, length flags = length theta /\ In true flags /\
    forall i b t x, nth_error flags i = Some b -> nth_error theta i = Some t -> nth_error y i = Some x ->
      if b then exists l u, nth_error lower i = Some l /\ nth_error upper i = Some u /\ nth_error ty i = Some Rotary /\ In x (alts l u t)
      else x = t.
End Alternatives.
